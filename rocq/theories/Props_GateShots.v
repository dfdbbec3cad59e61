(** Property theorems C77: experiments with errors of gates, from their configuration to their shots. *)
Require Import String List Bool Arith ZArith QArith Lia Lqa Permutation.
From Verif Require Import Base BaseProofs QSpec PauliModel PauliSem CircuitModel SimModel SimSpec LatticeModel LatticeSpec LatticeOps CodesModel CodesSpec GeneratorModel GeneratorSpec MemorySem MemoryTotal
  ExperimentCodes Props_Circuit Props_Generator SyngraphModel DecoderSpec DecoderModel DecoderObjects Props_Decoder WeightsModel WeightsSpec WeightsProofs Props_Weights TablesModel TablesSpec TablesLattice Props_Tables
  MatchingModel MatchingSpec MatchingProofs MatchingBrute Props_Matching FrontendModel FrontendSpec Props_Frontend
  InstantiateModel InstantiateSpec InstantiateTable InstantiateGates InstantiateRun InstantiateBuild Props_Instantiate GateShots GateBuild.
Import ListNotations.
Local Open Scope string_scope.
Local Open Scope nat_scope.
Local Open Scope list_scope.

(** * C77 Shots with gate errors *)
(** Any number of shots ends, for every decoder and for weights without infinities (also without weights).
    Each sample is what some errors on data qubits and some wrong results of generators give, whatever gates
    the errors come from, and the shot is a success if and only if these errors and the correction
    together commute with the logical operators. *)
Theorem C77_shots : forall py fb name b e x is w, pm_contract py -> fb_contract fb -> gates_ready (b_code b) e x is w ->
  (name = PStr "PyMatchingDecoder" -> er_erasure e = []) -> generate_qec_circuit (b_code b) e x false = Ok (b_circuit b) ->
  decoder_for py fb name (Z.to_nat (c_rounds (b_code b))) (c_stabs (c_ops (b_code b))) w (b_decoder b) ->
  forall g s0 n, (forall k, 0 <= d_unif (g k) /\ d_unif (g k) < 1)%Q ->
  exists fuels success, List.length fuels = n /\ List.length success = n /\ shots_loop py fb g b x fuels (s0, b_decoder b) = Ok success /\
    gate_shots g (b_code b) e x is (b_circuit b) s0 success.
Proof. intros py fb name b e x is w PC FC GR NE GEN DF g s0 n Hg. apply (gate_shots_end py fb PC FC name b e x is w g GR NE GEN Hg n s0 (b_decoder b) DF). Qed.
Print Assumptions C77_shots.

(** With gate errors and without weights the experiment is built: code, tables, circuit, device and decoder are the
    configured ones, and the errors of the circuit are those of the tables. *)
Theorem C77_build : forall py fb logw u qkeys gkeys x cd lo is, fair u -> Permutation qubit_keys qkeys -> Permutation gate_keys gkeys -> gates_buildable u x cd lo is ->
  exists b e, build logw u qkeys gkeys x = Ok b /\ b_code b = cd /\ error_data_dict (b_errors b) = Ok e /\
    (forall k, In k (ed_gon (b_errors b)) <-> exists m, gate_on (ec_gates (ex_errors x)) k m) /\
    (forall r, In r (ed_gates (b_errors b)) <-> gate_configured u (ec_gates (ex_errors x)) (c_lattice cd) r) /\
    generate_qec_circuit cd e lo false = Ok (b_circuit b) /\ vc_name (ex_device x) = PStr (b_device b) /\
    decoder_for py fb (kc_name (ex_decoder x)) (Z.to_nat (c_rounds cd)) (c_stabs (c_ops cd)) None (b_decoder b).
Proof.
  intros py fb logw u qkeys gkeys x cd lo is FU PQ PG BU. destruct (gates_built py fb logw u qkeys gkeys x cd lo is FU PQ PG BU) as (b & e & A1 & A2 & A3 & A4 & A5 & A6 & A7 & _ & _ & A8).
  exists b, e. auto 10.
Qed.
Print Assumptions C77_build.

(** And all its shots end. *)
Theorem C77_experiment : forall py fb logw u qkeys gkeys x cd lo is, pm_contract py -> fb_contract fb -> fair u -> Permutation qubit_keys qkeys -> Permutation gate_keys gkeys ->
  gates_buildable u x cd lo is -> (kc_name (ex_decoder x) = PStr "PyMatchingDecoder" -> forall m, ~ switched_on (ec_qubits (ex_errors x)) "erasure" m) ->
  exists b e, build logw u qkeys gkeys x = Ok b /\ error_data_dict (b_errors b) = Ok e /\
    forall g s0 n, (forall k, 0 <= d_unif (g k) /\ d_unif (g k) < 1)%Q ->
    exists fuels success, List.length fuels = n /\ List.length success = n /\ shots_loop py fb g b lo fuels (s0, b_decoder b) = Ok success /\
      gate_shots g cd e lo is (b_circuit b) s0 success.
Proof.
  intros py fb logw u qkeys gkeys x cd lo is PC FC FU PQ PG BU NE. destruct (gates_built py fb logw u qkeys gkeys x cd lo is FU PQ PG BU) as (b & e & A1 & A2 & A3 & A4 & A5 & A6 & A7 & A8 & A9 & A10).
  subst cd. exists b, e. split; [auto|]. split; [auto|]. apply (C77_shots py fb (kc_name (ex_decoder x)) b e lo is None); auto.
Qed.
Print Assumptions C77_experiment.

(** Constant gate errors with values between 0 and 1, and Pauli names of the right length, satisfy what is asked
    of the rows. *)
Theorem C77_constants : forall u g cd, experiment_code cd -> usable_gates g ->
  (forall k m, gate_on g k m -> gm_dist m <> PStr "user" /\ forall j dist name ps, channel_of m j dist name ps -> dist = PStr "constant" /\ (forall p q, ps = [p] -> number p q -> 0 <= q <= 1)%Q /\
     In name (if in_dec string_dec k ["H"; "M"; "R"] then ["X"; "Y"; "Z"] else ["IX"; "IY"; "IZ"; "XI"; "XX"; "XY"; "XZ"; "YI"; "YX"; "YY"; "YZ"; "ZI"; "ZX"; "ZY"; "ZZ"])) ->
  forall r, gate_configured u g (c_lattice cd) r -> valid_row (n_data_qubits (c_ops cd)) (n_stabgens (c_ops cd)) r.
Proof. exact constant_rows. Qed.
Print Assumptions C77_constants.

(** * Examples *)
(** Two rounds of the experiment of C64 with errors ZX after controlled-X gates, Y after Hadamard gates and X before
    measurements of ancillas. *)
Definition const_error (name : string) (p : Q) : pyval :=
  PDict [("distribution", PList [PStr "constant"]); ("induced_errors", PList [PStr name]); ("params", PList [PList [PFloat p]]); ("enabled", PBool true)].
Definition noisy_config (p : Q) (decoder : string) (weighted : bool) : pydict :=
  [("general", PDict [("logical_op", PStr "Z"); ("qec_property", PList [PStr "logical_error_rate"]); ("seed", PInt 1)]);
   ("device", PDict [("name", PStr "clifford"); ("shots", PInt 2)]);
   ("code", PDict [("name", PStr "PlanarCode"); ("rounds", PInt 2); ("size", PInt 2)]);
   ("circuit", PDict []);
   ("errors", PDict [("qubit_errors", PDict [("X", PDict [("distribution", PStr "constant"); ("params", PList [PFloat (1 # 10)])]);
      ("Z", PDict [("distribution", PStr "user")]); ("measurement", PDict [("distribution", PStr "gaussian"); ("params", PList [PFloat (1 # 10); PFloat (1 # 50)])])]);
      ("gate_errors", PDict [("sample", PBool true); ("CX", const_error "ZX" p); ("H", const_error "Y" p); ("M", const_error "X" p)])]);
   ("decoder", PDict [("name", PStr decoder); ("weighted", PBool weighted)])].
Definition noisy_experiment (p : Q) (decoder : string) (weighted : bool) : Res experiment :=
  do r <- experiment_from_dict nothing qubit_keys gate_keys (noisy_config p decoder weighted); Ok (fst r).
Definition noisy_rate (p : Q) (dw : string * bool) : Res (list bool * Q) :=
  do x <- noisy_experiment p (fst dw) (snd dw); do b <- build linear_weight some_world qubit_keys gate_keys x;
  do r <- shots_loop pm_brute fb_brute g_some b (LogLetters "Z") [20; 20; 20] (sim_init [] 0, b_decoder b); Ok (r, error_rate r).

(** The generators with a syndrome in the first shot, and whether the logical operator has changed. *)
Definition noisy_sample (p : Q) : Res (list (list nat) * list bool) :=
  do x <- noisy_experiment p "UnionFindDecoder" false; do b <- build linear_weight some_world qubit_keys gate_keys x;
  do s <- sim_run g_some (b_circuit b) true (sim_init [] 0); do sm <- from_code_and_raw_results (b_code b) (fst (process_results s)) (snd (process_results s)) false;
  Ok (map nonzero (sm_syndrome sm), sm_toggle sm).
(** All decoders without weights; with weights the gate errors are refused (C64_weighted_refuted). *)
Example C77_example :
  map (noisy_rate (1 # 10)) [("UnionFindDecoder", false); ("UnionFindNoWeights", false); ("PyMatchingDecoder", false); ("FusionBlossomDecoder", false)] = repeat (Ok ([true; true; true], 0 # 3)) 4 /\
  map noisy_sample [0; 1 # 10; 1]%Q = [Ok ([[]; []], [false]); Ok ([[0; 1; 3]; [0; 1]], [false]); Ok ([[1; 2]; [1; 2]], [false])] /\
  noisy_rate (1 # 10) ("UnionFindDecoder", true) = Err ValueError /\
  (do x <- noisy_experiment (1 # 10) "UnionFindDecoder" false; do b <- build linear_weight some_world qubit_keys gate_keys x; do e <- error_data_dict (b_errors b);
   Ok (er_CX e, er_H e, er_CZ e, er_R e, List.length (filter (fun gt : gate => String.eqb (fst gt) "E_PAULI2") (b_circuit b)))) =
  Ok (map (fun ab => (ab, [("zx", 1 # 10)])) [(5, 1); (5, 0); (5, 2); (6, 2); (6, 3); (6, 0); (7, 2); (7, 4); (7, 1); (8, 4); (8, 3); (8, 2)]%Z, map (fun a => (a, [("y", 1 # 10)])) [5; 6; 7; 8]%Z, [], [], 6).
Proof. vm_compute. repeat split. Qed.
(** The hypotheses of C77_build and C77_experiment hold for this experiment. *)
Definition noisy_x : experiment := match noisy_experiment (1 # 10) "PyMatchingDecoder" false with Ok x => x | Err _ => small_x end.
Lemma noisy_meta k m : gate_on (ec_gates (ex_errors noisy_x)) k m ->
  exists name, m = mkGateMeta (PList [PStr "constant"]) (PList [PStr name]) (PList [PList [PFloat (1 # 10)]]) (PBool true) /\ (k = "CX" /\ name = "ZX" \/ k = "H" /\ name = "Y" \/ k = "M" /\ name = "X").
Proof.
  intros (I & T & _). change (gc_meta (ec_gates (ex_errors noisy_x))) with
    [("CZ", gate_none); ("CX", mkGateMeta (PList [PStr "constant"]) (PList [PStr "ZX"]) (PList [PList [PFloat (1 # 10)]]) (PBool true));
     ("H", mkGateMeta (PList [PStr "constant"]) (PList [PStr "Y"]) (PList [PList [PFloat (1 # 10)]]) (PBool true)); ("R", gate_none);
     ("M", mkGateMeta (PList [PStr "constant"]) (PList [PStr "X"]) (PList [PList [PFloat (1 # 10)]]) (PBool true)); ("fabrication", gate_none)] in I.
  cbn [In] in I. destruct I as [I|[I|[I|[I|[I|[I|[]]]]]]]; injection I as <- <-; try discriminate T; eauto 8.
Qed.
Lemma noisy_channel k m j dist name ps : gate_on (ec_gates (ex_errors noisy_x)) k m -> channel_of m j dist name ps ->
  dist = PStr "constant" /\ ps = [PFloat (1 # 10)] /\ (k = "CX" /\ name = "ZX" \/ k = "H" /\ name = "Y" \/ k = "M" /\ name = "X").
Proof.
  intros O (ds & ss & pss & D & S & P & J1 & J2 & J3). destruct (noisy_meta k m O) as (name' & -> & K). cbn in D, S, P. injection D as <-. injection S as S. injection P as P.
  destruct ss as [|s [|? ?]]; try discriminate S. injection S as <-. destruct pss as [|q [|? ?]]; try discriminate P. injection P as <-.
  destruct j as [|[|j]]; cbn in J1, J2, J3; try discriminate. injection J1 as <-. injection J2 as <-. injection J3 as <-. auto.
Qed.
Example C77_buildable : exists cd, gates_buildable some_world noisy_x cd (LogLetters "Z") [1] /\ fair some_world /\ forall m, ~ switched_on (ec_qubits (ex_errors noisy_x)) "erasure" m.
Proof.
  destruct C64_buildable as (cd1 & BU & FU & _). destruct (proj1 (C49_builtin_codes_exist 2 2 false ltac:(lia))) as (cd & E). exists cd.
  eassert (Q : (do cd <- make_planar 2 2; Ok (c_logicals (c_ops cd), logical_ops_to_indices (c_ops cd) (LogLetters "Z"))) = Ok (_, _)) by (vm_compute; reflexivity).
  rewrite E in Q. cbn [bindR] in Q. injection Q as LG IX.
  assert (MK : makes (ex_code noisy_x) cd).
  { exists 2%Z. split; [vm_compute; reflexivity|]. split; [lia|]. right. right. exists 2%Z. split; [vm_compute; reflexivity|]. split; [lia|]. left. split; [vm_compute; reflexivity|auto]. }
  destruct (code_made _ _ MK) as (_ & XC & _).
  assert (UG : usable_gates (ec_gates (ex_errors noisy_x))).
  { constructor; [vm_compute; reflexivity|vm_compute; reflexivity| | |].
    - assert (D : forall s, proper_channel s -> gate_documented (PList [PStr "constant"]) (PList [PStr s]) (PList [PList [PFloat (1 # 10)]])).
      { intros s PS. right. exists [PStr "constant"], [s], [[PFloat (1 # 10)]]. repeat (split; [reflexivity|]). split; [apply Forall_cons; [exact PS|apply Forall_nil]|]. constructor; [left; split; reflexivity|constructor]. }
      intros k m I. change (gc_meta (ec_gates (ex_errors noisy_x))) with
        [("CZ", gate_none); ("CX", mkGateMeta (PList [PStr "constant"]) (PList [PStr "ZX"]) (PList [PList [PFloat (1 # 10)]]) (PBool true));
         ("H", mkGateMeta (PList [PStr "constant"]) (PList [PStr "Y"]) (PList [PList [PFloat (1 # 10)]]) (PBool true)); ("R", gate_none);
         ("M", mkGateMeta (PList [PStr "constant"]) (PList [PStr "X"]) (PList [PList [PFloat (1 # 10)]]) (PBool true)); ("fabrication", gate_none)] in I.
      cbn [In] in I. destruct I as [I|[I|[I|[I|[I|[I|[]]]]]]]; injection I as <- <-; try (right; reflexivity); left; apply D.
      + split; [right; exists "Z", "X"; split; [reflexivity|]; split; left; unfold pauli_letter; auto|discriminate].
      + split; [left; right; left; reflexivity|discriminate].
      + split; [left; left; reflexivity|discriminate].
    - intros k m j name ps O CO. destruct (noisy_channel _ _ _ _ _ _ O CO) as (_ & -> & _). exists (PFloat (1 # 10)), (1 # 10)%Q. split; [auto|left; auto].
    - intros k m j name ps O CO. destruct (noisy_channel _ _ _ _ _ _ O CO) as (Z & _). discriminate Z. }
  split; [|split; [auto|]].
  - destruct BU as [B1 B2 B3 B4 B5 B6 B7 B8 B9 B10 B11 B12 B13 B14]. constructor; auto.
    + apply C77_constants; auto. intros k m O. split; [destruct (noisy_meta k m O) as (s & -> & _); discriminate|]. intros j dist name ps CO. destruct (noisy_channel _ _ _ _ _ _ O CO) as (-> & -> & K).
      split; [auto|]. split; [intros p q [= <-] [[= <-]|(z & Z & _)]; [split; discriminate|discriminate Z]|].
      destruct K as [[-> ->]|[[-> ->]|[-> ->]]]; cbn; tauto.
    + constructor.
      * intros n q v I _ H. destruct (small_chance _ _ _ _ H) as ([A B] & _). split; [auto|lra].
      * intros q x y z _ A B C. destruct (small_chance _ _ _ _ A) as ([A1 A2] & _), (small_chance _ _ _ _ B) as ([B1' B2'] & _), (small_chance _ _ _ _ C) as ([C1 C2] & _). lra.
      * intros s v _ H. destruct (small_chance _ _ _ _ H) as ([A B] & _). split; [auto|lra].
    + intros i [<-|[]]. rewrite LG. split; [|reflexivity]. intros q. do 6 (destruct q as [|q]; [reflexivity|]). unfold fac. cbn. destruct q; reflexivity.
  - intros m (I & T & _). change (qc_meta (ec_qubits (ex_errors noisy_x))) with (qc_meta (ec_qubits (ex_errors small_x))) in I. rewrite small_meta in I.
    cbn [In] in I. destruct I as [I|[I|[I|[I|[I|[I|[]]]]]]]; try discriminate I. injection I as <-. discriminate T.
Qed.
