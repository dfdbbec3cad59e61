(** Property theorems C64: experiments which are built from their configuration, and their shots. *)
Require Import String List Bool Arith ZArith QArith Lia Lqa Permutation.
From Verif Require Import Base BaseProofs QSpec PauliModel PauliSem CircuitModel SimModel SimSpec LatticeModel LatticeSpec LatticeOps CodesModel CodesSpec GeneratorModel GeneratorSpec MemorySem MemoryTotal
  ExperimentCodes Props_Circuit Props_Generator SyngraphModel DecoderSpec DecoderModel DecoderObjects Props_Decoder WeightsModel WeightsSpec WeightsProofs Props_Weights TablesModel TablesSpec TablesLattice Props_Tables
  MatchingModel MatchingSpec MatchingProofs MatchingBrute Props_Matching FrontendModel FrontendSpec Props_Frontend
  InstantiateModel InstantiateSpec InstantiateTable InstantiateGates InstantiateRun InstantiateBuild.
Import ListNotations.
Local Open Scope string_scope.
Local Open Scope nat_scope.
Local Open Scope list_scope.

(** * C64 Error data *)
(** Without gate errors: the table has the rows of the qubits of the lattice, the columns are the errors which are
    enabled, and each cell has the value which its distribution gives. *)
Theorem C64_table : forall u qkeys gkeys c l, fair u -> Permutation qubit_keys qkeys -> usable u (ec_qubits c) -> truthy (gc_sample (ec_gates c)) = false ->
  consistent l -> indexed l -> l_stabs l <> [] ->
  exists d, instantiate_errors u qkeys gkeys c l = Ok d /\ well_formed (ed_qubits d) /\ qt_rows (ed_qubits d) = lattice_rows l /\ ed_gates d = [] /\ ed_gon d = [] /\
    (forall n, In n (ed_qon d) <-> exists m, switched_on (ec_qubits c) n m) /\ (forall n, In n (ed_qon d) <-> In n (map fst (qt_cols (ed_qubits d)))) /\
    forall n q v, holds (ed_qubits d) n q v <-> exists i ty, nth_error (lattice_rows l) i = Some (q, ty) /\ configured u (ec_qubits c) n i q v.
Proof. exact table_instantiated. Qed.
Print Assumptions C64_table.

(** With gate errors the table of qubit errors is the same as without them, the rows of gate errors are those which
    the channels of the enabled gates give or which the file has for them, and these gates are switched on. *)
Theorem C64_gates : forall u qkeys gkeys q g g0 l, fair u -> Permutation qubit_keys qkeys -> Permutation gate_keys gkeys -> usable u q -> usable_gates g -> truthy (gc_sample g0) = false ->
  consistent l -> indexed l -> l_stabs l <> [] ->
  exists d d0, instantiate_errors u qkeys gkeys (mkErrorsConf q g) l = Ok d /\ instantiate_errors u qkeys gkeys (mkErrorsConf q g0) l = Ok d0 /\
    ed_qubits d = ed_qubits d0 /\ ed_qon d = ed_qon d0 /\ (forall k, In k (ed_gon d) <-> exists m, gate_on g k m) /\ forall r, In r (ed_gates d) <-> gate_configured u g l r.
Proof. exact gates_instantiated. Qed.
Print Assumptions C64_gates.
(** Constant errors of H, the rows of the file for M, and nothing for R, which is not enabled. *)
Definition file_rows : list gate_row := [mkGateRow "M" [5; 6]%Z ["X"] [1 # 4]; mkGateRow "H" [5]%Z ["Y"] [1 # 5]; mkGateRow "M" [7]%Z ["Z"] [1 # 3]]%Q.
Definition some_gates : gates_conf :=
  mkGatesConf (PStr "gate_errors.csv") (PBool true) (PBool true)
    [("CZ", mkGateMeta (PList [PStr "gaussian"]) (PList [PStr "XZ"]) (PList [PList [PFloat (1 # 10); PInt 2]]) (PBool true)); ("CX", gate_none);
     ("H", mkGateMeta (PList [PStr "constant"; PStr "gaussian"]) (PList [PStr "X"; PStr "Z"]) (PList [PList [PFloat (1 # 10)]; PList [PInt 1; PFloat (1 # 2)]]) (PBool true));
     ("R", mkGateMeta (PList [PStr "constant"]) (PList [PStr "X"]) (PList [PList [PFloat (1 # 10)]]) (PBool false));
     ("M", mkGateMeta (PStr "user") (PList []) (PList []) (PBool true)); ("fabrication", gate_none)].
Example C64_gates_example :
  usable_gates some_gates /\
  (do cd <- make_planar 1 2;
   do g <- sim_gate_errors gate_keys some_gates;
   match g with Some (conf, _) => do rows <- assimilate_gates (fun k j i => inject_Z (Z.of_nat (j + i))) conf file_rows (c_lattice cd); Ok (map (fun r => (g_gate r, g_qubits r, g_errors r, map Qred (g_probs r))) rows) | None => Err KeyError end) =
  Ok ([("CZ", [5; 1]%Z, ["X"; "Z"], [1 # 10]); ("CZ", [5; 0]%Z, ["X"; "Z"], [21 # 10]); ("CZ", [5; 2]%Z, ["X"; "Z"], [41 # 10]); ("CZ", [6; 2]%Z, ["X"; "Z"], [61 # 10]);
       ("CZ", [6; 3]%Z, ["X"; "Z"], [81 # 10]); ("CZ", [6; 0]%Z, ["X"; "Z"], [101 # 10]); ("CZ", [7; 2]%Z, ["X"; "Z"], [121 # 10]); ("CZ", [7; 4]%Z, ["X"; "Z"], [141 # 10]);
       ("CZ", [7; 1]%Z, ["X"; "Z"], [161 # 10]); ("CZ", [8; 4]%Z, ["X"; "Z"], [181 # 10]); ("CZ", [8; 3]%Z, ["X"; "Z"], [201 # 10]); ("CZ", [8; 2]%Z, ["X"; "Z"], [221 # 10]);
       ("H", [5; 6; 7; 8]%Z, ["X"], [1 # 10]);
       ("H", [5]%Z, ["Z"], [3 # 2]); ("H", [6]%Z, ["Z"], [2]); ("H", [7]%Z, ["Z"], [5 # 2]); ("H", [8]%Z, ["Z"], [3]);
       ("M", [5; 6]%Z, ["X"], [1 # 4]); ("M", [7]%Z, ["Z"], [1 # 3])]%Q).
Proof.
  assert (ME : forall k m, In (k, m) (gc_meta some_gates) -> truthy (gm_enabled m) = true ->
    m = mkGateMeta (PList [PStr "gaussian"]) (PList [PStr "XZ"]) (PList [PList [PFloat (1 # 10); PInt 2]]) (PBool true) \/
    m = mkGateMeta (PList [PStr "constant"; PStr "gaussian"]) (PList [PStr "X"; PStr "Z"]) (PList [PList [PFloat (1 # 10)]; PList [PInt 1; PFloat (1 # 2)]]) (PBool true) \/
    m = mkGateMeta (PStr "user") (PList []) (PList []) (PBool true)).
  { intros k m I. cbn in I. repeat (destruct I as [[= _ <-]|I]; [cbn; intros T; try discriminate T; auto|]). destruct I. }
  assert (CH : forall k m j dist name ps, gate_on some_gates k m -> channel_of m j dist name ps ->
    dist = PStr "constant" /\ ps = [PFloat (1 # 10)] \/ dist = PStr "gaussian" /\ (ps = [PFloat (1 # 10); PInt 2] \/ ps = [PInt 1; PFloat (1 # 2)])).
  { intros k m j dist name ps (I & T & _) (ds & ss & pss & D & _ & P & J1 & _ & J3). destruct (ME k m I T) as [-> |[-> | ->]]; cbn in D, P; [| |discriminate D]; injection D as <-; injection P as P.
    - destruct pss as [|q [|q' pss]]; try discriminate P. injection P as <-. destruct j as [|[|j]]; cbn in J1, J3; try discriminate. injection J1 as <-. injection J3 as <-. auto.
    - destruct pss as [|q [|q' [|q'' pss]]]; try discriminate P. injection P as <- <-. destruct j as [|[|[|j]]]; cbn in J1, J3; try discriminate; injection J1 as <-; injection J3 as <-; auto. }
  split; [constructor|vm_compute; reflexivity].
  - reflexivity.
  - reflexivity.
  - intros k m I. cbn in I.
    assert (D : forall ds ss pss, List.length ss = List.length ds -> List.length pss = List.length ds -> Forall proper_channel ss -> Forall2 (fun x p => FrontendSpec.distributed x (PList p)) ds pss ->
      gate_documented (PList ds) (PList (map PStr ss)) (PList (map PList pss))) by (intros ds ss pss L1 L2 F G; right; exists ds, ss, pss; auto 8).
    assert (PX : proper_channel "X") by (split; [left; left; reflexivity|discriminate]).
    assert (PZ : proper_channel "Z") by (split; [left; right; right; reflexivity|discriminate]).
    assert (PXZ : proper_channel "XZ") by (split; [right; exists "X", "Z"; split; [reflexivity|]; split; left; unfold pauli_letter; auto|discriminate]).
    assert (C1 : forall p, FrontendSpec.distributed (PStr "constant") (PList [p])) by (intros p; left; split; reflexivity).
    assert (C2 : forall p q, FrontendSpec.distributed (PStr "gaussian") (PList [p; q])) by (intros p q; right; split; reflexivity).
    destruct I as [[= <- <-]|[[= <- <-]|[[= <- <-]|[[= <- <-]|[[= <- <-]|[[= <- <-]|[]]]]]]]; [left|right; reflexivity|left|left|left; left; repeat split|right; reflexivity].
    + apply (D [PStr "gaussian"] ["XZ"] [[PFloat (1 # 10); PInt 2]]); [reflexivity|reflexivity|repeat (apply Forall_cons; [assumption|]); apply Forall_nil|repeat (apply Forall2_cons; [auto|]); apply Forall2_nil].
    + apply (D [PStr "constant"; PStr "gaussian"] ["X"; "Z"] [[PFloat (1 # 10)]; [PInt 1; PFloat (1 # 2)]]); [reflexivity|reflexivity|repeat (apply Forall_cons; [assumption|]); apply Forall_nil|repeat (apply Forall2_cons; [auto|]); apply Forall2_nil].
    + apply (D [PStr "constant"] ["X"] [[PFloat (1 # 10)]]); [reflexivity|reflexivity|repeat (apply Forall_cons; [assumption|]); apply Forall_nil|repeat (apply Forall2_cons; [auto|]); apply Forall2_nil].
  - intros k m j name ps G C. destruct (CH k m j _ name ps G C) as [[_ ->]|[[=] _]]. eexists. eexists. split; [reflexivity|]. left. reflexivity.
  - intros k m j name ps G C. destruct (CH k m j _ name ps G C) as [[[=] _]|[_ [-> | ->]]]; do 4 eexists; (split; [reflexivity|]).
    + split; [left; reflexivity|]. split; [right; eexists; split; reflexivity|]. discriminate.
    + split; [right; eexists; split; reflexivity|]. split; [left; reflexivity|]. discriminate.
Qed.
(** True and False as numbers are 1 and 0. *)
Example C64_bool_example :
  instantiate_code (mkCodeConf (PStr "FiveQubitCode") (PBool true) PNone) = make_five_qubit 1 /\
  instantiate_code (mkCodeConf (PStr "FiveQubitCode") (PBool false) PNone) = make_five_qubit 0 /\
  instantiate_code (mkCodeConf (PStr "RepetitionCode") (PInt 2) (PBool true)) = make_repetition 2 1.
Proof. repeat split. Qed.

(** * C64 Building *)
(** The code, errors, circuit, device and decoder are those of the configuration: the dictionary of
    errors has the configured probabilities, the circuit is the one for these errors, and the decoder is new and has the
    weights of these errors or none. *)
Theorem C64_build : forall py fb logw u qkeys gkeys x cd lo is, log_like logw -> fair u -> Permutation qubit_keys qkeys -> buildable u x cd lo is ->
  let n := n_data_qubits (c_ops cd) in let gens := c_stabs (c_ops cd) in let c := ec_qubits (ex_errors x) in let l := c_lattice cd in
  exists b e w, build logw u qkeys gkeys x = Ok b /\ b_code b = cd /\ error_data_dict (b_errors b) = Ok e /\
    (forall q, q < n -> chance u c l "X" q (pauli_prob e q PX) /\ chance u c l "Y" q (pauli_prob e q PY) /\ chance u c l "Z" q (pauli_prob e q PZ) /\
       chance u c l "erasure" q (erase_prob e q)) /\
    (forall s, s < List.length gens -> chance u c l "measurement" (n + s) (flip_prob e (n + s))) /\ no_gate_errors e /\
    generate_qec_circuit cd e lo false = Ok (b_circuit b) /\ vc_name (ex_device x) = PStr (b_device b) /\
    decoder_for py fb (kc_name (ex_decoder x)) (Z.to_nat (c_rounds cd)) gens w (b_decoder b) /\
    (kc_weighted (ex_decoder x) = PBool false -> w = None) /\
    (kc_weighted (ex_decoder x) = PBool true -> exists p, weight_computation false cd (fill_errors n e) = Ok p /\ w = Some (get_edge_weights logw p)).
Proof.
  intros py fb logw u qkeys gkeys x cd lo is LL FU P BU n gens c l. destruct (experiment_built py fb logw u qkeys gkeys x cd lo is LL FU P BU) as (b & e & w & B & C & _ & DI & G & V & _ & DF & W1 & W2).
  exists b, e, w. split; [auto|]. split; [auto|]. split; [apply DI|]. split; [apply DI|]. split; [apply DI|]. split; [apply DI|]. split; [auto|]. split; [auto|]. split; [auto|]. split; auto.
Qed.
Print Assumptions C64_build.

(** * C64 Shots *)
(** The loop of [run] over any number of shots ends without an error (the libraries are assumed to
    satisfy their contracts, and with PyMatching there are no erasures), and each shot is a success if and only if
    errors and correction together commute with the logical operators. *)
Theorem C64_shots : forall py fb logw u qkeys gkeys x cd lo is, pm_contract py -> fb_contract fb -> log_like logw -> fair u -> Permutation qubit_keys qkeys -> buildable u x cd lo is ->
  (kc_name (ex_decoder x) = PStr "PyMatchingDecoder" -> forall q v, q < n_data_qubits (c_ops cd) -> chance u (ec_qubits (ex_errors x)) (c_lattice cd) "erasure" q v -> (v <= 0)%Q) ->
  exists b e, build logw u qkeys gkeys x = Ok b /\ error_data_dict (b_errors b) = Ok e /\
    forall g s0 n, (forall k, 0 <= d_unif (g k) /\ d_unif (g k) < 1)%Q ->
    exists fuels success, List.length fuels = n /\ List.length success = n /\ shots_loop py fb g b lo fuels (s0, b_decoder b) = Ok success /\
      shots g cd e lo is (b_circuit b) s0 success.
Proof.
  intros py fb logw u qkeys gkeys x cd lo is PC FC LL FU P BU NER. destruct (experiment_built py fb logw u qkeys gkeys x cd lo is LL FU P BU) as (b & e & w & B & C & _ & DI & G & V & RE & DF & _).
  subst cd. exists b, e. split; [auto|]. split; [apply DI|]. intros g s0 n Hg.
  apply (shots_end py fb PC FC (kc_name (ex_decoder x)) b e lo is w g RE); auto.
  intros NM q L. apply (NER NM q _ L). apply (di_values _ _ _ _ _ DI q L).
Qed.
Print Assumptions C64_shots.

(** The rate is the share of failures. *)
Theorem C64_rate : forall success, success <> [] ->
  (error_rate success == inject_Z (Z.of_nat (List.length (filter negb success))) / inject_Z (Z.of_nat (List.length success)))%Q /\ (0 <= error_rate success <= 1)%Q.
Proof.
  intros l NE. assert (L : (List.length (filter (fun b => b) l) + List.length (filter negb l) = List.length l)%nat).
  { clear NE. induction l as [|[] l IH]; cbn; [auto|lia|lia]. }
  assert (P : (0 < inject_Z (Z.of_nat (List.length l)))%Q) by (destruct l; [congruence|]; change 0%Q with (inject_Z 0); rewrite <- Zlt_Qlt; cbn; lia).
  assert (LQ : (inject_Z (Z.of_nat (List.length (filter (fun b => b) l))) + inject_Z (Z.of_nat (List.length (filter negb l))) == inject_Z (Z.of_nat (List.length l)))%Q).
  { rewrite <- inject_Z_plus, <- Nat2Z.inj_add, L. reflexivity. }
  assert (Z0 : forall k, (0 <= inject_Z (Z.of_nat k))%Q) by (intros k; change 0%Q with (inject_Z 0); rewrite <- Zle_Qle; lia).
  unfold error_rate. set (a := inject_Z (Z.of_nat (List.length (filter (fun b => b) l)))) in *. set (f := inject_Z (Z.of_nat (List.length (filter negb l)))) in *. set (n := inject_Z (Z.of_nat (List.length l))) in *.
  assert (E : (1 - a / n == f / n)%Q) by (rewrite <- LQ; field; intros Z; rewrite LQ in Z; rewrite Z in P; discriminate).
  split; [auto|]. rewrite E. assert (0 <= f)%Q by apply Z0. assert (0 <= a)%Q by apply Z0. split.
  - apply Qle_shift_div_l; [exact P|lra].
  - apply Qle_shift_div_r; [exact P|lra].
Qed.
Print Assumptions C64_rate.

(** * Refuted claims *)
(** [run] returns a logical error rate: no, the class of the device is compared with strings, and the result is None
    for every experiment. *)
Theorem C64_run_refuted : forall py fb g s0 fuels x b v, option_is x "qec_property" v -> run py fb g s0 fuels x b = Ok None.
Proof.
  intros py fb g s0 fuels x b v O. unfold run. rewrite (option_entry _ _ _ O). cbn [bindR]. assert (N : existsb (object_eqb (backend_class (b_device b))) local_simulators = false) by reflexivity.
  destruct v as [| | | | |[|p [|p' l]]| |]; auto; destruct p; auto. rewrite N. destruct (String.eqb s "logical_error_rate"); auto.
Qed.
Print Assumptions C64_run_refuted.

(** Without sampling there are no errors: no, there are X, Y and Z errors with probability 1/10 on every qubit. *)
Theorem C64_sample_refuted : forall u qkeys gkeys c l, truthy (qc_sample (ec_qubits c)) = false -> truthy (gc_sample (ec_gates c)) = false -> consistent l -> indexed l -> l_stabs l <> [] ->
  exists d, instantiate_errors u qkeys gkeys c l = Ok d /\ (forall n, In n (ed_qon d) <-> In n ["X"; "Y"; "Z"]) /\
    forall n q v, holds (ed_qubits d) n q v <-> In n ["X"; "Y"; "Z"] /\ In q (map fst (lattice_rows l)) /\ v = (1 # 10)%Q.
Proof.
  intros u qkeys gkeys c l A B C X N. destruct (C56_from_lattice l C X N) as (d & E & _ & _ & _ & _ & _ & ON & H). exists d. split; [|auto].
  unfold instantiate_errors, sim_qubit_errors, sim_gate_errors. rewrite A, B. exact E.
Qed.
Print Assumptions C64_sample_refuted.

(** A dictionary of an experiment is enough to build it: without general options there is a
    [TypeError], whatever the rest is. *)
Theorem C64_general_refuted : forall logw u qkeys gkeys x, ex_general x = PNone -> build logw u qkeys gkeys x = Err TypeError.
Proof. intros logw u qkeys gkeys x E. unfold build, update_rng, general_entry. rewrite E. reflexivity. Qed.
Print Assumptions C64_general_refuted.
(** General options without a seed: [KeyError]. *)
Theorem C64_seed_refuted : forall logw u qkeys gkeys x d, ex_general x = PDict d -> (forall v, ~ In ("seed", v) d) -> build logw u qkeys gkeys x = Err KeyError.
Proof.
  intros logw u qkeys gkeys x d E N. unfold build, update_rng, general_entry. rewrite E.
  assert (H : has_key "seed" d = false).
  { destruct (has_key "seed" d) eqn:K; auto. exfalso. unfold has_key in K. apply existsb_exists in K. destruct K as ([k v] & I & X).
    cbn in X. apply String.eqb_eq in X. subst k. exact (N v I). }
  rewrite H. reflexivity.
Qed.
Print Assumptions C64_seed_refuted.

(** Gate errors can be combined with weighted decoders: no, whenever there are any for an enabled gate. *)
Lemma fill_gates n e : no_gate_errors (fill_errors n e) <-> no_gate_errors e.
Proof.
  assert (F : forall b l e, no_gate_errors (fold_left (fill_qubit b) l e) <-> no_gate_errors e).
  { intros b l. induction l as [|q l IH]; intros e0; cbn; [tauto|]. rewrite IH. unfold fill_qubit, no_gate_errors. destruct e0. cbn. repeat match goal with |- context [match ?t with _ => _ end] => destruct t; cbn end; tauto. }
  unfold fill_errors. destruct (er_pauli e); [|apply F]. unfold set_pauli, no_gate_errors. destruct e. cbn. tauto.
Qed.
Theorem C64_weighted_refuted : forall logw c cd d e, experiment_code cd -> error_data_dict d = Ok e -> ~ no_gate_errors e ->
  kc_weighted c = PBool true -> (exists s, kc_name c = PStr s /\ In s ["UnionFindDecoder"; "UnionFindNoWeights"; "PyMatchingDecoder"; "FusionBlossomDecoder"]) ->
  instantiate_decoder logw c cd d = Err ValueError.
Proof.
  intros logw c cd d e XC ED NG EW (s & EN & IS). unfold instantiate_decoder. rewrite EW, EN, ED. cbn [truthy weighted_flag bindR].
  assert (WC : weight_computation false cd (fill_errors (List.length (l_data (c_lattice cd))) e) = Err ValueError).
  { apply C37_refused; auto. intros [_ N]. apply fill_gates in N. auto. }
  assert (NM : new_manager logw cd (Some (fill_errors (List.length (l_data (c_lattice cd))) e)) (Some true) None = Err ValueError) by (unfold new_manager; cbn [andb]; rewrite WC; reflexivity).
  destruct IS as [<-|[<-|[<-|[<-|[]]]]]; cbn [is_str String.eqb Ascii.eqb Bool.eqb andb decoder_from_code snd]; auto; rewrite NM; reflexivity.
Qed.
Print Assumptions C64_weighted_refuted.

(** The numbers of a configuration are probabilities, or there is an error: no, a constant may be any
    number, although [generate_constant_errors] has a check for it. *)
Definition only_x (p : Q) : errors_conf :=
  let off := mkQubitMeta (PStr "") (PList []) (PBool false) in
  mkErrorsConf (mkQubitsConf PNone (PBool true) PNone (map (fun k => (k, if String.eqb k "X" then mkQubitMeta (PStr "constant") (PList [PFloat p]) (PBool true) else off)) qubit_keys))
    (mkGatesConf PNone (PBool false) PNone []).
Theorem C64_range_refuted : forall u qkeys gkeys l p, fair u -> Permutation qubit_keys qkeys -> consistent l -> indexed l -> l_stabs l <> [] ->
  (exists d, instantiate_errors u qkeys gkeys (only_x p) l = Ok d /\ forall q, In q (map fst (lattice_rows l)) -> holds (ed_qubits d) "X" q p) /\
  ((p < 0 \/ 1 < p)%Q -> generate_constant_errors p (List.length (lattice_rows l)) = Err ValueError).
Proof.
  intros u qkeys gkeys l p FU P C X N. split.
  - assert (IN : forall k m, In (k, m) (qc_meta (ec_qubits (only_x p))) -> m = mkQubitMeta (PStr "constant") (PList [PFloat p]) (PBool true) \/ m = mkQubitMeta (PStr "") (PList []) (PBool false)).
    { cbn. intros k m I. repeat destruct I as [[= _ <-]|I]; auto. destruct I. }
    destruct (C64_table u qkeys gkeys (only_x p) l FU P) as (d & E & _ & _ & _ & _ & _ & _ & H); auto.
    { constructor; [reflexivity|reflexivity| | | |].
      - intros k m I. destruct (IN k m I) as [-> | ->]; (split; [unfold qubit_ok; cbn; tauto|eexists; reflexivity]).
      - intros k m p' (I & _ & Z) D PP. destruct (IN k m I) as [-> | ->]; [injection PP as <-; eexists; left; reflexivity|discriminate D].
      - intros k m p' s (I & _) D. destruct (IN k m I) as [-> | ->]; discriminate D.
      - intros k m (I & _) D. destruct (IN k m I) as [-> | ->]; discriminate D. }
    exists d. split; [auto|]. intros q I. apply H. apply in_map_iff in I. destruct I as ([q' ty] & EQ & I). cbn in EQ. subst q'. apply In_nth_error in I. destruct I as (i & I). exists i, ty. split; [auto|].
    exists (mkQubitMeta (PStr "constant") (PList [PFloat p]) (PBool true)), [PFloat p]. split; [|split; [reflexivity|left; split; [reflexivity|exists (PFloat p); split; [reflexivity|left; reflexivity]]]].
    split; [left; reflexivity|]. split; [reflexivity|]. intros [Z _]. discriminate Z.
  - intros R. unfold generate_constant_errors. destruct (Qle_bool 0 p) eqn:A; cbn; [|auto]. destruct (Qle_bool p 1) eqn:B; cbn; [|auto]. apply Qle_bool_iff in A, B. lra.
Qed.
Print Assumptions C64_range_refuted.

(** * Examples *)
(** The planar code of size 2: X errors on all data qubits with the probability [p]; Z errors in a file, for qubit 1
    only; results are wrong with normally distributed probabilities. *)
Definition small_config (p : Q) (decoder : string) (weighted : bool) : pydict :=
  [("general", PDict [("logical_op", PStr "Z"); ("qec_property", PList [PStr "logical_error_rate"]); ("seed", PInt 1)]);
   ("device", PDict [("name", PStr "clifford"); ("shots", PInt 2)]);
   ("code", PDict [("name", PStr "PlanarCode"); ("rounds", PInt 1); ("size", PInt 2)]);
   ("circuit", PDict []);
   ("errors", PDict [("qubit_errors", PDict [("X", PDict [("distribution", PStr "constant"); ("params", PList [PFloat p])]);
      ("Z", PDict [("distribution", PStr "user")]); ("measurement", PDict [("distribution", PStr "gaussian"); ("params", PList [PFloat (1 # 10); PFloat (1 # 50)])])])]);
   ("decoder", PDict [("name", PStr decoder); ("weighted", PBool weighted)])].
Definition some_world : surroundings :=
  mkSurroundings (Some (mkQubitCsv [1%Z; 3%Z] [("Z", [Some (1 # 5); None])])) [] (fun _ i => inject_Z (Z.of_nat (i mod 2))) (fun _ _ _ => 0%Q) (fun l => rev l) (fun _ => Err Unmodelled) (fun _ => None).
Definition small_experiment (p : Q) (decoder : string) (weighted : bool) : Res experiment :=
  do r <- experiment_from_dict nothing qubit_keys gate_keys (small_config p decoder weighted); Ok (fst r).
Definition small_built (p : Q) (decoder : string) (weighted : bool) : Res built :=
  do x <- small_experiment p decoder weighted; build linear_weight some_world qubit_keys gate_keys x.
Definition g_some : rng := fun k => mkDraw (Nat.odd k) (if k mod 7 =? 0 then 19 # 20 else 1 # 2) k.
Definition small_rate (p : Q) (dw : string * bool) : Res (list bool * Q) :=
  do b <- small_built p (fst dw) (snd dw);
  do r <- shots_loop pm_brute fb_brute g_some b (LogLetters "Z") [20; 20; 20] (sim_init [] 0, b_decoder b); Ok (r, error_rate r).
Example C64_example :
  (do b <- small_built (1 # 10) "UnionFindDecoder" true;
   do e <- error_data_dict (b_errors b);
   Ok (qt_rows (ed_qubits (b_errors b)), ed_qon (b_errors b), b_device b, map (fun q => (pauli_prob e q PX, pauli_prob e q PZ)) (seq 0 5), map (fun s => Qred (flip_prob e (5 + s))) (seq 0 4))) =
  Ok (standard_rows 5 4, ["measurement"; "Z"; "X"], "clifford", [(1 # 10, 0); (1 # 10, 1 # 5); (1 # 10, 0); (1 # 10, 0); (1 # 10, 0)]%Q, [3 # 25; 1 # 10; 3 # 25; 1 # 10]%Q) /\
  map (small_rate (1 # 10)) [("UnionFindDecoder", true); ("UnionFindNoWeights", false); ("PyMatchingDecoder", true); ("FusionBlossomDecoder", false)] =
    repeat (Ok ([true; false; true], 1 # 3)) 4 /\
  small_rate (1 # 10) ("UnionFindNoWeights", true) = Err ValueError /\ small_rate (6 # 10) ("UnionFindDecoder", true) = Err ValueError /\
  small_rate (1 # 10) ("UnionFind", false) = Err ValueError.
Proof. vm_compute. repeat split. Qed.
(** The hypotheses of C64_build and C64_shots hold for this experiment. *)
Definition small_x : experiment := match small_experiment (1 # 10) "PyMatchingDecoder" true with Ok x => x | Err _ => mkExperiment (mkCodeConf PNone PNone PNone) (mkErrorsConf (mkQubitsConf PNone PNone PNone []) (mkGatesConf PNone PNone PNone [])) PNone (mkDeviceConf PNone PNone) (mkCircuitConf PNone PNone PNone) (mkDecoderConf PNone PNone) end.
Lemma small_meta : qc_meta (ec_qubits (ex_errors small_x)) = [("X", mkQubitMeta (PStr "constant") (PList [PFloat (1 # 10)]) (PBool true)); ("Y", mkQubitMeta (PStr "") (PList []) (PBool false));
    ("Z", mkQubitMeta (PStr "user") (PList []) (PBool true)); ("erasure", mkQubitMeta (PStr "") (PList []) (PBool false));
    ("measurement", mkQubitMeta (PStr "gaussian") (PList [PFloat (1 # 10); PFloat (1 # 50)]) (PBool true)); ("fabrication", mkQubitMeta (PStr "") (PList []) (PBool false))].
Proof. vm_compute. reflexivity. Qed.
Lemma small_on n m : switched_on (ec_qubits (ex_errors small_x)) n m ->
  n = "X" /\ m = mkQubitMeta (PStr "constant") (PList [PFloat (1 # 10)]) (PBool true) \/ n = "Z" /\ m = mkQubitMeta (PStr "user") (PList []) (PBool true) \/
  n = "measurement" /\ m = mkQubitMeta (PStr "gaussian") (PList [PFloat (1 # 10); PFloat (1 # 50)]) (PBool true).
Proof.
  intros (I & T & _). rewrite small_meta in I. cbn [In] in I. destruct I as [I|[I|[I|[I|[I|[I|[]]]]]]]; injection I as <- <-; try discriminate; auto.
Qed.
Lemma small_chance n q v l : chance some_world (ec_qubits (ex_errors small_x)) l n q v ->
  (0 <= v <= 1 # 5)%Q /\ (n = "X" -> v <= 1 # 10)%Q /\ (n = "Y" \/ n = "erasure" -> v = 0%Q).
Proof.
  intros [(i & ty & _ & m & ps & SO & EP & D)|[_ ->]]; [|split; [split; discriminate|split; [intros _; discriminate|auto]]].
  apply small_on in SO. destruct SO as [[-> ->]|[[-> ->]|[-> ->]]]; cbn [qm_params qm_dist] in *; injection EP as <-.
  - destruct D as [(_ & p & [= <-] & [[= <-]|(z & Z & _)])|[(Z & _)|[(Z & _)|(Z & _)]]]; try discriminate. split; [split; discriminate|]. split; [intros _; discriminate|]. intros [Z|Z]; discriminate.
  - destruct D as [(Z & _)|[(Z & _)|[(_ & D)|(Z & _)]]]; try discriminate. assert (V : v = (1 # 5)%Q \/ v = 0%Q).
    { destruct D as [(c & vs & k & [= <-] & [[= <-]|[]] & E1 & E2)|[_ ->]]; auto. left. destruct k as [|[|k]]; cbn in E2; try discriminate; [congruence|]. destruct k; discriminate. }
    destruct V as [-> | ->]; (split; [split; discriminate|]; split; [intros Z; discriminate|intros [Z|Z]; discriminate]).
  - destruct D as [(Z & _)|[(_ & p & s & a & b & [= <- <-] & [[= <-]|(z & Z & _)] & [[= <-]|(z' & Z' & _)] & ->)|[(Z & _)|(Z & _)]]]; try discriminate.
    assert (M : i mod 2 = 0 \/ i mod 2 = 1) by (pose proof (Nat.mod_upper_bound i 2); lia). cbn [some_world su_z].
    split; [|split; [intros Z; discriminate|intros [Z|Z]; discriminate]]. destruct M as [-> | ->]; split; (intros Z; vm_compute in Z; discriminate).
Qed.
Example C64_buildable : exists cd, buildable some_world small_x cd (LogLetters "Z") [1] /\ fair some_world /\
  (forall q v, chance some_world (ec_qubits (ex_errors small_x)) (c_lattice cd) "erasure" q v -> (v <= 0)%Q).
Proof.
  destruct (proj1 (C49_builtin_codes_exist 1 2 false ltac:(lia))) as (cd & E). exists cd.
  eassert (Q : (do cd <- make_planar 1 2; Ok (c_logicals (c_ops cd), logical_ops_to_indices (c_ops cd) (LogLetters "Z"))) = Ok (_, _)) by (vm_compute; reflexivity).
  rewrite E in Q. cbn [bindR] in Q. injection Q as LG IX.
  assert (T : ((1 # 5) + (1 # 10) + 2 * tiny < 1 # 2)%Q) by (vm_compute; reflexivity).
  split; [|split; [intros l; apply Permutation_rev|intros q v H; destruct (small_chance _ _ _ _ H) as (_ & _ & Z); rewrite Z by auto; discriminate]].
  constructor.
  - exists (PInt 1). split; [|right; exists 1%Z; split; [auto|lia]]. eexists. split; [vm_compute; reflexivity|]. split; [cbn; repeat constructor; cbn; intuition discriminate|cbn; tauto].
  - exists 1%Z. split; [vm_compute; reflexivity|]. split; [lia|]. right. right. exists 2%Z. split; [vm_compute; reflexivity|]. split; [lia|]. left. split; [vm_compute; reflexivity|auto].
  - constructor; [vm_compute; reflexivity|vm_compute; reflexivity| | | |].
    + intros k m I. rewrite small_meta in I. cbn [In] in I.
      destruct I as [I|[I|[I|[I|[I|[I|[]]]]]]]; injection I as <- <-; (split; [unfold qubit_ok; cbn; tauto|eexists; reflexivity]).
    + intros k m p O D P. apply small_on in O. destruct O as [[-> ->]|[[-> ->]|[-> ->]]]; cbn in D, P; try discriminate D. injection P as <-. eexists; left; reflexivity.
    + intros k m p s O D P. apply small_on in O. destruct O as [[-> ->]|[[-> ->]|[-> ->]]]; cbn in D, P; try discriminate D. injection P as <- <-. split; eexists; [left; reflexivity|split; [left; reflexivity|discriminate]].
    + intros k m O D. apply small_on in O. destruct O as [[-> ->]|[[-> ->]|[-> ->]]]; cbn in D |- *; try discriminate D. right. right.
      split; [repeat constructor; cbn; intuition discriminate|]. split; [repeat constructor; intros []|]. eexists. split; [left; reflexivity|reflexivity].
  - vm_compute. reflexivity.
  - constructor.
    + intros n q v I _ H. destruct (small_chance _ _ _ _ H) as ([A B] & _). split; [auto|lra].
    + intros q x y z _ A B C. destruct (small_chance _ _ _ _ A) as ([A1 A2] & _), (small_chance _ _ _ _ B) as ([B1 B2] & _), (small_chance _ _ _ _ C) as ([C1 C2] & _). lra.
    + intros s v _ H. destruct (small_chance _ _ _ _ H) as ([A B] & _). split; [auto|lra].
  - exists (PStr "Z"). split; [|left; eauto]. eexists. split; [vm_compute; reflexivity|]. split; [cbn; repeat constructor; cbn; intuition discriminate|cbn; tauto].
  - exact IX.
  - discriminate.
  - intros i j [<-|[]] [<-|[]] _. reflexivity.
  - intros i [<-|[]]. rewrite LG. split; [|reflexivity]. intros q. do 6 (destruct q as [|q]; [reflexivity|]). unfold fac. cbn. destruct q; reflexivity.
  - vm_compute. reflexivity.
  - left. vm_compute. reflexivity.
  - eexists. split; [vm_compute; reflexivity|cbn; tauto].
  - right. split; [vm_compute; reflexivity|]. split; [intros Z; vm_compute in Z; discriminate|]. constructor.
    + intros q x y z _ A B C. destruct (small_chance _ _ _ _ A) as (_ & A2 & _), (small_chance _ _ _ _ B) as (_ & _ & B2), (small_chance _ _ _ _ C) as ([C1 C2] & _).
      specialize (A2 eq_refl). rewrite B2 by auto. lra.
    + intros s v _ H. destruct (small_chance _ _ _ _ H) as ([A B] & _). lra.
Qed.
