(** Construction of experiments with errors of gates. *)
Require Import String List Bool Arith ZArith QArith Lia Lqa Permutation.
From Verif Require Import Base BaseProofs QSpec PauliModel CircuitModel SimModel SimSpec LatticeModel LatticeSpec LatticeOps CodesModel CodesSpec GeneratorModel GeneratorSpec MemorySem MemoryTotal
  ExperimentCodes ExperimentProofs SyngraphModel SyngraphProofs SyngraphFinal GraphlikeCodes Props_Syngraph DecoderSpec DecoderModel DecoderObjects DecoderHistory DecoderCheck Props_Generator Props_Decoder
  WeightsModel WeightsSpec WeightsProofs Props_Weights TablesModel TablesSpec TablesProofs TablesQubits TablesLattice Props_Tables MatchingModel MatchingSpec MatchingProofs Props_Matching Props_GateConfig
  FrontendModel FrontendSpec InstantiateModel InstantiateSpec InstantiateTable InstantiateGates InstantiateRun InstantiateBuild GateShots.
Import ListNotations.
Local Open Scope string_scope.
Local Open Scope nat_scope.
Local Open Scope list_scope.

(** Experiments with gate errors which can be built: what the channels and the file give are
    probabilities with names which can be used for the qubits of the code, and the decoder has no weights. *)
Record gates_buildable (u : surroundings) (x : experiment) (cd : code) (lo : logical_spec) (is : list nat) : Prop := {
  gb_seed : exists v, option_is x "seed" v /\ (v = PNone \/ exists z, v = PInt z /\ (0 <= z)%Z);
  gb_code : makes (ex_code x) cd;
  gb_qubits : usable u (ec_qubits (ex_errors x));
  gb_gates : usable_gates (ec_gates (ex_errors x));
  gb_rows : forall r, gate_configured u (ec_gates (ex_errors x)) (c_lattice cd) r -> valid_row (n_data_qubits (c_ops cd)) (n_stabgens (c_ops cd)) r;
  gb_chances : valid_chances u (ec_qubits (ex_errors x)) cd;
  gb_logical : exists v, option_is x "logical_op" v /\ asks_for v lo;
  gb_indices : logical_ops_to_indices (c_ops cd) lo = Ok is;
  gb_some : is <> [];
  gb_compatible : compatible is;
  gb_readable : readable cd is;
  gb_circuit : truthy (xc_provided (ex_circuit x)) = false;
  gb_device : vc_name (ex_device x) = PStr "clifford" \/ vc_name (ex_device x) = PStr "stim";
  gb_decoder : exists s, kc_name (ex_decoder x) = PStr s /\ In s ["UnionFindDecoder"; "UnionFindNoWeights"; "PyMatchingDecoder"; "FusionBlossomDecoder"];
  gb_weighted : kc_weighted (ex_decoder x) = PBool false }.

(** Decoders without weights do not depend on the errors. *)
Lemma unweighted_decoder py fb logw x cd d e : experiment_code cd -> graph_like (n_data_qubits (c_ops cd)) (c_stabs (c_ops cd)) -> (1 <= c_rounds cd)%Z ->
  (exists s, kc_name (ex_decoder x) = PStr s /\ In s ["UnionFindDecoder"; "UnionFindNoWeights"; "PyMatchingDecoder"; "FusionBlossomDecoder"]) ->
  kc_weighted (ex_decoder x) = PBool false -> error_data_dict d = Ok e ->
  exists dec, instantiate_decoder logw (ex_decoder x) cd d = Ok dec /\ decoder_for py fb (kc_name (ex_decoder x)) (Z.to_nat (c_rounds cd)) (c_stabs (c_ops cd)) None dec.
Proof.
  intros XC GL HR (s & ES & IS) EW DD. pose proof (experiment_generators cd XC) as G.
  set (n := n_data_qubits (c_ops cd)) in *. set (gens := c_stabs (c_ops cd)) in *. set (rounds := Z.to_nat (c_rounds cd)) in *. assert (Hr : 0 < rounds) by (unfold rounds; lia).
  destruct (C30_total rounds _ _ None G I Hr I) as [TG _]. destruct (TG GL) as (sg & SG).
  assert (NM : forall e', new_manager logw cd (Some e') (Some false) None = Ok sg) by (intros e'; unfold new_manager; cbn [andb bindR]; unfold from_code; fold rounds gens; rewrite SG; auto).
  rewrite ES in *. unfold instantiate_decoder. rewrite EW, ES. cbn [truthy andb weighted_flag]. rewrite DD. cbn [bindR].
  destruct IS as [<-|[<-|[<-|[<-|[]]]]]; cbn [is_str String.eqb Ascii.eqb Bool.eqb].
  - destruct (C52_unweighted Weights rounds _ _ sg G Hr SG) as (dc & DC). exists (UfDecoder dc). cbn [decoder_from_code snd]. rewrite NM. cbn [bindR]. rewrite DC. cbn [bindR].
    split; [auto|]. left; split; auto; eapply ui_new; eauto.
  - destruct (C52_unweighted NoWeights rounds _ _ sg G Hr SG) as (dc & DC). exists (UfDecoder dc). cbn [decoder_from_code snd]. rewrite NM. cbn [bindR]. rewrite DC. cbn [bindR].
    split; [auto|]. right; split; auto; eapply ui_new; eauto.
  - destruct (C61_new rounds n gens None sg G I Hr SG) as [NP _]. destruct (NP I) as (dc & DC). exists (PyDecoder dc). rewrite NM. cbn [bindR]. rewrite DC. cbn [bindR].
    split; [auto|]. split; auto; eapply xi_new; eauto.
  - destruct (C61_fusion_new rounds n gens None sg G I Hr SG I) as (dc & DC). exists (FbDecoder dc). rewrite NM. cbn [bindR]. rewrite DC. cbn [bindR].
    split; [auto|]. split; auto; eapply xi_new; eauto.
Qed.

(** The dictionaries of qubit errors and of gate errors. *)
Lemma gate_dictionary u qkeys gkeys q g cd : fair u -> Permutation qubit_keys qkeys -> Permutation gate_keys gkeys -> usable u q -> usable_gates g -> experiment_code cd -> valid_chances u q cd ->
  (forall r, gate_configured u g (c_lattice cd) r -> valid_row (n_data_qubits (c_ops cd)) (n_stabgens (c_ops cd)) r) ->
  exists d eq eg, let e := mkErrors (er_pauli eq) (er_erasure eq) (er_measurement eq) (er_CX eg) (er_CZ eg) (er_H eg) (er_M eg) (er_R eg) in
    instantiate_errors u qkeys gkeys (mkErrorsConf q g) (c_lattice cd) = Ok d /\ qubit_errors_dict d = Ok eq /\ gate_errors_dict d = Ok eg /\ error_data_dict d = Ok e /\
    named_errors (n_data_qubits (c_ops cd)) (n_stabgens (c_ops cd)) e /\ probabilities e /\ (er_erasure e = [] \/ erasure_everywhere (n_data_qubits (c_ops cd)) e) /\
    ((forall m, ~ switched_on q "erasure" m) -> er_erasure e = []) /\
    (forall k, In k (ed_gon d) <-> exists m, gate_on g k m) /\ forall r, In r (ed_gates d) <-> gate_configured u g (c_lattice cd) r.
Proof.
  intros FU PQ PG UQ UG XC VC VR. pose proof (xc_consistent _ XC) as C. pose proof (xc_indexed _ XC) as X.
  assert (NS : l_stabs (c_lattice cd) <> []).
  { pose proof (experiment_generators cd XC) as (NE & _). intros Z. apply NE. pose proof (xc_ns cd XC) as L. rewrite Z in L. unfold n_stabgens in L. destruct (c_stabs (c_ops cd)); auto; discriminate. }
  set (g0 := mkGatesConf PNone (PBool false) PNone []).
  destruct (gates_instantiated u qkeys gkeys q g g0 (c_lattice cd) FU PQ PG UQ UG eq_refl C X NS) as (d & d0 & ED & ED0 & SQ & SO & GON & ROWS).
  destruct (dictionary_made u qkeys gkeys (mkErrorsConf q g0) cd FU PQ UQ eq_refl XC VC) as (d1 & eq & ED1 & DI). assert (d1 = d0) by congruence. subst d1.
  destruct (table_instantiated u qkeys gkeys (mkErrorsConf q g0) (c_lattice cd) FU PQ UQ eq_refl C X NS) as (d1 & ED2 & W & R & _ & _ & ON & COL & _). assert (d1 = d0) by congruence. subst d1. cbn [ec_qubits] in *.
  assert (QD : qubit_errors_dict d = Ok eq) by (unfold qubit_errors_dict; rewrite SQ, SO; apply (di_qubits _ _ _ _ _ DI)).
  assert (VR' : forall r, In r (ed_gates d) -> In (g_gate r) (ed_gon d) -> valid_row (n_data_qubits (c_ops cd)) (n_stabgens (c_ops cd)) r) by (intros r I _; apply VR, ROWS, I).
  destruct (add_rows_ok (ed_gon d) (ed_gates d) [] no_errors (gates_start _)) as [A _].
  destruct A as (eg & GD & DONE).
  { intros r I [O T]. destruct (vr_two _ _ _ (VR' r I O) T) as (EV & _ & NM & _). split; auto. intros (k & K & B). specialize (NM k K). revert B NM. cbn. intros [<-|[<-|[<-|[]]]] NM; repeat destruct NM as [NM|NM]; try discriminate; auto. }
  destruct (gates_valid (ed_gon d) (ed_gates d) (n_data_qubits (c_ops cd)) (n_stabgens (c_ops cd)) eg DONE VR') as [GN GP].
  fold (gate_errors_dict d) in GD. exists d, eq, eg. cbv zeta. cbn [er_erasure]. split; [auto|]. split; [auto|]. split; [auto|].
  assert (DD : error_data_dict d = Ok (mkErrors (er_pauli eq) (er_erasure eq) (er_measurement eq) (er_CX eg) (er_CZ eg) (er_H eg) (er_M eg) (er_R eg))).
  { unfold error_data_dict.
    assert (Q1 : match ed_gon d with [] => Ok no_errors | _ :: _ => gate_errors_dict d end = Ok eg).
    { destruct (ed_gon d) as [|k ks] eqn:E; auto. assert (NR : ed_gates d = []).
      { destruct (ed_gates d) as [|r rs] eqn:Er; auto. exfalso. destruct (proj1 (ROWS r) (or_introl eq_refl)) as (k & m & O & _). apply (proj2 (GON k)). eauto. }
      unfold gate_errors_dict in GD. rewrite NR in GD. exact GD. }
    assert (Q2 : match ed_qon d with [] => Ok no_errors | _ :: _ => qubit_errors_dict d end = Ok eq).
    { destruct (ed_qon d) as [|k ks] eqn:E; auto. unfold qubit_errors_dict in QD. rewrite E in QD. destruct (qt_rows (ed_qubits d)); [discriminate|]. exact QD. }
    rewrite Q1. cbn [bindR]. rewrite Q2. auto. }
  split; [auto|]. pose proof (di_named _ _ _ _ _ DI) as QN. pose proof (di_probs _ _ _ _ _ DI) as QP.
  split; [destruct QN, GN; split; auto|]. split; [destruct QP, GP; split; auto|]. split; [apply (di_erasure _ _ _ _ _ DI)|]. split.
  - intros NE. destruct (C56_dictionary d0 W) as (e' & QD' & _ & CE & _).
    { intros n' q' I _. apply COL. auto. }
    assert (e' = eq) by (pose proof (di_qubits _ _ _ _ _ DI); congruence). subst e'. destruct (er_erasure eq) as [|[k p] l] eqn:Ee; auto. exfalso.
    destruct (proj1 (co_qubits _ _ _ _ _ CE k)) as (_ & n' & k' & I & O); [exists p; left; auto|]. destruct I as [[= <- <-]|[]]. apply ON in O as (m & O). apply (NE m O).
  - auto.
Qed.

(** The experiment. *)
Theorem gates_built py fb logw u qkeys gkeys x cd lo is : fair u -> Permutation qubit_keys qkeys -> Permutation gate_keys gkeys -> gates_buildable u x cd lo is ->
  exists b e, build logw u qkeys gkeys x = Ok b /\ b_code b = cd /\ error_data_dict (b_errors b) = Ok e /\
    (forall k, In k (ed_gon (b_errors b)) <-> exists m, gate_on (ec_gates (ex_errors x)) k m) /\
    (forall r, In r (ed_gates (b_errors b)) <-> gate_configured u (ec_gates (ex_errors x)) (c_lattice cd) r) /\
    generate_qec_circuit cd e lo false = Ok (b_circuit b) /\ vc_name (ex_device x) = PStr (b_device b) /\ gates_ready cd e lo is None /\
    ((forall m, ~ switched_on (ec_qubits (ex_errors x)) "erasure" m) -> er_erasure e = []) /\
    decoder_for py fb (kc_name (ex_decoder x)) (Z.to_nat (c_rounds cd)) (c_stabs (c_ops cd)) None (b_decoder b).
Proof.
  intros FU PQ PG BU. destruct (code_made _ _ (gb_code _ _ _ _ _ BU)) as (EC & XC & GL & HR & _).
  destruct (gate_dictionary u qkeys gkeys _ _ cd FU PQ PG (gb_qubits _ _ _ _ _ BU) (gb_gates _ _ _ _ _ BU) XC (gb_chances _ _ _ _ _ BU) (gb_rows _ _ _ _ _ BU)) as (d & eq & eg & ED & QD & GD & DD & NE & PR & ER & EN & GON & ROWS).
  set (e := mkErrors _ _ _ _ _ _ _ _) in *.
  destruct (unweighted_decoder py fb logw x cd d e XC GL HR (gb_decoder _ _ _ _ _ BU) (gb_weighted _ _ _ _ _ BU) DD) as (dec & EDC & DF).
  assert (GEN : exists c, generate_qec_circuit cd e lo false = Ok c) by (eexists; apply (exp_generate cd e lo is false XC NE PR (gb_indices _ _ _ _ _ BU) (gb_compatible _ _ _ _ _ BU))).
  destruct GEN as (c & GEN). unfold build.
  assert (UR : update_rng x = Ok tt).
  { destruct (gb_seed _ _ _ _ _ BU) as (v & O & [->|(z & -> & L)]); unfold update_rng; rewrite (option_entry _ _ _ O); cbn [bindR]; auto. assert (Q : (z <? 0)%Z = false) by lia. rewrite Q. auto. }
  assert (EE : mkErrorsConf (ec_qubits (ex_errors x)) (ec_gates (ex_errors x)) = ex_errors x) by (destruct (ex_errors x); auto). rewrite EE in ED.
  rewrite UR, EC. cbn [bindR]. rewrite ED. cbn [bindR]. destruct (gb_logical _ _ _ _ _ BU) as (v & O & AF). rewrite (option_entry _ _ _ O). cbn [bindR].
  rewrite (gb_circuit _ _ _ _ _ BU), (asks_as _ _ AF). cbn [bindR]. unfold instantiate_circuit. rewrite (gb_circuit _ _ _ _ _ BU), QD, GD. cbn [bindR]. fold e. rewrite GEN. cbn [bindR].
  assert (DV : exists s, vc_name (ex_device x) = PStr s /\ instantiate_device (ex_device x) = Ok s).
  { unfold instantiate_device. destruct (gb_device _ _ _ _ _ BU) as [->| ->]; eexists; split; reflexivity. }
  destruct DV as (s & NV & DV). rewrite DV. cbn [bindR]. rewrite EDC. cbn [bindR]. exists (mkBuilt cd d c s dec), e. cbn [b_code b_errors b_circuit b_device b_decoder].
  split; [auto|]. split; [auto|]. split; [auto|]. split; [auto|]. split; [auto|]. split; [auto|]. split; [auto|]. split; [|split; auto].
  destruct BU. split; auto; try exact I. split; [intros q _; split|intros q _]; exact I.
Qed.

(** Constant errors with values between 0 and 1 and the right names. *)
Lemma constant_rows u g cd : experiment_code cd -> usable_gates g ->
  (forall k m, gate_on g k m -> gm_dist m <> PStr "user" /\ forall j dist name ps, channel_of m j dist name ps -> dist = PStr "constant" /\ (forall p q, ps = [p] -> number p q -> 0 <= q <= 1)%Q /\
     In name (if in_dec string_dec k ["H"; "M"; "R"] then ["X"; "Y"; "Z"] else ["IX"; "IY"; "IZ"; "XI"; "XX"; "XY"; "XZ"; "YI"; "YX"; "YY"; "YZ"; "ZI"; "ZX"; "ZY"; "ZZ"])) ->
  forall r, gate_configured u g (c_lattice cd) r -> valid_row (n_data_qubits (c_ops cd)) (n_stabgens (c_ops cd)) r.
Proof.
  intros XC UG H r (k & m & O & CF). destruct (H k m O) as [NU HC]. destruct CF as [[D _]|(j & dist & name & ps & CO & CR)]; [contradiction|].
  destruct (HC j dist name ps CO) as (-> & HP & NM). pose proof (xc_consistent _ XC) as C. pose proof (xc_indexed _ XC) as X.
  assert (KEY : In k ["H"; "M"; "R"; "CX"; "CZ"]) by (destruct CR as [[K _]|[K _]]; cbn in K |- *; tauto).
  destruct (ug_constant _ UG k m j name ps O CO) as (p & q & EP & NQ).
  destruct (C57_valid [(k, GateChannels [Constant name q])] [] (c_lattice cd) C X) as (d & ED & _ & V).
  { intros g' cfg [[= <- <-]|[]]. split; [auto|]. eexists. split; [reflexivity|]. split; [discriminate|]. intros c [<-|[]]. exists name, q. split; [auto|]. split; [eapply HP; eauto|exact NM]. }
  unfold n_stabgens in *. rewrite (xc_nd cd XC). pose proof (xc_ns cd XC) as NSQ. unfold n_stabgens in NSQ. rewrite NSQ. apply V.
  assert (U : forall q', number p q' -> q' = q) by (intros q' Hq; apply number_spec in Hq; apply number_spec in NQ; congruence).
  unfold from_lattice_gates, assimilate_gate_errors in ED. cbn [mapR] in ED.
  destruct CR as [[K [[_ (p' & q' & EP' & N' & ->)]|[D _]]]|[K [[_ (p' & q' & EP' & N' & ->)]|[D _]]]]; try discriminate D.
  - pose proof (label_rows1 (c_lattice cd) [] k [] (Constant name q) K) as LR. cbn [app flat_map channel_rows1] in LR. rewrite LR in ED. cbn [bindR List.concat app] in ED. injection ED as <-. cbn [ed_gates]. left. rewrite EP in EP'. injection EP' as <-. rewrite (U _ N'), stab_list; auto.
  - pose proof (label_rows2 (c_lattice cd) [] k [] (Constant name q) K) as LR. cbn [app flat_map channel_rows2] in LR. rewrite LR in ED. cbn [bindR List.concat app] in ED. injection ED as <-. cbn [ed_gates]. left. rewrite EP in EP'. injection EP' as <-. rewrite (U _ N'); auto.
Qed.
