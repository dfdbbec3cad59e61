(** Proofs about the construction of experiments. *)
Require Import String List Bool Arith ZArith QArith Lia Lqa Permutation.
From Verif Require Import Base BaseProofs QSpec PauliModel CircuitModel SimModel SimSpec LatticeModel LatticeSpec LatticeOps CodesModel CodesSpec GeneratorModel GeneratorSpec MemorySem MemoryTotal
  ExperimentCodes ExperimentProofs SyngraphModel SyngraphProofs SyngraphFinal GraphlikeCodes Props_Syngraph DecoderSpec DecoderModel DecoderObjects DecoderHistory DecoderCheck Props_Generator Props_Decoder
  WeightsModel WeightsSpec WeightsProofs Props_Weights TablesModel TablesSpec TablesProofs TablesQubits TablesLattice Props_Tables MatchingModel MatchingSpec MatchingProofs Props_Matching
  FrontendModel FrontendSpec InstantiateModel InstantiateSpec InstantiateTable InstantiateRun.
Import ListNotations.
Local Open Scope string_scope.
Local Open Scope nat_scope.
Local Open Scope list_scope.

Lemma option_entry x k v : option_is x k v -> general_entry x k = Ok v.
Proof.
  intros (d & E & N & I). unfold general_entry. rewrite E. assert (H : has_key k d = true) by (unfold has_key; apply existsb_exists; exists (k, v); split; auto; apply String.eqb_refl).
  rewrite H. f_equal. unfold lookup. clear E H. induction d as [|[a b] d IH]; cbn in *; [contradiction|]. inversion N as [|? ? N1 N2]; subst.
  destruct (String.eqb_spec a k) as [->|D]; cbn; [|destruct I as [[= -> _]|I]; [congruence|auto]]. destruct I as [[= ->]|I]; auto. exfalso. apply N1. apply (in_map fst) in I. auto.
Qed.
Lemma asks_as v lo : asks_for v lo -> as_logical v = Ok lo.
Proof.
  intros [(s & -> & ->)|(l & -> & ->)]; auto. cbn [as_logical]. assert (E : mapR as_int (map PInt l) = Ok l) by (induction l as [|z l IH]; cbn; [auto|rewrite IH; auto]). rewrite E. auto.
Qed.
Lemma code_made c cd : makes c cd -> instantiate_code c = Ok cd /\ experiment_code cd /\ graph_like (n_data_qubits (c_ops cd)) (c_stabs (c_ops cd)) /\ (1 <= c_rounds cd)%Z /\
  cc_rounds c = PInt (c_rounds cd).
Proof.
  intros (r & ER & HR & H).
  assert (B : (exists d, (2 <= d)%Z /\ (make_planar r d = Ok cd \/ make_toric r d = Ok cd \/ exists xzzx, make_rotated_planar r d xzzx = Ok cd)) \/
    (exists d, (2 <= d)%Z /\ make_repetition r d = Ok cd) \/ make_five_qubit r = Ok cd \/ make_shor r = Ok cd).
  { destruct H as [[_ H]|[[_ H]|(s & _ & L & [[_ H]|[[_ H]|[[_ H]|[_ H]]]])]]; eauto 10. }
  destruct (C49_builtin_codes r cd B) as [XC RC]. split; [|split; [auto|split; [eapply C54_graph_like; eauto|rewrite RC; auto]]].
  unfold instantiate_code. rewrite ER. cbn [as_int bindR]. destruct H as [[-> H]|[[-> H]|(s & -> & L & [[-> H]|[[-> H]|[[-> H]|[-> H]]]])]]; exact H.
Qed.

(** The dictionary of errors. *)
Record dictionary (u : surroundings) (c : qubits_conf) (cd : code) (d : error_data) (e : errors) : Prop := {
  di_data : error_data_dict d = Ok e;
  di_qubits : qubit_errors_dict d = Ok e;
  di_gates : gate_errors_dict d = Ok no_errors;
  di_named : named_errors (n_data_qubits (c_ops cd)) (n_stabgens (c_ops cd)) e;
  di_probs : probabilities e;
  di_erasure : er_erasure e = [] \/ erasure_everywhere (n_data_qubits (c_ops cd)) e;
  di_none : no_gate_errors e;
  di_keys : distinct_keys e;
  di_values : forall q, q < n_data_qubits (c_ops cd) -> chance u c (c_lattice cd) "X" q (pauli_prob e q PX) /\ chance u c (c_lattice cd) "Y" q (pauli_prob e q PY) /\
    chance u c (c_lattice cd) "Z" q (pauli_prob e q PZ) /\ chance u c (c_lattice cd) "erasure" q (erase_prob e q);
  di_results : forall s, s < n_stabgens (c_ops cd) -> chance u c (c_lattice cd) "measurement" (n_data_qubits (c_ops cd) + s) (flip_prob e (n_data_qubits (c_ops cd) + s)) }.

Lemma dictionary_made u qkeys gkeys c cd : fair u -> Permutation qubit_keys qkeys -> usable u (ec_qubits c) -> truthy (gc_sample (ec_gates c)) = false -> experiment_code cd ->
  valid_chances u (ec_qubits c) cd ->
  exists d e, instantiate_errors u qkeys gkeys c (c_lattice cd) = Ok d /\ dictionary u (ec_qubits c) cd d e.
Proof.
  intros FU P US NG XC VC. pose proof (xc_consistent _ XC) as C. pose proof (xc_indexed _ XC) as X.
  assert (NS : l_stabs (c_lattice cd) <> []).
  { pose proof (experiment_generators cd XC) as (NE & _). intros Z. apply NE. pose proof (xc_ns cd XC) as L. rewrite Z in L. unfold n_stabgens in L. destruct (c_stabs (c_ops cd)); auto; discriminate. }
  destruct (table_instantiated u qkeys gkeys c (c_lattice cd) FU P US NG C X NS) as (d & ED & W & R & G & GO & ON & COL & H). exists d.
  set (nd := n_data_qubits (c_ops cd)) in *. set (ns := n_stabgens (c_ops cd)) in *.
  assert (RS : qt_rows (ed_qubits d) = standard_rows nd ns) by (rewrite R, lattice_rows_ok by auto; unfold nd, ns, n_stabgens; rewrite xc_nd, xc_ns by auto; auto).
  assert (ST := fun q => standard_typed (ed_qubits d) nd ns q RS).
  assert (CH : forall n q v, enabled_value (ed_qubits d) (ed_qon d) n (Z.of_nat q) v -> chance u (ec_qubits c) (c_lattice cd) n q v).
  { intros n q v [[I V]|[I ->]]; [left; apply H; auto|right]. split; auto. intros m SO. apply I. apply ON. eauto. }
  assert (V : valid_table (ed_qubits d) (ed_qon d)).
  { split.
    - intros n q I _. apply COL. auto.
    - intros n q v I [[J T]|[-> T]] HV.
      + apply ST in T. destruct T as [T1 T2]. assert (Q : q = Z.of_nat (Z.to_nat q)) by lia. rewrite Q in HV. apply (vc_data _ _ _ VC n (Z.to_nat q)); auto; [fold nd; lia|]. apply CH. left. auto.
      + apply ST in T. destruct T as [T1 T2]. assert (Q : q = Z.of_nat (nd + (Z.to_nat q - nd))) by lia. rewrite Q in HV. apply (vc_results _ _ _ VC (Z.to_nat q - nd)); [fold ns; lia|]. fold nd. apply CH. left. auto.
    - intros q x y z T HX HY HZ. apply ST in T. destruct T as [T1 T2]. assert (Q : q = Z.of_nat (Z.to_nat q)) by lia. rewrite Q in HX, HY, HZ. apply (vc_sum _ _ _ VC (Z.to_nat q)); auto. fold nd. lia. }
  destruct (C56_dictionary d W (vt_columns _ _ V)) as (e & EQ & CP & CE & CM & GN).
  destruct (qubits_valid (ed_qubits d) (ed_qon d) nd ns e W V RS) as (NA & PR & DK & ER); [split; auto|].
  pose proof (C56_values d e W V EQ) as CV. exists e. split; auto.
  assert (ED' : error_data_dict d = Ok e).
  { unfold error_data_dict. rewrite GO. cbn [bindR].
    assert (Q : match ed_qon d with [] => Ok no_errors | _ :: _ => qubit_errors_dict d end = Ok e).
    { destruct (ed_qon d) as [|a l] eqn:E; auto. unfold qubit_errors_dict in EQ. rewrite E in EQ. destruct (qt_rows (ed_qubits d)); [discriminate|]. cbn in EQ. exact EQ. }
    rewrite Q. cbn [bindR]. destruct e, GN as (G1 & G2 & G3 & G4 & G5). cbn in *. subst. auto. }
  split; auto.
  - unfold gate_errors_dict. rewrite G. auto.
  - intros q L. destruct (CV q) as [CD _]. destruct CD as (V1 & V2 & V3 & V4); [apply ST; unfold data_number; fold nd in L; lia|]. auto.
  - intros s L. fold nd. apply CH. apply (CV (nd + s)). apply ST. unfold ancilla_number. fold ns in L. lia.
Qed.

Lemma filled_bound p : (0 <= p)%Q -> (filled p <= p + tiny)%Q.
Proof. intros H. unfold filled. destruct (Qeq_bool p 0) eqn:E; [|unfold tiny; lra]. apply Qeq_bool_iff in E. unfold tiny. lra. Qed.
Lemma chances_moderate u c cd d e : dictionary u c cd d e -> valid_chances u c cd -> small_chances u c cd -> moderate (n_data_qubits (c_ops cd)) (n_stabgens (c_ops cd)) e.
Proof.
  intros DI VC SC. assert (NN : forall q P, q < n_data_qubits (c_ops cd) -> P <> PI -> (0 <= pauli_prob e q P)%Q).
  { intros q P L NP. destruct (di_values _ _ _ _ _ DI q L) as (X & Y & Z & _). destruct P; [congruence|apply (vc_data _ _ _ VC "X" q)|apply (vc_data _ _ _ VC "Y" q)|apply (vc_data _ _ _ VC "Z" q)]; cbn; auto. }
  split; auto.
  - intros q L. destruct (di_values _ _ _ _ _ DI q L) as (X & Y & Z & _). destruct (sc_data _ _ _ SC q _ _ _ L X Y Z) as [S1 _].
    pose proof (filled_bound _ (NN q PX L ltac:(discriminate))). pose proof (filled_bound _ (NN q PY L ltac:(discriminate))). lra.
  - intros q L. destruct (di_values _ _ _ _ _ DI q L) as (X & Y & Z & _). destruct (sc_data _ _ _ SC q _ _ _ L X Y Z) as [_ S1].
    pose proof (filled_bound _ (NN q PY L ltac:(discriminate))). pose proof (filled_bound _ (NN q PZ L ltac:(discriminate))). lra.
  - intros s L. pose proof (di_results _ _ _ _ _ DI s L) as M. split; [apply (vc_results _ _ _ VC s _ L M)|apply (sc_results _ _ _ SC s _ L M)].
Qed.

(** The decoder. *)
Lemma decoder_made py fb logw u x cd lo is d e : log_like logw -> buildable u x cd lo is -> dictionary u (ec_qubits (ex_errors x)) cd d e ->
  exists dec w, instantiate_decoder logw (ex_decoder x) cd d = Ok dec /\ ready cd e lo is w /\
    decoder_for py fb (kc_name (ex_decoder x)) (Z.to_nat (c_rounds cd)) (c_stabs (c_ops cd)) w dec /\
    (kc_weighted (ex_decoder x) = PBool false -> w = None) /\
    (kc_weighted (ex_decoder x) = PBool true -> exists p, weight_computation false cd (fill_errors (n_data_qubits (c_ops cd)) e) = Ok p /\ w = Some (get_edge_weights logw p)).
Proof.
  intros LL BU DI. destruct (code_made _ _ (bu_code _ _ _ _ _ BU)) as (_ & XC & GL & HR & _). pose proof (experiment_generators cd XC) as G.
  set (n := n_data_qubits (c_ops cd)) in *. set (gens := c_stabs (c_ops cd)) in *. set (rounds := Z.to_nat (c_rounds cd)) in *. assert (Hr : 0 < rounds) by (unfold rounds; lia).
  assert (RB : forall w, weights_fit n (List.length gens) w -> none_certain w n (List.length gens) -> sane_weights w n (List.length gens) -> weights_allow e w n (List.length gens) ->
    ready cd e lo is w).
  { intros w W1 W2 W3 W4. destruct BU, DI. split; auto. }
  assert (ND : List.length (l_data (c_lattice cd)) = n) by (unfold n; rewrite xc_nd; auto).
  destruct (bu_decoder _ _ _ _ _ BU) as (s & ES & IS).
  destruct (bu_weighted _ _ _ _ _ BU) as [EW|(EW & NW & SC)].
  - destruct (C30_total rounds _ _ None G I Hr I) as [TG _]. destruct (TG GL) as (sg & SG).
    assert (NM : forall e', new_manager logw cd (Some e') (Some false) None = Ok sg) by (intros e'; unfold new_manager; cbn [andb bindR]; unfold from_code; fold rounds gens; rewrite SG; auto).
    assert (RN : ready cd e lo is None).
    { apply RB; cbn; auto. split; [intros q L; split; intros _; exact I|intros s0 L _; exact I]. }
    rewrite ES in *. unfold instantiate_decoder. rewrite EW, ES. cbn [truthy andb weighted_flag]. rewrite (di_data _ _ _ _ _ DI). cbn [bindR].
    destruct IS as [<-|[<-|[<-|[<-|[]]]]]; cbn [is_str String.eqb Ascii.eqb Bool.eqb].
    + destruct (C52_unweighted Weights rounds _ _ sg G Hr SG) as (dc & DC). exists (UfDecoder dc), None. cbn [decoder_from_code snd]. rewrite NM. cbn [bindR]. rewrite DC. cbn [bindR].
      split; [auto|]. split; [auto|]. split; [left; split; auto; eapply ui_new; eauto|]. split; [auto|discriminate].
    + destruct (C52_unweighted NoWeights rounds _ _ sg G Hr SG) as (dc & DC). exists (UfDecoder dc), None. cbn [decoder_from_code snd]. rewrite NM. cbn [bindR]. rewrite DC. cbn [bindR].
      split; [auto|]. split; [auto|]. split; [right; split; auto; eapply ui_new; eauto|]. split; [auto|discriminate].
    + destruct (C61_new rounds n gens None sg G I Hr SG) as [NP _]. destruct (NP I) as (dc & DC). exists (PyDecoder dc), None. rewrite NM. cbn [bindR]. rewrite DC. cbn [bindR].
      split; [auto|]. split; [auto|]. split; [split; auto; eapply xi_new; eauto|]. split; [auto|discriminate].
    + destruct (C61_fusion_new rounds n gens None sg G I Hr SG I) as (dc & DC). exists (FbDecoder dc), None. rewrite NM. cbn [bindR]. rewrite DC. cbn [bindR].
      split; [auto|]. split; [auto|]. split; [split; auto; eapply xi_new; eauto|]. split; [auto|discriminate].
  - pose proof (chances_moderate _ _ _ _ _ DI (bu_chances _ _ _ _ _ BU) SC) as MO.
    assert (FI : fills n (n_stabgens (c_ops cd)) (fun q => q <? n) e (fill_errors n e)) by apply fill_errors_ok.
    destruct (from_code_weights logw cd e _ LL XC (di_named _ _ _ _ _ DI) (di_none _ _ _ _ _ DI) (di_keys _ _ _ _ _ DI) MO FI) as (p & EP & WF & WQ & WM & NMS).
    fold n gens in WF, WQ, WM. set (w := get_edge_weights logw p) in *.
    destruct (C30_total rounds n gens (Some w) G WF Hr NMS) as [TG _]. destruct (TG GL) as (sg & SG). clear TG.
    assert (NM : new_manager logw cd (Some (fill_errors n e)) (Some true) None = Ok sg).
    { unfold new_manager. cbn [andb]. rewrite EP. cbn [bindR]. unfold from_code. fold rounds gens w. rewrite SG. auto. }
    assert (PW1 : forall q, q < n -> Props_Decoder.positive (weight_at (w_x w) q) /\ Props_Decoder.positive (weight_at (w_z w) q)).
    { intros q Lq. destruct (WQ q Lq) as [(a & -> & A) (b & -> & B)]. split; right; eauto. }
    assert (PW2 : forall s, s < List.length gens -> Props_Decoder.positive (weight_at (w_meas w) s)).
    { intros s' Ls. destruct (WM s' Ls) as [[-> _]|(a & -> & A)]; [left; auto|right; eauto]. }
    assert (SW : sane_weights (Some w) n (List.length gens)).
    { assert (Q : forall y, Props_Decoder.positive y -> not_negative y) by (intros y [->|(q & -> & L)]; cbn; [auto|apply Qlt_le_weak; auto]). split; [intros q L; split; apply Q, PW1; auto|intros q L; apply Q, PW2; auto]. }
    assert (RN : ready cd e lo is (Some w)).
    { apply RB; auto.
      - split; [intros q Lq|intros s' Ls].
        + destruct (WQ q Lq) as [(a & -> & A) (b & -> & B)]. split; discriminate.
        + destruct (WM s' Ls) as [[-> _]|(a & -> & A)]; discriminate.
      - split; [intros q Lq; destruct (WQ q Lq) as [(a & Ea & A) (b & Eb & B)]; split; intros _; unfold finite_error; [rewrite Ea|rewrite Eb]; auto|].
        intros s' Ls FP. unfold finite_error. destruct (WM s' Ls) as [[_ Z]|(a & -> & A)]; auto. fold n in Z. rewrite Z in FP. discriminate. }
    assert (PP : kc_weighted (ex_decoder x) = PBool true -> exists p, weight_computation false cd (fill_errors n e) = Ok p /\ Some w = Some (get_edge_weights logw p)) by eauto.
    rewrite ES in *. unfold instantiate_decoder. rewrite EW, ES. cbn [truthy weighted_flag]. rewrite (di_data _ _ _ _ _ DI). rewrite ND. cbn [bindR].
    destruct IS as [<-|[<-|[<-|[<-|[]]]]]; cbn [is_str String.eqb Ascii.eqb Bool.eqb andb]; try congruence.
    + destruct (C52_positive rounds n gens w sg G WF Hr PW1 PW2 SG) as (dc & DC). exists (UfDecoder dc), (Some w). cbn [decoder_from_code snd]. rewrite ND, NM. cbn [bindR]. rewrite DC. cbn [bindR].
      split; [auto|]. split; [auto|]. split; [left; split; auto; eapply ui_new; eauto|]. split; [congruence|auto].
    + destruct (C61_new rounds n gens (Some w) sg G WF Hr SG) as [NP _]. destruct (NP SW) as (dc & DC). exists (PyDecoder dc), (Some w). rewrite NM. cbn [bindR]. rewrite DC. cbn [bindR].
      split; [auto|]. split; [auto|]. split; [split; auto; eapply xi_new; eauto|]. split; [congruence|auto].
    + destruct (C61_fusion_new rounds n gens (Some w) sg G WF Hr SG (conj PW1 PW2)) as (dc & DC). exists (FbDecoder dc), (Some w). rewrite NM. cbn [bindR]. rewrite DC. cbn [bindR].
      split; [auto|]. split; [auto|]. split; [split; auto; eapply xi_new; eauto|]. split; [congruence|auto].
Qed.

(** The experiment. *)
Theorem experiment_built py fb logw u qkeys gkeys x cd lo is : log_like logw -> fair u -> Permutation qubit_keys qkeys -> buildable u x cd lo is ->
  exists b e w, build logw u qkeys gkeys x = Ok b /\ b_code b = cd /\ instantiate_errors u qkeys gkeys (ex_errors x) (c_lattice cd) = Ok (b_errors b) /\
    dictionary u (ec_qubits (ex_errors x)) cd (b_errors b) e /\
    generate_qec_circuit cd e lo false = Ok (b_circuit b) /\ vc_name (ex_device x) = PStr (b_device b) /\ ready cd e lo is w /\
    decoder_for py fb (kc_name (ex_decoder x)) (Z.to_nat (c_rounds cd)) (c_stabs (c_ops cd)) w (b_decoder b) /\
    (kc_weighted (ex_decoder x) = PBool false -> w = None) /\
    (kc_weighted (ex_decoder x) = PBool true -> exists p, weight_computation false cd (fill_errors (n_data_qubits (c_ops cd)) e) = Ok p /\ w = Some (get_edge_weights logw p)).
Proof.
  intros LL FU P BU. destruct (code_made _ _ (bu_code _ _ _ _ _ BU)) as (EC & XC & GL & HR & _).
  destruct (dictionary_made u qkeys gkeys _ cd FU P (bu_qubits _ _ _ _ _ BU) (bu_gates _ _ _ _ _ BU) XC (bu_chances _ _ _ _ _ BU)) as (d & e & ED & DI).
  destruct (decoder_made py fb logw u x cd lo is d e LL BU DI) as (dec & w & EDC & RE & DF & W1 & W2).
  assert (GEN : exists c, generate_qec_circuit cd e lo false = Ok c) by (eexists; apply (exp_generate cd e lo is false XC (di_named _ _ _ _ _ DI) (di_probs _ _ _ _ _ DI) (bu_indices _ _ _ _ _ BU) (bu_compatible _ _ _ _ _ BU))).
  destruct GEN as (c & GEN). unfold build.
  assert (UR : update_rng x = Ok tt).
  { destruct (bu_seed _ _ _ _ _ BU) as (v & O & [->|(z & -> & L)]); unfold update_rng; rewrite (option_entry _ _ _ O); cbn [bindR]; auto. assert (Q : (z <? 0)%Z = false) by lia. rewrite Q. auto. }
  rewrite UR, EC. cbn [bindR]. rewrite ED. cbn [bindR]. destruct (bu_logical _ _ _ _ _ BU) as (v & O & AF). rewrite (option_entry _ _ _ O). cbn [bindR].
  rewrite (bu_circuit _ _ _ _ _ BU), (asks_as _ _ AF). cbn [bindR]. unfold instantiate_circuit. rewrite (bu_circuit _ _ _ _ _ BU), (di_qubits _ _ _ _ _ DI), (di_gates _ _ _ _ _ DI). cbn [bindR].
  assert (EE : mkErrors (er_pauli e) (er_erasure e) (er_measurement e) (er_CX no_errors) (er_CZ no_errors) (er_H no_errors) (er_M no_errors) (er_R no_errors) = e).
  { pose proof (di_none _ _ _ _ _ DI) as (G1 & G2 & G3 & G4 & G5). destruct e. cbn in *. subst. auto. }
  rewrite EE, GEN. cbn [bindR].
  assert (DV : exists s, vc_name (ex_device x) = PStr s /\ instantiate_device (ex_device x) = Ok s).
  { unfold instantiate_device. destruct (bu_device _ _ _ _ _ BU) as [->| ->]; eexists; split; reflexivity. }
  destruct DV as (s & NV & DV). rewrite DV. cbn [bindR]. rewrite EDC. cbn [bindR]. exists (mkBuilt cd d c s dec), e, w. cbn [b_code b_errors b_circuit b_device b_decoder].
  split; [auto|]. split; [auto|]. split; [auto|]. split; [auto|]. split; [auto|]. split; [auto|]. split; [auto|]. split; [auto|]. split; auto.
Qed.
