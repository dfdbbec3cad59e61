(** Property theorem C65: the stabiliser groups of the built-in codes are complete. *)
Require Import List Bool Arith ZArith QArith Lia String.
From Verif Require Import Base BaseProofs QSpec PauliModel PauliSem PauliProofs PauliAlg TableauProofs MeasureProofs GraphSpec GraphProofs LatticeModel LatticeSpec LatticeOps
  CodesModel CodesSpec GeneratorModel GeneratorSpec MemorySem ErasureModel SyngraphModel SyngraphFinal UnionFindMetric
  SyngraphProofs SyngraphErrors GraphlikeCodes Props_Syngraph DecoderSpec DecoderModel DecoderProofs DecoderObjects DecoderHistory DecoderCheck Props_Decoder
  CircuitModel SimModel Props_Circuit Props_Generator FaultSpec Props_DecoderDistance CodeDistance Props_CodeDistance GroupSpec GroupAlg GroupCodes GroupLattices GroupSmall.
From Verif Require BuildProofs PlanarProofs ToricProofs RotatedProofs RepetitionProofs.
Import ListNotations.
Local Open Scope string_scope.
Local Open Scope nat_scope.
Local Open Scope list_scope.
Notation row0 := GeneratorSpec.row0.

(** The codes which the package offers. *)
Definition built_in (rounds : Z) (cd : code) : Prop :=
  (exists d, (2 <= d)%Z /\ (make_planar rounds d = Ok cd \/ make_toric rounds d = Ok cd \/ exists xzzx, make_rotated_planar rounds d xzzx = Ok cd)) \/
  (exists d, (2 <= d)%Z /\ make_repetition rounds d = Ok cd) \/ make_five_qubit rounds = Ok cd \/ make_shor rounds = Ok cd.

Lemma small_maximal (mk : Res code) cd n s : (do cd <- mk; Ok (n_data_qubits (c_ops cd), validb n s 1 (c_ops cd) && indepb n (map ops (c_stabs (c_ops cd))))) = Ok (n, true) -> mk = Ok cd ->
  n_data_qubits (c_ops cd) = n /\ valid_code n s 1 (c_ops cd) /\ indep n (map ops (c_stabs (c_ops cd))).
Proof.
  intros Q ->. cbn [bindR] in Q. injection Q as Q1 Q2. apply andb_true_iff in Q2. destruct Q2 as [Q2 Q3]. split; auto. split; [apply validb_ok|apply indepb_ok]; auto.
Qed.

Lemma five_maximal rounds cd : make_five_qubit rounds = Ok cd -> n_data_qubits (c_ops cd) = 5 /\ valid_code 5 4 1 (c_ops cd) /\ indep 5 (map ops (c_stabs (c_ops cd))).
Proof. intros H. apply (small_maximal (make_five_qubit rounds)) with (s := 4); [vm_compute; reflexivity|exact H]. Qed.
Lemma shor_maximal rounds cd : make_shor rounds = Ok cd -> n_data_qubits (c_ops cd) = 9 /\ valid_code 9 8 1 (c_ops cd) /\ indep 9 (map ops (c_stabs (c_ops cd))).
Proof. intros H. apply (small_maximal (make_shor rounds)) with (s := 8); [vm_compute; reflexivity|exact H]. Qed.

(** Number of qubits, validity and independence of the codes other than the toric code. *)
Lemma independent_code rounds cd : built_in rounds cd -> (forall d, (2 <= d)%Z -> make_toric rounds d <> Ok cd) ->
  exists s k, valid_code (n_data_qubits (c_ops cd)) s k (c_ops cd) /\ s + k = n_data_qubits (c_ops cd) /\ indep (n_data_qubits (c_ops cd)) (map ops (c_stabs (c_ops cd))).
Proof.
  intros BI NT. pose proof (C49_builtin_codes rounds cd BI) as [XC _]. destruct BI as [(d & D & [H|[H|(z & H)]])|[(d & D & H)|[H|H]]].
  - destruct (PlanarProofs.planar_make d rounds D) as (l & _ & E). rewrite H in E. injection E as ->. rewrite (built_qubits _ (PlanarProofs.pvs d) (PlanarProofs.pes d) XC eq_refl). cbn [c_ops].
    pose proof (PlanarProofs.planar_valid d D) as V. rewrite <- PlanarProofs.planar_data_count in V by auto. eexists _, _. split; [exact V|]. split; [|apply planar_indep; auto]. rewrite PlanarProofs.planar_data_count by auto. nia.
  - destruct (NT d D H).
  - destruct (RotatedProofs.rotated_make d z rounds D) as (l & _ & E). rewrite H in E. injection E as ->. rewrite (built_qubits _ (RotatedProofs.rvs d) (RotatedProofs.res d z) XC eq_refl). cbn [c_ops].
    pose proof (RotatedProofs.rotated_valid d z D) as V. rewrite <- RotatedProofs.rotated_data_count in V by auto. eexists _, _. split; [exact V|]. split; [|apply rotated_indep; auto]. rewrite RotatedProofs.rotated_data_count by auto. nia.
  - destruct (RepetitionProofs.repetition_make d rounds D (repetition_odd _ _ _ H)) as (l & _ & E). rewrite H in E. injection E as ->. rewrite (built_qubits _ (RepetitionProofs.cvs d) (RepetitionProofs.ces d) XC eq_refl). cbn [c_ops].
    pose proof (RepetitionProofs.repetition_valid d D) as V. rewrite <- RepetitionProofs.rep_data_count in V by auto. eexists _, _. split; [exact V|]. split; [|apply repetition_indep; auto]. rewrite RepetitionProofs.rep_data_count by auto. lia.
  - destruct (five_maximal _ _ H) as (-> & V & I). eexists _, _. split; [exact V|]. auto.
  - destruct (shor_maximal _ _ H) as (-> & V & I). eexists _, _. split; [exact V|]. auto.
Qed.

Lemma maximal_code rounds cd : built_in rounds cd ->
  exists s k sel, valid_code (n_data_qubits (c_ops cd)) s k (c_ops cd) /\ incl sel (c_stabs (c_ops cd)) /\ List.length sel + k = n_data_qubits (c_ops cd) /\ indep (n_data_qubits (c_ops cd)) (map ops sel).
Proof.
  intros BI. pose proof (C49_builtin_codes rounds cd BI) as [XC _].
  assert (T : (exists d, (2 <= d)%Z /\ make_toric rounds d = Ok cd) \/ exists s k, valid_code (n_data_qubits (c_ops cd)) s k (c_ops cd) /\ s + k = n_data_qubits (c_ops cd) /\ indep (n_data_qubits (c_ops cd)) (map ops (c_stabs (c_ops cd)))).
  { destruct (Nat.eq_dec (List.length (c_logicals (c_ops cd))) 4) as [F|F].
    - destruct BI as [(d & D & [H|[H|(z & H)]])|[(d & D & H)|[H|H]]]; try (left; eauto; fail); exfalso.
      + destruct (PlanarProofs.planar_make d rounds D) as (l & _ & E). rewrite H in E. injection E as ->. cbn [c_ops PlanarProofs.planar_code c_logicals] in F. rewrite PlanarProofs.plog_ids in F. discriminate.
      + destruct (RotatedProofs.rotated_make d z rounds D) as (l & _ & E). rewrite H in E. injection E as ->. cbn [c_ops RotatedProofs.rotated_code c_logicals] in F. rewrite RotatedProofs.rlog_ids in F. discriminate.
      + destruct (RepetitionProofs.repetition_make d rounds D (repetition_odd _ _ _ H)) as (l & _ & E). rewrite H in E. injection E as ->. cbn [c_ops RepetitionProofs.repetition_code c_logicals] in F. rewrite RepetitionProofs.clog_ids in F. discriminate.
      + destruct (five_maximal _ _ H) as (_ & V & _). pose proof (vc_logicals _ _ _ _ V) as X. rewrite F in X. discriminate.
      + destruct (shor_maximal _ _ H) as (_ & V & _). pose proof (vc_logicals _ _ _ _ V) as X. rewrite F in X. discriminate.
    - right. apply (independent_code rounds); auto. intros d D H. apply F. destruct (ToricProofs.toric_make d rounds D) as (l & _ & E). rewrite H in E. injection E as ->.
      cbn [c_ops ToricProofs.toric_code c_logicals]. rewrite ToricProofs.tlog_ids. reflexivity. }
  destruct T as [(d & D & H)|(s & k & V & C & I)].
  - destruct (ToricProofs.toric_make d rounds D) as (l & _ & E). rewrite H in E. injection E as ->. rewrite (built_qubits _ (ToricProofs.tvs d) (ToricProofs.tes d) XC eq_refl). cbn [c_ops].
    pose proof (ToricProofs.toric_valid d D) as V. rewrite <- ToricProofs.toric_data_count in V at 1 by auto.
    eexists _, _, (map (brow (ToricProofs.tvs d) (ToricProofs.tes d)) (filter (tkeep d) (BuildProofs.stab_ids (ToricProofs.tvs d)))). split; [exact V|]. split; [|split; [|apply toric_indep; auto]].
    + intros g I. apply in_map_iff in I. destruct I as (o & <- & I). apply filter_In in I. apply in_map. tauto.
    + rewrite map_length, (toric_kept d D), ToricProofs.toric_stab_count, ToricProofs.toric_data_count by auto. auto.
  - exists s, k, (c_stabs (c_ops cd)). split; auto. split; [intros x i; auto|]. split; auto. rewrite (vc_stabs _ _ _ _ V). auto.
Qed.

(** * C65 Complete stabiliser groups *)
(** The operators which commute with all generators and with all logical operators of a built-in
    code are the products of its generators: there are no further encoded qubits. *)
Theorem C65_complete : forall rounds cd, built_in rounds cd ->
  forall P, commutes_with (n_data_qubits (c_ops cd)) (c_stabs (c_ops cd) ++ c_logicals (c_ops cd)) P <-> generated (n_data_qubits (c_ops cd)) (c_stabs (c_ops cd)) P.
Proof.
  intros rounds cd BI. destruct (maximal_code rounds cd BI) as (s & k & sel & V & I & C & IN). apply (complete_code _ s k _ sel); auto.
Qed.
Print Assumptions C65_complete.

(** An operator which commutes with all generators and with some logical operators is a product of
    generators and of logical operators which commute with these. *)
Theorem C65_normaliser : forall rounds cd is, built_in rounds cd ->
  forall P, commutes_with (n_data_qubits (c_ops cd)) (c_stabs (c_ops cd)) P ->
  (forall i, In i is -> i < n_logical_ops (c_ops cd) -> anti (seq 0 (n_data_qubits (c_ops cd))) (fac (nth i (c_logicals (c_ops cd)) row0)) P = false) ->
  generated (n_data_qubits (c_ops cd)) (c_stabs (c_ops cd) ++ unread (c_ops cd) is) P.
Proof.
  intros rounds cd is BI P CW CI. destruct (maximal_code rounds cd BI) as (s & k & sel & V & _). apply (normal_code _ s k); auto.
  - intros R. apply (C65_complete rounds cd BI).
  - intros i I L. apply CI; auto. unfold n_logical_ops. rewrite (vc_logicals _ _ _ _ V). auto.
Qed.
Print Assumptions C65_normaliser.

Lemma has_logicals rounds cd : built_in rounds cd -> List.length (c_logicals (c_ops cd)) <> 0.
Proof.
  intros BI Z. destruct BI as [(d & D & H)|[(d & D & H)|[H|H]]].
    - destruct H as [H|[H|(z & H)]].
      + destruct (PlanarProofs.planar_make d rounds D) as (l & _ & X). rewrite H in X. injection X as ->. cbn [c_ops PlanarProofs.planar_code c_logicals] in Z. rewrite PlanarProofs.plog_ids in Z. discriminate.
      + destruct (ToricProofs.toric_make d rounds D) as (l & _ & X). rewrite H in X. injection X as ->. cbn [c_ops ToricProofs.toric_code c_logicals] in Z. rewrite ToricProofs.tlog_ids in Z. discriminate.
      + destruct (RotatedProofs.rotated_make d z rounds D) as (l & _ & X). rewrite H in X. injection X as ->. cbn [c_ops RotatedProofs.rotated_code c_logicals] in Z. rewrite RotatedProofs.rlog_ids in Z. discriminate.
    - destruct (C60_repetition rounds cd d D H) as (X & _). unfold n_logical_ops in X. congruence.
    - destruct (five_maximal _ _ H) as (_ & W & _). rewrite (vc_logicals _ _ _ _ W) in Z. discriminate.
    - destruct (shor_maximal _ _ H) as (_ & W & _). rewrite (vc_logicals _ _ _ _ W) in Z. discriminate.
Qed.

(** The distance of the codes: the weight of the smallest error which is not detected and not a
    product of generators. *)
Lemma distance_code rounds cd d : built_in rounds cd -> n_logical_ops (c_ops cd) <> 0 ->
  (forall i, i < n_logical_ops (c_ops cd) -> exact_distance (n_data_qubits (c_ops cd)) (c_stabs (c_ops cd)) (fac (nth i (c_logicals (c_ops cd)) row0)) d) ->
  code_distance (n_data_qubits (c_ops cd)) (c_stabs (c_ops cd)) d.
Proof.
  intros BI NZ H. set (n := n_data_qubits (c_ops cd)) in *. assert (CONV : forall P, commutes_with n (c_stabs (c_ops cd)) P <-> forall s, s < List.length (c_stabs (c_ops cd)) -> anti (seq 0 n) (fac (nth s (c_stabs (c_ops cd)) row0)) P = false).
  { intros P. split; intros C; [intros s L; apply C, nth_In; auto|intros g I; apply (In_nth _ _ row0) in I; destruct I as (s & L & <-); auto]. }
  split.
  - intros P CP NG. destruct (existsb (fun i => anti (seq 0 n) (fac (nth i (c_logicals (c_ops cd)) row0)) P) (seq 0 (n_logical_ops (c_ops cd)))) eqn:E.
    + apply existsb_exists in E. destruct E as (i & I & A). apply in_seq in I. apply (H i ltac:(lia)); [apply CONV; auto|auto].
    + exfalso. apply NG, (C65_complete rounds cd BI). intros g I. apply in_app_iff in I. destruct I as [I|I]; [auto|]. apply (In_nth _ _ row0) in I. destruct I as (i & L & <-).
      destruct (anti _ _ P) eqn:A; auto. rewrite <- E. symmetry. apply existsb_exists. exists i. split; [apply in_seq; unfold n_logical_ops; lia|auto].
  - destruct (H 0 ltac:(lia)) as [_ (P & C & A & W)]. exists P. split; [apply CONV; auto|]. split; [|auto]. intros G. apply (C65_complete rounds cd BI) in G. fold n in G.
    rewrite (G (nth 0 (c_logicals (c_ops cd)) row0)) in A; [discriminate|]. apply in_app_iff. right. apply nth_In. unfold n_logical_ops in NZ. lia.
Qed.
Theorem C65_distance : forall rounds cd d, (2 <= d)%Z ->
  make_planar rounds d = Ok cd \/ make_toric rounds d = Ok cd \/ (exists xzzx, make_rotated_planar rounds d xzzx = Ok cd) ->
  code_distance (n_data_qubits (c_ops cd)) (c_stabs (c_ops cd)) (Z.to_nat d).
Proof.
  intros rounds cd d D H. assert (BI : built_in rounds cd) by (left; eauto). apply (distance_code rounds); auto; [|apply (C60_distance rounds cd d D H)].
  apply (has_logicals rounds cd BI).
Qed.
Print Assumptions C65_distance.
(** The repetition code has distance 1 only: it does not detect phase flips. *)
Theorem C65_repetition_distance : forall rounds cd d, (2 <= d)%Z -> make_repetition rounds d = Ok cd ->
  code_distance (n_data_qubits (c_ops cd)) (c_stabs (c_ops cd)) 1.
Proof.
  intros rounds cd d D H. assert (BI : built_in rounds cd) by (right; left; eauto). destruct (C60_repetition rounds cd d D H) as (N & (LX & P & C & A & W) & LZ & _).
  assert (CG : forall P g, In g (c_stabs (c_ops cd)) -> (forall s, s < List.length (c_stabs (c_ops cd)) -> anti (seq 0 (n_data_qubits (c_ops cd))) (fac (nth s (c_stabs (c_ops cd)) row0)) P = false) -> anti (seq 0 (n_data_qubits (c_ops cd))) (fac g) P = false).
  { intros P' g I X. apply (In_nth _ _ row0) in I. destruct I as (s & L & <-). auto. }
  split.
  - intros R _ NG. destruct (operator_weight (n_data_qubits (c_ops cd)) R) eqn:E; [|lia]. exfalso. apply NG, generated_one. intros q L.
    unfold operator_weight in E. apply length_zero_iff_nil in E. destruct (fst (R q) || snd (R q)) eqn:Q.
    + assert (I : In q []) by (rewrite <- E; apply filter_In; split; [apply in_seq; lia|auto]). destruct I.
    + apply orb_false_iff in Q. destruct (R q) as [x z]. cbn [fst snd] in Q. destruct Q as [-> ->]. auto.
  - exists P. split; [intros g I; apply CG; auto|]. split; auto. intros G. apply (C65_complete rounds cd BI) in G.
    rewrite (G (nth 0 (c_logicals (c_ops cd)) row0)) in A; [discriminate|]. apply in_app_iff. right. apply nth_In. unfold n_logical_ops in N. lia.
Qed.
Print Assumptions C65_repetition_distance.
Theorem C65_small_distance : forall rounds cd, make_five_qubit rounds = Ok cd \/ make_shor rounds = Ok cd ->
  code_distance (n_data_qubits (c_ops cd)) (c_stabs (c_ops cd)) 3.
Proof.
  intros rounds cd H. assert (BI : built_in rounds cd) by (right; right; auto). apply (distance_code rounds); [auto|apply (has_logicals rounds cd BI)|apply (C60_small_codes rounds cd H)].
Qed.
Print Assumptions C65_small_distance.

(** No generator is a product of the others, except for the toric code ... *)
Theorem C65_independent : forall rounds cd i, built_in rounds cd -> (forall d, (2 <= d)%Z -> make_toric rounds d <> Ok cd) -> i < n_stabgens (c_ops cd) ->
  ~ generated (n_data_qubits (c_ops cd)) (without i (c_stabs (c_ops cd))) (fac (nth i (c_stabs (c_ops cd)) row0)).
Proof.
  intros rounds cd i BI NT L. destruct (independent_code rounds cd BI NT) as (s & k & V & C & IN). apply indep_without; auto. intros g I. apply (vc_width _ _ _ _ V). auto.
Qed.
Print Assumptions C65_independent.
(** ... where each generator is a product of others. *)
Theorem C65_toric_dependent : forall rounds cd d i, (2 <= d)%Z -> make_toric rounds d = Ok cd -> i < n_stabgens (c_ops cd) ->
  generated (n_data_qubits (c_ops cd)) (without i (c_stabs (c_ops cd))) (fac (nth i (c_stabs (c_ops cd)) row0)).
Proof.
  intros rounds cd d i D H L. assert (XC : experiment_code cd) by (apply (C49_builtin_codes rounds cd); left; eauto).
  destruct (ToricProofs.toric_make d rounds D) as (l & _ & E). rewrite H in E. injection E as ->. rewrite (built_qubits _ (ToricProofs.tvs d) (ToricProofs.tes d) XC eq_refl).
  cbn [c_ops] in *. apply toric_dependent; auto. unfold n_stabgens in L. cbn [ToricProofs.toric_code c_stabs] in L. rewrite map_length in L. auto.
Qed.
Print Assumptions C65_toric_dependent.

(** A correction which cancels the syndrome of an error is successful for all logical operators if
    and only if it is the error up to generators. *)
Theorem C65_success : forall rounds cd correction E, built_in rounds cd ->
  let n := n_data_qubits (c_ops cd) in let residual := fun q => pxor (fac correction q) (E q) in
  List.length (ops correction) = n -> commutes_with n (c_stabs (c_ops cd)) residual ->
  let toggle := map (fun l => anti (seq 0 n) (fac l) E) (c_logicals (c_ops cd)) in
  (generated n (c_stabs (c_ops cd)) residual -> check_success (c_ops cd) correction toggle None = Ok true) /\
  (~ generated n (c_stabs (c_ops cd)) residual -> check_success (c_ops cd) correction toggle None = Ok false).
Proof.
  intros rounds cd correction E BI n residual LC CW toggle. destruct (maximal_code rounds cd BI) as (s & k & sel & V & _). fold n in V.
  assert (WL : forall l, In l (c_logicals (c_ops cd)) -> List.length (ops l) = n) by (intros l I; apply (vc_width _ _ _ _ V); auto).
  pose proof (has_logicals rounds cd BI) as K.
  pose proof (check_success_ok n (c_ops cd) correction toggle None (seq 0 (List.length (c_logicals (c_ops cd)))) WL eq_refl) as CS.
  specialize (CS eq_refl ltac:(intros Z; apply K; rewrite <- (seq_length (List.length (c_logicals (c_ops cd))) 0), Z; auto)).
  unfold toggle in CS at 1. rewrite map_length, seq_length, LC, !Nat.eqb_refl in CS. cbn [andb] in CS. destruct CS as (b & CS & B).
  assert (G : b = true <-> generated n (c_stabs (c_ops cd)) residual).
  { pose proof (C65_complete rounds cd BI residual) as CC. fold n in CC. rewrite <- CC, B.
    assert (AR : forall l, anti (seq 0 n) (fac l) residual = xorb (anti (seq 0 n) (fac l) (fac correction)) (anti (seq 0 n) (fac l) E)) by (intros l; apply anti_xor_r).
    assert (TG : forall i, i < List.length (c_logicals (c_ops cd)) -> nth i toggle false = anti (seq 0 n) (fac (nth i (c_logicals (c_ops cd)) row0)) E).
    { intros i L. unfold toggle. rewrite (nth_indep _ false (anti (seq 0 n) (fac row0) E)) by (rewrite map_length; auto). apply (map_nth (fun l => anti (seq 0 n) (fac l) E)). }
    split.
    - intros H g I. apply in_app_iff in I. destruct I as [I|I]; [auto|]. apply (In_nth _ _ row0) in I. destruct I as (i & L & <-). specialize (H i L). rewrite TG, seq_nth in H by auto. cbn [Nat.add] in H.
      rewrite AR, H. apply xorb_nilpotent.
    - intros H i L. rewrite TG, seq_nth by auto. cbn [Nat.add]. symmetry. apply xorb_eq. rewrite <- AR. apply H, in_app_iff. right. apply nth_In. auto. }
  rewrite CS. split; intros H; f_equal; [apply G; auto|]. destruct b; auto. destruct H. apply G. auto.
Qed.
Print Assumptions C65_success.

(** After a successful memory experiment the errors and the correction differ by generators and by
    logical operators which do not change the values of those which were read. *)
Theorem C65_memory : forall cls rounds cd e x is anc g s0 sm, built_in rounds cd ->
  no_gate_errors e -> (1 <= rounds)%Z -> logical_ops_to_indices (c_ops cd) x = Ok is -> is <> [] -> anc = true \/ readable cd is ->
  (forall k, 0 <= d_unif (g k) /\ d_unif (g k) < 1)%Q -> memory_experiment g s0 cd e x anc = Ok sm ->
  exists sg d bound, new_sgraph (Z.to_nat rounds) (c_stabs (c_ops cd)) None = Ok sg /\ new_interface cls sg = Ok d /\
  forall fuel, bound <= fuel -> exists d' fr b,
    interface_decode fuel (sm_erased sm) (sm_syndrome sm) d = Ok (d', fr) /\
    check_success (c_ops cd) fr (sm_toggle sm) (Some x) = Ok b /\
    exists E K F, possible_history e (n_data_qubits (c_ops cd)) (n_stabgens (c_ops cd)) (Z.to_nat rounds) E K F /\
      shows cd is (Z.to_nat rounds) E K F sm /\
      (b = true -> generated (n_data_qubits (c_ops cd)) (c_stabs (c_ops cd) ++ unread (c_ops cd) is) (fun q => pxor (fac fr q) (total (Z.to_nat rounds) E q))).
Proof.
  intros cls rounds cd e x is anc g s0 sm BI NG HR EI NE RD Hg RUN.
  destruct (C54_decoders cls rounds cd e x is anc g s0 sm BI NG HR EI NE RD Hg RUN) as (sg & d & bound & ES & ED & H). exists sg, d, bound. split; auto. split; auto.
  intros fuel LF. destruct (H fuel LF) as (d' & fr & b & R & CS & E & K & F & PH & SH & C & B). exists d', fr, b. split; auto. split; auto. exists E, K, F. split; auto. split; auto.
  intros T. apply (C65_normaliser rounds cd is BI).
  - intros g0 I. apply (In_nth _ _ row0) in I. destruct I as (s & L & <-). apply C. auto.
  - intros i I _. apply B; auto.
Qed.
Print Assumptions C65_memory.

(** The toric code of size 2 has eight generators on eight qubits and two encoded qubits: the generator
    number 3 is a product of the others, and the distance is 2. *)
Example C65_toric_2 :
  match make_toric 1 2 with
  | Ok cd => n_data_qubits (c_ops cd) = 8 /\ n_stabgens (c_ops cd) = 8 /\ n_logical_ops (c_ops cd) = 4 /\
             generated 8 (without 3 (c_stabs (c_ops cd))) (fac (nth 3 (c_stabs (c_ops cd)) row0)) /\
             code_distance 8 (c_stabs (c_ops cd)) 2
  | Err _ => False
  end.
Proof.
  destruct (make_toric 1 2) as [cd|] eqn:H; [|exfalso; assert (Q : (match make_toric 1 2 with Ok _ => true | _ => false end) = true) by (vm_compute; reflexivity); rewrite H in Q; discriminate].
  assert (Q : (do cd <- make_toric 1 2; Ok (n_data_qubits (c_ops cd), (n_stabgens (c_ops cd), n_logical_ops (c_ops cd)))) = Ok (8, (8, 4))) by (vm_compute; reflexivity).
  rewrite H in Q. cbn [bindR] in Q. injection Q as Q1 Q2 Q3. split; auto. split; auto. split; auto. rewrite <- Q1 at 1. split.
  - apply (C65_toric_dependent 1 cd 2); [lia|auto|lia].
  - rewrite <- Q1 at 1. apply (C65_distance 1 cd 2); [lia|auto].
Qed.

(** The five-qubit code after the error X on its first qubit: the error times a generator, and twice
    that generator, are successful corrections; the error times a logical operator is not. *)
Definition times_row (a b : row) : row := mkRow (map (fun q => pxor (fac a q) (fac b q)) (seq 0 5)) false.
Definition flip_0 : row := mkRow [(true, false); (false, false); (false, false); (false, false); (false, false)] false.
Example C65_five_qubits : forall cd, make_five_qubit 1 = Ok cd ->
  let toggle := map (fun l => anti (seq 0 5) (fac l) (fac flip_0)) (c_logicals (c_ops cd)) in
  check_success (c_ops cd) (times_row flip_0 (nth 1 (c_stabs (c_ops cd)) row0)) toggle None = Ok true /\
  check_success (c_ops cd) flip_0 toggle None = Ok true /\
  check_success (c_ops cd) (times_row flip_0 (nth 0 (c_logicals (c_ops cd)) row0)) toggle None = Ok false /\
  commutes_with 5 (c_stabs (c_ops cd)) (fac (nth 0 (c_logicals (c_ops cd)) row0)) /\ ~ generated 5 (c_stabs (c_ops cd)) (fac (nth 0 (c_logicals (c_ops cd)) row0)).
Proof.
  intros cd H toggle.
  assert (Q : (do cd <- make_five_qubit 1; let toggle := map (fun l => anti (seq 0 5) (fac l) (fac flip_0)) (c_logicals (c_ops cd)) in
     Ok (check_success (c_ops cd) (times_row flip_0 (nth 1 (c_stabs (c_ops cd)) row0)) toggle None, (check_success (c_ops cd) flip_0 toggle None,
         (check_success (c_ops cd) (times_row flip_0 (nth 0 (c_logicals (c_ops cd)) row0)) toggle None,
         (forallb (fun g => negb (anti (seq 0 5) (fac g) (fac (nth 0 (c_logicals (c_ops cd)) row0)))) (c_stabs (c_ops cd)),
          anti (seq 0 5) (fac (nth 1 (c_logicals (c_ops cd)) row0)) (fac (nth 0 (c_logicals (c_ops cd)) row0))))))) = Ok (Ok true, (Ok true, (Ok false, (true, true))))) by (vm_compute; reflexivity).
  rewrite H in Q. unfold bindR in Q. fold toggle in Q. clearbody toggle. injection Q as Q1 Q2 Q3 Q4 Q5. split; [exact Q1|]. split; [exact Q2|]. split; [exact Q3|]. split.
  - intros g I. rewrite forallb_forall in Q4. apply negb_true_iff. apply Q4. exact I.
  - intros G. destruct (five_maximal _ _ H) as (N & V & _). pose proof (C65_complete 1 cd ltac:(right; right; left; exact H) (fac (nth 0 (c_logicals (c_ops cd)) row0))) as [_ X]. rewrite N in X.
    specialize (X G (nth 1 (c_logicals (c_ops cd)) row0)). change (anti (seq 0 5) (fac (nth 1 (c_logicals (c_ops cd)) row0)) (fac (nth 0 (c_logicals (c_ops cd)) row0)) = true) in Q5. rewrite X in Q5; [discriminate|]. apply in_app_iff. right. apply nth_In. rewrite (vc_logicals _ _ _ _ V). repeat constructor.
Qed.
