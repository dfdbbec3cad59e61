(** Property theorem C68: logical error rates of memory experiments with the decoder.
    Vocabulary: RateSpec, HistorySpec, DistSpec, FaultSpec, GeneratorSpec. *)
Require Import String List Bool Arith ZArith QArith Qfield Lia Lqa.
From Verif Require Import Base BaseProofs QSpec PauliModel PauliSem PauliAlg StateSpec CircuitModel SimModel SimSpec
  LatticeModel LatticeSpec CodesModel CodesSpec GeneratorModel GeneratorSpec GeneratorProofs MemorySem MemoryTotal ExperimentProofs DistSpec DistMean DistSim
  HistorySpec HistorySums HistoryChain HistoryShow HistoryTotal Props_History
  ErasureModel SyngraphModel SyngraphFinal SyngraphProofs Props_Syngraph DecoderSpec DecoderModel DecoderProofs DecoderObjects DecoderCheck Props_Decoder Props_Circuit Props_Generator
  FaultSpec Props_DecoderDistance CodeDistanceSmall CodeDistance Props_CodeDistance MatchingModel MatchingSpec Props_Matching RateSpec RateProofs.
From Verif Require RepetitionProofs.
Import ListNotations.
Local Open Scope string_scope.
Local Open Scope nat_scope.
Local Open Scope list_scope.

(** * C68 *)
(** All that is asked of the experiment. *)
Record rated (N : BinNums.positive) (m : nat) (cd : code) (e : errors) (x : logical_spec) (is : list nat) (anc : bool) : Prop := {
  ra_gates : no_gate_errors e;
  ra_named : named_errors (n_data_qubits (c_ops cd)) (n_stabgens (c_ops cd)) e;
  ra_probs : probabilities e;
  ra_erasure : er_erasure e = [] \/ erasure_everywhere (n_data_qubits (c_ops cd)) e;
  ra_grid : on_grid_errors N e;
  ra_rounds : (1 <= c_rounds cd)%Z;
  ra_indices : logical_ops_to_indices (c_ops cd) x = Ok is;
  ra_compatible : compatible is;
  ra_readable : anc = true \/ readable cd is;
  ra_calls : forall c, generate_qec_circuit cd e x anc = Ok c -> calls c <= m }.

(** The error rate is the chance of the histories on which decoding what they show fails, with any decoder. *)
Theorem C68_exact : forall N m cd e x is anc s0 (dec : correction), experiment_code cd -> rated N m cd e x is anc ->
  (error_rate N m dec s0 cd e x anc ==
   sum_over (histories (n_data_qubits (c_ops cd)) (n_stabgens (c_ops cd)) (Z.to_nat (c_rounds cd)))
     (fun h => history_chance e (n_data_qubits (c_ops cd)) (n_stabgens (c_ops cd)) h *
        match (do fr <- dec (erasures_of cd e h) (syndrome_of cd h); check_success (c_ops cd) fr (toggle_of cd is h) (Some x)) with
        | Ok true => 0 | _ => 1 end))%Q.
Proof.
  intros N m cd e x is anc s0 dec XC [NG NM PR EE GR HR EI CP RD CL].
  set (G := fun syn tog er => match (do fr <- dec er syn; check_success (c_ops cd) fr tog (Some x)) with Ok true => 1%Q | _ => 0%Q end).
  assert (D := C67_distribution N cd e x is anc s0 m G XC NG NM PR EE HR EI CP RD GR CL).
  set (hs := histories _ _ _) in *. set (ch := history_chance e (n_data_qubits (c_ops cd)) (n_stabgens (c_ops cd))) in *.
  transitivity (1 - sum_over hs (fun h => ch h * G (syndrome_of cd h) (toggle_of cd is h) (erasures_of cd e h)))%Q.
  - rewrite <- D. rewrite <- mean_compl by apply sequences_nonempty. unfold error_rate. apply mean_ext. intros ds _. unfold decoded_run, G.
    destruct (memory_experiment _ _ _ _ _ _) as [sm|]; cbn [bindR]; [|ring]. destruct (bindR _ _) as [[|]|]; ring.
  - rewrite <- (history_total e (n_data_qubits (c_ops cd)) (n_stabgens (c_ops cd)) (Z.to_nat (c_rounds cd))). fold hs ch.
    assert (E : (sum_over hs ch == sum_over hs (fun h => ch h * G (syndrome_of cd h) (toggle_of cd is h) (erasures_of cd e h)) +
      sum_over hs (fun h => ch h * match (do fr <- dec (erasures_of cd e h) (syndrome_of cd h); check_success (c_ops cd) fr (toggle_of cd is h) (Some x)) with
        | Ok true => 0 | _ => 1 end))%Q); [|rewrite E; ring].
    rewrite <- sum_plus. apply sum_ext. intros h _. unfold G. destruct (bindR _ _) as [[|]|]; ring.
Qed.
Print Assumptions C68_exact.

Lemma rate_le N m cd e x is anc s0 dec a dist allow side : experiment_code cd -> rated N m cd e x is anc ->
  (forall sm E K F, shows cd is (Z.to_nat (c_rounds cd)) E K F sm -> (er_erasure e = [] -> sm_erased sm = None) ->
     (forall s, s < n_stabgens (c_ops cd) -> F 0 s = false /\ F (Z.to_nat (c_rounds cd)) s = false) ->
     total_price a 1 (Z.to_nat (c_rounds cd)) (n_data_qubits (c_ops cd)) (c_stabs (c_ops cd)) allow side (sm_erased sm) E F < dist ->
     exists fr, dec (sm_erased sm) (sm_syndrome sm) = Ok fr /\ check_success (c_ops cd) fr (sm_toggle sm) (Some x) = Ok true) ->
  (error_rate N m dec s0 cd e x anc <= chance_of_price a dist cd e allow side)%Q.
Proof.
  intros XC RA HB. rewrite (C68_exact N m cd e x is anc s0 dec XC RA). unfold chance_of_price. rewrite sum_filter. apply sum_le. intros h Ih.
  assert (CH := history_nonneg e (grid_unit N e (ra_grid _ _ _ _ _ _ _ RA)) (ra_probs _ _ _ _ _ _ _ RA) (n_data_qubits (c_ops cd)) (n_stabgens (c_ops cd)) h). apply history_shape in Ih as [LH FH].
  destruct (dist <=? history_price a cd e allow side h) eqn:P.
  { destruct (bindR _ _) as [[|]|]; lra. }
  apply Nat.leb_gt in P. destruct (Qeq_dec (history_chance e (n_data_qubits (c_ops cd)) (n_stabgens (c_ops cd)) h) 0) as [Z|Z]; [rewrite Z; lra|].
  assert (SH := shows_history cd is e h [] [] [] eq_refl). rewrite LH in SH.
  destruct (HB _ _ _ _ SH) as (fr & D1 & D2).
  - cbn [sm_erased]. intros EE. unfold erasures_of. rewrite EE. auto.
  - intros s Ls. split; [reflexivity|]. destruct (wrong h (Z.to_nat (c_rounds cd)) s) eqn:W; [|reflexivity]. exfalso. apply Z. rewrite <- LH in W. apply (last_perfect e (n_data_qubits (c_ops cd)) (n_stabgens (c_ops cd)) h s Ls); auto.
    revert FH. apply Forall_impl. tauto.
  - cbn [sm_erased]. unfold history_price in P. rewrite LH in P. exact P.
  - cbn [sm_erased sm_syndrome sm_toggle] in D1, D2. rewrite D1. cbn [bindR]. rewrite D2. lra.
Qed.

(** The built-in codes: the error rate is at most the chance of the histories whose faults cost as
    much as the distance.  Faults cost 3 with the union-find decoders without weights ... *)
Theorem C68_bound : forall cls rounds cd dist x is allow side, protects rounds cd is dist -> (1 <= rounds)%Z ->
  logical_ops_to_indices (c_ops cd) x = Ok is -> is <> [] -> (forall i, In i is -> i < n_logical_ops (c_ops cd)) ->
  (forall i, In i is -> detected_by (n_data_qubits (c_ops cd)) (c_stabs (c_ops cd)) allow side (fac (nth i (c_logicals (c_ops cd)) row0))) ->
  exists sg d bound, new_sgraph (Z.to_nat rounds) (c_stabs (c_ops cd)) None = Ok sg /\ new_interface cls sg = Ok d /\
    forall fuel N m e anc s0, bound <= fuel -> rated N m cd e x is anc ->
      (error_rate N m (uf_correction fuel d) s0 cd e x anc <= chance_of_price 3 dist cd e allow side)%Q.
Proof.
  intros cls rounds cd dist x is allow side PR HR EI NE LI DB.
  destruct (protected rounds cd is dist PR LI HR) as (XC & ER & G & (sg & ES) & DI).
  destruct (C52_unweighted cls (Z.to_nat rounds) _ _ sg G ltac:(lia) ES) as (d & ED).
  assert (UI : uf_interface cls (Z.to_nat rounds) (c_stabs (c_ops cd)) None d) by (eapply ui_new; eauto).
  rewrite <- ER in *. destruct (C59_memory cls cd x is d XC HR EI NE UI) as (b & HB).
  exists sg, d, b. split; [auto|]. split; [auto|]. intros fuel N m e anc s0 LF RA.
  apply (rate_le N m cd e x is anc s0 _ 3 dist allow side XC RA). intros sm E K F SH _ FF TP.
  destruct (HB fuel sm E K F LF SH FF) as (d' & fr & D1 & D2).
  - intros i Ii. exists dist, allow, side. auto.
  - exists fr. split; [|auto]. unfold uf_correction. rewrite D1. reflexivity.
Qed.
Print Assumptions C68_bound.

(** ... and 2 with PyMatching, if there are no erasures, and with Fusion Blossom. *)
Theorem C68_matching : forall rounds cd dist x is allow side, protects rounds cd is dist -> (1 <= rounds)%Z ->
  logical_ops_to_indices (c_ops cd) x = Ok is -> is <> [] -> (forall i, In i is -> i < n_logical_ops (c_ops cd)) ->
  (forall i, In i is -> detected_by (n_data_qubits (c_ops cd)) (c_stabs (c_ops cd)) allow side (fac (nth i (c_logicals (c_ops cd)) row0))) ->
  forall py fb, pm_contract py -> fb_contract fb ->
  exists sg dp df, new_sgraph (Z.to_nat rounds) (c_stabs (c_ops cd)) None = Ok sg /\ x_new py_new sg = Ok dp /\ x_new fb_new sg = Ok df /\
    forall N m e anc s0, rated N m cd e x is anc ->
      (er_erasure e = [] -> (error_rate N m (py_correction py dp) s0 cd e x anc <= chance_of_price 2 dist cd e allow side)%Q) /\
      (error_rate N m (fb_correction fb df) s0 cd e x anc <= chance_of_price 2 dist cd e allow side)%Q.
Proof.
  intros rounds cd dist x is allow side PR HR EI NE LI DB py fb CP CF.
  destruct (protected rounds cd is dist PR LI HR) as (XC & ER & G & _ & DI).
  destruct (C61_memory py rounds cd dist x is CP PR HR EI NE LI) as (sg & dp & ES & EP & HP).
  destruct (C61_fusion_memory fb rounds cd dist x is CF PR HR EI NE LI) as (sg' & df & ES' & EF & HF). rewrite ES in ES'. injection ES' as <-.
  rewrite <- ER in *. exists sg, dp, df. split; [auto|]. split; [auto|]. split; [auto|]. intros N m e anc s0 RA. split; [intros EE|];
    apply (rate_le N m cd e x is anc s0 _ 2 dist allow side XC RA); intros sm E K F SH EM FF TP.
  - specialize (EM EE). destruct (HP sm E K F SH) as (d' & fr & D1 & D2); [rewrite EM; auto|auto| |].
    + intros i Ii. exists allow, side. split; [auto|]. rewrite EM, fault_price in TP. exact TP.
    + exists fr. split; [|auto]. unfold py_correction. rewrite D1. reflexivity.
  - destruct (HF sm E K F SH FF) as (d' & fr & D1 & D2).
    + intros i Ii. exists allow, side. auto.
    + exists fr. split; [|auto]. unfold fb_correction. rewrite D1. reflexivity.
Qed.
Print Assumptions C68_matching.

(** Without erasures: the chance of the histories which cost the distance or more, times y to the
    power k, is at most the product of the means of y to the power of the number of faults of each
    qubit and each result, if fewer than k faults cost less than the distance. *)
Theorem C68_tail : forall a dist cd e allow side k y, 0 < a -> probabilities e -> unit_errors e -> er_erasure e = [] ->
  a * (k - 1) < dist -> (1 <= y)%Q ->
  (chance_of_price a dist cd e allow side * power y k <= fault_bound cd e allow side y)%Q.
Proof.
  intros a dist cd e allow side k y A PB U EE LK Y1. unfold chance_of_price, fault_bound. cbv zeta.
  set (n := n_data_qubits (c_ops cd)). set (ns := n_stabgens (c_ops cd)). set (rounds := Z.to_nat (c_rounds cd)).
  assert (YK := power_ge1 y k Y1).
  apply Qle_trans with (sum_over (histories n ns rounds) (fun h => history_chance e n ns h * power y (faults allow side h)))%Q.
  - rewrite Qmult_comm, <- sum_scale, sum_filter. apply sum_le. intros h Ih.
    assert (CH := history_nonneg e U PB n ns h). apply history_shape in Ih as [LH FH].
    assert (YF := power_ge1 y (faults allow side h) Y1).
    destruct (dist <=? history_price a cd e allow side h) eqn:P; [|nra]. apply Nat.leb_le in P. unfold history_price, erasures_of in P. rewrite EE in P. fold n in P.
    rewrite (price_faults a n ns _ allow side h eq_refl FH) in P.
    assert (KF : k <= faults allow side h) by (destruct (le_lt_dec k (faults allow side h)); [auto|]; exfalso; assert (a * faults allow side h <= a * (k - 1)) by (apply Nat.mul_le_mono_l; lia); lia).
    assert (M := power_mono y k (faults allow side h) Y1 KF). nra.
  - rewrite history_sum. apply Qle_lteq. right. apply Qmult_comp; [|reflexivity].
    assert (E : (product (map (qubit_sum e allow y) (seq 0 n)) == product (map (qubit_factor e allow y) (seq 0 n)))%Q) by (apply product_ext; intros; apply qubit_sum_factor; auto).
    revert E. generalize (product (map (qubit_sum e allow y) (seq 0 n))), (product (map (qubit_factor e allow y) (seq 0 n))). intros u c E. clear -E. induction rounds as [|r IH]; [reflexivity|]. rewrite !power_S, IH, E. reflexivity.
Qed.
Print Assumptions C68_tail.

(** So all error rates fall like a power of the error probabilities. *)
Theorem C68_power : forall cls rounds cd dist x is allow side, protects rounds cd is dist -> (1 <= rounds)%Z ->
  logical_ops_to_indices (c_ops cd) x = Ok is -> is <> [] -> (forall i, In i is -> i < n_logical_ops (c_ops cd)) ->
  (forall i, In i is -> detected_by (n_data_qubits (c_ops cd)) (c_stabs (c_ops cd)) allow side (fac (nth i (c_logicals (c_ops cd)) row0))) ->
  forall py fb, pm_contract py -> fb_contract fb ->
  exists sg d dp df bound, new_sgraph (Z.to_nat rounds) (c_stabs (c_ops cd)) None = Ok sg /\ new_interface cls sg = Ok d /\ x_new py_new sg = Ok dp /\ x_new fb_new sg = Ok df /\
    forall fuel N m e anc s0 k y, bound <= fuel -> rated N m cd e x is anc -> er_erasure e = [] -> (1 <= y)%Q ->
      (3 * (k - 1) < dist -> (error_rate N m (uf_correction fuel d) s0 cd e x anc * power y k <= fault_bound cd e allow side y)%Q) /\
      (2 * (k - 1) < dist -> (error_rate N m (py_correction py dp) s0 cd e x anc * power y k <= fault_bound cd e allow side y)%Q /\
                             (error_rate N m (fb_correction fb df) s0 cd e x anc * power y k <= fault_bound cd e allow side y)%Q).
Proof.
  intros cls rounds cd dist x is allow side PR HR EI NE LI DB py fb CP CF.
  destruct (C68_bound cls rounds cd dist x is allow side PR HR EI NE LI DB) as (sg & d & b & ES & ED & B).
  destruct (C68_matching rounds cd dist x is allow side PR HR EI NE LI DB py fb CP CF) as (sg' & dp & df & ES' & EP & EF & M). rewrite ES in ES'. injection ES' as <-.
  exists sg, d, dp, df, b. do 4 (split; [auto|]). intros fuel N m e anc s0 k y LF RA EE Y1.
  specialize (B fuel N m e anc s0 LF RA). destruct (M N m e anc s0 RA) as [M1 M2]. specialize (M1 EE).
  assert (U := grid_unit N e (ra_grid _ _ _ _ _ _ _ RA)). assert (PB := ra_probs _ _ _ _ _ _ _ RA). assert (YK : (0 <= power y k)%Q) by (pose proof (power_ge1 y k Y1); lra).
  assert (T : forall a r, (r <= chance_of_price a dist cd e allow side)%Q -> 0 < a -> a * (k - 1) < dist -> (r * power y k <= fault_bound cd e allow side y)%Q).
  { intros a r L A LK. eapply Qle_trans; [apply Qmult_le_compat_r; [exact L|exact YK]|]. apply C68_tail; auto. }
  split; [intros LK; apply (T 3); auto; lia|]. intros LK. split; apply (T 2); auto; lia.
Qed.
Print Assumptions C68_power.

(** The repetition code with 13 qubits and 3 rounds, bit flips and wrong results with probability
    1/1000 each: the error rate for the logical operator Z is below 4 in 10^8 with union-find
    decoding and below 4 in 10^12 with the matching decoders. *)
Definition flip_errors : errors :=
  mkErrors (map (fun q => (Z.of_nat q, [("x", 1 # 1000)%Q])) (seq 0 13)) [] (map (fun q => (Z.of_nat q, [("p", 1 # 1000)%Q])) (seq 13 12)) [] [] [] [] [].
Lemma flip_built : (do cd <- make_repetition 3 13;
  Ok ((n_data_qubits (c_ops cd), (n_stabgens (c_ops cd), c_rounds cd)), (n_logical_ops (c_ops cd), logical_ops_to_indices (c_ops cd) (LogLetters "Z")))) = Ok ((13, (12, 3%Z)), (2, Ok [1])).
Proof. vm_compute. reflexivity. Qed.
Lemma flip_named : named_errors 13 12 flip_errors.
Proof.
  split; unfold named, named2; cbn [er_pauli er_erasure er_measurement er_CX er_CZ er_H er_M er_R flip_errors]; try (intros; contradiction).
  - intros q p I. apply in_map_iff in I as (j & E & I). injection E as <- <-. apply in_seq in I. split; [unfold data_number; lia|]. intros k y [E|[]]. injection E as <- <-. cbn; auto.
  - intros q p I. apply in_map_iff in I as (j & E & I). injection E as <- <-. apply in_seq in I. split; [unfold ancilla_number; lia|]. intros k y [E|[]]. injection E as <- <-. cbn; auto.
Qed.
Lemma flip_probs : probabilities flip_errors.
Proof.
  split; cbn [er_pauli er_erasure er_measurement er_CX er_CZ er_H er_M er_R flip_errors]; try (intros; contradiction).
  - intros q p I. apply in_map_iff in I as (j & E & I). injection E as <- <-. split; [|vm_compute; discriminate]. intros k [<-|[<-|[<-|[]]]]; vm_compute; discriminate.
  - intros q p I. apply in_map_iff in I as (j & E & I). injection E as <- <-. vm_compute. split; discriminate.
Qed.
Lemma flip_grid : on_grid_errors 1000 flip_errors.
Proof.
  assert (G : on_grid 1000 (1 # 1000)) by (split; [vm_compute; split; discriminate|]; exists 1; reflexivity).
  repeat split; cbn [er_pauli er_erasure er_measurement flip_errors] in *; intros; try contradiction.
  all: match goal with H : In _ (map _ _) |- _ => apply in_map_iff in H as (j & E & I) end; injection E as <- <-; match goal with H : In _ [_] |- _ => destruct H as [H|[]]; injection H as <- <- end; apply G.
Qed.
Example C68_example : forall py fb, pm_contract py -> fb_contract fb ->
  exists cd sg d dp df bound, make_repetition 3 13 = Ok cd /\ new_sgraph 3 (c_stabs (c_ops cd)) None = Ok sg /\ new_interface NoWeights sg = Ok d /\
    x_new py_new sg = Ok dp /\ x_new fb_new sg = Ok df /\
  forall fuel s0 m, bound <= fuel -> (forall c, generate_qec_circuit cd flip_errors (LogLetters "Z") true = Ok c -> calls c <= m) ->
  (error_rate 1000 m (uf_correction fuel d) s0 cd flip_errors (LogLetters "Z") true < 4 # 100000000)%Q /\
  (error_rate 1000 m (py_correction py dp) s0 cd flip_errors (LogLetters "Z") true < 4 # 1000000000000)%Q /\
  (error_rate 1000 m (fb_correction fb df) s0 cd flip_errors (LogLetters "Z") true < 4 # 1000000000000)%Q.
Proof.
  intros py fb CP CF.
  pose proof flip_built as B. apply bound_ok in B. destruct B as (cd & EC & B). apply ok_pair in B. destruct B as [B1 B2].
  apply (f_equal (@Ok _)) in B1, B2. apply ok_pair in B1, B2. destruct B1 as [EN B1], B2 as [EL EI]. apply (f_equal (@Ok _)) in B1. apply ok_pair in B1. destruct B1 as [ES ER].
  destruct (C68_power NoWeights 3 cd 13 (LogLetters "Z") [1] (fun _ => true) (fun _ => true)) with (py := py) (fb := fb) as (sg & d & dp & df & b & G1 & G2 & G3 & G4 & P).
  - right. left. exists 13%Z. split; [lia|]. split; [reflexivity|]. split; [exact EC|]. intros i [<-|[]]. reflexivity.
  - lia.
  - exact EI.
  - clear. discriminate.
  - clear -EL. intros i [<-|[]]. rewrite EL. lia.
  - intros i _. apply detected_all.
  - exact CP.
  - exact CF.
  - exists cd, sg, d, dp, df, b. split; [exact EC|]. split; [exact G1|]. split; [exact G2|]. split; [exact G3|]. split; [exact G4|]. intros fuel s0 m LF CL.
    assert (RA : rated 1000 m cd flip_errors (LogLetters "Z") [1] true).
    { split; [repeat split|rewrite EN, ES; exact flip_named|exact flip_probs|left; reflexivity|exact flip_grid|rewrite ER; lia|exact EI|eapply letters_compatible; exact EI|left; reflexivity|exact CL]. }
    assert (T : forall k y r p, (0 < power y k)%Q -> (r * power y k <= fault_bound cd flip_errors (fun _ => true) (fun _ => true) y)%Q ->
      (power (product (map (qubit_factor flip_errors (fun _ => true) y) (seq 0 13))) 3 * power (product (map (fun s => if true then result_factor flip_errors y (13 + s) else 1) (seq 0 12))) 2 < p * power y k)%Q -> (r < p)%Q).
    { intros k y r p PY LE LT. destruct (Qlt_le_dec r p) as [L|L]; [exact L|]. exfalso. apply Qlt_not_le in LT. apply LT. unfold fault_bound in LE. cbv zeta in LE. rewrite EN, ES, ER in LE.
      eapply Qle_trans; [|exact LE]. apply Qmult_le_compat_r; [exact L|]. apply Qlt_le_weak. exact PY. }
    split; [|split].
    + apply (T 5 86%Q); [vm_compute; reflexivity| |vm_compute; reflexivity]. apply (P fuel 1000%positive m flip_errors true s0 5 86%Q LF RA eq_refl (Qle_bool_imp_le 1 86 eq_refl)). clear. lia.
    + apply (T 7 125%Q); [vm_compute; reflexivity| |vm_compute; reflexivity]. apply (P fuel 1000%positive m flip_errors true s0 7 125%Q LF RA eq_refl (Qle_bool_imp_le 1 125 eq_refl)). clear. lia.
    + apply (T 7 125%Q); [vm_compute; reflexivity| |vm_compute; reflexivity]. apply (P fuel 1000%positive m flip_errors true s0 7 125%Q LF RA eq_refl (Qle_bool_imp_le 1 125 eq_refl)). clear. lia.
Qed.
