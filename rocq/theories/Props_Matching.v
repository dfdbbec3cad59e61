(** Property theorem C61: decoders which call PyMatching or Fusion Blossom. *)
Require Import List Bool Arith ZArith QArith Lqa Lia String Relations.
From Verif Require Import Base BaseProofs QSpec PauliModel PauliAlg MeasureProofs GraphSpec GraphProofs LatticeModel LatticeSpec LatticeOps
  CodesModel CodesSpec GeneratorModel GeneratorSpec MemorySem ErasureModel SyngraphModel SyngraphFinal UnionFindMetric
  SyngraphProofs SyngraphErrors GraphlikeCodes Props_Syngraph DecoderSpec DecoderModel DecoderProofs DecoderObjects DecoderHistory DecoderCheck Props_Decoder
  CircuitModel SimModel Props_Circuit Props_Generator DecoderFaults DecoderEven FaultSpec Props_DecoderDistance CodeDistanceSmall Props_CodeDistance
  MatchingModel MatchingSpec MatchingComp MatchingProofs MatchingGraph MatchingDecode MatchingMain MatchingBrute.
Import ListNotations.
Local Open Scope string_scope.
Local Open Scope nat_scope.
Local Open Scope list_scope.
Notation total := DecoderSpec.total.

(** [PyMatchingDecoder] and [FusionBlossomDecoder] objects (interfaces.py) for a code with the generators
    [gens], in any state which calls of their methods lead to. *)
Definition py_interface (solver : pm_graph -> list bool -> Res (list bool)) := x_interface pm_graph py_new (py_decode solver).
Definition fb_interface (solver : fb_graph -> list nat -> list nat -> Res (list nat)) := x_interface fb_graph fb_new (fb_decode solver).
Definition right_shape (rounds n : nat) (er : option (list (list bool))) : bool :=
  match er with None => true | Some q => has_shape q rounds n end.

(** * Outcomes *)
Lemma py_good solver rounds n gens w d : pm_contract solver -> generators n gens -> weights_fit n (List.length gens) w -> 0 < rounds ->
  py_interface solver rounds gens w d -> xgood pm_graph py_new rounds n gens w d.
Proof.
  intros C G Hw Hr. apply (x_interface_good pm_graph py_new (py_decode solver) sane (fun _ => py_cost) any_erased py_new_cases py_new_same (py_dec_cases solver C)); auto.
Qed.
Lemma py_outcome solver rounds n gens w d er syn : pm_contract solver -> generators n gens -> weights_fit n (List.length gens) w -> 0 < rounds ->
  py_interface solver rounds gens w d -> right_shape rounds n er = true -> has_shape syn rounds (List.length gens) = true ->
  x_outcome pm_graph py_new (fun _ => py_cost) any_erased rounds n gens w d er syn (x_decode (py_decode solver) er syn d).
Proof.
  intros C G Hw Hr PI SE SS.
  pose proof (x_decode_outcome pm_graph py_new (py_decode solver) sane (fun _ => py_cost) any_erased py_new_cases py_new_same (py_dec_cases solver C)
    rounds n gens w d (py_good _ _ _ _ _ _ C G Hw Hr PI) er syn) as H. change (shaped rounds n er) with (right_shape rounds n er) in H. rewrite SE, SS in H. exact H.
Qed.
Lemma fb_ok solver rounds n gens w d : fb_contract solver -> generators n gens -> weights_fit n (List.length gens) w -> 0 < rounds ->
  fb_interface solver rounds gens w d -> xgood fb_graph fb_new rounds n gens w d.
Proof.
  intros C G Hw Hr. apply (x_interface_good fb_graph fb_new (fb_decode solver) scalable fb_cost none_refused fb_new_cases fb_new_same (fb_dec_cases solver C)); auto.
Qed.
Lemma fb_outcome solver rounds n gens w d er syn : fb_contract solver -> generators n gens -> weights_fit n (List.length gens) w -> 0 < rounds ->
  fb_interface solver rounds gens w d -> right_shape rounds n er = true -> has_shape syn rounds (List.length gens) = true ->
  x_outcome fb_graph fb_new fb_cost none_refused rounds n gens w d er syn (x_decode (fb_decode solver) er syn d).
Proof.
  intros C G Hw Hr PI SE SS.
  pose proof (x_decode_outcome fb_graph fb_new (fb_decode solver) scalable fb_cost none_refused fb_new_cases fb_new_same (fb_dec_cases solver C)
    rounds n gens w d (fb_ok _ _ _ _ _ _ C G Hw Hr PI) er syn) as H. change (shaped rounds n er) with (right_shape rounds n er) in H. rewrite SE, SS in H. exact H.
Qed.

Lemma unmarked g er : (forall t q, erased er t q = false) -> forall i, marked g er i = false.
Proof. intros N i. unfold marked. destruct er as [e|]; [|destruct (kind_of g i); auto]. destruct (kind_of g i); auto. apply (N _ _). Qed.
Lemma unmarked_refused g er : (forall t q, erased er t q = false) -> ~ refused any_erased g er.
Proof.
  intros N (k & _ & _ & R). unfold any_erased in R. apply existsb_exists in R. destruct R as (x & I & ->). apply in_map_iff in I. destruct I as (i & E & _).
  rewrite unmarked in E by auto. discriminate.
Qed.

(** * C61 PyMatching *)
(** Calls without erased qubits: if some errors and wrong results whose weights are not infinite
    explain the syndrome, the result is the product of the errors of a history which explains it
    and has minimum weight among all histories which do; otherwise a [ValueError] is raised. *)
Theorem C61_most_likely : forall solver rounds n gens w d, pm_contract solver -> generators n gens ->
  weights_fit n (List.length gens) w -> 0 < rounds -> sane_weights w n (List.length gens) -> py_interface solver rounds gens w d ->
  forall er syn, right_shape rounds n er = true -> has_shape syn rounds (List.length gens) = true -> (forall t q, erased er t q = false) ->
  ((exists E F, explained w rounds n gens syn E F) /\
   exists d' fr E F, x_decode (py_decode solver) er syn d = Ok (d', fr) /\ py_interface solver rounds gens w d' /\ List.length (ops fr) = n /\
     explained w rounds n gens syn E F /\ (forall q, q < n -> fac fr q = total rounds E q) /\
     forall E' F', explained w rounds n gens syn E' F' ->
       (history_weight w rounds n (List.length gens) E F <= history_weight w rounds n (List.length gens) E' F')%Q) \/
  (~ (exists E F, explained w rounds n gens syn E F) /\ x_decode (py_decode solver) er syn d = Err ValueError).
Proof.
  intros solver rounds n gens w d C G Hw Hr SW PI er syn SE SS NE.
  pose proof (py_good _ _ _ _ _ _ C G Hw Hr PI) as GD. pose proof (xg_uses _ _ _ _ _ _ _ GD) as U.
  destruct (py_outcome _ _ _ _ _ _ _ _ C G Hw Hr PI SE SS) as [(XP & _ & d' & fr & R & GD' & EE & EK & EV & EO & AC & OUT & EX & FR & CH)|(NX & R)].
  - left. pose proof (xg_uses _ _ _ _ _ _ _ GD') as U'.
    destruct (result_history_is rounds n gens w (xd_graph d') syn fr U') as (L & HX & HF); auto.
    { intros i X. unfold active. rewrite EO. apply AC; auto. }
    { rewrite EE, EV. unfold vertex_bit in *. rewrite EV. exact EX. }
    split; [eauto|]. exists d', fr, (result_errors rounds n (sg_result (xd_graph d'))), (result_flips rounds n gens (sg_result (xd_graph d'))).
    split; [auto|]. split; [eapply xi_used; eauto|]. split; [auto|]. split; [auto|]. split; [auto|]. intros E' F' EX'.
    rewrite <- (result_weight rounds n gens w (xd_graph d) (xd_graph d') U U' EE EK).
    eapply Qle_trans; [|eapply Qle_trans; [apply (py_cheapest rounds n gens w (xd_graph d) U SW syn er (sg_result (xd_graph d')) E' F' (fun _ => true) OUT CH); auto|]].
    + apply Qle_refl.
    + pose proof (history_cost rounds n gens w (xd_graph d) U (fun _ => true) (fun _ => true) E' F') as H.
      unfold history_weight, those_errors, those_results in *. cbn [andb fst snd] in *. rewrite <- H. apply Qle_lteq. right. apply qsum_ext. intros i _.
      unfold relevant. assert (rel_kind (fun _ => true) (fun _ => true) (kind_of (xd_graph d) i) = true) as -> by (destruct (kind_of (xd_graph d) i); auto). reflexivity.
  - right. split; auto. intros (E & F & X). destruct NX as [NX|NX]; [apply (unmarked_refused _ _ NE NX)|]. apply NX.
    apply (history_explainable rounds n gens w _ syn E F); auto. apply sane_none_certain with (rounds := rounds) (g := xd_graph d); auto.
Qed.
Print Assumptions C61_most_likely.

(** If twice the weight of those faults which can change the value of the logical operator [l]
    is less than the weight of every operator which commutes with the generators but not with
    [l], errors and correction together commute with [l]. *)
Theorem C61_weighted : forall solver rounds n gens w d, pm_contract solver -> generators n gens ->
  weights_fit n (List.length gens) w -> 0 < rounds -> sane_weights w n (List.length gens) -> py_interface solver rounds gens w d ->
  forall er syn E F, right_shape rounds n er = true -> has_shape syn rounds (List.length gens) = true -> (forall t q, erased er t q = false) ->
  explained w rounds n gens syn E F ->
  exists d' fr, x_decode (py_decode solver) er syn d = Ok (d', fr) /\ List.length (ops fr) = n /\
    forall l D allow side, weight_distance w n gens l D -> detected_by n gens allow side l ->
      (2 * history_weight w rounds n (List.length gens) (those_errors allow E) (those_results side F) < D)%Q ->
      anti (seq 0 n) l (fun q => pxor (fac fr q) (total rounds E q)) = false.
Proof.
  intros solver rounds n gens w d C G Hw Hr SW PI er syn E F SE SS NE HX.
  pose proof (py_good _ _ _ _ _ _ C G Hw Hr PI) as GD. pose proof (xg_uses _ _ _ _ _ _ _ GD) as U.
  destruct (py_outcome _ _ _ _ _ _ _ _ C G Hw Hr PI SE SS) as [(XP & _ & d' & fr & R & GD' & EE & EK & EV & EO & AC & OUT & EX & FR & CH)|(NX & R)].
  2: { exfalso. destruct NX as [NX|NX]; [apply (unmarked_refused _ _ NE NX)|]. apply NX.
    apply (history_explainable rounds n gens w _ syn E F); auto. apply sane_none_certain with (rounds := rounds) (g := xd_graph d); auto. }
  pose proof (xg_uses _ _ _ _ _ _ _ GD') as U'.
  exists d', fr. split; auto. split; [apply (frame_total _ _ _ _ _ _ U' FR)|]. intros l D allow side WD DET LT.
  apply (frame_corrected rounds n gens w (xd_graph d) (xd_graph d') fr syn E F l allow side D (ecost w (xd_graph d))); auto.
  - apply (graph_weight_distance rounds n gens w (xd_graph d) U SW l D WD).
  - eapply Qle_lt_trans; [apply xor_cost; intros i I; apply in_seq in I; apply (ecost_pos rounds n gens w (xd_graph d) U SW); lia|].
    eapply Qle_lt_trans; [apply Qplus_le_compat; [apply (py_cheapest rounds n gens w (xd_graph d) U SW syn er (sg_result (xd_graph d')) E F (relevant (xd_graph d) allow side) OUT CH); auto;
      apply (relevant_same rounds n gens w (xd_graph d) U l allow side DET)|apply Qle_refl]|].
    rewrite (history_cost rounds n gens w (xd_graph d) U allow side E F). eapply Qle_lt_trans; [|exact LT]. lra.
Qed.
Print Assumptions C61_weighted.

(** * Fusion Blossom *)
(** Without weights, or with the same weight for all errors: errors and wrong results which have
    not been announced cost 2, erased qubits 1. *)
Theorem C61_fusion : forall solver rounds n gens w d, fb_contract solver -> generators n gens -> weights_fit n (List.length gens) w -> 0 < rounds ->
  (w = None \/ exists a x, w = Some a /\ (0 < x)%Q /\ (forall q, q < n -> weight_at (w_x a) q = Fin x /\ weight_at (w_z a) q = Fin x) /\
    forall s, s < List.length gens -> weight_at (w_meas a) s = Fin x) ->
  fb_interface solver rounds gens w d ->
  forall er syn E F, right_shape rounds n er = true -> has_shape syn rounds (List.length gens) = true -> explained w rounds n gens syn E F ->
  exists d' fr, x_decode (fb_decode solver) er syn d = Ok (d', fr) /\ fb_interface solver rounds gens w d' /\ List.length (ops fr) = n /\
    forall l dist allow side, logical_distance n gens l dist -> detected_by n gens allow side l ->
      total_price 2 1 rounds n gens allow side er E F < dist ->
      anti (seq 0 n) l (fun q => pxor (fac fr q) (total rounds E q)) = false.
Proof.
  intros solver rounds n gens w d C G Hw Hr SM PI er syn E F SE SS HX.
  assert (SW : exists len, same_weights n (List.length gens) w len).
  { destruct SM as [->|(a & x & -> & P & H1 & H2)]; [exists 2; reflexivity|exists 4; split; eauto]. }
  destruct SW as (len & SAME). pose proof (fb_ok _ _ _ _ _ _ C G Hw Hr PI) as GD. pose proof (xg_uses _ _ _ _ _ _ _ GD) as U.
  assert (SW : sane_weights w n (List.length gens)) by (eapply same_sane; eauto).
  destruct (fb_outcome _ _ _ _ _ _ _ _ C G Hw Hr PI SE SS) as [(XP & _ & d' & fr & R & GD' & EE & EK & EV & EO & AC & OUT & EX & FR & CH)|(NX & R)].
  2: { exfalso. destruct NX as [(k & _ & _ & NX)|NX]; [discriminate|]. apply NX.
    apply (history_explainable rounds n gens w _ syn E F); auto. apply sane_none_certain with (rounds := rounds) (g := xd_graph d); auto. }
  pose proof (xg_uses _ _ _ _ _ _ _ GD') as U'.
  exists d', fr. split; auto. split; [eapply xi_used; eauto|]. split; [apply (frame_total _ _ _ _ _ _ U' FR)|]. intros l dist allow side LD DET LT.
  destruct (same_fin _ _ _ _ _ _ U SAME) as [FIN _].
  apply (frame_corrected rounds n gens w (xd_graph d) (xd_graph d') fr syn E F l allow side (inject_Z (Z.of_nat dist)) (fun _ => 1%Q)); auto.
  - intros sel _ B P. pose proof (graph_distance rounds n gens w (xd_graph d) U l dist LD sel B P) as H.
    apply Qle_trans with (qsum (fun i => inject_Z (Z.of_nat (nb (sel i)))) (seq 0 (List.length (sg_ends (xd_graph d))))).
    + rewrite qsum_nat, <- Zle_Qle. lia.
    + apply qsum_le. intros i _. destruct (sel i); apply Qle_refl.
  - eapply Qle_lt_trans; [apply (fb_even_bound rounds n gens w (xd_graph d) U len SAME syn er (sg_result (xd_graph d')) E F (relevant (xd_graph d) allow side) OUT CH); auto;
      apply (relevant_same rounds n gens w (xd_graph d) U l allow side DET)|].
    rewrite <- Zlt_Qlt. apply inj_lt. eapply Nat.le_lt_trans; [|exact LT].
    apply (price_bound2 rounds n gens w (xd_graph d) U 2 1 allow side er E F); auto. apply (ex_first _ _ _ _ _ _ _ HX).
Qed.
Print Assumptions C61_fusion.

(** * Numbers of faults *)
Lemma count_weight rounds n gens allow side E F :
  (history_weight None rounds n (List.length gens) (those_errors allow E) (those_results side F) <= inject_Z (Z.of_nat (fault_count rounds n gens allow side E F)))%Q.
Proof.
  unfold fault_count, history_weight. rewrite !count_sum, !sum_prod, Nat2Z.inj_add, inject_Z_plus. apply Qplus_le_compat.
  - cbn [fst snd].
    assert (X : forall p, sum (fun t => sum (fun q => if error_part p (E t q) then 1 else 0) (seq 0 n)) (seq 0 rounds) * nb (allow p) =
        sum (fun t => sum (fun q => if allow p && error_part p (E t q) then 1 else 0) (seq 0 n)) (seq 0 rounds)).
    { intros p. rewrite Nat.mul_comm, <- sum_mult. apply sum_ext. intros t _. rewrite <- sum_mult. apply sum_ext. intros q _. destruct (allow p), (error_part p (E t q)); auto. }
    assert (Y : sum (fun p => sum (fun t => sum (fun q => if error_part p (E t q) then 1 else 0) (seq 0 n)) (seq 0 rounds)) (filter allow [PX; PZ]) =
      sum (fun t => sum (fun q => (if allow PX && fst (E t q) then 1 else 0) + (if allow PZ && snd (E t q) then 1 else 0)) (seq 0 n)) (seq 0 rounds)).
    { rewrite (sum_ext _ (fun t => sum (fun q => if allow PX && error_part PX (E t q) then 1 else 0) (seq 0 n) +
        sum (fun q => if allow PZ && error_part PZ (E t q) then 1 else 0) (seq 0 n)) (seq 0 rounds)) by (intros; apply sum_plus).
      rewrite sum_plus, <- !X. cbn [filter]. assert (Z : forall f : pauli1 -> nat, sum f [] = 0) by reflexivity. destruct (allow PX), (allow PZ); rewrite ?sum_cons, Z; cbn [nb]; lia. }
    rewrite Y, <- qsum_nat. apply qsum_le. intros t _. rewrite <- qsum_nat. apply qsum_le. intros q _. unfold those_errors. cbn [fst snd fault_weight].
    destruct (allow PX && fst (E t q)), (allow PZ && snd (E t q)); (intros Z; vm_compute in Z; discriminate).
  - cbn [fst snd]. apply Qle_trans with (qsum (fun t => qsum (fun s => if those_results side F t s then fault_weight None w_meas s else 0%Q) (seq 0 (List.length gens))) (seq 0 rounds)).
    + destruct rounds as [|k]; [apply Qle_refl|]. cbn [Nat.sub]. rewrite Nat.sub_0_r. cbn [seq]. rewrite qsum_cons. rewrite <- (Qplus_0_l (qsum _ (seq 1 k))) at 1.
      apply Qplus_le_compat; [|apply Qle_refl]. apply qsum_nonneg. intros s _. destruct (those_results side F 0 s); (intros Z; vm_compute in Z; discriminate).
    + rewrite <- qsum_nat. apply qsum_le. intros t _. rewrite <- qsum_nat. apply qsum_le. intros s _. unfold those_results. cbn [fault_weight]. destruct (side s && F t s); (intros Z; vm_compute in Z; discriminate).
Qed.
Lemma count_distance n gens l dist : logical_distance n gens l dist -> weight_distance None n gens l (inject_Z (Z.of_nat dist)).
Proof.
  intros LD P _ C A. specialize (LD P C A). unfold operator_weight in LD. rewrite count_sum in LD.
  apply Qle_trans with (inject_Z (Z.of_nat (sum (fun q => if fst (P q) || snd (P q) then 1 else 0) (seq 0 n)))); [rewrite <- Zle_Qle; lia|].
  rewrite <- qsum_nat. apply qsum_le. intros q _. cbn [fault_weight]. destruct (fst (P q)), (snd (P q)); (intros Z; vm_compute in Z; discriminate).
Qed.

(** Without weights: fewer faults than half of the distance are corrected. *)
Theorem C61_half : forall solver rounds n gens d, pm_contract solver -> generators n gens -> 0 < rounds -> py_interface solver rounds gens None d ->
  forall er syn E F, right_shape rounds n er = true -> has_shape syn rounds (List.length gens) = true -> (forall t q, erased er t q = false) ->
  explained None rounds n gens syn E F ->
  exists d' fr, x_decode (py_decode solver) er syn d = Ok (d', fr) /\ List.length (ops fr) = n /\
    forall l dist allow side, logical_distance n gens l dist -> detected_by n gens allow side l ->
      2 * fault_count rounds n gens allow side E F < dist ->
      anti (seq 0 n) l (fun q => pxor (fac fr q) (total rounds E q)) = false.
Proof.
  intros solver rounds n gens d C G Hr PI er syn E F SE SS NE HX.
  destruct (C61_weighted solver rounds n gens None d C G I Hr I PI er syn E F SE SS NE HX) as (d' & fr & R & LF & H). exists d', fr. split; [auto|]. split; [auto|].
  intros l dist allow side LD DET LT. apply (H l (inject_Z (Z.of_nat dist)) allow side (count_distance _ _ _ _ LD) DET).
  pose proof (count_weight rounds n gens allow side E F) as CW.
  assert (X : (inject_Z 2 * inject_Z (Z.of_nat (fault_count rounds n gens allow side E F)) < inject_Z (Z.of_nat dist))%Q) by (rewrite <- inject_Z_mult, <- Zlt_Qlt; lia).
  change (inject_Z 2) with 2%Q in X. lra.
Qed.
Print Assumptions C61_half.

(** * Erasures *)
(** PyMatching: erased qubits lead to a [ValueError], unless the generators cannot detect errors on
    them, or only the same generators which detect another single error, or errors on them have
    infinite weight. *)
Theorem C61_erasures : forall solver rounds n gens w d, pm_contract solver -> generators n gens ->
  weights_fit n (List.length gens) w -> 0 < rounds -> py_interface solver rounds gens w d ->
  forall er syn, right_shape rounds n er = true -> has_shape syn rounds (List.length gens) = true ->
  forall t q p s, t < rounds -> q < n -> p = PX \/ p = PZ -> erased er t q = true -> s < List.length gens ->
  clashes p (fac (nth s gens row0) q) = true -> has_twin n gens p q = false ->
  finite_error w (if is_x p then w_x else w_z) q ->
  x_decode (py_decode solver) er syn d = Err ValueError.
Proof.
  intros solver rounds n gens w d C G Hw Hr PI er syn SE SS t q p s Lt Lq PP ER Ls CL TW FE.
  pose proof (py_good _ _ _ _ _ _ C G Hw Hr PI) as GD. pose proof (xg_uses _ _ _ _ _ _ _ GD) as U.
  destruct (py_outcome _ _ _ _ _ _ _ _ C G Hw Hr PI SE SS) as [(_ & NR & _)|(_ & R)]; [|exact R]. exfalso. apply NR.
  destruct (C30_edges _ _ _ _ _ U) as ((_ & VV) & _ & KQ & _ & Q). destruct (KQ t q p Lt Lq PP) as (i & Li & (op & K) & _).
  destruct (Q i Li) as (_ & VB & KI). rewrite K in KI. destruct KI as (_ & _ & _ & KI).
  assert (IV : In (t, s) (sg_verts (xd_graph d))) by (apply VV; auto). apply In_nth_error in IV. destruct IV as (v & Ev).
  assert (Iv : In v (nth i (sg_ends (xd_graph d)) [])) by (apply (KI v t s Ev); auto).
  assert (A : active (xd_graph d) i).
  { apply (C31_parallel _ _ _ _ _ U i Li). split.
    - destruct (weight_kind _ _ _ _ _ _ U Li) as [-> _]. rewrite K. cbn [kind_weight]. destruct w as [a|]; auto.
      destruct PP as [-> | ->]; exact FE.
    - intros j Lj D P. rewrite (parallel_twin rounds n gens w (xd_graph d) U i j t op q p Li Lj D P K) in TW. discriminate. }
  destruct (C50_components _ _ _ _ _ U) as (CV & CK & _). destruct (CV v (VB v Iv)) as (c & Lc & CC).
  destruct (nth_error (sg_comps (xd_graph d)) c) as [k|] eqn:Ek; [|apply nth_error_None in Ek; lia].
  pose proof (nth_error_In _ _ Ek) as Ik. assert (Vk : In v (k_vidx k)) by (apply (CC c k Ek); auto).
  destruct (CK k Ik) as (_ & _ & _ & _ & _ & EI & _ & _ & LE & _). assert (Ie : In i (k_eidx k)) by (apply EI; eauto).
  exists k. split; auto. split; [intros Z; rewrite Z in LE; destruct (k_eidx k); [destruct Ie|discriminate]|].
  unfold any_erased. apply existsb_exists. exists true. split; auto. apply in_map_iff. exists i. split; auto. unfold marked. rewrite K. unfold erased in ER. destruct er; [auto|discriminate].
Qed.
Print Assumptions C61_erasures.

(** * Weights for Fusion Blossom *)
(** The weights are multiplied by 100 / max(weights) and rounded down.  The result is the product
    of the errors of a history which explains the syndrome and whose weight exceeds the minimum
    by at most a hundredth of the largest weight for each of its faults. *)
Theorem C61_fusion_weights : forall solver rounds n gens a d M, fb_contract solver -> generators n gens ->
  weights_fit n (List.length gens) (Some a) -> 0 < rounds -> sane_weights (Some a) n (List.length gens) ->
  (forall q, q < n -> (fault_weight (Some a) w_x q <= M)%Q /\ (fault_weight (Some a) w_z q <= M)%Q) ->
  (forall s, s < List.length gens -> (fault_weight (Some a) w_meas s <= M)%Q) ->
  fb_interface solver rounds gens (Some a) d ->
  forall er syn E' F', right_shape rounds n er = true -> has_shape syn rounds (List.length gens) = true -> (forall t q, erased er t q = false) ->
  explained (Some a) rounds n gens syn E' F' ->
  exists d' fr E F, x_decode (fb_decode solver) er syn d = Ok (d', fr) /\ fb_interface solver rounds gens (Some a) d' /\ List.length (ops fr) = n /\
    explained (Some a) rounds n gens syn E F /\ (forall q, q < n -> fac fr q = total rounds E q) /\
    (history_weight (Some a) rounds n (List.length gens) E F <=
     history_weight (Some a) rounds n (List.length gens) E' F' + M / 100 * history_weight None rounds n (List.length gens) E F)%Q.
Proof.
  intros solver rounds n gens a d M C G Hw Hr SW M1 M2 PI er syn E' F' SE SS NE HX.
  pose proof (fb_ok _ _ _ _ _ _ C G Hw Hr PI) as GD. pose proof (xg_uses _ _ _ _ _ _ _ GD) as U.
  destruct (fb_outcome _ _ _ _ _ _ _ _ C G Hw Hr PI SE SS) as [(XP & _ & d' & fr & R & GD' & EE & EK & EV & EO & AC & OUT & EX & FR & CH)|(NX & R)].
  2: { exfalso. destruct NX as [(k & _ & _ & NX)|NX]; [discriminate|]. apply NX.
    apply (history_explainable rounds n gens (Some a) _ syn E' F'); auto. apply sane_none_certain with (rounds := rounds) (g := xd_graph d); auto. }
  pose proof (xg_uses _ _ _ _ _ _ _ GD') as U'.
  destruct (result_history_is rounds n gens (Some a) (xd_graph d') syn fr U') as (L & HX' & HF); auto.
  { intros i X. unfold active. rewrite EO. apply AC; auto. }
  { rewrite EE, EV. unfold vertex_bit in *. rewrite EV. exact EX. }
  exists d', fr, (result_errors rounds n (sg_result (xd_graph d'))), (result_flips rounds n gens (sg_result (xd_graph d'))).
  split; [auto|]. split; [eapply xi_used; eauto|]. split; [auto|]. split; [auto|]. split; [auto|].
  rewrite <- (result_weight rounds n gens (Some a) (xd_graph d) (xd_graph d') U U' EE EK), <- (result_any None rounds n gens (Some a) (xd_graph d) (xd_graph d') U U' EE EK).
  assert (MX : forall i, i < List.length (sg_ends (xd_graph d)) -> is_inf (weight_of (xd_graph d) i) = false -> (ecost (Some a) (xd_graph d) i <= M)%Q).
  { intros i Li _. destruct (weight_kind _ _ _ _ _ _ U Li) as [_ K]. unfold ecost. destruct (kind_of (xd_graph d) i) as [t op q p|t s]; cbn [kind_cost]; [|apply M2; tauto].
    destruct K as (_ & Lq & [-> | ->]); apply M1; auto. }
  assert (SC : forall k, In k (sg_comps (xd_graph d)) -> k_edges k <> [] -> scalable (k_wt k)).
  { intros k Ik NEk. apply (In_nth _ _ SyngraphOps.comp0) in Ik. destruct Ik as (c & Lc & Ek).
    assert (Ic : In c (map fst (xd_decs d))).
    { rewrite (xg_comps _ _ _ _ _ _ _ GD). apply filter_In. split; [apply in_seq; lia|]. rewrite Ek. unfold has_edges. destruct (k_edges k); [congruence|auto]. }
    apply in_map_iff in Ic. destruct Ic as (x & Ex & Ix). pose proof (xg_objects _ _ _ _ _ _ _ GD x Ix) as N. rewrite Ex, Ek in N.
    assert (Ik : In k (sg_comps (xd_graph d))) by (rewrite <- Ek; apply nth_In; auto).
    destruct (fb_new_cases k (comp_proper _ _ _ _ _ _ U Ik NEk)) as [[A _]|(_ & e & E0)]; [auto|congruence]. }
  pose proof (fb_weighted rounds n gens a (xd_graph d) U SW M MX SC syn er (sg_result (xd_graph d')) E' F' (fun _ => true) (unmarked _ _ NE) OUT CH ltac:(auto) HX) as FW. cbn [andb] in FW.
  pose proof (history_any rounds n gens (Some a) (xd_graph d) U (Some a) (fun _ => true) (fun _ => true) E' F') as H.
  rewrite (qsum_ext _ (fun i => if happened E' F' (kind_of (xd_graph d) i) then ecost (Some a) (xd_graph d) i else 0%Q)) in H.
  2: { intros i _. unfold relevant. assert (rel_kind (fun _ => true) (fun _ => true) (kind_of (xd_graph d) i) = true) as -> by (destruct (kind_of (xd_graph d) i); auto). reflexivity. }
  rewrite H in FW. unfold history_weight, those_errors, those_results in FW |- *. cbn [andb fst snd] in FW.
  eapply Qle_trans; [|apply Qplus_le_compat; [exact FW|apply Qle_refl]]. rewrite <- qsum_times, <- qsum_plus. apply qsum_le. intros i _.
  assert (K1 : forall k, (kind_cost None k == 1)%Q) by (intros [t op q []|t s]; reflexivity).
  destruct (nth i (sg_result (xd_graph d')) false); [rewrite K1|]; lra.
Qed.
Print Assumptions C61_fusion_weights.

(** * Making decoders *)
(** PyMatching decoders can be made for weights which are not negative; a negative weight of an
    edge which is used leads to a [ValueError]. *)
Theorem C61_new : forall rounds n gens w g, generators n gens -> weights_fit n (List.length gens) w -> 0 < rounds -> new_sgraph rounds gens w = Ok g ->
  (sane_weights w n (List.length gens) -> exists d, x_new py_new g = Ok d) /\
  (forall i q, active g i -> nth i (sg_ends g) [] <> [] -> weight_of g i = Fin q -> (q < 0)%Q -> x_new py_new g = Err ValueError).
Proof.
  intros rounds n gens w g G Hw Hr X.
  assert (U : uses rounds n gens w g) by (split; [auto|]; split; [auto|]; split; [auto|apply sg_new; auto]).
  destruct (C50_components _ _ _ _ _ U) as (CV & CK & _). split.
  - intros SW. apply (x_new_total pm_graph py_new (py_decode pm_brute) sane (fun _ => py_cost) any_erased py_new_cases py_new_same (py_dec_cases pm_brute pm_brute_ok) rounds n gens w g U).
    intros k Ik NE. destruct (CK k Ik) as (_ & _ & _ & _ & _ & _ & _ & _ & _ & _ & EW). apply (sane_comps rounds n gens w g U SW k Ik). rewrite EW. apply map_length.
  - intros i q A NE Wi Neg.
    assert (V : exists v, In v (nth i (sg_ends g) [])) by (destruct (nth i (sg_ends g) []) as [|v l]; [congruence|exists v; left; auto]). destruct V as (v & Iv).
    assert (Li : i < List.length (sg_ends g)). { destruct (Nat.lt_ge_cases i (List.length (sg_ends g))); auto. rewrite nth_overflow in Iv by auto. destruct Iv. }
    destruct (C30_edges _ _ _ _ _ U) as (_ & _ & _ & _ & ED). destruct (ED i Li) as (_ & VB & _).
    destruct (CV v (VB v Iv)) as (c & Lc & CC). destruct (nth_error (sg_comps g) c) as [k|] eqn:Ek; [|apply nth_error_None in Ek; lia].
    pose proof (nth_error_In _ _ Ek) as Ik. assert (Vk : In v (k_vidx k)) by (apply (CC c k Ek); auto).
    destruct (CK k Ik) as (_ & _ & _ & _ & _ & EI & _ & _ & LE & _ & EW). assert (Ie : In i (k_eidx k)) by (apply EI; eauto).
    assert (NS : ~ sane (k_wt k)).
    { intros S. assert (IW : In (Fin q) (k_wt k)) by (rewrite EW; apply in_map_iff; eauto). destruct S as [S|S]; [specialize (S _ IW); discriminate|].
      destruct (S _ IW) as (q' & Q & P). injection Q as <-. lra. }
    assert (NEk : k_edges k <> []) by (intros Z; rewrite Z in LE; destruct (k_eidx k); [destruct Ie|discriminate]).
    unfold x_new.
    assert (J : In (c, k) (filter (fun ck : nat * comp => has_edges (snd ck)) (combine (seq 0 (List.length (sg_comps g))) (sg_comps g)))).
    { apply filter_In. split; [|cbn; unfold has_edges; destruct (k_edges k); [congruence|reflexivity]].
      replace (c, k) with (nth c (combine (seq 0 (List.length (sg_comps g))) (sg_comps g)) (0, SyngraphOps.comp0)).
      - apply nth_In. rewrite combine_length, seq_length. lia.
      - rewrite combine_nth by apply seq_length. rewrite seq_nth by lia. rewrite (nth_error_nth _ _ _ Ek). reflexivity. }
    assert (ALL : forall x, In x (filter (fun ck : nat * comp => has_edges (snd ck)) (combine (seq 0 (List.length (sg_comps g))) (sg_comps g))) -> proper (snd x)).
    { intros [c' k'] J'. apply filter_In in J'. destruct J' as [J' H']. cbn [snd] in *. apply (comp_proper _ _ _ _ _ _ U (in_combine_r _ _ _ _ J')). intros Z. unfold has_edges in H'. rewrite Z in H'. discriminate. }
    clear - J ALL NS. revert J ALL. induction (filter _ _) as [|a l IH]; intros J ALL; [destruct J|]. cbn [mapR].
    destruct (py_new_ok (snd a) (ALL a (or_introl eq_refl))) as [(S & b & -> & _)|(S & ->)]; [|reflexivity]. cbn [bindR].
    destruct J as [->|J]; [exfalso; auto|]. specialize (IH J (fun x I => ALL x (or_intror I))).
    destruct (mapR _ l); [discriminate|]. exact IH.
Qed.
Print Assumptions C61_new.

(** Fusion Blossom decoders can be made without weights and for positive weights. *)
Theorem C61_fusion_new : forall rounds n gens w g, generators n gens -> weights_fit n (List.length gens) w -> 0 < rounds -> new_sgraph rounds gens w = Ok g ->
  match w with
  | None => True
  | Some a => (forall q, q < n -> positive (weight_at (w_x a) q) /\ positive (weight_at (w_z a) q)) /\
              forall s, s < List.length gens -> positive (weight_at (w_meas a) s)
  end -> exists d, x_new fb_new g = Ok d.
Proof.
  intros rounds n gens w g G Hw Hr X P.
  assert (U : uses rounds n gens w g) by (split; [auto|]; split; [auto|]; split; [auto|apply sg_new; auto]).
  destruct (C50_components _ _ _ _ _ U) as (_ & CK & _).
  apply (x_new_total fb_graph fb_new (fb_decode fb_brute) scalable fb_cost none_refused fb_new_cases fb_new_same (fb_dec_cases fb_brute fb_brute_ok) rounds n gens w g U).
  intros k Ik NE. destruct (CK k Ik) as (_ & _ & _ & _ & _ & EI & _ & _ & LE & _ & EW).
  assert (EN : forall i, In i (k_eidx k) -> match w with None => weight_of g i = NaN | Some _ => exists q, weight_of g i = Fin q /\ (0 < q)%Q end).
  { intros i Ii. apply EI in Ii. destruct Ii as (A & v & _ & Iv).
    assert (Li : i < List.length (sg_ends g)). { destruct (Nat.lt_ge_cases i (List.length (sg_ends g))); auto. rewrite nth_overflow in Iv by auto. destruct Iv. }
    apply (proj1 (C31_parallel _ _ _ _ _ U i Li)) in A as [A _]. destruct (weight_kind _ _ _ _ _ _ U Li) as [E K]. rewrite E in *. clear - A P K.
    assert (Q : forall y, positive y -> is_inf y = false -> exists q, y = Fin q /\ (0 < q)%Q) by (intros y [-> |Y] Z; [discriminate|auto]).
    destruct w as [a|]; cbn [kind_weight] in *; [|reflexivity]. destruct P as [P1 P2]. destruct (kind_of g i) as [t op q p|t s]; [|apply Q; auto; apply P2; tauto].
    destruct K as (_ & Lq & [-> | ->]); apply Q; auto; apply P1; auto. }
  assert (I0 : exists i, In i (k_eidx k)). { destruct (k_eidx k) as [|i l]; [destruct (k_edges k); [congruence|discriminate]|exists i; left; auto]. }
  destruct I0 as (i0 & I0). rewrite EW. clear - EN I0. destruct w as [a|]; [right|left].
  - split.
    + intros x I. apply in_map_iff in I. destruct I as (i & <- & I). destruct (EN i I) as (q & -> & Pq). exists q. split; auto. apply Qlt_le_weak; auto.
    + destruct (EN i0 I0) as (q & E & Pq). exists q. split; auto. apply in_map_iff. eauto.
  - intros x I. apply in_map_iff in I. destruct I as (i & <- & I). apply EN; auto.
Qed.
Print Assumptions C61_fusion_new.

(** [update_weights] makes the same objects again. *)
Theorem C61_update : forall rounds n gens w, generators n gens -> weights_fit n (List.length gens) w -> 0 < rounds ->
  (forall solver d, pm_contract solver -> py_interface solver rounds gens w d -> x_update_weights py_new d = Ok d) /\
  (forall solver d, fb_contract solver -> fb_interface solver rounds gens w d -> x_update_weights fb_new d = Ok d).
Proof.
  intros rounds n gens w G Hw Hr. split; intros solver d C PI.
  - apply (x_update_same pm_graph py_new (py_decode solver) (fun _ => py_cost) any_erased (py_dec_cases solver C) rounds n gens w). eapply py_good; eauto.
  - apply (x_update_same fb_graph fb_new (fb_decode solver) fb_cost none_refused (fb_dec_cases solver C) rounds n gens w). eapply fb_ok; eauto.
Qed.
Print Assumptions C61_update.

(** * Memory experiments *)
Lemma shows_inputs cd is rounds E K F sm : shows cd is rounds E K F sm ->
  right_shape rounds (n_data_qubits (c_ops cd)) (sm_erased sm) = true /\
  has_shape (sm_syndrome sm) rounds (List.length (c_stabs (c_ops cd))) = true /\
  ((forall s, s < List.length (c_stabs (c_ops cd)) -> F 0 s = false /\ F rounds s = false) ->
   explained None rounds (n_data_qubits (c_ops cd)) (c_stabs (c_ops cd)) (sm_syndrome sm) E F).
Proof.
  intros SH. split; [|split].
  - destruct (sm_erased sm) as [m|] eqn:Em; [|reflexivity]. cbn [right_shape]. rewrite (sh_erased _ _ _ _ _ _ _ SH m Em).
    unfold has_shape. rewrite map_length, seq_length, Nat.eqb_refl. cbn [andb]. apply forallb_forall. intros y I.
    apply in_map_iff in I. destruct I as (t & <- & _). rewrite map_length, seq_length. apply Nat.eqb_refl.
  - unfold has_shape. rewrite (sh_rounds _ _ _ _ _ _ _ SH), Nat.eqb_refl. cbn [andb]. apply forallb_forall. intros y I.
    rewrite (sh_width _ _ _ _ _ _ _ SH y I). apply Nat.eqb_refl.
  - intros FF. split; try (intros; exact I); [intros s Ls; apply FF; auto|intros s Ls; apply FF; auto|split; intros; exact I|].
    intros t s Lt Ls. apply (sh_syndrome _ _ _ _ _ _ _ SH); auto.
Qed.
Lemma shows_checked cd x is rounds E K F sm fr : experiment_code cd -> logical_ops_to_indices (c_ops cd) x = Ok is -> is <> [] ->
  shows cd is rounds E K F sm -> List.length (ops fr) = n_data_qubits (c_ops cd) ->
  (forall i, In i is -> anti (seq 0 (n_data_qubits (c_ops cd))) (fac (nth i (c_logicals (c_ops cd)) row0)) (fun q => pxor (fac fr q) (total rounds E q)) = false) ->
  check_success (c_ops cd) fr (sm_toggle sm) (Some x) = Ok true.
Proof.
  intros XC EI NE SH LF C. set (n := n_data_qubits (c_ops cd)) in *.
  assert (W : forall l, In l (c_logicals (c_ops cd)) -> List.length (ops l) = n) by (intros l I; unfold n; rewrite xc_nd by auto; apply xc_width; auto).
  pose proof (check_success_ok n (c_ops cd) fr (sm_toggle sm) (Some x) is W eq_refl EI NE) as CS.
  rewrite (sh_logicals _ _ _ _ _ _ _ SH), LF, !Nat.eqb_refl in CS. cbn [andb] in CS. destruct CS as (ok & CS & OK).
  rewrite CS. f_equal. apply OK. intros k Lk. specialize (C (nth k is 0) (nth_In _ _ Lk)).
  rewrite anti_xor_r, anti_total in C. apply xorb_eq in C. rewrite C. apply (sh_toggle _ _ _ _ _ _ _ SH k Lk).
Qed.
Lemma protected rounds cd is dist : protects rounds cd is dist -> (forall i, In i is -> i < n_logical_ops (c_ops cd)) -> (1 <= rounds)%Z ->
  experiment_code cd /\ c_rounds cd = rounds /\ generators (n_data_qubits (c_ops cd)) (c_stabs (c_ops cd)) /\
  (exists sg, new_sgraph (Z.to_nat rounds) (c_stabs (c_ops cd)) None = Ok sg) /\
  forall i, In i is -> logical_distance (n_data_qubits (c_ops cd)) (c_stabs (c_ops cd)) (fac (nth i (c_logicals (c_ops cd)) row0)) dist.
Proof.
  intros PR LI HR.
  assert (H : (exists d, (2 <= d)%Z /\ (make_planar rounds d = Ok cd \/ make_toric rounds d = Ok cd \/ exists xzzx, make_rotated_planar rounds d xzzx = Ok cd)) \/
    (exists d, (2 <= d)%Z /\ make_repetition rounds d = Ok cd) \/ make_five_qubit rounds = Ok cd \/ make_shor rounds = Ok cd).
  { destruct PR as [(d & D & _ & H)|[(d & D & _ & H & _)|(_ & H)]]; [left; eauto|right; left; eauto|right; right; auto]. }
  pose proof (C49_builtin_codes rounds cd H) as [XC ER]. pose proof (experiment_generators cd XC) as G. pose proof (C54_graph_like rounds cd H) as GL.
  destruct (C30_total (Z.to_nat rounds) _ _ None G I ltac:(lia) I) as [TG _].
  split; [auto|]. split; [auto|]. split; [auto|]. split; [apply TG; auto|].
  intros i I. destruct PR as [(d & D & -> & MK)|[(d & D & -> & MK & ONE)|(-> & MK)]].
  - apply (C60_distance rounds cd d D MK i (LI i I)).
  - rewrite (ONE i I). apply (C60_repetition rounds cd d D MK).
  - apply (C60_small_codes rounds cd MK i (LI i I)).
Qed.

(** PyMatching, without weights: whenever fewer faults than half of the distance and no erased
    qubit show the sample, decoding it succeeds. *)
Theorem C61_memory : forall solver rounds cd dist x is, pm_contract solver -> protects rounds cd is dist -> (1 <= rounds)%Z ->
  logical_ops_to_indices (c_ops cd) x = Ok is -> is <> [] -> (forall i, In i is -> i < n_logical_ops (c_ops cd)) ->
  let n := n_data_qubits (c_ops cd) in let gens := c_stabs (c_ops cd) in
  exists sg d, new_sgraph (Z.to_nat rounds) gens None = Ok sg /\ x_new py_new sg = Ok d /\
    forall sm E K F, shows cd is (Z.to_nat rounds) E K F sm -> (forall t q, erased (sm_erased sm) t q = false) ->
      (forall s, s < List.length gens -> F 0 s = false /\ F (Z.to_nat rounds) s = false) ->
      (forall i, In i is -> exists allow side, detected_by n gens allow side (fac (nth i (c_logicals (c_ops cd)) row0)) /\
        2 * fault_count (Z.to_nat rounds) n gens allow side E F < dist) ->
      exists d' fr, x_decode (py_decode solver) (sm_erased sm) (sm_syndrome sm) d = Ok (d', fr) /\
        check_success (c_ops cd) fr (sm_toggle sm) (Some x) = Ok true.
Proof.
  intros solver rounds cd dist x is C PR HR EI NE LI n gens.
  destruct (protected rounds cd is dist PR LI HR) as (XC & ER & G & (sg & ES) & DI). fold n gens in G, ES, DI.
  destruct (C61_new (Z.to_nat rounds) n gens None sg G I ltac:(lia) ES) as [ED _]. destruct (ED I) as (d & Ed). exists sg, d. split; [auto|]. split; [auto|].
  intros sm E K F SH NEr FF FEW. destruct (shows_inputs _ _ _ _ _ _ _ SH) as (SE & SS & EX).
  assert (PI : py_interface solver (Z.to_nat rounds) gens None d) by (eapply xi_new; eauto).
  destruct (C61_half solver (Z.to_nat rounds) n gens d C G ltac:(lia) PI _ _ E F SE SS NEr (EX FF)) as (d' & fr & R & LF & H).
  exists d', fr. split; auto. apply (shows_checked cd x is (Z.to_nat rounds) E K F sm fr); auto.
  intros i Ii. destruct (FEW i Ii) as (allow & side & DB & LT). apply (H _ dist allow side); auto.
Qed.
Print Assumptions C61_memory.

(** Fusion Blossom, without weights: faults cost 2, erased qubits 1. *)
Theorem C61_fusion_memory : forall solver rounds cd dist x is, fb_contract solver -> protects rounds cd is dist -> (1 <= rounds)%Z ->
  logical_ops_to_indices (c_ops cd) x = Ok is -> is <> [] -> (forall i, In i is -> i < n_logical_ops (c_ops cd)) ->
  let n := n_data_qubits (c_ops cd) in let gens := c_stabs (c_ops cd) in
  exists sg d, new_sgraph (Z.to_nat rounds) gens None = Ok sg /\ x_new fb_new sg = Ok d /\
    forall sm E K F, shows cd is (Z.to_nat rounds) E K F sm ->
      (forall s, s < List.length gens -> F 0 s = false /\ F (Z.to_nat rounds) s = false) ->
      (forall i, In i is -> exists allow side, detected_by n gens allow side (fac (nth i (c_logicals (c_ops cd)) row0)) /\
        total_price 2 1 (Z.to_nat rounds) n gens allow side (sm_erased sm) E F < dist) ->
      exists d' fr, x_decode (fb_decode solver) (sm_erased sm) (sm_syndrome sm) d = Ok (d', fr) /\
        check_success (c_ops cd) fr (sm_toggle sm) (Some x) = Ok true.
Proof.
  intros solver rounds cd dist x is C PR HR EI NE LI n gens.
  destruct (protected rounds cd is dist PR LI HR) as (XC & ER & G & (sg & ES) & DI). fold n gens in G, ES, DI.
  destruct (C61_fusion_new (Z.to_nat rounds) n gens None sg G I ltac:(lia) ES I) as (d & Ed). exists sg, d. split; [auto|]. split; [auto|].
  intros sm E K F SH FF FEW. destruct (shows_inputs _ _ _ _ _ _ _ SH) as (SE & SS & EX).
  assert (PI : fb_interface solver (Z.to_nat rounds) gens None d) by (eapply xi_new; eauto).
  destruct (C61_fusion solver (Z.to_nat rounds) n gens None d C G I ltac:(lia) (or_introl eq_refl) PI _ _ E F SE SS (EX FF)) as (d' & fr & R & _ & LF & H).
  exists d', fr. split; auto. apply (shows_checked cd x is (Z.to_nat rounds) E K F sm fr); auto.
  intros i Ii. destruct (FEW i Ii) as (allow & side & DB & LT). apply (H _ dist allow side); auto.
Qed.
Print Assumptions C61_fusion_memory.

(** Every run of a memory experiment, for every random choice of the simulator. *)
Theorem C61_experiment : forall py fb rounds cd dist e x is anc g s0 sm, pm_contract py -> fb_contract fb -> protects rounds cd is dist ->
  no_gate_errors e -> (1 <= rounds)%Z -> logical_ops_to_indices (c_ops cd) x = Ok is -> is <> [] ->
  (forall i, In i is -> i < n_logical_ops (c_ops cd)) -> anc = true \/ readable cd is ->
  (forall k, 0 <= d_unif (g k) /\ d_unif (g k) < 1)%Q -> memory_experiment g s0 cd e x anc = Ok sm ->
  let n := n_data_qubits (c_ops cd) in let gens := c_stabs (c_ops cd) in
  exists sg dp df E K F, new_sgraph (Z.to_nat rounds) gens None = Ok sg /\ x_new py_new sg = Ok dp /\ x_new fb_new sg = Ok df /\
    possible_history e n (n_stabgens (c_ops cd)) (Z.to_nat rounds) E K F /\ shows cd is (Z.to_nat rounds) E K F sm /\
    ((forall t q, erased (sm_erased sm) t q = false) -> 2 * fault_count (Z.to_nat rounds) n gens (fun _ => true) (fun _ => true) E F < dist ->
     exists d' fr, x_decode (py_decode py) (sm_erased sm) (sm_syndrome sm) dp = Ok (d', fr) /\
       check_success (c_ops cd) fr (sm_toggle sm) (Some x) = Ok true) /\
    (total_price 2 1 (Z.to_nat rounds) n gens (fun _ => true) (fun _ => true) (sm_erased sm) E F < dist ->
     exists d' fr, x_decode (fb_decode fb) (sm_erased sm) (sm_syndrome sm) df = Ok (d', fr) /\
       check_success (c_ops cd) fr (sm_toggle sm) (Some x) = Ok true).
Proof.
  intros py fb rounds cd dist e x is anc g s0 sm CP CF PR NG HR EI NE LI RD Hg RUN n gens.
  destruct (protected rounds cd is dist PR LI HR) as (XC & ER & _).
  destruct (C61_memory py rounds cd dist x is CP PR HR EI NE LI) as (sg & dp & ES & EP & HP).
  destruct (C61_fusion_memory fb rounds cd dist x is CF PR HR EI NE LI) as (sg' & df & ES' & EF & HF). fold gens in ES, ES'. rewrite ES in ES'. injection ES' as <-.
  assert (HR' : (1 <= c_rounds cd)%Z) by (rewrite ER; auto).
  destruct (C47_memory_history _ _ _ _ _ _ _ _ XC NG HR' EI RD Hg RUN) as (E & K & F & PH & SH). rewrite ER in PH, SH.
  exists sg, dp, df, E, K, F. split; [auto|]. split; [auto|]. split; [auto|]. split; [auto|]. split; [auto|].
  assert (FF : forall s, s < List.length gens -> F 0 s = false /\ F (Z.to_nat rounds) s = false).
  { intros s L. destruct PH as [_ P0 P1 _]. split; [apply P0|apply P1]; auto. }
  split; intros.
  - apply (HP sm E K F); auto. intros i _. exists (fun _ => true), (fun _ => true). split; auto. apply detected_all.
  - apply (HF sm E K F); auto. intros i _. exists (fun _ => true), (fun _ => true). split; auto. apply detected_all.
Qed.
Print Assumptions C61_experiment.

(** * Examples *)
(** The seven errors of the repetition code with fifteen qubits which union-find decoding does not
    correct (C60): both libraries lead to success. *)
Theorem C61_half_example : forall py fb, pm_contract py -> fb_contract fb -> exists cd sm sg dp df dp' df' fp ff,
  make_repetition 1 15 = Ok cd /\ memory_experiment g_half (sim_init [] 0) cd half_errors (LogLetters "Z") true = Ok sm /\
  new_sgraph 1 (c_stabs (c_ops cd)) None = Ok sg /\ x_new py_new sg = Ok dp /\ x_new fb_new sg = Ok df /\
  x_decode (py_decode py) (sm_erased sm) (sm_syndrome sm) dp = Ok (dp', fp) /\ check_success (c_ops cd) fp (sm_toggle sm) (Some (LogLetters "Z")) = Ok true /\
  x_decode (fb_decode fb) (sm_erased sm) (sm_syndrome sm) df = Ok (df', ff) /\ check_success (c_ops cd) ff (sm_toggle sm) (Some (LogLetters "Z")) = Ok true.
Proof.
  intros py fb CP CF.
  assert (R : (do cd <- make_repetition 1 15;
    do sm <- memory_experiment g_half (sim_init [] 0) cd half_errors (LogLetters "Z") true;
    do is <- logical_ops_to_indices (c_ops cd) (LogLetters "Z");
    Ok (showsb (c_ops cd) [1] 1 half_history (fun _ _ => false) (fun _ _ => false) sm, (is, (n_data_qubits (c_ops cd), (n_logical_ops (c_ops cd), (sm_erased sm,
      fault_count 1 15 (c_stabs (c_ops cd)) (fun _ => true) (fun _ => true) half_history (fun _ _ => false))))))) = Ok (true, ([1], (15, (2, (None, 7)))))) by (vm_compute; reflexivity).
  apply bound_ok in R. destruct R as (cd & EC & R). apply bound_ok in R. destruct R as (sm & EM & R). apply bound_ok in R. destruct R as (is & EI & R).
  apply ok_pair in R. destruct R as [SH R]. apply (f_equal (@Ok _)) in R. apply ok_pair in R. destruct R as [-> R]. apply (f_equal (@Ok _)) in R. apply ok_pair in R. destruct R as [EN R].
  apply (f_equal (@Ok _)) in R. apply ok_pair in R. destruct R as [EL R]. apply (f_equal (@Ok _)) in R. apply ok_pair in R. destruct R as [EE CT].
  assert (PR : protects 1 cd [1] 15) by (right; left; exists 15%Z; split; [lia|]; split; [reflexivity|]; split; [exact EC|]; intros i [<-|[]]; auto).
  assert (LI : forall i, In i [1] -> i < n_logical_ops (c_ops cd)) by (intros i [<-|[]]; rewrite EL; auto).
  apply showsb_ok in SH.
  destruct (C61_memory py 1 cd 15 _ [1] CP PR ltac:(lia) EI ltac:(discriminate) LI) as (sg & dp & ES & EP & HP).
  destruct (C61_fusion_memory fb 1 cd 15 _ [1] CF PR ltac:(lia) EI ltac:(discriminate) LI) as (sg' & df & ES' & EF & HF). rewrite ES in ES'. injection ES' as <-.
  change (Z.to_nat 1) with 1 in *. rewrite EN in HP, HF.
  destruct (HP sm half_history (fun _ _ => false) (fun _ _ => false) SH) as (dp' & fp & RP & KP); [rewrite EE; auto|auto| |].
  { intros i _. exists (fun _ => true), (fun _ => true). split; [apply detected_all|rewrite CT; lia]. }
  destruct (HF sm half_history (fun _ _ => false) (fun _ _ => false) SH) as (df' & ff & RF & KF); [auto| |].
  { intros i _. exists (fun _ => true), (fun _ => true). split; [apply detected_all|rewrite EE, fault_price, CT; lia]. }
  exists cd, sm, sg, dp, df, dp', df', fp, ff. repeat (split; [auto; fail|]). auto.
Qed.
Print Assumptions C61_half_example.

(** The repetition code with 5 qubits and one round, and with 3 qubits and two rounds, and the
    brute-force solvers: two errors; an error in the second round; a wrong result; erased qubits, which PyMatching
    refuses. *)
Definition some_decode (lib : bool) (rounds size : nat) (er : option (list (list bool))) (xs fs : list (nat * nat)) : Res (list nat) :=
  do cd <- make_repetition (Z.of_nat rounds) (Z.of_nat size);
  let gens := c_stabs (c_ops cd) in
  let E := fun t q => (existsb (fun y => (fst y =? t) && (snd y =? q)) xs, false) in
  let F := fun t s => existsb (fun y => (fst y =? t) && (snd y =? s)) fs in
  let syn := map (fun t => map (fun s => xorb (anti (seq 0 size) (fac (nth s gens row0)) (E t)) (xorb (F t s) (F (S t) s))) (seq 0 (size - 1))) (seq 0 rounds) in
  do g <- new_sgraph rounds gens None;
  do fr <- (if lib then do d <- x_new py_new g; do r <- x_decode (py_decode pm_brute) er syn d; Ok (snd r)
            else do d <- x_new fb_new g; do r <- x_decode (fb_decode fb_brute) er syn d; Ok (snd r));
  Ok (nonzero (map fst (ops fr))).
Example C61_example :
  some_decode true 1 5 None [(0, 1); (0, 3)] [] = Ok [1; 3] /\ some_decode true 2 3 None [(1, 1)] [] = Ok [1] /\
  some_decode false 1 5 None [(0, 1); (0, 3)] [] = Ok [1; 3] /\ some_decode false 2 3 None [] [(1, 0)] = Ok [] /\
  some_decode true 1 5 (Some [[false; true; true; false; true]]) [(0, 1); (0, 2); (0, 4)] [] = Err ValueError /\
  some_decode false 1 5 (Some [[false; true; true; false; true]]) [(0, 1); (0, 2); (0, 4)] [] = Ok [1; 2; 4].
Proof. repeat (split; [vm_compute; reflexivity|]). vm_compute. reflexivity. Qed.

(** * Rounded weights *)
(** The history with minimum weight can be missed: the repetition code with 3 qubits and the
    weights 50.9, 100 and 49.9 for X errors.  An error on qubit 1 (weight 100) explains the
    syndrome, the result is X errors on the qubits 0 and 2 (weight 100.8). *)
Definition uneven : option warg := Some (mkWarg (WArr [Fin (509 # 10); Fin 100; Fin (499 # 10)]) (WArr [Fin 100; Fin 100; Fin 100]) (WArr [Fin 100; Fin 100])).
Definition middle_error (t q : nat) : bool * bool := (q =? 1, false).
Theorem C61_fusion_weights_refuted : exists g d d' fr syn,
  generators 3 rep3 /\ weights_fit 3 2 uneven /\ sane_weights uneven 3 2 /\ fb_contract fb_brute /\
  new_sgraph 1 rep3 uneven = Ok g /\ x_new fb_new g = Ok d /\ has_shape syn 1 2 = true /\
  explained uneven 1 3 rep3 syn middle_error (fun _ _ => false) /\
  x_decode (fb_decode fb_brute) None syn d = Ok (d', fr) /\
  forall E F, explained uneven 1 3 rep3 syn E F -> (forall q, q < 3 -> fac fr q = total 1 E q) ->
    (history_weight uneven 1 3 2 middle_error (fun _ _ => false) < history_weight uneven 1 3 2 E F)%Q.
Proof.
  assert (R : (do g <- new_sgraph 1 rep3 uneven; do d <- x_new fb_new g; do r <- x_decode (fb_decode fb_brute) None [[true; true]] d;
    Ok (ops (snd r), true)) = Ok ([(true, false); (false, false); (true, false)], true)) by (vm_compute; reflexivity).
  apply bound_ok in R. destruct R as (g & EG & R). apply bound_ok in R. destruct R as (d & ED & R). apply bound_ok in R. destruct R as ([d' fr] & EX & R).
  apply ok_pair in R. destruct R as [R _]. cbn [snd] in R.
  exists g, d, d', fr, [[true; true]].
  split; [apply rep3_uses|]. split; [split; [|split]; left; reflexivity|].
  split. { split; [intros q L; do 3 (destruct q as [|q]; [split; vm_compute; discriminate|]); lia|intros s L; do 2 (destruct s as [|s]; [vm_compute; discriminate|]); lia]. }
  split; [apply fb_brute_ok|]. split; [auto|]. split; [auto|]. split; [reflexivity|].
  split. { split; [auto|auto|intros t q _ L; split; intros H; [|discriminate]; do 3 (destruct q as [|q]; [reflexivity|]); lia|intros; discriminate|].
    intros t s Lt Ls. cbn in Ls. destruct t as [|t]; [|lia]. do 2 (destruct s as [|s]; [reflexivity|]). lia. }
  split; [auto|]. intros E F _ TOT.
  assert (E0 : forall q, q < 3 -> E 0 q = fac fr q).
  { intros q L. rewrite (TOT q L). unfold DecoderSpec.total. cbn [seq map fold_right]. rewrite !xorb_false_r. destruct (E 0 q); auto. }
  unfold fac in E0. rewrite R in E0. unfold history_weight. cbn [seq Nat.sub]. unfold qsum. cbn [fold_right].
  rewrite (E0 0), (E0 1), (E0 2) by lia. reflexivity.
Qed.
Print Assumptions C61_fusion_weights_refuted.
