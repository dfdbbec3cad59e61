(** Weights as real numbers. *)
Require Import Reals Lra QArith Qreals.
From Verif Require Import SyngraphModel WeightsSpec.
Local Open Scope R_scope.

(** syngraph/weights.py 183-208: the weight of an error with probability [p], without rounding. *)
Definition exact_weight (p : R) : R := - ln (p / (1 - p)).

Lemma odds_pos p : 0 < p < 1 -> 0 < p / (1 - p).
Proof. intros H. apply Rdiv_lt_0_compat; lra. Qed.
Lemma odds_lt p q : 0 < p < q -> q < 1 -> p / (1 - p) < q / (1 - q).
Proof.
  intros H H1. apply (Rmult_lt_reg_r (1 - p)); [lra|]. unfold Rdiv at 1. rewrite Rmult_assoc, Rinv_l, Rmult_1_r by lra.
  apply (Rmult_lt_reg_r (1 - q)); [lra|]. replace (q / (1 - q) * (1 - p) * (1 - q)) with (q * (1 - p)) by (field; lra). lra.
Qed.
Lemma exact_decreasing p q : 0 < p < q -> q < 1 -> exact_weight q < exact_weight p.
Proof. intros H H1. apply Ropp_lt_contravar, ln_increasing; [apply odds_pos; lra|apply odds_lt; lra]. Qed.
Lemma exact_half : exact_weight (1 / 2) = 0.
Proof. unfold exact_weight. replace (1 / 2 / (1 - 1 / 2)) with 1 by field. rewrite ln_1. ring. Qed.
Lemma exact_opposite p : 0 < p < 1 -> exact_weight (1 - p) = - exact_weight p.
Proof.
  intros H. unfold exact_weight. replace ((1 - p) / (1 - (1 - p))) with (/ (p / (1 - p))) by (field; lra).
  rewrite ln_Rinv by (apply odds_pos; auto). ring.
Qed.

(** A rounded weight with a relative error below 1. *)
Definition rounded (f : Q -> weight) : Prop := exists eps, eps < 1 /\ forall p, (0 < p)%Q -> (p < 1)%Q ->
  exists w, f p = Fin w /\ Rabs (Q2R w - exact_weight (Q2R p)) <= eps * Rabs (exact_weight (Q2R p)).

Lemma Q2R_between p : (0 < p)%Q -> (p < 1)%Q -> 0 < Q2R p < 1.
Proof. intros A B. apply Qlt_Rlt in A, B. rewrite RMicromega.Q2R_0 in A. rewrite RMicromega.Q2R_1 in B. lra. Qed.
Lemma Q2R_half : Q2R (1 # 2) = 1 / 2.
Proof. unfold Q2R. cbn. lra. Qed.
Lemma rounded_log_like f : rounded f -> (forall p, (p == 0)%Q -> f p = Inf false) -> (forall p, (p == 1)%Q -> f p = Inf true) ->
  (forall p, (p < 0 \/ 1 < p)%Q -> f p = NaN) -> log_like f.
Proof.
  intros (eps & E1 & R) Z O N. split; auto.
  - intros p A B. assert (B1 : (p < 1)%Q) by (eapply Qlt_trans; [exact B|reflexivity]). destruct (R p A B1) as (w & E & C). exists w. split; auto.
    pose proof (Q2R_between p A B1) as D. apply Qlt_Rlt in B. rewrite Q2R_half in B. pose proof (exact_decreasing (Q2R p) (1 / 2) ltac:(lra) ltac:(lra)) as X. rewrite exact_half in X.
    rewrite (Rabs_right (exact_weight (Q2R p))) in C by lra. apply Rlt_Qlt. rewrite RMicromega.Q2R_0.
    assert (eps * exact_weight (Q2R p) < exact_weight (Q2R p)) by (rewrite <- (Rmult_1_l (exact_weight (Q2R p))) at 2; apply Rmult_lt_compat_r; auto).
    destruct (Rcase_abs (Q2R w - exact_weight (Q2R p))) as [L|L]; [rewrite Rabs_left in C by auto|]; lra.
  - intros p B. assert (B1 : (p < 1)%Q) by (rewrite B; reflexivity). assert (A : (0 < p)%Q) by (rewrite B; reflexivity). destruct (R p A B1) as (w & E & C). exists w. split; auto.
    apply Qeq_eqR in B. rewrite Q2R_half in B. rewrite B, exact_half in C. rewrite Rabs_R0, Rmult_0_r in C. apply eqR_Qeq. rewrite RMicromega.Q2R_0.
    replace (Q2R w - 0) with (Q2R w) in C by ring. destruct (Req_dec (Q2R w) 0) as [|NZ]; auto. apply Rabs_pos_lt in NZ. lra.
  - intros p B B1. assert (A : (0 < p)%Q) by (eapply Qlt_trans; [|exact B]; reflexivity). destruct (R p A B1) as (w & E & C). exists w. split; auto.
    pose proof (Q2R_between p A B1) as D. apply Qlt_Rlt in B. rewrite Q2R_half in B. pose proof (exact_decreasing (1 / 2) (Q2R p) ltac:(lra) ltac:(lra)) as X. rewrite exact_half in X.
    rewrite (Rabs_left (exact_weight (Q2R p))) in C by lra. apply Rlt_Qlt. rewrite RMicromega.Q2R_0.
    assert (eps * - exact_weight (Q2R p) < - exact_weight (Q2R p)) by (rewrite <- (Rmult_1_l (- exact_weight (Q2R p))) at 2; apply Rmult_lt_compat_r; lra).
    destruct (Rcase_abs (Q2R w - exact_weight (Q2R p))) as [L|L]; [|rewrite Rabs_right in C by auto]; lra.
Qed.

(** Such a function exists. *)
Definition some_weight (p : Q) : weight :=
  match (p ?= 0)%Q with
  | Lt => NaN
  | Eq => Inf false
  | Gt => match (p ?= 1)%Q with
          | Gt => NaN
          | Eq => Inf true
          | Lt => if Qeq_bool p (1 # 2) then Fin 0
                  else let w := exact_weight (Q2R p) in let n := up (2 / Rabs w) in Fin (up (w * IZR n) # Z.to_pos n)
          end
  end.
Lemma exact_nonzero p : (0 < p)%Q -> (p < 1)%Q -> ~ (p == 1 # 2)%Q -> exact_weight (Q2R p) <> 0.
Proof.
  intros A B N. pose proof (Q2R_between p A B). assert (Q2R p <> 1 / 2) by (rewrite <- Q2R_half; intros E; apply N, eqR_Qeq; auto).
  destruct (Rtotal_order (Q2R p) (1 / 2)) as [L|[L|L]]; [|lra|].
  - pose proof (exact_decreasing (Q2R p) (1 / 2) ltac:(lra) ltac:(lra)) as X. rewrite exact_half in X. lra.
  - pose proof (exact_decreasing (1 / 2) (Q2R p) ltac:(lra) ltac:(lra)) as X. rewrite exact_half in X. lra.
Qed.
Lemma some_weight_rounded : rounded some_weight.
Proof.
  exists (1 / 2). split; [lra|]. intros p A B. unfold some_weight. assert (E0 : (p ?= 0)%Q = Gt) by (apply Qgt_alt in A; auto). assert (E1 : (p ?= 1)%Q = Lt) by (apply Qlt_alt; auto).
  rewrite E0, E1. destruct (Qeq_bool p (1 # 2)) eqn:H.
  - apply Qeq_bool_iff, Qeq_eqR in H. rewrite Q2R_half in H. exists 0%Q. split; auto. rewrite H, exact_half, RMicromega.Q2R_0. rewrite Rminus_0_r, Rabs_R0. lra.
  - assert (NZ : exact_weight (Q2R p) <> 0) by (apply exact_nonzero; auto; intros E; apply Qeq_bool_iff in E; congruence). cbv zeta.
    set (w := exact_weight (Q2R p)) in *. apply Rabs_pos_lt in NZ. set (n := up (2 / Rabs w)). destruct (archimed (2 / Rabs w)) as [N1 _]. fold n in N1.
    assert (P : 0 < 2 / Rabs w) by (apply Rdiv_lt_0_compat; lra). assert (PN : 0 < IZR n) by lra. assert (Zn : (0 < n)%Z) by (apply lt_IZR; auto).
    eexists. split; [reflexivity|]. unfold Q2R. cbn [Qnum Qden]. rewrite Z2Pos.id by auto. destruct (archimed (w * IZR n)) as [U1 U2]. set (u := IZR (up (w * IZR n))) in *.
    replace (u * / IZR n - w) with ((u - w * IZR n) / IZR n) by (field; lra). unfold Rdiv at 1. rewrite Rabs_mult, (Rabs_right (/ IZR n)) by (left; apply Rinv_0_lt_compat; auto).
    rewrite (Rabs_right (u - w * IZR n)) by lra.
    apply (Rmult_le_reg_r (IZR n)); auto. rewrite Rmult_assoc, Rinv_l, Rmult_1_r by lra. apply Rle_trans with 1; [lra|].
    apply (Rmult_lt_compat_r (Rabs w)) in N1; auto. unfold Rdiv in N1. rewrite Rmult_assoc, Rinv_l, Rmult_1_r in N1 by lra. lra.
Qed.
