(** Invariant of the clusters of the union-find decoder and the operations that keep it. *)
Require Import List Bool Arith Lia.
From Verif Require Import Base BaseProofs ErasureModel UnionFindModel GraphSpec GraphProofs
  ErasureProofs.
Import ListNotations.

(** ** Trees of parents *)

Notation vx vs v := (nth v vs new_vertex).

(** [r] is reached from [v] after [k] steps to the parent and has no parent. *)
Inductive rooted (vs : list vertex) : nat -> nat -> nat -> Prop :=
| ro_root r : r < length vs -> v_parent (vx vs r) = None -> rooted vs r 0 r
| ro_step v p k r : v < length vs -> v_parent (vx vs v) = Some p -> rooted vs p k r ->
    rooted vs v (S k) r.

Lemma rooted_fun vs v k r k' r' : rooted vs v k r -> rooted vs v k' r' -> k = k' /\ r = r'.
Proof.
  intros H. revert k' r'. induction H as [r L P|v p k r L P H IH]; intros k' r' H'.
  - inversion H'; subst; auto. congruence.
  - inversion H'; subst; [congruence|]. rewrite P in H1. injection H1 as <-.
    destruct (IH _ _ H2) as [-> ->]. auto.
Qed.

Lemma rooted_root vs v k r : rooted vs v k r -> rooted vs r 0 r.
Proof. induction 1; auto. constructor; auto. Qed.

Lemma rooted_end vs v k r : rooted vs v k r -> v_parent (vx vs r) = None /\ r < length vs.
Proof. intros H. apply rooted_root in H. inversion H; subst. auto. Qed.

Lemma rooted_lt vs v k r : rooted vs v k r -> v < length vs.
Proof. destruct 1; auto. Qed.

Lemma rooted_path vs v k r : rooted vs v k r -> exists l,
  length l = S k /\ NoDup l /\
  forall x, In x l -> x < length vs /\ exists j, j <= k /\ rooted vs x j r.
Proof.
  induction 1 as [r L P|v p k r L P H (l & LL & ND & X)].
  - exists [r]. split; auto. split; [repeat constructor; auto|].
    intros x [<-|[]]. split; auto. exists 0. split; auto. constructor; auto.
  - exists (v :: l). split; [cbn; auto|].
    assert (R : rooted vs v (S k) r) by (econstructor; eauto). split.
    + constructor; auto. intros I. destruct (X v I) as (_ & j & Lj & R').
      destruct (rooted_fun _ _ _ _ _ _ R R'). lia.
    + intros x [<-|I].
      * split; auto. exists (S k). auto.
      * destruct (X x I) as (A & j & Lj & R'). split; auto. exists j. split; auto.
Qed.

Lemma rooted_depth vs v k r : rooted vs v k r -> k < length vs.
Proof.
  intros H. destruct (rooted_path _ _ _ _ H) as (l & L & ND & X).
  assert (length l <= length (seq 0 (length vs))).
  { apply NoDup_incl_length; auto. intros x I. apply in_seq. destruct (X x I). lia. }
  rewrite seq_length in *. lia.
Qed.

(** Vertices which differ in the parent only. *)
Definition same_but_parent (vs vs' : list vertex) : Prop :=
  length vs' = length vs /\
  forall v, v_state (vx vs' v) = v_state (vx vs v) /\
    v_cluster (vx vs' v) = v_cluster (vx vs v) /\ v_syn (vx vs' v) = v_syn (vx vs v) /\
    (v_parent (vx vs v) = None -> v_parent (vx vs' v) = None).

Lemma compress vs v j r : rooted vs v j r -> v <> r ->
  let vs' := upd v (set_v_parent (Some r) (vx vs v)) vs in
  same_but_parent vs vs' /\
  forall w i r', rooted vs w i r' -> exists i', rooted vs' w i' r'.
Proof.
  intros H D vs'. pose proof (rooted_lt _ _ _ _ H) as L.
  assert (LL : length vs' = length vs) by apply length_upd.
  assert (P : exists p, v_parent (vx vs v) = Some p).
  { inversion H; subst; [congruence|eauto]. }
  destruct P as [p P].
  assert (SAME : forall w, w <> v -> vx vs' w = vx vs w).
  { intros w E. apply nth_upd_other. auto. }
  assert (NEW : vx vs' v = set_v_parent (Some r) (vx vs v)) by (apply nth_upd_same; auto).
  split.
  - split; auto. intros w. destruct (Nat.eq_dec w v) as [->|E].
    + rewrite NEW. cbn. repeat split; auto. congruence.
    + rewrite SAME by auto. repeat split; auto.
  - induction 1 as [r' L' P'|w q k r' L' P' H' IH].
    + exists 0. constructor; [lia|]. rewrite SAME; auto. congruence.
    + destruct (Nat.eq_dec w v) as [->|E].
      * assert (R' : rooted vs v (S k) r') by (econstructor; eauto).
        destruct (rooted_fun _ _ _ _ _ _ H R') as [_ <-].
        destruct (rooted_end _ _ _ _ H) as [PR LR].
        exists 1. apply ro_step with r; [lia|rewrite NEW; reflexivity|].
        constructor; [lia|]. rewrite SAME by auto. auto.
      * destruct IH as [i' IH]. exists (S i'). apply ro_step with q; [lia| |auto].
        rewrite SAME by auto. auto.
Qed.

Lemma same_trans a b c : same_but_parent a b -> same_but_parent b c -> same_but_parent a c.
Proof.
  intros [L1 H1] [L2 H2]. split; [congruence|]. intros v.
  destruct (H1 v) as (A & B & C & D), (H2 v) as (A' & B' & C' & D').
  repeat split; try congruence. auto.
Qed.

Lemma find_root_ok : forall fuel vs v k r, rooted vs v k r -> k < fuel ->
  v_cluster (vx vs r) <> None ->
  exists vs', find_root fuel vs v = Ok (vs', r) /\ same_but_parent vs vs' /\
    forall w i r', rooted vs w i r' -> exists i', rooted vs' w i' r'.
Proof.
  induction fuel as [|fuel IH]; intros vs v k r H L C; [lia|].
  cbn [find_root]. rewrite (get_nth vs v new_vertex) by (eapply rooted_lt; eauto). cbn [bindR].
  inversion H as [r' Lr P|v' p k' r' Lv P H']; subst.
  - rewrite P. destruct (v_cluster (vx vs r)) eqn:E; [|congruence].
    exists vs. split; [reflexivity|]. split; [|eauto]. split; auto.
  - rewrite P. destruct (IH vs p k' r H') as (vs1 & E1 & S1 & K1); [lia|auto|].
    rewrite E1. cbn [bindR]. pose proof S1 as [L1 S1'].
    rewrite (get_nth vs1 v new_vertex) by lia. cbn [bindR].
    destruct (K1 v (S k') r H) as [j Hj].
    assert (D : v <> r).
    { intros ->. destruct (rooted_end _ _ _ _ H'). congruence. }
    destruct (compress vs1 v j r Hj D) as [S2 K2].
    eexists. split; [reflexivity|]. split; [eapply same_trans; eauto|].
    intros w i r' R. destruct (K1 w i r' R) as [i1 R1]. eauto.
Qed.

(** Hanging one tree below another root. *)
Lemma hang vs ro rs x : ro < length vs -> v_parent (vx vs ro) = None ->
  rooted vs rs 0 rs -> ro <> rs -> v_parent x = Some rs ->
  forall w i r, rooted vs w i r ->
    exists i', rooted (upd ro x vs) w i' (if r =? ro then rs else r).
Proof.
  intros L P RS D PX. inversion RS as [r' Lr Pr E|]; subst.
  assert (SAME : forall w, w <> ro -> vx (upd ro x vs) w = vx vs w).
  { intros w E. apply nth_upd_other. auto. }
  assert (NEW : vx (upd ro x vs) ro = x) by (apply nth_upd_same; auto).
  induction 1 as [r L' P'|w q k r L' P' H' [i IH]].
  - destruct (Nat.eqb_spec r ro) as [->|E].
    + exists 1. apply ro_step with rs; [rewrite length_upd; auto|rewrite NEW; auto|].
      constructor; [rewrite length_upd; auto|]. rewrite SAME by auto. auto.
    + exists 0. constructor; [rewrite length_upd; auto|]. rewrite SAME; auto.
  - assert (w <> ro) by congruence. exists (S i). apply ro_step with q; auto.
    + rewrite length_upd; auto.
    + rewrite SAME; auto.
Qed.

(** Writing a vertex without changing its parent. *)
Lemma rooted_upd vs u x w i r : v_parent x = v_parent (vx vs u) ->
  rooted vs w i r -> rooted (upd u x vs) w i r.
Proof.
  intros P. assert (PP : forall y, v_parent (vx (upd u x vs) y) = v_parent (vx vs y)).
  { intros y. rewrite nth_upd. destruct ((u =? y) && (u <? length vs)) eqn:E; auto.
    apply andb_true_iff in E. destruct E as [E _]. apply Nat.eqb_eq in E. congruence. }
  induction 1.
  - constructor; rewrite ?length_upd, ?PP; auto.
  - econstructor; rewrite ?length_upd, ?PP; eauto.
Qed.
