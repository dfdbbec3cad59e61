(** Growth of clusters as a process on counters of the edges: the logical value of an error is
    kept if its weight is small. *)
Require Import List Bool Arith Lia.
From Verif Require Import Base BaseProofs GraphSpec GraphProofs UnionFindMetric.
Import ListNotations.
Open Scope nat_scope.

Lemma existsb_in (i : nat) l : existsb (Nat.eqb i) l = true <-> In i l.
Proof.
  rewrite existsb_exists. split.
  - intros (x & I & Q). apply Nat.eqb_eq in Q. subst. auto.
  - intros I. exists i. split; auto. apply Nat.eqb_refl.
Qed.

Lemma sum_filter (f : nat -> bool) (g : nat -> nat) l : sum g (filter f l) = sum (fun i => nb (f i) * g i) l.
Proof.
  induction l as [|a l IH]; [reflexivity|]. cbn [filter]. rewrite sum_cons.
  destruct (f a); cbn [nb]; [rewrite sum_cons|]; lia.
Qed.

Section P.
Variables (n : nat) (edges : list (list nat)).
Hypothesis WF : well_formed n edges.
Variable w : nat -> bool.
Variable mw : nat -> nat.
Variable d : nat.
Notation link := (link edges).
Notation m := (length edges).
Notation flat := (flat n edges w mw).
Notation over := (over edges).
Notation total W := (sum W (seq 0 n)).
Hypothesis HD : no_short n edges w mw d.
Hypothesis MP : forall i, i < m -> 1 <= mw i.

(** The error, its syndrome and the erased edges. *)
Variables (E syn er : nat -> bool).
Hypothesis EX : explains n edges E syn.

Definition budget (i : nat) : nat := nb (er i) * mw i + nb (E i && negb (er i)) * (2 * (mw i + 1)).
Hypothesis HB : sum budget (seq 0 m) < d.

Notation full cnt := (fun i => mw i <=? cnt i).

Lemma flat_ext (R R' : nat -> bool) cl W a phi psi dg : (forall i, i < m -> R i = R' i) ->
  flat R cl W a phi psi dg -> flat R' cl W a phi psi dg.
Proof.
  intros X [A1 A2 A3 A4 A5].
  assert (PM : forall x y p, path n edges R x y p -> path n edges R' x y p).
  { induction 1 as [|x y z i p Ri K P IH]; [constructor; auto|].
    destruct (link_lt n edges WF i x _ K). econstructor; eauto. rewrite <- X; auto. }
  constructor; auto.
  - intros x y Lx Ly Exy. destruct (A2 x y Lx Ly Exy) as (p & P & B). eauto.
  - intros i x y Ri K. destruct (link_lt n edges WF i x _ K). apply A3; auto. rewrite X; auto.
  - intros i x Ri K. destruct (link_lt n edges WF i x _ K). apply (A4 i); auto. rewrite X; auto.
  - intros x Lx D. destruct (A5 x Lx D) as (p & i & y & P & Ri & K & B). exists p, i, y.
    destruct (link_lt n edges WF i y _ K). rewrite <- X; auto.
Qed.

Lemma over_bool (f g : nat -> bool) i : (forall x, x < n -> f x = g x) ->
  i < m -> over (fun x => nb (f x)) i = over (fun x => nb (g x)) i.
Proof.
  intros X L. destruct (over_link n edges WF i L) as (x & [y|] & K).
  - destruct (link_lt n edges WF i x _ K) as [_ Lx]. destruct (link_other n edges WF i x y K) as (Ly & _).
    rewrite !(over_two edges _ i x y K). rewrite (X x Lx), (X y Ly). auto.
  - destruct (link_lt n edges WF i x _ K) as [_ Lx].
    rewrite !(over_one edges _ i x K). rewrite (X x Lx). auto.
Qed.

Lemma over_plus f g i : i < m -> over (fun x => f x + g x) i = over f i + over g i.
Proof.
  intros L. destruct (over_link n edges WF i L) as (x & [y|] & K).
  - rewrite !(over_two edges _ i x y K). lia.
  - rewrite !(over_one edges _ i x K). lia.
Qed.

Lemma over_two_at_most (f : nat -> bool) i : i < m -> over (fun x => nb (f x)) i <= 2.
Proof.
  intros L. destruct (over_link n edges WF i L) as (x & [y|] & K).
  - rewrite !(over_two edges _ i x y K). destruct (f x), (f y); cbn; lia.
  - rewrite !(over_one edges _ i x K). destruct (f x); cbn; lia.
Qed.

(** ** The invariant *)
Definition grown (cnt : nat -> nat) : Prop := exists cl W a phi psi dg ch,
  flat (full cnt) cl W a phi psi dg /\
  (forall i, i < m -> cnt i < mw i -> cnt i = over a i /\ ch i = cnt i) /\
  (forall i, i < m -> ch i <= mw i + 1) /\
  (forall i, i < m -> er i = true -> ch i = 0 /\ mw i <= cnt i) /\
  total W <= sum (fun i => nb (er i) * mw i + nb (E i) * (2 * ch i)) (seq 0 m).

Lemma budget_ch (ch : nat -> nat) : (forall i, i < m -> ch i <= mw i + 1) ->
  (forall i, i < m -> er i = true -> ch i = 0) ->
  sum (fun i => nb (er i) * mw i + nb (E i) * (2 * ch i)) (seq 0 m) <= sum budget (seq 0 m).
Proof.
  intros B Z. apply sum_le. intros i I. apply in_seq in I. unfold budget.
  specialize (B i ltac:(lia)). specialize (Z i ltac:(lia)).
  destruct (er i), (E i); cbn [nb andb negb]; try lia.
Qed.


Lemma grown_start cnt : (forall i, i < m -> er i = true -> mw i <= cnt i) ->
  (forall i, i < m -> er i = false -> cnt i = 0) -> grown cnt.
Proof.
  intros C1 C0. set (l := filter er (seq 0 m)).
  assert (TB : sum mw l <= sum budget (seq 0 m)).
  { unfold l. rewrite sum_filter. apply sum_le. intros i _. unfold budget. lia. }
  destruct (flat_add_list n edges WF w mw d HD mw l (fun _ => false) (fun x => x) (fun _ => 0) (fun _ => 0)
     (fun _ => false) (fun _ => false) (fun _ => false)) as (cl & W & phi & psi & dg & F & T).
  { apply flat_start. }
  { intros i I. unfold l in I. apply filter_In in I. rewrite in_seq in I. split; [|]; lia. }
  { rewrite (sum_zero (fun _ => 0)); auto. lia. }
  exists cl, W, (fun _ => 0), phi, psi, dg, (fun _ => 0). split.
  { eapply flat_ext; [|exact F]. intros i L. cbn beta. rewrite orb_false_r.
    apply eq_true_iff_eq. rewrite existsb_in. unfold l. rewrite filter_In, in_seq, Nat.leb_le.
    specialize (C1 i L). specialize (C0 i L). specialize (MP i L). split.
    - intros []; auto.
    - intros. destruct (er i); auto; [split; auto; lia|]. specialize (C0 eq_refl). lia. }
  split.
  { intros i L X. assert (er i = false).
    { destruct (er i) eqn:Q; auto. specialize (C1 i L Q). lia. }
    rewrite C0; auto. split; auto. destruct (over_link n edges WF i L) as (x & [y|] & K).
    - rewrite (over_two edges _ i x y K). lia.
    - rewrite (over_one edges _ i x K). lia. }
  split; [intros; lia|]. split; [auto|].
  rewrite T, (sum_zero (fun _ => 0)) by auto. unfold l. rewrite sum_filter. apply sum_le. intros i _. lia.
Qed.

(** ** A step *)
(** The grown vertices: whole clusters without dangling edges, each with an odd number of syndrome
    bits. *)
Definition grows (R G : nat -> bool) : Prop :=
  isolated edges (fun i => R i = true) G /\
  forall A x, isolated edges (fun i => R i = true) A ->
    (forall B, isolated edges (fun i => R i = true) B -> forall y z, y < n -> z < n -> A y = true -> A z = true -> B y = B z) ->
    x < n -> A x = true -> G x = true -> parity_on n syn A = true.

Lemma isolated_path R B x y p : isolated edges (fun i => R i = true) B -> path n edges R x y p -> B x = B y.
Proof.
  intros I. induction 1 as [|x y z i p Ri K P IH]; auto. rewrite <- IH.
  specialize (I i Ri). destruct K as [[_ Q]|(y' & Q & [K|K])]; [discriminate| |]; injection Q as <-;
    rewrite (nth_error_nth _ _ _ K) in I; auto.
Qed.

Lemma grown_step cnt cnt' G : grown cnt -> grows (full cnt) G ->
  (forall i, i < m -> mw i <= cnt i -> mw i <= cnt' i) ->
  (forall i, i < m -> cnt i < mw i -> let k := over (fun x => nb (G x)) i in
     if cnt i + k <? mw i then cnt' i = cnt i + k else mw i <= cnt' i) ->
  grown cnt'.
Proof.
  intros (cl & W & a & phi & psi & dg & ch & F & Hc & Hm & He & Ht) [IG OD] C1 C2.
  set (R := full cnt) in *.
  assert (GC : forall x y, x < n -> y < n -> cl x = cl y -> G x = G y).
  { intros x y Lx Ly Q. destruct (f_path _ _ _ _ _ _ _ _ _ _ _ F x y Lx Ly Q) as (p & P & _).
    exact (isolated_path R G x y p IG P). }
  set (T := fun l => existsb (fun x => (cl x =? l) && G x) (seq 0 n)).
  assert (TG : forall x, x < n -> T (cl x) = G x).
  { intros x Lx. apply eq_true_iff_eq. unfold T. rewrite existsb_exists. split.
    - intros (y & I & Q). apply in_seq in I. apply andb_true_iff in Q. destruct Q as [Q1 Q2].
      apply Nat.eqb_eq in Q1. rewrite (GC x y); auto; lia.
    - intros Q. exists x. rewrite Nat.eqb_refl, Q. split; auto. apply in_seq. lia. }
  assert (TD : forall l, T l = true -> dg l = false).
  { intros l Q. unfold T in Q. apply existsb_exists in Q. destruct Q as (x & I & Q). apply in_seq in I.
    apply andb_true_iff in Q. destruct Q as [Q1 Q2]. apply Nat.eqb_eq in Q1. subst l.
    destruct (dg (cl x)) eqn:D; auto. assert (Lx : x < n) by lia.
    destruct (f_exit _ _ _ _ _ _ _ _ _ _ _ F x Lx D) as (p & i & y & P & Ri & K & _).
    rewrite (isolated_path R G _ _ _ IG P) in Q2. specialize (IG i Ri).
    destruct K as [[K _]|(? & ? & _)]; [|discriminate]. rewrite (nth_error_nth _ _ _ K) in IG. congruence. }
  pose proof (flat_grow n edges w mw R cl W a phi psi dg T F TD) as F1.
  set (W1 := fun l => W l + 2 * nb (T l)) in *. set (a1 := fun x => a x + nb (T (cl x))) in *.
  set (k := over (fun x => nb (G x))).
  assert (OA : forall i, i < m -> over a1 i = over a i + k i).
  { intros i L. unfold a1, k. rewrite over_plus by auto. f_equal.
    apply (over_bool (fun x => T (cl x)) G); auto. }
  (* each grown cluster has an edge of the error which is not complete *)
  set (ch1 := fun i => ch i + (if R i then 0 else k i)).
  assert (CH : sum (fun l => nb (T l)) (seq 0 n) <= sum (fun i => nb (E i) * (if R i then 0 else k i)) (seq 0 m)).
  { transitivity (sum (fun l => sum (fun i => nb (E i && negb (R i)) * (nb (T l) * over (fun x => nb (cl x =? l)) i)) (seq 0 m)) (seq 0 n)).
    - apply sum_le. intros l I. apply in_seq in I. destruct (T l) eqn:Q; cbn [nb]; [|lia].
      unfold T in Q. apply existsb_exists in Q. destruct Q as (x & Ix & Q). apply in_seq in Ix.
      apply andb_true_iff in Q. destruct Q as [Q1 Q2].
      set (A := fun z => (z <? n) && (cl z =? l)).
      assert (IA : isolated edges (fun i => R i = true) A).
      { intros i Ri. destruct (Nat.lt_ge_cases i m) as [Li|Li]; [|rewrite nth_overflow; auto].
        destruct (edge_cases n edges WF i Li) as [(v & Ev & Lv)|(u & v & Ev & Duv & Lu & Lv)];
          rewrite (nth_error_nth _ _ _ Ev); unfold A.
        - assert (K : link i v None) by (left; auto).
          destruct (f_one _ _ _ _ _ _ _ _ _ _ _ F i v Ri K) as [D _].
          destruct (Nat.eqb_spec (cl v) l) as [Q|_]; [|apply andb_false_r].
          rewrite (TD (cl v)) in D; [discriminate|]. apply Nat.eqb_eq in Q1.
          rewrite TG; auto. rewrite (GC v x); auto; [lia|congruence].
        - assert (K : link i u (Some v)) by (right; eauto).
          destruct (f_two _ _ _ _ _ _ _ _ _ _ _ F i u v Ri K) as [D _]. apply Nat.ltb_lt in Lu, Lv.
          rewrite D, Lu, Lv. auto. }
      assert (PA : parity_on n syn A = true).
      { apply (OD A x); auto; [|lia|].
        - intros B IB y z Ly Lz Ay Az. unfold A in Ay, Az. apply andb_true_iff in Ay, Az.
          destruct Ay as [_ Ay], Az as [_ Az]. apply Nat.eqb_eq in Ay, Az.
          destruct (f_path _ _ _ _ _ _ _ _ _ _ _ F y z Ly Lz) as (p & P & _); [congruence|].
          exact (isolated_path R B y z p IB P).
        - unfold A. rewrite Q1. assert (x <? n = true) by (apply Nat.ltb_lt; lia). rewrite H. auto. }
      destruct (existsb (fun i => E i && negb (R i) && (1 <=? over (fun x => nb (cl x =? l)) i)) (seq 0 m)) eqn:EE.
      + apply existsb_exists in EE. destruct EE as (i & Ii & Q). apply andb_true_iff in Q. destruct Q as [Q3 Q4].
        apply Nat.leb_le in Q4.
        eapply Nat.le_trans; [|apply (sum_in (fun i => nb (E i && negb (R i)) * (1 * over (fun x => nb (cl x =? l)) i)) _ i Ii)].
        cbn beta. rewrite Q3. cbn [nb]. lia.
      + exfalso.
        assert (IE : isolated edges (fun i => E i = true) A).
        { intros i Ei. destruct (R i) eqn:Ri; [apply IA; auto|].
          destruct (Nat.lt_ge_cases i m) as [Li|Li]; [|rewrite nth_overflow; auto].
          assert (Z : over (fun x => nb (cl x =? l)) i = 0).
          { destruct (over (fun x => nb (cl x =? l)) i) eqn:Q; auto. rewrite <- not_true_iff_false in EE.
            destruct EE. apply existsb_exists. exists i. rewrite Ei, Ri, Q. split; auto. apply in_seq. lia. }
          unfold UnionFindMetric.over in Z.
          destruct (edge_cases n edges WF i Li) as [(v & Ev & Lv)|(u & v & Ev & Duv & Lu & Lv)];
            rewrite (nth_error_nth _ _ _ Ev) in Z |- *; unfold A; cbn in Z.
          - destruct (cl v =? l); [cbn in Z; lia|apply andb_false_r].
          - destruct (cl v =? l), (cl u =? l); cbn in Z; try lia. }
        pose proof (isolated_boundary n edges WF (fun i => E i = true) A E IE (fun i _ X => X)) as Z.
        rewrite (parity_on_ext n _ syn A) in Z; [congruence|]. intros v Lv _. apply EX; auto.
    - rewrite sum_swap. apply sum_le. intros i I. apply in_seq in I. rewrite sum_mult.
      destruct (E i), (R i) eqn:Ri; cbn [andb negb nb]; try lia.
      enough (sum (fun l => nb (T l) * over (fun x => nb (cl x =? l)) i) (seq 0 n) <= k i) by lia.
      assert (ONE : forall x, x < n -> sum (fun l => nb (T l) * nb (cl x =? l)) (seq 0 n) = nb (G x)).
      { intros x Lx. pose proof (f_lt _ _ _ _ _ _ _ _ _ _ _ F x Lx) as Lc.
        pose proof (sum_change (fun l => nb (T l) * nb (cl x =? l)) (fun _ => 0) (cl x) (seq 0 n) (seq_NoDup _ _)) as C.
        cbn beta in C. rewrite (sum_zero (fun _ => 0)), Nat.eqb_refl, TG in C by auto.
        cbn [nb] in C. rewrite Nat.mul_1_r in C.
        enough (sum (fun l => nb (T l) * nb (cl x =? l)) (seq 0 n) + 0 = 0 + nb (G x)) by lia.
        apply C; [apply in_seq; lia|]. intros l D. assert (cl x =? l = false) by (apply Nat.eqb_neq; congruence).
        rewrite H. cbn. lia. }
      unfold k. assert (Li : i < m) by lia. destruct (over_link n edges WF i Li) as (x & [y|] & K).
      + destruct (link_lt n edges WF i x _ K) as [_ Lx]. destruct (link_other n edges WF i x y K) as (Ly & _).
        rewrite (over_two edges _ i x y K), <- (ONE x Lx), <- (ONE y Ly), <- sum_plus.
        apply sum_le. intros l _. rewrite (over_two edges _ i x y K). lia.
      + destruct (link_lt n edges WF i x _ K) as [_ Lx].
        rewrite (over_one edges _ i x K), <- (ONE x Lx).
        apply sum_le. intros l _. rewrite (over_one edges _ i x K). lia. }
  assert (T1 : total W1 <= sum (fun i => nb (er i) * mw i + nb (E i) * (2 * ch1 i)) (seq 0 m)).
  { unfold W1. rewrite sum_plus, sum_mult.
    transitivity (sum (fun i => nb (er i) * mw i + nb (E i) * (2 * ch i)) (seq 0 m) +
       2 * sum (fun i => nb (E i) * (if R i then 0 else k i)) (seq 0 m)); [lia|].
    rewrite <- sum_mult, <- sum_plus. apply sum_le. intros i _. unfold ch1. lia. }
  assert (RI : forall i, i < m -> R i = false -> cnt i < mw i).
  { intros i L Q. unfold R in Q. apply Nat.leb_gt in Q. auto. }
  assert (M1 : forall i, i < m -> ch1 i <= mw i + 1).
  { intros i L. unfold ch1. specialize (Hm i L). destruct (R i) eqn:Q; [lia|]. specialize (RI i L Q).
    destruct (Hc i L RI) as [_ Z]. pose proof (over_two_at_most G i L). unfold k. lia. }
  assert (E1 : forall i, i < m -> er i = true -> ch1 i = 0).
  { intros i L Q. destruct (He i L Q) as [Z1 Z2]. unfold ch1, R. apply Nat.leb_le in Z2. rewrite Z2. lia. }
  pose proof (budget_ch ch1 M1 E1) as BU.
  set (R' := full cnt'). set (l := filter (fun i => negb (R i) && R' i) (seq 0 m)).
  destruct (flat_add_list n edges WF w mw d HD (fun _ => 0) l R cl W1 a1 phi psi dg F1) as (cl2 & W2 & phi2 & psi2 & dg2 & F2 & T2).
  { intros i I. unfold l in I. apply filter_In in I. destruct I as [I Q]. apply in_seq in I. split; [lia|].
    apply andb_true_iff in Q. destruct Q as [Q1 Q2]. apply negb_true_iff in Q1. assert (L : i < m) by lia.
    specialize (RI i L Q1). destruct (Hc i L RI) as [Z _]. rewrite OA, <- Z by auto.
    specialize (C2 i L RI). cbn zeta in C2. fold k in C2. unfold R' in Q2. apply Nat.leb_le in Q2.
    destruct (Nat.ltb_spec (cnt i + k i) (mw i)); lia. }
  { rewrite (sum_zero (fun _ => 0)) by auto. lia. }
  rewrite (sum_zero (fun _ => 0)) in T2 by auto.
  exists cl2, W2, a1, phi2, psi2, dg2, ch1. split.
  { eapply flat_ext; [|exact F2]. intros i L. cbn beta. fold R' R. apply eq_true_iff_eq.
    rewrite orb_true_iff, existsb_in. unfold l. rewrite filter_In, in_seq.
    destruct (R i) eqn:Q.
    - cbn [negb andb]. unfold R in Q. apply Nat.leb_le in Q. specialize (C1 i L Q). apply Nat.leb_le in C1.
      unfold R'. rewrite C1. tauto.
    - cbn [negb andb]. split; [intros [[_ ?]|?]; [auto|discriminate]|]. intros; left; split; auto; lia. }
  split.
  { intros i L X. destruct (R i) eqn:Q.
    { unfold R in Q. apply Nat.leb_le in Q. specialize (C1 i L Q). lia. }
    specialize (RI i L Q). destruct (Hc i L RI) as [Z1 Z2]. rewrite OA by auto.
    specialize (C2 i L RI). cbn zeta in C2. fold k in C2. unfold ch1. rewrite Q.
    destruct (Nat.ltb_spec (cnt i + k i) (mw i)); lia. }
  split; auto. split; [|lia].
  intros i L Q. split; auto. apply C1; auto. apply He; auto.
Qed.

(** ** The end *)
Lemma grown_end cnt C : grown cnt -> (forall i, i < m -> C i = true -> mw i <= cnt i) ->
  explains n edges C syn ->
  parity (map (fun i => C i && w i) (seq 0 m)) = parity (map (fun i => E i && w i) (seq 0 m)).
Proof.
  intros (cl & W & a & phi & psi & dg & ch & F & Hc & Hm & He & Ht) CI CX.
  set (R := full cnt) in *. set (l := filter (fun i => E i && negb (R i)) (seq 0 m)).
  set (cr := fun i => mw i - cnt i).
  assert (TB : total W + sum cr l <= sum budget (seq 0 m)).
  { unfold l. rewrite sum_filter.
    transitivity (sum (fun i => (nb (er i) * mw i + nb (E i) * (2 * ch i)) + nb (E i && negb (R i)) * cr i) (seq 0 m)).
    - rewrite sum_plus. lia.
    - apply sum_le. intros i I. apply in_seq in I. assert (L : i < m) by lia. unfold budget, cr.
      specialize (Hm i L). specialize (Hc i L). specialize (He i L).
      unfold R. destruct (Nat.leb_spec (mw i) (cnt i)) as [Q|Q].
      + destruct (E i), (er i); cbn [nb andb negb]; try lia.
      + destruct (Hc Q) as [_ Z]. destruct (er i); [destruct (He eq_refl); lia|].
        destruct (E i); cbn [nb andb negb]; lia. }
  destruct (flat_add_list n edges WF w mw d HD cr l R cl W a phi psi dg F) as (cl2 & W2 & phi2 & psi2 & dg2 & F2 & T2).
  { intros i I. unfold l in I. apply filter_In in I. destruct I as [I Q]. apply in_seq in I.
    apply andb_true_iff in Q. destruct Q as [_ Q]. apply negb_true_iff in Q. unfold R in Q. apply Nat.leb_gt in Q.
    assert (L : i < m) by lia. destruct (Hc i L Q) as [Z _]. split; auto. unfold cr. lia. }
  { lia. }
  assert (Z : parity (map (fun i => xorb (C i) (E i) && w i) (seq 0 m)) = false).
  { eapply (flat_end n edges WF w mw _ _ _ _ _ _ _ _ F2).
    - intros i L Q. cbn beta. rewrite orb_true_iff, existsb_in. unfold l. rewrite filter_In, in_seq.
      specialize (CI i L). destruct (R i) eqn:Ri; auto. left. split; [lia|].
      destruct (C i); [|destruct (E i); auto].
      specialize (CI eq_refl). unfold R in Ri. apply Nat.leb_gt in Ri. lia.
    - intros v Lv. rewrite (boundary_xor edges C E v), (CX v Lv), (EX v Lv). apply xorb_nilpotent. }
  rewrite (parity_ext _ (fun i => xorb (C i && w i) (E i && w i))) in Z.
  - rewrite parity_xor in Z. apply xorb_eq in Z. auto.
  - intros i _. destruct (C i), (E i), (w i); reflexivity.
Qed.
End P.
