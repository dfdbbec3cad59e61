(** Errors of low weight and decoders for whole syndrome graphs: the corrections of the
    components together flip a logical operator exactly if the errors do. *)
Require Import List Bool Arith ZArith QArith Lia Relations Permutation.
From Verif Require Import Base BaseProofs QSpec PauliModel PauliAlg MeasureProofs GraphSpec GraphProofs
  LatticeSpec LatticeOps GeneratorSpec CodesModel
  ErasureModel ErasureProofs SyngraphModel SyngraphBuild SyngraphDup SyngraphComp SyngraphObjs SyngraphProofs SyngraphErrors
  SyngraphOps SyngraphFinal UnionFindModel UnionFindInit UnionFindStep UnionFindFinal UnionFindMetric UnionFindGrowth UnionFindDistance
  Props_UnionFind Props_Syngraph DecoderSpec DecoderModel DecoderProofs DecoderObjects.
Import ListNotations.
Open Scope nat_scope.
Local Arguments incident : simpl never.

(** * Sums over a part of the edges *)

Lemma sum_perm {A} (f : A -> nat) l l' : Permutation l l' -> sum f l = sum f l'.
Proof. induction 1; auto; rewrite ?sum_cons; lia. Qed.

Lemma parity_perm l l' : Permutation l l' -> parity l = parity l'.
Proof.
  induction 1 as [|x l l' _ IH|x y l|]; auto; try congruence.
  - change (xorb x (parity l) = xorb x (parity l')). congruence.
  - change (xorb y (xorb x (parity l)) = xorb x (xorb y (parity l))). destruct x, y, (parity l); auto.
Qed.

Lemma part_perm l m : NoDup l -> (forall i, In i l -> i < m) ->
  Permutation (filter (fun i => existsb (Nat.eqb i) l) (seq 0 m)) l.
Proof.
  intros ND B. apply NoDup_Permutation; auto; [apply NoDup_filter, seq_NoDup|].
  intros i. rewrite filter_In, existsb_in, in_seq. split; [tauto|]. intros I. split; auto. specialize (B i I). lia.
Qed.

Lemma sum_part (f : nat -> nat) l m : NoDup l -> (forall i, In i l -> i < m) -> sum f l <= sum f (seq 0 m).
Proof.
  intros ND B. rewrite <- (sum_perm f _ _ (part_perm l m ND B)), sum_filter. apply sum_le. intros i _. destruct (existsb _ l); cbn; lia.
Qed.

Lemma sum_sub (f : nat -> nat) l m : NoDup l -> (forall i, In i l -> i < m) -> (forall i, i < m -> ~ In i l -> f i = 0) ->
  sum f (seq 0 m) = sum f l.
Proof.
  intros ND B Z. rewrite <- (sum_perm f _ _ (part_perm l m ND B)), sum_filter. apply sum_ext. intros i I. apply in_seq in I.
  destruct (existsb (Nat.eqb i) l) eqn:X; cbn [nb]; [lia|]. rewrite Z; [lia|lia|]. intros J. apply existsb_in in J. congruence.
Qed.

Lemma parity_sub (f : nat -> bool) l m : NoDup l -> (forall i, In i l -> i < m) -> (forall i, i < m -> ~ In i l -> f i = false) ->
  parity (map f (seq 0 m)) = parity (map f l).
Proof.
  intros ND B Z. rewrite <- (parity_perm _ _ (Permutation_map f (part_perm l m ND B))).
  assert (X : forall l', (forall i, In i l' -> i < m) -> parity (map f l') = parity (map f (filter (fun i => existsb (Nat.eqb i) l) l'))).
  { induction l' as [|i l' IH]; intros BL; auto. cbn [filter map].
    change (parity (f i :: map f l')) with (xorb (f i) (parity (map f l'))). rewrite IH by (intros; apply BL; right; auto).
    destruct (existsb (Nat.eqb i) l) eqn:X; auto. rewrite Z, xorb_false_l; auto; [apply BL; left; auto|].
    intros J. apply existsb_in in J. congruence. }
  apply X. intros i I. apply in_seq in I. lia.
Qed.

Lemma map_nth_seq {A B} (f : A -> B) l d : map f l = map (fun j => f (nth j l d)) (seq 0 (length l)).
Proof.
  apply list_ext with (d := f d); [rewrite !map_length, seq_length; auto|]. intros i L. rewrite map_length in L.
  rewrite map_nth, (nth_map_seq (fun j => f (nth j l d))); auto.
Qed.

Lemma finite_choice (P : nat -> nat -> Prop) m : (forall i, i < m -> exists j, P i j) -> exists r, forall i, i < m -> P i (r i).
Proof.
  induction m as [|m IH]; intros H; [exists (fun _ => 0); lia|].
  destruct IH as [r R]; [auto|]. destruct (H m ltac:(lia)) as [j J]. exists (fun i => if i =? m then j else r i).
  intros i L. destruct (Nat.eqb_spec i m) as [->|]; auto. apply R. lia.
Qed.

Lemma nb_parity {A} (f : A -> bool) l : nb (parity (map f l)) <= sum (fun x => nb (f x)) l.
Proof.
  induction l as [|a l IH]; [cbn; lia|]. rewrite sum_cons. change (parity (map f (a :: l))) with (xorb (f a) (parity (map f l))).
  destruct (f a), (parity (map f l)); cbn [xorb nb] in *; lia.
Qed.

(** * Decoders whose edges all have the same length *)

Definition even_length (len : nat) (d : decoder) : Prop :=
  forall x, In x (dc_decs d) -> forall i, i < length (u_grow (d_uf x)) -> needs (fresh (u_grow (d_uf x))) i = len.

Lemma length_fresh gs : length (fresh gs) = length gs.
Proof. apply map_length. Qed.

Section L.
Variables (rounds n : nat) (gens : list row) (w : option warg).

Lemma even_traced len fuel er syn d d' : good rounds n gens w d -> traced fuel er syn d d' -> even_length len d -> even_length len d'.
Proof.
  intros G (_ & _ & T) EV x' I'. destruct (T x' I') as (x & res & I & C & X & _).
  set (k := nth (d_comp x) (sg_comps (dc_graph d)) comp0) in *. destruct G as [U _ CM OB].
  assert (Ik : In k (sg_comps (dc_graph d))).
  { apply nth_In. apply (in_map d_comp) in I. rewrite CM in I. apply filter_In in I. destruct I as [I _]. apply in_seq in I. lia. }
  destruct (C50_components _ _ _ _ _ U) as (_ & CK & _). destruct (CK k Ik) as (_ & _ & _ & _ & _ & _ & EN & WF & LE & _).
  assert (F : fresh (u_grow (d_uf x')) = fresh (u_grow (d_uf x))).
  { eapply (uf_decode_fresh (k_n k) (k_edges k)); eauto.
    - apply uf_object_ready; auto. apply OB; auto.
    - rewrite map_length. auto.
    - intros i J. apply nonzero_in in J. rewrite map_length in J. rewrite LE. tauto. }
  intros i L. rewrite F. apply EV; auto. rewrite <- length_fresh, <- F, length_fresh. auto.
Qed.

(** * One graph *)

Variable d : decoder.
Notation g := (dc_graph d).
Notation m := (length (sg_ends g)).
Hypothesis GD : good rounds n gens w d.
Hypothesis FIN : forall i, i < m -> is_inf (weight_of g i) = false.
Hypothesis SAME : forall i j, i < m -> j < m -> wlt (weight_of g i) (weight_of g j) = false.

Definition act (i : nat) : bool := nth i (sg_on g) false.

(** Each error can be replaced by one on an active edge. *)
Lemma representatives : exists r : nat -> nat, forall j, j < m -> r j < m /\ act (r j) = true /\ (act j = true -> r j = j) /\
  (nth j (sg_ends g) [] <> [] -> nth (r j) (sg_ends g) [] <> []) /\
  (forall v, In v (nth j (sg_ends g) []) <-> In v (nth (r j) (sg_ends g) [])).
Proof.
  destruct GD as [U _ _ _]. apply (finite_choice (fun j i => i < m /\ act i = true /\ (act j = true -> i = j) /\
    (nth j (sg_ends g) [] <> [] -> nth i (sg_ends g) [] <> []) /\
    (forall v, In v (nth j (sg_ends g) []) <-> In v (nth i (sg_ends g) [])))). intros j Lj.
  destruct (nth j (sg_ends g) []) as [|a e] eqn:EJ.
  - exists j. split; auto. split; [|rewrite EJ; tauto]. apply (C31_parallel _ _ _ _ _ U j Lj). split; auto.
    intros i _ _ [X _]. congruence.
  - destruct (C31_one _ _ _ _ _ U j) as (i & Li & [P1 P2] & A & Q & _); auto; [congruence| |].
    { intros k Lk _ X. specialize (FIN k Lk). rewrite X in FIN. discriminate. }
    exists i. split; auto. split; auto. rewrite EJ in P2. split; [|split; auto].
    + intros X. symmetry. apply Q; auto. split; [congruence|tauto].
    + intros _ Z. rewrite Z in P2. apply (P2 a). left; auto.
Qed.

Lemma incident_same i j v : (forall v, In v (nth i (sg_ends g) []) <-> In v (nth j (sg_ends g) [])) ->
  incident (sg_ends g) i v = incident (sg_ends g) j v.
Proof. intros H. apply eq_true_iff_eq. unfold incident. rewrite !existsb_in. apply H. Qed.

(** ** The logical operator *)
Variables (flips rel : nat -> bool) (dist len : nat).
Hypothesis REL : forall i j v, i < m -> j < m -> In v (nth i (sg_ends g) []) -> In v (nth j (sg_ends g) []) -> rel i = rel j.
Hypothesis FREL : forall i, i < m -> flips i = true -> rel i = true.
Hypothesis DIST : forall sel, (forall v, v < length (sg_verts g) -> boundary (sg_ends g) sel v = false) ->
  parity (map (fun i => sel i && flips i) (seq 0 m)) = true -> dist <= sum (fun i => nb (sel i)) (seq 0 m).
Hypothesis LEN : 1 <= len.

Variables (E : nat -> bool) (mark : nat -> bool).
Definition cost (i : nat) : nat :=
  nb (rel i) * (nb (mark i && act i) * len + nb (E i && negb (mark i && act i)) * (2 * (len + 1))).
Hypothesis COST : sum cost (seq 0 m) < len * dist.

Lemma cost_one i : i < m -> cost i < len * dist.
Proof. intros L. eapply Nat.le_lt_trans; [|apply COST]. apply (sum_in cost). apply in_seq. lia. Qed.

Variable r : nat -> nat.
Hypothesis REPR : forall j, j < m -> r j < m /\ act (r j) = true /\ (act j = true -> r j = j) /\
  (nth j (sg_ends g) [] <> [] -> nth (r j) (sg_ends g) [] <> []) /\
  (forall v, In v (nth j (sg_ends g) []) <-> In v (nth (r j) (sg_ends g) [])).

Definition moved (i : nat) : bool := parity (map (fun j => E j && (r j =? i)) (seq 0 m)).

Lemma moved_sum (h : nat -> bool) : parity (map (fun i => moved i && h i) (seq 0 m)) = parity (map (fun j => E j && h (r j)) (seq 0 m)).
Proof.
  unfold moved. rewrite (parity_ext _ (fun i => parity (map (fun j => h i && (E j && (r j =? i))) (seq 0 m)))).
  - rewrite parity_swap. apply parity_ext. intros j I. apply in_seq in I. destruct (REPR j ltac:(lia)) as (L & _).
    rewrite (parity_one _ (r j)).
    + rewrite Nat.eqb_refl, andb_true_r. apply andb_comm.
    + apply seq_NoDup.
    + apply in_seq. lia.
    + intros i _ D. rewrite (proj2 (Nat.eqb_neq (r j) i)) by auto. rewrite !andb_false_r. auto.
  - intros i _. rewrite parity_and. apply andb_comm.
Qed.

Lemma moved_count (h : nat -> nat) : sum (fun i => nb (moved i) * h i) (seq 0 m) <= sum (fun j => nb (E j) * h (r j)) (seq 0 m).
Proof.
  eapply Nat.le_trans.
  { apply (sum_le _ (fun i => sum (fun j => h i * nb (E j && (r j =? i))) (seq 0 m))). intros i _. rewrite sum_mult, Nat.mul_comm.
    apply Nat.mul_le_mono_l. apply nb_parity. }
  rewrite sum_swap. apply sum_le. intros j I. apply in_seq in I. destruct (REPR j ltac:(lia)) as (L & _).
  rewrite (sum_sub _ [r j]).
  - cbn. rewrite Nat.eqb_refl, andb_true_r. lia.
  - constructor; [intros []|constructor].
  - intros i [<-|[]]. auto.
  - intros i _ N. rewrite (proj2 (Nat.eqb_neq (r j) i)) by (intros X; apply N; left; auto). rewrite andb_false_r. cbn. lia.
Qed.

Lemma moved_boundary v : boundary (sg_ends g) moved v = boundary (sg_ends g) E v.
Proof.
  unfold boundary. rewrite (moved_sum (fun i => incident (sg_ends g) i v)). apply parity_ext. intros j I. apply in_seq in I. f_equal.
  symmetry. apply incident_same. apply REPR. lia.
Qed.

Lemma moved_active i : i < m -> moved i = true -> act i = true.
Proof.
  intros L X. destruct (act i) eqn:A; auto. rewrite <- X. symmetry. apply parity_false. intros j I. apply in_seq in I.
  destruct (Nat.eqb_spec (r j) i) as [<-|]; [|apply andb_false_r]. destruct (REPR j ltac:(lia)) as (_ & B & _). congruence.
Qed.

Lemma rel_repr j : j < m -> nth j (sg_ends g) [] <> [] -> rel (r j) = rel j.
Proof.
  intros L N. destruct (REPR j L) as (Lr & _ & _ & _ & V). destruct (nth j (sg_ends g) []) as [|a e] eqn:EJ; [congruence|].
  apply (REL (r j) j a); auto; [apply V|rewrite EJ]; left; auto.
Qed.

Lemma two_edges j : j < m -> E j = true -> flips (r j) = flips j.
Proof.
  intros L Ej. destruct (REPR j L) as (Lr & _ & K & NE & V).
  destruct (act j) eqn:A; [rewrite K; auto|].
  assert (NJ : nth j (sg_ends g) [] <> []).
  { intros Z. assert (X : act j = true); [|congruence]. destruct GD as [U _ _ _]. apply (C31_parallel _ _ _ _ _ U j L). split; auto.
    intros i _ _ [X _]. congruence. }
  destruct (rel j) eqn:Rj.
  - destruct (Bool.bool_dec (flips (r j)) (flips j)) as [|D]; auto. exfalso.
    assert (D2 : r j <> j) by (intros X; rewrite X in D; auto).
    pose proof (cost_one j L) as C. unfold cost in C. rewrite Rj, A, Ej, andb_false_r in C. cbn [nb negb andb] in C.
    assert (X : dist <= sum (fun i => nb ((i =? j) || (i =? r j))) (seq 0 m)).
    { apply DIST.
      - intros v Lv. unfold boundary. rewrite (parity_sub _ [j; r j]).
        + cbn. rewrite (Nat.eqb_refl j), (Nat.eqb_refl (r j)), orb_true_r. cbn. rewrite (incident_same j (r j)) by auto.
          rewrite xorb_false_r. apply xorb_nilpotent.
        + constructor; [intros [X|[]]; auto|constructor; [intros []|constructor]].
        + intros i [<-|[<-|[]]]; auto.
        + intros i _ N. rewrite (proj2 (Nat.eqb_neq i j)), (proj2 (Nat.eqb_neq i (r j))); auto; intros ->; apply N; cbn; auto.
      - rewrite (parity_sub _ [j; r j]).
        + cbn. rewrite (Nat.eqb_refl j), (Nat.eqb_refl (r j)), orb_true_r. cbn. rewrite xorb_false_r.
          destruct (flips j), (flips (r j)); auto; congruence.
        + constructor; [intros [X|[]]; auto|constructor; [intros []|constructor]].
        + intros i [<-|[<-|[]]]; auto.
        + intros i _ N. rewrite (proj2 (Nat.eqb_neq i j)), (proj2 (Nat.eqb_neq i (r j))); auto; intros ->; apply N; cbn; auto. }
    rewrite (sum_sub _ [j; r j]) in X.
    + cbn in X. rewrite (Nat.eqb_refl j), (Nat.eqb_refl (r j)), orb_true_r in X. cbn in X.
      assert (Y : len * dist <= len * 2) by (apply Nat.mul_le_mono_l; lia). lia.
    + constructor; [intros [Y|[]]; auto|constructor; [intros []|constructor]].
    + intros i [<-|[<-|[]]]; auto.
    + intros i _ N. rewrite (proj2 (Nat.eqb_neq i j)), (proj2 (Nat.eqb_neq i (r j))); auto; intros ->; apply N; cbn; auto.
  - pose proof (rel_repr j L NJ) as RR. destruct (flips (r j)) eqn:F1, (flips j) eqn:F2; auto; apply FREL in F1 || apply FREL in F2; auto; congruence.
Qed.

(** Moving the errors does not change their effect. *)
Lemma moved_flips : parity (map (fun i => moved i && flips i) (seq 0 m)) = parity (map (fun i => E i && flips i) (seq 0 m)).
Proof.
  rewrite moved_sum. apply parity_ext. intros j I. apply in_seq in I. destruct (E j) eqn:Ej; auto. cbn. apply two_edges; auto. lia.
Qed.

(** Errors which no generator detects have no effect. *)
Lemma undetected i : i < m -> nth i (sg_ends g) [] = [] -> moved i = true -> flips i = false.
Proof.
  intros L Z M. destruct (flips i) eqn:F; auto. exfalso. pose proof (FREL i L F) as Ri.
  assert (Ei : E i = true).
  { destruct (E i) eqn:Ei; auto. rewrite <- M. symmetry. unfold moved. apply parity_false. intros j I. apply in_seq in I.
    destruct (Nat.eqb_spec (r j) i) as [X|]; [|apply andb_false_r]. destruct (REPR j ltac:(lia)) as (_ & _ & K & NE & V).
    assert (J : nth j (sg_ends g) [] = []).
    { destruct (nth j (sg_ends g) []) as [|a e] eqn:EJ; auto. exfalso. apply NE; [discriminate|]. rewrite X. auto. }
    destruct GD as [U _ _ _].
    assert (A : act j = true) by (apply (C31_parallel _ _ _ _ _ U j); [lia|]; split; [apply FIN; lia|]; intros ? _ _ [Q _]; congruence).
    assert (Q : j = i) by (rewrite <- (K A); auto). rewrite Q, Ei. auto. }
  assert (X : dist <= sum (fun k => nb (k =? i)) (seq 0 m)).
  { apply DIST.
    - intros v Lv. apply parity_false. intros k I. destruct (Nat.eqb_spec k i) as [->|]; auto. unfold incident. rewrite Z. auto.
    - rewrite (parity_sub _ [i]).
      + cbn. rewrite Nat.eqb_refl, F. auto.
      + constructor; [intros []|constructor].
      + intros k [<-|[]]. auto.
      + intros k _ N. rewrite (proj2 (Nat.eqb_neq k i)); auto. intros ->. apply N. left; auto. }
  rewrite (sum_sub _ [i]) in X.
  - cbn in X. rewrite Nat.eqb_refl in X. cbn in X. pose proof (cost_one i L) as C. unfold cost in C. rewrite Ri, Ei in C.
    assert (Y : len * dist <= len * 1) by (apply Nat.mul_le_mono_l; lia). destruct (mark i && act i); cbn [nb negb andb] in C; lia.
  - constructor; [intros []|constructor].
  - intros k [<-|[]]. auto.
  - intros k _ N. rewrite (proj2 (Nat.eqb_neq k i)); auto. intros ->. apply N. left; auto.
Qed.

(** The cost of the moved errors. *)
Definition cost2 (i : nat) : nat := nb (rel i) * (nb (mark i) * len + nb (moved i && negb (mark i)) * (2 * (len + 1))).

Lemma moved_cost : sum (fun i => nb (act i) * cost2 i) (seq 0 m) <= sum cost (seq 0 m).
Proof.
  eapply Nat.le_trans.
  { apply (sum_le _ (fun i => nb (rel i) * (nb (mark i && act i) * len) + nb (moved i) * (nb (rel i && negb (mark i)) * (2 * (len + 1))))).
    intros i I. unfold cost2. destruct (act i), (rel i), (mark i), (moved i); cbn [nb andb negb]; lia. }
  rewrite sum_plus.
  eapply Nat.le_trans; [apply Nat.add_le_mono_l; apply (moved_count (fun i => nb (rel i && negb (mark i)) * (2 * (len + 1))))|].
  rewrite <- sum_plus. apply sum_le. intros j I. apply in_seq in I. unfold cost.
  destruct (act j) eqn:A.
  - destruct (REPR j ltac:(lia)) as (_ & _ & K & _). rewrite K by auto. rewrite andb_true_r.
    destruct (rel j), (mark j), (E j); cbn [nb andb negb]; lia.
  - assert (NJ : nth j (sg_ends g) [] <> []).
    { intros Z. assert (X : act j = true); [|congruence]. destruct GD as [U _ _ _]. apply (C31_parallel _ _ _ _ _ U j); [lia|]. split; [apply FIN; lia|].
      intros i _ _ [X _]. congruence. }
    rewrite (rel_repr j ltac:(lia) NJ), andb_false_r. destruct (rel j), (mark (r j)), (E j); cbn [nb andb negb]; lia.
Qed.

(** ** One component *)

Lemma in_comp k i : In k (sg_comps g) -> In i (k_eidx k) ->
  i < m /\ act i = true /\ exists v, In v (k_vidx k) /\ v < length (sg_verts g) /\ In v (nth i (sg_ends g) []).
Proof.
  intros I J. destruct GD as [U _ _ _]. destruct (C50_components _ _ _ _ _ U) as (_ & CK & _).
  destruct (CK k I) as (_ & _ & _ & VB & _ & EI & _). apply EI in J. destruct J as (A & v & Iv & Ie). split; [|split; eauto].
  destruct (Nat.lt_ge_cases i m); auto. rewrite nth_overflow in Ie by auto. destruct Ie.
Qed.

Lemma same_comp c c' k k' i : nth_error (sg_comps g) c = Some k -> nth_error (sg_comps g) c' = Some k' ->
  In i (k_eidx k) -> In i (k_eidx k') -> c = c'.
Proof.
  intros C C' I I'. destruct GD as [U _ _ _]. destruct (C50_components _ _ _ _ _ U) as (CV & CK & _).
  pose proof (nth_error_In _ _ C) as Ik. pose proof (nth_error_In _ _ C') as Ik'.
  destruct (CK k Ik) as (_ & _ & _ & VB & _ & EI & _ & WF & LE & EE & _). destruct (CK k' Ik') as (_ & _ & _ & _ & CO' & EI' & _ & WF' & LE' & EE' & _).
  assert (X : forall k, In k (sg_comps g) -> In i (k_eidx k) -> forall v, In v (nth i (sg_ends g) []) -> In v (k_vidx k)).
  { intros k0 J0 J1 v Iv. destruct (CK k0 J0) as (_ & _ & _ & _ & _ & _ & EN0 & WF0 & LE0 & EE0 & _).
    apply (In_nth _ _ 0) in J1. destruct J1 as (j & Lj & <-). rewrite <- EE0 in Iv by auto. apply in_map_iff in Iv.
    destruct Iv as (p & <- & Ip). apply nth_In. rewrite <- EN0.
    destruct (WF0 (nth j (k_edges k0) [])) as [(a & Ea & La)|(a & b & Ea & _ & La & Lb)]; [apply nth_In; lia| |];
      rewrite Ea in Ip; cbn in Ip; intuition (subst; auto). }
  destruct (in_comp k i Ik I) as (_ & _ & v & Iv & Lv & Ie). destruct (CV v Lv) as (c0 & _ & Q).
  assert (c = c0) by (apply (Q c k C); auto). assert (c' = c0) by (apply (Q c' k' C'); eauto). congruence.
Qed.

Lemma rel_comp k i j : In k (sg_comps g) -> In i (k_eidx k) -> In j (k_eidx k) -> rel i = true -> rel j = true.
Proof.
  intros Ik I J Ri. destruct (in_comp k i Ik I) as (Li & Ai & u & Iu & Lu & Eu). destruct (in_comp k j Ik J) as (Lj & Aj & v & Iv & Lv & Ev).
  destruct GD as [U _ _ _]. destruct (C50_components _ _ _ _ _ U) as (_ & CK & _).
  destruct (CK k Ik) as (_ & _ & _ & _ & CO & _).
  assert (X : forall a b, connected (sg_ends g) (active g) a b -> (exists e, e < m /\ In a (nth e (sg_ends g) []) /\ rel e = true) ->
    exists e, e < m /\ In b (nth e (sg_ends g) []) /\ rel e = true).
  { induction 1 as [a b (e & Ae & EE)|a|a b c _ IH1 _ IH2]; auto. intros (e' & Le' & Ie' & Re').
    assert (Le : e < m) by (destruct EE as [EE|EE]; apply nth_error_Some; congruence).
    assert (In a (nth e (sg_ends g) []) /\ In b (nth e (sg_ends g) [])) as [Ia Ib].
    { destruct EE as [EE|EE]; rewrite (nth_error_nth _ _ _ EE); cbn; auto. }
    exists e. split; auto. split; auto. rewrite <- Re'. apply (REL e e' a); auto. }
  destruct (X u v) as (e & Le & Ie & Re); [apply CO; auto|exists i; auto|]. rewrite <- Re. apply (REL j e v); auto.
Qed.

Lemma comp_short c k : nth_error (sg_comps g) c = Some k ->
  forall sel, explains (k_n k) (k_edges k) sel (fun _ => false) ->
  parity (map (fun j => sel j && flips (nth j (k_eidx k) 0)) (seq 0 (length (k_edges k)))) = true ->
  dist <= sum (fun j => nb (sel j)) (seq 0 (length (k_edges k))).
Proof.
  intros C sel EX P. pose proof (nth_error_In _ _ C) as Ik. pose proof GD as [U _ _ _].
  destruct (C50_components _ _ _ _ _ U) as (CV & CK & CE).
  destruct (CK k Ik) as (_ & NV & NE & VB & _ & EI & EN & WF & LE & EE & _). rewrite LE in *.
  set (G := fun i => existsb (fun j => (nth j (k_eidx k) 0 =? i) && sel j) (seq 0 (length (k_eidx k)))).
  assert (GJ : forall j, j < length (k_eidx k) -> G (nth j (k_eidx k) 0) = sel j).
  { intros j Lj. apply eq_true_iff_eq. unfold G. rewrite existsb_exists. split.
    - intros (j' & I & X). apply in_seq in I. apply andb_true_iff in X. destruct X as [X S]. apply Nat.eqb_eq in X.
      rewrite <- S. f_equal. apply (proj1 (NoDup_nth _ 0) NE); auto. lia.
    - intros S. exists j. rewrite Nat.eqb_refl, S. split; auto. apply in_seq. lia. }
  assert (GI : forall i, G i = true -> In i (k_eidx k)).
  { intros i X. apply existsb_exists in X. destruct X as (j & I & X). apply in_seq in I. apply andb_true_iff in X. destruct X as [X _].
    apply Nat.eqb_eq in X. subst i. apply nth_In. lia. }
  assert (BI : forall i, In i (k_eidx k) -> i < m) by (intros i I; apply (in_comp k i Ik I)).
  assert (Q : dist <= sum (fun i => nb (G i)) (seq 0 m)).
  { apply DIST.
    - assert (X : explains (length (sg_verts g)) (sg_ends g) G (fun _ => false)); [|exact X].
      apply (CE G (fun _ => false)); [intros i X; apply EI; auto|]. intros k' Ik'.
      apply (In_nth_error) in Ik'. destruct Ik' as [c' C'].
      destruct (existsb (fun j => G (nth j (k_eidx k') 0)) (seq 0 (length (k_eidx k')))) eqn:B.
      + apply existsb_exists in B. destruct B as (j & Ij & X). apply in_seq in Ij. apply GI in X.
        assert (c = c') by (eapply same_comp; eauto; apply nth_In; lia). subst c'. assert (k' = k) by congruence. subst k'.
        intros v Lv. rewrite <- (EX v Lv). unfold boundary. apply parity_ext. intros j' I'. apply in_seq in I'. rewrite GJ by lia. auto.
      + intros v Lv. apply parity_false. intros j I. apply in_seq in I.
        destruct (CK k' (nth_error_In _ _ C')) as (_ & _ & _ & _ & _ & _ & _ & _ & LE' & _).
        rewrite (existsb_false _ _ B j) by (apply in_seq; lia). auto.
    - rewrite (parity_sub _ (k_eidx k)); auto.
      + rewrite (map_nth_seq _ _ 0). rewrite <- P. apply parity_ext. intros j I. apply in_seq in I. cbv beta. rewrite GJ by lia. auto.
      + intros i _ N. destruct (G i) eqn:X; auto. apply GI in X. contradiction. }
  rewrite (sum_sub _ (k_eidx k)) in Q; auto.
  - rewrite (map_nth_seq _ _ 0) in Q. erewrite sum_ext; [exact Q|]. intros j I. apply in_seq in I. cbv beta. rewrite GJ by lia. auto.
  - intros i _ N. destruct (G i) eqn:X; auto. apply GI in X. contradiction.
Qed.

(** ** The call *)
Variables (d' : decoder) (fuel : nat) (er : option (list (list bool))) (syn : list (list bool)).
Hypothesis MARK : forall i, mark i = marked g er i.
Hypothesis GD' : good rounds n gens w d'.
Hypothesis TR : traced fuel er syn d d'.
Hypothesis EVEN : even_length len d.
Hypothesis SYN : forall v, v < length (sg_verts g) -> boundary (sg_ends g) E v = vertex_bit g syn v.
Notation res := (fun i => nth i (sg_result (dc_graph d')) false).

Lemma comp_limit c k : nth_error (sg_comps g) c = Some k ->
  parity (map (fun i => xorb (res i) (moved i) && flips i) (k_eidx k)) = false.
Proof.
  intros C. pose proof (nth_error_In _ _ C) as Ik. pose proof GD as [U _ CM OB].
  assert (Lc : c < length (sg_comps g)) by (apply nth_error_Some; congruence).
  assert (NK : nth c (sg_comps g) comp0 = k) by (apply nth_error_nth; auto).
  destruct (C50_components _ _ _ _ _ U) as (CV & CK & CE).
  destruct (CK k Ik) as (_ & NV & NE & VB & _ & EI & EN & WF & LE & EE & _).
  destruct (existsb flips (k_eidx k)) eqn:FX.
  2: { apply parity_false. intros i I. rewrite (existsb_false _ _ FX i I). apply andb_false_r. }
  apply existsb_exists in FX. destruct FX as (i0 & I0 & F0). pose proof (FREL i0 (proj1 (in_comp k i0 Ik I0)) F0) as R0.
  assert (HE : has_edges k = true).
  { unfold has_edges. rewrite LE. destruct (k_eidx k); [destruct I0|reflexivity]. }
  destruct TR as (COMPS & SH & T).
  assert (IX : exists x', In x' (dc_decs d') /\ d_comp x' = c).
  { assert (J : In c (map d_comp (dc_decs d'))).
    { rewrite (gd_comps _ _ _ _ _ GD'). apply filter_In. split; [apply in_seq; lia|].
      unfold has_edges. rewrite (shape_edges _ _ (SH c)), NK. exact HE. }
    apply in_map_iff in J. destruct J as (x' & <- & J). eauto. }
  destruct IX as (x' & Ix' & Cx'). destruct (T x' Ix') as (x & cor & Ix & Cx & X & RES). rewrite Cx' in Cx. rewrite Cx, NK in X, RES.
  assert (RD : uready (k_n k) (k_edges k) (d_uf x)).
  { apply uf_object_ready; auto. specialize (OB x Ix). rewrite Cx, NK in OB. exact OB. }
  assert (ND : forall j, j < length (k_edges k) -> needs (fresh (u_grow (d_uf x))) j = len).
  { intros j Lj. apply EVEN; auto. rewrite (uo_grow _ _ _ (proj1 RD)). auto. }
  assert (BI : forall i, In i (k_eidx k) -> i < m) by (intros i I; apply (in_comp k i Ik I)).
  assert (MK : forall j, j < length (k_edges k) -> existsb (Nat.eqb j) (nonzero (map (marked g er) (k_eidx k))) = mark (nth j (k_eidx k) 0)).
  { intros j Lj. apply eq_true_iff_eq. rewrite existsb_in, nonzero_in, map_length, MARK.
    rewrite (nth_indep _ false (marked g er 0)) by (rewrite map_length; lia). rewrite map_nth. rewrite LE in Lj. tauto. }
  unshelve epose proof (uf_decode_limit (k_n k) (k_edges k) (fun j => flips (nth j (k_eidx k) 0)) (len * dist) (fun j => moved (nth j (k_eidx k) 0))
    fuel (nonzero (map (marked g er) (k_eidx k))) (map (vertex_bit g syn) (k_vidx k)) (d_uf x) (d_uf x') cor WF RD _ _ _ _ _ _ X) as (LC & _ & PAR).
  - rewrite map_length. auto.
  - intros j J. apply nonzero_in in J. rewrite map_length in J. rewrite LE. tauto.
  - intros sel EX SM. destruct (parity _) eqn:P; auto. exfalso. pose proof (comp_short c k C sel EX P) as Q.
    rewrite (sum_ext _ (fun j => len * nb (sel j))), sum_mult in SM.
    + assert (len * dist <= len * sum (fun j => nb (sel j)) (seq 0 (length (k_edges k)))) by (apply Nat.mul_le_mono_l; auto). lia.
    + intros j I. apply in_seq in I. rewrite ND by lia. lia.
  - intros j Lj. rewrite ND; auto.
  - assert (Q : explains (length (sg_verts g)) (sg_ends g) (fun i => act i && moved i) (vertex_bit g syn)).
    { intros v Lv. rewrite <- SYN, <- moved_boundary by auto. apply boundary_ext. intros i Li.
      destruct (moved i) eqn:M; [|apply andb_false_r]. rewrite (moved_active i Li M). auto. }
    rewrite (CE (fun i => act i && moved i) (vertex_bit g syn)) in Q by (intros i Y; apply andb_true_iff in Y; apply Y).
    specialize (Q k Ik). intros p Lp. rewrite <- (boundary_ext _ (fun j => act (nth j (k_eidx k) 0) && moved (nth j (k_eidx k) 0))).
    + rewrite (Q p Lp). unfold bits. rewrite (nth_indep _ false (vertex_bit g syn 0)) by (rewrite map_length; lia). rewrite map_nth. auto.
    + intros j Lj. destruct (in_comp k (nth j (k_eidx k) 0) Ik) as (_ & -> & _); [apply nth_In; lia|]. auto.
  - eapply Nat.le_lt_trans; [|exact COST]. eapply Nat.le_trans; [|exact moved_cost].
    eapply Nat.le_trans; [|apply (sum_part (fun i => nb (act i) * cost2 i) (k_eidx k)); auto]. rewrite (map_nth_seq (fun i => nb (act i) * cost2 i) (k_eidx k) 0), <- LE.
    apply sum_le. intros j I. apply in_seq in I. unfold budget, cost2. rewrite MK, ND by lia.
    assert (J : In (nth j (k_eidx k) 0) (k_eidx k)) by (apply nth_In; lia).
    rewrite (rel_comp k i0 _ Ik I0 J R0). destruct (in_comp k (nth j (k_eidx k) 0) Ik J) as (_ & -> & _).
    cbn [nb]. lia.
  - rewrite (map_nth_seq _ (k_eidx k) 0), <- LE.
    rewrite (parity_ext _ (fun j => xorb (bits cor j && flips (nth j (k_eidx k) 0)) (moved (nth j (k_eidx k) 0) && flips (nth j (k_eidx k) 0)))).
    + rewrite parity_xor, PAR. apply xorb_nilpotent.
    + intros j I. apply in_seq in I. rewrite RES by lia. unfold bits. destruct (nth j cor false), (moved (nth j (k_eidx k) 0)), (flips (nth j (k_eidx k) 0)); auto.
Qed.

Theorem call_limit : parity (map (fun i => res i && flips i) (seq 0 m)) = parity (map (fun i => E i && flips i) (seq 0 m)).
Proof.
  rewrite <- moved_flips. apply xorb_eq. rewrite <- parity_xor.
  pose proof GD as [U _ CM OB]. destruct (C50_components _ _ _ _ _ U) as (CV & CK & CE).
  set (K := length (sg_comps g)) in *. set (k0 := fun c => nth c (sg_comps g) comp0).
  set (inc := fun c i => existsb (Nat.eqb i) (k_eidx (k0 c))).
  assert (KN : forall c, c < K -> nth_error (sg_comps g) c = Some (k0 c)) by (intros; apply nth_error_nth'; auto).
  rewrite (parity_ext _ (fun i => parity (map (fun c => inc c i && (xorb (res i) (moved i) && flips i)) (seq 0 K)))).
  - rewrite parity_swap. apply parity_false. intros c I. apply in_seq in I. assert (Lc : c < K) by lia.
    pose proof (nth_error_In _ _ (KN c Lc)) as Ik. destruct (CK _ Ik) as (_ & _ & ND & _).
    rewrite (parity_sub _ (k_eidx (k0 c)) m ND).
    + etransitivity; [|exact (comp_limit c (k0 c) (KN c Lc))]. apply parity_ext. intros i J. unfold inc. rewrite (proj2 (existsb_in i _) J). auto.
    + intros i J. apply (in_comp _ i Ik J).
    + intros i _ N. unfold inc. destruct (existsb _ _) eqn:X; auto. apply existsb_in in X. contradiction.
  - intros i I. apply in_seq in I. assert (Li : i < m) by lia.
    destruct (existsb (fun c => inc c i) (seq 0 K)) eqn:B.
    + apply existsb_exists in B. destruct B as (c & Ic & X). apply in_seq in Ic. rewrite (parity_one _ c).
      * rewrite X. destruct (res i), (moved i), (flips i); auto.
      * apply seq_NoDup.
      * apply in_seq. lia.
      * intros c' Ic' D. apply in_seq in Ic'. destruct (inc c' i) eqn:Y; auto. exfalso. apply D. apply existsb_in in X, Y.
        apply (same_comp c' c (k0 c') (k0 c) i); auto; apply KN; lia.
    + rewrite (parity_false (fun c => inc c i && _)) by (intros c Ic; rewrite (existsb_false _ _ B c Ic); auto).
      assert (NI : forall k, In k (sg_comps g) -> ~ In i (k_eidx k)).
      { intros k Ik J. apply (In_nth _ _ comp0) in Ik. destruct Ik as (c & Lc & <-). pose proof (existsb_false _ _ B c) as Z.
        unfold inc, k0 in Z. rewrite (proj2 (existsb_in i _) J) in Z. assert (true = false); [|discriminate]. apply Z. apply in_seq. lia. }
      assert (RI : res i = false).
      { apply (gd_outside _ _ _ _ _ GD'). intros k Ik J. apply (In_nth _ _ comp0) in Ik. destruct Ik as (c & Lc & <-).
        destruct TR as (COMPS & SH & _). destruct (shape_fields _ _ (SH c)) as (_ & _ & _ & X). rewrite X in J.
        apply (NI (nth c (sg_comps g) comp0)); auto. apply nth_In. lia. }
      rewrite RI. cbn [andb]. rewrite xorb_false_l. destruct (moved i) eqn:M; auto. cbn [andb]. apply undetected; auto.
      destruct (nth i (sg_ends g) []) as [|v e] eqn:EI; auto. exfalso.
      assert (Lv : v < length (sg_verts g)).
      { destruct (C30_edges _ _ _ _ _ U) as (_ & _ & _ & _ & Q). destruct (Q i Li) as (_ & Q2 & _). apply Q2. rewrite EI. left; auto. }
      destruct (CV v Lv) as (c & Lc & Q). apply (NI (k0 c)); [apply nth_In; auto|].
      destruct (CK (k0 c) (nth_In _ _ Lc)) as (_ & _ & _ & _ & _ & EI' & _). apply EI'. split; [apply moved_active; auto|].
      exists v. split; [apply (Q c (k0 c)); auto; apply KN; auto|rewrite EI; left; auto].
Qed.
End L.
