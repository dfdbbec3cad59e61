(** Facts about all syndrome graphs, for the properties. *)
Require Import List Bool Arith ZArith QArith Lia Relations.
From Verif Require Import Base BaseProofs QSpec PauliModel PauliAlg MeasureProofs GraphSpec GraphProofs
  LatticeSpec LatticeOps GeneratorSpec
  ErasureModel ErasureProofs SyngraphModel SyngraphBuild SyngraphDup SyngraphComp SyngraphObjs SyngraphProofs SyngraphErrors
  SyngraphOps.
Import ListNotations.
Open Scope nat_scope.
Local Arguments incident : simpl never.
Local Arguments upd : simpl never.

(** Generators of a code: at least one, all on the same [n > 0] qubits. *)
Definition generators (n : nat) (gens : list row) : Prop :=
  gens <> [] /\ 0 < n /\ forall g, In g gens -> length (ops g) = n.

(** Whether the Pauli operator [p] on a qubit anticommutes with a factor. *)
Definition clashes (p : pauli1) (f : bool * bool) : bool :=
  match p with PI => false | PX => snd f | PZ => fst f | PY => xorb (fst f) (snd f) end.

(** Each X or Z error on one qubit anticommutes with two generators at most. *)
Definition graph_like (n : nat) (gens : list row) : Prop :=
  forall q, q < n ->
    length (filter (fun g => clashes PX (fac g q)) gens) <= 2 /\
    length (filter (fun g => clashes PZ (fac g q)) gens) <= 2.

(** Weights are given with one number or with one number for each qubit (generator). *)
Definition weights_fit (n m : nat) (w : option warg) : Prop :=
  match w with None => True | Some w => fits_all n m w end.

Lemma length_nonzero l : length (nonzero l) = length (filter (fun b => b) l).
Proof.
  unfold nonzero. induction l as [|b l IH]; auto. cbn [length seq filter nth].
  rewrite <- seq_shift.
  assert (X : forall L, length (filter (fun i => nth i (b :: l) false) (map S L)) = length (filter (fun i => nth i l false) L)).
  { induction L as [|x L IHL]; auto. cbn [map filter nth]. destruct (nth x l false); cbn; auto. }
  destruct b; cbn [length]; rewrite X; auto.
Qed.

Lemma length_filter_map {A B} (p : B -> bool) (f : A -> B) l : length (filter p (map f l)) = length (filter (fun a => p (f a)) l).
Proof. induction l as [|a l IH]; auto. cbn. destruct (p (f a)); cbn; auto. Qed.

Lemma length_filter_ext {A} (p q : A -> bool) l : (forall a, In a l -> p a = q a) -> length (filter p l) = length (filter q l).
Proof.
  induction l as [|a l IH]; intros H; auto. cbn. rewrite H by (left; auto).
  destruct (q a); cbn; rewrite IH; auto; intros; apply H; right; auto.
Qed.

Lemma sign_x n q g : q < n -> length (ops g) = n -> commutator_sign (x_op n q) g = clashes PX (fac g q).
Proof.
  intros L LG. rewrite (sign_anti _ _ n); auto. 2: { cbn. rewrite length_upd, repeat_length; auto. }
  unfold x_op. rewrite anti_single by auto. unfold sp. cbn. destruct (fac g q) as [[] []]; auto.
Qed.

Lemma sign_z n q g : q < n -> length (ops g) = n -> commutator_sign (z_op n q) g = clashes PZ (fac g q).
Proof.
  intros L LG. rewrite (sign_anti _ _ n); auto. 2: { cbn. rewrite length_upd, repeat_length; auto. }
  unfold z_op. rewrite anti_single by auto. unfold sp. cbn. destruct (fac g q) as [[] []]; auto.
Qed.

Section Facts.
Variables (n : nat) (gens : list row).
Hypothesis G : generators n gens.
Notation m := (length gens).

Lemma sign_letter k g : k < 2 * n -> In g gens ->
  commutator_sign (nth k (the_ops n) row0) g = clashes (snd (letter_of n k)) (fac g (fst (letter_of n k))).
Proof.
  intros L I. destruct G as (_ & _ & HG). rewrite nth_the_ops by auto. unfold letter_of. destruct (Nat.ltb_spec k n).
  - cbn [fst snd]. apply sign_x; auto.
  - cbn [fst snd]. apply sign_z; auto. lia.
Qed.

Lemma touched_length k : k < 2 * n ->
  length (touched gens (nth k (the_ops n) row0)) =
  length (filter (fun g => clashes (snd (letter_of n k)) (fac g (fst (letter_of n k)))) gens).
Proof.
  intros L. unfold touched. rewrite length_nonzero, length_filter_map. apply length_filter_ext.
  intros g I. apply sign_letter; auto.
Qed.

Lemma graph_like_two : graph_like n gens <-> two_at_most n gens.
Proof.
  split; intros H.
  - intros k L. rewrite touched_length by auto. unfold letter_of. destruct (Nat.ltb_spec k n); cbn [fst snd]; apply H; lia.
  - intros q L. split.
    + specialize (H q). rewrite touched_length in H by lia. unfold letter_of in H.
      rewrite (proj2 (Nat.ltb_lt q n)) in H by auto. apply H. lia.
    + specialize (H (n + q)). rewrite touched_length in H by lia. unfold letter_of in H.
      rewrite (proj2 (Nat.ltb_ge (n + q) n)) in H by lia. cbn [fst snd] in H. replace (n + q - n) with q in H by lia. apply H. lia.
Qed.

Lemma two_dec : two_at_most n gens \/ ~ two_at_most n gens.
Proof.
  destruct (forallb (fun k => length (touched gens (nth k (the_ops n) row0)) <=? 2) (seq 0 (2 * n))) eqn:X.
  - left. intros k L. rewrite forallb_forall in X. apply Nat.leb_le, X, in_seq. lia.
  - right. intros T. rewrite <- not_true_iff_false in X. apply X, forallb_forall. intros k I. apply in_seq in I.
    apply Nat.leb_le, T. lia.
Qed.

Lemma touched_mem k s : k < 2 * n ->
  (In s (touched gens (nth k (the_ops n) row0)) <-> s < m /\ clashes (snd (letter_of n k)) (fac (nth s gens row0) (fst (letter_of n k))) = true).
Proof.
  intros L. unfold touched. rewrite nonzero_in, map_length. split; intros [A B]; split; auto.
  - rewrite (nth_indep _ false (commutator_sign (nth k (the_ops n) row0) row0)), map_nth in B by (rewrite map_length; auto).
    rewrite sign_letter in B by (auto using nth_In). auto.
  - rewrite (nth_indep _ false (commutator_sign (nth k (the_ops n) row0) row0)), map_nth by (rewrite map_length; auto).
    rewrite sign_letter by (auto using nth_In). auto.
Qed.

Lemma nonzero_sorted l : forall a b r, nonzero l = a :: b :: r -> a < b.
Proof.
  unfold nonzero. intros a b r. generalize (length l), 0. intros k.
  induction k as [|k IH]; intros x X; [discriminate|]. cbn [seq filter] in X.
  destruct (nth x l false); [|eapply IH; eauto]. injection X as <- X.
  assert (I : In b (filter (fun i => nth i l false) (seq (S x) k))) by (rewrite X; left; auto).
  apply filter_In in I. destruct I as [I _]. apply in_seq in I. lia.
Qed.

Variables (rounds : nat).
Notation L := (the_edges rounds n gens).
Notation E := (map fst L).

Lemma Hm : 0 < m.
Proof. destruct G as (X & _). destruct gens; [congruence|cbn; lia]. Qed.

(** Ends of an edge are in increasing order. *)
Definition ordered (e : list nat) : Prop := match e with [] | [_] => True | a :: b :: r => a < b /\ r = [] end.

Lemma edges_ordered : two_at_most n gens -> forall e, In e E -> ordered e.
Proof.
  intros T e I. apply in_map_iff in I. destruct I as (x & <- & I). apply (In_nth _ _ ([], StabError 0 0)) in I.
  destruct I as (i & Li & <-). destruct (index_cases rounds n gens Hm i Li) as [(t & k & Lt & Lk & ->)|(t & s & Lt & Ls & ->)].
  - rewrite nth_qi by (auto using Hm). cbn [qubit_edge fst]. pose proof (T k Lk) as L2. unfold touched in *.
    destruct (nonzero _) as [|a [|b r]] eqn:X; cbn [map ordered]; auto.
    pose proof (nonzero_sorted _ _ _ _ X). destruct r; [split; auto; lia|cbn in L2; lia].
  - rewrite nth_si by (auto using Hm). cbn [stab_edge fst ordered]. split; auto.
    destruct t; [lia|]. replace (S t - 1) with t by lia. pose proof Hm. nia.
Qed.

Lemma ordered_ext a b : ordered a -> ordered b -> (forall v, In v a <-> In v b) -> a = b.
Proof.
  intros A B H. destruct a as [|x [|y [|? ?]]]; cbn in A; try (destruct A; discriminate);
    destruct b as [|x' [|y' [|? ?]]]; cbn in B; try (destruct B; discriminate); auto.
  - destruct (proj2 (H x')); left; auto.
  - destruct (proj2 (H x')); left; auto.
  - destruct (proj1 (H x)); left; auto.
  - destruct (proj1 (H x)); [left; auto|subst; auto|destruct H0].
  - pose proof (proj2 (H x')) as P. pose proof (proj2 (H y')) as Q. cbn in P, Q. intuition lia.
  - destruct (proj1 (H x)); left; auto.
  - pose proof (proj1 (H x)) as P. pose proof (proj1 (H y)) as Q. cbn in P, Q. intuition lia.
  - destruct A as [A _], B as [B _].
    pose proof (proj1 (H x)) as P. pose proof (proj1 (H y)) as Q. pose proof (proj2 (H x')) as P'. pose proof (proj2 (H y')) as Q'.
    cbn in P, Q, P', Q'. assert (x = x' /\ y = y') as [-> ->] by lia. auto.
Qed.
End Facts.

Lemma vert_bound t s r m : t < r -> s < m -> t * m + s < r * m.
Proof.
  intros A B. assert (X : S t * m <= r * m) by (apply Nat.mul_le_mono_r; lia). cbn [Nat.mul] in X. lia.
Qed.

Lemma vert_inj a b x y m : x < m -> y < m -> a * m + x = b * m + y <-> a = b /\ x = y.
Proof.
  intros Lx Ly. split; [|intros [-> ->]; auto]. intros Z.
  destruct (Nat.lt_trichotomy a b) as [C|[->|C]]; [|lia|].
  - assert (H : S a * m <= b * m) by (apply Nat.mul_le_mono_r; lia). cbn [Nat.mul] in H. lia.
  - assert (H : S b * m <= a * m) by (apply Nat.mul_le_mono_r; lia). cbn [Nat.mul] in H. lia.
Qed.

Lemma vert_spec rounds s0 gens' v t s : nth_error (the_verts rounds (s0 :: gens')) v = Some (t, s) <->
  t < rounds /\ s < length (s0 :: gens') /\ v = t * length (s0 :: gens') + s.
Proof.
  set (gens := s0 :: gens').
  assert (X2 : forall t s, t < rounds -> s < length gens -> nth_error (the_verts rounds gens) (t * length gens + s) = Some (t, s)).
  { intros a b A B. rewrite (nth_error_nth' _ (0, 0)) by (rewrite length_the_verts; apply vert_bound; auto).
    unfold gens. rewrite nth_the_verts; auto. }
  split.
  - intros X. pose proof (nth_error_In _ _ X) as I. apply the_verts_in in I. destruct I as [A B]. split; [auto|]. split; [auto|].
    pose proof (the_verts_NoDup rounds s0 gens') as ND. rewrite NoDup_nth_error in ND. apply ND.
    + apply nth_error_Some. fold gens. rewrite X. discriminate.
    + fold gens. rewrite X, X2; auto.
  - intros (A & B & ->). apply X2; auto.
Qed.

(** Syndrome graph objects as they come up when they are used. *)
Inductive syndrome_graph (rounds : nat) (gens : list row) (w : option warg) : sgraph -> Prop :=
| sg_new g : new_sgraph rounds gens w = Ok g -> syndrome_graph rounds gens w g
| sg_erasure q g g' : syndrome_graph rounds gens w g -> set_erasure q g = Ok g' -> syndrome_graph rounds gens w g'
| sg_syndrome q g g' : syndrome_graph rounds gens w g -> set_syndrome q g = Ok g' -> syndrome_graph rounds gens w g'
| sg_results c res g g' : syndrome_graph rounds gens w g -> set_results c res g = Ok g' -> syndrome_graph rounds gens w g'
| sg_updated g g' : syndrome_graph rounds gens w g -> update_results g = Ok g' -> syndrome_graph rounds gens w g'.

Section Objects.
Variables (rounds : nat) (s0 : row) (gens' : list row) (w : option warg).
Notation gens := (s0 :: gens').
Notation n := (length (ops s0)).
Notation m := (length gens).
Hypothesis Hn : 0 < n.
Hypothesis Hg : forall g, In g gens -> length (ops g) = n.
Hypothesis Hw : weights_fit n m w.
Hypothesis Hr : 0 < rounds.
Notation ready := (ready rounds s0 gens' w).

Lemma set_erasure_inv vl K q g g' : ready vl K g -> set_erasure q g = Ok g' ->
  let q' := default (repeat (repeat false n) rounds) q in
  has_shape q' rounds n = true /\ g' = set_comps (map (erase_comp rounds s0 gens' q') (sg_comps g)) g.
Proof.
  intros R X q'. destruct (has_shape q' rounds n) eqn:S.
  - split; auto. destruct (set_erasure_ok rounds s0 gens' w Hn Hg vl K g R q S) as [Y _]. fold q' in Y. congruence.
  - destruct q as [q|]; [|unfold q', default in S; rewrite zeros_shape in S; discriminate].
    rewrite (set_erasure_bad rounds s0 gens' w vl K g R q S) in X. discriminate.
Qed.

Lemma set_syndrome_inv vl K q g g' : ready vl K g -> set_syndrome q g = Ok g' ->
  let q' := default (repeat (repeat false m) rounds) q in
  has_shape q' rounds m = true /\ g' = set_comps (map (syn_comp rounds s0 gens' q') (sg_comps g)) g.
Proof.
  intros R X q'. destruct (has_shape q' rounds m) eqn:S.
  - split; auto. destruct (set_syndrome_ok rounds s0 gens' w Hn Hg vl K g R q S) as [Y _]. fold q' in Y. congruence.
  - destruct q as [q|]; [|unfold q', default in S; rewrite zeros_shape in S; discriminate].
    rewrite (set_syndrome_bad rounds s0 gens' w vl K g R q S) in X. discriminate.
Qed.

Lemma set_results_inv vl K c res g g' : ready vl K g -> set_results c res g = Ok g' ->
  c < K /\ length res = length (k_edges (nth c (sg_comps g) comp0)) /\
  g' = set_comps (upd c (set_k_result res true (nth c (sg_comps g) comp0)) (sg_comps g)) g.
Proof.
  intros R X. pose proof (n_comps rounds s0 gens' w vl K g R) as NC.
  assert (Lc : c < K).
  { destruct (Nat.lt_ge_cases c K) as [|L]; auto. unfold set_results, get in X.
    rewrite (proj2 (nth_error_None _ _)) in X by lia. discriminate. }
  split; auto. assert (LR : length res = length (k_edges (nth c (sg_comps g) comp0))).
  { unfold set_results in X. rewrite (get_nth _ _ comp0) in X by lia. cbn [bindR] in X. unfold comp_set_results in X.
    destruct (Nat.eqb_spec (length res) (length (k_edges (nth c (sg_comps g) comp0)))); auto. discriminate. }
  split; auto. destruct (set_results_ok rounds s0 gens' w vl K g R c res Lc LR) as [Y _]. congruence.
Qed.

Lemma syndrome_graph_ready g : syndrome_graph rounds gens w g ->
  two_at_most n gens /\ ~ bad_pair (edges rounds s0 gens') (weights rounds s0 gens' w) /\
  exists vl K, ready vl K g /\ results_fit g.
Proof.
  induction 1 as [g X|q g g' _ (T & NB & vl & K & R & RF) X|q g g' _ (T & NB & vl & K & R & RF) X
                 |c res g g' _ (T & NB & vl & K & R & RF) X|g g' _ (T & NB & vl & K & R & RF) X].
  - assert (T : two_at_most n gens).
    { destruct (two_dec n gens); auto. rewrite (new_three rounds s0 gens' Hn Hg w Hr) in X by auto. discriminate. }
    assert (NB : ~ bad_pair (edges rounds s0 gens') (weights rounds s0 gens' w)).
    { intros B. rewrite (new_bad_pair rounds s0 gens' Hn Hg w Hw T B) in X. discriminate. }
    split; [auto|]. split; [auto|]. destruct (new_ok rounds s0 gens' Hn Hg w Hw T NB) as (vl & K & g1 & Y & R & _ & C).
    assert (g1 = g) by congruence. subst g1. exists vl, K. split; auto. intros k I. destruct (C k I) as (-> & _). apply repeat_length.
  - split; [auto|]. split; [auto|]. exists vl, K. destruct (set_erasure_inv vl K q g g' R X) as [S ->].
    split; [apply (set_erasure_ok rounds s0 gens' w Hn Hg vl K g R q S)|].
    intros k I. cbn [sg_comps set_comps] in I. apply in_map_iff in I. destruct I as (k0 & <- & I).
    unfold erase_comp. destruct (has_edges k0); cbn; apply RF; auto.
  - split; [auto|]. split; [auto|]. exists vl, K. destruct (set_syndrome_inv vl K q g g' R X) as [S ->].
    split; [apply (set_syndrome_ok rounds s0 gens' w Hn Hg vl K g R q S)|].
    intros k I. cbn [sg_comps set_comps] in I. apply in_map_iff in I. destruct I as (k0 & <- & I). cbn. apply RF; auto.
  - split; [auto|]. split; [auto|]. exists vl, K. destruct (set_results_inv vl K c res g g' R X) as (Lc & LR & ->).
    split; [apply (set_results_ok rounds s0 gens' w vl K g R c res Lc LR)|].
    intros k I. cbn [sg_comps set_comps] in I. apply (In_nth _ _ comp0) in I. destruct I as (d & Ld & <-).
    rewrite length_upd in Ld. rewrite nth_upd. destruct ((c =? d) && (c <? length (sg_comps g))); [cbn; auto|].
    apply RF, nth_In; auto.
  - split; [auto|]. split; [auto|]. exists vl, K. destruct (update_results_ok rounds s0 gens' w Hn Hg vl K g R RF) as (r & _ & Y & R' & _).
    rewrite Y in X. injection X as <-. split; auto.
    intros k I. cbn [sg_comps set_comps] in I. apply in_map_iff in I. destruct I as (k0 & <- & I).
    destruct (has_edges k0); cbn; apply RF; auto.
Qed.
End Objects.
