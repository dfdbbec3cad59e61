(** Lower bounds for the number of edges of a selection without boundary, from disjoint cuts. *)
Require Import List Bool Arith Lia.
From Verif Require Import Base BaseProofs GraphSpec GraphProofs UnionFindMetric UnionFindGrowth.
Import ListNotations.
Open Scope nat_scope.

(** Bits of the ends of an edge. *)
Definition ends_parity (edges : list (list nat)) (A : nat -> bool) (i : nat) : bool :=
  match nth i edges [] with [v] => A v | [u; v] => xorb (A u) (A v) | _ => false end.

Lemma closed_cut n edges A sel : well_formed n edges -> explains n edges sel (fun _ => false) ->
  parity (map (fun i => sel i && ends_parity edges A i) (seq 0 (length edges))) = false.
Proof.
  intros WF EX.
  transitivity (parity (map (fun i => parity (map (fun v => A v && (sel i && incident edges i v)) (seq 0 n))) (seq 0 (length edges)))).
  - apply parity_ext. intros i I. apply in_seq in I.
    transitivity (sel i && parity (map (fun v => A v && incident edges i v) (seq 0 n))).
    + rewrite (incident_parity n edges WF i A) by lia. reflexivity.
    + rewrite <- parity_and. apply parity_ext. intros v _. destruct (sel i), (A v), (incident edges i v); auto.
  - rewrite parity_swap. apply parity_false. intros v I. apply in_seq in I. rewrite parity_and.
    change (A v && boundary edges sel v = false). rewrite EX by lia. apply andb_false_r.
Qed.

Lemma sum_one (f : nat -> bool) d : (forall k k', k < d -> k' < d -> f k = true -> f k' = true -> k = k') ->
  sum (fun k => nb (f k)) (seq 0 d) <= 1.
Proof.
  intros U.
  assert (X : forall s, (forall k k', s <= k < d -> s <= k' < d -> f k = true -> f k' = true -> k = k') ->
    sum (fun k => nb (f k)) (seq s (d - s)) <= 1).
  { clear U. intros s. remember (d - s) as l eqn:El. revert s El. induction l as [|l IH]; intros s El U; [cbn; lia|].
    cbn [seq]. rewrite sum_cons. destruct (f s) eqn:F; cbn [nb].
    - rewrite sum_zero; [lia|]. intros k I. apply in_seq in I. destruct (f k) eqn:G; auto.
      assert (s = k) by (apply U; auto; lia). lia.
    - apply (IH (S s)); [lia|]. intros k k' K K'. apply U; lia. }
  specialize (X 0). rewrite Nat.sub_0_r in X. apply X. intros; apply U; auto; lia.
Qed.

Lemma parity_some (f : nat -> bool) l : parity (map f l) = true -> 1 <= sum (fun i => nb (f i)) l.
Proof.
  induction l as [|a l IH]; [discriminate|]. rewrite sum_cons. cbn [map].
  change (xorb (f a) (parity (map f l)) = true -> 1 <= nb (f a) + sum (fun i => nb (f i)) l).
  destruct (f a); cbn [nb]; [lia|]. rewrite xorb_false_l. auto.
Qed.

(** Selections which meet [d] disjoint sets have at least [d] elements. *)
Lemma disjoint_count (cut : nat -> nat -> bool) d sel m :
  (forall i k k', i < m -> k < d -> k' < d -> cut k i = true -> cut k' i = true -> k = k') ->
  (forall k, k < d -> parity (map (fun i => sel i && cut k i) (seq 0 m)) = true) ->
  d <= length (filter sel (seq 0 m)).
Proof.
  intros U O.
  assert (L : length (filter sel (seq 0 m)) = sum (fun i => nb (sel i)) (seq 0 m)).
  { rewrite <- (map_length (fun _ => 1)). transitivity (sum (fun _ => 1) (filter sel (seq 0 m))).
    - induction (filter sel (seq 0 m)) as [|a l IH]; auto. rewrite sum_cons, <- IH. reflexivity.
    - rewrite sum_filter. apply sum_ext. intros; lia. }
  rewrite L. transitivity (sum (fun k => sum (fun i => nb (sel i && cut k i)) (seq 0 m)) (seq 0 d)).
  - transitivity (sum (fun _ => 1) (seq 0 d)).
    + assert (Z : forall s, sum (fun _ => 1) (seq s d) = d); [|rewrite Z; auto].
      clear. induction d as [|d IH]; intros s; auto. cbn [seq]. rewrite sum_cons, IH. auto.
    + apply sum_le. intros k I. apply in_seq in I. apply parity_some, O. lia.
  - rewrite sum_swap. apply sum_le. intros i I. apply in_seq in I. destruct (sel i); cbn [andb nb].
    + apply sum_one. intros k k' K K'. apply U; lia.
    + rewrite sum_zero; auto.
Qed.
