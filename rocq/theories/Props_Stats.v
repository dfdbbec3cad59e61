(** Property theorems C69: statistics of the syndrome graph. *)
Require Import String List Bool Arith ZArith QArith Lia Relations.
From Verif Require Import Base BaseProofs QSpec PauliModel PauliAlg CircuitModel GraphSpec GraphProofs LatticeSpec LatticeOps GeneratorSpec
  ErasureModel SyngraphModel SyngraphBuild SyngraphDup SyngraphComp SyngraphObjs SyngraphProofs SyngraphErrors SyngraphOps SyngraphFinal Props_Syngraph StatsModel.
Import ListNotations.
Local Open Scope string_scope.
Local Open Scope nat_scope.
Local Open Scope list_scope.

(** * Specification *)

(** How many of the numbers below [k] have a property. *)
Definition how_many (k : nat) (P : nat -> bool) : nat := length (filter P (seq 0 k)).
Definition total (l : list nat) : nat := fold_right plus 0 l.
(** How many generators an error [p] on the qubit [q] flips, and how many of the errors X and Z on single qubits flip [j] generators. *)
Definition flipped_by (gens : list row) (p : pauli1) (q : nat) : nat := how_many (length gens) (fun s => clashes p (fac (nth s gens row0) q)).
Definition errors_flipping (n : nat) (gens : list row) (j : nat) : nat :=
  how_many n (fun q => flipped_by gens PX q =? j) + how_many n (fun q => flipped_by gens PZ q =? j).
Definition is_active (g : sgraph) (i : nat) : bool := nth i (sg_on g) false.
Definition touches (g : sgraph) (i v : nat) : bool := existsb (Nat.eqb v) (nth i (sg_ends g) []).

(** * Counting *)

Lemma total_app a b : total (a ++ b) = total a + total b.
Proof. unfold total. induction a as [|x a IH]; cbn; [auto|]. rewrite IH. lia. Qed.
Lemma total_zero {A} (f : A -> nat) l : (forall a, In a l -> f a = 0) -> total (map f l) = 0.
Proof. induction l as [|a l IH]; intros H; cbn; [auto|]. rewrite (H a) by (left; auto). apply IH. intros; apply H; right; auto. Qed.
Lemma total_plus {A} (f g : A -> nat) l : total (map (fun a => f a + g a) l) = total (map f l) + total (map g l).
Proof. unfold total. induction l as [|a l IH]; cbn in *; [auto|lia]. Qed.
Lemma total_ext {A} (f g : A -> nat) l : (forall a, In a l -> f a = g a) -> total (map f l) = total (map g l).
Proof. intros H. f_equal. apply map_ext_in; auto. Qed.
Lemma total_one (x K : nat) : x < K -> total (map (fun c => if x =? c then 1 else 0) (seq 0 K)) = 1.
Proof.
  intros L. replace K with (x + (1 + (K - S x))) by lia. rewrite !seq_app, !map_app, !total_app.
  rewrite (total_zero _ (seq 0 x)), (total_zero _ (seq (0 + x + 1) _)).
  - cbn [seq map plus]. rewrite Nat.eqb_refl. reflexivity.
  - intros c I; apply in_seq in I; destruct (Nat.eqb_spec x c); auto; lia.
  - intros c I; apply in_seq in I; destruct (Nat.eqb_spec x c); auto; lia.
Qed.
(** Things with one label below [K] each are counted label by label. *)
Lemma count_labels {A} (f : A -> nat -> bool) (vl : A -> nat) K l : (forall a c, In a l -> f a c = (vl a =? c)) -> (forall a, In a l -> vl a < K) ->
  total (map (fun c => length (filter (fun a => f a c) l)) (seq 0 K)) = length l.
Proof.
  induction l as [|a l IH]; intros H B; [apply total_zero; auto|].
  rewrite (total_ext _ (fun c => (if vl a =? c then 1 else 0) + length (filter (fun x => f x c) l))).
  - rewrite total_plus, total_one by (apply B; left; auto). rewrite IH; [reflexivity|intros; apply H; right; auto|intros; apply B; right; auto].
  - intros c _. cbn [filter]. rewrite (H a c) by (left; auto). destruct (vl a =? c); reflexivity.
Qed.
Lemma count_map {A B} (f : A -> B) P l : count P (map f l) = count (fun a => P (f a)) l.
Proof. unfold count. induction l as [|a l IH]; cbn; [auto|]. destruct (P (f a)); cbn; auto. Qed.
Lemma count_app {A} (P : A -> bool) a b : count P (a ++ b) = count P a + count P b.
Proof. unfold count. rewrite filter_app, app_length. auto. Qed.
Lemma count_flat {A B} (P : B -> bool) (f : A -> list B) c l : (forall a, In a l -> count P (f a) = c) -> count P (flat_map f l) = length l * c.
Proof. induction l as [|a l IH]; intros H; cbn [flat_map length]; [auto|]. rewrite count_app, (H a) by (left; auto). rewrite IH by (intros; apply H; right; auto). lia. Qed.
Lemma count_ext {A} (P P' : A -> bool) l : (forall a, In a l -> P a = P' a) -> count P l = count P' l.
Proof. unfold count. induction l as [|a l IH]; intros H; cbn; [auto|]. rewrite (H a) by (left; auto). destruct (P' a); cbn; rewrite IH; auto; intros; apply H; right; auto. Qed.
Lemma count_all {A} (P : A -> bool) l : (forall a, In a l -> P a = true) -> count P l = length l.
Proof. intros H. rewrite (count_ext P (fun _ => true)) by auto. unfold count. induction l as [|a l IH]; cbn; auto. rewrite IH; auto. intros; apply H; right; auto. Qed.
Lemma count_none {A} (P : A -> bool) l : (forall a, In a l -> P a = false) -> count P l = 0.
Proof. intros H. rewrite (count_ext P (fun _ => false)) by auto. unfold count. clear H. induction l as [|a l IH]; cbn; auto. Qed.
Lemma count_split {A} (P : A -> bool) l : count P l + count (fun a => negb (P a)) l = length l.
Proof. unfold count. induction l as [|a l IH]; cbn; [auto|]. destruct (P a); cbn; lia. Qed.
Lemma count_nth {A} (P : A -> bool) l d : count P l = how_many (length l) (fun i => P (nth i l d)).
Proof.
  unfold how_many. fold (count (fun i => P (nth i l d)) (seq 0 (length l))).
  rewrite <- (count_map (fun i => nth i l d) P). f_equal. symmetry. clear P.
  induction l as [|a l IH]; cbn; [auto|]. f_equal. rewrite <- seq_shift, map_map. exact IH.
Qed.

Section Size.
Variables (rounds n : nat) (gens : list row).
Notation m := (length gens).

Lemma count_edges (P : list nat * ekind -> bool) (Q : nat -> bool) (R : bool) :
  (forall t k, t < rounds -> k < 2 * n -> P (qubit_edge n gens t k) = Q k) -> (forall t s, 0 < t < rounds -> s < m -> P (stab_edge gens t s) = R) ->
  count P (the_edges rounds n gens) = rounds * how_many (2 * n) Q + (rounds - 1) * (if R then m else 0).
Proof.
  intros HQ HR. unfold the_edges. rewrite count_app. f_equal.
  - rewrite (count_flat _ _ (how_many (2 * n) Q)), seq_length; auto. intros t It. apply in_seq in It. rewrite count_map.
    apply count_ext. intros k Ik. apply in_seq in Ik. apply HQ; lia.
  - rewrite (count_flat _ _ (if R then m else 0)), seq_length; auto. intros t It. apply in_seq in It. rewrite count_map.
    destruct R; [rewrite count_all, seq_length; auto|rewrite count_none; auto]; intros s Is; apply in_seq in Is; apply HR; lia.
Qed.
End Size.

Lemma how_many_ext k P P' : (forall i, i < k -> P i = P' i) -> how_many k P = how_many k P'.
Proof. intros H. apply (count_ext P P'). intros i I. apply in_seq in I. apply H. lia. Qed.
Lemma how_many_plus a b P : how_many (a + b) P = how_many a P + how_many b (fun i => P (a + i)).
Proof.
  unfold how_many. rewrite seq_app, filter_app, app_length. f_equal. cbn [plus].
  fold (count P (seq a b)). fold (count (fun i => P (a + i)) (seq 0 b)). rewrite <- (count_map (plus a) P). f_equal.
  clear. revert a. induction b as [|b IH]; intros a; cbn; [auto|]. f_equal; [lia|]. rewrite IH, <- seq_shift, map_map. apply map_ext. intros; lia.
Qed.

Lemma how_many_touched n gens j : generators n gens -> how_many (2 * n) (fun k => length (touched gens (nth k (the_ops n) row0)) =? j) = errors_flipping n gens j.
Proof.
  intros G. replace (2 * n) with (n + n) by lia. rewrite how_many_plus. unfold errors_flipping, flipped_by. f_equal; apply how_many_ext; intros q L.
  - rewrite (touched_length n gens G) by lia. unfold letter_of. rewrite (proj2 (Nat.ltb_lt q n)) by auto. cbn [fst snd].
    fold (count (fun g => clashes PX (fac g q)) gens). rewrite (count_nth _ _ row0). reflexivity.
  - rewrite (touched_length n gens G) by lia. unfold letter_of. rewrite (proj2 (Nat.ltb_ge (n + q) n)) by lia. cbn [fst snd].
    replace (n + q - n) with q by lia. fold (count (fun g => clashes PZ (fac g q)) gens). rewrite (count_nth _ _ row0). reflexivity.
Qed.

(** * C69 Statistics *)

(** Vertices and edges of each sort: numbers of errors which flip as many generators, and a 2-edge for each measurement error. *)
Theorem C69_sizes : forall rounds n gens w g, uses rounds n gens w g -> let s := get_statistics g in
  st_vertices s = rounds * length gens /\ st_edges_qubit s = rounds * (2 * n) /\ st_edges_stab s = (rounds - 1) * length gens /\
  st_edges s = st_edges_qubit s + st_edges_stab s /\ st_edges s = st_2_edges s + st_1_edges s + st_0_edges s /\
  st_2_edges s = rounds * errors_flipping n gens 2 + (rounds - 1) * length gens /\
  st_1_edges s = rounds * errors_flipping n gens 1 /\ st_0_edges s = rounds * errors_flipping n gens 0 /\
  st_edges_disabled s = how_many (length (sg_ends g)) (fun i => negb (is_active g i)).
Proof.
  intros rounds n gens w g U s. pose proof U as (G & _ & Hr & _).
  destruct (uses_ready _ _ _ _ _ U) as (s0 & gens' & Eg & En & T & _ & vl & K & R & _). subst s.
  unfold get_statistics. cbn [st_vertices st_edges st_2_edges st_1_edges st_0_edges st_edges_qubit st_edges_stab st_edges_disabled].
  rewrite (rd_verts _ _ _ _ _ _ _ R), (rd_ends _ _ _ _ _ _ _ R), (rd_kind _ _ _ _ _ _ _ R). rewrite (count_nth _ (sg_on g) false), (rd_onlen _ _ _ _ _ _ _ R).
  unfold SyngraphProofs.kinds, edges. rewrite <- En, <- Eg, length_the_verts, !count_map, map_length, length_the_edges.
  assert (X : forall j, count (fun a : list nat * ekind => length (fst a) =? j) (the_edges rounds n gens) =
     rounds * errors_flipping n gens j + (rounds - 1) * (if 2 =? j then length gens else 0)).
  { intros j. rewrite (count_edges rounds n gens _ (fun k => length (touched gens (nth k (the_ops n) row0)) =? j) (2 =? j)).
    - rewrite how_many_touched by auto. reflexivity.
    - intros t k _ _. cbn [qubit_edge fst]. rewrite map_length. reflexivity.
    - reflexivity. }
  assert (Y : length (the_edges rounds n gens) = count (fun a : list nat * ekind => length (fst a) =? 2) (the_edges rounds n gens) +
     count (fun a : list nat * ekind => length (fst a) =? 1) (the_edges rounds n gens) + count (fun a : list nat * ekind => length (fst a) =? 0) (the_edges rounds n gens)).
  { assert (B : forall e, In e (the_edges rounds n gens) -> length (fst e) <= 2).
    { intros e I. unfold the_edges in I. apply in_app_or in I. destruct I as [I|I]; apply in_flat_map in I; destruct I as (t & _ & I);
        apply in_map_iff in I; destruct I as (k & <- & I); apply in_seq in I; cbn [qubit_edge stab_edge fst]; [|cbn; lia].
      rewrite map_length. apply T. lia. }
    clear - B. unfold count. induction (the_edges rounds n gens) as [|e l IH]; [auto|]. cbn [length filter].
    rewrite IH by (intros; apply B; right; auto). pose proof (B e (or_introl eq_refl)).
    destruct (length (fst e)) as [|[|[|k]]]; cbn [Nat.eqb length]; lia. }
  rewrite length_the_edges in Y. rewrite !X in *. cbn [Nat.eqb] in *.
  rewrite (count_edges rounds n gens _ (fun _ => true) false) by reflexivity.
  rewrite (count_edges rounds n gens _ (fun _ => false) true) by reflexivity.
  assert (Z1 : how_many (2 * n) (fun _ => true) = 2 * n) by (rewrite <- (seq_length (2 * n) 0) at 2; apply (count_all (fun _ => true)); auto).
  assert (Z2 : how_many (2 * n) (fun _ => false) = 0) by (apply (count_none (fun _ => false)); auto).
  rewrite Z1, Z2. unfold is_active. repeat split; try lia.
Qed.

Section Labels.
Variables (nv : nat) (E : list (list nat)) (on : nat -> bool) (vl : nat -> nat) (K : nat).
Hypothesis HL : labelling nv E on vl K.
Definition edge_in (c i : nat) : bool := on i && existsb (fun v => vl v =? c) (nth i E []).
Definition sizes (c : nat) : nat * nat := (how_many nv (fun v => vl v =? c), how_many (length E) (edge_in c)).
Definition isolated (v : nat) : bool := negb (existsb (fun i => on i && existsb (Nat.eqb v) (nth i E [])) (seq 0 (length E))).

Lemma isolated_spec v : isolated v = true <-> forall i, i < length E -> on i = true -> ~ In v (nth i E []).
Proof.
  unfold isolated. rewrite negb_true_iff. split.
  - intros H i L A I. assert (X : existsb (fun i => on i && existsb (Nat.eqb v) (nth i E [])) (seq 0 (length E)) = true); [|congruence].
    apply existsb_exists. exists i. split; [apply in_seq; lia|]. rewrite A. apply existsb_exists. exists v. split; auto. apply Nat.eqb_refl.
  - intros H. destruct (existsb _ _) eqn:X; auto. apply existsb_exists in X. destruct X as (i & I & X). apply in_seq in I.
    apply andb_true_iff in X. destruct X as [A X]. apply existsb_exists in X. destruct X as (v' & I' & X). apply Nat.eqb_eq in X. subst v'.
    destruct (H i); auto. lia.
Qed.
Lemma isolated_alone u v : u < nv -> v < nv -> isolated u = true -> vl u = vl v -> u = v.
Proof.
  intros Lu Lv I X. apply (l_conn _ _ _ _ _ HL) in X; auto. apply clos_rt_rt1n in X. destruct X as [|x y (i & A & B)]; auto.
  exfalso. assert (Li : i < length E) by (apply nth_error_Some; destruct B as [-> | ->]; discriminate).
  apply (proj1 (isolated_spec u) I i Li A). destruct B as [B|B]; rewrite (nth_error_nth _ _ _ B); cbn; auto.
Qed.
Lemma edge_in_count c : snd (sizes c) = 0 <-> forall i, i < length E -> on i = true -> forall v, In v (nth i E []) -> vl v <> c.
Proof.
  unfold sizes, how_many, edge_in. cbn [snd]. split.
  - intros H i L A v I X. apply length_zero_iff_nil in H. assert (J : In i []); [|destruct J]. rewrite <- H. apply filter_In. split; [apply in_seq; lia|].
    rewrite A. apply existsb_exists. exists v. split; auto. apply Nat.eqb_eq; auto.
  - intros H. destruct (filter _ _) as [|i l] eqn:X; auto. exfalso. assert (J : In i (i :: l)) by (left; auto). rewrite <- X in J. apply filter_In in J.
    destruct J as [J Y]. apply in_seq in J. apply andb_true_iff in Y. destruct Y as [A Y]. apply existsb_exists in Y. destruct Y as (v & I & Z). apply Nat.eqb_eq in Z.
    apply (H i) in I; auto. lia.
Qed.
Lemma isolated_no_edges v : v < nv -> isolated v = (snd (sizes (vl v)) =? 0).
Proof.
  intros L. apply eq_true_iff_eq. rewrite Nat.eqb_eq, edge_in_count. split.
  - intros I i Li A w J X. pose proof (key_in _ _ _ _ _ HL i w J) as Lw. assert (v = w) by (apply isolated_alone; auto). subst w.
    apply (proj1 (isolated_spec v) I i); auto.
  - intros H. apply isolated_spec. intros i Li A J. apply (H i Li A v J). auto.
Qed.
(** Components of a single vertex without edges. *)
Lemma alone_size c : c < K -> snd (sizes c) = 0 -> fst (sizes c) = 1.
Proof.
  intros L H. destruct (l_used _ _ _ _ _ HL c L) as (v & Lv & X). pose proof (isolated_no_edges v Lv) as I. rewrite X, H in I. cbn [Nat.eqb] in I.
  unfold sizes. cbn [fst]. rewrite <- (total_one v nv Lv). unfold how_many. rewrite (filter_ext_in _ (Nat.eqb v)).
  - clear. induction (seq 0 nv) as [|a l IH]; [auto|]. cbn. destruct (v =? a); cbn; auto.
  - intros u Iu. apply in_seq in Iu. destruct (Nat.eqb_spec v u) as [->|D]; [apply Nat.eqb_eq; auto|].
    apply Nat.eqb_neq. intros Y. apply D, isolated_alone; auto; [lia|congruence].
Qed.
Definition list_of_sizes : list (nat * nat) := map sizes (seq 0 K).
Definition nonzero_size (p : nat * nat) : bool := negb (snd p =? 0).
Lemma total_vertices : total (map fst list_of_sizes) = nv.
Proof.
  unfold list_of_sizes. rewrite map_map. unfold sizes. cbn [fst]. unfold how_many.
  transitivity (length (seq 0 nv)); [|apply seq_length]. apply (count_labels (fun v c => vl v =? c) vl); auto. intros v I. apply in_seq in I. apply (l_bound _ _ _ _ _ HL). lia.
Qed.
Lemma total_edges : total (map snd list_of_sizes) = how_many (length E) (fun i => on i && negb (length (nth i E []) =? 0)).
Proof.
  unfold list_of_sizes. rewrite map_map. unfold sizes. cbn [snd]. unfold how_many.
  rewrite (total_ext _ (fun c => length (filter (fun i => edge_in c i) (filter (fun i => on i && negb (length (nth i E []) =? 0)) (seq 0 (length E)))))).
  - apply (count_labels (fun i c => edge_in c i) (fun i => vl (hd 0 (nth i E [])))).
    + intros i c I. apply filter_In in I. destruct I as [I A]. apply andb_true_iff in A. destruct A as [A B]. unfold edge_in. rewrite A. cbn [andb].
      destruct (nth i E []) as [|v l] eqn:X; [discriminate|]. cbn [hd]. apply eq_true_iff_eq. rewrite existsb_exists, Nat.eqb_eq. split.
      * intros (u & J & Y). apply Nat.eqb_eq in Y. rewrite <- Y. apply (same_label _ _ _ _ _ HL i); rewrite ?X; auto. left; auto.
      * intros Y. exists v. split; [left; auto|]. apply Nat.eqb_eq; auto.
    + intros i I. apply filter_In in I. destruct I as [I A]. apply andb_true_iff in A. destruct A as [A B].
      apply (l_bound _ _ _ _ _ HL). apply (key_in _ _ _ _ _ HL i). destruct (nth i E []) as [|v l]; [discriminate|]. left; auto.
  - intros c _. f_equal. generalize (seq 0 (length E)). induction l as [|i l IH]; [auto|]. cbn [filter]. unfold edge_in in *.
    destruct (on i) eqn:A; cbn [andb].
    + destruct (nth i E []) as [|v r] eqn:X; cbn [length Nat.eqb negb existsb filter].
      * exact IH.
      * rewrite A, X. cbn [andb existsb]. destruct ((vl v =? c) || existsb (fun v0 => vl v0 =? c) r); [f_equal|]; exact IH.
    + exact IH.
Qed.
Lemma total_filter {A} (P : A -> bool) (f : A -> nat) l : total (map f (filter P l)) = total (map (fun a => if P a then f a else 0) l).
Proof. unfold total. induction l as [|a l IH]; cbn; [auto|]. destruct (P a); cbn; rewrite IH; auto. Qed.
Lemma total_nonzero_edges : total (map snd (filter nonzero_size list_of_sizes)) = total (map snd list_of_sizes).
Proof. rewrite total_filter. apply total_ext. intros [a b] _. unfold nonzero_size. cbn [snd]. destruct (Nat.eqb_spec b 0); cbn; auto. Qed.
Lemma n_isolated : how_many nv isolated = count (fun p => snd p =? 0) list_of_sizes.
Proof.
  unfold list_of_sizes. rewrite count_map. unfold how_many.
  rewrite <- (count_labels (fun v c => vl v =? c) vl K (filter isolated (seq 0 nv))); auto.
  2:{ intros v I. apply filter_In in I. destruct I as [I _]. apply in_seq in I. apply (l_bound _ _ _ _ _ HL). lia. }
  rewrite (total_ext _ (fun c => if snd (sizes c) =? 0 then 1 else 0)).
  - unfold count, total. generalize (seq 0 K). induction l as [|c l IH]; cbn [map fold_right filter]; [auto|].
    destruct (snd (sizes c) =? 0); cbn [length]; rewrite IH; auto.
  - intros c Ic. apply in_seq in Ic. destruct (Nat.eqb_spec (snd (sizes c)) 0) as [Z|Z].
    + rewrite <- (alone_size c) by (auto; lia). unfold sizes at 1. cbn [fst]. unfold how_many.
      fold (count (fun v => vl v =? c) (seq 0 nv)). fold (count (fun v => vl v =? c) (filter isolated (seq 0 nv))). unfold count. f_equal.
      assert (B : forall v, In v (seq 0 nv) -> vl v = c -> isolated v = true).
      { intros v I X. apply in_seq in I. rewrite isolated_no_edges by lia. rewrite X. apply Nat.eqb_eq; auto. }
      revert B. generalize (seq 0 nv). induction l as [|v l IH]; intros B; [auto|]. cbn [filter].
      destruct (Nat.eqb_spec (vl v) c) as [X|X].
      * rewrite (B v) by (auto; left; auto). cbn [filter]. rewrite (proj2 (Nat.eqb_eq (vl v) c) X). f_equal. apply IH. intros; apply B; auto; right; auto.
      * rewrite <- IH by (intros; apply B; auto; right; auto). destruct (isolated v); auto. cbn [filter]. rewrite (proj2 (Nat.eqb_neq (vl v) c) X). auto.
    + destruct (filter (fun v => vl v =? c) (filter isolated (seq 0 nv))) as [|v l] eqn:X; auto. exfalso.
      assert (J : In v (v :: l)) by (left; auto). rewrite <- X in J. apply filter_In in J. destruct J as [J Y]. apply filter_In in J. destruct J as [J I].
      apply in_seq in J. apply Nat.eqb_eq in Y. rewrite isolated_no_edges, Y in I by lia. apply Nat.eqb_eq in I. auto.
Qed.
Lemma total_nonzero_vertices : total (map fst (filter nonzero_size list_of_sizes)) + how_many nv isolated = nv.
Proof.
  rewrite n_isolated. transitivity (total (map fst list_of_sizes)); [|apply total_vertices]. rewrite total_filter. unfold list_of_sizes.
  assert (B : forall c, In c (seq 0 K) -> snd (sizes c) = 0 -> fst (sizes c) = 1) by (intros c I; apply in_seq in I; apply alone_size; lia).
  revert B. rewrite !map_map, count_map. unfold count, total, nonzero_size. generalize (seq 0 K).
  induction l as [|c l IH]; intros B; [auto|]. cbn [map fold_right filter]. specialize (IH (fun c I => B c (or_intror I))).
  pose proof (B c (or_introl eq_refl)). destruct (Nat.eqb_spec (snd (sizes c)) 0); cbn [negb length]; lia.
Qed.
Lemma n_nonzero : length (filter nonzero_size list_of_sizes) + how_many nv isolated = K.
Proof.
  rewrite n_isolated. rewrite Nat.add_comm. fold (count nonzero_size list_of_sizes). unfold nonzero_size.
  rewrite (count_split (fun p => snd p =? 0)). unfold list_of_sizes. rewrite map_length, seq_length. auto.
Qed.
End Labels.

(** The components: [label] numbers the components of the active edges.  The lists have the numbers of vertices and of active edges of the
    components with edges, in the order of the numbers.  The trivial components are the vertices without active edges. *)
Theorem C69_components : forall rounds n gens w g, uses rounds n gens w g -> let s := get_statistics g in
  (exists label : nat -> nat,
     (forall v, v < st_vertices s -> label v < st_comp s) /\ (forall c, c < st_comp s -> exists v, v < st_vertices s /\ label v = c) /\
     (forall u v, u < st_vertices s -> v < st_vertices s -> (label u = label v <-> connected (sg_ends g) (active g) u v)) /\
     combine (st_vertices_in_comp s) (st_edges_in_comp s) = filter (fun p => negb (snd p =? 0))
       (map (fun c => (how_many (st_vertices s) (fun v => label v =? c),
                       how_many (st_edges s) (fun i => is_active g i && existsb (fun v => label v =? c) (nth i (sg_ends g) []))))
          (seq 0 (st_comp s)))) /\
  length (st_vertices_in_comp s) = st_comp_nontrivial s /\ length (st_edges_in_comp s) = st_comp_nontrivial s /\
  st_comp_trivial s = Z.of_nat (how_many (st_vertices s) (fun v => negb (existsb (fun i => is_active g i && touches g i v) (seq 0 (st_edges s))))) /\
  (Z.of_nat (st_comp_nontrivial s) + st_comp_trivial s = Z.of_nat (st_comp s))%Z /\
  (Z.of_nat (total (st_vertices_in_comp s)) + st_comp_trivial s = Z.of_nat (st_vertices s))%Z /\
  total (st_edges_in_comp s) = how_many (st_edges s) (fun i => is_active g i && negb (length (nth i (sg_ends g) []) =? 0)).
Proof.
  intros rounds n gens w g U s.
  destruct (uses_ready _ _ _ _ _ U) as (s0 & gens' & -> & -> & T & _ & vl & K & R & _).
  pose proof (rd_lab _ _ _ _ _ _ _ R) as HL. pose proof (n_comps _ _ _ _ _ _ _ R) as NK.
  assert (SV : st_vertices s = rounds * length (s0 :: gens')) by (cbn [s get_statistics st_vertices]; rewrite (rd_verts _ _ _ _ _ _ _ R); apply length_the_verts).
  assert (SE : st_edges s = length (edges rounds s0 gens')) by (cbn [s get_statistics st_edges]; rewrite (rd_ends _ _ _ _ _ _ _ R); auto).
  assert (EE : sg_ends g = edges rounds s0 gens') by apply (rd_ends _ _ _ _ _ _ _ R).
  assert (SK : st_comp s = K) by exact NK.
  set (nv := rounds * length (s0 :: gens')) in *. set (E := edges rounds s0 gens') in *.
  assert (P : filter has_edges (sg_comps g) = map (fun c => nth c (sg_comps g) comp0) (filter (fun c => nonzero_size (sizes nv E (enabled g) vl c)) (seq 0 K)) ).
  { assert (X : sg_comps g = map (fun c => nth c (sg_comps g) comp0) (seq 0 K)).
    { rewrite <- NK. generalize (sg_comps g). clear. induction l as [|a l IH]; cbn; [auto|]. f_equal. rewrite <- seq_shift, map_map. exact IH. }
    rewrite X at 1. assert (B : forall c, In c (seq 0 K) -> has_edges (nth c (sg_comps g) comp0) = nonzero_size (sizes nv E (enabled g) vl c)).
    { intros c I. apply in_seq in I. destruct (comp_fields _ _ _ _ _ _ _ R c) as (_ & Y & _); [lia|]. unfold has_edges. rewrite Y. unfold local_edges. rewrite map_length. reflexivity. }
    revert B. generalize (seq 0 K). induction l as [|c l IH]; intros B; [auto|]. cbn [map filter]. rewrite (B c) by (left; auto).
    destruct (nonzero_size _); cbn [map]; rewrite IH; auto; intros; apply B; right; auto. }
  assert (Q : forall l, (forall c, In c l -> c < K) -> map k_n (map (fun c => nth c (sg_comps g) comp0) l) = map fst (map (sizes nv E (enabled g) vl) l) /\
     map (fun k => length (k_edges k)) (map (fun c => nth c (sg_comps g) comp0) l) = map snd (map (sizes nv E (enabled g) vl) l)).
  { intros l B. rewrite !map_map. split; apply map_ext_in; intros c I; destruct (comp_fields _ _ _ _ _ _ _ R c) as (X & Y & _); auto.
    rewrite Y. unfold local_edges. rewrite map_length. reflexivity. }
  assert (FM : map (sizes nv E (enabled g) vl) (filter (fun c => nonzero_size (sizes nv E (enabled g) vl c)) (seq 0 K)) = filter nonzero_size (list_of_sizes nv E (enabled g) vl K)).
  { unfold list_of_sizes. generalize (seq 0 K). induction l as [|c l IH]; [auto|]. cbn [map filter]. destruct (nonzero_size _); cbn [map]; rewrite IH; auto. }
  destruct (Q (filter (fun c => nonzero_size (sizes nv E (enabled g) vl c)) (seq 0 K))) as [Q1 Q2].
  { intros c I. apply filter_In in I. destruct I as [I _]. apply in_seq in I. lia. }
  rewrite FM in Q1, Q2. rewrite <- P in Q1, Q2.
  assert (S1 : st_vertices_in_comp s = map fst (filter nonzero_size (list_of_sizes nv E (enabled g) vl K))) by exact Q1.
  assert (S2 : st_edges_in_comp s = map snd (filter nonzero_size (list_of_sizes nv E (enabled g) vl K))) by exact Q2.
  assert (S3 : st_comp_nontrivial s = length (filter nonzero_size (list_of_sizes nv E (enabled g) vl K))).
  { rewrite <- FM, map_length, <- (map_length (fun c => nth c (sg_comps g) comp0)), <- P. reflexivity. }
  assert (S4 : st_comp_trivial s = (Z.of_nat (st_comp s) - Z.of_nat (st_comp_nontrivial s))%Z) by reflexivity.
  pose proof (n_nonzero nv E (enabled g) vl K HL) as N1. pose proof (total_nonzero_vertices nv E (enabled g) vl K HL) as N2.
  pose proof (total_nonzero_edges nv E (enabled g) vl K) as N3. rewrite (total_edges nv E (enabled g) vl K HL) in N3.
  assert (S5 : st_comp_trivial s = Z.of_nat (how_many nv (isolated E (enabled g)))) by (rewrite S4, S3, SK; lia).
  clearbody s. rewrite SV, SE, SK, EE, S1, S2, S3. split; [|split; [|split; [|split; [|split; [|split]]]]].
  - exists vl. split; [apply (l_bound _ _ _ _ _ HL)|]. split; [apply (l_used _ _ _ _ _ HL)|]. split; [apply (l_conn _ _ _ _ _ HL)|].
    transitivity (filter nonzero_size (list_of_sizes nv E (enabled g) vl K)); [|reflexivity].
    generalize (filter nonzero_size (list_of_sizes nv E (enabled g) vl K)). induction l as [|[a b] l IH]; cbn; [auto|]. f_equal; auto.
  - apply map_length.
  - apply map_length.
  - rewrite S5. unfold touches, isolated. rewrite EE. reflexivity.
  - rewrite S5. lia.
  - rewrite S5. lia.
  - exact N3.
Qed.

(** Two rounds of the repetition code with three qubits: six undetected Z errors, one component with all vertices. *)
Example C69_example : get_statistics rep3_graph = mkStatistics 4 14 4 4 6 12 2 0 [4] [8] 1 1 0 /\
  map (errors_flipping 3 rep3) [0; 1; 2] = [3; 2; 1].
Proof. split; vm_compute; reflexivity. Qed.
Example C69_example_uses : let s := get_statistics rep3_graph in st_edges s = st_2_edges s + st_1_edges s + st_0_edges s.
Proof. exact (proj1 (proj2 (proj2 (proj2 (proj2 (C69_sizes _ _ _ _ _ rep3_uses)))))). Qed.
(** X errors on the first two qubits are impossible, so that the first generator has no active edges. *)
Example C69_example_trivial :
  (do g <- new_sgraph 1 rep3 (Some (mkWarg (WArr [Inf false; Inf false; Fin 1]) (WNum (Fin 1)) (WNum (Fin 1)))); Ok (get_statistics g)) =
  Ok (mkStatistics 2 6 1 2 3 6 0 2 [1] [1] 2 1 1).
Proof. vm_compute. reflexivity. Qed.
Example C69_example_text : format_statistics rep3_graph = "Vertices:            4
Edges:               14
Disabled edges:      0

2-edges:             4
1-edges (dangling):  4
0-edges (empty):     6

Qubit edges:         12
Stabil. edges:       2

Vertices in non-triv. components:  [4]
Edges in non-triv. components:     [8]

Connected components:    1
Non-trivial components:  1
Trivial components:      0
".
Proof. vm_compute. reflexivity. Qed.

Print Assumptions C69_sizes.
Print Assumptions C69_components.
