(** The vertices and edges made by [SyndromeGraph.__init__]. *)
Require Import List Bool Arith ZArith QArith Lia.
From Verif Require Import Base BaseProofs QSpec PauliModel PauliAlg MeasureProofs GraphSpec ErasureModel
  ErasureProofs SyngraphModel.
Import ListNotations.
Open Scope nat_scope.
Local Arguments incident : simpl never.
Local Arguments upd : simpl never.

(** * Lists *)

Lemma upd_map_seq {A} (f : nat -> A) n v a : v < n ->
  upd v a (map f (seq 0 n)) = map (fun w => if w =? v then a else f w) (seq 0 n).
Proof.
  intros L. apply list_ext with (d := a); [rewrite length_upd, !map_length; auto|].
  intros i Li. rewrite length_upd, map_length, seq_length in Li.
  rewrite (nth_map_seq _ _ _ _ Li), nth_upd, map_length, seq_length.
  apply Nat.ltb_lt in L. rewrite L, andb_true_r, (Nat.eqb_sym i v).
  destruct (v =? i); auto. rewrite nth_map_seq; auto.
Qed.

Lemma mapR_ok {A B} (f : A -> Res B) (h : A -> B) l : (forall a, In a l -> f a = Ok (h a)) ->
  mapR f l = Ok (map h l).
Proof.
  induction l as [|a l IH]; cbn; intros H; auto. rewrite H by auto. cbn. rewrite IH by auto. reflexivity.
Qed.

Lemma mapR_inv {A B} (f : A -> Res B) l r : mapR f l = Ok r ->
  length r = length l /\ forall i d d', i < length l -> f (nth i l d) = Ok (nth i r d').
Proof.
  revert r. induction l as [|a l IH]; cbn [mapR]; intros r E.
  - injection E as <-. split; auto. cbn; intros; lia.
  - destruct (f a) as [b|] eqn:Fa; [|discriminate]. cbn [bindR] in E.
    destruct (mapR f l) as [bs|]; [|discriminate]. cbn [bindR] in E. injection E as <-.
    destruct (IH _ eq_refl) as [L X]. split; [cbn; lia|]. intros [|i] d d' Li; cbn [nth]; auto.
    apply X. cbn in Li; lia.
Qed.

Lemma take_ok {A} (l : list A) idx d : (forall i, In i idx -> i < length l) ->
  take l idx = Ok (map (fun i => nth i l d) idx).
Proof. intros H. apply mapR_ok. intros i I. apply get_nth; auto. Qed.

Lemma seq_snoc a k : seq a (S k) = seq a k ++ [a + k].
Proof. rewrite <- Nat.add_1_r, seq_app. reflexivity. Qed.

(** * Adjacency lists *)

(** Edges at the vertices and the neighbours behind them, in the order of the edges. *)
Definition at_vertex (E : list (list nat)) (v : nat) : list nat :=
  filter (fun i => incident E i v) (seq 0 (length E)).
Definition others (v : nat) (e : list nat) : list nat := filter (fun w => negb (w =? v)) e.
Definition behind (E : list (list nat)) (v : nat) : list (nat * nat) :=
  flat_map (fun i => map (pair i) (others v (nth i E []))) (at_vertex E v).

Lemma incident_snoc E e i v : i < length E -> incident (E ++ [e]) i v = incident E i v.
Proof. intros L. unfold incident. rewrite app_nth1; auto. Qed.

Lemma incident_last E e v : incident (E ++ [e]) (length E) v = existsb (Nat.eqb v) e.
Proof. unfold incident. rewrite app_nth2, Nat.sub_diag; auto. Qed.

Lemma at_vertex_snoc E e v :
  at_vertex (E ++ [e]) v = at_vertex E v ++ if existsb (Nat.eqb v) e then [length E] else [].
Proof.
  unfold at_vertex. rewrite app_length, Nat.add_1_r, seq_snoc, filter_app. f_equal.
  - apply filter_ext_in. intros i I. apply in_seq in I. apply incident_snoc. lia.
  - cbn. rewrite incident_last. destruct (existsb _ _); auto.
Qed.

Lemma behind_snoc E e v : behind (E ++ [e]) v =
  behind E v ++ if existsb (Nat.eqb v) e then map (pair (length E)) (others v e) else [].
Proof.
  unfold behind. rewrite at_vertex_snoc, flat_map_app. f_equal.
  - rewrite !flat_map_concat_map. f_equal. apply map_ext_in. intros i I.
    apply filter_In in I. destruct I as [I _]. apply in_seq in I. rewrite app_nth1; auto. lia.
  - destruct (existsb _ _); cbn; auto. rewrite app_nth2, Nat.sub_diag, app_nil_r; auto.
Qed.

Lemma at_vertex_spec E v i : In i (at_vertex E v) <-> i < length E /\ In v (nth i E []).
Proof.
  unfold at_vertex. rewrite filter_In, in_seq. unfold incident. rewrite existsb_exists. split.
  - intros [L (x & I & X)]. apply Nat.eqb_eq in X. subst. split; auto; lia.
  - intros [L I]. split; [lia|]. exists v. split; auto. apply Nat.eqb_refl.
Qed.

(** * The graph while it is made *)

Section Build.
Variables (rounds n m : nat) (eops : list row) (verts : list (nat * nat)) (at_time : list (list nat)).
Notation nv := (length verts).

(** The graph with the edges [L]. *)
Definition built (L : list (list nat * ekind)) : sgraph :=
  mkSgraph rounds n m eops verts at_time
    (map (at_vertex (map fst L)) (seq 0 nv)) (map (behind (map fst L)) (seq 0 nv))
    (repeat None nv) (map fst L) (map snd L) (repeat NaN (length L)) (repeat true (length L))
    (repeat None (length L)) (repeat false (length L)) [].

Lemma add_edges_ok L e pre post : NoDup (pre ++ post) -> (forall v, In v (pre ++ post) -> v < nv) ->
  foldR (add_edge (length L) e) post
    (set_adj (map (fun v => at_vertex (map fst L) v ++ if existsb (Nat.eqb v) pre then [length L] else []) (seq 0 nv))
             (map (fun v => behind (map fst L) v ++ if existsb (Nat.eqb v) pre then map (pair (length L)) (others v e) else []) (seq 0 nv))
       (built L)) =
  Ok (set_adj (map (fun v => at_vertex (map fst L) v ++ if existsb (Nat.eqb v) (pre ++ post) then [length L] else []) (seq 0 nv))
             (map (fun v => behind (map fst L) v ++ if existsb (Nat.eqb v) (pre ++ post) then map (pair (length L)) (others v e) else []) (seq 0 nv))
       (built L)).
Proof.
  revert pre. induction post as [|v post IH]; intros pre N B.
  - rewrite app_nil_r. reflexivity.
  - cbn [foldR]. assert (Lv : v < nv) by (apply B, in_or_app; right; left; auto).
    assert (Np : existsb (Nat.eqb v) pre = false).
    { destruct (existsb _ _) eqn:X; auto. apply existsb_exists in X. destruct X as (x & I & X).
      apply Nat.eqb_eq in X. subst x. apply NoDup_remove_2 in N. exfalso. apply N, in_or_app; auto. }
    unfold add_edge at 1. cbn [set_adj sg_vedges sg_vneigh].
    rewrite (get_nth _ _ []) by (rewrite map_length, seq_length; auto). cbn [bindR].
    rewrite (get_nth _ _ []) by (rewrite map_length, seq_length; auto). cbn [bindR].
    rewrite !nth_map_seq by auto. rewrite Np, !app_nil_r.
    replace (forallb _ (at_vertex (map fst L) v)) with true.
    2: { symmetry. apply forallb_forall. intros i I. apply at_vertex_spec in I.
         rewrite map_length in I. apply negb_true_iff, Nat.eqb_neq. lia. }
    cbn [assertR bindR]. rewrite !upd_map_seq by auto.
    specialize (IH (pre ++ [v])). rewrite <- app_assoc in IH. cbn [app] in IH.
    specialize (IH N B). refine (eq_trans _ IH). f_equal. unfold set_adj. cbn.
    f_equal; apply map_ext_in; intros w _; rewrite existsb_app; cbn; rewrite orb_false_r;
      destruct (Nat.eqb_spec w v) as [->|D]; rewrite ?Np, ?orb_true_r, ?orb_false_r; auto.
Qed.

Lemma new_edge_ok L e k : NoDup e -> (forall v, In v e -> v < nv) ->
  new_edge e k (built L) = Ok (built (L ++ [(e, k)])).
Proof.
  intros N B. unfold new_edge.
  pose proof (add_edges_ok L e [] e N B) as X. cbn [app existsb] in X.
  replace (length (sg_ends (built L))) with (length L) by (cbn; rewrite map_length; auto).
  assert (S0 : built L = set_adj (map (fun v => at_vertex (map fst L) v ++ []) (seq 0 nv))
    (map (fun v => behind (map fst L) v ++ []) (seq 0 nv)) (built L)).
  { unfold set_adj, built. cbn. f_equal; apply map_ext; intros; rewrite app_nil_r; auto. }
  rewrite S0 at 1. rewrite X. cbn [bindR]. unfold built, set_adj. cbn.
  rewrite !map_app, app_length. cbn [map fst snd length]. rewrite !repeat_app. cbn [repeat].
  f_equal. f_equal; apply map_ext; intros v; [rewrite at_vertex_snoc|rewrite behind_snoc];
    rewrite map_length; auto.
Qed.

(** Loops which append edges. *)
Lemma foldR_built {A} (f : sgraph -> A -> Res sgraph) (h : A -> list (list nat * ekind)) l :
  (forall L a, In a l -> f (built L) a = Ok (built (L ++ h a))) ->
  forall L, foldR f l (built L) = Ok (built (L ++ flat_map h l)).
Proof.
  induction l as [|a l IH]; intros H L; cbn.
  - rewrite app_nil_r. auto.
  - rewrite H by (left; auto). cbn. rewrite IH by (intros; apply H; right; auto).
    rewrite app_assoc. auto.
Qed.
End Build.

Lemma flat_map_single {A B} (h : A -> B) l : flat_map (fun a => [h a]) l = map h l.
Proof. induction l; cbn; f_equal; auto. Qed.

(** * The vertices *)

Lemma init_vertices_eq m rounds :
  init_vertices rounds m = (flat_map (fun t => map (pair t) (seq 0 m)) (seq 0 rounds), map (fun t => seq (t * m) m) (seq 0 rounds)).
Proof.
  unfold init_vertices. induction rounds as [|r IH]; [reflexivity|].
  rewrite seq_snoc, fold_left_app, IH, flat_map_app, map_app. cbn. f_equal; [rewrite app_nil_r; auto|].
  do 2 f_equal. f_equal. clear IH. induction r as [|r IH]; [reflexivity|].
  rewrite seq_snoc, flat_map_app, app_length, IH. cbn. rewrite app_nil_r, map_length, seq_length. lia.
Qed.

Lemma flat_map_length_const {A B} (f : A -> list B) k l : (forall a, In a l -> length (f a) = k) ->
  length (flat_map f l) = length l * k.
Proof.
  induction l as [|a l IH]; cbn; intros H; auto. rewrite app_length, H, IH; auto.
Qed.

Lemma nth_flat_map {A B} (f : A -> list B) k l d da i j : (forall a, In a l -> length (f a) = k) ->
  i < length l -> j < k -> nth (i * k + j) (flat_map f l) d = nth j (f (nth i l da)) d.
Proof.
  revert i. induction l as [|a l IH]; cbn [flat_map length nth]; intros i H Li Lj; [lia|].
  destruct i as [|i].
  - cbn. rewrite app_nth1; auto. rewrite H; auto. left; auto.
  - rewrite app_nth2; rewrite (H a) by (left; auto); [|nia].
    replace (S i * k + j - k) with (i * k + j) by nia. apply IH; auto; [|lia].
    intros; apply H; right; auto.
Qed.

(** * The error operators *)

Definition x_op (n q : nat) : row := mkRow (upd q (true, false) (repeat (false, false) n)) false.
Definition z_op (n q : nat) : row := mkRow (upd q (false, true) (repeat (false, false) n)) false.
Definition the_ops (n : nat) : list row := map (x_op n) (seq 0 n) ++ map (z_op n) (seq 0 n).

Lemma error_ops_eq n : error_ops n = Ok (the_ops n).
Proof.
  unfold error_ops.
  rewrite (mapR_ok _ (fun oi : pauli1 * nat => match fst oi with PX => x_op n (snd oi) | _ => z_op n (snd oi) end)).
  - f_equal. unfold the_ops. cbn [list_prod]. rewrite app_nil_r, map_app, !map_map. reflexivity.
  - intros [p q] I. assert (q < n /\ (p = PX \/ p = PZ)) as [L P].
    { cbn in I. rewrite app_nil_r in I. rewrite in_app_iff, !in_map_iff in I.
      destruct I as [(x & E & I)|(x & E & I)]; injection E as <- <-; apply in_seq in I; split; auto; lia. }
    unfold single_qubit_pauli_operator. cbn [fst snd].
    assert ((n <? 1) = false) as -> by (apply Nat.ltb_ge; lia).
    assert ((n <=? q) = false) as -> by (apply Nat.leb_gt; lia).
    destruct P as [-> | ->]; reflexivity.
Qed.

Lemma length_the_ops n : length (the_ops n) = 2 * n.
Proof. unfold the_ops. rewrite app_length, !map_length, seq_length. lia. Qed.

Lemma nth_the_ops n k : k < 2 * n -> nth k (the_ops n) row0 = if k <? n then x_op n k else z_op n (k - n).
Proof.
  intros L. unfold the_ops. destruct (Nat.ltb_spec k n).
  - rewrite app_nth1 by (rewrite map_length, seq_length; auto). apply nth_map_seq; auto.
  - rewrite app_nth2; rewrite map_length, seq_length; auto. apply nth_map_seq. lia.
Qed.

Lemma map_upd {A B} (f : A -> B) i a l : map f (upd i a l) = upd i (f a) (map f l).
Proof. revert i. induction l as [|h l IH]; destruct i; cbn; auto. unfold upd; fold (@upd A); fold (@upd B). cbn. f_equal. apply IH. Qed.

Lemma map_repeat {A B} (f : A -> B) a k : map f (repeat a k) = repeat (f a) k.
Proof. induction k; cbn; f_equal; auto. Qed.

Lemma nonzero_zeros k : nonzero (repeat false k) = [].
Proof.
  unfold nonzero. rewrite repeat_length. destruct (filter _ _) as [|x l] eqn:E; auto.
  assert (I : In x (x :: l)) by (left; auto). rewrite <- E in I. apply filter_In in I.
  destruct I as [_ I]. fold (bits (repeat false k) x) in I. rewrite bits_repeat in I. discriminate.
Qed.

Lemma filter_one {A} (f : A -> bool) (a : A) l : NoDup l -> In a l ->
  (forall x, In x l -> f x = true <-> x = a) -> filter f l = [a].
Proof.
  induction l as [|b l IH]; intros N I H; [destruct I|]. inversion N as [|? ? NI N']; subst. cbn.
  destruct (f b) eqn:Fb.
  - apply H in Fb; [|left; auto]. subst b. f_equal.
    destruct (filter f l) as [|c r] eqn:E; auto.
    assert (J : In c (c :: r)) by (left; auto). rewrite <- E in J. apply filter_In in J. destruct J as [J1 J2].
    apply H in J2; [|right; auto]. subst. tauto.
  - destruct I as [->|I].
    + assert (f a = true) by (apply H; [left; auto|auto]). congruence.
    + apply IH; auto. intros x Ix. apply H. right; auto.
Qed.

Lemma nonzero_unit k q : q < k -> nonzero (upd q true (repeat false k)) = [q].
Proof.
  intros L. unfold nonzero. rewrite length_upd, repeat_length. apply filter_one.
  - apply seq_NoDup.
  - apply in_seq. lia.
  - intros x _. fold (bits (upd q true (repeat false k)) x). rewrite bits_upd, bits_repeat, repeat_length.
    apply Nat.ltb_lt in L. rewrite L, andb_true_r. destruct (Nat.eqb_spec q x); split; intros; auto; congruence.
Qed.

Lemma upd_repeat_app {A} q (a b : A) k l : q < k -> upd q a (repeat b k) ++ l = upd q a (repeat b k ++ l).
Proof. intros. rewrite upd_app_l; auto. rewrite repeat_length; auto. Qed.

Lemma app_upd_repeat {A} q (a b : A) k j : repeat b j ++ upd q a (repeat b k) = upd (j + q) a (repeat b (j + k)).
Proof. rewrite repeat_app, upd_app_r; rewrite repeat_length; [|lia]. do 2 f_equal. lia. Qed.

Lemma check_single_x n q : q < n -> check_single n (x_op n q) = Ok tt.
Proof.
  intros L. unfold check_single, x_op. cbn [ops]. rewrite !map_upd, !map_repeat. cbn [fst snd].
  replace (upd q false (repeat false n)) with (repeat false n).
  2: { symmetry. rewrite <- (nth_repeat_lt false false n q L) at 1. apply upd_nth. }
  rewrite upd_repeat_app, <- repeat_app, nonzero_unit by lia. reflexivity.
Qed.

Lemma check_single_z n q : q < n -> check_single n (z_op n q) = Ok tt.
Proof.
  intros L. unfold check_single, z_op. cbn [ops]. rewrite !map_upd, !map_repeat. cbn [fst snd].
  replace (upd q false (repeat false n)) with (repeat false n).
  2: { symmetry. rewrite <- (nth_repeat_lt false false n q L) at 1. apply upd_nth. }
  rewrite app_upd_repeat, nonzero_unit by lia. reflexivity.
Qed.

Lemma op_letter_x n q : q < n -> op_letter (x_op n q) = Ok (q, PX).
Proof.
  intros L. unfold op_letter, x_op. cbn [ops]. rewrite !map_upd, !map_repeat. cbn [fst snd].
  replace (upd q false (repeat false n)) with (repeat false n).
  2: { symmetry. rewrite <- (nth_repeat_lt false false n q L) at 1. apply upd_nth. }
  rewrite nonzero_unit, nonzero_zeros by auto. reflexivity.
Qed.

Lemma op_letter_z n q : q < n -> op_letter (z_op n q) = Ok (q, PZ).
Proof.
  intros L. unfold op_letter, z_op. cbn [ops]. rewrite !map_upd, !map_repeat. cbn [fst snd].
  replace (upd q false (repeat false n)) with (repeat false n).
  2: { symmetry. rewrite <- (nth_repeat_lt false false n q L) at 1. apply upd_nth. }
  rewrite nonzero_unit, nonzero_zeros by auto. reflexivity.
Qed.

(** * The edges *)

Lemma nonzero_lt l i : In i (nonzero l) -> i < length l.
Proof. rewrite nonzero_in. tauto. Qed.

Lemma nonzero_NoDup l : NoDup (nonzero l).
Proof. unfold nonzero. apply NoDup_filter, seq_NoDup. Qed.

Lemma NoDup_map_inj {A B} (f : A -> B) l : (forall a b, In a l -> In b l -> f a = f b -> a = b) ->
  NoDup l -> NoDup (map f l).
Proof.
  induction l as [|a l IH]; cbn; intros H N; [constructor|]. inversion N; subst. constructor.
  - intros I. apply in_map_iff in I. destruct I as (b & E & I). apply H in E; auto. subst. tauto.
  - apply IH; auto.
Qed.

Lemma foldR_fail {A S} (f : S -> A -> Res S) l s e a0 :
  (forall a s, In a l -> (exists s', f s a = Ok s') \/ f s a = Err e) ->
  In a0 l -> (forall s, f s a0 = Err e) -> foldR f l s = Err e.
Proof.
  revert s. induction l as [|a l IH]; intros s H I F; [destruct I|]. cbn [foldR].
  destruct I as [->|I]; [rewrite F; auto|].
  destruct (H a s) as [(s' & ->)| ->]; [left; auto| |reflexivity].
  cbn. apply IH; auto. intros; apply H; right; auto.
Qed.

Section Edges.
Variables (rounds n : nat) (gens : list row).
Notation m := (length gens).

(** Generators which anticommute with an operator. *)
Definition touched (op : row) : list nat := nonzero (map (commutator_sign op) gens).
Definition letter_of (k : nat) : nat * pauli1 := if k <? n then (k, PX) else (k - n, PZ).
Definition qubit_edge (t k : nat) : list nat * ekind :=
  (map (fun s => t * m + s) (touched (nth k (the_ops n) row0)), QubitError t k (fst (letter_of k)) (snd (letter_of k))).
Definition stab_edge (t s : nat) : list nat * ekind := ([(t - 1) * m + s; t * m + s], StabError t s).
Definition the_edges : list (list nat * ekind) :=
  flat_map (fun t => map (qubit_edge t) (seq 0 (2 * n))) (seq 0 rounds) ++
  flat_map (fun t => map (stab_edge t) (seq 0 m)) (seq 1 (rounds - 1)).

Definition the_verts : list (nat * nat) := flat_map (fun t => map (pair t) (seq 0 m)) (seq 0 rounds).
Definition the_times : list (list nat) := map (fun t => seq (t * m) m) (seq 0 rounds).
Notation built := (built rounds n m (the_ops n) the_verts the_times).

Lemma length_the_verts : length the_verts = rounds * m.
Proof.
  unfold the_verts. rewrite (flat_map_length_const _ m), seq_length; auto.
  intros; rewrite map_length, seq_length; auto.
Qed.

Lemma touched_lt op s : In s (touched op) -> s < m.
Proof. intros I. apply nonzero_lt in I. rewrite map_length in I. auto. Qed.

(** Every error operator touches at most two generators. *)
Definition two_at_most : Prop := forall k, k < 2 * n -> length (touched (nth k (the_ops n) row0)) <= 2.

Lemma get_time t : t < rounds -> get the_times t = Ok (seq (t * m) m).
Proof.
  intros L. unfold the_times. rewrite (get_nth _ _ []) by (rewrite map_length, seq_length; auto).
  rewrite nth_map_seq; auto.
Qed.

Lemma get_seq a k i : i < k -> get (seq a k) i = Ok (a + i).
Proof. intros L. rewrite (get_nth _ _ 0) by (rewrite seq_length; auto). rewrite seq_nth; auto. Qed.

Definition sign_row (k : nat) : list bool := map (commutator_sign (nth k (the_ops n) row0)) gens.

Lemma enum_signs : combine (seq 0 (length (map (fun op => map (commutator_sign op) gens) (the_ops n))))
    (map (fun op => map (commutator_sign op) gens) (the_ops n)) =
  map (fun k => (k, sign_row k)) (seq 0 (2 * n)).
Proof.
  rewrite map_length, length_the_ops.
  apply list_ext with (d := (0, [])); [rewrite combine_length, !map_length, seq_length, length_the_ops; lia|].
  intros k Lk. rewrite combine_length, map_length, length_the_ops, seq_length, Nat.min_id in Lk.
  rewrite combine_nth by (rewrite map_length, length_the_ops, seq_length; auto).
  rewrite nth_map_seq, seq_nth by auto. f_equal. unfold sign_row.
  rewrite (nth_indep _ [] (map (commutator_sign row0) gens)) by (rewrite map_length, length_the_ops; auto).
  rewrite (map_nth (fun op => map (commutator_sign op) gens)). auto.
Qed.

Lemma op_letter_of k : k < 2 * n -> op_letter (nth k (the_ops n) row0) = Ok (letter_of k).
Proof.
  intros L. rewrite nth_the_ops by auto. unfold letter_of. destruct (Nat.ltb_spec k n).
  - apply op_letter_x; auto.
  - apply op_letter_z. lia.
Qed.

Lemma vertex_lt t s : t < rounds -> s < m -> t * m + s < length the_verts.
Proof. intros. rewrite length_the_verts. nia. Qed.

Lemma add_qubit_edge_ok t k L : t < rounds -> k < 2 * n ->
  length (touched (nth k (the_ops n) row0)) <= 2 ->
  add_qubit_edge t (built L) (k, sign_row k) = Ok (built (L ++ [qubit_edge t k])).
Proof.
  intros Lt Lk Le. cbv beta iota zeta delta [add_qubit_edge]. change (nonzero (sign_row k)) with (touched (nth k (the_ops n) row0)).
  assert ((2 <? length (touched (nth k (the_ops n) row0))) = false) as -> by (apply Nat.ltb_ge; auto).
  unfold built at 1 2. cbn [sg_at sg_ops].
  rewrite (mapR_ok _ (fun s => t * m + s)).
  2: { intros s I. apply touched_lt in I. rewrite get_time by auto. cbn. apply get_seq; auto. }
  cbn [bindR]. rewrite (get_nth _ _ row0) by (rewrite length_the_ops; auto). cbn [bindR].
  rewrite op_letter_of by auto. cbn [bindR]. apply new_edge_ok.
  - apply NoDup_map_inj; [intros; lia|]. apply nonzero_NoDup.
  - intros v I. apply in_map_iff in I. destruct I as (s & <- & I). apply touched_lt in I.
    apply vertex_lt; auto.
Qed.

Lemma the_ops_check : mapR (check_single n) (the_ops n) = Ok (map (fun _ => tt) (the_ops n)).
Proof.
  apply mapR_ok. intros op I. unfold the_ops in I. apply in_app_or in I.
  destruct I as [I|I]; apply in_map_iff in I; destruct I as (q & <- & I); apply in_seq in I.
  - apply check_single_x; lia.
  - apply check_single_z; lia.
Qed.

Hypothesis Hn : 0 < n.
Hypothesis Hg : forall g, In g gens -> length (ops g) = n.

Lemma init_qubit_edges_ok : two_at_most -> init_qubit_edges gens (built []) =
  Ok (built (flat_map (fun t => map (qubit_edge t) (seq 0 (2 * n))) (seq 0 rounds))).
Proof.
  intros T. unfold init_qubit_edges. cbn [sg_n sg_ops sg_rounds SyngraphBuild.built].
  replace (_ || _) with false.
  2: { symmetry. apply orb_false_iff. split; [apply Nat.eqb_neq; lia|]. apply negb_false_iff, forallb_forall.
       intros g I. apply Nat.eqb_eq. auto. }
  rewrite the_ops_check. cbn [bindR]. rewrite enum_signs.
  rewrite (foldR_built _ _ _ _ _ _ _ (fun t => map (qubit_edge t) (seq 0 (2 * n)))); [reflexivity|].
  intros L t I. apply in_seq in I.
  assert (X : forall ks L, (forall k, In k ks -> k < 2 * n) ->
     foldR (add_qubit_edge t) (map (fun k => (k, sign_row k)) ks) (built L) = Ok (built (L ++ map (qubit_edge t) ks))).
  { induction ks as [|k ks IH]; intros L' B; cbn [map foldR]; [rewrite app_nil_r; auto|].
    rewrite add_qubit_edge_ok; [|lia|apply B; left; auto|apply T, B; left; auto]. cbn [bindR].
    rewrite IH by (intros; apply B; right; auto). rewrite <- app_assoc. reflexivity. }
  apply X. intros k Ik. apply in_seq in Ik. lia.
Qed.

Lemma init_qubit_edges_fail : 0 < rounds -> ~ two_at_most ->
  init_qubit_edges gens (built []) = Err ValueError.
Proof.
  intros R T. unfold init_qubit_edges. cbn [sg_n sg_ops sg_rounds SyngraphBuild.built].
  replace (_ || _) with false.
  2: { symmetry. apply orb_false_iff. split; [apply Nat.eqb_neq; lia|]. apply negb_false_iff, forallb_forall.
       intros g I. apply Nat.eqb_eq. auto. }
  rewrite the_ops_check. cbn [bindR]. rewrite enum_signs.
  destruct rounds as [|r] eqn:Er; [lia|]. cbn [seq foldR].
  assert (X : forall ks L, (forall k, In k ks -> k < 2 * n) ->
     (exists k, In k ks /\ 2 < length (touched (nth k (the_ops n) row0))) ->
     foldR (add_qubit_edge 0) (map (fun k => (k, sign_row k)) ks) (built L) = Err ValueError).
  { induction ks as [|k ks IH]; intros L' B (k' & I & Le); [destruct I|]. cbn [map foldR].
    destruct (le_lt_dec (length (touched (nth k (the_ops n) row0))) 2) as [Y|Y].
    - rewrite add_qubit_edge_ok; [|lia|apply B; left; auto|auto]. cbn [bindR]. apply IH.
      + intros; apply B; right; auto.
      + exists k'. split; auto. destruct I as [<-|I]; auto. lia.
    - cbv beta iota zeta delta [add_qubit_edge]. change (nonzero (sign_row k)) with (touched (nth k (the_ops n) row0)).
      apply Nat.ltb_lt in Y. rewrite Y. reflexivity. }
  rewrite <- Er. rewrite X; auto.
  - intros k Ik. apply in_seq in Ik. lia.
  - assert (D : forall N, (forall k, k < N -> length (touched (nth k (the_ops n) row0)) <= 2) \/
       exists k, k < N /\ 2 < length (touched (nth k (the_ops n) row0))).
    { induction N as [|N [IH|(k & L & Y)]]; [left; intros; lia| |right; exists k; split; auto].
      destruct (le_lt_dec (length (touched (nth N (the_ops n) row0))) 2) as [Y|Y]; [left|right; eauto].
      intros k Lk. destruct (Nat.eq_dec k N) as [->|]; auto. apply IH. lia. }
    destruct (D (2 * n)) as [Y|(k & L & Y)]; [elim T; exact Y|]. exists k. split; auto. apply in_seq. lia.
Qed.

Lemma init_stab_edges_ok L : init_stab_edges (built L) =
  Ok (built (L ++ flat_map (fun t => map (stab_edge t) (seq 0 m)) (seq 1 (rounds - 1)))).
Proof.
  unfold init_stab_edges. cbn [sg_m sg_rounds SyngraphBuild.built].
  rewrite (foldR_built _ _ _ _ _ _ _ (fun t => map (stab_edge t) (seq 0 m))); [reflexivity|].
  clear L. intros L t I. apply in_seq in I.
  rewrite (foldR_built _ _ _ _ _ _ _ (fun s => [stab_edge t s])).
  - rewrite flat_map_single. reflexivity.
  - intros L' s Is. apply in_seq in Is. unfold add_stab_edge. cbn [sg_at SyngraphBuild.built].
    change (sg_m _) with m in Is.
    rewrite (get_time (t - 1)) by lia. cbn [bindR]. rewrite get_seq by lia. cbn [bindR].
    rewrite (get_time t) by lia. cbn [bindR]. rewrite get_seq by lia. cbn [bindR].
    apply new_edge_ok.
    + constructor; [|constructor; [intros []|constructor]]. intros [X|[]]. destruct t as [|t]; [lia|]. replace (S t - 1) with t in X by lia. cbn [Nat.mul] in X. lia.
    + intros v [<-|[<-|[]]]; apply vertex_lt; lia.
Qed.
End Edges.
