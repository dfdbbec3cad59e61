(** Lattices built step by step: vertices at distinct positions, then edges. *)
Require Import List Bool Arith ZArith Lia String Permutation.
From Verif Require Import Base BaseProofs QSpec PauliModel PauliSem PauliProofs PauliAlg LatticeModel CodesModel LatticeSpec LatticeProofs LatticeEdit LatticeOps LatticeMerge.
Import ListNotations.
Local Open Scope nat_scope.
Local Open Scope list_scope.

Definition inside (sh : Z * Z) (p : pos) : Prop := (0 <= fst p < fst sh /\ 0 <= snd p < snd sh)%Z.
Definition ekey (l : lattice) (e : edge) : nat * pos * factor := (e_op e, v_pos (l_heap l (e_data e)), e_factor e).

(** [l] has exactly the vertices [vs], in this order at the addresses 0, 1, ..., and exactly the
    edges [es], each given by operator, position of the data qubit and factor. *)
Record built (sh : Z * Z) (vs : list (kind * pos)) (es : list (nat * pos * factor)) (l : lattice) : Prop := {
  b_cons : consistent l;
  b_shape : l_shape l = sh;
  b_next : l_next l = List.length vs;
  b_vertices : l_vertices l = seq 0 (List.length vs);
  b_vs : forall i kp, nth_error vs i = Some kp -> v_kind (l_heap l i) = fst kp /\ v_pos (l_heap l i) = snd kp;
  b_inside : forall kp, In kp vs -> inside sh (snd kp);
  b_edges : map (ekey l) (l_edges l) = es }.

Lemma inside_cell sh p : inside sh p -> cell_of sh p = Some p.
Proof.
  intros [A B]. unfold cell_of, wrap. destruct p as [x y]; cbn [fst snd] in *.
  replace ((0 <=? x) && (x <? fst sh))%Z with true by lia. replace ((0 <=? y) && (y <? snd sh))%Z with true by lia. auto.
Qed.
Lemma pos_eqb_eq a b : pos_eqb a b = true <-> a = b.
Proof. destruct a, b. unfold pos_eqb. cbn. rewrite andb_true_iff, !Z.eqb_eq. split. intros [-> ->]; auto. intros E; injection E; auto. Qed.

Lemma built_cell sh vs es l i p k : built sh vs es l -> nth_error vs i = Some (k, p) -> l_cells l p = Some i.
Proof.
  intros B E. apply (cons_cells _ (b_cons _ _ _ _ B)). destruct (b_vs _ _ _ _ B i _ E) as [_ P]. rewrite P, (b_shape _ _ _ _ B), (b_vertices _ _ _ _ B). cbn [snd].
  split. apply in_seq. cbn. split; [lia|]. apply nth_error_Some. congruence. apply inside_cell. apply (b_inside _ _ _ _ B) with (kp := (k, p)). eapply nth_error_In; eauto.
Qed.
Lemma built_free sh vs es l p : built sh vs es l -> ~ In p (map snd vs) -> inside sh p -> l_cells l p = None.
Proof.
  intros B N I. destruct (l_cells l p) as [i|] eqn:E; auto. exfalso. apply N. apply (cons_cells _ (b_cons _ _ _ _ B)) in E as [V P].
  rewrite (b_vertices _ _ _ _ B) in V. apply in_seq in V. cbn in V. destruct V as [_ V]. destruct (nth_error vs i) as [[k q]|] eqn:Q; [|apply nth_error_None in Q; lia].
  destruct (b_vs _ _ _ _ B i _ Q) as [_ X]. rewrite X, (b_shape _ _ _ _ B) in P. cbn in P.
  assert (In (k, q) vs) by (eapply nth_error_In; eauto). rewrite inside_cell in P by (apply (b_inside _ _ _ _ B _ H)). injection P as ->.
  apply (in_map snd) in H. auto.
Qed.
Lemma built_empty sh : (0 <= fst sh)%Z -> (0 <= snd sh)%Z -> exists l, empty_lattice sh = Ok l /\ built sh [] [] l.
Proof.
  intros A B. unfold empty_lattice. replace ((fst sh <? 0) || (snd sh <? 0))%Z with false by (symmetry; apply orb_false_iff; rewrite !Z.ltb_ge; lia).
  eexists. split; [reflexivity|]. constructor; auto. apply (reachable_consistent). eapply reach_new. unfold empty_lattice.
  replace ((fst sh <? 0) || (snd sh <? 0))%Z with false by (symmetry; apply orb_false_iff; rewrite !Z.ltb_ge; lia). reflexivity.
  intros [] ? ?; discriminate. intros ? [].
Qed.
Lemma built_add sh vs es l k p : built sh vs es l -> ~ In p (map snd vs) -> inside sh p ->
  exists l', add_vertex k p l = (l', None) /\ built sh (vs ++ [(k, p)]) es l'.
Proof.
  intros B N I. pose proof (add_vertex_spec l k p p (b_cons _ _ _ _ B)) as S. rewrite (b_shape _ _ _ _ B) in S. specialize (S (inside_cell _ _ I)).
  rewrite (built_free sh vs es l p B N I) in S.
  destruct S as (l' & E & C & Sh & Nx & Ed & _ & _ & _ & _ & V & _ & _ & _ & Ce & H). exists l'. split; auto.
  rewrite (b_next _ _ _ _ B) in *.
  constructor; auto.
  - rewrite Nx, app_length. cbn. lia.
  - rewrite V, (b_vertices _ _ _ _ B), app_length, seq_app. auto.
  - intros i kp Q. rewrite H. destruct (Nat.eqb_spec (List.length vs) i).
    + subst. rewrite nth_error_app2, Nat.sub_diag in Q by auto. cbn in Q. injection Q as <-. auto.
    + assert (i < List.length vs). { assert (i < List.length (vs ++ [(k, p)])) by (apply nth_error_Some; congruence). rewrite app_length in H0. cbn in H0. lia. }
      rewrite nth_error_app1 in Q by auto. apply (b_vs _ _ _ _ B). auto.
  - intros kp Q. apply in_app_iff in Q as [Q|[<-|[]]]; auto. apply (b_inside _ _ _ _ B _ Q).
  - rewrite Ed. rewrite <- (b_edges _ _ _ _ B). apply map_ext_in. intros e Ie. unfold ekey. rewrite H.
    destruct (Nat.eqb_spec (List.length vs) (e_data e)); auto. exfalso. destruct (cons_ends _ (b_cons _ _ _ _ B) e Ie) as [D _].
    apply in_data in D as [D _]; [|apply (b_cons _ _ _ _ B)]. rewrite (b_vertices _ _ _ _ B) in D. apply in_seq in D. lia.
Qed.

Lemma built_in_data sh vs es l i : built sh vs es l -> (In i (l_data l) <-> exists p, nth_error vs i = Some (KData, p)).
Proof.
  intros B. rewrite (in_data l i (b_cons _ _ _ _ B)), (b_vertices _ _ _ _ B), in_seq. cbn. split.
  - intros [[_ L] D]. destruct (nth_error vs i) as [[k p]|] eqn:Q; [|apply nth_error_None in Q; lia]. destruct (b_vs _ _ _ _ B i _ Q) as [K _]. cbn in K.
    unfold is_data in D. rewrite K in D. destruct k; try discriminate. eauto.
  - intros [p Q]. split. split; [lia|]. apply nth_error_Some. congruence. unfold is_data. rewrite (proj1 (b_vs _ _ _ _ B i _ Q)). auto.
Qed.
Lemma built_in_op sh vs es l i : built sh vs es l -> (In i (l_operators l) <-> exists k p, nth_error vs i = Some (k, p) /\ k <> KData).
Proof.
  intros B. rewrite (in_operators l i (b_cons _ _ _ _ B)), (b_vertices _ _ _ _ B), in_seq. cbn. split.
  - intros [[_ L] D]. destruct (nth_error vs i) as [[k p]|] eqn:Q; [|apply nth_error_None in Q; lia]. destruct (b_vs _ _ _ _ B i _ Q) as [K _]. cbn in K.
    unfold is_data in D. rewrite K in D. exists k, p. split; auto. intros ->. discriminate.
  - intros (k & p & Q & N). split. split; [lia|]. apply nth_error_Some. congruence. unfold is_data. rewrite (proj1 (b_vs _ _ _ _ B i _ Q)). cbn. destruct k; congruence.
Qed.
Lemma built_pos_inj sh vs es l i j k k' p : built sh vs es l -> nth_error vs i = Some (k, p) -> nth_error vs j = Some (k', p) -> i = j.
Proof. intros B A A'. pose proof (built_cell _ _ _ _ _ _ _ B A). pose proof (built_cell _ _ _ _ _ _ _ B A'). congruence. Qed.
Lemma built_frame sh vs es l l' es' : built sh vs es l -> consistent l' -> frame l l' -> map (ekey l) (l_edges l') = es' -> built sh vs es' l'.
Proof.
  intros B C F E. constructor; auto.
  - rewrite (fr_shape _ _ F). apply B.
  - rewrite (fr_next _ _ F). apply B.
  - rewrite (fr_vertices _ _ F). apply B.
  - intros i kp Q. rewrite (fr_kind _ _ F), (fr_pos _ _ F). apply (b_vs _ _ _ _ B); auto.
  - apply (b_inside _ _ _ _ B).
  - rewrite <- E. apply map_ext. intros e. unfold ekey. rewrite (fr_pos _ _ F). auto.
Qed.
Definition okey (vs : list (kind * pos)) (t : nat * pos * factor) : Prop :=
  In (KData, snd (fst t)) vs /\ exists k p, nth_error vs (fst (fst t)) = Some (k, p) /\ k <> KData.
Lemma built_edge sh vs es l o p f : built sh vs es l -> okey vs (o, p, f) -> ~ In (o, p) (map fst es) ->
  exists l', edge_to p o f l = (l', None) /\ built sh vs (es ++ [(o, p, f)]) l'.
Proof.
  intros B [D O] N. cbn in D, O. apply In_nth_error in D as [i D].
  assert (Id : In i (l_data l)) by (apply (built_in_data _ _ _ _ _ B); eauto).
  assert (Io : In o (l_operators l)) by (apply (built_in_op _ _ _ _ _ B); destruct O as (k & q & ? & ?); eauto).
  unfold edge_to, lookup. rewrite (b_shape _ _ _ _ B), inside_cell by (apply (b_inside _ _ _ _ B (KData, p)); eapply nth_error_In; eauto).
  rewrite (built_cell _ _ _ _ _ _ _ B D).
  pose proof (add_edge_spec l i o f (b_cons _ _ _ _ B) Id Io) as S.
  destruct (existsb (joins o i) (l_edges l)) eqn:J.
  - exfalso. apply existsb_exists in J as (e & Ie & J). apply joins_ends in J. injection J as <- <-. apply N. rewrite <- (b_edges _ _ _ _ B), map_map.
    apply in_map_iff. exists e. split; auto. unfold ekey. cbn. f_equal. apply (b_vs _ _ _ _ B _ _ D).
  - destruct S as (l' & E & C & F & G). exists l'. split; auto. apply (built_frame _ _ es l); auto. rewrite G, map_app, (b_edges _ _ _ _ B). cbn. unfold ekey. cbn.
    rewrite (proj2 (b_vs _ _ _ _ B _ _ D)). auto.
Qed.

(** * Programs *)
Definition runs (sh : Z * Z) (prog : eff) vs es vs' es' : Prop := forall l, built sh vs es l -> exists l', prog l = (l', None) /\ built sh vs' es' l'.
Lemma runs_seq sh a b v0 e0 v1 e1 v2 e2 : runs sh a v0 e0 v1 e1 -> runs sh b v1 e1 v2 e2 -> runs sh (seqE a b) v0 e0 v2 e2.
Proof. intros A B l L. destruct (A l L) as (l1 & E1 & B1). destruct (B l1 B1) as (l2 & E2 & B2). exists l2. split; auto. rewrite (seq_step _ _ _ l1 E1). auto. Qed.
Lemma runs_skip sh v e : runs sh skip v e v e.
Proof. intros l L. exists l. auto. Qed.
(** Adding vertices. *)
Definition adds (prog : eff) (ws : list (kind * pos)) : Prop := forall sh vs es,
  NoDup (map snd (vs ++ ws)) -> (forall w, In w ws -> inside sh (snd w)) -> runs sh prog vs es (vs ++ ws) es.
Lemma nodup_app_l {A} (a b : list A) : NoDup (a ++ b) -> NoDup a.
Proof. intros H. apply NoDup_app_inv in H. tauto. Qed.
Lemma adds_skip : adds skip [].
Proof. intros sh vs es _ _. rewrite List.app_nil_r. apply runs_skip. Qed.
Lemma adds_one k p : adds (add_vertex k p) [(k, p)].
Proof.
  intros sh vs es N I l B. apply built_add; auto.
  - rewrite map_app in N. cbn in N. apply NoDup_remove_2 in N. rewrite List.app_nil_r in N. auto.
  - apply (I (k, p)). left; auto.
Qed.
Lemma adds_seq a b wa wb : adds a wa -> adds b wb -> adds (seqE a b) (wa ++ wb).
Proof.
  intros A B sh vs es N I. eapply runs_seq. apply A. rewrite app_assoc, map_app in N. apply nodup_app_l in N; auto. intros; apply I; apply in_app_iff; auto.
  rewrite app_assoc. apply B. rewrite <- app_assoc; auto. intros; apply I; apply in_app_iff; auto.
Qed.
Lemma adds_for {X} (f : X -> eff) W xs : (forall x, In x xs -> adds (f x) (W x)) -> adds (forE f xs) (flat_map W xs).
Proof.
  induction xs; cbn. intros; apply adds_skip. intros H. apply adds_seq. apply H; auto. apply IHxs. auto.
Qed.
(** Drawing edges between given vertices. *)
Definition draws vs (prog : eff) (ts : list (nat * pos * factor)) : Prop := forall sh es,
  (forall t, In t ts -> okey vs t) -> NoDup (map fst (es ++ ts)) -> runs sh prog vs es vs (es ++ ts).
Lemma draws_skip vs : draws vs skip [].
Proof. intros sh es _ _. rewrite List.app_nil_r. apply runs_skip. Qed.
Lemma draws_one vs p o f : draws vs (edge_to p o f) [(o, p, f)].
Proof.
  intros sh es K N l B. apply built_edge; auto. apply K; left; auto.
  rewrite map_app in N. cbn in N. apply NoDup_remove_2 in N. rewrite List.app_nil_r in N. auto.
Qed.
Lemma draws_seq vs a b ta tb : draws vs a ta -> draws vs b tb -> draws vs (seqE a b) (ta ++ tb).
Proof.
  intros A B sh es K N. eapply runs_seq. apply A. intros; apply K; apply in_app_iff; auto. rewrite app_assoc, map_app in N. apply nodup_app_l in N; auto.
  rewrite app_assoc. apply B. intros; apply K; apply in_app_iff; auto. rewrite <- app_assoc; auto.
Qed.
Lemma draws_for vs {X} (f : X -> eff) T xs : (forall x, In x xs -> draws vs (f x) (T x)) -> draws vs (forE f xs) (flat_map T xs).
Proof. induction xs; cbn. intros; apply draws_skip. intros H. apply draws_seq. apply H; auto. apply IHxs. auto. Qed.
Lemma draws_built vs prog prog' ts : (forall sh es l, built sh vs es l -> prog l = prog' l) -> draws vs prog' ts -> draws vs prog ts.
Proof. intros H D sh es K N l B. destruct (D sh es K N l B) as (l' & E & B'). exists l'. split; auto. rewrite (H sh es l); auto. Qed.
(** [(i, k, p)] for the i-th vertex. *)
Definition numbered (vs : list (kind * pos)) : list (nat * (kind * pos)) := enumerate_from 0 vs.
Lemma enumerate_nth {A} (l : list A) : forall n i a, In (i, a) (enumerate_from n l) <-> exists k, i = n + k /\ nth_error l k = Some a.
Proof.
  induction l as [|x l IH]; cbn; intros n i a.
  - split; [tauto|]. intros ([|k] & _ & ?); discriminate.
  - rewrite IH. split.
    + intros [E|(k & -> & E)]. { injection E as -> ->. exists 0. split; [lia|auto]. } { exists (S k). split; [lia|auto]. }
    + intros ([|k] & -> & E). { cbn in E. injection E as ->. left. f_equal. lia. } { right. exists k. split; [lia|auto]. }
Qed.
Lemma in_numbered vs i kp : In (i, kp) (numbered vs) <-> nth_error vs i = Some kp.
Proof. unfold numbered. rewrite enumerate_nth. split. intros (k & -> & E). auto. intros. exists i. auto. Qed.
Lemma map_fst_enumerate {A} (l : list A) : forall n, map fst (enumerate_from n l) = seq n (List.length l).
Proof. induction l; cbn; intros; auto. rewrite IHl. auto. Qed.
Definition stab_edges (T : nat -> pos -> group -> list (nat * pos * factor)) (x : nat * (kind * pos)) :=
  match x with (i, (KStab g, p)) => T i p g | _ => [] end.
Lemma draws_for_stabs vs f T : (forall i g p, nth_error vs i = Some (KStab g, p) -> draws vs (f i p g) (T i p g)) ->
  draws vs (for_stabs f) (flat_map (stab_edges T) (numbered vs)).
Proof.
  intros H sh es K N l B. unfold for_stabs. rewrite (b_vertices _ _ _ _ B), <- (map_fst_enumerate vs 0). fold (numbered vs).
  set (g := fun (i : nat) (l : lattice) => match v_kind (l_heap l i) with KStab g => f i (v_pos (l_heap l i)) g l | _ => (l, None) end).
  assert (G : draws vs (forE g (map fst (numbered vs))) (flat_map (stab_edges T) (numbered vs))).
  { assert (L : forall xs, (forall x, In x xs -> In x (numbered vs)) -> draws vs (forE g (map fst xs)) (flat_map (stab_edges T) xs)).
    { induction xs as [|x xs IH]; intros S. apply draws_skip. cbn [map forE flat_map]. apply draws_seq; [|apply IH; intros; apply S; right; auto].
      destruct x as [i [k p]]. assert (Q : nth_error vs i = Some (k, p)) by (apply in_numbered; apply S; left; auto).
      destruct k; cbn [stab_edges fst].
      - apply (draws_built vs _ skip); [|apply draws_skip]. intros sh' es' l' B'. unfold g. rewrite (proj1 (b_vs _ _ _ _ B' i _ Q)). reflexivity.
      - apply (draws_built vs _ (f i p g0)); [|auto]. intros sh' es' l' B'. unfold g. destruct (b_vs _ _ _ _ B' i _ Q) as [-> ->]. reflexivity.
      - apply (draws_built vs _ skip); [|apply draws_skip]. intros sh' es' l' B'. unfold g. rewrite (proj1 (b_vs _ _ _ _ B' i _ Q)). reflexivity. }
    apply L; auto. }
  apply (G sh es K N l B).
Qed.
(** Logical operators and generators which are used after being added. *)
Lemma runs_with sh k p (K : nat -> eff) vs es vs' es' : inside sh p -> ~ In p (map snd vs) -> runs sh (K (List.length vs)) (vs ++ [(k, p)]) es vs' es' ->
  runs sh (fun l => seqE (add_vertex k p) (K (l_next l)) l) vs es vs' es'.
Proof.
  intros I N R l B. destruct (built_add _ _ _ _ k p B N I) as (l1 & E & B1). rewrite (b_next _ _ _ _ B). rewrite (seq_step _ _ _ l1 E). apply R; auto.
Qed.
(** Assigning indices and times. *)
Lemma runs_indices sh vs es l : built sh vs es l -> built sh vs es (assign_indices l) /\ indexed (assign_indices l) /\ l_edges (assign_indices l) = l_edges l.
Proof.
  intros B. destruct (assign_indices_spec l (b_cons _ _ _ _ B)) as (C & R & X). split; auto. 2: split; auto; apply R. constructor; auto.
  - rewrite (rn_shape _ _ R). apply B.
  - rewrite (rn_next _ _ R). apply B.
  - rewrite (rn_vertices _ _ R). apply B.
  - intros i kp Q. rewrite (rn_kind _ _ R), (rn_pos _ _ R). apply (b_vs _ _ _ _ B); auto.
  - apply (b_inside _ _ _ _ B).
  - rewrite (rn_edges _ _ R), <- (b_edges _ _ _ _ B). apply map_ext. intros e. unfold ekey. rewrite (rn_pos _ _ R). auto.
Qed.
(** The displacement of the data qubit from the generator. *)
Definition displacement (p q : pos) : pos := (periodic (fst q - fst p), periodic (snd q - snd p)).
Lemma runs_order sh vs es l order :
  built sh vs es l ->
  (forall o p f g q, In (o, p, f) es -> nth_error vs o = Some (KStab g, q) -> exists t, index_of (displacement q p) order = Some t) ->
  exists l', assign_stab_edge_order order l = (l', None) /\ built sh vs es l' /\
    (forall e, In e (l_edges l') -> forall g q, nth_error vs (e_op e) = Some (KStab g, q) -> e_time e = index_of (displacement q (v_pos (l_heap l' (e_data e)))) order) /\
    l_steps l' = Some (List.length order).
Proof.
  intros B H. unfold assign_stab_edge_order. cbv zeta. set (l1 := set_steps _ l).
  assert (C1 : consistent l1) by (apply consistent_steps; apply B).
  set (F := fun e => if is_stab (l_heap l (e_op e)) then index_of (displacement (v_pos (l_heap l (e_op e))) (v_pos (l_heap l (e_data e)))) order else None).
  destruct (timing_loop_exact (order_edge order) F l1 (l_edges l) l1) with (done := @nil edge) as (l' & E & C' & Fr & Ed); auto.
  { intros e l2 I Fr. unfold order_edge, F. unfold is_stab. rewrite (fr_kind _ _ Fr), !(fr_pos _ _ Fr).
    change (l_heap l1) with (l_heap l). destruct (v_kind (l_heap l (e_op e))) eqn:K; auto. cbn [negb]. cbv zeta.
    destruct (cons_ends _ (b_cons _ _ _ _ B) e I) as [_ O]. apply (built_in_op _ _ _ _ _ B) in O as (k & q & O & _).
    destruct (b_vs _ _ _ _ B _ _ O) as [K' P']. cbn in K', P'. rewrite K' in K. subst k.
    destruct (H (e_op e) (v_pos (l_heap l (e_data e))) (e_factor e) g q) as [t T]; auto.
    { rewrite <- (b_edges _ _ _ _ B). apply in_map_iff. exists e. auto. }
    rewrite P'. unfold displacement in T at 1. rewrite T. unfold displacement. rewrite T. auto. }
  { apply frame_refl. }
  exists l'. split; auto. cbn [app] in Ed. 
  assert (B' : built sh vs es l').
  { apply (built_frame sh vs es l1); auto.
    - constructor; try apply B. auto.
    - rewrite Ed, map_map, <- (b_edges _ _ _ _ B). apply map_ext. intros e. unfold ekey, retimed. destruct (F e); reflexivity. }
  split; auto. split.
  - intros e I g q O. rewrite Ed in I. apply in_map_iff in I as (e0 & <- & I).
    assert (X : e_op (retimed F e0) = e_op e0 /\ e_data (retimed F e0) = e_data e0) by (unfold retimed; destruct (F e0); auto). destruct X as [X1 X2].
    rewrite X1 in O. rewrite X2, (fr_pos _ _ Fr). change (l_heap l1) with (l_heap l).
    destruct (b_vs _ _ _ _ B _ _ O) as [K' P']. cbn in K', P'.
    destruct (H (e_op e0) (v_pos (l_heap l (e_data e0))) (e_factor e0) g q) as [t T]; auto.
    { rewrite <- (b_edges _ _ _ _ B). apply in_map_iff. exists e0. auto. }
    unfold retimed. assert (Fe : F e0 = Some t) by (unfold F, is_stab; rewrite K', P'; auto). rewrite Fe. cbn. auto.
  - rewrite (fr_steps _ _ Fr). reflexivity.
Qed.

(** * The operators of a finished lattice *)
Definition isd (kp : kind * pos) : bool := match fst kp with KData => true | _ => false end.
Definition iss (kp : kind * pos) : bool := match fst kp with KStab _ => true | _ => false end.
Definition isl (kp : kind * pos) : bool := match fst kp with KLogical _ => true | _ => false end.
Definition dpos (vs : list (kind * pos)) : list pos := map snd (filter isd vs).
Definition stab_ids (vs : list (kind * pos)) : list nat := map fst (filter (fun x => iss (snd x)) (numbered vs)).
Definition log_ids (vs : list (kind * pos)) : list nat := map fst (filter (fun x => isl (snd x)) (numbered vs)).
Definition fac (es : list (nat * pos * factor)) (o : nat) (p : pos) : bool * bool :=
  match find (fun t => (fst (fst t) =? o) && pos_eqb (snd (fst t)) p) es with Some t => fbits (snd t) | None => (false, false) end.
Definition brow vs es o : row := mkRow (map (fac es o) (dpos vs)) false.

Lemma fac_in es o p f : NoDup (map fst es) -> In (o, p, f) es -> fac es o p = fbits f.
Proof.
  intros N I. unfold fac. destruct (find _ es) as [[[o' p'] f']|] eqn:F.
  - apply find_some in F as [I' J]. cbn in J. apply andb_true_iff in J as [A B]. apply Nat.eqb_eq in A. apply pos_eqb_eq in B. subst o' p'. cbn.
    f_equal. clear -N I I'. induction es as [|[k v] es IH]; cbn in *; [tauto|]. inversion N as [|? ? NI ND]; subst.
    destruct I as [E|I], I' as [E'|I'].
    + congruence.
    + injection E as -> ->. exfalso. apply NI. apply (in_map fst) in I'. auto.
    + injection E' as -> ->. exfalso. apply NI. apply (in_map fst) in I. auto.
    + auto.
  - exfalso. apply (find_none _ _ F) in I. cbn in I. rewrite Nat.eqb_refl in I. assert (pos_eqb p p = true) by (apply pos_eqb_eq; auto). rewrite H in I. discriminate.
Qed.
Lemma fac_out es o p : (forall f, ~ In (o, p, f) es) -> fac es o p = (false, false).
Proof.
  intros H. unfold fac. destruct (find _ es) as [[[o' p'] f']|] eqn:F; auto. apply find_some in F as [I J]. cbn in J. apply andb_true_iff in J as [A B].
  apply Nat.eqb_eq in A. apply pos_eqb_eq in B. subst. destruct (H _ I).
Qed.
Lemma filter_map_fst {A} (P : A -> bool) Q (l : list A) n : (forall i x, nth_error l i = Some x -> Q (n + i) = P x) ->
  filter Q (seq n (List.length l)) = map fst (filter (fun x => P (snd x)) (enumerate_from n l)).
Proof.
  revert n. induction l as [|a l IH]; intros n H; cbn; auto. specialize (IH (S n)).
  pose proof (H 0 a eq_refl) as H0. rewrite Nat.add_0_r in H0. rewrite H0, IH. destruct (P a); auto.
  intros i x E. rewrite <- (H (S i) x); auto. f_equal. lia.
Qed.
Lemma filter_enum {A} (P : A -> bool) (l : list A) n : map snd (filter (fun x => P (snd x)) (enumerate_from n l)) = filter P l.
Proof. revert n. induction l as [|a l IH]; intros n; cbn; auto. destruct (P a); cbn; rewrite IH; auto. Qed.
Lemma built_data sh vs es l : built sh vs es l -> l_data l = map fst (filter (fun x => isd (snd x)) (numbered vs)).
Proof.
  intros B. rewrite (cons_data _ (b_cons _ _ _ _ B)), (b_vertices _ _ _ _ B). apply filter_map_fst. intros i x E. cbn. unfold is_data, isd.
  rewrite (proj1 (b_vs _ _ _ _ B _ _ E)). auto.
Qed.
Lemma built_stabs sh vs es l : built sh vs es l -> l_stabs l = stab_ids vs.
Proof.
  intros B. rewrite (cons_stabs _ (b_cons _ _ _ _ B)), (b_vertices _ _ _ _ B). apply filter_map_fst. intros i x E. cbn. unfold is_stab, iss.
  rewrite (proj1 (b_vs _ _ _ _ B _ _ E)). auto.
Qed.
Lemma built_logicals sh vs es l : built sh vs es l -> l_logicals l = log_ids vs.
Proof.
  intros B. rewrite (cons_logicals _ (b_cons _ _ _ _ B)), (b_vertices _ _ _ _ B). apply filter_map_fst. intros i x E. cbn. unfold is_logical, isl.
  rewrite (proj1 (b_vs _ _ _ _ B _ _ E)). auto.
Qed.
Lemma built_dpos sh vs es l : built sh vs es l -> map (fun d => v_pos (l_heap l d)) (l_data l) = dpos vs.
Proof.
  intros B. rewrite (built_data _ _ _ _ B). unfold dpos. rewrite <- (filter_enum isd vs 0). fold (numbered vs). rewrite !map_map.
  apply map_ext_in. intros [i kp] I. apply filter_In in I as [I _]. apply in_numbered in I. cbn. apply (b_vs _ _ _ _ B); auto.
Qed.
Lemma built_keys sh vs es l : built sh vs es l -> NoDup (map fst es).
Proof.
  intros B. rewrite <- (b_edges _ _ _ _ B), map_map. pose proof (cons_simple _ (b_cons _ _ _ _ B)) as N.
  assert (H : forall e, In e (l_edges l) -> In (e_data e) (l_data l)) by (intros e I; apply (cons_ends _ (b_cons _ _ _ _ B)); auto).
  induction (l_edges l) as [|e r IH]; cbn in *; constructor.
  - inversion N as [|? ? NI ND]; subst. intros I. apply NI. apply in_map_iff in I as (x & E & I). unfold ekey in E. cbn in E. injection E as E1 E2.
    apply in_map_iff. exists x. split; auto. unfold ends. f_equal; auto.
    assert (D1 := H x (or_intror I)). assert (D2 := H e (or_introl eq_refl)).
    apply (built_in_data _ _ _ _ _ B) in D1 as [p1 D1]. apply (built_in_data _ _ _ _ _ B) in D2 as [p2 D2].
    destruct (b_vs _ _ _ _ B _ _ D1) as [_ P1]. destruct (b_vs _ _ _ _ B _ _ D2) as [_ P2]. cbn in P1, P2.
    apply (built_pos_inj _ _ _ _ _ _ KData KData p1 B); auto. replace p1 with p2 by congruence. auto.
  - inversion N; subst. apply IH; auto.
Qed.
Lemma built_pw sh vs es l o d : built sh vs es l -> In d (l_data l) -> pw l o d = fac es o (v_pos (l_heap l d)).
Proof.
  intros B D. pose proof (built_keys _ _ _ _ B) as N. destruct (pw_cases l o d (b_cons _ _ _ _ B)) as [[-> H]|(e & I & En & ->)].
  - symmetry. apply fac_out. intros f I. rewrite <- (b_edges _ _ _ _ B) in I. apply in_map_iff in I as (e & E & I). unfold ekey in E. injection E as E1 E2 _.
    apply (H e I). unfold ends. f_equal; auto. assert (D1 : In (e_data e) (l_data l)) by (apply (cons_ends _ (b_cons _ _ _ _ B)); auto).
    apply (built_in_data _ _ _ _ _ B) in D1 as [p1 D1]. apply (built_in_data _ _ _ _ _ B) in D as [p2 D2].
    destruct (b_vs _ _ _ _ B _ _ D1) as [_ P1]. destruct (b_vs _ _ _ _ B _ _ D2) as [_ P2]. cbn in P1, P2.
    apply (built_pos_inj _ _ _ _ _ _ KData KData p1 B); auto. replace p1 with p2 by congruence. auto.
  - symmetry. apply fac_in; auto. injection En as <- <-. rewrite <- (b_edges _ _ _ _ B). apply in_map_iff. exists e. auto.
Qed.
Lemma built_row sh vs es l o : built sh vs es l -> op_row l o = brow vs es o.
Proof.
  intros B. unfold op_row, brow, op_bits. f_equal. rewrite <- (built_dpos _ _ _ _ B), map_map. apply map_ext_in. intros d D. apply (built_pw _ _ _ _ _ _ B D).
Qed.
Lemma in_stab_ids vs o : In o (stab_ids vs) <-> exists g p, nth_error vs o = Some (KStab g, p).
Proof.
  unfold stab_ids. rewrite in_map_iff. split.
  - intros ([i [k p]] & <- & I). apply filter_In in I as [I K]. apply in_numbered in I. destruct k; try discriminate. eauto.
  - intros (g & p & E). exists (o, (KStab g, p)). split; auto. apply filter_In. split; auto. apply in_numbered; auto.
Qed.
Lemma in_log_ids vs o : In o (log_ids vs) <-> exists g p, nth_error vs o = Some (KLogical g, p).
Proof.
  unfold log_ids. rewrite in_map_iff. split.
  - intros ([i [k p]] & <- & I). apply filter_In in I as [I K]. apply in_numbered in I. destruct k; try discriminate. eauto.
  - intros (g & p & E). exists (o, (KLogical g, p)). split; auto. apply filter_In. split; auto. apply in_numbered; auto.
Qed.
Lemma in_dpos vs p : In p (dpos vs) <-> In (KData, p) vs.
Proof.
  unfold dpos. rewrite in_map_iff. split.
  - intros ([k q] & <- & I). apply filter_In in I as [I K]. destruct k; try discriminate. auto.
  - intros I. exists (KData, p). split; auto. apply filter_In. auto.
Qed.
Lemma built_operators sh vs es l : built sh vs es l -> indexed l ->
  (forall o, In o (stab_ids vs) \/ In o (log_ids vs) -> exists p f, In (o, p, f) es) ->
  stabilisers l = Ok (map (brow vs es) (stab_ids vs)) /\ logical_operators l = Ok (map (brow vs es) (log_ids vs)).
Proof.
  intros B X H. unfold stabilisers, logical_operators.
  assert (G : forall o, In o (l_operators l) -> v_edges (l_heap l o) <> []).
  { intros o I E. assert (I' : In o (stab_ids vs) \/ In o (log_ids vs)).
    { unfold l_operators in I. rewrite (built_stabs _ _ _ _ B), (built_logicals _ _ _ _ B) in I. apply in_app_iff; auto. }
    destruct (H o I') as (p & f & K). rewrite <- (b_edges _ _ _ _ B) in K. apply in_map_iff in K as (e & K & Ie). unfold ekey in K. injection K as K _ _.
    rewrite (cons_edges _ (b_cons _ _ _ _ B)) in E. assert (In e (filter (touches o) (l_edges l))). { apply filter_In. split; auto. unfold touches. rewrite K, Nat.eqb_refl. auto. }
    rewrite E in H0. destruct H0. }
  rewrite (vertices_to_operators_ok l (l_stabs l)), (vertices_to_operators_ok l (l_logicals l)); auto; try apply B.
  rewrite (built_stabs _ _ _ _ B), (built_logicals _ _ _ _ B). split; f_equal; apply map_ext; intros; apply (built_row _ _ _ _ _ B).
  - intros i I. assert (In i (l_operators l)) by (apply in_app_iff; auto). auto.
  - intros i I. assert (In i (l_operators l)) by (apply in_app_iff; auto). auto.
Qed.
(** * Commutation by counting *)
Lemma xor_count {A} (h : A -> bool) D : fold_right xorb false (map h D) = Nat.odd (List.length (filter h D)).
Proof. induction D; cbn -[Nat.odd]; auto. rewrite IHD. destruct (h a); cbn [List.length]; [rewrite Nat.odd_succ, <- Nat.negb_odd|]; destruct (Nat.odd _); auto. Qed.
Lemma count_exact {A} (h : A -> bool) D L : NoDup D -> NoDup L -> (forall d, In d L <-> In d D /\ h d = true) -> List.length (filter h D) = List.length L.
Proof. intros N N' H. apply Permutation_length. apply NoDup_Permutation; auto. apply NoDup_filter; auto. intros x. rewrite filter_In. symmetry. apply H. Qed.
Lemma brow_symp vs es a b : symp (ops (brow vs es a)) (ops (brow vs es b)) = Nat.odd (List.length (filter (fun p => sp (fac es a p) (fac es b p)) (dpos vs))).
Proof.
  rewrite <- xor_count. cbn. induction (dpos vs); cbn; auto. rewrite IHl. unfold sp. destruct (fac es a a0), (fac es b a0); auto.
Qed.
Lemma brow_count vs es a b L : NoDup (dpos vs) -> NoDup L -> (forall p, In p L <-> In p (dpos vs) /\ sp (fac es a p) (fac es b p) = true) ->
  symp (ops (brow vs es a)) (ops (brow vs es b)) = Nat.odd (List.length L).
Proof. intros. rewrite brow_symp, (count_exact _ _ L); auto. Qed.
