(** Editing operations keep the lattice consistent. *)
Require Import List Bool Arith ZArith Lia String.
From Verif Require Import Base BaseProofs LatticeModel LatticeSpec.
Import ListNotations.
Local Open Scope nat_scope.
Local Open Scope list_scope.

(** * Lists *)
Lemma memb_In i l : memb i l = true <-> In i l.
Proof.
  unfold memb. rewrite existsb_exists. split.
  - intros (x & H & E). apply Nat.eqb_eq in E. subst; auto.
  - intros H. exists i. rewrite Nat.eqb_refl. auto.
Qed.
Lemma memb_notIn i l : memb i l = false <-> ~ In i l.
Proof. rewrite <- memb_In. destruct (memb i l); split; intros; congruence. Qed.

Lemma factor_eqb_eq a b : factor_eqb a b = true <-> a = b.
Proof. destruct a, b; simpl; split; intros; congruence. Qed.
Lemma time_eqb_eq a b : time_eqb a b = true <-> a = b.
Proof. destruct a, b; simpl; rewrite ?Nat.eqb_eq; split; intros; congruence. Qed.
Lemma edge_eqb_eq a b : edge_eqb a b = true <-> a = b.
Proof.
  unfold edge_eqb. rewrite !andb_true_iff, !Nat.eqb_eq, factor_eqb_eq, time_eqb_eq.
  destruct a, b; simpl. split. intros (((? & ?) & ?) & ?); congruence. intros H; injection H; auto.
Qed.
Lemma edge_eqb_refl a : edge_eqb a a = true.
Proof. apply edge_eqb_eq; auto. Qed.
Lemma edge_eqb_neq a b : edge_eqb a b = false <-> a <> b.
Proof. rewrite <- edge_eqb_eq. destruct (edge_eqb a b); split; intros; congruence. Qed.
Lemma pos_eqb_eq a b : pos_eqb a b = true <-> a = b.
Proof.
  unfold pos_eqb. rewrite andb_true_iff, !Z.eqb_eq. destruct a, b; simpl.
  split. intros []; congruence. intros H; injection H; auto.
Qed.
Lemma pos_eqb_refl a : pos_eqb a a = true.
Proof. apply pos_eqb_eq; auto. Qed.

Lemma remove1_none {A} (eqb : A -> A -> bool) x l : (forall y, In y l -> eqb x y = false) -> remove1 eqb x l = None.
Proof.
  induction l; simpl; intros; auto. rewrite H; auto. rewrite IHl; auto.
Qed.
Lemma filter_id {A} (f : A -> bool) l : (forall a, In a l -> f a = true) -> filter f l = l.
Proof. induction l; simpl; intros; auto. rewrite H; auto. f_equal; auto. Qed.
Lemma filter_none {A} (f : A -> bool) l : (forall a, In a l -> f a = false) -> filter f l = [].
Proof. induction l; simpl; intros; auto. rewrite H; auto. Qed.
Lemma filter_ext_In {A} (f g : A -> bool) l : (forall a, In a l -> f a = g a) -> filter f l = filter g l.
Proof. induction l; simpl; intros; auto. rewrite H, IHl; auto. Qed.
Lemma filter_filter {A} (f g : A -> bool) l : filter f (filter g l) = filter (fun a => g a && f a) l.
Proof. induction l; simpl; auto. destruct (g a); simpl; rewrite ?IHl; auto. Qed.
Lemma filter_comm {A} (f g : A -> bool) l : filter f (filter g l) = filter g (filter f l).
Proof. rewrite !filter_filter. apply filter_ext. intros; apply andb_comm. Qed.
(** Removing the only matching element is filtering. *)
Lemma remove1_filter {A} (eqb : A -> A -> bool) x l :
  (forall a b, eqb a b = true <-> a = b) -> NoDup l -> In x l ->
  remove1 eqb x l = Some (filter (fun y => negb (eqb x y)) l).
Proof.
  intros Eq. induction l as [|a l IH]; intros ND I; [destruct I|].
  inversion ND; subst. cbn [remove1 filter].
  destruct (eqb x a) eqn:E; cbn [negb].
  - apply Eq in E. subst a. f_equal. symmetry. apply filter_id. intros b Hb.
    destruct (eqb x b) eqn:E; auto. apply Eq in E. subst; contradiction.
  - rewrite IH; auto. destruct I; auto. subst. assert (eqb x x = true) by (apply Eq; auto). congruence.
Qed.
Lemma NoDup_map_inj {A B} (f : A -> B) l x y : NoDup (map f l) -> In x l -> In y l -> f x = f y -> x = y.
Proof.
  induction l; simpl; intros ND Hx Hy E; [destruct Hx|]. inversion ND; subst.
  destruct Hx as [->|Hx], Hy as [->|Hy]; auto.
  - exfalso; apply H1. rewrite E. apply in_map; auto.
  - exfalso; apply H1. rewrite <- E. apply in_map; auto.
Qed.
Lemma NoDup_map_filter {A B} (f : A -> B) g l : NoDup (map f l) -> NoDup (map f (filter g l)).
Proof.
  induction l; simpl; intros ND; auto. inversion ND; subst. destruct (g a); simpl; auto.
  constructor; auto. intros I. apply H1. apply in_map_iff in I as (x & E & Hx). apply filter_In in Hx as [Hx _].
  rewrite <- E. apply in_map; auto.
Qed.
Lemma NoDup_snoc {A} (l : list A) x : NoDup l -> ~ In x l -> NoDup (l ++ [x]).
Proof.
  intros ND NI. induction l; simpl. constructor; auto. inversion ND; subst. constructor.
  - rewrite in_app_iff. intros [I|[->|[]]]; auto. apply NI; left; auto.
  - apply IHl; auto. intros I; apply NI; right; auto.
Qed.

(** * Everything but the edges is the same *)
Record frame (l l' : lattice) : Prop := mkFrame {
  fr_shape : l_shape l' = l_shape l;
  fr_cells : l_cells l' = l_cells l;
  fr_next : l_next l' = l_next l;
  fr_vertices : l_vertices l' = l_vertices l;
  fr_data : l_data l' = l_data l;
  fr_stabs : l_stabs l' = l_stabs l;
  fr_logicals : l_logicals l' = l_logicals l;
  fr_equbits : l_equbits l' = l_equbits l;
  fr_steps : l_steps l' = l_steps l;
  fr_gauge : l_gauge l' = l_gauge l;
  fr_join : l_join l' = l_join l;
  fr_kind : forall i, v_kind (l_heap l' i) = v_kind (l_heap l i);
  fr_pos : forall i, v_pos (l_heap l' i) = v_pos (l_heap l i);
  fr_equbit : forall i, v_equbit (l_heap l' i) = v_equbit (l_heap l i);
  fr_index : forall i, v_index (l_heap l' i) = v_index (l_heap l i) }.
Lemma frame_refl l : frame l l.
Proof. constructor; auto. Qed.
Lemma frame_trans a b c : frame a b -> frame b c -> frame a c.
Proof. intros [] []; constructor; intros; etransitivity; eauto. Qed.
Lemma frame_is_stab l l' i : frame l l' -> is_stab (l_heap l' i) = is_stab (l_heap l i).
Proof. intros F. unfold is_stab. rewrite (fr_kind _ _ F). auto. Qed.
Lemma frame_is_data l l' i : frame l l' -> is_data (l_heap l' i) = is_data (l_heap l i).
Proof. intros F. unfold is_data. rewrite (fr_kind _ _ F). auto. Qed.
Lemma frame_is_logical l l' i : frame l l' -> is_logical (l_heap l' i) = is_logical (l_heap l i).
Proof. intros F. unfold is_logical. rewrite (fr_kind _ _ F). auto. Qed.
Lemma frame_operators l l' : frame l l' -> l_operators l' = l_operators l.
Proof. intros F. unfold l_operators. rewrite (fr_stabs _ _ F), (fr_logicals _ _ F). auto. Qed.

(** Consistency after a change of the edges only. *)
Lemma consistent_frame l l' : consistent l -> frame l l' ->
  (forall i, v_edges (l_heap l' i) = filter (touches i) (l_edges l')) ->
  (forall i, v_neighbours (l_heap l' i) = map (other i) (v_edges (l_heap l' i))) ->
  (forall e, In e (l_edges l') -> In (e_data e) (l_data l) /\ In (e_op e) (l_operators l)) ->
  NoDup (map ends (l_edges l')) -> consistent l'.
Proof.
  intros C F HE HN HI ND.
  constructor.
  - rewrite (fr_vertices _ _ F), (fr_next _ _ F). apply C.
  - rewrite (fr_vertices _ _ F). apply C.
  - rewrite (fr_data _ _ F), (fr_vertices _ _ F), (cons_data _ C). apply filter_ext. intros; symmetry; apply frame_is_data; auto.
  - rewrite (fr_stabs _ _ F), (fr_vertices _ _ F), (cons_stabs _ C). apply filter_ext. intros; symmetry; apply frame_is_stab; auto.
  - rewrite (fr_logicals _ _ F), (fr_vertices _ _ F), (cons_logicals _ C). apply filter_ext. intros; symmetry; apply frame_is_logical; auto.
  - auto.
  - auto.
  - rewrite (fr_data _ _ F), (frame_operators _ _ F). auto.
  - auto.
  - intros i. rewrite (fr_vertices _ _ F), (fr_shape _ _ F), (fr_pos _ _ F). apply C.
  - intros c i. rewrite (fr_cells _ _ F), (fr_vertices _ _ F), (fr_shape _ _ F), (fr_pos _ _ F). apply C.
  - rewrite (fr_equbits _ _ F). apply C.
  - intros i. rewrite (fr_equbits _ _ F), (fr_vertices _ _ F), (fr_equbit _ _ F). apply C.
Qed.

(** * Facts about consistent lattices *)
Lemma in_data l i : consistent l -> In i (l_data l) <-> In i (l_vertices l) /\ is_data (l_heap l i) = true.
Proof. intros C. rewrite (cons_data _ C), filter_In. tauto. Qed.
Lemma in_stabs l i : consistent l -> In i (l_stabs l) <-> In i (l_vertices l) /\ is_stab (l_heap l i) = true.
Proof. intros C. rewrite (cons_stabs _ C), filter_In. tauto. Qed.
Lemma in_logicals l i : consistent l -> In i (l_logicals l) <-> In i (l_vertices l) /\ is_logical (l_heap l i) = true.
Proof. intros C. rewrite (cons_logicals _ C), filter_In. tauto. Qed.
Lemma in_operators l i : consistent l -> In i (l_operators l) <-> In i (l_vertices l) /\ is_data (l_heap l i) = false.
Proof.
  intros C. unfold l_operators. rewrite in_app_iff, in_stabs, in_logicals by auto.
  unfold is_stab, is_data, is_logical. destruct (v_kind (l_heap l i)); intuition congruence.
Qed.
Lemma data_not_op l i : consistent l -> In i (l_data l) -> In i (l_operators l) -> False.
Proof. intros C A B. apply in_data in A; apply in_operators in B; auto. destruct A, B; congruence. Qed.
Lemma edge_ends_differ l e : consistent l -> In e (l_edges l) -> e_op e <> e_data e.
Proof.
  intros C I E. destruct (cons_ends _ C e I) as [A B]. rewrite E in B. eapply data_not_op; eauto.
Qed.
Lemma touches_op l i e : consistent l -> In i (l_operators l) -> In e (l_edges l) -> touches i e = (e_op e =? i).
Proof.
  intros C Hi He. unfold touches. destruct (Nat.eqb_spec (e_data e) i); [|apply orb_false_r].
  destruct (cons_ends _ C e He) as [A _]. subst i. destruct (data_not_op _ _ C A Hi).
Qed.
Lemma touches_data l i e : consistent l -> In i (l_data l) -> In e (l_edges l) -> touches i e = (e_data e =? i).
Proof.
  intros C Hi He. unfold touches. destruct (Nat.eqb_spec (e_op e) i); auto.
  destruct (cons_ends _ C e He) as [_ A]. subst i. destruct (data_not_op _ _ C Hi A).
Qed.
Lemma op_edges l i : consistent l -> In i (l_operators l) -> v_edges (l_heap l i) = filter (fun e => e_op e =? i) (l_edges l).
Proof. intros C Hi. rewrite (cons_edges _ C). apply filter_ext_In. intros; eapply touches_op; eauto. Qed.
Lemma data_edges l i : consistent l -> In i (l_data l) -> v_edges (l_heap l i) = filter (fun e => e_data e =? i) (l_edges l).
Proof. intros C Hi. rewrite (cons_edges _ C). apply filter_ext_In. intros; eapply touches_data; eauto. Qed.
Lemma edge_unique l e e' : consistent l -> In e (l_edges l) -> In e' (l_edges l) -> ends e = ends e' -> e = e'.
Proof. intros C. apply NoDup_map_inj. apply C. Qed.

(** * add_edge *)
Definition joins (op data : nat) (e : edge) : bool := (e_op e =? op) && (e_data e =? data).
Lemma joins_ends o d e : joins o d e = true <-> ends e = (o, d).
Proof. unfold joins, ends. rewrite andb_true_iff, !Nat.eqb_eq. split. intros []; congruence. intros H; injection H; auto. Qed.
Lemma neighbours_joined l o d : consistent l -> In o (l_operators l) ->
  memb d (v_neighbours (l_heap l o)) = existsb (joins o d) (l_edges l).
Proof.
  intros C Ho. apply eq_true_iff_eq. rewrite memb_In, existsb_exists, (cons_neighbours _ C), op_edges, in_map_iff by auto.
  split.
  - intros (e & E & I). apply filter_In in I as [I T]. exists e. split; auto.
    unfold other in E. rewrite T in E. unfold joins. rewrite T, E, Nat.eqb_refl. auto.
  - intros (e & I & J). unfold joins in J. apply andb_true_iff in J as [J1 J2]. exists e. unfold other. rewrite J1.
    apply Nat.eqb_eq in J2. split; auto. apply filter_In; auto.
Qed.
Lemma neighbours_joined' l o d : consistent l -> In d (l_data l) ->
  memb o (v_neighbours (l_heap l d)) = existsb (joins o d) (l_edges l).
Proof.
  intros C Hd. apply eq_true_iff_eq. rewrite memb_In, existsb_exists, (cons_neighbours _ C), data_edges, in_map_iff by auto.
  split.
  - intros (e & E & I). apply filter_In in I as [I T]. exists e. split; auto.
    apply Nat.eqb_eq in T. unfold other in E. pose proof (edge_ends_differ _ _ C I) as N. subst d.
    destruct (Nat.eqb_spec (e_op e) (e_data e)); [contradiction|]. unfold joins. subst o. rewrite !Nat.eqb_refl. auto.
  - intros (e & I & J). unfold joins in J. apply andb_true_iff in J as [J1 J2]. apply Nat.eqb_eq in J1, J2.
    exists e. pose proof (edge_ends_differ _ _ C I) as N. unfold other. subst o d.
    destruct (Nat.eqb_spec (e_op e) (e_data e)); [contradiction|]. split; auto. apply filter_In. rewrite Nat.eqb_refl. auto.
Qed.

Ltac hs := unfold hset; repeat match goal with |- context [Nat.eqb ?a ?b] => destruct (Nat.eqb_spec a b); try subst end.
Lemma add_edge_spec l d o f : consistent l -> In d (l_data l) -> In o (l_operators l) ->
  if existsb (joins o d) (l_edges l) then add_edge d o f l = (l, Some AssertionError)
  else exists l', add_edge d o f l = (l', None) /\ consistent l' /\ frame l l' /\
                  l_edges l' = l_edges l ++ [mkEdge o d f None].
Proof.
  intros C Hd Ho. destruct (existsb (joins o d) (l_edges l)) eqn:J.
  - unfold add_edge, seqE, assertE. rewrite neighbours_joined, J by auto. reflexivity.
  - assert (ND : d <> o) by (intros ->; eapply data_not_op; eauto).
    unfold add_edge, seqE, assertE, modify. rewrite neighbours_joined, J by auto. cbn [negb].
    rewrite neighbours_joined', J by auto. cbn [negb].
    eexists. split; [reflexivity|].
    set (e := mkEdge o d f None).
    match goal with |- consistent ?L /\ _ => set (l' := L) end.
    assert (HH : forall i, l_heap l' i =
       if d =? i then put_neighbours (v_neighbours (l_heap l d) ++ [o]) (put_edges (v_edges (l_heap l d) ++ [e]) (l_heap l d))
       else if o =? i then put_neighbours (v_neighbours (l_heap l o) ++ [d]) (put_edges (v_edges (l_heap l o) ++ [e]) (l_heap l o))
       else l_heap l i).
    { intros i. subst l'. unfold change, set_edges, set_heap. cbn [l_heap].
      unfold hset. rewrite !Nat.eqb_refl.
      destruct (Nat.eqb_spec o i); destruct (Nat.eqb_spec d i); try subst i; try congruence;
      repeat (rewrite ?(proj2 (Nat.eqb_neq d o)), ?(proj2 (Nat.eqb_neq o d)) by congruence); auto. }
    assert (F : frame l l').
    { constructor; try reflexivity; intros i; rewrite HH; hs; reflexivity. }
    assert (EE : l_edges l' = l_edges l ++ [e]) by reflexivity.
    assert (VE : forall i, v_edges (l_heap l' i) = filter (touches i) (l_edges l ++ [e])).
    { intros i. rewrite filter_app, <- (cons_edges _ C). cbn [filter]. unfold touches at 1. cbn [e_op e_data e].
      rewrite HH. hs; try congruence; cbn; rewrite ?app_nil_r; auto. }
    split; [|split; auto].
    apply consistent_frame with l; auto.
    + intros i. rewrite VE, filter_app, map_app, <- (cons_edges _ C), <- (cons_neighbours _ C).
      cbn [filter map]. unfold touches at 1. cbn [e_op e_data e].
      rewrite HH. hs; try congruence; cbn; unfold other; cbn [e_op e_data e]; rewrite ?app_nil_r, ?Nat.eqb_refl; auto.
      destruct (Nat.eqb_spec o i); [congruence|auto].
    + intros e' I. rewrite EE, in_app_iff in I. destruct I as [I|[<-|[]]]; [apply C; auto|]. cbn. auto.
    + rewrite EE, map_app. apply NoDup_snoc; [apply C|]. intros I. apply in_map_iff in I as (e' & E & I).
      assert (existsb (joins o d) (l_edges l) = true); [|congruence]. apply existsb_exists. exists e'. split; auto.
      apply joins_ends. exact E.
Qed.

(** * remove_edge *)
Lemma in_edges_existsb l e : existsb (edge_eqb e) l = true <-> In e l.
Proof.
  rewrite existsb_exists. split. intros (x & I & E). apply edge_eqb_eq in E. subst; auto.
  intros I. exists e. split; auto. apply edge_eqb_refl.
Qed.
Lemma nodup_edges l : consistent l -> NoDup (l_edges l).
Proof. intros C. eapply NoDup_map_inv. apply C. Qed.
Lemma nodup_v_edges l i : consistent l -> NoDup (v_edges (l_heap l i)).
Proof. intros C. rewrite (cons_edges _ C). apply NoDup_filter. apply nodup_edges; auto. Qed.
Lemma map_filter_inj {A B} (f : A -> B) (g : A -> bool) (h : B -> bool) l :
  (forall a, In a l -> h (f a) = g a) -> filter h (map f l) = map f (filter g l).
Proof. induction l; simpl; intros; auto. rewrite H by auto. destruct (g a); simpl; rewrite IHl; auto. Qed.
Lemma other_inj l i e e' : consistent l -> In e (l_edges l) -> In e' (l_edges l) -> touches i e = true -> touches i e' = true ->
  other i e = other i e' -> e = e'.
Proof.
  intros C I I' T T' E. apply (edge_unique l); auto.
  pose proof (edge_ends_differ _ _ C I). pose proof (edge_ends_differ _ _ C I').
  destruct (cons_ends _ C e I) as [D O]. destruct (cons_ends _ C e' I') as [D' O'].
  unfold touches, other, ends in *.
  destruct (Nat.eqb_spec (e_op e) i), (Nat.eqb_spec (e_op e') i); cbn in T, T'.
  - congruence.
  - apply Nat.eqb_eq in T'. exfalso. apply (data_not_op l i C); congruence.
  - apply Nat.eqb_eq in T. exfalso. apply (data_not_op l i C); congruence.
  - apply Nat.eqb_eq in T, T'. congruence.
Qed.
Lemma nodup_neighbours l i : consistent l -> NoDup (v_neighbours (l_heap l i)).
Proof.
  intros C. rewrite (cons_neighbours _ C).
  assert (ND := nodup_v_edges l i C).
  assert (S : forall e, In e (v_edges (l_heap l i)) -> In e (l_edges l) /\ touches i e = true).
  { intros e I. rewrite (cons_edges _ C) in I. apply filter_In in I. auto. }
  revert ND S. generalize (v_edges (l_heap l i)). induction l0; simpl; intros; constructor.
  - intros I. apply in_map_iff in I as (e & E & I). inversion ND; subst.
    assert (e = a); [|subst; auto]. destruct (S a (or_introl eq_refl)), (S e (or_intror I)). apply (other_inj l i); auto.
  - inversion ND; subst; auto.
Qed.

Lemma neighbours_without l i e : consistent l -> In e (l_edges l) -> touches i e = true ->
  filter (fun j => negb (other i e =? j)) (v_neighbours (l_heap l i)) =
  map (other i) (filter (fun e' => negb (edge_eqb e e')) (v_edges (l_heap l i))).
Proof.
  intros C I T. rewrite (cons_neighbours _ C). apply map_filter_inj. intros e' I'.
  rewrite (cons_edges _ C) in I'. apply filter_In in I' as [I' T']. f_equal.
  apply eq_true_iff_eq. rewrite Nat.eqb_eq, edge_eqb_eq. split; [|congruence].
  intros E. apply (other_inj l i); auto.
Qed.

Lemma seq_step a b l l' : a l = (l', None) -> seqE a b l = b l'.
Proof. intros H. unfold seqE. rewrite H. auto. Qed.
Lemma seq_fail a b l l' e : a l = (l', Some e) -> seqE a b l = (l', Some e).
Proof. intros H. unfold seqE. rewrite H. auto. Qed.
Lemma seq_assert c b l : c l = true -> seqE (assertE c) b l = b l.
Proof. intros H. unfold seqE, assertE. rewrite H. auto. Qed.
Lemma del_filter {A} (eqb : A -> A -> bool) x get put l :
  (forall a b, eqb a b = true <-> a = b) -> NoDup (get l) -> In x (get l) ->
  del eqb x get put l = (put (filter (fun y => negb (eqb x y)) (get l)) l, None).
Proof. intros. unfold del. rewrite remove1_filter; auto. Qed.
Lemma seq_del {A} (eqb : A -> A -> bool) x get put b l :
  (forall a b, eqb a b = true <-> a = b) -> NoDup (get l) -> In x (get l) ->
  seqE (del eqb x get put) b l = b (put (filter (fun y => negb (eqb x y)) (get l)) l).
Proof. intros. unfold seqE. rewrite del_filter; auto. Qed.
Lemma change_same i f l : l_heap (change i f l) i = f (l_heap l i).
Proof. unfold change, set_heap, hset. cbn. rewrite Nat.eqb_refl. auto. Qed.
Lemma change_other i j f l : i <> j -> l_heap (change i f l) j = l_heap l j.
Proof. intros. unfold change, set_heap, hset. cbn. destruct (Nat.eqb_spec i j); congruence. Qed.
Ltac change_edges := repeat match goal with |- context [l_edges (change ?i ?f ?l)] => change (l_edges (change i f l)) with (l_edges l) end.

Lemma remove_edge_spec l e : consistent l ->
  if existsb (edge_eqb e) (l_edges l) then
    exists l', remove_edge e l = (l', None) /\ consistent l' /\ frame l l' /\
               l_edges l' = filter (fun e' => negb (edge_eqb e e')) (l_edges l)
  else remove_edge e l = (l, Some AssertionError).
Proof.
  intros C. destruct (existsb (edge_eqb e) (l_edges l)) eqn:J.
  2:{ unfold remove_edge, seqE, assertE. rewrite J. auto. }
  assert (I : In e (l_edges l)) by (apply in_edges_existsb; auto).
  pose proof (edge_ends_differ _ _ C I) as N.
  set (d := e_data e) in *. set (o := e_op e) in *.
  assert (Td : touches d e = true) by (unfold touches; fold o d; rewrite Nat.eqb_refl; apply orb_true_r).
  assert (To : touches o e = true) by (unfold touches; fold o d; rewrite Nat.eqb_refl; auto).
  assert (Od : other d e = o) by (unfold other; fold o d; destruct (Nat.eqb_spec o d); congruence).
  assert (Oo : other o e = d) by (unfold other; fold o d; rewrite Nat.eqb_refl; auto).
  assert (Ed : In e (v_edges (l_heap l d))) by (rewrite (cons_edges _ C); apply filter_In; auto).
  assert (Eo : In e (v_edges (l_heap l o))) by (rewrite (cons_edges _ C); apply filter_In; auto).
  assert (Nd : In o (v_neighbours (l_heap l d))) by (rewrite (cons_neighbours _ C), <- Od; apply in_map; auto).
  assert (No : In d (v_neighbours (l_heap l o))) by (rewrite (cons_neighbours _ C), <- Oo; apply in_map; auto).
  unfold remove_edge. fold d o. rewrite seq_assert by auto.
  rewrite seq_del by (auto using edge_eqb_eq, nodup_v_edges).
  rewrite seq_del; rewrite ?change_same; cbn [v_neighbours put_edges]; auto using Nat.eqb_eq, nodup_neighbours.
  rewrite seq_del; rewrite ?(change_other d o) by congruence; auto using edge_eqb_eq, nodup_v_edges.
  rewrite seq_del; rewrite ?change_same; cbn [v_neighbours put_edges]; rewrite ?(change_other d o) by congruence;
    auto using Nat.eqb_eq, nodup_neighbours.
  rewrite del_filter; change_edges; auto using edge_eqb_eq, nodup_edges.
  eexists. split; [reflexivity|].
  match goal with |- consistent ?L /\ _ => set (l' := L) end.
  set (rm := filter (fun y => negb (edge_eqb e y))) in *.
  assert (HH : forall i, l_heap l' i =
     if d =? i then put_neighbours (filter (fun y => negb (o =? y)) (v_neighbours (l_heap l d))) (put_edges (rm (v_edges (l_heap l d))) (l_heap l d))
     else if o =? i then put_neighbours (filter (fun y => negb (d =? y)) (v_neighbours (l_heap l o))) (put_edges (rm (v_edges (l_heap l o))) (l_heap l o))
     else l_heap l i).
  { intros i. subst l'. unfold change, set_edges, set_heap. cbn [l_heap].
    unfold hset. rewrite ?Nat.eqb_refl. rewrite ?(proj2 (Nat.eqb_neq o d)), ?(proj2 (Nat.eqb_neq d o)) by congruence.
    destruct (Nat.eqb_spec o i); destruct (Nat.eqb_spec d i); try subst i; try congruence; auto. }
  assert (EE : l_edges l' = rm (l_edges l)) by reflexivity.
  assert (F : frame l l').
  { constructor; try reflexivity; intros i; rewrite HH; hs; reflexivity. }
  assert (VE : forall i, v_edges (l_heap l' i) = filter (touches i) (rm (l_edges l))).
  { intros i. unfold rm. rewrite filter_comm, <- (cons_edges _ C). rewrite HH. hs; cbn [v_edges put_edges put_neighbours]; auto.
    symmetry. apply filter_id. intros a Ia. rewrite (cons_edges _ C) in Ia. apply filter_In in Ia as [_ T].
    apply negb_true_iff, edge_eqb_neq. intros <-. unfold touches in T. fold o d in T.
    apply orb_true_iff in T as [T|T]; apply Nat.eqb_eq in T; congruence. }
  split; [|split; auto].
  apply consistent_frame with l; auto.
  - intros i. rewrite VE. unfold rm. rewrite filter_comm, <- (cons_edges _ C). rewrite HH.
    destruct (Nat.eqb_spec d i) as [Edi|Ndi]; [subst i|destruct (Nat.eqb_spec o i) as [Eoi|Noi]; [subst i|]];
      cbn [v_neighbours put_neighbours].
    + rewrite <- (neighbours_without l d e), Od; auto.
    + rewrite <- (neighbours_without l o e), Oo; auto.
    + rewrite filter_id. apply (cons_neighbours _ C). intros a Ia. rewrite (cons_edges _ C) in Ia. apply filter_In in Ia as [_ T].
      apply negb_true_iff, edge_eqb_neq. intros <-. unfold touches in T. fold o d in T.
      apply orb_true_iff in T as [T|T]; apply Nat.eqb_eq in T; congruence.
  - intros e' I'. apply filter_In in I' as [I' _]. apply C; auto.
  - apply NoDup_map_filter. apply C.
Qed.

(** * set_time *)
Definition retime_in (e : edge) (t : nat) (e' : edge) : edge := if edge_eqb e e' then retime e t else e'.
Lemma retime_ends e t e' : ends (retime_in e t e') = ends e'.
Proof. unfold retime_in. destruct (edge_eqb e e') eqn:E; auto. apply edge_eqb_eq in E. subst; auto. Qed.
Lemma retime_touches i e t e' : touches i (retime_in e t e') = touches i e'.
Proof. pose proof (retime_ends e t e') as H. unfold ends in H. injection H as A B. unfold touches. rewrite A, B. auto. Qed.
Lemma retime_other i e t e' : other i (retime_in e t e') = other i e'.
Proof. pose proof (retime_ends e t e') as H. unfold ends in H. injection H as A B. unfold other. rewrite A, B. auto. Qed.
Lemma map_retime_absent e t l : ~ In e l -> map (retime_in e t) l = l.
Proof.
  intros N. rewrite <- map_id. apply map_ext_in. intros a I. unfold retime_in.
  destruct (edge_eqb e a) eqn:E; auto. apply edge_eqb_eq in E. subst; contradiction.
Qed.
Lemma filter_map_touch i e t l : filter (touches i) (map (retime_in e t) l) = map (retime_in e t) (filter (touches i) l).
Proof. apply map_filter_inj. intros; apply retime_touches. Qed.

Lemma set_time_spec l e t : consistent l -> In e (l_edges l) ->
  consistent (set_time e t l) /\ frame l (set_time e t l) /\ l_edges (set_time e t l) = map (retime_in e t) (l_edges l).
Proof.
  intros C I. pose proof (edge_ends_differ _ _ C I) as N.
  set (l' := set_time e t l). set (r := map (retime_in e t)).
  assert (HH : forall i, l_heap l' i =
     if e_data e =? i then put_edges (r (v_edges (l_heap l (e_data e)))) (l_heap l (e_data e))
     else if e_op e =? i then put_edges (r (v_edges (l_heap l (e_op e)))) (l_heap l (e_op e))
     else l_heap l i).
  { intros i. subst l'. unfold set_time, change, set_edges, set_heap. cbn [l_heap]. unfold hset.
    rewrite (proj2 (Nat.eqb_neq (e_data e) (e_op e))) by congruence.
    destruct (Nat.eqb_spec (e_op e) i), (Nat.eqb_spec (e_data e) i); try subst i; try congruence; auto. }
  assert (EE : l_edges l' = r (l_edges l)) by reflexivity.
  assert (F : frame l l').
  { constructor; try reflexivity; intros i; rewrite HH; hs; reflexivity. }
  assert (VE : forall i, v_edges (l_heap l' i) = r (v_edges (l_heap l i))).
  { intros i. rewrite HH. hs; auto. symmetry. apply map_retime_absent. intros T.
    rewrite (cons_edges _ C) in T. apply filter_In in T as [_ T]. unfold touches in T.
    apply orb_true_iff in T as [T|T]; apply Nat.eqb_eq in T; congruence. }
  split; [|split; auto].
  apply consistent_frame with l; auto.
  - intros i. rewrite VE, EE, (cons_edges _ C). unfold r. rewrite filter_map_touch. auto.
  - intros i. rewrite VE. unfold r. rewrite map_map. rewrite (map_ext _ (other i)) by (intros; apply retime_other).
    rewrite HH. hs; cbn [v_neighbours put_edges]; apply (cons_neighbours _ C).
  - intros e' I'. rewrite EE in I'. apply in_map_iff in I' as (x & <- & Ix).
    pose proof (retime_ends e t x) as H. unfold ends in H. injection H as A B. rewrite A, B. apply C; auto.
  - rewrite EE. unfold r. rewrite map_map. rewrite (map_ext _ ends) by (intros; apply retime_ends). apply C.
Qed.

(** * add_vertex *)
Lemma lookup_ok l p c : cell_of (l_shape l) p = Some c -> lookup l p = Ok (l_cells l c).
Proof. unfold lookup. intros ->. auto. Qed.
Lemma cells_pos_unique l i j : consistent l -> In i (l_vertices l) -> In j (l_vertices l) ->
  v_pos (l_heap l i) = v_pos (l_heap l j) -> cell_of (l_shape l) (v_pos (l_heap l i)) <> None -> i = j.
Proof.
  intros C Hi Hj E V. destruct (cell_of (l_shape l) (v_pos (l_heap l i))) as [c|] eqn:Ec; [|congruence].
  assert (l_cells l c = Some i) by (apply C; auto).
  assert (l_cells l c = Some j) by (apply C; split; auto; congruence). congruence.
Qed.

Lemma fresh_heap l i : consistent l -> ~ In i (l_vertices l) -> filter (touches i) (l_edges l) = [].
Proof.
  intros C N. apply filter_none. intros e I. destruct (cons_ends _ C e I) as [A B].
  apply in_data in A; auto. apply in_operators in B; auto. unfold touches.
  destruct (Nat.eqb_spec (e_op e) i); [subst; tauto|]. destruct (Nat.eqb_spec (e_data e) i); [subst; tauto|auto].
Qed.

Definition kind_is_data (k : kind) := match k with KData => true | _ => false end.
Lemma filter_fresh (f g : nat -> bool) l x : ~ In x l -> (forall i, i <> x -> f i = g i) -> filter f l = filter g l.
Proof. intros N H. apply filter_ext_In. intros a I. apply H. congruence. Qed.

Lemma add_vertex_spec l k p c : consistent l -> cell_of (l_shape l) p = Some c ->
  match l_cells l c with
  | Some _ => add_vertex k p l = (l, Some AssertionError)
  | None => exists l', add_vertex k p l = (l', None) /\ consistent l' /\
      l_shape l' = l_shape l /\ l_next l' = S (l_next l) /\ l_edges l' = l_edges l /\ l_steps l' = l_steps l /\
      l_equbits l' = l_equbits l /\ l_gauge l' = l_gauge l /\ l_join l' = l_join l /\
      l_vertices l' = l_vertices l ++ [l_next l] /\
      l_data l' = l_data l ++ (match k with KData => [l_next l] | _ => [] end) /\
      l_stabs l' = l_stabs l ++ (match k with KStab _ => [l_next l] | _ => [] end) /\
      l_logicals l' = l_logicals l ++ (match k with KLogical _ => [l_next l] | _ => [] end) /\
      (forall c', l_cells l' c' = if pos_eqb c c' then Some (l_next l) else l_cells l c') /\
      (forall i, l_heap l' i = if l_next l =? i then mkVertex k p [] [] None None else l_heap l i)
  end.
Proof.
  intros C Hc. pose proof (lookup_ok _ _ _ Hc) as HL.
  destruct (l_cells l c) as [j|] eqn:Ej.
  - unfold add_vertex. rewrite HL. auto.
  - unfold add_vertex. rewrite HL. cbv zeta.
    set (i := l_next l) in *.
    assert (Hi : ~ In i (l_vertices l)) by (intros I; apply (cons_alloc _ C) in I; unfold i in I; lia).
    eexists. split; [reflexivity|].
    match goal with |- consistent ?L /\ _ => set (l' := L) end.
    assert (E1 : l_shape l' = l_shape l).
    { subst l'. unfold assign_cell. destruct k; cbn; destruct (cell_of _ p); reflexivity. }
    assert (E2 : l_next l' = S i).
    { subst l'. unfold assign_cell. destruct k; cbn; destruct (cell_of _ p); reflexivity. }
    assert (E3 : l_edges l' = l_edges l).
    { subst l'. unfold assign_cell. destruct k; cbn; destruct (cell_of _ p); reflexivity. }
    assert (E4 : l_steps l' = l_steps l).
    { subst l'. unfold assign_cell. destruct k; cbn; destruct (cell_of _ p); reflexivity. }
    assert (E5 : l_equbits l' = l_equbits l).
    { subst l'. unfold assign_cell. destruct k; cbn; destruct (cell_of _ p); reflexivity. }
    assert (E6 : l_gauge l' = l_gauge l).
    { subst l'. unfold assign_cell. destruct k; cbn; destruct (cell_of _ p); reflexivity. }
    assert (E7 : l_join l' = l_join l).
    { subst l'. unfold assign_cell. destruct k; cbn; destruct (cell_of _ p); reflexivity. }
    assert (E8 : l_vertices l' = l_vertices l ++ [i]).
    { subst l'. unfold assign_cell. destruct k; cbn; destruct (cell_of _ p); reflexivity. }
    assert (E9 : l_data l' = l_data l ++ (match k with KData => [i] | _ => [] end)).
    { subst l'. unfold assign_cell. destruct k; cbn; destruct (cell_of _ p); rewrite ?app_nil_r; reflexivity. }
    assert (E10 : l_stabs l' = l_stabs l ++ (match k with KStab _ => [i] | _ => [] end)).
    { subst l'. unfold assign_cell. destruct k; cbn; destruct (cell_of _ p); rewrite ?app_nil_r; reflexivity. }
    assert (E11 : l_logicals l' = l_logicals l ++ (match k with KLogical _ => [i] | _ => [] end)).
    { subst l'. unfold assign_cell. destruct k; cbn; destruct (cell_of _ p); rewrite ?app_nil_r; reflexivity. }
    assert (E12 : forall c', l_cells l' c' = if pos_eqb c c' then Some i else l_cells l c').
    { subst l'. unfold assign_cell. destruct k; cbn; rewrite Hc; reflexivity. }
    assert (E13 : forall x, l_heap l' x = if i =? x then mkVertex k p [] [] None None else l_heap l x).
    { subst l'. unfold assign_cell. destruct k; cbn; destruct (cell_of _ p); reflexivity. }
    split; [|repeat split; auto].
    clearbody l'.
    assert (EF : forall (P : vertex -> bool), filter (fun x => P (l_heap l' x)) (l_vertices l') =
                 filter (fun x => P (l_heap l x)) (l_vertices l) ++ (if P (mkVertex k p [] [] None None) then [i] else [])).
    { intros P. rewrite E8, filter_app. cbn [filter]. rewrite E13, Nat.eqb_refl. f_equal.
      apply filter_fresh with i; auto. intros x Hx. rewrite E13. destruct (Nat.eqb_spec i x); congruence. }
    constructor.
    + intros x. rewrite E8, E2, in_app_iff. intros [I|[<-|[]]]; [|lia]. apply (cons_alloc _ C) in I. unfold i. lia.
    + rewrite E8. apply NoDup_snoc; auto. apply C.
    + rewrite E9, (cons_data _ C), (EF is_data). destruct k; auto.
    + rewrite E10, (cons_stabs _ C), (EF is_stab). destruct k; auto.
    + rewrite E11, (cons_logicals _ C), (EF is_logical). destruct k; auto.
    + intros x. rewrite E13, E3. destruct (Nat.eqb_spec i x); [subst x|apply C]. cbn. symmetry. apply fresh_heap; auto.
    + intros x. rewrite E13. destruct (Nat.eqb_spec i x); [subst x; reflexivity|apply C].
    + intros e. rewrite E3. intros I. destruct (cons_ends _ C e I). unfold l_operators in *. rewrite E9, E10, E11, !in_app_iff in *. tauto.
    + rewrite E3. apply C.
    + intros x. rewrite E8, E1, E13, in_app_iff. intros [I|[<-|[]]].
      * assert (i <> x) by congruence. destruct (Nat.eqb_spec i x); [congruence|]. apply C; auto.
      * rewrite Nat.eqb_refl. cbn. eauto.
    + intros c' x. rewrite E12, E8, E1, E13, in_app_iff. destruct (pos_eqb c c') eqn:Ec.
      * apply pos_eqb_eq in Ec. subst c'. split.
        -- intros H. injection H as <-. rewrite Nat.eqb_refl. cbn. auto.
        -- intros [[I|[->|[]]] Hx]; auto. destruct (Nat.eqb_spec i x); [congruence|].
           assert (l_cells l c = Some x) by (apply C; auto). congruence.
      * split.
        -- intros H. apply C in H as [I Hx]. assert (i <> x) by congruence. destruct (Nat.eqb_spec i x); [congruence|auto].
        -- intros [[I|[->|[]]] Hx].
           ++ assert (i <> x) by congruence. destruct (Nat.eqb_spec i x); [congruence|]. apply C; auto.
           ++ rewrite Nat.eqb_refl in Hx. cbn in Hx. rewrite Hc in Hx. injection Hx as <-. rewrite pos_eqb_refl in Ec. discriminate.
    + rewrite E5. apply C.
    + intros x. rewrite E5, E8, E13, (cons_equbits _ C), in_app_iff. destruct (Nat.eqb_spec i x).
      * subst x. cbn. tauto.
      * cbn. intuition congruence.
Qed.
Lemma add_vertex_bad l k p : cell_of (l_shape l) p = None -> add_vertex k p l = (l, Some IndexError).
Proof. intros H. unfold add_vertex, lookup. rewrite H. auto. Qed.
