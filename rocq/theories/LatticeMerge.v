(** Merging of operators and the removal of data qubits. *)
Require Import List Bool Arith ZArith Lia String.
From Verif Require Import Base BaseProofs LatticeModel LatticeSpec LatticeProofs LatticeEdit LatticeOps.
Import ListNotations.
Local Open Scope nat_scope.
Local Open Scope list_scope.

Ltac conjs := repeat match goal with |- _ /\ _ => split end.
Definition zp : bool * bool := (false, false).
Lemma pxor_zero_l a : pxor zp a = a.
Proof. destruct a as [[] []]; reflexivity. Qed.
Lemma pxor_zero_r a : pxor a zp = a.
Proof. destruct a as [[] []]; reflexivity. Qed.
Lemma pxor_self a : pxor a a = zp.
Proof. destruct a as [[] []]; reflexivity. Qed.
Lemma fbits_inj f g : fbits f = fbits g -> f = g.
Proof. destruct f, g; congruence || discriminate. Qed.

Lemma find_filter_out {A} (p q : A -> bool) l : (forall a, p a = true -> q a = true) -> find p (filter q l) = find p l.
Proof.
  intros H. induction l as [|a l IH]; cbn; auto. destruct (q a) eqn:Q; cbn; destruct (p a) eqn:P; auto.
  apply H in P. congruence.
Qed.
Lemma find_app_miss {A} (p : A -> bool) l x : p x = false -> find p (l ++ [x]) = find p l.
Proof. intros H. induction l as [|a l IH]; cbn. rewrite H; auto. destruct (p a); auto. Qed.
Lemma find_app_hit {A} (p : A -> bool) l x : find p l = None -> p x = true -> find p (l ++ [x]) = Some x.
Proof. intros N H. induction l as [|a l IH]; cbn in *. rewrite H; auto. destruct (p a); auto. discriminate. Qed.

Lemma remove_edge_pw l e l' : consistent l -> remove_edge e l = (l', None) ->
  consistent l' /\ frame l l' /\ In e (l_edges l) /\ l_edges l' = filter (fun e' => negb (edge_eqb e e')) (l_edges l) /\
  forall o d, pw l' o d = if (e_op e =? o) && (e_data e =? d) then zp else pw l o d.
Proof.
  intros C H. pose proof (remove_edge_spec l e C) as S. destruct (existsb (edge_eqb e) (l_edges l)) eqn:J; [|congruence].
  destruct S as (l2 & E & C' & F & G). rewrite H in E. injection E as <-. apply in_edges_existsb in J.
  conjs; auto. intros o d. destruct ((e_op e =? o) && (e_data e =? d)) eqn:T.
  - apply pw_none. intros e' I. rewrite G in I. apply filter_In in I as [I N]. apply negb_true_iff, edge_eqb_neq in N.
    intros E. apply N. apply (edge_unique l); auto. rewrite E. apply joins_ends. auto.
  - unfold pw. rewrite G. rewrite find_filter_out; auto. intros a P. destruct (edge_eqb e a) eqn:Q; auto. apply edge_eqb_eq in Q. subst a. congruence.
Qed.
Lemma add_edge_pw l d o f : consistent l -> In d (l_data l) -> In o (l_operators l) -> pw l o d = zp ->
  exists l', add_edge d o f l = (l', None) /\ consistent l' /\ frame l l' /\ l_edges l' = l_edges l ++ [mkEdge o d f None] /\
  forall o' d', pw l' o' d' = if (o =? o') && (d =? d') then fbits f else pw l o' d'.
Proof.
  intros C D O Z. pose proof (add_edge_spec l d o f C D O) as S.
  assert (NJ : forall e, In e (l_edges l) -> joins o d e = false).
  { intros e I. destruct (joins o d e) eqn:J; auto. exfalso. apply joins_ends in J. injection J as <- <-.
    rewrite pw_edge in Z by auto. apply fbits_nonzero in Z. auto. }
  replace (existsb (joins o d) (l_edges l)) with false in S.
  2:{ symmetry. apply not_true_iff_false. intros J. apply existsb_exists in J as (e & I & J). rewrite NJ in J; auto. discriminate. }
  destruct S as (l' & E & C' & F & G). exists l'. conjs; auto. intros o' d'. unfold pw. rewrite G.
  destruct ((o =? o') && (d =? d')) eqn:T.
  - apply andb_true_iff in T as [T1 T2]. apply Nat.eqb_eq in T1, T2. subst o' d'.
    rewrite find_app_hit. auto. destruct (find _ (l_edges l)) as [e|] eqn:Q; auto. exfalso. apply find_some in Q as [I J].
    unfold joins in NJ. rewrite NJ in J; auto. discriminate. cbn. rewrite !Nat.eqb_refl. auto.
  - rewrite find_app_miss; auto.
Qed.

(** The two factors can be multiplied by the code: one is missing or they are equal. *)
Definition compatible (a b : bool * bool) : Prop := a = zp \/ b = zp \/ a = b.

Lemma edge_at_pw l o d : consistent l -> In o (l_operators l) ->
  match edge_at d (v_edges (l_heap l o)) with
  | Some e => In e (l_edges l) /\ ends e = (o, d) /\ pw l o d = fbits (e_factor e)
  | None => pw l o d = zp
  end.
Proof.
  intros C O. rewrite op_edges by auto. unfold edge_at. destruct (find _ _) as [e|] eqn:F.
  - apply find_some in F as [I J]. apply filter_In in I as [I T]. apply Nat.eqb_eq in J, T. conjs; auto.
    unfold ends; congruence. rewrite <- T, <- J. apply pw_edge; auto.
  - apply pw_none. intros e I E. injection E as E1 E2.
    assert (In e (filter (fun e => e_op e =? o) (l_edges l))) by (apply filter_In; split; auto; apply Nat.eqb_eq; auto).
    apply (find_none _ _ F) in H. apply Nat.eqb_neq in H. auto.
Qed.
Lemma neighbour_pw l o d : consistent l -> In o (l_operators l) -> memb d (v_neighbours (l_heap l o)) = false <-> pw l o d = zp.
Proof.
  intros C O. rewrite neighbours_joined by auto. split.
  - intros H. apply pw_none. intros e I E. apply joins_ends in E.
    assert (existsb (joins o d) (l_edges l) = true) by (apply existsb_exists; eauto). congruence.
  - intros Z. apply not_true_iff_false. intros H. apply existsb_exists in H as (e & I & J). apply joins_ends in J. injection J as <- <-.
    rewrite pw_edge in Z by auto. apply fbits_nonzero in Z; auto.
Qed.

(** What changes when operators other than edges of [o] stay as they are. *)
Definition only_op (o : nat) (l l' : lattice) : Prop := forall e, e_op e <> o -> (In e (l_edges l') <-> In e (l_edges l)).
Definition factors_from (P : factor -> Prop) (l l' : lattice) : Prop := forall e, In e (l_edges l') -> In e (l_edges l) \/ P (e_factor e).

Lemma toggle_pw l o e : consistent l -> In (e_data e) (l_data l) -> In o (l_operators l) ->
  (~ compatible (pw l o (e_data e)) (fbits (e_factor e)) /\ toggle_edge o e l = (l, Some AssertionError)) \/
  (compatible (pw l o (e_data e)) (fbits (e_factor e)) /\
   exists l', toggle_edge o e l = (l', None) /\ consistent l' /\ frame l l' /\ only_op o l l' /\ factors_from (eq (e_factor e)) l l' /\
   forall o' d', pw l' o' d' = if (o =? o') && (e_data e =? d') then pxor (pw l o (e_data e)) (fbits (e_factor e)) else pw l o' d').
Proof.
  intros C D O. unfold toggle_edge. pose proof (neighbour_pw l o (e_data e) C O) as NP.
  destruct (memb (e_data e) (v_neighbours (l_heap l o))) eqn:M.
  - pose proof (edge_at_pw l o (e_data e) C O) as EA. destruct (edge_at (e_data e) (v_edges (l_heap l o))) as [e2|].
    2:{ exfalso. rewrite EA in NP. destruct NP as [_ NP]. discriminate NP; auto. }
    destruct EA as (I & En & P). rewrite P. destruct (factor_eqb (e_factor e2) (e_factor e)) eqn:FE.
    + right. apply factor_eqb_eq in FE. split. right; right; congruence.
      destruct (remove_edge e2 l) as [l' [x|]] eqn:RE.
      * pose proof (remove_edge_spec l e2 C) as S. apply in_edges_existsb in I. rewrite I in S. destruct S as (? & S & _). congruence.
      * destruct (remove_edge_pw l e2 l' C RE) as (C' & F & _ & G & H). exists l'. split; auto. split; auto. split; auto. split; [|split].
        -- intros x N. rewrite G, filter_In, negb_true_iff, edge_eqb_neq. split; [tauto|]. intros; split; auto. intros ->. injection En as En _. auto.
        -- intros x Ix. rewrite G in Ix. apply filter_In in Ix. tauto.
        -- intros o' d'. rewrite H, FE, pxor_self. injection En as -> ->. auto.
    + left. split; auto. intros [Z|[Z|Z]].
      * apply fbits_nonzero in Z; auto.
      * apply fbits_nonzero in Z; auto.
      * apply fbits_inj in Z. assert (factor_eqb (e_factor e2) (e_factor e) = true) by (apply factor_eqb_eq; auto). congruence.
  - right. assert (Z : pw l o (e_data e) = zp) by (apply NP; auto). split. left; auto.
    destruct (add_edge_pw l (e_data e) o (e_factor e) C D O Z) as (l' & E & C' & F & G & H).
    exists l'. split; auto. split; auto. split; auto. split; [|split].
    + intros x N. rewrite G, in_app_iff. split; [intros [?|[<-|[]]]; auto; contradiction N; auto|auto].
    + intros x Ix. rewrite G in Ix. apply in_app_iff in Ix as [?|[<-|[]]]; auto.
    + intros o' d'. rewrite H, Z, pxor_zero_l. auto.
Qed.

(** The factors of a list of edges, as a function of the data qubit. *)
Definition es_pw (es : list edge) (d : nat) : bool * bool :=
  match find (fun e => e_data e =? d) es with Some e => fbits (e_factor e) | None => zp end.
Lemma es_pw_absent es d : ~ In d (map e_data es) -> es_pw es d = zp.
Proof.
  intros N. unfold es_pw. destruct (find _ es) as [e|] eqn:F; auto. apply find_some in F as [I J]. apply Nat.eqb_eq in J. subst.
  contradiction N. apply in_map; auto.
Qed.
Lemma es_pw_cons e es d : es_pw (e :: es) d = if e_data e =? d then fbits (e_factor e) else es_pw es d.
Proof. unfold es_pw. cbn. destruct (e_data e =? d); auto. Qed.
Lemma es_pw_vertex l o d : consistent l -> In o (l_operators l) -> es_pw (v_edges (l_heap l o)) d = pw l o d.
Proof.
  intros C O. pose proof (edge_at_pw l o d C O) as H. unfold es_pw. fold (edge_at d (v_edges (l_heap l o))).
  destruct (edge_at d (v_edges (l_heap l o))) as [e|]. symmetry; tauto. auto.
Qed.

Lemma frame_only o l l' l'' : only_op o l l' -> only_op o l' l'' -> only_op o l l''.
Proof. intros A B e N. rewrite (B e N). apply A; auto. Qed.

(** Multiplication of an operator by a list of factors. *)
Lemma toggle_loop o es : forall l, consistent l -> In o (l_operators l) -> NoDup (map e_data es) ->
  (forall e, In e es -> In (e_data e) (l_data l)) ->
  ((exists l', forE (toggle_edge o) es l = (l', Some AssertionError)) /\ exists e, In e es /\ ~ compatible (pw l o (e_data e)) (fbits (e_factor e))) \/
  ((forall e, In e es -> compatible (pw l o (e_data e)) (fbits (e_factor e))) /\
   exists l', forE (toggle_edge o) es l = (l', None) /\ consistent l' /\ frame l l' /\ only_op o l l' /\ factors_from (fun f => In f (map e_factor es)) l l' /\
   forall o' d', pw l' o' d' = if o =? o' then pxor (pw l o d') (es_pw es d') else pw l o' d').
Proof.
  induction es as [|e es IH]; intros l C O ND D.
  - right. split. intros ? []. exists l. split; auto. split; auto. split. apply frame_refl. split. intros e N; tauto. split. intros e I; auto.
    intros o' d'. destruct (Nat.eqb_spec o o'); auto. subst. rewrite pxor_zero_r. auto.
  - cbn [forE]. inversion ND as [|? ? NI ND']; subst. destruct (toggle_pw l o e C (D e (or_introl eq_refl)) O) as [[N E]|[Cm (l1 & E & C1 & F1 & O1 & P1 & H)]].
    + left. split. eexists. apply seq_fail. eauto. exists e. split; auto. left; auto.
    + rewrite (seq_step _ _ _ l1 E).
      assert (same : forall x, In x es -> pw l1 o (e_data x) = pw l o (e_data x)).
      { intros x I. rewrite H. destruct (Nat.eqb_spec (e_data e) (e_data x)) as [Q|]; [|rewrite andb_false_r; auto].
        exfalso. apply NI. rewrite Q. apply in_map; auto. }
      destruct (IH l1) as [[Er (x & Ix & Nx)]|(Cs & l' & E' & C' & F' & O' & P' & H')]; auto.
      { rewrite (frame_operators l l1); auto. } { intros x I. rewrite (fr_data _ _ F1). apply D; right; auto. }
      * left. split; auto. exists x. split. right; auto. rewrite <- same; auto.
      * right. split. { intros x [<-|I]; auto. rewrite <- same; auto. }
        exists l'. split; auto. split; auto. split. eapply frame_trans; eauto. split. eapply frame_only; eauto. split.
        { intros x I. apply P' in I as [I|I]; [|right; right; auto]. apply P1 in I as [I|I]; auto. right; left; auto. }
        intros o' d'. rewrite H'. destruct (Nat.eqb_spec o o') as [<-|No].
        -- rewrite H, Nat.eqb_refl, es_pw_cons. cbn [andb]. destruct (Nat.eqb_spec (e_data e) d'); auto. subst d'.
           rewrite es_pw_absent by auto. apply pxor_zero_r.
        -- rewrite H. destruct (Nat.eqb_spec o o'); [contradiction|]. auto.
Qed.

Lemma multiply_spec l g s : consistent l -> In g (l_operators l) -> In s (l_operators l) ->
  ((exists l', multiply_logical_with_stab g s l = (l', Some AssertionError)) /\ exists d, ~ compatible (pw l g d) (pw l s d)) \/
  ((forall d, compatible (pw l g d) (pw l s d)) /\
   exists l', multiply_logical_with_stab g s l = (l', None) /\ consistent l' /\ frame l l' /\ only_op g l l' /\
     factors_from (fun f => exists e, In e (l_edges l) /\ e_op e = s /\ e_factor e = f) l l' /\
     forall o d, pw l' o d = if g =? o then pxor (pw l g d) (pw l s d) else pw l o d).
Proof.
  intros C G S. unfold multiply_logical_with_stab.
  destruct (toggle_loop g (v_edges (l_heap l s)) l C G) as [[E (e & I & N)]|(Cs & l' & E & C' & F & O & P & H)].
  - apply nodup_op_data; auto.
  - intros e I. eapply v_edges_data; eauto.
  - left. split; auto. exists (e_data e). rewrite op_edges in I by auto. apply filter_In in I as [I T]. apply Nat.eqb_eq in T.
    rewrite <- T, pw_edge by auto. auto.
  - right. split.
    { intros d. destruct (pw_cases l s d C) as [[Z _]|(e & I & En & Pe)].
      - right; left; auto.
      - injection En as <- <-. rewrite Pe. apply Cs. rewrite op_edges by auto. apply filter_In. split; auto. apply Nat.eqb_refl. }
    exists l'. split; auto. split; auto. split; auto. split; auto. split.
    + intros e I. apply P in I as [I|I]; auto. right. apply in_map_iff in I as (x & Ex & I). exists x. rewrite op_edges in I by auto.
      apply filter_In in I as [I T]. apply Nat.eqb_eq in T. auto.
    + intros o d. rewrite H, es_pw_vertex; auto.
Qed.

(** The loop of create_superstab. *)
Lemma superstab_loop k r es : k <> r -> forall l, consistent l -> In k (l_operators l) -> In r (l_operators l) -> NoDup (map e_data es) ->
  (forall e, In e es -> In e (l_edges l) /\ e_op e = r) ->
  let body := forE (fun e => seqE (remove_edge e) (toggle_edge k e)) es in
  ((exists l', body l = (l', Some AssertionError)) /\ exists e, In e es /\ ~ compatible (pw l k (e_data e)) (fbits (e_factor e))) \/
  ((forall e, In e es -> compatible (pw l k (e_data e)) (fbits (e_factor e))) /\
   exists l', body l = (l', None) /\ consistent l' /\ frame l l' /\ 
     (forall e, e_op e <> k -> e_op e <> r -> (In e (l_edges l') <-> In e (l_edges l))) /\ factors_from (fun f => In f (map e_factor es)) l l' /\
     forall o d, pw l' o d = if k =? o then pxor (pw l k d) (es_pw es d) else if r =? o then (if memb d (map e_data es) then zp else pw l r d) else pw l o d).
Proof.
  intros KR. induction es as [|e es IH]; intros l C K R ND D; cbv zeta in *.
  - right. split. intros ? []. exists l. split; auto. split; auto. split. apply frame_refl. split. tauto. split. intros e I; auto.
    intros o d. destruct (Nat.eqb_spec k o). subst. rewrite pxor_zero_r. auto. cbn. destruct (Nat.eqb_spec r o); subst; auto.
  - cbn [forE]. inversion ND as [|? ? NI ND']; subst.
    destruct (D e (or_introl eq_refl)) as [Ie Re].
    pose proof (remove_edge_spec l e C) as RS. pose proof (proj2 (in_edges_existsb _ _) Ie) as X. rewrite X in RS. destruct RS as (l1 & E1 & _).
    destruct (remove_edge_pw l e l1 C E1) as (C1 & F1 & _ & G1 & H1'). clear X.
    assert (Pk : forall d, pw l1 k d = pw l k d).
    { intros d. rewrite H1'. destruct (Nat.eqb_spec (e_op e) k); auto. congruence. }
    destruct (toggle_pw l1 k e C1) as [[N E]|[Cm (l2 & E & C2 & F2 & O2 & P2 & H)]].
    { rewrite (fr_data _ _ F1). apply C; auto. } { rewrite (frame_operators l l1); auto. }
    + left. split. eexists. apply seq_fail. rewrite (seq_step _ _ _ l1 E1). eauto. exists e. split. left; auto. rewrite Pk in N. auto.
    + assert (EE : seqE (remove_edge e) (toggle_edge k e) l = (l2, None)) by (rewrite (seq_step _ _ _ l1 E1); auto).
      rewrite (seq_step _ _ _ l2 EE).
      assert (same : forall x, In x es -> pw l2 k (e_data x) = pw l k (e_data x)).
      { intros x I. rewrite H, Pk. destruct (Nat.eqb_spec (e_data e) (e_data x)) as [Q|]; [|rewrite andb_false_r; auto].
        exfalso. apply NI. rewrite Q. apply in_map; auto. }
      assert (stay : forall x, In x es -> In x (l_edges l2)).
      { intros x I. destruct (D x (or_intror I)) as [I1 I2]. apply O2. congruence. rewrite G1. apply filter_In. split; auto.
        apply negb_true_iff, edge_eqb_neq. intros ->. apply NI. apply in_map; auto. }
      rewrite Pk in Cm.
      destruct (IH l2) as [[Er (x & Ix & Nx)]|(Cs & l' & E' & C' & F' & O' & P' & H')]; auto.
      { rewrite (frame_operators l1 l2), (frame_operators l l1); auto. } { rewrite (frame_operators l1 l2), (frame_operators l l1); auto. }
      { intros x I. split; auto. apply (D x); right; auto. }
      * left. split; auto. exists x. split. right; auto. rewrite <- same; auto.
      * right. split. { intros x [<-|I]; auto. rewrite <- same; auto. }
        exists l'. split; auto. split; auto. split. eapply frame_trans; [|eauto]. eapply frame_trans; eauto. split; [|split].
        -- intros x N1 N2. rewrite (O' x N1 N2), (O2 x N1), G1, filter_In, negb_true_iff, edge_eqb_neq. split; [tauto|]. intros; split; auto. intros ->; contradiction.
        -- intros x I. apply P' in I as [I|I]; [|right; right; auto]. apply P2 in I as [I|I]; [|right; left; auto]. left. rewrite G1 in I. apply filter_In in I. tauto.
        -- intros o d. rewrite H'. rewrite !H, !H1'. rewrite Re. destruct (Nat.eqb_spec k o) as [<-|No].
           ++ rewrite Nat.eqb_refl. destruct (Nat.eqb_spec r k); [congruence|]. cbn [andb]. rewrite es_pw_cons.
              destruct (Nat.eqb_spec (e_data e) d); auto. subst d. rewrite es_pw_absent by auto. apply pxor_zero_r.
           ++ destruct (Nat.eqb_spec k r); [congruence|]. cbn [andb]. rewrite Nat.eqb_refl. cbn [andb].
              destruct (Nat.eqb_spec r o); auto. subst o. cbn [map memb existsb]. fold (memb d (map e_data es)).
              destruct (Nat.eqb_spec (e_data e) d) as [->|].
              ** rewrite Nat.eqb_refl. cbn. destruct (memb d (map e_data es)); auto.
              ** destruct (Nat.eqb_spec d (e_data e)); [congruence|]. auto.
Qed.

Lemma superstab_spec l k r : consistent l -> In k (l_stabs l) -> In r (l_stabs l) -> k <> r ->
  ((exists l', create_superstab k r l = (l', Some AssertionError)) /\ exists d, ~ compatible (pw l k d) (pw l r d)) \/
  ((forall d, compatible (pw l k d) (pw l r d)) /\
   exists l', create_superstab k r l = (l', None) /\ consistent l' /\
     l_data l' = l_data l /\ l_stabs l' = without r (l_stabs l) /\ l_logicals l' = l_logicals l /\
     l_gauge l' = l_gauge l /\ l_join l' = l_join l /\
     (forall e, e_op e <> k -> e_op e <> r -> (In e (l_edges l') <-> In e (l_edges l))) /\
     factors_from (fun f => exists e, In e (l_edges l) /\ e_op e = r /\ e_factor e = f) l l' /\
     (forall i, v_kind (l_heap l' i) = v_kind (l_heap l i)) /\ (forall i, v_pos (l_heap l' i) = v_pos (l_heap l i)) /\
     (forall i, v_index (l_heap l' i) = v_index (l_heap l i)) /\
     forall o d, pw l' o d = if k =? o then pxor (pw l k d) (pw l r d) else if r =? o then zp else pw l o d).
Proof.
  intros C K R N. unfold create_superstab.
  assert (Ok : In k (l_operators l)) by (apply in_app_iff; auto).
  assert (Or : In r (l_operators l)) by (apply in_app_iff; auto).
  pose proof (proj2 (proj1 (in_stabs l k C) K)) as Sk. pose proof (proj2 (proj1 (in_stabs l r C) R)) as Sr.
  rewrite seq_assert by auto. rewrite seq_assert by auto.
  set (es := v_edges (l_heap l r)).
  assert (De : forall e, In e es -> In e (l_edges l) /\ e_op e = r).
  { intros e I. unfold es in I. rewrite op_edges in I by auto. apply filter_In in I as [I T]. apply Nat.eqb_eq in T. auto. }
  destruct (superstab_loop k r es N l C Ok Or) as [[[l' E] (e & I & Nc)]|(Cs & l1 & E & C1 & F1 & O1 & P1 & H1)]; auto.
  - apply nodup_op_data; auto.
  - left. split.
    + exists l'. apply seq_fail. exact E.
    + exists (e_data e). destruct (De e I) as [I1 I2]. rewrite <- I2, pw_edge by auto. auto.
  - right. split.
    { intros d. destruct (pw_cases l r d C) as [[Z _]|(e & I & En & Pe)].
      - right; left; auto.
      - injection En as En1 <-. rewrite Pe. apply Cs. unfold es. rewrite op_edges by auto. apply filter_In. split; auto. apply Nat.eqb_eq; auto. }
    rewrite (seq_step _ _ _ l1) by exact E.
    assert (Z : forall d, pw l1 r d = zp).
    { intros d. rewrite H1. destruct (Nat.eqb_spec k r); [contradiction|]. rewrite Nat.eqb_refl. destruct (memb d (map e_data es)) eqn:M; auto.
      rewrite <- es_pw_vertex by auto. apply es_pw_absent. apply memb_notIn; auto. }
    assert (Or1 : In r (l_operators l1)) by (rewrite (frame_operators l l1); auto).
    assert (VE : v_edges (l_heap l1 r) = []).
    { destruct (v_edges (l_heap l1 r)) as [|x xs] eqn:V; auto. exfalso.
      assert (I : In x (v_edges (l_heap l1 r))) by (rewrite V; left; auto). rewrite op_edges in I by auto. apply filter_In in I as [I T].
      apply Nat.eqb_eq in T. specialize (Z (e_data x)). rewrite <- T, pw_edge in Z by auto. apply fbits_nonzero in Z; auto. }
    pose proof (remove_vertex_spec l1 r C1) as RV.
    assert (M : memb r (l_vertices l1) = true).
    { apply memb_In. apply in_operators in Or1; tauto. }
    rewrite M, VE in RV. destruct RV as (l' & E' & C' & D').
    exists l'. split; auto. split; auto.
    assert (nd : forall x, In x [l_data l] -> without r x = x).
    { intros x [<-|[]]. apply without_absent. intros I. apply (data_not_op l r C I Or). }
    assert (nl : without r (l_logicals l) = l_logicals l).
    { apply without_absent. intros I. apply in_logicals in I as [_ I]; auto. unfold is_logical in I. unfold is_stab in Sr. destruct (v_kind (l_heap l r)); discriminate. }
    split. rewrite (dr_data _ _ _ D'), (fr_data _ _ F1). apply nd; left; auto.
    split. rewrite (dr_stabs _ _ _ D'), (fr_stabs _ _ F1). auto.
    split. rewrite (dr_logicals _ _ _ D'), (fr_logicals _ _ F1). auto.
    split. rewrite (dr_gauge _ _ _ D'). apply F1. split. rewrite (dr_join _ _ _ D'). apply F1.
    split. intros e. rewrite (dr_edges _ _ _ D'). apply O1.
    split. { intros e I. rewrite (dr_edges _ _ _ D') in I. apply P1 in I as [I|I]; auto. right. apply in_map_iff in I as (x & Ex & I).
             exists x. destruct (De x I) as [D1 D2]. conjs; auto. }
    split. intros i. rewrite (dr_heap _ _ _ D'). apply F1. split. intros i. rewrite (dr_heap _ _ _ D'). apply F1.
    split. intros i. rewrite (dr_heap _ _ _ D'). apply F1.
    intros o d. unfold pw at 1. rewrite (dr_edges _ _ _ D'). fold (pw l1 o d). rewrite H1.
    destruct (Nat.eqb_spec k o). subst o. unfold es. rewrite es_pw_vertex; auto.
    destruct (Nat.eqb_spec r o); auto. subst o. specialize (Z d). rewrite H1 in Z. destruct (Nat.eqb_spec k r); [contradiction|]. rewrite Nat.eqb_refl in Z. auto.
Qed.
