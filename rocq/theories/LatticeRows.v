(** Rows of the operators of a lattice and their products. *)
Require Import List Bool Arith ZArith Lia String.
From Verif Require Import Base BaseProofs QSpec PauliModel PauliSem PauliProofs PauliAlg CircuitModel LatticeModel LatticeSpec LatticeProofs LatticeEdit LatticeOps LatticeMerge LatticeFab.
Require Import Permutation.
Import ListNotations.
Local Open Scope nat_scope.
Local Open Scope list_scope.

(** The operator of the vertex [o], as StabilizerCode gets it after assign_indices. *)
Definition operator_of (l : lattice) (o : nat) : Res row := vertex_operator (assign_indices l) (List.length (l_data l)) o.

Lemma assign_pw l o d : consistent l -> pw (assign_indices l) o d = pw l o d.
Proof. intros C. destruct (assign_indices_spec l C) as (_ & R & _). unfold pw. rewrite (rn_edges _ _ R). auto. Qed.
Lemma edges_nil_pw l o : consistent l -> In o (l_operators l) ->
  (v_edges (l_heap l o) = [] <-> forall d, In d (l_data l) -> pw l o d = zp).
Proof.
  intros C O. split.
  - intros E d _. apply pw_none. intros e I J. assert (In e (v_edges (l_heap l o))).
    { rewrite op_edges by auto. apply filter_In. split; auto. injection J as -> _. apply Nat.eqb_refl. }
    rewrite E in H. destruct H.
  - intros H. destruct (v_edges (l_heap l o)) as [|e es] eqn:E; auto. exfalso.
    assert (I : In e (v_edges (l_heap l o))) by (rewrite E; left; auto). rewrite op_edges in I by auto. apply filter_In in I as [I J].
    apply Nat.eqb_eq in J. destruct (cons_ends _ C e I) as [D _]. specialize (H _ D). rewrite <- J, pw_edge in H by auto. apply fbits_nonzero in H. auto.
Qed.
Lemma operator_of_ok l o : consistent l -> In o (l_operators l) ->
  (operator_of l o = Ok (mkRow (map (pw l o) (l_data l)) false) /\ exists d, In d (l_data l) /\ pw l o d <> zp) \/
  (operator_of l o = Err IndexError /\ forall d, In d (l_data l) -> pw l o d = zp).
Proof.
  intros C O. destruct (assign_indices_spec l C) as (C' & R & X). unfold operator_of.
  assert (O' : In o (l_operators (assign_indices l))) by (unfold l_operators; rewrite (rn_stabs _ _ R), (rn_logicals _ _ R); auto).
  pose proof (edges_nil_pw _ _ C' O') as N. rewrite (rn_data _ _ R) in N.
  destruct (v_edges (l_heap (assign_indices l) o)) as [|e es] eqn:E.
  - right. split. apply vertex_operator_empty; auto. intros d I. rewrite <- (assign_pw l o d C). apply N; auto.
  - left. split.
    + rewrite <- (rn_data _ _ R). rewrite vertex_operator_ok; auto; [|rewrite E; discriminate]. unfold op_row, op_bits. do 2 f_equal.
      apply map_ext. intros; apply assign_pw; auto.
    + assert (I : In e (v_edges (l_heap (assign_indices l) o))) by (rewrite E; left; auto). rewrite op_edges in I by auto. apply filter_In in I as [I J].
      apply Nat.eqb_eq in J. destruct (cons_ends _ C' e I) as [D _]. exists (e_data e). rewrite <- (rn_data _ _ R). split; auto.
      rewrite <- assign_pw, <- J, pw_edge by auto. apply fbits_nonzero.
Qed.
Lemma operator_of_length l o a : consistent l -> In o (l_operators l) -> operator_of l o = Ok a -> List.length (ops a) = List.length (l_data l).
Proof. intros C O E. destruct (operator_of_ok l o C O) as [[H _]|[H _]]; rewrite H in E; [|discriminate]. injection E as <-. cbn. apply map_length. Qed.
Lemma operator_of_ext l l' o : consistent l -> consistent l' -> l_data l' = l_data l -> In o (l_operators l) -> In o (l_operators l') ->
  (forall d, In d (l_data l) -> pw l' o d = pw l o d) -> operator_of l' o = operator_of l o.
Proof.
  intros C C' D O O' H. destruct (operator_of_ok l o C O) as [[A (d & I & N)]|[A B]], (operator_of_ok l' o C' O') as [[A' (d' & I' & N')]|[A' B']]; rewrite A, A', ?D.
  - do 2 f_equal. apply map_ext_in. auto.
  - exfalso. apply N. rewrite <- H by auto. apply B'. rewrite D; auto.
  - exfalso. apply N'. rewrite D in I'. rewrite H by auto. auto.
  - auto.
Qed.

Lemma map_xor {A} (f g : A -> bool * bool) D : xor_ops (map f D) (map g D) = map (fun d => pxor (f d) (g d)) D.
Proof. induction D as [|d D IH]; cbn; auto. rewrite IH. destruct (f d), (g d). auto. Qed.
Lemma compatible_phase {A} (D : list A) f g : (forall d, In d D -> compatible (f d) (g d)) -> (phase_exponent (map f D) (map g D) = 0)%Z.
Proof.
  intros H. induction D as [|d D IH]; cbn [map phase_exponent]; auto. pose proof (H d (or_introl eq_refl)) as Hd. destruct (f d) as [x z], (g d) as [x' z']. rewrite IH by (intros; apply H; right; auto).
  destruct Hd as [E|[E|E]]; injection E as -> ->.
  - destruct x', z'; reflexivity.
  - destruct x, z; reflexivity.
  - destruct x', z'; reflexivity.
Qed.
Lemma compatible_sp a b : compatible a b -> sp a b = false.
Proof. intros [->|[->| ->]]; [apply sp_zero_l|apply sp_zero_r|apply sp_self]. Qed.
(** The row of factors multiplied one by one is the product of the operators. *)
Lemma compatible_product (D : list nat) f g v : (forall d, In d D -> compatible (f d) (g d)) ->
  veq (List.length D) (papply (denote (mkRow (map (fun d => pxor (f d) (g d)) D) false)) v)
      (papply (denote (mkRow (map f D) false)) (papply (denote (mkRow (map g D) false)) v)).
Proof.
  intros H. apply veq_sym.
  assert (L : forall h : nat -> bool * bool, List.length (ops (mkRow (map h D) false)) = List.length D) by (intros; apply map_length).
  pose proof (mulrow_product _ _ _ v (L f) (L g)) as P. cbn [ops] in P.
  rewrite symp_anti, (anti_zero D f g) in P by (intros; apply compatible_sp; auto).
  unfold mulrow in P. cbn [ops neg] in P. rewrite map_xor, compatible_phase in P by auto. cbn [xorb] in P. change (2 <=? 0 mod 4)%Z with false in P.
  intros x Hx. rewrite (P x Hx). unfold vscale. ring.
Qed.

(** Disjoint or equal factors at every data qubit. *)
Definition clash (a b : row) : Prop := exists q, nth q (ops a) (false, false) <> (false, false) /\ nth q (ops b) (false, false) <> (false, false) /\
  nth q (ops a) (false, false) <> nth q (ops b) (false, false).
Lemma bits_dec (a b : bool * bool) : {a = b} + {a <> b}.
Proof. repeat decide equality. Qed.
Lemma clash_rows l k r a b : consistent l -> In k (l_operators l) -> In r (l_operators l) -> operator_of l k = Ok a -> operator_of l r = Ok b ->
  (clash a b <-> exists d, ~ compatible (pw l k d) (pw l r d)).
Proof.
  intros C K R Ka Rb.
  destruct (operator_of_ok l k C K) as [[Ek _]|[Ek _]]; rewrite Ek in Ka; [|discriminate]. injection Ka as <-.
  destruct (operator_of_ok l r C R) as [[Er _]|[Er _]]; rewrite Er in Rb; [|discriminate]. injection Rb as <-.
  unfold clash, compatible. cbn [ops]. split.
  - intros (q & A & B & N). destruct (Nat.ltb_spec q (List.length (l_data l))) as [L|L].
    + exists (nth q (l_data l) 0).
      assert (E : forall o, nth q (map (pw l o) (l_data l)) (false, false) = pw l o (nth q (l_data l) 0)).
      { intros o. rewrite (nth_indep _ _ (pw l o 0)) by (rewrite map_length; auto). apply map_nth. }
      rewrite !E in *. unfold zp. intuition.
    + rewrite nth_overflow in A by (rewrite map_length; auto). congruence.
  - intros (d & N). assert (Nk : pw l k d <> zp) by tauto. destruct (pw_nonzero l k d C Nk) as (e & I & En & _).
    destruct (cons_ends _ C e I) as [D _]. injection En as _ <-. apply In_nth_error in D as [q E]. exists q.
    assert (H : forall o, nth q (map (pw l o) (l_data l)) (false, false) = pw l o (e_data e)).
    { intros o. apply nth_error_nth. apply map_nth_error; auto. }
    rewrite !H. unfold zp in *. intuition.
Qed.

Lemma superstab_rows l k r a b : consistent l -> In k (l_stabs l) -> In r (l_stabs l) -> k <> r -> operator_of l k = Ok a -> operator_of l r = Ok b ->
  (clash a b /\ exists l', create_superstab k r l = (l', Some AssertionError)) \/
  (~ clash a b /\ exists l', create_superstab k r l = (l', None) /\ consistent l' /\
     l_data l' = l_data l /\ l_logicals l' = l_logicals l /\ l_stabs l' = without r (l_stabs l) /\
     (forall o, In o (l_operators l) -> o <> k -> o <> r -> operator_of l' o = operator_of l o) /\
     ((ops a = ops b /\ operator_of l' k = Err IndexError) \/
      (ops a <> ops b /\ exists c, operator_of l' k = Ok c /\
         forall v, veq (List.length (l_data l)) (papply (denote c) v) (papply (denote a) (papply (denote b) v))))).
Proof.
  intros C K R N Ka Rb.
  pose proof (clash_rows l k r a b C (stab_operator _ _ K) (stab_operator _ _ R) Ka Rb) as CL.
  destruct (superstab_spec l k r C K R N) as [[E X]|(Cm & l' & E & C' & Dt & St & Lg & _ & _ & _ & _ & _ & _ & _ & H)].
  - left. split; auto. apply CL; auto.
  - right. split. { intros X. apply CL in X as [d X]. auto. }
    assert (Op : forall o, In o (l_operators l) -> o <> r -> In o (l_operators l')).
    { intros o O No. unfold l_operators in *. rewrite St, Lg, in_app_iff, in_without. apply in_app_iff in O. tauto. }
    exists l'. conjs; auto.
    + intros o O N1 N2. apply operator_of_ext; auto. intros d _. rewrite H. destruct (Nat.eqb_spec k o); [congruence|]. destruct (Nat.eqb_spec r o); congruence.
    + assert (Hk : forall d, pw l' k d = pxor (pw l k d) (pw l r d)) by (intros; rewrite H, Nat.eqb_refl; auto).
      destruct (operator_of_ok l k C (stab_operator _ _ K)) as [[Ek _]|[Ek _]]; rewrite Ek in Ka; [|discriminate]. injection Ka as <-.
      destruct (operator_of_ok l r C (stab_operator _ _ R)) as [[Er _]|[Er _]]; rewrite Er in Rb; [|discriminate]. injection Rb as <-.
      assert (X : forall x y, pxor x y = zp <-> x = y) by (intros [[] []] [[] []]; split; intros Q; (reflexivity || discriminate)).
      destruct (operator_of_ok l' k C' (Op k (stab_operator _ _ K) N)) as [[A (d & I & Nz)]|[A B]]; rewrite Dt in *.
      * right. split.
        -- intros Q. apply Nz. rewrite Hk. apply X. cbn in Q. apply In_nth_error in I as [q I].
           apply (f_equal (fun z => nth_error z q)) in Q. rewrite !nth_error_map, I in Q. cbn in Q. congruence.
        -- eexists. split. exact A. intros v. rewrite (map_ext _ _ Hk). apply compatible_product. auto.
      * left. split; auto. cbn. apply map_ext_in. intros d I. apply X. rewrite <- Hk. auto.
Qed.
Lemma multiply_rows l g s a b : consistent l -> In g (l_logicals l) -> In s (l_stabs l) -> operator_of l g = Ok a -> operator_of l s = Ok b ->
  (clash a b /\ exists l', multiply_logical_with_stab g s l = (l', Some AssertionError)) \/
  (~ clash a b /\ exists l', multiply_logical_with_stab g s l = (l', None) /\ consistent l' /\
     l_data l' = l_data l /\ l_logicals l' = l_logicals l /\ l_stabs l' = l_stabs l /\
     (forall o, In o (l_operators l) -> o <> g -> operator_of l' o = operator_of l o) /\
     ((ops a = ops b /\ operator_of l' g = Err IndexError) \/
      (ops a <> ops b /\ exists c, operator_of l' g = Ok c /\
         forall v, veq (List.length (l_data l)) (papply (denote c) v) (papply (denote a) (papply (denote b) v))))).
Proof.
  intros C K R Ka Rb.
  pose proof (clash_rows l g s a b C (logical_operator _ _ K) (stab_operator _ _ R) Ka Rb) as CL.
  destruct (multiply_spec l g s C (logical_operator _ _ K) (stab_operator _ _ R)) as [[E X]|(Cm & l' & E & C' & F & _ & _ & H)].
  - left. split; auto. apply CL; auto.
  - right. split. { intros X. apply CL in X as [d X]. auto. }
    pose proof (fr_data _ _ F) as Dt. pose proof (fr_logicals _ _ F) as Lg. pose proof (fr_stabs _ _ F) as St.
    assert (Op : l_operators l' = l_operators l) by (apply frame_operators; auto).
    exists l'. conjs; auto.
    + intros o O N1. apply operator_of_ext; auto. rewrite Op; auto. intros d _. rewrite H. destruct (Nat.eqb_spec g o); congruence.
    + assert (Hk : forall d, pw l' g d = pxor (pw l g d) (pw l s d)) by (intros; rewrite H, Nat.eqb_refl; auto).
      destruct (operator_of_ok l g C (logical_operator _ _ K)) as [[Ek _]|[Ek _]]; rewrite Ek in Ka; [|discriminate]. injection Ka as <-.
      destruct (operator_of_ok l s C (stab_operator _ _ R)) as [[Er _]|[Er _]]; rewrite Er in Rb; [|discriminate]. injection Rb as <-.
      assert (X : forall x y, pxor x y = zp <-> x = y) by (intros [[] []] [[] []]; split; intros Q; (reflexivity || discriminate)).
      assert (Og : In g (l_operators l')) by (rewrite Op; apply logical_operator; auto).
      destruct (operator_of_ok l' g C' Og) as [[A (d & I & Nz)]|[A B]]; rewrite Dt in *.
      * right. split.
        -- intros Q. apply Nz. rewrite Hk. apply X. cbn in Q. apply In_nth_error in I as [q I].
           apply (f_equal (fun z => nth_error z q)) in Q. rewrite !nth_error_map, I in Q. cbn in Q. congruence.
        -- eexists. split. exact A. intros v. rewrite (map_ext _ _ Hk). apply compatible_product. auto.
      * left. split; auto. cbn. apply map_ext_in. intros d I. apply X. rewrite <- Hk. auto.
Qed.

(** A product commutes with whatever commutes with both factors. *)
Lemma product_commutes n a b c p : List.length (ops a) = n -> List.length (ops b) = n -> List.length (ops c) = n -> List.length (ops p) = n ->
  (forall v, veq n (papply (denote c) v) (papply (denote a) (papply (denote b) v))) ->
  commute n (denote p) (denote a) -> commute n (denote p) (denote b) -> commute n (denote p) (denote c).
Proof.
  intros La Lb Lc Lp H A B v.
  eapply veq_trans. { apply papply_ext; [auto|]. apply H. }
  eapply veq_trans. { apply A. }
  eapply veq_trans. { apply papply_ext; [auto|]. apply B. }
  apply veq_sym. apply H.
Qed.

(** * Fabrication errors *)
Lemma anti_perm D D' f g : Permutation D D' -> anti D f g = anti D' f g.
Proof.
  unfold anti. induction 1; cbn; auto. congruence.
  - rewrite <- !xorb_assoc. f_equal. apply xorb_comm.
  - congruence.
Qed.
(** Data qubits outside of the lattice do not matter. *)
Lemma anti_data l D o p : consistent l -> NoDup D -> (forall d, In d (l_data l) -> In d D) -> anti D (pw l o) (pw l p) = anti (l_data l) (pw l o) (pw l p).
Proof.
  intros C ND I. rewrite <- (anti_filter D (fun d => memb d (l_data l))).
  - apply anti_perm. apply NoDup_Permutation.
    + apply NoDup_filter; auto.
    + apply nodup_data; auto.
    + intros x. rewrite filter_In, memb_In. split; [tauto|auto].
  - intros d _ M. apply memb_notIn in M. destruct (pw_cases l o d C) as [[E _]|(e & Ie & En & _)].
    + rewrite E. apply sp_zero_l.
    + exfalso. apply M. destruct (cons_ends _ C e Ie) as [X _]. injection En as _ <-. auto.
Qed.
Lemma row_commute l o p : commute (List.length (l_data l)) (denote (op_row l o)) (denote (op_row l p)) <-> anti (l_data l) (pw l o) (pw l p) = false.
Proof. rewrite commute_iff by (cbn; apply map_length). cbn. unfold op_bits. rewrite symp_anti. tauto. Qed.
Lemma mapR_ok {A B} (f : A -> Res B) l r : mapR f l = Ok r -> List.length r = List.length l /\ forall i x, nth_error l i = Some x -> exists y, nth_error r i = Some y /\ f x = Ok y.
Proof.
  revert r. induction l as [|a l IH]; cbn; intros r E.
  - injection E as <-. split; auto. intros [] ?; discriminate.
  - destruct (f a) as [y|] eqn:F; [|discriminate]. cbn in E. destruct (mapR f l) as [ys|] eqn:M; [|discriminate]. injection E as <-.
    destruct (IH ys eq_refl) as [L H]. split. cbn; auto. intros [|i] x Ex; cbn in *. injection Ex as <-. eauto. eauto.
Qed.
Lemma operators_rows l os r : consistent l -> indexed l -> (forall o, In o os -> In o (l_operators l)) ->
  vertices_to_operators l os (List.length (l_data l)) = Ok r -> r = map (op_row l) os.
Proof.
  intros C X. unfold vertices_to_operators. revert r. induction os as [|o os IH]; cbn; intros r H E.
  - injection E as <-. auto.
  - destruct (vertex_operator l (List.length (l_data l)) o) as [y|] eqn:V; [|discriminate]. cbn in E. destruct (mapR _ os) as [ys|] eqn:M; [|discriminate].
    cbn in E. injection E as <-. f_equal.
    + destruct (v_edges (l_heap l o)) as [|e es] eqn:EE.
      * rewrite vertex_operator_empty in V by auto. discriminate.
      * rewrite vertex_operator_ok in V; auto. congruence. rewrite EE; discriminate.
    + apply IH; auto.
Qed.

Lemma fabrication_rows l q g s k j l' SS LL SS' LL' : consistent l ->
  stabilisers (assign_indices l) = Ok SS -> logical_operators (assign_indices l) = Ok LL ->
  (forall a b, In a SS -> In b SS -> commute (List.length (l_data l)) (denote a) (denote b)) ->
  (forall a b, In a SS -> In b LL -> commute (List.length (l_data l)) (denote a) (denote b)) ->
  (forall a i, In a SS -> nth i (ops a) (false, false) <> (true, true)) ->
  (match k with Some x => x | None => l_gauge l end = "none" \/ match k with Some x => x | None => l_gauge l end = "half")%string ->
  match j with Some x => x | None => l_join l end = false ->
  apply_fabrication_errors q g s k j l = (l', None) ->
  stabilisers l' = Ok SS' -> logical_operators l' = Ok LL' ->
  let n := List.length (l_data l) in
  let n' := List.length (l_data l') in
  (forall a b, In a SS' -> In b SS' -> commute n' (denote a) (denote b)) /\
  (forall a b, In a SS' -> In b LL' -> commute n' (denote a) (denote b)) /\
  List.length LL' = List.length LL /\
  (forall i i' a a' b b', nth_error LL i = Some a -> nth_error LL i' = Some a' -> nth_error LL' i = Some b -> nth_error LL' i' = Some b' ->
     (commute n' (denote b) (denote b') <-> commute n (denote a) (denote a'))).
Proof.
  intros C ES EL A B Y GG JJ E ES' EL' n n'.
  destruct (assign_indices_spec l C) as (C1 & R1 & X1). unfold stabilisers, logical_operators in *.
  assert (Rw : forall o, op_row (assign_indices l) o = op_row l o).
  { intros o. unfold op_row, op_bits. rewrite (rn_data _ _ R1). f_equal. apply map_ext. intros; apply assign_pw; auto. }
  apply operators_rows in ES; auto. 2:{ intros; apply stab_operator; auto. }
  apply operators_rows in EL; auto. 2:{ intros; apply logical_operator; auto. }
  rewrite (map_ext _ _ Rw), (rn_stabs _ _ R1) in ES. rewrite (map_ext _ _ Rw), (rn_logicals _ _ R1) in EL.
  assert (Cm : commuting (l_data l) l).
  { split; intros x y Ix Iy; apply row_commute; [apply A|apply B]; rewrite ?ES, ?EL; apply in_map; auto. }
  assert (NY : no_y l).
  { intros x d Ix Q. assert (N : pw l x d <> (false, false)) by congruence. destruct (pw_nonzero l x d C N) as (e & Ie & En & _).
    destruct (cons_ends _ C e Ie) as [D _]. injection En as _ <-. apply In_nth_error in D as [i D].
    apply (Y (op_row l x) i). rewrite ES. apply in_map; auto. cbn. unfold op_bits. rewrite (nth_error_nth _ _ _ (map_nth_error (pw l x) i _ D)). auto. }
  destruct (fabrication_commuting q g s k j l l' (l_data l) C Cm NY GG JJ E) as (C' & [A' B'] & _ & [SL SR] & X' & DD).
  assert (Rel : forall o p, anti (l_data l) (pw l' o) (pw l' p) = anti (l_data l') (pw l' o) (pw l' p)).
  { intros o p. apply anti_data; auto. apply nodup_data; auto. }
  apply operators_rows in ES'; auto. 2:{ intros; apply stab_operator; auto. }
  apply operators_rows in EL'; auto. 2:{ intros; apply logical_operator; auto. }
  subst SS LL SS' LL'. unfold n, n'. conjs.
  - intros a b Ia Ib. apply in_map_iff in Ia as (x & <- & Ix), Ib as (y & <- & Iy). apply row_commute. rewrite <- Rel. auto.
  - intros a b Ia Ib. apply in_map_iff in Ia as (x & <- & Ix), Ib as (y & <- & Iy). apply row_commute. rewrite <- Rel. auto.
  - rewrite !map_length. congruence.
  - intros i i' a a' b b' H1 H2 H3 H4. rewrite nth_error_map in *. rewrite SL in *.
    destruct (nth_error (l_logicals l) i) as [x|] eqn:Ex; [|discriminate]. destruct (nth_error (l_logicals l) i') as [y|] eqn:Ey; [|discriminate].
    cbn in *. injection H1 as <-. injection H2 as <-. injection H3 as <-. injection H4 as <-.
    rewrite !row_commute, <- Rel, SR. tauto. eapply nth_error_In; eauto. eapply nth_error_In; eauto.
Qed.
