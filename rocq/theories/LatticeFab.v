(** Fabrication errors: the remaining operators commute. *)
Require Import List Bool Arith ZArith Lia String.
From Verif Require Import Base BaseProofs LatticeModel LatticeSpec LatticeProofs LatticeEdit LatticeOps LatticeMerge.
Import ListNotations.
Local Open Scope nat_scope.
Local Open Scope list_scope.

(** Generators commute with each other and with the logical operators. *)
Definition commuting (D : list nat) (l : lattice) : Prop :=
  (forall s t, In s (l_stabs l) -> In t (l_stabs l) -> anti D (pw l s) (pw l t) = false) /\
  (forall s g, In s (l_stabs l) -> In g (l_logicals l) -> anti D (pw l s) (pw l g) = false).
Definition no_y (l : lattice) : Prop := forall s d, In s (l_stabs l) -> pw l s d <> (true, true).
(** The logical operators have the relations of those in [l0]. *)
Definition same_relations (D : list nat) (l0 l : lattice) : Prop :=
  l_logicals l = l_logicals l0 /\
  forall g h, In g (l_logicals l) -> In h (l_logicals l) -> anti D (pw l g) (pw l h) = anti D (pw l0 g) (pw l0 h).

Lemma stab_operator l s : In s (l_stabs l) -> In s (l_operators l).
Proof. intros; apply in_app_iff; auto. Qed.
Lemma logical_operator l s : In s (l_logicals l) -> In s (l_operators l).
Proof. intros; apply in_app_iff; auto. Qed.
Lemma stab_not_logical l s : consistent l -> In s (l_stabs l) -> In s (l_logicals l) -> False.
Proof.
  intros C A B. apply in_stabs in A as [_ A]; auto. apply in_logicals in B as [_ B]; auto. unfold is_stab, is_logical in *.
  destruct (v_kind (l_heap l s)); discriminate.
Qed.

(** ** Groups *)
Record groups_ok (gs : list (factor * list edge)) : Prop := {
  go_fst : NoDup (map fst gs);
  go_hom : forall g e, In g gs -> In e (snd g) -> e_factor e = fst g;
  go_ne : forall g, In g gs -> snd g <> [] }.
Lemma group_add_ok e gs : groups_ok gs -> groups_ok (group_add e gs) /\ (forall f, In f (map fst (group_add e gs)) <-> f = e_factor e \/ In f (map fst gs)).
Proof.
  induction gs as [|[f es] gs IH]; intros [A B N].
  - cbn. split; [|intuition]. constructor. repeat constructor; auto. intros g x [<-|[]] [<-|[]]; auto. intros g [<-|[]]; discriminate.
  - assert (G : groups_ok gs).
    { constructor. cbn in A. inversion A; auto. intros; apply B; auto. right; auto. intros; apply N; right; auto. }
    destruct (IH G) as [[A' B' N'] F]. cbn. destruct (factor_eqb f (e_factor e)) eqn:Q.
    + apply factor_eqb_eq in Q. subst f. cbn. split.
      * constructor; auto.
        intros g x [<-|I] J; cbn in *. apply in_app_iff in J as [J|[<-|[]]]; auto. apply (B (e_factor e, es)); auto. apply (B g); auto.
        intros g [<-|I]; cbn. intros X. apply app_eq_nil in X as [_ X]; discriminate. apply N; right; auto.
      * intuition.
    + cbn. split.
      * constructor. cbn. constructor; auto. rewrite F. intros [->|I]. rewrite (proj2 (factor_eqb_eq _ _) eq_refl) in Q; discriminate. cbn in A. inversion A; auto.
        intros g x [<-|I] J. apply (B (f, es)); auto. left; auto. apply B'; auto.
        intros g [<-|I]. apply (N (f, es)); left; auto. apply N'; auto.
      * intros f'. rewrite F. intuition.
Qed.
Lemma stab_groups_ok l es : groups_ok (stab_groups l es).
Proof.
  unfold stab_groups. assert (G : forall es gs, groups_ok gs -> groups_ok (fold_left (fun gs e => group_add e gs) es gs)).
  { induction es0; cbn; auto. intros. apply IHes0. apply group_add_ok; auto. }
  apply G. constructor. constructor. intros ? ? []. intros ? [].
Qed.
Lemma group_get_some f gs s ss : groups_ok gs -> group_get f gs = Some (s :: ss) -> e_factor s = f /\ In s (List.concat (map snd gs)).
Proof.
  intros G. unfold group_get. destruct (find _ gs) as [[f' es]|] eqn:F; [|discriminate]. cbn. intros E. injection E as ->.
  apply find_some in F as [I Q]. cbn in Q. apply factor_eqb_eq in Q. subst f'.
  split. apply (go_hom _ G (f, s :: ss) s I). left; auto. apply in_concat. exists (s :: ss). split. apply (in_map snd) in I; auto. left; auto.
Qed.
(** Without Y there are at most two groups. *)
Lemma two_groups gs : groups_ok gs -> (forall g, In g gs -> fst g <> FY) -> List.length gs <= 2.
Proof.
  intros G H. rewrite <- (map_length fst). change 2 with (List.length [FX; FZ]). apply NoDup_incl_length. apply G.
  intros f I. apply in_map_iff in I as (g & <- & I). specialize (H g I). destruct (fst g); cbn; auto.
Qed.

(** ** The logical operators *)
(** Every operator is unchanged, or a logical operator multiplied by a generator which has the
    same factor at [q]. *)
Definition moved (q : nat) (l l' : lattice) : Prop :=
  forall o, (forall d, pw l' o d = pw l o d) \/
            (In o (l_logicals l) /\ pw l' o q = zp /\ exists s, In s (l_stabs l) /\ forall d, pw l' o d = pxor (pw l o d) (pw l s d)).
Lemma logical_loop q gs l0 : consistent l0 -> groups_ok gs ->
  (forall s, In s (List.concat (map snd gs)) -> In s (l_edges l0) /\ e_data s = q /\ In (e_op s) (l_stabs l0)) ->
  forall es l l', consistent l -> frame l0 l -> NoDup (map e_op es) -> (forall s d, In s (l_stabs l0) -> pw l s d = pw l0 s d) ->
  (forall e, In e es -> In e (l_edges l0) /\ e_data e = q /\ In (e_op e) (l_logicals l0)) ->
  (forall e d, In e es -> pw l (e_op e) d = pw l0 (e_op e) d) ->
  moved q l0 l ->
  forE (update_logical gs) es l = (l', None) ->
  consistent l' /\ frame l0 l' /\ moved q l0 l' /\ (forall e, In e es -> pw l' (e_op e) q = zp) /\ (forall o d, ~ In o (map e_op es) -> pw l' o d = pw l o d).
Proof.
  intros C0 GO GS. induction es as [|e es IH]; intros l l' C F ND S L U M E.
  - cbn in E. injection E as <-. conjs; auto. intros ? [].
  - cbn [forE] in E. unfold seqE in E. destruct (update_logical gs e l) as [l1 [x|]] eqn:E1; [discriminate|].
    inversion ND as [|? ? NI ND']; subst.
    destruct (L e (or_introl eq_refl)) as (Ie & Qe & Le).
    unfold update_logical in E1. destruct (group_get (e_factor e) gs) as [[|s ss]|] eqn:GG; try discriminate.
    apply group_get_some in GG as [Fs Is]; auto. destruct (GS s Is) as (I1 & I2 & I3).
    destruct (multiply_spec l (e_op e) (e_op s) C) as [[[l2 X] _]|(_ & l2 & X & C1 & F1 & O1 & _ & H)].
    { rewrite (frame_operators l0 l); auto. apply logical_operator; auto. } { rewrite (frame_operators l0 l); auto. apply stab_operator; auto. }
    { congruence. }
    rewrite X in E1. injection E1 as <-.
    assert (Z : pw l2 (e_op e) q = zp).
    { rewrite H, Nat.eqb_refl. rewrite U by (left; auto). rewrite S by auto.
      rewrite <- Qe at 1. rewrite pw_edge by auto. rewrite <- I2. rewrite pw_edge by auto. rewrite Fs. apply pxor_self. }
    destruct (IH l2 l') as (C' & F' & M' & Z' & R'); auto.
    + eapply frame_trans; eauto.
    + intros t d T. rewrite H. destruct (Nat.eqb_spec (e_op e) t); auto. subst t. exfalso. eapply stab_not_logical; [exact C0| |]; eauto.
    + intros; apply L; right; auto.
    + intros x d Ix. rewrite H. destruct (Nat.eqb_spec (e_op e) (e_op x)) as [Q|]; [|apply U; right; auto].
      exfalso. apply NI. rewrite Q. apply in_map; auto.
    + intros o. destruct (Nat.eq_dec (e_op e) o) as [<-|N].
      * right. split; auto. split; auto. exists (e_op s). split; auto. intros d. rewrite H, Nat.eqb_refl, U, S; auto. left; auto.
      * destruct (M o) as [A|(A1 & A2 & s' & A3 & A4)].
        -- left. intros d. rewrite H. destruct (Nat.eqb_spec (e_op e) o); [contradiction|]. auto.
        -- right. split; auto. split. rewrite H. destruct (Nat.eqb_spec (e_op e) o); [contradiction|]. auto.
           exists s'. split; auto. intros d. rewrite H. destruct (Nat.eqb_spec (e_op e) o); [contradiction|]. auto.
    + conjs; auto.
      * intros x [<-|Ix]; auto. rewrite R'; auto.
      * intros o d N. cbn in N. rewrite R' by tauto. rewrite H. destruct (Nat.eqb_spec (e_op e) o); auto. tauto.
Qed.
Lemma moved_commuting D q l l' : consistent l -> frame l l' -> moved q l l' -> commuting D l -> no_y l ->
  commuting D l' /\ no_y l' /\ same_relations D l l' /\ (forall s d, In s (l_stabs l) -> pw l' s d = pw l s d).
Proof.
  intros C F M [A B] Y.
  assert (St : forall s d, In s (l_stabs l) -> pw l' s d = pw l s d).
  { intros s d I. destruct (M s) as [H|(H & _)]; auto. exfalso. eapply stab_not_logical; eauto. }
  assert (BL : forall s g, In s (l_stabs l) -> In g (l_logicals l) -> anti D (pw l s) (pw l' g) = false).
  { intros s g Is Ig. destruct (M g) as [H|(_ & _ & t & It & H)].
    - rewrite (anti_ext D _ (pw l' g) (pw l s) (pw l g)); auto.
    - rewrite (anti_ext D _ (pw l' g) (pw l s) (fun d => pxor (pw l g d) (pw l t d))); auto. rewrite anti_xor_r, B, A; auto. }
  conjs; auto; [split| |].
  - rewrite (fr_stabs _ _ F). intros s t Is It. rewrite (anti_ext D _ _ (pw l s) (pw l t)); auto.
  - rewrite (fr_stabs _ _ F), (fr_logicals _ _ F). intros s g Is Ig. rewrite (anti_ext D _ _ (pw l s) (pw l' g)); auto.
  - intros s d. rewrite (fr_stabs _ _ F). intros I. rewrite St; auto.
  - split. apply F. intros g h. rewrite (fr_logicals _ _ F). intros Ig Ih.
    destruct (M g) as [Hg|(_ & _ & s & Is & Hg)]; destruct (M h) as [Hh|(_ & _ & t & It & Hh)].
    + apply anti_ext; auto.
    + rewrite (anti_ext D _ (pw l' h) (pw l g) (fun d => pxor (pw l h d) (pw l t d))); auto. rewrite anti_xor_r.
      rewrite (anti_comm D (pw l g) (pw l t)), (B t g) by auto. rewrite xorb_false_r. auto.
    + rewrite (anti_ext D (pw l' g) _ (fun d => pxor (pw l g d) (pw l s d)) (pw l h)); auto. rewrite anti_xor_l, (B s h), xorb_false_r; auto.
    + rewrite (anti_ext D (pw l' g) (pw l' h) (fun d => pxor (pw l g d) (pw l s d)) (fun d => pxor (pw l h d) (pw l t d))); auto.
      rewrite anti_xor_l, !anti_xor_r, (B s h), (A s t), (anti_comm D (pw l g) (pw l t)), (B t g), !xorb_false_r by auto. auto.
Qed.

(** ** Superstabilisers of the groups *)
Record kept (l l' : lattice) : Prop := mkKept {
  kt_data : l_data l' = l_data l;
  kt_logicals : l_logicals l' = l_logicals l;
  kt_stabs : forall s, In s (l_stabs l') -> In s (l_stabs l);
  kt_gauge : l_gauge l' = l_gauge l;
  kt_join : l_join l' = l_join l;
  kt_kind : forall i, v_kind (l_heap l' i) = v_kind (l_heap l i) }.
Lemma kept_refl l : kept l l.
Proof. constructor; auto. Qed.
Lemma kept_trans a b c : kept a b -> kept b c -> kept a c.
Proof. intros [] []. constructor; try congruence; auto. Qed.
Lemma frame_kept l l' : frame l l' -> kept l l'.
Proof. intros []. constructor; auto. intros; congruence. Qed.

Definition pair_group (l : lattice) (q : nat) (g : list edge) : Prop :=
  exists e1 e2, g = [e1; e2] /\ e_op e1 <> e_op e2 /\ In (e_op e1) (l_stabs l) /\ In (e_op e2) (l_stabs l) /\
    pw l (e_op e1) q = pw l (e_op e2) q.
Lemma superstab_step D q l l' g : consistent l -> commuting D l -> no_y l -> pair_group l q g ->
  create_superstab_from_edges g l = (l', None) ->
  consistent l' /\ commuting D l' /\ no_y l' /\ kept l l' /\ same_relations D l l' /\
  (forall s, In s (map e_op g) -> In s (l_stabs l') -> pw l' s q = zp) /\
  (forall s, ~ In s (map e_op g) -> (In s (l_stabs l') <-> In s (l_stabs l))) /\
  (forall o d, ~ In o (map e_op g) -> pw l' o d = pw l o d).
Proof.
  intros C [A B] Y (e1 & e2 & -> & N & S1 & S2 & Q) E.
  unfold create_superstab_from_edges in E.
  rewrite seq_assert in E by (apply (in_stabs l _ C); auto). rewrite seq_assert in E by (apply (in_stabs l _ C); auto).
  destruct (superstab_spec l (e_op e1) (e_op e2) C S1 S2 N) as [[[l2 X] _]|(Cm & l2 & X & C' & Dt & St & Lg & Gg & Jn & O & Ff & Kd & Ps & Ix & H)].
  { congruence. }
  rewrite X in E. injection E as <-.
  assert (In' : forall s, In s (l_stabs l2) <-> In s (l_stabs l) /\ s <> e_op e2) by (intros; rewrite St; apply in_without).
  assert (P : forall s, In s (l_stabs l2) -> (s = e_op e1 /\ forall d, pw l2 s d = pxor (pw l (e_op e1) d) (pw l (e_op e2) d)) \/ (s <> e_op e1 /\ forall d, pw l2 s d = pw l s d)).
  { intros s I. apply In' in I as [I Ns]. destruct (Nat.eq_dec s (e_op e1)) as [->|N1]; [left|right]; split; auto; intros d; rewrite H.
    - rewrite Nat.eqb_refl. auto.
    - destruct (Nat.eqb_spec (e_op e1) s); [congruence|]. destruct (Nat.eqb_spec (e_op e2) s); congruence. }
  assert (PL : forall g d, In g (l_logicals l) -> pw l2 g d = pw l g d).
  { intros g d I. rewrite H. destruct (Nat.eqb_spec (e_op e1) g) as [<-|]. exfalso; apply (stab_not_logical l (e_op e1) C); auto.
    destruct (Nat.eqb_spec (e_op e2) g) as [<-|]; auto. exfalso; apply (stab_not_logical l (e_op e2) C); auto. }
  assert (AX : forall s h, In s (l_stabs l2) -> (anti D (pw l (e_op e1)) h = false) -> anti D (pw l (e_op e2)) h = false -> anti D (pw l s) h = false -> anti D (pw l2 s) h = false).
  { intros s h I H1 H2 H3. destruct (P s I) as [[_ Hs]|[_ Hs]].
    - rewrite (anti_ext D _ h (fun d => pxor (pw l (e_op e1) d) (pw l (e_op e2) d)) h); auto. rewrite anti_xor_l, H1, H2. auto.
    - rewrite (anti_ext D _ h (pw l s) h); auto. }
  split; [auto|]. split; [split|split; [|split; [|split; [|split; [|split]]]]].
  - intros s t Is It. pose proof (proj1 (proj1 (In' s) Is)) as Is'. pose proof (proj1 (proj1 (In' t) It)) as It'.
    assert (X1 : forall u, In u (l_stabs l) -> anti D (pw l u) (pw l2 t) = false).
    { intros u Iu. rewrite anti_comm. apply AX; auto. }
    apply AX; auto.
  - intros s g Is Ig. pose proof (proj1 (proj1 (In' s) Is)) as Is'. rewrite Lg in Ig.
    rewrite (anti_ext D (pw l2 s) _ (pw l2 s) (pw l g)); auto.
  - intros s d I. pose proof (proj1 (proj1 (In' s) I)) as I'. destruct (P s I) as [[_ Hs]|[_ Hs]]; rewrite Hs; auto.
    specialize (Cm d). destruct Cm as [Z|[Z|Z]]; rewrite ?Z.
    + rewrite pxor_zero_l; auto. + rewrite pxor_zero_r; auto. + rewrite pxor_self. discriminate.
  - constructor; auto. intros s I. apply In' in I; tauto.
  - split; auto. intros g h. rewrite Lg. intros Ig Ih. apply anti_ext; auto.
  - cbn. intros s [<-|[<-|[]]] I.
    + rewrite H, Nat.eqb_refl, Q, pxor_self. auto.
    + apply In' in I. tauto.
  - cbn. intros s N'. rewrite In'. intuition.
  - cbn. intros o d N'. rewrite H. destruct (Nat.eqb_spec (e_op e1) o); [tauto|]. destruct (Nat.eqb_spec (e_op e2) o); tauto.
Qed.
Lemma same_trans D a b c : same_relations D a b -> same_relations D b c -> same_relations D a c.
Proof. intros [A1 A2] [B1 B2]. split. congruence. intros g h Ig Ih. rewrite B2 by auto. apply A2; congruence. Qed.
Lemma same_refl D a : same_relations D a a.
Proof. split; auto. Qed.

Lemma superstab_groups D q gs : forall l l', consistent l -> commuting D l -> no_y l ->
  NoDup (map e_op (List.concat gs)) -> (forall g, In g gs -> pair_group l q g) ->
  forE create_superstab_from_edges gs l = (l', None) ->
  consistent l' /\ commuting D l' /\ no_y l' /\ kept l l' /\ same_relations D l l' /\
  (forall s, In s (map e_op (List.concat gs)) -> In s (l_stabs l') -> pw l' s q = zp) /\
  (forall s, ~ In s (map e_op (List.concat gs)) -> (In s (l_stabs l') <-> In s (l_stabs l))) /\
  (forall o d, ~ In o (map e_op (List.concat gs)) -> pw l' o d = pw l o d).
Proof.
  induction gs as [|g gs IH]; intros l l' C A Y ND G E.
  - cbn in E. injection E as <-. split; auto. split; auto. split; auto. split. apply kept_refl. split. apply same_refl. cbn. intuition.
  - cbn [forE] in E. unfold seqE in E. destruct (create_superstab_from_edges g l) as [l1 [x|]] eqn:E1; [discriminate|].
    destruct (superstab_step D q l l1 g C A Y (G g (or_introl eq_refl)) E1) as (C1 & A1 & Y1 & K1 & R1 & Z1 & S1 & P1).
    cbn in ND. rewrite map_app in ND. apply NoDup_app_inv in ND as (ND1 & ND2 & DJ).
    destruct (IH l1 l') as (C' & A' & Y' & K' & R' & Z' & S' & P'); auto.
    { intros g' I. destruct (G g' (or_intror I)) as (e1 & e2 & -> & N & T1 & T2 & Q).
      assert (forall e, In e [e1; e2] -> ~ In (e_op e) (map e_op g)).
      { intros e Ie J. apply (DJ (e_op e) J). apply in_map. apply in_concat. exists [e1; e2]; auto. }
      exists e1, e2. conjs; auto. apply S1; auto. apply H; cbn; auto. apply S1; auto. apply H; cbn; auto. rewrite !P1; auto; apply H; cbn; auto. }
    split; auto. split; auto. split; auto. split. eapply kept_trans; eauto. split. eapply same_trans; eauto.
    cbn [List.concat]. split; [|split].
    + intros s. rewrite map_app, in_app_iff. intros [I|I] J; auto.
      assert (~ In s (map e_op (List.concat gs))) by (intros X; eapply DJ; eauto). rewrite P'; auto. apply Z1; auto. apply S'; auto.
    + intros s. rewrite map_app, in_app_iff. intros N. rewrite S', S1 by tauto. tauto.
    + intros o d. rewrite map_app, in_app_iff. intros N. rewrite P', P1 by tauto. auto.
Qed.

(** ** Dropping all factors at [q] *)
Lemma zeroed_commuting D q l l' : commuting D l -> no_y l -> l_logicals l' = l_logicals l ->
  (forall s, In s (l_stabs l') -> In s (l_stabs l)) ->
  (forall o d, In o (l_stabs l' ++ l_logicals l') -> pw l' o d = if d =? q then zp else pw l o d) ->
  (forall g, In g (l_logicals l) -> pw l g q = zp) ->
  (forall s t, In s (l_stabs l') -> In t (l_stabs l') -> sp (pw l s q) (pw l t q) = false) ->
  commuting D l' /\ no_y l' /\ same_relations D l l'.
Proof.
  intros [A B] Y L S P Z Q.
  assert (E : forall s t, In s (l_stabs l' ++ l_logicals l') -> In t (l_stabs l' ++ l_logicals l') -> sp (pw l s q) (pw l t q) = false ->
              anti D (pw l' s) (pw l' t) = anti D (pw l s) (pw l t)).
  { intros s t Is It H. apply anti_terms. intros d _. rewrite !P by auto. destruct (Nat.eqb_spec d q); auto. subst. rewrite H. auto. }
  split; [split|split; [|split]]; auto.
  - intros s t Is It. rewrite E; auto; apply in_app_iff; auto.
  - intros s g Is Ig. rewrite E; [apply B; auto; congruence|apply in_app_iff; auto|apply in_app_iff; auto|]. rewrite (Z g) by congruence. apply sp_zero_r.
  - intros s d I. rewrite P by (apply in_app_iff; auto). destruct (d =? q); auto. discriminate.
  - intros g h Ig Ih. apply E; auto; try (apply in_app_iff; auto). rewrite (Z g) by congruence. apply sp_zero_l.
Qed.

Lemma remove_two_spec q l l' g : consistent l -> (forall e, In e g -> e_data e = q) -> List.length g = 2 ->
  remove_two g l = (l', None) ->
  consistent l' /\ frame l l' /\ forall o d, pw l' o d = if (d =? q) && memb o (map e_op g) then zp else pw l o d.
Proof.
  intros C Dq Len E. destruct g as [|e1 [|e2 [|]]]; try discriminate. cbn [remove_two] in E. unfold seqE in E.
  destruct (remove_edge e1 l) as [l1 [|]] eqn:E1; [discriminate|].
  destruct (remove_edge_pw l e1 l1 C E1) as (C1 & F1 & _ & _ & H1). destruct (remove_edge_pw l1 e2 l' C1 E) as (C2 & F2 & _ & _ & H2).
  split; auto. split. eapply frame_trans; eauto. intros o d. rewrite H2, H1, !Dq by (cbn; auto). cbn [map memb existsb].
  rewrite (Nat.eqb_sym d q), (Nat.eqb_sym o (e_op e1)), (Nat.eqb_sym o (e_op e2)).
  destruct (e_op e1 =? o), (e_op e2 =? o), (q =? d); auto.
Qed.
Lemma remove_two_groups q gs : forall l l', consistent l -> (forall e, In e (List.concat gs) -> e_data e = q) -> (forall g, In g gs -> List.length g = 2) ->
  forE remove_two gs l = (l', None) ->
  consistent l' /\ frame l l' /\ forall o d, pw l' o d = if (d =? q) && memb o (map e_op (List.concat gs)) then zp else pw l o d.
Proof.
  induction gs as [|g gs IH]; intros l l' C Dq Len E.
  - cbn in E. injection E as <-. split; auto. split. apply frame_refl. intros. rewrite andb_false_r. auto.
  - cbn [forE] in E. unfold seqE in E. destruct (remove_two g l) as [l1 [|]] eqn:E1; [discriminate|].
    destruct (remove_two_spec q l l1 g C) as (C1 & F1 & H1); auto.
    { intros; apply Dq. apply in_concat_cons; auto. } { apply Len; left; auto. }
    destruct (IH l1 l' C1) as (C2 & F2 & H2); auto. { intros; apply Dq. apply in_concat_cons; auto. } { intros; apply Len; right; auto. }
    split; auto. split. eapply frame_trans; eauto. intros o d. rewrite H2, H1. cbn [List.concat]. rewrite map_app. unfold memb. rewrite existsb_app.
    destruct (d =? q), (existsb (Nat.eqb o) (map e_op g)), (existsb (Nat.eqb o) (map e_op (List.concat gs))); auto.
Qed.

Lemma remove_edges_loop s es : forall l l', consistent l -> (forall e, In e es -> e_op e = s) -> forE remove_edge es l = (l', None) ->
  consistent l' /\ frame l l' /\ forall o d, o <> s -> pw l' o d = pw l o d.
Proof.
  induction es as [|e es IH]; intros l l' C H E.
  - cbn in E. injection E as <-. split; auto. split. apply frame_refl. auto.
  - cbn [forE] in E. unfold seqE in E. destruct (remove_edge e l) as [l1 [|]] eqn:E1; [discriminate|].
    destruct (remove_edge_pw l e l1 C E1) as (C1 & F1 & _ & _ & H1).
    destruct (IH l1 l' C1) as (C2 & F2 & H2); auto. { intros; apply H; right; auto. }
    split; auto. split. eapply frame_trans; eauto. intros o d N. rewrite H2, H1 by auto. rewrite (H e (or_introl eq_refl)).
    destruct (Nat.eqb_spec s o); auto. congruence.
Qed.
Lemma remove_vertex_pw l i l' : consistent l -> remove_vertex i l = (l', None) -> consistent l' /\ dropped i l l' /\ forall o d, pw l' o d = pw l o d.
Proof.
  intros C E. pose proof (remove_vertex_spec l i C) as H. destruct (memb i (l_vertices l)); [|congruence].
  destruct (v_edges (l_heap l i)); [|congruence]. destruct H as (l2 & X & C' & D). rewrite X in E. injection E as <-.
  conjs; auto. intros o d. unfold pw. rewrite (dr_edges _ _ _ D). auto.
Qed.
Lemma remove_stabilizer_pw l s l' : consistent l -> In s (l_stabs l) -> remove_stabilizer s l = (l', None) ->
  consistent l' /\ kept l l' /\ (forall t, In t (l_stabs l') <-> In t (l_stabs l) /\ t <> s) /\ forall o d, o <> s -> pw l' o d = pw l o d.
Proof.
  intros C S E. unfold remove_stabilizer, seqE in E. destruct (forE remove_edge (v_edges (l_heap l s)) l) as [l1 [|]] eqn:E1; [discriminate|].
  destruct (remove_edges_loop s (v_edges (l_heap l s)) l l1 C) as (C1 & F1 & H1); auto.
  { intros e I. rewrite op_edges in I; auto. apply filter_In in I as [_ I]. apply Nat.eqb_eq; auto. apply stab_operator; auto. }
  destruct (remove_vertex_pw l1 s l' C1 E) as (C2 & D2 & H2).
  assert (St : forall t, In t (l_stabs l') <-> In t (l_stabs l) /\ t <> s) by (intros t; rewrite (dr_stabs _ _ _ D2), in_without, (fr_stabs _ _ F1); tauto).
  conjs; auto.
  - constructor.
    + rewrite (dr_data _ _ _ D2), (fr_data _ _ F1). apply without_absent. intros I. apply (data_not_op l s C I). apply stab_operator; auto.
    + rewrite (dr_logicals _ _ _ D2), (fr_logicals _ _ F1). apply without_absent. intros I. apply (stab_not_logical l s C); auto.
    + intros t I. apply St in I. tauto.
    + rewrite (dr_gauge _ _ _ D2). apply F1.
    + rewrite (dr_join _ _ _ D2). apply F1.
    + intros i. rewrite (dr_heap _ _ _ D2). apply F1.
  - intros o d N. rewrite H2. auto.
Qed.

(** Operators of the groups of one edge, which are removed. *)
Definition singles (gs : list (list edge)) : list nat := map e_op (List.concat (filter (fun g => List.length g =? 1) gs)).
Lemma boundary_groups q gs : forall l l', consistent l -> NoDup (map e_op (List.concat gs)) ->
  (forall e, In e (List.concat gs) -> e_data e = q /\ In (e_op e) (l_stabs l)) ->
  forE boundary_remove gs l = (l', None) ->
  consistent l' /\ kept l l' /\ (forall g, In g gs -> List.length g = 1 \/ List.length g = 2) /\
  (forall s, In s (l_stabs l') <-> In s (l_stabs l) /\ ~ In s (singles gs)) /\
  forall o d, ~ In o (singles gs) -> pw l' o d = if (d =? q) && memb o (map e_op (List.concat gs)) then zp else pw l o d.
Proof.
  induction gs as [|g gs IH]; intros l l' C ND H E.
  - cbn in E. injection E as <-. split; auto. split. apply kept_refl. split. intros ? []. split. cbn; tauto. intros. rewrite andb_false_r. auto.
  - cbn [forE] in E. unfold seqE in E. destruct (boundary_remove g l) as [l1 [|]] eqn:E1; [discriminate|].
    cbn in ND. rewrite map_app in ND. apply NoDup_app_inv in ND as (ND1 & ND2 & DJ).
    destruct g as [|e1 [|e2 [|]]]; try discriminate.
    + (* one edge *)
      destruct (H e1) as [Q1 S1]; [left; auto|].
      destruct (remove_stabilizer_pw l (e_op e1) l1 C S1 E1) as (C1 & K1 & St1 & P1).
      assert (N1 : forall e, In e (List.concat gs) -> e_op e <> e_op e1).
      { intros e I X. apply (DJ (e_op e1)). left; auto. rewrite <- X. apply in_map; auto. }
      destruct (IH l1 l' C1) as (C2 & K2 & L2 & St2 & P2); auto.
      { intros e I. destruct (H e) as [Q S]. right; auto. split; auto. apply St1; auto. }
      assert (SG : forall s, In s (singles ([e1] :: gs)) <-> s = e_op e1 \/ In s (singles gs)) by (intros; unfold singles; cbn; intuition).
      split; auto. split. eapply kept_trans; eauto. split. intros g [<-|I]; auto. split.
      * intros s. rewrite St2, St1, SG. tauto.
      * intros o d N. rewrite SG in N. rewrite P2 by tauto. rewrite P1 by tauto. cbn [List.concat map memb existsb app]. fold (memb o (map e_op (List.concat gs))).
        destruct (Nat.eqb_spec o (e_op e1)); [tauto|]. auto.
    + (* two edges *)
      assert (R2 : remove_two [e1; e2] l = (l1, None)) by exact E1.
      destruct (remove_two_spec q l l1 [e1; e2] C) as (C1 & F1 & P1); auto.
      { intros e I. apply H. apply in_concat_cons; auto. }
      destruct (IH l1 l' C1) as (C2 & K2 & L2 & St2 & P2); auto.
      { intros e I. rewrite (fr_stabs _ _ F1). apply H. apply in_concat_cons; auto. }
      assert (SG : forall s, In s (singles ([e1; e2] :: gs)) <-> In s (singles gs)) by (intros; unfold singles; cbn; tauto).
      split; auto. split. eapply kept_trans; [apply frame_kept; eauto|auto]. split. intros g [<-|I]; auto. split.
      * intros s. rewrite St2, SG, (fr_stabs _ _ F1). tauto.
      * intros o d N. rewrite SG in N. rewrite P2, P1 by auto. cbn [List.concat]. rewrite map_app. unfold memb. rewrite existsb_app.
        destruct (d =? q), (existsb (Nat.eqb o) (map e_op [e1; e2])), (existsb (Nat.eqb o) (map e_op (List.concat gs))); auto.
Qed.

(** ** Removal of one data qubit *)
Lemma sp_same a b c : (a = zp \/ a = c) -> (b = zp \/ b = c) -> sp a b = false.
Proof. intros [->| ->] [->| ->]; auto using sp_self, sp_zero_r. Qed.

Lemma handle_spec D q gs l l' :
  consistent l -> commuting D l -> no_y l -> groups_ok gs -> NoDup (map e_op (List.concat (map snd gs))) ->
  (forall e, In e (List.concat (map snd gs)) -> e_data e = q /\ In (e_op e) (l_stabs l) /\ pw l (e_op e) q = fbits (e_factor e)) ->
  (forall s, In s (l_stabs l) -> pw l s q <> zp -> In s (map e_op (List.concat (map snd gs)))) ->
  (forall g, In g (l_logicals l) -> pw l g q = zp) ->
  (l_gauge l = "none" \/ l_gauge l = "half")%string -> l_join l = false ->
  handle_edgegroups (map snd gs) l = (l', None) ->
  consistent l' /\ commuting D l' /\ no_y l' /\ kept l l' /\ same_relations D l l'.
Proof.
  intros C A Y GO ND HE HS HL GG JJ E.
  assert (HY : forall g, In g gs -> fst g <> FY).
  { intros g I X. pose proof (go_ne _ GO g I) as NE. destruct (snd g) as [|e es] eqn:Eg; [congruence|].
    assert (Ie : In e (snd g)) by (rewrite Eg; left; auto).
    pose proof (go_hom _ GO g e I Ie) as Fe.
    destruct (HE e) as (_ & S & P). { apply in_concat. exists (snd g). split; auto. apply in_map; auto. }
    apply (Y (e_op e) q S). rewrite P, Fe, X. auto. }
  pose proof (two_groups gs GO HY) as TG.
  assert (PG : forall g, In g (map snd gs) -> List.length g = 2 -> pair_group l q g).
  { intros g I L. apply in_map_iff in I as (fg & <- & I). destruct (snd fg) as [|e1 [|e2 [|]]] eqn:Eg; try discriminate. exists e1, e2.
    assert (I1 : In e1 (List.concat (map snd gs))) by (apply in_concat; exists (snd fg); split; [apply in_map; auto|rewrite Eg; cbn; auto]).
    assert (I2 : In e2 (List.concat (map snd gs))) by (apply in_concat; exists (snd fg); split; [apply in_map; auto|rewrite Eg; cbn; auto]).
    destruct (HE e1 I1) as (_ & S1 & P1), (HE e2 I2) as (_ & S2 & P2). conjs; auto.
    - intros X. apply in_split in I as (a & b & ->). rewrite map_app, concat_app in ND. cbn in ND. rewrite Eg in ND.
      rewrite map_app in ND. apply NoDup_app_inv in ND as (_ & ND & _). cbn in ND. inversion ND; subst. apply H1. left; auto.
    - rewrite P1, P2. rewrite (go_hom _ GO fg e1 I), (go_hom _ GO fg e2 I); auto; rewrite Eg; cbn; auto. }
  unfold handle_edgegroups in E. rewrite JJ in E.
  destruct (forallb (fun es => List.length es =? 2) (map snd gs)) eqn:All.
  - assert (L2 : forall g, In g (map snd gs) -> List.length g = 2).
    { intros g I. rewrite forallb_forall in All. apply Nat.eqb_eq. apply All; auto. }
    destruct GG as [GG|GG]; rewrite GG in E; cbn [String.eqb Ascii.eqb Bool.eqb] in E.
    + destruct (superstab_groups D q (map snd gs) l l' C A Y ND) as (C' & A' & Y' & K' & R' & _); auto.
    + destruct gs as [|g1 gs]; [discriminate|]. cbn [map] in E. unfold seqE in E.
      destruct (create_superstab_from_edges (snd g1) l) as [l1 [|]] eqn:E1; [discriminate|].
      destruct (superstab_step D q l l1 (snd g1) C A Y) as (C1 & A1 & Y1 & K1 & R1 & Z1 & S1 & P1); auto.
      { apply PG; [left; auto|apply L2; left; auto]. }
      cbn in ND. rewrite map_app in ND. apply NoDup_app_inv in ND as (ND1 & ND2 & DJ).
      destruct (remove_two_groups q (map snd gs) l1 l' C1) as (C2 & F2 & H2); auto.
      { intros e I. apply HE. cbn. apply in_app_iff; auto. } { intros; apply L2; right; auto. }
      assert (ZZ : forall o, In o (l_stabs l1 ++ l_logicals l1) -> memb o (map e_op (List.concat (map snd gs))) = false -> pw l1 o q = zp).
      { intros o I M. apply memb_notIn in M. apply in_app_iff in I as [I|I].
        - destruct (in_dec Nat.eq_dec o (map e_op (snd g1))) as [J|J]; auto.
          rewrite P1 by auto. apply S1 in I; auto. destruct (pw l o q) as [[] []] eqn:W; auto; exfalso;
          (assert (X : In o (map e_op (List.concat (map snd (g1 :: gs))))) by (apply HS; auto; rewrite W; discriminate);
           cbn in X; rewrite map_app, in_app_iff in X; tauto).
        - rewrite (kt_logicals _ _ K1) in I. destruct (in_dec Nat.eq_dec o (map e_op (snd g1))) as [J|J].
          + exfalso. apply in_map_iff in J as (e & <- & J). eapply stab_not_logical; [exact C| |exact I]. apply HE. cbn. apply in_app_iff; auto.
          + rewrite P1 by auto. auto. }
      destruct (zeroed_commuting D q l1 l') as (A2 & Y2 & R2); auto.
      { apply F2. } { intros s. rewrite (fr_stabs _ _ F2). auto. }
      { intros o d I. rewrite H2. rewrite (fr_stabs _ _ F2), (fr_logicals _ _ F2) in I. destruct (Nat.eqb_spec d q); auto. subst d. cbn [andb].
        destruct (memb o (map e_op (List.concat (map snd gs)))) eqn:M; auto. }
      { intros g I. apply ZZ. apply in_app_iff; auto. apply memb_notIn. intros J. apply in_map_iff in J as (e & <- & J).
        eapply stab_not_logical; [exact C| |]. apply HE. cbn. apply in_app_iff; right; eauto. rewrite <- (kt_logicals _ _ K1). auto. }
      { (* the remaining group has one factor *)
        assert (One : forall s, In s (l_stabs l1) -> pw l1 s q = zp \/ match gs with [] => False | g2 :: _ => pw l1 s q = fbits (fst g2) end).
        { intros s I. destruct (memb s (map e_op (List.concat (map snd gs)))) eqn:M.
          - right. apply memb_In in M. apply in_map_iff in M as (e & <- & J).
            destruct gs as [|g2 [|]]; [destruct J| |cbn in TG; lia]. cbn in J. rewrite app_nil_r in J.
            rewrite P1. + destruct (HE e) as (_ & _ & P). cbn. rewrite app_nil_r. apply in_app_iff; auto. rewrite P.
              rewrite (go_hom _ GO g2 e); auto. right; left; auto.
            + intros X. apply (DJ _ X). cbn. rewrite app_nil_r. apply in_map; auto.
          - left. apply ZZ; auto. apply in_app_iff; auto. }
        intros s t Is It. rewrite (fr_stabs _ _ F2) in Is, It. specialize (One s Is) as Os. specialize (One t It) as Ot.
        destruct gs as [|g2 gs]. destruct Os as [Os|[]]. rewrite Os. auto. eapply sp_same; eauto. }
      conjs; auto. eapply kept_trans; [|apply frame_kept]; eauto. eapply same_trans; eauto.
  - destruct (boundary_groups q (map snd gs) l l' C ND) as (C2 & K2 & L2 & St2 & P2); auto.
    { intros e I. destruct (HE e I) as (? & ? & ?). auto. }
    assert (SS : forall o, In o (singles (map snd gs)) -> In o (l_stabs l)).
    { intros o I. unfold singles in I. apply in_map_iff in I as (e & <- & I). apply HE. apply in_concat in I as (g & I1 & I2). apply filter_In in I1 as [I1 _].
      apply in_concat. eauto. }
    destruct (zeroed_commuting D q l l') as (A2 & Y2 & R2); auto.
    { apply K2. } { apply K2. }
    { intros o d I.
      assert (N : ~ In o (singles (map snd gs))).
      { apply in_app_iff in I as [I|I]. apply St2 in I; tauto. rewrite (kt_logicals _ _ K2) in I. intros J. eapply stab_not_logical; [exact C| |exact I]. auto. }
      rewrite P2 by auto. destruct (Nat.eqb_spec d q); auto. subst d. cbn [andb]. destruct (memb o (map e_op (List.concat (map snd gs)))) eqn:M; auto.
      apply memb_notIn in M. apply in_app_iff in I as [I|I].
      - apply St2 in I as [I _]. destruct (pw l o q) as [[] []] eqn:W; auto; exfalso; apply M; apply HS; auto; rewrite W; discriminate.
      - rewrite (kt_logicals _ _ K2) in I. auto. }
    { (* surviving generators with a factor at q are in the one group of two *)
      assert (One : forall s, In s (l_stabs l') -> pw l s q = zp \/ exists g e, In g gs /\ List.length (snd g) = 2 /\ In e (snd g) /\ e_op e = s /\ pw l s q = fbits (fst g)).
      { intros s I. apply St2 in I as [I N]. destruct (pw l s q) as [bx bz] eqn:W.
        destruct (bool_dec bx false) as [->|]; [destruct (bool_dec bz false) as [->|]; [left; auto|]|].
        all: right; assert (J : In s (map e_op (List.concat (map snd gs)))) by (apply HS; auto; rewrite W; intros X; injection X; congruence).
        all: apply in_map_iff in J as (e & Es & J); destruct (HE e J) as (_ & _ & P); apply in_concat in J as (g' & J1 & J2); apply in_map_iff in J1 as (g & <- & J1).
        all: exists g, e; conjs; auto; [|rewrite <- (go_hom _ GO g e J1 J2), <- P, Es; auto].
        all: destruct (L2 (snd g)) as [X|X]; auto; [apply in_map; auto|]; exfalso; apply N; unfold singles; apply in_map_iff; exists e; split; auto.
        all: apply in_concat; exists (snd g); split; auto; apply filter_In; split; [apply in_map; auto|apply Nat.eqb_eq; auto]. }
      intros s t Is It. destruct (One s Is) as [-> |(g & e & G1 & G2 & G3 & G4 & ->)]; auto. destruct (One t It) as [-> |(g' & e' & G1' & G2' & G3' & G4' & ->)]; [apply sp_zero_r|].
      assert (g = g').
      { (* some group has one element, so there is only one of two *)
        destruct gs as [|a [|b [|]]]; [destruct G1| | |cbn in TG; lia].
        - destruct G1 as [->|[]], G1' as [->|[]]; auto.
        - cbn in All. destruct G1 as [<-|[<-|[]]], G1' as [<-|[<-|[]]]; auto; exfalso; rewrite G2, G2' in All; discriminate. }
      subst g'. apply sp_self. }
Qed.

Lemma remove_dataqubit_commuting D q l l' :
  consistent l -> In q (l_data l) -> commuting D l -> no_y l ->
  (l_gauge l = "none" \/ l_gauge l = "half")%string -> l_join l = false ->
  remove_dataqubit q l = (l', None) ->
  consistent l' /\ commuting D l' /\ no_y l' /\ same_relations D l l' /\ l_data l' = without q (l_data l) /\
  l_gauge l' = l_gauge l /\ l_join l' = l_join l /\ (forall s, In s (l_stabs l') -> In s (l_stabs l)) /\
  (forall i, v_kind (l_heap l' i) = v_kind (l_heap l i)).
Proof.
  intros C Q A Y GG JJ E. unfold remove_dataqubit in E. cbv zeta in E. set (es := v_edges (l_heap l q)) in *.
  destruct (existsb _ es) eqn:X; [discriminate|]. clear X.
  pose proof (nodup_data_ops l q C Q) as ND. fold es in ND. destruct (stab_groups_facts l es ND) as [G1 G2].
  pose proof (stab_groups_ok l es) as GO. set (gs := stab_groups l es) in *.
  assert (Hes : forall e, In e es <-> In e (l_edges l) /\ e_data e = q).
  { intros e. unfold es. rewrite data_edges by auto. rewrite filter_In, Nat.eqb_eq. tauto. }
  assert (HS : forall s, In s (List.concat (map snd gs)) -> In s (l_edges l) /\ e_data s = q /\ In (e_op s) (l_stabs l)).
  { intros s I. apply G2 in I as [I T]. apply Hes in I as [I1 I2]. conjs; auto. apply in_stabs; auto. split; auto.
    destruct (cons_ends _ C s I1) as [_ O]. apply in_operators in O; tauto. }
  unfold seqE in E. set (les := filter (fun e => is_logical (l_heap l (e_op e))) es) in *.
  destruct (forE (update_logical gs) les l) as [l1 [|]] eqn:E1; [discriminate|].
  assert (Hl : forall e, In e les -> In e (l_edges l) /\ e_data e = q /\ In (e_op e) (l_logicals l)).
  { intros e I. apply filter_In in I as [I T]. apply Hes in I as [I1 I2]. conjs; auto. apply in_logicals; auto. split; auto.
    destruct (cons_ends _ C e I1) as [_ O]. apply in_operators in O; tauto. }
  destruct (logical_loop q gs l C GO HS les l l1) as (C1 & F1 & M1 & Z1 & R1); auto.
  { apply frame_refl. } { apply NoDup_map_filter; auto. } { intros o; left; auto. }
  destruct (moved_commuting D q l l1 C F1 M1 A Y) as (A1 & Y1 & S1 & P1).
  assert (ZL : forall g, In g (l_logicals l1) -> pw l1 g q = zp).
  { intros g I. rewrite (fr_logicals _ _ F1) in I. destruct (in_dec Nat.eq_dec g (map e_op les)) as [J|J].
    - apply in_map_iff in J as (e & <- & J). auto.
    - rewrite R1 by auto. destruct (pw_cases l g q C) as [[Z _]|(e & Ie & En & _)]; auto. exfalso. apply J. injection En as <- Eq.
      apply in_map. apply filter_In. split. apply Hes; auto. apply in_logicals in I; tauto. }
  destruct (handle_edgegroups (map snd gs) l1) as [l2 [|]] eqn:E2; [discriminate|].
  destruct (handle_spec D q gs l1 l2) as (C2 & A2 & Y2 & K2 & S2); auto.
  { intros e I. destruct (HS e I) as (I1 & I2 & I3). conjs; auto. rewrite (fr_stabs _ _ F1); auto. rewrite P1 by auto. rewrite <- I2. apply pw_edge; auto. }
  { intros s I N. rewrite (fr_stabs _ _ F1) in I. rewrite P1 in N by auto. destruct (pw_nonzero l s q C N) as (e & Ie & En & _). injection En as <- Eq.
    apply in_map. apply G2. split. apply Hes; auto. apply in_stabs in I; tauto. }
  { rewrite (fr_gauge _ _ F1). auto. } { rewrite (fr_join _ _ F1). auto. }
  destruct (remove_vertex_pw l2 q l' C2 E) as (C' & D' & P').
  assert (Lg : l_logicals l' = l_logicals l2).
  { rewrite (dr_logicals _ _ _ D'). apply without_absent. intros I. apply (data_not_op l2 q C2). rewrite (kt_data _ _ K2), (fr_data _ _ F1); auto. apply logical_operator; auto. }
  assert (St : l_stabs l' = l_stabs l2).
  { rewrite (dr_stabs _ _ _ D'). apply without_absent. intros I. apply (data_not_op l2 q C2). rewrite (kt_data _ _ K2), (fr_data _ _ F1); auto. apply stab_operator; auto. }
  conjs; auto.
  - destruct A2 as [Aa Ab]. split.
    + intros s t. rewrite St. intros Is It. rewrite (anti_ext D _ _ (pw l2 s) (pw l2 t)); auto.
    + intros s g. rewrite St, Lg. intros Is It. rewrite (anti_ext D _ _ (pw l2 s) (pw l2 g)); auto.
  - intros s d. rewrite St, P'. auto.
  - eapply same_trans; [exact S1|]. eapply same_trans; [exact S2|]. split; auto. intros; apply anti_ext; auto.
  - rewrite (dr_data _ _ _ D'), (kt_data _ _ K2), (fr_data _ _ F1). auto.
  - rewrite (dr_gauge _ _ _ D'), (kt_gauge _ _ K2). apply F1.
  - rewrite (dr_join _ _ _ D'), (kt_join _ _ K2). apply F1.
  - intros s. rewrite St. intros I. apply K2 in I. rewrite (fr_stabs _ _ F1) in I. auto.
  - intros i. rewrite (dr_heap _ _ _ D'), (kt_kind _ _ K2). apply F1.
Qed.

Lemma remove_many_commuting D qs : forall l l',
  consistent l -> NoDup (map snd qs) -> (forall x : pos * nat, In x qs -> In (snd x) (l_data l)) -> commuting D l -> no_y l ->
  (l_gauge l = "none" \/ l_gauge l = "half")%string -> l_join l = false ->
  forE (fun pq => seqE (assertE (fun l => is_data (l_heap l (snd pq)))) (remove_dataqubit (snd pq))) qs l = (l', None) ->
  consistent l' /\ commuting D l' /\ no_y l' /\ same_relations D l l' /\
  (forall d, In d (l_data l') <-> In d (l_data l) /\ ~ In d (map snd qs)).
Proof.
  induction qs as [|q qs IH]; intros l l' C ND Hq A Y GG JJ E.
  - cbn in E. injection E as <-. conjs; auto using same_refl. cbn; tauto.
  - cbn [forE] in E. unfold seqE at 1 in E.
    assert (Q : In (snd q) (l_data l)) by (apply Hq; left; auto).
    assert (D0 : is_data (l_heap l (snd q)) = true) by (apply in_data in Q; tauto).
    rewrite seq_assert in E by auto. destruct (remove_dataqubit (snd q) l) as [l1 [|]] eqn:E1; [discriminate|].
    destruct (remove_dataqubit_commuting D (snd q) l l1) as (C1 & A1 & Y1 & R1 & D1 & G1 & J1 & _); auto.
    cbn in ND. inversion ND as [|? ? NI ND']; subst.
    destruct (IH l1 l') as (C2 & A2 & Y2 & R2 & D2); auto.
    { intros x I. rewrite D1, in_without. split. apply Hq; right; auto. intros X. apply NI. rewrite <- X. apply in_map; auto. }
    { rewrite G1; auto. } { congruence. }
    conjs; auto. eapply same_trans; eauto.
    intros d. rewrite D2, D1, in_without. cbn. intuition.
Qed.
Lemma fabrication_commuting q g s k j l l' D :
  consistent l -> commuting D l -> no_y l ->
  (match k with Some x => x | None => l_gauge l end = "none" \/ match k with Some x => x | None => l_gauge l end = "half")%string ->
  match j with Some x => x | None => l_join l end = false ->
  apply_fabrication_errors q g s k j l = (l', None) ->
  consistent l' /\ commuting D l' /\ no_y l' /\ same_relations D l l' /\ indexed l' /\ (forall d, In d (l_data l') -> In d (l_data l)).
Proof.
  intros C A Y GG JJ E. unfold apply_fabrication_errors in E. unfold seqE at 1, modify at 1 in E. unfold seqE at 1, modify at 1 in E.
  set (l1 := match k with Some g => set_gauge g l | None => l end) in *.
  set (l2 := match j with Some b => set_join b l1 | None => l1 end) in *.
  assert (C2 : consistent l2). { unfold l2, l1. destruct j, k; auto using consistent_join, consistent_gauge. }
  assert (P2 : forall o d, pw l2 o d = pw l o d) by (intros; unfold l2, l1; destruct j, k; reflexivity).
  assert (S2 : l_stabs l2 = l_stabs l) by (unfold l2, l1; destruct j, k; reflexivity).
  assert (L2 : l_logicals l2 = l_logicals l) by (unfold l2, l1; destruct j, k; reflexivity).
  assert (D2 : l_data l2 = l_data l) by (unfold l2, l1; destruct j, k; reflexivity).
  assert (G2 : (l_gauge l2 = "none" \/ l_gauge l2 = "half")%string) by (unfold l2, l1; destruct j, k; exact GG).
  assert (J2 : l_join l2 = false) by (unfold l2, l1; destruct j, k; exact JJ).
  unfold seqE in E. destruct (get_remove_qubits l2 q g s) as [d|] eqn:GR; [|discriminate].
  pose proof (get_remove_qubits_ok _ _ _ _ _ C2 GR) as Q.
  destruct (forE _ (sort_pos d) l2) as [l3 [|]] eqn:E3; [discriminate|]. unfold modify in E. injection E as <-.
  destruct (remove_many_commuting D (sort_pos d) l2 l3) as (C3 & A3 & Y3 & R3 & D3); auto.
  { eapply Permutation.Permutation_NoDup. apply Permutation.Permutation_map, sort_pos_perm. eapply qd_ok_nodup; eauto. }
  { intros x I. apply Q. eapply Permutation.Permutation_in; [symmetry; apply sort_pos_perm|auto]. }
  { destruct A as [Aa Ab]. split; intros x y; rewrite ?S2, ?L2; intros Ix Iy; rewrite (anti_ext D _ _ (pw l x) (pw l y)); auto. }
  { intros x y. rewrite S2, P2. auto. }
  destruct (assign_indices_spec l3 C3) as (C4 & R4 & X4).
  assert (P4 : forall o d, pw (assign_indices l3) o d = pw l3 o d) by (intros; unfold pw; rewrite (rn_edges _ _ R4); auto).
  conjs; auto.
  - destruct A3 as [Aa Ab]. split; intros x y; rewrite ?(rn_stabs _ _ R4), ?(rn_logicals _ _ R4); intros Ix Iy; rewrite (anti_ext D _ _ (pw l3 x) (pw l3 y)); auto.
  - intros x y. rewrite (rn_stabs _ _ R4), P4. auto.
  - apply (same_trans D l l2). split; auto. intros; apply anti_ext; auto.
    apply (same_trans D l2 l3); auto. split. apply R4. intros; apply anti_ext; auto.
  - intros x. rewrite (rn_data _ _ R4). intros I. apply D3 in I. rewrite D2 in I. tauto.
Qed.
