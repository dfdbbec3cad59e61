(** Lemmas: the built-in codes can be used for memory experiments. *)
Require Import List Bool Arith ZArith Lia String.
From Verif Require Import RoundProofs LatticeEdit Base BaseProofs PauliModel CircuitModel LatticeModel LatticeSpec LatticeProofs CodesModel CodesSpec CodesProofs BuildProofs
  PlanarProofs ToricProofs RotatedProofs RepetitionProofs ScheduleProofs ScheduleToric ScheduleRotated GeneratorModel GeneratorSpec.
Import ListNotations.
Local Open Scope nat_scope.
Local Open Scope list_scope.

(** * Edges without time step and without Y *)
Definition plain (l : lattice) : Prop := l_steps l = None /\ forall e, In e (l_edges l) -> e_time e = None /\ e_factor e <> FY.
Definition stab_times (l : lattice) : Prop := forall e, In e (l_edges l) -> e_factor e <> FY /\ (e_time e <> None -> is_stab (l_heap l (e_op e)) = true).
Definition tri (P : lattice -> Prop) (prog : eff) (Q : lattice -> Prop) : Prop := forall l l', prog l = (l', None) -> P l -> Q l'.
Lemma tri_seq P a Q b R : tri P a Q -> tri Q b R -> tri P (seqE a b) R.
Proof. intros A B l l' E H. unfold seqE in E. destruct (a l) as [l1 [e|]] eqn:F; [discriminate|]. eapply B; [exact E|]. eapply A; eauto. Qed.
Lemma tri_skip P : tri P skip P.
Proof. intros l l' E H. injection E as <-. auto. Qed.
Lemma tri_for {A} P (f : A -> eff) xs : (forall x, In x xs -> tri P (f x) P) -> tri P (forE f xs) P.
Proof. intros H. induction xs; cbn [forE]; [apply tri_skip|]. eapply tri_seq; [apply H; left; auto|apply IHxs; intros; apply H; right; auto]. Qed.
Lemma tri_if P Q (b : bool) x y : tri P x Q -> tri P y Q -> tri P (if b then x else y) Q.
Proof. destruct b; auto. Qed.
Lemma plain_add k p : tri plain (add_vertex k p) plain.
Proof.
  intros l l' E [S H]. unfold add_vertex in E. destruct (lookup l p) as [[i|]|]; try discriminate. injection E as <-.
  unfold plain, assign_cell, append_by_kind. destruct k; cbn; destruct (cell_of _ p); cbn; auto.
Qed.
Lemma plain_edge d o f : f <> FY -> tri plain (add_edge d o f) plain.
Proof.
  intros NY l l' E [S H]. unfold add_edge, seqE, assertE, modify in E. destruct (negb _); [|discriminate]. destruct (negb _); [|discriminate]. injection E as <-.
  split; auto. intros e I. cbn in I. apply in_app_iff in I. destruct I as [I|[<-|[]]]; auto.
Qed.
Lemma plain_edge_to p o f : f <> FY -> tri plain (edge_to p o f) plain.
Proof. intros NY l l' E H. unfold edge_to in E. destruct (lookup l p) as [[i|]|]; try discriminate. eapply plain_edge; eauto. Qed.
Lemma tri_with P (Q : lattice -> Prop) k p (K : nat -> eff) : tri P (add_vertex k p) P -> (forall i, tri P (K i) Q) -> tri P (fun l => (let i := l_next l in seqE (add_vertex k p) (K i)) l) Q.
Proof. intros A B l l' E H. cbv zeta in E. eapply (tri_seq P _ P _ Q A (B (l_next l))); eauto. Qed.
Lemma plain_stabs f : (forall i p g, tri plain (f i p g) plain) -> tri plain (for_stabs f) plain.
Proof.
  intros F l l' E H. unfold for_stabs in E. revert E H. apply (tri_for plain (fun i l => match v_kind (l_heap l i) with KStab g => f i (v_pos (l_heap l i)) g l | _ => (l, None) end)).
  intros i _ l0 l1 E H. destruct (v_kind (l_heap l0 i)); [injection E as <-; auto| |injection E as <-; auto]. eapply F; eauto.
Qed.
Lemma stab_set_time e t l : is_stab (l_heap l (e_op e)) = true -> stab_times l -> stab_times (set_time e t l).
Proof.
  intros S H e' I. unfold set_time in *. cbn [set_edges l_edges l_heap] in *. apply in_map_iff in I as (e0 & E & I). cbn [change set_heap l_edges] in I.
  assert (K : forall i x y (f g : vertex -> vertex) l0, (forall v, v_kind (f v) = v_kind v) -> (forall v, v_kind (g v) = v_kind v) -> is_stab (l_heap (change x f (change y g l0)) i) = is_stab (l_heap l0 i)).
  { intros i x y f g l0 F G. unfold is_stab, change. cbn [set_heap l_heap]. unfold hset.
    assert (A : v_kind (if x =? i then f (if y =? x then g (l_heap l0 y) else l_heap l0 x) else if y =? i then g (l_heap l0 y) else l_heap l0 i) = v_kind (l_heap l0 i)); [|rewrite A; auto].
    destruct (Nat.eqb_spec x i) as [->|]; [rewrite F|]; destruct (Nat.eqb_spec y i) as [->|]; rewrite ?G; auto. }
  rewrite K by reflexivity. destruct (edge_eqb e e0) eqn:Q.
  - subst e'. cbn [retime e_factor e_time e_op]. apply LatticeProofs.edge_eqb_eq in Q. subst e0. split; auto. apply H; auto.
  - subst e'. apply H; auto.
Qed.
Lemma stab_order order : tri plain (assign_stab_edge_order order) stab_times.
Proof.
  intros l l' E [_ H]. unfold assign_stab_edge_order in E. cbv zeta in E. revert E. cut (stab_times (set_steps (Some (List.length order)) l)).
  - intros P E. revert E P. apply (tri_for stab_times (order_edge order)). intros e _ l0 l1 E P. unfold order_edge in E.
    destruct (is_stab (l_heap l0 (e_op e))) eqn:S; cbn [negb] in E; [|injection E as <-; auto]. cbv zeta in E. destruct (index_of _ order); [|discriminate]. injection E as <-. apply stab_set_time; auto.
  - intros e I. cbn in I. destruct (H e I) as [T N]. split; [auto|tauto].
Qed.
Lemma stab_inverted : tri stab_times inverted_order stab_times.
Proof.
  intros l l' E P. unfold inverted_order in E. revert E P. apply (tri_for stab_times invert_edge). intros e _ l0 l1 E P. unfold invert_edge in E.
  destruct (is_stab (l_heap l0 (e_op e))) eqn:S; cbn [negb] in E; [|injection E as <-; auto]. cbv zeta in E. destruct (negb _); [injection E as <-; auto|].
  destruct (e_time e) as [[|[|[|]]]|]; injection E as <-; auto; apply stab_set_time; auto.
Qed.
Lemma stab_plain l : plain l -> stab_times l.
Proof. intros [_ H] e I. destruct (H e I) as [T N]. split; [auto|tauto]. Qed.
Lemma plain_empty sh l : empty_lattice sh = Ok l -> plain l.
Proof. unfold empty_lattice. destruct (_ || _)%bool; intros E; [discriminate|]. injection E as <-. split; auto. intros e []. Qed.
Lemma construct_tri sh body Q l : tri plain body Q -> construct sh body = Ok l -> Q l.
Proof. intros T E. unfold construct in E. destruct (empty_lattice sh) as [l0|] eqn:F; [|discriminate]. cbn [bindR] in E. destruct (body l0) as [l1 [x|]] eqn:B; [discriminate|]. injection E as <-. apply (T l0 l1); auto. eapply plain_empty; eauto. Qed.
Lemma number_kind put is : (forall x v, v_kind (put x v) = v_kind v) -> forall n l i, v_kind (l_heap (number_from n put is l) i) = v_kind (l_heap l i).
Proof.
  intros P. induction is as [|j is IH]; intros n l i; cbn [number_from]; auto. rewrite IH. unfold change. cbn [set_heap l_heap]. unfold hset.
  destruct (Nat.eqb_spec j i); subst; auto.
Qed.
Lemma indices_same l : l_edges (assign_indices l) = l_edges l /\ l_steps (assign_indices l) = l_steps l /\ forall i, is_stab (l_heap (assign_indices l) i) = is_stab (l_heap l i).
Proof.
  assert (K : forall n put is l0, (forall x v, v_kind (put x v) = v_kind v) -> let l1 := number_from n put is l0 in
    l_edges l1 = l_edges l0 /\ l_steps l1 = l_steps l0 /\ forall i, is_stab (l_heap l1 i) = is_stab (l_heap l0 i)).
  { intros n put is l0 P l1. pose proof (number_fields put is n l0) as F. cbv zeta in F. fold l1 in F. destruct F as (_ & _ & _ & _ & _ & _ & _ & _ & E & T & _).
    conjs; auto. intros i. unfold is_stab, l1. rewrite (number_kind put is P). auto. }
  unfold assign_indices. cbv zeta. cbn [set_equbits l_edges l_steps l_heap].
  match goal with |- context [number_from _ put_equbit ?is ?l3] => destruct (K 0 put_equbit is l3) as (A1 & A2 & A3); auto; rewrite A1, A2; conjs; intros; rewrite ?A3 end.
  all: cbv zeta in K; edestruct (K 0 put_index) as (B1 & B2 & B3); [reflexivity|]; rewrite ?B1, ?B2, ?B3; clear B1 B2 B3.
  all: edestruct (K 0 put_index) as (B1 & B2 & B3); [reflexivity|]; rewrite ?B1, ?B2, ?B3; clear B1 B2 B3.
  all: edestruct (K 0 put_index) as (B1 & B2 & B3); [reflexivity|]; rewrite ?B1, ?B2, ?B3; auto.
Qed.
Lemma plain_indices : tri plain (modify assign_indices) plain.
Proof. intros l l' E [S H]. injection E as <-. destruct (indices_same l) as (A & B & _). split; [congruence|]. rewrite A. auto. Qed.
Lemma stab_indices : tri stab_times (modify assign_indices) stab_times.
Proof. intros l l' E H. injection E as <-. destruct (indices_same l) as (A & _ & B). intros e. rewrite A, B. auto. Qed.
Lemma group_no_Y g : group_factor g <> FY. Proof. destruct g; discriminate. Qed.

Lemma planar_times d order l : planar_lattice d order = Ok l -> stab_times l.
Proof.
  apply construct_tri. unfold planar_body. cbv zeta. eapply tri_seq.
  { apply tri_for. intros i _. apply tri_for. intros j _. repeat apply tri_if; apply plain_add. }
  eapply tri_seq. { apply plain_stabs. intros s p g. apply tri_for. intros x _. apply tri_if; [apply tri_skip|]. apply plain_edge_to. apply group_no_Y. }
  apply tri_with. apply plain_add. intros x. apply tri_with. apply plain_add. intros z. eapply tri_seq.
  { apply tri_for. intros i _. eapply tri_seq; apply plain_edge_to; discriminate. }
  eapply tri_seq. apply stab_order. apply stab_indices.
Qed.
Lemma toric_times d order l : toric_lattice d order = Ok l -> stab_times l.
Proof.
  apply construct_tri. unfold toric_body. cbv zeta. eapply tri_seq.
  { apply tri_for. intros i _. apply tri_for. intros j _. repeat apply tri_if; apply plain_add. }
  eapply tri_seq. { apply plain_stabs. intros s p g. apply tri_for. intros x _. apply plain_edge_to. apply group_no_Y. }
  do 4 (apply tri_with; [apply plain_add|let v := fresh "v" in intros v]). eapply tri_seq.
  { apply tri_for. intros i _. repeat (eapply tri_seq; [apply plain_edge_to; discriminate|]). apply plain_edge_to; discriminate. }
  eapply tri_seq. apply stab_order. apply stab_indices.
Qed.
Lemma rotated_times d z order l : rotated_lattice d z order = Ok l -> stab_times l.
Proof.
  apply construct_tri. unfold rotated_body. cbv zeta. eapply tri_seq.
  { apply tri_for. intros i _. apply tri_for. intros j _. apply plain_add. }
  eapply tri_seq. { apply tri_for. intros i _. apply tri_for. intros j _. apply tri_if; apply plain_add. }
  eapply tri_seq. { apply tri_for. intros i _. eapply tri_seq; apply plain_add. }
  eapply tri_seq. { apply tri_for. intros i _. eapply tri_seq; apply plain_add. }
  eapply tri_seq. { apply plain_stabs. intros s p g. apply tri_for. intros x X. apply tri_if; [|apply tri_skip].
    apply plain_edge_to. destruct z; [|apply group_no_Y]. cbn in X. intros E. repeat (destruct X as [<-|X]; [discriminate|]). destruct X. }
  do 2 (apply tri_with; [apply plain_add|let v := fresh "v" in intros v]). eapply tri_seq.
  { apply tri_for. intros i _. eapply tri_seq; apply plain_edge_to; destruct (negb z || _)%bool; discriminate. }
  eapply tri_seq. apply stab_order. eapply tri_seq. apply stab_inverted. apply stab_indices.
Qed.
Lemma repetition_plain d l : repetition_lattice d = Ok l -> plain l.
Proof.
  unfold repetition_lattice. destruct (negb _); [discriminate|]. apply construct_tri. unfold repetition_body. cbv zeta. eapply tri_seq.
  { apply tri_for. intros i _. apply plain_add. }
  eapply tri_seq. { apply tri_for. intros i _. apply tri_with. apply plain_add. intros s. apply tri_for. intros x _. apply plain_edge_to. discriminate. }
  apply tri_with. apply plain_add. intros x. eapply tri_seq. { apply tri_for. intros i _. apply plain_edge_to. discriminate. }
  apply tri_with. apply plain_add. intros z. eapply tri_seq. apply plain_edge_to. discriminate. apply plain_indices.
Qed.

(** * The built-in codes *)
Lemma timed_stabs l : consistent l -> stab_times l -> forall e, In e (l_edges l) -> e_time e <> None -> In (e_op e) (l_stabs l).
Proof.
  intros C H e I T. destruct (H e I) as [_ S]. specialize (S T). rewrite (cons_stabs _ C). apply filter_In. split; auto.
  destruct (cons_ends _ C e I) as [_ O]. apply in_operators in O; auto. tauto.
Qed.
Lemma made_from lat r cd : make_code lat r = Ok cd -> exists l, lat = Ok l /\ cd = mkCode (c_ops cd) l r /\ from_codelattice l = Ok (c_ops cd).
Proof.
  unfold make_code. destruct lat as [l|]; [|discriminate]. cbn [bindR]. destruct (from_codelattice l) as [c|] eqn:F; [|discriminate]. cbn [bindR].
  intros E. injection E as <-. exists l. auto.
Qed.
Lemma planar_experiment d r : (2 <= d)%Z -> exists cd, make_planar r d = Ok cd /\ experiment_code cd /\ c_rounds cd = r /\ c_ops cd = planar_code d.
Proof.
  intros D. destruct (planar_make d r D) as (l & L & M). exists (mkCode (planar_code d) l r). split; auto. split; [|auto].
  destruct (made_from _ _ _ M) as (l' & L' & _ & F). assert (l' = l) by congruence. subst l'. cbn [c_ops] in F.
  destruct (planar_built d nwes D) as (l1 & L1 & B & X & _). { cbn; tauto. } assert (l1 = l) by congruence. subst l1.
  destruct (planar_conflict_free d nwes D) as (l2 & L2 & CF). { cbn; tauto. } assert (l2 = l) by congruence. subst l2.
  destruct (planar_interleaves d D) as (l3 & L3 & IL). assert (l3 = l) by congruence. subst l3.
  assert (T := planar_times _ _ _ L).
  constructor; cbn [c_lattice c_ops]; auto. apply B. intros e I. apply T; auto. eapply valid_check, planar_valid; auto.
  right. conjs; auto. apply timed_stabs; auto. apply B.
Qed.
Lemma toric_experiment d r : (2 <= d)%Z -> exists cd, make_toric r d = Ok cd /\ experiment_code cd /\ c_rounds cd = r /\ c_ops cd = toric_code d.
Proof.
  intros D. destruct (toric_make d r D) as (l & L & M). exists (mkCode (toric_code d) l r). split; auto. split; [|auto].
  destruct (made_from _ _ _ M) as (l' & L' & _ & F). assert (l' = l) by congruence. subst l'. cbn [c_ops] in F.
  destruct (toric_built d nwes D) as (l1 & L1 & B & X & _). { cbn; tauto. } assert (l1 = l) by congruence. subst l1.
  destruct (toric_conflict_free d nwes D) as (l2 & L2 & CF). { cbn; tauto. } assert (l2 = l) by congruence. subst l2.
  destruct (toric_interleaves d D) as (l3 & L3 & IL). assert (l3 = l) by congruence. subst l3.
  assert (T := toric_times _ _ _ L).
  constructor; cbn [c_lattice c_ops]; auto. apply B. intros e I. apply T; auto. eapply valid_check, toric_valid; auto.
  right. conjs; auto. apply timed_stabs; auto. apply B.
Qed.
Lemma rotated_experiment d z r : (2 <= d)%Z -> exists cd, make_rotated_planar r d z = Ok cd /\ experiment_code cd /\ c_rounds cd = r /\ c_ops cd = rotated_code d z.
Proof.
  intros D. destruct (rotated_make d z r D) as (l & L & M). exists (mkCode (rotated_code d z) l r). split; auto. split; [|auto].
  destruct (made_from _ _ _ M) as (l' & L' & _ & F). assert (l' = l) by congruence. subst l'. cbn [c_ops] in F.
  destruct (rotated_built d z diagonal_order D diagonal_all) as (l1 & L1 & B & X & _). assert (l1 = l) by congruence. subst l1.
  destruct (rotated_conflict_free d z D) as (l2 & L2 & CF). assert (l2 = l) by congruence. subst l2.
  destruct (rotated_interleaves d z D) as (l3 & L3 & IL). assert (l3 = l) by congruence. subst l3.
  assert (T := rotated_times _ _ _ _ L).
  constructor; cbn [c_lattice c_ops]; auto. apply B. intros e I. apply T; auto. eapply valid_check, rotated_valid; auto.
  right. conjs; auto. apply timed_stabs; auto. apply B.
Qed.
Lemma repetition_experiment d r : (2 <= d)%Z -> (d mod 2 = 1)%Z -> exists cd, make_repetition r d = Ok cd /\ experiment_code cd /\ c_rounds cd = r /\ c_ops cd = repetition_code d.
Proof.
  intros D O. destruct (repetition_make d r D O) as (l & L & M). exists (mkCode (repetition_code d) l r). split; auto. split; [|auto].
  destruct (made_from _ _ _ M) as (l' & L' & _ & F). assert (l' = l) by congruence. subst l'. cbn [c_ops] in F.
  destruct (repetition_built d D O) as (l1 & L1 & B & X). assert (l1 = l) by congruence. subst l1.
  destruct (repetition_plain _ _ L) as [S T].
  constructor; cbn [c_lattice c_ops]; auto. apply B. intros e I. apply T; auto. eapply valid_check, repetition_valid; auto.
Qed.
