(** Lemmas: the parallel and the sequential measurement of the generators. *)
Require Import List Bool Arith ZArith QArith Lia String Permutation.
From Verif Require Import Base BaseProofs QSpec PauliModel CircuitModel SimSpec LatticeModel LatticeSpec LatticeProofs LatticeOps LatticeRows
  CodesModel CodesSpec CodesProofs GeneratorModel StabTrack RoundProofs MemoryProofs GeneratorProofs GeneratorSpec GeneratorSem UnpackProofs MemorySem UnpackLayout MemoryTotal.
Import ListNotations.
Local Open Scope nat_scope.
Local Open Scope list_scope.

Lemma perm_flat_app {A B} (f g : A -> list B) xs : Permutation (flat_map (fun x => f x ++ g x) xs) (flat_map f xs ++ flat_map g xs).
Proof.
  induction xs as [|x xs IH]; cbn [flat_map]; [constructor|]. rewrite <- !app_assoc. apply Permutation_app_head.
  rewrite IH. rewrite !app_assoc. apply Permutation_app_tail, Permutation_app_comm.
Qed.
Lemma nodup_flat {A B} (f : A -> list B) xs : NoDup xs -> (forall x, In x xs -> NoDup (f x)) ->
  (forall x y a, In x xs -> In y xs -> In a (f x) -> In a (f y) -> x = y) -> NoDup (flat_map f xs).
Proof.
  intros N H D. rewrite <- (map_id (flat_map f xs)). apply nodup_flat_map; auto.
  - intros x I. rewrite map_id. auto.
  - intros x y a b Ix Iy Ia Ib E. subst. eauto.
Qed.
Lemma edges_nodup l : consistent l -> NoDup (l_edges l).
Proof. intros C. eapply NoDup_map_inv. apply (cons_simple _ C). Qed.
Lemma stabs_nodup l : consistent l -> NoDup (l_stabs l).
Proof. intros C. rewrite (cons_stabs _ C). apply NoDup_filter, (cons_nodup _ C). Qed.
Lemma time_eqb_iff a b : time_eqb a b = true <-> a = b.
Proof. destruct a, b; cbn; split; try discriminate; auto. - intros H. apply Nat.eqb_eq in H. subst; auto. - intros [= ->]. apply Nat.eqb_refl. Qed.
Lemma in_at l t ed : In ed (edges_at l t) <-> In ed (l_edges l) /\ e_time ed = Some t.
Proof. unfold edges_at. rewrite filter_In, time_eqb_iff. tauto. Qed.
(** The edges of all time steps are the edges of all generators. *)
Lemma edges_perm l n : consistent l -> conflict_free l -> (forall e, In e (l_edges l) -> e_time e <> None -> In (e_op e) (l_stabs l)) -> l_steps l = Some n ->
  Permutation (flat_map (edges_at l) (seq 0 n)) (flat_map (fun o => v_edges (l_heap l o)) (l_stabs l)).
Proof.
  intros C CF T E. apply NoDup_Permutation.
  - apply nodup_flat. apply seq_NoDup. intros; apply NoDup_filter, edges_nodup; auto.
    intros x y a _ _ A B. apply in_at in A, B. destruct A as [_ A], B as [_ B]. congruence.
  - apply nodup_flat. apply stabs_nodup; auto.
    + intros o Io. rewrite op_edges by (auto using stab_op). apply NoDup_filter, edges_nodup; auto.
    + intros o o' ed Io Io' I I'. rewrite op_edges in I, I' by (auto using stab_op). apply filter_In in I as [_ I], I' as [_ I']. apply Nat.eqb_eq in I, I'. congruence.
  - intros ed. rewrite !in_flat_map. split.
    + intros (t & _ & I). apply in_at in I as [I Et]. exists (e_op ed). assert (S : In (e_op ed) (l_stabs l)) by (apply T; auto; congruence). split; auto.
      rewrite op_edges by (auto using stab_op). apply filter_In. split; auto. apply Nat.eqb_refl.
    + intros (o & Io & I). rewrite op_edges in I by (auto using stab_op). apply filter_In in I as [I Eo]. apply Nat.eqb_eq in Eo.
      destruct (proj1 CF ed I) as (t & m & Et & Em & L); [congruence|]. exists t. split; [apply in_seq; assert (m = n) by congruence; lia|]. apply in_at. auto.
Qed.
Definition par_ins (l : lattice) (e : errors) (we : bool) (n : nat) : list ins :=
  flat_map (fun o => prep_ins e we (eq_of l o)) (l_stabs l) ++ flat_map (fun t => flat_map (edge_ins l e we) (edges_at l t)) (seq 0 n) ++
  flat_map (fun o => read_ins e we (eq_of l o)) (l_stabs l).
Lemma par_spec l e we n : gspec (measure_stabgens_pl l e n we) (stabs_ok l e we) (par_ins l e we n).
Proof.
  unfold measure_stabgens_pl. eapply gspec_imp;
      [apply gspec_seq; [apply gspec_for; intros; apply prepare_ancilla_spec|
       apply gspec_seq; [apply gspec_for; intros; apply gspec_for; intros; apply edge_gate_spec|apply gspec_for; intros; apply read_ancilla_spec]]| |reflexivity].
    intros [H1 H2]. conjs.
    + intros o Ho. apply H1; auto.
    + intros t _ ed Hed. apply H2. apply in_at in Hed. tauto.
    + intros o Ho. destruct (H1 o Ho) as (A & _ & B). auto.
Qed.
Lemma seq_spec l e we : gspec (measure_stabgens_seq l e we) (stabs_ok l e we) (flat_map (op_ins l e we) (l_stabs l)).
Proof. eapply gspec_imp; [apply gspec_for; intros; apply measure_op_spec|unfold stabs_ok; tauto|reflexivity]. Qed.
Lemma par_perm l e we n : consistent l -> conflict_free l -> (forall e, In e (l_edges l) -> e_time e <> None -> In (e_op e) (l_stabs l)) -> l_steps l = Some n ->
  Permutation (par_ins l e we n) (flat_map (op_ins l e we) (l_stabs l)).
Proof.
  intros C CF T E. unfold par_ins, op_ins. symmetry. etransitivity; [apply perm_flat_app|]. apply Permutation_app_head. etransitivity; [apply perm_flat_app|]. apply Permutation_app_tail.
  symmetry. assert (F1 : flat_map (fun t => flat_map (edge_ins l e we) (edges_at l t)) (seq 0 n) = flat_map (edge_ins l e we) (flat_map (edges_at l) (seq 0 n))).
  { clear. induction (seq 0 n) as [|t ts IH]; auto. cbn [flat_map]. rewrite flat_map_app, IH. auto. }
  assert (F2 : flat_map (fun x => flat_map (edge_ins l e we) (v_edges (l_heap l x))) (l_stabs l) = flat_map (edge_ins l e we) (flat_map (fun o => v_edges (l_heap l o)) (l_stabs l))).
  { clear. induction (l_stabs l) as [|t ts IH]; auto. cbn [flat_map]. rewrite flat_map_app, IH. auto. }
  rewrite F1, F2. apply Permutation_flat_map, edges_perm; auto.
Qed.
Lemma par_measured l e we n : measured (map ins_gate (par_ins l e we n)) = measured (map ins_gate (flat_map (op_ins l e we) (l_stabs l))).
Proof.
  rewrite !measured_ins. f_equal. unfold par_ins. rewrite !flat_map_app, !im_flat. rewrite flat_nil by (intros; apply im_prep). rewrite flat_nil by (intros; rewrite im_flat; apply flat_nil; intros; apply im_edge).
  cbn [app]. rewrite (flat_one _ (fun o => qn (eq_of l o))) by (intros; apply im_read). symmetry. apply flat_one. intros. apply im_op.
Qed.
