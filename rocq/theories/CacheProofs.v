(** Cached indices, and positions under fabrication errors. *)
Require Import List Bool Arith Lia ZArith.
From Verif Require Import Base BaseProofs LatticeModel LatticeSpec LatticeProofs CacheModel.
Import ListNotations.
Open Scope nat_scope.
Local Open Scope res_scope.

Lemma pos_eqb_eq p q : pos_eqb p q = true <-> p = q.
Proof. destruct p, q. unfold pos_eqb. cbn [fst snd]. rewrite andb_true_iff, !Z.eqb_eq. split; [intros [-> ->]; auto|intros [= -> ->]; auto]. Qed.
Lemma index_get_set d p q p' : index_get (index_set d p q) p' = if pos_eqb p p' then Some q else index_get d p'.
Proof.
  unfold index_get. induction d as [|[p0 q0] d IH]; cbn [index_set find fst]; [destruct (pos_eqb p p'); auto|].
  destruct (pos_eqb p0 p) eqn:E; cbn [find fst].
  - apply pos_eqb_eq in E. subst p0. destruct (pos_eqb p p'); auto.
  - destruct (pos_eqb p0 p') eqn:E'; [|auto]. destruct (pos_eqb p p') eqn:E''; [|auto]. apply pos_eqb_eq in E', E''. subst. rewrite (proj2 (pos_eqb_eq p' p') eq_refl) in E. discriminate.
Qed.
(** The entries of the dictionary of items with distinct positions. *)
Lemma fold_index (P : nat -> pos) (V : nat -> option nat) is : (forall i j, In i is -> In j is -> P i = P j -> i = j) -> forall d p q,
  index_get (fold_left (fun d i => index_set d (P i) (V i)) is d) p = Some q <->
  (exists i, In i is /\ P i = p /\ V i = q) \/ ((forall i, In i is -> P i <> p) /\ index_get d p = Some q).
Proof.
  induction is as [|i is IH]; intros U d p q; cbn [fold_left].
  - split; [intros H; right; split; [intros ? []|auto]|intros [(j & [] & _)|[_ H]]; auto].
  - rewrite IH by (intros a b A B; apply U; right; auto). rewrite index_get_set. destruct (pos_eqb (P i) p) eqn:E.
    + apply pos_eqb_eq in E. split.
      * intros [(j & J & K)|[N [= <-]]]; left; [exists j; split; [right|]; auto|exists i; split; [left|]; auto].
      * intros [(j & [<-|J] & K1 & K2)|[N _]]; [|left; exists j; auto|exfalso; apply (N i); [left|]; auto].
        destruct (in_dec Nat.eq_dec i is) as [I|I]; [left; exists i; auto|]. right. split; [|congruence]. intros j J X. apply I. rewrite (U i j); [auto|left; auto|right; auto|congruence].
    + assert (NE : P i <> p) by (intros X; apply pos_eqb_eq in X; congruence). split.
      * intros [(j & J & K)|[N G]]; [left; exists j; split; [right|]; auto|right; split; auto]. intros j [<-|J]; auto.
      * intros [(j & [<-|J] & K1 & K2)|[N G]]; [congruence|left; exists j; auto|right; split; auto]. intros j J. apply N. right. auto.
Qed.
Lemma pos_unique l i j : consistent l -> In i (l_vertices l) -> In j (l_vertices l) -> v_pos (l_heap l i) = v_pos (l_heap l j) -> i = j.
Proof. intros C I J E. apply (cells_pos_unique l i j C I J E). destruct (cons_valid _ C i I) as [c ->]. discriminate. Qed.
Lemma cache_get l p q : consistent l -> index_get (cache_full_code_indices l) p = Some q <->
  exists i, In i (l_equbits l) /\ is_logical (l_heap l i) = false /\ v_pos (l_heap l i) = p /\ v_equbit (l_heap l i) = q.
Proof.
  intros C. unfold cache_full_code_indices. rewrite (fold_index (fun i => v_pos (l_heap l i)) (fun i => v_equbit (l_heap l i))).
  - split.
    + intros [(i & I & K)|[_ X]]; [|discriminate]. apply filter_In in I. destruct I as [I N]. apply negb_true_iff in N. exists i. tauto.
    + intros (i & I & N & K). left. exists i. split; [|auto]. apply filter_In. rewrite N. auto.
  - intros i j I J E. apply filter_In in I, J. apply (pos_unique l); auto; apply (cons_equbits _ C); tauto.
Qed.

(** ** Positions *)
Definition stays (l l' : lattice) : Prop := (forall i, v_pos (l_heap l' i) = v_pos (l_heap l i)) /\ (forall i, v_kind (l_heap l' i) = v_kind (l_heap l i)) /\ incl (l_vertices l') (l_vertices l).
Definition quiet (f : eff) : Prop := forall l, stays l (fst (f l)).
Lemma stays_refl l : stays l l.
Proof. split; [auto|]. split; [auto|apply incl_refl]. Qed.
Ltac still := split; [intros; reflexivity|split; [intros; reflexivity|let K := fresh "K" in intros ? K; exact K]].
Lemma stays_trans a b c : stays a b -> stays b c -> stays a c.
Proof. intros (A & B & C) (D & E & F). split; [intros; rewrite D; auto|]. split; [intros; rewrite E; auto|eapply incl_tran; eauto]. Qed.
Lemma quiet_seq f g : quiet f -> quiet g -> quiet (f ;; g).
Proof. intros F G l. unfold seqE. specialize (F l). destruct (f l) as [l1 [e|]]; cbn [fst] in *; [auto|]. eapply stays_trans; [exact F|apply G]. Qed.
Lemma quiet_raise e : quiet (raise e).
Proof. intros l. still. Qed.
Lemma quiet_assert c : quiet (assertE c).
Proof. intros l. unfold assertE. destruct (c l); still. Qed.
Lemma quiet_for {A} (f : A -> eff) xs : (forall x, quiet (f x)) -> quiet (forE f xs).
Proof. intros F. induction xs as [|x xs IH]; cbn [forE]; [intros l; still|apply quiet_seq; auto]. Qed.
Lemma quiet_modify f : (forall l, stays l (f l)) -> quiet (modify f).
Proof. intros F l. apply F. Qed.
Lemma quiet_del {A} eqb (x : A) g p : (forall r l, remove1 eqb x (g l) = Some r -> stays l (p r l)) -> quiet (del eqb x g p).
Proof. intros F l. unfold del. destruct (remove1 eqb x (g l)) eqn:E; cbn [fst]; [auto|still]. Qed.
Lemma stays_change i f l : (forall v, v_pos (f v) = v_pos v) -> (forall v, v_kind (f v) = v_kind v) -> stays l (change i f l).
Proof. intros P K. unfold change, set_heap, hset. split; [|split]; cbn [l_heap l_vertices]; [| |apply incl_refl]; intros j; destruct (_ =? _) eqn:E; auto; apply Nat.eqb_eq in E; subst; auto. Qed.
Lemma quiet_add_edge d o f : quiet (add_edge d o f).
Proof. unfold add_edge. cbv zeta. repeat apply quiet_seq; try apply quiet_assert; apply quiet_modify; intros l; try (apply stays_change; reflexivity). still. Qed.
Lemma quiet_remove_edge e : quiet (remove_edge e).
Proof. unfold remove_edge. cbv zeta. repeat apply quiet_seq; try apply quiet_assert; apply quiet_del; intros r l _; try (apply stays_change; reflexivity). still. Qed.
Lemma remove1_incl (x : nat) l : forall r, remove1 Nat.eqb x l = Some r -> incl r l.
Proof. induction l as [|y l IH]; intros r; cbn [remove1]; [discriminate|]. destruct (x =? y); [intros [= <-]; apply incl_tl, incl_refl|]. destruct (remove1 Nat.eqb x l) as [s|]; cbn; [|discriminate]. intros [= <-]. intros z [<-|Z]; [left; auto|right; apply (IH s); auto]. Qed.
Lemma quiet_remove_vertex i : quiet (remove_vertex i).
Proof.
  unfold remove_vertex. repeat apply quiet_seq; try apply quiet_assert.
  - intros l. destruct (lookup _ _) as [[j|]|]; try still. destruct (j =? i); still.
  - intros l. destruct (v_edges _); still.
  - intros l. destruct (v_kind _); apply quiet_del; intros; still.
  - intros l. destruct (v_equbit _); [apply quiet_del; intros; still|still].
  - apply quiet_del. intros r l E. split; [auto|]. split; [auto|]. cbn [set_vertices l_vertices]. eapply remove1_incl; eauto.
  - apply quiet_modify. intros l. unfold assign_cell. destruct (cell_of _ _); still.
Qed.
Lemma quiet_toggle o e : quiet (toggle_edge o e).
Proof. intros l. unfold toggle_edge. destruct (memb _ _); [|apply quiet_add_edge]. destruct (edge_at _ _); [|still]. destruct (factor_eqb _ _); [apply quiet_remove_edge|still]. Qed.
Lemma quiet_superstab k r : quiet (create_superstab k r).
Proof. unfold create_superstab. apply quiet_seq; [apply quiet_assert|]. apply quiet_seq; [apply quiet_assert|]. apply quiet_seq; [|apply quiet_remove_vertex]. intros l. apply quiet_for. intros e. apply quiet_seq; [apply quiet_remove_edge|apply quiet_toggle]. Qed.
Lemma quiet_superstab_edges es : quiet (create_superstab_from_edges es).
Proof. destruct es as [|a [|b [|c es]]]; try apply quiet_raise. cbn [create_superstab_from_edges]. apply quiet_seq; [apply quiet_assert|]. apply quiet_seq; [apply quiet_assert|]. apply quiet_superstab. Qed.
Lemma quiet_multiply g s : quiet (multiply_logical_with_stab g s).
Proof. intros l. apply quiet_for. intros; apply quiet_toggle. Qed.
Lemma quiet_remove_stabilizer s : quiet (remove_stabilizer s).
Proof. intros l. unfold remove_stabilizer. apply quiet_seq; [apply quiet_for; intros; apply quiet_remove_edge|apply quiet_remove_vertex]. Qed.
Lemma quiet_remove_two es : quiet (remove_two es).
Proof. destruct es as [|a [|b es]]; try apply quiet_raise. apply quiet_seq; apply quiet_remove_edge. Qed.
Lemma quiet_boundary_remove es : quiet (boundary_remove es).
Proof. destruct es as [|a [|b [|c es]]]; try apply quiet_raise; [apply quiet_remove_stabilizer|apply quiet_seq; apply quiet_remove_edge]. Qed.
Lemma quiet_boundary_join es : quiet (boundary_join es).
Proof. destruct es as [|a [|b [|c es]]]; try apply quiet_raise; [apply quiet_remove_edge|apply quiet_superstab_edges]. Qed.
Lemma quiet_groups gs : quiet (handle_edgegroups gs).
Proof.
  intros l. unfold handle_edgegroups. destruct (forallb _ gs).
  - destruct (String.eqb _ _); [apply quiet_for; intros; apply quiet_superstab_edges|]. destruct (String.eqb _ _).
    + destruct gs; [still|]. apply quiet_seq; [apply quiet_superstab_edges|apply quiet_for; intros; apply quiet_remove_two].
    + destruct (String.eqb _ _); [apply quiet_for; intros; apply quiet_remove_two|still].
  - destruct (l_join l); apply quiet_for; intros; [apply quiet_boundary_join|apply quiet_boundary_remove].
Qed.
Lemma quiet_dataqubit q : quiet (remove_dataqubit q).
Proof.
  intros l. unfold remove_dataqubit. cbv zeta. destruct (existsb _ _); [still|]. apply quiet_seq; [|apply quiet_seq; [apply quiet_groups|apply quiet_remove_vertex]].
  apply quiet_for. intros e. unfold update_logical. destruct (group_get _ _) as [[|s ss]|]; try apply quiet_raise. apply quiet_multiply.
Qed.
Lemma stays_number put is : (forall x v, v_pos (put x v) = v_pos v) -> (forall x v, v_kind (put x v) = v_kind v) -> forall n l, stays l (number_from n put is l).
Proof. intros P K. induction is as [|i is IH]; intros n l; cbn [number_from]; [still|]. eapply stays_trans; [|apply IH]. apply stays_change; auto. Qed.
Lemma stays_assign l : stays l (assign_indices l).
Proof.
  unfold assign_indices. cbv zeta. set (l1 := number_from 0 put_index (l_data l) l). set (l2 := number_from 0 put_index (l_stabs l1) l1). set (l3 := number_from 0 put_index (l_logicals l2) l2). set (a := l_data l3 ++ l_stabs l3 ++ l_logicals l3).
  apply stays_trans with l1; [apply stays_number; reflexivity|]. apply stays_trans with l2; [apply stays_number; reflexivity|]. apply stays_trans with l3; [apply stays_number; reflexivity|]. apply stays_trans with (number_from 0 put_equbit a l3); [apply stays_number; reflexivity|still].
Qed.
Lemma quiet_fabrication q g s k j : quiet (apply_fabrication_errors q g s k j).
Proof.
  unfold apply_fabrication_errors. repeat apply quiet_seq.
  - apply quiet_modify. intros l. destruct k; still.
  - apply quiet_modify. intros l. destruct j; still.
  - intros l. destruct (get_remove_qubits l q g s); [|still]. apply quiet_for. intros pq. apply quiet_seq; [apply quiet_assert|apply quiet_dataqubit].
  - apply quiet_modify. apply stays_assign.
Qed.
