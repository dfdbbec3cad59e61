(** Property theorems C25 and C26: editing of code lattices. *)
Require Import List Bool Arith ZArith Lia String.
From Verif Require Import Base BaseProofs QSpec PauliModel PauliSem PauliProofs PauliAlg CircuitModel LatticeModel LatticeSpec LatticeProofs LatticeEdit LatticeOps LatticeMerge LatticeFab LatticeRows CodesModel.
Import ListNotations.
Local Open Scope string_scope.
Local Open Scope nat_scope.
Local Open Scope list_scope.

(** * C25 Lattice editing keeps the graph consistent *)
(** Every lattice reached by any sequence of operations, of which any number may have raised an
    exception, is consistent: see [consistent] in LatticeSpec.v. *)
Theorem C25_reachable_consistent : forall l, reachable l -> consistent l.
Proof. exact reachable_consistent. Qed.
Print Assumptions C25_reachable_consistent.

(** Symmetric references without dangling ones, in the words of the claim: an edge of the
    lattice is listed exactly by its two ends, both are in the lattice and neighbours of each
    other; a vertex which is not in the lattice is not referred to. *)
Theorem C25_symmetric : forall l, reachable l ->
  (forall e, In e (l_edges l) ->
     In (e_op e) (l_vertices l) /\ In (e_data e) (l_vertices l) /\
     is_data (l_heap l (e_op e)) = false /\ is_data (l_heap l (e_data e)) = true /\
     (forall i, In e (v_edges (l_heap l i)) <-> i = e_op e \/ i = e_data e) /\
     In (e_op e) (v_neighbours (l_heap l (e_data e))) /\ In (e_data e) (v_neighbours (l_heap l (e_op e)))) /\
  (forall i e, In e (v_edges (l_heap l i)) -> In e (l_edges l)) /\
  (forall i j, In i (v_neighbours (l_heap l j)) <-> In j (v_neighbours (l_heap l i))) /\
  (forall i, ~ In i (l_vertices l) ->
     v_edges (l_heap l i) = [] /\ v_neighbours (l_heap l i) = [] /\
     ~ In i (l_data l) /\ ~ In i (l_stabs l) /\ ~ In i (l_logicals l) /\ ~ In i (l_equbits l) /\
     (forall c, l_cells l c <> Some i) /\ (forall j, ~ In i (v_neighbours (l_heap l j)))).
Proof.
  intros l R. pose proof (reachable_consistent l R) as C.
  assert (T : forall i e, touches i e = true <-> i = e_op e \/ i = e_data e).
  { intros i e. unfold touches. rewrite orb_true_iff, !Nat.eqb_eq. intuition. }
  assert (V : forall i e, In e (v_edges (l_heap l i)) <-> In e (l_edges l) /\ touches i e = true).
  { intros i e. rewrite (cons_edges _ C), filter_In. tauto. }
  assert (Op : forall e, In e (l_edges l) -> e_op e <> e_data e) by (intros; eapply edge_ends_differ; eauto).
  assert (Nb : forall i j, In i (v_neighbours (l_heap l j)) <-> exists e, In e (l_edges l) /\ ((e_op e = i /\ e_data e = j) \/ (e_op e = j /\ e_data e = i))).
  { intros i j. rewrite (cons_neighbours _ C), in_map_iff. split.
    - intros (e & O & I). apply V in I as [I J]. exists e. split; auto. apply T in J. unfold other in O.
      destruct (Nat.eqb_spec (e_op e) j); intuition congruence.
    - intros (e & I & J). exists e. split.
      + unfold other. specialize (Op e I). destruct J as [[<- <-]|[<- <-]].
        * destruct (Nat.eqb_spec (e_op e) (e_data e)); congruence.
        * rewrite Nat.eqb_refl. auto.
      + apply V. split; auto. apply T. intuition. }
  split; [|split; [|split]].
  - intros e I. destruct (cons_ends _ C e I) as [D O]. apply in_operators in O as [O1 O2]; auto. apply in_data in D as [D1 D2]; auto.
    repeat split; auto.
    + intros J. apply V in J as [_ J]. apply T; auto.
    + intros J. apply V. split; auto. apply T; auto.
    + apply Nb. exists e; auto.
    + apply Nb. exists e; auto.
  - intros i e I. apply V in I. tauto.
  - intros i j. rewrite !Nb. split; intros (e & I & J); exists e; tauto.
  - intros i N.
    assert (E : v_edges (l_heap l i) = []).
    { rewrite (cons_edges _ C). apply filter_none. intros e I. destruct (touches i e) eqn:J; auto. exfalso. apply N.
      destruct (cons_ends _ C e I) as [D O]. apply in_operators in O as [O1 O2]; auto. apply in_data in D as [D1 D2]; auto.
      apply T in J as [->| ->]; auto. }
    split; auto. split. rewrite (cons_neighbours _ C), E; auto.
    split. intros I; apply in_data in I; tauto. split. intros I; apply in_stabs in I; tauto. split. intros I; apply in_logicals in I; tauto.
    split. intros I; apply C in I; tauto. split. intros c I; apply C in I; tauto.
    intros j I. apply Nb in I as (e & I & J). apply N. destruct (cons_ends _ C e I) as [D O]. apply in_operators in O as [O1 O2]; auto. apply in_data in D as [D1 D2]; auto.
    destruct J as [[<- <-]|[<- <-]]; auto.
Qed.
Print Assumptions C25_symmetric.

(** What the primitive operations do to the lists of a consistent lattice. *)
Theorem C25_effects : forall l, reachable l ->
  (forall d o f, In d (l_data l) -> In o (l_operators l) ->
     (exists e, In e (l_edges l) /\ e_op e = o /\ e_data e = d) /\ add_edge d o f l = (l, Some AssertionError) \/
     (exists l', add_edge d o f l = (l', None) /\ l_edges l' = l_edges l ++ [mkEdge o d f None] /\ l_vertices l' = l_vertices l)) /\
  (forall e, ~ In e (l_edges l) /\ remove_edge e l = (l, Some AssertionError) \/
     (exists l', remove_edge e l = (l', None) /\ l_vertices l' = l_vertices l /\ forall e', In e' (l_edges l') <-> In e' (l_edges l) /\ e' <> e)) /\
  (forall i, ~ In i (l_vertices l) /\ remove_vertex i l = (l, Some AssertionError) \/
     (exists e, In e (l_edges l) /\ (e_op e = i \/ e_data e = i)) /\ remove_vertex i l = (l, Some ValueError) \/
     (exists l', remove_vertex i l = (l', None) /\ l_edges l' = l_edges l /\ forall j, In j (l_vertices l') <-> In j (l_vertices l) /\ j <> i)).
Proof.
  intros l R. pose proof (reachable_consistent l R) as C. split; [|split].
  - intros d o f D O. pose proof (add_edge_spec l d o f C D O) as H. destruct (existsb (joins o d) (l_edges l)) eqn:J.
    + left. split; auto. apply existsb_exists in J as (e & I & J). exists e. apply joins_ends in J. unfold ends in J. injection J as <- <-. auto.
    + right. destruct H as (l' & A & _ & F & B). exists l'. split; auto. split; auto. apply F.
  - intros e. pose proof (remove_edge_spec l e C) as H. destruct (existsb (edge_eqb e) (l_edges l)) eqn:J.
    + right. destruct H as (l' & A & _ & F & B). exists l'. split; auto. split. apply F. intros e'. rewrite B, filter_In, negb_true_iff, edge_eqb_neq.
      split; intros [? ?]; split; auto.
    + left. split; auto. intros I. apply in_edges_existsb in I. congruence.
  - intros i. pose proof (remove_vertex_spec l i C) as H. destruct (memb i (l_vertices l)) eqn:M.
    + right. destruct (v_edges (l_heap l i)) as [|e es] eqn:E.
      * right. destruct H as (l' & A & _ & D). exists l'. split; auto. split. apply D. intros j. rewrite (dr_vertices _ _ _ D), in_without. tauto.
      * left. split; auto. assert (I : In e (v_edges (l_heap l i))) by (rewrite E; left; auto). apply v_edges_in in I as [I T]; auto.
        exists e. split; auto. unfold touches in T. apply orb_true_iff in T. rewrite !Nat.eqb_eq in T. auto.
    + left. split; auto. apply memb_notIn; auto.
Qed.
Print Assumptions C25_effects.

(** assign_indices: data qubits, stabilisers and logical operators get the numbers 0, 1, ... in
    order, and the extended qubit indices continue over the three groups; no index occurs twice. *)
Theorem C25_indices : forall l, reachable l ->
  let l' := assign_indices l in
  indexed l' /\ l_data l' = l_data l /\ l_stabs l' = l_stabs l /\ l_logicals l' = l_logicals l /\ l_edges l' = l_edges l /\
  (forall i j, In i (l_vertices l') -> In j (l_vertices l') -> v_equbit (l_heap l' i) = v_equbit (l_heap l' j) -> i = j) /\
  (forall i, In i (l_vertices l') -> exists k, v_equbit (l_heap l' i) = Some k /\ k < List.length (l_vertices l')).
Proof.
  intros l R l'. pose proof (reachable_consistent l R) as C. destruct (assign_indices_spec l C) as (C' & Rn & X). fold l' in C', Rn, X.
  split; auto. split. apply Rn. split. apply Rn. split. apply Rn. split. apply Rn.
  destruct X as (X1 & X2 & X3 & X4 & X5).
  assert (P : forall i, In i (l_vertices l') -> exists k, nth_error (l_equbits l') k = Some i).
  { intros i I. apply In_nth_error. rewrite X4. apply in_all; auto. }
  split.
  - intros i j I J E. destruct (P i I) as [a Ha], (P j J) as [b Hb]. rewrite (X5 _ _ Ha), (X5 _ _ Hb) in E. congruence.
  - intros i I. destruct (P i I) as [a Ha]. exists a. split; auto.
    assert (L : List.length (l_equbits l') <= List.length (l_vertices l')).
    { apply NoDup_incl_length. apply C'. intros x Hx. apply C' in Hx. tauto. }
    assert (a < List.length (l_equbits l')) by (apply nth_error_Some; congruence). lia.
Qed.
Print Assumptions C25_indices.

(** Three data qubits and two stabilisers; the first stabiliser is merged into the second. *)
Definition C25_ops : list lop :=
  [OAddData (0, 0); OAddStab (1, 0) GA; OAddData (2, 0); OAddStab (3, 0) GA; OAddData (4, 0);
   OAddEdge 0 1 FZ; OAddEdge 2 1 FZ; OAddEdge 2 3 FZ; OAddEdge 4 3 FZ;
   OAddEdge 2 1 FX (* raises *); OAssignIndices; OSuperstab 3 1; ORemoveVertex 2; OAssignIndices]%Z.
Definition C25_lattice : lattice :=
  match empty_lattice (5, 1)%Z with Ok l => fold_left (fun l o => fst (run_op o l)) C25_ops l | Err _ => mkLattice (0, 0)%Z (fun _ => None) (fun _ => dead) 0 [] [] [] [] [] [] None "none" false end.
Example C25_example :
  reachable C25_lattice /\
  l_edges C25_lattice = [mkEdge 3 4 FZ None; mkEdge 3 0 FZ None] /\
  l_data C25_lattice = [0; 4] /\ l_stabs C25_lattice = [3] /\ l_equbits C25_lattice = [0; 4; 3] /\
  v_neighbours (l_heap C25_lattice 3) = [4; 0] /\ v_neighbours (l_heap C25_lattice 4) = [3] /\ v_edges (l_heap C25_lattice 2) = [] /\
  v_equbit (l_heap C25_lattice 3) = Some 2 /\ v_index (l_heap C25_lattice 4) = Some 1 /\
  stabilisers C25_lattice = Ok [mkRow [(false, true); (false, true)] false].
Proof.
  split.
  - unfold C25_lattice.
    assert (G : forall os l, reachable l -> (fix ok os l := match os with [] => True | o :: os' => typed l o /\ ok os' (fst (run_op o l)) end) os l ->
                reachable (fold_left (fun l o => fst (run_op o l)) os l)).
    { induction os; cbn [fold_left]; auto. intros l R [T H]. apply IHos; auto. apply reach_op; auto. }
    destruct (empty_lattice (5, 1)%Z) as [l0|] eqn:E; [|discriminate]. apply G. eapply reach_new; eauto.
    cbn in E. injection E as <-. vm_compute. intuition.
  - vm_compute. repeat split; reflexivity.
Qed.

(** Outside of the annotated use: an edge to a data qubit which was removed before makes a
    dangling reference (add_edge does not look whether its arguments are in the lattice). *)
Theorem C25_dangling_refuted : exists l d o l',
  reachable l /\ In o (l_stabs l) /\ ~ In d (l_vertices l) /\ add_edge d o FX l = (l', None) /\
  In (mkEdge o d FX None) (l_edges l') /\ ~ In d (l_vertices l').
Proof.
  exists (fst (run_op (ORemoveVertex 0) (fst (run_op (OAddStab (1, 0)%Z GA) (fst (run_op (OAddData (0, 0)%Z)
     (mkLattice (2, 1)%Z (fun _ => None) (fun _ => dead) 0 [] [] [] [] [] [] None "none" false))))))).
  exists 0, 1.
  match goal with |- exists l', reachable ?L /\ _ => exists (fst (add_edge 0 1 FX L)) end. split.
  - apply reach_op; [|exact I]. apply reach_op; [|exact I]. apply reach_op; [|exact I]. apply (reach_new (2, 1)%Z). reflexivity.
  - split. left; reflexivity. split. cbn. intuition discriminate. split. vm_compute; reflexivity. split. left; reflexivity. cbn. intuition discriminate.
Qed.
Print Assumptions C25_dangling_refuted.

(** * C26 Superstabiliser is the product of its parts *)
(** [operator_of l o] is the row computed for the vertex [o] after assign_indices (LatticeRows.v).
    The merge succeeds exactly if no data qubit has two different factors; then the remaining
    generator is the product of both (with a plus sign), all other operators are unchanged, and
    the removed generator is gone.  If both parts are equal there is no operator left and reading
    it raises IndexError. *)
Theorem C26_superstab : forall l k r a b,
  reachable l -> In k (l_stabs l) -> In r (l_stabs l) -> k <> r -> operator_of l k = Ok a -> operator_of l r = Ok b ->
  let n := List.length (l_data l) in
  let clash := exists q, nth q (ops a) (false, false) <> (false, false) /\ nth q (ops b) (false, false) <> (false, false) /\ nth q (ops a) (false, false) <> nth q (ops b) (false, false) in
  (clash /\ exists l', create_superstab k r l = (l', Some AssertionError)) \/
  (~ clash /\ exists l', create_superstab k r l = (l', None) /\
     l_data l' = l_data l /\ l_logicals l' = l_logicals l /\ (forall s, In s (l_stabs l') <-> In s (l_stabs l) /\ s <> r) /\
     (forall o, In o (l_operators l) -> o <> k -> o <> r -> operator_of l' o = operator_of l o) /\
     ((ops a = ops b /\ operator_of l' k = Err IndexError) \/
      (ops a <> ops b /\ exists c, operator_of l' k = Ok c /\
         forall v, veq n (papply (denote c) v) (papply (denote a) (papply (denote b) v))))).
Proof.
  intros l k r a b R K Rr N A B n clash. destruct (superstab_rows l k r a b (reachable_consistent _ R) K Rr N A B) as [H|(H & l' & E & _ & D & L & St & O & P)].
  - left. exact H.
  - right. split. exact H. exists l'. conjs; auto. intros s. rewrite St, in_without. tauto.
Qed.
Print Assumptions C26_superstab.

Theorem C26_multiply_logical : forall l g s a b,
  reachable l -> In g (l_logicals l) -> In s (l_stabs l) -> operator_of l g = Ok a -> operator_of l s = Ok b ->
  let n := List.length (l_data l) in
  let clash := exists q, nth q (ops a) (false, false) <> (false, false) /\ nth q (ops b) (false, false) <> (false, false) /\ nth q (ops a) (false, false) <> nth q (ops b) (false, false) in
  (clash /\ exists l', multiply_logical_with_stab g s l = (l', Some AssertionError)) \/
  (~ clash /\ exists l', multiply_logical_with_stab g s l = (l', None) /\
     l_data l' = l_data l /\ l_logicals l' = l_logicals l /\ l_stabs l' = l_stabs l /\
     (forall o, In o (l_operators l) -> o <> g -> operator_of l' o = operator_of l o) /\
     ((ops a = ops b /\ operator_of l' g = Err IndexError) \/
      (ops a <> ops b /\ exists c, operator_of l' g = Ok c /\
         forall v, veq n (papply (denote c) v) (papply (denote a) (papply (denote b) v))))).
Proof.
  intros l g s a b R G S A B n clash. destruct (multiply_rows l g s a b (reachable_consistent _ R) G S A B) as [H|(H & l' & E & _ & D & L & St & O & P)].
  - left. exact H.
  - right. split. exact H. exists l'. conjs; auto.
Qed.
Print Assumptions C26_multiply_logical.

(** Hence whatever commutes with both parts commutes with the merged generator. *)
Theorem C26_superstab_commutes : forall l k r a b l' c p,
  reachable l -> In k (l_stabs l) -> In r (l_stabs l) -> k <> r -> operator_of l k = Ok a -> operator_of l r = Ok b ->
  create_superstab k r l = (l', None) -> operator_of l' k = Ok c ->
  let n := List.length (l_data l) in
  List.length (ops p) = n -> commute n (denote p) (denote a) -> commute n (denote p) (denote b) -> commute n (denote p) (denote c).
Proof.
  intros l k r a b l' c p R K Rr N A B E Ec n Lp Ca Cb. pose proof (reachable_consistent _ R) as C.
  destruct (superstab_rows l k r a b C K Rr N A B) as [(_ & l2 & X)|(_ & l2 & X & C' & D & L & St & O & P)]; rewrite X in E; [discriminate|]. injection E as ->.
  destruct P as [[_ P]|(_ & c' & P & Q)]; rewrite P in Ec; [discriminate|]. injection Ec as ->.
  apply (product_commutes n a b c p); auto.
  - apply (operator_of_length l k); auto. apply stab_operator; auto.
  - apply (operator_of_length l r); auto. apply stab_operator; auto.
  - unfold n. rewrite <- D. apply (operator_of_length l' k); auto. apply stab_operator. rewrite St, in_without. auto.
Qed.
Print Assumptions C26_superstab_commutes.

(** Fabrication errors with the default settings, or with one group of gauge operators kept
    ("half"): the generators of the remaining code commute with each other and with the logical
    operators, and the logical operators have the relations they had before.  (Premise: the
    generators have X and Z factors only; the remaining operators can be read.) *)
Theorem C26_fabrication : forall l qubits gates stabs keep_gauge join l' SS LL SS' LL', reachable l ->
  stabilisers (assign_indices l) = Ok SS -> logical_operators (assign_indices l) = Ok LL ->
  let n := List.length (l_data l) in
  let n' := List.length (l_data l') in
  (forall a b, In a SS -> In b SS -> commute n (denote a) (denote b)) ->
  (forall a b, In a SS -> In b LL -> commute n (denote a) (denote b)) ->
  (forall a i, In a SS -> nth i (ops a) (false, false) <> (true, true)) ->
  (match keep_gauge with Some x => x | None => l_gauge l end = "none" \/ match keep_gauge with Some x => x | None => l_gauge l end = "half")%string ->
  match join with Some x => x | None => l_join l end = false ->
  apply_fabrication_errors qubits gates stabs keep_gauge join l = (l', None) ->
  stabilisers l' = Ok SS' -> logical_operators l' = Ok LL' ->
  (forall a b, In a SS' -> In b SS' -> commute n' (denote a) (denote b)) /\
  (forall a b, In a SS' -> In b LL' -> commute n' (denote a) (denote b)) /\
  List.length LL' = List.length LL /\
  (forall i i' a a' b b', nth_error LL i = Some a -> nth_error LL i' = Some a' -> nth_error LL' i = Some b -> nth_error LL' i' = Some b' ->
     (commute n' (denote b) (denote b') <-> commute n (denote a) (denote a'))).
Proof.
  intros l q g s k j l' SS LL SS' LL' R E1 E2 n n' H1 H2 H3 H4 H5 H6 H7 H8.
  exact (fabrication_rows l q g s k j l' SS LL SS' LL' (reachable_consistent _ R) E1 E2 H1 H2 H3 H4 H5 H6 H7 H8).
Qed.
Print Assumptions C26_fabrication.

(** The planar code of size 2 and the one of size 3 without the middle qubit: two superstabilisers. *)
Definition C26_run (size : Z) (qubits : list locator) (keep : option string) (join : option bool) : Res (nat * list string * list string) :=
  do l <- planar_lattice size nwes;
  match apply_fabrication_errors qubits [] [] keep join l with
  | (l', None) => do s <- stabilisers l'; do g <- logical_operators l';
                  Ok (List.length (l_data l'), map (fun r => PauliTextModel.pauli_to_string r true) s, map (fun r => PauliTextModel.pauli_to_string r true) g)
  | (_, Some e) => Err e
  end.
Example C26_example :
  C26_run 2 [] None None = Ok (5, ["+ZZZII"; "+XIXXI"; "+IXXIX"; "+IIZZZ"], ["+IIIXX"; "+IZIIZ"])%string /\
  C26_run 2 [AtPos (1, 1)%Z] None None = Ok (4, ["+ZZZZ"; "+XXXX"], ["+IIXX"; "+IZIZ"])%string /\
  (* a boundary qubit of both logical operators *)
  C26_run 2 [AtPos (2, 2)%Z] None None = Ok (4, ["+ZZZI"; "+XIXX"], ["+IXXX"; "+IZZZ"])%string /\
  C26_run 3 [AtPos (2, 2)%Z] (Some "half")%string None =
    Ok (12, ["+ZZIZIIIIIIII"; "+IZZIZIIIIIII"; "+XIIXIXIIIIII"; "+IXIXXIIXXIXI"; "+IIXIXIXIIIII"; "+IIIZIZIZIIII"; "+IIIIZIZIZIII";
             "+IIIIIXIXIXII"; "+IIIIIIXIXIIX"; "+IIIIIIIZIZZI"; "+IIIIIIIIZIZZ"], ["+IIIIIIIIIXXX"; "+IIZIIIZIIIIZ"])%string.
Proof. vm_compute. auto. Qed.

(** With fabrication_err_boundary_join ("the third stabilizer is kept") the generators do not
    commute if the removed data qubit is at a corner. *)
Theorem C26_boundary_join_refuted : exists l l' SS,
  planar_lattice 3 nwes = Ok l /\ apply_fabrication_errors [AtPos (0, 0)%Z] [] [] None (Some true) l = (l', None) /\
  stabilisers l' = Ok SS /\ exists a b, In a SS /\ In b SS /\ ~ commute (List.length (l_data l')) (denote a) (denote b).
Proof.
  set (test := fun l => match apply_fabrication_errors [AtPos (0, 0)%Z] [] [] None (Some true) l with
                        | (l', None) => match stabilisers l' with Ok (a :: _ :: b :: _) => symp (ops a) (ops b) && (List.length (ops a) =? List.length (l_data l')) && (List.length (ops b) =? List.length (l_data l')) | _ => false end
                        | _ => false end).
  assert (T : match planar_lattice 3 nwes with Ok l => test l | Err _ => false end = true) by (vm_compute; reflexivity).
  destruct (planar_lattice 3 nwes) as [l|]; [|discriminate]. unfold test in T.
  destruct (apply_fabrication_errors _ _ _ _ _ l) as [l' [|]] eqn:E; [discriminate|].
  destruct (stabilisers l') as [[|a [|x [|b SS]]]|] eqn:Es; try discriminate.
  apply andb_true_iff in T as [T T3]. apply andb_true_iff in T as [T1 T2]. apply Nat.eqb_eq in T2, T3.
  exists l, l', (a :: x :: b :: SS). conjs; auto. exists a, b. split. left; auto. split. right; right; left; auto.
  rewrite commute_iff by auto. congruence.
Qed.
Print Assumptions C26_boundary_join_refuted.

(** The documented value "no" of keep_gauge is not accepted (the code tests for "none"). *)
Theorem C26_keep_gauge_no_refuted : exists l, planar_lattice 3 nwes = Ok l /\
  snd (apply_fabrication_errors [AtPos (2, 2)%Z] [] [] (Some "no"%string) None l) = Some ValueError.
Proof.
  assert (T : match planar_lattice 3 nwes with Ok l => snd (apply_fabrication_errors [AtPos (2, 2)%Z] [] [] (Some "no"%string) None l) | Err _ => None end = Some ValueError) by (vm_compute; reflexivity).
  destruct (planar_lattice 3 nwes) as [l|]; [|discriminate]. eauto.
Qed.
Print Assumptions C26_keep_gauge_no_refuted.

(** LatticeCode.apply_fabrication_errors changes the lattice only: stabilisers and logical_ops of
    the code are those from before, on the old number of qubits. *)
Theorem C26_code_not_updated_refuted : exists c c' s,
  make_planar 1 3 = Ok c /\ code_apply_fabrication_errors [AtPos (2, 2)%Z] [] [] None None c = (c', None) /\
  stabilisers (c_lattice c') = Ok s /\ c_ops c' = c_ops c /\ n_data_qubits (c_ops c') = 13 /\ List.length (l_data (c_lattice c')) = 12 /\ c_stabs (c_ops c') <> s.
Proof.
  set (test := fun c => match code_apply_fabrication_errors [AtPos (2, 2)%Z] [] [] None None c with
                        | (c', None) => match stabilisers (c_lattice c') with Ok s => (n_data_qubits (c_ops c) =? 13) && (List.length (l_data (c_lattice c')) =? 12) && negb (List.length s =? List.length (c_stabs (c_ops c))) | _ => false end
                        | _ => false end).
  assert (T : match make_planar 1 3 with Ok c => test c | Err _ => false end = true) by (vm_compute; reflexivity).
  destruct (make_planar 1 3) as [c|]; [|discriminate]. unfold test in T.
  destruct (code_apply_fabrication_errors _ _ _ _ _ c) as [c' [|]] eqn:E; [discriminate|].
  assert (O : c_ops c' = c_ops c).
  { unfold code_apply_fabrication_errors in E. destruct (apply_fabrication_errors _ _ _ _ _ _). injection E as <- _. reflexivity. }
  destruct (stabilisers (c_lattice c')) as [s|] eqn:Es; [|discriminate].
  apply andb_true_iff in T as [T T3]. apply andb_true_iff in T as [T1 T2]. apply Nat.eqb_eq in T1, T2. apply negb_true_iff, Nat.eqb_neq in T3.
  exists c, c', s. conjs; auto; congruence.
Qed.
Print Assumptions C26_code_not_updated_refuted.
