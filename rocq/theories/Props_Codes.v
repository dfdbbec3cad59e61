(** Property theorems C20-C24, C45 and C46: the built-in codes, for every size. *)
Require Import List Bool Arith ZArith Lia String.
From Verif Require Import Base BaseProofs QSpec PauliModel PauliSem PauliProofs PauliAlg PauliTextModel LatticeModel LatticeSpec CodesModel CodesSpec CodesProofs PlanarProofs ToricProofs RotatedProofs RepetitionProofs ScheduleProofs ScheduleToric ScheduleRotated.
Import ListNotations.
Local Open Scope nat_scope.
Local Open Scope list_scope.

(** * C20 Planar code *)
(** The class method returns a code; the code has the stated numbers of qubits and generators,
    the operators have the stated commutation relations as operators on state vectors, and the
    check of the library accepts it. *)
Theorem C20_planar_code : forall d rounds, (2 <= d)%Z ->
  exists c, make_planar rounds d = Ok c /\ c_rounds c = rounds /\
    valid_code (Z.to_nat (d * d + (d - 1) * (d - 1))) (Z.to_nat (2 * (d * (d - 1)))) 1 (c_ops c) /\ check (c_ops c) = Ok tt.
Proof.
  intros d r D. destruct (planar_make d r D) as (l & _ & E). exists (mkCode (planar_code d) l r). split; auto. split; auto. pose proof (planar_valid d D) as V. split; auto. eapply valid_check; eauto.
Qed.
Print Assumptions C20_planar_code.
(** The code of size 2: five qubits, four generators. *)
Definition texts (c : Res code) : Res (list string * list string) :=
  do c <- c; Ok (map (fun r => pauli_to_string r true) (c_stabs (c_ops c)), map (fun r => pauli_to_string r true) (c_logicals (c_ops c))).
Example C20_example : texts (make_planar 1 2) = Ok (["+ZZZII"; "+XIXXI"; "+IXXIX"; "+IIZZZ"], ["+IIIXX"; "+IZIIZ"])%string.
Proof. vm_compute. reflexivity. Qed.
(** Size 1, for which a planar code (one qubit without generators) would exist, is refused. *)
Example C20_size_one : make_planar 1 1 = Err IndexError.
Proof. vm_compute. reflexivity. Qed.

(** * C21 Toric code *)
Theorem C21_toric_code : forall d rounds, (2 <= d)%Z ->
  exists c, make_toric rounds d = Ok c /\ c_rounds c = rounds /\
    valid_code (Z.to_nat (2 * (d * d))) (Z.to_nat (2 * (d * d))) 2 (c_ops c) /\ check (c_ops c) = Ok tt.
Proof.
  intros d r D. destruct (toric_make d r D) as (l & _ & E). exists (mkCode (toric_code d) l r). split; auto. split; auto. pose proof (toric_valid d D) as V. split; auto. eapply valid_check; eauto.
Qed.
Print Assumptions C21_toric_code.
Example C21_example : texts (make_toric 1 2) = Ok (["+ZZZIIIZI"; "+ZZIZIIIZ"; "+XIXXXIII"; "+IXXXIXII"; "+IIZIZZZI"; "+IIIZZZIZ"; "+XIIIXIXX"; "+IXIIIXXX"], ["+XXIIIIII"; "+IZIIIZII"; "+IIXIIIXI"; "+IIIIIIZZ"])%string.
Proof. vm_compute. reflexivity. Qed.

(** * C22 Rotated planar code and its XZZX variant *)
Theorem C22_rotated_code : forall d xzzx rounds, (2 <= d)%Z ->
  exists c, make_rotated_planar rounds d xzzx = Ok c /\ c_rounds c = rounds /\
    valid_code (Z.to_nat (d * d)) (Z.to_nat (d * d - 1)) 1 (c_ops c) /\ check (c_ops c) = Ok tt.
Proof.
  intros d z r D. destruct (rotated_make d z r D) as (l & _ & E). exists (mkCode (rotated_code d z) l r). split; auto. split; auto. pose proof (rotated_valid d z D) as V. split; auto. eapply valid_check; eauto.
Qed.
Print Assumptions C22_rotated_code.
Example C22_example : texts (make_rotated_planar 1 3 true) = Ok (["+XZIZXIIII"; "+IXZIZXIII"; "+IIIXZIZXI"; "+IIIIXZIZX"; "+IZXIIIIII"; "+IIIIIIXZI"; "+ZIIXIIIII"; "+IIIIIXIIZ"], ["+XIIZIIXII"; "+ZXZIIIIII"])%string.
Proof. vm_compute. reflexivity. Qed.

(** * C23 Repetition code *)
Theorem C23_repetition_code : forall d rounds, (3 <= d)%Z -> (d mod 2 = 1)%Z ->
  exists c, make_repetition rounds d = Ok c /\ c_rounds c = rounds /\
    valid_code (Z.to_nat d) (Z.to_nat (d - 1)) 1 (c_ops c) /\ check (c_ops c) = Ok tt.
Proof.
  intros d r D O. destruct (repetition_make d r) as (l & _ & E); auto; try lia. exists (mkCode (repetition_code d) l r). split; auto. split; auto. pose proof (repetition_valid d) as V. split; [apply V; lia|]. eapply valid_check; apply V; lia.
Qed.
Print Assumptions C23_repetition_code.
(** The other sizes are refused. *)
Theorem C23_even_size_refused : forall d rounds, (d mod 2 = 0)%Z -> make_repetition rounds d = Err ValueError.
Proof. intros d r E. unfold make_repetition, make_code, repetition_lattice. rewrite E. reflexivity. Qed.
Print Assumptions C23_even_size_refused.
Example C23_example : texts (make_repetition 1 3) = Ok (["+ZZI"; "+IZZ"], ["+XXX"; "+IIZ"])%string.
Proof. vm_compute. reflexivity. Qed.

(** * C24 The parallel schedules are free of conflicts *)
(** For the planar and the toric code the order of the edges is an argument of the constructor of
    the lattice; every order which contains the four directions is admissible. *)
Theorem C24_planar_schedule : forall d order, (2 <= d)%Z -> (forall x, In x cross -> In x order) -> exists l, planar_lattice d order = Ok l /\ conflict_free l.
Proof. exact planar_conflict_free. Qed.
Print Assumptions C24_planar_schedule.
Theorem C24_toric_schedule : forall d order, (2 <= d)%Z -> (forall x, In x cross -> In x order) -> exists l, toric_lattice d order = Ok l /\ conflict_free l.
Proof. exact toric_conflict_free. Qed.
Print Assumptions C24_toric_schedule.
Theorem C24_rotated_schedule : forall d xzzx, (2 <= d)%Z -> exists l, rotated_lattice d xzzx diagonal_order = Ok l /\ conflict_free l.
Proof. exact rotated_conflict_free. Qed.
Print Assumptions C24_rotated_schedule.
(** The gates of the first time step for the planar code of size 2. *)
Definition step_gates (l : Res lattice) (t : nat) : list (pos * pos) :=
  match l with
  | Ok l => flat_map (fun e => match e_time e with Some u => if u =? t then [(v_pos (l_heap l (e_op e)), v_pos (l_heap l (e_data e)))] else [] | None => [] end) (l_edges l)
  | Err _ => []
  end.
Example C24_example : step_gates (planar_lattice 2 nwes) 1 = [((1, 0), (0, 0)); ((1, 2), (0, 2)); ((2, 1), (1, 1))]%Z.
Proof. vm_compute. reflexivity. Qed.
(** The rotated code needs the reversed order on one of the sublattices only together with
    the default order; with another order the schedule has a conflict. *)
Definition boolean_conflict (l : lattice) : bool :=
  existsb (fun e => existsb (fun e' => match e_time e, e_time e' with Some a, Some b => (a =? b) | _, _ => false end && (e_data e =? e_data e') && negb (e_op e =? e_op e')) (l_edges l)) (l_edges l).
Lemma conflict_found l : boolean_conflict l = true -> (forall e, In e (l_edges l) -> e_time e <> None -> In (e_op e) (l_stabs l)) -> ~ conflict_free l.
Proof.
  intros B S [_ C]. unfold boolean_conflict in B. apply existsb_exists in B as (e & I & B). apply existsb_exists in B as (e' & I' & B). apply andb_true_iff in B as [B N]. apply andb_true_iff in B as [B D].
  destruct (e_time e) eqn:T, (e_time e') eqn:T'; try discriminate. apply Nat.eqb_eq in B, D. subst n0. apply negb_true_iff, Nat.eqb_neq in N. apply N.
  assert (e = e') by (apply C; auto; try (apply S; congruence); congruence). congruence.
Qed.
Definition timed_are_stabs (l : lattice) : bool := forallb (fun e => match e_time e with None => true | Some _ => existsb (Nat.eqb (e_op e)) (l_stabs l) end) (l_edges l).
Theorem C24_rotated_other_order_refuted : exists order, (forall x y, (Z.abs x = 1 /\ Z.abs y = 1)%Z -> In (x, y) order) /\ exists l, rotated_lattice 3 false order = Ok l /\ ~ conflict_free l.
Proof.
  exists [(1, 1); (-1, 1); (-1, -1); (1, -1)]%Z. split.
  - intros x y A. assert ((x = 1 \/ x = -1) /\ (y = 1 \/ y = -1))%Z as [[-> | ->] [-> | ->]] by lia; cbn; auto.
  - destruct (rotated_lattice 3 false [(1, 1); (-1, 1); (-1, -1); (1, -1)]%Z) as [l|e] eqn:E.
    + exists l. split; auto.
      assert (B : match rotated_lattice 3 false [(1, 1); (-1, 1); (-1, -1); (1, -1)]%Z with Ok l => boolean_conflict l && timed_are_stabs l | Err _ => false end = true) by (vm_compute; reflexivity).
      rewrite E in B. apply andb_true_iff in B as [B1 B2]. apply conflict_found; auto. unfold timed_are_stabs in B2. rewrite forallb_forall in B2. intros e I T. specialize (B2 e I). destruct (e_time e); [|congruence].
      apply existsb_exists in B2 as (x & X & Y). apply Nat.eqb_eq in Y. subst. auto.
    + assert (B : match rotated_lattice 3 false [(1, 1); (-1, 1); (-1, -1); (1, -1)]%Z with Ok l => true | Err _ => false end = true) by (vm_compute; reflexivity). rewrite E in B. discriminate.
Qed.
Print Assumptions C24_rotated_other_order_refuted.

(** * C45 Interleaved measurements do not disturb each other *)
(** With the default orders: for every two generators the number of qubits on which their factors
    anticommute and on which the first one comes first is even. *)
Theorem C45_planar_interleaves : forall d, (2 <= d)%Z -> exists l, planar_lattice d nwes = Ok l /\ interleaves l.
Proof. exact planar_interleaves. Qed.
Print Assumptions C45_planar_interleaves.
Theorem C45_toric_interleaves : forall d, (2 <= d)%Z -> exists l, toric_lattice d nwes = Ok l /\ interleaves l.
Proof. exact toric_interleaves. Qed.
Print Assumptions C45_toric_interleaves.
Theorem C45_rotated_interleaves : forall d xzzx, (2 <= d)%Z -> exists l, rotated_lattice d xzzx diagonal_order = Ok l /\ interleaves l.
Proof. exact rotated_interleaves. Qed.
Print Assumptions C45_rotated_interleaves.
(** Two generators which share two qubits, one strictly before the other on both. *)
Example C45_example : match planar_lattice 2 nwes with Ok l => map (fun s => map (fun t => List.length (crossings l s t)) (l_stabs l)) (l_stabs l) | Err _ => [] end = [[0; 0; 2; 0]; [2; 0; 0; 2]; [0; 0; 0; 0]; [0; 0; 2; 0]].
Proof. vm_compute. reflexivity. Qed.
(** The order matters: an admissible order of the planar code without this property. *)
Theorem C45_other_order_refuted : exists order, (forall x, In x cross -> In x order) /\ exists l, planar_lattice 2 order = Ok l /\ ~ interleaves l.
Proof.
  exists [(0, 1); (0, -1); (1, 0); (-1, 0)]%Z. split. { intros x I; exact I. }
  destruct (planar_lattice 2 [(0, 1); (0, -1); (1, 0); (-1, 0)]%Z) as [l|e] eqn:E.
  - exists l. split; auto. intros H.
    assert (B : match planar_lattice 2 [(0, 1); (0, -1); (1, 0); (-1, 0)]%Z with Ok l => forallb (fun s => forallb (fun t => Nat.even (List.length (crossings l s t))) (l_stabs l)) (l_stabs l) | Err _ => true end = false) by (vm_compute; reflexivity).
    rewrite E in B. apply not_true_iff_false in B. apply B. apply forallb_forall. intros s S. apply forallb_forall. intros t T. apply H; auto.
  - assert (B : match planar_lattice 2 [(0, 1); (0, -1); (1, 0); (-1, 0)]%Z with Ok l => true | Err _ => false end = true) by (vm_compute; reflexivity). rewrite E in B. discriminate.
Qed.
Print Assumptions C45_other_order_refuted.

(** * C46 [StabilizerCode.check] decides the commutation relations *)
Theorem C46_check_decides : forall n c, (forall r, In r (c_stabs c) \/ In r (c_logicals c) -> List.length (ops r) = n) ->
  let relations :=
    (forall a b, In a (c_stabs c) -> In b (c_stabs c) -> commute n (denote a) (denote b)) /\
    (forall a b, In a (c_stabs c) -> In b (c_logicals c) -> commute n (denote a) (denote b)) /\
    (forall i j a b, nth_error (c_logicals c) (2 * i) = Some a -> nth_error (c_logicals c) (2 * j) = Some b -> commute n (denote a) (denote b)) /\
    (forall i j a b, nth_error (c_logicals c) (2 * i + 1) = Some a -> nth_error (c_logicals c) (2 * j + 1) = Some b -> commute n (denote a) (denote b)) /\
    (forall i j a b, nth_error (c_logicals c) (2 * i) = Some a -> nth_error (c_logicals c) (2 * j + 1) = Some b ->
       if i =? j then anticommute n (denote a) (denote b) else commute n (denote a) (denote b)) in
  (check c = Ok tt <-> relations) /\ (check c <> Ok tt -> check c = Err AssertionError).
Proof.
  intros n c W. destruct (check_iff n c W) as [[-> R]|[-> R]]; cbv zeta; split; try congruence.
  - split; auto.
  - split; [discriminate|]. intros H. exfalso. apply R. exact H.
Qed.
Print Assumptions C46_check_decides.
(** The five-qubit and the Shor code satisfy it; two anticommuting generators do not. *)
Example C46_five_qubit : match make_five_qubit 1 with Ok c => check (c_ops c) | Err e => Err e end = Ok tt.
Proof. vm_compute. reflexivity. Qed.
Example C46_shor : match make_shor 1 with Ok c => check (c_ops c) | Err e => Err e end = Ok tt.
Proof. vm_compute. reflexivity. Qed.
Example C46_example : check (mkStabcode [mkRow [(true, false); (false, true)] false; mkRow [(true, false); (true, false)] false] [mkRow [(true, false); (false, false)] false; mkRow [(false, true); (true, false)] false]) = Err AssertionError.
Proof. vm_compute. reflexivity. Qed.
