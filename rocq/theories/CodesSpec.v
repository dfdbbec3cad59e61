(** What it means for a list of operators to define a stabiliser code, in terms of the action
    of the operators on state vectors. *)
Require Import List Bool Arith.
From Verif Require Import Base QSpec PauliModel PauliSem LatticeModel LatticeSpec CodesModel.
Import ListNotations.

(** A code with [n] data qubits, [s] generators and [k] encoded qubits: the generators commute,
    the logical operators 2q and 2q+1 (X and Z of encoded qubit q) anticommute with each other
    and all logical operators commute with everything else. *)
Record valid_code (n s k : nat) (c : stabcode) : Prop := {
  vc_stabs : List.length (c_stabs c) = s;
  vc_logicals : List.length (c_logicals c) = 2 * k;
  vc_width : forall r, In r (c_stabs c) \/ In r (c_logicals c) -> List.length (ops r) = n;
  vc_nontrivial : forall r, In r (c_stabs c) \/ In r (c_logicals c) -> exists i, nth i (ops r) (false, false) <> (false, false);
  vc_commute : forall a b, In a (c_stabs c) -> In b (c_stabs c) -> commute n (denote a) (denote b);
  vc_logical : forall a b, In a (c_stabs c) -> In b (c_logicals c) -> commute n (denote a) (denote b);
  vc_pairs : forall i j a b, nth_error (c_logicals c) i = Some a -> nth_error (c_logicals c) j = Some b ->
    if (i / 2 =? j / 2) && negb (i =? j) then anticommute n (denote a) (denote b) else commute n (denote a) (denote b) }.

(** * Schedules *)
(** The time step of the gate between the operator [o] and the data qubit [d]. *)
Definition gate_time (l : lattice) (o d : nat) : option nat :=
  match find (fun e => (e_op e =? o) && (e_data e =? d)) (l_edges l) with Some e => e_time e | None => None end.
(** Every gate of a generator has a time step of the schedule, and two different gates in one
    time step have no qubit in common. *)
Definition conflict_free (l : lattice) : Prop :=
  (forall e, In e (l_edges l) -> In (e_op e) (l_stabs l) -> exists t n, e_time e = Some t /\ l_steps l = Some n /\ t < n) /\
  (forall e e', In e (l_edges l) -> In e' (l_edges l) -> In (e_op e) (l_stabs l) -> In (e_op e') (l_stabs l) ->
     e_time e = e_time e' -> e_op e = e_op e' \/ e_data e = e_data e' -> e = e').
(** The data qubits on which the factors of [s] and [t] anticommute and on which the gate of
    [s] comes before the gate of [t]. *)
Definition before (a b : option nat) : bool := match a, b with Some x, Some y => x <? y | _, _ => false end.
Definition crossings (l : lattice) (s t : nat) : list nat :=
  filter (fun d => sp (pw l s d) (pw l t d) && before (gate_time l s d) (gate_time l t d)) (l_data l).
(** The measurements of two generators by interleaved gates do not disturb each other. *)
Definition interleaves (l : lattice) : Prop :=
  forall s t, In s (l_stabs l) -> In t (l_stabs l) -> Nat.even (List.length (crossings l s t)) = true.
