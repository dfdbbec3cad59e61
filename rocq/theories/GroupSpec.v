(** The stabiliser group of a code. *)
Require Import List Bool Arith.
From Verif Require Import Base QSpec PauliModel LatticeModel LatticeSpec CodesModel GeneratorSpec FaultSpec.
Import ListNotations.

(** The products of generators, as (x, z) bits of the first [n] qubits and up to their sign. *)
Inductive generated (n : nat) (gens : list row) : (nat -> bool * bool) -> Prop :=
| generated_one P : (forall q, q < n -> P q = (false, false)) -> generated n gens P
| generated_times g P R : In g gens -> generated n gens P -> (forall q, q < n -> R q = pxor (fac g q) (P q)) -> generated n gens R.

(** [P] commutes with all the given operators. *)
Definition commutes_with (n : nat) (gens : list row) (P : nat -> bool * bool) : Prop :=
  forall g, In g gens -> anti (seq 0 n) (fac g) P = false.

(** An operator which is not detected by the generators and not one of their products acts on [d]
    qubits or more, and there is one which acts on [d]. *)
Definition code_distance (n : nat) (gens : list row) (d : nat) : Prop :=
  (forall P, commutes_with n gens P -> ~ generated n gens P -> d <= operator_weight n P) /\
  exists P, commutes_with n gens P /\ ~ generated n gens P /\ operator_weight n P = d.

(** All but the generator number [i]. *)
Definition without (i : nat) (gens : list row) : list row := firstn i gens ++ skipn (S i) gens.

(** The other logical operator of the same encoded qubit. *)
Definition partner_op (i : nat) : nat := if Nat.even i then S i else Nat.pred i.
(** The logical operators which commute with all logical operators with the numbers [is]. *)
Definition unread (c : stabcode) (is : list nat) : list row :=
  map (fun i => nth i (c_logicals c) row0) (filter (fun i => negb (existsb (Nat.eqb (partner_op i)) is)) (seq 0 (length (c_logicals c)))).
