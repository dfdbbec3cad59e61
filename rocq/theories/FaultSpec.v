(** Numbers of faults, and the distance of a code with respect to a logical operator. *)
Require Import List Bool Arith.
From Verif Require Import Base QSpec PauliModel LatticeSpec GeneratorSpec GraphSpec SyngraphModel SyngraphFinal.
Import ListNotations.
Open Scope nat_scope.

(** The number of qubits on which an operator is not the identity. *)
Definition operator_weight (n : nat) (P : nat -> bool * bool) : nat :=
  length (filter (fun q => fst (P q) || snd (P q)) (seq 0 n)).

(** Every operator which commutes with the generators but not with the logical operator [l] acts
    on at least [d] qubits. *)
Definition logical_distance (n : nat) (gens : list row) (l : nat -> bool * bool) (d : nat) : Prop :=
  forall P, (forall s, s < length gens -> anti (seq 0 n) (fac (nth s gens row0)) P = false) ->
  anti (seq 0 n) l P = true -> d <= operator_weight n P.

(** Whether an erasure flag is set; the X or Z part of an error. *)
Definition erased (er : option (list (list bool))) (t q : nat) : bool :=
  match er with None => false | Some e => nth q (nth t e []) false end.
Definition error_part (p : pauli1) (f : bool * bool) : bool :=
  match p with PX => fst f | PZ => snd f | _ => false end.
Definition is_x (p : pauli1) : bool := match p with PX => true | _ => false end.

(** Whether the same generators detect another single X or Z error. *)
Definition has_twin (n : nat) (gens : list row) (p : pauli1) (q : nat) : bool :=
  existsb (fun q' => existsb (fun p' => negb ((q =? q') && Bool.eqb (is_x p) (is_x p')) &&
    forallb (fun g => Bool.eqb (clashes p (fac g q)) (clashes p' (fac g q'))) gens) [PX; PZ]) (seq 0 n).

(** Errors cost [a], erased qubits without errors or with them [b], unless the error on the qubit
    can be mistaken for another single error. *)
Definition price (a b n : nat) (gens : list row) (er : option (list (list bool))) (E : nat -> nat -> bool * bool)
  (p : pauli1) (t q : nat) : nat :=
  if erased er t q then (if has_twin n gens p q then a else b) else if error_part p (E t q) then a else 0.

(** The price of the errors [E] of the letters [allow] and of the wrong results [F] of the
    generators [side]. *)
Definition total_price (a b rounds n : nat) (gens : list row) (allow : pauli1 -> bool) (side : nat -> bool)
  (er : option (list (list bool))) (E : nat -> nat -> bool * bool) (F : nat -> nat -> bool) : nat :=
  list_sum (map (fun p => list_sum (map (fun t => list_sum (map (price a b n gens er E p t) (seq 0 n))) (seq 0 rounds)))
    (filter allow [PX; PZ])) +
  list_sum (map (fun t => list_sum (map (fun s => if side s && F t s then a else 0) (seq 0 (length gens)))) (seq 0 rounds)).

(** The errors of the letters [allow] are detected by the generators [side], the other ones by the
    other generators; and they are the ones which can change the value of [l]. *)
Definition detected_by (n : nat) (gens : list row) (allow : pauli1 -> bool) (side : nat -> bool) (l : nat -> bool * bool) : Prop :=
  (forall p q s, p = PX \/ p = PZ -> q < n -> s < length gens -> clashes p (fac (nth s gens row0) q) = true -> allow p = side s) /\
  (forall p q, p = PX \/ p = PZ -> q < n -> clashes p (l q) = true -> allow p = true).

(** The smallest number of qubits of an operator which commutes with the generators but not with [l]. *)
Definition exact_distance (n : nat) (gens : list row) (l : nat -> bool * bool) (d : nat) : Prop :=
  logical_distance n gens l d /\
  exists P, (forall s, s < length gens -> anti (seq 0 n) (fac (nth s gens row0)) P = false) /\
    anti (seq 0 n) l P = true /\ operator_weight n P = d.

(** Operators with letters X only or with letters Z only. *)
Definition letters_x (g : row) : Prop := forall q, snd (fac g q) = false.
Definition letters_z (g : row) : Prop := forall q, fst (fac g q) = false.
Definition is_z (p : pauli1) : bool := match p with PZ => true | _ => false end.
(** The generators with a letter Z, or a letter X. *)
Definition z_side (gens : list row) (s : nat) : bool := existsb snd (ops (nth s gens row0)).
Definition x_side (gens : list row) (s : nat) : bool := existsb fst (ops (nth s gens row0)).
