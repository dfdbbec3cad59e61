(** What a decoder should do, in terms of errors. *)
Require Import List Bool Arith ZArith QArith.
From Verif Require Import Base QSpec PauliModel LatticeSpec GeneratorSpec GraphSpec SyngraphModel SyngraphProofs.
Import ListNotations.
Open Scope nat_scope.

(** The weight of a kind of errors on object [i] is not infinite (no weights at all are fine). *)
Definition finite_error (w : option warg) (sel : warg -> wspec) (i : nat) : Prop :=
  match w with None => True | Some a => is_inf (weight_at (sel a) i) = false end.
(** No weight is minus infinity. *)
Definition none_certain (w : option warg) (n m : nat) : Prop :=
  match w with
  | None => True
  | Some a => (forall q, q < n -> weight_at (w_x a) q <> Inf true /\ weight_at (w_z a) q <> Inf true) /\
              forall s, s < m -> weight_at (w_meas a) s <> Inf true
  end.

(** The errors [E t q] on data qubits and the wrong results [F t s] (as in [possible_history])
    have weights which are not infinite and give the syndrome. *)
Record explained (w : option warg) (rounds n : nat) (gens : list row) (syn : list (list bool))
  (E : nat -> nat -> bool * bool) (F : nat -> nat -> bool) : Prop := {
  ex_first : forall s, s < length gens -> F 0 s = false;
  ex_last : forall s, s < length gens -> F rounds s = false;
  ex_data : forall t q, t < rounds -> q < n ->
    (fst (E t q) = true -> finite_error w w_x q) /\ (snd (E t q) = true -> finite_error w w_z q);
  ex_results : forall t s, 0 < t < rounds -> s < length gens -> F t s = true -> finite_error w w_meas s;
  ex_syndrome : forall t s, t < rounds -> s < length gens ->
    nth s (nth t syn []) false = xorb (anti (seq 0 n) (fac (nth s gens row0)) (E t)) (xorb (F t s) (F (S t) s)) }.

(** The product of the errors of all rounds. *)
Definition total (rounds : nat) (E : nat -> nat -> bool * bool) (q : nat) : bool * bool :=
  (fold_right xorb false (map (fun t => fst (E t q)) (seq 0 rounds)),
   fold_right xorb false (map (fun t => snd (E t q)) (seq 0 rounds))).
