(** Specification vocabulary for measurements of single qubits: product states, and a sequence
    of measurements on state vectors (no tableau in sight). *)
Require Import List Bool Arith ZArith.
From Verif Require Import Base QSpec.
Import ListNotations.

(** The label without bit [q]. *)
Definition drop_bit (q : nat) (a : list bool) : list bool := firstn q a ++ skipn (S q) a.

(** The product of the one-qubit vector [u] on qubit [q] and [w] on the other qubits. *)
Definition with_qubit (q : nat) (u : bool -> Zi) (w : vec) : vec :=
  fun a => zimul (u (nth q a false)) (w (drop_bit q a)).

(** Eigenvector of the Pauli matrix X or Z with eigenvalue (-1)^m. *)
Definition eigen (p : pauli1) (m : bool) : bool -> Zi :=
  match p with
  | PX => fun b => if b && m then ziopp zi1 else zi1
  | _ => fun b => if eqb b m then zi1 else zi0
  end.

(** Measurements of the operators [P i] for the indices [i] of a list one after the other, with
    outcomes [m i].  An outcome is sure if the vector is an eigenvector; otherwise both outcomes
    are equally likely, and it is the wanted outcome, or the next random bit if none is wanted. *)
Inductive measured (n : nat) (g : rng) (P : nat -> spauli) (wanted : nat -> option Z) (m : nat -> bool)
  : list nat -> nat -> vec -> nat -> vec -> Prop :=
| measured_none k v : measured n g P wanted m [] k v k v
| measured_sure i l k v k' v' :
    veq n (papply (P i) v) (vscale (sgn (m i)) v) ->
    measured n g P wanted m l k (project (P i) (m i) v) k' v' ->
    measured n g P wanted m (i :: l) k v k' v'
| measured_random i l k v k' v' :
    (forall b, norm2 n (project (P i) b v) = 2 * norm2 n v)%Z ->
    m i = match wanted i with Some f => (f =? 1)%Z | None => d_bit (g k) end ->
    measured n g P wanted m l (match wanted i with Some _ => k | None => S k end) (project (P i) (m i) v) k' v' ->
    measured n g P wanted m (i :: l) k v k' v'.
