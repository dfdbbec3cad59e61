(** Specification vocabulary for the conversions and tensor products. *)
Require Import List Bool Arith ZArith Lia.
From Verif Require Import Base QSpec PauliModel PauliSem.
Import ListNotations.

(** Tensor product of a vector of [n] qubits with another one: amplitudes multiply. *)
Definition vtensor (n : nat) (v w : vec) : vec := fun a => zimul (v (firstn n a)) (w (skipn n a)).
(** Tensor product of a list of vectors with their numbers of qubits; empty: the scalar 1. *)
Definition vtensors (l : list (nat * vec)) : vec :=
  fold_right (fun nv w => vtensor (fst nv) (snd nv) w) (fun _ => zi1) l.

(** All single-qubit factors of the operator are the identity. *)
Definition is_identity (r : row) : Prop := Forall (fun p => p = PI) (snd (denote r)).
(** [r'] is [r] followed by identities, [m] qubits in total. *)
Definition padded (m : nat) (r r' : row) : Prop :=
  denote r' = (fst (denote r), snd (denote r) ++ repeat PI (m - length (snd (denote r)))).
