(** What a tableau row denotes: the meaning of the (x, z, sign) encoding documented in
    pauli.py (unpack_tableau and pauli_to_string: x only = X, z only = Z, both = Y,
    sign bit 1 = minus).  Part of the specification. *)
Require Import List Bool Arith ZArith Lia.
From Verif Require Import Base QSpec PauliModel.
Import ListNotations.

Definition p1 (p : bool * bool) : pauli1 :=
  match p with
  | (false, false) => PI
  | (true, false) => PX
  | (false, true) => PZ
  | (true, true) => PY
  end.

(** The Hermitian Pauli operator denoted by a row. *)
Definition denote (r : row) : spauli := (neg r, map p1 (ops r)).

(** The stabiliser rows of a tableau on n qubits: rows n .. 2n-1. *)
Definition stab_rows (n : nat) (t : tableau) : list row := skipn n t.

(** The tableau describes the state vector [v]: every stabiliser row fixes it. *)
Definition describes (n : nat) (t : tableau) (v : vec) : Prop :=
  Forall (fun r => stabilises n (denote r) v) (stab_rows n t).

(** A valid tableau on n qubits: 2n rows of n qubits; (de)stabilisers commute pairwise
    except that row i and row n+i anticommute. *)
Definition conj_rows (n i j : nat) : bool := (i + n =? j) || (j + n =? i).
Definition valid (n : nat) (t : tableau) : Prop :=
  length t = 2 * n /\
  Forall (fun r => length (ops r) = n) t /\
  forall i j, i < 2 * n -> j < 2 * n ->
    if conj_rows n i j
    then anticommute n (denote (nth i t row0)) (denote (nth j t row0))
    else commute n (denote (nth i t row0)) (denote (nth j t row0)).
