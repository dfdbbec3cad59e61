(** What the pseudo-inverse of a matrix of stabilisers is. *)
Require Import List Bool Arith QArith Qabs.
From Verif Require Import Base PauliModel AloneModel.
Import ListNotations.
Local Open Scope nat_scope.

Definition bit (b : bool) : Q := if b then 1%Q else 0%Q.
Definition sum_to (n : nat) (f : nat -> Q) : Q := fold_right Qplus 0%Q (map f (seq 0 n)).
(** The scalar product of a vector with a row of bits. *)
Definition scalar (n : nat) (f : nat -> Q) (s : list bool) : Q := sum_to n (fun k => (f k * bit (nth k s false))%Q).
(** Vectors in the span of rows of bits. *)
Inductive combination (S : list (list bool)) : (nat -> Q) -> Prop :=
| comb_zero f : (forall k, (f k == 0)%Q) -> combination S f
| comb_add s c f f' : In s S -> combination S f -> (forall k, (f' k == f k + c * bit (nth k s false))%Q) -> combination S f'.
(** The pseudo-inverse of a matrix with linearly independent columns [S]: its rows are the vectors of their span
    which have the product one with the column of the same index and zero with the others. *)
Definition dual_rows (n : nat) (S : list (list bool)) (P : list (list Q)) : Prop :=
  List.length P = List.length S /\
  forall i, i < List.length S -> List.length (nth i P []) = n /\ combination S (fun k => nth k (nth i P []) 0%Q) /\
    forall j, j < List.length S -> (scalar n (fun k => nth k (nth i P []) 0%Q) (nth j S []) == if i =? j then 1 else 0)%Q.
(** What is assumed of a result [M] of [np.linalg.pinv]: the error of each entry is less than [eps]. *)
Definition near_dual (eps : Q) (n : nat) (S : list (list bool)) (M : list (list Q)) : Prop :=
  forall P, dual_rows n S P -> List.length M = List.length P /\
    forall i, i < List.length P -> List.length (nth i M []) = n /\
      forall k, k < n -> (Qabs (nth k (nth i M []) 0 - nth k (nth i P []) 0) < eps)%Q.
(** The same without rounding. *)
Definition exact_dual (n : nat) (S : list (list bool)) (M : list (list Q)) : Prop := forall eps, (0 < eps)%Q -> near_dual eps n S M.

(** The number of ones of a row. *)
Fixpoint ones (s : list bool) : nat := match s with [] => 0 | b :: s => (if b then 1 else 0) + ones s end.
(** Rows without a common one. *)
Definition disjoint (a b : list bool) : Prop := forall k, nth k a false = true -> nth k b false = false.
(** Operators on [n] qubits, none the identity, with no entry of their rows in common. *)
Definition apart (n : nat) (ss : list row) : Prop :=
  (forall r, In r ss -> List.length (ops r) = n /\ 0 < ones (flat r)) /\
  forall i j, i < List.length ss -> j < List.length ss -> i <> j -> disjoint (flat (nth i ss row0)) (flat (nth j ss row0)).
(** X instead of Z and Z instead of X, with the sign +. *)
Definition exchanged (r : row) : row := mkRow (map (fun p => (snd p, fst p)) (ops r)) false.
