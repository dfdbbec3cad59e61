(** Independent specification: exact quantum mechanics of n qubits.

    A (not normalised) state vector of n qubits assigns a Gaussian integer to every
    computational basis label, a list of n bits.  Operators are given by the textbook
    2x2 and 4x4 matrices.  Nothing in this file mentions tableaus or the Python code. *)
Require Import List Bool Arith ZArith Lia.
From Verif Require Import Base.
Import ListNotations.
Local Open Scope Z_scope.

(** * Gaussian integers *)
Record Zi := mkZi { re : Z; im : Z }.
Definition zi0 := mkZi 0 0.
Definition zi1 := mkZi 1 0.
Definition zii := mkZi 0 1.
Definition ziadd a b := mkZi (re a + re b) (im a + im b).
Definition zimul a b := mkZi (re a * re b - im a * im b) (re a * im b + im a * re b).
Definition ziopp a := mkZi (- re a) (- im a).
Definition zisub a b := ziadd a (ziopp b).
Definition ziconj a := mkZi (re a) (- im a).
(** squared absolute value *)
Definition ziabs2 a := re a * re a + im a * im a.

Declare Scope zi_scope.
Delimit Scope zi_scope with zi.
Infix "+" := ziadd : zi_scope.
Infix "*" := zimul : zi_scope.
Infix "-" := zisub : zi_scope.
Notation "- a" := (ziopp a) : zi_scope.

(** * State vectors *)
Definition vec := list bool -> Zi.

(** Equality of vectors of [n] qubits. *)
Definition veq (n : nat) (v w : vec) : Prop := forall a, length a = n -> v a = w a.
Definition vadd (v w : vec) : vec := fun a => ziadd (v a) (w a).
Definition vscale (c : Zi) (v : vec) : vec := fun a => zimul c (v a).

(** All basis labels of n qubits. *)
Fixpoint labels (n : nat) : list (list bool) :=
  match n with
  | O => [[]]
  | S n' => map (cons false) (labels n') ++ map (cons true) (labels n')
  end.

(** Squared norm and inner product. *)
Fixpoint zsum (l : list Z) : Z := match l with [] => 0 | x :: l' => x + zsum l' end.
Fixpoint zisum (l : list Zi) : Zi := match l with [] => zi0 | x :: l' => ziadd x (zisum l') end.
Definition norm2 (n : nat) (v : vec) : Z := zsum (map (fun a => ziabs2 (v a)) (labels n)).
Definition inner (n : nat) (v w : vec) : Zi :=
  zisum (map (fun a => zimul (ziconj (v a)) (w a)) (labels n)).

(** * Matrices: [m a b] is the entry in row [a], column [b]. *)
Definition mat2 := bool -> bool -> Zi.

Definition mI : mat2 := fun a b => if eqb a b then zi1 else zi0.
Definition mX : mat2 := fun a b => if eqb a b then zi0 else zi1.
Definition mZ : mat2 := fun a b => if eqb a b then (if a then ziopp zi1 else zi1) else zi0.
(** Y = [[0, -i], [i, 0]] *)
Definition mY : mat2 := fun a b =>
  match a, b with
  | false, true => ziopp zii
  | true, false => zii
  | _, _ => zi0
  end.
(** Hadamard without the factor 1/sqrt 2. *)
Definition mH : mat2 := fun a b => if a && b then ziopp zi1 else zi1.
(** Phase gate diag(1, i). *)
Definition mS : mat2 := fun a b => if eqb a b then (if a then zii else zi1) else zi0.

(** Controlled gates on (control, target): row index (a,b), column index (a',b'). *)
Definition mat4 := bool -> bool -> bool -> bool -> Zi.
Definition mCtrl (u : mat2) : mat4 := fun a b a' b' =>
  if eqb a a' then (if a then u b b' else mI b b') else zi0.
Definition mCX := mCtrl mX.
Definition mCZ := mCtrl mZ.

(** Apply a one-qubit matrix to qubit [q]. *)
Definition apply1 (m : mat2) (q : nat) (v : vec) : vec := fun a =>
  let x := nth q a false in
  ziadd (zimul (m x false) (v (upd q false a))) (zimul (m x true) (v (upd q true a))).

(** Apply a two-qubit matrix to qubits [c], [t] (used for c <> t). *)
Definition apply2 (m : mat4) (c t : nat) (v : vec) : vec := fun a =>
  let x := nth c a false in
  let y := nth t a false in
  let term i j := zimul (m x y i j) (v (upd t j (upd c i a))) in
  ziadd (ziadd (term false false) (term false true)) (ziadd (term true false) (term true true)).

(** * Pauli operators *)
Inductive pauli1 := PI | PX | PY | PZ.

Definition mP (p : pauli1) : mat2 :=
  match p with PI => mI | PX => mX | PY => mY | PZ => mZ end.

(** Tensor product of one-qubit Pauli matrices applied to a vector: the first factor
    acts on the first bit of the label. *)
Fixpoint ptensor (ps : list pauli1) (v : vec) : vec :=
  match ps with
  | [] => v
  | p :: ps' => fun a =>
      match a with
      | [] => zi0
      | x :: a' =>
          ziadd (zimul (mP p x false) (ptensor ps' (fun l => v (false :: l)) a'))
                (zimul (mP p x true) (ptensor ps' (fun l => v (true :: l)) a'))
      end
  end.

(** A Hermitian Pauli operator: a sign (true = minus) and a tensor product. *)
Definition spauli := (bool * list pauli1)%type.
Definition sgn (b : bool) : Zi := if b then ziopp zi1 else zi1.
Definition papply (P : spauli) (v : vec) : vec := vscale (sgn (fst P)) (ptensor (snd P) v).

(** [P] stabilises [v]. *)
Definition stabilises (n : nat) (P : spauli) (v : vec) : Prop := veq n (papply P v) v.

(** Operator equality / (anti)commutation on n-qubit space. *)
Definition commute (n : nat) (P Q : spauli) : Prop :=
  forall v, veq n (papply P (papply Q v)) (papply Q (papply P v)).
Definition anticommute (n : nat) (P Q : spauli) : Prop :=
  forall v, veq n (papply P (papply Q v)) (vscale (ziopp zi1) (papply Q (papply P v))).

(** The computational basis state |0...0>. *)
Definition ket0 : vec := fun a => if forallb negb a then zi1 else zi0.

(** Unnormalised projection onto the outcome [m] of measuring [P]: v + (-1)^m P v.
    (The projector (1 + (-1)^m P)/2 times 2.) *)
Definition project (P : spauli) (m : bool) (v : vec) : vec :=
  vadd v (vscale (sgn m) (papply P v)).
