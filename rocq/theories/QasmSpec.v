(** Independent meaning of the OpenQASM 2 statements used by the export. *)
Require Import List Bool Arith ZArith Lia String Ascii DecimalString.
From Verif Require Import Base QSpec StateSpec CircuitModel SimSpec.
Import ListNotations.
Local Open Scope string_scope.
Local Open Scope nat_scope.
Local Open Scope list_scope.

Inductive qstmt :=
| SX (q : nat) | SY (q : nat) | SZ (q : nat) | SH (q : nat)
| SCX (c t : nat) | SCZ (c t : nat)
| SMeas (q b : nat).

(** A natural number in decimal. *)
Definition dec (n : nat) : string := NilZero.string_of_uint (N.to_uint (N.of_nat n)).
Definition reg (r : string) (n : nat) : string := (r ++ "[" ++ dec n ++ "]")%string.
Definition print (s : qstmt) : string :=
  match s with
  | SX q => ("x " ++ reg "q" q ++ ";")%string
  | SY q => ("y " ++ reg "q" q ++ ";")%string
  | SZ q => ("z " ++ reg "q" q ++ ";")%string
  | SH q => ("h " ++ reg "q" q ++ ";")%string
  | SCX c t => ("cx " ++ reg "q" c ++ "," ++ reg "q" t ++ ";")%string
  | SCZ c t => ("cz " ++ reg "q" c ++ "," ++ reg "q" t ++ ";")%string
  | SMeas q b => ("measure " ++ reg "q" q ++ " -> " ++ reg "c" b ++ ";")%string
  end.

(** Execution on a state vector and a classical register. *)
Inductive qstep (n : nat) : qstmt -> vec * list bool -> vec * list bool -> Prop :=
| qs_x q v c : qstep n (SX q) (v, c) (apply1 mX q v, c)
| qs_y q v c : qstep n (SY q) (v, c) (apply1 mY q v, c)
| qs_z q v c : qstep n (SZ q) (v, c) (apply1 mZ q v, c)
| qs_h q v c : qstep n (SH q) (v, c) (apply1 mH q v, c)
| qs_cx a b v c : qstep n (SCX a b) (v, c) (apply2 mCX a b v, c)
| qs_cz a b v c : qstep n (SCZ a b) (v, c) (apply2 mCZ a b v, c)
| qs_m q b m v c : q < n -> b < List.length c -> outcome n (single n false PZ q) m v ->
    qstep n (SMeas q b) (v, c) (project (single n false PZ q) m v, upd b m c).
Inductive qprog (n : nat) : list qstmt -> vec * list bool -> vec * list bool -> Prop :=
| qp_nil x : qprog n [] x x
| qp_cons s l x y z : qstep n s x y -> qprog n l y z -> qprog n (s :: l) x z.

(** Gates the export can express: plain gates on qubits, pairs complete. *)
Inductive exportable : gate -> Prop :=
| ex1 name qs : In name ["X"; "Y"; "Z"; "H"; "M"] -> exportable (name, map qa qs)
| ex2 name cts : In name ["CX"; "CZ"] ->
    exportable (name, flat_map (fun ct : nat * nat => [qa (fst ct); qa (snd ct)]) cts).
