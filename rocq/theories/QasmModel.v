(** Model of /repo/src/plaquette/circuit/openqasm.py. *)
Require Import List Bool Arith ZArith QArith Lia String Ascii.
From Verif Require Import Base CircuitModel.
Import ListNotations.
Local Open Scope string_scope.

(** openqasm.py:67-76 gate_mapping (None: not a key). *)
Definition gate_mapping (name : string) : option string :=
  if String.eqb name "R" then Some "reset"
  else if String.eqb name "H" then Some "h"
  else if String.eqb name "X" then Some "x"
  else if String.eqb name "Y" then Some "y"
  else if String.eqb name "Z" then Some "z"
  else if String.eqb name "CX" then Some "cx"
  else if String.eqb name "CZ" then Some "cz"
  else if String.eqb name "M" then Some "measure"
  else None.

Section Qasm.
(** str() of a stored argument inside an f-string. *)
Variable show : arg -> string.

(** openqasm.py:98-100, one measured qubit: lines and meas_idx so far. *)
Definition qasm_measure (st : list string * nat) (q : arg) : list string * nat :=
  ((fst st ++ [("measure q[" ++ show q ++ "] -> c[" ++ show_int (Z.of_nat (snd st)) ++ "];")%string])%list, S (snd st)).

(** openqasm.py:105-110: pairs qubits[i], qubits[i + 1] for i = 0, 2, ...; IndexError if
    the last one has no partner. *)
Fixpoint qasm_pairs (g : string) (qs : list arg) : Res (list string) :=
  match qs with
  | [] => Ok []
  | [_] => Err IndexError
  | c :: t :: qs' => do l <- qasm_pairs g qs'; Ok ((g ++ " q[" ++ show c ++ "],q[" ++ show t ++ "];") :: l)
  end.

(** openqasm.py:87-110, one gate. *)
Definition qasm_gate (ignore_unsupported : bool) (st : list string * nat) (gt : gate) : Res (list string * nat) :=
  let '(name, qubits) := gt in
  match gate_mapping name with
  | None => if ignore_unsupported then Ok st else Err GateNotSupportedError
  | Some g =>
      if String.eqb name "M" then Ok (fold_left qasm_measure qubits st)
      else if mem_str name ["H"; "X"; "Y"; "Z"] then
        Ok ((fst st ++ map (fun q => (g ++ " q[" ++ show q ++ "];")%string) qubits)%list, snd st)
      else if mem_str name ["CX"; "CZ"] then
        do l <- qasm_pairs g qubits; Ok ((fst st ++ l)%list, snd st)
      else Ok st
  end.

(** openqasm.py:78-83 header. *)
Definition qasm_header (c : circuit) : list string :=
  ["OPENQASM 2.0;"; "include " ++ String """" ("qelib1.inc" ++ String """" ";");
   "qreg q[" ++ show_int (Z.of_nat (number_of_qubits c)) ++ "];";
   "creg c[" ++ show_int (Z.of_nat (number_measured_qubits c)) ++ "];"].

(** openqasm.py:34-112 convert_to_openqasm for a Circuit argument (a string argument is
    first converted by from_str). *)
Definition convert_to_openqasm (c : circuit) (ignore_unsupported : bool) : Res string :=
  do r <- foldR (qasm_gate ignore_unsupported) c (qasm_header c, 0%nat);
  Ok (join (String newline EmptyString) (fst r)).
End Qasm.
