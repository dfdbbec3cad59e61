(** Model of [update_from_csv] with [overwrite=True] for qubit errors (/repo/src/plaquette/errors/__init__.py). *)
Require Import String List Bool Arith ZArith QArith.
From Verif Require Import Base PauliModel CircuitModel LatticeModel GeneratorModel WeightsModel TablesModel.
Import ListNotations.
Local Open Scope string_scope.
Local Open Scope nat_scope.
Local Open Scope list_scope.

(** 788-790: the table of the file takes the place of the table of the object; enabled errors are as before.  A number is in
    each cell of the file. *)
Definition overwrite_qubits (file : qubit_table) (d : error_data) : error_data :=
  mkErrorData file (ed_gates d) (ed_qon d) (ed_gon d).
(** The labels of the rows of a table which has just been read are their numbers (the index is not set to qubit_id, unlike in
    399). *)
Definition row_number (t : qubit_table) (q : Z) : Res nat :=
  if ((0 <=? q) && (q <? Z.of_nat (List.length (qt_rows t))))%Z then Ok (Z.to_nat q) else Err KeyError.

(** 868-911 [qubit_errors_dict] for a table whose rows are found by [at_label]; as in TablesModel.v otherwise. *)
Section Labels.
Context (at_label : Z -> Res nat).
Definition cell_by (t : qubit_table) (name : string) (q : Z) : Res Q :=
  match column t name with
  | None => Err KeyError
  | Some vs => do i <- at_label q; match nth_error vs i with Some v => Ok v | None => Err Unmodelled end
  end.
(** 875-878, 887-890, 898-904 *)
Definition qubits_by (t : qubit_table) (types : list string) : Res dict1 :=
  do ts <- mapR (fun r : Z * string => do i <- at_label (fst r); Ok (fst r, snd (nth i (qt_rows t) (0%Z, "")))) (qt_rows t);
  Ok (map (fun r : Z * string => (fst r, [])) (filter (fun r : Z * string => mem_str (snd r) types) ts)).
(** 879-880, 892-893, 905-906 *)
Definition set_param_by (t : qubit_table) (name key : string) (d : dict1) : Res dict1 :=
  mapR (fun kv : Z * params => do v <- cell_by t name (fst kv); Ok (fst kv, pset key v (snd kv))) d.
(** 873-880 and so on *)
Definition enabled_column_by (t : qubit_table) (types : list string) (name key : string) (d : dict1) : Res dict1 :=
  do d <- match d with [] => qubits_by t types | _ => Ok d end; set_param_by t name key d.
(** 871-909 *)
Definition enabled_error_by (t : qubit_table) (e : errors) (name : string) : Res errors :=
  if mem_str name ["X"; "Y"; "Z"] then
    do d <- enabled_column_by t ["data"] name (if String.eqb name "X" then "x" else if String.eqb name "Y" then "y" else "z") (er_pauli e);
    Ok (set_pauli d e)
  else if String.eqb name "erasure" then
    do d <- enabled_column_by t ["data"] name "p" (er_erasure e); Ok (set_er_erasure d e)
  else if String.eqb name "measurement" then
    do d <- enabled_column_by t ["stab"; "ancilla"] name "p" (er_measurement e);
    Ok (mkErrors (er_pauli e) (er_erasure e) d (er_CX e) (er_CZ e) (er_H e) (er_M e) (er_R e))
  else Ok e.
(** 868-911 *)
Definition qubit_errors_by (d : error_data) : Res errors :=
  match qt_rows (ed_qubits d) with
  | [] => Err Unmodelled
  | _ => foldR (enabled_error_by (ed_qubits d)) (ed_qon d) no_errors
  end.
End Labels.
(** 868-911 [qubit_errors_dict] after overwriting. *)
Definition overwritten_errors (file : qubit_table) (d : error_data) : Res errors :=
  qubit_errors_by (row_number file) (overwrite_qubits file d).
