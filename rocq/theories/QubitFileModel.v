(** Model of updates of the table of qubit errors (/repo/src/plaquette/errors/__init__.py: ErrorData.update and
    ErrorData.update_from_csv for qubit errors). *)
Require Import String List Bool Arith ZArith QArith.
From Verif Require Import Base TablesModel InstantiateModel.
Import ListNotations.
Local Open Scope string_scope.
Local Open Scope nat_scope.
Local Open Scope list_scope.

(** 793-796: one column of the file.  A new column is empty at first; one which does not get a number in each row is not
    modelled.  The column qubit_type of the file has the types of the table, so that it changes nothing. *)
Definition merge_column (c : qubit_csv) (t : qubit_table) (col : string * list (option Q)) : Res qubit_table :=
  match column t (fst col) with
  | Some vs => do vs' <- update_column c (snd col) (qt_rows t) vs; Ok (set_column (fst col) vs' t)
  | None =>
      if negb (distinct_ids (cs_ids c)) then Err ValueError
      else do vs <- mapR (fun r : Z * string => match find_id (fst r) (combine (cs_ids c) (snd col)) with Some v => Ok v | None => Err Unmodelled end) (qt_rows t);
           Ok (mkTable (qt_rows t) (qt_cols t ++ [(fst col, vs)]))
  end.
(** 770-796 [update_from_csv] with a file of qubit errors, without overwriting. *)
Definition update_qubits_csv (c : qubit_csv) (d : error_data) : Res error_data :=
  do t <- foldR (merge_column c) (cs_cols c) (ed_qubits d);
  Ok (mkErrorData t (ed_gates d) (ed_qon d) (ed_gon d)).

(** The truth value of an argument which is a DataFrame or None (750, 761): that of a DataFrame is always a ValueError. *)
Definition truth {A} (table : option A) : Res bool := match table with Some _ => Err ValueError | None => Ok false end.
(** 735-768 [update]; what would be done with a table that is true is given by [merge] and [append]. *)
Definition update {A B} (merge : A -> error_data -> Res error_data) (append : B -> error_data -> Res error_data)
  (qubits : option A) (gates : option B) (d : error_data) : Res error_data :=
  do b <- truth qubits;
  do d <- match b, qubits with true, Some t => merge t d | _, _ => Ok d end;
  do b <- truth gates;
  match b, gates with true, Some t => append t d | _, _ => Ok d end.
