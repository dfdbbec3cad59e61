(** Model of generated files of qubit errors (/repo/src/plaquette/errors/__init__.py: generate_empty_qubit_errors_csv). *)
Require Import String List Bool Arith ZArith QArith.
From Verif Require Import Base PauliModel CircuitModel LatticeModel GeneratorModel WeightsModel TablesModel SaveModel.
Import ListNotations.
Local Open Scope string_scope.
Local Open Scope nat_scope.
Local Open Scope list_scope.

(** 298 [to_csv] with [index=False]: the columns only. *)
Definition columns_file (t : qubit_table) : table_file :=
  ("qubit_id", Ints (map fst (qt_rows t))) :: ("qubit_type", Texts (map snd (qt_rows t)))
  :: map (fun c : string * list Q => (fst c, Floats (snd c))) (qt_cols t).
(** 260-298 [generate_empty_qubit_errors_csv]: the contents of the file.  The texts of the column fabrication are not modelled. *)
Definition empty_file (l : lattice) (names : option (list string)) : Res table_file :=
  do t <- empty_qubit_errors l names; Ok (columns_file t).
