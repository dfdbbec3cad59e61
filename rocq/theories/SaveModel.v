(** Model of files of qubit errors which are saved and loaded (/repo/src/plaquette/errors/__init__.py: save_to_csv and from_csv
    for qubit errors).  A file is a list of named columns; numbers are read as they were written. *)
Require Import String List Bool Arith ZArith QArith.
From Verif Require Import Base PauliModel CircuitModel LatticeModel GeneratorModel WeightsModel TablesModel.
Import ListNotations.
Local Open Scope string_scope.
Local Open Scope nat_scope.
Local Open Scope list_scope.

(** A column of integers, texts or floats. *)
Inductive file_column := Ints (l : list Z) | Texts (l : list string) | Floats (l : list Q).
Definition table_file := list (string * file_column).
(** 864 [self.qubit_errors.to_csv]: the index, whose name is qubit_id (399), and then all columns. *)
Definition save_qubits (t : qubit_table) : table_file :=
  ("qubit_id", Ints (map fst (qt_rows t))) :: ("qubit_id", Ints (map fst (qt_rows t))) :: ("qubit_type", Texts (map snd (qt_rows t)))
  :: map (fun c : string * list Q => (fst c, Floats (snd c))) (qt_cols t).
(** [pd.read_csv] gives the second column of a name another name; more columns of the same name are not modelled. *)
Fixpoint read_names (seen : list string) (f : table_file) : Res table_file :=
  match f with
  | [] => Ok []
  | (n, c) :: f =>
      do n' <- (if mem_str n seen then if mem_str (n ++ ".1")%string (seen ++ map fst f) then Err Unmodelled else Ok (n ++ ".1")%string else Ok n);
      do f' <- read_names (seen ++ [n']) f; Ok ((n', c) :: f')
  end.
(** The column of a name. *)
Definition file_get (n : string) (f : table_file) : option file_column := option_map snd (find (fun c => String.eqb (fst c) n) f).
(** The columns of numbers apart from qubit_id; integers are numbers, too. *)
Definition number_columns (f : table_file) : list (string * list Q) :=
  flat_map (fun c : string * file_column => if mem_str (fst c) ["qubit_id"; "qubit_type"] then [] else
    match snd c with Ints l => [(fst c, map inject_Z l)] | Floats l => [(fst c, l)] | Texts _ => [] end) f.
(** 397-401, 431-455 [from_csv] with a file of qubit errors: all columns from the third one on are enabled. *)
Definition load_qubits (f : table_file) : Res error_data :=
  do f <- read_names [] f;
  match file_get "qubit_id" f, file_get "qubit_type" f with
  | Some (Ints ids), Some (Texts types) => Ok (mkErrorData (mkTable (combine ids types) (number_columns f)) [] (map fst (skipn 2 f)) [])
  | _, _ => Err Unmodelled
  end.
