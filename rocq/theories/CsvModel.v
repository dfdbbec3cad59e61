(** Model of the files with gate errors (/repo/src/plaquette/errors/__init__.py: delimited_string_list_to_series, ErrorData.from_csv,
    update_from_csv, save_to_csv).

    Simplifications:
    - a file is a list of names and a list of rows of texts: commas and quotes are left to pandas;
    - how pandas understands a text (a number, a missing value, anything else) is an argument, as are [float] of a text and [str] of a float;
    - the contents of files with qubit errors are arguments. *)
Require Import String List Bool Arith Ascii ZArith QArith.
From Verif Require Import Base CircuitModel TablesModel.
Import ListNotations.
Local Open Scope string_scope.
Local Open Scope nat_scope.
Local Open Scope list_scope.

Record csv := mkCsv { csv_names : list string; csv_rows : list (list string) }.
(** What a text in a file looks like, and what becomes of it: a text, or a number (also: not a number). *)
Inductive text_kind := IsText | IsNumber | IsMissing.
Inductive csv_cell := CText (s : string) | CNumber.

Section Csv.
Variable kind : string -> text_kind.
Variable read_float : string -> option Q.
Variable show_float : Q -> string.

(** [pd.read_csv]: the values of a column are numbers if all texts are numbers or missing, otherwise they are texts apart from missing ones. *)
Definition is_text (s : string) : bool := match kind s with IsText => true | _ => false end.
Definition read_column (l : list string) : list csv_cell :=
  map (fun s => if existsb is_text l then match kind s with IsMissing => CNumber | _ => CText s end else CNumber) l.
(** [str.split] with a delimiter of one character. *)
Fixpoint split_on (d : ascii) (s : string) : list string :=
  match s with
  | EmptyString => [EmptyString]
  | String a r =>
      if Ascii.eqb a d then EmptyString :: split_on d r
      else match split_on d r with w :: l => String a w :: l | [] => [String a EmptyString] end
  end.
(** [int] and [float] of a text *)
Definition text_int (s : string) : Res Z := match py_int s with Some z => Ok z | None => Err ValueError end.
Definition text_float (s : string) : Res Q := match read_float s with Some q => Ok q | None => Err ValueError end.
(** [val.split(delimiter)]: numbers have no such method. *)
Definition cell_parts (d : ascii) (c : csv_cell) : Res (list string) := match c with CText s => Ok (split_on d s) | CNumber => Err AttributeError end.
(** The columns of the table. *)
Inductive csv_column := CInts (l : list (list Z)) | CStrs (l : list (list string)) | CFloats (l : list (list Q)) | CRaw (l : list csv_cell).
(** 154-198 [delimited_string_list_to_series] without index, which nobody gives. *)
Definition to_series (d : ascii) (exp_type : string) (values : list csv_cell) : Res csv_column :=
  if String.eqb exp_type "str" then do l <- mapR (cell_parts d) values; Ok (CStrs l)
  else if String.eqb exp_type "int" then do l <- mapR (fun c => do ps <- cell_parts d c; mapR text_int ps) values; Ok (CInts l)
  else if String.eqb exp_type "float" then do l <- mapR (fun c => do ps <- cell_parts d c; mapR text_float ps) values; Ok (CFloats l)
  else Err ValueError.
(** The columns of a file. *)
Definition file_columns (f : csv) : list (string * csv_column) :=
  map (fun i => (nth i (csv_names f) "", CRaw (read_column (map (fun r => nth i r "") (csv_rows f))))) (seq 0 (List.length (csv_names f))).
(** 443-447, 799-802, 1234-1236: the second, third and fourth columns are converted. *)
Definition convert_column (ce : (string * csv_column) * string) : Res (string * csv_column) :=
  match snd (fst ce) with CRaw l => do c <- to_series "|"%char (snd ce) l; Ok (fst (fst ce), c) | _ => Err Unmodelled end.
Definition read_gate_columns (f : csv) : Res (list (string * csv_column)) :=
  match file_columns f with
  | [] => Err Unmodelled
  | c :: cs => do cs' <- mapR convert_column (combine cs ["int"; "str"; "float"]); Ok (c :: cs' ++ skipn 3 cs)
  end.
(** The table of gate errors with these columns (379-386); other kinds of columns are not modelled. *)
Definition cell_text (c : csv_cell) : Res string := match c with CText s => Ok s | CNumber => Err Unmodelled end.
Fixpoint zip_rows (gs : list string) (qs : list (list Z)) (es : list (list string)) (ps : list (list Q)) : list gate_row :=
  match gs, qs, es, ps with g :: gs, q :: qs, e :: es, p :: ps => mkGateRow g q e p :: zip_rows gs qs es ps | _, _, _, _ => [] end.
Definition named (n : string) (cs : list (string * csv_column)) : option csv_column :=
  match find (fun c => String.eqb (fst c) n) cs with Some c => Some (snd c) | None => None end.
Definition read_gates (f : csv) : Res (list gate_row) :=
  do cs <- read_gate_columns f;
  match named "gate" cs, named "on_qubits" cs, named "induced_errors" cs, named "probs" cs with
  | Some (CRaw gs), Some (CInts qs), Some (CStrs es), Some (CFloats ps) => do gs <- mapR cell_text gs; Ok (zip_rows gs qs es ps)
  | _, _, _, _ => Err Unmodelled
  end.

(** 411-455 [from_csv]: the table of the file with qubit errors (without rows if there is none), and the file with gate errors. *)
Definition from_csv (t : qubit_table) (gates : option csv) : Res error_data :=
  do rows <- match gates with Some f => read_gates f | None => Ok [] end;
  Ok (new_error_data t rows [] []).
(** 770-809 [update_from_csv] for gate errors: all gates of the table become enabled. *)
Definition update_gates_csv (f : csv) (overwrite : bool) (d : error_data) : Res error_data :=
  do rows <- read_gates f;
  let all := if overwrite then rows else ed_gates d ++ rows in
  Ok (mkErrorData (ed_qubits d) all (ed_qon d) (dedup (map g_gate all))).
(** [str] of lists; strings in quotes *)
Definition show_cells (l : list string) : string := ("[" ++ join ", " l ++ "]")%string.
Definition quoted (s : string) : string := ("'" ++ s ++ "'")%string.
(** 865 [self.gate_errors.to_csv]: a column without name, which [read_csv] calls "Unnamed: 0", has the numbers of the rows; lists are written as Python writes them. *)
Definition save_gates (rows : list gate_row) : csv :=
  mkCsv ["Unnamed: 0"; "gate"; "on_qubits"; "induced_errors"; "probs"]
    (map (fun ir : nat * gate_row => let r := snd ir in
       [show_int (Z.of_nat (fst ir)); g_gate r; show_cells (map show_int (g_qubits r)); show_cells (map quoted (g_errors r)); show_cells (map show_float (g_probs r))])
       (combine (seq 0 (List.length rows)) rows)).
End Csv.
