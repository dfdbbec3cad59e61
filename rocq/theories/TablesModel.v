(** Model of the error tables of [ErrorData] (/repo/src/plaquette/errors/__init__.py 358-953).

    Simplifications:
    - the table of qubit errors has at least one row, and labels of rows which are written or read
      occur exactly once (everything else about rows is [Unmodelled]);
    - the values of a column are rational numbers.  The column "fabrication" contains strings; it
      may occur as a column, but its values are not part of the model;
    - the sets of enabled errors are lists, in the order in which Python iterates over them;
    - dictionaries keep their keys in order of insertion, and an empty dictionary counts as a
      missing one, as in [GeneratorModel.errors];
    - files (from_csv, update_from_csv, save_to_csv) are not modelled; the contents of the files
      read by assimilate_qubit_errors and assimilate_gate_errors are arguments. *)
Require Import String List Bool Arith Ascii ZArith QArith Lia.
From Verif Require Import Base PauliModel CircuitModel LatticeModel GeneratorModel WeightsModel.
Import ListNotations.
Local Open Scope string_scope.
Local Open Scope nat_scope.
Local Open Scope list_scope.

(** A row of the table of gate errors (379-386). *)
Record gate_row := mkGateRow { g_gate : string; g_qubits : list Z; g_errors : list string; g_probs : list Q }.
(** The table of qubit errors (361-377): labels and types of the qubits, and the other columns. *)
Record qubit_table := mkTable { qt_rows : list (Z * string); qt_cols : list (string * list Q) }.
(** The object (358-391). *)
Record error_data := mkErrorData {
  ed_qubits : qubit_table; ed_gates : list gate_row; ed_qon : list string; ed_gon : list string }.

(** 400-408 [__post_init__]. *)
Fixpoint dedup (l : list string) : list string :=
  match l with [] => [] | s :: l => if mem_str s l then dedup l else s :: dedup l end.
Definition new_error_data (t : qubit_table) (gates : list gate_row) (qon gon : list string) : error_data :=
  mkErrorData t gates (match qon with [] => map fst (qt_cols t) | _ => qon end)
    (match gon with [] => dedup (map g_gate gates) | _ => gon end).

(** * The table of qubit errors *)
(** The column of a name, and [name in self.qubit_errors.columns]. *)
Definition column (t : qubit_table) (name : string) : option (list Q) :=
  match find (fun c => String.eqb (fst c) name) (qt_cols t) with Some c => Some (snd c) | None => None end.
Definition has_column (t : qubit_table) (name : string) : bool :=
  mem_str name ["qubit_id"; "qubit_type"] || mem_str name (map fst (qt_cols t)).
(** The position of the only row with a label. *)
Definition position (t : qubit_table) (q : Z) : Res nat :=
  match filter (fun i => (fst (nth i (qt_rows t) (0%Z, "")) =? q)%Z) (seq 0 (List.length (qt_rows t))) with
  | [] => Err KeyError | [i] => Ok i | _ => Err Unmodelled
  end.
(** 608-609, 665-666, 673-674: [self.qubit_errors.at[i, error_name] = p].  A new label would make a new row with
    missing values, which is not modelled. *)
Definition set_cell (t : qubit_table) (vs : list Q) (ip : Z * Q) : Res (list Q) :=
  match position t (fst ip) with Ok i => Ok (upd i (snd ip) vs) | Err _ => Err Unmodelled end.
(** 554-610 [add_qubit_error]; the cells which are not given become 0. *)
Definition add_qubit_error (ids : list Z) (name : string) (probs : list Q) (d : error_data) : Res error_data :=
  if String.eqb name "fabrication" then Err ValueError
  else if has_column (ed_qubits d) name then Err ValueError
  else
    let t := ed_qubits d in
    do vs <- foldR (set_cell t) (combine ids probs) (repeat 0%Q (List.length (qt_rows t)));
    Ok (mkErrorData (mkTable (qt_rows t) (qt_cols t ++ [(name, vs)])) (ed_gates d)
          (if mem_str name (ed_qon d) then ed_qon d else ed_qon d ++ [name]) (ed_gon d)).
(** The two kinds of arguments of [update_qubit_error]. *)
Inductive one_or_many (A : Type) := One (a : A) | Many (l : list A).
Arguments One {A}. Arguments Many {A}.
(** Assignment to a column. *)
Definition set_column (name : string) (vs : list Q) (t : qubit_table) : qubit_table :=
  mkTable (qt_rows t) (map (fun c => if String.eqb (fst c) name then (name, vs) else c) (qt_cols t)).
(** 612-679 [update_qubit_error].  Writing into the columns qubit_id and qubit_type is not
    modelled. *)
Definition update_qubit_error (ids : one_or_many Z) (name : string) (probs : one_or_many Q) (d : error_data) : Res error_data :=
  if String.eqb name "fabrication" then Err ValueError
  else if negb (has_column (ed_qubits d) name) then Err ValueError
  else
    do ips <- match ids, probs with
              | One i, One p => Ok [(i, p)]
              | Many l, Many ps => if negb (List.length ps =? List.length l) then Err ValueError else Ok (combine l ps)
              | _, _ => Err TypeError
              end;
    let t := ed_qubits d in
    match column t name with
    | None => Err Unmodelled
    | Some vs =>
        do vs' <- foldR (set_cell t) ips vs;
        Ok (mkErrorData (set_column name vs' t) (ed_gates d) (ed_qon d) (ed_gon d))
    end.

(** [self.qubit_errors[e][k]]: KeyError without such a column or row. *)
Definition cell (t : qubit_table) (name : string) (q : Z) : Res Q :=
  match column t name with
  | None => Err KeyError
  | Some vs => do i <- position t q; match nth_error vs i with Some v => Ok v | None => Err Unmodelled end
  end.
(** 873-878, 885-890, 896-904: a new dictionary for the qubits of some types. *)
Definition qubits_of (t : qubit_table) (types : list string) : Res dict1 :=
  do ts <- mapR (fun r : Z * string => do i <- position t (fst r); Ok (fst r, snd (nth i (qt_rows t) (0%Z, "")))) (qt_rows t);
  Ok (map (fun r : Z * string => (fst r, [])) (filter (fun r : Z * string => mem_str (snd r) types) ts)).
(** 879-880, 891-892, 905-906: one parameter of all qubits of the dictionary. *)
Definition set_param (t : qubit_table) (name key : string) (d : dict1) : Res dict1 :=
  mapR (fun kv : Z * params => do v <- cell t name (fst kv); Ok (fst kv, pset key v (snd kv))) d.
(** 871-880 and so on: the dictionary of a kind of errors after one more enabled column. *)
Definition enabled_column (t : qubit_table) (types : list string) (name key : string) (d : dict1) : Res dict1 :=
  do d <- match d with [] => qubits_of t types | _ => Ok d end; set_param t name key d.
(** 875-911 [qubit_errors_dict]. *)
Definition enabled_error (t : qubit_table) (e : errors) (name : string) : Res errors :=
  if mem_str name ["X"; "Y"; "Z"] then
    do d <- enabled_column t ["data"] name (if String.eqb name "X" then "x" else if String.eqb name "Y" then "y" else "z") (er_pauli e);
    Ok (set_pauli d e)
  else if String.eqb name "erasure" then
    do d <- enabled_column t ["data"] name "p" (er_erasure e); Ok (set_er_erasure d e)
  else if String.eqb name "measurement" then
    do d <- enabled_column t ["stab"; "ancilla"] name "p" (er_measurement e);
    Ok (mkErrors (er_pauli e) (er_erasure e) d (er_CX e) (er_CZ e) (er_H e) (er_M e) (er_R e))
  else Ok e.
Definition qubit_errors_dict (d : error_data) : Res errors :=
  match qt_rows (ed_qubits d) with
  | [] => Err Unmodelled
  | _ => foldR (enabled_error (ed_qubits d)) (ed_qon d) no_errors
  end.

(** * The table of gate errors *)
(** [str.lower] for ASCII letters. *)
Definition lower_ascii (a : ascii) : ascii :=
  let n := nat_of_ascii a in if (65 <=? n) && (n <=? 90) then ascii_of_nat (n + 32) else a.
Fixpoint lower (s : string) : string :=
  match s with EmptyString => EmptyString | String a s => String (lower_ascii a) (lower s) end.
(** 930-935, 946-951: the dictionary of a row; equal names overwrite each other. *)
Definition row_params (r : gate_row) : params :=
  fold_left (fun p (kv : string * Q) => pset (lower (fst kv)) (snd kv) p) (combine (g_errors r) (g_probs r)) [].
(** Assignment to a key of a dictionary of gate errors. *)
Definition kset {K V} (eqb : K -> K -> bool) (k : K) (v : V) (d : list (K * V)) : list (K * V) :=
  if existsb (fun kv => eqb (fst kv) k) d
  then map (fun kv => if eqb (fst kv) k then (k, v) else kv) d else d ++ [(k, v)].
Definition pair_eqb (a b : Z * Z) : bool := ((fst a =? fst b) && (snd a =? snd b))%Z.
(** 926-935: the qubits of a row of a gate with one qubit. *)
Definition add_row1 (r : gate_row) (d : dict1) : dict1 :=
  fold_left (fun d q => kset Z.eqb q (row_params r) d) (g_qubits r) d.
(** 942-951: the pairs of a row of a gate with two qubits; IndexError if a qubit is left. *)
Fixpoint add_pairs (p : params) (qs : list Z) (d : dict2) : Res dict2 :=
  match qs with
  | [] => Ok d
  | [_] => Err IndexError
  | a :: b :: qs => add_pairs p qs (kset pair_eqb (a, b) p d)
  end.
(** 937-951 *)
Definition add_row2 (r : gate_row) (d : dict2) : Res dict2 :=
  if existsb (fun k => mem_str k ["X"; "Y"; "Z"]) (g_errors r) then Err KeyError
  else add_pairs (row_params r) (g_qubits r) d.
(** 920-951: one row. *)
Definition add_row (gon : list string) (e : errors) (r : gate_row) : Res errors :=
  let 'mkErrors p er m cx cz h mm rr := e in
  if negb (mem_str (g_gate r) gon) then Ok e
  else if String.eqb (g_gate r) "H" then Ok (mkErrors p er m cx cz (add_row1 r h) mm rr)
  else if String.eqb (g_gate r) "M" then Ok (mkErrors p er m cx cz h (add_row1 r mm) rr)
  else if String.eqb (g_gate r) "R" then Ok (mkErrors p er m cx cz h mm (add_row1 r rr))
  else if String.eqb (g_gate r) "CX" then do d <- add_row2 r cx; Ok (mkErrors p er m d cz h mm rr)
  else if String.eqb (g_gate r) "CZ" then do d <- add_row2 r cz; Ok (mkErrors p er m cx d h mm rr)
  else Ok e.
(** 913-953 [gate_errors_dict]. *)
Definition gate_errors_dict (d : error_data) : Res errors := foldR (add_row (ed_gon d)) (ed_gates d) no_errors.
(** 681-723 [add_gate_error]: a row at the end. *)
Definition add_gate_error (r : gate_row) (d : error_data) : error_data :=
  mkErrorData (ed_qubits d) (ed_gates d ++ [r]) (ed_qon d)
    (if mem_str (g_gate r) (ed_gon d) then ed_gon d else ed_gon d ++ [g_gate r]).

(** 813-852 [error_data_dict]; all keys are known ones. *)
Definition error_data_dict (d : error_data) : Res errors :=
  do g <- match ed_gon d with [] => Ok no_errors | _ => gate_errors_dict d end;
  do q <- match ed_qon d with [] => Ok no_errors | _ => qubit_errors_dict d end;
  Ok (mkErrors (er_pauli q) (er_erasure q) (er_measurement q) (er_CX g) (er_CZ g) (er_H g) (er_M g) (er_R g)).

(** * Tables for a lattice *)
(** 343-347, 508-516: the rows for the qubits of a lattice which are not logical operators. *)
Definition qubit_type (v : vertex) : string := match v_kind v with KData => "data" | KStab _ => "stab" | KLogical _ => "log" end.
Definition lattice_rows (l : lattice) : list (Z * string) :=
  map (fun i => (match v_equbit (l_heap l i) with Some q => Z.of_nat q | None => (-1)%Z end, qubit_type (l_heap l i)))
      (filter (fun i => negb (is_logical (l_heap l i))) (l_equbits l)).
(** 301-356 [generate_empty_qubit_errors]; the column fabrication has some values. *)
Definition empty_qubit_errors (l : lattice) (names : option (list string)) : Res qubit_table :=
  let names := match names with Some n => n | None => ["X"; "Y"; "Z"] end in
  if negb (forallb (fun n => mem_str n ["X"; "Y"; "Z"; "erasure"; "measurement"; "fabrication"]) names) then Err ValueError
  else Ok (mkTable (lattice_rows l) (map (fun n => (n, repeat 0%Q (List.length (lattice_rows l)))) names)).
(** 241-262 [generate_constant_errors]. *)
Definition generate_constant_errors (p : Q) (n : nat) : Res (list Q) :=
  if Qle_bool 0 p && Qle_bool p 1 then Ok (repeat p n) else Err ValueError.
(** 506-526 [from_lattice] without configurations: X, Y and Z errors with probability 0.1. *)
Definition from_lattice (l : lattice) : Res error_data :=
  let rows := lattice_rows l in
  do probs <- generate_constant_errors (1 # 10) (List.length rows);
  foldR (fun d name => add_qubit_error (map fst rows) name probs d) ["X"; "Y"; "Z"]
        (mkErrorData (mkTable rows []) [] [] []).

(** * Configurations *)
(** One error channel of a gate in a configuration: a constant, or the random numbers which are
    drawn for a Gaussian distribution. *)
Inductive channel := Constant (name : string) (p : Q) | Gaussian (name : string) (ps : list Q).
(** The configuration of a gate: the rows of the file, or a list of channels. *)
Inductive gate_config := GateUser | GateChannels (l : list channel).
(** A string as the list of its characters. *)
Fixpoint letters (s : string) : list string :=
  match s with EmptyString => [] | String a s => String a EmptyString :: letters s end.
(** equbit_idx of a vertex; all vertices of the lattices used here have one. *)
Definition equbit_number (l : lattice) (i : nat) : Z := match v_equbit (l_heap l i) with Some q => Z.of_nat q | None => (-1)%Z end.
(** 1248-1285: the rows of one channel of H, M or R. *)
Definition channel_rows1 (l : lattice) (label : string) (c : channel) : list gate_row :=
  match c with
  | Constant name p => [mkGateRow label (map (equbit_number l) (l_stabs l)) [name] [p]]
  | Gaussian name ps => map (fun ip : nat * Q => mkGateRow label [equbit_number l (fst ip)] [name] [snd ip]) (combine (l_stabs l) ps)
  end.
(** 1288-1295 [on_qubits]. *)
Definition gate_qubits (l : lattice) : list Z :=
  flat_map (fun i => flat_map (fun e => [equbit_number l i; equbit_number l (e_data e)]) (v_edges (l_heap l i))) (l_stabs l).
(** [on_qubits[2 * ind : 2 * (ind + 1)]] *)
Definition gate_pair (l : lattice) (k : nat) : list Z := firstn 2 (skipn (2 * k) (gate_qubits l)).
(** 1296-1338: the rows of one channel of CX or CZ.  With a Gaussian distribution the name is not
    put into a list (1333), so that its characters are the names. *)
Definition channel_rows2 (l : lattice) (label : string) (c : channel) : list gate_row :=
  match c with
  | Constant name p => [mkGateRow label (gate_qubits l) [name] [p]]
  | Gaussian name ps => map (fun kp : nat * Q => mkGateRow label (gate_pair l (fst kp)) (letters name) [snd kp]) (combine (seq 0 (List.length ps)) ps)
  end.
(** 1213-1347 [assimilate_gate_errors]; [csv] are the rows of the file (none without a file), and
    an empty list of channels raises IndexError (1245). *)
Definition label_rows (l : lattice) (csv : list gate_row) (lc : string * gate_config) : Res (list gate_row) :=
  match snd lc with
  | GateUser => Ok (filter (fun r => String.eqb (g_gate r) (fst lc)) csv)
  | GateChannels [] => Err IndexError
  | GateChannels cs =>
      Ok (if mem_str (fst lc) ["H"; "M"; "R"] then flat_map (channel_rows1 l (fst lc)) cs
          else if mem_str (fst lc) ["CX"; "CZ"] then flat_map (channel_rows2 l (fst lc)) cs else [])
  end.
Definition assimilate_gate_errors (conf : list (string * gate_config)) (csv : list gate_row) (l : lattice) : Res (list gate_row) :=
  do rs <- mapR (label_rows l csv) conf; Ok (List.concat rs).
(** 528-551 [from_lattice] with a configuration of gate errors only. *)
Definition from_lattice_gates (conf : list (string * gate_config)) (csv : list gate_row) (l : lattice) : Res error_data :=
  do rows <- assimilate_gate_errors conf csv l;
  Ok (mkErrorData (mkTable (lattice_rows l) []) rows [] (map fst conf)).
