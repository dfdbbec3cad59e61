(** Model of /repo/src/plaquette/visualizer/__init__.py: the figures of LatticeVisualizer which are drawn with Plotly,
    and the program which CircuitVisualizer gives to Qiskit.

    Simplifications:
    - a figure is the list of its traces, a trace is its style and its points; the layout (height, margin, axes) is omitted;
    - coordinates are rational numbers instead of floats; lattices have two dimensions (69-89 raises ValueError for others);
    - drawing with Matplotlib is not modelled, nor is what Qiskit does with a program;
    - how Python writes a float is an argument. *)
Require Import String List Bool Arith Ascii ZArith QArith.
From Verif Require Import Base PauliModel CircuitModel QasmModel LatticeModel ApplyModel CsvModel.
Import ListNotations.
Local Open Scope string_scope.
Local Open Scope nat_scope.
Local Open Scope list_scope.

Definition point := (Q * Q)%type.
(** A row of the table of vertices, 101-132, 185-192. *)
Record item := mkItem { it_point : point; it_type : string; it_group : string; it_hover : string }.
(** A row of the table of edges, 135-138; None is not a number. *)
Record line := mkLine { ln_op : string; ln_point : option point }.
(** Colours: by name or by a scale (299-314 [color=self.qubit_error_probs]). *)
Inductive colour := Named (s : string) | Scaled (l : list Q).
(** Options for drawing vertices and edges, 196-245. *)
Record mark_style := mkMark { mk_name : string; mk_colour : colour; mk_symbol : string; mk_size : nat }.
Record line_style := mkStyle { ls_name : string; ls_colour : string; ls_dash : string }.
(** What is added to the figure, 288-325. *)
Inductive trace :=
| Lines (s : line_style) (ps : list (option point))
| Marks (s : mark_style) (ps : list (point * string)).
Definition figure := list trace.

(** 196-239 *)
Definition vertex_options : list (string * mark_style) :=
  [("data", mkMark "Data qubit" (Named "firebrick") "circle" 25);
   ("stab_U", mkMark "Stabilizer" (Named "midnightblue") "x" 10);
   ("stab_A", mkMark "A stabilizer" (Named "midnightblue") "x" 10);
   ("stab_B", mkMark "B stabilizer" (Named "green") "cross" 10);
   ("stab_U_toggled", mkMark "Toggled stabilizer" (Named "hotpink") "x" 13);
   ("stab_A_toggled", mkMark "Toggled A stabilizer" (Named "deepskyblue") "x" 10);
   ("stab_B_toggled", mkMark "Toggled B stabilizer" (Named "fuchsia") "cross" 10);
   ("log", mkMark "Logical operator" (Named "orange") "star" 15);
   ("p_err_X", mkMark "X error" (Named "red") "x" 7);
   ("p_err_Z", mkMark "Z error" (Named "red") "cross" 7);
   ("p_corr_X", mkMark "X correction" (Named "limegreen") "x" 7);
   ("p_corr_Z", mkMark "Z correction" (Named "limegreen") "cross" 7)].
(** 242-245 *)
Definition edge_options : list (string * line_style) :=
  [("X", mkStyle "Pauli X" "cornflowerblue" "solid"); ("Z", mkStyle "Pauli Z" "yellowgreen" "5px 5px")].

(** 55-89: the object; [vz_saved] are the attributes _vertex_kw and _edge_kw (247-248). *)
Record vis := mkVis { vz_code : lattice; vz_probs : option (list Q); vz_marks : list (string * mark_style); vz_lines : list (string * line_style);
  vz_saved_marks : option (list (string * mark_style)); vz_saved_lines : option (list (string * line_style)) }.
(** 69-89 *)
Definition new_vis (l : lattice) (probs : option (list Q)) : Res vis :=
  match probs with
  | Some p => if negb (List.length p =? List.length (l_data l)) then Err ValueError else Ok (mkVis l probs vertex_options edge_options None None)
  | None => Ok (mkVis l probs vertex_options edge_options None None)
  end.

(** [d[key]] for a dictionary *)
Fixpoint look {A} (k : string) (d : list (string * A)) : Res A :=
  match d with [] => Err KeyError | (k', x) :: d' => if String.eqb k k' then Ok x else look k d' end.

Section Draw.
Variable show_float : Q -> string.

(** An index in a text; NO_INDEX is - sys.maxsize (latticebase.py:35). *)
Definition show_index (i : option nat) : string := match i with Some n => show_int (Z.of_nat n) | None => "-9223372036854775807" end.
Definition show_group (g : group) : string := match g with GU => "U" | GA => "A" | GB => "B" end.
(** [pos] as coordinates *)
Definition at_pos (p : pos) : point := (inject_Z (fst p), inject_Z (snd p)).
(** 100-133: one vertex; [i] is the number of data qubits before. *)
Definition vertex_item (probs : option (list Q)) (syndrome : option (list bool)) (i : nat) (v : vertex) : Res (nat * item) :=
  match v_kind v with
  | KData =>
      let t := "Data qubit " ++ show_index (v_index v) ++ "<br />Ext. qubit " ++ show_index (v_equbit v) in
      match probs with
      | Some ps => match nth_error ps i with
                   | Some p => Ok (S i, mkItem (at_pos (v_pos v)) "data" "data" (t ++ "<br />p = " ++ show_float p))
                   | None => Err IndexError
                   end
      | None => Ok (S i, mkItem (at_pos (v_pos v)) "data" "data" t)
      end
  | KStab g =>
      let t := "Stabgen " ++ show_index (v_index v) ++ "<br />Ext. qubit " ++ show_index (v_equbit v) in
      match syndrome with
      | Some s => match v_index v with
                  | Some k => match nth_error s k with
                              | Some true => Ok (i, mkItem (at_pos (v_pos v)) "stab" ("stab_" ++ show_group g ++ "_toggled") (t ++ "<br /><b>Syndrome set</b>"))
                              | Some false => Ok (i, mkItem (at_pos (v_pos v)) "stab" ("stab_" ++ show_group g) t)
                              | None => Err IndexError
                              end
                  | None => Err IndexError
                  end
      | None => Ok (i, mkItem (at_pos (v_pos v)) "stab" ("stab_" ++ show_group g) t)
      end
  | KLogical name =>
      Ok (i, mkItem (at_pos (v_pos v)) "log" "log" (name ++ "<br />Logical " ++ show_index (v_index v) ++ "<br />Ext. qubit " ++ show_index (v_equbit v)))
  end%string.
Fixpoint vertex_items (probs : option (list Q)) (syndrome : option (list bool)) (i : nat) (vs : list vertex) : Res (list item) :=
  match vs with
  | [] => Ok []
  | v :: vs' => do r <- vertex_item probs syndrome i v; do l <- vertex_items probs syndrome (fst r) vs'; Ok (snd r :: l)
  end.
(** 135-138 *)
Definition edge_lines (l : lattice) (e : edge) : list line :=
  let op := String (factor_name (e_factor e)) "" in
  [mkLine op (Some (at_pos (v_pos (l_heap l (e_op e))))); mkLine op (Some (at_pos (v_pos (l_heap l (e_data e))))); mkLine op None].
(** 91-145 [_mk_df] *)
Definition mk_df (z : vis) (syndrome : option (list bool)) : Res (list item * list line) :=
  let l := vz_code z in
  do _ <- match syndrome with
          | Some s => if List.length s =? List.length (l_stabs l) then Ok tt else Err AssertionError
          | None => Ok tt
          end;
  do vs <- vertex_items (vz_probs z) syndrome 0 (map (l_heap l) (l_vertices l));
  Ok (vs, flat_map (edge_lines l) (l_edges l)).

(** 147-153 *)
Definition frame_offset (group : string) : Res point :=
  look group [("p_err_X", (15 # 100, - (15 # 100))); ("p_err_Z", (- (15 # 100), - (15 # 100)));
              ("p_corr_X", (15 # 100, 15 # 100)); ("p_corr_Z", (- (15 # 100), 15 # 100))]%Q.
(** 170-178 *)
Fixpoint frame_ops (i : nat) (o : list (bool * bool)) : list (nat * string) :=
  match o with
  | [] => []
  | (x, z) :: o' => (if x then [(i, "X")] else []) ++ (if z then [(i, "Z")] else []) ++ frame_ops (S i) o'
  end.
(** 180-192 *)
Definition frame_item (l : lattice) (kind : string) (op : nat * string) : Res item :=
  match nth_error (l_data l) (fst op) with
  | Some q =>
      let group := (kind ++ "_" ++ snd op)%string in
      do off <- frame_offset group;
      let p := at_pos (v_pos (l_heap l q)) in
      Ok (mkItem (fst p + fst off, snd p + snd off)%Q kind group ("Data qubit " ++ show_int (Z.of_nat (fst op))))
  | None => Err IndexError
  end.
(** 162-163: [len(frame) == 1]; an array with one dimension has an odd number of entries, and 1 only without qubits. *)
Definition one_row (a : option array) : Res (option row) :=
  match a with
  | None => Ok None
  | Some (Matrix [r]) => Ok (Some r)
  | Some (Matrix _) => Err AssertionError
  | Some (Vector r) => if List.length (ops r) =? 0 then Err Unmodelled else Err AssertionError
  | Some _ => Err Unmodelled
  end.
(** 164 *)
Definition pauli_choice (only : option string) : Res unit :=
  match only with
  | None => Ok tt
  | Some s => if String.eqb s "X" || String.eqb s "Z" then Ok tt else Err AssertionError
  end.
Definition chosen (only : option string) (op : nat * string) : bool := match only with None => true | Some s => String.eqb (snd op) s end.
(** 166-192: one frame *)
Definition frame_items (l : lattice) (only : option string) (kind : string) (frame : option row) : Res (list item) :=
  match frame with
  | None => Ok []
  | Some r => mapR (frame_item l kind) (filter (chosen only) (frame_ops 0 (ops r)))
  end.
(** 155-193 [_mk_pauliframe_df] *)
Definition mk_pauliframe_df (l : lattice) (err corr : option array) (only : option string) : Res (list item) :=
  do e <- one_row err; do c <- one_row corr; do _ <- pauli_choice only;
  do a <- frame_items l only "p_err" e; do b <- frame_items l only "p_corr" c; Ok (a ++ b).

(** 250-272 [_set_grey]: the new options *)
Fixpoint ends_with (suffix s : string) : bool :=
  String.eqb suffix s || match s with EmptyString => false | String _ s' => ends_with suffix s' end.
Definition grey_mark (e : string * mark_style) : string * mark_style :=
  let '(name, m) := e in
  if String.prefix "p_" name || ends_with "_toggled" name then (name, m)
  else (name, mkMark (mk_name m) (Named (if String.prefix "stab_" name then "darkgrey" else "lightgrey")) (mk_symbol m) (mk_size m)).
Definition grey_line (e : string * line_style) : string * line_style := (fst e, mkStyle (ls_name (snd e)) "lightgrey" (ls_dash (snd e))).
Definition set_grey (z : vis) : Res vis :=
  match vz_saved_marks z, vz_saved_lines z with
  | None, None => Ok (mkVis (vz_code z) (vz_probs z) (map grey_mark (vz_marks z)) (map grey_line (vz_lines z)) (Some (vz_marks z)) (Some (vz_lines z)))
  | _, _ => Err AssertionError
  end.
(** 274-281 [_reset_grey] *)
Definition reset_grey (z : vis) : Res vis :=
  match vz_saved_marks z, vz_saved_lines z with
  | Some m, Some e => Ok (mkVis (vz_code z) (vz_probs z) m e None None)
  | _, _ => Err AssertionError
  end.

(** [groupby]: the different keys in ascending order (288, 295). *)
Fixpoint insert_key (k : string) (l : list string) : list string :=
  match l with [] => [k] | k' :: l' => if String.leb k k' then k :: l else k' :: insert_key k l' end.
Definition group_keys (l : list string) : list string := fold_right insert_key [] (nodup string_dec l).
(** 283-325 [_draw] *)
Definition draw_lines (z : vis) (edf : list line) (key : string) : Res trace :=
  do s <- look key (vz_lines z); Ok (Lines s (map ln_point (filter (fun x => String.eqb (ln_op x) key) edf))).
Definition draw_marks (z : vis) (vdf : list item) (key : string) : Res trace :=
  let ps := map (fun x => (it_point x, it_hover x)) (filter (fun x => String.eqb (it_group x) key) vdf) in
  match vz_probs z with
  | Some probs => if String.eqb key "data" then Ok (Marks (mkMark "Data qubit" (Scaled probs) "circle" 15) ps)
                  else do s <- look key (vz_marks z); Ok (Marks s ps)
  | None => do s <- look key (vz_marks z); Ok (Marks s ps)
  end.
Definition draw (z : vis) (vdf : list item) (edf : list line) : Res figure :=
  do a <- mapR (draw_lines z edf) (group_keys (map ln_op edf));
  do b <- mapR (draw_marks z vdf) (group_keys (map it_group vdf)); Ok (a ++ b).
(** 327-338 *)
Definition draw_lattice (z : vis) : Res figure := do d <- mk_df z None; draw z (fst d) (snd d).

(** 366-371: the tables which are drawn.  A table without vertices has no column [type]. *)
Definition latticedata (z : vis) (syndrome : option (list bool)) (error correction : option array) (only : option string) (draw_stabs draw_edges : bool)
  : Res (list item * list line) :=
  do d <- mk_df z syndrome;
  do v <- (if draw_stabs then Ok (fst d) else match fst d with [] => Err AttributeError | _ => Ok (filter (fun x => String.eqb (it_type x) "data") (fst d)) end);
  let e := if draw_edges then snd d else [] in
  do f <- mk_pauliframe_df (vz_code z) error correction only;
  Ok (v ++ f, e).
(** 340-379 [draw_latticedata]: the object afterwards and the figure or the exception. *)
Definition draw_latticedata (z : vis) (syndrome : option (list bool)) (error correction : option array) (only : option string)
  (grey draw_stabs draw_edges : bool) : vis * Res figure :=
  match latticedata z syndrome error correction only draw_stabs draw_edges with
  | Err e => (z, Err e)
  | Ok (v, ed) =>
      if grey then
        match set_grey z with
        | Err e => (z, Err e)
        | Ok z' => match draw z' v ed with
                   | Err e => (z', Err e)
                   | Ok fig => match reset_grey z' with Ok z'' => (z'', Ok fig) | Err e => (z', Err e) end
                   end
        end
      else (z, draw z v ed)
  end.
End Draw.

(** 459-475 [CircuitVisualizer.__init__]: the program which is given to Qiskit.  The text has at least the four lines of the header, so that the assignments
    to the lines 0 and 1 succeed. *)
Definition qiskit_text (show : arg -> string) (c : circuit) : Res string :=
  do s <- convert_to_openqasm show c false;
  let qsm := CsvModel.split_on newline s in
  let qsm := upd 0 "OPENQASM 3.0;" qsm in
  let qsm := upd 1 ("include " ++ String """" ("stdgates.inc" ++ String """" ";"))%string qsm in
  Ok (join (String newline EmptyString) qsm).
