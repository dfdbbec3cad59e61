(** What the dictionaries made from error tables have to contain. *)
Require Import String List Bool Arith ZArith QArith Lia.
From Verif Require Import Base GeneratorModel GeneratorSpec TablesModel.
Import ListNotations.
Local Open Scope string_scope.
Local Open Scope nat_scope.
Local Open Scope list_scope.

(** The last element with a property. *)
Definition last_with {A} (P : A -> Prop) (l : list A) (x : A) : Prop :=
  exists pre post, l = pre ++ x :: post /\ P x /\ forall y, In y post -> ~ P y.

(** * Gate errors *)
(** The contents of the dictionary of a row: names without regard to case, the last one wins. *)
Definition contents (r : gate_row) (p : params) : Prop :=
  NoDup (map fst p) /\ forall k v, In (k, v) p <-> exists n, last_with (fun kv => lower (fst kv) = k) (combine (g_errors r) (g_probs r)) (n, v).
(** Rows for a gate and a qubit, or a gate and a pair of qubits. *)
Definition mentions (gon : list string) (g : string) (q : Z) (r : gate_row) : Prop := In (g_gate r) gon /\ g_gate r = g /\ In q (g_qubits r).
Definition is_pair (a b : Z) (l : list Z) : Prop := exists i, nth_error l (2 * i) = Some a /\ nth_error l (2 * i + 1) = Some b.
Definition mentions2 (gon : list string) (g : string) (ab : Z * Z) (r : gate_row) : Prop :=
  In (g_gate r) gon /\ g_gate r = g /\ is_pair (fst ab) (snd ab) (g_qubits r).
(** A dictionary contains for each key exactly the last row which mentions it. *)
Record last_rows {K} (men : K -> gate_row -> Prop) (rows : list gate_row) (d : list (K * params)) : Prop := {
  lr_keys : NoDup (map fst d);
  lr_sound : forall k p, In (k, p) d -> exists r, last_with (men k) rows r /\ contents r p;
  lr_complete : forall k r, last_with (men k) rows r -> exists p, In (k, p) d /\ contents r p }.
(** Rows of gates with two qubits which can be read. *)
Definition bad_names (r : gate_row) : Prop := exists k, In k (g_errors r) /\ In k ["X"; "Y"; "Z"].
Definition two_row (gon : list string) (r : gate_row) : Prop := In (g_gate r) gon /\ In (g_gate r) ["CX"; "CZ"].
Definition fine_row (gon : list string) (r : gate_row) : Prop := two_row gon r -> ~ bad_names r /\ Nat.Even (length (g_qubits r)).

(** * Qubit errors *)
(** A table with distinct labels, distinct column names and columns of the right length. *)
Record well_formed (t : qubit_table) : Prop := {
  wf_some : qt_rows t <> [];
  wf_labels : NoDup (map fst (qt_rows t));
  wf_names : NoDup (map fst (qt_cols t));
  wf_lengths : forall n vs, In (n, vs) (qt_cols t) -> length vs = length (qt_rows t) }.
(** The value of a cell, and the qubits of some types. *)
Definition holds (t : qubit_table) (name : string) (q : Z) (v : Q) : Prop :=
  exists i ty vs, nth_error (qt_rows t) i = Some (q, ty) /\ In (name, vs) (qt_cols t) /\ nth_error vs i = Some v.
Definition typed (t : qubit_table) (types : list string) (q : Z) : Prop := exists ty, In (q, ty) (qt_rows t) /\ In ty types.
(** A dictionary contains the enabled columns of some names, for the qubits of some types;
    [keys] lists the names of columns and of parameters. *)
Record columns_of (t : qubit_table) (on types : list string) (keys : list (string * string)) (d : dict1) : Prop := {
  co_keys : NoDup (map fst d);
  co_qubits : forall q, (exists p, In (q, p) d) <-> typed t types q /\ exists n k, In (n, k) keys /\ In n on;
  co_params : forall q p, In (q, p) d -> NoDup (map fst p) /\ forall k v, In (k, v) p <-> exists n, In (n, k) keys /\ In n on /\ holds t n q v }.
Definition pauli_columns := [("X", "x"); ("Y", "y"); ("Z", "z")].
Definition erasure_columns := [("erasure", "p")].
Definition measurement_columns := [("measurement", "p")].
(** The qubits which have an error of this name. *)
Definition concerns (t : qubit_table) (name : string) (q : Z) : Prop :=
  In name ["X"; "Y"; "Z"; "erasure"] /\ typed t ["data"] q \/ name = "measurement" /\ typed t ["stab"; "ancilla"] q.

(** * Tables for a code *)
(** The rows for [nd] data qubits and [ns] ancillas. *)
Definition standard_rows (nd ns : nat) : list (Z * string) :=
  map (fun q => (Z.of_nat q, if q <? nd then "data" else "stab")) (seq 0 (nd + ns)).
(** The value of a column which counts as zero if it is not enabled. *)
Definition enabled_value (t : qubit_table) (on : list string) (name : string) (q : Z) (v : Q) : Prop :=
  In name on /\ holds t name q v \/ ~ In name on /\ v = 0%Q.
Record valid_table (t : qubit_table) (on : list string) : Prop := {
  vt_columns : forall n q, In n on -> concerns t n q -> In n (map fst (qt_cols t));
  vt_range : forall n q v, In n on -> concerns t n q -> holds t n q v -> (0 <= v <= 1)%Q;
  vt_sum : forall q x y z, typed t ["data"] q -> enabled_value t on "X" q x -> enabled_value t on "Y" q y -> enabled_value t on "Z" q z -> (x + y + z <= 1)%Q }.
(** Rows of gate errors for the ancillas and data qubits of a code. *)
Record valid_row (nd ns : nat) (r : gate_row) : Prop := {
  vr_one : In (g_gate r) ["H"; "M"; "R"] -> (forall q, In q (g_qubits r) -> ancilla_number nd ns q) /\
    (forall k, In k (g_errors r) -> In (lower k) ["x"; "y"; "z"]) /\ forall p, contents r p -> distribution ["x"; "y"; "z"] p;
  vr_two : In (g_gate r) ["CX"; "CZ"] -> Nat.Even (length (g_qubits r)) /\
    (forall a b, is_pair a b (g_qubits r) -> ancilla_number nd ns a /\ data_number nd b) /\
    (forall k, In k (g_errors r) -> In (lower k) two_qubit_paulis) /\ forall p, contents r p -> distribution two_qubit_paulis p }.
