(** What the circuit of a memory experiment should do and what its results should mean. *)
Require Import List Bool Arith ZArith QArith String.
From Verif Require Import Base QSpec PauliModel PauliSem CircuitModel StateSpec SimSpec LatticeModel LatticeSpec CodesModel CodesSpec GeneratorModel.
Import ListNotations.
Local Open Scope string_scope.
Local Open Scope nat_scope.
Local Open Scope list_scope.

(** The single-qubit factor of an operator, and of a Pauli, as (x, z) bits. *)
Definition fac (r : row) : nat -> bool * bool := fun q => nth q (ops r) (false, false).
Definition xz (p : pauli1) : bool * bool :=
  match p with PI => (false, false) | PX => (true, false) | PY => (true, true) | PZ => (false, true) end.
Definition row0 : row := mkRow [] false.

(** A code together with its lattice: the generator reads the lattice and the unpacking of the
    results reads the operators.  The parallel schedule is only used if the lattice has one. *)
Record experiment_code (cd : CodesModel.code) : Prop := {
  xc_consistent : consistent (c_lattice cd);
  xc_indexed : indexed (c_lattice cd);
  xc_operators : from_codelattice (c_lattice cd) = Ok (c_ops cd);
  xc_no_Y : forall e, In e (l_edges (c_lattice cd)) -> e_factor e <> FY;
  xc_check : check (c_ops cd) = Ok tt;
  xc_schedule : l_steps (c_lattice cd) = None \/
    conflict_free (c_lattice cd) /\ interleaves (c_lattice cd) /\
    (forall e, In e (l_edges (c_lattice cd)) -> e_time e <> None -> In (e_op e) (l_stabs (c_lattice cd))) }.

(** Errors on data qubits between the rounds and on the results only. *)
Definition no_gate_errors (e : errors) : Prop :=
  er_CX e = [] /\ er_CZ e = [] /\ er_H e = [] /\ er_M e = [] /\ er_R e = [].

(** Probability of the Pauli [P] on data qubit [q], of the erasure of [q] and of a flipped result
    of the ancilla [a]. *)
Definition pauli_prob (e : errors) (q : nat) (P : pauli1) : Q :=
  match get1 (er_pauli e) (Some q) with
  | None => match P with PI => 1 | _ => 0 end
  | Some p => match P with
              | PI => 1 - (pget "x" p + pget "y" p + pget "z" p)
              | PX => pget "x" p | PY => pget "y" p | PZ => pget "z" p
              end
  end%Q.
Definition erase_prob (e : errors) (q : nat) : Q :=
  match get1 (er_erasure e) (Some q) with None => 0%Q | Some p => pget "p" p end.
Definition flip_prob (e : errors) (a : nat) : Q :=
  match get1 (er_measurement e) (Some a) with None => 0%Q | Some p => pget "p" p end.

(** An error history of [rounds] rounds: [E t q] is the error on data qubit [q] before
    measurement [t + 1] of the generators, [K t q] tells whether the qubit was erased then and
    [F t s] whether the result of generator [s] in measurement [t] is wrong.  All of it has
    positive probability and the first and last measurements are perfect. *)
Record possible_history (e : errors) (nd ns rounds : nat) (E : nat -> nat -> bool * bool) (K : nat -> nat -> bool) (F : nat -> nat -> bool) : Prop := {
  ph_data : forall t q, t < rounds -> q < nd -> exists P R,
    E t q = pxor (xz P) (xz R) /\ (0 < pauli_prob e q P)%Q /\
    (if K t q then (0 < erase_prob e q)%Q else (erase_prob e q < 1)%Q /\ R = PI);
  ph_first : forall s, s < ns -> F 0 s = false;
  ph_last : forall s, s < ns -> F rounds s = false;
  ph_flip : forall t s, 0 < t < rounds -> s < ns -> if F t s then (0 < flip_prob e (nd + s))%Q else (flip_prob e (nd + s) < 1)%Q }.

(** The sample shows the history: syndromes are the commutation signs of the errors of the round
    plus the wrong results before and after it, a logical operator has changed its value if an odd
    number of the errors of all rounds anticommute with it, and erasures are reported. *)
Record shows (cd : CodesModel.code) (is : list nat) (rounds : nat) (E : nat -> nat -> bool * bool) (K : nat -> nat -> bool) (F : nat -> nat -> bool) (sm : sample) : Prop := {
  sh_rounds : List.length (sm_syndrome sm) = rounds;
  sh_width : forall x, In x (sm_syndrome sm) -> List.length x = List.length (c_stabs (c_ops cd));
  sh_syndrome : forall t s, t < rounds -> s < List.length (c_stabs (c_ops cd)) ->
    nth s (nth t (sm_syndrome sm) []) false =
    xorb (anti (seq 0 (n_data_qubits (c_ops cd))) (fac (nth s (c_stabs (c_ops cd)) row0)) (E t)) (xorb (F t s) (F (S t) s));
  sh_logicals : List.length (sm_toggle sm) = List.length is;
  sh_toggle : forall k, k < List.length is ->
    nth k (sm_toggle sm) false =
    fold_right xorb false (map (fun t => anti (seq 0 (n_data_qubits (c_ops cd))) (fac (nth (nth k is 0) (c_logicals (c_ops cd)) row0)) (E t)) (seq 0 rounds));
  sh_erased : forall m, sm_erased sm = Some m -> m = map (fun t => map (K t) (seq 0 (n_data_qubits (c_ops cd)))) (seq 0 rounds) }.

(** The logical operators to be read have no X factors and all the weight of the first logical
    operator (needed without ancillas). *)
Definition readable (cd : CodesModel.code) (is : list nat) : Prop :=
  forall i, In i is -> (forall q, fst (fac (nth i (c_logicals (c_ops cd)) row0) q) = false) /\
    weight (nth i (c_logicals (c_ops cd)) row0) = weight (nth 0 (c_logicals (c_ops cd)) row0).

(** * Error data *)
(** Qubits and parameter names of a dictionary of errors. *)
Definition named (dom : Z -> Prop) (names : list string) (d : dict1) : Prop :=
  forall q p, In (q, p) d -> dom q /\ forall k x, In (k, x) p -> In k names.
Definition named2 (dom : Z -> Z -> Prop) (names : list string) (d : dict2) : Prop :=
  forall a b p, In ((a, b), p) d -> dom a b /\ forall k x, In (k, x) p -> In k names.
Definition two_qubit_paulis : list string :=
  ["ix"; "iy"; "iz"; "xi"; "xx"; "xy"; "xz"; "yi"; "yx"; "yy"; "yz"; "zi"; "zx"; "zy"; "zz"].
(** Errors of data qubits (numbers below [nd]) and of ancillas (the next [ns] numbers). *)
Definition data_number (nd : nat) (q : Z) : Prop := (0 <= q < Z.of_nat nd)%Z.
Definition ancilla_number (nd ns : nat) (a : Z) : Prop := (Z.of_nat nd <= a < Z.of_nat (nd + ns))%Z.
Record named_errors (nd ns : nat) (e : errors) : Prop := {
  ne_pauli : named (data_number nd) ["x"; "y"; "z"] (er_pauli e);
  ne_erasure : named (data_number nd) ["p"] (er_erasure e);
  ne_measurement : named (ancilla_number nd ns) ["p"] (er_measurement e);
  ne_CX : named2 (fun a q => ancilla_number nd ns a /\ data_number nd q) two_qubit_paulis (er_CX e);
  ne_CZ : named2 (fun a q => ancilla_number nd ns a /\ data_number nd q) two_qubit_paulis (er_CZ e);
  ne_H : named (ancilla_number nd ns) ["x"; "y"; "z"] (er_H e);
  ne_M : named (ancilla_number nd ns) ["x"; "y"; "z"] (er_M e);
  ne_R : named (ancilla_number nd ns) ["x"; "y"; "z"] (er_R e) }.
(** The values are probabilities. *)
Definition distribution (names : list string) (p : params) : Prop :=
  (forall k, In k names -> 0 <= pget k p)%Q /\ (qsum (map (fun k => pget k p) names) <= 1)%Q.
Record probabilities (e : errors) : Prop := {
  pr_pauli : forall q p, In (q, p) (er_pauli e) -> distribution ["x"; "y"; "z"] p;
  pr_measurement : forall q p, In (q, p) (er_measurement e) -> (0 <= pget "p" p <= 1)%Q;
  pr_CX : forall q p, In (q, p) (er_CX e) -> distribution two_qubit_paulis p;
  pr_CZ : forall q p, In (q, p) (er_CZ e) -> distribution two_qubit_paulis p;
  pr_H : forall q p, In (q, p) (er_H e) -> distribution ["x"; "y"; "z"] p;
  pr_M : forall q p, In (q, p) (er_M e) -> distribution ["x"; "y"; "z"] p;
  pr_R : forall q p, In (q, p) (er_R e) -> distribution ["x"; "y"; "z"] p }.

(** * Layout *)
(** The measured qubits of a circuit, in order. *)
Definition measured (c : circuit) : list arg := flat_map (fun gt : gate => if String.eqb (fst gt) "M" then snd gt else []) c.
(** The qubits on which an operator acts. *)
Definition support_of (r : row) (l : list nat) : Prop := NoDup l /\ forall q, In q l <-> fac r q <> (false, false).
(** One result per logical operator if they are read with ancillas, else one per qubit of the
    logical operator. *)
Definition logical_layout (cd : CodesModel.code) (ancilla : bool) (is : list nat) (qs : list nat) : Prop :=
  if ancilla then qs = map (fun i => n_data_qubits (c_ops cd) + List.length (c_stabs (c_ops cd)) + i) is
  else exists sup, qs = flat_map sup is /\ forall i, In i is -> support_of (nth i (c_logicals (c_ops cd)) row0) (sup i).
Definition stab_layout (cd : CodesModel.code) (times : nat) : list nat :=
  List.concat (repeat (seq (n_data_qubits (c_ops cd)) (List.length (c_stabs (c_ops cd)))) times).

(** Every data qubit has an erasure rate. *)
Definition erasure_everywhere (nd : nat) (e : errors) : Prop := forall q, q < nd -> exists p, get1 (er_erasure e) (Some q) = Some p /\ p <> [].
(** Not both logical operators X and Z of one logical qubit. *)
Definition compatible (is : list nat) : Prop := forall i j, In i is -> In j is -> i / 2 = j / 2 -> i = j.

(** * Unpacking *)
(** The number of results per logical operator. *)
Definition block_width (cd : CodesModel.code) (ancilla : bool) : nat := if ancilla then 1 else weight (nth 0 (c_logicals (c_ops cd)) row0).
(** Parity of [w] results from position [a] on. *)
Definition block_parity (raw : list bool) (a w : nat) : bool := fold_right xorb false (map (fun j => nth (a + j) raw false) (seq 0 w)).
(** The sample read from raw results: [k] blocks of [w] results, [rounds + 1] times [ns]
    results, and [k] blocks again. *)
Record unpacked (k w ns rounds : nat) (raw : list bool) (sm : sample) : Prop := {
  un_initial : sm_initial sm = map (fun i => block_parity raw (i * w) w) (seq 0 k);
  un_final : sm_final sm = map (fun i => block_parity raw (k * w + (rounds + 1) * ns + i * w) w) (seq 0 k);
  un_toggle : sm_toggle sm = map (fun i => xorb (block_parity raw (i * w) w) (block_parity raw (k * w + (rounds + 1) * ns + i * w) w)) (seq 0 k);
  un_stab : sm_stab sm = map (fun t => map (fun s => nth (k * w + t * ns + s) raw false) (seq 0 ns)) (seq 0 (rounds + 1));
  un_syndrome : sm_syndrome sm = map (fun t => map (fun s =>
    xorb (nth (k * w + (t + 1) * ns + s) raw false) (nth (k * w + t * ns + s) raw false)) (seq 0 ns)) (seq 0 rounds) }.
Definition matrix (f : list bool) (rounds nd : nat) : list (list bool) :=
  map (fun t => map (fun q => nth (t * nd + q) f false) (seq 0 nd)) (seq 0 rounds).
