(** Model of /repo/src/plaquette/circuit/generator.py (the circuit of a memory experiment) and
    of the unpacking of its results in /repo/src/plaquette/device/__init__.py.

    The generator appends to the circuit of its builder; a method is a function from the circuit
    so far to the extended circuit or an exception (the part appended before an exception is not
    kept).  Error dictionaries are lists of entries with distinct keys and rational values;
    top-level keys other than the documented ones (KeyError in __init__) and keys of other types
    than annotated are outside of the model. *)
Require Import List Bool Arith ZArith QArith Lia String Ascii.
From Verif Require Import Base QSpec PauliModel CircuitModel SimModel LatticeModel CodesModel.
Import ListNotations.
Local Open Scope string_scope.
Local Open Scope nat_scope.
Local Open Scope list_scope.

(** errors/__init__.py:44-88: ErrorValueDict, SinglePauliChannelErrorValueDict and
    TwoPauliChannelErrorValueDict. *)
Definition params := list (string * Q).
(** errors/__init__.py:91-137: the values of QubitErrorsDict and GateErrorsDict, by qubit index
    or (ancilla, data) pair. *)
Definition dict1 := list (Z * params).
Definition dict2 := list ((Z * Z) * params).
(** errors/__init__.py:91-146: QubitErrorsDict and GateErrorsDict together; a missing key is an
    empty dictionary (generator.py:107-113, setdefault). *)
Record errors := mkErrors {
  er_pauli : dict1; er_erasure : dict1; er_measurement : dict1;
  er_CX : dict2; er_CZ : dict2; er_H : dict1; er_M : dict1; er_R : dict1 }.
Definition no_errors : errors := mkErrors [] [] [] [] [] [] [] [].

(** dict.get(k, 0.0) *)
Definition pget (k : string) (d : params) : Q :=
  match find (fun kv => String.eqb (fst kv) k) d with Some kv => snd kv | None => 0%Q end.
(** dict.get(k, None) for an extended index (None if not yet assigned). *)
Definition get1 (d : dict1) (q : option nat) : option params :=
  match q with
  | None => None
  | Some q => match find (fun kv => (fst kv =? Z.of_nat q)%Z) d with Some kv => Some (snd kv) | None => None end
  end.
Definition get2 (d : dict2) (a b : option nat) : option params :=
  match a, b with
  | Some a, Some b =>
      match find (fun kv => (fst (fst kv) =? Z.of_nat a)%Z && (snd (fst kv) =? Z.of_nat b)%Z) d with
      | Some kv => Some (snd kv) | None => None end
  | _, _ => None
  end.

(** * Checks of the error data *)
Definition keys_in (allowed : list string) (p : params) : bool := forallb (fun kv => mem_str (fst kv) allowed) p.
Definition pauli_keys : list string := ["x"; "y"; "z"].
Definition pauli2_keys : list string :=
  ["ix"; "iy"; "iz"; "xi"; "xx"; "xy"; "xz"; "yi"; "yx"; "yy"; "yz"; "zi"; "zx"; "zy"; "zz"].
(** errors/__init__.py:998-1026 _check_single_phys_qubit_error. *)
Definition check_phys (l : lattice) (allowed : list string) (d : dict1) : Res unit :=
  foldR (fun _ kv => do _ <- check_equbit_is_data (fst kv) l;
                     if keys_in allowed (snd kv) then Ok tt else Err ValueError) d tt.
(** errors/__init__.py:1028-1057 _check_single_stab_qubit_error and 1091-1118
    _check_onequbit_gate_error. *)
Definition check_stab (l : lattice) (allowed : list string) (d : dict1) : Res unit :=
  foldR (fun _ kv => do _ <- check_equbit_is_stabgen (fst kv) l;
                     if keys_in allowed (snd kv) then Ok tt else Err ValueError) d tt.
(** errors/__init__.py:1059-1089 _check_twoqubit_gate_error (keys are pairs). *)
Definition check_two (l : lattice) (d : dict2) : Res unit :=
  foldR (fun _ kv => do _ <- check_equbit_is_stabgen (fst (fst kv)) l;
                     do _ <- check_equbit_is_data (snd (fst kv)) l;
                     if keys_in pauli2_keys (snd kv) then Ok tt else Err ValueError) d tt.
(** errors/__init__.py:954-996 check_against_code. *)
Definition check_against_code (l : lattice) (e : errors) : Res unit :=
  do _ <- check_phys l pauli_keys (er_pauli e);
  do _ <- check_phys l ["p"] (er_erasure e);
  do _ <- check_stab l ["p"] (er_measurement e);
  do _ <- check_two l (er_CX e);
  do _ <- check_two l (er_CZ e);
  do _ <- check_stab l pauli_keys (er_H e);
  do _ <- check_stab l pauli_keys (er_M e);
  check_stab l pauli_keys (er_R e).

(** * The generator *)
Definition gen := circuit -> Res circuit.
Definition skipG : gen := fun c => Ok c.
Definition seqG (a b : gen) : gen := fun c => do c1 <- a c; b c1.
Definition forG {A} (f : A -> gen) (xs : list A) : gen := fun c => foldR (fun c x => f x c) xs c.
Declare Scope gen_scope.
Notation "a ;> b" := (seqG a b) (at level 90, right associativity) : gen_scope.
Open Scope gen_scope.

(** An extended index as an argument: int(None) is a TypeError. *)
Definition qarg (q : option nat) : Res rarg := match q with Some q => Ok (RInt (Z.of_nat q)) | None => Err TypeError end.
(** self.cb.circ.append (circuit/__init__.py:188-229; for the E_ and ERROR instructions via the
    shorthands of 323-342).  No argument is a string to be read as a number. *)
Definition emit (name : string) (ps : list rarg) (qs : list (option nat)) : gen := fun c =>
  do a <- mapR qarg qs; append (fun _ => None) c name (ps ++ a).

(** The extended index of a vertex. *)
Definition eq_of (l : lattice) (i : nat) : option nat := v_equbit (l_heap l i).

(** generator.py:128-141 apply_dataqubit_errors ([if p] is false for an empty dictionary). *)
Definition dataqubit_error (l : lattice) (e : errors) (v : nat) : gen :=
  match get1 (er_pauli e) (eq_of l v) with
  | Some ((_ :: _) as p) => emit "E_PAULI" [RFlt (pget "x" p); RFlt (pget "y" p); RFlt (pget "z" p)] [eq_of l v]
  | _ => skipG
  end ;>
  match get1 (er_erasure e) (eq_of l v) with
  | Some ((_ :: _) as p) => emit "E_ERASE" [RFlt (pget "p" p)] [eq_of l v]
  | _ => skipG
  end.
Definition apply_dataqubit_errors (l : lattice) (e : errors) : gen := forG (dataqubit_error l e) (l_data l).

(** generator.py:143-147 apply_measurement_error. *)
Definition apply_measurement_error (l : lattice) (e : errors) (op : nat) : gen :=
  match get1 (er_measurement e) (eq_of l op) with
  | Some ((_ :: _) as p) =>
      match find (fun kv => String.eqb (fst kv) "p") p with
      | Some kv => emit "ERROR" [RFlt (snd kv); RStr "X"] [eq_of l op]
      | None => fun _ => Err KeyError
      end
  | _ => skipG
  end.

(** generator.py:197-210 get_gate_error.  Dictionaries of CX and CZ have pairs as keys and those of
    the other gates have ints, so that the second lookup of line 209 is only of use without data
    qubit. *)
Definition get_gate_error (e : errors) (gate : string) (ancilla : option nat) (dataqubit : option (option nat)) : option params :=
  match dataqubit with
  | Some d => if String.eqb gate "CX" then get2 (er_CX e) ancilla d
              else if String.eqb gate "CZ" then get2 (er_CZ e) ancilla d else None
  | None => if String.eqb gate "H" then get1 (er_H e) ancilla
            else if String.eqb gate "M" then get1 (er_M e) ancilla
            else if String.eqb gate "R" then get1 (er_R e) ancilla else None
  end.

(** generator.py:186-189: the sixteen keys in order, without "ii". *)
Definition pauli2_order : list string :=
  tl (flat_map (fun a => map (fun b => String a (String b "")) ["i"; "x"; "y"; "z"]%char) ["i"; "x"; "y"; "z"]%char).
(** generator.py:172-195 apply_gate_error. *)
Definition apply_gate_error (e : errors) (gate : string) (ancilla : option nat) (dataqubit : option (option nat)) : gen :=
  match get_gate_error e gate ancilla dataqubit with
  | None => skipG
  | Some p =>
      if mem_str gate ["H"; "R"; "M"] then
        emit "E_PAULI" [RFlt (pget "x" p); RFlt (pget "y" p); RFlt (pget "z" p)] [ancilla]
      else if mem_str gate ["CZ"; "CX"] then
        emit "E_PAULI2" (map (fun k => RFlt (pget k p)) pauli2_order)
             [ancilla; match dataqubit with Some d => d | None => None end]
      else fun _ => Err ValueError
  end.
(** generator.py:149-170 apply_gate_and_error. *)
Definition apply_gate_and_error (e : errors) (gate : string) (ancilla : option nat) (dataqubit : option (option nat)) (with_errors : bool) : gen :=
  emit gate [] (ancilla :: match dataqubit with Some d => [d] | None => [] end) ;>
  if with_errors then apply_gate_error e gate ancilla dataqubit else skipG.

(** generator.py:223-235: the gate for one edge; Pauli Y raises [y] (ValueError here and
    NotImplementedError at 313). *)
Definition edge_gate (l : lattice) (e : errors) (y : exn) (with_errors : bool) (ed : edge) : gen :=
  match e_factor ed with
  | FX => apply_gate_and_error e "CX" (eq_of l (e_op ed)) (Some (eq_of l (e_data ed))) with_errors
  | FY => fun _ => Err y
  | FZ => apply_gate_and_error e "CZ" (eq_of l (e_op ed)) (Some (eq_of l (e_data ed))) with_errors
  end.
(** generator.py:219-221 and 301-303. *)
Definition prepare_ancilla (l : lattice) (e : errors) (with_errors : bool) (op : nat) : gen :=
  apply_gate_and_error e "R" (eq_of l op) None with_errors ;>
  apply_gate_and_error e "H" (eq_of l op) None with_errors.
(** generator.py:236-239 and 319-324. *)
Definition read_ancilla (l : lattice) (e : errors) (with_errors : bool) (op : nat) : gen :=
  apply_gate_and_error e "H" (eq_of l op) None with_errors ;>
  (if with_errors then apply_measurement_error l e op else skipG) ;>
  apply_gate_and_error e "M" (eq_of l op) None with_errors.
(** generator.py:212-239 measure_op.  The edges of [op] have [op] as their operator. *)
Definition measure_op (l : lattice) (e : errors) (op : nat) (with_errors : bool) : gen :=
  prepare_ancilla l e with_errors op ;>
  forG (edge_gate l e ValueError with_errors) (v_edges (l_heap l op)) ;>
  read_ancilla l e with_errors op.

(** generator.py:253-264: one edge of a logical operator measured on the data qubits. *)
Definition measure_data (l : lattice) (e : errors) (ed : edge) : gen :=
  let q := eq_of l (e_data ed) in
  match e_factor ed with
  | FX => apply_gate_and_error e "H" q None false ;> apply_gate_and_error e "M" q None false
  | FY => fun _ => Err ValueError
  | FZ => apply_gate_and_error e "M" q None false
  end.
(** generator.py:241-266 measure_logical_ops. *)
Definition measure_logical (l : lattice) (e : errors) (logical_ancilla : bool) (i : nat) : gen :=
  match nth_error (l_logicals l) i with
  | None => fun _ => Err IndexError
  | Some op => if logical_ancilla then measure_op l e op false
               else forG (measure_data l e) (v_edges (l_heap l op))
  end.
Definition measure_logical_ops (l : lattice) (e : errors) (logical_ancilla : bool) (is : list nat) : gen :=
  forG (measure_logical l e logical_ancilla) is.

(** generator.py:282-291 measure_stabgens_seq. *)
Definition measure_stabgens_seq (l : lattice) (e : errors) (with_errors : bool) : gen :=
  forG (fun op => measure_op l e op with_errors) (l_stabs l).
(** generator.py:305-306: the edges of one time step. *)
Definition edges_at (l : lattice) (t : nat) : list edge := filter (fun ed => time_eqb (e_time ed) (Some t)) (l_edges l).
(** generator.py:293-324 measure_stabgens_pl. *)
Definition measure_stabgens_pl (l : lattice) (e : errors) (steps : nat) (with_errors : bool) : gen :=
  forG (prepare_ancilla l e with_errors) (l_stabs l) ;>
  forG (fun t => forG (edge_gate l e NotImplementedError with_errors) (edges_at l t)) (seq 0 steps) ;>
  forG (read_ancilla l e with_errors) (l_stabs l).
(** generator.py:268-280 measure_stabgens. *)
Definition measure_stabgens (l : lattice) (e : errors) (with_errors : bool) : gen :=
  match l_steps l with
  | Some n => measure_stabgens_pl l e n with_errors
  | None => measure_stabgens_seq l e with_errors
  end.

(** generator.py:357-371: one round with errors. *)
Definition noisy_round (l : lattice) (e : errors) : gen :=
  apply_dataqubit_errors l e ;> measure_stabgens l e true.
(** generator.py:326-372 get_circuit, on the circuit built so far. *)
Definition get_circuit (cd : CodesModel.code) (e : errors) (logical_ancilla : bool) (x : logical_spec) : gen := fun c =>
  do is <- logical_ops_to_indices (c_ops cd) x;
  do lops <- mapR (fun i => match nth_error (c_logicals (c_ops cd)) i with Some r => Ok r | None => Err IndexError end) is;
  if negb (all_commute lops lops) then Err ValueError
  else
    let l := c_lattice cd in
    (measure_logical_ops l e logical_ancilla is ;>
     measure_stabgens l e false ;>
     forG (fun _ => noisy_round l e) (seq 0 (Z.to_nat (c_rounds cd - 1))) ;>
     apply_dataqubit_errors l e ;>
     measure_stabgens l e false ;>
     measure_logical_ops l e logical_ancilla is) c.
(** generator.py:375-444 generate_qec_circuit with __init__, 83-126. *)
Definition generate_qec_circuit (cd : CodesModel.code) (e : errors) (x : logical_spec) (logical_ancilla : bool) : Res circuit :=
  do _ <- check_against_code (c_lattice cd) e;
  get_circuit cd e logical_ancilla x [].

(** * Unpacking the results *)
(** Python slices l[a:b]; [None] is an absent bound. *)
Definition py_bound (n : nat) (z : Z) : nat :=
  if (z <? 0)%Z then Z.to_nat (z + Z.of_nat n) else Nat.min (Z.to_nat z) n.
Definition py_slice {A} (a b : option Z) (l : list A) : list A :=
  let n := List.length l in
  let i := match a with Some z => py_bound n z | None => 0 end in
  let j := match b with Some z => py_bound n z | None => n end in
  firstn (j - i) (skipn i l).
(** np.sum(..) % 2 *)
Definition parity (l : list bool) : bool := fold_right xorb false l.
(** pauli.py:750-781 count_qubits with include_identities=False, one operator. *)
Definition weight (r : row) : nat := List.length (filter (fun p => fst p || snd p) (ops r)).
(** numpy's reshape((r, c)) of a vector, r >= 0. *)
Fixpoint chunks {A} (r c : nat) (l : list A) : list (list A) :=
  match r with O => [] | S r' => firstn c l :: chunks r' c (skipn c l) end.
Definition reshape {A} (r : Z) (c : nat) (l : list A) : Res (list (list A)) :=
  if (r <? 0)%Z then Err Unmodelled
  else if List.length l =? Z.to_nat r * c then Ok (chunks (Z.to_nat r) c l) else Err ValueError.
(** a ^ b of two vectors of the same length *)
Definition xor_vec (a b : list bool) : list bool := map (fun p => xorb (fst p) (snd p)) (combine a b).

(** device/__init__.py:170-213 MeasurementSample. *)
Record sample := mkSample {
  sm_initial : list bool; sm_final : list bool; sm_toggle : list bool;
  sm_stab : list (list bool); sm_syndrome : list (list bool); sm_erased : option (list (list bool)) }.

(** device/__init__.py:233-258, without ancilla: initial values, final values and the rest. *)
Definition split_data (cd : CodesModel.code) (raw : list bool) : list bool * list bool * list bool :=
  let k := Z.of_nat (n_logical_qubits (c_ops cd)) in
  let d := match c_logicals (c_ops cd) with r :: _ => Z.of_nat (weight r) | [] => 0%Z end in
  let n := Z.of_nat (List.length raw) in
  let block i := parity (py_slice (Some (i * d)%Z) (Some ((i + 1) * d)%Z) raw) in
  let last i := parity (py_slice (Some (n - i * d - d)%Z) (Some (n - i * d)%Z) raw) in
  let is := map Z.of_nat (seq 0 (n_logical_qubits (c_ops cd))) in
  (map block is, rev (map last is), py_slice (Some (k * d)%Z) (Some (- k * d)%Z) raw).
(** device/__init__.py:259-265, with ancilla. *)
Definition split_ancilla (cd : CodesModel.code) (raw : list bool) : list bool * list bool * list bool :=
  let k := Z.of_nat (n_logical_qubits (c_ops cd)) in
  (py_slice None (Some k) raw, py_slice (Some (- k)%Z) None raw, py_slice (Some k) (Some (- k)%Z) raw).

(** device/__init__.py:215-285 from_code_and_raw_results.  The XOR of vectors of different
    lengths (no logical qubits) is outside of the model. *)
Definition from_code_and_raw_results (cd : CodesModel.code) (raw : list bool) (erasure : option (list bool)) (logical_ancilla : bool) : Res sample :=
  let '(initial, final, ancillas) := if logical_ancilla then split_ancilla cd raw else split_data cd raw in
  if negb (List.length initial =? List.length final) then Err Unmodelled
  else
    do stab <- reshape (c_rounds cd + 1) (n_stabgens (c_ops cd)) ancillas;
    do er <- match erasure with
             | None => Ok None
             | Some f => if (Z.of_nat (List.length f) =? c_rounds cd * Z.of_nat (n_data_qubits (c_ops cd)))%Z
                         then do m <- reshape (c_rounds cd) (n_data_qubits (c_ops cd)) f; Ok (Some m)
                         else Err ValueError
             end;
    Ok (mkSample initial final (xor_vec initial final) stab
          (map (fun p => xor_vec (fst p) (snd p)) (combine (tl stab) (removelast stab))) er).

(** A memory experiment as in examples/quickstart.py:35-46: generate the circuit, run it on the
    Clifford backend (device/__init__.py:385-436 Device.run and get_sample, the backend being in
    state [s0] before) and unpack the results.  [g] is the stream of random numbers. *)
Definition memory_experiment (g : rng) (s0 : sim) (cd : CodesModel.code) (e : errors) (x : logical_spec) (logical_ancilla : bool) : Res sample :=
  do c <- generate_qec_circuit cd e x logical_ancilla;
  do s <- sim_run g c true s0;
  from_code_and_raw_results cd (fst (process_results s)) (snd (process_results s)) logical_ancilla.
