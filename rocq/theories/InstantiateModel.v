(** Model of the construction and run of experiments from their configuration
    (/repo/src/plaquette/frontend/__init__.py, methods [instantiate], [build] and [run]) and of the error
    tables made for it (/repo/src/plaquette/errors/__init__.py).

    Simplifications:
    - numbers in configurations are integers and floats, other values in their place are
      [Unmodelled];
    - the contents of the CSV files at the configured paths are arguments: [None] if there is no such
      file, and a table with a column qubit_id otherwise.  A missing number is NaN.  The strings in the column
      fabrication are not part of the model;
    - standard normal random numbers are arguments [z].  They come from new, unseeded generators (1198,
      1264, 1315), not from plaquette.rng;
    - [order] is the order in which Python iterates over a set of strings;
    - the library Stim is not modelled. *)
Require Import String List Bool Arith ZArith QArith.
From Verif Require Import Base PauliModel CircuitModel SimModel LatticeModel CodesModel GeneratorModel DecoderModel
  WeightsModel TablesModel MatchingModel SyngraphModel FrontendModel.
Import ListNotations.
Local Open Scope string_scope.
Local Open Scope nat_scope.
Local Open Scope list_scope.

(** A number in a configuration. *)
Definition as_number (v : pyval) : Res Q := match v with PFloat q => Ok q | PInt z => Ok (inject_Z z) | _ => Err Unmodelled end.
(** An integer in a configuration; True and False are integers. *)
Definition as_int (v : pyval) : Res Z := match v with PInt z => Ok z | PBool b => Ok (if b then 1 else 0)%Z | _ => Err Unmodelled end.

(** * Qubit errors *)
(** errors/__init__.py:1178-1179: a file which was read, without its index. *)
Record qubit_csv := mkQubitCsv { cs_ids : list Z; cs_cols : list (string * list (option Q)) }.
(** 1177-1187 and 1204: the table which is used; [DataFrame.empty]. *)
Definition csv_empty (csv : option qubit_csv) : bool :=
  match csv with None => true | Some c => match cs_ids c, cs_cols c with _ :: _, _ :: _ => false | _, _ => true end end.
(** 1208: [qubit_pd.update] for one column: the values of rows which are in the file and not NaN.
    Labels which occur twice in the file raise ValueError. *)
Fixpoint find_id (q : Z) (l : list (Z * option Q)) : option Q :=
  match l with [] => None | (k, v) :: l => if (k =? q)%Z then v else find_id q l end.
Fixpoint distinct_ids (l : list Z) : bool :=
  match l with [] => true | k :: l => negb (existsb (Z.eqb k) l) && distinct_ids l end.
Definition update_column (c : qubit_csv) (file : list (option Q)) (rows : list (Z * string)) (vs : list Q) : Res (list Q) :=
  if negb (distinct_ids (cs_ids c)) then Err ValueError
  else Ok (map (fun rv : Z * string * Q => match find_id (fst (fst rv)) (combine (cs_ids c) file) with Some v => v | None => snd rv end) (combine rows vs)).
(** 1189-1208: the body of the loop; the value of a label is never empty, so that 1190-1191 does nothing. *)
Definition qubit_column (z : string -> nat -> Q) (csv : option qubit_csv) (t : qubit_table) (kv : string * (pyval * list pyval)) : Res qubit_table :=
  let name := fst kv in let dist := fst (snd kv) in let ps := snd (snd kv) in
  let n := List.length (qt_rows t) in
  if is_str dist "constant" then
    match ps with
    | p :: _ => do q <- as_number p; Ok (set_column name (repeat q n) t)
    | [] => Err IndexError
    end
  else if is_str dist "gaussian" then
    match ps with
    | m :: s :: _ =>
        do m <- as_number m; do s <- as_number s;
        if negb (Qle_bool 0 s) then Err ValueError
        else Ok (set_column name (map (fun i => (m + s * z name i)%Q) (seq 0 n)) t)
    | _ => Err IndexError
    end
  else if is_str dist "user" then
    if csv_empty csv then Ok t
    else
      match csv, column t name with
      | Some c, Some vs =>
          match find (fun x => String.eqb (fst x) name) (cs_cols c) with
          | None => Err KeyError
          | Some x => do vs' <- update_column c (snd x) (qt_rows t) vs; Ok (set_column name vs' t)
          end
      | _, _ => Err Unmodelled
      end
  else Ok t.
(** 1159-1210 [assimilate_qubit_errors] *)
Definition assimilate_qubit_errors (z : string -> nat -> Q) (conf : sim_qubits) (csv : option qubit_csv) (l : lattice) : Res qubit_table :=
  do t <- empty_qubit_errors l (Some (map fst conf));
  foldR (qubit_column z csv) conf t.

(** * Gate errors *)
(** 1242-1339: the values [params] of one channel; other distributions give no rows. *)
Definition gate_channel (zs : list Q) (c : pyval * pyval * list pyval) : Res (list channel) :=
  let '(dist, name, ps) := c in
  match name with
  | PStr s =>
      if is_str dist "constant" then
        match ps with p :: _ => do q <- as_number p; Ok [Constant s q] | [] => Err IndexError end
      else if is_str dist "gaussian" then
        match ps with
        | m :: d :: _ =>
            do m <- as_number m; do d <- as_number d;
            if negb (Qle_bool 0 d) then Err ValueError else Ok [Gaussian s (map (fun z => (m + d * z)%Q) zs)]
        | _ => Err IndexError
        end
      else Ok []
  | _ => Err Unmodelled
  end.
(** The number of random numbers for a Gaussian channel (1267, 1318). *)
Definition draws_needed (l : lattice) (label : string) : nat :=
  if mem_str label ["CX"; "CZ"] then Nat.div2 (List.length (gate_qubits l)) else List.length (l_stabs l).
(** 1238-1348: the rows of one label.  Of a string which is not "user" the first character is compared
    (1243, 1296), which is neither distribution; an empty one has none. *)
Definition sim_gate_rows (z : string -> nat -> nat -> Q) (l : lattice) (csv : list gate_row) (lc : string * sim_gate) : Res (list gate_row) :=
  let known := mem_str (fst lc) ["H"; "M"; "R"; "CX"; "CZ"] in
  match snd lc with
  | SimName s =>
      if String.eqb s "user" then Ok (filter (fun r => String.eqb (g_gate r) (fst lc)) csv)
      else if known && String.eqb s "" then Err IndexError else Ok []
  | SimChannels [] => Err IndexError
  | SimChannels cs =>
      if known then
        do chans <- mapR (fun kc => gate_channel (map (z (fst lc) (fst kc)) (seq 0 (draws_needed l (fst lc)))) (snd kc))
                         (combine (seq 0 (List.length cs)) cs);
        Ok (flat_map (if mem_str (fst lc) ["H"; "M"; "R"] then channel_rows1 l (fst lc) else channel_rows2 l (fst lc)) (List.concat chans))
      else Ok []
  end.
(** 1213-1349 [assimilate_gate_errors] *)
Definition assimilate_gates (z : string -> nat -> nat -> Q) (conf : list (string * sim_gate)) (csv : list gate_row) (l : lattice) : Res (list gate_row) :=
  do rs <- mapR (sim_gate_rows z l csv) conf; Ok (List.concat rs).

(** What is not in the configuration: files, random numbers which no seed determines, the order of
    sets, and [float] of strings. *)
Record surroundings := mkSurroundings {
  su_qubits : option qubit_csv; su_gates : list gate_row; su_z : string -> nat -> Q; su_zg : string -> nat -> nat -> Q;
  su_order : list string -> list string; su_read : string -> Res string; su_float : string -> option Q }.
(** 458-553 [ErrorData.from_lattice] *)
Definition from_lattice_config (u : surroundings) (q : option (sim_qubits * pyval)) (g : option (list (string * sim_gate) * pyval)) (l : lattice) : Res error_data :=
  match q, g with
  | None, None => from_lattice l
  | _, _ =>
      do t <- match q with Some (conf, _) => assimilate_qubit_errors (su_z u) conf (su_qubits u) l | None => Ok (mkTable (lattice_rows l) []) end;
      do rows <- match g with Some (conf, _) => assimilate_gates (su_zg u) conf (su_gates u) l | None => Ok [] end;
      Ok (mkErrorData t rows (match q with Some (conf, _) => su_order u (map fst conf) | None => [] end)
            (match g with Some (conf, _) => su_order u (map fst conf) | None => [] end))
  end.

(** * Objects *)
(** frontend/__init__.py:197-224 [CodeConfig.instantiate]; the argument of make_rotated_planar has its
    default. *)
Definition instantiate_code (c : code_conf) : Res code :=
  do r <- as_int (cc_rounds c);
  if is_str (cc_name c) "ShorCode" then make_shor r
  else if is_str (cc_name c) "FiveQubitCode" then make_five_qubit r
  else
    do s <- as_int (cc_size c);
    if is_str (cc_name c) "RepetitionCode" then make_repetition r s
    else if is_str (cc_name c) "PlanarCode" then make_planar r s
    else if is_str (cc_name c) "RotatedPlanarCode" then make_rotated_planar r s false
    else if is_str (cc_name c) "ToricCode" then make_toric r s
    else Err AttributeError.
(** 1408-1421 [ErrorsConfig.instantiate] *)
Definition instantiate_errors (u : surroundings) (qkeys gkeys : list string) (c : errors_conf) (l : lattice) : Res error_data :=
  do q <- sim_qubit_errors qkeys (ec_qubits c);
  do g <- sim_gate_errors gkeys (ec_gates c);
  from_lattice_config u q g l.
(** 1517-1561 [CircuitConfig.instantiate]; code and errors are there when [build] calls it. *)
Definition instantiate_circuit (u : surroundings) (c : circuit_conf) (cd : code) (ed : error_data) (x : logical_spec) : Res circuit :=
  if truthy (xc_provided c) then
    if truthy (xc_errors c) then
      match xc_path c with PStr p => do s <- su_read u p; from_str (su_float u) s | _ => Err Unmodelled end
    else Err NotImplementedError
  else
    do q <- qubit_errors_dict ed; do g <- gate_errors_dict ed;
    generate_qec_circuit cd (mkErrors (er_pauli q) (er_erasure q) (er_measurement q) (er_CX g) (er_CZ g) (er_H g) (er_M g) (er_R g)) x false.
(** 1645-1657 [DeviceConfig.instantiate]: the names of pyproject.toml:68-70. *)
Definition instantiate_device (c : device_conf) : Res string :=
  match vc_name c with
  | PStr s => if mem_str s ["clifford"; "stim"] then Ok s else Err AttributeError
  | PList _ | PDict _ => Err AttributeError
  | _ => Err AttributeError
  end.
(** The objects of the four decoder classes. *)
Inductive any_decoder := UfDecoder (d : decoder) | PyDecoder (d : xdecoder pm_graph) | FbDecoder (d : xdecoder fb_graph).
(** 1734-1768 [DecoderConfig.instantiate] *)
Definition weighted_flag (v : pyval) : option bool := match v with PNone => None | _ => Some (truthy v) end.
Definition instantiate_decoder (logw : Q -> weight) (c : decoder_conf) (cd : code) (ed : error_data) : Res any_decoder :=
  if truthy (kc_weighted c) && is_str (kc_name c) "UnionFindNoWeights" then Err ValueError
  else
    do e <- error_data_dict ed;
    let w := weighted_flag (kc_weighted c) in
    let graph := new_manager logw cd (Some (fill_errors (List.length (l_data (c_lattice cd))) e)) w None in
    if is_str (kc_name c) "UnionFindDecoder" then do d <- snd (decoder_from_code logw Weights cd (Some e) w None); Ok (UfDecoder d)
    else if is_str (kc_name c) "UnionFindNoWeights" then do d <- snd (decoder_from_code logw NoWeights cd (Some e) w None); Ok (UfDecoder d)
    else if is_str (kc_name c) "PyMatchingDecoder" then do g <- graph; do d <- x_new py_new g; Ok (PyDecoder d)
    else if is_str (kc_name c) "FusionBlossomDecoder" then do g <- graph; do d <- x_new fb_new g; Ok (FbDecoder d)
    else Err AttributeError.

(** * Experiments *)
(** [self.general_conf[key]] *)
Definition general_entry (x : experiment) (k : string) : Res pyval :=
  match ex_general x with
  | PDict d => if has_key k d then Ok (lookup k d) else Err KeyError
  | PObj => Err Unmodelled
  | _ => Err TypeError
  end.
(** 1834-1835 [update_rng]: whether [np.random.default_rng] accepts the seed. *)
Definition update_rng (x : experiment) : Res unit :=
  do s <- general_entry x "seed";
  match s with
  | PNone => Ok tt
  | PBool _ => Ok tt
  | PInt z => if (z <? 0)%Z then Err ValueError else Ok tt
  | PFloat _ => Err TypeError
  | _ => Err Unmodelled
  end.
(** The argument [logical_op]. *)
Definition as_logical (v : pyval) : Res logical_spec :=
  match v with
  | PStr s => Ok (LogLetters s)
  | PList l => do zs <- mapR as_int l; Ok (LogIndices zs)
  | _ => Err Unmodelled
  end.
(** The attributes which [build] sets (1828-1832). *)
Record built := mkBuilt { b_code : code; b_errors : error_data; b_circuit : circuit; b_device : string; b_decoder : any_decoder }.
(** 2144-2226 [build] *)
Definition build (logw : Q -> weight) (u : surroundings) (qkeys gkeys : list string) (x : experiment) : Res built :=
  do _ <- update_rng x;
  do cd <- instantiate_code (ex_code x);
  do ed <- instantiate_errors u qkeys gkeys (ex_errors x) (c_lattice cd);
  do v <- general_entry x "logical_op";
  do c <- (do lo <- (if truthy (xc_provided (ex_circuit x)) then Ok (LogLetters "") else as_logical v);
           instantiate_circuit u (ex_circuit x) cd ed lo);
  do dev <- instantiate_device (ex_device x);
  do dec <- instantiate_decoder logw (ex_decoder x) cd ed;
  Ok (mkBuilt cd ed c dev dec).

(** 2265-2270: decoding with the object which was built.  [py] and [fb] are the libraries, [fuel] bounds the loops
    of the union-find decoders. *)
Definition any_decode (py : pm_graph -> list bool -> Res (list bool)) (fb : fb_graph -> list nat -> list nat -> Res (list nat)) (fuel : nat)
    (er : option (list (list bool))) (syn : list (list bool)) (d : any_decoder) : Res (any_decoder * row) :=
  match d with
  | UfDecoder d => do r <- interface_decode fuel er syn d; Ok (UfDecoder (fst r), snd r)
  | PyDecoder d => do r <- x_decode (py_decode py) er syn d; Ok (PyDecoder (fst r), snd r)
  | FbDecoder d => do r <- x_decode (fb_decode fb) er syn d; Ok (FbDecoder (fst r), snd r)
  end.
(** 2261-2275: the body of the loop, with the Clifford device; the state of the simulator and of the
    decoder are kept. *)
Definition shot (py : pm_graph -> list bool -> Res (list bool)) (fb : fb_graph -> list nat -> list nat -> Res (list nat)) (g : rng) (b : built) (x : logical_spec)
    (fuel : nat) (st : sim * any_decoder) : Res (sim * any_decoder * bool) :=
  do s <- sim_run g (b_circuit b) true (fst st);
  do sm <- from_code_and_raw_results (b_code b) (fst (process_results s)) (snd (process_results s)) false;
  do r <- any_decode py fb fuel (sm_erased sm) (sm_syndrome sm) (snd st);
  do ok <- check_success (c_ops (b_code b)) (snd r) (sm_toggle sm) (Some x);
  Ok (s, fst r, ok).
(** 2260-2276: the loop, with one bound for each shot, and the rate of failures. *)
Fixpoint shots_loop (py : pm_graph -> list bool -> Res (list bool)) (fb : fb_graph -> list nat -> list nat -> Res (list nat)) (g : rng) (b : built) (x : logical_spec)
    (fuels : list nat) (st : sim * any_decoder) : Res (list bool) :=
  match fuels with
  | [] => Ok []
  | fuel :: fuels =>
      do r <- shot py fb g b x fuel st;
      do bs <- shots_loop py fb g b x fuels (fst r);
      Ok (snd r :: bs)
  end.
Definition error_rate (success : list bool) : Q :=
  (1 - inject_Z (Z.of_nat (List.length (filter (fun b => b) success))) / inject_Z (Z.of_nat (List.length success)))%Q.
(** device/__init__.py:288, 334 and frontend/__init__.py:2259: [_backend_class] is a class, and no class is
    among the strings "clifford" and "stim". *)
Inductive py_object := AString (s : string) | AClass (s : string).
Definition object_eqb (a b : py_object) : bool :=
  match a, b with AString s, AString t => String.eqb s t | AClass s, AClass t => String.eqb s t | _, _ => false end.
Definition local_simulators := [AString "clifford"; AString "stim"].
Definition backend_class (name : string) : py_object := AClass name.
(** 2251-2276 [run]; without a matching case the result is None. *)
Definition run (py : pm_graph -> list bool -> Res (list bool)) (fb : fb_graph -> list nat -> list nat -> Res (list nat)) (g : rng) (s0 : sim) (fuels : list nat)
    (x : experiment) (b : built) : Res (option Q) :=
  do v <- general_entry x "qec_property";
  match v with
  | PList [PStr p] =>
      if String.eqb p "logical_error_rate" then
        if existsb (object_eqb (backend_class (b_device b))) local_simulators then
          do n <- as_int (vc_shots (ex_device x));
          do v <- general_entry x "logical_op";
          do lo <- as_logical v;
          do bs <- shots_loop py fb g b lo (firstn (Z.to_nat n) fuels) (s0, b_decoder b);
          Ok (Some (error_rate bs))
        else Ok None
      else Ok None
  | _ => Ok None
  end.
