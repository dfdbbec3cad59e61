(** Model of the configuration objects of /repo/src/plaquette/frontend/__init__.py and of the
    schema in /repo/src/plaquette/frontend/schemas.py.

    Simplifications:
    - configurations contain the values of [pyval]; numbers which are not integers are rational;
    - strings as arguments of [len] and comparisons are ASCII strings;
    - keyword arguments of [update] which are not fields of the class are ignored (they are, unless
      they are names of methods or class variables); the methods [update] of the classes which
      contain other configurations, which only set attributes, are not modelled;
    - when a [from_dict] raises an exception, what it did to the dictionary before is not modelled;
    - [as_dict] returns copies, of which only the contents matter;
    - the two questions about files are answered by a [files] record which does not change. *)
Require Import String List Bool Arith ZArith QArith Lia.
From Verif Require Import Base.
Import ListNotations.
Local Open Scope string_scope.
Local Open Scope nat_scope.
Local Open Scope list_scope.

(** * Python values *)
(** [PObj] is an object of one of the classes of the module, put into a dictionary by a
    [from_dict] (frontend/__init__.py:577-581, 1162-1166). *)
Inductive pyval :=
| PNone | PBool (b : bool) | PInt (z : Z) | PFloat (q : Q) | PStr (s : string) | PList (l : list pyval)
| PDict (d : list (string * pyval)) | PObj.
Definition pydict := list (string * pyval).

(** Python truth values. *)
Definition truthy (v : pyval) : bool :=
  match v with
  | PNone => false | PBool b => b | PInt z => negb (z =? 0)%Z | PFloat q => negb (Qeq_bool q 0)
  | PStr s => negb (String.eqb s "") | PList l => match l with [] => false | _ => true end
  | PDict d => match d with [] => false | _ => true end | PObj => true
  end.
(** [isinstance(v, int)]; booleans are integers. *)
Definition is_int (v : pyval) : bool := match v with PInt _ | PBool _ => true | _ => false end.
(** [v < 0] *)
Definition negative (v : pyval) : Res bool :=
  match v with
  | PInt z => Ok (z <? 0)%Z | PBool _ => Ok false | PFloat q => Ok (negb (Qle_bool 0 q)) | _ => Err TypeError
  end.
(** [len(v)] *)
Definition pylen (v : pyval) : Res nat :=
  match v with
  | PStr s => Ok (String.length s) | PList l => Ok (List.length l) | PDict d => Ok (List.length d) | _ => Err TypeError
  end.
(** [v == s] for a string, and [v in (s, ...)] for a tuple of strings. *)
Definition is_str (v : pyval) (s : string) : bool := match v with PStr t => String.eqb t s | _ => false end.
Definition among (v : pyval) (l : list string) : bool := existsb (is_str v) l.
(** [d.get(k)], [d[k] = v] and [d.setdefault(k, v)]. *)
Definition lookup (k : string) (d : pydict) : pyval :=
  match find (fun kv => String.eqb (fst kv) k) d with Some kv => snd kv | None => PNone end.
Definition has_key (k : string) (d : pydict) : bool := existsb (fun kv => String.eqb (fst kv) k) d.
Definition store (k : string) (v : pyval) (d : pydict) : pydict :=
  if has_key k d then map (fun kv => if String.eqb (fst kv) k then (k, v) else kv) d else d ++ [(k, v)].
Definition setdefault (k : string) (v : pyval) (d : pydict) : pydict := if has_key k d then d else d ++ [(k, v)].
(** An argument which has to be a dictionary: the others have no method [setdefault] or [get]. *)
Definition as_dictionary (v : pyval) : Res pydict := match v with PDict d => Ok d | _ => Err AttributeError end.

(** * Files *)
Record files := mkFiles { parent_exists : string -> bool; file_exists : string -> bool }.
(** frontend/__init__.py:29-51 [_validate_filepath]; [Path(v)] is a TypeError unless it is a string. *)
Definition validate_filepath (f : files) (path load : pyval) : Res unit :=
  match path with
  | PStr p =>
      if negb (parent_exists f p) then Err NotADirectoryError
      else if negb (file_exists f p) && truthy load then Err FileNotFoundError
      else Ok tt
  | _ => Err TypeError
  end.

(** * Codes *)
(** frontend/__init__.py:85-100 *)
Record code_conf := mkCodeConf { cc_name : pyval; cc_rounds : pyval; cc_size : pyval }.
(** 101-108 *)
Definition valid_codes := ["RotatedPlanarCode"; "PlanarCode"; "ToricCode"; "RepetitionCode"; "FiveQubitCode"; "ShorCode"].
(** 111-130 [__post_init__]; an exception leaves the object as it is. *)
Definition code_post (c : code_conf) : Res code_conf :=
  if negb (among (cc_name c) valid_codes) then Err ValueError
  else if among (cc_name c) (skipn 4 valid_codes) then Ok (mkCodeConf (cc_name c) (cc_rounds c) (PInt (-1)))
  else
    do a <- negative (cc_size c);
    do b <- (if a then Ok true else negative (cc_rounds c));
    if b || negb (is_int (cc_size c) && is_int (cc_rounds c)) && among (cc_name c) (firstn 4 valid_codes)
    then Err ValueError else Ok c.
(** 132-160 [from_dict]: the object, and the dictionary of the caller afterwards. *)
Definition code_from_dict (d : pydict) : Res (code_conf * pydict) :=
  let d := setdefault "size" (PInt (-1)) (setdefault "rounds" (PInt 1) d) in
  do c <- code_post (mkCodeConf (lookup "name" d) (lookup "rounds" d) (lookup "size" d));
  Ok (c, d).
(** 162-168 [as_dict]. *)
Definition code_as_dict (c : code_conf) : pydict := [("name", cc_name c); ("rounds", cc_rounds c); ("size", cc_size c)].
(** 189-191: the loop of [update]. *)
Definition code_set (c : code_conf) (kv : string * pyval) : code_conf :=
  if String.eqb (fst kv) "name" then mkCodeConf (snd kv) (cc_rounds c) (cc_size c)
  else if String.eqb (fst kv) "rounds" then mkCodeConf (cc_name c) (snd kv) (cc_size c)
  else if String.eqb (fst kv) "size" then mkCodeConf (cc_name c) (cc_rounds c) (snd kv)
  else c.
(** 170-192 [update]: the object afterwards, and the exception, if any. *)
Definition code_update (kw : pydict) (c : code_conf) : code_conf * option exn :=
  let c := fold_left code_set kw c in
  match code_post c with Ok c' => (c', None) | Err e => (c, Some e) end.

(** * Devices *)
(** 1577-1588 *)
Record device_conf := mkDeviceConf { vc_name : pyval; vc_shots : pyval }.
(** 1590-1592, device/__init__.py:293-295 and pyproject.toml:68-70: without further plugins. *)
Definition valid_devices := ["clifford"; "stim"].
(** [v > 0] for integers. *)
Definition positive_int (v : pyval) : bool := match v with PInt z => (0 <? z)%Z | PBool b => b | _ => false end.
(** 1597-1602 *)
Definition device_post (c : device_conf) : Res device_conf :=
  if negb (among (vc_name c) valid_devices) then Err ValueError
  else if negb (positive_int (vc_shots c)) then Err ValueError else Ok c.
(** 1620-1635 *)
Definition device_from_dict (d : pydict) : Res (device_conf * pydict) :=
  let d := setdefault "shots" (PInt 1024) (setdefault "name" (PStr "clifford") d) in
  do c <- device_post (mkDeviceConf (lookup "name" d) (lookup "shots" d)); Ok (c, d).
(** 1637-1643 *)
Definition device_as_dict (c : device_conf) : pydict := [("name", vc_name c); ("shots", vc_shots c)].
(** 1607-1618 [update]: there is no check. *)
Definition device_set (c : device_conf) (kv : string * pyval) : device_conf :=
  if String.eqb (fst kv) "name" then mkDeviceConf (snd kv) (vc_shots c)
  else if String.eqb (fst kv) "shots" then mkDeviceConf (vc_name c) (snd kv)
  else c.
Definition device_update (kw : pydict) (c : device_conf) : device_conf := fold_left device_set kw c.

(** * Decoders *)
(** 1673-1683 *)
Record decoder_conf := mkDecoderConf { kc_name : pyval; kc_weighted : pyval }.
(** 1685-1690 *)
Definition valid_decoders := ["PyMatchingDecoder"; "UnionFindDecoder"; "UnionFindNoWeights"; "FusionBlossomDecoder"].
(** 1695-1698 *)
Definition decoder_post (c : decoder_conf) : Res decoder_conf :=
  if negb (among (kc_name c) valid_decoders) then Err ValueError else Ok c.
(** 1700-1712 *)
Definition decoder_from_dict (d : pydict) : Res (decoder_conf * pydict) :=
  let d := setdefault "weighted" (PBool false) (setdefault "name" (PStr "PyMatchingDecoder") d) in
  do c <- decoder_post (mkDecoderConf (lookup "name" d) (lookup "weighted" d)); Ok (c, d).
(** 1714-1720 *)
Definition decoder_as_dict (c : decoder_conf) : pydict := [("name", kc_name c); ("weighted", kc_weighted c)].
(** 1722-1732 *)
Definition decoder_set (c : decoder_conf) (kv : string * pyval) : decoder_conf :=
  if String.eqb (fst kv) "name" then mkDecoderConf (snd kv) (kc_weighted c)
  else if String.eqb (fst kv) "weighted" then mkDecoderConf (kc_name c) (snd kv)
  else c.
Definition decoder_update (kw : pydict) (c : decoder_conf) : decoder_conf * option exn :=
  let c := fold_left decoder_set kw c in
  match decoder_post c with Ok c' => (c', None) | Err e => (c, Some e) end.

(** * Circuits *)
(** 1449-1464 *)
Record circuit_conf := mkCircuitConf { xc_provided : pyval; xc_errors : pyval; xc_path : pyval }.
(** 1466-1467 *)
Definition circuit_post (f : files) (c : circuit_conf) : Res circuit_conf :=
  do _ <- validate_filepath f (xc_path c) (xc_provided c); Ok c.
(** 1473-1494; the loop over the fields sets the three defaults. *)
Definition circuit_from_dict (f : files) (d : pydict) : Res (circuit_conf * pydict) :=
  let d := setdefault "circuit_path" (PStr "circuit.txt")
             (setdefault "has_errors" (PBool false) (setdefault "circuit_provided" (PBool false) d)) in
  do c <- circuit_post f (mkCircuitConf (lookup "circuit_provided" d) (lookup "has_errors" d) (lookup "circuit_path" d));
  Ok (c, d).
(** 1496-1502 *)
Definition circuit_as_dict (c : circuit_conf) : pydict :=
  [("circuit_provided", xc_provided c); ("has_errors", xc_errors c); ("circuit_path", xc_path c)].
(** 1504-1515: there is no check. *)
Definition circuit_set (c : circuit_conf) (kv : string * pyval) : circuit_conf :=
  if String.eqb (fst kv) "circuit_provided" then mkCircuitConf (snd kv) (xc_errors c) (xc_path c)
  else if String.eqb (fst kv) "has_errors" then mkCircuitConf (xc_provided c) (snd kv) (xc_path c)
  else if String.eqb (fst kv) "circuit_path" then mkCircuitConf (xc_provided c) (xc_errors c) (snd kv)
  else c.
Definition circuit_update (kw : pydict) (c : circuit_conf) : circuit_conf := fold_left circuit_set kw c.

(** * Qubit errors *)
(** 247-260 [_QubitErrorMetadata] *)
Record qubit_meta := mkQubitMeta { qm_dist : pyval; qm_params : pyval; qm_enabled : pyval }.
(** 384-392 [is_empty] *)
Definition qubit_empty (m : qubit_meta) : bool :=
  is_str (qm_dist m) "" && match qm_params m with PList [] => true | _ => false end.
(** 262-294 *)
Definition qubit_post (m : qubit_meta) : Res qubit_meta :=
  do _ <- (if is_str (qm_dist m) "user" then (if truthy (qm_params m) then Err ValueError else Ok tt)
           else if is_str (qm_dist m) "constant" then
             do n <- pylen (qm_params m); if negb (n =? 1) then Err ValueError else Ok tt
           else if is_str (qm_dist m) "gaussian" then
             do n <- pylen (qm_params m); if negb (n =? 2) then Err ValueError else Ok tt
           else if is_str (qm_dist m) "" then Ok tt
           else Err ValueError);
  Ok (if qubit_empty m then mkQubitMeta (qm_dist m) (qm_params m) (PBool false) else m).
(** 296-333 *)
Definition qubit_from_dict (d : pydict) : Res qubit_meta :=
  let d := setdefault "params" (PList []) (setdefault "enabled" (PBool true) d) in
  qubit_post (mkQubitMeta (lookup "distribution" d) (lookup "params" d) (lookup "enabled" d)).
(** 335-344 *)
Definition qubit_none : qubit_meta := mkQubitMeta (PStr "") (PList []) (PBool false).
(** 346-352 *)
Definition qubit_as_dict (m : qubit_meta) : pydict :=
  [("distribution", qm_dist m); ("params", qm_params m); ("enabled", qm_enabled m)].
(** 354-382 *)
Definition qubit_set (m : qubit_meta) (kv : string * pyval) : qubit_meta :=
  if String.eqb (fst kv) "distribution" then mkQubitMeta (snd kv) (qm_params m) (qm_enabled m)
  else if String.eqb (fst kv) "params" then mkQubitMeta (qm_dist m) (snd kv) (qm_enabled m)
  else if String.eqb (fst kv) "enabled" then mkQubitMeta (qm_dist m) (qm_params m) (snd kv)
  else m.
Definition qubit_update (kw : pydict) (m : qubit_meta) : qubit_meta * option exn :=
  let m := fold_left qubit_set kw m in
  match qubit_post m with Ok m' => (m', None) | Err e => (m, Some e) end.

(** 434-490; the metadata by name. *)
Record qubits_conf := mkQubitsConf { qc_path : pyval; qc_sample : pyval; qc_load : pyval; qc_meta : list (string * qubit_meta) }.
(** 496-503; a set, whose order of iteration is an argument below. *)
Definition qubit_keys := ["X"; "Y"; "Z"; "erasure"; "measurement"; "fabrication"].
(** The attribute of a name. *)
Definition meta_of {M} (none : M) (k : string) (l : list (string * M)) : M :=
  match find (fun kv => String.eqb (fst kv) k) l with Some kv => snd kv | None => none end.
(** 563-572, 1147-1156: the path and the flag.  [_validate_filepath] never returns False. *)
Definition path_defaults (f : files) (default : string) (d : pydict) : Res pydict :=
  match lookup "data_path" d with
  | PNone => Ok (setdefault "load_file" (PBool false) (setdefault "data_path" (PStr default) d))
  | path =>
      match lookup "load_file" d with
      | PNone => do _ <- validate_filepath f path (PBool true); Ok (store "load_file" (PBool true) d)
      | load => do _ <- validate_filepath f path load; Ok d
      end
  end.
(** 575-581: one error; the dictionary gets the object. *)
Definition qubits_key (s : pydict * list (string * qubit_meta)) (k : string) : Res (pydict * list (string * qubit_meta)) :=
  do m <- match lookup k (fst s) with
          | PNone => Ok qubit_none
          | v => do d <- as_dictionary v; qubit_from_dict d
          end;
  Ok (store k PObj (fst s), (k, m) :: snd s).
(** 511-593; the keys are read in the order [keys].  A path which is given as None stays None
    (571), so that 508-509 raises TypeError. *)
Definition qubits_from_dict (f : files) (keys : list string) (d : pydict) : Res (qubits_conf * pydict) :=
  do d <- path_defaults f "qubit_errors.csv" d;
  let d := setdefault "sample" (PBool true) d in
  do s <- foldR qubits_key keys (d, []);
  let d := fst s in
  do _ <- validate_filepath f (lookup "data_path" d) (lookup "load_file" d);
  Ok (mkQubitsConf (lookup "data_path" d) (lookup "sample" d) (lookup "load_file" d)
        (map (fun k => (k, meta_of qubit_none k (snd s))) qubit_keys), d).
(** 626-632 *)
Definition qubits_as_dict (c : qubits_conf) : pydict :=
  [("data_path", qc_path c); ("sample", qc_sample c); ("load_file", qc_load c)] ++
  map (fun km => (fst km, PDict (qubit_as_dict (snd km)))) (qc_meta c).
(** The value of an entry of [simulated_errors]: the name of the distribution and parameters. *)
Definition sim_qubits := list (string * (pyval * list pyval)).
(** [*params]; a dictionary is unpacked to its keys, a string to its characters. *)
Fixpoint chars (s : string) : list pyval := match s with EmptyString => [] | String a s => PStr (String a EmptyString) :: chars s end.
Definition unpack (v : pyval) : Res (list pyval) :=
  match v with
  | PList l => Ok l | PStr s => Ok (chars s) | PDict d => Ok (map (fun kv => PStr (fst kv)) d) | _ => Err TypeError
  end.
(** 718-726: one error.  A distribution which is not a string is possible after an [update] which failed. *)
Definition sim_qubit (c : qubits_conf) (acc : sim_qubits) (k : string) : Res sim_qubits :=
  let m := meta_of qubit_none k (qc_meta c) in
  if truthy (qm_enabled m) && negb (qubit_empty m) then
    if is_str (qm_dist m) "user" then Ok (acc ++ [(k, (qm_dist m, []))])
    else do ps <- unpack (qm_params m); Ok (acc ++ [(k, (qm_dist m, ps))])
  else Ok acc.
(** 680-727 [simulated_errors], with the keys in the order [keys]. *)
Definition sim_qubit_errors (keys : list string) (c : qubits_conf) : Res (option (sim_qubits * pyval)) :=
  if negb (truthy (qc_sample c)) then Ok None
  else do l <- foldR (sim_qubit c) keys []; Ok (Some (l, qc_path c)).

(** * Gate errors *)
(** 770-796 [_GateErrorMetadata] *)
Record gate_meta := mkGateMeta { gm_dist : pyval; gm_induced : pyval; gm_params : pyval; gm_enabled : pyval }.
(** 798-802: [difference("II")] removes the string "I", which is not there. *)
Definition valid_induced :=
  flat_map (fun a => map (fun b => a ++ b)%string ["X"; "Y"; "Z"; "I"]) ["X"; "Y"; "Z"; "I"] ++ ["X"; "Y"; "Z"].
(** [v[i]] for a list or a string. *)
Definition pyindex (v : pyval) (i : nat) : Res pyval :=
  match v with
  | PList l => match nth_error l i with Some x => Ok x | None => Err IndexError end
  | PStr s => match nth_error (chars s) i with Some x => Ok x | None => Err IndexError end
  | PDict _ => Err KeyError
  | _ => Err TypeError
  end.
(** [v in set]: TypeError for values which cannot be hashed. *)
Definition in_set (v : pyval) (l : list string) : Res bool :=
  match v with PList _ | PDict _ | PObj => Err TypeError | _ => Ok (among v l) end.
(** 818-837: the body of the loop. *)
Definition gate_check (m : gate_meta) (id : nat * pyval) : Res unit :=
  do e <- pyindex (gm_induced m) (fst id);
  do ok <- in_set e valid_induced;
  if negb ok then Err ValueError
  else if is_str (snd id) "constant" then
    do p <- pyindex (gm_params m) (fst id); do n <- pylen p; if negb (n =? 1) then Err ValueError else Ok tt
  else if is_str (snd id) "gaussian" then
    do p <- pyindex (gm_params m) (fst id); do n <- pylen p; if negb (n =? 2) then Err ValueError else Ok tt
  else Err ValueError.
(** 807-837 *)
Definition gate_post (m : gate_meta) : Res gate_meta :=
  do _ <- match gm_dist m with
          | PStr _ =>
              do a <- pylen (gm_induced m);
              if a =? 0 then Ok tt
              else do b <- pylen (gm_params m); if negb (b =? 0) then Err ValueError else Ok tt
          | PList l =>
              do a <- pylen (gm_induced m); do b <- pylen (gm_params m);
              if negb (a =? b) then Err ValueError
              else do _ <- mapR (gate_check m) (combine (seq 0 (List.length l)) l); Ok tt
          | _ => Ok tt
          end;
  Ok m.
(** 842-892 *)
Definition gate_from_dict (d : pydict) : Res gate_meta :=
  let d := setdefault "params" (PList []) (setdefault "induced_errors" (PList []) (setdefault "enabled" (PBool true) d)) in
  gate_post (mkGateMeta (lookup "distribution" d) (lookup "induced_errors" d) (lookup "params" d) (lookup "enabled" d)).
(** 894-907 *)
Definition gate_none : gate_meta := mkGateMeta (PStr "") (PList []) (PList []) (PBool false).
(** 909-915 *)
Definition gate_as_dict (m : gate_meta) : pydict :=
  [("distribution", gm_dist m); ("induced_errors", gm_induced m); ("params", gm_params m); ("enabled", gm_enabled m)].
(** 917-937: there is no check. *)
Definition gate_set (m : gate_meta) (kv : string * pyval) : gate_meta :=
  if String.eqb (fst kv) "distribution" then mkGateMeta (snd kv) (gm_induced m) (gm_params m) (gm_enabled m)
  else if String.eqb (fst kv) "induced_errors" then mkGateMeta (gm_dist m) (snd kv) (gm_params m) (gm_enabled m)
  else if String.eqb (fst kv) "params" then mkGateMeta (gm_dist m) (gm_induced m) (snd kv) (gm_enabled m)
  else if String.eqb (fst kv) "enabled" then mkGateMeta (gm_dist m) (gm_induced m) (gm_params m) (snd kv)
  else m.
Definition gate_update (kw : pydict) (m : gate_meta) : gate_meta := fold_left gate_set kw m.
(** 939-947 *)
Definition gate_empty (m : gate_meta) : bool := match gm_dist m with PStr s => String.eqb s "" | PList [] => true | _ => false end.
(** 1000-1072 *)
Record gates_conf := mkGatesConf { gc_path : pyval; gc_sample : pyval; gc_load : pyval; gc_meta : list (string * gate_meta) }.
(** 1077 *)
Definition gate_keys := ["CZ"; "CX"; "H"; "R"; "M"; "fabrication"].
(** 1160-1166 *)
Definition gates_key (s : pydict * list (string * gate_meta)) (k : string) : Res (pydict * list (string * gate_meta)) :=
  do m <- match lookup k (fst s) with
          | PNone => Ok gate_none
          | v => do d <- as_dictionary v; gate_from_dict d
          end;
  Ok (store k PObj (fst s), (k, m) :: snd s).
(** 1088-1177: the argument fabrication is missing in 1168-1177, so that it gets the default. *)
Definition gates_from_dict (f : files) (keys : list string) (d : pydict) : Res (gates_conf * pydict) :=
  do d <- path_defaults f "gate_errors.csv" d;
  let d := setdefault "sample" (PBool false) d in
  do s <- foldR gates_key keys (d, []);
  let d := fst s in
  do _ <- validate_filepath f (lookup "data_path" d) (lookup "load_file" d);
  Ok (mkGatesConf (lookup "data_path" d) (lookup "sample" d) (lookup "load_file" d)
        (map (fun k => (k, if String.eqb k "fabrication" then gate_none else meta_of gate_none k (snd s))) gate_keys), d).
(** 1217-1223 *)
Definition gates_as_dict (c : gates_conf) : pydict :=
  [("data_path", gc_path c); ("sample", gc_sample c); ("load_file", gc_load c)] ++
  map (fun km => (fst km, PDict (gate_as_dict (snd km)))) (gc_meta c).
(** The value of an entry of [simulated_errors]: a string, or triples of distribution, channel and
    parameters. *)
Inductive sim_gate := SimName (s : string) | SimChannels (l : list (pyval * pyval * list pyval)).
(** 1334-1341: one channel; [enumerate] of the induced errors. *)
Definition sim_channel (m : gate_meta) (ie : nat * pyval) : Res (pyval * pyval * list pyval) :=
  do d <- pyindex (gm_dist m) (fst ie); do p <- pyindex (gm_params m) (fst ie); do ps <- unpack p; Ok (d, snd ie, ps).
(** 1328-1342 *)
Definition sim_gate_error (c : gates_conf) (acc : list (string * sim_gate)) (k : string) : Res (list (string * sim_gate)) :=
  let m := meta_of gate_none k (gc_meta c) in
  if negb (gate_empty m) && truthy (gm_enabled m) then
    match gm_dist m with
    | PStr s => Ok (acc ++ [(k, SimName s)])
    | PList _ =>
        do es <- unpack (gm_induced m);
        do l <- mapR (sim_channel m) (combine (seq 0 (List.length es)) es);
        Ok (acc ++ [(k, SimChannels l)])
    | _ => Ok acc
    end
  else Ok acc.
(** 1281-1343 *)
Definition sim_gate_errors (keys : list string) (c : gates_conf) : Res (option (list (string * sim_gate) * pyval)) :=
  if negb (truthy (gc_sample c)) then Ok None
  else do l <- foldR (sim_gate_error c) keys []; Ok (Some (l, gc_path c)).

(** * Errors *)
(** 1350-1364 *)
Record errors_conf := mkErrorsConf { ec_qubits : qubits_conf; ec_gates : gates_conf }.
(** 1366-1392 [ErrorsConfig.from_dict]; the dictionaries of the two parts are changed in place.
    The two sets of names are read in the orders [qkeys] and [gkeys]. *)
Definition section (name : string) (v : pyval) (d : pydict) : pydict := if truthy (lookup name d) then store name v d else d.
Definition errors_from_dict (f : files) (qkeys gkeys : list string) (d : pydict) : Res (errors_conf * pydict) :=
  do q <- (if truthy (lookup "qubit_errors" d)
           then do x <- as_dictionary (lookup "qubit_errors" d); qubits_from_dict f qkeys x
           else qubits_from_dict f qkeys []);
  let d := section "qubit_errors" (PDict (snd q)) d in
  do g <- (if truthy (lookup "gate_errors" d)
           then do x <- as_dictionary (lookup "gate_errors" d); gates_from_dict f gkeys x
           else gates_from_dict f gkeys []);
  Ok (mkErrorsConf (fst q) (fst g), section "gate_errors" (PDict (snd g)) d).

(** * Experiments *)
(** 1791-1826 *)
Record experiment := mkExperiment {
  ex_code : code_conf; ex_errors : errors_conf; ex_general : pyval; ex_device : device_conf;
  ex_circuit : circuit_conf; ex_decoder : decoder_conf }.
(** 2093-2109 [from_dict]: the sections are read in the order of the arguments. *)
Definition experiment_from_dict (f : files) (qkeys gkeys : list string) (d : pydict) : Res (experiment * pydict) :=
  let d := fold_left (fun d k => setdefault k (PDict []) d) ["device"; "errors"; "decoder"; "circuit"; "code"] d in
  do dv <- (do x <- as_dictionary (lookup "device" d); device_from_dict x);
  let d := store "device" (PDict (snd dv)) d in
  do ci <- (do x <- as_dictionary (lookup "circuit" d); circuit_from_dict f x);
  let d := store "circuit" (PDict (snd ci)) d in
  do cd <- (do x <- as_dictionary (lookup "code" d); code_from_dict x);
  let d := store "code" (PDict (snd cd)) d in
  do er <- (do x <- as_dictionary (lookup "errors" d); errors_from_dict f qkeys gkeys x);
  let d := store "errors" (PDict (snd er)) d in
  do dc <- (do x <- as_dictionary (lookup "decoder" d); decoder_from_dict x);
  let d := store "decoder" (PDict (snd dc)) d in
  Ok (mkExperiment (fst cd) (fst er) (lookup "general" d) (fst dv) (fst ci) (fst dc), d).
(** 2111-2119 [as_dict]: the fields in their order, with the result of their method [as_dict], if
    there is one.  [ErrorsConfig] (1346-1436) has none, nor have dictionaries, and the objects of
    1828-1832 are no configurations (None before [build]). *)
Definition experiment_fields (x : experiment) : list (string * option pydict) :=
  [("code_conf", Some (code_as_dict (ex_code x))); ("errors_conf", None); ("general_conf", None);
   ("device_conf", Some (device_as_dict (ex_device x))); ("circuit_conf", Some (circuit_as_dict (ex_circuit x)));
   ("decoder_conf", Some (decoder_as_dict (ex_decoder x)));
   ("_code", None); ("_errors", None); ("_device", None); ("_circuit", None); ("_decoder", None)].
Definition experiment_as_dict (x : experiment) : Res pydict :=
  mapR (fun fo => match snd fo with Some d => Ok (fst fo, PDict d) | None => Err AttributeError end) (experiment_fields x).

(** * The schema *)
(** The keywords of JSON schemas which occur in schemas.py; "items" is for arrays only, also below
    properties of type object (schemas.py:103, 227), and has no effect on them. *)
Inductive jtype := JObject | JString | JArray | JInteger | JBoolean.
Inductive schema := Schema (ty : option jtype) (enum : option (list string)) (minimum maximum : option Z)
  (properties : list (string * schema)) (required : list string) (items : option schema).
(** jsonschema: an integer may be a number without fraction, and booleans are not integers. *)
Definition has_type (ty : jtype) (v : pyval) : bool :=
  match ty, v with
  | JObject, PDict _ => true | JString, PStr _ => true | JArray, PList _ => true | JBoolean, PBool _ => true
  | JInteger, PInt _ => true | JInteger, PFloat q => (Z.modulo (Qnum q) (Zpos (Qden q)) =? 0)%Z
  | _, _ => false
  end.
Definition at_least (z : Z) (v : pyval) : bool :=
  match v with PInt x => (z <=? x)%Z | PFloat q => Qle_bool (inject_Z z) q | _ => true end.
Definition at_most (z : Z) (v : pyval) : bool :=
  match v with PInt x => (x <=? z)%Z | PFloat q => Qle_bool q (inject_Z z) | _ => true end.
(** [jsonschema.validate] (54-68 [_validate_config]). *)
Fixpoint accepts (s : schema) (v : pyval) : bool :=
  match s with
  | Schema ty enum mn mx props req items =>
      match ty with Some t => has_type t v | None => true end &&
      match enum with Some l => among v l | None => true end &&
      match mn with Some z => at_least z v | None => true end &&
      match mx with Some z => at_most z v | None => true end &&
      match v with
      | PDict d =>
          forallb (fun k => has_key k d) req &&
          forallb (fun ks => if has_key (fst ks) d then accepts (snd ks) (lookup (fst ks) d) else true) props
      | PList l => match items with Some i => forallb (accepts i) l | None => true end
      | _ => true
      end
  end.
Definition plain (t : jtype) : schema := Schema (Some t) None None None [] [] None.
Definition one_of (l : list string) : schema := Schema (Some JString) (Some l) None None [] [] None.
Definition object (props : list (string * schema)) (req : list string) : schema := Schema (Some JObject) None None None props req None.
Definition integer (mn mx : option Z) : schema := Schema (Some JInteger) None mn mx [] [] None.
(** schemas.py:103-223 and 227-249: what stands under "items" of the two kinds of errors. *)
Definition error_entry : schema :=
  object [("enabled", plain JBoolean); ("distribution", one_of ["constant"; "user"; "gaussian"]); ("params", plain JArray)] ["distribution"].
Definition qubit_items : schema :=
  object (("data_path", plain JString) :: map (fun k => (k, error_entry)) ["X"; "Y"; "Z"; "erasure"; "measurement"]) ["data_path"].
Definition gate_items : schema :=
  object [("data_path", plain JString); ("correlated_pauli", object [("enabled", plain JBoolean)] ["enabled"])]
    ["correlated_pauli"; "data_path"].
Definition with_items (i : schema) : schema := Schema (Some JObject) None None None [] [] (Some i).
(** schemas.py:9-276 [get_exp_config_schema]; "minItems" of a string (19) has no effect. *)
Definition exp_schema : schema :=
  object
    [("general", object [("logical_op", one_of ["X"; "Z"]);
                         ("qec_property", Schema (Some JArray) None None None [] []
                            (Some (Schema None (Some ["logical_error_rate"; "threshold"]) None None [] [] None)));
                         ("seed", integer None None)] ["logical_op"; "qec_property"; "seed"]);
     ("device", object [("name", one_of ["stim"; "clifford"]); ("shots", integer (Some 1%Z) (Some 1000000%Z))] []);
     ("code", object [("name", one_of ["RotatedPlanarCode"; "PlanarCode"; "ToricCode"; "RepetitionCode"; "ShorCode"; "FiveQubitCode"]);
                      ("size", integer (Some 1%Z) None); ("rounds", integer (Some 1%Z) None); ("circuit_provided", plain JBoolean)]
                ["name"; "rounds"]);
     ("circuit", object [("circuit_provided", plain JBoolean); ("has_errors", plain JBoolean); ("circuit_path", plain JString)] []);
     ("errors", object [("qubit_errors", with_items qubit_items); ("gate_errors", with_items gate_items)] []);
     ("decoder", object [("name", one_of ["PyMatchingDecoder"; "UnionFindDecoder"; "UnionFindNoWeights"; "FusionBlossomDecoder"]);
                         ("weighted", plain JBoolean)] [])]
    ["code"; "errors"].
Definition validate_config (v : pyval) : Res bool := if accepts exp_schema v then Ok true else Err ValidationError.
(** frontend/__init__.py:1981-1982, 1997-1998: after the file was read. *)
Definition load_config (f : files) (qkeys gkeys : list string) (d : pydict) : Res experiment :=
  do _ <- validate_config (PDict d); do r <- experiment_from_dict f qkeys gkeys d; Ok (fst r).
(** 2136-2138 [validate]. *)
Definition experiment_validate (x : experiment) : Res bool := do d <- experiment_as_dict x; validate_config (PDict d).
