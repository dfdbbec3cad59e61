(** What the configuration of experiments should contain, stated without the functions which read it. *)
Require Import String List Bool Arith ZArith QArith.
From Verif Require Import Base FrontendModel.
Import ListNotations.
Local Open Scope string_scope.
Local Open Scope nat_scope.
Local Open Scope list_scope.

(** The value of a key in a dictionary. *)
Inductive bound (k : string) (v : pyval) : pydict -> Prop :=
| bound_here : forall d, bound k v ((k, v) :: d)
| bound_there : forall k' v' d, k' <> k -> bound k v d -> bound k v ((k', v') :: d).
Definition absent (k : string) (d : pydict) : Prop := ~ In k (map fst d).
(** The value, or a default. *)
Definition entry (d : pydict) (k : string) (default v : pyval) : Prop := bound k v d \/ absent k d /\ v = default.

(** Integers which are not negative; True and False are integers. *)
Definition whole (v : pyval) : Prop := (exists z, v = PInt z /\ (0 <= z)%Z) \/ exists b, v = PBool b.
Definition positive (v : pyval) : Prop := (exists z, v = PInt z /\ (0 < z)%Z) \/ v = PBool true.

Definition small_code (name : pyval) : Prop := name = PStr "FiveQubitCode" \/ name = PStr "ShorCode".
Definition sized_code (name : pyval) : Prop :=
  name = PStr "RotatedPlanarCode" \/ name = PStr "PlanarCode" \/ name = PStr "ToricCode" \/ name = PStr "RepetitionCode".
(** What is accepted, and what the documentation promises (frontend/__init__.py:75-77, 93-100). *)
Definition code_ok (name rounds size : pyval) : Prop := small_code name \/ sized_code name /\ whole size /\ whole rounds.
Definition code_documented (name rounds size : pyval) : Prop :=
  positive rounds /\ (small_code name \/ sized_code name /\ positive size).
Definition device_ok (name shots : pyval) : Prop := (name = PStr "clifford" \/ name = PStr "stim") /\ positive shots.
Definition decoder_ok (name : pyval) : Prop :=
  name = PStr "PyMatchingDecoder" \/ name = PStr "UnionFindDecoder" \/ name = PStr "UnionFindNoWeights" \/
  name = PStr "FusionBlossomDecoder".

(** Files which can be read if they are to be loaded, in directories which exist. *)
Definition path_ok (f : files) (path load : pyval) : Prop :=
  exists p, path = PStr p /\ parent_exists f p = true /\ (truthy load = true -> file_exists f p = true).
Inductive paths (f : files) (default : string) (d : pydict) : pyval -> pyval -> Prop :=
| paths_both : forall path load, bound "data_path" path d -> path <> PNone -> bound "load_file" load d -> load <> PNone ->
    path_ok f path load -> paths f default d path load
| paths_path : forall path, bound "data_path" path d -> path <> PNone -> entry d "load_file" PNone PNone ->
    path_ok f path (PBool true) -> paths f default d path (PBool true)
| paths_none : forall load, absent "data_path" d -> entry d "load_file" (PBool false) load ->
    path_ok f (PStr default) load -> paths f default d (PStr default) load.

(** Distributions of qubit errors. *)
Definition qubit_ok (dist params : pyval) : Prop :=
  dist = PStr "user" /\ truthy params = false \/ dist = PStr "constant" /\ pylen params = Ok 1 \/
  dist = PStr "gaussian" /\ pylen params = Ok 2 \/ dist = PStr "".
(** The object for an entry of the dictionary. *)
Definition qubit_entry (d : pydict) (k : string) (m : qubit_meta) : Prop :=
  exists v, entry d k PNone v /\
    (v = PNone /\ m = mkQubitMeta (PStr "") (PList []) (PBool false) \/
     exists e enabled, v = PDict e /\ entry e "distribution" PNone (qm_dist m) /\ entry e "params" (PList []) (qm_params m) /\
       qubit_ok (qm_dist m) (qm_params m) /\ entry e "enabled" (PBool true) enabled /\
       (qm_dist m = PStr "" /\ qm_params m = PList [] /\ qm_enabled m = PBool false \/
        ~ (qm_dist m = PStr "" /\ qm_params m = PList []) /\ qm_enabled m = enabled)).

(** Names of Pauli channels of one or two qubits. *)
Definition pauli_letter (s : string) : Prop := s = "X" \/ s = "Y" \/ s = "Z".
Definition pauli_or_identity (s : string) : Prop := pauli_letter s \/ s = "I".
Definition channel (s : string) : Prop :=
  pauli_letter s \/ exists a b, s = (a ++ b)%string /\ pauli_or_identity a /\ pauli_or_identity b.
Definition proper_channel (s : string) : Prop := channel s /\ s <> "II".
(** One channel of a gate. *)
Definition distributed (dist params : pyval) : Prop :=
  dist = PStr "constant" /\ pylen params = Ok 1 \/ dist = PStr "gaussian" /\ pylen params = Ok 2.
(** What is accepted. *)
Definition gate_ok (dist induced params : pyval) : Prop :=
  match dist with
  | PStr _ => pylen induced = Ok 0 \/ (exists n, pylen induced = Ok n) /\ pylen params = Ok 0
  | PList l =>
      (exists n, pylen induced = Ok n /\ pylen params = Ok n) /\
      forall i x, nth_error l i = Some x ->
        exists s p, pyindex induced i = Ok (PStr s) /\ channel s /\ pyindex params i = Ok p /\ distributed x p
  | _ => True
  end.
(** What the documentation promises (frontend/__init__.py:738-747, 770-793). *)
Definition gate_documented (dist induced params : pyval) : Prop :=
  dist = PStr "user" /\ induced = PList [] /\ params = PList [] \/
  exists ds ss ps, dist = PList ds /\ induced = PList (map PStr ss) /\ params = PList (map PList ps) /\
    List.length ss = List.length ds /\ List.length ps = List.length ds /\ Forall proper_channel ss /\
    Forall2 (fun x p => distributed x (PList p)) ds ps.
Definition gate_entry (d : pydict) (k : string) (m : gate_meta) : Prop :=
  exists v, entry d k PNone v /\
    (v = PNone /\ m = mkGateMeta (PStr "") (PList []) (PList []) (PBool false) \/
     exists e, v = PDict e /\ entry e "distribution" PNone (gm_dist m) /\ entry e "induced_errors" (PList []) (gm_induced m) /\
       entry e "params" (PList []) (gm_params m) /\ entry e "enabled" (PBool true) (gm_enabled m) /\
       gate_ok (gm_dist m) (gm_induced m) (gm_params m)).

(** The configurations of qubit and gate errors which belong to dictionaries. *)
Definition qubits_spec (f : files) (d : pydict) (c : qubits_conf) : Prop :=
  paths f "qubit_errors.csv" d (qc_path c) (qc_load c) /\ entry d "sample" (PBool true) (qc_sample c) /\
  map fst (qc_meta c) = ["X"; "Y"; "Z"; "erasure"; "measurement"; "fabrication"] /\
  forall k m, In (k, m) (qc_meta c) -> qubit_entry d k m.
(** The entry for fabrication is checked, and then dropped. *)
Definition gates_spec (f : files) (d : pydict) (c : gates_conf) : Prop :=
  paths f "gate_errors.csv" d (gc_path c) (gc_load c) /\ entry d "sample" (PBool false) (gc_sample c) /\
  map fst (gc_meta c) = ["CZ"; "CX"; "H"; "R"; "M"; "fabrication"] /\
  (forall k m, In (k, m) (gc_meta c) -> k <> "fabrication" -> gate_entry d k m) /\
  (exists m, gate_entry d "fabrication" m) /\
  In ("fabrication", mkGateMeta (PStr "") (PList []) (PList []) (PBool false)) (gc_meta c).

(** Dictionaries of sections; [sect d k e] is the dictionary of a section, {} if it is missing. *)
Definition sect (d : pydict) (k : string) (e : pydict) : Prop := entry d k (PDict []) (PDict e).
(** A part of the errors: missing or empty parts have the defaults. *)
Definition part (d : pydict) (k : string) (e : pydict) : Prop :=
  exists v, entry d k PNone v /\ (truthy v = false /\ e = [] \/ truthy v = true /\ v = PDict e).
Definition experiment_spec (f : files) (d : pydict) (x : experiment) : Prop :=
  entry d "general" PNone (ex_general x) /\
  (exists e, sect d "device" e /\ entry e "name" (PStr "clifford") (vc_name (ex_device x)) /\
     entry e "shots" (PInt 1024) (vc_shots (ex_device x)) /\ device_ok (vc_name (ex_device x)) (vc_shots (ex_device x))) /\
  (exists e, sect d "circuit" e /\ entry e "circuit_provided" (PBool false) (xc_provided (ex_circuit x)) /\
     entry e "has_errors" (PBool false) (xc_errors (ex_circuit x)) /\
     entry e "circuit_path" (PStr "circuit.txt") (xc_path (ex_circuit x)) /\
     path_ok f (xc_path (ex_circuit x)) (xc_provided (ex_circuit x))) /\
  (exists e size, sect d "code" e /\ entry e "name" PNone (cc_name (ex_code x)) /\ entry e "rounds" (PInt 1) (cc_rounds (ex_code x)) /\
     entry e "size" (PInt (-1)) size /\ code_ok (cc_name (ex_code x)) (cc_rounds (ex_code x)) size /\
     (small_code (cc_name (ex_code x)) /\ cc_size (ex_code x) = PInt (-1) \/
      ~ small_code (cc_name (ex_code x)) /\ cc_size (ex_code x) = size)) /\
  (exists e q g, sect d "errors" e /\ part e "qubit_errors" q /\ qubits_spec f q (ec_qubits (ex_errors x)) /\
     part e "gate_errors" g /\ gates_spec f g (ec_gates (ex_errors x))) /\
  (exists e, sect d "decoder" e /\ entry e "name" (PStr "PyMatchingDecoder") (kc_name (ex_decoder x)) /\
     entry e "weighted" (PBool false) (kc_weighted (ex_decoder x)) /\ decoder_ok (kc_name (ex_decoder x))).

(** * What the schema demands *)
Definition optional (d : pydict) (k : string) (P : pyval -> Prop) : Prop := forall v, bound k v d -> P v.
Definition required (d : pydict) (k : string) : Prop := exists v, bound k v d.
Definition is_object (v : pyval) : Prop := exists d, v = PDict d.
Definition is_text (v : pyval) : Prop := exists s, v = PStr s.
Definition is_flag (v : pyval) : Prop := exists b, v = PBool b.
(** Whole numbers, also if they are written with a fraction of zero. *)
Definition whole_number (v : pyval) (z : Z) : Prop := v = PInt z \/ exists q, v = PFloat q /\ (q == inject_Z z)%Q.
Definition at_least_one (v : pyval) : Prop := exists z, whole_number v z /\ (1 <= z)%Z.
Definition config_ok (v : pyval) : Prop :=
  exists d, v = PDict d /\ required d "code" /\ required d "errors" /\
    optional d "general" (fun v => exists g, v = PDict g /\ required g "logical_op" /\ required g "qec_property" /\ required g "seed" /\
      optional g "logical_op" (fun v => v = PStr "X" \/ v = PStr "Z") /\
      optional g "qec_property" (fun v => exists l, v = PList l /\ forall x, In x l -> x = PStr "logical_error_rate" \/ x = PStr "threshold") /\
      optional g "seed" (fun v => exists z, whole_number v z)) /\
    optional d "device" (fun v => exists g, v = PDict g /\
      optional g "name" (fun v => v = PStr "stim" \/ v = PStr "clifford") /\
      optional g "shots" (fun v => exists z, whole_number v z /\ (1 <= z <= 1000000)%Z)) /\
    optional d "code" (fun v => exists g, v = PDict g /\ required g "name" /\ required g "rounds" /\
      optional g "name" (fun v => small_code v \/ sized_code v) /\ optional g "size" at_least_one /\
      optional g "rounds" at_least_one /\ optional g "circuit_provided" is_flag) /\
    optional d "circuit" (fun v => exists g, v = PDict g /\
      optional g "circuit_provided" is_flag /\ optional g "has_errors" is_flag /\ optional g "circuit_path" is_text) /\
    optional d "errors" (fun v => exists g, v = PDict g /\ optional g "qubit_errors" is_object /\ optional g "gate_errors" is_object) /\
    optional d "decoder" (fun v => exists g, v = PDict g /\ optional g "name" decoder_ok /\ optional g "weighted" is_flag).
