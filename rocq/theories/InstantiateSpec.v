(** What the objects made from the configuration of an experiment have to be. *)
Require Import String List Bool Arith ZArith QArith Permutation.
From Verif Require Import Base PauliModel PauliSem CircuitModel SimModel SimSpec LatticeModel LatticeSpec CodesModel GeneratorModel GeneratorSpec DecoderModel DecoderSpec
  WeightsModel TablesModel TablesSpec SyngraphModel MatchingModel DecoderObjects MatchingProofs FrontendModel FrontendSpec InstantiateModel.
Import ListNotations.
Local Open Scope string_scope.
Local Open Scope nat_scope.
Local Open Scope list_scope.

(** * Error tables *)
(** A number which is an integer or a float. *)
Definition number (v : pyval) (q : Q) : Prop := v = PFloat q \/ exists z, v = PInt z /\ q = inject_Z z.
(** The number in the file for a qubit and an error. *)
Definition in_file (csv : option qubit_csv) (name : string) (q : Z) (v : Q) : Prop :=
  exists c vs i, csv = Some c /\ In (name, vs) (cs_cols c) /\ nth_error (cs_ids c) i = Some q /\ nth_error vs i = Some (Some v).
(** The value of an error with some distribution and parameters for the qubit [q] in row [i]. *)
Definition distributed (u : surroundings) (name : string) (dist : pyval) (ps : list pyval) (i : nat) (q : Z) (v : Q) : Prop :=
  dist = PStr "constant" /\ (exists p, ps = [p] /\ number p v) \/
  dist = PStr "gaussian" /\ (exists m s a b, ps = [m; s] /\ number m a /\ number s b /\ v = (a + b * su_z u name i)%Q) \/
  dist = PStr "user" /\ (in_file (su_qubits u) name q v \/ (forall x, ~ in_file (su_qubits u) name q x) /\ v = 0%Q) \/
  dist = PStr "" /\ v = 0%Q.
(** Errors which are enabled. *)
Definition switched_on (c : qubits_conf) (name : string) (m : qubit_meta) : Prop :=
  In (name, m) (qc_meta c) /\ truthy (qm_enabled m) = true /\ ~ (qm_dist m = PStr "" /\ qm_params m = PList []).
Definition configured (u : surroundings) (c : qubits_conf) (name : string) (i : nat) (q : Z) (v : Q) : Prop :=
  exists m ps, switched_on c name m /\ qm_params m = PList ps /\ distributed u name (qm_dist m) ps i q v.
(** Configurations whose tables can be made: numbers as parameters, no negative standard deviations, and
    files (if there are any) with one row for each of some qubits and a column for each error. *)
Definition good_file (csv : option qubit_csv) (name : string) : Prop :=
  match csv with
  | None => True
  | Some c => cs_ids c = [] \/ cs_cols c = [] \/
      NoDup (cs_ids c) /\ NoDup (map fst (cs_cols c)) /\ exists vs, In (name, vs) (cs_cols c) /\ List.length vs = List.length (cs_ids c)
  end.
Record usable (u : surroundings) (c : qubits_conf) : Prop := {
  us_sample : truthy (qc_sample c) = true;
  us_keys : map fst (qc_meta c) = qubit_keys;
  us_form : forall k m, In (k, m) (qc_meta c) -> qubit_ok (qm_dist m) (qm_params m) /\ exists l, qm_params m = PList l;
  us_constant : forall k m p, switched_on c k m -> qm_dist m = PStr "constant" -> qm_params m = PList [p] -> exists q, number p q;
  us_gaussian : forall k m p s, switched_on c k m -> qm_dist m = PStr "gaussian" -> qm_params m = PList [p; s] ->
    (exists a, number p a) /\ exists b, number s b /\ (0 <= b)%Q;
  us_user : forall k m, switched_on c k m -> qm_dist m = PStr "user" -> good_file (su_qubits u) k }.
(** Python iterates over all elements of a set. *)
Definition fair (u : surroundings) : Prop := forall l, Permutation l (su_order u l).
(** The probability of an error of a qubit; 0 if the error is not enabled. *)
Definition chance (u : surroundings) (c : qubits_conf) (l : lattice) (name : string) (q : nat) (v : Q) : Prop :=
  (exists i ty, nth_error (lattice_rows l) i = Some (Z.of_nat q, ty) /\ configured u c name i (Z.of_nat q) v) \/
  (forall m, ~ switched_on c name m) /\ v = 0%Q.

(** * Gate errors *)
(** Gates whose errors are enabled. *)
Definition gate_on (c : gates_conf) (k : string) (m : gate_meta) : Prop :=
  In (k, m) (gc_meta c) /\ truthy (gm_enabled m) = true /\ (gm_dist m = PStr "user" \/ exists ds, gm_dist m = PList ds /\ ds <> []).
(** The channel number [j] in the lists of a gate. *)
Definition channel_of (m : gate_meta) (j : nat) (dist : pyval) (name : string) (ps : list pyval) : Prop :=
  exists ds ss pss, gm_dist m = PList ds /\ gm_induced m = PList (map PStr ss) /\ gm_params m = PList (map PList pss) /\
    nth_error ds j = Some dist /\ nth_error ss j = Some name /\ nth_error pss j = Some ps.
Record usable_gates (c : gates_conf) : Prop := {
  ug_sample : truthy (gc_sample c) = true;
  ug_keys : map fst (gc_meta c) = gate_keys;
  ug_form : forall k m, In (k, m) (gc_meta c) -> gate_documented (gm_dist m) (gm_induced m) (gm_params m) \/ gm_dist m = PStr "";
  ug_constant : forall k m j name ps, gate_on c k m -> channel_of m j (PStr "constant") name ps -> exists p q, ps = [p] /\ number p q;
  ug_gaussian : forall k m j name ps, gate_on c k m -> channel_of m j (PStr "gaussian") name ps ->
    exists p s a b, ps = [p; s] /\ number p a /\ number s b /\ (0 <= b)%Q }.
(** The rows of one channel: a constant gives one row for all ancillas or for all pairs of an ancilla and a data
    qubit which are joined by an edge, a normal distribution one row for each of them.  The name of the
    latter is spread over its letters if the gate has two qubits. *)
Definition channel_row (u : surroundings) (l : lattice) (k : string) (j : nat) (dist : pyval) (name : string) (ps : list pyval) (r : gate_row) : Prop :=
  (In k ["H"; "M"; "R"] /\
     (dist = PStr "constant" /\ (exists p q, ps = [p] /\ number p q /\ r = mkGateRow k (map Z.of_nat (seq (List.length (l_data l)) (List.length (l_stabs l)))) [name] [q]) \/
      dist = PStr "gaussian" /\ (exists p s a b i, ps = [p; s] /\ number p a /\ number s b /\ i < List.length (l_stabs l) /\
        r = mkGateRow k [Z.of_nat (List.length (l_data l) + i)] [name] [(a + b * su_zg u k j i)%Q]))) \/
  (In k ["CX"; "CZ"] /\
     (dist = PStr "constant" /\ (exists p q, ps = [p] /\ number p q /\ r = mkGateRow k (gate_qubits l) [name] [q]) \/
      dist = PStr "gaussian" /\ (exists p s a b i, ps = [p; s] /\ number p a /\ number s b /\ 2 * i < List.length (gate_qubits l) /\
        r = mkGateRow k [nth (2 * i) (gate_qubits l) 0%Z; nth (2 * i + 1) (gate_qubits l) 0%Z] (letters name) [(a + b * su_zg u k j i)%Q]))).
Definition gate_configured (u : surroundings) (c : gates_conf) (l : lattice) (r : gate_row) : Prop :=
  exists k m, gate_on c k m /\
    (gm_dist m = PStr "user" /\ In r (su_gates u) /\ g_gate r = k \/
     exists j dist name ps, channel_of m j dist name ps /\ channel_row u l k j dist name ps r).

(** * Experiments *)
(** The code which a configuration names. *)
Definition makes (c : code_conf) (cd : code) : Prop := exists r, cc_rounds c = PInt r /\ (1 <= r)%Z /\
  (cc_name c = PStr "ShorCode" /\ make_shor r = Ok cd \/ cc_name c = PStr "FiveQubitCode" /\ make_five_qubit r = Ok cd \/
   exists s, cc_size c = PInt s /\ (2 <= s)%Z /\
     (cc_name c = PStr "PlanarCode" /\ make_planar r s = Ok cd \/ cc_name c = PStr "ToricCode" /\ make_toric r s = Ok cd \/
      cc_name c = PStr "RotatedPlanarCode" /\ make_rotated_planar r s false = Ok cd \/ cc_name c = PStr "RepetitionCode" /\ make_repetition r s = Ok cd)).
(** Probabilities for a code with [nd] data qubits and [ns] generators. *)
Record valid_chances (u : surroundings) (c : qubits_conf) (cd : code) : Prop := {
  vc_data : forall n q v, In n ["X"; "Y"; "Z"; "erasure"] -> q < n_data_qubits (c_ops cd) -> chance u c (c_lattice cd) n q v -> (0 <= v <= 1)%Q;
  vc_sum : forall q x y z, q < n_data_qubits (c_ops cd) -> chance u c (c_lattice cd) "X" q x -> chance u c (c_lattice cd) "Y" q y -> chance u c (c_lattice cd) "Z" q z -> (x + y + z <= 1)%Q;
  vc_results : forall s v, s < n_stabgens (c_ops cd) -> chance u c (c_lattice cd) "measurement" (n_data_qubits (c_ops cd) + s) v -> (0 <= v <= 1)%Q }.
(** Probabilities below 1/2, also after 1e-15 has taken the place of zeros. *)
Record small_chances (u : surroundings) (c : qubits_conf) (cd : code) : Prop := {
  sc_data : forall q x y z, q < n_data_qubits (c_ops cd) -> chance u c (c_lattice cd) "X" q x -> chance u c (c_lattice cd) "Y" q y -> chance u c (c_lattice cd) "Z" q z ->
    (x + y + 2 * tiny < 1 # 2)%Q /\ (y + z + 2 * tiny < 1 # 2)%Q;
  sc_results : forall s v, s < n_stabgens (c_ops cd) -> chance u c (c_lattice cd) "measurement" (n_data_qubits (c_ops cd) + s) v -> (v < 1 # 2)%Q }.
(** Values of the dictionary of general options. *)
Definition option_is (x : experiment) (k : string) (v : pyval) : Prop := exists d, ex_general x = PDict d /\ NoDup (map fst d) /\ In (k, v) d.
Definition asks_for (v : pyval) (lo : logical_spec) : Prop :=
  (exists s, v = PStr s /\ lo = LogLetters s) \/ exists l, v = PList (map PInt l) /\ lo = LogIndices l.
(** Experiments which can be built: without gate errors, with logical operators which can be read from
    data qubits, and with weights only for decoders which use them and for small probabilities. *)
Record buildable (u : surroundings) (x : experiment) (cd : code) (lo : logical_spec) (is : list nat) : Prop := {
  bu_seed : exists v, option_is x "seed" v /\ (v = PNone \/ exists z, v = PInt z /\ (0 <= z)%Z);
  bu_code : makes (ex_code x) cd;
  bu_qubits : usable u (ec_qubits (ex_errors x));
  bu_gates : truthy (gc_sample (ec_gates (ex_errors x))) = false;
  bu_chances : valid_chances u (ec_qubits (ex_errors x)) cd;
  bu_logical : exists v, option_is x "logical_op" v /\ asks_for v lo;
  bu_indices : logical_ops_to_indices (c_ops cd) lo = Ok is;
  bu_some : is <> [];
  bu_compatible : compatible is;
  bu_readable : readable cd is;
  bu_circuit : truthy (xc_provided (ex_circuit x)) = false;
  bu_device : vc_name (ex_device x) = PStr "clifford" \/ vc_name (ex_device x) = PStr "stim";
  bu_decoder : exists s, kc_name (ex_decoder x) = PStr s /\ In s ["UnionFindDecoder"; "UnionFindNoWeights"; "PyMatchingDecoder"; "FusionBlossomDecoder"];
  bu_weighted : kc_weighted (ex_decoder x) = PBool false \/
    kc_weighted (ex_decoder x) = PBool true /\ kc_name (ex_decoder x) <> PStr "UnionFindNoWeights" /\ small_chances u (ec_qubits (ex_errors x)) cd }.
(** A decoder of the configured class, in any state which calls lead to, for a code with the
    generators [gens]. *)
Definition decoder_for (py : pm_graph -> list bool -> Res (list bool)) (fb : fb_graph -> list nat -> list nat -> Res (list nat))
    (name : pyval) (rounds : nat) (gens : list row) (w : option warg) (d : any_decoder) : Prop :=
  match d with
  | UfDecoder d => name = PStr "UnionFindDecoder" /\ uf_interface Weights rounds gens w d \/ name = PStr "UnionFindNoWeights" /\ uf_interface NoWeights rounds gens w d
  | PyDecoder d => name = PStr "PyMatchingDecoder" /\ x_interface pm_graph py_new (py_decode py) rounds gens w d
  | FbDecoder d => name = PStr "FusionBlossomDecoder" /\ x_interface fb_graph fb_new (fb_decode fb) rounds gens w d
  end.
(** A sequence of shots from the state [s] of the simulator on: each one is a memory experiment, and it is
    a success if and only if what remains of its errors after the correction, which has their syndrome,
    commutes with the logical operators [is]. *)
Inductive shots (g : rng) (cd : code) (e : errors) (x : logical_spec) (is : list nat) (c : circuit) : sim -> list bool -> Prop :=
| shots_none s : shots g cd e x is c s []
| shots_next s s' sm E K F correction b bs :
    sim_run g c true s = Ok s' -> memory_experiment g s cd e x false = Ok sm ->
    possible_history e (n_data_qubits (c_ops cd)) (n_stabgens (c_ops cd)) (Z.to_nat (c_rounds cd)) E K F -> shows cd is (Z.to_nat (c_rounds cd)) E K F sm ->
    List.length (ops correction) = n_data_qubits (c_ops cd) ->
    (forall st, st < n_stabgens (c_ops cd) ->
       anti (seq 0 (n_data_qubits (c_ops cd))) (fac (nth st (c_stabs (c_ops cd)) row0)) (fun q => pxor (fac correction q) (total (Z.to_nat (c_rounds cd)) E q)) = false) ->
    (b = true <-> forall i, In i is ->
       anti (seq 0 (n_data_qubits (c_ops cd))) (fac (nth i (c_logicals (c_ops cd)) row0)) (fun q => pxor (fac correction q) (total (Z.to_nat (c_rounds cd)) E q)) = false) ->
    shots g cd e x is c s' bs -> shots g cd e x is c s (b :: bs).
