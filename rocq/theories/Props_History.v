(** Property theorem C67: how often memory experiments give each result.
    Vocabulary: HistorySpec, DistSpec, GeneratorSpec. *)
Require Import String List Bool Arith ZArith QArith Qfield Lia Lqa.
From Verif Require Import Base BaseProofs QSpec PauliModel PauliSem PauliAlg StateSpec CircuitModel SimModel SimSpec
  LatticeModel LatticeSpec CodesModel CodesSpec GeneratorModel GeneratorSpec GeneratorProofs MemoryTotal ExperimentProofs DistSpec DistMean DistSim
  HistorySpec HistorySums HistoryChain HistoryShow HistoryTotal.
Import ListNotations.
Local Open Scope string_scope.
Local Open Scope nat_scope.
Local Open Scope list_scope.

(** * C67 *)
(** Over all values of the random numbers, the mean of any function of the syndrome, the changes of
    the logical operators and the erasures which a memory experiment gives is the sum over all
    histories of errors of the chance of the history times the value for what the history shows. *)
Theorem C67_distribution (N : positive) cd e x is anc s0 m (G : list (list bool) -> list bool -> option (list (list bool)) -> Q) :
  experiment_code cd -> no_gate_errors e -> named_errors (n_data_qubits (c_ops cd)) (n_stabgens (c_ops cd)) e -> probabilities e ->
  er_erasure e = [] \/ erasure_everywhere (n_data_qubits (c_ops cd)) e ->
  (1 <= c_rounds cd)%Z -> logical_ops_to_indices (c_ops cd) x = Ok is -> compatible is -> anc = true \/ readable cd is -> on_grid_errors N e ->
  (forall c, generate_qec_circuit cd e x anc = Ok c -> calls c <= m) ->
  (mean (sequences N m) (fun ds =>
     match memory_experiment (stream (s_k s0) ds) s0 cd e x anc with Ok sm => G (sm_syndrome sm) (sm_toggle sm) (sm_erased sm) | Err _ => 0 end) ==
   sum_over (histories (n_data_qubits (c_ops cd)) (n_stabgens (c_ops cd)) (Z.to_nat (c_rounds cd)))
     (fun h => history_chance e (n_data_qubits (c_ops cd)) (n_stabgens (c_ops cd)) h * G (syndrome_of cd h) (toggle_of cd is h) (erasures_of cd e h)))%Q.
Proof. apply memory_distribution. Qed.
Print Assumptions C67_distribution.

(** The chances of the histories are chances: none is negative, and their sum is 1. *)
Theorem C67_chances (e : errors) (nd ns rounds : nat) :
  (sum_over (histories nd ns rounds) (history_chance e nd ns) == 1)%Q /\
  (probabilities e -> unit_errors e -> forall h, 0 <= history_chance e nd ns h)%Q.
Proof. split; [apply history_total|]. intros P U h. apply history_nonneg; auto. Qed.
Print Assumptions C67_chances.

(** All error data with rational probabilities are on some grid. *)
Theorem C67_grid (e : errors) : unit_errors e <-> exists N, on_grid_errors N e.
Proof. split; [apply unit_grid|]. intros (N & H). apply (grid_unit N e H). Qed.
Print Assumptions C67_grid.

(** The share of the random numbers with which the results have a property is the chance of the
    histories which show results with the property. *)
Theorem C67_share (N : positive) cd e x is anc s0 m (B : list (list bool) -> list bool -> option (list (list bool)) -> bool) :
  experiment_code cd -> no_gate_errors e -> named_errors (n_data_qubits (c_ops cd)) (n_stabgens (c_ops cd)) e -> probabilities e ->
  er_erasure e = [] \/ erasure_everywhere (n_data_qubits (c_ops cd)) e ->
  (1 <= c_rounds cd)%Z -> logical_ops_to_indices (c_ops cd) x = Ok is -> compatible is -> anc = true \/ readable cd is -> on_grid_errors N e ->
  (forall c, generate_qec_circuit cd e x anc = Ok c -> calls c <= m) ->
  (inject_Z (Z.of_nat (List.length (filter (fun ds =>
     match memory_experiment (stream (s_k s0) ds) s0 cd e x anc with
     | Ok sm => B (sm_syndrome sm) (sm_toggle sm) (sm_erased sm)
     | Err _ => false
     end) (sequences N m)))) ==
   inject_Z (Z.of_nat (List.length (sequences N m))) *
   sum_over (filter (fun h => B (syndrome_of cd h) (toggle_of cd is h) (erasures_of cd e h))
       (histories (n_data_qubits (c_ops cd)) (n_stabgens (c_ops cd)) (Z.to_nat (c_rounds cd))))
     (history_chance e (n_data_qubits (c_ops cd)) (n_stabgens (c_ops cd))))%Q.
Proof.
  intros XC NG NM PR EE HR EI CP RD GR CL.
  assert (D := C67_distribution N cd e x is anc s0 m (fun a b c => if B a b c then 1 else 0)%Q XC NG NM PR EE HR EI CP RD GR CL).
  rewrite sum_filter.
  transitivity (inject_Z (Z.of_nat (List.length (sequences N m))) * sum_over (histories (n_data_qubits (c_ops cd)) (n_stabgens (c_ops cd)) (Z.to_nat (c_rounds cd)))
     (fun h => history_chance e (n_data_qubits (c_ops cd)) (n_stabgens (c_ops cd)) h * (if B (syndrome_of cd h) (toggle_of cd is h) (erasures_of cd e h) then 1 else 0)))%Q.
  2:{ apply Qmult_comp; [reflexivity|]. apply sum_ext. intros h _. destruct (B _ _ _); ring. }
  rewrite <- D. unfold mean.
  match goal with |- (inject_Z (Z.of_nat (List.length (filter ?t ?l))) == _ * (sum_over _ ?f / _))%Q =>
    assert (E : (sum_over l f == inject_Z (Z.of_nat (List.length (filter t l))))%Q); [|rewrite E; field] end.
  - generalize (sequences N m). induction l as [|y l IH]; [reflexivity|]. rewrite sum_cons, IH. cbn [filter].
    destruct (memory_experiment (stream (s_k s0) y) s0 cd e x anc) as [sm|]; [|ring]. destruct (B _ _ _); [|ring].
    cbn [List.length]. rewrite Nat2Z.inj_succ, <- Z.add_1_l, inject_Z_plus. ring.
  - apply inject_nz. pose proof (sequences_nonempty N m). destruct (sequences N m); [congruence|cbn; lia].
Qed.
Print Assumptions C67_share.

(** The repetition code with three qubits and one round, X errors with probability 1/10 and measurement errors
    with probability 1/5: the chance that only the second generator reacts, and the
    chance that the logical operator Z is changed as well; the results of the only round are read
    without measurement errors. *)
Definition rep_errors : errors := mkErrors (map (fun q => (q, [("x", 1 # 10)%Q])) [0; 1; 2]%Z) [] (map (fun q => (q, [("p", 1 # 5)%Q])) [3; 4]%Z) [] [] [] [] [].
Definition rep_chance (rounds : Z) (syn : list (list bool)) (tog : option bool) : Res Q :=
  do cd <- make_repetition rounds 3;
  do is <- logical_ops_to_indices (c_ops cd) (LogLetters "Z");
  Ok (fold_right (fun h s =>
    let c := history_chance rep_errors (n_data_qubits (c_ops cd)) (n_stabgens (c_ops cd)) h in
    if Qeq_bool c 0 then s
    else if list_eq_dec (list_eq_dec bool_dec) (syndrome_of cd h) syn then
      if match tog with None => true | Some b => if list_eq_dec bool_dec (toggle_of cd is h) [b] then true else false end then Qred (c + s) else s
    else s) 0%Q (histories (n_data_qubits (c_ops cd)) (n_stabgens (c_ops cd)) (Z.to_nat rounds))).
Example C67_example :
  rep_chance 1 [[false; true]] None = Ok (9 # 100) /\
  rep_chance 1 [[false; true]] (Some true) = Ok (81 # 1000) /\
  rep_chance 1 [[false; false]] (Some true) = Ok (1 # 1000).
Proof. repeat split; vm_compute; reflexivity. Qed.
