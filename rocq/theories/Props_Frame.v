(** Property theorems C74: errors as Pauli frames, in all circuits and in memory experiments with gate errors.
    Vocabulary: FrameSpec, DistSpec, GeneratorSpec. *)
Require Import String List Bool Arith ZArith QArith Qfield Lia Lqa.
From Verif Require Import Base BaseProofs QSpec PauliModel PauliSem PauliAlg StateSpec CircuitModel SimModel SimSpec
  LatticeModel LatticeSpec CodesModel CodesSpec GeneratorModel GeneratorSpec GeneratorProofs MemoryTotal ExperimentProofs DistSpec DistMean DistSim HistoryPaths HistorySpec HistoryShow
  FrameSpec FrameProofs FrameMemory FrameDetect Props_Dist.
Import ListNotations.
Local Open Scope string_scope.
Local Open Scope nat_scope.
Local Open Scope list_scope.

(** * C74 *)
(** The results of a circuit with errors are those of the circuit without errors, flipped where the
    frame which the errors leave has an X at the measurement. *)
Theorem C74_frames (N : positive) (items : list item) (m : nat) (F : list bool -> list bool -> Q) (s0 : sim) :
  usable N items -> only_errors items -> calls (text items) <= m ->
  let n := number_of_qubits (text items) in
  (mean (sequences N m) (fun l => match sim_run (stream (s_k s0) l) (text items) true s0 with Ok s => F (s_meas s) (s_eras s) | Err _ => 0 end) ==
   framed items (fun _ fl es => expected n (noiseless items) (fun _ ms _ => F (flipped ms fl) es) ket0 [] []) (no_frame n) [] [])%Q.
Proof.
  intros U ON LM n. assert (D := C66_distribution N items m F s0 U LM). cbv zeta in D. rewrite D. apply frames; auto; [apply (usable_valid N); auto|apply range_items; auto].
Qed.
Print Assumptions C74_frames.

(** Parities of results which are certain without errors are flipped by the errors alone: their joint
    distribution is computed from frames, without state vectors. *)
Theorem C74_detectors (N : positive) (items : list item) (m : nat) (s0 : sim) (Ds : list (list nat)) (c : list bool) (F : list bool -> list bool -> Q) :
  usable N items -> only_errors items -> calls (text items) <= m -> number_of_qubits (text (noiseless items)) = number_of_qubits (text items) ->
  (forall g, (forall k, 0 <= d_unif (g k) /\ d_unif (g k) < 1)%Q -> exists s, sim_run g (text (noiseless items)) true s0 = Ok s /\ map (parity_of (s_meas s)) Ds = c) ->
  (mean (sequences N m) (fun l => match sim_run (stream (s_k s0) l) (text items) true s0 with Ok s => F (map (parity_of (s_meas s)) Ds) (s_eras s) | Err _ => 0 end) ==
   framed items (fun _ fl es => F (flipped c (map (parity_of fl) Ds)) es) (no_frame (number_of_qubits (text items))) [] [])%Q.
Proof. apply detectors. Qed.
Print Assumptions C74_detectors.

(** Memory experiments with any errors, those of gates included: the circuit without the errors is
    that of the experiment without errors, and the sample has the distribution of the sample which is read from the
    flips of the results. *)
Theorem C74_memory (N : positive) cd e x is anc s0 m (G : list (list bool) -> list bool -> option (list (list bool)) -> Q) :
  experiment_code cd -> named_errors (n_data_qubits (c_ops cd)) (n_stabgens (c_ops cd)) e -> probabilities e ->
  (1 <= c_rounds cd)%Z -> logical_ops_to_indices (c_ops cd) x = Ok is -> compatible is -> anc = true \/ readable cd is ->
  (forall c, generate_qec_circuit cd e x anc = Ok c -> calls c <= m /\ Forall (fun gt => Forall (on_grid N) (instruction_chances gt)) c) ->
  exists items, generate_qec_circuit cd e x anc = Ok (text items) /\ generate_qec_circuit cd no_errors x anc = Ok (text (noiseless items)) /\ usable N items /\ only_errors items /\
  (mean (sequences N m) (fun ds =>
     match memory_experiment (stream (s_k s0) ds) s0 cd e x anc with Ok sm => G (sm_syndrome sm) (sm_toggle sm) (sm_erased sm) | Err _ => 0 end) ==
   framed items (fun _ fl es =>
     match from_code_and_raw_results cd fl (match es with [] => None | fs => Some fs end) anc with Ok sm => G (sm_syndrome sm) (sm_toggle sm) (sm_erased sm) | Err _ => 0 end)
     (no_frame (number_of_qubits (text items))) [] [])%Q.
Proof. intros XC NE PR HR EI CP RD LM. exists (map item_of (memory_ins cd e anc is)). apply (memory_frames N cd e x is anc s0 m G XC NE PR HR EI CP RD LM). Qed.
Print Assumptions C74_memory.

(** Two measurements of the parity Z Z of a Bell pair with an ancilla, each CX of the second followed
    by two-qubit errors: the results differ with the chance 7/50. *)
Definition two_errors (k : nat) (p : Q) (a d : nat) : item := Plain ("E_PAULI2", map (fun j => AFlt (if j =? k then p else 0)) (seq 1 15) ++ [qa a; qa d]).
Definition bell_items : list item :=
  [Plain ("H", [qa 0]); Plain ("CX", [qa 0; qa 1]); Plain ("R", [qa 2]); Plain ("CX", [qa 0; qa 2]); Plain ("CX", [qa 1; qa 2]); Plain ("M", [qa 2]);
   Plain ("CX", [qa 0; qa 2]); two_errors 1 (1 # 10) 0 2; Plain ("CX", [qa 1; qa 2]); two_errors 14 (1 # 20) 1 2; Plain ("E_PAULI", [AFlt (1 # 10); AFlt 0; AFlt 0; qa 0]);
   Plain ("M", [qa 2]); Plain ("M", [qa 0; qa 1])].
Example C74_example :
  noiseless bell_items = [Plain ("H", [qa 0]); Plain ("CX", [qa 0; qa 1]); Plain ("R", [qa 2]); Plain ("CX", [qa 0; qa 2]); Plain ("CX", [qa 1; qa 2]); Plain ("M", [qa 2]);
   Plain ("CX", [qa 0; qa 2]); Plain ("CX", [qa 1; qa 2]); Plain ("M", [qa 2]); Plain ("M", [qa 0; qa 1])] /\
  (framed bell_items (fun _ fl _ => if parity_of fl [0; 1]%nat then 1 else 0) (no_frame 3) [] [] == 7 # 50)%Q /\
  (framed bell_items (fun _ fl _ => if parity_of fl [2; 3]%nat then 1 else 0) (no_frame 3) [] [] == 1 # 10)%Q.
Proof. repeat split; vm_compute; auto. Qed.
(** The repetition code with errors of the gates between its first ancilla and its middle qubit, of the Hadamard gates of this
    ancilla and of the qubit: chances of syndromes and of changes of the logical operator X. *)
Definition gate_errors : errors :=
  mkErrors [(1%Z, [("x", 1 # 10)%Q])] [] [] [((3, 1)%Z, [("ix", 1 # 8)%Q; ("zz", 1 # 4)%Q])] [((3, 1)%Z, [("ix", 1 # 8)%Q; ("zz", 1 # 4)%Q])] [(3%Z, [("z", 1 # 16)%Q])] [] [].
Definition frame_chance (B : list (list bool) -> list bool -> bool) : Res Q :=
  do cd <- make_repetition 2 3;
  do is <- logical_ops_to_indices (c_ops cd) (LogLetters "X");
  let items := map item_of (memory_ins cd gate_errors true is) in
  Ok (framed items (fun _ fl es => match from_code_and_raw_results cd fl None true with Ok sm => if B (sm_syndrome sm) (sm_toggle sm) then 1 else 0 | Err _ => 0 end)%Q
        (no_frame (number_of_qubits (text items))) [] []).
Example C74_example_memory :
  (do q <- frame_chance (fun s t => match s, t with [[a; b]; [c; d]], [x] => negb a && x | _, _ => false end); Ok (Qred q)) = Ok (3 # 80)%Q /\
  (do q <- frame_chance (fun s t => match s, t with [[a; b]; [c; d]], [x] => a && negb x | _, _ => false end); Ok (Qred q)) = Ok (9 # 80)%Q.
Proof. split; vm_compute; reflexivity. Qed.
