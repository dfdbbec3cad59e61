(** Property theorems C27-C29, C40, C47-C49: circuits of memory experiments and their results. *)
Require Import List Bool Arith ZArith QArith Lia String Permutation.
From Verif Require Import Base BaseProofs QSpec PauliModel PauliSem StateSpec CircuitModel SimSpec SimModel LatticeModel LatticeSpec CodesModel CodesSpec CodesProofs PauliTextModel
  GeneratorModel StabTrack RoundProofs MemoryProofs GeneratorProofs GeneratorSpec GeneratorSem UnpackProofs MemorySem UnpackLayout MemoryTotal ParallelProofs ExperimentProofs ExperimentCodes PauliTextProofs FromOperators Props_Circuit.
Import ListNotations.
Local Open Scope string_scope.
Local Open Scope nat_scope.
Local Open Scope list_scope.

(** * C49 Codes for memory experiments *)
(** The theorems below are about codes with [experiment_code].  The built-in codes of every size
    and codes made from operators are of this kind. *)
Theorem C49_builtin_codes : forall rounds cd,
  (exists d, (2 <= d)%Z /\ (make_planar rounds d = Ok cd \/ make_toric rounds d = Ok cd \/ exists xzzx, make_rotated_planar rounds d xzzx = Ok cd)) \/
  (exists d, (2 <= d)%Z /\ make_repetition rounds d = Ok cd) \/ make_five_qubit rounds = Ok cd \/ make_shor rounds = Ok cd ->
  experiment_code cd /\ c_rounds cd = rounds.
Proof.
  intros r cd [(d & D & [H|[H|(z & H)]])|[(d & D & H)|[H|H]]].
  - destruct (planar_experiment d r) as (c & E & X & R & _); auto. assert (c = cd) by congruence. subst. auto.
  - destruct (toric_experiment d r) as (c & E & X & R & _); auto. assert (c = cd) by congruence. subst. auto.
  - destruct (rotated_experiment d z r) as (c & E & X & R & _); auto. assert (c = cd) by congruence. subst. auto.
  - assert (O : (d mod 2 = 1)%Z).
    { destruct (Z.eq_dec (d mod 2) 0) as [Q|Q]; [|pose proof (Z.mod_pos_bound d 2); lia]. unfold make_repetition, make_code, repetition_lattice in H. rewrite Q in H. discriminate. }
    destruct (repetition_experiment d r) as (c & E & X & R & _); auto. assert (c = cd) by congruence. subst. auto.
  - destruct (five_qubit_experiment r) as (c & E & X & R). assert (c = cd) by congruence. subst. auto.
  - destruct (shor_experiment r) as (c & E & X & R). assert (c = cd) by congruence. subst. auto.
Qed.
Print Assumptions C49_builtin_codes.
(** The constructors of all of them succeed. *)
Theorem C49_builtin_codes_exist : forall rounds d xzzx, (2 <= d)%Z ->
  (exists cd, make_planar rounds d = Ok cd) /\ (exists cd, make_toric rounds d = Ok cd) /\ (exists cd, make_rotated_planar rounds d xzzx = Ok cd) /\
  ((d mod 2 = 1)%Z -> exists cd, make_repetition rounds d = Ok cd) /\ (exists cd, make_five_qubit rounds = Ok cd) /\ (exists cd, make_shor rounds = Ok cd).
Proof.
  intros r d z D. conjs.
  - destruct (planar_experiment d r) as (c & E & _); eauto.
  - destruct (toric_experiment d r) as (c & E & _); eauto.
  - destruct (rotated_experiment d z r) as (c & E & _); eauto.
  - intros O. destruct (repetition_experiment d r) as (c & E & _); eauto.
  - destruct (five_qubit_experiment r) as (c & E & _); eauto.
  - destruct (shor_experiment r) as (c & E & _); eauto.
Qed.
Print Assumptions C49_builtin_codes_exist.
(** from_operators gives a code with the operators it is given, without their signs. *)
Theorem C49_from_operators : forall n stabs logicals k rounds, 0 < n -> stabs <> [] -> List.length stabs <= n -> List.length logicals <= n -> List.length logicals = 2 * S k ->
  (forall r, In r stabs \/ In r logicals -> List.length (ops r) = n /\ exists b, In b (ops r) /\ b <> (false, false)) ->
  exists cd, from_operators stabs logicals rounds = Ok cd /\ c_rounds cd = rounds /\
    c_stabs (c_ops cd) = map (fun r => mkRow (ops r) false) stabs /\ c_logicals (c_ops cd) = map (fun r => mkRow (ops r) false) logicals /\
    consistent (c_lattice cd) /\ indexed (c_lattice cd) /\
    ((forall r, In r stabs \/ In r logicals -> ~ In (true, true) (ops r)) -> check (c_ops cd) = Ok tt -> experiment_code cd).
Proof.
  intros n S L k r P NS LS LL EL H.
  assert (H' : forall x, In x S \/ In x L -> List.length (ops x) = n /\ exists b, In b (ops x) /\ nonid b = true).
  { intros x I. destruct (H x I) as (A & b & B & N). split; auto. exists b. split; auto. destruct b as [[] []]; auto. }
  destruct (from_operators_ok n S L k r) as (l & E & C & X & T & F & Ed); auto. eexists. split; [exact E|]. cbn [c_rounds c_ops c_stabs c_logicals c_lattice]. conjs; auto.
  intros NY K. destruct (from_operators_experiment n S L k r) as (cd & E' & XC & _); auto.
  - intros x I. destruct (H' x I). auto.
  - rewrite E in E'. injection E' as <-. auto.
Qed.
Print Assumptions C49_from_operators.
(** Signs are lost: the operators of the code are in general not the given ones. *)
Definition minus_zz : list row := [mkRow [(false, true); (false, true)] true].
Definition bell_logicals : list row := [mkRow [(true, false); (true, false)] false; mkRow [(false, true); (false, false)] false].
Theorem C49_from_operators_signs_refuted : exists cd, from_operators minus_zz bell_logicals 1 = Ok cd /\ c_stabs (c_ops cd) <> minus_zz.
Proof.
  destruct (C49_from_operators 2 minus_zz bell_logicals 0 1) as (cd & E & _ & S & _);
    [apply Nat.ltb_lt; reflexivity|discriminate|apply Nat.leb_le; reflexivity|apply Nat.leb_le; reflexivity|reflexivity| |].
  - intros r [[<-|[]]|[<-|[<-|[]]]]; (split; [reflexivity|eexists; split; [left; reflexivity|discriminate]]).
  - exists cd. split; auto. rewrite S. discriminate.
Qed.
Print Assumptions C49_from_operators_signs_refuted.
(** Operators with Y are accepted as a code; the generator refuses them. *)
Definition yy_code : Res code := from_operators [mkRow [(true, true); (true, true)] false] [mkRow [(true, false); (true, false)] false; mkRow [(true, true); (false, false)] false] 1.
Example C49_example : (do cd <- yy_code; Ok (map (fun r => pauli_to_string r true) (c_stabs (c_ops cd)))) = Ok ["+YY"] /\
  (do cd <- yy_code; check (c_ops cd)) = Ok tt /\ (do cd <- yy_code; generate_qec_circuit cd no_errors (LogLetters "X") true) = Err ValueError.
Proof. vm_compute. auto. Qed.

(** * C48 Error data *)
(** The generator accepts exactly the error data which names existing qubits and known Paulis. *)
Theorem C48_error_data : forall cd e, experiment_code cd ->
  (named_errors (n_data_qubits (c_ops cd)) (n_stabgens (c_ops cd)) e -> check_against_code (c_lattice cd) e = Ok tt) /\
  (~ named_errors (n_data_qubits (c_ops cd)) (n_stabgens (c_ops cd)) e -> forall x anc, generate_qec_circuit cd e x anc = Err ValueError).
Proof.
  intros cd e XC. unfold n_stabgens. rewrite xc_nd, xc_ns by auto. destruct (decided_errors (c_lattice cd) e (xc_consistent _ XC) (xc_indexed _ XC)) as [[E N]|[E N]]; split; intros H; auto; try tauto.
  intros x anc. unfold generate_qec_circuit. rewrite E. auto.
Qed.
Print Assumptions C48_error_data.
(** With such data, and gate errors of every kind, there is a circuit and it can be run. *)
Theorem C48_generate_and_run : forall cd e x is anc, experiment_code cd -> named_errors (n_data_qubits (c_ops cd)) (n_stabgens (c_ops cd)) e -> probabilities e ->
  logical_ops_to_indices (c_ops cd) x = Ok is -> compatible is ->
  exists c, generate_qec_circuit cd e x anc = Ok c /\ valid_circuit false c /\
    forall g s0, (forall k, 0 <= d_unif (g k) /\ d_unif (g k) < 1)%Q -> exists s, sim_run g c true s0 = Ok s.
Proof.
  intros cd e x is anc XC N P EI CP. eexists. split; [apply exp_generate; eauto|]. split.
  - apply ins_valid_circuit, memory_valid; auto; apply XC.
  - intros g s0 Hg. eapply exp_run; eauto.
Qed.
Print Assumptions C48_generate_and_run.
(** Letters are always compatible; X and Z of one logical qubit are refused. *)
Theorem C48_letters_compatible : forall c s is, logical_ops_to_indices c (LogLetters s) = Ok is -> compatible is.
Proof. exact letters_compatible. Qed.
Print Assumptions C48_letters_compatible.
Theorem C48_incompatible_refused : forall cd e is anc i, experiment_code cd -> In (2 * i) is -> In (2 * i + 1) is ->
  forall c, generate_qec_circuit cd e (LogIndices (map Z.of_nat is)) anc <> Ok c.
Proof.
  intros cd e is anc i XC I J c G. unfold generate_qec_circuit in G. destruct (check_against_code _ _); [|discriminate]. cbn [bindR] in G.
  destruct (get_circuit_spec _ _ _ _ _ _ G) as (is' & EI & _). assert (CO := get_circuit_commute _ _ _ _ is' _ _ G EI).
  assert (is' = is).
  { unfold logical_ops_to_indices in EI. cbn [bindR] in EI. destruct (negb _); [discriminate|]. destruct (existsb _ _); [discriminate|]. injection EI as <-. rewrite map_map. rewrite (map_ext _ (fun x => x)) by (intros; apply Nat2Z.id). apply map_id. }
  subst is'. destruct (indices_ok _ _ _ EI) as [_ B]. specialize (CO _ _ I J). set (n := List.length (l_data (c_lattice cd))).
  assert (W : forall r, In r (c_stabs (c_ops cd)) \/ In r (c_logicals (c_ops cd)) -> List.length (ops r) = n) by (intros; apply xc_width; auto).
  destruct (check_iff n (c_ops cd) W) as [[_ (_ & _ & _ & _ & RXZ)]|[E _]]; [|rewrite (xc_check _ XC) in E; discriminate].
  specialize (RXZ i i _ _ (nth_error_nth' _ row0 (B _ I)) (nth_error_nth' _ row0 (B _ J))). rewrite Nat.eqb_refl in RXZ.
  apply (commutator_anticommute n) in RXZ; try (apply W; right; apply nth_In; auto). congruence.
Qed.
Print Assumptions C48_incompatible_refused.
Definition planar2 (rounds : Z) : Res code := make_planar rounds 2.
Example C48_example :
  (do cd <- planar2 1; check_against_code (c_lattice cd) (mkErrors [(4%Z, [("x", 1 # 10)])] [] [(5%Z, [("p", 1 # 10)])] [((8%Z, 0%Z), [("xz", 1 # 10)])] [] [] [] [])) = Ok tt /\
  (do cd <- planar2 1; check_against_code (c_lattice cd) (mkErrors [(5%Z, [("x", 1 # 10)])] [] [] [] [] [] [] [])) = Err ValueError /\
  (do cd <- planar2 1; check_against_code (c_lattice cd) (mkErrors [(4%Z, [("w", 1 # 10)])] [] [] [] [] [] [] [])) = Err ValueError.
Proof. vm_compute. auto. Qed.

(** * C27 Layout of the measurements *)
Theorem C27_layout : forall cd e x is anc c, experiment_code cd -> (1 <= c_rounds cd)%Z ->
  generate_qec_circuit cd e x anc = Ok c -> logical_ops_to_indices (c_ops cd) x = Ok is ->
  exists L, logical_layout cd anc is L /\ measured c = map qa (L ++ stab_layout cd (Z.to_nat (c_rounds cd + 1)) ++ L).
Proof.
  intros cd e x is anc c XC HR G EI. unfold generate_qec_circuit in G. destruct (check_against_code _ _); [|discriminate]. cbn [bindR] in G.
  destruct (get_circuit_spec _ _ _ _ _ _ G) as (is' & EI' & ->). assert (is' = is) by congruence. subst is'. cbn [app].
  destruct (indices_ok _ _ _ EI) as [_ HI].
  assert (HI' : forall i, In i is -> i < List.length (l_logicals (c_lattice cd))).
  { intros i I. specialize (HI i I). destruct (xc_rows cd XC) as (_ & E & _). rewrite E, map_length in HI. auto. }
  exists (flat_map im (logicals_ins (c_lattice cd) e anc is)). split; [apply im_logicals; auto|]. rewrite measured_ins, im_memory by auto. auto.
Qed.
Print Assumptions C27_layout.
Example C27_example : (do cd <- planar2 2; do c <- generate_qec_circuit cd no_errors (LogLetters "X") true; Ok (measured c)) =
  Ok (map qa ([9] ++ [5; 6; 7; 8] ++ [5; 6; 7; 8] ++ [5; 6; 7; 8] ++ [9])) /\
  (do cd <- planar2 1; do c <- generate_qec_circuit cd no_errors (LogLetters "Z") false; Ok (measured c)) =
  Ok (map qa ([1; 4] ++ [5; 6; 7; 8] ++ [5; 6; 7; 8] ++ [1; 4])).
Proof. vm_compute. auto. Qed.
Definition refused {A} (r : Res A) : bool := match r with Err ValueError => true | _ => false end.
Lemma refused_error {A} (r : Res A) : refused r = true -> r = Err ValueError.
Proof. destruct r as [|[]]; cbn; intros; try discriminate; auto. Qed.
(** Without rounds the generators are measured twice instead of once, so that results of such an
    experiment cannot be unpacked. *)
Theorem C27_no_rounds_refuted : exists cd c, make_planar 0 2 = Ok cd /\ generate_qec_circuit cd no_errors (LogLetters "X") true = Ok c /\
  List.length (measured c) <> 2 * n_logical_qubits (c_ops cd) + Z.to_nat (c_rounds cd + 1) * n_stabgens (c_ops cd) /\
  memory_experiment g_half (sim_init c 0) cd no_errors (LogLetters "X") true = Err ValueError.
Proof.
  destruct (planar_experiment 2 0) as (cd & E & _); [lia|]. exists cd.
  assert (Q : (do cd <- make_planar 0 2; do c <- generate_qec_circuit cd no_errors (LogLetters "X") true;
    Ok (List.length (measured c) =? 2 * n_logical_qubits (c_ops cd) + Z.to_nat (c_rounds cd + 1) * n_stabgens (c_ops cd), 
        refused (memory_experiment g_half (sim_init c 0) cd no_errors (LogLetters "X") true))) = Ok (false, true)) by (vm_compute; reflexivity).
  rewrite E in Q. cbn [bindR] in Q. destruct (generate_qec_circuit cd no_errors (LogLetters "X") true) as [c|]; [|discriminate]. cbn [bindR] in Q. exists c. injection Q as Q1 Q2.
  conjs; auto.
  - apply Nat.eqb_neq. auto.
  - apply refused_error. exact Q2.
Qed.
Print Assumptions C27_no_rounds_refuted.

(** * C28 Unpacking *)
(** Every vector of results of the right length is split in this way. *)
Theorem C28_unpack : forall cd rounds erasure anc raw, c_rounds cd = Z.of_nat rounds -> 0 < n_logical_qubits (c_ops cd) -> 0 < block_width cd anc ->
  let k := n_logical_qubits (c_ops cd) in let w := block_width cd anc in let ns := n_stabgens (c_ops cd) in let nd := n_data_qubits (c_ops cd) in
  List.length raw = 2 * (k * w) + (rounds + 1) * ns -> match erasure with Some f => List.length f = rounds * nd | None => True end ->
  exists sm, from_code_and_raw_results cd raw erasure anc = Ok sm /\ unpacked k w ns rounds raw sm /\
    sm_erased sm = match erasure with Some f => Some (matrix f rounds nd) | None => None end.
Proof. exact unpack_ok. Qed.
Print Assumptions C28_unpack.
(** All others are refused. *)
Theorem C28_unpack_refused : forall cd rounds erasure anc raw, c_rounds cd = Z.of_nat rounds -> 0 < n_logical_qubits (c_ops cd) -> 0 < block_width cd anc -> 0 < n_stabgens (c_ops cd) ->
  let k := n_logical_qubits (c_ops cd) in let w := block_width cd anc in let ns := n_stabgens (c_ops cd) in let nd := n_data_qubits (c_ops cd) in
  List.length raw <> 2 * (k * w) + (rounds + 1) * ns \/ (exists f, erasure = Some f /\ List.length f <> rounds * nd) ->
  from_code_and_raw_results cd raw erasure anc = Err ValueError.
Proof. exact unpack_bad. Qed.
Print Assumptions C28_unpack_refused.
(** The widths are positive for the codes considered here. *)
Theorem C28_widths : forall cd, experiment_code cd -> 0 < n_logical_qubits (c_ops cd) /\ 0 < n_stabgens (c_ops cd) /\ forall anc, 0 < block_width cd anc.
Proof. exact xc_positive. Qed.
Print Assumptions C28_widths.
Definition T := true. Definition O := false.
Example C28_example : (do cd <- planar2 1; from_code_and_raw_results cd ([T; O] ++ [O; T; T; O] ++ [T; T; O; O] ++ [T; T]) (Some [O; T; O; O; O]) false) =
  Ok (mkSample [true] [false] [true] [[O; T; T; O]; [T; T; O; O]] [[T; O; T; O]] (Some [[O; T; O; O; O]])) /\
  (do cd <- planar2 1; from_code_and_raw_results cd ([T; O] ++ [O; T; T; O] ++ [T; T; O; O] ++ [T; T]) (Some [O; T; O; O]) false) = Err ValueError.
Proof. vm_compute. auto. Qed.
(** Logical operators read on the data qubits are assumed to have the weight of the first one; if
    they have another total weight, the results of the default mode are always refused. *)
Theorem C28_other_weights_refused : forall cd e x is g s0, experiment_code cd -> named_errors (n_data_qubits (c_ops cd)) (n_stabgens (c_ops cd)) e -> probabilities e ->
  (1 <= c_rounds cd)%Z -> logical_ops_to_indices (c_ops cd) x = Ok is -> compatible is -> (forall k, 0 <= d_unif (g k) /\ d_unif (g k) < 1)%Q ->
  list_sum (map (fun i => weight (nth i (c_logicals (c_ops cd)) row0)) is) <> List.length is * weight (nth 0 (c_logicals (c_ops cd)) row0) ->
  memory_experiment g s0 cd e x false = Err ValueError.
Proof.
  intros cd e x is g s0 XC NE PR HR EI CP Hg W. unfold memory_experiment. assert (G := exp_generate cd e x is false XC NE PR EI CP). rewrite G. cbn [bindR].
  destruct (exp_run cd e is false g s0 XC PR Hg) as [s RUN]. rewrite RUN. cbn [bindR]. destruct (xc_positive cd XC) as (K & N & BW).
  apply (unpack_bad cd (Z.to_nat (c_rounds cd))); auto; [lia|]. left. cbn [process_results fst]. intros L.
  destruct (memory_run cd e false x _ g s0 s XC G Hg RUN) as (is' & v & EI' & _ & IR & _). assert (is' = is) by congruence. subst is'. apply irun_len in IR as [A _].
  destruct (indices_ok _ _ _ EI) as [LI HI].
  assert (HI' : forall i, In i is -> i < List.length (l_logicals (c_lattice cd))).
  { intros i I. specialize (HI i I). destruct (xc_rows cd XC) as (_ & E & _). rewrite E, map_length in HI. auto. }
  destruct (im_logicals cd e false is XC HI') as [_ LD]. destruct (LD eq_refl) as (sup & ES & Hs). rewrite A, im_memory, !app_length in L by auto.
  assert (Q : List.length (flat_map im (logicals_ins (c_lattice cd) e false is)) = list_sum (map (fun i => weight (nth i (c_logicals (c_ops cd)) row0)) is)).
  { rewrite ES. clear - Hs. induction is as [|i is IH]; auto. cbn [flat_map map list_sum fold_right]. rewrite app_length, Hs by (left; auto). f_equal. apply IH. intros; apply Hs; right; auto. }
  rewrite Q in L. unfold stab_layout in L. rewrite concat_repeat_len, seq_length in L. unfold block_width, n_stabgens in L. rewrite <- LI in L. replace (Z.to_nat (c_rounds cd + 1)) with (Z.to_nat (c_rounds cd) + 1) in L by lia. lia.
Qed.
Print Assumptions C28_other_weights_refused.
(** This concerns the operator Z of the repetition code. *)
Theorem C28_repetition_Z_refuted : exists cd, make_repetition 1 3 = Ok cd /\ forall s0, memory_experiment g_half s0 cd no_errors (LogLetters "Z") false = Err ValueError.
Proof.
  destruct (repetition_experiment 3 1) as (cd & E & XC & R & EO); [lia|reflexivity|]. exists cd. split; auto. intros s0.
  assert (Q : (do cd <- make_repetition 1 3; Ok (map weight (c_logicals (c_ops cd)), logical_ops_to_indices (c_ops cd) (LogLetters "Z"))) = Ok ([3; 1], Ok [1])) by (vm_compute; reflexivity).
  rewrite E in Q. cbn [bindR] in Q. injection Q as Q1 Q2. apply (C28_other_weights_refused cd no_errors (LogLetters "Z") [1]); auto.
  - split; intros ? * [].
  - split; intros ? * [].
  - lia.
  - intros i j [<-|[]] [<-|[]]; auto.
  - apply g_half_unif.
  - rewrite <- (map_nth weight), Q1. cbn [map list_sum fold_right List.length]. rewrite <- (map_nth weight), Q1. discriminate.
Qed.
Print Assumptions C28_repetition_Z_refuted.

(** * C47 Samples show the errors *)
(** The sample of a memory experiment is what some history of errors with positive probability
    gives, for every stream of random numbers. *)
Theorem C47_memory_history : forall cd e x is anc g s0 sm, experiment_code cd -> no_gate_errors e -> (1 <= c_rounds cd)%Z ->
  logical_ops_to_indices (c_ops cd) x = Ok is -> anc = true \/ readable cd is ->
  (forall k, 0 <= d_unif (g k) /\ d_unif (g k) < 1)%Q -> memory_experiment g s0 cd e x anc = Ok sm ->
  exists E K F, possible_history e (n_data_qubits (c_ops cd)) (n_stabgens (c_ops cd)) (Z.to_nat (c_rounds cd)) E K F /\ shows cd is (Z.to_nat (c_rounds cd)) E K F sm.
Proof.
  intros cd e x is anc g s0 sm XC NG HR EI RD Hg H. unfold memory_experiment in H. destruct (generate_qec_circuit cd e x anc) as [c|] eqn:G; [|discriminate]. cbn [bindR] in H.
  destruct (sim_run g c true s0) as [s|] eqn:R; [|discriminate]. cbn [bindR] in H.
  destruct (memory_history cd e anc x c g s0 s (snd (process_results s)) sm) as (is' & E & K & F & EI' & PH & SH); auto.
  - intros j Ej. assert (j = is) by congruence. subst. auto.
  - cbn [process_results snd]. destruct (s_eras s); auto.
  - assert (is' = is) by congruence. subst. eauto.
Qed.
Print Assumptions C47_memory_history.
(** The experiment ends with a sample if erasure errors are given for all data qubits or none. *)
Theorem C47_memory_total : forall cd e x is anc g s0, experiment_code cd -> named_errors (n_data_qubits (c_ops cd)) (n_stabgens (c_ops cd)) e -> probabilities e ->
  er_erasure e = [] \/ erasure_everywhere (n_data_qubits (c_ops cd)) e -> (1 <= c_rounds cd)%Z -> logical_ops_to_indices (c_ops cd) x = Ok is -> compatible is ->
  anc = true \/ (forall i, In i is -> weight (nth i (c_logicals (c_ops cd)) row0) = weight (nth 0 (c_logicals (c_ops cd)) row0)) ->
  (forall k, 0 <= d_unif (g k) /\ d_unif (g k) < 1)%Q -> exists sm, memory_experiment g s0 cd e x anc = Ok sm.
Proof.
  intros cd e x is anc g s0 XC NE PR ER HR EI CP W Hg. destruct (exp_total cd e x is anc g s0 XC NE PR HR EI CP Hg ER W) as (s & sm & R & U). exists sm.
  unfold memory_experiment. rewrite (exp_generate cd e x is anc XC NE PR EI CP). cbn [bindR]. rewrite R. cbn [bindR]. exact U.
Qed.
Print Assumptions C47_memory_total.
(** An X error on qubit 1 of the planar code before every round is seen by generator 0, and the
    logical operator Z changes its value in every round. *)
Definition x_on (q : Z) : errors := mkErrors [(q, [("x", 1%Q)])] [] [] [] [] [] [] [].
Example C47_example : (do cd <- planar2 2; do sm <- memory_experiment g_half (sim_init [] 0) cd (x_on 1) (LogLetters "Z") false; Ok (sm_syndrome sm, sm_toggle sm)) =
  Ok ([[T; O; O; O]; [T; O; O; O]], [O]) /\
  (do cd <- planar2 1; do sm <- memory_experiment g_half (sim_init [] 0) cd (x_on 1) (LogLetters "Z") true; Ok (sm_syndrome sm, sm_toggle sm)) = Ok ([[T; O; O; O]], [T]).
Proof. vm_compute. auto. Qed.
(** Erasure errors of some of the data qubits give results which cannot be unpacked. *)
Theorem C47_partial_erasure_refuted : exists cd e, make_planar 1 2 = Ok cd /\ named_errors (n_data_qubits (c_ops cd)) (n_stabgens (c_ops cd)) e /\ probabilities e /\
  memory_experiment g_half (sim_init [] 0) cd e (LogLetters "X") true = Err ValueError.
Proof.
  destruct (planar_experiment 2 1) as (cd & E & XC & _); [lia|]. exists cd. set (e := mkErrors [] [(0%Z, [("p", 1 # 2)])] [] [] [] [] [] []). exists e. conjs; auto.
  - destruct (C48_error_data cd e XC) as [_ H]. assert (Q : (do cd <- make_planar 1 2; check_against_code (c_lattice cd) e) = Ok tt) by (vm_compute; reflexivity).
    rewrite E in Q. cbn [bindR] in Q. unfold n_stabgens. rewrite xc_nd, xc_ns by auto.
    destruct (decided_errors (c_lattice cd) e (xc_consistent _ XC) (xc_indexed _ XC)) as [[_ N]|[B _]]; auto. congruence.
  - split; cbn; intros; contradiction.
  - assert (Q : (do cd <- make_planar 1 2; memory_experiment g_half (sim_init [] 0) cd e (LogLetters "X") true) = Err ValueError) by (vm_compute; reflexivity).
    rewrite E in Q. exact Q.
Qed.
Print Assumptions C47_partial_erasure_refuted.

(** * C29 No errors *)
Lemma anti_none D f h : (forall q, In q D -> h q = (false, false)) -> anti D f h = false.
Proof.
  intros H. unfold anti. induction D as [|q D IH]; auto. cbn [map fold_right]. rewrite IH by (intros; apply H; right; auto). rewrite (H q (or_introl eq_refl)).
  unfold sp. cbn. rewrite !andb_false_r. auto.
Qed.
Lemma silent_history nd ns rounds E K F : possible_history no_errors nd ns rounds E K F ->
  (forall t q, t < rounds -> q < nd -> E t q = (false, false)) /\ (forall t s, t <= rounds -> s < ns -> F t s = false).
Proof.
  intros PH. split.
  - intros t q Ht Hq. destruct (ph_data _ _ _ _ _ _ _ PH t q Ht Hq) as (P & R & -> & HP & HK). unfold pauli_prob in HP. cbn in HP.
    assert (P = PI) by (destruct P; auto; apply Qlt_irrefl in HP; contradiction). subst. unfold erase_prob in HK. cbn in HK. destruct (K t q); [apply Qlt_irrefl in HK; contradiction|]. destruct HK as [_ ->]. auto.
  - intros t s Ht Hs. destruct (Nat.eq_dec t 0) as [->|]; [apply (ph_first _ _ _ _ _ _ _ PH); auto|]. destruct (Nat.eq_dec t rounds) as [->|]; [apply (ph_last _ _ _ _ _ _ _ PH); auto|].
    assert (L : 0 < t < rounds) by lia. pose proof (ph_flip _ _ _ _ _ _ _ PH t s L Hs) as Q. destruct (F t s); auto. unfold flip_prob in Q. cbn in Q. apply Qlt_irrefl in Q. contradiction.
Qed.
Lemma all_false l n : List.length l = n -> (forall k, k < n -> nth k l false = false) -> l = repeat false n.
Proof. intros L H. apply (nth_ext _ _ false false); [rewrite repeat_length; auto|]. intros k Hk. rewrite nth_repeat. apply H. lia. Qed.
(** A memory experiment without errors ends with a sample which has no syndrome and in which the
    logical operators have kept their values. *)
Theorem C29_noise_free : forall cd x is anc g s0, experiment_code cd -> (1 <= c_rounds cd)%Z ->
  logical_ops_to_indices (c_ops cd) x = Ok is -> compatible is -> anc = true \/ readable cd is -> (forall k, 0 <= d_unif (g k) /\ d_unif (g k) < 1)%Q ->
  exists sm, memory_experiment g s0 cd no_errors x anc = Ok sm /\
    sm_syndrome sm = repeat (repeat false (n_stabgens (c_ops cd))) (Z.to_nat (c_rounds cd)) /\ sm_toggle sm = repeat false (List.length is) /\ sm_erased sm = None.
Proof.
  intros cd x is anc g s0 XC HR EI CP RD Hg.
  assert (NE : named_errors (n_data_qubits (c_ops cd)) (n_stabgens (c_ops cd)) no_errors) by (split; intros ? * []).
  assert (PR : probabilities no_errors) by (split; intros ? * []).
  assert (NG : no_gate_errors no_errors) by (repeat split).
  destruct (C47_memory_total cd no_errors x is anc g s0) as (sm & H); auto.
  { destruct RD as [->|RD]; auto. right. intros i Ii. apply (RD i Ii). }
  exists sm. split; auto. destruct (C47_memory_history cd no_errors x is anc g s0 sm) as (E & K & F & PH & SH); auto.
  apply silent_history in PH as [PE PF]. conjs.
  - set (R := Z.to_nat (c_rounds cd)) in *. apply (nth_ext _ _ [] []); [rewrite repeat_length; apply (sh_rounds _ _ _ _ _ _ _ SH)|].
    rewrite (sh_rounds _ _ _ _ _ _ _ SH). intros t Ht. rewrite (nth_indep (repeat _ R) [] (repeat false (n_stabgens (c_ops cd)))) by (rewrite repeat_length; auto). rewrite nth_repeat.
    apply all_false.
    + apply (sh_width _ _ _ _ _ _ _ SH). apply nth_In. rewrite (sh_rounds _ _ _ _ _ _ _ SH). auto.
    + intros s Hs. rewrite (sh_syndrome _ _ _ _ _ _ _ SH) by auto. rewrite anti_none by (intros q Hq; apply in_seq in Hq; apply PE; lia). rewrite !PF by (auto; lia). auto.
  - apply all_false; [apply SH|]. intros k Hk. rewrite (sh_toggle _ _ _ _ _ _ _ SH) by auto.
    assert (Q : forall ts, (forall t, In t ts -> t < Z.to_nat (c_rounds cd)) -> fold_right xorb false (map (fun t => anti (seq 0 (n_data_qubits (c_ops cd))) (fac (nth (nth k is 0) (c_logicals (c_ops cd)) row0)) (E t)) ts) = false).
    { induction ts as [|t ts IH]; intros B; auto. cbn [map fold_right]. rewrite IH by (intros; apply B; right; auto). rewrite anti_none; auto. intros q Hq; apply in_seq in Hq; apply PE; [apply B; left; auto|lia]. }
    apply Q. intros t Ht. apply in_seq in Ht. lia.
  - unfold memory_experiment in H. rewrite (exp_generate cd no_errors x is anc XC NE PR EI CP) in H. cbn [bindR] in H. destruct (sim_run g _ true s0) as [s|] eqn:RUN; [|discriminate]. cbn [bindR] in H.
    destruct (memory_run cd no_errors anc x _ g s0 s XC (exp_generate cd no_errors x is anc XC NE PR EI CP) Hg RUN) as (is' & v & _ & _ & IR & _).
    apply irun_len in IR as [_ L]. rewrite ie_none in L by auto. destruct (s_eras s) eqn:ES; [|discriminate]. unfold process_results in H. rewrite ES in H. cbn [snd fst] in H. unfold from_code_and_raw_results in H.
    destruct (if anc then _ else _) as [[i f] m]. destruct (negb _); [discriminate|]. destruct (reshape _ _ _); [|discriminate]. cbn [bindR] in H. injection H as <-. auto.
Qed.
Print Assumptions C29_noise_free.
(** The results of the generators themselves are random. *)
Example C29_example : (do cd <- planar2 2; memory_experiment (fun k => mkDraw (Nat.even (k / 3)) (1 # 2) k) (sim_init [] 0) cd no_errors (LogLetters "X") true) =
  Ok (mkSample [T] [T] [O] [[O; T; T; O]; [O; T; T; O]; [O; T; T; O]] [[O; O; O; O]; [O; O; O; O]] None).
Proof. vm_compute. auto. Qed.
(** Without ancillas a logical operator X is read by rotating its qubits and not rotating them
    back, so that the first reading destroys the state: the operator seems to change without any
    errors. *)
Theorem C29_default_mode_refuted : exists cd g sm, make_repetition 1 3 = Ok cd /\ (forall k, 0 <= d_unif (g k) /\ d_unif (g k) < 1)%Q /\
  memory_experiment g (sim_init [] 0) cd no_errors (LogLetters "X") false = Ok sm /\ sm_toggle sm = [true].
Proof.
  destruct (repetition_experiment 3 1) as (cd & E & _); [lia|reflexivity|]. exists cd, (fun k => mkDraw (Nat.even k) (1 # 2) k).
  assert (Q : (do cd <- make_repetition 1 3; do sm <- memory_experiment (fun k => mkDraw (Nat.even k) (1 # 2) k) (sim_init [] 0) cd no_errors (LogLetters "X") false; Ok (sm_toggle sm)) = Ok [true]) by (vm_compute; reflexivity).
  rewrite E in Q. cbn [bindR] in Q. destruct (memory_experiment _ _ _ _ _ _) as [sm|]; [|discriminate]. cbn [bindR] in Q. exists sm. injection Q as Q. conjs; auto. intros k. cbn. split; [discriminate|reflexivity].
Qed.
Print Assumptions C29_default_mode_refuted.

(** * C40 Parallel and sequential measurement of the generators *)
(** The same instructions in another order, with the same order of the measurements, for all
    errors, gate errors included. *)
Theorem C40_parallel_sequential : forall cd e n with_errors c, experiment_code cd -> l_steps (c_lattice cd) = Some n ->
  named_errors (n_data_qubits (c_ops cd)) (n_stabgens (c_ops cd)) e -> probabilities e ->
  exists A B, measure_stabgens_pl (c_lattice cd) e n with_errors c = Ok (c ++ A) /\ measure_stabgens_seq (c_lattice cd) e with_errors c = Ok (c ++ B) /\
    Permutation A B /\ measured A = measured B.
Proof.
  intros cd e n we c XC EN NE PR. assert (OK : stabs_ok (c_lattice cd) e we) by (eapply stabs_fine; eauto; apply XC).
  destruct (xc_schedule _ XC) as [E|(CF & _ & T)]; [congruence|].
  eexists _, _. split; [apply (par_spec (c_lattice cd) e we n); exact OK|]. split; [apply (seq_spec (c_lattice cd) e we); exact OK|]. split.
  - apply Permutation_map, par_perm; auto. apply XC.
  - apply par_measured.
Qed.
Print Assumptions C40_parallel_sequential.
Example C40_example :
  (do cd <- planar2 1; do a <- measure_stabgens_pl (c_lattice cd) no_errors 4 true []; do b <- measure_stabgens_seq (c_lattice cd) no_errors true []; Ok (List.length a, firstn 3 (skipn 8 a), firstn 6 b)) =
  Ok (28, [("CZ", [qa 5; qa 1]); ("CX", [qa 6; qa 2]); ("CZ", [qa 8; qa 4])],
      [("R", [qa 5]); ("H", [qa 5]); ("CZ", [qa 5; qa 1]); ("CZ", [qa 5; qa 0]); ("CZ", [qa 5; qa 2]); ("H", [qa 5])]).
Proof. vm_compute. auto. Qed.
