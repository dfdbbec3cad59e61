(** Property theorem C60: the distances of the built-in codes, and the number of faults which are
    corrected. *)
Require Import List Bool Arith ZArith QArith Lia String Relations.
From Verif Require Import Base BaseProofs QSpec PauliModel PauliAlg MeasureProofs GraphSpec GraphProofs LatticeModel LatticeSpec LatticeOps
  CodesModel CodesSpec GeneratorModel GeneratorSpec MemorySem ErasureModel SyngraphModel SyngraphFinal UnionFindMetric
  SyngraphProofs SyngraphErrors GraphlikeCodes Props_Syngraph DecoderSpec DecoderModel DecoderProofs DecoderObjects DecoderHistory DecoderCheck Props_Decoder
  CircuitModel SimModel Props_Circuit Props_Generator FaultSpec Props_DecoderDistance CodeDistance CodeDistanceToric CodeDistanceRotated CodeDistanceSmall.
From Verif Require BuildProofs PlanarProofs ToricProofs RotatedProofs RepetitionProofs.
Import ListNotations.
Local Open Scope string_scope.
Local Open Scope nat_scope.
Local Open Scope list_scope.
Notation total := DecoderSpec.total.
Notation dpos := BuildProofs.dpos.
Notation brow := BuildProofs.brow.

(** * C60 Distances *)
Lemma built_qubits cd vs es : experiment_code cd -> c_stabs (c_ops cd) = map (brow vs es) (BuildProofs.stab_ids vs) ->
  n_data_qubits (c_ops cd) = List.length (dpos vs).
Proof.
  intros XC E. pose proof (experiment_generators cd XC) as (NE & _ & W). destruct (c_stabs (c_ops cd)) as [|g l] eqn:EC; [congruence|].
  rewrite <- (W g (or_introl eq_refl)). assert (I : In g (map (brow vs es) (BuildProofs.stab_ids vs))) by (rewrite <- E; left; auto).
  apply in_map_iff in I. destruct I as (o & <- & _). cbn. apply map_length.
Qed.

(** The planar, toric and rotated planar codes of size [d] have distance [d] with respect to each
    of their logical operators: an operator which commutes with all generators and anticommutes
    with the logical operator acts on [d] qubits or more, and there is one which acts on [d]. *)
Theorem C60_distance : forall rounds cd d, (2 <= d)%Z ->
  make_planar rounds d = Ok cd \/ make_toric rounds d = Ok cd \/ (exists xzzx, make_rotated_planar rounds d xzzx = Ok cd) ->
  forall i, i < n_logical_ops (c_ops cd) ->
  exact_distance (n_data_qubits (c_ops cd)) (c_stabs (c_ops cd)) (fac (nth i (c_logicals (c_ops cd)) row0)) (Z.to_nat d).
Proof.
  intros r cd d D H. assert (XC : experiment_code cd) by (apply (C49_builtin_codes r cd); left; eauto). unfold n_logical_ops.
  destruct H as [H|[H|(z & H)]].
  - destruct (PlanarProofs.planar_make d r D) as (l & _ & E). rewrite H in E. injection E as ->. intros i L. rewrite (built_qubits _ (PlanarProofs.pvs d) (PlanarProofs.pes d) XC eq_refl).
    cbn [c_ops PlanarProofs.planar_code c_logicals] in *. rewrite PlanarProofs.plog_ids in *. destruct i as [|[|i]]; [apply planar_x_distance; auto|apply planar_z_distance; auto|cbn in L; lia].
  - destruct (ToricProofs.toric_make d r D) as (l & _ & E). rewrite H in E. injection E as ->. intros i L. rewrite (built_qubits _ (ToricProofs.tvs d) (ToricProofs.tes d) XC eq_refl).
    cbn [c_ops ToricProofs.toric_code c_logicals] in *. rewrite ToricProofs.tlog_ids in *. destruct i as [|[|[|[|i]]]]; [apply toric_distance; auto; lia..|cbn in L; lia].
  - destruct (RotatedProofs.rotated_make d z r D) as (l & _ & E). rewrite H in E. injection E as ->. intros i L. rewrite (built_qubits _ (RotatedProofs.rvs d) (RotatedProofs.res d z) XC eq_refl).
    cbn [c_ops RotatedProofs.rotated_code c_logicals] in *. rewrite RotatedProofs.rlog_ids in *. destruct i as [|[|i]]; [apply rotated_x_distance; auto|apply rotated_z_distance; auto|cbn in L; lia].
Qed.
Print Assumptions C60_distance.

Lemma repetition_odd rounds d cd : make_repetition rounds d = Ok cd -> (d mod 2 = 1)%Z.
Proof.
  intros H. destruct (Z.eq_dec (d mod 2) 0) as [Q|Q]; [|pose proof (Z.mod_pos_bound d 2); lia]. unfold make_repetition, make_code, repetition_lattice in H. rewrite Q in H. discriminate.
Qed.
(** The repetition code protects its logical operator Z with distance [d], and not the logical
    operator X. *)
Theorem C60_repetition : forall rounds cd d, (2 <= d)%Z -> make_repetition rounds d = Ok cd ->
  n_logical_ops (c_ops cd) = 2 /\
  exact_distance (n_data_qubits (c_ops cd)) (c_stabs (c_ops cd)) (fac (nth 0 (c_logicals (c_ops cd)) row0)) 1 /\
  exact_distance (n_data_qubits (c_ops cd)) (c_stabs (c_ops cd)) (fac (nth 1 (c_logicals (c_ops cd)) row0)) (Z.to_nat d).
Proof.
  intros r cd d D H. assert (XC : experiment_code cd) by (apply (C49_builtin_codes r cd); right; left; eauto). unfold n_logical_ops.
  destruct (RepetitionProofs.repetition_make d r D (repetition_odd _ _ _ H)) as (l & _ & E). rewrite H in E. injection E as ->.
  rewrite (built_qubits _ (RepetitionProofs.cvs d) (RepetitionProofs.ces d) XC eq_refl). cbn [c_ops RepetitionProofs.repetition_code c_logicals] in *. rewrite RepetitionProofs.clog_ids.
  split; [reflexivity|]. split; [apply repetition_x_distance|apply repetition_distance]; auto.
Qed.
Print Assumptions C60_repetition.

Lemma ok_pair {A B} (a c : A) (b d : B) : Ok (a, b) = Ok (c, d) -> a = c /\ b = d.
Proof. intros E. injection E; auto. Qed.
(** The five-qubit code and the code of Shor have distance 3. *)
Theorem C60_small_codes : forall rounds cd, make_five_qubit rounds = Ok cd \/ make_shor rounds = Ok cd ->
  forall i, i < n_logical_ops (c_ops cd) ->
  exact_distance (n_data_qubits (c_ops cd)) (c_stabs (c_ops cd)) (fac (nth i (c_logicals (c_ops cd)) row0)) 3.
Proof.
  intros r cd [H|H].
  - assert (Q : (do cd <- make_five_qubit r; Ok (n_logical_ops (c_ops cd), forallb (fun i => exact3b (n_data_qubits (c_ops cd)) (c_stabs (c_ops cd)) (fac (nth i (c_logicals (c_ops cd)) row0))
      (fun q => nth q [(false, false); (false, false); (true, false); (true, true); (true, false)] (false, false))) (seq 0 2))) = Ok (2, true)) by (vm_compute; reflexivity).
    rewrite H in Q. apply ok_pair in Q. destruct Q as [N Q]. intros i L. rewrite forallb_forall in Q. eapply exact3_ok. apply Q, in_seq. lia.
  - assert (Q : (do cd <- make_shor r; Ok (n_logical_ops (c_ops cd), forallb (fun i => exact3b (n_data_qubits (c_ops cd)) (c_stabs (c_ops cd)) (fac (nth i (c_logicals (c_ops cd)) row0))
      (fun q => match i with 0 => (q <? 3, false) | _ => (false, q mod 3 =? 0) end)) (seq 0 2))) = Ok (2, true)) by (vm_compute; reflexivity).
    rewrite H in Q. apply ok_pair in Q. destruct Q as [N Q]. intros i L. rewrite forallb_forall in Q. eapply exact3_ok. apply (Q i), in_seq. lia.
Qed.
Print Assumptions C60_small_codes.

(** Which errors and wrong results can change the value of a logical operator: those of one kind
    if the operators have letters of one kind. *)
Theorem C60_one_letter : forall rounds cd,
  (exists d, (2 <= d)%Z /\ (make_planar rounds d = Ok cd \/ make_toric rounds d = Ok cd \/ make_rotated_planar rounds d false = Ok cd \/ make_repetition rounds d = Ok cd)) ->
  forall l, In l (c_logicals (c_ops cd)) ->
  letters_x l /\ detected_by (n_data_qubits (c_ops cd)) (c_stabs (c_ops cd)) is_z (x_side (c_stabs (c_ops cd))) (fac l) \/
  letters_z l /\ detected_by (n_data_qubits (c_ops cd)) (c_stabs (c_ops cd)) is_x (z_side (c_stabs (c_ops cd))) (fac l).
Proof.
  intros r cd H. assert (A : forall g, In g (c_stabs (c_ops cd) ++ c_logicals (c_ops cd)) -> letters_x g \/ letters_z g).
  { destruct H as (d & D & [H|[H|[H|H]]]).
    - destruct (PlanarProofs.planar_make d r D) as (l & _ & E). rewrite H in E. injection E as ->. intros g. apply planar_letters.
    - destruct (ToricProofs.toric_make d r D) as (l & _ & E). rewrite H in E. injection E as ->. intros g. apply toric_letters; auto.
    - destruct (RotatedProofs.rotated_make d false r D) as (l & _ & E). rewrite H in E. injection E as ->. intros g. apply rotated_letters.
    - destruct (RepetitionProofs.repetition_make d r D (repetition_odd _ _ _ H)) as (l & _ & E). rewrite H in E. injection E as ->. intros g. apply repetition_letters. }
  intros l I. destruct (A l ltac:(apply in_app_iff; auto)) as [L|L]; [left|right]; (split; auto).
  - apply detected_z; auto. intros g J. apply A, in_app_iff. auto.
  - apply detected_x; auto. intros g J. apply A, in_app_iff. auto.
Qed.
Print Assumptions C60_one_letter.

(** The size or distance which protects the chosen logical operators. *)
Definition protects (rounds : Z) (cd : code) (is : list nat) (dist : nat) : Prop :=
  (exists d, (2 <= d)%Z /\ dist = Z.to_nat d /\
    (make_planar rounds d = Ok cd \/ make_toric rounds d = Ok cd \/ exists xzzx, make_rotated_planar rounds d xzzx = Ok cd)) \/
  (exists d, (2 <= d)%Z /\ dist = Z.to_nat d /\ make_repetition rounds d = Ok cd /\ forall i, In i is -> i = 1) \/
  (dist = 3 /\ (make_five_qubit rounds = Ok cd \/ make_shor rounds = Ok cd)).

(** Memory experiments with decoders without weights, for every run and every random choice of
    the simulator: a history of errors, erasures and wrong results which is possible and shows
    the sample exists, and if the price of its faults is less than the distance, the
    experiment is decoded with success. *)
Theorem C60_experiment : forall cls rounds cd dist e x is anc g s0 sm, protects rounds cd is dist ->
  no_gate_errors e -> (1 <= rounds)%Z -> logical_ops_to_indices (c_ops cd) x = Ok is -> is <> [] ->
  (forall i, In i is -> i < n_logical_ops (c_ops cd)) -> anc = true \/ readable cd is ->
  (forall k, 0 <= d_unif (g k) /\ d_unif (g k) < 1)%Q -> memory_experiment g s0 cd e x anc = Ok sm ->
  let n := n_data_qubits (c_ops cd) in let gens := c_stabs (c_ops cd) in
  exists sg d bound E K F, new_sgraph (Z.to_nat rounds) gens None = Ok sg /\ new_interface cls sg = Ok d /\
    possible_history e n (n_stabgens (c_ops cd)) (Z.to_nat rounds) E K F /\ shows cd is (Z.to_nat rounds) E K F sm /\
    forall fuel, bound <= fuel ->
      (forall i, In i is -> exists allow side, detected_by n gens allow side (fac (nth i (c_logicals (c_ops cd)) row0)) /\
        total_price 3 1 (Z.to_nat rounds) n gens allow side (sm_erased sm) E F < dist) ->
      exists d' fr, interface_decode fuel (sm_erased sm) (sm_syndrome sm) d = Ok (d', fr) /\
        check_success (c_ops cd) fr (sm_toggle sm) (Some x) = Ok true.
Proof.
  intros cls rounds cd dist e x is anc g s0 sm PR NG HR EI NE LI RD Hg RUN n gens.
  assert (H : (exists d, (2 <= d)%Z /\ (make_planar rounds d = Ok cd \/ make_toric rounds d = Ok cd \/ exists xzzx, make_rotated_planar rounds d xzzx = Ok cd)) \/
    (exists d, (2 <= d)%Z /\ make_repetition rounds d = Ok cd) \/ make_five_qubit rounds = Ok cd \/ make_shor rounds = Ok cd).
  { destruct PR as [(d & D & _ & H)|[(d & D & _ & H & _)|(_ & H)]]; [left; eauto|right; left; eauto|right; right; auto]. }
  assert (DI : forall i, In i is -> logical_distance n gens (fac (nth i (c_logicals (c_ops cd)) row0)) dist).
  { intros i I. destruct PR as [(d & D & -> & MK)|[(d & D & -> & MK & ONE)|(-> & MK)]].
    - apply (C60_distance rounds cd d D MK i (LI i I)).
    - rewrite (ONE i I). apply (C60_repetition rounds cd d D MK).
    - apply (C60_small_codes rounds cd MK i (LI i I)). }
  pose proof (C49_builtin_codes rounds cd H) as [XC ER].
  pose proof (experiment_generators cd XC) as G. pose proof (C54_graph_like rounds cd H) as GL.
  destruct (C30_total (Z.to_nat rounds) _ _ None G I ltac:(lia) I) as [TG _]. destruct (TG GL) as (sg & ES).
  destruct (C52_unweighted cls (Z.to_nat rounds) _ _ sg G ltac:(lia) ES) as (d & ED).
  assert (UI : uf_interface cls (Z.to_nat rounds) (c_stabs (c_ops cd)) None d) by (eapply ui_new; eauto).
  rewrite <- ER in *.
  destruct (C47_memory_history _ _ _ _ _ _ _ _ XC NG HR EI RD Hg RUN) as (E & K & F & PH & SH).
  destruct (C59_memory cls cd x is d XC HR EI NE UI) as (b & HB).
  exists sg, d, b, E, K, F. split; [auto|]. split; [auto|]. split; [auto|]. split; [auto|]. intros fuel LF FEW.
  apply (HB fuel sm E K F LF SH).
  - intros s L. destruct PH as [_ P0 P1 _]. split; [apply P0|apply P1]; auto.
  - intros i I. destruct (FEW i I) as (allow & side & DB & TP). exists dist, allow, side. auto.
Qed.
Print Assumptions C60_experiment.

(** Without erasures, and with errors counted as in C59: fewer faults than a third of the size. *)
Theorem C60_third : forall cls rounds cd dist x is, protects rounds cd is dist -> (1 <= rounds)%Z ->
  logical_ops_to_indices (c_ops cd) x = Ok is -> is <> [] -> (forall i, In i is -> i < n_logical_ops (c_ops cd)) ->
  let n := n_data_qubits (c_ops cd) in let gens := c_stabs (c_ops cd) in
  exists sg d bound, new_sgraph (Z.to_nat rounds) gens None = Ok sg /\ new_interface cls sg = Ok d /\
    forall fuel sm E K F, bound <= fuel -> shows cd is (Z.to_nat rounds) E K F sm -> sm_erased sm = None ->
      (forall s, s < List.length gens -> F 0 s = false /\ F (Z.to_nat rounds) s = false) ->
      3 * fault_count (Z.to_nat rounds) n gens (fun _ => true) (fun _ => true) E F < dist ->
      exists d' fr, interface_decode fuel None (sm_syndrome sm) d = Ok (d', fr) /\
        check_success (c_ops cd) fr (sm_toggle sm) (Some x) = Ok true.
Proof.
  intros cls rounds cd dist x is PR HR EI NE LI n gens.
  assert (H : (exists d, (2 <= d)%Z /\ (make_planar rounds d = Ok cd \/ make_toric rounds d = Ok cd \/ exists xzzx, make_rotated_planar rounds d xzzx = Ok cd)) \/
    (exists d, (2 <= d)%Z /\ make_repetition rounds d = Ok cd) \/ make_five_qubit rounds = Ok cd \/ make_shor rounds = Ok cd).
  { destruct PR as [(d & D & _ & H)|[(d & D & _ & H & _)|(_ & H)]]; [left; eauto|right; left; eauto|right; right; auto]. }
  assert (DI : forall i, In i is -> logical_distance n gens (fac (nth i (c_logicals (c_ops cd)) row0)) dist).
  { intros i I. destruct PR as [(d & D & -> & MK)|[(d & D & -> & MK & ONE)|(-> & MK)]].
    - apply (C60_distance rounds cd d D MK i (LI i I)).
    - rewrite (ONE i I). apply (C60_repetition rounds cd d D MK).
    - apply (C60_small_codes rounds cd MK i (LI i I)). }
  pose proof (C49_builtin_codes rounds cd H) as [XC ER].
  pose proof (experiment_generators cd XC) as G. pose proof (C54_graph_like rounds cd H) as GL.
  destruct (C30_total (Z.to_nat rounds) _ _ None G I ltac:(lia) I) as [TG _]. destruct (TG GL) as (sg & ES).
  destruct (C52_unweighted cls (Z.to_nat rounds) _ _ sg G ltac:(lia) ES) as (d & ED).
  assert (UI : uf_interface cls (Z.to_nat rounds) (c_stabs (c_ops cd)) None d) by (eapply ui_new; eauto).
  rewrite <- ER in *. destruct (C59_memory cls cd x is d XC HR EI NE UI) as (b & HB).
  exists sg, d, b. split; [auto|]. split; [auto|]. intros fuel sm E K F LF SH EM FF FEW.
  rewrite <- EM. apply (HB fuel sm E K F LF SH FF). intros i I. exists dist, (fun _ => true), (fun _ => true). split; [auto|]. split; [apply detected_all|].
  rewrite EM, fault_price. auto.
Qed.
Print Assumptions C60_third.

(** * Half of the distance *)
(** Seven errors of the repetition code with fifteen qubits are not corrected. *)
Definition half_errors : errors := certain_x [1; 3; 4; 7; 10; 11; 13]%Z [].
Definition half_history (t q : nat) : bool * bool := (existsb (Nat.eqb q) [1; 3; 4; 7; 10; 11; 13], false).
Lemma half_possible : possible_history half_errors 15 14 1 half_history (fun _ _ => false) (fun _ _ => false).
Proof.
  split; [|auto|auto|intros; lia]. intros t q Lt Lq. exists (if existsb (Nat.eqb q) [1; 3; 4; 7; 10; 11; 13] then PX else PI), PI.
  do 15 (destruct q as [|q]; [split; [vm_compute; reflexivity|split; [vm_compute; reflexivity|split; [vm_compute; reflexivity|reflexivity]]]|]). lia.
Qed.
Definition bits_eqb (a b : list bool) : bool := if list_eq_dec bool_dec a b then true else false.
Definition table_eqb (a b : list (list bool)) : bool := if list_eq_dec (list_eq_dec bool_dec) a b then true else false.
Definition showsb (c : stabcode) (is : list nat) (rounds : nat) (E : nat -> nat -> bool * bool) (K F : nat -> nat -> bool) (sm : sample) : bool :=
  let n := n_data_qubits c in
  table_eqb (sm_syndrome sm) (map (fun t => map (fun s => xorb (anti (seq 0 n) (fac (nth s (c_stabs c) row0)) (E t)) (xorb (F t s) (F (S t) s))) (seq 0 (List.length (c_stabs c)))) (seq 0 rounds)) &&
  bits_eqb (sm_toggle sm) (map (fun i => fold_right xorb false (map (fun t => anti (seq 0 n) (fac (nth i (c_logicals c) row0)) (E t)) (seq 0 rounds))) is) &&
  match sm_erased sm with None => true | Some m => table_eqb m (map (fun t => map (K t) (seq 0 n)) (seq 0 rounds)) end.
Lemma bits_eqb_ok a b : bits_eqb a b = true -> a = b.
Proof. unfold bits_eqb. destruct (list_eq_dec _ _ _); [auto|discriminate]. Qed.
Lemma table_eqb_ok a b : table_eqb a b = true -> a = b.
Proof. unfold table_eqb. destruct (list_eq_dec _ _ _); [auto|discriminate]. Qed.
Lemma showsb_ok cd is rounds E K F sm : showsb (c_ops cd) is rounds E K F sm = true -> shows cd is rounds E K F sm.
Proof.
  unfold showsb. cbv zeta. rewrite !andb_true_iff. intros ((A & B) & C). apply table_eqb_ok in A. apply bits_eqb_ok in B. split.
  - rewrite A, map_length, seq_length. auto.
  - intros y I. rewrite A in I. apply in_map_iff in I. destruct I as (t & <- & _). rewrite map_length, seq_length. auto.
  - intros t s Lt Ls. rewrite A, nth_map_seq by auto. rewrite nth_map_seq by auto. auto.
  - rewrite B, map_length. auto.
  - intros k L. rewrite B. rewrite (nth_indep _ false ((fun i => fold_right xorb false (map (fun t => anti (seq 0 (n_data_qubits (c_ops cd))) (fac (nth i (c_logicals (c_ops cd)) row0)) (E t)) (seq 0 rounds))) 0)) by (rewrite map_length; auto).
    rewrite (map_nth (fun i => fold_right xorb false (map (fun t => anti (seq 0 (n_data_qubits (c_ops cd))) (fac (nth i (c_logicals (c_ops cd)) row0)) (E t)) (seq 0 rounds)))). auto.
  - intros m EM. rewrite EM in C. apply table_eqb_ok in C. auto.
Qed.
Lemma bound_ok {A B} (m : Res A) (f : A -> Res B) r : bindR m f = Ok r -> exists x, m = Ok x /\ f x = Ok r.
Proof. destruct m; [eauto|discriminate]. Qed.
Lemma half_runs : (
  do cd <- make_repetition 1 15;
  do sm <- memory_experiment g_half (sim_init [] 0) cd half_errors (LogLetters "Z") true;
  do sg <- new_sgraph 1 (c_stabs (c_ops cd)) None;
  do d <- new_interface NoWeights sg;
  do r <- interface_decode 100 (sm_erased sm) (sm_syndrome sm) d;
  do b <- check_success (c_ops cd) (snd r) (sm_toggle sm) (Some (LogLetters "Z"));
  Ok (showsb (c_ops cd) [1] 1 half_history (fun _ _ => false) (fun _ _ => false) sm,
      fault_count 1 15 (c_stabs (c_ops cd)) (fun _ => true) (fun _ => true) half_history (fun _ _ => false), b)) = Ok (true, 7, false).
Proof. vm_compute. reflexivity. Qed.
Theorem C60_half_refuted : exists cd sm sg d d' fr,
  make_repetition 1 15 = Ok cd /\ memory_experiment g_half (sim_init [] 0) cd half_errors (LogLetters "Z") true = Ok sm /\
  new_sgraph 1 (c_stabs (c_ops cd)) None = Ok sg /\ new_interface NoWeights sg = Ok d /\
  possible_history half_errors 15 14 1 half_history (fun _ _ => false) (fun _ _ => false) /\
  shows cd [1] 1 half_history (fun _ _ => false) (fun _ _ => false) sm /\
  2 * fault_count 1 15 (c_stabs (c_ops cd)) (fun _ => true) (fun _ => true) half_history (fun _ _ => false) < 15 /\
  interface_decode 100 (sm_erased sm) (sm_syndrome sm) d = Ok (d', fr) /\
  check_success (c_ops cd) fr (sm_toggle sm) (Some (LogLetters "Z")) = Ok false.
Proof.
  pose proof half_runs as R.
  apply bound_ok in R. destruct R as (cd & EC & R). apply bound_ok in R. destruct R as (sm & EM & R). apply bound_ok in R. destruct R as (sg & ES & R).
  apply bound_ok in R. destruct R as (d & ED & R). apply bound_ok in R. destruct R as ([d' fr] & EI & R). apply bound_ok in R. destruct R as (b & EK & R). cbn [snd] in EK.
  apply ok_pair in R. destruct R as [R ->]. apply (f_equal (@Ok _)) in R. apply ok_pair in R. destruct R as [SH CT].
  exists cd, sm, sg, d, d', fr. repeat (split; [auto; fail|]). split.
  { apply half_possible. }
  split; [apply showsb_ok; auto|]. split; [rewrite CT; lia|]. auto.
Qed.
Print Assumptions C60_half_refuted.

(** The codes of size 3 and 7, and a memory experiment with the rotated code of size 4 and an
    error in the middle: one fault is less than a third of four. *)
Definition rotated_decoded (xzzx : bool) (letters : string) (e : errors) : Res (nat * nat * list nat * list nat * bool) :=
  do cd <- make_rotated_planar 1 4 xzzx;
  do sm <- memory_experiment g_half (sim_init [] 0) cd e (LogLetters letters) true;
  do sg <- new_sgraph 1 (c_stabs (c_ops cd)) None;
  do d <- new_interface NoWeights sg;
  do r <- interface_decode 60 (sm_erased sm) (sm_syndrome sm) d;
  do b <- check_success (c_ops cd) (snd r) (sm_toggle sm) (Some (LogLetters letters));
  Ok (n_data_qubits (c_ops cd), n_logical_ops (c_ops cd), nonzero (map fst (ops (snd r))), nonzero (map snd (ops (snd r))), b).
Example C60_example :
  rotated_decoded true "Z" (certain_x [5%Z] []) = Ok (16, 2, [5], [], true) /\
  rotated_decoded true "X" (mkErrors [(10%Z, [("z", 1%Q)])] [] [] [] [] [] [] []) = Ok (16, 2, [], [10], true) /\
  (do cd <- make_toric 1 3; Ok (map (fun l => operator_weight 18 (fac l)) (c_logicals (c_ops cd)))) = Ok [3; 3; 3; 3] /\
  (do cd <- make_repetition 1 7; Ok (map (fun l => operator_weight 7 (fac l)) (c_logicals (c_ops cd)))) = Ok [7; 1].
Proof. do 3 (split; [vm_compute; reflexivity|]). vm_compute. reflexivity. Qed.
