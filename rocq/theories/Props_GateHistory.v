(** Property theorems C75: samples of memory experiments with errors of gates. *)
Require Import List Bool Arith ZArith QArith Lia String Relations.
From Verif Require Import Base BaseProofs QSpec PauliModel PauliSem PauliAlg PauliProofs MeasureProofs GraphSpec GraphProofs CircuitModel SimModel LatticeModel LatticeSpec LatticeOps
  CodesModel CodesSpec CodesProofs GeneratorModel GeneratorSpec MemorySem
  ErasureModel ErasureProofs SyngraphModel SyngraphProofs SyngraphErrors SyngraphFinal Props_UnionFind Props_Syngraph Props_Circuit Props_Generator
  DecoderSpec DecoderModel DecoderProofs DecoderObjects DecoderHistory DecoderCheck GraphlikeCodes GateHistory Props_Decoder.
Import ListNotations.
Local Open Scope string_scope.
Local Open Scope nat_scope.
Local Open Scope list_scope.

Lemma anti_pid_l D f : anti D (fun _ => (false, false)) f = false.
Proof. rewrite anti_sym. apply (MemoryProofs.anti_pid D f). Qed.

(** * C75 Memory experiments with gate errors *)
(** Whatever errors are configured, also errors of gates, preparations and measurements which
    spread over several qubits: the sample is what some errors on data qubits and some wrong
    results of generators give.  The first and the last round have no wrong results. *)
Theorem C75_memory_history : forall cd e x is anc g s0 sm, experiment_code cd -> (1 <= c_rounds cd)%Z ->
  logical_ops_to_indices (c_ops cd) x = Ok is -> anc = true \/ readable cd is ->
  (forall k, 0 <= d_unif (g k) /\ d_unif (g k) < 1)%Q -> memory_experiment g s0 cd e x anc = Ok sm ->
  exists E K F, (forall s, s < n_stabgens (c_ops cd) -> F 0 s = false /\ F (Z.to_nat (c_rounds cd)) s = false) /\
    shows cd is (Z.to_nat (c_rounds cd)) E K F sm.
Proof.
  intros cd e x is anc g s0 sm XC HR EI RD Hg H. unfold memory_experiment in H. destruct (generate_qec_circuit cd e x anc) as [c|] eqn:G; [|discriminate]. cbn [bindR] in H.
  destruct (sim_run g c true s0) as [s|] eqn:R; [|discriminate]. cbn [bindR] in H.
  destruct (gate_history cd e anc x c g s0 s (snd (process_results s)) sm) as (is' & E & K & F & EI' & F0 & FR & SH); auto.
  - intros j Ej. assert (j = is) by congruence. subst. auto.
  - assert (is' = is) by congruence. subst. exists E, K, F. auto.
Qed.
Print Assumptions C75_memory_history.

(** There is one Pauli operator on the data qubits which tells for every generator whether its
    syndromes of all rounds add up to one, and for every logical operator whether its value has
    changed. *)
Theorem C75_one_operator : forall cd e x is anc g s0 sm, experiment_code cd -> (1 <= c_rounds cd)%Z ->
  logical_ops_to_indices (c_ops cd) x = Ok is -> anc = true \/ readable cd is ->
  (forall k, 0 <= d_unif (g k) /\ d_unif (g k) < 1)%Q -> memory_experiment g s0 cd e x anc = Ok sm ->
  let D := seq 0 (n_data_qubits (c_ops cd)) in
  exists f : nat -> bool * bool,
    (forall s, s < n_stabgens (c_ops cd) ->
      fold_right xorb false (map (fun row => nth s row false) (sm_syndrome sm)) = anti D (fac (nth s (c_stabs (c_ops cd)) row0)) f) /\
    (forall k, k < List.length is -> nth k (sm_toggle sm) false = anti D (fac (nth (nth k is 0) (c_logicals (c_ops cd)) row0)) f).
Proof.
  intros cd e x is anc g s0 sm XC HR EI RD Hg H D. destruct (C75_memory_history _ _ _ _ _ _ _ _ XC HR EI RD Hg H) as (E & K & F & FF & SH).
  set (R := Z.to_nat (c_rounds cd)) in *. exists (total R E). split.
  - intros s Hs. destruct (FF s Hs) as [F0 FR]. unfold D. rewrite anti_total.
    transitivity (parity (map (fun t => nth s (nth t (sm_syndrome sm) []) false) (seq 0 R))).
    + unfold parity. f_equal. rewrite <- (sh_rounds _ _ _ _ _ _ _ SH). symmetry. apply (UnpackProofs.map_nth_seq (fun row => nth s row false) []).
    + rewrite (parity_ext (fun t => nth s (nth t (sm_syndrome sm) []) false) (fun t => xorb (anti (seq 0 (n_data_qubits (c_ops cd))) (fac (nth s (c_stabs (c_ops cd)) row0)) (E t)) (xorb (F t s) (F (S t) s)))).
      * rewrite parity_xor, (parity_telescope (fun t => F t s)), F0, FR. rewrite !xorb_false_r. auto.
      * intros t I. apply in_seq in I. apply (sh_syndrome _ _ _ _ _ _ _ SH); [lia|exact Hs].
  - intros k Hk. unfold D. rewrite anti_total. apply (sh_toggle _ _ _ _ _ _ _ SH k Hk).
Qed.
Print Assumptions C75_one_operator.

(** If the product of some generators is the identity, the number of ones in their syndromes of
    all rounds is even. *)
Theorem C75_redundant_generators : forall cd e x is anc g s0 sm S, experiment_code cd -> (1 <= c_rounds cd)%Z ->
  logical_ops_to_indices (c_ops cd) x = Ok is -> anc = true \/ readable cd is ->
  (forall k, 0 <= d_unif (g k) /\ d_unif (g k) < 1)%Q -> memory_experiment g s0 cd e x anc = Ok sm ->
  (forall s, In s S -> s < n_stabgens (c_ops cd)) ->
  (forall q, q < n_data_qubits (c_ops cd) -> fold_right pxor (false, false) (map (fun s => fac (nth s (c_stabs (c_ops cd)) row0) q) S) = (false, false)) ->
  fold_right xorb false (map (fun s => fold_right xorb false (map (fun row => nth s row false) (sm_syndrome sm))) S) = false.
Proof.
  intros cd e x is anc g s0 sm S XC HR EI RD Hg H HS HP. destruct (C75_one_operator _ _ _ _ _ _ _ _ XC HR EI RD Hg H) as (f & Hf & _).
  rewrite (map_ext_in _ (fun s => anti (seq 0 (n_data_qubits (c_ops cd))) (fac (nth s (c_stabs (c_ops cd)) row0)) f)) by (intros s I; apply Hf; auto).
  transitivity (anti (seq 0 (n_data_qubits (c_ops cd))) (fun q => fold_right pxor (false, false) (map (fun s => fac (nth s (c_stabs (c_ops cd)) row0) q) S)) f).
  - clear. induction S as [|s S IH]; cbn [map fold_right]; [symmetry; apply anti_pid_l|]. rewrite IH. rewrite <- anti_xor_l. reflexivity.
  - rewrite (anti_ext _ _ _ (fun _ => (false, false)) f); auto.
    + apply anti_pid_l.
    + intros q I. apply in_seq in I. apply HP. lia.
Qed.
Print Assumptions C75_redundant_generators.

(** The decoder finds a correction for every sample if no error has infinite weight.  One operator
    on the data qubits is the cause of the syndromes: together with the correction it commutes
    with all generators, and the success check tells whether it commutes with the logical
    operators. *)
Theorem C75_memory_decoded : forall cls cd e x is anc g s0 sm w d, experiment_code cd -> (1 <= c_rounds cd)%Z ->
  logical_ops_to_indices (c_ops cd) x = Ok is -> is <> [] -> anc = true \/ readable cd is ->
  (forall k, 0 <= d_unif (g k) /\ d_unif (g k) < 1)%Q -> memory_experiment g s0 cd e x anc = Ok sm ->
  let n := n_data_qubits (c_ops cd) in let gens := c_stabs (c_ops cd) in let rounds := Z.to_nat (c_rounds cd) in
  weights_fit n (List.length gens) w -> none_certain w n (List.length gens) ->
  (forall q, q < n -> finite_error w w_x q /\ finite_error w w_z q) -> (forall s, s < List.length gens -> finite_error w w_meas s) ->
  uf_interface cls rounds gens w d ->
  exists bound, forall fuel, bound <= fuel -> exists d' fr b,
    interface_decode fuel (sm_erased sm) (sm_syndrome sm) d = Ok (d', fr) /\ uf_interface cls rounds gens w d' /\
    check_success (c_ops cd) fr (sm_toggle sm) (Some x) = Ok b /\
    exists E K F, (forall s, s < List.length gens -> F 0 s = false /\ F rounds s = false) /\ shows cd is rounds E K F sm /\
      let residual := fun q => pxor (fac fr q) (total rounds E q) in
      (forall s, s < List.length gens -> anti (seq 0 n) (fac (nth s gens row0)) residual = false) /\
      (b = true <-> forall i, In i is -> anti (seq 0 n) (fac (nth i (c_logicals (c_ops cd)) row0)) residual = false).
Proof.
  intros cls cd e x is anc g s0 sm w d XC HR EI NE RD Hg RUN n gens rounds Hw NC WD WM UI.
  destruct (C75_memory_history _ _ _ _ _ _ _ _ XC HR EI RD Hg RUN) as (E & K & F & FF & SH).
  pose proof (experiment_generators cd XC) as G. fold n gens in G. unfold n_stabgens in FF. fold n gens rounds in FF, SH.
  assert (Hr : 0 < rounds) by (unfold rounds; lia).
  assert (EX : explained w rounds n gens (sm_syndrome sm) E F).
  { destruct SH as [_ _ SS _ _ _]. split.
    - intros s Ls. apply FF; auto.
    - intros s Ls. apply FF; auto.
    - intros t q Lt Lq. destruct (WD q Lq). auto.
    - auto.
    - auto. }
  destruct (decode_history _ _ _ _ _ _ G Hw Hr NC UI) as (b & HB). exists b. intros fuel Lf.
  specialize (HB (sm_erased sm) (sm_syndrome sm) fuel Lf).
  assert (SE : shaped rounds n (sm_erased sm) = true).
  { destruct (sm_erased sm) as [m|] eqn:Em; [|reflexivity]. cbn [shaped]. rewrite (sh_erased _ _ _ _ _ _ _ SH m Em).
    unfold has_shape. rewrite map_length, seq_length, Nat.eqb_refl. cbn [andb]. apply forallb_forall. intros y I.
    apply in_map_iff in I. destruct I as (t & <- & _). rewrite map_length, seq_length. apply Nat.eqb_refl. }
  assert (SS : has_shape (sm_syndrome sm) rounds (List.length gens) = true).
  { unfold has_shape. rewrite (sh_rounds _ _ _ _ _ _ _ SH), Nat.eqb_refl. cbn [andb]. apply forallb_forall. intros y I.
    rewrite (sh_width _ _ _ _ _ _ _ SH y I). apply Nat.eqb_refl. }
  rewrite SE, SS in HB. cbn [andb] in HB.
  destruct HB as [(_ & d' & fr & R & UI' & LF & E' & F' & EX' & FT)|(NX & _)]; [|exfalso; apply NX; eauto].
  assert (W : forall l, In l (c_logicals (c_ops cd)) -> List.length (ops l) = n) by (intros l I; unfold n; rewrite xc_nd by auto; apply xc_width; auto).
  pose proof (check_success_ok n (c_ops cd) fr (sm_toggle sm) (Some x) is W eq_refl EI NE) as CS.
  rewrite (sh_logicals _ _ _ _ _ _ _ SH), LF, !Nat.eqb_refl in CS. cbn [andb] in CS. destruct CS as (ok & CS & OK).
  exists d', fr, ok. split; [auto|]. split; [auto|]. split; [auto|]. exists E, K, F. split; [auto|]. split; [auto|]. cbv zeta.
  assert (AR : forall f, anti (seq 0 n) f (fun q => pxor (fac fr q) (total rounds E q)) =
    xorb (anti (seq 0 n) f (fac fr)) (parity (map (fun t => anti (seq 0 n) f (E t)) (seq 0 rounds)))).
  { intros f. rewrite anti_xor_r, anti_total. auto. }
  split.
  - intros s Ls. rewrite AR.
    assert (Q : forall H F, explained w rounds n gens (sm_syndrome sm) H F ->
      parity (map (fun t => anti (seq 0 n) (fac (nth s gens row0)) (H t)) (seq 0 rounds)) = parity (map (fun t => nth s (nth t (sm_syndrome sm) []) false) (seq 0 rounds))).
    { intros H0 F0 Y. rewrite (parity_ext (fun t => nth s (nth t (sm_syndrome sm) []) false) (fun t => xorb (anti (seq 0 n) (fac (nth s gens row0)) (H0 t)) (xorb (F0 t s) (F0 (S t) s)))).
      - rewrite parity_xor, (parity_telescope (fun t => F0 t s)), (ex_first _ _ _ _ _ _ _ Y), (ex_last _ _ _ _ _ _ _ Y) by auto. rewrite !xorb_false_r. auto.
      - intros t I. apply in_seq in I. apply (ex_syndrome _ _ _ _ _ _ _ Y); auto; lia. }
    rewrite (anti_ext _ _ _ (fac (nth s gens row0)) (total rounds E')); auto.
    + rewrite anti_total, (Q _ _ EX), (Q _ _ EX'). apply xorb_nilpotent.
    + intros q I. apply in_seq in I. apply FT. lia.
  - rewrite OK. split.
    + intros H i I. destruct (In_nth _ _ 0 I) as (k & Lk & <-). rewrite AR, <- (H k Lk), (sh_toggle _ _ _ _ _ _ _ SH k Lk). apply xorb_nilpotent.
    + intros H k Lk. specialize (H (nth k is 0) (nth_In _ _ Lk)). rewrite AR in H. apply xorb_eq in H. rewrite H. apply (sh_toggle _ _ _ _ _ _ _ SH k Lk).
Qed.

Print Assumptions C75_memory_decoded.

(** Two rounds of the planar code of size 3.  An error after the gates between ancilla 14 and qubit 1
    in the first round: X on the qubit is seen by generators 0 and 1 in the second round, Z on
    the ancilla looks like a wrong result, and Z on the qubit is seen by generator 3.  All are
    corrected. *)
Definition certain_cx (a q : Z) (pair : string) : errors := mkErrors [] [] [] [((a, q), [(pair, 1%Q)])] [((a, q), [(pair, 1%Q)])] [] [] [].
Definition sampled (cd : Res CodesModel.code) (e : errors) : Res (list (list nat) * list bool) :=
  do cd <- cd;
  do sm <- memory_experiment g_half (sim_init [] 0) cd e (LogLetters "Z") true;
  Ok (map nonzero (sm_syndrome sm), sm_toggle sm).
Example C75_example :
  map (fun p => sampled (make_planar 2 3) (certain_cx 14 1 p)) ["ix"; "zi"; "iz"] = [Ok ([[]; [0; 1]], [false]); Ok ([[1]; [1]], [false]); Ok ([[]; [3]], [false])] /\
  map (fun p => decoded_experiment NoWeights None 3 2 (certain_cx 14 1 p) "Z" true) ["ix"; "zi"; "iz"] = [Ok ([1], [], true); Ok ([], [], true); Ok ([], [1], true)].
Proof. split; vm_compute; reflexivity. Qed.
(** In the toric code of size 2 the product of generators 0, 1, 4 and 5 is the identity.  An X error
    on qubit 0 after its gate with ancilla 8 (generator 0) is seen by generator 1 in the first
    round and by generator 0 in the second. *)
Example C75_redundant_example :
  (do cd <- make_toric 1 2; Ok (map (fun s => nonzero (map snd (ops (nth s (c_stabs (c_ops cd)) row0)))) [0; 1; 4; 5])) = Ok [[0; 1; 2; 6]; [0; 1; 3; 7]; [2; 4; 5; 6]; [3; 4; 5; 7]] /\
  (do cd <- make_toric 2 2; do sm <- memory_experiment g_half (sim_init [] 0) cd (certain_cx 8 0 "ix") (LogLetters "ZZ") true; Ok (map nonzero (sm_syndrome sm), sm_toggle sm)) =
    Ok ([[1]; [0]], [false; false]).
Proof. split; vm_compute; reflexivity. Qed.
