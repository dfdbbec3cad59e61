(** Shots with errors of gates. *)
Require Import String List Bool Arith ZArith QArith Lia Lqa Permutation Relations.
From Verif Require Import Base BaseProofs QSpec PauliModel PauliSem PauliAlg PauliProofs MeasureProofs GraphSpec GraphProofs CircuitModel SimModel SimSpec LatticeModel LatticeSpec LatticeOps CodesModel CodesSpec
  GeneratorModel GeneratorSpec MemorySem UnpackLayout MemoryTotal ExperimentProofs ErasureModel ErasureProofs SyngraphModel SyngraphProofs SyngraphErrors SyngraphFinal GraphlikeCodes Props_Syngraph DecoderSpec DecoderModel DecoderProofs
  DecoderObjects DecoderHistory DecoderCheck Props_Circuit Props_Generator Props_Decoder WeightsModel WeightsSpec MatchingModel MatchingSpec MatchingComp MatchingProofs MatchingGraph MatchingDecode MatchingMain
  FaultSpec Props_Matching FrontendModel InstantiateModel InstantiateSpec InstantiateRun Props_GateHistory.
Import ListNotations.
Local Open Scope string_scope.
Local Open Scope nat_scope.
Local Open Scope list_scope.
Notation total := DecoderSpec.total.

(** Shots from the state [s] of the simulator on.  Each of them is a memory experiment whose sample is
    what some errors on data qubits [E] and some wrong results of generators [F] give.  It is a success
    if and only if what remains of these errors after the correction, which has their syndrome,
    commutes with the logical operators [is]. *)
Inductive gate_shots (g : rng) (cd : code) (e : errors) (x : logical_spec) (is : list nat) (c : circuit) : sim -> list bool -> Prop :=
| gate_shots_none s : gate_shots g cd e x is c s []
| gate_shots_next s s' sm E K F correction b bs :
    sim_run g c true s = Ok s' -> memory_experiment g s cd e x false = Ok sm ->
    (forall st, st < n_stabgens (c_ops cd) -> F 0 st = false /\ F (Z.to_nat (c_rounds cd)) st = false) -> shows cd is (Z.to_nat (c_rounds cd)) E K F sm ->
    List.length (ops correction) = n_data_qubits (c_ops cd) ->
    (forall st, st < n_stabgens (c_ops cd) ->
       anti (seq 0 (n_data_qubits (c_ops cd))) (fac (nth st (c_stabs (c_ops cd)) row0)) (fun q => pxor (fac correction q) (total (Z.to_nat (c_rounds cd)) E q)) = false) ->
    (b = true <-> forall i, In i is ->
       anti (seq 0 (n_data_qubits (c_ops cd))) (fac (nth i (c_logicals (c_ops cd)) row0)) (fun q => pxor (fac correction q) (total (Z.to_nat (c_rounds cd)) E q)) = false) ->
    gate_shots g cd e x is c s' bs -> gate_shots g cd e x is c s (b :: bs).

(** No error of a data qubit or of a result has an infinite weight. *)
Definition all_finite (w : option warg) (n m : nat) : Prop :=
  (forall q, q < n -> finite_error w w_x q /\ finite_error w w_z q) /\ forall s, s < m -> finite_error w w_meas s.
(** What is needed for every shot to end. *)
Record gates_ready (cd : code) (e : errors) (x : logical_spec) (is : list nat) (w : option warg) : Prop := {
  gr_code : experiment_code cd;
  gr_rounds : (1 <= c_rounds cd)%Z;
  gr_names : named_errors (n_data_qubits (c_ops cd)) (n_stabgens (c_ops cd)) e;
  gr_probs : probabilities e;
  gr_erasure : er_erasure e = [] \/ erasure_everywhere (n_data_qubits (c_ops cd)) e;
  gr_logicals : logical_ops_to_indices (c_ops cd) x = Ok is;
  gr_some : is <> [];
  gr_compatible : compatible is;
  gr_readable : readable cd is;
  gr_fit : weights_fit (n_data_qubits (c_ops cd)) (List.length (c_stabs (c_ops cd))) w;
  gr_certain : none_certain w (n_data_qubits (c_ops cd)) (List.length (c_stabs (c_ops cd)));
  gr_sane : sane_weights w (n_data_qubits (c_ops cd)) (List.length (c_stabs (c_ops cd)));
  gr_finite : all_finite w (n_data_qubits (c_ops cd)) (List.length (c_stabs (c_ops cd))) }.

(** Without errors of erasure nothing is reported as erased. *)
Lemma no_erasure cd e x is g s0 sm : experiment_code cd -> (1 <= c_rounds cd)%Z -> logical_ops_to_indices (c_ops cd) x = Ok is -> readable cd is ->
  (forall k, 0 <= d_unif (g k) /\ d_unif (g k) < 1)%Q -> er_erasure e = [] -> memory_experiment g s0 cd e x false = Ok sm -> sm_erased sm = None.
Proof.
  intros XC HR EI RD Hg E0 H. unfold memory_experiment in H. destruct (generate_qec_circuit cd e x false) as [c|] eqn:G; [|discriminate]. cbn [bindR] in H.
  destruct (sim_run g c true s0) as [s|] eqn:RUN; [|discriminate]. cbn [bindR] in H.
  assert (W : false = true \/ (forall i, In i is -> GeneratorModel.weight (nth i (c_logicals (c_ops cd)) row0) = GeneratorModel.weight (nth 0 (c_logicals (c_ops cd)) row0))) by (right; intros i I; apply (RD i I)).
  destruct (run_lengths cd e x is false _ g s0 s XC HR G EI Hg RUN W) as [A _]. destruct (xc_positive cd XC) as (K & N & BW).
  assert (ES : s_eras s = []).
  { destruct (memory_run cd e false x _ g s0 s XC G Hg RUN) as (is' & v & EI' & _ & IR & _). assert (is' = is) by congruence. subst is'.
    apply irun_len in IR as [_ L]. rewrite ie_none in L by auto. destruct (s_eras s); [auto|discriminate]. }
  destruct (unpack_ok cd (Z.to_nat (c_rounds cd)) None false (fst (process_results s))) as (sm' & U & _ & SE); auto; try lia.
  unfold process_results in H at 2. rewrite ES in H. cbn [snd] in H. rewrite U in H. injection H as <-. auto.
Qed.

Section Shots.
Variable (py : pm_graph -> list bool -> Res (list bool)) (fb : fb_graph -> list nat -> list nat -> Res (list nat)).
Hypothesis (PC : pm_contract py) (FC : fb_contract fb).

Lemma gate_shot_ends name b e x is w g s d : gates_ready (b_code b) e x is w ->
  (name = PStr "PyMatchingDecoder" -> er_erasure e = []) -> generate_qec_circuit (b_code b) e x false = Ok (b_circuit b) ->
  (forall k, 0 <= d_unif (g k) /\ d_unif (g k) < 1)%Q -> decoder_for py fb name (Z.to_nat (c_rounds (b_code b))) (c_stabs (c_ops (b_code b))) w d ->
  exists bound, forall fuel, bound <= fuel -> exists s' d' ok, shot py fb g b x fuel (s, d) = Ok (s', d', ok) /\
    decoder_for py fb name (Z.to_nat (c_rounds (b_code b))) (c_stabs (c_ops (b_code b))) w d' /\
    forall bs, gate_shots g (b_code b) e x is (b_circuit b) s' bs -> gate_shots g (b_code b) e x is (b_circuit b) s (ok :: bs).
Proof.
  intros RE NO GEN Hg DF. destruct RE as [XC HR NE PR ER EI IS CP RD WF NC SW [WD WM]]. set (cd := b_code b) in *.
  assert (WT : false = true \/ (forall i, In i is -> GeneratorModel.weight (nth i (c_logicals (c_ops cd)) row0) = GeneratorModel.weight (nth 0 (c_logicals (c_ops cd)) row0))) by (right; intros i I; apply (RD i I)).
  destruct (C47_memory_total cd e x is false g s XC NE PR ER HR EI CP WT Hg) as (sm & ME). pose proof ME as ME'. unfold memory_experiment in ME'. rewrite GEN in ME'. cbn [bindR] in ME'.
  destruct (sim_run g (b_circuit b) true s) as [s'|] eqn:SR; [|discriminate]. cbn [bindR] in ME'.
  destruct (C75_memory_history cd e x is false g s sm XC HR EI (or_intror RD) Hg ME) as (E & K & F & FF & SH).
  assert (EX : explained w (Z.to_nat (c_rounds cd)) (n_data_qubits (c_ops cd)) (c_stabs (c_ops cd)) (sm_syndrome sm) E F).
  { unfold n_stabgens in FF. destruct SH as [_ _ SS _ _ _]. split; auto.
    - intros s1 Ls. apply FF; auto.
    - intros s1 Ls. apply FF; auto.
    - intros t q Lt Lq. destruct (WD q Lq). auto. }
  destruct (shows_shapes _ _ _ _ _ _ SH) as [SE SS].
  assert (Hr : 0 < Z.to_nat (c_rounds cd)) by lia.
  destruct (any_decode_history py fb PC FC name _ _ _ w d (sm_erased sm) (sm_syndrome sm) E F (experiment_generators cd XC) WF Hr NC SW DF SE SS EX) as (bd & HB).
  { intros NM t q. rewrite (no_erasure cd e x is g s sm); auto. }
  exists bd. intros fuel LF. destruct (HB fuel LF) as (d' & fr & E' & F' & R & DF' & L & EX' & FT).
  destruct (correction_checked cd x is w E K F E' F' sm fr XC HR EI IS SH EX EX' L FT) as (ok & CS & G & OK).
  exists s', d', ok. unfold shot. cbn [fst snd]. rewrite SR. cbn [bindR]. fold cd. rewrite ME'. cbn [bindR]. rewrite R. cbn [bindR fst snd]. rewrite CS. cbn [bindR].
  split; [auto|]. split; [auto|]. intros bs SB. eapply gate_shots_next with (E := E) (K := K) (F := F) (correction := fr); eauto.
Qed.
Lemma gate_shots_end name b e x is w g : gates_ready (b_code b) e x is w ->
  (name = PStr "PyMatchingDecoder" -> er_erasure e = []) -> generate_qec_circuit (b_code b) e x false = Ok (b_circuit b) ->
  (forall k, 0 <= d_unif (g k) /\ d_unif (g k) < 1)%Q -> forall n s d,
  decoder_for py fb name (Z.to_nat (c_rounds (b_code b))) (c_stabs (c_ops (b_code b))) w d ->
  exists fuels bs, List.length fuels = n /\ List.length bs = n /\ shots_loop py fb g b x fuels (s, d) = Ok bs /\ gate_shots g (b_code b) e x is (b_circuit b) s bs.
Proof.
  intros RE NO GEN Hg. induction n as [|n IH]; intros s d DF.
  - exists [], []. repeat split; auto. constructor.
  - destruct (gate_shot_ends name b e x is w g s d RE NO GEN Hg DF) as (bd & HB). destruct (HB bd (le_n _)) as (s' & d' & ok & SH & DF' & SB).
    destruct (IH s' d' DF') as (fuels & bs & L1 & L2 & SL & SS). exists (bd :: fuels), (ok :: bs). cbn [List.length]. split; [auto|]. split; [auto|].
    cbn [shots_loop]. rewrite SH. cbn [bindR fst snd]. rewrite SL. cbn [bindR]. auto.
Qed.
End Shots.
