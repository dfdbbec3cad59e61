(** Proofs about decoding with any of the decoders and about shots. *)
Require Import String List Bool Arith ZArith QArith Lia Lqa Permutation Relations.
From Verif Require Import Base BaseProofs QSpec PauliModel PauliSem PauliAlg PauliProofs MeasureProofs GraphSpec GraphProofs CircuitModel SimModel SimSpec LatticeModel LatticeSpec LatticeOps CodesModel CodesSpec
  GeneratorModel GeneratorSpec MemorySem MemoryTotal ErasureModel ErasureProofs SyngraphModel SyngraphProofs SyngraphErrors SyngraphFinal GraphlikeCodes Props_Syngraph DecoderSpec DecoderModel DecoderProofs
  DecoderObjects DecoderHistory DecoderCheck Props_Circuit Props_Generator Props_Decoder WeightsModel WeightsSpec MatchingModel MatchingSpec MatchingComp MatchingProofs MatchingGraph MatchingDecode MatchingMain
  FaultSpec Props_Matching FrontendModel InstantiateModel InstantiateSpec.
Import ListNotations.
Local Open Scope string_scope.
Local Open Scope nat_scope.
Local Open Scope list_scope.
Notation total := DecoderSpec.total.

Section Run.
Variable (py : pm_graph -> list bool -> Res (list bool)) (fb : fb_graph -> list nat -> list nat -> Res (list nat)).
Hypothesis (PC : pm_contract py) (FC : fb_contract fb).

(** Every decoder finds errors which explain the syndrome. *)
Lemma any_decode_history name rounds n gens w d er syn E F : generators n gens -> weights_fit n (List.length gens) w -> 0 < rounds ->
  none_certain w n (List.length gens) -> sane_weights w n (List.length gens) -> decoder_for py fb name rounds gens w d ->
  right_shape rounds n er = true -> has_shape syn rounds (List.length gens) = true -> explained w rounds n gens syn E F ->
  (name = PStr "PyMatchingDecoder" -> forall t q, erased er t q = false) ->
  exists bound, forall fuel, bound <= fuel -> exists d' fr E' F', any_decode py fb fuel er syn d = Ok (d', fr) /\ decoder_for py fb name rounds gens w d' /\
    List.length (ops fr) = n /\ explained w rounds n gens syn E' F' /\ forall q, q < n -> fac fr q = total rounds E' q.
Proof.
  intros G Hw Hr NC SW DF SE SS EX NER.
  assert (UF : forall cls d, uf_interface cls rounds gens w d -> exists bound, forall fuel, bound <= fuel -> exists d' fr E' F',
    interface_decode fuel er syn d = Ok (d', fr) /\ uf_interface cls rounds gens w d' /\
    List.length (ops fr) = n /\ explained w rounds n gens syn E' F' /\ forall q, q < n -> fac fr q = total rounds E' q).
  { intros cls d0 UI. destruct (decode_history _ _ _ _ _ _ G Hw Hr NC UI) as (b & HB). exists b. intros fuel Lf. specialize (HB er syn fuel Lf).
    change (shaped rounds n er) with (right_shape rounds n er) in HB. rewrite SE, SS in HB. cbn [andb] in HB.
    destruct HB as [(_ & d' & fr & R & UI' & LF & E' & F' & EX' & FT)|(NX & _)]; [|exfalso; apply NX; eauto]. exists d', fr, E', F'. auto. }
  destruct d as [d|d|d]; cbn [decoder_for any_decode] in *.
  - destruct DF as [[NM UI]|[NM UI]]; destruct (UF _ _ UI) as (b & HB); exists b; intros fuel Lf; destruct (HB fuel Lf) as (d' & fr & E' & F' & R & UI' & Rest);
      exists (UfDecoder d'), fr, E', F'; rewrite R; cbn [bindR fst snd decoder_for]; auto.
  - destruct DF as [NM PI]. exists 0. intros fuel _. destruct (C61_most_likely py rounds n gens w d PC G Hw Hr SW PI er syn SE SS (NER NM)) as [(_ & d' & fr & E' & F' & R & PI' & L & EX' & FT & _)|(NX & _)]; [|exfalso; apply NX; eauto].
    exists (PyDecoder d'), fr, E', F'. rewrite R. cbn [bindR fst snd decoder_for]. auto.
  - destruct DF as [NM PI]. exists 0. intros fuel _. pose proof (fb_ok _ _ _ _ _ _ FC G Hw Hr PI) as GD. pose proof (xg_uses _ _ _ _ _ _ _ GD) as U.
    destruct (fb_outcome _ _ _ _ _ _ _ _ FC G Hw Hr PI SE SS) as [(XP & _ & d' & fr & R & GD' & EE & EK & EV & EO & AC & OUT & EX' & FR & CH)|(NX & R)].
    2: { exfalso. destruct NX as [(k & _ & _ & NX)|NX]; [discriminate|]. apply NX.
      apply (history_explainable rounds n gens w _ syn E F); auto. }
    pose proof (xg_uses _ _ _ _ _ _ _ GD') as U'.
    destruct (result_history_is rounds n gens w (xd_graph d') syn fr U') as (L & HX' & HF); auto.
    { intros i X. unfold active. rewrite EO. apply AC; auto. }
    { rewrite EE, EV. unfold vertex_bit in *. rewrite EV. exact EX'. }
    exists (FbDecoder d'), fr, (result_errors rounds n (sg_result (xd_graph d'))), (result_flips rounds n gens (sg_result (xd_graph d'))).
    rewrite R. cbn [bindR fst snd decoder_for]. split; [auto|]. split; [split; [auto|eapply xi_used; eauto]|]. auto.
Qed.

(** The histories of errors can be found with the weights. *)
Lemma history_explained e w cd is E K F sm : weights_allow e w (n_data_qubits (c_ops cd)) (List.length (c_stabs (c_ops cd))) ->
  possible_history e (n_data_qubits (c_ops cd)) (n_stabgens (c_ops cd)) (Z.to_nat (c_rounds cd)) E K F -> shows cd is (Z.to_nat (c_rounds cd)) E K F sm ->
  explained w (Z.to_nat (c_rounds cd)) (n_data_qubits (c_ops cd)) (c_stabs (c_ops cd)) (sm_syndrome sm) E F.
Proof.
  intros [WD WM] [PD P0 P1 PF] [_ _ SS _ _ _]. unfold n_stabgens in *. split; auto.
  - intros t q Lt Lq. destruct (PD t q Lt Lq) as (P & R & Q & PP & PK). rewrite Q. destruct (WD q Lq) as [W1 W2].
    assert (KR : R = PI \/ (0 < erase_prob e q)%Q) by (destruct (K t q); tauto).
    destruct KR as [-> |KR].
    + split; intros Y; [apply W1|apply W2]; destruct P; cbn in Y; try discriminate; auto.
    + split; intros _; [apply W1|apply W2]; auto.
  - intros t s Lt Ls Y. apply WM; auto. specialize (PF t s Lt Ls). rewrite Y in PF. auto.
Qed.
Lemma shows_shapes cd is E K F sm : shows cd is (Z.to_nat (c_rounds cd)) E K F sm ->
  right_shape (Z.to_nat (c_rounds cd)) (n_data_qubits (c_ops cd)) (sm_erased sm) = true /\ has_shape (sm_syndrome sm) (Z.to_nat (c_rounds cd)) (List.length (c_stabs (c_ops cd))) = true.
Proof.
  intros SH. split.
  - destruct (sm_erased sm) as [m|] eqn:Em; [|reflexivity]. cbn [right_shape]. rewrite (sh_erased _ _ _ _ _ _ _ SH m Em).
    unfold has_shape. rewrite map_length, seq_length, Nat.eqb_refl. cbn [andb]. apply forallb_forall. intros y I.
    apply in_map_iff in I. destruct I as (t & <- & _). rewrite map_length, seq_length. apply Nat.eqb_refl.
  - unfold has_shape. rewrite (sh_rounds _ _ _ _ _ _ _ SH), Nat.eqb_refl. cbn [andb]. apply forallb_forall. intros y I.
    rewrite (sh_width _ _ _ _ _ _ _ SH y I). apply Nat.eqb_refl.
Qed.

(** The check of a correction which explains the syndrome. *)
Lemma correction_checked cd x is w E K F E' F' sm fr : experiment_code cd -> (1 <= c_rounds cd)%Z -> logical_ops_to_indices (c_ops cd) x = Ok is -> is <> [] ->
  let n := n_data_qubits (c_ops cd) in let gens := c_stabs (c_ops cd) in let rounds := Z.to_nat (c_rounds cd) in
  shows cd is rounds E K F sm -> explained w rounds n gens (sm_syndrome sm) E F -> explained w rounds n gens (sm_syndrome sm) E' F' ->
  List.length (ops fr) = n -> (forall q, q < n -> fac fr q = total rounds E' q) ->
  exists b, check_success (c_ops cd) fr (sm_toggle sm) (Some x) = Ok b /\
    let residual := fun q => pxor (fac fr q) (total rounds E q) in
    (forall s, s < List.length gens -> anti (seq 0 n) (fac (nth s gens row0)) residual = false) /\
    (b = true <-> forall i, In i is -> anti (seq 0 n) (fac (nth i (c_logicals (c_ops cd)) row0)) residual = false).
Proof.
  intros XC HR EI NE n gens rounds SH EX EX' LF FT. assert (Hr : 0 < rounds) by (unfold rounds; lia).
  assert (W : forall l, In l (c_logicals (c_ops cd)) -> List.length (ops l) = n) by (intros l I; unfold n; rewrite xc_nd by auto; apply xc_width; auto).
  pose proof (check_success_ok n (c_ops cd) fr (sm_toggle sm) (Some x) is W eq_refl EI NE) as CS.
  rewrite (sh_logicals _ _ _ _ _ _ _ SH), LF, !Nat.eqb_refl in CS. cbn [andb] in CS. destruct CS as (ok & CS & OK).
  exists ok. split; [auto|]. cbv zeta.
  assert (AR : forall f, anti (seq 0 n) f (fun q => pxor (fac fr q) (total rounds E q)) =
    xorb (anti (seq 0 n) f (fac fr)) (parity (map (fun t => anti (seq 0 n) f (E t)) (seq 0 rounds)))).
  { intros f. rewrite anti_xor_r, anti_total. auto. }
  split.
  - intros s Ls. rewrite AR.
    assert (Q : forall H F, explained w rounds n gens (sm_syndrome sm) H F ->
      parity (map (fun t => anti (seq 0 n) (fac (nth s gens row0)) (H t)) (seq 0 rounds)) = parity (map (fun t => nth s (nth t (sm_syndrome sm) []) false) (seq 0 rounds))).
    { intros H0 F0 Y. rewrite (parity_ext (fun t => nth s (nth t (sm_syndrome sm) []) false) (fun t => xorb (anti (seq 0 n) (fac (nth s gens row0)) (H0 t)) (xorb (F0 t s) (F0 (S t) s)))).
      - rewrite parity_xor, (parity_telescope (fun t => F0 t s)), (ex_first _ _ _ _ _ _ _ Y), (ex_last _ _ _ _ _ _ _ Y) by auto. rewrite !xorb_false_r. auto.
      - intros t I. apply in_seq in I. apply (ex_syndrome _ _ _ _ _ _ _ Y); auto; lia. }
    rewrite (anti_ext _ _ _ (fac (nth s gens row0)) (total rounds E')); auto.
    + rewrite anti_total, (Q _ _ EX), (Q _ _ EX'). apply xorb_nilpotent.
    + intros q I. apply in_seq in I. apply FT. lia.
  - rewrite OK. split.
    + intros H i I. destruct (In_nth _ _ 0 I) as (k & Lk & <-). rewrite AR, <- (H k Lk), (sh_toggle _ _ _ _ _ _ _ SH k Lk). apply xorb_nilpotent.
    + intros H k Lk. specialize (H (nth k is 0) (nth_In _ _ Lk)). rewrite AR in H. apply xorb_eq in H. rewrite H. apply (sh_toggle _ _ _ _ _ _ _ SH k Lk).
Qed.

(** What is needed for every shot to end. *)
Record ready (cd : code) (e : errors) (x : logical_spec) (is : list nat) (w : option warg) : Prop := {
  re_code : experiment_code cd;
  re_rounds : (1 <= c_rounds cd)%Z;
  re_gates : no_gate_errors e;
  re_names : named_errors (n_data_qubits (c_ops cd)) (n_stabgens (c_ops cd)) e;
  re_probs : probabilities e;
  re_erasure : er_erasure e = [] \/ erasure_everywhere (n_data_qubits (c_ops cd)) e;
  re_logicals : logical_ops_to_indices (c_ops cd) x = Ok is;
  re_some : is <> [];
  re_compatible : compatible is;
  re_readable : readable cd is;
  re_fit : weights_fit (n_data_qubits (c_ops cd)) (List.length (c_stabs (c_ops cd))) w;
  re_certain : none_certain w (n_data_qubits (c_ops cd)) (List.length (c_stabs (c_ops cd)));
  re_sane : sane_weights w (n_data_qubits (c_ops cd)) (List.length (c_stabs (c_ops cd)));
  re_allow : weights_allow e w (n_data_qubits (c_ops cd)) (List.length (c_stabs (c_ops cd))) }.

Lemma nothing_erased e cd is E K F sm : possible_history e (n_data_qubits (c_ops cd)) (n_stabgens (c_ops cd)) (Z.to_nat (c_rounds cd)) E K F ->
  shows cd is (Z.to_nat (c_rounds cd)) E K F sm -> (forall q, q < n_data_qubits (c_ops cd) -> (erase_prob e q <= 0)%Q) -> forall t q, erased (sm_erased sm) t q = false.
Proof.
  intros PH SH Z t q. unfold erased. destruct (sm_erased sm) as [m|] eqn:Em; auto. rewrite (sh_erased _ _ _ _ _ _ _ SH m Em).
  set (n := n_data_qubits (c_ops cd)) in *. set (r := Z.to_nat (c_rounds cd)) in *.
  destruct (Nat.lt_ge_cases t r) as [Lt|Lt].
  2: { rewrite (nth_overflow (map _ (seq 0 r))) by (rewrite map_length, seq_length; auto). destruct q; auto. }
  rewrite (nth_indep _ [] ((fun t => map (K t) (seq 0 n)) 0)) by (rewrite map_length, seq_length; auto). rewrite (map_nth (fun t => map (K t) (seq 0 n))), seq_nth by auto. cbn [plus].
  destruct (Nat.lt_ge_cases q n) as [Lq|Lq].
  2: { rewrite nth_overflow by (rewrite map_length, seq_length; auto). auto. }
  rewrite (nth_indep _ false (K t 0)) by (rewrite map_length, seq_length; auto). rewrite (map_nth (K t)), seq_nth by auto. cbn [plus].
  destruct (ph_data _ _ _ _ _ _ _ PH t q Lt Lq) as (P & R & _ & _ & PK). destruct (K t q); auto. specialize (Z q Lq). exfalso. lra.
Qed.

Lemma shot_ends name b e x is w g s d : ready (b_code b) e x is w ->
  (name = PStr "PyMatchingDecoder" -> forall q, q < n_data_qubits (c_ops (b_code b)) -> (erase_prob e q <= 0)%Q) -> generate_qec_circuit (b_code b) e x false = Ok (b_circuit b) ->
  (forall k, 0 <= d_unif (g k) /\ d_unif (g k) < 1)%Q -> decoder_for py fb name (Z.to_nat (c_rounds (b_code b))) (c_stabs (c_ops (b_code b))) w d ->
  exists bound, forall fuel, bound <= fuel -> exists s' d' ok, shot py fb g b x fuel (s, d) = Ok (s', d', ok) /\
    decoder_for py fb name (Z.to_nat (c_rounds (b_code b))) (c_stabs (c_ops (b_code b))) w d' /\
    forall bs, shots g (b_code b) e x is (b_circuit b) s' bs -> shots g (b_code b) e x is (b_circuit b) s (ok :: bs).
Proof.
  intros RE NO GEN Hg DF. destruct RE as [XC HR NG NE PR ER EI IS CP RD WF NC SW WA]. set (cd := b_code b) in *.
  assert (WT : false = true \/ (forall i, In i is -> GeneratorModel.weight (nth i (c_logicals (c_ops cd)) row0) = GeneratorModel.weight (nth 0 (c_logicals (c_ops cd)) row0))) by (right; intros i I; apply (RD i I)).
  destruct (C47_memory_total cd e x is false g s XC NE PR ER HR EI CP WT Hg) as (sm & ME). pose proof ME as ME'. unfold memory_experiment in ME'. rewrite GEN in ME'. cbn [bindR] in ME'.
  destruct (sim_run g (b_circuit b) true s) as [s'|] eqn:SR; [|discriminate]. cbn [bindR] in ME'.
  destruct (C47_memory_history cd e x is false g s sm XC NG HR EI (or_intror RD) Hg ME) as (E & K & F & PH & SH).
  pose proof (history_explained e w cd is E K F sm WA PH SH) as EX. destruct (shows_shapes _ _ _ _ _ _ SH) as [SE SS].
  assert (Hr : 0 < Z.to_nat (c_rounds cd)) by lia.
  destruct (any_decode_history name _ _ _ w d (sm_erased sm) (sm_syndrome sm) E F (experiment_generators cd XC) WF Hr NC SW DF SE SS EX) as (bd & HB).
  { intros NM. eapply nothing_erased; eauto. }
  exists bd. intros fuel LF. destruct (HB fuel LF) as (d' & fr & E' & F' & R & DF' & L & EX' & FT).
  destruct (correction_checked cd x is w E K F E' F' sm fr XC HR EI IS SH EX EX' L FT) as (ok & CS & G & OK).
  exists s', d', ok. unfold shot. cbn [fst snd]. rewrite SR. cbn [bindR]. fold cd. rewrite ME'. cbn [bindR]. rewrite R. cbn [bindR fst snd]. rewrite CS. cbn [bindR].
  split; [auto|]. split; [auto|]. intros bs SB. eapply shots_next with (E := E) (K := K) (F := F) (correction := fr); eauto.
Qed.

Lemma shots_end name b e x is w g : ready (b_code b) e x is w ->
  (name = PStr "PyMatchingDecoder" -> forall q, q < n_data_qubits (c_ops (b_code b)) -> (erase_prob e q <= 0)%Q) -> generate_qec_circuit (b_code b) e x false = Ok (b_circuit b) ->
  (forall k, 0 <= d_unif (g k) /\ d_unif (g k) < 1)%Q -> forall n s d,
  decoder_for py fb name (Z.to_nat (c_rounds (b_code b))) (c_stabs (c_ops (b_code b))) w d ->
  exists fuels bs, List.length fuels = n /\ List.length bs = n /\ shots_loop py fb g b x fuels (s, d) = Ok bs /\ shots g (b_code b) e x is (b_circuit b) s bs.
Proof.
  intros RE NO GEN Hg. induction n as [|n IH]; intros s d DF.
  - exists [], []. repeat split; auto. constructor.
  - destruct (shot_ends name b e x is w g s d RE NO GEN Hg DF) as (bd & HB). destruct (HB bd (le_n _)) as (s' & d' & ok & SH & DF' & SB).
    destruct (IH s' d' DF') as (fuels & bs & L1 & L2 & SL & SS). exists (bd :: fuels), (ok :: bs). cbn [List.length]. split; [auto|]. split; [auto|].
    cbn [shots_loop]. rewrite SH. cbn [bindR fst snd]. rewrite SL. cbn [bindR]. auto.
Qed.
End Run.
