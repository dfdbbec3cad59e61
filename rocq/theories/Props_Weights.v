(** C37 and C55: weights from error data and decoders made with them. *)
Require Import Reals Qreals String List Bool Arith ZArith QArith Lia Lqa Permutation Relations.
From Verif Require Import Base BaseProofs QSpec PauliModel PauliSem PauliAlg PauliProofs MeasureProofs GraphSpec GraphProofs CircuitModel SimModel SimSpec LatticeModel LatticeSpec LatticeOps
  CodesModel GeneratorModel GeneratorSpec MemorySem MemoryTotal ExperimentCodes Props_Circuit Props_Generator ErasureModel ErasureProofs UnionFindModel
  SyngraphModel SyngraphProofs SyngraphFinal Props_Syngraph DecoderSpec DecoderModel DecoderProofs DecoderObjects DecoderHistory DecoderCheck GraphlikeCodes Props_Decoder
  WeightsModel WeightsSpec WeightsProofs LogWeights.
Import ListNotations.
Local Open Scope string_scope.
Local Open Scope nat_scope.
Local Open Scope list_scope.

(** * C37 Effective probabilities and weights *)
(** Adding sources of errors one after the other gives the probability of an odd number of them,
    in any order, and a probability (at most 1/2) again. *)
Theorem C37_odd : forall ps,
  (fold_left (fun p q => update_p q p) ps 0 == odd_prob ps)%Q /\
  (forall qs, Permutation ps qs -> (fold_left (fun p q => update_p q p) qs 0 == odd_prob ps)%Q) /\
  ((forall p, In p ps -> (0 <= p <= 1)%Q) -> (0 <= odd_prob ps <= 1)%Q) /\
  ((forall p, In p ps -> (0 <= p <= 1 # 2)%Q) -> (0 <= odd_prob ps <= 1 # 2)%Q).
Proof.
  assert (F : forall ps, (fold_left (fun p q => update_p q p) ps 0 == odd_prob ps)%Q) by (intros ps; rewrite fold_update; unfold update_p; ring).
  intros ps. split; [apply F|]. split; [intros qs P; rewrite F; symmetry; apply odd_perm; auto|].
  split; induction ps as [|p ps IH]; intros H; try (split; discriminate).
  - assert (U := update_bounds p (odd_prob ps) (H p (or_introl eq_refl)) (IH (fun q I => H q (or_intror I)))). rewrite odd_cons. auto.
  - assert (U := update_half p (odd_prob ps) (H p (or_introl eq_refl)) (IH (fun q I => H q (or_intror I)))). rewrite odd_cons. auto.
Qed.
Print Assumptions C37_odd.

(** The probabilities computed for a code: those of X (or Y) and of Z (or Y) errors on the data
    qubits and of wrong results. *)
Theorem C37_computation : forall ew cd e, experiment_code cd -> named_errors (n_data_qubits (c_ops cd)) (n_stabgens (c_ops cd)) e -> no_gate_errors e -> distinct_keys e ->
  exists p, weight_computation ew cd e = Ok p /\ length (p_x_eff p) = n_data_qubits (c_ops cd) /\ length (p_z_eff p) = n_data_qubits (c_ops cd) /\
    length (p_measured p) = n_stabgens (c_ops cd) /\
    (forall q, q < n_data_qubits (c_ops cd) ->
       (nth q (p_x_eff p) 0 == odd_prob ((pauli_prob e q PX + pauli_prob e q PY) :: if ew then [erase_prob e q / 2] else []))%Q /\
       (nth q (p_z_eff p) 0 == odd_prob ((pauli_prob e q PY + pauli_prob e q PZ) :: if ew then [erase_prob e q / 2] else []))%Q) /\
    (forall s, s < n_stabgens (c_ops cd) -> nth s (p_measured p) 0%Q = flip_prob e (n_data_qubits (c_ops cd) + s)).
Proof. exact computed. Qed.
Print Assumptions C37_computation.
(** With erasures these are the probabilities of the X and Z parts of the error of a round. *)
Theorem C37_channel : forall e q,
  (part_prob e q fst == odd_prob [pauli_prob e q PX + pauli_prob e q PY; erase_prob e q / 2])%Q /\
  (part_prob e q snd == odd_prob [pauli_prob e q PY + pauli_prob e q PZ; erase_prob e q / 2])%Q.
Proof.
  intros e q. rewrite !odd_two.
  assert (S : (pauli_prob e q PI == 1 - (pauli_prob e q PX + pauli_prob e q PY + pauli_prob e q PZ))%Q) by (unfold pauli_prob; destruct (get1 _ _); ring).
  unfold part_prob, paulis4, update_p. cbn [flat_map map app qsum fold_right xz pxor fst snd xorb kick_prob]. rewrite S. split; field.
Qed.
Print Assumptions C37_channel.
(** Error data with gate errors or wrong names is refused. *)
Theorem C37_refused : forall ew cd e, experiment_code cd -> ~ (named_errors (n_data_qubits (c_ops cd)) (n_stabgens (c_ops cd)) e /\ no_gate_errors e) ->
  weight_computation ew cd e = Err ValueError.
Proof.
  intros ew cd e XC N. unfold weight_computation. unfold n_stabgens in N. rewrite xc_nd, xc_ns in N by auto.
  destruct (decided_errors (c_lattice cd) e (xc_consistent _ XC) (xc_indexed _ XC)) as [[-> NE]|[-> _]]; auto. cbn [bindR].
  destruct (er_CX e) eqn:E1, (er_CZ e) eqn:E2, (er_H e) eqn:E3, (er_M e) eqn:E4, (er_R e) eqn:E5; auto. exfalso. apply N. split; auto. repeat split; auto.
Qed.
Print Assumptions C37_refused.
(** The weight of a probability is smaller for larger probabilities, positive below 1/2, and the
    opposite for the opposite event. *)
Theorem C37_weight : forall p q : R, (0 < p < 1 -> 0 < q < 1 ->
  (exact_weight q < exact_weight p <-> p < q) /\ (0 < exact_weight p <-> p < 1 / 2) /\ (exact_weight p = 0 <-> p = 1 / 2) /\ exact_weight (1 - p) = - exact_weight p)%R.
Proof.
  assert (D : forall p q : R, (0 < p < 1 -> 0 < q < 1 -> (exact_weight q < exact_weight p <-> p < q))%R).
  { intros p q P Q. split; [|intros L; apply exact_decreasing; Lra.lra]. intros L. destruct (Rtotal_order p q) as [|[->|G]]; auto; [Lra.lra|].
    pose proof (exact_decreasing q p ltac:(Lra.lra) ltac:(Lra.lra)). Lra.lra. }
  intros p q P Q. split; [auto|]. assert (H : (0 < 1 / 2 < 1)%R) by Lra.lra. pose proof (D p (1 / 2)%R P H) as A. pose proof (D (1 / 2)%R p H P) as B. rewrite exact_half in A, B.
  split; [auto|]. split; [|apply exact_opposite; auto]. split.
  - intros E. destruct (Rtotal_order p (1 / 2)) as [L|[L|L]]; auto; exfalso; [apply A in L|apply B in L]; Lra.lra.
  - intros ->. apply exact_half.
Qed.
Print Assumptions C37_weight.
(** Rounding which keeps the relative error below 1 gives weights of the right sign; there are
    such functions. *)
Theorem C37_rounded : (forall f, rounded f -> (forall p, (p == 0)%Q -> f p = Inf false) -> (forall p, (p == 1)%Q -> f p = Inf true) ->
    (forall p, (p < 0 \/ 1 < p)%Q -> f p = NaN) -> log_like f) /\ exists f, rounded f /\ log_like f.
Proof.
  split; [exact rounded_log_like|]. exists some_weight. split; [exact some_weight_rounded|]. apply rounded_log_like; [exact some_weight_rounded|..]; unfold some_weight; intros p H.
  - rewrite (proj1 (Qeq_alt p 0) H). auto.
  - assert (E0 : (p ?= 0)%Q = Gt) by (rewrite H; reflexivity). rewrite E0, (proj1 (Qeq_alt p 1) H). auto.
  - destruct H as [H|H]; [rewrite (proj1 (Qlt_alt p 0) H); auto|].
    assert (E0 : (p ?= 0)%Q = Gt) by (apply Qgt_alt; eapply Qlt_trans; [|exact H]; reflexivity). rewrite E0, (proj1 (Qgt_alt p 1) H). auto.
Qed.
Print Assumptions C37_rounded.
(** Three sources; the planar code of size 2 with errors on qubits 0 and 2 and on a result; gate
    errors. *)
Definition some_errors : errors := mkErrors [(0%Z, [("x", 1 # 10); ("y", 1 # 10)]); (2%Z, [("z", 1 # 5)])] [(0%Z, [("p", 1 # 2)])] [(6%Z, [("p", 1 # 4)])] [] [] [] [] [].
Example C37_example :
  (odd_prob [1 # 10; 1 # 5; 1 # 2] == 1 # 2)%Q /\ (odd_prob [1 # 10; 1 # 5] == 26 # 100)%Q /\
  (do cd <- make_planar 1 2; do p <- weight_computation false cd some_errors; Ok (map Qred (p_x_eff p), map Qred (p_z_eff p), map Qred (p_measured p))) =
    Ok ([1 # 5; 0; 0; 0; 0], [1 # 10; 0; 1 # 5; 0; 0], [0; 1 # 4; 0; 0])%Q /\
  (do cd <- make_planar 1 2; do p <- weight_computation true cd some_errors; Ok (map Qred (p_x_eff p))) = Ok ([7 # 20; 0; 0; 0; 0])%Q /\
  (do cd <- make_planar 1 2; weight_computation false cd (mkErrors [] [] [] [] [] [(6%Z, [("x", 1 # 10)])] [] [])) = Err ValueError.
Proof. repeat split; vm_compute; reflexivity. Qed.

(** * C55 Decoders made from a code and error data *)
(** [from_code] changes the dictionary of the caller: missing and zero Pauli error probabilities
    become 1e-15, and nothing else changes. *)
Theorem C55_dictionary : forall logw cls cd e weighted weights, exists e',
  fst (decoder_from_code logw cls cd (Some e) weighted weights) = Some e' /\
  (forall q P, q < length (l_data (c_lattice cd)) -> P <> PI -> pauli_prob e' q P = filled (pauli_prob e q P)) /\
  (forall q, erase_prob e' q = erase_prob e q) /\ (forall a, flip_prob e' a = flip_prob e a) /\ (no_gate_errors e -> no_gate_errors e').
Proof.
  intros logw cls cd e weighted weights. eexists. split; [reflexivity|]. destruct (fill_errors_ok (length (l_data (c_lattice cd))) 0 e) as [A B C D _ _].
  split; [intros q P L NP; rewrite A by auto; rewrite (proj2 (Nat.ltb_lt _ _) L); auto|]. split; [auto|]. split; [intros a; unfold flip_prob; rewrite C; auto|auto].
Qed.
Print Assumptions C55_dictionary.

(** The argument [weights] cannot be used, whether or not there is error data. *)
Theorem C55_weights_refuted : forall logw cls cd errordata weighted w, snd (decoder_from_code logw cls cd errordata weighted (Some w)) = Err ValueError.
Proof. reflexivity. Qed.
Print Assumptions C55_weights_refuted.

(** Without weights there is a decoder for every graph-like code. *)
Theorem C55_unweighted : forall logw cls cd errordata, experiment_code cd -> graph_like (n_data_qubits (c_ops cd)) (c_stabs (c_ops cd)) -> (1 <= c_rounds cd)%Z ->
  exists d, snd (decoder_from_code logw cls cd errordata (Some false) None) = Ok d /\ uf_interface cls (Z.to_nat (c_rounds cd)) (c_stabs (c_ops cd)) None d.
Proof.
  intros logw cls cd ed XC GL HR. pose proof (experiment_generators cd XC) as G.
  destruct (C30_total (Z.to_nat (c_rounds cd)) _ _ None G I ltac:(lia) I) as [TG _]. destruct (TG GL) as (sg & ES).
  destruct (C52_unweighted cls (Z.to_nat (c_rounds cd)) _ _ sg G ltac:(lia) ES) as (d & ED). exists d. split; [|eapply ui_new; eauto].
  cbn [decoder_from_code snd new_manager andb]. unfold new_manager. cbn [andb bindR]. unfold from_code. rewrite ES. cbn [bindR]. auto.
Qed.
Print Assumptions C55_unweighted.

(** Facts about the weights of error data with default values. *)
Lemma filled_positive p : (0 <= p)%Q -> (0 < filled p)%Q.
Proof.
  intros H. unfold filled. destruct (Qeq_bool p 0) eqn:E; [reflexivity|]. apply Qle_lteq in H as [H|H]; auto. symmetry in H. apply Qeq_bool_iff in H. congruence.
Qed.
Lemma weight_at_arr (f : Q -> weight) l q : q < length l -> weight_at (WArr (map f l)) q = f (nth q l 0%Q).
Proof.
  intros L. assert (E : weight_at (WArr (map f l)) q = nth q (map f l) NaN).
  { destruct l as [|a [|b l]]; cbn in L |- *; auto. replace q with 0 by lia. auto. }
  rewrite E, (nth_indep _ NaN (f 0%Q)) by (rewrite map_length; auto). apply map_nth.
Qed.
Lemma fits_arr (f : Q -> weight) l k : length l = k -> fits k (WArr (map f l)).
Proof. intros L. cbn. left. rewrite map_length. auto. Qed.
Lemma missing_arr (f : Q -> weight) l : (forall q, q < length l -> f (nth q l 0%Q) <> NaN) -> ~ some_missing (WArr (map f l)).
Proof. cbn. intros H I. apply in_map_iff in I as (p & E & I). apply (In_nth _ _ 0%Q) in I as (q & L & <-). apply (H q L E). Qed.

(** All effective probabilities are below 1/2. *)
Record moderate (n m : nat) (e : errors) : Prop := {
  mo_pauli : forall q P, q < n -> P <> PI -> (0 <= pauli_prob e q P)%Q;
  mo_x : forall q, q < n -> (filled (pauli_prob e q PX) + filled (pauli_prob e q PY) < 1 # 2)%Q;
  mo_z : forall q, q < n -> (filled (pauli_prob e q PY) + filled (pauli_prob e q PZ) < 1 # 2)%Q;
  mo_meas : forall s, s < m -> (0 <= flip_prob e (n + s))%Q /\ (flip_prob e (n + s) < 1 # 2)%Q }.

Lemma from_code_weights logw cd e e' : log_like logw -> experiment_code cd -> named_errors (n_data_qubits (c_ops cd)) (n_stabgens (c_ops cd)) e -> no_gate_errors e -> distinct_keys e ->
  moderate (n_data_qubits (c_ops cd)) (n_stabgens (c_ops cd)) e -> fills (n_data_qubits (c_ops cd)) (n_stabgens (c_ops cd)) (fun q => q <? n_data_qubits (c_ops cd)) e e' ->
  let n := n_data_qubits (c_ops cd) in let m := length (c_stabs (c_ops cd)) in
  exists p, weight_computation false cd e' = Ok p /\ let w := get_edge_weights logw p in
    weights_fit n m (Some w) /\
    (forall q, q < n -> (exists x, weight_at (w_x w) q = Fin x /\ (0 < x)%Q) /\ (exists z, weight_at (w_z w) q = Fin z /\ (0 < z)%Q)) /\
    (forall s, s < m -> weight_at (w_meas w) s = Inf false /\ (flip_prob e (n + s) == 0)%Q \/ exists x, weight_at (w_meas w) s = Fin x /\ (0 < x)%Q) /\
    (~ some_missing (w_x w) /\ ~ some_missing (w_z w) /\ ~ some_missing (w_meas w)).
Proof.
  intros LL XC NE NG DK [P X Z M] [FP FE FM FG FN FD] n m. fold n in FP, FN. unfold n_stabgens in *. fold n m in NE, P, X, Z, M, FN.
  destruct (computed false cd e' XC (FN NE) (FG NG) (FD DK)) as (p & E & Lx & Lz & Lm & HQ & HM). fold n in Lx, Lz, HQ, HM. unfold n_stabgens in *. fold m in Lm, HM.
  exists p. split; [auto|]. cbv zeta. unfold get_edge_weights. cbn [w_x w_z w_meas].
  assert (FX : forall q, q < n -> (exists x, logw (nth q (p_x_eff p) 0%Q) = Fin x /\ (0 < x)%Q) /\ (exists z, logw (nth q (p_z_eff p) 0%Q) = Fin z /\ (0 < z)%Q)).
  { intros q Lq. destruct (HQ q Lq) as [Ex Ez]. rewrite odd_one in Ex, Ez. rewrite !FP in Ex, Ez by discriminate. rewrite (proj2 (Nat.ltb_lt _ _) Lq) in Ex, Ez.
    pose proof (filled_positive _ (P q PX Lq ltac:(discriminate))). pose proof (filled_positive _ (P q PY Lq ltac:(discriminate))). pose proof (filled_positive _ (P q PZ Lq ltac:(discriminate))).
    specialize (X q Lq). specialize (Z q Lq). split; apply (ll_small _ LL); [rewrite Ex|rewrite Ex|rewrite Ez|rewrite Ez]; lra. }
  assert (FMs : forall s, s < m -> logw (nth s (p_measured p) 0%Q) = Inf false /\ (flip_prob e (n + s) == 0)%Q \/ exists x, logw (nth s (p_measured p) 0%Q) = Fin x /\ (0 < x)%Q).
  { intros s Ls. rewrite (HM s Ls). assert (EF : flip_prob e' (n + s) = flip_prob e (n + s)) by (unfold flip_prob; rewrite FM; auto). rewrite EF. destruct (M s Ls) as [M0 M1].
    apply Qle_lteq in M0 as [M0|M0]; [right; apply (ll_small _ LL); auto|left]. split; [apply (ll_zero _ LL)|]; symmetry; auto. }
  split; [repeat split; apply fits_arr; auto|]. split; [intros q Lq; rewrite !weight_at_arr by lia; auto|]. split; [intros s Ls; rewrite weight_at_arr by lia; auto|].
  split; [|split]; apply missing_arr; intros q Lq.
  - destruct (FX q ltac:(lia)) as [(x & -> & _) _]. discriminate.
  - destruct (FX q ltac:(lia)) as [_ (x & -> & _)]. discriminate.
  - destruct (FMs q ltac:(lia)) as [[-> _]|(x & -> & _)]; discriminate.
Qed.

(** With weights: if all probabilities are below 1/2 there is a decoder, and it decodes every
    sample of a memory experiment with the same errors, before or after the change. *)
Theorem C55_memory_decoded : forall logw cd e weighted x is anc g s0, log_like logw -> experiment_code cd -> graph_like (n_data_qubits (c_ops cd)) (c_stabs (c_ops cd)) ->
  (1 <= c_rounds cd)%Z -> named_errors (n_data_qubits (c_ops cd)) (n_stabgens (c_ops cd)) e -> no_gate_errors e -> distinct_keys e ->
  moderate (n_data_qubits (c_ops cd)) (n_stabgens (c_ops cd)) e -> weighted <> Some false ->
  logical_ops_to_indices (c_ops cd) x = Ok is -> is <> [] -> anc = true \/ readable cd is -> (forall k, 0 <= d_unif (g k) /\ d_unif (g k) < 1)%Q ->
  let n := n_data_qubits (c_ops cd) in let gens := c_stabs (c_ops cd) in let rounds := Z.to_nat (c_rounds cd) in
  exists e' d, decoder_from_code logw Weights cd (Some e) weighted None = (Some e', Ok d) /\
  forall e0 sm, e0 = e \/ e0 = e' -> memory_experiment g s0 cd e0 x anc = Ok sm ->
  exists bound, forall fuel, bound <= fuel -> exists d' fr b,
    interface_decode fuel (sm_erased sm) (sm_syndrome sm) d = Ok (d', fr) /\
    check_success (c_ops cd) fr (sm_toggle sm) (Some x) = Ok b /\
    exists E K F, possible_history e0 n (length gens) rounds E K F /\ shows cd is rounds E K F sm /\
      let residual := fun q => pxor (fac fr q) (total rounds E q) in
      (forall s, s < length gens -> anti (seq 0 n) (fac (nth s gens row0)) residual = false) /\
      (b = true <-> forall i, In i is -> anti (seq 0 n) (fac (nth i (c_logicals (c_ops cd)) row0)) residual = false).
Proof.
  intros logw cd e weighted x is anc g s0 LL XC GL HR NE NG DK MO NW EI NI RD Hg n gens rounds. pose proof (experiment_generators cd XC) as G.
  set (e' := fill_errors (length (l_data (c_lattice cd))) e).
  assert (FI : fills n (n_stabgens (c_ops cd)) (fun q => q <? n) e e') by (unfold n; rewrite xc_nd by auto; apply fill_errors_ok).
  destruct (from_code_weights logw cd e e' LL XC NE NG DK MO FI) as (p & EP & WF & WQ & WM & NM). fold n gens in G, WF, WQ, WM, GL. set (w := get_edge_weights logw p) in *.
  destruct (C30_total rounds n gens (Some w) G WF ltac:(unfold rounds; lia) NM) as [TG _]. destruct (TG GL) as (sg & ES). clear TG.
  destruct (C52_positive rounds n gens w sg G WF ltac:(unfold rounds; lia)) as (d & ED); auto.
  { intros q Lq. destruct (WQ q Lq) as [(a & -> & A) (b & -> & B)]. split; right; eauto. }
  { intros s Ls. destruct (WM s Ls) as [[-> _]|(a & -> & A)]; [left; auto|right; eauto]. }
  exists e', d. split.
  - unfold decoder_from_code. fold e'. f_equal. unfold new_manager. cbn [andb orb]. assert (B : match weighted with Some b => b | None => true end = true) by (destruct weighted as [[]|]; congruence).
    rewrite B, EP. cbn [bindR]. unfold from_code. fold w rounds gens. rewrite ES. cbn [bindR]. auto.
  - intros e0 sm E0 RUN.
    assert (NG0 : no_gate_errors e0) by (destruct E0 as [-> | ->]; [auto|apply (fi_gates _ _ _ _ _ FI NG)]).
    assert (NC : none_certain (Some w) n (length gens)).
    { split; [intros q Lq|intros s Ls].
      - destruct (WQ q Lq) as [(a & -> & A) (b & -> & B)]. split; discriminate.
      - destruct (WM s Ls) as [[-> _]|(a & -> & A)]; discriminate. }
    assert (WA : weights_allow e0 (Some w) n (length gens)).
    { split; [intros q Lq; destruct (WQ q Lq) as [(a & Ea & A) (b & Eb & B)]; split; intros _; unfold finite_error; [rewrite Ea|rewrite Eb]; auto|].
      intros s Ls FP. unfold finite_error. assert (EF : flip_prob e0 (n + s) = flip_prob e (n + s)) by (destruct E0 as [-> | ->]; auto; unfold flip_prob; rewrite (fi_measurement _ _ _ _ _ FI); auto).
      rewrite EF in FP. destruct (WM s Ls) as [[_ Z]|(a & -> & A)]; auto. rewrite Z in FP. discriminate. }
    assert (UI : uf_interface Weights rounds gens (Some w) d) by (eapply ui_new; eauto).
    destruct (C53_memory_decoded Weights cd e0 x is anc g s0 sm (Some w) d XC NG0 HR EI NI RD Hg RUN WF NC WA UI) as (bd & HB). exists bd. intros fuel LF.
    destruct (HB fuel LF) as (d' & fr & ok & R & _ & CS & Rest). exists d', fr, ok. auto.
Qed.
Print Assumptions C55_memory_decoded.

(** Without error data weights are used although there are none to be derived, so that decoders of
    the class without weights cannot be made with the default arguments. *)
Theorem C55_noweights_refuted : forall logw cd, log_like logw -> experiment_code cd -> graph_like (n_data_qubits (c_ops cd)) (c_stabs (c_ops cd)) -> (1 <= c_rounds cd)%Z ->
  (exists s q, s < n_stabgens (c_ops cd) /\ q < n_data_qubits (c_ops cd) /\ fac (nth s (c_stabs (c_ops cd)) row0) q <> (false, false)) ->
  decoder_from_code logw NoWeights cd None None None = (None, Err ValueError).
Proof.
  intros logw cd LL XC GL HR (s & q & Ls & Lq & NI). pose proof (experiment_generators cd XC) as G. unfold n_stabgens in Ls.
  set (n := n_data_qubits (c_ops cd)) in *. set (gens := c_stabs (c_ops cd)) in *. set (rounds := Z.to_nat (c_rounds cd)). assert (HR' : 0 < rounds) by (unfold rounds; lia).
  set (e' := default_errors (length (l_data (c_lattice cd)))).
  assert (FI : fills n (n_stabgens (c_ops cd)) (fun q => q <? n) no_errors e') by (unfold n; rewrite xc_nd by auto; apply defaults_ok; auto).
  assert (NE : named_errors n (n_stabgens (c_ops cd)) no_errors) by (split; intros a b c; intros; contradiction).
  assert (NG : no_gate_errors no_errors) by (repeat split). assert (DK : distinct_keys no_errors) by (split; constructor).
  assert (MO : moderate n (n_stabgens (c_ops cd)) no_errors).
  { split; [intros q' [] _ NP; try congruence; discriminate|reflexivity|reflexivity|]. intros s' _. split; [discriminate|reflexivity]. }
  destruct (from_code_weights logw cd no_errors e' LL XC NE NG DK MO FI) as (p & EP & WF & WQ & WM & NM). fold n gens in WF, WQ, WM. set (w := get_edge_weights logw p) in *.
  destruct (C30_total rounds n gens (Some w) G WF HR' NM) as [TG _]. destruct (TG GL) as (sg & ES). clear TG.
  assert (U : uses rounds n gens (Some w) sg) by (split; [auto|]; split; [auto|]; split; [auto|apply sg_new; auto]).
  destruct (C30_edges _ _ _ _ _ U) as ((NV & IV) & _ & EQ & _ & EE).
  assert (exists P, (P = PX \/ P = PZ) /\ clashes P (fac (nth s gens row0) q) = true) as (P & HP & CL).
  { destruct (fac (nth s gens row0) q) as [[] []]; try congruence; [exists PX|exists PZ|exists PX]; auto. }
  destruct (EQ 0 q P HR' Lq HP) as (i & Li & (op & Ki) & _). destruct (EE i Li) as (_ & _ & KE). rewrite Ki in KE. destruct KE as (_ & _ & _ & KE).
  assert (I0 : In (0, s) (sg_verts sg)) by (apply IV; auto). apply In_nth_error in I0 as (v & Ev). assert (Iv : In v (nth i (sg_ends sg) [])) by (apply (KE v 0 s Ev); auto).
  assert (WX : forall j, j < length (sg_ends sg) -> weight_of sg j <> NaN /\ weight_of sg j <> Inf true /\ (match kind_of sg j with QubitError _ _ _ _ => True | _ => False end -> is_inf (weight_of sg j) = false)).
  { intros j Lj. destruct (weight_kind _ _ _ _ _ _ U Lj) as [-> KK]. destruct (kind_of sg j) as [t o q' P'|t s'].
    - destruct KK as (_ & Lq' & HP'). destruct (WQ q' Lq') as [(a & Ea & _) (b & Eb & _)]. cbn [kind_weight]. destruct HP' as [-> | ->]; [rewrite Ea|rewrite Eb]; (split; [discriminate|]; split; [discriminate|auto]).
    - destruct KK as [_ Ls']. cbn [kind_weight]. destruct (WM s' Ls') as [[-> _]|(a & -> & A)]; (split; [discriminate|]; split; [discriminate|]; intros []). }
  destruct (C31_one _ _ _ _ _ U i Li) as (j & Lj & [NEi PJ] & AJ & _).
  { intros Z. rewrite Z in Iv. destruct Iv. }
  { apply (WX i Li). rewrite Ki. auto. }
  { intros j Lj _. apply (WX j Lj). }
  assert (X : new_interface NoWeights sg = Err ValueError).
  { apply (C52_noweights rounds n gens w sg j G WF HR'); auto.
    - intros q' Lq'. destruct (WQ q' Lq') as [(a & -> & _) (b & -> & _)]. split; discriminate.
    - intros s' Ls'. destruct (WM s' Ls') as [[-> _]|(a & -> & A)]; discriminate.
    - intros Z. apply PJ in Iv. rewrite Z in Iv. destruct Iv. }
  unfold decoder_from_code. fold e'. f_equal. unfold new_manager. cbn [andb orb]. rewrite EP. cbn [bindR]. unfold from_code. fold w rounds gens. rewrite ES. cbn [bindR]. auto.
Qed.
Print Assumptions C55_noweights_refuted.

(** A function which can be computed in place of the logarithm. *)
Definition linear_weight (p : Q) : weight :=
  match (p ?= 0)%Q with Lt => NaN | Eq => Inf false | Gt => match (p ?= 1)%Q with Lt => Fin (1 - 2 * p) | Eq => Inf true | Gt => NaN end end.
Lemma linear_log_like : log_like linear_weight.
Proof.
  split; unfold linear_weight.
  - intros p H. rewrite (proj1 (Qeq_alt p 0) H). auto.
  - intros p A B. assert (E0 : (p ?= 0)%Q = Gt) by (apply -> Qgt_alt; auto). assert (E1 : (p ?= 1)%Q = Lt) by (apply -> Qlt_alt; lra). rewrite E0, E1. eexists. split; [reflexivity|lra].
  - intros p B. assert (E0 : (p ?= 0)%Q = Gt) by (rewrite B; reflexivity). assert (E1 : (p ?= 1)%Q = Lt) by (rewrite B; reflexivity). rewrite E0, E1. eexists. split; [reflexivity|rewrite B; reflexivity].
  - intros p A B. assert (E0 : (p ?= 0)%Q = Gt) by (apply -> Qgt_alt; eapply Qlt_trans; [|exact A]; reflexivity). assert (E1 : (p ?= 1)%Q = Lt) by (apply -> Qlt_alt; lra). rewrite E0, E1. eexists. split; [reflexivity|lra].
  - intros p H. assert (E0 : (p ?= 0)%Q = Gt) by (rewrite H; reflexivity). rewrite E0, (proj1 (Qeq_alt p 1) H). auto.
  - intros p [H|H]; [rewrite (proj1 (Qlt_alt p 0) H); auto|]. assert (E0 : (p ?= 0)%Q = Gt) by (apply -> Qgt_alt; eapply Qlt_trans; [|exact H]; reflexivity). rewrite E0, (proj1 (Qgt_alt p 1) H). auto.
Qed.
(** The planar code of size 2 with three rounds and errors as in the example of C37: the changed
    dictionary; the default error data with both classes; a probability above 1/2. *)
Example C55_example :
  (do cd <- make_planar 3 2; match decoder_from_code linear_weight Weights cd (Some some_errors) None None with
     (Some e, Ok d) => Ok (map fst (er_pauli e), map (fun q => Qred (pauli_prob e q PX)) (seq 0 5), map fst (er_erasure e), length (dc_decs d)) | _ => Err IndexError end) =
    Ok ([0; 2; 1; 3; 4]%Z, [1 # 10; tiny; tiny; tiny; tiny], [0; 1; 2; 3; 4]%Z, 4) /\
  (do cd <- make_planar 1 2; do d <- snd (decoder_from_code linear_weight Weights cd None None None); Ok (length (dc_decs d))) = Ok 2 /\
  (do cd <- make_planar 1 2; snd (decoder_from_code linear_weight NoWeights cd None None None)) = Err ValueError /\
  (do cd <- make_planar 1 2; do d <- snd (decoder_from_code linear_weight NoWeights cd None (Some false) None); Ok (length (dc_decs d))) = Ok 2 /\
  (do cd <- make_planar 1 2; snd (decoder_from_code linear_weight Weights cd (Some (mkErrors [(0%Z, [("x", 3 # 5)])] [] [] [] [] [] [] [])) None None)) = Err ValueError.
Proof. repeat split; vm_compute; reflexivity. Qed.
