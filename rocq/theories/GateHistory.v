(** Lemmas: the samples of memory experiments with gate errors show errors of data qubits and wrong results. *)
Require Import String List Bool Arith ZArith QArith Lia.
From Verif Require Import Base BaseProofs QSpec PauliModel PauliSem PauliProofs PauliAlg StateSpec GateProofs CircuitModel SimSpec SimModel SimProofs RunProofs StateProofs
  LatticeModel LatticeSpec LatticeProofs LatticeOps LatticeRows CodesModel CodesSpec GeneratorModel GeneratorSpec StabTrack RoundProofs MemoryProofs GeneratorProofs GeneratorSem
  UnpackProofs UnpackLayout MemorySem MemoryTotal ExperimentProofs FrameSpec FrameProofs FrameMemory GateRuns Props_Circuit Props_Generator.
Import ListNotations.
Local Open Scope string_scope.
Local Open Scope nat_scope.
Local Open Scope list_scope.

(** * The instructions *)
Lemma fifteen_pauli d we q : Forall fifteen (gate_pauli d we q).
Proof. unfold gate_pauli. destruct we; auto. destruct (get1 d q); repeat constructor. Qed.
Lemma fifteen_pauli2 d we a q : Forall fifteen (gate_pauli2 d we a q).
Proof. unfold gate_pauli2. destruct we; auto. destruct (get2 d a q); repeat constructor. Qed.
Lemma fifteen_prep e we q : Forall fifteen (prep_ins e we q).
Proof. unfold prep_ins. apply Forall_app. split; (constructor; [exact I|apply fifteen_pauli]). Qed.
Lemma fifteen_read e we q : Forall fifteen (read_ins e we q).
Proof.
  unfold read_ins. repeat (apply Forall_app; split); try (constructor; [exact I|apply fifteen_pauli]); try apply fifteen_pauli; try (destruct (meas_flip e we q); repeat constructor); repeat constructor.
Qed.
Lemma fifteen_edge l e we ed : Forall fifteen (edge_ins l e we ed).
Proof. unfold edge_ins. constructor; [exact I|apply fifteen_pauli2]. Qed.
Lemma fifteen_op l e we o : Forall fifteen (op_ins l e we o).
Proof. unfold op_ins. apply Forall_app. split; [apply fifteen_prep|]. apply Forall_app. split; [|apply fifteen_read]. apply forall_flat_map. intros. apply fifteen_edge. Qed.
Lemma fifteen_stabs l e we : Forall fifteen (stabs_ins l e we).
Proof.
  unfold stabs_ins. destruct (l_steps l); [repeat (apply Forall_app; split)|]; apply forall_flat_map; intros; auto using fifteen_prep, fifteen_read, fifteen_op.
  apply forall_flat_map. intros. apply fifteen_edge.
Qed.
Lemma fifteen_memory cd e anc is : Forall fifteen (memory_ins cd e anc is).
Proof.
  assert (LG : Forall fifteen (logicals_ins (c_lattice cd) e anc is)).
  { apply forall_flat_map. intros i _. destruct (nth_error _ i); auto. unfold logical_ins. destruct anc; [apply fifteen_op|]. apply forall_flat_map. intros ed _. unfold data_ins. destruct (e_factor ed); repeat constructor. }
  unfold memory_ins. cbv zeta. apply Forall_app. split; [auto|]. apply Forall_app. split; [apply fifteen_stabs|]. apply Forall_app. split; [|auto]. apply forall_flat_map. intros b _. apply Forall_app. split; auto using fifteen_stabs.
  apply forall_flat_map. intros v _. unfold noise_at. apply Forall_app. split; [destruct (data_pauli e _) as [[[? ?] ?]|]|destruct (data_erase e _)]; repeat constructor.
Qed.
Lemma stabs_quiet l e : stabs_ins l e false = stabs_ins l no_errors false.
Proof. reflexivity. Qed.
Lemma logicals_quiet l e anc is : logicals_ins l e anc is = logicals_ins l no_errors anc is.
Proof. reflexivity. Qed.
Lemma no_noise l : noise_round l no_errors = [].
Proof. unfold noise_round. apply flat_nil. intros v. unfold noise_at, data_pauli, data_erase. destruct (eq_of l v); auto. Qed.

(** * Errors which allow every history *)
Definition free_errors (nd ns : nat) : errors :=
  mkErrors (map (fun q => (Z.of_nat q, [("x", 1 # 4); ("y", 1 # 4); ("z", 1 # 4)]))%Q (seq 0 nd)) [] (map (fun a => (Z.of_nat a, [("p", 1 # 2)]))%Q (seq nd ns)) [] [] [] [] [].
Lemma find_number {A} (x : A) q D : In q D -> find (fun kv => (fst kv =? Z.of_nat q)%Z) (map (fun q => (Z.of_nat q, x)) D) = Some (Z.of_nat q, x).
Proof.
  induction D as [|d D IH]; intros [].
  - subst. cbn. rewrite Z.eqb_refl. auto.
  - cbn [map find fst]. destruct (Z.eqb_spec (Z.of_nat d) (Z.of_nat q)) as [E|]; auto. apply Nat2Z.inj in E. subst. auto.
Qed.
Lemma free_noise nd ns q E : q < nd -> noise_ok (data_pauli (free_errors nd ns) (Some q)) (data_erase (free_errors nd ns) (Some q)) E [].
Proof.
  intros L. unfold data_pauli, data_erase, get1, free_errors. cbn [er_pauli er_erasure find]. rewrite find_number by (apply in_seq; lia). cbn [snd].
  destruct E as [[] []]; [exists PY, PI|exists PX, PI|exists PZ, PI|exists PI, PI]; repeat split; vm_compute; reflexivity.
Qed.
Lemma free_flip nd ns a b : In a (seq nd ns) -> flip_ok (meas_entry (free_errors nd ns) (Some a)) b.
Proof.
  intros L. unfold meas_entry, get1, free_errors. cbn [er_measurement]. rewrite find_number by auto. cbn [snd find fst String.eqb Ascii.eqb Bool.eqb]. destruct b; reflexivity.
Qed.

(** * Values of the rounds *)
Definition with_flips (ns : nat) (x0 : list (bool * bool)) (r : list bool) : list (bool * bool) :=
  map (fun s => (nth s r false, xorb (nth s r false) (val (nth s x0 bb0)))) (seq 0 ns).
Lemma with_flips_fst ns x0 r : List.length r = ns -> map fst (with_flips ns x0 r) = r.
Proof. intros <-. unfold with_flips. rewrite map_map. cbn [fst]. apply (nth_ext _ _ false false); [rewrite map_length, seq_length; auto|]. intros i L. rewrite map_length, seq_length in L. rewrite nth_map_seq by auto. auto. Qed.
Lemma with_flips_val ns x0 r s : s < ns -> val (nth s (with_flips ns x0 r) bb0) = val (nth s x0 bb0).
Proof. intros L. unfold with_flips. rewrite nth_map_seq by auto. unfold val at 1. cbn [fst snd]. destruct (nth s r false), (val (nth s x0 bb0)); auto. Qed.
Lemma mid_steps D T L x0 xR f : (forall s, s < List.length L -> val (nth s xR bb0) = xorb (val (nth s x0 bb0)) (anti D (T (nth s L 0)) f)) ->
  forall rows y, (forall s, s < List.length L -> val (nth s y bb0) = val (nth s x0 bb0)) ->
  steps D T L y (map (with_flips (List.length L) x0) rows ++ [xR]) (repeat (fun _ => pid) (List.length rows) ++ [f]).
Proof.
  intros H. induction rows as [|r rows IH]; intros y Y; cbn [map app List.length repeat steps].
  - split; auto. intros s Hs. rewrite Y by auto. auto.
  - split; [|apply IH; intros; apply with_flips_val; auto]. intros s Hs. rewrite with_flips_val, Y by auto. rewrite anti_pid. rewrite xorb_false_r. auto.
Qed.
Lemma total_mid D g f : forall r, total D g (repeat (fun _ => pid) r ++ [f]) = anti D g f.
Proof. unfold total. induction r as [|r IH]; cbn [repeat app map fold_right]; [apply xorb_false_r|]. rewrite IH, anti_pid. apply xorb_false_l. Qed.

Lemma Forall2_numbered {B} (P : nat -> B -> Prop) L (h : nat -> B) : (forall s, s < List.length L -> P (nth s L 0) (h s)) -> Forall2 P L (map h (seq 0 (List.length L))).
Proof.
  revert h. induction L as [|a L IH]; intros h H; cbn [List.length seq map]; constructor.
  - apply (H 0). cbn. lia.
  - rewrite <- seq_shift, map_map. apply IH. intros s Hs. apply (H (S s)). cbn. lia.
Qed.

(** * Transfer to a sample with erasures *)
Lemma erased_grid cd anc ms er sm R : c_rounds cd = Z.of_nat R -> 0 < n_logical_qubits (c_ops cd) -> 0 < block_width cd anc -> 0 < n_stabgens (c_ops cd) ->
  from_code_and_raw_results cd ms er anc = Ok sm ->
  forall m, sm_erased sm = Some m -> exists K, m = map (fun t => map (K t) (seq 0 (n_data_qubits (c_ops cd)))) (seq 0 R).
Proof.
  intros HR K W N H m Em. destruct (lengths_ok cd anc ms er sm R HR K W N H) as [L _].
  assert (LE : match er with Some f => List.length f = R * n_data_qubits (c_ops cd) | None => True end).
  { assert (B := unpack_bad cd R er anc ms HR K W N). cbv zeta in B. destruct er as [f|]; auto. destruct (Nat.eq_dec (List.length f) (R * n_data_qubits (c_ops cd))) as [E|E]; auto. rewrite B in H by eauto. discriminate. }
  destruct (unpack_ok cd R er anc ms HR K W L LE) as (sm' & H' & _ & E). assert (sm' = sm) by congruence. subst sm'. rewrite Em in E. destruct er as [f|]; [|discriminate]. injection E as ->.
  eexists. unfold matrix. reflexivity.
Qed.

(** * The experiment *)
Theorem gate_history cd e anc x c g s0 s er sm : experiment_code cd -> (1 <= c_rounds cd)%Z ->
  generate_qec_circuit cd e x anc = Ok c ->
  (forall is, logical_ops_to_indices (c_ops cd) x = Ok is -> anc = true \/ readable cd is) ->
  (forall k, 0 <= d_unif (g k) /\ d_unif (g k) < 1)%Q -> sim_run g c true s0 = Ok s ->
  from_code_and_raw_results cd (s_meas s) er anc = Ok sm ->
  exists is E K F, logical_ops_to_indices (c_ops cd) x = Ok is /\
    (forall s, s < n_stabgens (c_ops cd) -> F 0 s = false) /\ (forall s, s < n_stabgens (c_ops cd) -> F (Z.to_nat (c_rounds cd)) s = false) /\
    shows cd is (Z.to_nat (c_rounds cd)) E K F sm.
Proof.
  intros XC HR G RD Hg RUN UN. destruct (memory_run cd e anc x c g s0 s XC G Hg RUN) as (is & v0 & EI & Ec & _ & CO).
  assert (RS : exists v, srun (number_of_qubits c) (memory_ins cd e anc is) ket0 (s_meas s) (s_eras s) v).
  { assert (G' := G). unfold generate_qec_circuit in G'. destruct (check_against_code _ _); [|discriminate]. cbn [bindR] in G'.
    assert (ST := ks_circuit _ _ _ _ [] c (Forall_nil _) G').
    destruct (C09_run_refines_born g c s0 s Hg ST) as (v & Q & _); auto.
    - rewrite Ec. apply Forall_map. eapply Forall_impl; [|apply memory_distinct; apply XC]. apply distinct_ins.
    - exists v. rewrite Ec in Q at 2. apply qcirc_srun; auto using fifteen_memory. }
  clear v0. destruct RS as (v & IR).
  specialize (RD is EI). destruct (indices_ok _ _ _ EI) as [LI HI]. set (n := number_of_qubits c) in *.
  assert (XC' := XC). destruct XC' as [C XI OP NY CK SC]. set (l := c_lattice cd) in *.
  assert (NG : no_gate_errors no_errors) by (repeat split).
  assert (HI' : forall i, In i is -> i < List.length (l_logicals l)).
  { intros i I. specialize (HI i I). destruct (xc_rows cd XC) as (_ & E & _). rewrite E, map_length in HI. auto. }
  set (R := Z.to_nat (c_rounds cd - 1)). assert (ER : Z.to_nat (c_rounds cd) = S R) by (unfold R; lia).
  assert (BS : forall o, In o (l_stabs l) -> eqn l o < n).
  { intros o I. unfold n. rewrite Ec. apply ins_bound. unfold memory_ins. cbv zeta. apply in_app_iff. right. apply in_app_iff. left. apply stab_in; auto. }
  assert (BD : List.length (l_data l) <= n).
  { destruct (xc_rows cd XC) as (_ & _ & N & _). fold l in N. destruct (l_stabs l) as [|o os] eqn:EO; [congruence|].
    assert (Io : In o (l_stabs l)) by (rewrite EO; left; auto). assert (A := BS o (or_introl eq_refl)). assert (B := eqn_op_ge l o XI (stab_op l o Io)). lia. }
  set (L := seq (List.length (l_data l)) (List.length (l_stabs l))). set (Ls := map (lidx l) is).
  assert (OPS : forall a, In a L -> exists o, In o (l_stabs l) /\ eqn l o = a) by (intros a I; apply in_stab_indices; auto).
  assert (CT : forall a b, In a L -> In b L -> anti (dn l) (tfun l a) (tfun l b) = false).
  { intros a b Ia Ib. destruct (OPS a Ia) as (o & Io & <-), (OPS b Ib) as (p & Ip & <-). rewrite tfun_anti by auto using stab_op. apply (xc_commute cd); auto using stab_op. }
  assert (CTL : forall a b, In a Ls -> In b L -> anti (dn l) (tfun l a) (tfun l b) = false).
  { intros a b Ia Ib. apply in_map_iff in Ia as (i & <- & Ii). destruct (lidx_vert l i XI (HI' i Ii)) as (o & _ & Io & <- & _). destruct (OPS b Ib) as (p & Ip & <-).
    rewrite anti_sym, tfun_anti by auto using stab_op, logical_op. apply (xc_commute cd); auto using logical_op. }
  set (d := if anc then 1 else match c_logicals (c_ops cd) with r :: _ => weight r | [] => 0 end).
  assert (D0 : 0 < d).
  { unfold d. destruct anc; auto. destruct (xc_rows cd XC) as (_ & E & _ & N & _). rewrite E. fold l in N |- *. destruct (l_logicals l) as [|o os] eqn:EO; [congruence|]. cbn [map].
    assert (Io : In o (l_operators l)) by (apply logical_op; rewrite EO; left; auto). rewrite weight_edges by auto.
    unfold from_codelattice in OP. destruct (stabilisers l); [|discriminate]. cbn [bindR] in OP. unfold logical_operators, vertices_to_operators in OP. rewrite EO in OP. cbn [mapR] in OP.
    destruct (v_edges (l_heap l o)) eqn:EV; [|cbn; lia]. rewrite vertex_operator_empty in OP by auto. discriminate. }
  assert (RL : exists w, reads n Ls (tfun l) w (logicals_ins l no_errors anc is) /\ forall a, In a Ls -> w a = d).
  { unfold d. destruct anc.
    - exists (fun _ => 1). split; auto. apply logicals_read_ancilla; auto.
      + intros i Ii. destruct (lidx_vert l i XI (HI' i Ii)) as (o & Eo & Io & <- & _). unfold n. rewrite Ec. apply ins_bound. unfold memory_ins. cbv zeta. apply in_app_iff. left. eapply logical_in; eauto.
      + intros i j Ii Ij. rewrite <- (commutator_tfun cd) by auto. auto.
    - destruct RD as [RD|RD]; [discriminate|]. exists (fun a => List.length (v_edges (l_heap l (vert l a)))). split.
      + apply logicals_read_data; auto. intros i o ed Ii Eo Ie Eop. destruct (RD i Ii) as [RZ _].
        assert (FB := RZ (eqn l (e_data ed))). rewrite (fac_logical cd) in FB by auto. fold l in FB. destruct (lidx_vert l i XI (HI' i Ii)) as (o' & Eo' & Io & En & _).
        assert (o' = o) by congruence. subst o'. rewrite <- En, tfun_bits, nth_pw in FB by (auto using logical_op; apply (cons_ends _ C ed Ie)).
        rewrite <- Eop, pw_edge in FB by auto. assert (Y := NY ed Ie). destruct (e_factor ed); auto; discriminate.
      + intros a Ia. apply in_map_iff in Ia as (i & <- & Ii). destruct (RD i Ii) as [_ W]. destruct (lidx_vert l i XI (HI' i Ii)) as (o & Eo & Io & En & ->).
        destruct (xc_rows cd XC) as (_ & E & _). fold l in E. assert (N : nth_error (c_logicals (c_ops cd)) i = Some (op_row l o)) by (rewrite E, nth_error_map, Eo; auto).
        rewrite (nth_error_nth _ _ row0 N) in W. rewrite <- weight_edges by auto using logical_op. rewrite W. destruct (c_logicals (c_ops cd)); auto. }
  destruct RL as (w & RL & Hw).
  assert (SM : forall b, measures n (dn l) none L (tfun l) (stabs_ins l no_errors b)).
  { intros b. apply (measures_err n (dn l) (errf no_errors b)); [|apply stabs_measures; auto]. intros a. unfold errf, meas_flip, meas_entry. destruct b; auto. }
  set (Mid := flat_map (fun b => noise_round l e ++ stabs_ins l e b) (repeat true R) ++ noise_round l e).
  assert (EM : memory_ins cd e anc is = logicals_ins l no_errors anc is ++ stabs_ins l no_errors false ++ (Mid ++ stabs_ins l no_errors false) ++ logicals_ins l no_errors anc is).
  { unfold memory_ins, Mid. cbv zeta. fold l R. rewrite <- (stabs_quiet l e), <- (logicals_quiet l e). rewrite flat_map_app. cbn [flat_map]. rewrite List.app_nil_r, <- !List.app_assoc. auto. }
  assert (IN : forall i, In i Mid -> In i (memory_ins cd e anc is)) by (intros i Hi; rewrite EM; rewrite !in_app_iff; auto 10).
  assert (CM : cl Mid = flat_map (fun _ => stabs_ins l no_errors true) (repeat true R)).
  { unfold Mid. rewrite cl_app, cl_noise, no_noise, List.app_nil_r. apply cl_flat. intros b Ib. apply repeat_spec in Ib. subst b. rewrite cl_app, cl_noise, no_noise, cl_stabs. auto. }
  rewrite EM in IR.
  destruct (noisy_lemma n (List.length (l_data l)) L (tfun l) Ls (tfun l) w (stabs_ins l no_errors false) (logicals_ins l no_errors anc is) Mid)
    with (v := ket0) (ms := s_meas s) (es := s_eras s) (v' := v) as (B0 & BF & x0 & mm & xR & f & EMS & LM & F0 & FF & FX & FR & VR & VL); auto.
  - apply Forall_forall. intros i Hi q Hq. unfold n. rewrite Ec. apply (nq_bound _ (ins_gate i)); auto. apply in_map. auto.
  - apply Forall_forall. intros i Hi. assert (MD := memory_distinct cd e anc is C XI). rewrite Forall_forall in MD. auto.
  - rewrite CM. clear - SM. generalize R as r. induction r as [|r IH]; intros u ms u' N H; cbn [repeat flat_map] in H.
    + apply irun_nil in H. destruct H as (_ & _ & ->). auto.
    + apply irun_app in H. destruct H as (m1 & e1 & v1 & m2 & e2 & A & H & _ & EE). symmetry in EE. apply app_eq_nil in EE as [-> ->].
      apply (SM true) in A; auto. destruct A as (_ & N1 & _ & K1). apply IH in H; auto. destruct H as [N2 K2]. split; auto.
  - intros a _. apply tfun_data_only.
  - intros a _. apply tfun_data_only.
  - apply SimProofs.nz_ket0.
  - assert (LL : List.length L = List.length (l_stabs l)) by apply seq_length.
    assert (LMM : List.length mm = R * List.length L).
    { rewrite LM. unfold Mid. rewrite flat_map_app, im_noise, List.app_nil_r. rewrite LL. clear - XI. induction R as [|r IH]; auto. cbn [repeat flat_map]. rewrite !flat_map_app, !app_length, IH, im_noise, im_stabs by auto. rewrite seq_length. cbn. lia. }
    set (rows := chunks R (List.length L) mm).
    assert (LR : List.length rows = R) by apply chunks_len.
    assert (WR : forall r, In r rows -> List.length r = List.length L) by (apply chunks_width; auto).
    set (fD := fun q => if q <? List.length (l_data l) then f q else pid).
    assert (AD : forall h, anti (dn l) h fD = anti (dn l) h f).
    { intros h. apply anti_ext; auto. intros q Iq. apply in_seq in Iq. unfold fD. destruct (Nat.ltb_spec q (List.length (l_data l))); auto. lia. }
    set (X := map (with_flips (List.length L) x0) rows ++ [xR]).
    set (e' := free_errors (List.length (l_data l)) (List.length (l_stabs l))).
    assert (RAW : s_meas s = List.concat B0 ++ flat_map (map fst) (x0 :: X) ++ List.concat BF).
    { rewrite EMS. cbn [flat_map]. unfold X. rewrite flat_map_app. cbn [flat_map]. rewrite List.app_nil_r, <- !List.app_assoc. do 2 f_equal.
      replace (flat_map (map fst) (map (with_flips (List.length L) x0) rows)) with mm; auto.
      rewrite flat_map_map. transitivity (List.concat rows); [symmetry; apply concat_chunks; auto|]. rewrite <- (map_id rows) at 1. rewrite concat_flat. apply flat_map_ext_in'. intros r Ir. symmetry. apply with_flips_fst; auto. }
    destruct (C28_widths cd XC) as (KP & NP & WP). specialize (WP anc).
    assert (ERZ : c_rounds cd = Z.of_nat (S R)) by lia.
    destruct (lengths_ok cd anc _ er sm (S R) ERZ KP WP NP UN) as [LRAW UNP].
    destruct (unpack_ok cd (S R) None anc (s_meas s) ERZ KP WP LRAW I) as (sm0 & UN0 & UNP0 & _).
    rewrite RAW in UN0.
    destruct (history_shows cd e' anc is R d B0 BF x0 X (repeat (fun _ => pid) R ++ [fD]) (repeat (fun _ => []) (S R)) None sm0) as (E & K & F & PH & SH); auto.
    + unfold X. rewrite app_length, map_length, LR. cbn. lia.
    + rewrite app_length, repeat_length. cbn. lia.
    + apply repeat_length.
    + eapply Forall2_impl_in; [exact F0|]. intros a blk Ia Hl. cbn beta in Hl. rewrite Hl. apply Hw; auto.
    + eapply Forall2_impl_in; [exact FF|]. intros a blk Ia Hl. cbn beta in Hl. rewrite Hl. apply Hw; auto.
    + assert (ZE : forall m, Forall2 (fun E fls => data_only (dn l) E /\ forall q, In q (dn l) -> noise_ok (data_pauli e' (Some q)) (data_erase e' (Some q)) (E q) (fls q)) (repeat (fun _ => pid) m ++ [fD]) (repeat (fun _ => []) (S m))).
      { induction m as [|m IH]; cbn [repeat app]; (constructor; [|auto]).
        - split; [|intros q Iq; apply free_noise; apply in_seq in Iq; lia]. intros q Hq. unfold fD. destruct (Nat.ltb_spec q (List.length (l_data l))); auto. exfalso. apply Hq. apply in_seq. lia.
        - split; [intros q _; auto|]. intros q Iq. apply free_noise. apply in_seq in Iq. lia. }
      apply ZE.
    + constructor; [exact FX|]. unfold X. apply Forall2_app; [|constructor; [exact FR|constructor]]. rewrite <- LR at 1. clear - LL. induction rows as [|r rows IH]; cbn [List.length repeat map]; constructor; auto.
      unfold with_flips. apply Forall2_numbered. intros j Hj. cbn [snd]. apply free_flip. apply nth_In. auto.
    + fold l L. rewrite <- LR. apply mid_steps; auto. intros s1 Hs. rewrite AD. apply VR; auto.
    + intros k Hk. rewrite total_mid, AD. apply VL; auto.
    + rewrite ER. set (nd := n_data_qubits (c_ops cd)).
      assert (EK : exists K', forall m, sm_erased sm = Some m -> m = map (fun t => map (K' t) (seq 0 nd)) (seq 0 (S R))).
      { destruct (sm_erased sm) as [m|] eqn:Em; [|exists (fun _ _ => false); discriminate].
        destruct (erased_grid cd anc _ er sm (S R) ERZ KP WP NP UN m Em) as (K' & EK). exists K'. intros m' [= <-]. auto. }
      destruct EK as (K' & EK). exists is, E, K', F. split; auto. assert (NS : n_stabgens (c_ops cd) = List.length (l_stabs l)) by (apply xc_ns; auto). rewrite NS.
      split; [intros j Hj; apply (ph_first _ _ _ _ _ _ _ PH); auto|]. split; [intros j Hj; apply (ph_last _ _ _ _ _ _ _ PH); auto|].
      destruct UNP as [_ _ T1 _ S1], UNP0 as [_ _ T0 _ S0]. destruct SH as [A1 A2 A3 A4 A5 _].
      assert (ES : sm_syndrome sm = sm_syndrome sm0) by congruence. assert (ET : sm_toggle sm = sm_toggle sm0) by congruence.
      split; rewrite ?ES, ?ET; auto.
Qed.
