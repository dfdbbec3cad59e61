(** Lemmas: what the results of a memory experiment show about its error history, and the chances of
    the histories. *)
Require Import String List Bool Arith ZArith QArith Qfield Lia Lqa.
From Verif Require Import Base BaseProofs QSpec PauliModel PauliSem PauliProofs PauliAlg StateSpec GateProofs CircuitModel SimSpec SimModel SimProofs
  LatticeModel LatticeSpec LatticeProofs LatticeOps LatticeRows CodesModel CodesSpec GeneratorModel GeneratorSpec StabTrack RoundProofs MemoryProofs GeneratorProofs GeneratorSem
  UnpackProofs MemorySem MemoryTotal ExperimentProofs DistSpec DistMean DistSim HistorySpec HistoryPaths HistorySums HistoryChain HistoryExp.
Import ListNotations.
Local Open Scope string_scope.
Local Open Scope nat_scope.
Local Open Scope list_scope.

Lemma nth_map_seq0 {A} (f : nat -> A) d n t : t < n -> nth t (map f (seq 0 n)) d = f t.
Proof. intros H. rewrite (nth_indep _ d (f 0)) by (rewrite map_length, seq_length; auto). rewrite map_nth, seq_nth by auto. auto. Qed.
Lemma errors_at_seq : forall c k q, q < List.length c -> HistorySums.errors_at (seq k (List.length c)) c (k + q) = error_of (nth q c (PI, None)).
Proof.
  induction c as [|x c IH]; intros k q H; [cbn in H; lia|]. unfold HistorySums.errors_at. cbn [List.length seq combine find fst]. destruct q as [|q].
  - rewrite Nat.add_0_r, Nat.eqb_refl. auto.
  - destruct (Nat.eqb_spec k (k + S q)); [lia|]. cbn [nth]. specialize (IH (S k) q ltac:(cbn in H; lia)). unfold HistorySums.errors_at in IH. replace (S k + q) with (k + S q) in IH by lia. exact IH.
Qed.
Lemma flags_all_seq e : forall c k, (forall q, k <= q < k + List.length c -> data_erase e (Some q) <> None) -> flags e (seq k (List.length c)) c = map erasure_of c.
Proof.
  induction c as [|x c IH]; intros k H; auto. unfold flags. cbn [List.length seq combine flat_map map fst snd]. unfold flag at 1.
  assert (D := H k ltac:(cbn; lia)). destruct (data_erase e (Some k)) as [p0|]; [|congruence]. cbn [app]. f_equal. apply IH. intros q Hq. apply H. cbn. lia.
Qed.
Lemma flags_none e : er_erasure e = [] -> forall D c, flags e D c = [].
Proof. intros E D c. unfold flags. apply flat_nil'. intros [q x] _. unfold flag, data_erase, get1. rewrite E. auto. Qed.
Lemma xc_data cd : experiment_code cd -> 0 < List.length (l_data (c_lattice cd)).
Proof.
  intros XC. destruct (xc_rows cd XC) as (_ & _ & _ & N & _). destruct XC as [C XI OP _ _ _]. destruct (l_logicals (c_lattice cd)) as [|o os] eqn:EO; [congruence|].
  unfold from_codelattice in OP. destruct (stabilisers (c_lattice cd)); [|discriminate]. cbn [bindR] in OP. unfold logical_operators, vertices_to_operators in OP. rewrite EO in OP. cbn [mapR] in OP.
  destruct (v_edges (l_heap (c_lattice cd) o)) as [|ed eds] eqn:EV; [rewrite vertex_operator_empty in OP by auto; discriminate|].
  assert (I : In ed (v_edges (l_heap (c_lattice cd) o))) by (rewrite EV; left; auto). rewrite op_edges in I by (auto; apply logical_op; rewrite EO; left; auto).
  apply filter_In in I as [I _]. destruct (cons_ends _ C ed I) as [D _]. destruct (l_data (c_lattice cd)); [destruct D|cbn; lia].
Qed.

Lemma shows_exact cd e (anc : bool) is R d B0 BF x0 X h :
  experiment_code cd -> c_rounds cd = Z.of_nat (S R) -> List.length is = n_logical_qubits (c_ops cd) ->
  (forall i, In i is -> i < List.length (l_logicals (c_lattice cd))) ->
  d = (if anc then 1 else match c_logicals (c_ops cd) with r :: _ => weight r | [] => 0 end) -> 0 < d ->
  er_erasure e = [] \/ erasure_everywhere (n_data_qubits (c_ops cd)) e ->
  let l := c_lattice cd in let D := dn l in let L := seq (List.length (l_data l)) (List.length (l_stabs l)) in let Ls := map (lidx l) is in
  List.length h = S R -> Forall (fun r : round_error => List.length (fst r) = List.length (l_data l) /\ List.length (snd r) = List.length (l_stabs l)) h ->
  Forall2 (fun (_ : nat) (blk : list bool) => List.length blk = d) Ls B0 -> Forall2 (fun (_ : nat) (blk : list bool) => List.length blk = d) Ls BF ->
  List.length x0 = List.length (l_stabs l) -> Forall (fun x : bool * bool => snd x = false) x0 ->
  Forall2 (fun (r : round_error) (x : list (bool * bool)) => map snd x = snd r) h X ->
  steps D (tfun l) L x0 X (errs_of D h) ->
  (forall k, k < List.length Ls -> xorb (par_bits (nth k B0 [])) (par_bits (nth k BF [])) = total D (tfun l (nth k Ls 0)) (errs_of D h)) ->
  exists sm, from_code_and_raw_results cd (List.concat B0 ++ flat_map (map fst) (x0 :: X) ++ List.concat BF) (match flags_of e D h with [] => None | fs => Some fs end) anc = Ok sm /\
    sm_syndrome sm = syndrome_of cd h /\ sm_toggle sm = toggle_of cd is h /\ sm_erased sm = erasures_of cd e h.
Proof.
  intros XC HR LI HI Hd D0 EE l D L Ls LH LR F0 FF LX0 X0 FX ST TG.
  assert (K0 : 0 < List.length is).
  { rewrite LI. unfold n_logical_qubits. destruct (xc_rows cd XC) as (_ & G & _ & N & M). rewrite G, map_length. fold l. destruct (l_logicals l) as [|a [|b r]] eqn:EL; fold l in M; rewrite EL in M.
    - fold l in N. congruence. - discriminate. - cbn [List.length]. apply Nat.div_str_pos. lia. }
  assert (NS : n_stabgens (c_ops cd) = List.length (l_stabs l)) by (apply xc_ns; auto).
  assert (ND : n_data_qubits (c_ops cd) = List.length (l_data l)) by (apply xc_nd; auto).
  assert (LB0 := Forall2_len' _ _ _ F0). assert (LBF := Forall2_len' _ _ _ FF). unfold Ls in LB0, LBF. rewrite map_length in LB0, LBF.
  assert (W0 : forall x, In x B0 -> List.length x = d) by (intros x I; clear - F0 I; induction F0; destruct I; subst; auto).
  assert (WF : forall x, In x BF -> List.length x = d) by (intros x I; clear - FF I; induction FF; destruct I; subst; auto).
  assert (LX := Forall2_len' _ _ _ FX). rewrite LH in LX. symmetry in LX.
  set (SS := map (map fst) (x0 :: X)) in *.
  assert (WS : forall x, In x (x0 :: X) -> List.length x = List.length (l_stabs l)).
  { intros x [<-|I]; auto. clear - FX LR I. induction FX as [|r y h X E FX IH]; [destruct I|]. inversion LR as [|? ? [_ A] B]; subst. destruct I as [<-|I]; auto. rewrite <- A, <- E, map_length. auto. }
  assert (LSS : List.length SS = S R + 1) by (unfold SS; rewrite map_length; cbn [List.length]; lia).
  assert (WSS : forall x, In x SS -> List.length x = n_stabgens (c_ops cd)).
  { intros x I. unfold SS in I. apply in_map_iff in I as (y & <- & I). rewrite map_length, NS. auto. }
  set (er := match flags_of e D h with [] => None | fs => Some fs end).
  assert (UNP : from_code_and_raw_results cd (List.concat B0 ++ List.concat SS ++ List.concat BF) er anc = unpack_rest cd (map parity B0) (map parity BF) SS er).
  { destruct anc.
    - subst d. assert (P1 : forall B : list (list bool), (forall x, In x B -> List.length x = 1) -> List.concat B = map parity B).
      { induction B as [|b B IH]; intros H; auto. cbn [List.concat map]. rewrite IH by (intros; apply H; right; auto). specialize (H b (or_introl eq_refl)).
        destruct b as [|b0 [|]]; try discriminate. cbn. rewrite xorb_false_r. auto. }
      rewrite (P1 B0), (P1 BF) by auto. apply (unpack_ancilla cd (S R) (List.length is)); auto; rewrite map_length; auto.
    - apply (unpack_data cd (S R) (List.length is) d); auto. }
  unfold SS in UNP at 1. rewrite concat_flat in UNP. rewrite UNP. clear UNP. unfold unpack_rest.
  assert (ER : (do m <- match er with
                        | None => Ok None
                        | Some f => if (Z.of_nat (List.length f) =? c_rounds cd * Z.of_nat (n_data_qubits (c_ops cd)))%Z then do m <- reshape (c_rounds cd) (n_data_qubits (c_ops cd)) f; Ok (Some m) else Err ValueError
                        end; Ok m) = Ok (erasures_of cd e h)).
  { unfold er, erasures_of. destruct (er_erasure e) as [|ee es] eqn:EER.
    - unfold flags_of. rewrite flat_nil' by (intros r _; apply flags_none; auto). reflexivity.
    - destruct EE as [EE|EE]; [discriminate|]. rewrite ND in EE |- *. rewrite LH.
      set (ROWS := map (fun t => map (fun q => erasure_of (at_qubit h t q)) (seq 0 (List.length (l_data l)))) (seq 0 (S R))).
      assert (RW : flags_of e D h = List.concat ROWS).
      { unfold ROWS. rewrite <- LH. unfold at_qubit, at_round.
        rewrite (UnpackProofs.map_nth_seq (fun r : round_error => map (fun q => erasure_of (nth q (fst r) (PI, None))) (seq 0 (List.length (l_data l)))) ([], []) h).
        rewrite concat_flat. unfold flags_of. apply flat_map_ext_in'. intros r I. rewrite Forall_forall in LR. destruct (LR r I) as [A _].
        unfold D, dn. rewrite <- A. rewrite flags_all_seq.
        - symmetry. apply (UnpackProofs.map_nth_seq erasure_of (PI, None)).
        - intros q Hq. destruct (EE q ltac:(lia)) as (p & G & NP). unfold data_erase. rewrite G. destruct p; congruence. }
      assert (L1 : List.length (List.concat ROWS) = S R * List.length (l_data l)).
      { rewrite (concat_len (List.length (l_data l))).
        - unfold ROWS. rewrite map_length, seq_length. auto.
        - intros x I. unfold ROWS in I. apply in_map_iff in I as (t & <- & _). rewrite map_length, seq_length. auto. }
      assert (PD := xc_data cd XC). fold l in PD. rewrite RW. destruct (List.concat ROWS) as [|b bs] eqn:EC; [cbn [List.length] in L1; nia|].
      rewrite L1, HR. replace (Z.of_nat (S R * List.length (l_data l))) with (Z.of_nat (S R) * Z.of_nat (List.length (l_data l)))%Z by lia. rewrite Z.eqb_refl.
      rewrite <- EC. rewrite reshape_concat.
      + reflexivity.
      + unfold ROWS. rewrite map_length, seq_length. auto.
      + intros x I. unfold ROWS in I. apply in_map_iff in I as (t & <- & _). rewrite map_length, seq_length. auto. }
  match type of ER with (do m <- ?E; Ok m) = _ => destruct E as [m|]; [|discriminate] end. cbn [bindR] in ER |- *. injection ER as ->.
  eexists. split; [reflexivity|]. cbn [sm_syndrome sm_toggle sm_erased].
  assert (NSS : forall t, nth t SS [] = map fst (nth t (x0 :: X) [])) by (intros t; unfold SS; apply (map_nth (map fst) (x0 :: X) [])).
  assert (WN : forall t, t < S R + 1 -> List.length (nth t SS []) = List.length (l_stabs l)) by (intros t Ht; rewrite <- NS; apply WSS; apply nth_In; lia).
  assert (EA : forall f t, t < S R -> anti D f (nth t (errs_of D h) (fun _ => pid)) = anti D f (fun q => error_of (at_qubit h t q))).
  { intros f t Ht. assert (I : In (nth t h ([], [])) h) by (apply nth_In; lia). rewrite Forall_forall in LR. destruct (LR _ I) as [A _].
    apply MemoryProofs.anti_ext; auto. intros q Iq. unfold errs_of.
    assert (EN : nth_error (map (fun r : round_error => HistorySums.errors_at D (fst r)) h) t = Some (HistorySums.errors_at D (fst (nth t h ([], []))))).
    { rewrite nth_error_map. rewrite (nth_error_nth' h ([], [])) by lia. auto. }
    rewrite (nth_error_nth _ _ _ EN). unfold at_qubit, at_round.
    unfold D, dn in Iq |- *. apply in_seq in Iq. rewrite <- A. apply (errors_at_seq (fst (nth t h ([], []))) 0 q). lia. }
  assert (WR : forall t s, t < S R + 1 -> s < List.length (l_stabs l) -> snd (nth s (nth t (x0 :: X) []) bb0) = wrong h t s).
  { intros [|t] s Ht Hs; cbn [nth wrong].
    - rewrite Forall_forall in X0. apply X0. apply nth_In. rewrite LX0. exact Hs.
    - assert (Ht' : t < List.length h) by lia. assert (E := Forall2_nth_in _ _ _ ([], []) [] t FX Ht'). cbn beta in E. rewrite <- (map_nth snd (nth t X []) bb0 s). unfold at_round. exact (f_equal (fun z => nth s z false) E). }
  assert (FS : forall (x : list (bool * bool)) s, nth s (map fst x) false = fst (nth s x bb0)) by (intros x s; apply (map_nth fst x bb0 s)).
  assert (PS : forall B k, nth k (map parity B) false = parity (nth k B [])) by (intros B k; apply (map_nth parity B [] k)).
  conjs; auto.
  - apply (nth_ext _ _ [] []).
    + rewrite syndrome_len, LSS. unfold syndrome_of. rewrite map_length, seq_length. lia.
    + intros t Ht. rewrite syndrome_len in Ht. rewrite syndrome_nth by lia. unfold syndrome_of. rewrite nth_map_seq0 by lia.
      apply (nth_ext _ _ false false).
      * rewrite xor_vec_len by (rewrite !WN by lia; auto). rewrite WN by lia. rewrite map_length, seq_length. auto.
      * intros s Hs. rewrite xor_vec_len in Hs by (rewrite !WN by lia; auto). rewrite WN in Hs by lia. rewrite nth_map_seq0 by lia.
        rewrite nth_xor_vec by (rewrite !WN by lia; auto). rewrite !NSS, !FS.
        assert (H := steps_nth D (tfun l) L X (errs_of D h) x0 ST t s ltac:(lia) ltac:(unfold L; rewrite seq_length; auto)). unfold L in H. rewrite seq_nth in H by auto. rewrite EA in H by lia.
        rewrite fac_stab by auto. rewrite dn_nd by auto. fold l D. rewrite <- !WR by lia. replace (t + 1) with (S t) by lia. revert H. unfold val.
        destruct (nth s (nth (S t) (x0 :: X) []) bb0) as [a1 b1], (nth s (nth t (x0 :: X) []) bb0) as [a2 b2]. cbn [fst snd].
        destruct (anti D _ _), a1, b1, a2, b2; cbn; intros; auto; discriminate.
  - apply (nth_ext _ _ false false).
    + rewrite xor_vec_len by (rewrite !map_length; lia). unfold toggle_of. rewrite !map_length. lia.
    + intros k Hk. rewrite xor_vec_len in Hk by (rewrite !map_length; lia). rewrite map_length in Hk.
      rewrite nth_xor_vec by (rewrite !map_length; lia). rewrite !PS.
      assert (H := TG k ltac:(unfold Ls; rewrite map_length; lia)). unfold Ls in H. rewrite nth_map_lidx in H by lia.
      change parity with par_bits. rewrite H. unfold toggle_of.
      match goal with |- _ = nth k (map ?f is) false => rewrite (nth_indep (map f is) false (f 0)) by (rewrite map_length; lia); rewrite (map_nth f is 0 k) end. cbv beta.
      rewrite fac_logical by (auto; apply HI, nth_In; lia). rewrite dn_nd by auto. fold l D. unfold total. f_equal.
      assert (EL : List.length (errs_of D h) = List.length h) by (unfold errs_of; apply map_length).
      transitivity (map (fun t => anti D (tfun l (lidx l (nth k is 0))) (nth t (errs_of D h) (fun _ => pid))) (seq 0 (List.length h))); [rewrite <- EL; symmetry; apply UnpackProofs.map_nth_seq|].
      apply map_ext_in. intros t Ht. apply in_seq in Ht. apply EA. lia.
Qed.

(** * Chances of histories *)
Lemma entry_prob e b a p : meas_flip e b (Some a) = Some p -> (p == (if b then flip_prob e a else 0))%Q.
Proof.
  unfold meas_flip, meas_entry, flip_prob. destruct b; [|discriminate]. destruct (get1 (er_measurement e) (Some a)) as [[|kv r]|]; try discriminate.
  unfold pget. destruct (find _ _); [|discriminate]. intros [= <-]. reflexivity.
Qed.
Lemma entry_none e b a : entry e b a = false -> ((if b then flip_prob e a else 0) == 0)%Q.
Proof.
  unfold entry, meas_flip, meas_entry, flip_prob. destruct b; [|reflexivity]. destruct (get1 (er_measurement e) (Some a)) as [[|kv r]|]; try reflexivity.
  unfold pget. destruct (find _ _); [discriminate|reflexivity].
Qed.
Lemma chances_history e nd ns : forall R h, List.length h = S R ->
  HistoryChain.chances e (seq 0 nd) (seq nd ns) (fun (b : bool) a => if b then flip_prob e a else 0%Q) (repeat true R ++ [false]) h = history_chance e nd ns h.
Proof.
  induction R as [|R IH]; intros [|r h] LH; try discriminate.
  - destruct h; [|discriminate]. reflexivity.
  - cbn [repeat app HistoryChain.chances history_chance]. destruct h as [|r' h]; [discriminate|]. rewrite IH by (cbn in *; lia). reflexivity.
Qed.

(** * The experiment *)
Theorem memory_expected cd e anc is (G : list (list bool) -> list bool -> option (list (list bool)) -> Q) :
  experiment_code cd -> no_gate_errors e -> (1 <= c_rounds cd)%Z -> List.length is = n_logical_qubits (c_ops cd) ->
  (forall i, In i is -> i < List.length (l_logicals (c_lattice cd))) ->
  (forall i j, In i is -> In j is -> commutator_sign (nth i (c_logicals (c_ops cd)) row0) (nth j (c_logicals (c_ops cd)) row0) = false) ->
  anc = true \/ readable cd is -> er_erasure e = [] \/ erasure_everywhere (n_data_qubits (c_ops cd)) e ->
  let c := map ins_gate (memory_ins cd e anc is) in
  (expected (number_of_qubits c) (map item_of (memory_ins cd e anc is))
     (fun _ ms es => match from_code_and_raw_results cd ms (match es with [] => None | fs => Some fs end) anc with Ok sm => G (sm_syndrome sm) (sm_toggle sm) (sm_erased sm) | Err _ => 0 end) ket0 [] [] ==
   sum_over (histories (n_data_qubits (c_ops cd)) (n_stabgens (c_ops cd)) (Z.to_nat (c_rounds cd)))
     (fun h => history_chance e (n_data_qubits (c_ops cd)) (n_stabgens (c_ops cd)) h * G (syndrome_of cd h) (toggle_of cd is h) (erasures_of cd e h)))%Q.
Proof.
  intros XC NG HR LI HI' CO RD EE c. set (n := number_of_qubits c). assert (Ec : c = map ins_gate (memory_ins cd e anc is)) by auto.
  assert (XC' := XC). destruct XC' as [C XI OP NY CK SC]. set (l := c_lattice cd) in *.
  set (R := Z.to_nat (c_rounds cd - 1)). assert (ER : Z.to_nat (c_rounds cd) = S R) by (unfold R; lia).
  assert (BS : forall o, In o (l_stabs l) -> eqn l o < n).
  { intros o I. unfold n. rewrite Ec. apply ins_bound. unfold memory_ins. cbv zeta. apply in_app_iff. right. apply in_app_iff. left. apply stab_in; auto. }
  assert (BD : forall q, In q (dn l) -> q < n).
  { intros q I. apply in_seq in I. destruct (xc_rows cd XC) as (_ & _ & N & _). fold l in N. destruct (l_stabs l) as [|o os] eqn:EO; [congruence|].
    assert (Io : In o (l_stabs l)) by (rewrite EO; left; auto). assert (A := BS o (or_introl eq_refl)). assert (B := eqn_op_ge l o XI (stab_op l o Io)). lia. }
  assert (BL : anc = true -> forall i o, In i is -> nth_error (l_logicals l) i = Some o -> eqn l o < n).
  { intros -> i o Ii Eo. unfold n. rewrite Ec. apply ins_bound. unfold memory_ins. cbv zeta. apply in_app_iff. left. eapply logical_in; eauto. }
  set (L := seq (List.length (l_data l)) (List.length (l_stabs l))). set (Ls := map (lidx l) is).
  assert (OPS : forall a, In a L -> exists o, In o (l_stabs l) /\ eqn l o = a) by (intros a I; apply in_stab_indices; auto).
  assert (CT : forall a b, In a L -> In b L -> anti (dn l) (tfun l a) (tfun l b) = false).
  { intros a b Ia Ib. destruct (OPS a Ia) as (o & Io & <-), (OPS b Ib) as (p & Ip & <-). rewrite tfun_anti by auto using stab_op. apply (xc_commute cd); auto using stab_op. }
  assert (CTL : forall a b, In a Ls -> In b L -> anti (dn l) (tfun l a) (tfun l b) = false).
  { intros a b Ia Ib. apply in_map_iff in Ia as (i & <- & Ii). destruct (lidx_vert l i XI (HI' i Ii)) as (o & _ & Io & <- & _). destruct (OPS b Ib) as (p & Ip & <-).
    rewrite anti_sym, tfun_anti by auto using stab_op, logical_op. apply (xc_commute cd); auto using logical_op. }
  set (d := if anc then 1 else match c_logicals (c_ops cd) with r :: _ => weight r | [] => 0 end).
  assert (D0 : 0 < d).
  { unfold d. destruct anc; auto. destruct (xc_rows cd XC) as (_ & E & _ & N & _). rewrite E. fold l in N |- *. destruct (l_logicals l) as [|o os] eqn:EO; [congruence|]. cbn [map].
    assert (Io : In o (l_operators l)) by (apply logical_op; rewrite EO; left; auto). rewrite weight_edges by auto.
    unfold from_codelattice in OP. destruct (stabilisers l); [|discriminate]. cbn [bindR] in OP. unfold logical_operators, vertices_to_operators in OP. rewrite EO in OP. cbn [mapR] in OP.
    destruct (v_edges (l_heap l o)) eqn:EV; [|cbn; lia]. rewrite vertex_operator_empty in OP by auto. discriminate. }
  assert (RL : exists w, reads n Ls (tfun l) w (logicals_ins l e anc is) /\ forall a, In a Ls -> w a = d).
  { unfold d. destruct anc.
    - exists (fun _ => 1). split; auto. apply logicals_read_ancilla; auto.
      + intros i Ii. destruct (lidx_vert l i XI (HI' i Ii)) as (o & Eo & Io & <- & _). apply (BL eq_refl i); auto.
      + intros i j Ii Ij. rewrite <- (commutator_tfun cd) by auto. auto.
    - destruct RD as [RD|RD]; [discriminate|]. exists (fun a => List.length (v_edges (l_heap l (vert l a)))). split.
      + apply logicals_read_data; auto. intros i o ed Ii Eo Ie Eop. destruct (RD i Ii) as [RZ _].
        assert (FB := RZ (eqn l (e_data ed))). rewrite (fac_logical cd) in FB by auto. fold l in FB. destruct (lidx_vert l i XI (HI' i Ii)) as (o' & Eo' & Io & En & _).
        assert (o' = o) by congruence. subst o'. rewrite <- En, tfun_bits, nth_pw in FB by (auto using logical_op; apply (cons_ends _ C ed Ie)).
        rewrite <- Eop, pw_edge in FB by auto. assert (Y := NY ed Ie). destruct (e_factor ed); auto; discriminate.
      + intros a Ia. apply in_map_iff in Ia as (i & <- & Ii). destruct (RD i Ii) as [_ W]. destruct (lidx_vert l i XI (HI' i Ii)) as (o & Eo & Io & En & ->).
        destruct (xc_rows cd XC) as (_ & E & _). fold l in E. assert (N : nth_error (c_logicals (c_ops cd)) i = Some (op_row l o)) by (rewrite E, nth_error_map, Eo; auto).
        rewrite (nth_error_nth _ _ row0 N) in W. rewrite <- weight_edges by auto using logical_op. rewrite W. destruct (c_logicals (c_ops cd)); auto. }
  destruct RL as (w & RL & Hw).
  assert (SC' : l_steps l = None \/ (forall ed, In ed (l_edges l) -> e_time ed <> None -> In (e_op ed) (l_stabs l))) by (destruct SC as [SC|(_ & _ & SC)]; auto).
  unfold memory_ins. cbv zeta. fold l. fold R. rewrite noise_round_ins by auto.
  assert (NS : n_stabgens (c_ops cd) = List.length (l_stabs l)) by (apply xc_ns; auto).
  assert (ND : n_data_qubits (c_ops cd) = List.length (l_data l)) by (apply xc_nd; auto).
  set (pr := fun (b : bool) a => if b then flip_prob e a else 0%Q).
  assert (MAIN := exp_memory n e (dn l) L Ls (tfun l) (tfun l) (stabs_ins l e) (logicals_ins l e anc is) w pr (entry e)).
  unfold noise in MAIN. rewrite (MAIN ltac:(apply seq_NoDup) ltac:(apply seq_NoDup) BD) with (phi := fun h => G (syndrome_of cd h) (toggle_of cd is h) (erasures_of cd e h)).
  - unfold histories, round_errors. rewrite ER, ND, NS.
    replace (List.length (repeat true R ++ [false])) with (S R) by (rewrite app_length, repeat_length; cbn; lia). unfold round_list.
    replace (List.length (dn l)) with (List.length (l_data l)) by (unfold dn; rewrite seq_length; auto). replace (List.length L) with (List.length (l_stabs l)) by (unfold L; rewrite seq_length; auto).
    apply sum_ext. intros h Ih. apply words_len in Ih. unfold dn, L, pr. rewrite chances_history by auto. reflexivity.
  - intros a _. apply tfun_data_only.
  - intros a _. apply tfun_data_only.
  - auto.
  - auto.
  - intros b F LF. assert (KEY : map fst (combine L F) = L) by (apply keys_combine; auto). assert (KN : NoDup (map fst (combine L F))) by (rewrite KEY; apply seq_NoDup).
    assert (ES := stabs_known l e b F C XI NG LF). unfold HistoryExp.L in ES. fold L in ES. rewrite ES. split.
    + apply stabs_calm; auto. intros _ a p. apply known_flip; auto.
    + intros v ms es v' N RUN. set (e' := known e (combine L F)) in *.
      assert (SM : measures n (dn l) (errf e' b) L (tfun l) (stabs_ins l e' b)) by (apply stabs_measures; auto).
      destruct (SM v ms es v' N RUN) as (_ & _ & (xs & EM & FR) & K). exists xs. conjs; auto.
      * unfold reads_T. eapply Forall2_impl_in; [exact FR|]. intros a y _ [_ E]. exact E.
      * intros P. unfold possible in P. rewrite Forall_forall in P.
        assert (PT : forall a y f, In (a, f) (combine L F) -> flip_ok (errf e' b a) y -> y = f).
        { intros a y f I FO. unfold errf, meas_flip in FO. specialize (P (a, f) I). cbn [fst snd] in P. unfold entry, meas_flip in P. destruct b.
          - unfold e' in FO. rewrite (known_entry e a f (combine L F) KN I) in FO. destruct (meas_entry e (Some a)).
            + destruct f, y; cbn [flip_ok sure] in FO; auto; discriminate.
            + destruct f; [discriminate P; auto|]. cbn [flip_ok] in FO. auto.
          - destruct f; [discriminate P; auto|]. cbn [flip_ok] in FO. auto. }
        assert (FL : Forall2 (fun a y => flip_ok (errf e' b a) (snd y)) L xs) by (eapply Forall2_impl_in; [exact FR|]; intros a y _ [E _]; exact E).
        revert FL PT. generalize (errf e' b) as err. clear - LF. intros err FL PT. revert F LF PT. induction FL as [|a y L' xs H1 FR IH]; intros [|f F] LF PT; try discriminate; auto.
        cbn [map]. f_equal; [apply (PT a); [left; auto|exact H1]|]. apply IH; [cbn in LF; lia|]. intros a' y' f' I. apply PT. right; auto.
  - intros b. apply stabs_single; auto.
  - intros b a p _ I. apply stabs_flip in I; auto. apply entry_prob. auto.
  - intros b a _. apply flips_le; auto.
  - intros b a. apply entry_none.
  - apply stabs_calm; auto. discriminate.
  - apply (measures_err n (dn l) (errf e false)); [reflexivity|]. apply stabs_measures; auto.
  - apply logicals_calm; auto. intros HA o _ (i & Ii & Eo). apply (BL HA i o); auto.
  - exact RL.
  - apply state_ok_ket0.
  - intros h B0 BF x0 X v' OK F0 FF LX0 X0 FX ST TG.
    assert (LH : List.length h = S R) by (rewrite <- (Forall2_len' _ _ _ OK), app_length, repeat_length; cbn; lia).
    assert (LRR : Forall (fun r : round_error => List.length (fst r) = List.length (l_data l) /\ List.length (snd r) = List.length (l_stabs l)) h).
    { clear - OK. induction OK as [|b r bs h (A & B & _) OK IH]; constructor; auto. unfold dn in A. unfold L in B. rewrite seq_length in A, B. auto. }
    destruct (shows_exact cd e anc is R d B0 BF x0 X h) as (sm & UN & E1 & E2 & E3); auto.
    + lia.
    + eapply Forall2_impl_in; [exact F0|]. intros a blk Ia Hl. cbn beta in Hl. rewrite Hl. apply Hw; auto.
    + eapply Forall2_impl_in; [exact FF|]. intros a blk Ia Hl. cbn beta in Hl. rewrite Hl. apply Hw; auto.
    + rewrite LX0. unfold L. apply seq_length.
    + cbv beta. fold l in UN.
      assert (EQ : match flags_of e (dn l) h with [] => None | _ :: _ => Some (flags_of e (dn l) h) end = match flags_of e (dn l) h with [] => None | b :: l0 => Some (b :: l0) end) by (destruct (flags_of e (dn l) h); auto).
      rewrite EQ, UN, E1, E2, E3. reflexivity.
Qed.

(** * Random numbers *)
Definition grid_ins (N : positive) (i : ins) : Prop :=
  match i with
  | IPauli x y z _ => on_grid N x /\ on_grid N y /\ on_grid N z
  | IErase p _ | IFlip p _ => on_grid N p
  | IPauli2 _ _ _ => False
  | _ => True
  end.
Lemma grid_zero N : on_grid N 0.
Proof. split; [split; discriminate|]. exists 0. reflexivity. Qed.
Lemma grid_pget N k p : (forall k x, In (k, x) p -> on_grid N x) -> on_grid N (pget k p).
Proof.
  intros H. unfold pget. destruct (find (fun kv : string * Q => String.eqb (fst kv) k) p) as [[k' y]|] eqn:E; [|apply grid_zero]. apply find_some in E as [I _]. apply (H k' y I).
Qed.
Lemma grid_noise N l e : on_grid_errors N e -> Forall (grid_ins N) (noise_round l e).
Proof.
  intros (G1 & G2 & _). unfold noise_round. apply Forall_flat_map, Forall_forall. intros v _. unfold noise_at. apply Forall_app. split.
  - unfold data_pauli. destruct (get1 (er_pauli e) (eq_of l v)) as [[|kv p]|] eqn:E; cbn [pauli_ins]; [constructor| |constructor]. apply get1_in in E as (z & I). constructor; [|constructor]. cbn [grid_ins]. conjs; apply grid_pget; intros k x Ix; apply (G1 _ _ k x I Ix).
  - unfold data_erase. destruct (get1 (er_erasure e) (eq_of l v)) as [[|kv p]|] eqn:E; cbn [erase_ins]; [constructor| |constructor]. apply get1_in in E as (z & I). constructor; [|constructor]. cbn [grid_ins]. apply grid_pget; intros k x Ix; apply (G2 _ _ k x I Ix).
Qed.
Lemma grid_stabs N l e b : consistent l -> indexed l -> no_gate_errors e -> on_grid_errors N e -> Forall (grid_ins N) (stabs_ins l e b).
Proof.
  intros C X NG (_ & _ & G3). apply stabs_all; auto; [intros; repeat (constructor; auto)|intros; exact I|]. intros o Io.
  destruct (meas_flip e b (Some (eqn l o))) as [p|] eqn:E; cbn [flip_ins app]; [|repeat (constructor; auto)]. constructor; [exact I|]. constructor; [|repeat constructor]. cbn [grid_ins].
  unfold meas_flip in E. destruct b; [|discriminate]. unfold meas_entry in E. destruct (get1 (er_measurement e) (Some (eqn l o))) as [[|kv r]|] eqn:EG; try discriminate.
  apply get1_in in EG as (z & Iz). destruct (find _ (kv :: r)) as [[k y]|] eqn:EF; [|discriminate]. injection E as <-. apply find_some in EF as [J _]. apply (G3 _ _ k y Iz J).
Qed.
Lemma grid_logicals N l e anc is : no_gate_errors e -> Forall (grid_ins N) (logicals_ins l e anc is).
Proof.
  intros NG. unfold logicals_ins. apply Forall_flat_map, Forall_forall. intros i _. destruct (nth_error (l_logicals l) i) as [o|]; [|constructor]. unfold logical_ins. destruct anc.
  - unfold op_ins. rewrite prep_ins_clean, read_ins_clean by auto. cbn [meas_flip flip_ins app]. constructor; cbn; auto. constructor; cbn; auto. apply Forall_app.
    split; [|repeat constructor]. apply Forall_flat_map, Forall_forall. intros ed _. rewrite edge_ins_clean by auto. repeat constructor.
  - apply Forall_flat_map, Forall_forall. intros ed _. unfold data_ins. destruct (e_factor ed); repeat constructor.
Qed.
Lemma usable_memory N cd e anc is : experiment_code cd -> no_gate_errors e -> probabilities e -> on_grid_errors N e -> usable N (map item_of (memory_ins cd e anc is)).
Proof.
  intros XC NG PR GE. assert (XC' := XC). destruct XC' as [C XI _ _ _ _].
  assert (V := memory_valid e PR cd anc is C XI).
  assert (GI : Forall (grid_ins N) (memory_ins cd e anc is)).
  { unfold memory_ins. cbv zeta. apply Forall_app. split; [apply grid_logicals; auto|]. apply Forall_app. split; [apply grid_stabs; auto|]. apply Forall_app. split; [|apply grid_logicals; auto].
    apply Forall_flat_map, Forall_forall. intros b _. apply Forall_app. split; [apply grid_noise|apply grid_stabs]; auto. }
  unfold usable. apply Forall_map. rewrite Forall_forall in *. intros i I. specialize (V i I). specialize (GI i I). destruct i; cbn [item_of ins_gate ins_valid grid_ins] in *.
  - split; [apply (vg_plain "R" [q]); cbn; tauto|constructor].
  - split; [apply (vg_plain "H" [q]); cbn; tauto|constructor].
  - split; [apply (vg_pairs _ [(a, d)]); [destruct p; cbn; tauto|repeat constructor; auto]|destruct p; constructor].
  - split; [apply (vg_plain "M" [q]); cbn; tauto|constructor].
  - destruct V as (A & B & C' & D'), GI as (G1 & G2 & G3). split.
    + apply (vg_pauli [AFlt x; AFlt y; AFlt z] [x; y; z]); auto. apply (prob_args [x; y; z]).
    + change (Forall (on_grid N) [x; y; z]). auto.
  - split; [apply (vg_erase (AFlt p) p); constructor|]. change (Forall (on_grid N) [p]). auto.
  - constructor; [|constructor]. split; [exact GI|]. constructor; [|constructor]. split; [apply (vg_plain "X" [q]); cbn; tauto|constructor].
  - contradiction.
Qed.

Theorem memory_distribution N cd e x is anc s0 m (G : list (list bool) -> list bool -> option (list (list bool)) -> Q) :
  experiment_code cd -> no_gate_errors e -> named_errors (n_data_qubits (c_ops cd)) (n_stabgens (c_ops cd)) e -> probabilities e ->
  er_erasure e = [] \/ erasure_everywhere (n_data_qubits (c_ops cd)) e ->
  (1 <= c_rounds cd)%Z -> logical_ops_to_indices (c_ops cd) x = Ok is -> compatible is -> anc = true \/ readable cd is -> on_grid_errors N e ->
  (forall c, generate_qec_circuit cd e x anc = Ok c -> calls c <= m) ->
  (mean (sequences N m) (fun ds =>
     match memory_experiment (stream (s_k s0) ds) s0 cd e x anc with Ok sm => G (sm_syndrome sm) (sm_toggle sm) (sm_erased sm) | Err _ => 0 end) ==
   sum_over (histories (n_data_qubits (c_ops cd)) (n_stabgens (c_ops cd)) (Z.to_nat (c_rounds cd)))
     (fun h => history_chance e (n_data_qubits (c_ops cd)) (n_stabgens (c_ops cd)) h * G (syndrome_of cd h) (toggle_of cd is h) (erasures_of cd e h)))%Q.
Proof.
  intros XC NG NE PR EE HR EI CP RD GE LM. assert (GEN := exp_generate cd e x is anc XC NE PR EI CP). specialize (LM _ GEN).
  destruct (indices_ok _ _ _ EI) as [LI HI].
  assert (HI' : forall i, In i is -> i < List.length (l_logicals (c_lattice cd))).
  { intros i I. specialize (HI i I). destruct (xc_rows cd XC) as (_ & E & _). rewrite E, map_length in HI. auto. }
  assert (CO := compatible_commute cd is XC HI CP).
  rewrite <- (memory_expected cd e anc is G XC NG HR LI HI' CO RD EE).
  assert (U := usable_memory N cd e anc is XC NG PR GE). rewrite <- text_items in LM |- *.
  rewrite <- (distribution N _ m (fun ms es => match from_code_and_raw_results cd ms (match es with [] => None | fs => Some fs end) anc with Ok sm => G (sm_syndrome sm) (sm_toggle sm) (sm_erased sm) | Err _ => 0%Q end) s0 U LM).
  unfold mean. apply Qmult_comp; [|reflexivity]. apply sum_ext. intros ds _. unfold memory_experiment. rewrite GEN. cbn [bindR]. rewrite <- text_items.
  destruct (sim_run _ _ true s0) as [s|]; [|reflexivity]. cbn [bindR]. unfold process_results. cbn [fst snd]. destruct (s_eras s); reflexivity.
Qed.
