(** Lemmas: memory experiments end with a sample. *)
Require Import List Bool Arith ZArith QArith Lia String Ascii Permutation.
From Verif Require Import Base BaseProofs QSpec PauliModel PauliSem PauliAlg StateSpec CircuitModel SimSpec SimModel CircuitSpec LatticeModel LatticeSpec LatticeProofs LatticeOps LatticeRows
  CodesModel CodesSpec CodesProofs GeneratorModel StabTrack RoundProofs MemoryProofs GeneratorProofs GeneratorSpec GeneratorSem UnpackProofs MemorySem UnpackLayout MemoryTotal Props_Circuit.
Import ListNotations.
Local Open Scope string_scope.
Local Open Scope nat_scope.
Local Open Scope list_scope.

Lemma sign_sym a b : List.length (ops a) = List.length (ops b) -> commutator_sign a b = commutator_sign b a.
Proof. intros H. rewrite !commutator_sign_symp by congruence. apply symp_comm. Qed.
Lemma compatible_commute cd is : experiment_code cd -> (forall i, In i is -> i < List.length (c_logicals (c_ops cd))) -> compatible is ->
  forall i j, In i is -> In j is -> commutator_sign (nth i (c_logicals (c_ops cd)) row0) (nth j (c_logicals (c_ops cd)) row0) = false.
Proof.
  intros XC H CP. set (n := List.length (l_data (c_lattice cd))).
  assert (W : forall r, In r (c_stabs (c_ops cd)) \/ In r (c_logicals (c_ops cd)) -> List.length (ops r) = n) by (intros; apply xc_width; auto).
  destruct (check_iff n (c_ops cd) W) as [[_ (_ & _ & RX & RZ & RXZ)]|[E _]]; [|rewrite (xc_check _ XC) in E; discriminate].
  set (L := c_logicals (c_ops cd)) in *.
  assert (NE : forall i, i < List.length L -> nth_error L i = Some (nth i L row0)) by (intros; apply nth_error_nth'; auto).
  assert (WL : forall i, i < List.length L -> List.length (ops (nth i L row0)) = n) by (intros; apply W; right; apply nth_In; auto).
  assert (XZ : forall a b, In (2 * a) is -> In (2 * b + 1) is -> commutator_sign (nth (2 * a) L row0) (nth (2 * b + 1) L row0) = false).
  { intros a b Ia Ib. apply (commutator_commute n); auto. specialize (RXZ a b _ _ (NE _ (H _ Ia)) (NE _ (H _ Ib))).
    destruct (Nat.eqb_spec a b) as [->|]; auto. exfalso. assert (Q : 2 * b = 2 * b + 1); [|lia]. apply CP; auto.
    rewrite half_even, half_odd. auto. }
  intros i j Ii Ij.
  destruct (Nat.Even_or_Odd i) as [[a ->]|[a ->]], (Nat.Even_or_Odd j) as [[b ->]|[b ->]].
  - apply (commutator_commute n); auto. apply (RX a b); apply NE; auto.
  - apply XZ; auto.
  - rewrite sign_sym by (rewrite !WL; auto). apply XZ; auto.
  - apply (commutator_commute n); auto. apply (RZ a b); apply NE; auto.
Qed.
Lemma letters_half s : forall q l, letters_to_indices q s = Ok l -> NoDup (map (fun z => (z / 2)%Z) l) /\ forall z, In z l -> (Z.of_nat q <= z / 2)%Z /\ (0 <= z)%Z.
Proof.
  induction s as [|a s IH]; intros q l E; cbn [letters_to_indices] in E.
  - injection E as <-. split; [constructor|intros z []].
  - destruct (if Ascii.eqb a "X"%char then Ok 0%Z else _) as [k|] eqn:K; [|discriminate]. cbn [bindR] in E. destruct (letters_to_indices (S q) s) as [ks|] eqn:Es; [|discriminate]. cbn [bindR] in E. assert (EL : l = (2 * Z.of_nat q + k)%Z :: ks) by congruence. subst l. clear E.
    destruct (IH _ _ Es) as [N B]. assert (HK : (k = 0 \/ k = 1)%Z) by (destruct (Ascii.eqb a "X"%char); [injection K; auto|destruct (Ascii.eqb a "Z"%char); [injection K; auto|discriminate]]).
    assert (HQ : ((2 * Z.of_nat q + k) / 2 = Z.of_nat q)%Z) by (symmetry; apply (Z.div_unique _ _ _ k); lia).
    assert (HL : map (fun z => (z / 2)%Z) ((2 * Z.of_nat q + k)%Z :: ks) = Z.of_nat q :: map (fun z => (z / 2)%Z) ks) by (cbn [map]; f_equal; exact HQ). rewrite HL. split.
    + constructor; auto. intros I. apply in_map_iff in I as (z & Ez & Iz). apply B in Iz. lia.
    + intros z [<-|I]; [rewrite HQ; lia|]. apply B in I. lia.
Qed.
(** Letters never ask for X and Z of the same logical qubit. *)
Lemma letters_compatible c s is : logical_ops_to_indices c (LogLetters s) = Ok is -> compatible is.
Proof.
  unfold logical_ops_to_indices. destruct (letters_to_indices 0 s) as [l|] eqn:E; [|discriminate]. cbn [bindR]. destruct (negb _); [discriminate|]. destruct (existsb _ _); [discriminate|]. intros [= <-].
  destruct (letters_half _ _ _ E) as [N B]. intros i j Ii Ij H. apply in_map_iff in Ii as (a & <- & Ia), Ij as (b & <- & Ib). f_equal.
  assert (HA := proj2 (B a Ia)). assert (HB := proj2 (B b Ib)).
  assert (Q : (a / 2 = b / 2)%Z).
  { change 2%Z with (Z.of_nat 2). rewrite <- (Z2Nat.id a), <- (Z2Nat.id b), <- !Nat2Z.inj_div by auto. f_equal. auto. }
  clear - N Ia Ib Q. induction l as [|z l IH]; [elim Ia|]. cbn [map] in N. inversion N as [|? ? NI ND]; subst. destruct Ia as [<-|Ia], Ib as [<-|Ib]; auto.
  - elim NI. rewrite Q. apply in_map_iff. eauto.
  - elim NI. rewrite <- Q. apply in_map_iff. eauto.
Qed.
Lemma ie_none cd e anc is : er_erasure e = [] -> list_sum (map ie (memory_ins cd e anc is)) = 0.
Proof.
  intros H. unfold memory_ins. cbv zeta. rewrite !map_app, !list_sum_app, ie_stabs, !ie_logicals, sum_flat. rewrite sum_zero; auto. intros b _. rewrite map_app, list_sum_app, ie_stabs.
  unfold noise_round. rewrite sum_flat. rewrite sum_zero; auto. intros v _. unfold noise_at, data_erase. rewrite H, map_app, list_sum_app. 
  replace (get1 [] (eq_of (c_lattice cd) v)) with (@None params) by (destruct (eq_of (c_lattice cd) v); auto). cbn [erase_ins map].
  destruct (data_pauli e (eq_of (c_lattice cd) v)) as [[[? ?] ?]|]; auto.
Qed.
Section experiment.
Context (cd : CodesModel.code) (e : errors) (x : logical_spec) (is : list nat) (anc : bool) (g : rng) (s0 : sim).
Hypotheses (XC : experiment_code cd) (NE : named_errors (n_data_qubits (c_ops cd)) (n_stabgens (c_ops cd)) e) (PR : probabilities e) (HR : (1 <= c_rounds cd)%Z)
  (EI : logical_ops_to_indices (c_ops cd) x = Ok is) (CP : compatible is) (Hg : (forall k, 0 <= d_unif (g k) /\ d_unif (g k) < 1)%Q).
Lemma exp_generate : generate_qec_circuit cd e x anc = Ok (map ins_gate (memory_ins cd e anc is)).
Proof. apply generate_ok; auto. apply compatible_commute; auto. apply (indices_ok _ _ _ EI). Qed.
Lemma exp_run : exists s, sim_run g (map ins_gate (memory_ins cd e anc is)) true s0 = Ok s.
Proof. apply C09_run_total; auto. apply ins_valid_circuit, memory_valid; auto; apply XC. Qed.
Lemma exp_total : er_erasure e = [] \/ erasure_everywhere (n_data_qubits (c_ops cd)) e ->
  (anc = true \/ forall i, In i is -> weight (nth i (c_logicals (c_ops cd)) row0) = weight (nth 0 (c_logicals (c_ops cd)) row0)) ->
  exists s sm, sim_run g (map ins_gate (memory_ins cd e anc is)) true s0 = Ok s /\
    from_code_and_raw_results cd (fst (process_results s)) (snd (process_results s)) anc = Ok sm.
Proof.
  intros ER W. destruct exp_run as [s RUN]. exists s. assert (G := exp_generate). destruct (run_lengths cd e x is anc _ g s0 s XC HR G EI Hg RUN W) as [A B].
  destruct (xc_positive cd XC) as (K & N & BW).
  destruct (unpack_ok cd (Z.to_nat (c_rounds cd)) (snd (process_results s)) anc (fst (process_results s))) as (sm & U & _); auto; try lia.
  - cbn [process_results snd]. destruct ER as [E0|EV].
    + destruct (memory_run cd e anc x _ g s0 s XC G Hg RUN) as (is' & v & EI' & _ & IR & _). assert (is' = is) by congruence. subst is'.
      apply irun_len in IR as [_ L]. rewrite ie_none in L by auto. destruct (s_eras s); [auto|discriminate].
    + specialize (B EV). destruct (s_eras s); auto.
  - exists sm. split; auto.
Qed.
End experiment.
