(** Error blocks, runs without exceptions, counters. *)
Require Import List Bool Arith ZArith QArith Lia String Lqa.
From Verif Require Import Base BaseProofs QSpec PauliModel PauliSem PauliProofs PauliAlg TableauProofs
  MeasureProofs StateProofs StateSpec GateProofs CircuitModel CircuitSpec CircuitProofs SimModel SimSpec SimProofs.
Import ListNotations.
Local Open Scope string_scope.
Local Open Scope nat_scope.
Local Open Scope list_scope.

(** * The gates neither read nor write the error flags *)
Definition fl (i a b : bool) (r : Res sim) : Res sim := do s <- r; Ok (set_flags s i a b).

Section Flags.
Variable g : rng.
Variables i a b : bool.

Lemma fl_bind {A} (m : Res A) f : fl i a b (do x <- m; f x) = (do x <- m; fl i a b (f x)).
Proof. destruct m; auto. Qed.

Lemma fold_fl {A} (f : sim -> A -> Res sim) : (forall s x, f (set_flags s i a b) x = fl i a b (f s x)) ->
  forall l s, foldR f l (set_flags s i a b) = fl i a b (foldR f l s).
Proof.
  intros H. induction l as [|x l IH]; intros s; cbn [foldR]; auto.
  rewrite H. destruct (f s x); cbn [fl bindR]; auto.
Qed.

Lemma api_fl s q k : apply_pauli_from_int (set_flags s i a b) q k = fl i a b (apply_pauli_from_int s q k).
Proof.
  destruct k as [|[|[|[|]]]]; cbn [apply_pauli_from_int set_flags s_st]; auto.
  - destruct (gate_x (s_st s) [q]); auto.
  - destruct (gate_y (s_st s) [q]); auto.
  - destruct (gate_z (s_st s) [q]); auto.
Qed.

Lemma tick_fl s : tick (set_flags s i a b) = set_flags (tick s) i a b.
Proof. reflexivity. Qed.

Lemma handle_gate_fl s name args : handle_gate g (set_flags s i a b) name args = fl i a b (handle_gate g s name args).
Proof.
  unfold handle_gate. cbn [s_st s_k s_meas s_eras s_in s_any s_branch set_flags].
  destruct (String.eqb name "X"). { destruct (mapR qubit_of args); auto. cbn [bindR]. destruct (gate_x (s_st s) a0); auto. }
  destruct (String.eqb name "Y"). { destruct (mapR qubit_of args); auto. cbn [bindR]. destruct (gate_y (s_st s) a0); auto. }
  destruct (String.eqb name "Z"). { destruct (mapR qubit_of args); auto. cbn [bindR]. destruct (gate_z (s_st s) a0); auto. }
  destruct (String.eqb name "H"). { destruct (mapR qubit_of args); auto. cbn [bindR]. destruct (hadamard (s_st s) a0); auto. }
  destruct (String.eqb name "CX"). { destruct (mapR qubit_of args); auto. cbn [bindR]. destruct (control_not_gate (s_st s) (evens a0) (odds a0)); auto. }
  destruct (String.eqb name "CZ"). { destruct (mapR qubit_of args); auto. cbn [bindR]. destruct (control_phase_gate (s_st s) (evens a0) (odds a0)); auto. }
  destruct (String.eqb name "M").
  { destruct (mapR qubit_of args); auto. cbn [bindR]. apply (fold_fl (measure_qubit g)).
    intros s0 q. unfold measure_qubit. cbn [s_st s_k s_meas s_eras s_in s_any s_branch set_flags].
    destruct (single_qubit_pauli_operator false PZ q (nqubits (s_st s0))); auto. cbn [bindR].
    destruct (measure g (s_k s0) (s_st s0) a1 None) as [[[t m] k]|]; auto. }
  destruct (String.eqb name "R").
  { destruct (mapR qubit_of args); auto. cbn [bindR]. destruct (reset_qubits g (s_k s) (s_st s) false PZ a0); auto. }
  destruct (String.eqb name "DEPOLARIZE").
  { destruct (mapR qubit_of args); auto. cbn [bindR]. apply (fold_fl (depolarize_qubit g)).
    intros s0 q. unfold depolarize_qubit. rewrite tick_fl. apply api_fl. }
  destruct (String.eqb name "E_ERASE").
  { destruct args as [|x [|y [|]]]; auto. destruct (prob_of x); auto. cbn [bindR].
    destruct (qubit_of y); auto. cbn [bindR]. cbv zeta.
    destruct (Qltb (d_unif (g (s_k s))) a0); auto.
    rewrite <- api_fl. reflexivity. }
  destruct (String.eqb name "E_PAULI").
  { destruct args as [|x [|y [|z [|w args]]]]; auto.
    destruct (mapR prob_of [x; y; z]); auto. cbn [bindR]. destruct (qubit_of w); auto. cbn [bindR].
    destruct (choice _ _); auto. cbn [bindR]. rewrite tick_fl. apply api_fl. }
  destruct (String.eqb name "E_PAULI2"); auto.
  destruct (mapR prob_of (firstn 15 args)); auto. cbn [bindR]. destruct (negb _); auto.
  destruct (choice _ _); auto. cbn [bindR]. destruct (skipn 15 args) as [|x [|y l]]; auto.
  destruct (qubit_of x); auto. cbn [bindR]. destruct (qubit_of y); auto. cbn [bindR].
  rewrite tick_fl, api_fl. destruct (apply_pauli_from_int (tick s) a2 (a1 / 4)); auto. cbn [fl bindR]. apply api_fl.
Qed.
End Flags.

Definition flags_of (s : sim) := (s_in s, s_any s, s_branch s).
Lemma set_flags_same s : set_flags s (s_in s) (s_any s) (s_branch s) = s.
Proof. destruct s; reflexivity. Qed.
Lemma handle_gate_flags g s name args s' : handle_gate g s name args = Ok s' ->
  s_in s' = s_in s /\ s_any s' = s_any s /\ s_branch s' = s_branch s.
Proof.
  intros E. rewrite <- (set_flags_same s), handle_gate_fl in E.
  destruct (handle_gate g s name args) as [s1|]; [|discriminate]. injection E as <-. auto.
Qed.

(** * Error blocks *)
Section Blocks.
Variable g : rng.

(** Gates in order, as the simulator runs them outside of error instructions. *)
Definition run_plain (gs : list gate) (s : sim) : Res sim :=
  foldR (fun s gt => handle_gate g s (fst gt) (snd gt)) gs s.
(** Skip [i] random draws. *)
Definition skip (i : nat) (s : sim) : sim :=
  mkSim (s_st s) (s_meas s) (s_eras s) (s_in s) (s_any s) (s_branch s) (s_k s + i).

Definition conts (gs : list gate) : circuit :=
  map (fun gt : gate => ("ERROR_CONTINUE", AStr (fst gt) :: snd gt)) gs.

Lemma cont_step s gt : run_gate g s ("ERROR_CONTINUE", AStr (fst gt) :: snd gt) =
  if s_in s then if s_branch s then handle_gate g s (fst gt) (snd gt) else Ok s else Err ValueError.
Proof. unfold run_gate. cbn. destruct (s_in s), (s_branch s); auto. Qed.

Lemma conts_off gs : forall s, s_in s = true -> s_branch s = false -> foldR (run_gate g) (conts gs) s = Ok s.
Proof.
  induction gs as [|gt gs IH]; intros s H1 H2; auto. cbn [conts map foldR]. rewrite cont_step, H1, H2. cbn [bindR].
  apply IH; auto.
Qed.
Lemma conts_on gs : forall s, s_in s = true -> s_branch s = true -> foldR (run_gate g) (conts gs) s = run_plain gs s.
Proof.
  induction gs as [|gt gs IH]; intros s H1 H2; auto. cbn [conts map foldR]. rewrite cont_step, H1, H2.
  unfold run_plain. cbn [foldR]. destruct (handle_gate g s (fst gt) (snd gt)) as [s1|] eqn:E; cbn [bindR]; auto.
  apply handle_gate_flags in E. destruct E as (A & B & C). apply IH; congruence.
Qed.

Lemma run_plain_flags gs : forall s s', run_plain gs s = Ok s' ->
  s_in s' = s_in s /\ s_any s' = s_any s /\ s_branch s' = s_branch s.
Proof.
  induction gs as [|gt gs IH]; intros s s' E.
  - injection E as <-. auto.
  - unfold run_plain in E. cbn [foldR] in E. destruct (handle_gate g s (fst gt) (snd gt)) as [s1|] eqn:E1; [|discriminate].
    cbn [bindR] in E. apply handle_gate_flags in E1. destruct (IH s1 s' E) as (A & B & C). intuition congruence.
Qed.

(** After a chosen branch all later branches are skipped. *)
Lemma rest_skipped bs : forall s, s_in s = true -> s_any s = true ->
  foldR (run_gate g) (flat_map (branch_text "ERROR_ELSE") bs) s =
  Ok (match bs with [] => s | _ => set_flags s true true false end).
Proof.
  induction bs as [|b bs IH]; intros s H1 H2; auto. cbn [flat_map]. unfold branch_text at 1. cbn [app foldR].
  unfold run_gate at 1. cbn. rewrite H1, H2. cbn [negb bindR]. rewrite foldR_app.
  fold (conts (br_rest b)). rewrite conts_off by auto. cbn [bindR]. rewrite IH by auto. destruct bs; auto.
Qed.

Lemma Qltb_negb u p : Qltb u p = negb (Qle_bool p u). Proof. reflexivity. Qed.

Definition is_nil {A} (l : list A) : bool := match l with [] => true | _ => false end.

Lemma set_flags_twice s i a b i' a' b' : set_flags (set_flags s i a b) i' a' b' = set_flags s i' a' b'.
Proof. reflexivity. Qed.

(** A branch chosen in state [s] (flags already set). *)
Lemma chosen gs gt bs s : s_in s = true -> s_any s = true -> s_branch s = true ->
  (do s1 <- handle_gate g s (fst gt) (snd gt);
   foldR (run_gate g) (conts gs ++ flat_map (branch_text "ERROR_ELSE") bs) s1) =
  (do s1 <- run_plain (gt :: gs) s; Ok (set_flags s1 true true (is_nil bs))).
Proof.
  intros H1 H2 H3. unfold run_plain. cbn [foldR].
  destruct (handle_gate g s (fst gt) (snd gt)) as [s1|] eqn:E; cbn [bindR]; auto.
  apply handle_gate_flags in E. destruct E as (A & B & C).
  rewrite foldR_app. rewrite conts_on by congruence. fold (run_plain gs s1).
  destruct (run_plain gs s1) as [s2|] eqn:E2; cbn [bindR]; auto.
  apply run_plain_flags in E2. destruct E2 as (A2 & B2 & C2).
  rewrite rest_skipped by congruence. destruct bs; auto. cbn [is_nil]. f_equal.
  rewrite <- (set_flags_same s2) at 1. congruence.
Qed.

(** Branches after a start without success. *)
Lemma else_chain bs : forall s, s_in s = true -> s_any s = false -> s_branch s = false ->
  foldR (run_gate g) (flat_map (branch_text "ERROR_ELSE") bs) s =
  match first_hit (fun i => d_unif (g (s_k s + i))) bs with
  | Some (i, b) => do s1 <- run_plain (br_gates b) (set_flags (skip (S i) s) true true true);
                   Ok (set_flags s1 true true (S i =? List.length bs))
  | None => Ok (skip (List.length bs) s)
  end.
Proof.
  induction bs as [|b bs IH]; intros s H1 H2 H3.
  - cbn [flat_map foldR first_hit List.length]. unfold skip. rewrite Nat.add_0_r. destruct s; auto.
  - cbn [flat_map first_hit]. unfold branch_text at 1. cbn [app foldR]. unfold run_gate at 1.
    cbn [fst snd]. unfold handle_error.
    replace (String.prefix "ERROR" "ERROR_ELSE") with true by reflexivity.
    replace (String.eqb "ERROR_ELSE" "ERROR") with false by reflexivity.
    replace (String.eqb "ERROR_ELSE" "ERROR_CONTINUE") with false by reflexivity.
    replace (String.eqb "ERROR_ELSE" "ERROR_ELSE") with true by reflexivity.
    cbn [prob_of bindR]. rewrite H1, H2. cbn [negb]. rewrite Qltb_negb. rewrite Nat.add_0_r.
    destruct (Qle_bool (br_p b) (d_unif (g (s_k s)))) eqn:E; cbn [negb].
    + cbn [bindR]. rewrite foldR_app. fold (conts (br_rest b)). rewrite conts_off by auto. cbn [bindR].
      rewrite IH by auto. cbn [tick s_k].
      replace (first_hit (fun i => d_unif (g (s_k s + S i))) bs) with (first_hit (fun i => d_unif (g (S (s_k s) + i))) bs).
      2: { generalize bs. intros l. assert (X : forall u v, (forall i, u i = v i) -> first_hit u l = first_hit v l).
           { clear. induction l as [|b l IHl]; intros u v H; cbn; auto. rewrite H. destruct (Qle_bool _ _); auto.
             rewrite (IHl (fun i => u (S i)) (fun i => v (S i))); auto. }
           apply X. intros i. do 2 f_equal. lia. }
      destruct (first_hit _ bs) as [[i b']|].
      * assert (EQ : skip (S i) (tick s) = skip (S (S i)) s) by (unfold skip, tick; cbn; f_equal; lia).
        rewrite EQ. reflexivity.
      * cbn [List.length]. unfold skip, tick; cbn. do 2 f_equal. lia.
    + fold (conts (br_rest b)).
      replace (tick (set_flags s true true true)) with (set_flags (skip 1 s) true true true)
        by (unfold skip, tick, set_flags; cbn; f_equal; lia).
      rewrite (chosen (br_rest b) (br_first b) bs) by auto.
      unfold br_gates. destruct bs; auto.
Qed.

Lemma block_run b bs s :
  foldR (run_gate g) (block_text b bs) s =
  match first_hit (fun i => d_unif (g (s_k s + i))) (b :: bs) with
  | Some (i, b') => do s1 <- run_plain (br_gates b') (set_flags (skip (S i) s) true true true);
                    Ok (set_flags s1 true true (i =? List.length bs))
  | None => Ok (set_flags (skip (S (List.length bs)) s) true false false)
  end.
Proof.
  unfold block_text. cbn [first_hit]. unfold branch_text at 1. cbn [app foldR]. unfold run_gate at 1.
  cbn [fst snd]. replace (String.prefix "ERROR" "ERROR") with true by reflexivity.
  unfold handle_error. replace (String.eqb "ERROR" "ERROR") with true by reflexivity.
  cbn [prob_of bindR]. rewrite Qltb_negb. rewrite Nat.add_0_r.
  destruct (Qle_bool (br_p b) (d_unif (g (s_k s)))) eqn:E; cbn [negb].
  - cbn [bindR]. fold (conts (br_rest b)). rewrite foldR_app. rewrite conts_off by auto. cbn [bindR].
    rewrite else_chain by auto. cbn [tick set_flags s_k].
    replace (first_hit (fun i => d_unif (g (s_k s + S i))) bs) with (first_hit (fun i => d_unif (g (S (s_k s) + i))) bs).
    2: { generalize bs. intros l. assert (X : forall u v, (forall i, u i = v i) -> first_hit u l = first_hit v l).
         { clear. induction l as [|b l IHl]; intros u v H; cbn; auto. rewrite H. destruct (Qle_bool _ _); auto.
           rewrite (IHl (fun i => u (S i)) (fun i => v (S i))); auto. }
         apply X. intros i. do 2 f_equal. lia. }
    destruct (first_hit _ bs) as [[i b']|].
    + replace (set_flags (skip (S i) (tick (set_flags s true false false))) true true true)
        with (set_flags (skip (S (S i)) s) true true true)
        by (unfold skip, tick, set_flags; cbn; f_equal; lia).
      reflexivity.
    + unfold skip, tick, set_flags; cbn. do 2 f_equal. lia.
  - fold (conts (br_rest b)).
    replace (tick (set_flags s true true true)) with (set_flags (skip 1 s) true true true)
      by (unfold skip, tick, set_flags; cbn; f_equal; lia).
    rewrite (chosen (br_rest b) (br_first b) bs) by auto.
    unfold br_gates. destruct bs; auto.
Qed.

(** Outside of a block. *)
Definition block_only (gt : gate) : Prop :=
  (exists p inner l, gt = ("ERROR_ELSE", AFlt p :: AStr inner :: l)) \/
  (exists inner l, gt = ("ERROR_CONTINUE", AStr inner :: l)).

Lemma outside_rejected s gt : s_in s = false -> block_only gt -> run_gate g s gt = Err ValueError.
Proof.
  intros H [(p & inner & l & ->) | (inner & l & ->)]; unfold run_gate, handle_error; cbn; rewrite H; auto.
Qed.

Lemma plain_clears s gt s' : String.prefix "ERROR" (fst gt) = false -> run_gate g s gt = Ok s' -> s_in s' = false.
Proof.
  unfold run_gate. intros ->. intros E. apply handle_gate_flags in E. destruct E as (-> & _). auto.
Qed.
End Blocks.

(** * number_of_qubits *)
Lemma max_arg_ge : forall l n, (n <= fold_left max_arg l n)%Z /\ (forall z, In (AInt z) l -> (z <= fold_left max_arg l n)%Z).
Proof.
  induction l as [|a l IH]; intros n; cbn [fold_left].
  - split. lia. intros z [].
  - destruct (IH (max_arg n a)) as [A B]. split.
    + assert (n <= max_arg n a)%Z; [|lia]. unfold max_arg. destruct a; try lia. destruct (Z.ltb_spec n z); lia.
    + intros z [->|H]; auto. assert (z <= max_arg n (AInt z))%Z; [|lia]. unfold max_arg. destruct (Z.ltb_spec n z); lia.
Qed.
Lemma max_arg_in : forall l n, fold_left max_arg l n = n \/ In (AInt (fold_left max_arg l n)) l.
Proof.
  induction l as [|a l IH]; intros n; cbn [fold_left]; auto.
  destruct (IH (max_arg n a)) as [A | A].
  - rewrite A. unfold max_arg. destruct a; auto. destruct (Z.ltb_spec n z); simpl; auto.
  - right. simpl. auto.
Qed.

Lemma nq_ge : forall (c : circuit) n, let r := fold_left (fun n (gt : gate) => fold_left max_arg (snd gt) n) c n in
  (n <= r)%Z /\ (forall gt z, In gt c -> In (AInt z) (snd gt) -> (z <= r)%Z).
Proof.
  induction c as [|gt c IH]; intros n; cbn [fold_left].
  - split. lia. intros gt z [].
  - destruct (IH (fold_left max_arg (snd gt) n)) as [A B]. destruct (max_arg_ge (snd gt) n) as [A1 B1]. split. lia.
    intros gt' z [<-|H] Hz; eauto. specialize (B1 z Hz). lia.
Qed.
Lemma nq_in : forall (c : circuit) n, let r := fold_left (fun n (gt : gate) => fold_left max_arg (snd gt) n) c n in
  r = n \/ exists gt, In gt c /\ In (AInt r) (snd gt).
Proof.
  induction c as [|gt c IH]; intros n; cbn [fold_left]; auto.
  destruct (IH (fold_left max_arg (snd gt) n)) as [A | (gt' & A & B)].
  - cbv zeta. rewrite A. destruct (max_arg_in (snd gt) n) as [E|E]; auto. right. exists gt. simpl; auto.
  - right. exists gt'. simpl; auto.
Qed.

Lemma nq_bound c gt q : In gt c -> In (qa q) (snd gt) -> q < number_of_qubits c.
Proof.
  intros H1 H2. destruct (nq_ge c 0%Z) as [A B]. specialize (B gt (Z.of_nat q) H1 H2). unfold number_of_qubits.
  match type of A with (0 <= ?e)%Z => change (q < Z.to_nat (e + 1)); generalize dependent e end. intros. lia.
Qed.
Lemma nq_least c : 1 < number_of_qubits c -> exists gt, In gt c /\ In (qa (number_of_qubits c - 1)) (snd gt).
Proof.
  intros H. destruct (nq_ge c 0%Z) as [A _]. destruct (nq_in c 0%Z) as [E | (gt & E1 & E2)]; unfold number_of_qubits in *.
  - match type of A with (0 <= ?e)%Z => change (1 < Z.to_nat (e + 1)) in H; change (e = 0%Z) in E; rewrite E in H end. simpl in H. lia.
  - exists gt. split; auto. unfold qa.
    match type of A with (0 <= ?e)%Z => change (In (AInt (Z.of_nat (Z.to_nat (e + 1) - 1))) (snd gt)); 
      replace (Z.of_nat (Z.to_nat (e + 1) - 1)) with e by lia end. auto.
Qed.

(** Qubits of an instruction are among its integer arguments. *)
Lemma gate_qubit_arg name args q : gate_qubit name args q -> In (qa q) args.
Proof.
  intros H. inversion H as [ | | |ars a b q' L E]; subst; simpl; auto. apply in_or_app. right. simpl. destruct E; subst; auto.
Qed.
Lemma instr_qubit_arg gt q : instr_qubit gt q -> In (qa q) (snd gt).
Proof. intros H. inversion H; subst; cbn [snd]; simpl; eauto using gate_qubit_arg. Qed.

(** * Totality *)
Lemma mapR_qa qs : mapR qubit_of (map qa qs) = Ok qs.
Proof.
  induction qs as [|q qs IH]; auto. cbn [map mapR]. unfold qa at 1. cbn [qubit_of].
  destruct (Z.ltb_spec (Z.of_nat q) 0); [lia|]. rewrite Nat2Z.id. cbn [bindR]. rewrite IH. auto.
Qed.
Lemma qubit_of_qa q : qubit_of (qa q) = Ok q.
Proof. unfold qa. cbn [qubit_of]. destruct (Z.ltb_spec (Z.of_nat q) 0); [lia|]. rewrite Nat2Z.id. auto. Qed.
Lemma prob_of_arg a p : prob_arg a p -> prob_of a = Ok p.
Proof. intros H; inversion H; auto. Qed.
Lemma mapR_prob ars ps : Forall2 prob_arg ars ps -> mapR prob_of ars = Ok ps.
Proof. induction 1; auto. cbn [mapR]. rewrite (prob_of_arg x y) by auto. cbn [bindR]. rewrite IHForall2. auto. Qed.

Lemma choice_ok u ps : Forall (fun p => 0 <= p)%Q ps -> (qsum ps <= 1)%Q -> exists k, choice u ((1 - Qsum ps)%Q :: ps) = Ok k.
Proof.
  intros F S. unfold choice. cbn [existsb].
  assert (E1 : Qltb (1 - Qsum ps) 0 = false).
  { apply Qltb_ge. pose proof (Qsum_qsum ps). lra. }
  assert (E2 : existsb (fun p => Qltb p 0) ps = false).
  { clear S E1. induction F; auto. cbn [existsb]. rewrite IHF. rewrite (proj2 (Qltb_ge x 0)) by auto. auto. }
  rewrite E1, E2. cbn [orb]. eauto.
Qed.

Section Total.
Variable g : rng.
Variable n : nat.
Hypothesis Hn : 0 < n.
Hypothesis Hg : unif g.

Lemma api_total s q k v : Inv n s v -> q < n -> k < 4 -> exists s', apply_pauli_from_int s q k = Ok s'.
Proof.
  intros (W & _) Hq Hk. assert (R : rows n (s_st s)) by (apply wf_rows; auto).
  assert (F : Forall (fun q => q < n) [q]) by auto.
  destruct k as [|[|[|[|]]]]; cbn [apply_pauli_from_int]; try lia; eauto.
  - rewrite (gate_x_ok n) by auto. cbn [bindR]. eauto.
  - rewrite (gate_y_ok n) by auto. cbn [bindR]. eauto.
  - rewrite (gate_z_ok n) by auto. cbn [bindR]. eauto.
Qed.

Lemma measure_qubits_total qs : Forall (fun q => q < n) qs -> forall s v, Inv n s v ->
  exists s', foldR (measure_qubit g) qs s = Ok s'.
Proof.
  induction 1 as [|q qs Hq HF IH]; intros s v I; [eexists; reflexivity|].
  assert (E : exists s1, measure_qubit g s q = Ok s1).
  { destruct I as (W & D & N). unfold measure_qubit. rewrite (wf_nqubits n) by auto.
    rewrite sqpo_ok by (auto; discriminate). cbn [bindR].
    destruct (measure_total n g (s_k s) (s_st s) (mkRow (upd q (pbits PZ) (repeat pid n)) false) W Hn) with (forced := @None Z)
      as (st1 & m & k1 & HM & _).
    apply single_len. exact (single_nonid n PZ q Hq ltac:(discriminate)). intros f; discriminate.
    rewrite HM. cbn [bindR]. eauto. }
  destruct E as (s1 & E). cbn [foldR]. rewrite E. cbn [bindR].
  destruct (measure_qubits_sem g n Hn [q] s s1 v I) as (ms & v1 & _ & I1 & _). { cbn [foldR]. rewrite E. auto. }
  apply (IH s1 v1 I1).
Qed.

Lemma depol_total qs : Forall (fun q => q < n) qs -> forall s v, Inv n s v ->
  exists s', foldR (depolarize_qubit g) qs s = Ok s'.
Proof.
  induction 1 as [|q qs Hq HF IH]; intros s v I; [eexists; reflexivity|].
  assert (E : exists s1, depolarize_qubit g s q = Ok s1).
  { unfold depolarize_qubit. apply (api_total (tick s) q _ v); auto.
    pose proof (Nat.mod_upper_bound (d_int (g (s_k s))) 3 ltac:(lia)). lia. }
  destruct E as (s1 & E). cbn [foldR]. rewrite E. cbn [bindR].
  destruct (depol_sem g n Hn [q] s s1 v I) as (l & _ & _ & I1 & _). { cbn [foldR]. rewrite E. auto. }
  apply (IH s1 _ I1).
Qed.

Lemma evens_flat cts : evens (flat_map (fun ct : nat * nat => [fst ct; snd ct]) cts) = map fst cts.
Proof. induction cts as [|[a b] l IH]; auto. cbn [flat_map app fst snd evens map]. rewrite IH. auto. Qed.
Lemma odds_flat cts : odds (flat_map (fun ct : nat * nat => [fst ct; snd ct]) cts) = map snd cts.
Proof. induction cts as [|[a b] l IH]; auto. cbn [flat_map app fst snd map]. rewrite odds_cons2, IH. auto. Qed.
Lemma flat_qa cts : flat_map (fun ct : nat * nat => [qa (fst ct); qa (snd ct)]) cts = map qa (flat_map (fun ct => [fst ct; snd ct]) cts).
Proof. induction cts; auto. cbn [flat_map map app]. rewrite IHcts. auto. Qed.
Lemma combine_fst_snd {A B} (l : list (A * B)) : combine (map fst l) (map snd l) = l.
Proof. induction l as [|[a b] l IH]; auto. cbn. rewrite IH; auto. Qed.

Lemma pairs_ok_cts cts : Forall (fun ct : nat * nat => fst ct <> snd ct) cts ->
  (forall ct, In ct cts -> fst ct < n /\ snd ct < n) -> pairs_ok n (map fst cts) (map snd cts).
Proof.
  intros F H. split. rewrite !map_length; auto. rewrite combine_fst_snd.
  rewrite Forall_forall in *. intros ct Hct. specialize (F ct Hct). specialize (H ct Hct). tauto.
Qed.

Lemma handle_gate_total s v name args : Inv n s v -> valid_gate name args ->
  (forall q, In (qa q) args -> q < n) -> exists s', handle_gate g s name args = Ok s'.
Proof.
  intros I V HQ. pose proof I as (W & D & N). assert (R : rows n (s_st s)) by (apply wf_rows; auto).
  inversion V as [nm qs Hin|nm cts Hin Hd|a p q Hp|ars ps q Hps Hl Hpos Hsum|ars ps q1 q2 Hps Hl Hpos Hsum]; subst.
  - assert (F : Forall (fun q => q < n) qs).
    { apply Forall_forall. intros q Hq. apply HQ. apply in_map; auto. }
    unfold handle_gate. rewrite !mapR_qa. cbn [bindR]. simpl in Hin.
    destruct Hin as [<- | [<- | [<- | [<- | [<- | [<- | [<- | []]]]]]]];
      match goal with |- context [String.eqb ?a ?b] => idtac end; cbn [String.eqb Ascii.eqb Bool.eqb].
    + rewrite (gate_x_ok n) by auto. cbn [bindR]. eauto.
    + rewrite (gate_y_ok n) by auto. cbn [bindR]. eauto.
    + rewrite (gate_z_ok n) by auto. cbn [bindR]. eauto.
    + rewrite (hadamard_ok n) by auto. cbn [bindR]. eauto.
    + apply (measure_qubits_total qs F s v I).
    + destruct (reset_ok n g false PZ (or_intror eq_refl) qs (s_st s) (s_k s) v W Hn F D) as (st' & k' & v' & -> & _).
      cbn [bindR]. eauto.
    + apply (depol_total qs F s v I).
  - assert (P : pairs_ok n (map fst cts) (map snd cts)).
    { apply pairs_ok_cts; auto. intros ct Hct. split; apply HQ; apply in_flat_map; exists ct; split; simpl; auto. }
    unfold handle_gate. rewrite flat_qa, !mapR_qa. cbn [bindR]. rewrite evens_flat, odds_flat. simpl in Hin.
    destruct Hin as [<- | [<- | []]]; cbn [String.eqb Ascii.eqb Bool.eqb].
    + rewrite (cx_ok n) by auto. cbn [bindR]. eauto.
    + rewrite (cz_ok n) by auto. cbn [bindR]. eauto.
  - unfold handle_gate. cbn [String.eqb Ascii.eqb Bool.eqb]. rewrite (prob_of_arg a p), qubit_of_qa by auto.
    cbn [bindR]. cbv zeta. destruct (Qltb _ _); eauto. eapply api_total; [split; [apply W|split; [apply D|apply N]]| |].
    + apply HQ. simpl; auto.
    + apply Nat.mod_upper_bound. lia.
  - assert (La : List.length ars = 3) by (rewrite (Forall2_len _ _ _ Hps); auto).
    destruct ars as [|a1 [|a2 [|a3 [|]]]]; try discriminate.
    unfold handle_gate. cbn [String.eqb Ascii.eqb Bool.eqb app]. rewrite (mapR_prob _ ps) by auto. cbn [bindR].
    rewrite qubit_of_qa. cbn [bindR].
    destruct (choice_ok (d_unif (g (s_k s))) ps Hpos Hsum) as (k & E). rewrite E. cbn [bindR].
    apply choice_spec in E; [|apply Hg]. rewrite Hl in E.
    eapply (api_total (tick s)); eauto. apply HQ. simpl; auto. lia.
  - assert (La : List.length ars = 15) by (rewrite (Forall2_len _ _ _ Hps); auto).
    unfold handle_gate. cbn [String.eqb Ascii.eqb Bool.eqb].
    rewrite firstn_app, skipn_app, La. cbn [Nat.sub]. rewrite firstn_O, skipn_O, List.app_nil_r.
    rewrite firstn_all2, skipn_all2 by lia. cbn [List.app]. rewrite (mapR_prob _ ps) by auto. cbn [bindR].
    rewrite Hl. cbn [Nat.eqb negb].
    destruct (choice_ok (d_unif (g (s_k s))) ps Hpos Hsum) as (k & E). rewrite E. cbn [bindR].
    apply choice_spec in E; [|apply Hg]. rewrite Hl in E. rewrite !qubit_of_qa. cbn [bindR].
    destruct (code_surj (k / 4)) as (P & HP). { apply Nat.div_lt_upper_bound; lia. }
    destruct (api_total (tick s) q1 (k / 4) v) as (s1 & E1); auto.
    { apply HQ. apply in_or_app. right. simpl; auto. }
    { apply Nat.div_lt_upper_bound; lia. }
    rewrite E1. cbn [bindR]. rewrite <- HP in E1.
    destruct (apply_pauli_sem n (tick s) q1 P s1 v Hn I E1) as (I1 & _).
    eapply api_total; [apply I1| |].
    + apply HQ. apply in_or_app. right. simpl; auto.
    + apply Nat.mod_upper_bound. lia.
Qed.

Lemma valid_gate_distinct name args : valid_gate name args -> distinct_gate name args.
Proof.
  intros V HN. inversion V as [nm qs Hin|nm cts Hin Hd|a p q Hp|ars ps q Hps Hl Hpos Hsum|ars ps q1 q2 Hps Hl Hpos Hsum]; subst;
    try (exfalso; destruct HN; subst; simpl in *; intuition discriminate).
  clear -Hd. induction cts as [|[a b] cts IH]; cbn [flat_map app distinct_pairs]; auto.
  inversion Hd; subst. split; auto. cbn in *. intros E. apply qa_inj in E. auto.
Qed.

Lemma valid_name_plain name args : valid_gate name args -> String.prefix "ERROR" name = false.
Proof.
  intros V. inversion V; subst; auto.
  - simpl in H. repeat (destruct H as [<- | H]; [reflexivity|]). tauto.
  - simpl in H. repeat (destruct H as [<- | H]; [reflexivity|]). tauto.
Qed.

Lemma run_total : forall c b s v, valid_circuit b c -> Inv n s v -> (b = true -> s_in s = true) ->
  (forall gt q, In gt c -> In (qa q) (snd gt) -> q < n) ->
  exists s', foldR (run_gate g) c s = Ok s'.
Proof.
  induction c as [|gt c IH]; intros b s v V I Hb HQ; [eexists; reflexivity|].
  assert (HQ' : forall gt q, In gt c -> In (qa q) (snd gt) -> q < n) by (intros; eapply HQ; simpl; eauto).
  assert (HG : forall s0 name args, Inv n s0 v -> valid_gate name args -> (forall q, In (qa q) args -> q < n) ->
     exists s1, handle_gate g s0 name args = Ok s1 /\ s_in s1 = s_in s0 /\ exists v1, Inv n s1 v1).
  { intros s0 name args I0 V0 Q0. destruct (handle_gate_total s0 v name args I0 V0 Q0) as (s1 & E).
    exists s1. split; auto. split. apply handle_gate_flags in E. tauto.
    destruct (handle_gate_sem g Hg n Hn s0 name args s1 v I0 (valid_gate_distinct _ _ V0) E) as (ms & es & v1 & _ & I1 & _).
    eauto. }
  cbn [foldR]. inversion V as [|? name args ? Vg Vc|? p inner args ? Vg Vc|p inner args ? Vg Vc|inner args ? Vg Vc]; subst.
  - unfold run_gate at 1. cbn [fst snd]. rewrite (valid_name_plain name args) by auto.
    destruct (HG (set_flags s false (s_any s) (s_branch s)) name args I Vg) as (s1 & -> & Hs & v1 & I1).
    { intros. eapply HQ; [simpl; left; reflexivity|]. auto. }
    cbn [bindR]. apply (IH false s1 v1); auto. discriminate.
  - unfold run_gate at 1, handle_error. cbn [fst snd].
    replace (String.prefix "ERROR" "ERROR") with true by reflexivity.
    replace (String.eqb "ERROR" "ERROR") with true by reflexivity. cbn [prob_of bindR].
    destruct (Qltb _ _).
    + destruct (HG (tick (set_flags s true true true)) inner args I Vg) as (s1 & -> & Hs & v1 & I1).
      { intros. eapply HQ; [simpl; left; reflexivity|]. simpl; auto. }
      cbn [bindR]. apply (IH true s1 v1); auto.
    + cbn [bindR]. apply (IH true _ v); auto.
  - specialize (Hb eq_refl). unfold run_gate at 1, handle_error. cbn [fst snd].
    replace (String.prefix "ERROR" "ERROR_ELSE") with true by reflexivity.
    replace (String.eqb "ERROR_ELSE" "ERROR") with false by reflexivity.
    replace (String.eqb "ERROR_ELSE" "ERROR_CONTINUE") with false by reflexivity.
    replace (String.eqb "ERROR_ELSE" "ERROR_ELSE") with true by reflexivity.
    cbn [prob_of bindR]. rewrite Hb. cbn [negb]. destruct (s_any s).
    { cbn [bindR]. apply (IH true _ v); auto. }
    destruct (Qltb _ _).
    + destruct (HG (tick (set_flags s true true true)) inner args I Vg) as (s1 & -> & Hs & v1 & I1).
      { intros. eapply HQ; [simpl; left; reflexivity|]. simpl; auto. }
      cbn [bindR]. apply (IH true s1 v1); auto.
    + cbn [bindR]. apply (IH true _ v); auto.
  - specialize (Hb eq_refl). unfold run_gate at 1, handle_error. cbn [fst snd].
    replace (String.prefix "ERROR" "ERROR_CONTINUE") with true by reflexivity.
    replace (String.eqb "ERROR_CONTINUE" "ERROR") with false by reflexivity.
    replace (String.eqb "ERROR_CONTINUE" "ERROR_CONTINUE") with true by reflexivity.
    rewrite Hb. cbn [negb]. destruct (s_branch s).
    + destruct (HG s inner args I Vg) as (s1 & -> & Hs & v1 & I1).
      { intros. eapply HQ; [simpl; left; reflexivity|]. simpl; auto. }
      cbn [bindR]. apply (IH true s1 v1); auto. congruence.
    + cbn [bindR]. apply (IH true _ v); auto.
Qed.
End Total.
