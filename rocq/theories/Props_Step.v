(** Property theorems C70: running circuits step by step. *)
Require Import String List Bool Arith ZArith QArith Lia.
From Verif Require Import Base BaseProofs QSpec PauliModel CircuitModel SimModel SimSpec RunProofs Props_Circuit StepModel.
Import ListNotations.
Local Open Scope string_scope.
Local Open Scope nat_scope.
Local Open Scope list_scope.

(** * Specification *)
(** Several calls of [next] in a row, all of which execute an instruction. *)
Inductive steps (g : rng) (c : circuit) : nat -> stepper -> stepper -> Prop :=
| steps_none st : steps g c 0 st st
| steps_more k st st' st'' : step_next g c st = Stepped st' -> steps g c k st' st'' -> steps g c (S k) st st''.
(** Instructions which continue an error block. *)
Definition continues (gt : gate) : Prop := fst gt = "ERROR_CONTINUE" \/ fst gt = "ERROR_ELSE".

(** * Proofs *)
Section Steps.
Variable g : rng.

Lemma next_at c1 gt c2 s : step_next g (c1 ++ gt :: c2) (mkStepper s (Z.of_nat (length c1) - 1)) =
  match run_gate g s gt with Ok s' => Stepped (mkStepper s' (Z.of_nat (length c1))) | Err e => Raised e (Z.of_nat (length c1)) end.
Proof.
  unfold step_next. cbn [sp_pointer sp_sim]. replace (Z.of_nat (length c1) - 1 + 1)%Z with (Z.of_nat (length c1)) by lia.
  rewrite (proj2 (Z.ltb_lt _ _)) by (rewrite app_length; cbn [length]; lia). rewrite (proj2 (Z.ltb_ge _ 0)) by lia.
  rewrite Nat2Z.id, nth_error_app2, Nat.sub_diag by lia. reflexivity.
Qed.
Lemma next_end c s p : (Z.of_nat (length c) <= p + 1)%Z -> step_next g c (mkStepper s p) = StopIteration (mkStepper s (p + 1)).
Proof. intros L. unfold step_next. cbn [sp_pointer sp_sim]. rewrite (proj2 (Z.ltb_ge _ _)) by auto. reflexivity. Qed.

Definition outcome (c : circuit) (r : Res sim) : Res stepper := match r with Ok s => Ok (mkStepper s (Z.of_nat (length c))) | Err e => Err e end.
Lemma finishes_from c2 : forall c1 s, finishes g (c1 ++ c2) (mkStepper s (Z.of_nat (length c1) - 1)) (outcome (c1 ++ c2) (foldR (run_gate g) c2 s)).
Proof.
  induction c2 as [|gt c2 IH]; intros c1 s.
  - rewrite app_nil_r. apply fin_stop. rewrite next_end by lia. f_equal. f_equal. lia.
  - cbn [foldR]. pose proof (next_at c1 gt c2 s) as N. destruct (run_gate g s gt) as [s'|e]; cbn [bindR outcome].
    + eapply fin_next; [exact N|]. specialize (IH (c1 ++ [gt]) s'). rewrite <- app_assoc, app_length in IH. cbn [length app] in IH.
      replace (Z.of_nat (length c1 + 1) - 1)%Z with (Z.of_nat (length c1)) in IH by lia. exact IH.
    + eapply fin_raise; exact N.
Qed.
Lemma finishes_det c st r : finishes g c st r -> forall r', finishes g c st r' -> r' = r.
Proof. induction 1 as [st st' N|st e p N|st st' r N _ IH]; intros r' H'; inversion H' as [? ? M|? ? ? M|? ? ? M F]; subst; try congruence. rewrite M in N. injection N as ->. auto. Qed.
Lemma finishes_iff c1 c2 s r : finishes g (c1 ++ c2) (mkStepper s (Z.of_nat (length c1) - 1)) r <-> r = outcome (c1 ++ c2) (foldR (run_gate g) c2 s).
Proof. split; [intros F; eapply finishes_det; [apply finishes_from|exact F]|intros ->; apply finishes_from]. Qed.

Lemma steps_from k : forall c1 c2 s st', k <= length c2 ->
  (steps g (c1 ++ c2) k (mkStepper s (Z.of_nat (length c1) - 1)) st' <->
   exists s', foldR (run_gate g) (firstn k c2) s = Ok s' /\ st' = mkStepper s' (Z.of_nat (length c1 + k) - 1)).
Proof.
  induction k as [|k IH]; intros c1 c2 s st' L.
  - cbn [firstn foldR]. rewrite Nat.add_0_r. split.
    + intros H. inversion H; subst. eauto.
    + intros (s' & E & ->). injection E as ->. constructor.
  - destruct c2 as [|gt c2]; [cbn in L; lia|]. cbn [firstn foldR]. pose proof (next_at c1 gt c2 s) as N. cbn [length] in L.
    specialize (IH (c1 ++ [gt]) c2). rewrite <- app_assoc, app_length in IH. cbn [length app] in IH.
    destruct (run_gate g s gt) as [s1|e]; cbn [bindR].
    + specialize (IH s1 st' ltac:(lia)). replace (Z.of_nat (length c1 + 1) - 1)%Z with (Z.of_nat (length c1)) in IH by lia.
      replace (length c1 + 1 + k) with (length c1 + S k) in IH by lia. rewrite <- IH. split.
      * intros H. inversion H as [|? ? ? ? M F]; subst. rewrite N in M. injection M as <-. exact F.
      * intros F. eapply steps_more; eauto.
    + split; [|intros (s' & E & _); discriminate]. intros H. inversion H as [|? ? ? ? M F]; subst. congruence.
Qed.
Lemma steps_bound c k : forall st st', steps g c k st st' -> (-1 <= sp_pointer st)%Z -> (sp_pointer st' = sp_pointer st + Z.of_nat k)%Z /\ (k = 0 \/ (sp_pointer st' < Z.of_nat (length c))%Z).
Proof.
  induction k as [|k IH]; intros st st' H B; inversion H as [|? ? st1 ? N F]; subst; [split; [lia|auto]|].
  assert (P : sp_pointer st1 = (sp_pointer st + 1)%Z /\ (sp_pointer st1 < Z.of_nat (length c))%Z).
  { unfold step_next in N. destruct (Z.ltb_spec (sp_pointer st + 1) (Z.of_nat (length c))); [|discriminate].
    destruct (sp_pointer st + 1 <? 0)%Z; [discriminate|]. destruct (nth_error _ _); [|discriminate]. destruct (run_gate _ _ _); [|discriminate]. injection N as <-. auto. }
  destruct (IH _ _ F) as [Q1 Q2]; [lia|]. split; [lia|]. right. destruct Q2 as [->|Q2]; [|exact Q2]. cbn in Q1. lia.
Qed.
End Steps.

(** * C70 *)
(** [run] executes the gates in order, each one once, and stops at the first exception; it always ends. *)
Theorem C70_run : forall g c after_reset st r, step_run g c after_reset st r <->
  r = match sim_run g c after_reset (sp_sim st) with Ok s => Ok (mkStepper s (Z.of_nat (length c))) | Err e => Err e end.
Proof.
  intros g c ar st r. unfold step_run, sim_run. pose proof (finishes_iff g [] c (if ar then sim_reset c (sp_sim st) else sp_sim st) r) as H.
  cbn [app length] in H. unfold outcome in H. rewrite <- H. destruct ar; reflexivity.
Qed.

(** [k] steps of a new iterator execute the first [k] instructions; the pointer is at the last executed instruction.  More steps than instructions are impossible. *)
Theorem C70_steps : forall g c k st st',
  steps g c k (step_iter st) st' <-> k <= length c /\ exists s', foldR (run_gate g) (firstn k c) (sp_sim st) = Ok s' /\ st' = mkStepper s' (Z.of_nat k - 1).
Proof.
  intros g c k st st'. pose proof (steps_from g k [] c (sp_sim st) st') as H. cbn [app length plus] in H. split.
  - intros S. assert (L : k <= length c). { destruct (steps_bound _ _ _ _ _ S) as [A B]; [cbn; lia|]. cbn [step_iter sp_pointer] in A. lia. } split; auto. apply H; auto.
  - intros [L X]. apply H; auto.
Qed.

(** A run which is interrupted after [k] steps and continued by further calls of [next], possibly after more instructions have been
    appended to the circuit, is a run of the whole circuit. *)
Theorem C70_resume : forall g c c' k st st' r, steps g c k (step_iter st) st' ->
  (finishes g (c ++ c') st' r <-> step_run g (c ++ c') false st r).
Proof.
  intros g c c' k st st' r S. rewrite C70_run. unfold sim_run. apply C70_steps in S. destruct S as (L & s' & E & ->).
  pose proof (finishes_iff g (firstn k c) (skipn k c ++ c') s' r) as H. rewrite app_assoc, firstn_skipn, firstn_length, Nat.min_l in H by auto. rewrite H.
  assert (X : foldR (run_gate g) (c ++ c') (sp_sim st) = foldR (run_gate g) (skipn k c ++ c') s').
  { rewrite <- (firstn_skipn k c) at 1. rewrite <- app_assoc, foldR_app, E. reflexivity. }
  rewrite X. reflexivity.
Qed.

(** A new iterator begins with the first instruction again, but keeps the state: the first [k] instructions are executed twice. *)
Theorem C70_again : forall g c k st st' r, steps g c k (step_iter st) st' ->
  (step_run g c false st' r <-> r = match foldR (run_gate g) (firstn k c ++ c) (sp_sim st) with Ok s => Ok (mkStepper s (Z.of_nat (length c))) | Err e => Err e end).
Proof.
  intros g c k st st' r S. rewrite C70_run. apply C70_steps in S. destruct S as (L & s' & E & ->). unfold sim_run. cbn [sp_sim]. rewrite foldR_app, E. reflexivity.
Qed.

(** After the last instruction every call of [next] ends the iteration and changes nothing else. *)
Theorem C70_exhausted : forall g c st st', step_run g c false st (Ok st') -> forall i, exists st'',
  step_next g c (mkStepper (sp_sim st') (sp_pointer st' + Z.of_nat i)) = StopIteration st'' /\ sp_sim st'' = sp_sim st' /\ sp_pointer st'' = (sp_pointer st' + Z.of_nat i + 1)%Z.
Proof.
  intros g c st st' H i. apply C70_run in H. destruct (sim_run _ _ _ _); [|discriminate]. injection H as ->. cbn [sp_sim sp_pointer].
  rewrite next_end by lia. eexists. split; [reflexivity|]. auto.
Qed.

(** [reset] forgets earlier uses of the simulator, apart from the position of the random generator, if the circuit does not begin within an error block. *)
Definition alike (s s' : sim) : Prop := s_st s = s_st s' /\ s_meas s = s_meas s' /\ s_eras s = s_eras s' /\ s_k s = s_k s' /\ s_in s = s_in s' /\
  (s_in s = true -> s_any s = s_any s' /\ s_branch s = s_branch s').
Definition both (r r' : Res sim) : Prop := match r, r' with Ok s, Ok s' => alike s s' | Err e, Err e' => e = e' | _, _ => False end.
Lemma alike_flags s s' i a b : s_st s = s_st s' -> s_meas s = s_meas s' -> s_eras s = s_eras s' -> s_k s = s_k s' -> set_flags s i a b = set_flags s' i a b.
Proof. destruct s, s'. cbn. intros -> -> -> ->. reflexivity. Qed.
Lemma both_gate g s s' i a b a' b' name args : s_st s = s_st s' -> s_meas s = s_meas s' -> s_eras s = s_eras s' -> s_k s = s_k s' -> (i = true -> a = a' /\ b = b') ->
  both (handle_gate g (set_flags s i a b) name args) (handle_gate g (set_flags s' i a' b') name args).
Proof.
  intros E1 E2 E3 E4 F. rewrite <- (alike_flags s s' i a' b' E1 E2 E3 E4). rewrite !handle_gate_fl. destruct (handle_gate g s name args) as [s1|e]; cbn; auto.
  repeat split; cbn; auto; apply F; auto.
Qed.
Lemma both_refl r : both r r.
Proof. destruct r; cbn; auto. repeat split; auto. Qed.
Lemma alike_eq s s' : alike s s' -> s_in s = true -> s = s'.
Proof. intros (A & B & C & D & E & F) I. destruct (F I). destruct s, s'; cbn in *; congruence. Qed.
Lemma both_error g s s' name args : s_st s = s_st s' -> s_meas s = s_meas s' -> s_eras s = s_eras s' -> s_k s = s_k s' ->
  ~ continues (name, args) \/ alike s s' -> both (handle_error g s name args) (handle_error g s' name args).
Proof.
  intros E1 E2 E3 E4 H. unfold handle_error. destruct (String.eqb_spec name "ERROR") as [->|N1]; [|destruct (String.eqb_spec name "ERROR_CONTINUE") as [->|N2];
    [|destruct (String.eqb_spec name "ERROR_ELSE") as [->|N3]]].
  - destruct args as [|a [|[z|q|inner] rest]]; cbn; auto. destruct (prob_of a); cbn; auto.
    rewrite !(alike_flags s s' _ _ _ E1 E2 E3 E4), E4. apply both_refl.
  - destruct args as [|[z|q|inner] rest]; cbn; auto. destruct H as [H|H]; [destruct H; left; reflexivity|].
    assert (X : s_in s = s_in s') by apply H. rewrite <- X. destruct (s_in s) eqn:I; cbn; auto. rewrite (alike_eq _ _ H I). apply both_refl.
  - destruct args as [|a [|[z|q|inner] rest]]; cbn; auto. destruct (prob_of a); cbn; auto. destruct H as [H|H]; [destruct H; right; reflexivity|].
    assert (X : s_in s = s_in s') by apply H. rewrite <- X. destruct (s_in s) eqn:I; cbn; auto. pose proof (alike_eq _ _ H I) as Y. rewrite <- Y. apply both_refl.
  - cbn. auto.
Qed.
Lemma both_step g s s' gt : s_st s = s_st s' -> s_meas s = s_meas s' -> s_eras s = s_eras s' -> s_k s = s_k s' ->
  ~ continues gt \/ alike s s' -> both (run_gate g s gt) (run_gate g s' gt).
Proof.
  intros E1 E2 E3 E4 H. destruct gt as [name args]. unfold run_gate. cbn [fst snd]. destruct (String.prefix "ERROR" name); [apply both_error; auto|].
  apply both_gate; auto. discriminate.
Qed.
Lemma both_fold g c : forall s s', alike s s' -> both (foldR (run_gate g) c s) (foldR (run_gate g) c s').
Proof.
  induction c as [|gt c IH]; intros s s' A; [exact A|]. cbn [foldR]. pose proof A as (E1 & E2 & E3 & E4 & _).
  pose proof (both_step g s s' gt E1 E2 E3 E4 (or_intror A)) as B. destruct (run_gate g s gt), (run_gate g s' gt); cbn in *; try tauto. apply IH; auto.
Qed.
Theorem C70_reset : forall g c s s', match c with gt :: _ => ~ continues gt | [] => True end -> s_k s = s_k s' ->
  match sim_run g c true s, sim_run g c true s' with
  | Ok r, Ok r' => process_results r = process_results r' /\ s_st r = s_st r' /\ s_k r = s_k r'
  | Err e, Err e' => e = e'
  | _, _ => False
  end.
Proof.
  intros g c s s' H K. unfold sim_run. assert (B : both (foldR (run_gate g) c (sim_reset c s)) (foldR (run_gate g) c (sim_reset c s')) \/ c = []).
  { destruct c as [|gt c]; [right; auto|left]. cbn [foldR]. set (c0 := gt :: c).
    pose proof (both_step g (sim_reset c0 s) (sim_reset c0 s') gt eq_refl eq_refl eq_refl K (or_introl H)) as B.
    destruct (run_gate g (sim_reset c0 s) gt), (run_gate g (sim_reset c0 s') gt); cbn in *; try tauto. apply both_fold; auto. }
  destruct B as [B| ->]; [|cbn; auto].
  destruct (foldR _ c (sim_reset c s)) as [r|e], (foldR _ c (sim_reset c s')) as [r'|e']; cbn in *; auto.
  destruct B as (A1 & A2 & A3 & A4 & _). unfold process_results. rewrite A2, A3. auto.
Qed.

(** Otherwise [reset] does not forget: after a run of a circuit which ends within an error block, a circuit is accepted which a new simulator refuses. *)
Theorem C70_reset_refuted : forall g, exists c c' s, sim_run g c true (sim_init c 0) = Ok s /\
  (exists s', sim_run g c' true s = Ok s') /\ sim_run g c' true (sim_init c' (s_k s)) = Err ValueError.
Proof.
  intros g. exists [("ERROR", [AFlt 0; AStr "X"; AInt 0])], [("ERROR_CONTINUE", [AStr "X"; AInt 0])].
  unfold sim_run, run_gate. cbn. destruct (Qltb (d_unif (g 0)) 0); cbn; eexists; (split; [reflexivity|]); (split; [|reflexivity]); eexists; reflexivity.
Qed.

(** Half of a circuit, one more instruction, the rest. *)
Definition two_gates : circuit := [("X", [AInt 0]); ("M", [AInt 0])].
Definition after_one : stepper := match step_next g_half two_gates (step_init two_gates 0) with Stepped st => st | _ => step_init two_gates 0 end.
Example C70_example_steps : steps g_half two_gates 1 (step_iter (step_init two_gates 0)) after_one.
Proof. eapply steps_more; [vm_compute; reflexivity|]. vm_compute. constructor. Qed.
Example C70_example : (exists st, finishes g_half (two_gates ++ [("M", [AInt 0])]) after_one (Ok st) /\ s_meas (sp_sim st) = [true; true] /\ sp_pointer st = 3%Z) /\
  (** a new iterator: the X gate twice *)
  (exists st, step_run g_half two_gates false after_one (Ok st) /\ s_meas (sp_sim st) = [false]).
Proof.
  split; eexists.
  - rewrite (C70_resume _ _ _ _ _ _ _ C70_example_steps), C70_run. split; [vm_compute; reflexivity|]. split; reflexivity.
  - rewrite C70_run. split; [vm_compute; reflexivity|]. reflexivity.
Qed.

Print Assumptions C70_run.
Print Assumptions C70_steps.
Print Assumptions C70_resume.
Print Assumptions C70_again.
Print Assumptions C70_exhausted.
Print Assumptions C70_reset.
Print Assumptions C70_reset_refuted.

(** [reset] between two steps does not begin the circuit again: the remaining instructions are executed, on a new state. *)
Theorem C70_rewind : forall g c k st st' r, steps g c k (step_iter st) st' ->
  (finishes g c (step_reset c st') r <->
   r = match foldR (run_gate g) (skipn k c) (sim_reset c (sp_sim st')) with Ok s => Ok (mkStepper s (Z.of_nat (length c))) | Err e => Err e end).
Proof.
  intros g c k st st' r S. apply C70_steps in S. destruct S as (L & s' & E & ->). unfold step_reset. cbn [sp_sim sp_pointer].
  pose proof (finishes_iff g (firstn k c) (skipn k c) (sim_reset c s') r) as H. rewrite firstn_skipn, firstn_length, Nat.min_l in H by auto. exact H.
Qed.
Print Assumptions C70_rewind.
(** X and M: the measurement after [reset] gives 0. *)
Example C70_example_rewind : exists st, finishes g_half two_gates (step_reset two_gates after_one) (Ok st) /\ s_meas (sp_sim st) = [false].
Proof. eexists. rewrite (C70_rewind _ _ _ _ _ _ C70_example_steps). split; [vm_compute; reflexivity|]. reflexivity. Qed.
