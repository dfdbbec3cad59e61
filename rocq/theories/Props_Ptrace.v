(** Property theorems C62: measurements of single qubits in the X or Z base, their destructive
    form, and insertion of qubits.
    Vocabulary: QSpec (state vectors), PauliSem (meaning of rows), StateSpec, PtraceSpec. *)
Require Import List Bool Arith ZArith Lia Sorted Permutation.
From Verif Require Import Base BaseProofs QSpec PauliModel PauliSem PauliProofs PauliAlg TableauProofs
  MeasureProofs StateProofs StateSpec GateProofs DestabProofs PtraceModel PtraceSpec PtraceProofs.
Import ListNotations.

(** The outcome asked for target number [i]: a single one is meant for all targets. *)
Definition asked (forced : forced_arg) (i : nat) : option Z :=
  match forced with
  | ForcedOne o => o
  | ForcedSeq [o] => o
  | ForcedSeq l => nth i l None
  end.

(** Outcomes are 0 or 1, and a sequence has one entry or one for each target. *)
Definition bit_or_none (o : option Z) : Prop := forall f, o = Some f -> f = 0%Z \/ f = 1%Z.
Definition asked_ok (forced : forced_arg) (targets : nat) : Prop :=
  match forced with
  | ForcedOne o => bit_or_none o
  | ForcedSeq l => Forall bit_or_none l /\ (length l = 1 \/ length l = targets)
  end.

(** Non-destructive measurement of several qubits. *)
Theorem C62_bases (n : nat) (g : rng) (k : nat) (t : tableau) (p : pauli1) (targets : list nat)
    (forced : forced_arg) (v : vec) :
  0 < n -> valid n t -> p = PX \/ p = PZ -> Forall (fun q => q < n) targets ->
  asked_ok forced (length targets) -> describes n t v -> (norm2 n v <> 0)%Z ->
  exists t' ms k' order v', measure_base g k t p targets false forced = Ok (t', ms, k') /\
    length ms = length targets /\ valid n t' /\ describes n t' v' /\ (norm2 n v' <> 0)%Z /\
    (* the targets are measured one after the other, the largest first, and the outcomes are
       returned in the order of the targets *)
    Permutation order (seq 0 (length targets)) /\
    StronglySorted (fun i j => nth j targets 0 <= nth i targets 0) order /\
    measured n g (fun i => single n false p (nth i targets 0)) (asked forced) (fun i => nth i ms false)
      order k v k' v' /\
    (* afterwards every target has the returned value *)
    (forall i, i < length targets ->
       veq n (papply (single n false p (nth i targets 0)) v') (vscale (sgn (nth i ms false)) v')) /\
    (* and operators which commute with all measured ones keep their values *)
    (forall r, length (ops r) = n ->
       (forall q, In q targets -> commute n (denote r) (single n false p q)) ->
       stabilises n (denote r) v -> stabilises n (denote r) v').
Proof.
  intros Hn HV Hp HT HA HD Hv. rewrite valid_wf in HV.
  assert (HW : wanted_ok forced (length targets)) by exact HA.
  destruct (pad_ok forced (length targets) HW) as (fo & EP & HF).
  assert (Hperm : Permutation (rev (argsort targets)) (seq 0 (length targets))).
  { eapply perm_trans. apply Permutation_sym, Permutation_rev. apply argsort_perm. }
  assert (Hin : forall i, In i (rev (argsort targets)) <-> i < length targets).
  { intros i. split; intros H.
    - apply (Permutation_in _ Hperm) in H. apply in_seq in H. lia.
    - apply (Permutation_in _ (Permutation_sym Hperm)). apply in_seq. lia. }
  destruct (bases_fold n g p targets fo Hp HT) with (l := rev (argsort targets)) (st := t)
    (res := repeat false (length targets)) (k := k) (v := v)
    as (t' & ms & k' & v' & E & Lm & _ & W' & D' & V' & HM); auto.
  { intros i Hi. destruct (HF i Hi) as [-> H]. auto. }
  { apply (Permutation_NoDup (Permutation_sym Hperm)). apply seq_NoDup. }
  { intros i. apply Hin. }
  { apply repeat_length. }
  exists t', ms, k', (rev (argsort targets)), v'.
  split. { unfold measure_base. rewrite EP. cbn [bindR]. rewrite (wf_nqubits n) by auto. exact E. }
  split; [auto|]. split; [apply valid_wf; auto|]. split; [auto|]. split; [auto|]. split; [auto|].
  split. { apply (sorted_rev (fun a b => nth a targets 0 <= nth b targets 0)), argsort_sorted. }
  split.
  { eapply measured_ext_wanted; [|apply HM]. intros i Hi. apply Hin in Hi. destruct (HF i Hi) as [-> _]. reflexivity. }
  split.
  - intros i Hi. refine (measured_eigen n g p targets _ (fun i => nth i ms false) _ _ _ _ _ _ HM _ i _).
    + intros j Hj. rewrite Forall_forall in HT. apply HT, nth_In; auto.
    + intros j Hj. apply Hin; auto.
    + apply Hin; auto.
  - intros r Hr Hc Hs. eapply (measured_keep n g p targets); [auto|apply HM| |auto].
    intros i Hi. apply Hin in Hi. specialize (Hc (nth i targets 0) (nth_In _ _ Hi)).
    rewrite <- denote_single in Hc. apply commute_iff in Hc; auto. apply single_len.
Qed.
Print Assumptions C62_bases.

(** Bell pair, both qubits in the Z base, with the outcome of qubit 1 forced to be 1: qubit 0
    follows, and the outcome asked for it is ignored. *)
Example C62_bases_example :
  exists t t', foldR (exec (fun _ => mkDraw false (QArith_base.Qmake 0 1) 0)) [OpH [0]; OpCX [0] [1]] (zero_state 2, 0) = Ok (t, 0) /\
    valid 2 t /\ (exists v, (norm2 2 v <> 0)%Z /\ describes 2 t v) /\
    asked_ok (ForcedSeq [Some 0%Z; Some 1%Z]) 2 /\
    measure_base (fun _ => mkDraw false (QArith_base.Qmake 0 1) 0) 0 t PZ [0; 1] false (ForcedSeq [Some 0%Z; Some 1%Z])
      = Ok (t', [true; true], 0).
Proof.
  eexists _, _. split. vm_compute; reflexivity. split; [|split; [|split]].
  - apply valid_wf. split; [reflexivity|split].
    + intros i Hi. do 4 (destruct i; auto). lia.
    + intros i j Hi Hj. do 4 (destruct i; [do 4 (destruct j; [reflexivity|]); lia|]). lia.
  - apply exists_described. split; [reflexivity|split].
    + intros i Hi. do 4 (destruct i; auto). lia.
    + intros i j Hi Hj. do 4 (destruct i; [do 4 (destruct j; [reflexivity|]); lia|]). lia.
  - split; [|simpl; auto]. constructor; [|constructor; [|constructor]]; intros f E; injection E as <-; auto.
  - vm_compute; reflexivity.
Qed.

(** Destructive measurement of one qubit. *)
Theorem C62_destructive (n : nat) (g : rng) (k : nat) (t : tableau) (p : pauli1) (q : nat)
    (forced : forced_arg) (v : vec) :
  0 < n -> valid n t -> p = PX \/ p = PZ -> q < n ->
  asked_ok forced 1 -> describes n t v -> (norm2 n v <> 0)%Z ->
  exists t1 t' m k' w,
    (* outcome and random bits of the non-destructive measurement *)
    measure_base g k t p [q] false forced = Ok (t1, [m], k') /\
    measure_base g k t p [q] true forced = Ok (t', [m], k') /\
    (* the measured state is the product of an eigenstate of the measured qubit and the state of
       the other qubits, which the new tableau describes *)
    describes n t1 (project (single n false p q) m v) /\
    veq n (project (single n false p q) m v) (with_qubit q (eigen p m) w) /\
    length t' = 2 * (n - 1) /\ Forall (fun r => length (ops r) = n - 1) t' /\
    describes (n - 1) t' w /\ (norm2 (n - 1) w <> 0)%Z /\
    (* a valid tableau describes the same states and cannot be told from the new one: after
       every sequence of operations both give the same stabilisers, outcomes and draws *)
    exists s, valid (n - 1) s /\ stab_rows (n - 1) s = stab_rows (n - 1) t' /\
      (1 < n -> forall g2 k2 os, Forall (oper_ok (n - 1)) os ->
         exists t2 s2 k3, foldR (exec g2) os (t', k2) = Ok (t2, k3) /\ foldR (exec g2) os (s, k2) = Ok (s2, k3) /\
           valid (n - 1) s2 /\ stab_rows (n - 1) t2 = stab_rows (n - 1) s2 /\
           forall op f, length (ops op) = n - 1 -> (exists i, nth i (ops op) (false, false) <> (false, false)) ->
             bit_or_none f -> exists t3 s3 b k4,
               measure g2 k3 t2 op f = Ok (t3, b, k4) /\ measure g2 k3 s2 op f = Ok (s3, b, k4)).
Proof.
  intros Hn HV Hp Hq HA HD Hv. rewrite valid_wf in HV.
  assert (HW : wanted_ok forced 1) by exact HA.
  destruct (pad_ok forced 1 HW) as (fo & EP & HF).
  destruct (HF 0 ltac:(lia)) as [E0 G0].
  assert (Hpi : p <> PI) by (destruct Hp; subst; discriminate).
  destruct (one_measurement n g k t p q (nth 0 fo None) v HV Hq Hp ltac:(rewrite E0; auto) HD Hv)
    as (t1 & m & k' & HM & W1 & D1 & V1 & _ & HE).
  destruct (ptrace_ok n t1 q p m _ W1 Hq Hp D1 V1 HE) as (t' & ET & Wk & Dt).
  set (pv := project (single n false p q) m v) in *.
  exists t1, t', m, k', (slice q (base_bit p m) pv).
  assert (EB : forall d, measure_base g k t p [q] d forced =
      bindR (if d then ptrace t1 q p else Ok t1) (fun u => Ok (u, [m], k'))).
  { intros d. unfold measure_base. cbn [length]. rewrite EP. cbn [bindR]. rewrite (wf_nqubits n) by auto.
    change (rev (argsort [q])) with [0]. cbn [foldR]. unfold measure_base_step. cbn [nth].
    rewrite (sqpo_ok n) by auto. cbn [bindR].
    change (mkRow (upd q (pbits p) (repeat pid n)) false) with (pop n p q). rewrite HM. cbn [bindR].
    destruct (if d then ptrace t1 q p else Ok t1); reflexivity. }
  split. { rewrite EB. reflexivity. }
  split. { rewrite EB, ET. reflexivity. }
  split; [auto|]. split. { apply eigen_product; auto. }
  pose proof Wk as (Lk & Fk & _). split; [auto|].
  split. { apply Forall_forall. intros r Hr. apply (In_nth _ _ row0) in Hr. destruct Hr as (i & Hi & <-). apply Fk; lia. }
  split; [auto|]. split. { apply (slice_nonzero n q p m pv); auto. }
  destruct (repair (n - 1) t' Wk) as (s & Ws & Hs).
  assert (RS : forall a b, sim (n - 1) a b -> stab_rows (n - 1) a = stab_rows (n - 1) b).
  { intros a b ((La & _) & (Lb & _) & E & _). unfold stab_rows. apply (list_ext _ _ row0).
    rewrite !skipn_length; lia. rewrite skipn_length, La. intros i Hi.
    rewrite !skipn_nth by (auto; lia). apply E. lia. }
  exists s. split; [apply valid_wf; auto|]. split; [symmetry; apply RS; auto|].
  intros Hn1 g2 k2 os HO.
  destruct (exec_seq_sim (n - 1) g2 os t' s k2 Hs Ws ltac:(lia) HO) as (t2 & s2 & k3 & X1 & X2 & X3 & X4).
  exists t2, s2, k3. split; [auto|]. split; [auto|]. split; [apply valid_wf; auto|]. split; [apply RS; auto|].
  intros op f Ho Hi Hf.
  destruct (measure_sim (n - 1) g2 k3 t2 s2 op f X3 X4 ltac:(lia) Ho (nonid_exists _ _ Ho Hi) Hf)
    as (t3 & s3 & b & k4 & Y1 & Y2 & _). exists t3, s3, b, k4. auto.
Qed.
Print Assumptions C62_destructive.

Definition rng0 : rng := fun _ => mkDraw false (QArith_base.Qmake 0 1) 0.

(** The GHZ state of three qubits: a destructive measurement of qubit 1 in the X base with
    outcome 1 leaves the Bell state with stabilisers -XX and ZZ. *)
Example C62_destructive_example :
  exists t t', foldR (exec rng0) [OpH [0]; OpCX [0; 0] [1; 2]] (zero_state 3, 0) = Ok (t, 0) /\
    valid 3 t /\ (exists v, (norm2 3 v <> 0)%Z /\ describes 3 t v) /\ asked_ok (ForcedOne (Some 1%Z)) 1 /\
    measure_base rng0 0 t PX [1] true (ForcedOne (Some 1%Z)) = Ok (t', [true], 0) /\
    map denote (stab_rows 2 t') = [(true, [PX; PX]); (false, [PZ; PZ])].
Proof.
  assert (W : exists t, foldR (exec rng0) [OpH [0]; OpCX [0; 0] [1; 2]] (zero_state 3, 0) = Ok (t, 0) /\ wf 3 t).
  { destruct (exec_seq_ok 3 rng0 [OpH [0]; OpCX [0; 0] [1; 2]] (zero_state 3) 0 ltac:(lia) (zero_state_wf 3)) as (st & k & E & W).
    - constructor. repeat constructor. constructor; [|constructor]. split; auto. repeat constructor; cbn; lia.
    - assert (E' := E). vm_compute in E'. injection E' as <- <-. eexists. split; [exact E|exact W]. }
  destruct W as (t & E & W). assert (E' := E). vm_compute in E'. injection E' as <-.
  eexists _, _. split. exact E. split. apply valid_wf; exact W. split. apply exists_described; exact W.
  split. intros f X; injection X as <-; auto. split; vm_compute; reflexivity.
Qed.

(** The destabilisers of the new tableau need not commute with each other, so that it is not a
    valid tableau itself. *)
Theorem C62_destabilisers_refuted :
  exists t t', foldR (exec rng0) [OpCX [1] [0]; OpCZ [0] [2]] (zero_state 3, 0) = Ok (t, 0) /\ valid 3 t /\
    measure_base rng0 0 t PZ [0] true (ForcedOne None) = Ok (t', [false], 0) /\
    ~ valid 2 t' /\ anticommute 2 (denote (nth 0 t' row0)) (denote (nth 1 t' row0)).
Proof.
  assert (W : exists t, foldR (exec rng0) [OpCX [1] [0]; OpCZ [0] [2]] (zero_state 3, 0) = Ok (t, 0) /\ wf 3 t).
  { destruct (exec_seq_ok 3 rng0 [OpCX [1] [0]; OpCZ [0] [2]] (zero_state 3) 0 ltac:(lia) (zero_state_wf 3)) as (st & k & E & W).
    - constructor; [|constructor; [|constructor]]; (split; auto; repeat constructor; cbn; lia).
    - assert (E' := E). vm_compute in E'. injection E' as <- <-. eexists. split; [exact E|exact W]. }
  destruct W as (t & E & W). assert (E' := E). vm_compute in E'. injection E' as <-.
  eexists _, _. split. exact E. split. apply valid_wf; exact W. split. vm_compute; reflexivity. split.
  - rewrite valid_wf. intros (_ & _ & C). specialize (C 0 1 ltac:(lia) ltac:(lia)). discriminate.
  - apply anticommute_iff; reflexivity.
Qed.
Print Assumptions C62_destabilisers_refuted.

(** Destructive measurements of several qubits raise ValueError whenever they are asked for:
    the operator of the second one acts on the old number of qubits. *)
Theorem C62_destructive_several_refuted (n : nat) (g : rng) (k : nat) (t : tableau) (p : pauli1) (targets : list nat)
    (forced : forced_arg) :
  0 < n -> valid n t -> p = PX \/ p = PZ -> Forall (fun q => q < n) targets -> 2 <= length targets ->
  asked_ok forced (length targets) ->
  measure_base g k t p targets true forced = Err ValueError.
Proof.
  intros Hn HV Hp HT HL HA. rewrite valid_wf in HV.
  destruct (exists_described n t HV) as (v & Hv & HD).
  assert (HW : wanted_ok forced (length targets)) by exact HA.
  destruct (pad_ok forced (length targets) HW) as (fo & EP & HF).
  assert (Hpi : p <> PI) by (destruct Hp; subst; discriminate).
  assert (Hperm : Permutation (rev (argsort targets)) (seq 0 (length targets))).
  { eapply perm_trans. apply Permutation_sym, Permutation_rev. apply argsort_perm. }
  assert (Hin : forall i, In i (rev (argsort targets)) -> i < length targets).
  { intros i H. apply (Permutation_in _ Hperm) in H. apply in_seq in H. lia. }
  assert (HQ : forall i, i < length targets -> nth i targets 0 < n).
  { intros i Hi. rewrite Forall_forall in HT. apply HT, nth_In; auto. }
  unfold measure_base. rewrite EP. cbn [bindR]. rewrite (wf_nqubits n) by auto.
  apply Permutation_length in Hperm. rewrite seq_length in Hperm.
  destruct (rev (argsort targets)) as [|i [|j l]]; simpl in Hperm; try lia.
  assert (Hi : i < length targets) by (apply Hin; simpl; auto).
  assert (Hj : j < length targets) by (apply Hin; simpl; auto).
  cbn [foldR]. unfold measure_base_step at 1. rewrite (sqpo_ok n) by auto. cbn [bindR].
  change (mkRow (upd (nth i targets 0) (pbits p) (repeat pid n)) false) with (pop n p (nth i targets 0)).
  destruct (HF i Hi) as [E0 G0].
  destruct (one_measurement n g k t p (nth i targets 0) (nth i fo None) v HV (HQ i Hi) Hp ltac:(rewrite E0; auto) HD Hv)
    as (t1 & m & k' & HM & W1 & D1 & V1 & _ & HE).
  rewrite HM. cbn [bindR].
  destruct (ptrace_ok n t1 (nth i targets 0) p m _ W1 (HQ i Hi) Hp D1 V1 HE) as (t' & -> & (Lk & Fk & _) & _).
  cbn [bindR]. unfold measure_base_step at 1. rewrite (sqpo_ok n) by auto. cbn [bindR].
  unfold measure at 1.
  assert (EN : nqubits t' = n - 1).
  { destruct t' as [|r t0]; simpl in Lk. simpl; lia. apply (Fk 0). lia. }
  rewrite EN. cbn [ops]. rewrite single_len. destruct (Nat.eqb_spec (n - 1) n); [lia|]. reflexivity.
Qed.
Print Assumptions C62_destructive_several_refuted.

Example C62_destructive_several_example :
  valid 3 (zero_state 3) /\ Forall (fun q => q < 3) [2; 0] /\ asked_ok (ForcedOne None) 2 /\
  measure_base rng0 0 (zero_state 3) PZ [2; 0] true (ForcedOne None) = Err ValueError /\
  exists t', measure_base rng0 0 (zero_state 3) PZ [2; 0] false (ForcedOne None) = Ok (t', [false; false], 0).
Proof.
  split. apply valid_wf, zero_state_wf. split. repeat constructor. split. intros f E; discriminate.
  split. vm_compute; reflexivity. eexists. vm_compute; reflexivity.
Qed.

(** insert_qubit_at and append_qubit never return a valid tableau of one more qubit: the row of
    the new stabiliser is the identity, or the function raises. *)
Theorem C62_insert_refuted (n : nat) (t : tableau) (pos : nat) :
  0 < n -> valid n t ->
  insert_qubit_at t pos = Err IndexError \/
  exists t', insert_qubit_at t pos = Ok t' /\ pos = 1 /\ length t' = 2 * S n /\
    ops (nth (2 * n + 1) t' row0) = repeat (false, false) (S n) /\ ~ valid (S n) t'.
Proof.
  intros Hn HV. rewrite valid_wf in HV. pose proof HV as (L & F & _).
  unfold insert_qubit_at. rewrite (wf_nqubits n) by auto.
  destruct (Nat.ltb_spec n pos); [auto|]. destruct (Nat.eqb_spec pos 1); cbn [negb]; [|auto]. right.
  subst pos. eexists. split; [reflexivity|]. split; [auto|].
  set (zero := mkRow (repeat (false, false) (S n)) false).
  set (st1 := map (insert_column 1) t).
  assert (L1 : length st1 = 2 * n) by (unfold st1; rewrite map_length; auto).
  set (st2 := firstn n st1 ++ zero :: skipn n st1 ++ [zero]).
  assert (L2 : length st2 = 2 * S n).
  { unfold st2. rewrite app_length. cbn [length]. rewrite app_length, firstn_length, skipn_length. cbn [length]. lia. }
  assert (E2 : nth (2 * n + 1) st2 row0 = zero).
  { unfold st2. rewrite app_nth2 by (rewrite firstn_length; lia). rewrite firstn_length_le by lia.
    replace (2 * n + 1 - n) with (S n) by lia. cbn [nth]. rewrite app_nth2 by (rewrite skipn_length; lia).
    rewrite skipn_length. replace (n - (length st1 - n)) with 0 by lia. reflexivity. }
  cbv zeta. rewrite !length_upd. split; [auto|].
  match goal with |- context [nth (2 * n + 1) ?x row0] => assert (E3 : nth (2 * n + 1) x row0 = zero) end.
  { rewrite !nth_upd_other by lia. auto. }
  rewrite E3. split; [reflexivity|].
  rewrite valid_wf. intros (_ & _ & C). specialize (C (2 * n + 1) n ltac:(lia) ltac:(lia)).
  rewrite E3 in C. cbn [zero ops] in C. change (false, false) with pid in C.
  rewrite symp_id_l in C. unfold conj_rows in C.
  destruct (Nat.eqb_spec (n + S n) (2 * n + 1)); [|lia]. rewrite orb_true_r in C. discriminate.
Qed.
Print Assumptions C62_insert_refuted.

Example C62_insert_example :
  valid 2 (zero_state 2) /\ append_qubit (zero_state 2) = Err IndexError /\
  exists t', append_qubit (zero_state 1) = Ok t' /\ ~ valid 2 t'.
Proof.
  split. apply valid_wf, zero_state_wf. split. reflexivity. eexists. split. reflexivity.
  rewrite valid_wf. intros (_ & _ & C). specialize (C 1 3 ltac:(lia) ltac:(lia)). discriminate.
Qed.
