(** Lemmas about the Stim interface. *)
Require Import List Bool Arith ZArith QArith Lqa Lia String.
From Verif Require Import Base BaseProofs QSpec PauliModel CircuitModel SimModel CircuitSpec SimSpec SimProofs RunProofs StimModel StimSpec.
Import ListNotations.
Local Open Scope string_scope.
Local Open Scope nat_scope.
Local Open Scope list_scope.

(** * Chains *)
Definition nq (i : nat) : Q := inject_Z (Z.of_nat i).
Lemma nq_S i : (nq (S i) == nq i + 1)%Q.
Proof. unfold nq. rewrite Nat2Z.inj_succ, <- Z.add_1_r, inject_Z_plus. reflexivity. Qed.
Lemma nq_nonneg i : (0 <= nq i)%Q.
Proof. unfold nq. change 0%Q with (inject_Z 0). rewrite <- Zle_Qle. lia. Qed.
Lemma nq_add i j : (nq (i + j) == nq i + nq j)%Q.
Proof. unfold nq. rewrite Nat2Z.inj_add, inject_Z_plus. reflexivity. Qed.

Lemma den_pos i k p : (0 <= p)%Q -> (nq (i + S k) * p <= 1)%Q -> (0 < 1 - nq i * p)%Q.
Proof.
  intros Hp H. rewrite nq_add, nq_S in H.
  assert (0 <= nq i * p)%Q by (apply Qmult_le_0_compat; auto; apply nq_nonneg).
  assert (0 <= nq k * p)%Q by (apply Qmult_le_0_compat; auto; apply nq_nonneg).
  destruct (Qlt_le_dec 0 p) as [P|P].
  - setoid_replace ((nq i + (nq k + 1)) * p)%Q with (nq i * p + nq k * p + p)%Q in H by ring. lra.
  - assert (p == 0)%Q by lra. rewrite H2. lra.
Qed.

Lemma chain_from steps : forall i p, (0 <= p)%Q -> (nq (i + List.length steps) * p <= 1)%Q ->
  exists l, append_equiprobable_from i p steps = Ok l /\ map i_targets l = steps /\
    Forall (fun a => List.length (i_args a) = 1 /\ (0 <= prob_arg1 a /\ prob_arg1 a <= 1)%Q) l /\
    (match l with
     | [] => True
     | a :: l' => (i_name a = if 0 <? i then "ELSE_CORRELATED_ERROR" else "CORRELATED_ERROR") /\
                  Forall (fun b => i_name b = "ELSE_CORRELATED_ERROR") l'
     end) /\
    (forall j, j < List.length steps -> (chain_prob (map prob_arg1 l) j * (1 - nq i * p) == p)%Q) /\
    (0 < List.length steps -> (chain_none (map prob_arg1 l) * (1 - nq i * p) == 1 - nq (i + List.length steps) * p)%Q).
Proof.
  induction steps as [|st steps IH]; intros i p Hp Hk.
  - exists []. cbn [append_equiprobable_from]. split; auto. split; auto. split; auto. split; auto.
    split; intros; cbn in *; lia.
  - cbn [append_equiprobable_from]. cbv zeta. fold (nq i).
    cbn [List.length] in Hk. pose proof (den_pos i (List.length steps) p Hp Hk) as D.
    destruct (Qeq_bool (1 - nq i * p) 0) eqn:E; [apply Qeq_bool_iff in E; lra|].
    assert (Hk' : (nq (S i + List.length steps) * p <= 1)%Q) by (replace (S i + List.length steps) with (i + S (List.length steps)) by lia; auto).
    destruct (IH (S i) p Hp Hk') as (l & El & T & F & N & P & Z). rewrite El. cbn [bindR].
    exists (mkS (if 0 <? i then "ELSE_CORRELATED_ERROR" else "CORRELATED_ERROR") st [(p / (1 - nq i * p))%Q] :: l).
    assert (NZ : ~ (1 - nq i * p == 0)%Q) by lra.
    split; auto. split; [cbn [map i_targets]; rewrite T; auto|]. split; [|split; [|split]].
    + constructor; auto. cbn [i_args]. split; auto. unfold prob_arg1. cbn [i_args nth].
      split.
      * apply Qle_shift_div_l; auto. lra.
      * apply Qle_shift_div_r; auto.
        rewrite nq_add, nq_S in Hk. assert (0 <= nq (List.length steps) * p)%Q by (apply Qmult_le_0_compat; auto; apply nq_nonneg).
        setoid_replace ((nq i + (nq (List.length steps) + 1)) * p)%Q with (nq i * p + nq (List.length steps) * p + p)%Q in Hk by ring. lra.
    + cbn [i_name]. split; auto. destruct l as [|b l]; auto. destruct N as (N1 & N2). constructor; auto.
    + intros [|j] Hj; cbn [map chain_prob]; unfold prob_arg1 at 1; cbn [i_args nth].
      * field; auto.
      * specialize (P j ltac:(cbn in Hj; lia)). rewrite nq_S in P. eapply Qeq_trans; [|exact P]. field; auto.
    + intros _. cbn [map chain_none]. unfold prob_arg1 at 1; cbn [i_args nth].
      destruct steps as [|s2 steps'].
      * destruct l; [|discriminate]. cbn [map chain_none List.length]. rewrite nq_add, nq_S.
        change (nq 0) with 0%Q. field; auto.
      * specialize (Z ltac:(cbn; lia)). rewrite nq_S in Z.
        replace (i + List.length (st :: s2 :: steps')) with (S i + List.length (s2 :: steps')) by (cbn; lia).
        eapply Qeq_trans; [|exact Z]. field; auto.
Qed.

(** * Conversion *)
Lemma stim_fold anc c : forall acc r, foldR (stim_step anc) c acc = Ok r ->
  exists parts, Forall2 (fun gt p => gate_to_stim anc gt = Ok p) c parts /\
    r = (fst acc ++ flat_map fst parts, snd acc ++ flat_map snd parts).
Proof.
  induction c as [|gt c IH]; intros acc r; cbn [foldR].
  - intros [= <-]. exists []. split; auto. cbn. rewrite !List.app_nil_r. destruct acc; auto.
  - unfold stim_step at 1. destruct (gate_to_stim anc gt) as [p|] eqn:E; cbn [bindR]; [|discriminate].
    intros H. destruct (IH _ _ H) as (parts & F & ->). exists (p :: parts). split; auto. cbn [fst snd flat_map].
    rewrite !app_assoc. auto.
Qed.

Lemma mapR_qubits_nat args qs : mapR qubit_of args = Ok qs ->
  map (fun a => match a with AInt z => Z.to_nat z | _ => 0 end) args = qs /\ args = map qa qs.
Proof.
  intros H. apply mapR_qubits in H. subst. split; auto. rewrite map_map. rewrite <- (map_id qs) at 2. apply map_ext.
  intros q. unfold qa. apply Nat2Z.id.
Qed.
Lemma chain_names steps : forall i p l, append_equiprobable_from i p steps = Ok l ->
  Forall (fun a => i_name a = "CORRELATED_ERROR" \/ i_name a = "ELSE_CORRELATED_ERROR") l /\ map i_targets l = steps.
Proof.
  induction steps as [|s steps IH]; intros i p l; cbn [append_equiprobable_from]; cbv zeta.
  - intros [= <-]; auto.
  - destruct (Qeq_bool _ 0); [discriminate|]. destruct (append_equiprobable_from (S i) p steps) eqn:E; cbn [bindR]; [|discriminate].
    intros [= <-]. destruct (IH _ _ _ E) as (F & T). split.
    + constructor; auto. cbn [i_name]. destruct (0 <? i); auto.
    + cbn. rewrite T. auto.
Qed.
Lemma chain_measured l : Forall (fun a => i_name a = "CORRELATED_ERROR" \/ i_name a = "ELSE_CORRELATED_ERROR") l -> stim_measured l = [].
Proof. induction 1 as [|a l [H|H] _ IH]; cbn; auto; rewrite H; cbn; auto. Qed.
Lemma stim_measured_app a b : stim_measured (a ++ b) = stim_measured a ++ stim_measured b.
Proof. apply flat_map_app. Qed.

(** What one gate contributes. *)
Lemma gate_marks anc gt l bs : gate_to_stim anc gt = Ok (l, bs) -> (forall q, In (qa q) (snd gt) -> q < anc) ->
  bs = map (fun q => q =? anc) (stim_measured l) /\
  filter (fun q => negb (q =? anc)) (stim_measured l) = m_qubits [gt] /\
  List.length (filter (fun q => q =? anc) (stim_measured l)) = n_erasures [gt] /\
  (forall q, In q (stim_qubits l) -> q <= anc).
Proof.
  destruct gt as [name args]. cbn [snd]. intros H B. unfold gate_to_stim in H.
  assert (NM : forall n, String.eqb n "M" = false -> m_qubits (@cons gate (n, args) nil) = []) by (intros n E; unfold m_qubits; cbn [flat_map fst]; rewrite E; auto).
  assert (QB : forall ars qs, (forall a, In a ars -> In a args) -> mapR qubit_of ars = Ok qs -> Forall (fun q => q < anc) qs).
  { intros ars qs S E. apply mapR_qubits in E. subst ars. apply Forall_forall. intros q Hq. apply B, S, in_map; auto. }
  assert (SQs : forall qs, map target_qubit (map SQ qs) = qs) by (intros; rewrite map_map; apply map_id).
  assert (ONE : forall nm qs ps, String.eqb nm "M" = false -> Forall (fun q => q < anc) qs ->
     stim_measured [mkS nm (map SQ qs) ps] = [] /\ (forall q, In q (stim_qubits [mkS nm (map SQ qs) ps]) -> q <= anc)).
  { intros nm qs ps E F. unfold stim_measured, stim_qubits. cbn [flat_map i_name i_targets]. rewrite E, SQs, !List.app_nil_r. split; auto.
    intros q Hq. rewrite Forall_forall in F. specialize (F q Hq). lia. }
  destruct (mem_str name ["X"; "Y"; "Z"; "H"; "R"; "CX"; "CZ"]) eqn:E1.
  { assert (EM : String.eqb name "M" = false /\ String.eqb name "E_ERASE" = false).
    { unfold mem_str in E1. cbn [existsb] in E1. split; apply String.eqb_neq; intros ->; discriminate. }
    destruct EM as (EM & EE).
    destruct (mapR qubit_of args) as [qs|] eqn:Q; cbn [bindR] in H; [|discriminate]. injection H as <- <-.
    destruct (ONE name qs [] EM (QB _ _ (fun _ x => x) Q)) as (A & C). rewrite A, NM by auto. cbn.
    unfold n_erasures. cbn. rewrite EE. auto. }
  destruct (String.eqb_spec name "M") as [->|N2].
  { destruct (mapR qubit_of args) as [qs|] eqn:Q; cbn [bindR] in H; [|discriminate]. injection H as <- <-.
    pose proof (QB _ _ (fun _ x => x) Q) as F. destruct (mapR_qubits_nat _ _ Q) as (M & ->).
    unfold stim_measured, stim_qubits, m_qubits, n_erasures. cbn [flat_map i_name i_targets fst snd filter List.length String.eqb Ascii.eqb Bool.eqb].
    rewrite !List.app_nil_r, SQs, M, map_length. clear -F. rewrite Forall_forall in F.
    assert (P : forall q, In q qs -> (q =? anc) = false) by (intros q Hq; apply Nat.eqb_neq; specialize (F q Hq); lia).
    split; [|split; [|split]].
    - clear F. induction qs; cbn; auto. rewrite P by (left; auto). rewrite IHqs; auto. intros; apply P; right; auto.
    - clear F. induction qs; cbn; auto. rewrite P by (left; auto). cbn. rewrite IHqs; auto. intros; apply P; right; auto.
    - clear F. induction qs; cbn; auto. rewrite P by (left; auto). cbn. rewrite IHqs; auto. intros; apply P; right; auto.
    - intros q Hq. specialize (F q Hq). lia. }
  apply String.eqb_neq in N2. pose proof (NM name N2) as NMn. rewrite NMn.
  destruct (String.eqb_spec name "DEPOLARIZE") as [->|N3].
  { destruct (mapR qubit_of args) as [qs|] eqn:Q; cbn [bindR] in H; [|discriminate]. injection H as <- <-.
    destruct (ONE "DEPOLARIZE" qs [1%Q] eq_refl (QB _ _ (fun _ x => x) Q)) as (A & C). rewrite A. cbn. auto. }
  destruct (String.eqb_spec name "E_PAULI") as [->|N4].
  { destruct (negb _); [discriminate|]. destruct (mapR prob_of _) as [ps|]; cbn [bindR] in H; [|discriminate].
    destruct (mapR qubit_of (skipn 3 args)) as [qs|] eqn:Q; cbn [bindR] in H; [|discriminate]. injection H as <- <-.
    assert (S3 : forall a, In a (skipn 3 args) -> In a args) by (intros a Ha; rewrite <- (firstn_skipn 3 args); apply in_or_app; auto).
    destruct (ONE "PAULI_CHANNEL_1" qs ps eq_refl (QB _ _ S3 Q)) as (A & C). rewrite A. cbn. auto. }
  destruct (String.eqb_spec name "E_PAULI2") as [->|N5].
  { destruct (negb _); [discriminate|]. destruct (mapR prob_of _) as [ps|]; cbn [bindR] in H; [|discriminate].
    destruct (mapR qubit_of (skipn 15 args)) as [qs|] eqn:Q; cbn [bindR] in H; [|discriminate]. injection H as <- <-.
    assert (S3 : forall a, In a (skipn 15 args) -> In a args) by (intros a Ha; rewrite <- (firstn_skipn 15 args); apply in_or_app; auto).
    destruct (ONE "PAULI_CHANNEL_2" qs ps eq_refl (QB _ _ S3 Q)) as (A & C). rewrite A. cbn. auto. }
  destruct (String.eqb_spec name "E_ERASE") as [->|N6].
  { destruct args as [|a [|b [|? ?]]]; try discriminate.
    destruct (prob_of a) as [p|]; cbn [bindR] in H; [|discriminate].
    destruct (qubit_of b) as [q|] eqn:Q; cbn [bindR] in H; [|discriminate].
    destruct (append_equiprobable _ _) as [ch|] eqn:E; cbn [bindR] in H; [|discriminate]. injection H as <- <-.
    destruct (chain_names _ _ _ _ E) as (F & T). apply qubit_of_ok in Q. subst b.
    assert (Hq : q < anc) by (apply B; cbn; auto).
    change (mkS "R" [SQ anc] [] :: ch ++ [mkS "M" [SQ anc] []]) with ([mkS "R" [SQ anc] []] ++ ch ++ [mkS "M" [SQ anc] []]).
    rewrite !stim_measured_app, (chain_measured ch F). cbn. rewrite Nat.eqb_refl. cbn. split; auto. split; auto. split; auto.
    intros x Hx. unfold stim_qubits in Hx. cbn [flat_map i_targets map target_qubit app] in Hx. rewrite flat_map_app in Hx.
    destruct Hx as [<-|Hx]; auto. apply in_app_or in Hx. destruct Hx as [Hx|[<-|[]]]; auto.
    rewrite flat_map_concat_map, <- (map_map i_targets (map target_qubit)), T in Hx. cbn in Hx.
    repeat (destruct Hx as [<-|Hx]; [lia|]). destruct Hx. }
  assert (NE : n_erasures (@cons gate (name, args) nil) = 0).
  { unfold n_erasures. cbn. apply String.eqb_neq in N6. rewrite N6. auto. }
  rewrite NE.
  destruct (String.eqb_spec name "ERROR") as [->|N7].
  { destruct args as [|a [|[?|?|nm2] args2]]; try discriminate.
    destruct (prob_of a) as [p|]; cbn [bindR] in H; [|discriminate].
    destruct (mem_str nm2 ["X"; "Y"; "Z"]) eqn:E2; [|discriminate]. destruct (negb _); [discriminate|].
    destruct (mapR qubit_of args2) as [qs|] eqn:Q; cbn [bindR] in H; [|discriminate]. injection H as <- <-.
    assert (EM : String.eqb (nm2 ++ "_ERROR") "M" = false).
    { apply String.eqb_neq. intros X. destruct nm2 as [|c nm2]; [discriminate|]. injection X as _ X. destruct nm2; discriminate. }
    destruct (ONE (nm2 ++ "_ERROR")%string qs [p] EM) as (A & C). { apply (QB args2); auto. intros x Hx. right; right; auto. }
    rewrite A. cbn. auto. }
  destruct (mem_str name ["ERROR_ELSE"; "ERROR_CONTINUE"]); [discriminate|]. injection H as <- <-. cbn. split; auto. split; auto. split; auto. intros q [].
Qed.

Lemma circuit_marks anc c : forall parts, Forall2 (fun gt p => gate_to_stim anc gt = Ok p) c parts ->
  (forall gt q, In gt c -> In (qa q) (snd gt) -> q < anc) ->
  let l := flat_map fst parts in
  flat_map snd parts = map (fun q => q =? anc) (stim_measured l) /\
  filter (fun q => negb (q =? anc)) (stim_measured l) = m_qubits c /\
  List.length (filter (fun q => q =? anc) (stim_measured l)) = n_erasures c /\
  (forall q, In q (stim_qubits l) -> q <= anc).
Proof.
  intros parts H B. cbv zeta. induction H as [|gt [l bs] c parts E F IH]; cbn [flat_map fst snd].
  - cbn. repeat split; auto. intros q [].
  - destruct (gate_marks _ _ _ _ E) as (A1 & A2 & A3 & A4). { intros q. apply B. left; auto. }
    destruct IH as (B1 & B2 & B3 & B4). { intros gt' q Hg. apply B. right; auto. }
    rewrite stim_measured_app, map_app, !filter_app, app_length, <- A1, <- B1, A2, B2, A3, B3.
    split; auto. split; [|split].
    + unfold m_qubits. cbn [flat_map]. rewrite List.app_nil_r. auto.
    + unfold n_erasures. cbn [filter]. destruct (String.eqb (fst gt) "E_ERASE"); auto.
    + intros q Hq. unfold stim_qubits in Hq. rewrite flat_map_app in Hq. apply in_app_or in Hq. destruct Hq; auto.
Qed.

(** Splitting a record with the marks. *)
Lemma select_filter {A} (f : nat -> bool) (qs : list nat) : forall (l : list A), List.length qs = List.length l ->
  select (map f qs) l = map snd (filter (fun qa => f (fst qa)) (combine qs l)).
Proof.
  induction qs as [|q qs IH]; intros [|a l] L; try discriminate; cbn; auto.
  destruct (f q); cbn; rewrite IH; auto.
Qed.

(** * Batches *)
Section Batches.
Variable sampler : list sinstr -> seed -> nat -> nat -> list (list bool).
Hypothesis sampler_len : forall ci sd k n, List.length (sampler ci sd k n) = n.

(** Records of [n] runs in turn. *)
Fixpoint runs (n : nat) (s : stim_sim) : Res (list (list bool) * stim_sim) :=
  match n with
  | O => Ok ([], s)
  | S n' => do s1 <- stim_run sampler true s;
            match b_all s1 with
            | Some r => do p <- runs n' s1; Ok (r :: fst p, snd p)
            | None => Err AttributeError
            end
  end.

(** After [i] runs. *)
Definition at_run (ci : list sinstr) (mk : list bool) (bs : nat) (sd : seed) (i : nat) (s : stim_sim) : Prop :=
  b_circ s = ci /\ b_marks s = mk /\ b_size s = bs /\ b_seed s = sd /\
  ((b_remaining s = 0 /\ i = b_calls s * bs) \/
   (0 < b_remaining s <= bs /\ exists c, b_calls s = S c /\ b_batch s = Some (sampler ci sd c bs) /\
      i + b_remaining s = S c * bs)).

Lemma run_step ci mk bs sd i s d : 0 < bs -> at_run ci mk bs sd i s ->
  exists s', stim_run sampler true s = Ok s' /\ at_run ci mk bs sd (S i) s' /\
    b_all s' = Some (nth (i mod bs) (sampler ci sd (i / bs) bs) d).
Proof.
  intros Hb (S0 & S0' & S1 & S2 & H). unfold stim_run. cbn [negb].
  assert (X : forall s1, b_circ s1 = ci -> b_marks s1 = mk -> b_size s1 = bs -> b_seed s1 = sd -> 0 < b_remaining s1 <= bs ->
     (exists c, b_calls s1 = S c /\ b_batch s1 = Some (sampler ci sd c bs) /\ i + b_remaining s1 = S c * bs) ->
     exists s', (match b_batch s1 with
      | None => Err AssertionError
      | Some batch => do r <- neg_index batch (b_remaining s1);
          Ok (mkStim (b_circ s1) (b_marks s1) (b_size s1) (b_seed s1) (b_calls s1) (b_batch s1) (b_remaining s1 - 1) (Some r))
      end) = Ok s' /\ at_run ci mk bs sd (S i) s' /\ b_all s' = Some (nth (i mod bs) (sampler ci sd (i / bs) bs) d)).
  { intros s1 A0 A0' A B R (c & C1 & C2 & C3). rewrite C2. unfold neg_index.
    replace (b_remaining s1 =? 0) with false by (symmetry; apply Nat.eqb_neq; lia).
    rewrite sampler_len. replace (bs <? b_remaining s1) with false by (symmetry; apply Nat.ltb_ge; lia).
    assert (D : i / bs = c /\ i mod bs = bs - b_remaining s1).
    { assert (E : i = bs * c + (bs - b_remaining s1)) by nia.
      split; [symmetry; apply (Nat.div_unique i bs c (bs - b_remaining s1))|symmetry; apply (Nat.mod_unique i bs c)]; auto; lia. }
    destruct D as (D1 & D2). rewrite <- D2.
    rewrite (nth_error_nth' _ d) by (rewrite sampler_len; apply Nat.mod_upper_bound; lia). cbn [bindR].
    eexists. split; [reflexivity|]. rewrite D1. split; [|reflexivity].
    unfold at_run. cbn [b_circ b_marks b_size b_seed b_remaining b_calls b_batch]. split; auto. split; auto. split; auto. split; auto.
    destruct (Nat.eq_dec (b_remaining s1) 1) as [E1|E1].
    - left. rewrite C1. split; lia.
    - right. split; [lia|]. exists c. split; auto. split; auto. lia. }
  destruct H as [(R & I)|(R & C)].
  - rewrite R, Nat.eqb_refl. apply X; cbn [b_circ b_marks b_size b_seed b_remaining b_calls b_batch]; auto; [lia|].
    exists (b_calls s). rewrite S0, S1, S2. split; auto. split; auto. lia.
  - replace (b_remaining s =? 0) with false by (symmetry; apply Nat.eqb_neq; lia). apply X; auto.
Qed.

Lemma runs_from ci mk bs sd d : 0 < bs -> forall n i s, at_run ci mk bs sd i s ->
  exists s', runs n s = Ok (map (fun j => nth (j mod bs) (sampler ci sd (j / bs) bs) d) (seq i n), s') /\ at_run ci mk bs sd (i + n) s'.
Proof.
  intros Hb n. induction n as [|n IH]; intros i s A; cbn [runs seq map].
  - exists s. rewrite Nat.add_0_r. auto.
  - destruct (run_step ci mk bs sd i s d Hb A) as (s1 & E & A1 & R). rewrite E. cbn [bindR]. rewrite R.
    destruct (IH (S i) s1 A1) as (s' & E2 & A2). rewrite E2. cbn [bindR fst snd]. exists s'. split; auto.
    replace (i + S n) with (S i + n) by lia. auto.
Qed.
Lemma at_run_reset s o :
  at_run (b_circ s) (b_marks s) (b_size s) (match o with Some x => x | None => b_seed s end) 0 (stim_reset o s).
Proof. unfold at_run, stim_reset. cbn. auto 8. Qed.

Lemma seq_batches ci bs m : forall k d, 0 < bs ->
  map (fun j => nth (j mod bs) (sampler ci m (j / bs) bs) d) (seq 0 (k * bs)) = flat_map (fun c => sampler ci m c bs) (seq 0 k).
Proof.
  intros k d Hb. induction k as [|k IH]; auto.
  rewrite seq_S, flat_map_app, <- IH. cbn [flat_map Nat.add]. rewrite List.app_nil_r.
  replace (S k * bs) with (k * bs + bs) by lia. rewrite seq_app, map_app. f_equal. cbn [Nat.add].
  apply nth_ext with (d := d) (d' := d).
  - rewrite map_length, seq_length, sampler_len; auto.
  - rewrite map_length, seq_length. intros i Hi.
    rewrite (nth_indep _ d ((fun j => nth (j mod bs) (sampler ci m (j / bs) bs) d) 0)) by (rewrite map_length, seq_length; auto).
    rewrite (map_nth (fun j => nth (j mod bs) (sampler ci m (j / bs) bs) d)), seq_nth by auto.
    rewrite (Nat.add_comm (k * bs)), Nat.mod_add, Nat.mod_small, Nat.div_add, Nat.div_small by lia. auto.
Qed.

(** * Device *)
Variable g : rng.
Definition heap_ok (heap : nat -> circuit) id l mk := circuit_to_stim (heap id) = Ok (l, mk).

(** [n] calls of Device.run on one object; the results of get_sample after each of them. *)
Fixpoint dev_runs (n : nat) (heap : nat -> circuit) (o : circ_obj) (d : stim_dev) : Res (list (Res (list bool * option (list bool))) * stim_dev) :=
  match n with
  | O => Ok ([], d)
  | S n' => do d1 <- dev_run sampler g heap o true d; do p <- dev_runs n' heap o d1; Ok (dev_sample d1 :: fst p, snd p)
  end.

Lemma dev_circuit_runs heap id l mk bs sd : 0 < bs -> forall n i d s,
  dv_backend d = Some (id, s) -> at_run l mk bs sd i s ->
  exists d', dev_runs n heap (OCircuit id) d =
    Ok (map (fun j => stim_process mk (nth (j mod bs) (sampler l sd (j / bs) bs) [])) (seq i n), d').
Proof.
  intros Hb n. induction n as [|n IH]; intros i d s B A; cbn [dev_runs seq map].
  - eauto.
  - unfold dev_run. rewrite B. cbn [is_same]. rewrite Nat.eqb_refl. cbn [bindR].
    destruct (run_step l mk bs sd i s [] Hb A) as (s1 & E & A1 & R). rewrite E. cbn [bindR].
    match goal with |- context [dev_runs n heap _ ?d1] => destruct (IH (S i) d1 s1 eq_refl A1) as (d' & E2) end.
    rewrite E2. cbn [bindR fst snd]. exists d'. do 3 f_equal.
    unfold dev_sample, stim_results. cbn [dv_backend]. rewrite R. destruct A1 as (_ & -> & _). auto.
Qed.

Lemma dev_first heap o l mk d : heap_ok heap (inner_circuit o) l mk -> 0 < dv_batch_size d ->
  (forall id s, dv_backend d = Some (id, s) -> is_same id o = false) ->
  let sd := match dv_seed d with Some x => x | None => d_int (g (dv_k d)) end in
  exists s1, dev_run sampler g heap o true d =
     Ok (mkDev (Some (inner_circuit o, s1)) (dv_batch_size d) (dv_seed d) (match dv_seed d with Some _ => dv_k d | None => S (dv_k d) end)) /\
     at_run l mk (dv_batch_size d) sd 1 s1 /\
     b_all s1 = Some (nth 0 (sampler l sd 0 (dv_batch_size d)) []).
Proof.
  intros Hh Hb Hn. cbv zeta. unfold dev_run.
  assert (E : (match dv_backend d with
               | Some (id, s) => if is_same id o then Ok (id, s, dv_k d) else new_backend g heap o d
               | None => new_backend g heap o d end) = new_backend g heap o d).
  { destruct (dv_backend d) as [[id s]|]; auto. rewrite (Hn id s eq_refl). auto. }
  rewrite E. unfold new_backend, stim_init. unfold heap_ok in Hh. rewrite Hh.
  set (sd := match dv_seed d with Some x => x | None => d_int (g (dv_k d)) end).
  set (s0 := mkStim l mk (dv_batch_size d) sd 0 None 0 None).
  pose proof (at_run_reset s0 None) as A. cbn [b_circ b_marks b_size b_seed s0] in A.
  destruct (run_step l mk _ sd 0 _ [] Hb A) as (s1 & E1 & A1 & R).
  rewrite Nat.mod_0_l, Nat.div_0_l in R by lia.
  exists s1. split; [|split; auto].
  subst s0 sd. destruct (dv_seed d); cbn [bindR fst snd]; cbn [bindR fst snd] in E1; rewrite E1; auto.
Qed.
End Batches.
