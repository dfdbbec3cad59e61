(** Property theorems C17, C18, C19, C43 and C44: the Stim interface and Device. *)
Require Import List Bool Arith ZArith QArith Lqa Lia String.
From Verif Require Import Base BaseProofs QSpec StateSpec PauliModel CircuitModel SimModel SimSpec SimProofs RunProofs
  StimModel StimSpec StimProofs PauliTextSpec StimSem StimSemProofs.
Import ListNotations.
Local Open Scope string_scope.
Local Open Scope nat_scope.
Local Open Scope list_scope.

(** * C17 Equiprobable branch chain *)
(** [len] branches of probability [p]: the instructions form one chain, in the order of the
    branches; every branch happens with total probability [p], none with 1 - len * p. *)
Theorem C17_equiprobable_chain : forall p steps, (0 <= p)%Q ->
  (inject_Z (Z.of_nat (List.length steps)) * p <= 1)%Q -> steps <> [] ->
  exists l, append_equiprobable p steps = Ok l /\ is_chain l /\ map i_targets l = steps /\
    Forall (fun a => List.length (i_args a) = 1 /\ (0 <= prob_arg1 a /\ prob_arg1 a <= 1)%Q) l /\
    (forall i, i < List.length steps -> (chain_prob (map prob_arg1 l) i == p)%Q) /\
    (chain_none (map prob_arg1 l) == 1 - inject_Z (Z.of_nat (List.length steps)) * p)%Q.
Proof.
  intros p steps Hp Hk Hne. destruct (chain_from steps 0 p Hp Hk) as (l & E & T & F & N & P & Z).
  exists l. split; [exact E|]. split.
  { destruct l as [|a l]; cbn; auto. }
  split; auto. split; auto. split.
  - intros i Hi. eapply Qeq_trans; [|apply (P i Hi)]. change (nq 0) with 0%Q. ring.
  - assert (Z' := Z ltac:(destruct steps; [contradiction|cbn; lia])). change (nq 0) with 0%Q in Z'. cbn [Nat.add] in Z'.
    eapply Qeq_trans; [|exact Z']. ring.
Qed.
Print Assumptions C17_equiprobable_chain.
(** The erasure of a qubit with probability 1/2: X, Y, Z, identity with 1/8 each. *)
Example C17_example :
  append_equiprobable (1 # 8) [[SP PX 1; SP PX 0]; [SP PX 1; SP PY 0]; [SP PX 1; SP PZ 0]; [SP PX 1]] =
  Ok [mkS "CORRELATED_ERROR" [SP PX 1; SP PX 0] [(1 # 8) / (1 - 0 * (1 # 8))]%Q;
      mkS "ELSE_CORRELATED_ERROR" [SP PX 1; SP PY 0] [(1 # 8) / (1 - 1 * (1 # 8))]%Q;
      mkS "ELSE_CORRELATED_ERROR" [SP PX 1; SP PZ 0] [(1 # 8) / (1 - 2 * (1 # 8))]%Q;
      mkS "ELSE_CORRELATED_ERROR" [SP PX 1] [(1 # 8) / (1 - 3 * (1 # 8))]%Q] /\
  (chain_prob [1 # 8; 1 # 7; 1 # 6; 1 # 5] 3 == 1 # 8)%Q /\ (chain_none [1 # 8; 1 # 7; 1 # 6; 1 # 5] == 1 # 2)%Q /\
  append_equiprobable 1 [[SQ 0]; [SQ 1]] = Err ZeroDivisionError.
Proof. repeat split; vm_compute; reflexivity. Qed.

(** * C18 Measurements and erasures *)
Lemma select_app {A} (m : list bool) (f : bool -> bool) (l : list A) : List.length m = List.length l ->
  List.length (select (map f m) l) = List.length (filter f m).
Proof. revert l. induction m as [|b m IH]; intros [|a l] L; try discriminate; cbn; auto. destruct (f b); cbn; rewrite IH; auto. Qed.

(** The marks tell which entries of the Stim record are erasure records; the qubits of the
    other entries are those of the M gates in order; there is one erasure record for every
    E_ERASE gate; the ancilla is not a qubit of the circuit, and no further qubits are used. *)
Theorem C18_marks : forall c l marks, circuit_to_stim c = Ok (l, marks) ->
  let anc := number_of_qubits c in
  marks = map (fun q => q =? anc) (stim_measured l) /\
  filter (fun q => negb (q =? anc)) (stim_measured l) = m_qubits c /\
  List.length (filter (fun q => q =? anc) (stim_measured l)) = n_erasures c /\
  (forall q, In q (stim_qubits l) -> q <= anc) /\
  (forall gt q, In gt c -> In (qa q) (snd gt) -> q < anc).
Proof.
  intros c l marks H. cbv zeta. unfold circuit_to_stim in H.
  destruct (stim_fold _ _ _ _ H) as (parts & F & E). cbn [fst snd app] in E. injection E as -> ->.
  destruct (circuit_marks _ _ _ F) as (A & B & C & D).
  { intros gt q Hg Hq. eapply nq_bound; eauto. }
  split; auto. split; auto. split; auto. split; auto. intros gt q Hg Hq. eapply nq_bound; eauto.
Qed.
Print Assumptions C18_marks.

(** process_results splits any record of the Stim circuit into the entries of the circuit's
    own qubits and those of the ancilla, each in order; the numbers of entries are those of
    M targets and of E_ERASE gates. *)
Theorem C18_split : forall c l marks record, circuit_to_stim c = Ok (l, marks) ->
  List.length record = List.length (stim_measured l) -> record <> [] ->
  let anc := number_of_qubits c in
  exists meas erased, stim_process marks record = Ok (meas, erased) /\
    meas = map snd (filter (fun e => negb (fst e =? anc)) (combine (stim_measured l) record)) /\
    List.length meas = List.length (m_qubits c) /\
    (n_erasures c = 0 -> erased = None) /\
    (0 < n_erasures c -> exists es, erased = Some es /\ List.length es = n_erasures c /\
       es = map snd (filter (fun e => fst e =? anc) (combine (stim_measured l) record))).
Proof.
  intros c l marks record H L NE anc. destruct (C18_marks c l marks H) as (A & B & C & D & _). fold anc in A, B, C, D.
  assert (L0 : List.length marks = List.length record) by (rewrite A, map_length; auto).
  assert (EP : stim_process marks record = Ok (select (map negb marks) record,
     match select marks record with [] => None | _ => Some (select marks record) end)).
  { unfold stim_process. destruct marks as [|b0 marks']; [destruct record; [contradiction|discriminate]|].
    rewrite L0, Nat.eqb_refl. auto. }
  rewrite EP. clear EP.
  assert (L1 : List.length marks = List.length record) by (rewrite A, map_length; auto).
  assert (E1 : List.length (select marks record) = n_erasures c).
  { rewrite <- (map_id marks) at 1. rewrite select_app by auto. rewrite <- C, A.
    generalize (stim_measured l). intros qs. induction qs; cbn; auto. destruct (a =? anc); cbn; rewrite IHqs; auto. }
  eexists _, _. split; [reflexivity|]. split; [|split; [|split]].
  - rewrite A, map_map. apply (select_filter (fun q => negb (q =? anc))). auto.
  - rewrite select_app by auto. rewrite <- B, A.
    generalize (stim_measured l). intros qs. induction qs; cbn; auto. destruct (a =? anc); cbn; rewrite IHqs; auto.
  - intros Z. destruct (select marks record); auto. cbn in E1. lia.
  - intros P. exists (select marks record). split; [|split; auto].
    + destruct (select marks record); auto. cbn in E1. lia.
    + rewrite A at 1. apply (select_filter (fun q => q =? anc)). auto.
Qed.
Print Assumptions C18_split.

(** Every instruction written is one of Stim's, unless DEPOLARIZE is used. *)
Theorem C18_names : forall c l marks, circuit_to_stim c = Ok (l, marks) ->
  (forall gt, In gt c -> fst gt <> "DEPOLARIZE") -> Forall (fun a => In (i_name a) stim_names) l.
Proof.
  intros c l marks H N. unfold circuit_to_stim in H.
  destruct (stim_fold _ _ _ _ H) as (parts & F & E). cbn [fst snd app] in E. injection E as -> ->. clear H.
  generalize dependent (number_of_qubits c). intros anc F.
  induction F as [|gt p c parts G F IH]; cbn [flat_map]; auto. apply Forall_app. split.
  2:{ apply IH. intros; apply N; right; auto. }
  specialize (N gt (or_introl eq_refl)). destruct gt as [name args]. cbn [fst] in N. unfold gate_to_stim in G.
  unfold mem_str in G.
  destruct (existsb (String.eqb name) ["X"; "Y"; "Z"; "H"; "R"; "CX"; "CZ"]) eqn:E0.
  { destruct (mapR qubit_of args); [|discriminate]. injection G as <-. cbn [fst]. constructor; auto. cbn [i_name].
    apply existsb_exists in E0. destruct E0 as (n & I & E0). apply String.eqb_eq in E0. subst n. cbn in I |- *. intuition. }
  destruct (String.eqb name "M") eqn:E1.
  { destruct (mapR qubit_of args); [|discriminate]. injection G as <-. cbn [fst]. constructor; auto. cbn [i_name].
    apply String.eqb_eq in E1. subst. cbn. intuition. }
  destruct (String.eqb name "DEPOLARIZE") eqn:E2. { apply String.eqb_eq in E2. contradiction. }
  destruct (String.eqb name "E_PAULI") eqn:E3.
  { destruct (negb _); [discriminate|]. destruct (mapR prob_of _); cbn [bindR] in G; [|discriminate].
    destruct (mapR qubit_of _); cbn [bindR] in G; [|discriminate]. injection G as <-. constructor; auto. cbn. intuition. }
  destruct (String.eqb name "E_PAULI2") eqn:E4.
  { destruct (negb _); [discriminate|]. destruct (mapR prob_of _); cbn [bindR] in G; [|discriminate].
    destruct (mapR qubit_of _); cbn [bindR] in G; [|discriminate]. injection G as <-. constructor; auto. cbn. intuition. }
  destruct (String.eqb name "E_ERASE") eqn:E5.
  { destruct args as [|a [|b [|? ?]]]; try discriminate.
    destruct (prob_of a); cbn [bindR] in G; [|discriminate]. destruct (qubit_of b); cbn [bindR] in G; [|discriminate].
    destruct (append_equiprobable _ _) as [ch|] eqn:EC; cbn [bindR] in G; [|discriminate]. injection G as <-. cbn [fst].
    destruct (chain_names _ _ _ _ EC) as (FN & _).
    constructor; [cbn; intuition|]. apply Forall_app. split; [|constructor; auto; cbn; intuition].
    eapply Forall_impl; [|exact FN]. intros i [->| ->]; cbn; intuition. }
  destruct (String.eqb name "ERROR") eqn:E6.
  { destruct args as [|a [|[z|q|s] args2]]; try discriminate.
    destruct (prob_of a); cbn [bindR] in G; [|discriminate].
    destruct (existsb (String.eqb s) ["X"; "Y"; "Z"]) eqn:E7; [|discriminate].
    destruct (negb _); [discriminate|]. destruct (mapR qubit_of _); cbn [bindR] in G; [|discriminate]. injection G as <-.
    constructor; auto. cbn [i_name]. apply existsb_exists in E7. destruct E7 as (n & I & E7). apply String.eqb_eq in E7. subst n.
    destruct I as [<-|[<-|[<-|[]]]]; cbn; intuition. }
  destruct (existsb (String.eqb name) ["ERROR_ELSE"; "ERROR_CONTINUE"]); [discriminate|]. injection G as <-. constructor.
Qed.
Print Assumptions C18_names.

(** DEPOLARIZE is written under a name that Stim does not know. *)
Theorem C18_depolarize_refuted : exists c l marks, valid_circuit false c /\ circuit_to_stim c = Ok (l, marks) /\
  ~ Forall (fun a => In (i_name a) stim_names) l.
Proof.
  exists [("DEPOLARIZE", [AInt 0]); ("M", [AInt 0])]. eexists _, _. split; [|split; [vm_compute; reflexivity|]].
  - apply vc_gate; [apply (vg_plain "DEPOLARIZE" [0]); cbn; intuition|].
    apply vc_gate; [apply (vg_plain "M" [0]); cbn; intuition|]. constructor.
  - intros F. inversion F as [|? ? A ?]; subst. cbn in A.
    repeat destruct A as [A|A]; try discriminate; auto.
Qed.
Print Assumptions C18_depolarize_refuted.

(** A circuit without measurements and erasures can be converted but its (empty) record
    cannot be processed. *)
Theorem C18_no_measurement_refuted : forall c l marks record, circuit_to_stim c = Ok (l, marks) ->
  m_qubits c = [] -> n_erasures c = 0 -> stim_process marks record = Err TypeError.
Proof.
  intros c l marks record H M E. destruct (C18_marks _ _ _ H) as (A & B & C & _).
  rewrite M in B. rewrite E in C. destruct (stim_measured l) as [|q qs]; [rewrite A; auto|].
  cbn in B, C. destruct (q =? number_of_qubits c); discriminate.
Qed.
Print Assumptions C18_no_measurement_refuted.

(** ERROR_ELSE and ERROR_CONTINUE anywhere, and ERROR with another gate than X, Y, Z, are
    refused rather than ignored. *)
Theorem C18_error_blocks_refused : forall c gt, In gt c ->
  (fst gt = "ERROR_ELSE" \/ fst gt = "ERROR_CONTINUE" \/
   (fst gt = "ERROR" /\ exists p inner args, snd gt = AFlt p :: AStr inner :: args /\ ~ In inner ["X"; "Y"; "Z"])) ->
  forall r, circuit_to_stim c <> Ok r.
Proof.
  intros c gt I K r H. unfold circuit_to_stim in H. destruct (stim_fold _ _ _ _ H) as (parts & F & _). clear H.
  revert I. induction F as [|g p c' parts G F IH]; intros I; [destruct I|]; destruct I as [->|I]; auto.
  destruct gt as [name args]. cbn [fst snd] in K.
  destruct K as [->|[->|(-> & pr & inner & args2 & -> & NI)]]; try discriminate.
  cbn in G. 
  destruct (String.eqb inner "X") eqn:EX. { apply String.eqb_eq in EX. subst. apply NI. cbn; auto. }
  destruct (String.eqb inner "Y") eqn:EY. { apply String.eqb_eq in EY. subst. apply NI. cbn; auto. }
  destruct (String.eqb inner "Z") eqn:EZ. { apply String.eqb_eq in EZ. subst. apply NI. cbn; auto. }
  discriminate.
Qed.
Print Assumptions C18_error_blocks_refused.
Example C18_example :
  let c := [("M", [AInt 0; AInt 1]); ("E_ERASE", [AFlt (1 # 2); AInt 1]); ("M", [AInt 1])] in
  exists l, circuit_to_stim c = Ok (l, [false; false; true; false]) /\ stim_measured l = [0; 1; 2; 1] /\
    stim_process [false; false; true; false] [true; false; true; false] = Ok ([true; false; false], Some [true]).
Proof. eexists. repeat split; vm_compute; reflexivity. Qed.

(** * C19 Batches *)
(** [n] runs after a reset return, in order, row j mod size of batch j / size. *)
Theorem C19_batches_in_order : forall sampler, (forall ci sd k n, List.length (sampler ci sd k n) = n) ->
  forall s new_seed n d, 0 < b_size s ->
  let sd := match new_seed with Some x => x | None => b_seed s end in
  exists s', runs sampler n (stim_reset new_seed s) =
    Ok (map (fun j => nth (j mod b_size s) (sampler (b_circ s) sd (j / b_size s) (b_size s)) d) (seq 0 n), s').
Proof.
  intros sampler HL s o n d Hb sd.
  destruct (runs_from sampler HL _ _ _ _ d Hb n 0 _ (at_run_reset sampler s o)) as (s' & E & _). exists s'. exact E.
Qed.
Print Assumptions C19_batches_in_order.

(** Every row of every batch exactly once: k * size runs return the k batches one after
    the other. *)
Theorem C19_batches_once : forall sampler, (forall ci sd k n, List.length (sampler ci sd k n) = n) ->
  forall s new_seed k, 0 < b_size s ->
  let sd := match new_seed with Some x => x | None => b_seed s end in
  exists s', runs sampler (k * b_size s) (stim_reset new_seed s) =
    Ok (flat_map (fun c => sampler (b_circ s) sd c (b_size s)) (seq 0 k), s').
Proof.
  intros sampler HL s o k Hb sd. destruct (C19_batches_in_order sampler HL s o (k * b_size s) [] Hb) as (s' & E).
  exists s'. rewrite E. do 2 f_equal. apply seq_batches; auto.
Qed.
Print Assumptions C19_batches_once.

(** Resetting with the same seed repeats the same records, whatever was run before. *)
Theorem C19_reset_repeats : forall sampler, (forall ci sd k n, List.length (sampler ci sd k n) = n) ->
  forall s m n rec1 s1, 0 < b_size s -> runs sampler m (stim_reset None s) = Ok (rec1, s1) ->
  forall rec2 s2 rec3 s3, runs sampler n (stim_reset None s) = Ok (rec2, s2) ->
  runs sampler n (stim_reset None s1) = Ok (rec3, s3) -> rec3 = rec2.
Proof.
  intros sampler HL s m n rec1 s1 Hb H1 rec2 s2 rec3 s3 H2 H3.
  destruct (runs_from sampler HL _ _ _ _ [] Hb m 0 _ (at_run_reset sampler s None)) as (s' & E & A).
  rewrite H1 in E. injection E as _ <-. destruct A as (A1 & A2 & A3 & A4 & _).
  destruct (C19_batches_in_order sampler HL s None n [] Hb) as (s2' & E2).
  destruct (C19_batches_in_order sampler HL s1 None n []) as (s3' & E3). rewrite A3; auto.
  rewrite H2 in E2. rewrite H3 in E3. rewrite A1, A3, A4 in E3. congruence.
Qed.
Print Assumptions C19_reset_repeats.

(** A run that does not follow a reset is refused; an empty batch cannot be indexed. *)
Theorem C19_refused : forall sampler, (forall ci sd k n, List.length (sampler ci sd k n) = n) -> forall s o,
  stim_run sampler false s = Err ValueError /\ (b_size s = 0 -> stim_run sampler true (stim_reset o s) = Err IndexError).
Proof.
  intros sampler HL s o. split; auto. intros Z. unfold stim_run, stim_reset. cbn. rewrite Z. unfold neg_index.
  destruct (sampler _ _ 0 0) eqn:E; auto. apply (f_equal (@List.length _)) in E. rewrite HL in E. discriminate.
Qed.
Print Assumptions C19_refused.
(** Seven runs with batches of three. *)
Example C19_example :
  let smp := fun (_ : list sinstr) sd k n => map (fun i => [Nat.even (sd + k); Nat.odd i]) (seq 0 n) in
  let s := mkStim [] [] 3 5 0 None 0 None in
  exists s', runs smp 7 (stim_reset None s) =
    Ok ([[false; false]; [false; true]; [false; false]; [true; false]; [true; true]; [true; false]; [false; false]], s').
Proof. eexists. vm_compute. reflexivity. Qed.

(** * C43 Device.run and its backend *)
(** [n] runs of a Circuit object on a new device give the first [n] records of one sampler,
    compiled from that circuit with the given or one drawn seed. *)
Theorem C43_circuit_object : forall sampler g, (forall ci sd k n, List.length (sampler ci sd k n) = n) ->
  forall heap id l marks size sd k n, circuit_to_stim (heap id) = Ok (l, marks) -> 0 < size ->
  let sd' := match sd with Some x => x | None => d_int (g k) end in
  exists d', dev_runs sampler g n heap (OCircuit id) (dev_init size sd k) =
    Ok (map (fun j => stim_process marks (nth (j mod size) (sampler l sd' (j / size) size) [])) (seq 0 n), d').
Proof.
  intros sampler g HL heap id l marks size sd k [|n] Hc Hs sd'; [cbn; eauto|]. cbn [dev_runs seq map].
  destruct (dev_first sampler HL g heap (OCircuit id) l marks (dev_init size sd k) Hc Hs) as (s1 & E & A & R); [discriminate|].
  rewrite E. cbn [bindR].
  match goal with |- context [dev_runs _ _ n heap _ ?d1] =>
    destruct (dev_circuit_runs sampler HL g heap id l marks _ _ Hs n 1 d1 s1 eq_refl A) as (d' & E2) end.
  rewrite E2. cbn [bindR fst snd]. exists d'. cbn [dv_batch_size dv_seed dv_k dev_init] in *. fold sd' in R |- *.
  do 3 f_equal. unfold dev_sample, stim_results. cbn [dv_backend]. rewrite R.
  destruct A as (_ & -> & _). rewrite Nat.mod_0_l, Nat.div_0_l by lia. auto.
Qed.
Print Assumptions C43_circuit_object.

(** With a CircuitBuilder and a fixed seed the backend is rebuilt on every run, so that all
    of the samples are the same: always the first record of the first batch. *)
Theorem C43_builder_repeats_refuted : forall sampler g, (forall ci sd k n, List.length (sampler ci sd k n) = n) ->
  forall heap bid id l marks size sd k n, circuit_to_stim (heap id) = Ok (l, marks) -> 0 < size ->
  exists d', dev_runs sampler g n heap (OBuilder bid id) (dev_init size (Some sd) k) =
    Ok (repeat (stim_process marks (nth 0 (sampler l sd 0 size) [])) n, d').
Proof.
  intros sampler g HL heap bid id l marks size sd k n Hc Hs.
  assert (X : forall d, dv_batch_size d = size -> dv_seed d = Some sd -> exists d',
    dev_runs sampler g n heap (OBuilder bid id) d = Ok (repeat (stim_process marks (nth 0 (sampler l sd 0 size) [])) n, d')).
  { induction n as [|n IH]; intros d B S; cbn [dev_runs repeat]; eauto.
    destruct (dev_first sampler HL g heap (OBuilder bid id) l marks d Hc) as (s1 & E & A & R); [lia|auto|].
    rewrite S, B in *. rewrite E. cbn [bindR].
    match goal with |- context [dev_runs _ _ n heap _ ?d1] => destruct (IH d1 eq_refl eq_refl) as (d' & E2) end.
    rewrite E2. cbn [bindR fst snd]. exists d'. do 3 f_equal. unfold dev_sample, stim_results. cbn [dv_backend].
    rewrite R. destruct A as (_ & -> & _). auto. }
  apply X; auto.
Qed.
Print Assumptions C43_builder_repeats_refuted.

(** Running another circuit in between starts the first one again from a new sampler. *)
Theorem C43_switching_restarts : forall sampler g, (forall ci sd k n, List.length (sampler ci sd k n) = n) ->
  forall heap id id2 l marks d s sd, dv_backend d = Some (id2, s) -> id <> id2 -> dv_seed d = Some sd ->
  circuit_to_stim (heap id) = Ok (l, marks) -> 0 < dv_batch_size d ->
  exists d', dev_run sampler g heap (OCircuit id) true d = Ok d' /\
    dev_sample d' = stim_process marks (nth 0 (sampler l sd 0 (dv_batch_size d)) []).
Proof.
  intros sampler g HL heap id id2 l marks d s sd B N S Hc Hs.
  destruct (dev_first sampler HL g heap (OCircuit id) l marks d Hc Hs) as (s1 & E & A & R).
  { intros i s0 E. rewrite B in E. injection E as <- <-. cbn. apply Nat.eqb_neq; auto. }
  rewrite S in *. eexists. split; [exact E|]. unfold dev_sample, stim_results. cbn [dv_backend]. rewrite R.
  destruct A as (_ & -> & _). auto.
Qed.
Print Assumptions C43_switching_restarts.

(** Gates added to a Circuit object after its first run are ignored by later runs: they
    continue with the sampler of the old circuit. *)
Theorem C43_stale_circuit_refuted : forall sampler g, (forall ci sd k n, List.length (sampler ci sd k n) = n) ->
  forall heap heap' id l marks size sd k n d1, circuit_to_stim (heap id) = Ok (l, marks) -> 0 < size ->
  dev_run sampler g heap (OCircuit id) true (dev_init size (Some sd) k) = Ok d1 ->
  exists d', dev_runs sampler g n heap' (OCircuit id) d1 =
    Ok (map (fun j => stim_process marks (nth (j mod size) (sampler l sd (j / size) size) [])) (seq 1 n), d').
Proof.
  intros sampler g HL heap heap' id l marks size sd k n d1 Hc Hs H.
  destruct (dev_first sampler HL g heap (OCircuit id) l marks (dev_init size (Some sd) k) Hc Hs) as (s1 & E & A & R); [discriminate|].
  rewrite H in E. injection E as ->. cbn [dv_batch_size dv_seed dev_init inner_circuit] in *.
  apply (dev_circuit_runs sampler HL g heap' id l marks size sd Hs n 1 (mkDev (Some (id, s1)) size (Some sd) k) s1 eq_refl A).
Qed.
Print Assumptions C43_stale_circuit_refuted.
(** A sampler that counts: the circuit object moves on, the builder repeats. *)
Example C43_example :
  let smp := fun (l : list sinstr) sd k n => map (fun i => [Nat.odd (sd + k * n + i)]) (seq 0 n) in
  let heap := fun _ : nat => [("M", [AInt 0])] in let g := fun _ => mkDraw false 0 0 in
  (exists d, dev_runs smp g 5 heap (OCircuit 7) (dev_init 2 (Some 0) 0) =
     Ok (map (fun b => Ok ([b], None)) [false; true; false; true; false], d)) /\
  (exists d, dev_runs smp g 5 heap (OBuilder 9 7) (dev_init 2 (Some 0) 0) =
     Ok (map (fun b => Ok ([b], None)) [false; false; false; false; false], d)).
Proof. split; eexists; vm_compute; reflexivity. Qed.

(** * C44 Meaning of the converted circuit *)
(** Every supported circuit is converted, and the Stim circuit (by Stim's own rules) is the
    same probability distribution over sequences of operations as the plaquette circuit (by
    its documentation), with the erasure flags moved to the ancilla.  Probabilities add to 1. *)
Theorem C44_distribution : forall c d, pl_circ c d -> exists l marks, circuit_to_stim c = Ok (l, marks) /\
  deq (stim_dist false l) (edist (number_of_qubits c) d) /\
  Forall (fun x => flat_map emarks (snd x) = marks) d /\ (qsum (map fst d) == 1)%Q.
Proof.
  intros c d H. destruct (circ_conv (number_of_qubits c) c d H ([], [])) as (l & marks & E & _ & D & M).
  exists l, marks. split; [exact E|]. split; auto. split; auto. apply (total_circ c d H).
Qed.
Print Assumptions C44_distribution.

(** For every such sequence of operations, started in |0...0>: the records the Stim circuit
    can produce are those that the marks split into results and flags that the plaquette
    circuit can produce, with the same final state of the circuit's qubits (the ancilla being
    left in a basis state). *)
Theorem C44_same_results : forall c d w ops, pl_circ c d -> Forall distinct_ct c -> In (w, ops) d ->
  let n := number_of_qubits c in let marks := flat_map emarks ops in
  (forall record es0 u', rsem (n + 1) (flat_map (embed n) ops) ket0 record es0 u' ->
     exists ms es v' b, rsem n ops ket0 ms es v' /\ splits marks record ms es /\ lifted n v' b u') /\
  (forall ms es v', rsem n ops ket0 ms es v' ->
     exists record u' b, rsem (n + 1) (flat_map (embed n) ops) ket0 record [] u' /\ splits marks record ms es /\ lifted n v' b u').
Proof.
  intros c d w ops H D I n marks.
  assert (F : Forall (eok n) ops).
  { pose proof (circ_eok n c d H D (fun gt q => nq_bound c gt q)) as F. rewrite Forall_forall in F. apply (F (w, ops) I). }
  split.
  - intros record es0 u' R. destruct (run_down n ops F _ _ _ _ _ _ (nz_ket0 n) (ket0_lifted n) R) as (_ & ms & es & v' & b & A & B & C).
    exists ms, es, v', b. auto.
  - intros ms es v' R. destruct (run_up n ops F _ _ _ _ _ _ (nz_ket0 n) (ket0_lifted n) R) as (record & u' & b & A & B & C).
    exists record, u', b. auto.
Qed.
Print Assumptions C44_same_results.

(** Splitting as in [C44_same_results] is what process_results does. *)
Theorem C44_split_is_process : forall marks record ms es, splits marks record ms es -> marks <> [] ->
  stim_process marks record = Ok (ms, match es with [] => None | _ => Some es end).
Proof.
  intros marks record ms es (L & A & B) N. unfold stim_process. destruct marks; [contradiction|].
  rewrite L, Nat.eqb_refl. cbn [negb]. rewrite A, B. auto.
Qed.
Print Assumptions C44_split_is_process.

(** The distribution agrees with the specification used for the Clifford simulator (C09):
    what a branch of positive probability can do is a run of the circuit there. *)
Theorem C44_agrees_with_simulator_spec : forall n c d x v ms es v', pl_circ c d ->
  Forall (fun gt => forall d', pl_gate gt d' -> Forall (fun y => 0 <= fst y)%Q d') c ->
  In x d -> (0 < fst x)%Q -> rsem n (snd x) v ms es v' -> qcirc n c v ms es v'.
Proof. intros n c d x v ms es v' H F. apply (circ_link n c d H F). Qed.
Print Assumptions C44_agrees_with_simulator_spec.
Example C44_example :
  let c := [("H", [qa 0]); ("E_ERASE", [AFlt (1 # 2); qa 0]); ("ERROR", [AFlt (1 # 4); AStr "Z"; qa 0]); ("M", [qa 0])] in
  Forall distinct_ct c /\ exists d, pl_circ c d /\ List.length d = 10 /\
    In ((1 * ((1 # 2) / 4 * ((1 # 4) * (1 * 1))))%Q, [EGate "H" [0]; EErased PY 0; EPauli [(PZ, 0)]; EGate "M" [0]]) d.
Proof.
  split.
  - repeat (apply Forall_cons; [split; cbn; auto; intros [H|H]; discriminate|]). constructor.
  - eexists. split.
    + eapply pl_cons; [apply (pg_basic "H" [0]); cbn; auto 10|].
      eapply pl_cons; [apply (pg_erase _ (1 # 2) 0); [constructor|discriminate|discriminate]|].
      eapply pl_cons; [apply (pg_error (1 # 4) "Z" PZ 0); cbn; auto|].
      eapply pl_cons; [apply (pg_basic "M" [0]); cbn; auto 10|]. constructor.
    + split; [reflexivity|]. cbn [dseq flat_map map scale app fst snd done]. cbn. auto 12.
Qed.
