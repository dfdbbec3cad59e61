(** Property theorems C01-C08: Pauli rows, gates, products, measurement, reset.
    Vocabulary: QSpec (state vectors), PauliSem (meaning of rows), StateSpec. *)
Require Import List Bool Arith ZArith Lia.
From Verif Require Import Base BaseProofs QSpec PauliModel PauliSem PauliProofs PauliAlg TableauProofs
  MeasureProofs StateProofs StateSpec GateProofs.
Import ListNotations.

(** [t'] is [t] conjugated by the operator [U] on n-qubit vectors: U P = P' U row by row. *)
Definition conjugated (n : nat) (U : vec -> vec) (t t' : tableau) : Prop :=
  length t' = length t /\ Forall (fun r => length (ops r) = n) t' /\
  forall i v, i < length t ->
    veq n (U (papply (denote (nth i t row0)) v)) (papply (denote (nth i t' row0)) (U v)).

Lemma conj_map n U f t : ops_len_preserving f -> conjugates n U f -> rows n t -> conjugated n U t (map f t).
Proof.
  intros HL HC R. pose proof R as [R1 R2]. split; [apply map_length|split].
  - apply rows_map; auto.
  - intros i v Hi. rewrite nth_map_row by auto. apply HC. rewrite Forall_forall in R2. apply R2, nth_In; auto.
Qed.

Theorem C01_gates_conjugate (n : nat) (t : tableau) (qs cs ts : list nat) :
  t <> [] -> Forall (fun r => length (ops r) = n) t ->
  Forall (fun q => q < n) qs -> pairs_ok n cs ts ->
  (exists t', hadamard t qs = Ok t' /\ conjugated n (all1 mH qs) t t') /\
  (exists t', phase_gate t qs = Ok t' /\ conjugated n (all1 mS qs) t t') /\
  (exists t', gate_x t qs = Ok t' /\ conjugated n (all1 mX qs) t t') /\
  (exists t', gate_y t qs = Ok t' /\ conjugated n (all1 mY qs) t t') /\
  (exists t', gate_z t qs = Ok t' /\ conjugated n (all1 mZ qs) t t') /\
  (exists t', control_not_gate t cs ts = Ok t' /\ conjugated n (all2 mCX (combine cs ts)) t t') /\
  (exists t', control_phase_gate t cs ts = Ok t' /\ conjugated n (all2 mCZ (combine cs ts)) t t').
Proof.
  intros H1 H2 Hq Hp. assert (R : rows n t) by (split; auto).
  split; [|split; [|split; [|split; [|split; [|split]]]]]; eexists; split.
  - apply (hadamard_ok n); auto.
  - apply conj_map; auto using h_all. apply rowfold_len, h_len.
  - apply (phase_gate_ok n); auto.
  - apply conj_map; auto using s_all. apply rowfold_len, s_len.
  - apply (gate_x_ok n); auto.
  - apply conj_map; auto using x_all. apply rowfold_len, x_len.
  - apply (gate_y_ok n); auto.
  - apply conj_map; auto using y_all. apply rowfold_len, y_len.
  - apply (gate_z_ok n); auto.
  - apply conj_map; auto using z_all. apply rowfold_len, z_len.
  - apply (cx_ok n); auto.
  - apply conj_map; auto using cx_all. apply rowfold_len; intros; apply cx_len.
  - apply (cz_ok n); auto.
  - apply conj_map; auto using cz_all. apply rowfold_len; intros; apply cz_len.
Qed.
Print Assumptions C01_gates_conjugate.

(** Non-vacuity: the three-qubit zero state with targets 0, 2 and pairs (0,1), (2,1). *)
Example C01_example :
  (zero_state 3 <> [] /\ Forall (fun r => length (ops r) = 3) (zero_state 3) /\
   Forall (fun q => q < 3) [0; 2] /\ pairs_ok 3 [0; 2] [1; 1]) /\
  control_not_gate (zero_state 3) [0; 2] [1; 1] <> Ok (zero_state 3).
Proof.
  split; [|vm_compute; discriminate]. unfold pairs_ok.
  repeat split; try discriminate; vm_compute; repeat constructor; discriminate.
Qed.

(** With control = target the controlled gates are not conjugations: CX(0,0) turns the valid
    tableau of |0> into an invalid one. *)
Theorem C01_control_equals_target_refuted :
  exists t t', valid 1 t /\ control_not_gate t [0] [0] = Ok t' /\ ~ valid 1 t'.
Proof.
  exists (zero_state 1), [mkRow [(false, false)] false; mkRow [(false, false)] false].
  split. apply valid_wf, zero_state_wf. split. reflexivity.
  rewrite valid_wf. intros (_ & _ & C). specialize (C 0 1 ltac:(lia) ltac:(lia)). discriminate.
Qed.
Print Assumptions C01_control_equals_target_refuted.

Theorem C02_multiply (n : nat) (a b : row) (v : vec) :
  length (ops a) = n -> length (ops b) = n ->
  exists r phase, multiply [a; b] = Ok (r, phase) /\ length (ops r) = n /\
    (* the returned phase and letters are the exact operator product *)
    veq n (papply (denote a) (papply (denote b) v)) (vscale phase (ptensor (snd (denote r)) v)) /\
    (* the returned row, sign included *)
    (commute n (denote a) (denote b) -> veq n (papply (denote a) (papply (denote b) v)) (papply (denote r) v)) /\
    (anticommute n (denote a) (denote b) ->
       veq n (papply (denote a) (papply (denote b) v)) (vscale zii (papply (denote r) v))).
Proof.
  intros Ha Hb. eexists _, _. split. apply multiply_pair; lia.
  split. rewrite length_mulrow; lia. split; [|split].
  - eapply multiply_phase_exact; eauto. apply multiply_pair; lia.
  - rewrite commute_iff by auto. intros E. pose proof (mulrow_product n a b v Ha Hb) as H. rewrite E in H.
    eapply veq_trans. apply H. intros x _. unfold vscale. ring.
  - rewrite anticommute_iff by auto. intros E. pose proof (mulrow_product n a b v Ha Hb) as H. rewrite E in H. auto.
Qed.
Print Assumptions C02_multiply.

(** XZ . ZX = YY, a product of commuting operators with a non-trivial sign. *)
Example C02_example :
  let a := mkRow [(true, false); (false, true)] false in
  let b := mkRow [(false, true); (true, false)] false in
  length (ops a) = 2 /\ length (ops b) = 2 /\ commute 2 (denote a) (denote b) /\
  multiply [a; b] = Ok (mkRow [(true, true); (true, true)] false, zi1).
Proof. repeat split. apply commute_iff; auto. Qed.

(** Three operators: multiply(I, X, -X) returns +I although the product is -I. *)
Theorem C02_multiply_three_refuted :
  let i := mkRow [(false, false)] false in
  let x := mkRow [(true, false)] false in
  let y := mkRow [(true, false)] true in
  exists r phase, multiply [i; x; y] = Ok (r, phase) /\
    ~ veq 1 (papply (denote i) (papply (denote x) (papply (denote y) ket0))) (papply (denote r) ket0).
Proof.
  cbn zeta. eexists _, _. split. vm_compute; reflexivity.
  intros H. specialize (H [false] eq_refl). vm_compute in H. discriminate.
Qed.
Print Assumptions C02_multiply_three_refuted.

Theorem C03_commutator_sign (n : nat) (a b : row) :
  length (ops a) = n -> length (ops b) = n ->
  (commutator_sign a b = false <-> commute n (denote a) (denote b)) /\
  (commutator_sign a b = true <-> anticommute n (denote a) (denote b)) /\
  commutator_sign b a = commutator_sign a b /\
  (forall s s', commutator_sign (mkRow (ops a) s) (mkRow (ops b) s') = commutator_sign a b) /\
  (forall c r phase, length (ops c) = n -> multiply [b; c] = Ok (r, phase) ->
     commutator_sign a r = xorb (commutator_sign a b) (commutator_sign a c)).
Proof.
  intros Ha Hb. rewrite commute_iff, anticommute_iff by auto.
  rewrite !commutator_sign_symp by (cbn [ops]; lia).
  split; [tauto|]. split; [tauto|]. split; [apply symp_comm|]. split.
  { intros s s'. rewrite commutator_sign_symp by (cbn [ops]; lia). auto. }
  intros c r phase Hc. rewrite multiply_pair by lia. intros [= <- _].
  rewrite commutator_sign_symp by (unfold mulrow; cbn [ops]; rewrite length_xor_ops; lia).
  rewrite commutator_sign_symp by lia. unfold mulrow; cbn [ops]. apply symp_xor_r; lia.
Qed.
Print Assumptions C03_commutator_sign.

(** 257 X factors against 257 Z factors: the uint8 sum wraps, the sign is still right. *)
Example C03_example :
  let a := mkRow (repeat (true, false) 257) true in
  let b := mkRow (repeat (false, true) 257) false in
  length (ops a) = 257 /\ length (ops b) = 257 /\ commutator_sign a b = true /\
  dot8 (map fst (ops a)) (map snd (ops b)) = 1%Z.
Proof. vm_compute. repeat split; auto. Qed.

Theorem C04_validity (n : nat) (g : rng) (os : list oper) :
  0 < n -> Forall (oper_ok n) os ->
  exists st k, foldR (exec g) os (zero_state n, 0) = Ok (st, k) /\ valid n st /\
    (* such a tableau is the description of an actual (non-zero) state vector *)
    exists v, (norm2 n v <> 0)%Z /\ describes n st v.
Proof.
  intros Hn HF.
  destruct (exec_seq_ok n g os (zero_state n) 0 Hn (zero_state_wf n) HF) as (st & k & E & W).
  exists st, k. split; auto. split. apply valid_wf; auto. apply exists_described; auto.
Qed.
Print Assumptions C04_validity.

(** The invariant itself holds from any valid tableau. *)
Theorem C04_validity_step (n : nat) (g : rng) (os : list oper) (t : tableau) (k : nat) :
  0 < n -> valid n t -> Forall (oper_ok n) os ->
  exists st k', foldR (exec g) os (t, k) = Ok (st, k') /\ valid n st.
Proof.
  intros Hn HV HF. rewrite valid_wf in HV.
  destruct (exec_seq_ok n g os t k Hn HV HF) as (st & k' & E & W).
  exists st, k'. split; auto. apply valid_wf; auto.
Qed.
Print Assumptions C04_validity_step.

Definition rng_true : rng := fun _ => mkDraw true (QArith_base.Qmake 0 1) 0.
Definition ZZ : row := mkRow [(false, true); (false, true)] false.
Definition XX : row := mkRow [(true, false); (true, false)] false.

(** H, CX, two measurements (one forced) and a reset on two qubits. *)
Example C04_example :
  let os := [OpH [0]; OpCX [0] [1]; OpMeasure XX (Some 1%Z); OpMeasure ZZ None; OpReset false PZ [1]; OpMeasure XX None] in
  Forall (oper_ok 2) os /\
  exists st, foldR (exec rng_true) os (zero_state 2, 0) = Ok (st, 2) /\ st <> zero_state 2.
Proof.
  cbn zeta. split.
  - repeat (apply Forall_cons || apply Forall_nil); unfold oper_ok, pairs_ok; cbn [combine length];
      repeat match goal with
             | |- _ /\ _ => split
             | |- Forall _ [] => constructor
             | |- Forall _ (_ :: _) => constructor
             | |- forall f, Some _ = Some f -> _ => intros f E; injection E as <-; auto
             | |- forall f, None = Some f -> _ => intros f E; discriminate
             | |- exists q, _ => exists 0; discriminate
             | |- PZ <> PI \/ _ => left; discriminate
             | |- _ => cbn; lia
             end; auto.
  - eexists. split. vm_compute; reflexivity. discriminate.
Qed.

Theorem C05_random_measurement (n : nat) (g : rng) (k : nat) (t : tableau) (op : row) (forced : option Z) (v : vec) :
  0 < n -> valid n t -> length (ops op) = n ->
  (forall f, forced = Some f -> f = 0%Z \/ f = 1%Z) ->
  (exists i, n <= i < 2 * n /\ anticommute n (denote (nth i t row0)) (denote op)) ->
  describes n t v ->
  exists t' m k', measure g k t op forced = Ok (t', m, k') /\
    (* the outcome is the forced one or the one drawn *)
    match forced with
    | Some f => m = (f =? 1)%Z /\ k' = k
    | None => m = d_bit (g k) /\ k' = S k
    end /\
    valid n t' /\
    (* the new tableau describes the projected vector *)
    describes n t' (project (denote op) m v) /\
    (* both outcomes have Born probability 1/2: |v + (-1)^m P v|^2 / 4 = |v|^2 / 2 *)
    (forall m', 2 * norm2 n (project (denote op) m' v) = 4 * norm2 n v)%Z /\
    (* stabilisers commuting with the measured operator survive *)
    (forall r, length (ops r) = n -> commute n (denote r) (denote op) ->
       stabilises n (denote r) v -> stabilises n (denote r) (project (denote op) m v)).
Proof.
  intros Hn HV Hl Hf (i & Hi & Ha) HD. rewrite valid_wf in HV. pose proof HV as (L & F & C).
  rewrite anticommute_iff in Ha by (auto; apply F; lia).
  assert (Hid : ops op <> repeat pid n).
  { intros E. rewrite E, symp_comm, symp_id_l in Ha. discriminate. }
  destruct (measure_total n g k t op HV Hn Hl Hid forced Hf) as (t' & m & k' & HM & HR & H1 & _).
  assert (HA : exists i, n <= i < 2 * n /\ antic t op i = true) by (exists i; split; auto).
  exists t', m, k'. split; auto. split. { apply H1; auto. }
  destruct (measure_sem n g k t op forced t' m k' v HV Hn Hl Hid Hf HM HD) as (W' & D' & HN).
  split. apply valid_wf; auto. split; auto. split.
  - intros m'. rewrite describes_iff in HD by auto.
    rewrite (project_norm n (nth i t row0)); auto. ring. apply F; lia.
  - intros r Hr Hc Hs. apply project_keep; auto. apply commute_iff in Hc; auto.
Qed.
Print Assumptions C05_random_measurement.

(** |00>, measuring XX. *)
Example C05_example :
  valid 2 (zero_state 2) /\ length (ops XX) = 2 /\
  (exists i, 2 <= i < 2 * 2 /\ anticommute 2 (denote (nth i (zero_state 2) row0)) (denote XX)) /\
  describes 2 (zero_state 2) ket0 /\ norm2 2 ket0 = 1%Z.
Proof.
  split. apply valid_wf, zero_state_wf. split. reflexivity. split.
  exists 2. split. lia. apply anticommute_iff; auto.
  split. apply zero_state_describes. reflexivity.
Qed.

Theorem C06_deterministic_measurement (n : nat) (g : rng) (k : nat) (t : tableau) (op : row) (forced : option Z) :
  0 < n -> valid n t -> length (ops op) = n ->
  (exists q, nth q (ops op) (false, false) <> (false, false)) ->
  (forall f, forced = Some f -> f = 0%Z \/ f = 1%Z) ->
  (forall i, n <= i < 2 * n -> commute n (denote (nth i t row0)) (denote op)) ->
  exists m, (forall g k forced, (forall f, forced = Some f -> f = 0%Z \/ f = 1%Z) ->
               measure g k t op forced = Ok (t, m, k)) /\
    forall v, describes n t v -> veq n (papply (denote op) v) (vscale (sgn m) v).
Proof.
  intros Hn HV Hl Hq Hf Hc. rewrite valid_wf in HV. pose proof HV as (L & F & C).
  assert (Hid : ops op <> repeat pid n) by (apply nonid_exists; auto).
  assert (Hall : forall i, n <= i < 2 * n -> antic t op i = false).
  { intros i Hi. unfold antic. apply (commute_iff n); auto. apply F; lia. }
  destruct (measure_total n g k t op HV Hn Hl Hid forced Hf) as (t' & m & k' & HM & HR & _ & H2).
  exists m. destruct (exists_described n t HV) as (v0 & Hv0 & HD0).
  destruct (det_outcome n t op m t' v0 HV Hl Hall HR HD0) as (-> & E0).
  split.
  - intros g' k0 forced' Hf'. eapply (measure_eigen n); eauto.
  - intros v HD. eapply (det_outcome n t op m t v); eauto.
Qed.
Print Assumptions C06_deterministic_measurement.

(** Bell state: ZZ has the definite value 0 although single-qubit Z is random. *)
Example C06_example :
  let t := [mkRow [(false, true); (false, false)] false; mkRow [(false, false); (true, false)] false;
            mkRow [(true, false); (true, false)] false; mkRow [(false, true); (false, true)] false] in
  valid 2 t /\ (forall i, 2 <= i < 2 * 2 -> commute 2 (denote (nth i t row0)) (denote ZZ)) /\
  measure rng_true 0 t ZZ None = Ok (t, false, 0) /\
  measure rng_true 0 t (mkRow [(false, true); (false, true)] true) (Some 0%Z) = Ok (t, true, 0).
Proof.
  cbn zeta. split; [|split; [|split; vm_compute; reflexivity]].
  - apply valid_wf. split; auto. split.
    + intros i Hi. do 4 (destruct i; auto). lia.
    + intros i j Hi Hj. do 4 (destruct i; [do 4 (destruct j; [reflexivity|]); lia|]). lia.
  - intros i Hi. apply commute_iff; destruct i as [|[|[|[|]]]]; try lia; reflexivity.
Qed.

(** For the identity operator the function raises. *)
Theorem C06_identity_raises (n : nat) (g : rng) (k : nat) (t : tableau) (s : bool) (forced : option Z) :
  0 < n -> valid n t -> measure g k t (mkRow (repeat (false, false) n) s) forced = Err IndexError.
Proof.
  intros Hn HV. rewrite valid_wf in HV. unfold measure. cbv zeta. rewrite (wf_nqubits n) by auto. cbn [ops].
  rewrite repeat_length, Nat.eqb_refl. cbn [negb].
  assert (E : nonzero (map (fun r => commutator_sign r (mkRow (repeat (false, false) n) s)) t) = []).
  { destruct (nonzero _) as [|x l] eqn:E; auto. exfalso.
    assert (Hin : In x (nonzero (map (fun r => commutator_sign r (mkRow (repeat (false, false) n) s)) t))).
    { rewrite E. simpl; auto. }
    apply (nz_in n) in Hin; auto. destruct Hin as [_ Hin]. unfold antic in Hin. cbn [ops] in Hin.
    rewrite symp_comm in Hin. change (false, false) with pid in Hin. rewrite symp_id_l in Hin. discriminate.
    cbn [ops]. apply repeat_length. }
  rewrite E. reflexivity.
Qed.
Print Assumptions C06_identity_raises.

Theorem C07_repeatable (n : nat) (g g2 : rng) (k k2 : nat) (t t' : tableau) (op : row) (forced forced2 : option Z)
    (m : bool) (k' : nat) :
  0 < n -> valid n t -> length (ops op) = n ->
  (exists q, nth q (ops op) (false, false) <> (false, false)) ->
  (forall f, forced = Some f -> f = 0%Z \/ f = 1%Z) ->
  (forall f, forced2 = Some f -> f = 0%Z \/ f = 1%Z) ->
  measure g k t op forced = Ok (t', m, k') ->
  measure g2 k2 t' op forced2 = Ok (t', m, k2).
Proof.
  intros Hn HV Hl Hq Hf Hf2 HM. rewrite valid_wf in HV.
  apply (measure_again n g k t op forced t' m k'); auto. apply nonid_exists; auto.
Qed.
Print Assumptions C07_repeatable.

(** A random first measurement with outcome 1 and an attempt to force 0 afterwards. *)
Example C07_example :
  exists t', measure rng_true 0 (zero_state 2) XX None = Ok (t', true, 1) /\
             t' <> zero_state 2 /\ measure rng_true 7 t' XX (Some 0%Z) = Ok (t', true, 7).
Proof. eexists. split. vm_compute; reflexivity. split. discriminate. vm_compute; reflexivity. Qed.

Theorem C08_reset (n : nat) (g : rng) (k : nat) (t : tableau) (sign : bool) (p : pauli1) (qs : list nat) (v : vec) :
  0 < n -> valid n t -> Forall (fun q => q < n) qs -> p = PX \/ p = PZ ->
  describes n t v -> (norm2 n v <> 0)%Z ->
  exists t' k', reset_qubits g k t sign p qs = Ok (t', k') /\ valid n t' /\
    (* each reset qubit now gives outcome 0 with certainty, whatever the randomness *)
    (forall q g2 k2 forced, In q qs -> (forall f, forced = Some f -> f = 0%Z \/ f = 1%Z) ->
       exists op, single_qubit_pauli_operator sign p q n = Ok op /\ denote op = single n sign p q /\
                  measure g2 k2 t' op forced = Ok (t', false, k2)) /\
    (* the new state vector: fixed by the reset operators and by every Pauli operator that
       fixed the old state and acts trivially on the reset qubits *)
    exists v', describes n t' v' /\ (norm2 n v' <> 0)%Z /\
      (forall q, In q qs -> stabilises n (single n sign p q) v') /\
      (forall r, length (ops r) = n -> trivial_on qs (denote r) ->
         stabilises n (denote r) v -> stabilises n (denote r) v').
Proof.
  intros Hn HV HF Hp HD Hv. rewrite valid_wf in HV.
  destruct (reset_ok n g sign p Hp qs t k v HV Hn HF HD) as (t' & k' & v' & E & W & D & N & S & T).
  exists t', k'. split; auto. split. apply valid_wf; auto. specialize (N Hv).
  assert (Hpi : p <> PI) by (destruct Hp; subst; discriminate).
  split.
  - intros q g2 k2 forced Hin Hf. assert (Hq : q < n) by (rewrite Forall_forall in HF; auto).
    eexists. split. apply sqpo_ok; auto. split. apply denote_single.
    apply (measure_eigen n) with (v := v'); auto. apply single_len. apply single_nonid; auto.
    rewrite denote_single. eapply veq_trans. apply S; auto. intros a _. unfold vscale. cbn [sgn]. ring.
  - exists v'. split; auto. split; auto. split; auto.
    intros r Hr Ht Hs. apply T; auto. intros q Hq. apply trivial_nth. apply Ht; auto.
Qed.
Print Assumptions C08_reset.

(** Bell pair with qubit 1 reset through outcome 1. *)
Example C08_example :
  exists t t', foldR (exec rng_true) [OpH [0]; OpCX [0] [1]] (zero_state 2, 0) = Ok (t, 0) /\
    reset_qubits rng_true 0 t false PZ [1] = Ok (t', 1) /\
    measure rng_true 1 t' (mkRow [(false, false); (false, true)] false) None = Ok (t', false, 1) /\
    measure rng_true 1 t' (mkRow [(false, true); (false, false)] false) None = Ok (t', true, 1).
Proof. eexists _, _. split. vm_compute; reflexivity. split. vm_compute; reflexivity. split; vm_compute; reflexivity. Qed.
