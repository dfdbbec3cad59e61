(** Number of measurement results and erasure flags of a run. *)
Require Import List Bool Arith ZArith QArith Lia String.
From Verif Require Import Base BaseProofs QSpec PauliModel CircuitModel CircuitSpec CircuitProofs SimModel SimSpec SimProofs RunProofs.
Import ListNotations.
Local Open Scope string_scope.
Local Open Scope nat_scope.
Local Open Scope list_scope.

Definition lens (s : sim) : nat * nat := (List.length (s_meas s), List.length (s_eras s)).
Definition grown (s s' : sim) (a b : nat) : Prop :=
  List.length (s_meas s') = List.length (s_meas s) + a /\ List.length (s_eras s') = List.length (s_eras s) + b.

Lemma api_len s q k s' : apply_pauli_from_int s q k = Ok s' -> grown s s' 0 0.
Proof.
  destruct k as [|[|[|[|]]]]; cbn [apply_pauli_from_int].
  - intros [= <-]. split; lia.
  - destruct (gate_x _ _); [|discriminate]. intros [= <-]. split; cbn; lia.
  - destruct (gate_y _ _); [|discriminate]. intros [= <-]. split; cbn; lia.
  - destruct (gate_z _ _); [|discriminate]. intros [= <-]. split; cbn; lia.
  - discriminate.
Qed.

Lemma foldR_len {A} (f : sim -> A -> Res sim) a : (forall s x s', f s x = Ok s' -> grown s s' a 0) ->
  forall l s s', foldR f l s = Ok s' -> grown s s' (a * List.length l) 0.
Proof.
  intros H. induction l as [|x l IH]; intros s s' E; cbn [foldR] in E.
  - injection E as <-. split; cbn; lia.
  - destruct (f s x) as [s1|] eqn:E1; [|discriminate]. cbn [bindR] in E. apply H in E1. apply IH in E.
    destruct E1 as [A1 B1], E as [A2 B2]. split; cbn [List.length]; lia.
Qed.

Definition mcount (name : string) (args : list arg) : nat := if String.eqb name "M" then List.length args else 0.
Definition ecount (name : string) : nat := if String.eqb name "E_ERASE" then 1 else 0.

Lemma handle_gate_len g s name args s' : handle_gate g s name args = Ok s' ->
  grown s s' (mcount name args) (ecount name).
Proof.
  unfold handle_gate, mcount, ecount.
  destruct (String.eqb_spec name "X") as [->|].
  { destruct (mapR qubit_of args); [|discriminate]. cbn [bindR]. destruct (gate_x _ _); [|discriminate]. intros [= <-]. split; cbn; lia. }
  destruct (String.eqb_spec name "Y") as [->|].
  { destruct (mapR qubit_of args); [|discriminate]. cbn [bindR]. destruct (gate_y _ _); [|discriminate]. intros [= <-]. split; cbn; lia. }
  destruct (String.eqb_spec name "Z") as [->|].
  { destruct (mapR qubit_of args); [|discriminate]. cbn [bindR]. destruct (gate_z _ _); [|discriminate]. intros [= <-]. split; cbn; lia. }
  destruct (String.eqb_spec name "H") as [->|].
  { destruct (mapR qubit_of args); [|discriminate]. cbn [bindR]. destruct (hadamard _ _); [|discriminate]. intros [= <-]. split; cbn; lia. }
  destruct (String.eqb_spec name "CX") as [->|].
  { destruct (mapR qubit_of args); [|discriminate]. cbn [bindR]. destruct (control_not_gate _ _ _); [|discriminate]. intros [= <-]. split; cbn; lia. }
  destruct (String.eqb_spec name "CZ") as [->|].
  { destruct (mapR qubit_of args); [|discriminate]. cbn [bindR]. destruct (control_phase_gate _ _ _); [|discriminate]. intros [= <-]. split; cbn; lia. }
  destruct (String.eqb_spec name "M") as [->|].
  { destruct (mapR qubit_of args) as [qs|] eqn:E; [|discriminate]. apply mapR_length in E. cbn [bindR]. intros H.
    apply (foldR_len _ 1) in H. rewrite E, Nat.mul_1_l in H. exact H.
    clear. intros s q s'. unfold measure_qubit.
    destruct (single_qubit_pauli_operator _ _ _ _); [|discriminate]. cbn [bindR].
    destruct (measure _ _ _ _ _) as [[[t m] k]|]; [|discriminate]. cbn [bindR]. intros [= <-].
    split; cbn; try rewrite app_length; cbn; lia. }
  destruct (String.eqb_spec name "R") as [->|].
  { destruct (mapR qubit_of args); [|discriminate]. cbn [bindR]. destruct (reset_qubits _ _ _ _ _ _); [|discriminate]. intros [= <-]. split; cbn; lia. }
  destruct (String.eqb_spec name "DEPOLARIZE") as [->|].
  { destruct (mapR qubit_of args) as [qs|] eqn:E; [|discriminate]. cbn [bindR]. intros H.
    apply (foldR_len _ 0) in H. exact H. clear. intros s q s' H. apply api_len in H. exact H. }
  destruct (String.eqb_spec name "E_ERASE") as [->|].
  { destruct args as [|x [|y [|]]]; try discriminate. destruct (prob_of x); [|discriminate]. cbn [bindR].
    destruct (qubit_of y); [|discriminate]. cbn [bindR]. cbv zeta. destruct (Qltb _ _).
    - intros H. apply api_len in H. destruct H as [A B]. cbn in *. rewrite app_length in B. cbn in B. split; cbn; lia.
    - intros [= <-]. split; cbn; try rewrite app_length; cbn; lia. }
  destruct (String.eqb_spec name "E_PAULI") as [->|].
  { destruct args as [|x [|y [|z [|w args]]]]; try discriminate.
    destruct (mapR prob_of [x; y; z]); [|discriminate]. cbn [bindR]. destruct (qubit_of w); [|discriminate]. cbn [bindR].
    destruct (choice _ _); [|discriminate]. cbn [bindR]. intros H. apply api_len in H. exact H. }
  destruct (String.eqb_spec name "E_PAULI2") as [->|]; [|discriminate].
  destruct (mapR prob_of (firstn 15 args)); [|discriminate]. cbn [bindR]. destruct (negb _); [discriminate|].
  destruct (choice _ _); [|discriminate]. cbn [bindR]. destruct (skipn 15 args) as [|x [|y l]]; try discriminate.
  destruct (qubit_of x); [|discriminate]. cbn [bindR]. destruct (qubit_of y); [|discriminate]. cbn [bindR].
  destruct (apply_pauli_from_int _ _ _) as [s1|] eqn:E1; [|discriminate]. cbn [bindR]. intros E2.
  apply api_len in E1, E2. destruct E1 as [A B], E2 as [C D]. cbn in *. split; cbn; lia.
Qed.

Definition total (f : gate -> nat) (c : circuit) : nat := fold_right (fun gt n => f gt + n) 0 c.
Definition nested_erase (gt : gate) : nat := match inner_name gt with Some nm => ecount nm | None => 0 end.
Definition plain_measured (gt : gate) : nat := mcount (fst gt) (snd gt).

Lemma number_measured_total c : number_measured_qubits c = total plain_measured c.
Proof.
  unfold number_measured_qubits.
  assert (H : forall c n, fold_left (fun n (gt : gate) => if String.eqb (fst gt) "M" then n + List.length (snd gt) else n) c n
     = n + total plain_measured c).
  { clear. induction c as [|gt c IH]; intros n; cbn [fold_left total fold_right]; [lia|].
    rewrite IH. unfold plain_measured, mcount. fold (total plain_measured c). destruct (String.eqb (fst gt) "M"); unfold total; lia. }
  rewrite H. auto.
Qed.

Lemma run_gate_len g s gt s' : stored gt -> run_gate g s gt = Ok s' ->
  exists a b, grown s s' a b /\ plain_measured gt <= a <= plain_measured gt + nested_measured gt /\
    ecount (fst gt) <= b <= ecount (fst gt) + nested_erase gt.
Proof.
  intros HS E. destruct gt as [name args]. unfold run_gate in E. cbn [fst snd] in E.
  destruct (String.prefix "ERROR" name) eqn:EP.
  - assert (EM : plain_measured (name, args) = 0).
    { unfold plain_measured, mcount. cbn [fst snd]. destruct (String.eqb_spec name "M"); subst; auto. discriminate. }
    assert (EE : ecount name = 0).
    { unfold ecount. destruct (String.eqb_spec name "E_ERASE"); subst; auto. discriminate. }
    cbn [fst]. rewrite EM, EE. unfold handle_error in E.
    destruct (String.eqb_spec name "ERROR") as [->|].
    { destruct args as [|a [|[| |inner] rest]]; try discriminate.
      destruct (stored_error _ _ _ _ HS) as (p & zs & -> & ->); auto. cbn [prob_of bindR] in E.
      destruct (Qltb _ _).
      - apply handle_gate_len in E. exists (mcount inner (map AInt zs)), (ecount inner). split; [exact E|].
        unfold nested_measured, nested_erase, inner_name, mcount. cbn [snd]. lia.
      - injection E as <-. exists 0, 0. split; [split; cbn; lia|lia]. }
    destruct (String.eqb_spec name "ERROR_CONTINUE") as [->|].
    { destruct args as [|[| |inner] rest]; try discriminate.
      destruct (negb (s_in s)); [discriminate|]. destruct (s_branch s).
      - apply handle_gate_len in E. exists (mcount inner rest), (ecount inner). split; [exact E|].
        unfold nested_measured, nested_erase, inner_name, mcount. cbn [snd]. lia.
      - injection E as <-. exists 0, 0. split; [split; cbn; lia|lia]. }
    destruct (String.eqb_spec name "ERROR_ELSE") as [->|]; [|discriminate].
    destruct args as [|a [|[| |inner] rest]]; try discriminate.
    destruct (stored_error _ _ _ _ HS) as (p & zs & -> & ->); auto. cbn [prob_of bindR] in E.
    destruct (negb (s_in s)); [discriminate|]. destruct (s_any s).
    { injection E as <-. exists 0, 0. split; [split; cbn; lia|lia]. }
    destruct (Qltb _ _).
    + apply handle_gate_len in E. exists (mcount inner (map AInt zs)), (ecount inner). split; [exact E|].
      unfold nested_measured, nested_erase, inner_name, mcount. cbn [snd]. lia.
    + injection E as <-. exists 0, 0. split; [split; cbn; lia|lia].
  - apply handle_gate_len in E. exists (mcount name args), (ecount name). split; [exact E|].
    unfold plain_measured. cbn [fst snd]. lia.
Qed.

Lemma run_len g : forall c s s', Forall stored c -> foldR (run_gate g) c s = Ok s' ->
  exists a b, grown s s' a b /\
    total plain_measured c <= a <= total plain_measured c + total nested_measured c /\
    total (fun gt => ecount (fst gt)) c <= b <= total (fun gt => ecount (fst gt)) c + total nested_erase c.
Proof.
  induction c as [|gt c IH]; intros s s' F E; cbn [foldR] in E.
  - injection E as <-. exists 0, 0. split; [split; lia|]. cbn. lia.
  - inversion F; subst. destruct (run_gate g s gt) as [s1|] eqn:E1; [|discriminate]. cbn [bindR] in E.
    destruct (run_gate_len g s gt s1 H1 E1) as (a & b & [A B] & L1 & L2).
    destruct (IH s1 s' H2 E) as (a2 & b2 & [A2 B2] & L3 & L4).
    exists (a + a2), (b + b2). split. split; lia. cbn [total fold_right].
    fold (total plain_measured c) (total nested_measured c) (total nested_erase c) (total (fun gt => ecount (fst gt)) c). lia.
Qed.

(** * Exact count: which instructions were executed *)
Definition is_error (gt : gate) : bool := String.prefix "ERROR" (fst gt).

Lemma stored_plain_count name args : stored (name, args) -> String.prefix "ERROR" name = false ->
  mcount name args = measures (name, args) /\ ecount name = erases (name, args).
Proof.
  intros H E. unfold mcount, measures, ecount, erases, inner_name, nested_measured. cbn [fst snd].
  inversion H as [nm p inner zs N| | | |ps z1 z2 L|nm zs I]; subst; try discriminate; [destruct N; subst; discriminate| | | | ].
  - split; auto.
  - split; auto.
  - destruct ps as [|? [|? ps]]; try discriminate. split; auto.
  - destruct (String.eqb name "M"); [|destruct zs; auto]. destruct zs; auto.
Qed.

Lemma run_gate_exact g s gt s' : stored gt -> run_gate g s gt = Ok s' ->
  exists e : bool, grown s s' (if e then measures gt else 0) (if e then erases gt else 0) /\ (is_error gt = false -> e = true).
Proof.
  intros HS E. destruct gt as [name args]. unfold run_gate in E. cbn [fst snd] in E. unfold is_error. cbn [fst].
  destruct (String.prefix "ERROR" name) eqn:EP.
  - assert (EM : measures (name, args) = nested_measured (name, args)).
    { unfold measures. cbn [fst snd]. destruct (String.eqb_spec name "M"); subst; auto. discriminate. }
    rewrite EM. unfold erases, nested_measured, inner_name. cbn [fst snd]. unfold handle_error in E.
    destruct (String.eqb_spec name "ERROR") as [->|].
    { destruct args as [|a [|[| |inner] rest]]; try discriminate.
      destruct (stored_error _ _ _ _ HS) as (p & zs & -> & ->); auto. cbn [prob_of bindR] in E.
      destruct (Qltb _ _).
      - apply handle_gate_len in E. exists true. split; [exact E|auto].
      - injection E as <-. exists false. split; [split; cbn; lia|discriminate]. }
    destruct (String.eqb_spec name "ERROR_CONTINUE") as [->|].
    { destruct args as [|[| |inner] rest]; try discriminate.
      destruct (negb (s_in s)); [discriminate|]. destruct (s_branch s).
      - apply handle_gate_len in E. exists true. split; [exact E|auto].
      - injection E as <-. exists false. split; [split; cbn; lia|discriminate]. }
    destruct (String.eqb_spec name "ERROR_ELSE") as [->|]; [|discriminate].
    destruct args as [|a [|[| |inner] rest]]; try discriminate.
    destruct (stored_error _ _ _ _ HS) as (p & zs & -> & ->); auto. cbn [prob_of bindR] in E.
    destruct (negb (s_in s)); [discriminate|]. destruct (s_any s).
    { injection E as <-. exists false. split; [split; cbn; lia|discriminate]. }
    destruct (Qltb _ _).
    + apply handle_gate_len in E. exists true. split; [exact E|auto].
    + injection E as <-. exists false. split; [split; cbn; lia|discriminate].
  - apply handle_gate_len in E. destruct (stored_plain_count name args HS EP) as [<- <-]. exists true. split; [exact E|auto].
Qed.

Lemma run_exact g : forall c s s', Forall stored c -> foldR (run_gate g) c s = Ok s' ->
  exists ex, List.length ex = List.length c /\
    Forall2 (fun gt e => is_error gt = false -> e = true) c ex /\
    grown s s' (executed_sum measures c ex) (executed_sum erases c ex).
Proof.
  induction c as [|gt c IH]; intros s s' F E; cbn [foldR] in E.
  - injection E as <-. exists []. repeat split; auto; cbn; lia.
  - inversion F; subst. destruct (run_gate g s gt) as [s1|] eqn:E1; [|discriminate]. cbn [bindR] in E.
    destruct (run_gate_exact g s gt s1 H1 E1) as (e & [A B] & P).
    destruct (IH s1 s' H2 E) as (ex & L & F2 & [A2 B2]).
    exists (e :: ex). split; [cbn; lia|]. split; [constructor; auto|]. cbn [executed_sum]. split; lia.
Qed.
