(** Lemmas: flipped results and noise on the data qubits as sums over what may happen. *)
Require Import String List Bool Arith ZArith QArith Qfield Lia Lqa.
From Verif Require Import Base BaseProofs QSpec PauliModel PauliSem PauliProofs PauliAlg TableauProofs MeasureProofs StateSpec GateProofs
  StateProofs CircuitModel SimSpec SimModel SimProofs LatticeModel LatticeSpec GeneratorModel GeneratorSpec StabTrack RoundProofs MemoryProofs GeneratorProofs DistSpec DistMean DistSim HistorySpec HistoryPaths.
Import ListNotations.
Local Open Scope string_scope.
Local Open Scope nat_scope.
Local Open Scope list_scope.

(** * Flipped results *)
Definition sure (b : bool) : Q := if b then 1%Q else 0%Q.
Definition set1 (a : nat) (b : bool) (i : ins) : ins := match i with IFlip p q => if q =? a then IFlip (sure b) q else i | _ => i end.
Fixpoint setall (ab : list (nat * bool)) (is : list ins) : list ins :=
  match ab with [] => is | (a, b) :: ab' => setall ab' (map (set1 a b) is) end.
Definition is_flip (a : nat) (i : ins) : bool := match i with IFlip _ q => q =? a | _ => false end.
Definition flips (a : nat) (is : list ins) : nat := List.length (filter (is_flip a) is).

Lemma set1_other a b i : is_flip a i = false -> set1 a b i = i.
Proof. destruct i; cbn; auto. intros ->. auto. Qed.
Lemma map_set1_other a b is : flips a is = 0 -> map (set1 a b) is = is.
Proof.
  unfold flips. induction is as [|i is IH]; auto. cbn [filter map]. destruct (is_flip a i) eqn:E; [discriminate|]. intros H. rewrite set1_other, IH by auto. auto.
Qed.
Lemma single_set1 a b is : Forall single_noise is -> Forall single_noise (map (set1 a b) is).
Proof. intros H. apply Forall_map. eapply Forall_impl; [|exact H]. intros i. destruct i; cbn; auto. destruct (q =? a); cbn; auto. Qed.
Lemma flips_set1 a b a' is : a' <> a -> flips a' (map (set1 a b) is) = flips a' is.
Proof.
  intros N. unfold flips. induction is as [|i is IH]; auto. cbn [map filter]. replace (is_flip a' (set1 a b i)) with (is_flip a' i); [destruct (is_flip a' i); cbn; auto|].
  destruct i; cbn; auto. destruct (Nat.eqb_spec q a); auto.
Qed.
Lemma in_set1 a b a' p is : a' <> a -> In (IFlip p a') (map (set1 a b) is) -> In (IFlip p a') is.
Proof.
  intros N I. apply in_map_iff in I as (i & E & I). destruct i; cbn in E; try discriminate; try (inversion E; subst; exact I).
  destruct (Nat.eqb_spec q a); inversion E; subst; [congruence|exact I].
Qed.

Lemma split_one n a p f : forall is v ms es, Forall single_noise is -> (forall p', In (IFlip p' a) is -> (p' == p)%Q) -> flips a is <= 1 ->
  (expected n (map item_of is) f v ms es == p * expected n (map item_of (map (set1 a true) is)) f v ms es +
     (1 - p) * expected n (map item_of (map (set1 a false) is)) f v ms es)%Q.
Proof.
  induction is as [|i is IH]; intros v ms es SN HP CN; [cbn [map expected]; ring|]. inversion SN as [|? ? S1 S2]; subst.
  cbn [map]. destruct (is_flip a i) eqn:EI.
  - destruct i; try discriminate. cbn [is_flip] in EI. assert (q = a) by (apply Nat.eqb_eq; auto). subst q.
    assert (C0 : flips a is = 0). { unfold flips in *. cbn [filter is_flip] in CN. rewrite Nat.eqb_refl in CN. cbn [List.length] in CN. lia. }
    rewrite !map_set1_other by auto. cbn [set1]. rewrite Nat.eqb_refl. cbn [item_of sure expected]. rewrite !exp_IFlip. rewrite (HP p0) by (left; auto). ring.
  - rewrite !set1_other by auto. rewrite !(expected_cons n i (map item_of _) f).
    apply (expected_lin n p [i]).
    + constructor; auto.
    + intros v' ms' es'. apply IH; auto. intros p' I. apply HP. right; auto. unfold flips in *. cbn [filter] in CN. rewrite EI in CN. auto.
Qed.

Definition flips_chance (pr : nat -> Q) (ab : list (nat * bool)) : Q := product (map (fun ab => flip_chance (pr (fst ab)) (snd ab)) ab).
Lemma split_all n pr f : forall L is v ms es, NoDup L -> Forall single_noise is ->
  (forall a p', In a L -> In (IFlip p' a) is -> (p' == pr a)%Q) -> (forall a, In a L -> flips a is <= 1) ->
  (expected n (map item_of is) f v ms es ==
   sum_over (words [false; true] (List.length L)) (fun F => flips_chance pr (combine L F) * expected n (map item_of (setall (combine L F) is)) f v ms es))%Q.
Proof.
  induction L as [|a L IH]; intros is v ms es ND SN HP HC.
  - cbn [List.length words]. rewrite sum_cons, sum_nil. cbn [combine setall]. unfold flips_chance, product. cbn [map fold_right]. ring.
  - inversion ND as [|? ? NI ND']; subst. cbn [List.length words flat_map]. rewrite app_nil_r, sum_app, !sum_map.
    assert (K : forall b, (expected n (map item_of (map (set1 a b) is)) f v ms es ==
       sum_over (words [false; true] (List.length L)) (fun F => flips_chance pr (combine L F) * expected n (map item_of (setall (combine L F) (map (set1 a b) is))) f v ms es))%Q).
    { intros b. apply IH; auto using single_set1.
      - intros a' p' I J. apply HP; [right; auto|]. eapply in_set1; [|exact J]. congruence.
      - intros a' I. rewrite flips_set1 by congruence. apply HC. right; auto. }
    assert (SO : (expected n (map item_of is) f v ms es == pr a * expected n (map item_of (map (set1 a true) is)) f v ms es +
       (1 - pr a) * expected n (map item_of (map (set1 a false) is)) f v ms es)%Q) by (apply split_one; [auto|intros p' I; apply HP; auto; left; auto|apply HC; left; auto]).
    rewrite SO, !K. rewrite <- !sum_scale.
    rewrite Qplus_comm. apply Qplus_comp; apply sum_ext; intros F _; unfold flips_chance, product; cbn [combine map fold_right fst snd flip_chance setall]; ring.
Qed.

(** * Noise *)
Definition errs := list qubit_error.
(** Which errors the instructions can make. *)
Definition can (e : errors) (q : nat) (x : qubit_error) : Prop :=
  (data_pauli e (Some q) = None -> fst x = PI) /\ (data_erase e (Some q) = None -> snd x = None).
Definition act (e : errors) (q : nat) (x : qubit_error) (v : vec) : vec :=
  let w := match data_pauli e (Some q) with Some _ => apply1 (mP (fst x)) q v | None => v end in
  match data_erase e (Some q), snd x with Some _, Some R => apply1 (mP R) q w | _, _ => w end.
Definition flag (e : errors) (q : nat) (x : qubit_error) : list bool :=
  match data_erase e (Some q) with Some _ => [erasure_of x] | None => [] end.
Fixpoint noisy (e : errors) (D : list nat) (c : errs) (v : vec) : vec :=
  match D, c with q :: D', x :: c' => noisy e D' c' (act e q x v) | _, _ => v end.
Definition flags (e : errors) (D : list nat) (c : errs) : list bool := flat_map (fun qx => flag e (fst qx) (snd qx)) (combine D c).
Definition noise_chance (e : errors) (qc : list (nat * qubit_error)) : Q := product (map (fun qx => qubit_chance e (fst qx) (snd qx)) qc).

Lemma pauli_some e q x y z P : data_pauli e (Some q) = Some (x, y, z) -> (pauli_prob e q P == prob_k [x; y; z] (code P))%Q.
Proof.
  unfold data_pauli, pauli_prob. destruct (get1 (er_pauli e) (Some q)) as [[|kv p]|]; try discriminate. intros [= <- <- <-].
  destruct P; cbn [code prob_k]; unfold prob_k; cbn; ring.
Qed.
Lemma pauli_none e q P : data_pauli e (Some q) = None -> (pauli_prob e q P == match P with PI => 1 | _ => 0 end)%Q.
Proof. unfold data_pauli, pauli_prob. destruct (get1 (er_pauli e) (Some q)) as [[|kv p]|]; try discriminate; intros _; destruct P; reflexivity. Qed.
Lemma erase_some e q p : data_erase e (Some q) = Some p -> erase_prob e q = p.
Proof. unfold data_erase, erase_prob. destruct (get1 (er_erasure e) (Some q)) as [[|kv r]|]; congruence. Qed.
Lemma erase_none e q : data_erase e (Some q) = None -> erase_prob e q = 0%Q.
Proof. unfold data_erase, erase_prob. destruct (get1 (er_erasure e) (Some q)) as [[|kv r]|]; try discriminate; auto. Qed.

Lemma sum_errors (F : qubit_error -> Q) : (sum_over qubit_errors F == sum_over letters (fun P => F (P, None) + sum_over letters (fun R => F (P, Some R))))%Q.
Proof. unfold qubit_errors, letters. cbn [list_prod map app]. rewrite !sum_cons, !sum_nil. ring. Qed.
Lemma exp_noise1 n e q f v ms es :
  (expected n (map item_of (pauli_ins (data_pauli e (Some q)) q ++ erase_ins (data_erase e (Some q)) q)) f v ms es ==
   sum_over qubit_errors (fun x => qubit_chance e q x * f (act e q x v) ms (es ++ flag e q x)))%Q.
Proof.
  rewrite sum_errors. rewrite map_app, expected_app. unfold act, flag, qubit_chance. cbn [fst snd].
  assert (E2 : forall w, (expected n (map item_of (erase_ins (data_erase e (Some q)) q)) f w ms es ==
     (1 - erase_prob e q) * f w ms (es ++ match data_erase e (Some q) with Some _ => [false] | None => [] end) +
     sum_over letters (fun R => erase_prob e q * (1 # 4) * f (match data_erase e (Some q) with Some _ => apply1 (mP R) q w | None => w end) ms (es ++ match data_erase e (Some q) with Some _ => [true] | None => [] end)))%Q).
  { intros w. destruct (data_erase e (Some q)) as [p|] eqn:ED.
    - rewrite (erase_some e q p ED). cbn [erase_ins map item_of expected]. rewrite exp_IErase. unfold letters. rewrite !sum_cons, !sum_nil. ring.
    - rewrite (erase_none e q ED). cbn [erase_ins map item_of expected]. rewrite app_nil_r. unfold letters. rewrite !sum_cons, !sum_nil. ring. }
  destruct (data_pauli e (Some q)) as [[[x y] z]|] eqn:EP; cbn [pauli_ins map item_of expected].
  - rewrite exp_IPauli. apply sum_ext. intros P _. rewrite E2. rewrite <- (pauli_some e q x y z P EP). unfold letters. rewrite !sum_cons, !sum_nil. unfold erasure_of. cbn [snd].
    destruct (data_erase e (Some q)); ring.
  - rewrite E2. unfold letters. rewrite !sum_cons, !sum_nil. rewrite !(pauli_none e q _ EP). unfold erasure_of. cbn [snd]. destruct (data_erase e (Some q)); ring.
Qed.

Lemma noise_single e D : Forall single_noise (noise_ins (fun q => data_pauli e (Some q)) (fun q => data_erase e (Some q)) D).
Proof.
  induction D as [|q D IH]; cbn [noise_ins flat_map]; [constructor|]. apply Forall_app. split; auto. apply Forall_app.
  split; [destruct (data_pauli e (Some q)) as [[[x y] z]|]|destruct (data_erase e (Some q))]; repeat constructor.
Qed.
Lemma exp_noise n e f : forall D v ms es,
  (expected n (map item_of (noise_ins (fun q => data_pauli e (Some q)) (fun q => data_erase e (Some q)) D)) f v ms es ==
   sum_over (words qubit_errors (List.length D)) (fun c => noise_chance e (combine D c) * f (noisy e D c v) ms (es ++ flags e D c)))%Q.
Proof.
  induction D as [|q D IH]; intros v ms es.
  - cbn [noise_ins flat_map map expected List.length words]. rewrite sum_cons, sum_nil. cbn [combine noisy]. unfold noise_chance, product, flags. cbn. rewrite app_nil_r. ring.
  - cbn [noise_ins flat_map List.length words]. fold (noise_ins (fun q => data_pauli e (Some q)) (fun q => data_erase e (Some q)) D). rewrite map_app, expected_app.
    rewrite sum_flat. rewrite exp_noise1. apply sum_ext. intros x _. rewrite IH, sum_map, <- sum_scale. apply sum_ext. intros c _.
    unfold noise_chance, product, flags. cbn [combine noisy map fold_right flat_map fst snd]. rewrite <- app_assoc. ring.
Qed.

(** Errors which cannot happen have no chance. *)
Lemma cannot e q x : ~ can e q x -> (qubit_chance e q x == 0)%Q.
Proof.
  intros H. unfold qubit_chance. destruct (data_pauli e (Some q)) eqn:EP.
  - destruct (data_erase e (Some q)) eqn:EE; [exfalso; apply H; split; congruence|]. rewrite (erase_none e q EE).
    destruct (snd x) eqn:ES; [ring|]. exfalso. apply H. split; congruence.
  - rewrite (pauli_none e q _ EP). destruct (fst x) eqn:EF; try ring.
    destruct (data_erase e (Some q)) eqn:EE; [exfalso; apply H; split; congruence|]. rewrite (erase_none e q EE).
    destruct (snd x) eqn:ES; [ring|]. exfalso. apply H. split; congruence.
Qed.
Lemma can_dec e q x : {can e q x} + {~ can e q x}.
Proof.
  unfold can. destruct (data_pauli e (Some q)), (data_erase e (Some q)).
  - left. split; congruence.
  - destruct (snd x); [right; intros [_ H]; specialize (H eq_refl); discriminate|left; split; congruence].
  - destruct (fst x); try (right; intros [H _]; specialize (H eq_refl); discriminate). left; split; congruence.
  - destruct (fst x); try (right; intros [H _]; specialize (H eq_refl); discriminate). destruct (snd x); [right; intros [_ H]; specialize (H eq_refl); discriminate|left; split; auto].
Qed.
Lemma noise_cases e : forall qc, Forall (fun qx => can e (fst qx) (snd qx)) qc \/ (noise_chance e qc == 0)%Q.
Proof.
  induction qc as [|[q x] qc [IH|IH]]; [left; constructor| |]; unfold noise_chance, product; cbn [map fold_right fst snd].
  - destruct (can_dec e q x); [left; constructor; auto|right]. rewrite (cannot e q x) by auto. ring.
  - right. unfold noise_chance, product in IH. rewrite IH. ring.
Qed.

(** What noise does to the operators which stabilise the state. *)
Lemma state_act n e q x v : q < n -> state_ok n v -> state_ok n (act e q x v).
Proof.
  intros H S. unfold act. assert (W : state_ok n (match data_pauli e (Some q) with Some _ => apply1 (mP (fst x)) q v | None => v end)) by (destruct (data_pauli e (Some q)); auto using state_ok_pauli).
  destruct (data_erase e (Some q)), (snd x); auto using state_ok_pauli.
Qed.
Lemma state_noisy n e : forall D c v, (forall q, In q D -> q < n) -> state_ok n v -> state_ok n (noisy e D c v).
Proof. induction D as [|q D IH]; intros [|x c] v H S; cbn [noisy]; auto. apply IH; [intros; apply H; right; auto|]. apply state_act; auto. apply H; left; auto. Qed.
Lemma xz_pbits P : xz P = pbits P. Proof. reflexivity. Qed.
Lemma stab_act n e q x v f s : q < n -> nz n v -> can e q x -> stab n f s v -> stab n f (xorb s (sp (f q) (error_of x))) (act e q x v).
Proof.
  intros Hq N [C1 C2] H. unfold act, error_of. rewrite sp_xor_r, <- xorb_assoc.
  assert (W : stab n f (xorb s (sp (f q) (xz (fst x)))) (match data_pauli e (Some q) with Some _ => apply1 (mP (fst x)) q v | None => v end) /\
              nz n (match data_pauli e (Some q) with Some _ => apply1 (mP (fst x)) q v | None => v end)).
  { destruct (data_pauli e (Some q)).
    - split; [apply stab_pauli; auto|apply nz_pauli; auto].
    - rewrite C1 by auto. change (xz PI) with pid. rewrite sp_pid_r, xorb_false_r. auto. }
  destruct W as [W N1]. destruct (data_erase e (Some q)), (snd x) as [R|].
  - apply stab_pauli; auto.
  - change (false, false) with pid. rewrite sp_pid_r, xorb_false_r. auto.
  - discriminate C2; auto.
  - change (false, false) with pid. rewrite sp_pid_r, xorb_false_r. auto.
Qed.
(** The error on each qubit. *)
Definition errors_at (D : list nat) (c : errs) : pfun := fun q =>
  match find (fun qx => fst qx =? q) (combine D c) with Some qx => error_of (snd qx) | None => pid end.
Lemma errors_only D c : data_only D (errors_at D c).
Proof.
  intros q H. unfold errors_at. destruct (find _ _) as [[q' x]|] eqn:E; auto. apply find_some in E as [I E]. apply in_combine_l in I. cbn in E. apply Nat.eqb_eq in E. congruence.
Qed.
Lemma stab_noisy n e f : forall D c v s, NoDup D -> List.length c = List.length D -> (forall q, In q D -> q < n) -> nz n v ->
  Forall (fun qx => can e (fst qx) (snd qx)) (combine D c) -> stab n f s v -> stab n f (xorb s (anti D f (errors_at D c))) (noisy e D c v).
Proof.
  induction D as [|q D IH]; intros [|x c] v s ND LC HD N C H; try discriminate.
  - cbn [noisy]. change (anti [] f (errors_at [] [])) with false. rewrite xorb_false_r. auto.
  - inversion ND as [|? ? NI ND']; subst. inversion C as [|? ? C1 C2]; subst. cbn [fst snd] in C1. cbn [noisy].
    assert (Hq : q < n) by (apply HD; left; auto).
    assert (A : anti (q :: D) f (errors_at (q :: D) (x :: c)) = xorb (sp (f q) (error_of x)) (anti D f (errors_at D c))).
    { change (xorb (sp (f q) (errors_at (q :: D) (x :: c) q)) (anti D f (errors_at (q :: D) (x :: c))) = xorb (sp (f q) (error_of x)) (anti D f (errors_at D c))). f_equal.
      - unfold errors_at. cbn [combine find fst]. rewrite Nat.eqb_refl. auto.
      - unfold anti. f_equal. apply map_ext_in. intros q' I. f_equal. unfold errors_at. cbn [combine find fst]. destruct (Nat.eqb_spec q q'); [congruence|]. auto. }
    rewrite A, <- xorb_assoc. apply IH; auto.
    + intros; apply HD; right; auto.
    + unfold act. assert (N1 : nz n (match data_pauli e (Some q) with Some _ => apply1 (mP (fst x)) q v | None => v end)) by (destruct (data_pauli e (Some q)); auto using nz_pauli).
      destruct (data_erase e (Some q)), (snd x); auto using nz_pauli.
    + apply stab_act; auto.
Qed.
