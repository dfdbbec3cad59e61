(** Lemmas: logical error rates of memory experiments. *)
Require Import String List Bool Arith ZArith QArith Qfield Lia Lqa.
From Verif Require Import Base BaseProofs QSpec PauliModel PauliSem PauliAlg StateSpec CircuitModel SimModel SimSpec
  LatticeModel LatticeSpec CodesModel CodesSpec GeneratorModel GeneratorSpec GeneratorProofs MemorySem MemoryTotal ExperimentProofs DistSpec DistMean DistSim
  HistorySpec HistorySums HistoryChain HistoryShow HistoryTotal DecoderModel FaultSpec RateSpec.
Import ListNotations.
Local Open Scope string_scope.
Local Open Scope nat_scope.
Local Open Scope list_scope.
Notation lsum f l := (list_sum (map f l)).

(** * Means *)
Lemma mean_compl {A} (l : list A) f : l <> [] -> (mean l (fun x => 1 - f x) == 1 - mean l f)%Q.
Proof.
  intros NE. unfold mean. assert (E : (sum_over l (fun x => 1 - f x) == inject_Z (Z.of_nat (List.length l)) - sum_over l f)%Q).
  { clear NE. induction l as [|x l IH]; [reflexivity|]. rewrite !sum_cons, IH. cbn [List.length]. rewrite Nat2Z.inj_succ, <- Z.add_1_l, inject_Z_plus. ring. }
  rewrite E. field. apply inject_nz. destruct l; [congruence|cbn; lia].
Qed.

(** * Shapes of histories *)
Lemma words_mem {A} (l : list A) : forall n x, In x (words l n) -> forall y, In y x -> In y l.
Proof.
  induction n as [|n IH]; intros x I y J; [destruct I as [<-|[]]; destruct J|]. cbn [words] in I. apply in_flat_map in I as (a & Ia & I). apply in_map_iff in I as (x' & <- & I). destruct J as [<-|J]; eauto.
Qed.
Lemma history_shape nd ns rounds h : In h (histories nd ns rounds) -> List.length h = rounds /\ Forall (fun r : round_error => List.length (fst r) = nd /\ List.length (snd r) = ns) h.
Proof.
  intros I. split; [apply (words_len _ _ _ I)|]. apply Forall_forall. intros [c f] J. apply (words_mem _ _ _ I) in J. unfold round_errors in J. apply in_prod_iff in J as [A B]. cbn [fst snd]. split; eapply words_len; eauto.
Qed.

(** * What a history shows *)
Lemma shows_history cd is e h a b c :
  List.length (c_stabs (c_ops cd)) = n_stabgens (c_ops cd) ->
  shows cd is (List.length h) (fun t q => error_of (at_qubit h t q)) (fun t q => erasure_of (at_qubit h t q)) (wrong h)
    (mkSample a b (toggle_of cd is h) c (syndrome_of cd h) (erasures_of cd e h)).
Proof.
  intros LS. split; cbn [sm_syndrome sm_toggle sm_erased].
  - unfold syndrome_of. rewrite map_length, seq_length. auto.
  - intros x I. unfold syndrome_of in I. apply in_map_iff in I as (t & <- & _). rewrite map_length, seq_length. auto.
  - intros t s Lt Ls. unfold syndrome_of. rewrite nth_map_seq0 by auto. rewrite nth_map_seq0 by lia. auto.
  - unfold toggle_of. apply map_length.
  - intros k L. unfold toggle_of. rewrite (nth_indep _ false ((fun i => fold_right xorb false (map (fun t => anti (seq 0 (n_data_qubits (c_ops cd))) (fac (nth i (c_logicals (c_ops cd)) row0)) (fun q => error_of (at_qubit h t q))) (seq 0 (List.length h)))) 0)) by (rewrite map_length; auto).
    rewrite (map_nth (fun i => fold_right xorb false (map (fun t => anti (seq 0 (n_data_qubits (c_ops cd))) (fac (nth i (c_logicals (c_ops cd)) row0)) (fun q => error_of (at_qubit h t q))) (seq 0 (List.length h))))). auto.
  - intros m E. unfold erasures_of in E. destruct (er_erasure e); congruence.
Qed.

(** * Powers *)
Lemma power_S y k : power y (S k) = (y * power y k)%Q. Proof. reflexivity. Qed.
Lemma power_add y a b : (power y (a + b) == power y a * power y b)%Q.
Proof. induction a as [|a IH]; [cbn [plus]; change (power y 0) with 1%Q; ring|]. cbn [plus]. rewrite !power_S, IH. ring. Qed.
Lemma power_ge1 y k : (1 <= y)%Q -> (1 <= power y k)%Q.
Proof. intros H. induction k as [|k IH]; [discriminate|]. rewrite power_S. nra. Qed.
Lemma power_mono y a b : (1 <= y)%Q -> a <= b -> (power y a <= power y b)%Q.
Proof. intros H L. replace b with (a + (b - a)) by lia. rewrite power_add. assert (A := power_ge1 y a H). assert (B := power_ge1 y (b - a) H). nra. Qed.
Lemma power_sum {A} y (f : A -> nat) l : (power y (lsum f l) == product (map (fun x => power y (f x)) l))%Q.
Proof. induction l as [|x l IH]; [reflexivity|]. unfold product. cbn [map list_sum fold_right]. rewrite power_add. fold (product (map (fun x => power y (f x)) l)). rewrite <- IH. reflexivity. Qed.
Lemma product_mult {A} (f g : A -> Q) l : (product (map f l) * product (map g l) == product (map (fun x => f x * g x) l))%Q.
Proof. induction l as [|x l IH]; [reflexivity|]. unfold product in *. cbn [map fold_right]. rewrite <- IH. ring. Qed.
Lemma product_ext {A} (f g : A -> Q) l : (forall x, In x l -> (f x == g x)%Q) -> (product (map f l) == product (map g l))%Q.
Proof. induction l as [|x l IH]; intros H; [reflexivity|]. unfold product in *. cbn [map fold_right]. rewrite IH by (intros; apply H; right; auto). rewrite (H x) by (left; auto). reflexivity. Qed.

(** * Numbers of faults *)
Definition bits_faults (allow : pauli1 -> bool) (f : bool * bool) : nat := List.length (filter (fun p => allow p && error_part p f) [PX; PZ]).
Definition round_faults (allow : pauli1 -> bool) (c : list qubit_error) : nat := lsum (fun x => bits_faults allow (error_of x)) c.
Definition result_faults (side : nat -> bool) (f : list bool) : nat := lsum (fun sb => if side (fst sb) && snd sb then 1 else 0) (combine (seq 0 (List.length f)) f).
Fixpoint faults (allow : pauli1 -> bool) (side : nat -> bool) (h : history) : nat :=
  match h with
  | [] => 0
  | r :: h' => round_faults allow (fst r) + match h' with [] => 0 | _ => result_faults side (snd r) end + faults allow side h'
  end.
Lemma sum_nth {A} (f : A -> nat) d l : lsum (fun i => f (nth i l d)) (seq 0 (List.length l)) = lsum f l.
Proof.
  f_equal. transitivity (map f (map (fun i => nth i l d) (seq 0 (List.length l)))); [rewrite map_map; auto|]. f_equal.
  induction l as [|a l IH]; [auto|]. cbn [List.length seq map nth]. f_equal. rewrite <- seq_shift, map_map. exact IH.
Qed.
Lemma sum_comb (side : nat -> bool) d f : forall k, lsum (fun s => if side (k + s) && nth s f d then 1 else 0) (seq 0 (List.length f)) = lsum (fun sb : nat * bool => if side (fst sb) && snd sb then 1 else 0) (combine (seq k (List.length f)) f).
Proof.
  induction f as [|b f IH]; intros k; [auto|]. cbn [List.length seq map nth combine fst snd list_sum fold_right]. rewrite Nat.add_0_r. f_equal.
  rewrite <- seq_shift, map_map. specialize (IH (S k)). unfold list_sum in IH. rewrite <- IH. f_equal. apply map_ext. intros s. cbn [nth]. replace (S k + s) with (k + S s) by lia. auto.
Qed.
Lemma lsum_ext {A} (f g : A -> nat) l : (forall x, In x l -> f x = g x) -> lsum f l = lsum g l.
Proof. intros H. f_equal. apply map_ext_in. auto. Qed.
Lemma lsum_plus {A} (f g : A -> nat) l : lsum (fun x => f x + g x) l = lsum f l + lsum g l.
Proof. induction l as [|x l IH]; [auto|]. cbn [map list_sum fold_right]. unfold list_sum in *. lia. Qed.
Lemma lsum_if {A} (b : bool) (f : A -> nat) l : lsum (fun x => if b then f x else 0) l = if b then lsum f l else 0.
Proof. destruct b; auto. induction l as [|x l IH]; auto. Qed.
(** The price without erasures. *)
Lemma price_faults ca nd ns gens allow side h : List.length gens = ns -> Forall (fun r : round_error => List.length (fst r) = nd /\ List.length (snd r) = ns) h ->
  total_price ca 1 (List.length h) nd gens allow side None (fun t q => error_of (at_qubit h t q)) (wrong h) = ca * faults allow side h.
Proof.
  intros LG F. unfold total_price. rewrite LG.
  assert (A : forall p, lsum (fun t => lsum (price ca 1 nd gens None (fun t q => error_of (at_qubit h t q)) p t) (seq 0 nd)) (seq 0 (List.length h)) =
    ca * lsum (fun r : round_error => lsum (fun x => if error_part p (error_of x) then 1 else 0) (fst r)) h).
  { intros p. rewrite <- (sum_nth (fun r : round_error => lsum (fun x => if error_part p (error_of x) then 1 else 0) (fst r)) ([], []) h).
    assert (S3 : forall {B} (g : B -> nat) l, ca * lsum g l = lsum (fun x => ca * g x) l) by (intros B g l; induction l as [|z l IH]; [cbn; lia|]; cbn [map list_sum fold_right] in *; unfold list_sum in *; lia).
    rewrite S3. apply lsum_ext. intros t It. apply in_seq in It. rewrite S3.
    assert (LR : List.length (fst (at_round h t)) = nd) by (rewrite Forall_forall in F; apply F, nth_In; lia).
    rewrite <- S3. fold (at_round h t). rewrite <- (sum_nth (fun x => if error_part p (error_of x) then 1 else 0) (PI, None) (fst (at_round h t))). rewrite LR, S3. apply lsum_ext. intros q _.
    unfold price, erased. fold (at_qubit h t q). destruct (error_part p (error_of (at_qubit h t q))); lia. }
  assert (B : lsum (fun t => lsum (fun s => if side s && wrong h t s then ca else 0) (seq 0 ns)) (seq 0 (List.length h)) = ca * lsum (fun r : round_error => result_faults side (snd r)) (removelast h)).
  { clear A. destruct h as [|r0 h0]; [cbn; lia|]. cbn [List.length seq map list_sum fold_right wrong]. rewrite (lsum_ext _ (fun _ => 0) (seq 0 ns)) by (intros; rewrite andb_false_r; auto).
    assert (Z0 : forall l : list nat, lsum (fun _ => 0) l = 0) by (induction l; auto). rewrite Z0. cbn [plus]. rewrite <- seq_shift, map_map.
    assert (LL : List.length h0 = List.length (removelast (r0 :: h0))) by (clear; revert r0; induction h0 as [|r h IH]; intros r0; [auto|]; cbn [removelast List.length] in *; rewrite (IH r); destruct h; auto).
    rewrite LL. rewrite <- (sum_nth (fun r : round_error => result_faults side (snd r)) ([], []) (removelast (r0 :: h0))).
    assert (S3 : forall {B} (g : B -> nat) l, ca * lsum g l = lsum (fun x => ca * g x) l) by (intros B g l; induction l as [|z l IH]; [cbn; lia|]; cbn [map list_sum fold_right] in *; unfold list_sum in *; lia).
    rewrite S3. apply lsum_ext. intros t It. apply in_seq in It. cbn [wrong].
    assert (RT : nth t (removelast (r0 :: h0)) ([], []) = at_round (r0 :: h0) t).
    { unfold at_round. rewrite (app_removelast_last ([], []) (l := r0 :: h0)) at 2 by discriminate. rewrite app_nth1 by lia. auto. }
    rewrite RT. assert (LR : List.length (snd (at_round (r0 :: h0) t)) = ns) by (rewrite Forall_forall in F; apply F, nth_In; cbn [List.length]; lia).
    unfold result_faults. rewrite <- (sum_comb side false (snd (at_round (r0 :: h0) t)) 0), LR, S3. apply lsum_ext. intros s _. cbn [plus]. destruct (side s && _); lia. }
  rewrite B. clear B.
  assert (C : lsum (fun p => lsum (fun t => lsum (price ca 1 nd gens None (fun t q => error_of (at_qubit h t q)) p t) (seq 0 nd)) (seq 0 (List.length h))) (filter allow [PX; PZ]) =
    ca * lsum (fun r : round_error => round_faults allow (fst r)) h).
  { transitivity (ca * ((if allow PX then lsum (fun r : round_error => lsum (fun x => if error_part PX (error_of x) then 1 else 0) (fst r)) h else 0) +
      (if allow PZ then lsum (fun r : round_error => lsum (fun x => if error_part PZ (error_of x) then 1 else 0) (fst r)) h else 0))).
    - cbn [filter]. destruct (allow PX), (allow PZ); cbn [map list_sum fold_right]; rewrite ?A; lia.
    - f_equal. rewrite <- !lsum_if, <- lsum_plus. apply lsum_ext. intros r _. unfold round_faults. rewrite <- !lsum_if, <- lsum_plus. apply lsum_ext. intros x _. unfold bits_faults. cbn [filter].
      destruct (allow PX), (allow PZ), (error_part PX (error_of x)), (error_part PZ (error_of x)); auto. }
  rewrite C. clear. induction h as [|r h IH]; [cbn; lia|]. cbn [faults]. destruct h as [|r' h]; [cbn [removelast map list_sum fold_right faults] in *; unfold list_sum in *; cbn in *; lia|].
  change (removelast (r :: r' :: h)) with (r :: removelast (r' :: h)). cbn [map list_sum fold_right] in *. unfold list_sum in *. lia.
Qed.

(** * The mean of a power of the number of faults *)
Section Factor.
Context (e : errors) (allow : pauli1 -> bool) (side : nat -> bool) (y : Q) (nd ns : nat).
Definition qubit_sum (q : nat) : Q := sum_over qubit_errors (fun x => qubit_chance e q x * power y (bits_faults allow (error_of x)))%Q.
Definition result_sum (s : nat) : Q := if side s then result_factor e y (nd + s) else 1%Q.
Lemma round_sum (last : bool) :
  (sum_over (round_errors nd ns) (fun r => round_chance e nd ns last r * power y (round_faults allow (fst r) + if last then 0 else result_faults side (snd r))) ==
   product (map qubit_sum (seq 0 nd)) * if last then 1 else product (map result_sum (seq 0 ns)))%Q.
Proof.
  unfold round_errors. etransitivity; [apply (sum_prod (words qubit_errors nd) (words [false; true] ns))|]. unfold round_chance. cbn [fst snd].
  assert (F : (sum_over (words [false; true] ns) (fun w => product (map (fun ab => flip_chance (if last then 0 else flip_prob e (fst ab)) (snd ab)) (combine (seq nd ns) w)) * power y (if last then O else result_faults side w)) ==
    if last then 1 else product (map result_sum (seq 0 ns)))%Q).
  { destruct last.
    - transitivity (sum_over (words [false; true] ns) (fun w => product (map (fun ab => flip_chance 0 (snd ab)) (combine (seq nd ns) w)))); [apply sum_ext; intros; unfold power at 1; cbn [repeat product fold_right]; unfold product; cbn [fold_right]; ring|].
      rewrite <- (seq_length ns nd) at 1. rewrite (sum_words [false; true] (fun a b => flip_chance 0 b)). apply product_one. intros a _. rewrite !sum_cons, sum_nil. unfold flip_chance. ring.
    - transitivity (sum_over (words [false; true] (List.length (seq 0 ns))) (fun w => product (map (fun sb => (fun s b => flip_chance (flip_prob e (nd + s)) b * power y (if side s && b then 1%nat else 0%nat)) (fst sb) (snd sb)) (combine (seq 0 ns) w)))%Q).
      + rewrite seq_length. apply sum_ext. intros w Iw. apply words_len in Iw. unfold result_faults. rewrite Iw, power_sum. 
        assert (E : forall k, (product (map (fun ab => flip_chance (flip_prob e (fst ab)) (snd ab)) (combine (seq (nd + k) ns) w)) == product (map (fun sb => flip_chance (flip_prob e (nd + fst sb)) (snd sb)) (combine (seq k ns) w)))%Q).
        { clear -Iw. revert w Iw. induction ns as [|n IH]; intros [|b w] L k; try discriminate; [reflexivity|]. unfold product in *. cbn [seq combine map fold_right fst snd]. rewrite <- (IH w ltac:(cbn in L; lia) (S k)). replace (nd + S k) with (S (nd + k)) by lia. reflexivity. }
        specialize (E 0). rewrite Nat.add_0_r in E. rewrite E, product_mult. reflexivity.
      + rewrite (sum_words [false; true] (fun s b => (flip_chance (flip_prob e (nd + s)) b * power y (if side s && b then 1%nat else 0%nat))%Q)). apply product_ext. intros s _. unfold result_sum, result_factor. rewrite !sum_cons, sum_nil. unfold flip_chance.
        destruct (side s); cbn [andb]; unfold power, product; cbn [repeat fold_right]; ring. }
  assert (W : (sum_over (words qubit_errors nd) (fun w => product (map (fun qx => qubit_chance e (fst qx) (snd qx)) (combine (seq 0 nd) w)) * power y (round_faults allow w)) == product (map qubit_sum (seq 0 nd)))%Q).
  { unfold qubit_sum. rewrite <- (sum_words qubit_errors (fun q x => qubit_chance e q x * power y (bits_faults allow (error_of x)))%Q (seq 0 nd)). rewrite seq_length. apply sum_ext. intros w Iw. apply words_len in Iw.
    unfold round_faults. rewrite power_sum. rewrite <- product_mult. apply Qmult_comp; [reflexivity|].
    transitivity (product (map (fun x => power y (bits_faults allow (error_of x))) (map snd (combine (seq 0 nd) w)))); [|rewrite map_map; reflexivity].
    assert (E : map snd (combine (seq 0 nd) w) = w) by (clear -Iw; generalize 0; revert w Iw; induction nd as [|n IH]; intros [|b w] L k; try discriminate; cbn [seq combine map snd]; [auto|f_equal; apply IH; cbn in L; lia]).
    rewrite E. reflexivity. }
  rewrite <- W. rewrite Qmult_comm, <- sum_scale. apply sum_ext. intros w _. rewrite <- F.
  rewrite <- (Qmult_comm (_ * _)), <- sum_scale. apply sum_ext. intros v _. rewrite power_add. ring.
Qed.
Lemma history_sum : forall rounds,
  (sum_over (histories nd ns rounds) (fun h => history_chance e nd ns h * power y (faults allow side h)) ==
   power (product (map qubit_sum (seq 0 nd))) rounds * power (product (map result_sum (seq 0 ns))) (rounds - 1))%Q.
Proof.
  unfold histories. induction rounds as [|r IH]; [cbn [words]; rewrite sum_cons, sum_nil; cbn [history_chance faults]; unfold power, product; cbn; ring|].
  cbn [words]. rewrite sum_flat.
  assert (RS := round_sum (match r with O => true | _ => false end)).
  transitivity (sum_over (round_errors nd ns) (fun x => sum_over (words (round_errors nd ns) r) (fun h => history_chance e nd ns h * power y (faults allow side h)) *
     (round_chance e nd ns (match r with O => true | _ => false end) x * power y (round_faults allow (fst x) + if match r with O => true | _ => false end then 0%nat else result_faults side (snd x)))))%Q.
  - apply sum_ext. intros x _. rewrite sum_map. rewrite Qmult_comm, <- sum_scale. apply sum_ext. intros h Ih. apply words_len in Ih. cbn [history_chance faults].
    destruct h, r; try discriminate; rewrite !power_add; ring.
  - rewrite sum_scale, RS, IH. rewrite power_S. destruct r as [|r]; [cbn [Nat.sub]; ring|]. replace (S (S r) - 1) with (S (S r - 1)) by lia. rewrite (power_S _ (S r - 1)). ring.
Qed.
Lemma qubit_sum_factor q : er_erasure e = [] -> (qubit_sum q == qubit_factor e allow y q)%Q.
Proof.
  intros EE. unfold qubit_sum, qubit_factor. rewrite sum_errors. apply sum_ext. intros P _.
  assert (Z : (sum_over letters (fun R => qubit_chance e q (P, Some R) * power y (bits_faults allow (error_of (P, Some R)))) == 0)%Q).
  { unfold letters. rewrite !sum_cons, !sum_nil. unfold qubit_chance, erase_prob. rewrite EE. cbn [get1 find fst snd]. ring. }
  rewrite Z. unfold qubit_chance, erase_prob. rewrite EE. cbn [get1 find fst snd].
  unfold error_of. cbn [fst snd]. assert (E : pxor (xz P) (false, false) = xz P) by (destruct P; auto). rewrite E. unfold letter_faults, bits_faults. ring.
Qed.
End Factor.
