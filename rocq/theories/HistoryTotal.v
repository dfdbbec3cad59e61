(** Lemmas: the chances of all histories. *)
Require Import String List Bool Arith ZArith QArith Qfield Lia Lqa.
From Verif Require Import Base BaseProofs QSpec PauliModel PauliSem PauliAlg StateSpec CircuitModel SimSpec
  LatticeModel LatticeSpec CodesModel CodesSpec GeneratorModel GeneratorSpec GeneratorProofs MemoryTotal DistSpec DistMean DistSim HistorySpec HistorySums HistoryChain HistoryShow.
Import ListNotations.
Local Open Scope string_scope.
Local Open Scope nat_scope.
Local Open Scope list_scope.

(** * Sums over words *)
Lemma sum_words {A} (l : list A) (g : nat -> A -> Q) : forall ks,
  (sum_over (words l (List.length ks)) (fun w => product (map (fun qx => g (fst qx) (snd qx)) (combine ks w))) == product (map (fun k => sum_over l (g k)) ks))%Q.
Proof.
  induction ks as [|k ks IH].
  - cbn [List.length words]. rewrite sum_cons, sum_nil. cbn [combine map product fold_right]. unfold product. cbn. ring.
  - cbn [List.length words]. rewrite sum_flat. cbn [map]. unfold product at 2. cbn [fold_right]. fold (product (map (fun k => sum_over l (g k)) ks)). rewrite <- IH. clear IH.
    induction l as [|x l IHl]; [rewrite !sum_nil; ring|]. clear IHl.
    transitivity (sum_over (x :: l) (fun y => sum_over (words (x :: l) (List.length ks)) (fun w => product (map (fun qx => g (fst qx) (snd qx)) (combine ks w))) * g k y))%Q.
    + apply sum_ext. intros y _. rewrite sum_map. rewrite (Qmult_comm _ (g k y)), <- sum_scale. apply sum_ext. intros w _. unfold product. cbn [combine map fold_right fst snd]. ring.
    + rewrite sum_scale. ring.
Qed.
Lemma product_one {A} (f : A -> Q) l : (forall x, In x l -> (f x == 1)%Q) -> (product (map f l) == 1)%Q.
Proof.
  induction l as [|x l IH]; intros H; [reflexivity|]. unfold product. cbn [map fold_right]. fold (product (map f l)). rewrite IH by (intros; apply H; right; auto). rewrite (H x) by (left; auto). ring.
Qed.
Lemma product_nonneg {A} (f : A -> Q) l : (forall x, In x l -> (0 <= f x)%Q) -> (0 <= product (map f l))%Q.
Proof.
  induction l as [|x l IH]; intros H; [discriminate|]. unfold product. cbn [map fold_right]. fold (product (map f l)). apply Qmult_le_0_compat; [apply H; left; auto|]. apply IH. intros; apply H; right; auto.
Qed.
Lemma product_zero {A} (f : A -> Q) l x : In x l -> (f x == 0)%Q -> (product (map f l) == 0)%Q.
Proof.
  induction l as [|y l IH]; intros I E; [destruct I|]. unfold product. cbn [map fold_right]. fold (product (map f l)). destruct I as [<-|I]; [rewrite E; ring|]. rewrite IH by auto. ring.
Qed.
Lemma sum_nonneg {A} (l : list A) f : (forall x, In x l -> (0 <= f x)%Q) -> (0 <= sum_over l f)%Q.
Proof.
  induction l as [|x l IH]; intros H; [discriminate|]. rewrite sum_cons. assert (A1 := H x (or_introl eq_refl)). assert (A2 : (0 <= sum_over l f)%Q) by (apply IH; intros; apply H; right; auto). lra.
Qed.
Lemma sum_le {A} (l : list A) f g : (forall x, In x l -> (f x <= g x)%Q) -> (sum_over l f <= sum_over l g)%Q.
Proof.
  induction l as [|x l IH]; intros H; [rewrite !sum_nil; lra|]. rewrite !sum_cons. assert (A1 := H x (or_introl eq_refl)). assert (A2 : (sum_over l f <= sum_over l g)%Q) by (apply IH; intros; apply H; right; auto). lra.
Qed.
Lemma sum_red {A} (l : list A) f : (sum_over l f == fold_right (fun x s => Qred (f x + s)) 0 l)%Q.
Proof. induction l as [|x l IH]; [reflexivity|]. rewrite sum_cons, IH. cbn [fold_right]. rewrite Qred_correct. reflexivity. Qed.
Lemma sum_filter {A} (p : A -> bool) (l : list A) f : (sum_over (filter p l) f == sum_over l (fun x => if p x then f x else 0))%Q.
Proof. induction l as [|x l IH]; [reflexivity|]. cbn [filter]. rewrite sum_cons. destruct (p x); [rewrite sum_cons, IH; reflexivity|rewrite IH; ring]. Qed.

(** * All chances *)
Lemma qubit_total e q : (sum_over qubit_errors (qubit_chance e q) == 1)%Q.
Proof.
  rewrite sum_errors. unfold qubit_chance, letters. rewrite !sum_cons, !sum_nil. cbn [fst snd].
  assert (P : (pauli_prob e q PI + pauli_prob e q PX + pauli_prob e q PY + pauli_prob e q PZ == 1)%Q) by (unfold pauli_prob; destruct (get1 (er_pauli e) (Some q)); ring).
  transitivity (pauli_prob e q PI + pauli_prob e q PX + pauli_prob e q PY + pauli_prob e q PZ)%Q; [ring|exact P].
Qed.
Lemma round_total e nd ns last : (sum_over (round_errors nd ns) (round_chance e nd ns last) == 1)%Q.
Proof.
  unfold round_errors. etransitivity; [apply (sum_prod (words qubit_errors nd) (words [false; true] ns) (round_chance e nd ns last))|]. unfold round_chance. cbn [fst snd].
  assert (F : (sum_over (words [false; true] ns) (fun w => product (map (fun ab => flip_chance (if last then 0 else flip_prob e (fst ab)) (snd ab)) (combine (seq nd ns) w))) == 1)%Q).
  { rewrite <- (seq_length ns nd) at 1. rewrite (sum_words [false; true] (fun a b => flip_chance (if last then 0 else flip_prob e a) b)). apply product_one. intros a _.
    rewrite !sum_cons, sum_nil. unfold flip_chance. destruct last; ring. }
  assert (W : (sum_over (words qubit_errors nd) (fun w => product (map (fun qx => qubit_chance e (fst qx) (snd qx)) (combine (seq 0 nd) w))) == 1)%Q).
  { rewrite <- (seq_length nd 0) at 1. rewrite (sum_words qubit_errors (qubit_chance e)). apply product_one. intros a _. apply qubit_total. }
  rewrite <- W. apply sum_ext. intros w _. rewrite sum_scale, F. ring.
Qed.
Lemma history_total e nd ns : forall rounds, (sum_over (histories nd ns rounds) (history_chance e nd ns) == 1)%Q.
Proof.
  unfold histories. induction rounds as [|r IH]; cbn [words]; [rewrite sum_cons, sum_nil; cbn [history_chance]; ring|].
  rewrite sum_flat. rewrite <- (round_total e nd ns (match r with O => true | _ => false end)). apply sum_ext. intros x _. rewrite sum_map.
  transitivity (sum_over (words (round_errors nd ns) r) (fun h => round_chance e nd ns (match r with O => true | _ => false end) x * history_chance e nd ns h))%Q.
  - apply sum_ext. intros h Ih. apply words_len in Ih. cbn [history_chance]. destruct h, r; try discriminate; reflexivity.
  - rewrite sum_scale, IH. ring.
Qed.

(** * Signs *)
Lemma unit_pget k p : (forall k x, In (k, x) p -> 0 <= x <= 1)%Q -> (0 <= pget k p <= 1)%Q.
Proof.
  intros H. unfold pget. destruct (find (fun kv : string * Q => String.eqb (fst kv) k) p) as [[k' y]|] eqn:E; [|split; discriminate]. apply find_some in E as [I _]. apply (H k' y I).
Qed.
Lemma grid_unit N e : on_grid_errors N e -> unit_errors e.
Proof. intros (A & B & C). repeat split; try (eapply A; eauto; fail); try (eapply B; eauto; fail); try (eapply C; eauto; fail). Qed.
Lemma unit_grid e : unit_errors e -> exists N, on_grid_errors N e.
Proof.
  intros (A & B & C). set (vals := fun d : dict1 => flat_map (fun kp => map snd (snd kp)) d).
  assert (IV : forall (d : dict1) x, In x (vals d) <-> exists q p k, In (q, p) d /\ In (k, x) p).
  { intros d x. unfold vals. rewrite in_flat_map. split.
    - intros ([q p] & I & J). cbn [snd] in J. apply in_map_iff in J as ([k y] & E & J). cbn in E. subst y. eauto.
    - intros (q & p & k & I & J). exists (q, p). split; auto. cbn [snd]. apply (in_map snd) in J. auto. }
  destruct (common_grid (vals (er_pauli e) ++ vals (er_erasure e) ++ vals (er_measurement e))) as (N & G).
  - apply Forall_forall. intros x I. apply in_app_iff in I as [I|I]; [|apply in_app_iff in I as [I|I]]; apply IV in I as (q & p & k & I & J); eauto.
  - exists N. rewrite Forall_forall in G. repeat split; try (apply (G x); rewrite !in_app_iff, !IV; eauto 10).
    all: intros; apply G; rewrite !in_app_iff, !IV; eauto 10.
Qed.
Section Signs.
Context (e : errors) (U : unit_errors e) (PR : probabilities e).
Lemma erase_unit q : (0 <= erase_prob e q <= 1)%Q.
Proof. destruct U as (_ & U2 & _). unfold erase_prob. destruct (get1 (er_erasure e) (Some q)) as [p|] eqn:E; [|split; discriminate]. apply get1_in in E as (z & I). apply unit_pget. intros k x J. apply (U2 _ _ _ _ I J). Qed.
Lemma flip_unit q : (0 <= flip_prob e q <= 1)%Q.
Proof. destruct U as (_ & _ & U3). unfold flip_prob. destruct (get1 (er_measurement e) (Some q)) as [p|] eqn:E; [|split; discriminate]. apply get1_in in E as (z & I). apply unit_pget. intros k x J. apply (U3 _ _ _ _ I J). Qed.
Lemma pauli_nonneg q P : (0 <= pauli_prob e q P)%Q.
Proof.
  unfold pauli_prob. destruct (get1 (er_pauli e) (Some q)) as [p|] eqn:E; [|destruct P; discriminate]. apply get1_in in E as (z & I). destruct (pr_pauli _ PR _ _ I) as [A B].
  assert (Ax := A "x" ltac:(cbn; tauto)). assert (Ay := A "y" ltac:(cbn; tauto)). assert (Az := A "z" ltac:(cbn; tauto)). cbn [map] in B. unfold qsum in B. cbn [fold_right] in B. destruct P; lra.
Qed.
Lemma qubit_nonneg q x : (0 <= qubit_chance e q x)%Q.
Proof.
  unfold qubit_chance. apply Qmult_le_0_compat; [apply pauli_nonneg|]. assert (H := erase_unit q). destruct (snd x); lra.
Qed.
Lemma round_nonneg nd ns last r : (0 <= round_chance e nd ns last r)%Q.
Proof.
  unfold round_chance. apply Qmult_le_0_compat; apply product_nonneg; intros [a y] _; cbn [fst snd]; [apply qubit_nonneg|].
  assert (H := flip_unit a). unfold flip_chance. destruct last, y; lra.
Qed.
Lemma history_nonneg nd ns : forall h, (0 <= history_chance e nd ns h)%Q.
Proof. induction h as [|r h IH]; [discriminate|]. cbn [history_chance]. apply Qmult_le_0_compat; [apply round_nonneg|auto]. Qed.
End Signs.
(** Wrong results in the last round have no chance. *)
Lemma last_perfect e nd ns : forall h s, s < ns -> Forall (fun r : round_error => List.length (snd r) = ns) h -> wrong h (List.length h) s = true -> (history_chance e nd ns h == 0)%Q.
Proof.
  induction h as [|r h IH]; intros s Hs F W; [discriminate|]. inversion F as [|? ? F1 F2]; subst. cbn [history_chance]. destruct h as [|r' h].
  - assert (Z : (round_chance e nd (List.length (snd r)) true r == 0)%Q); [|rewrite Z; ring]. unfold round_chance.
    cbn [List.length wrong] in W. unfold at_round in W. cbn [nth] in W.
    rewrite (product_zero (fun ab : nat * bool => flip_chance 0 (snd ab)) _ (nd + s, true)); [ring| |reflexivity].
    assert (E : nth s (combine (seq nd (List.length (snd r))) (snd r)) (0, false) = (nd + s, true)) by (rewrite combine_nth by apply seq_length; rewrite seq_nth, W by auto; auto).
    rewrite <- E. apply nth_In. rewrite combine_length, seq_length. lia.
  - assert (Z : (history_chance e nd (List.length (snd r)) (r' :: h) == 0)%Q); [|rewrite Z; ring]. apply (IH s); auto.
Qed.
