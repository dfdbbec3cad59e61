(** Lemmas: expected values over the circuits of memory experiments. *)
Require Import String List Bool Arith ZArith QArith Qfield Lia Lqa.
From Verif Require Import Base BaseProofs QSpec PauliModel PauliSem PauliProofs PauliAlg TableauProofs MeasureProofs StateSpec GateProofs
  StateProofs CircuitModel SimSpec SimModel SimProofs LatticeModel LatticeSpec StabTrack RoundProofs MemoryProofs DistSpec DistMean DistSim HistorySpec.
Import ListNotations.
Local Open Scope string_scope.
Local Open Scope nat_scope.
Local Open Scope list_scope.

(** * States described by a tableau *)
Definition state_ok (n : nat) (v : vec) : Prop := exists t, wf n t /\ describes n t v /\ nz n v.
Lemma state_ok_nz n v : state_ok n v -> nz n v. Proof. intros (t & _ & _ & H). auto. Qed.
Lemma state_ok_ket0 n : state_ok n ket0.
Proof. exists (zero_state n). split; [apply zero_state_wf|split; [apply zero_state_describes|apply nz_ket0]]. Qed.
Lemma state_ok_h n q v : q < n -> state_ok n v -> state_ok n (apply1 mH q v).
Proof.
  intros Hq (t & W & D & N). exists (map (h_row q) t). split; [|split].
  - apply gate_wf; auto. apply TableauProofs.h_len. apply h_symp; auto.
  - apply (gate_describes n _ _ (apply1 mH q)); auto. intros; apply apply1_ext; auto. intros; apply h_conj; auto.
  - apply nz_h; auto.
Qed.
Lemma state_ok_pauli n P q v : q < n -> state_ok n v -> state_ok n (apply1 (mP P) q v).
Proof.
  intros Hq (t & W & D & N).
  destruct (api_run n ltac:(lia) (mkSim t [] [] false false false 0) q (code P) v) as (s' & _ & I & _); auto.
  - split; auto.
  - destruct P; cbn; lia.
  - rewrite letter_of in I. exists (s_st s'). exact I.
Qed.
Lemma state_ok_c n p a d v : a < n -> d < n -> a <> d -> state_ok n v -> state_ok n (apply2 (cgate p) a d v).
Proof.
  intros Ha Hd Had (t & W & D & N). destruct p; cbn [cgate].
  - exists (map (cx_row a d) t). split; [|split].
    + apply gate_wf; auto. apply cx_len. apply cx_symp; auto.
    + apply (gate_describes n _ _ (apply2 mCX a d)); auto. intros; apply apply2_ext; auto. intros; apply cx_conj; auto.
    + apply nz_cx; auto.
  - exists (map (cz_row a d) t). split; [|split].
    + apply gate_wf; auto. apply cz_len. apply cz_symp; auto.
    + apply (gate_describes n _ _ (apply2 mCZ a d)); auto. intros; apply apply2_ext; auto. intros; apply cz_conj; auto.
    + apply nz_cz; auto.
  - exists (map (cz_row a d) t). split; [|split].
    + apply gate_wf; auto. apply cz_len. apply cz_symp; auto.
    + apply (gate_describes n _ _ (apply2 mCZ a d)); auto. intros; apply apply2_ext; auto. intros; apply cz_conj; auto.
    + apply nz_cz; auto.
Qed.

Lemma ratio_inv a b k : b <> 0%Z -> (inject_Z a / inject_Z (4 * b) == k)%Q -> (inject_Z a == k * inject_Z (4 * b))%Q.
Proof. intros H E. rewrite <- E. field. rewrite inject_Z_mult. intros X. apply Qmult_integral in X. destruct X as [X|X]; [discriminate|]. apply H. unfold Qeq in X. cbn in X. lia. Qed.
Lemma born_one n P m v : nz n v -> (born n P m v == 1)%Q -> norm2 n (project P m v) = (4 * norm2 n v)%Z.
Proof. intros N E. apply ratio_inv in E; auto. rewrite Qmult_1_l in E. unfold Qeq in E. cbn [inject_Z Qnum Qden] in E. lia. Qed.
Lemma born_half n P m v : nz n v -> (born n P m v == 1 # 2)%Q -> (2 * norm2 n (project P m v) = 4 * norm2 n v)%Z.
Proof. intros N E. apply ratio_inv in E; auto. unfold Qeq, Qmult in E. cbn [inject_Z Qnum Qden] in E. lia. Qed.

(** A measurement: the chances sum to one, and outcomes with a chance are outcomes. *)
Lemma sum_born n q v (F : bool -> Q) c : q < n -> state_ok n v ->
  (forall m, outcome n (single n false PZ q) m v -> state_ok n (project (single n false PZ q) m v) -> (F m == c)%Q) ->
  (sum_over [false; true] (fun m => born n (single n false PZ q) m v * F m) == c)%Q.
Proof.
  intros Hq (t & W & D & N) H. rewrite !sum_cons, sum_nil.
  destruct (measure_cases n ltac:(lia) t v q 0 W D N Hq) as [(m & _ & B1 & B0 & D1 & N1)|(tf & _ & X)].
  - assert (E : (F m == c)%Q).
    { apply H; [|exists t; auto]. split; [exact N1|]. left. apply born_one; auto. }
    destruct m; cbn [negb] in B0; rewrite B0, B1, E; ring.
  - assert (E : forall m, (F m == c)%Q).
    { intros m. destruct (X m) as (Bh & W1 & D1 & N1). apply H; [|exists (tf m); auto]. split; [exact N1|]. right. intros m'. apply born_half; auto. apply X. }
    destruct (X false) as (-> & _). destruct (X true) as (-> & _). rewrite !E. ring.
Qed.

(** * Instructions as items of circuits *)
Definition item_of (i : ins) : item :=
  match i with IFlip p q => Block (mkBranch p ("X", [qa q]) []) [] | _ => Plain (ins_gate i) end.
Lemma text_items is : text (map item_of is) = map ins_gate is.
Proof. induction is as [|i is IH]; auto. cbn [map text flat_map]. fold (text (map item_of is)). rewrite IH. destruct i; auto. Qed.
Lemma expected_app n : forall l l' f, expected n (l ++ l') f = expected n l (expected n l' f).
Proof. induction l as [|it l IH]; intros l' f; auto. destruct it; cbn [app expected]; rewrite IH; auto. Qed.

(** What each instruction does to expected values. *)
Lemma qubits_one q : qubits [qa q] = [q]. Proof. apply (qubits_qa [q]). Qed.
Lemma qubits_two a d : qubits [qa a; qa d] = [a; d]. Proof. apply (qubits_qa [a; d]). Qed.
Lemma exp_IHd n q f : mean_gate n (ins_gate (IHd q)) f = fun v ms es => f (apply1 mH q v) ms es.
Proof. unfold mean_gate. cbn [ins_gate]. rewrite qubits_one. reflexivity. Qed.
Lemma exp_IC n p a d f : mean_gate n (ins_gate (IC p a d)) f = fun v ms es => f (apply2 (cgate p) a d v) ms es.
Proof. unfold mean_gate. cbn [ins_gate]. rewrite qubits_two. destruct p; reflexivity. Qed.
Lemma exp_IM n q f : mean_gate n (ins_gate (IM q)) f = fun v ms es =>
  sum_over [false; true] (fun m => born n (single n false PZ q) m v * f (project (single n false PZ q) m v) (ms ++ [m]) es)%Q.
Proof. unfold mean_gate. cbn [ins_gate]. rewrite qubits_one. reflexivity. Qed.
Lemma exp_IR n q f : mean_gate n (ins_gate (IR q)) f = fun v ms es =>
  sum_over [false; true] (fun m => born n (single n false PZ q) m v * f (let w := project (single n false PZ q) m v in if m then apply1 mX q w else w) ms es)%Q.
Proof. unfold mean_gate. cbn [ins_gate]. rewrite qubits_one. reflexivity. Qed.
Lemma exp_IPauli n x y z q f : mean_gate n (ins_gate (IPauli x y z q)) f = fun v ms es =>
  sum_over letters (fun P => prob_k [x; y; z] (code P) * f (apply1 (mP P) q v) ms es)%Q.
Proof. unfold mean_gate. cbn [ins_gate]. cbn [skipn firstn map number]. rewrite qubits_one. reflexivity. Qed.
Lemma exp_IErase n p q f : mean_gate n (ins_gate (IErase p q)) f = fun v ms es =>
  (p * sum_over letters (fun P => (1 # 4) * f (apply1 (mP P) q v) ms (es ++ [true])) + (1 - p) * f v ms (es ++ [false]))%Q.
Proof. unfold mean_gate. cbn [ins_gate]. cbn [skipn nth number]. rewrite qubits_one. reflexivity. Qed.
Lemma exp_IFlip n p q f : mean_block n [mkBranch p ("X", [qa q]) []] f = fun v ms es =>
  (p * f (apply1 mX q v) ms es + (1 - p) * f v ms es)%Q.
Proof. cbn [mean_block br_gates br_first br_rest br_p mean_gates]. unfold mean_gate. rewrite qubits_one. reflexivity. Qed.
Lemma expected_cons n i l f : expected n (item_of i :: l) f = expected n [item_of i] (expected n l f).
Proof. destruct i; reflexivity. Qed.

(** * Blocks without noise *)
Definition calm (n : nat) (i : ins) : Prop :=
  match i with
  | IR q | IHd q | IM q => q < n
  | IC _ a d => a < n /\ d < n /\ a <> d
  | IFlip p q => q < n /\ (0 <= p <= 1)%Q
  | _ => False
  end.
(** If every possible run gives the value [c], the expected value is [c]. *)
Lemma expected_calm n f c : forall is v ms es, Forall (calm n) is -> state_ok n v ->
  (forall ms' v', irun n is v ms' [] v' -> state_ok n v' -> (f v' (ms ++ ms') es == c)%Q) ->
  (expected n (map item_of is) f v ms es == c)%Q.
Proof.
  induction is as [|i is IH]; intros v ms es CA SO H.
  - cbn [map expected]. rewrite <- (app_nil_r ms). apply H; auto. constructor.
  - inversion CA as [|? ? C1 C2]; subst. cbn [map]. rewrite expected_cons.
    assert (ST : forall v1, state_ok n v1 -> istep n i v [] [] v1 -> (expected n (map item_of is) f v1 ms es == c)%Q).
    { intros v1 S1 I1. apply IH; auto. intros ms' v' R S'. apply H; auto. exact (ir_cons n i is v [] [] v1 ms' [] v' I1 R). }
    destruct i; cbn [item_of expected calm] in C1 |- *; try contradiction.
    + rewrite exp_IR. apply sum_born; auto. intros m O S1. apply ST.
      * cbv zeta. destruct m; auto. apply (state_ok_pauli n PX); auto.
      * cbn [istep]. conjs; auto. exists m. auto.
    + rewrite exp_IHd. apply ST; [apply state_ok_h; auto|]. cbn [istep]. auto.
    + rewrite exp_IC. destruct C1 as (A & B & C). apply ST; [apply state_ok_c; auto|]. cbn [istep]. auto.
    + rewrite exp_IM. apply sum_born; auto. intros m O S1. apply IH; auto. intros ms' v' R S'. rewrite <- app_assoc. apply H; auto.
      apply (ir_cons n (IM q) is v [m] [] (project (single n false PZ q) m v) ms' [] v'); auto. cbn [istep]. conjs; auto. exists m. auto.
    + rewrite exp_IFlip. destruct C1 as (A & B1 & B2).
      assert (E1 : (0 < p)%Q -> (expected n (map item_of is) f (apply1 mX q v) ms es == c)%Q).
      { intros P. apply ST; [apply (state_ok_pauli n PX); auto|]. cbn [istep]. auto. }
      assert (E0 : (p < 1)%Q -> (expected n (map item_of is) f v ms es == c)%Q).
      { intros P. apply ST; auto. cbn [istep]. auto. }
      destruct (Qlt_le_dec 0 p) as [P0|P0].
      * rewrite (E1 P0). destruct (Qlt_le_dec p 1) as [P1|P1]; [rewrite (E0 P1); ring|]. assert (p == 1)%Q by lra. rewrite H0. ring.
      * assert (p == 0)%Q by lra. rewrite E0 by lra. rewrite H0. ring.
Qed.

(** Expected values respect equality. *)
Lemma expected_ext1 n i f g v ms es : (forall v ms es, (f v ms es == g v ms es)%Q) ->
  (match i with IPauli2 _ _ _ => False | _ => True end) -> (expected n [item_of i] f v ms es == expected n [item_of i] g v ms es)%Q.
Proof.
  intros H NP. destruct i; cbn [item_of expected]; try contradiction.
  - rewrite !exp_IR. apply sum_ext. intros m _. rewrite H. reflexivity.
  - rewrite !exp_IHd. apply H.
  - rewrite !exp_IC. apply H.
  - rewrite !exp_IM. apply sum_ext. intros m _. rewrite H. reflexivity.
  - rewrite !exp_IPauli. apply sum_ext. intros P _. rewrite H. reflexivity.
  - rewrite !exp_IErase. rewrite H. assert (E : (sum_over letters (fun P => (1 # 4) * f (apply1 (mP P) q v) ms (es ++ [true])) == sum_over letters (fun P => (1 # 4) * g (apply1 (mP P) q v) ms (es ++ [true])))%Q) by (apply sum_ext; intros P _; rewrite H; reflexivity).
    rewrite E. reflexivity.
  - rewrite !exp_IFlip. rewrite !H. reflexivity.
Qed.
Definition single_noise (i : ins) : Prop := match i with IPauli2 _ _ _ => False | _ => True end.
Lemma expected_ext n : forall is f g v ms es, Forall single_noise is -> (forall v ms es, (f v ms es == g v ms es)%Q) ->
  (expected n (map item_of is) f v ms es == expected n (map item_of is) g v ms es)%Q.
Proof.
  induction is as [|i is IH]; intros f g v ms es C H; [apply H|]. inversion C; subst. cbn [map]. rewrite (expected_cons n i _ f), (expected_cons n i _ g). apply expected_ext1; auto.
Qed.
(** ... and are linear. *)
Lemma expected_lin n p : forall is (f g h : statistic) v ms es, Forall single_noise is ->
  (forall v ms es, (f v ms es == p * g v ms es + (1 - p) * h v ms es)%Q) ->
  (expected n (map item_of is) f v ms es == p * expected n (map item_of is) g v ms es + (1 - p) * expected n (map item_of is) h v ms es)%Q.
Proof.
  induction is as [|i is IH]; intros f g h v ms es C H; [apply H|].
  inversion C as [|? ? C1 C2]; subst. cbn [map]. rewrite (expected_cons n i _ f), (expected_cons n i _ g), (expected_cons n i _ h).
  assert (K : forall v ms es, (expected n (map item_of is) f v ms es == p * expected n (map item_of is) g v ms es + (1 - p) * expected n (map item_of is) h v ms es)%Q) by (intros; apply IH; auto).
  revert K. generalize (expected n (map item_of is) f), (expected n (map item_of is) g), (expected n (map item_of is) h). intros F G Hh K.
  destruct i; cbn [item_of expected single_noise] in *; try contradiction.
  - rewrite !exp_IR. rewrite !sum_cons, !sum_nil. rewrite !K. ring.
  - rewrite !exp_IHd. apply K.
  - rewrite !exp_IC. apply K.
  - rewrite !exp_IM. rewrite !sum_cons, !sum_nil. rewrite !K. ring.
  - rewrite !exp_IPauli. unfold letters. rewrite !sum_cons, !sum_nil. rewrite !K. ring.
  - rewrite !exp_IErase. unfold letters. rewrite !sum_cons, !sum_nil. rewrite !K. ring.
  - rewrite !exp_IFlip. rewrite !K. ring.
Qed.
