(** Proofs about states from stabilisers alone. *)
Require Import String List Bool Arith ZArith QArith Qabs Lia Lqa.
From Verif Require Import Base BaseProofs QSpec PauliModel PauliSem PauliAlg PauliProofs TableauProofs StateProofs PauliTextModel PauliTextProofs StateTextProofs AloneModel AloneSpec.
Import ListNotations.
Local Open Scope nat_scope.
Local Open Scope list_scope.

(** * Sums *)
Lemma sum_S n f : (sum_to (S n) f == sum_to n f + f n)%Q.
Proof.
  unfold sum_to. rewrite seq_S, map_app. cbn [map Nat.add]. generalize (map f (seq 0 n)) as l. intros l. induction l as [|a l IH]; cbn [fold_right app]; [ring|]. rewrite IH. ring.
Qed.
Lemma sum_ext n f g : (forall k, k < n -> (f k == g k)%Q) -> (sum_to n f == sum_to n g)%Q.
Proof. induction n as [|n IH]; intros H; [reflexivity|]. rewrite !sum_S, IH, (H n) by (auto with arith). reflexivity. Qed.
Lemma sum_add n f g : (sum_to n (fun k => f k + g k) == sum_to n f + sum_to n g)%Q.
Proof. induction n as [|n IH]; [reflexivity|]. rewrite !sum_S, IH. ring. Qed.
Lemma sum_scale n c f : (sum_to n (fun k => c * f k) == c * sum_to n f)%Q.
Proof. induction n as [|n IH]; [unfold sum_to; cbn; ring|]. rewrite !sum_S, IH. ring. Qed.
Lemma sum_zero n f : (forall k, k < n -> (f k == 0)%Q) -> (sum_to n f == 0)%Q.
Proof. intros H. rewrite (sum_ext n f (fun _ => 0%Q)) by auto. clear. induction n as [|n IH]; [reflexivity|]. rewrite sum_S, IH. reflexivity. Qed.
Lemma sum_squares n f : (sum_to n (fun k => f k * f k) == 0)%Q -> forall k, k < n -> (f k == 0)%Q.
Proof.
  assert (SQ : forall x : Q, (0 <= x * x)%Q) by (intros x; destruct (Qlt_le_dec x 0); [setoid_replace (x * x)%Q with ((- x) * (- x))%Q by ring; apply Qmult_le_0_compat; lra|apply Qmult_le_0_compat; auto]).
  assert (NN : forall m, (0 <= sum_to m (fun k => f k * f k))%Q) by (induction m as [|m IH]; [unfold sum_to; cbn; lra|rewrite sum_S; specialize (SQ (f m)); lra]).
  induction n as [|n IH]; intros H k L; [lia|]. rewrite sum_S in H. specialize (NN n). specialize (SQ (f n)).
  destruct (Nat.eq_dec k n) as [->|D]; [|apply IH; [lra|lia]]. assert (Z : (f n * f n == 0)%Q) by lra. apply Qmult_integral in Z. tauto.
Qed.

(** * Dual rows are unique *)
Lemma combination_orthogonal n S f g : combination S g -> (forall s, In s S -> (scalar n f s == 0)%Q) -> (sum_to n (fun k => f k * g k) == 0)%Q.
Proof.
  intros C O. induction C as [g Z|s c g g' I C IH E].
  - apply sum_zero. intros k _. rewrite Z. ring.
  - rewrite (sum_ext n _ (fun k => f k * g k + c * (f k * bit (nth k s false)))%Q) by (intros k _; rewrite E; ring).
    rewrite sum_add, sum_scale, IH. change (sum_to n (fun k => f k * bit (nth k s false))%Q) with (scalar n f s). rewrite O by auto. ring.
Qed.
Lemma combination_diff S f g : combination S f -> combination S g -> combination S (fun k => f k - g k)%Q.
Proof.
  intros F G. induction G as [g Z|s c g g' I G IH E].
  - induction F as [f Zf|s c f f' I F IH E]; [apply comb_zero; intros k; rewrite Zf, Z; ring|]. apply (comb_add S s c (fun k => f k - g k)%Q); auto. intros k. rewrite E. ring.
  - apply (comb_add S s (- c) (fun k => f k - g k)%Q); auto. intros k. rewrite E. ring.
Qed.
Theorem dual_unique n S P P' : dual_rows n S P -> dual_rows n S P' -> forall i k, i < List.length S -> k < n -> (nth k (nth i P []) 0 == nth k (nth i P' []) 0)%Q.
Proof.
  intros [_ H] [_ H'] i k Li Lk. destruct (H i Li) as (_ & C & D), (H' i Li) as (_ & C' & D').
  set (f := fun k => nth k (nth i P []) 0%Q) in *. set (f' := fun k => nth k (nth i P' []) 0%Q) in *.
  assert (Z : (f k - f' k == 0)%Q).
  { apply (sum_squares n (fun k => f k - f' k)%Q); auto. apply (combination_orthogonal n S); [apply combination_diff; auto|].
    intros s I. destruct (In_nth _ _ [] I) as (j & Lj & <-). unfold scalar.
    rewrite (sum_ext n _ (fun k => f k * bit (nth k (nth j S []) false) + (-1) * (f' k * bit (nth k (nth j S []) false)))%Q) by (intros; ring).
    rewrite sum_add, sum_scale. change (sum_to n (fun k => f k * bit (nth k (nth j S []) false))%Q) with (scalar n f (nth j S [])). change (sum_to n (fun k => f' k * bit (nth k (nth j S []) false))%Q) with (scalar n f' (nth j S [])).
    rewrite D, D' by auto. ring. }
  unfold f, f' in Z. lra.
Qed.

(** * Rows without common entries *)
Lemma sum_shift n f : (sum_to (S n) f == f 0%nat + sum_to n (fun k => f (S k)))%Q.
Proof. unfold sum_to. cbn [seq map fold_right]. rewrite <- seq_shift, map_map. reflexivity. Qed.
Lemma scalar_ones v s : (scalar (List.length s) (fun k => nth k (map (fun b : bool => if b then v else 0) s) 0) s == v * inject_Z (Z.of_nat (ones s)))%Q.
Proof.
  unfold scalar. induction s as [|b s IH]; [unfold sum_to; cbn; ring|]. cbn [List.length]. rewrite sum_shift. cbn [nth map ones].
  rewrite IH. rewrite Nat2Z.inj_add, inject_Z_plus. destruct b; cbn [bit]; [change (inject_Z (Z.of_nat 1)) with 1%Q|change (inject_Z (Z.of_nat 0)) with 0%Q]; ring.
Qed.
Lemma nth_scaled v s k : nth k (map (fun b : bool => if b then v else 0%Q) s) 0%Q = if nth k s false then v else 0%Q.
Proof. exact (map_nth (fun b : bool => if b then v else 0%Q) s false k). Qed.
Definition scaled (s : list bool) : list Q := map (fun b : bool => if b then / inject_Z (Z.of_nat (ones s)) else 0)%Q s.
Lemma dual_disjoint n S : (forall i, i < List.length S -> List.length (nth i S []) = n /\ 0 < ones (nth i S [])) ->
  (forall i j, i < List.length S -> j < List.length S -> i <> j -> disjoint (nth i S []) (nth j S [])) -> dual_rows n S (map scaled S).
Proof.
  intros W D. split; [apply map_length|]. intros i L. assert (E : nth i (map scaled S) [] = scaled (nth i S [])) by exact (map_nth scaled S [] i). rewrite E. destruct (W i L) as [LN O].
  set (s := nth i S []) in *. unfold scaled. set (v := (/ inject_Z (Z.of_nat (ones s)))%Q). split; [rewrite map_length; auto|]. split.
  - apply (comb_add S s v (fun _ => 0%Q)); [apply nth_In; auto|apply comb_zero; reflexivity|]. intros k. rewrite nth_scaled. destruct (nth k s false); cbn [bit]; ring.
  - intros j Lj. destruct (Nat.eqb_spec i j) as [->|N].
    + fold s. rewrite <- LN, scalar_ones. unfold v. rewrite Qmult_comm. apply Qmult_inv_r. intros Z. change 0%Q with (inject_Z 0) in Z. rewrite inject_Z_injective in Z. lia.
    + apply sum_zero. intros k _. rewrite nth_scaled. destruct (nth k s false) eqn:Ek; [|ring]. rewrite (D i j L Lj N k Ek). cbn [bit]. ring.
Qed.

(** * Bits *)
Lemma as_bit_false q : (-1 < q)%Q -> (q < 1)%Q -> as_bit q = Ok false.
Proof.
  intros A B. unfold as_bit. destruct (Qle_bool q (-1)) eqn:E1; [apply Qle_bool_iff in E1; lra|]. destruct (Qle_bool 2 q) eqn:E2; [apply Qle_bool_iff in E2; lra|].
  destruct (Qle_bool 1 q) eqn:E3; [apply Qle_bool_iff in E3; lra|]. auto.
Qed.
Lemma as_bit_ok q : (-1 < q)%Q -> (q < 2)%Q -> exists b, as_bit q = Ok b.
Proof.
  intros A B. unfold as_bit. destruct (Qle_bool q (-1)) eqn:E1; [apply Qle_bool_iff in E1; lra|]. destruct (Qle_bool 2 q) eqn:E2; [apply Qle_bool_iff in E2; lra|]. eauto.
Qed.
Lemma as_bit_one q : (q == 1)%Q -> as_bit q = Ok true.
Proof.
  intros A. unfold as_bit. destruct (Qle_bool q (-1)) eqn:E1; [apply Qle_bool_iff in E1; lra|]. destruct (Qle_bool 2 q) eqn:E2; [apply Qle_bool_iff in E2; lra|].
  destruct (Qle_bool 1 q) eqn:E3; auto. assert (H : (1 <= q)%Q) by lra. apply Qle_bool_iff in H. congruence.
Qed.
Lemma bits_all l : (forall q, In q l -> (-1 < q)%Q /\ (q < 1)%Q) -> mapR as_bit l = Ok (repeat false (List.length l)).
Proof.
  induction l as [|q l IH]; intros H; [auto|]. cbn [mapR List.length repeat]. destruct (H q (or_introl eq_refl)). rewrite as_bit_false by auto. cbn [bindR]. rewrite IH by (intros; apply H; right; auto). auto.
Qed.
Lemma bits_ok l : (forall q, In q l -> (-1 < q)%Q /\ (q < 2)%Q) -> exists bs, mapR as_bit l = Ok bs /\ List.length bs = List.length l.
Proof.
  induction l as [|q l IH]; intros H; [exists []; auto|]. destruct (H q (or_introl eq_refl)) as [A B]. destruct (as_bit_ok q A B) as (b & E). destruct IH as (bs & E2 & L); [intros; apply H; right; auto|].
  exists (b :: bs). cbn [mapR]. rewrite E. cbn [bindR]. rewrite E2. cbn. auto.
Qed.
Lemma combine_repeat {A B} (a : A) (b : B) n : combine (repeat a n) (repeat b n) = repeat (a, b) n.
Proof. induction n; cbn; [auto|f_equal; auto]. Qed.
Lemma symp_zero a : forall n, symp a (repeat (false, false) n) = false.
Proof. induction a as [|[x z] a IH]; intros [|n]; cbn; auto. rewrite !andb_false_r, IH. auto. Qed.
Lemma in_firstn {A} (x : A) n l : In x (firstn n l) -> In x l.
Proof. intros H. rewrite <- (firstn_skipn n l). apply in_app_iff. auto. Qed.
Lemma in_skipn {A} (x : A) n l : In x (skipn n l) -> In x l.
Proof. intros H. rewrite <- (firstn_skipn n l). apply in_app_iff. auto. Qed.
Lemma computed_zero n p : List.length p = 2 * n -> (forall q, In q p -> (-1 < q)%Q /\ (q < 1)%Q) -> computed n p = Ok (mkRow (repeat (false, false) n) false).
Proof.
  intros L H. unfold computed. rewrite !bits_all by (intros q I; apply H; eauto using in_firstn, in_skipn). cbn [bindR]. rewrite skipn_length, firstn_length_le by lia. replace (List.length p - n) with n by lia. rewrite combine_repeat. auto.
Qed.
Lemma computed_ok n p : List.length p = 2 * n -> (forall q, In q p -> (-1 < q)%Q /\ (q < 2)%Q) -> exists r, computed n p = Ok r /\ List.length (ops r) = n.
Proof.
  intros L H. unfold computed. destruct (bits_ok (skipn n p)) as (x & -> & LX); [intros q I; apply H; eauto using in_skipn|]. destruct (bits_ok (firstn n p)) as (z & -> & LZ); [intros q I; apply H; eauto using in_firstn|].
  cbn [bindR]. eexists. split; [reflexivity|]. cbn [ops]. rewrite combine_length, LX, LZ, skipn_length, firstn_length_le by lia. lia.
Qed.
Lemma check_all_value ss ds : check_all ss ds = Ok tt \/ check_all ss ds = Err ValueError.
Proof.
  unfold check_all. generalize (seq 0 (List.length ss)) as is. intros is. generalize (seq 0 (List.length ds)) as js. intros js.
  assert (CP : forall i j, check_pair ss ds i j = Ok tt \/ check_pair ss ds i j = Err ValueError).
  { intros i j. unfold check_pair. destruct (i <? j); auto. destruct (commutator_sign _ _); auto. destruct (commutator_sign _ _); auto. destruct (_ && _); auto. }
  assert (FJ : forall i js, foldR (fun _ j => check_pair ss ds i j) js tt = Ok tt \/ foldR (fun _ j => check_pair ss ds i j) js tt = Err ValueError).
  { intros i. induction js0 as [|j js0 IH]; cbn [foldR]; auto. destruct (CP i j) as [-> | ->]; cbn [bindR]; auto. }
  induction is as [|i is IH]; cbn [foldR]; auto. destruct (FJ i js) as [-> | ->]; cbn [bindR]; auto.
Qed.
Lemma check_fails ss ds i : i < List.length ss -> i < List.length ds -> commutator_sign (nth i ss row0) (nth i ds row0) = false -> check_all ss ds = Err ValueError.
Proof.
  intros L1 L2 C. destruct (check_all_value ss ds) as [E|E]; auto. rewrite check_all_iff in E. specialize (E i i L1 L2). rewrite check_pair_iff in E. destruct (E (le_n _)) as (_ & _ & K). rewrite K in C by auto. discriminate.
Qed.

(** * The result *)
Lemma flat_length r : List.length (flat r) = 2 * List.length (ops r).
Proof. unfold flat. rewrite app_length, !map_length. lia. Qed.
Lemma mapR_intro {A B} (f : A -> Res B) (a0 : A) l : (forall i, i < List.length l -> exists b, f (nth i l a0) = Ok b) -> exists bs, mapR f l = Ok bs.
Proof.
  induction l as [|a l IH]; intros H; [exists []; auto|]. destruct (H 0) as (b & E); [cbn; lia|]. destruct IH as (bs & E2); [intros i L; apply (H (S i)); cbn; lia|].
  exists (b :: bs). cbn [mapR]. cbn [nth] in E. rewrite E. cbn [bindR]. rewrite E2. auto.
Qed.
Lemma near_entry (q p eps : Q) : (Qabs (q - p) < eps)%Q -> (p - eps < q)%Q /\ (q < p + eps)%Q.
Proof. intros H. apply Qabs_Qlt_condition in H. lra. Qed.
Lemma commutes_zero a n : List.length (ops a) = n -> commutator_sign a (mkRow (repeat (false, false) n) false) = false.
Proof. intros L. rewrite commutator_sign_symp by (cbn [ops]; rewrite repeat_length; auto). apply symp_zero. Qed.

Theorem alone_refused eps pinv stabs qubits ss n P i :
  mapR (fun s => string_to_pauli s qubits) stabs = Ok ss -> (forall r, In r ss -> List.length (ops r) = n) ->
  near_dual eps (2 * n) (map flat ss) (pinv (map flat ss)) -> dual_rows (2 * n) (map flat ss) P ->
  i < List.length ss -> (forall k, k < 2 * n -> (Qabs (nth k (nth i P []) 0) + eps <= 1)%Q) ->
  forall t, string_to_state_alone pinv stabs qubits <> Ok t.
Proof.
  intros ES W ND D L SM t. unfold string_to_state_alone. rewrite ES. cbn [bindR]. destruct (negb (same_width ss)); [discriminate|]. cbv zeta.
  assert (HN : List.length (ops (hd row0 ss)) = n) by (destruct ss; [cbn in L; lia|apply W; left; auto]). rewrite HN.
  destruct (mapR (computed n) _) as [ds|] eqn:ED; cbn [bindR]; [|discriminate]. destruct (negb _); [discriminate|].
  destruct (ND P D) as [LM NM]. pose proof (proj1 D) as LP. rewrite map_length in LP. destruct (NM i ltac:(lia)) as [Li Ni].
  destruct (mapR_ok _ _ _ ED) as [LD HD]. specialize (HD i [] row0 ltac:(lia)).
  rewrite computed_zero in HD; auto.
  2:{ intros q I. destruct (In_nth _ _ 0%Q I) as (k & Lk & <-). rewrite Li in Lk. specialize (Ni k Lk). specialize (SM k Lk). apply near_entry in Ni. set (p := nth k (nth i P []) 0%Q) in *. assert (H1 := Qle_Qabs p). assert (H2 := Qle_Qabs (- p)). rewrite Qabs_opp in H2. lra. }
  injection HD as HD. rewrite (check_fails ss ds i); [discriminate|auto|lia|]. rewrite <- HD. apply commutes_zero, W, nth_In. auto.
Qed.

Lemma scaled_small s k : 2 <= ones s -> (0 <= nth k (scaled s) 0)%Q /\ (nth k (scaled s) 0 <= 1 # 2)%Q.
Proof.
  intros O. unfold scaled. rewrite nth_scaled. destruct (nth k s false); [|lra].
  assert (I : (2 <= inject_Z (Z.of_nat (ones s)))%Q) by (change 2%Q with (inject_Z 2); rewrite <- Zle_Qle; lia). split; [apply Qinv_le_0_compat; lra|].
  apply Qle_shift_inv_r; lra.
Qed.
Lemma scaled_one s k : ones s = 1 -> nth k (scaled s) 0%Q = bit (nth k s false).
Proof. intros O. unfold scaled. rewrite nth_scaled, O. destruct (nth k s false); reflexivity. Qed.
Lemma scaled_range s k : 0 < ones s -> (0 <= nth k (scaled s) 0)%Q /\ (nth k (scaled s) 0 <= 1)%Q.
Proof.
  intros O. destruct (Nat.eq_dec (ones s) 1) as [E|N]; [rewrite scaled_one by auto; destruct (nth k s false); cbn [bit]; lra|]. destruct (scaled_small s k) as [A B]; [lia|]. lra.
Qed.

Lemma nth_flat i ss : i < List.length ss -> nth i (map flat ss) [] = flat (nth i ss row0).
Proof. intros L. rewrite (nth_indep _ [] (flat row0)) by (rewrite map_length; auto). apply map_nth. Qed.
Lemma apart_dual n ss : apart n ss -> dual_rows (2 * n) (map flat ss) (map scaled (map flat ss)).
Proof.
  intros [W D]. apply dual_disjoint; rewrite map_length.
  - intros i L. rewrite nth_flat by auto. destruct (W (nth i ss row0) (nth_In _ _ L)) as [LN O]. rewrite flat_length, LN. auto.
  - intros i j Li Lj N. rewrite !nth_flat by auto. auto.
Qed.
Lemma nth_scaled_flat i ss : i < List.length ss -> nth i (map scaled (map flat ss)) [] = scaled (flat (nth i ss row0)).
Proof. intros L. rewrite <- nth_flat by auto. exact (map_nth scaled (map flat ss) [] i). Qed.

Theorem alone_apart eps pinv stabs qubits ss n :
  mapR (fun s => string_to_pauli s qubits) stabs = Ok ss -> apart n ss ->
  (eps <= 1 # 2)%Q -> near_dual eps (2 * n) (map flat ss) (pinv (map flat ss)) ->
  (exists r, In r ss /\ 2 <= ones (flat r)) -> string_to_state_alone pinv stabs qubits = Err ValueError.
Proof.
  intros ES A HE ND (r & Ir & O). pose proof (apart_dual n ss A) as D. destruct A as [W _].
  destruct (ND _ D) as [LM NM]. rewrite !map_length in LM, NM.
  destruct (In_nth _ _ row0 Ir) as (i & L & Ei).
  unfold string_to_state_alone. rewrite ES. cbn [bindR].
  assert (SW : same_width ss = true) by (destruct ss as [|r0 ss']; [destruct Ir|apply (same_width_intro n); [discriminate|apply Forall_forall; intros x Ix; apply W; auto]]).
  rewrite SW. cbn [negb]. cbv zeta. assert (HN : List.length (ops (hd row0 ss)) = n) by (destruct ss; [cbn in L; lia|apply W; left; auto]). rewrite HN.
  destruct (mapR_intro (computed n) [] (pinv (map flat ss))) as (ds & ED).
  { intros k Lk. rewrite LM in Lk. destruct (NM k Lk) as [Lr Nr]. destruct (computed_ok n (nth k (pinv (map flat ss)) [])) as (d & E & _); [auto| |eauto].
    intros q I. destruct (In_nth _ _ 0%Q I) as (m & Lm & <-). rewrite Lr in Lm. specialize (Nr m Lm). apply near_entry in Nr. rewrite nth_scaled_flat in Nr by auto.
    destruct (scaled_range (flat (nth k ss row0)) m) as [B1 B2]; [apply W, nth_In; auto|]. lra. }
  rewrite ED. cbn [bindR]. destruct (negb (List.length ds =? n)); auto. destruct (mapR_ok _ _ _ ED) as [LD HD]. specialize (HD i [] row0 ltac:(lia)). destruct (NM i L) as [Li Ni].
  rewrite computed_zero in HD; auto.
  2:{ intros q I. destruct (In_nth _ _ 0%Q I) as (k & Lk & <-). rewrite Li in Lk. specialize (Ni k Lk). apply near_entry in Ni. rewrite nth_scaled_flat in Ni by auto. rewrite Ei in Ni. destruct (scaled_small (flat r) k O). lra. }
  injection HD as HD. rewrite (check_fails ss ds i); [auto|auto|lia|]. rewrite <- HD. apply commutes_zero, W, nth_In. auto.
Qed.

(** * Single operators *)
Lemma bits_exact s : forall l, List.length l = List.length s -> (forall k, k < List.length s -> (nth k l 0 == bit (nth k s false))%Q) -> mapR as_bit l = Ok s.
Proof.
  induction s as [|b s IH]; intros [|q l] L H; try discriminate; [auto|]. cbn [mapR]. pose proof (H 0 ltac:(cbn; lia)) as H0. cbn [nth] in H0.
  assert (E : as_bit q = Ok b) by (destruct b; cbn [bit] in H0; [apply as_bit_one; auto|apply as_bit_false; lra]). rewrite E. cbn [bindR]. rewrite IH; [auto|cbn in L; lia|]. intros k Lk. apply (H (S k)). cbn. lia.
Qed.
Lemma mapR_app {A B} (f : A -> Res B) l1 l2 b1 b2 : mapR f (l1 ++ l2) = Ok (b1 ++ b2) -> List.length b1 = List.length l1 -> mapR f l1 = Ok b1 /\ mapR f l2 = Ok b2.
Proof.
  revert b1. induction l1 as [|a l1 IH]; intros [|b b1]; cbn [mapR app List.length]; intros E L; try lia; [auto|].
  destruct (f a); cbn [bindR] in *; [|discriminate]. destruct (mapR f (l1 ++ l2)) eqn:E2; cbn [bindR] in E; [|discriminate]. injection E as -> ->. destruct (IH b1 eq_refl ltac:(lia)) as [-> ->]. auto.
Qed.
Lemma combine_exchanged (l : list (bool * bool)) : combine (map snd l) (map fst l) = map (fun p => (snd p, fst p)) l.
Proof. induction l; cbn; [auto|f_equal; auto]. Qed.
Lemma computed_exact n p r : List.length (ops r) = n -> List.length p = 2 * n -> (forall k, k < 2 * n -> (nth k p 0 == bit (nth k (flat r) false))%Q) -> computed n p = Ok (exchanged r).
Proof.
  intros LN L H. assert (B : mapR as_bit p = Ok (flat r)) by (apply bits_exact; rewrite flat_length, LN; auto).
  rewrite <- (firstn_skipn n p) in B. unfold flat in B. apply mapR_app in B; [|rewrite map_length, firstn_length_le by lia; auto]. destruct B as [B1 B2].
  unfold computed. rewrite B1, B2. cbn [bindR]. rewrite combine_exchanged. auto.
Qed.
Lemma symp_exchanged a : forall b, symp (map (fun p => (snd p, fst p)) a) (map (fun p => (snd p, fst p)) b) = symp a b.
Proof. induction a as [|[x z] a IH]; intros [|[x' z'] b]; cbn; auto. rewrite IH, (xorb_comm (z && x')). auto. Qed.
(** Operators without common entries commute with the exchanged ones of the others. *)
Lemma symp_apart a : forall b, (forall k, nth k (map fst a) false = true -> nth k (map fst b) false = false) -> (forall k, nth k (map snd a) false = true -> nth k (map snd b) false = false) ->
  symp a (map (fun p => (snd p, fst p)) b) = false.
Proof.
  induction a as [|[x z] a IH]; intros [|[x' z'] b] H1 H2; cbn [symp map fst snd]; auto.
  rewrite IH; [|intros k; apply (H1 (S k))|intros k; apply (H2 (S k))]. specialize (H1 0). specialize (H2 0). cbn in H1, H2. destruct x, x', z, z'; auto; try (discriminate (H1 eq_refl)); discriminate (H2 eq_refl).
Qed.
Lemma ones_app a b : ones (a ++ b) = ones a + ones b.
Proof. induction a; cbn; [auto|]. rewrite IHa. lia. Qed.
Lemma symp_own a : symp a (map (fun p => (snd p, fst p)) a) = Nat.odd (ones (map fst a ++ map snd a)).
Proof.
  rewrite ones_app. induction a as [|[x z] a IH]; [auto|]. cbn [symp map fst snd ones]. rewrite IH.
  set (u := ones (map fst a)). set (v := ones (map snd a)). replace ((if x then 1 else 0) + u + ((if z then 1 else 0) + v)) with ((if x then 1 else 0) + (if z then 1 else 0) + (u + v)) by lia.
  rewrite !Nat.odd_add. destruct x, z; cbn; auto.
Qed.
Lemma apart_halves a b : List.length a = List.length b -> disjoint (map fst a ++ map snd a) (map fst b ++ map snd b) ->
  (forall k, nth k (map fst a) false = true -> nth k (map fst b) false = false) /\ (forall k, nth k (map snd a) false = true -> nth k (map snd b) false = false).
Proof.
  intros L D. split; intros k H.
  - destruct (Nat.lt_ge_cases k (List.length a)) as [K|K]; [|apply nth_overflow; rewrite map_length; lia]. specialize (D k). rewrite !app_nth1 in D by (rewrite map_length; lia). auto.
  - specialize (D (List.length a + k)). rewrite !app_nth2 in D by (rewrite map_length; lia). rewrite !map_length in D. replace (List.length a + k - List.length a) with k in D by lia. replace (List.length a + k - List.length b) with k in D by lia. auto.
Qed.

Theorem alone_single pinv stabs qubits ss n :
  mapR (fun s => string_to_pauli s qubits) stabs = Ok ss -> apart n ss -> (forall r, In r ss -> ones (flat r) = 1) -> List.length ss = n -> 0 < n ->
  (forall i j, i < n -> j < n -> symp (ops (nth i ss row0)) (ops (nth j ss row0)) = false) ->
  exact_dual (2 * n) (map flat ss) (pinv (map flat ss)) ->
  string_to_state_alone pinv stabs qubits = Ok (map exchanged ss ++ ss) /\ wf n (map exchanged ss ++ ss).
Proof.
  intros ES A O LS N0 C EX. pose proof (apart_dual n ss A) as D. destruct A as [W DJ].
  assert (WL : forall i, i < n -> List.length (ops (nth i ss row0)) = n) by (intros i L; apply W, nth_In; lia).
  assert (NE : forall i, i < n -> nth i (map exchanged ss) row0 = exchanged (nth i ss row0)) by (intros i L; rewrite (nth_indep _ row0 (exchanged row0)) by (rewrite map_length; lia); apply map_nth).
  assert (SD : forall i j, i < n -> j < n -> symp (ops (nth i ss row0)) (ops (exchanged (nth j ss row0))) = (i =? j)).
  { intros i j Li Lj. cbn [exchanged ops]. destruct (Nat.eqb_spec i j) as [->|N].
    - rewrite symp_own. change (Nat.odd (ones (flat (nth j ss row0))) = true). rewrite O by (apply nth_In; lia). auto.
    - destruct (apart_halves (ops (nth i ss row0)) (ops (nth j ss row0))) as [H1 H2]; [rewrite !WL; auto|apply DJ; lia|]. apply symp_apart; auto. }
  assert (ED : mapR (computed n) (pinv (map flat ss)) = Ok (map exchanged ss)).
  { assert (LM : List.length (pinv (map flat ss)) = List.length ss) by (destruct (EX 1%Q ltac:(lra) _ D) as [LM _]; rewrite !map_length in LM; auto).
    destruct (mapR_intro (computed n) [] (pinv (map flat ss))) as (ds & E).
    - intros i L. exists (exchanged (nth i ss row0)). rewrite LM in L. apply computed_exact; [apply WL; lia| |].
      + destruct (EX 1%Q ltac:(lra) _ D) as [_ H]. rewrite !map_length in H. apply (H i L).
      + intros k Lk. assert (Z : forall eps, (0 < eps)%Q -> (Qabs (nth k (nth i (pinv (map flat ss)) []) 0 - bit (nth k (flat (nth i ss row0)) false)) < eps)%Q).
        { intros eps He. destruct (EX eps He _ D) as [_ H]. rewrite !map_length in H. destruct (H i L) as [_ Hk]. specialize (Hk k Lk). rewrite nth_scaled_flat, scaled_one in Hk by (auto; apply O, nth_In; auto). auto. }
        set (q := nth k (nth i (pinv (map flat ss)) []) 0%Q) in *. set (b := bit _) in *. destruct (Qeq_dec q b) as [|NQ]; auto. exfalso.
        assert (P : (0 < Qabs (q - b))%Q). { destruct (Qlt_le_dec 0 (Qabs (q - b))) as [|H]; auto. exfalso. apply NQ. assert (H1 := Qle_Qabs (q - b)). assert (H2 := Qle_Qabs (- (q - b))). rewrite Qabs_opp in H2. lra. }
        specialize (Z _ P). lra.
    - rewrite E. destruct (mapR_ok _ _ _ E) as [LD HD]. f_equal. apply (nth_ext _ _ row0 row0); [rewrite map_length; lia|]. intros i L. rewrite LD, LM in L. specialize (HD i [] row0 ltac:(lia)).
      rewrite NE by lia. assert (X : computed n (nth i (pinv (map flat ss)) []) = Ok (exchanged (nth i ss row0))); [|congruence].
      apply computed_exact; [apply WL; lia| |].
      + destruct (EX 1%Q ltac:(lra) _ D) as [_ H]. rewrite !map_length in H. apply (H i L).
      + intros k Lk. assert (Z : forall eps, (0 < eps)%Q -> (Qabs (nth k (nth i (pinv (map flat ss)) []) 0 - bit (nth k (flat (nth i ss row0)) false)) < eps)%Q).
        { intros eps He. destruct (EX eps He _ D) as [_ H]. rewrite !map_length in H. destruct (H i L) as [_ Hk]. specialize (Hk k Lk). rewrite nth_scaled_flat, scaled_one in Hk by (auto; apply O, nth_In; auto). auto. }
        set (q := nth k (nth i (pinv (map flat ss)) []) 0%Q) in *. set (b := bit _) in *. destruct (Qeq_dec q b) as [|NQ]; auto. exfalso.
        assert (P : (0 < Qabs (q - b))%Q). { destruct (Qlt_le_dec 0 (Qabs (q - b))) as [|H]; auto. exfalso. apply NQ. assert (H1 := Qle_Qabs (q - b)). assert (H2 := Qle_Qabs (- (q - b))). rewrite Qabs_opp in H2. lra. }
        specialize (Z _ P). lra. }
  split.
  - unfold string_to_state_alone. rewrite ES. cbn [bindR].
    assert (SW : same_width ss = true) by (destruct ss as [|r0 ss']; [cbn in LS; lia|apply (same_width_intro n); [discriminate|apply Forall_forall; intros x Ix; apply W; auto]]).
    rewrite SW. cbn [negb]. cbv zeta. assert (HN : List.length (ops (hd row0 ss)) = n) by (destruct ss; [cbn in LS; lia|apply W; left; auto]). rewrite HN, ED. cbn [bindR]. rewrite map_length, LS, Nat.eqb_refl. cbn [negb].
    assert (CA : check_all ss (map exchanged ss) = Ok tt).
    { apply check_all_iff. intros i j Li Lj. rewrite map_length in Lj. rewrite LS in Li, Lj. apply check_pair_iff. intros _. rewrite !NE by auto.
      assert (LE : forall k, k < n -> List.length (ops (exchanged (nth k ss row0))) = n) by (intros k Lk; cbn [exchanged ops]; rewrite map_length; auto).
      rewrite !commutator_sign_symp by (rewrite ?WL, ?LE; auto). repeat split; [auto| |].
      - cbn [exchanged ops]. rewrite symp_exchanged. auto.
      - intros ->. rewrite SD by auto. apply Nat.eqb_refl. }
    rewrite CA. auto.
  - assert (T1 : forall i, i < n -> (map exchanged ss ++ ss) @@ i = exchanged (nth i ss row0)) by (intros i L; rewrite app_nth1 by (rewrite map_length; lia); apply NE; auto).
    assert (T2 : forall i, i < n -> (map exchanged ss ++ ss) @@ (n + i) = nth i ss row0) by (intros i L; rewrite app_nth2 by (rewrite map_length; lia); rewrite map_length, LS; f_equal; lia).
    split; [rewrite app_length, map_length; lia|]. split.
    + intros i L. destruct (Nat.lt_ge_cases i n) as [K|K]; [rewrite T1 by auto; cbn [exchanged ops]; rewrite map_length; auto|]. replace i with (n + (i - n)) by lia. rewrite T2 by lia. apply WL. lia.
    + intros i j Li Lj. destruct (Nat.lt_ge_cases i n) as [K|K], (Nat.lt_ge_cases j n) as [K'|K'].
      * rewrite !T1 by auto. cbn [exchanged ops]. rewrite symp_exchanged, C by auto. unfold conj_rows. symmetry. apply orb_false_iff. split; apply Nat.eqb_neq; lia.
      * replace j with (n + (j - n)) by lia. rewrite T1, T2 by lia. rewrite symp_comm, SD by lia. unfold conj_rows. destruct (Nat.eqb_spec (j - n) i), (Nat.eqb_spec (i + n) (n + (j - n))), (Nat.eqb_spec (n + (j - n) + n) i); cbn; auto; lia.
      * replace i with (n + (i - n)) by lia. rewrite T2, T1 by lia. rewrite SD by lia. unfold conj_rows. destruct (Nat.eqb_spec (i - n) j), (Nat.eqb_spec (n + (i - n) + n) j), (Nat.eqb_spec (j + n) (n + (i - n))); cbn; auto; lia.
      * replace i with (n + (i - n)) by lia. replace j with (n + (j - n)) by lia. rewrite !T2, C by lia. unfold conj_rows. symmetry. apply orb_false_iff. split; apply Nat.eqb_neq; lia.
Qed.

(** * What is accepted *)
Theorem alone_accepted pinv stabs qubits t : string_to_state_alone pinv stabs qubits = Ok t -> stabs <> [] ->
  exists ss ds n, mapR (fun s => string_to_pauli s qubits) stabs = Ok ss /\ t = ds ++ ss /\ List.length ds = n /\
    (forall r, In r ss -> List.length (ops r) = n) /\
    forall i j, i < List.length ss -> j < n -> j <= i -> commutator_sign (nth i ss row0) (nth j ss row0) = false /\
      commutator_sign (nth i ds row0) (nth j ds row0) = false /\ (i = j -> commutator_sign (nth i ss row0) (nth i ds row0) = true).
Proof.
  unfold string_to_state_alone. intros H NE. destruct (mapR _ stabs) as [ss|] eqn:ES; cbn [bindR] in H; [|discriminate]. destruct (same_width ss) eqn:SW; cbn [negb] in H; [|discriminate]. cbv zeta in H.
  set (n := List.length (ops (hd row0 ss))) in *. destruct (mapR (computed n) _) as [ds|]; cbn [bindR] in H; [|discriminate]. destruct (Nat.eqb_spec (List.length ds) n) as [L|]; cbn [negb] in H; [|discriminate].
  destruct (check_all ss ds) as [[]|] eqn:C; cbn [bindR] in H; [|discriminate]. injection H as <-. exists ss, ds, n. split; [auto|]. split; [auto|]. split; [auto|]. split.
  - destruct ss as [|r0 ss]; [intros r []|]. intros r I. unfold same_width in SW. rewrite forallb_forall in SW. specialize (SW r I). apply Nat.eqb_eq in SW. auto.
  - intros i j Li Lj K. rewrite check_all_iff in C. specialize (C i j Li ltac:(lia)). rewrite check_pair_iff in C. destruct (C K) as (A & B & D). repeat split; auto. intros E. subst j. auto.
Qed.
Lemma dual_near eps n S P M : dual_rows n S P -> List.length M = List.length P ->
  (forall i, i < List.length P -> List.length (nth i M []) = n /\ forall k, k < n -> (Qabs (nth k (nth i M []) 0 - nth k (nth i P []) 0) < eps)%Q) -> near_dual eps n S M.
Proof.
  intros D L H P' D'. assert (LE : List.length P' = List.length P) by (destruct D as [-> _], D' as [-> _]; auto). split; [congruence|]. intros i Li. rewrite LE in Li. destruct (H i Li) as [A B]. split; auto. intros k Lk.
  assert (Li' : i < List.length S) by (destruct D as [<- _]; auto). rewrite (dual_unique n S P' P D' D i k Li' Lk). auto.
Qed.
Lemma dual_exact n S P : dual_rows n S P -> exact_dual n S P.
Proof.
  intros D eps E. apply (dual_near eps n S P P D eq_refl). intros i L. split; [destruct D as [LP H]; apply H; lia|]. intros k _. setoid_replace (nth k (nth i P []) 0 - nth k (nth i P []) 0)%Q with 0%Q by ring. auto.
Qed.
