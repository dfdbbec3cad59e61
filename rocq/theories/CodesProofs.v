(** Codes made from lattices; the test of [StabilizerCode.check]; Python ranges. *)
Require Import List Bool Arith ZArith Lia String Permutation.
From Verif Require Import Base BaseProofs QSpec PauliModel PauliSem PauliProofs PauliAlg LatticeModel CodesModel CodesSpec LatticeSpec LatticeProofs LatticeEdit LatticeOps BuildProofs.
Import ListNotations.
Local Open Scope nat_scope.
Local Open Scope list_scope.

(** * From lattice to code *)
Lemma built_from sh vs es l : built sh vs es l -> indexed l ->
  (forall o, In o (stab_ids vs) \/ In o (log_ids vs) -> exists p f, In (o, p, f) es) ->
  stab_ids vs <> [] -> (exists k, List.length (log_ids vs) = 2 * S k) ->
  from_codelattice l = Ok (mkStabcode (map (brow vs es) (stab_ids vs)) (map (brow vs es) (log_ids vs))).
Proof.
  intros B X H S [k L]. destruct (built_operators _ _ _ _ B X H) as [E1 E2]. unfold from_codelattice. rewrite E1, E2. cbn [bindR].
  destruct (stab_ids vs) as [|s ss] eqn:Es; [congruence|]. destruct (log_ids vs) as [|g gs] eqn:Eg; [cbn in L; lia|].
  unfold make_stabcode. cbn [map]. rewrite (map_cons (brow vs es) g gs) || idtac. 
  replace (List.length (brow vs es g :: map (brow vs es) gs)) with (2 * Datatypes.S k) by (cbn [List.length] in *; rewrite map_length; lia).
  replace ((2 * Datatypes.S k) mod 2) with 0 by (rewrite Nat.mul_comm, Nat.mod_mul; lia). cbn [Nat.eqb negb].
  unfold brow at 1 2. cbn [ops]. rewrite !map_length, Nat.eqb_refl. auto.
Qed.
Lemma built_valid vs es k : NoDup (map fst es) -> List.length (log_ids vs) = 2 * k ->
  (forall o, In o (stab_ids vs) \/ In o (log_ids vs) -> exists p f, In (o, p, f) es /\ In p (dpos vs)) ->
  (forall a b, In a (stab_ids vs) -> In b (stab_ids vs) -> symp (ops (brow vs es a)) (ops (brow vs es b)) = false) ->
  (forall a b, In a (stab_ids vs) -> In b (log_ids vs) -> symp (ops (brow vs es a)) (ops (brow vs es b)) = false) ->
  (forall i j a b, nth_error (log_ids vs) i = Some a -> nth_error (log_ids vs) j = Some b -> symp (ops (brow vs es a)) (ops (brow vs es b)) = (i / 2 =? j / 2) && negb (i =? j)) ->
  valid_code (List.length (dpos vs)) (List.length (stab_ids vs)) k (mkStabcode (map (brow vs es) (stab_ids vs)) (map (brow vs es) (log_ids vs))).
Proof.
  intros N L E SS SL LL. constructor; cbn [c_stabs c_logicals].
  - apply map_length.
  - rewrite map_length. auto.
  - intros r [I|I]; apply in_map_iff in I as (o & <- & I); cbn; apply map_length.
  - intros r I. assert (exists o, r = brow vs es o /\ (In o (stab_ids vs) \/ In o (log_ids vs))) as (o & -> & Io).
    { destruct I as [I|I]; apply in_map_iff in I as (o & <- & I); eauto. }
    destruct (E o Io) as (p & f & Ie & Ip). apply In_nth_error in Ip as [i Ip]. exists i. cbn. rewrite (nth_indep _ _ (fac es o (0%Z, 0%Z))).
    + rewrite map_nth, (nth_error_nth _ _ _ Ip), (fac_in _ _ _ _ N Ie). apply fbits_nonzero.
    + rewrite map_length. apply nth_error_Some. congruence.
  - intros a b I J. apply in_map_iff in I as (o & <- & I). apply in_map_iff in J as (o' & <- & J). apply commute_iff; try apply map_length. auto.
  - intros a b I J. apply in_map_iff in I as (o & <- & I). apply in_map_iff in J as (o' & <- & J). apply commute_iff; try apply map_length. auto.
  - intros i j a b I J. rewrite nth_error_map in I, J. destruct (nth_error (log_ids vs) i) as [x|] eqn:Ex; [|discriminate]. destruct (nth_error (log_ids vs) j) as [y|] eqn:Ey; [|discriminate].
    injection I as <-. injection J as <-. pose proof (LL i j x y Ex Ey) as H.
    destruct ((i / 2 =? j / 2) && negb (i =? j)); [apply anticommute_iff|apply commute_iff]; try apply map_length; auto.
Qed.

(** * check *)
Lemma commutator_commute n a b : List.length (ops a) = n -> List.length (ops b) = n -> (commutator_sign a b = false <-> commute n (denote a) (denote b)).
Proof. intros A B. rewrite (commute_iff n) by auto. rewrite commutator_sign_symp by congruence. tauto. Qed.
Lemma commutator_anticommute n a b : List.length (ops a) = n -> List.length (ops b) = n -> (commutator_sign a b = true <-> anticommute n (denote a) (denote b)).
Proof. intros A B. rewrite (anticommute_iff n) by auto. rewrite commutator_sign_symp by congruence. tauto. Qed.
Lemma evens_nth {A} (l : list A) : forall i, nth_error (evens l) i = nth_error l (2 * i).
Proof.
  assert (H : forall n l, List.length l <= n -> forall i, nth_error (evens l) i = nth_error (l : list A) (2 * i)).
  { assert (Z0 : forall k, nth_error (@nil A) k = None) by (intros []; auto).
    induction n; intros [|x [|y r]] L i; cbn in L; try lia.
    - rewrite Z0. destruct i; auto.
    - rewrite Z0. destruct i; auto.
    - destruct i as [|i]; auto. replace (2 * S i) with (S (S (2 * i))) by lia. cbn [nth_error evens]. rewrite !Z0. auto.
    - destruct i as [|i]; auto. replace (2 * S i) with (S (S (2 * i))) by lia. cbn [nth_error]. rewrite <- IHn by (cbn in *; lia). reflexivity. }
  intros; eapply H; eauto.
Qed.
Lemma all_commute_iff n a b : (forall x, In x a \/ In x b -> List.length (ops x) = n) ->
  (all_commute a b = true <-> forall x y, In x a -> In y b -> commute n (denote x) (denote y)).
Proof.
  intros W. unfold all_commute. rewrite forallb_forall. split.
  - intros H x y X Y. specialize (H x X). rewrite forallb_forall in H. specialize (H y Y). apply commutator_commute; auto. destruct (commutator_sign x y); auto; discriminate.
  - intros H x X. apply forallb_forall. intros y Y. specialize (H x y X Y). apply commutator_commute in H; auto. rewrite H. auto.
Qed.
Lemma all_conjugate_iff n a b : (forall x, In x a \/ In x b -> List.length (ops x) = n) ->
  (all_conjugate a b = true <-> forall i j x y, nth_error a i = Some x -> nth_error b j = Some y -> if i =? j then anticommute n (denote x) (denote y) else commute n (denote x) (denote y)).
Proof.
  intros W. unfold all_conjugate. rewrite forallb_forall. split.
  - intros H i j x y X Y. specialize (H (i, x)). rewrite forallb_forall in H.
    assert (E := H (proj2 (enumerate_nth a 0 i x) (ex_intro _ i (conj eq_refl X))) (j, y) (proj2 (enumerate_nth b 0 j y) (ex_intro _ j (conj eq_refl Y)))). cbn in E. apply eqb_prop in E.
    assert (Lx : List.length (ops x) = n) by (apply W; left; eapply nth_error_In; eauto). assert (Ly : List.length (ops y) = n) by (apply W; right; eapply nth_error_In; eauto).
    destruct (i =? j); [apply commutator_anticommute|apply commutator_commute]; auto.
  - intros H [i x] X. apply forallb_forall. intros [j y] Y. apply enumerate_nth in X as (i' & -> & X). apply enumerate_nth in Y as (j' & -> & Y). cbn in *.
    assert (Lx : List.length (ops x) = n) by (apply W; left; eapply nth_error_In; eauto). assert (Ly : List.length (ops y) = n) by (apply W; right; eapply nth_error_In; eauto).
    specialize (H i' j' x y X Y). destruct (i' =? j'); [apply commutator_anticommute in H|apply commutator_commute in H]; auto; rewrite H; auto.
Qed.
Lemma in_logical_x c r : In r (logical_x c) <-> exists i, nth_error (c_logicals c) (2 * i) = Some r.
Proof.
  unfold logical_x. split. intros I. apply In_nth_error in I as [i I]. rewrite evens_nth in I. eauto.
  intros [i I]. rewrite <- evens_nth in I. eapply nth_error_In; eauto.
Qed.
Lemma nth_error_tl {A} (l : list A) i : nth_error (tl l) i = nth_error l (S i).
Proof. destruct l; cbn; auto. destruct i; auto. Qed.
Lemma in_logical_z c r : In r (logical_z c) <-> exists i, nth_error (c_logicals c) (2 * i + 1) = Some r.
Proof.
  unfold logical_z. split. intros I. apply In_nth_error in I as [i I]. rewrite evens_nth, nth_error_tl in I. exists i. rewrite Nat.add_1_r. auto.
  intros [i I]. rewrite Nat.add_1_r, <- nth_error_tl, <- evens_nth in I. eapply nth_error_In; eauto.
Qed.
Lemma commute_sym n a b : commute n a b -> commute n b a.
Proof. intros H v. apply veq_sym. apply H. Qed.
Lemma half_even i : 2 * i / 2 = i. Proof. rewrite Nat.mul_comm. apply Nat.div_mul. lia. Qed.
Lemma half_odd i : (2 * i + 1) / 2 = i. Proof. rewrite Nat.mul_comm, Nat.div_add_l by lia. cbn. lia. Qed.
(** The relations which [check] tests, spelled out. *)
Definition relations (n : nat) (c : stabcode) : Prop :=
  (forall a b, In a (c_stabs c) -> In b (c_stabs c) -> commute n (denote a) (denote b)) /\
  (forall a b, In a (c_stabs c) -> In b (c_logicals c) -> commute n (denote a) (denote b)) /\
  (forall i j a b, nth_error (c_logicals c) (2 * i) = Some a -> nth_error (c_logicals c) (2 * j) = Some b -> commute n (denote a) (denote b)) /\
  (forall i j a b, nth_error (c_logicals c) (2 * i + 1) = Some a -> nth_error (c_logicals c) (2 * j + 1) = Some b -> commute n (denote a) (denote b)) /\
  (forall i j a b, nth_error (c_logicals c) (2 * i) = Some a -> nth_error (c_logicals c) (2 * j + 1) = Some b ->
     if i =? j then anticommute n (denote a) (denote b) else commute n (denote a) (denote b)).
Lemma check_iff n c : (forall r, In r (c_stabs c) \/ In r (c_logicals c) -> List.length (ops r) = n) ->
  (check c = Ok tt /\ relations n c) \/ (check c = Err AssertionError /\ ~ relations n c).
Proof.
  intros W.
  assert (WX : forall x, In x (logical_x c) -> List.length (ops x) = n) by (intros x I; apply in_logical_x in I as [i I]; apply W; right; eapply nth_error_In; eauto).
  assert (WZ : forall x, In x (logical_z c) -> List.length (ops x) = n) by (intros x I; apply in_logical_z in I as [i I]; apply W; right; eapply nth_error_In; eauto).
  pose proof (all_conjugate_iff n (logical_x c) (logical_z c)) as H1. pose proof (all_commute_iff n (logical_x c) (logical_x c)) as H2.
  pose proof (all_commute_iff n (logical_z c) (logical_z c)) as H3. pose proof (all_commute_iff n (c_stabs c) (c_logicals c)) as H4. pose proof (all_commute_iff n (c_stabs c) (c_stabs c)) as H5.
  assert (E1 : all_conjugate (logical_x c) (logical_z c) = true <-> (forall i j a b, nth_error (c_logicals c) (2 * i) = Some a -> nth_error (c_logicals c) (2 * j + 1) = Some b ->
     if i =? j then anticommute n (denote a) (denote b) else commute n (denote a) (denote b))).
  { rewrite H1 by intuition. unfold logical_x, logical_z. split; intros H i j x y; specialize (H i j x y).
    - rewrite !evens_nth, nth_error_tl, <- (Nat.add_1_r (2 * j)) in H. auto.
    - rewrite !evens_nth, nth_error_tl, <- (Nat.add_1_r (2 * j)). auto. }
  assert (E2 : all_commute (logical_x c) (logical_x c) = true <-> (forall i j a b, nth_error (c_logicals c) (2 * i) = Some a -> nth_error (c_logicals c) (2 * j) = Some b -> commute n (denote a) (denote b))).
  { rewrite H2 by intuition. split.
    - intros H i j x y X Y. apply H; apply in_logical_x; eauto.
    - intros H x y X Y. apply in_logical_x in X as [i X]. apply in_logical_x in Y as [j Y]. eauto. }
  assert (E3 : all_commute (logical_z c) (logical_z c) = true <-> (forall i j a b, nth_error (c_logicals c) (2 * i + 1) = Some a -> nth_error (c_logicals c) (2 * j + 1) = Some b -> commute n (denote a) (denote b))).
  { rewrite H3 by intuition. split.
    - intros H i j x y X Y. apply H; apply in_logical_z; eauto.
    - intros H x y X Y. apply in_logical_z in X as [i X]. apply in_logical_z in Y as [j Y]. eauto. }
  clear H1 H2 H3. specialize (H4 W). specialize (H5 (fun x I => W x (or_introl (match I with or_introl a => a | or_intror a => a end)))).
  unfold check, relations.
  destruct (all_conjugate _ _); [|right; split; [auto|intros (? & ? & ? & ? & X); apply E1 in X; discriminate]].
  destruct (all_commute (logical_x c) _); [|right; split; [auto|intros (? & ? & X & ? & ?); apply E2 in X; discriminate]].
  destruct (all_commute (logical_z c) _); [|right; split; [auto|intros (? & ? & ? & X & ?); apply E3 in X; discriminate]].
  destruct (all_commute (c_stabs c) (c_logicals c)); [|right; split; [auto|intros (? & X & ? & ? & ?); apply H4 in X; discriminate]].
  destruct (all_commute (c_stabs c) (c_stabs c)); [|right; split; [auto|intros (X & ? & ? & ? & ?); apply H5 in X; discriminate]].
  left. split; auto. tauto.
Qed.
Lemma valid_check n s k c : valid_code n s k c -> check c = Ok tt.
Proof.
  intros V. destruct (check_iff n c (vc_width _ _ _ _ V)) as [[-> _]|[_ N]]; auto. exfalso. apply N. clear N. unfold relations.
  split; [apply (vc_commute _ _ _ _ V)|]. split; [apply (vc_logical _ _ _ _ V)|]. split; [|split]; intros i j a b X Y; pose proof (vc_pairs _ _ _ _ V _ _ _ _ X Y) as P.
  - rewrite !half_even in P. destruct (Nat.eqb_spec i j). subst. rewrite Nat.eqb_refl in P. auto. auto.
  - rewrite !half_odd in P. destruct (Nat.eqb_spec i j). subst. rewrite Nat.eqb_refl in P. auto. auto.
  - rewrite half_even, half_odd in P. destruct (Nat.eqb_spec i j). subst. replace (2 * j =? 2 * j + 1) with false in P by (symmetry; apply Nat.eqb_neq; lia). auto. auto.
Qed.

(** * Ranges *)
Lemma in_zrange a b s x : (0 < s)%Z -> (In x (zrange a b s) <-> (a <= x < b /\ (x - a) mod s = 0)%Z).
Proof.
  intros S. unfold zrange. rewrite in_map_iff. split.
  - intros (k & <- & I). apply in_seq in I. cbn in I. destruct I as [_ I].
    assert (Z.of_nat k < (b - a + s - 1) / s)%Z by lia. assert (s * ((b - a + s - 1) / s) <= b - a + s - 1)%Z by (apply Z.mul_div_le; lia).
    split. nia. replace (a + s * Z.of_nat k - a)%Z with (Z.of_nat k * s)%Z by lia. apply Z.mod_mul. lia.
  - intros [[A B] M]. exists (Z.to_nat ((x - a) / s)). pose proof (Z.div_mod (x - a) s ltac:(lia)). assert (0 <= (x - a) / s)%Z by (apply Z.div_pos; lia). split. lia.
    apply in_seq. cbn. split; [lia|]. apply Z2Nat.inj_lt; [lia|apply Z.div_pos; lia|].
    assert ((x - a) / s * s < b - a)%Z by lia. apply Z.lt_le_trans with ((x - a) / s + 1)%Z. lia. apply Z.div_le_lower_bound; lia.
Qed.
Lemma nodup_zrange a b s : (0 < s)%Z -> NoDup (zrange a b s).
Proof. intros S. unfold zrange. apply FinFun.Injective_map_NoDup. intros x y E. nia. apply seq_NoDup. Qed.
Lemma length_zrange a b s : List.length (zrange a b s) = Z.to_nat ((b - a + s - 1) / s).
Proof. unfold zrange. rewrite map_length, seq_length. auto. Qed.
Lemma nodup_flat_map {A B C} (f : A -> list B) (g : B -> C) xs : NoDup xs -> (forall x, In x xs -> NoDup (map g (f x))) ->
  (forall x y a b, In x xs -> In y xs -> In a (f x) -> In b (f y) -> g a = g b -> x = y) -> NoDup (map g (flat_map f xs)).
Proof.
  induction xs as [|x xs IH]; cbn; intros N H D; [constructor|]. inversion N as [|? ? NI ND]; subst. rewrite map_app. apply NoDup_app3.
  - apply H; auto.
  - apply IH; auto. intros; eapply D; eauto.
  - intros c I J. apply in_map_iff in I as (a & E & I). apply in_map_iff in J as (b & E' & J). apply in_flat_map in J as (y & Y & J).
    apply NI. rewrite (D x y a b); auto. congruence.
Qed.
Definition grid {A} (f : Z -> Z -> A) (xs ys : list Z) : list A := flat_map (fun i => map (f i) ys) xs.
Lemma in_grid {A} (f : Z -> Z -> A) xs ys a : In a (grid f xs ys) <-> exists i j, In i xs /\ In j ys /\ a = f i j.
Proof.
  unfold grid. rewrite in_flat_map. split.
  - intros (i & I & J). apply in_map_iff in J as (j & <- & J). eauto.
  - intros (i & j & I & J & ->). exists i. split; auto. apply in_map; auto.
Qed.
Lemma length_grid {A} (f : Z -> Z -> A) xs ys : List.length (grid f xs ys) = List.length xs * List.length ys.
Proof. unfold grid. induction xs; cbn; auto. rewrite app_length, map_length, IHxs. auto. Qed.
Lemma nodup_grid {A} (f : Z -> Z -> A) xs ys : NoDup xs -> NoDup ys -> (forall i j i' j', f i j = f i' j' -> i = i' /\ j = j') -> NoDup (grid f xs ys).
Proof.
  intros X Y H. unfold grid. rewrite <- map_id. apply nodup_flat_map; auto.
  - intros x I. rewrite map_id. apply FinFun.Injective_map_NoDup; auto. intros j j' E. apply H in E. tauto.
  - intros x y a b _ _ A' B' E. apply in_map_iff in A' as (j & <- & _). apply in_map_iff in B' as (j' & <- & _). apply H in E. tauto.
Qed.
(** Counting the members of a list by an enumeration without repetitions. *)
Lemma length_same {A} (l l' : list A) : NoDup l -> NoDup l' -> (forall x, In x l <-> In x l') -> List.length l = List.length l'.
Proof. intros. apply Permutation_length. apply NoDup_Permutation; auto. Qed.
Lemma nodup_dpos vs : NoDup (map snd vs) -> NoDup (dpos vs).
Proof. intros N. unfold dpos. apply NoDup_map_filter; auto. Qed.
Definition spos (vs : list (kind * pos)) : list pos := map snd (filter iss vs).
Lemma nodup_spos vs : NoDup (map snd vs) -> NoDup (spos vs).
Proof. intros N. unfold spos. apply NoDup_map_filter; auto. Qed.
Lemma in_spos vs p : In p (spos vs) <-> exists g, In (KStab g, p) vs.
Proof.
  unfold spos. rewrite in_map_iff. split.
  - intros ([k q] & <- & I). apply filter_In in I as [I K]. destruct k; try discriminate. eauto.
  - intros [g I]. exists (KStab g, p). split; auto. apply filter_In. auto.
Qed.
Lemma length_stab_ids vs : List.length (stab_ids vs) = List.length (spos vs).
Proof. unfold stab_ids, spos. rewrite !map_length, <- (filter_enum iss vs 0), map_length. auto. Qed.

(** * Edges of the generators *)
Lemma in_stab_edges T vs t : In t (flat_map (stab_edges T) (numbered vs)) <-> exists i g p, nth_error vs i = Some (KStab g, p) /\ In t (T i p g).
Proof.
  rewrite in_flat_map. split.
  - intros ([i [k p]] & I & J). apply in_numbered in I. destruct k; cbn in J; try tauto. eauto.
  - intros (i & g & p & E & I). exists (i, (KStab g, p)). split; auto. apply in_numbered; auto.
Qed.
Lemma nodup_numbered vs : NoDup (numbered vs).
Proof. apply (NoDup_map_inv fst). unfold numbered. rewrite map_fst_enumerate. apply seq_NoDup. Qed.
Lemma nodup_stab_edges T vs : (forall i p g t, In t (T i p g) -> fst (fst t) = i) -> (forall i p g, NoDup (map fst (T i p g))) ->
  NoDup (map fst (flat_map (stab_edges T) (numbered vs))).
Proof.
  intros H N. apply nodup_flat_map.
  - apply nodup_numbered.
  - intros [i [[] p]] _; cbn; auto; constructor.
  - intros [i [k p]] [j [k' p']] a b I J A B E.
    assert (fst (fst a) = i) by (destruct k; cbn in A; try tauto; eapply H; eauto). assert (fst (fst b) = j) by (destruct k'; cbn in B; try tauto; eapply H; eauto).
    assert (i = j) by congruence. subst j. apply in_numbered in I. apply in_numbered in J. congruence.
Qed.
Lemma numbered_app a b : numbered (a ++ b) = numbered a ++ enumerate_from (List.length a) b.
Proof.
  unfold numbered. assert (forall n, enumerate_from n (a ++ b) = enumerate_from n a ++ enumerate_from (n + List.length a) b).
  { induction a; cbn; intros n. rewrite Nat.add_0_r; auto. rewrite IHa. do 2 f_equal. f_equal. lia. }
  apply H.
Qed.
Lemma log_ids_app vs ws : (forall kp, In kp vs -> isl kp = false) -> (forall kp, In kp ws -> isl kp = true) -> log_ids (vs ++ ws) = seq (List.length vs) (List.length ws).
Proof.
  intros V W. unfold log_ids. rewrite numbered_app, filter_app, map_app. replace (filter _ (numbered vs)) with (@nil (nat * (kind * pos))).
  - cbn [map app]. rewrite <- map_fst_enumerate. f_equal. generalize (List.length vs). induction ws as [|w ws IH]; cbn; intros n; auto.
    rewrite (W w (or_introl eq_refl)), IH; auto. intros; apply W; right; auto.
  - symmetry. assert (H : forall x, In x (numbered vs) -> isl (snd x) = false). { intros [i kp] I. apply in_numbered in I. apply V. eapply nth_error_In; eauto. }
    induction (numbered vs) as [|x r IH]; cbn; auto. rewrite (H x (or_introl eq_refl)). apply IH. intros; apply H; right; auto.
Qed.
Lemma spos_app a b : spos (a ++ b) = spos a ++ spos b.
Proof. unfold spos. rewrite filter_app, map_app. auto. Qed.
Lemma dpos_app a b : dpos (a ++ b) = dpos a ++ dpos b.
Proof. unfold dpos. rewrite filter_app, map_app. auto. Qed.
(** Drawing a sequence of conditional edges from one operator. *)
Lemma draws_if vs (b : bool) x y tx ty : draws vs x tx -> draws vs y ty -> draws vs (if b then x else y) (if b then tx else ty).
Proof. destruct b; auto. Qed.
Lemma adds_if (b : bool) x y tx ty : adds x tx -> adds y ty -> adds (if b then x else y) (if b then tx else ty).
Proof. destruct b; auto. Qed.
(** Commutation from the number of shared qubits with different factors. *)
Lemma brow_none vs es a b : (forall p, In p (dpos vs) -> sp (fac es a p) (fac es b p) = false) -> symp (ops (brow vs es a)) (ops (brow vs es b)) = false.
Proof.
  intros H. rewrite brow_symp. replace (filter _ (dpos vs)) with (@nil pos); auto. symmetry. induction (dpos vs) as [|p r IH]; cbn; auto. rewrite H by (left; auto). apply IH. intros; apply H; right; auto.
Qed.
Lemma brow_two vs es a b p1 p2 : NoDup (dpos vs) -> p1 <> p2 -> In p1 (dpos vs) -> In p2 (dpos vs) ->
  (forall p, In p (dpos vs) -> (sp (fac es a p) (fac es b p) = true <-> p = p1 \/ p = p2)) -> symp (ops (brow vs es a)) (ops (brow vs es b)) = false.
Proof.
  intros N D I1 I2 H. rewrite (brow_count _ _ a b [p1; p2]); auto.
  - repeat constructor; cbn; intuition.
  - intros p. cbn. split. intros [<-|[<-|[]]]; split; auto; apply H; auto. intros [P S]. apply H in S; auto. intuition.
Qed.
Lemma brow_one vs es a b p1 : NoDup (dpos vs) -> In p1 (dpos vs) ->
  (forall p, In p (dpos vs) -> (sp (fac es a p) (fac es b p) = true <-> p = p1)) -> symp (ops (brow vs es a)) (ops (brow vs es b)) = true.
Proof.
  intros N I1 H. rewrite (brow_count _ _ a b [p1]); auto.
  - repeat constructor; cbn; intuition.
  - intros p. cbn. split. intros [<-|[]]; split; auto; apply H; auto. intros [P S]. apply H in S; auto.
Qed.
Lemma index_of_in x order : In x order -> exists t, index_of x order = Some t.
Proof.
  induction order as [|y r IH]; intros X; [destruct X|]. cbn. destruct (pos_eqb x y) eqn:E; [eauto|].
  destruct X as [->|X]. rewrite (proj2 (pos_eqb_eq _ _) eq_refl) in E; discriminate. destruct (IH X) as [t ->]. cbn. eauto.
Qed.
Lemma in_cross x y : In (x, y) cross <-> ((x = 0 /\ (y = 1 \/ y = -1)) \/ (y = 0 /\ (x = 1 \/ x = -1)))%Z.
Proof.
  cbn. split.
  - intros [E|[E|[E|[E|[]]]]]; injection E as <- <-; lia.
  - intros [[-> [-> | ->]]|[-> [-> | ->]]]; auto.
Qed.
