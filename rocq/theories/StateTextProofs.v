(** States from strings: what string_to_state checks, and its round trip. *)
Require Import List Bool Arith ZArith Lia String Ascii.
From Verif Require Import Base BaseProofs QSpec PauliModel PauliSem PauliProofs PauliAlg TableauProofs CircuitModel PauliTextModel PauliTextProofs.
Import ListNotations.
Local Open Scope nat_scope.
Local Open Scope list_scope.

Lemma foldR_unit {A} (f : A -> Res unit) l : foldR (fun _ x => f x) l tt = Ok tt <-> forall x, In x l -> f x = Ok tt.
Proof.
  induction l as [|a l IH]; cbn [foldR].
  - split; auto. intros _ x [].
  - destruct (f a) as [[]|e] eqn:E; cbn [bindR].
    + rewrite IH. split.
      * intros H x [<-|Hx]; auto.
      * intros H x Hx. apply H. right; auto.
    + split; [discriminate|]. intros H. rewrite H in E by (left; auto). discriminate.
Qed.
Lemma resunit (r : Res unit) : (exists u, r = Ok u) <-> r = Ok tt.
Proof. split. intros ([] & ->); auto. eauto. Qed.

Lemma check_all_iff ss ds : check_all ss ds = Ok tt <->
  forall i j, i < List.length ss -> j < List.length ds -> check_pair ss ds i j = Ok tt.
Proof.
  unfold check_all. rewrite (foldR_unit (fun i => foldR (fun _ j => check_pair ss ds i j) (seq 0 (List.length ds)) tt)).
  split.
  - intros H i j Hi Hj. specialize (H i ltac:(apply in_seq; lia)). rewrite (foldR_unit (check_pair ss ds i)) in H.
    apply H. apply in_seq; lia.
  - intros H i Hi. apply in_seq in Hi. rewrite (foldR_unit (check_pair ss ds i)). intros j Hj. apply in_seq in Hj. apply H; lia.
Qed.
Lemma check_pair_iff ss ds i j : check_pair ss ds i j = Ok tt <->
  (j <= i -> commutator_sign (nth i ss row0) (nth j ss row0) = false /\
             commutator_sign (nth i ds row0) (nth j ds row0) = false /\
             (i = j -> commutator_sign (nth i ss row0) (nth j ds row0) = true)).
Proof.
  unfold check_pair. destruct (Nat.ltb_spec i j).
  - split; auto. intros _ ?. lia.
  - destruct (commutator_sign (nth i ss row0) (nth j ss row0)).
    { split; [discriminate|]. intros X. destruct (X H) as (A & _). discriminate. }
    destruct (commutator_sign (nth i ds row0) (nth j ds row0)).
    { split; [discriminate|]. intros X. destruct (X H) as (_ & A & _). discriminate. }
    destruct (Nat.eqb_spec i j) as [->|N]; cbn [andb].
    + destruct (commutator_sign (nth j ss row0) (nth j ds row0)); cbn [negb].
      * split; auto.
      * split; [discriminate|]. intros X. destruct (X H) as (_ & _ & A). specialize (A eq_refl). discriminate.
    + split; auto.
Qed.

Lemma mapR_ok {A B} (f : A -> Res B) l : forall bs, mapR f l = Ok bs ->
  List.length bs = List.length l /\ forall i a b, i < List.length l -> f (nth i l a) = Ok (nth i bs b).
Proof.
  induction l as [|x l IH]; intros bs; cbn [mapR].
  - intros [= <-]. split; auto. intros i a b H. cbn in H. lia.
  - destruct (f x) as [y|] eqn:E; cbn [bindR]; [|discriminate]. destruct (mapR f l) as [ys|]; cbn [bindR]; [|discriminate].
    intros [= <-]. destruct (IH ys eq_refl) as (L & N). split. cbn; auto.
    intros [|i] a b H; cbn [nth]; auto. apply N. cbn in H. lia.
Qed.
Lemma mapR_map {A B C} (f : B -> Res C) (h : A -> B) (k : A -> C) l :
  (forall a, In a l -> f (h a) = Ok (k a)) -> mapR f (map h l) = Ok (map k l).
Proof.
  induction l as [|x l IH]; intros H; cbn [map mapR]; auto.
  rewrite H by (left; auto). cbn [bindR]. rewrite IH by (intros; apply H; right; auto). auto.
Qed.

Lemma same_width_ok l : same_width l = true -> exists n, Forall (fun r => List.length (ops r) = n) l.
Proof.
  destruct l as [|r l]; [discriminate|]. intros H. exists (List.length (ops r)). apply Forall_forall. intros x Hx.
  unfold same_width in H. rewrite forallb_forall in H. apply Nat.eqb_eq. apply H. auto.
Qed.
Lemma same_width_intro n l : l <> [] -> Forall (fun r => List.length (ops r) = n) l -> same_width l = true.
Proof.
  destruct l as [|r l]; [congruence|]. intros _ F. unfold same_width. apply forallb_forall. intros x Hx.
  rewrite Forall_forall in F. rewrite (F x Hx), (F r) by (left; auto). apply Nat.eqb_refl.
Qed.

Lemma string_to_state_inv ss ds q t : string_to_state ss ds q = Ok t ->
  exists n rs rd, t = rd ++ rs /\ mapR (fun s => string_to_pauli s q) ss = Ok rs /\
    mapR (fun s => string_to_pauli s q) ds = Ok rd /\ List.length rd = List.length rs /\
    Forall (fun r => List.length (ops r) = n) (rd ++ rs) /\ check_all rs rd = Ok tt.
Proof.
  unfold string_to_state. destruct (mapR _ ss) as [rs|] eqn:E1; cbn [bindR]; [|discriminate].
  destruct (mapR _ ds) as [rd|] eqn:E2; cbn [bindR]; [|discriminate].
  destruct (same_width (rd ++ rs)) eqn:W; cbn [negb]; [|discriminate].
  destruct (Nat.eqb_spec (List.length ds) (List.length ss)) as [L|]; cbn [negb]; [|discriminate].
  destruct (check_all rs rd) as [[]|] eqn:C; cbn [bindR]; [|discriminate]. intros [= <-].
  destruct (same_width_ok _ W) as (n & F). exists n, rs, rd.
  destruct (mapR_ok _ _ _ E1) as (L1 & _). destruct (mapR_ok _ _ _ E2) as (L2 & _).
  split; auto. split; auto. split; auto. split; [lia|]. auto.
Qed.

(** In a valid tableau no row is the identity. *)
Lemma symp_nonid a : forall b, symp a b = true -> existsb nonid a = true.
Proof.
  induction a as [|[x z] a IH]; intros [|[x' z'] b] H; try discriminate. cbn [symp] in H. cbn [existsb]. unfold nonid at 1; cbn [fst snd].
  destruct x, z; auto. cbn in H. apply (IH b). destruct (symp a b); auto.
Qed.
Lemma wf_nonid n t i : wf n t -> i < 2 * n -> existsb nonid (ops (t@@i)) = true.
Proof.
  intros (L & F & C) Hi. destruct (le_lt_dec n i).
  - apply (symp_nonid _ (ops (t@@(i - n)))). rewrite C by lia. unfold conj_rows.
    replace (i - n + n) with i by lia. rewrite Nat.eqb_refl. apply orb_true_r.
  - apply (symp_nonid _ (ops (t@@(i + n)))). rewrite C by lia. unfold conj_rows. rewrite Nat.eqb_refl. auto.
Qed.

Lemma resize_same o : o ++ repeat (false, false) (List.length o - List.length o) = o.
Proof. rewrite Nat.sub_diag. apply app_nil_r. Qed.
Lemma row_round b r : existsb nonid (ops r) = true ->
  string_to_pauli (pauli_to_string r b) (Some (List.length (ops r))) = Ok r.
Proof.
  intros H. destruct b.
  - rewrite canonical_round, H, Nat.max_id, resize_same. destruct r; auto.
  - rewrite short_round, H, dict_round by auto. cbn [bindR ops]. rewrite resize_same. destruct r; auto.
Qed.

Lemma state_round n b t : wf n t -> 0 < n ->
  exists ds ss, state_to_stabiliser_string t b = Ok (ds, ss) /\ string_to_state ss ds (Some n) = Ok t.
Proof.
  intros W Hn. pose proof W as (L & F & C).
  exists (map (fun r => pauli_to_string r b) (firstn n t)), (map (fun r => pauli_to_string r b) (skipn n t)). split.
  - unfold state_to_stabiliser_string. rewrite (wf_nqubits n) by auto. rewrite L, Nat.eqb_refl. cbn [negb].
    rewrite map_length, L. replace (2 * n / 2) with n by (rewrite Nat.mul_comm, Nat.div_mul; lia).
    rewrite firstn_map, skipn_map. auto.
  - assert (R : forall r, In r t -> string_to_pauli (pauli_to_string r b) (Some n) = Ok r).
    { intros r Hr. apply (In_nth _ _ row0) in Hr. destruct Hr as (i & Hi & <-). rewrite L in Hi.
      rewrite <- (F i Hi). apply row_round. apply (wf_nonid n); auto. }
    unfold string_to_state.
    rewrite (mapR_map _ _ (fun r => r) (skipn n t)) by (intros r Hr; apply R; rewrite <- (firstn_skipn n t); apply in_or_app; auto).
    rewrite (mapR_map _ _ (fun r => r) (firstn n t)) by (intros r Hr; apply R; rewrite <- (firstn_skipn n t); apply in_or_app; auto).
    cbn [bindR]. rewrite !map_id, firstn_skipn.
    rewrite (same_width_intro n).
    2:{ intros ->. cbn in L. lia. }
    2:{ apply Forall_forall. intros r Hr. apply (In_nth _ _ row0) in Hr. destruct Hr as (i & Hi & <-). apply F. lia. }
    cbn [negb]. rewrite !map_length, firstn_length_le, skipn_length by lia.
    replace (n =? List.length t - n) with true by (symmetry; apply Nat.eqb_eq; lia). cbn [negb].
    assert (CA : check_all (skipn n t) (firstn n t) = Ok tt).
    { apply check_all_iff. rewrite skipn_length, firstn_length_le by lia. intros i j Hi Hj.
      apply check_pair_iff. intros Hij.
      assert (S : forall k, k < n -> (skipn n t)@@k = t@@(n + k)).
      { intros k Hk. rewrite <- (firstn_skipn n t) at 2. rewrite app_nth2; rewrite firstn_length_le by lia. f_equal; lia. lia. }
      assert (D : forall k, k < n -> (firstn n t)@@k = t@@k).
      { intros k Hk. rewrite <- (firstn_skipn n t) at 2. rewrite app_nth1; auto. rewrite firstn_length_le; lia. }
      rewrite !S, !D by lia. rewrite !commutator_sign_symp by (rewrite !F; lia). rewrite !C by lia. unfold conj_rows.
      split; [|split].
      - destruct (Nat.eqb_spec (n + i + n) (n + j)), (Nat.eqb_spec (n + j + n) (n + i)); auto; lia.
      - destruct (Nat.eqb_spec (i + n) j), (Nat.eqb_spec (j + n) i); auto; lia.
      - intros ->. destruct (Nat.eqb_spec (n + j + n) j), (Nat.eqb_spec (j + n) (n + j)); auto; lia. }
    rewrite CA. auto.
Qed.
