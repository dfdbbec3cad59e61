(** Lemmas: measurement of single qubits and partial trace. *)
Require Import List Bool Arith ZArith Lia Ring Sorted Permutation.
From Verif Require Import Base BaseProofs QSpec PauliModel PauliSem PauliProofs PauliAlg TableauProofs
  MeasureProofs StateProofs StateSpec GateProofs DestabProofs PtraceModel PtraceSpec.
Import ListNotations.

(** * Deleting an element *)
Lemma length_delete {A} q (l : list A) : q < length l -> length (delete_nth q l) = length l - 1.
Proof. intros H. unfold delete_nth. rewrite app_length, firstn_length, skipn_length. lia. Qed.

Lemma delete_S {A} q (x : A) l : delete_nth (S q) (x :: l) = x :: delete_nth q l.
Proof. reflexivity. Qed.

Lemma nth_delete {A} (d : A) : forall q l i, q < length l ->
  nth i (delete_nth q l) d = nth (if i <? q then i else S i) l d.
Proof.
  induction q as [|q IH]; intros [|x l] i H; simpl in H; try lia.
  - reflexivity.
  - rewrite delete_S. destruct i as [|i]; [reflexivity|]. cbn [nth]. rewrite IH by lia.
    change (S i <? S q) with (i <? q). destruct (i <? q); reflexivity.
Qed.

Lemma symp_delete : forall q a b, q < length a -> length a = length b ->
  symp (delete_nth q a) (delete_nth q b) = xorb (symp a b) (sp1 (nth q a pid) (nth q b pid)).
Proof.
  induction q as [|q IH]; intros [|[x z] a] [|[x' z'] b] H L; simpl in H, L; try lia.
  - change (delete_nth 0 ((x, z) :: a)) with a. change (delete_nth 0 ((x', z') :: b)) with b.
    cbn [nth symp]. unfold sp1; cbn [fst snd]. destruct (symp a b), x, z, x', z'; auto.
  - rewrite !delete_S. cbn [nth symp]. rewrite IH by lia. rewrite <- !xorb_assoc. auto.
Qed.

(** * Inserting a bit into a label *)
Definition put (q : nat) (b : bool) (a : list bool) : list bool := firstn q a ++ b :: skipn q a.

Lemma put_S q b x a : put (S q) b (x :: a) = x :: put q b a. Proof. reflexivity. Qed.

Lemma length_put q b a : q <= length a -> length (put q b a) = S (length a).
Proof. intros. unfold put. rewrite app_length. cbn [length]. rewrite firstn_length, skipn_length. lia. Qed.

Lemma put_drop : forall q a, q < length a -> put q (nth q a false) (drop_bit q a) = a.
Proof.
  induction q as [|q IH]; intros [|x a] H; simpl in H; try lia; auto.
  change (drop_bit (S q) (x :: a)) with (x :: drop_bit q a). rewrite put_S. cbn [nth]. rewrite IH by lia. auto.
Qed.

Lemma length_drop q a : q < length a -> length (drop_bit q a) = length a - 1.
Proof. apply (@length_delete bool). Qed.

Lemma drop_upd : forall q b a, drop_bit q (upd q b a) = drop_bit q a.
Proof.
  induction q as [|q IH]; intros b [|x a]; auto.
  change (x :: drop_bit q (upd q b a) = x :: drop_bit q a). rewrite IH; auto.
Qed.

Lemma fac_put : forall q b o a, q < length o -> length o = S (length a) -> nth q o pid = pid ->
  fac o (put q b a) = fac (delete_nth q o) a.
Proof.
  induction q as [|q IH]; intros b [|p o] a H L E; simpl in H, L; try lia.
  - cbn [nth] in E. subst p. change (delete_nth 0 (pid :: o)) with o. unfold put; cbn [firstn skipn app fac].
    unfold ent, pid; cbn. destruct b; cbn; ring.
  - destruct a as [|x a]; simpl in L; [lia|]. rewrite put_S, delete_S. cbn [fac]. rewrite IH; auto. lia.
Qed.

Lemma flipx_put : forall q b o a, q < length o -> length o = S (length a) -> nth q o pid = pid ->
  flipx o (put q b a) = put q b (flipx (delete_nth q o) a).
Proof.
  induction q as [|q IH]; intros b [|p o] a H L E; simpl in H, L; try lia.
  - cbn [nth] in E. subst p. change (delete_nth 0 (pid :: o)) with o. unfold put; cbn [firstn skipn app flipx].
    unfold pid; cbn [fst]. rewrite xorb_false_r; auto.
  - destruct a as [|x a]; simpl in L; [lia|]. rewrite put_S, delete_S. cbn [flipx]. rewrite IH by (auto; lia).
    rewrite put_S. auto.
Qed.

Definition slice (q : nat) (b : bool) (v : vec) : vec := fun a => v (put q b a).

Lemma slice_papply n q b r v a : q < n -> length (ops r) = n -> nth q (ops r) pid = pid -> length a = n - 1 ->
  papply (denote (delete_qubit q r)) (slice q b v) a = papply (denote r) v (put q b a).
Proof.
  intros Hq Hr E Ha. rewrite !papply_closed.
  - unfold delete_qubit; cbn [ops neg]. rewrite fac_put, flipx_put by (auto; lia). auto.
  - rewrite length_put; lia.
  - unfold delete_qubit; cbn [ops]. rewrite length_delete; lia.
Qed.

Lemma slice_stabilises n q b r v : q < n -> length (ops r) = n -> nth q (ops r) pid = pid ->
  stabilises n (denote r) v -> stabilises (n - 1) (denote (delete_qubit q r)) (slice q b v).
Proof.
  intros Hq Hr E Hs a Ha. rewrite (slice_papply n) by auto. unfold slice. apply Hs. rewrite length_put; lia.
Qed.

(** * An eigenvector of a one-qubit operator is a product *)
Definition base_bit (p : pauli1) (m : bool) : bool := match p with PX => false | _ => m end.

Lemma eigen_product n q p m v : q < n -> reset_kind p ->
  veq n (papply (single n false p q) v) (vscale (sgn m) v) ->
  veq n v (with_qubit q (eigen p m) (slice q (base_bit p m) v)).
Proof.
  intros Hq Hp He a Ha.
  assert (H1 : apply1 (mP p) q v a = zimul (sgn m) (v a)).
  { rewrite (apply1_pauli n p q v Hq a Ha). apply (He a Ha). }
  unfold with_qubit, slice.
  assert (P : forall b, put q b (drop_bit q a) = upd q b a).
  { intros b. rewrite <- (drop_upd q b a). rewrite <- (put_drop q (upd q b a)) at 2 by (rewrite length_upd; lia).
    rewrite nth_upd_same by lia. auto. }
  rewrite P. unfold apply1 in H1.
  pose proof (upd_nth q a false) as U.
  destruct Hp; subst p; cbn [mP base_bit eigen] in *.
  - destruct (nth q a false) eqn:E; cbn [andb].
    + unfold mX in H1; cbn [eqb] in H1. rewrite U in H1.
      destruct m; cbn [sgn] in *.
      * transitivity (zimul (ziopp zi1) (zimul (ziopp zi1) (v a))). ring. rewrite <- H1. ring.
      * transitivity (zimul zi1 (v a)). ring. rewrite <- H1. ring.
    + rewrite U. ring.
  - destruct (nth q a false) eqn:E; destruct m; cbn [eqb sgn] in *; unfold mZ in H1; cbn [eqb] in H1; rewrite U in H1; rewrite ?U.
    + ring.
    + assert (Z : v a = zi0).
      { pose proof (f_equal re H1) as R; pose proof (f_equal im H1) as I.
        cbn [ziadd zimul ziopp re im zi0 zi1] in *. apply Zi_eq; cbn [re im zi0]; lia. }
      rewrite Z. ring.
    + assert (Z : v a = zi0).
      { pose proof (f_equal re H1) as R; pose proof (f_equal im H1) as I.
        cbn [ziadd zimul ziopp re im zi0 zi1] in *. apply Zi_eq; cbn [re im zi0]; lia. }
      rewrite Z. ring.
    + ring.
Qed.

Lemma slice_nonzero n q p m v : q < n -> reset_kind p -> (norm2 n v <> 0)%Z ->
  veq n (papply (single n false p q) v) (vscale (sgn m) v) ->
  (norm2 (n - 1) (slice q (base_bit p m) v) <> 0)%Z.
Proof.
  intros Hq Hp Hv He Z. apply Hv. apply norm2_zero. apply norm2_zero in Z. intros a Ha.
  rewrite (eigen_product n q p m v Hq Hp He a Ha). unfold with_qubit.
  rewrite Z. ring. rewrite length_drop; lia.
Qed.

(** * The loop of the partial trace *)
Lemma ptrace_step_ok n f i st : length st = 2 * n -> (forall i, i < 2 * n -> length (ops (st@@i)) = n) ->
  i < n -> f < n -> i <> f ->
  exists d, length (ops d) = n /\
    ptrace_step n f st i = Ok (upd f d (upd (i + n) (mulrow (st@@(i + n)) (st@@(f + n))) st)).
Proof.
  intros L F Hi Hf Hne. unfold ptrace_step.
  rewrite multiply_pair by (rewrite !F by lia; auto). cbn [bindR fst].
  set (st1 := upd (i + n) _ st).
  assert (N : forall j, j < n -> st1@@j = st@@j) by (intros j Hj; unfold st1; apply nth_upd_other; lia).
  rewrite !N by auto. rewrite multiply_pair by (rewrite !F by lia; auto). cbn [bindR fst].
  eexists. split; [|reflexivity]. rewrite length_mulrow; rewrite ?F by lia; auto.
Qed.

Lemma ptrace_loop n f : forall others st, length st = 2 * n -> (forall i, i < 2 * n -> length (ops (st@@i)) = n) ->
  f < n -> NoDup others -> (forall i, In i others -> i < n /\ i <> f) ->
  exists st', foldR (ptrace_step n f) others st = Ok st' /\ length st' = 2 * n /\
    (forall i, i < 2 * n -> length (ops (st'@@i)) = n) /\
    (forall i, i < n -> i <> f -> st'@@i = st@@i) /\
    (forall i, i < n -> st'@@(i + n) = if memb i others then mulrow (st@@(i + n)) (st@@(f + n)) else st@@(i + n)).
Proof.
  induction others as [|j others IH]; intros st L F Hf ND Hin; cbn [foldR].
  - exists st. split; [auto|split; [auto|split; [auto|split; auto]]].
  - inversion ND as [|? ? Hj ND']; subst. destruct (Hin j) as [Hjn Hjf]; [simpl; auto|].
    destruct (ptrace_step_ok n f j st L F Hjn Hf Hjf) as (d & Ld & ->). cbn [bindR].
    set (st1 := upd f d (upd (j + n) (mulrow (st@@(j + n)) (st@@(f + n))) st)).
    assert (L1 : length st1 = 2 * n) by (unfold st1; rewrite !length_upd; auto).
    assert (N : forall i, i < 2 * n -> st1@@i = if i =? f then d else if i =? j + n then mulrow (st@@(j + n)) (st@@(f + n)) else st@@i).
    { intros i Hi. unfold st1. rewrite !nth_upd, length_upd, L, (Nat.eqb_sym f i), (Nat.eqb_sym (j + n) i).
      destruct (Nat.ltb_spec f (2 * n)); [|lia]. destruct (Nat.ltb_spec (j + n) (2 * n)); [|lia].
      rewrite !andb_true_r. auto. }
    assert (F1 : forall i, i < 2 * n -> length (ops (st1@@i)) = n).
    { intros i Hi. rewrite N by auto. destruct (i =? f); auto. destruct (i =? j + n); auto.
      rewrite length_mulrow; rewrite ?F by lia; auto. }
    destruct (IH st1 L1 F1 Hf ND') as (st' & E & L' & F' & D' & S').
    { intros i Hi. apply Hin. simpl; auto. }
    exists st'. split; [auto|split; [auto|split; [auto|split]]].
    + intros i Hi Hif. rewrite D' by auto. rewrite N by lia. destruct (Nat.eqb_spec i f); [lia|].
      destruct (Nat.eqb_spec i (j + n)); [lia|auto].
    + intros i Hi. rewrite S' by auto. rewrite !N by lia.
      destruct (Nat.eqb_spec (i + n) f); [lia|]. destruct (Nat.eqb_spec (f + n) f); [lia|].
      destruct (Nat.eqb_spec (f + n) (j + n)); [lia|].
      unfold memb; cbn [existsb]. fold (memb i others).
      destruct (Nat.eqb_spec (i + n) (j + n)).
      * assert (i = j) by lia. subst i. rewrite Nat.eqb_refl. cbn [orb].
        rewrite (proj2 (memb_false j others)); auto.
      * destruct (Nat.eqb_spec i j); [lia|]. auto.
Qed.

Definition keep (f i : nat) : nat := if i <? f then i else S i.

Lemma keep_lt n f i : f < n -> i < n - 1 -> keep f i < n /\ keep f i <> f.
Proof. unfold keep. intros. destruct (Nat.ltb_spec i f); lia. Qed.
Lemma keep_inj f i j : keep f i = keep f j -> i = j.
Proof. unfold keep. destruct (Nat.ltb_spec i f), (Nat.ltb_spec j f); lia. Qed.

Lemma delete_rows n f (st : tableau) : length st = 2 * n -> f < n ->
  length (delete_nth f (delete_nth (f + n) st)) = 2 * (n - 1) /\
  (forall i, i < n - 1 -> (delete_nth f (delete_nth (f + n) st))@@i = st@@(keep f i)) /\
  (forall i, i < n - 1 -> (delete_nth f (delete_nth (f + n) st))@@(i + (n - 1)) = st@@(keep f i + n)).
Proof.
  intros L Hf. assert (L1 : length (delete_nth (f + n) st) = 2 * n - 1) by (rewrite length_delete; lia).
  split; [|split].
  - rewrite length_delete; lia.
  - intros i Hi. rewrite !nth_delete by lia. unfold keep. destruct (Nat.ltb_spec i f).
    + destruct (Nat.ltb_spec i (f + n)); auto; lia.
    + destruct (Nat.ltb_spec (S i) (f + n)); auto; lia.
  - intros i Hi. rewrite !nth_delete by lia. unfold keep.
    destruct (Nat.ltb_spec (i + (n - 1)) f); [lia|].
    destruct (Nat.ltb_spec i f), (Nat.ltb_spec (S (i + (n - 1))) (f + n)); try lia; f_equal; lia.
Qed.

(** * The partial trace of a measured qubit *)
Definition pcol (p : pauli1) (q : nat) (o : list (bool * bool)) : bool :=
  match p with PX => getx q o | _ => getz q o end.

Lemma skipn_nth n t i : length t = 2 * n -> i < n -> nth i (skipn n t) row0 = t@@(i + n).
Proof.
  intros L Hi. rewrite <- (firstn_skipn n t) at 2. rewrite app_nth2; rewrite firstn_length_le by lia; try lia.
  f_equal; lia.
Qed.

Lemma nth_xor_ops : forall q a b, length a = length b -> q < length a -> nth q (xor_ops a b) pid =
  (xorb (fst (nth q a pid)) (fst (nth q b pid)), xorb (snd (nth q a pid)) (snd (nth q b pid))).
Proof.
  induction q as [|q IH]; intros [|[x z] a] [|[x' z'] b] Hl Hq; simpl in *; try lia; auto. apply IH; lia.
Qed.

Definition other_base (p : pauli1) : pauli1 := match p with PX => PZ | _ => PX end.

Section Trace.
Variables (n : nat) (st : tableau) (q : nat) (p : pauli1) (m : bool) (v : vec).
Hypotheses (W : wf n st) (Hq : q < n) (Hp : reset_kind p) (HD : describes n st v) (Hv : (norm2 n v <> 0)%Z)
  (He : veq n (papply (single n false p q) v) (vscale (sgn m) v)).

Local Lemma len_row i : i < 2 * n -> length (ops (st@@i)) = n. Proof. apply W. Qed.

Lemma commutes_letter i : i < n -> symp (ops (st@@(i + n))) (upd q (pbits p) (repeat pid n)) = false.
Proof.
  intros Hi. pose proof W as (L & F & C). rewrite describes_iff in HD by auto.
  apply (stab_not_anti n (st@@(i + n)) (mkRow (upd q (pbits p) (repeat pid n)) false) v m); auto.
  - apply F; lia.
  - apply single_len.
  - apply HD; lia.
  - rewrite denote_single. auto.
Qed.

Lemma letter i : i < n -> nth q (ops (st@@(i + n))) pid = if pcol p q (ops (st@@(i + n))) then pbits p else pid.
Proof.
  intros Hi. pose proof (commutes_letter i Hi) as H. rewrite (symp_single n) in H by (auto; apply len_row; lia).
  rewrite getxz in *. unfold pcol. destruct Hp; subst p; cbn [pbits] in *; unfold sp1 in H; cbn [fst snd] in H;
    destruct (getx q (ops (st@@(i + n)))), (getz q (ops (st@@(i + n)))); auto; discriminate.
Qed.

Lemma some_one : exists i, i < n /\ pcol p q (ops (st@@(i + n))) = true.
Proof.
  destruct (existsb (fun i => pcol p q (ops (st@@(i + n)))) (seq 0 n)) eqn:E.
  { apply existsb_exists in E. destruct E as (i & Hi & E). apply in_seq in Hi. exists i. split; auto; lia. }
  exfalso. assert (Z : forall i, i < n -> pcol p q (ops (st@@(i + n))) = false).
  { intros i Hi. destruct (pcol p q (ops (st@@(i + n)))) eqn:E'; auto.
    assert (existsb (fun i => pcol p q (ops (st@@(i + n)))) (seq 0 n) = true); [|congruence].
    apply existsb_exists. exists i. split; auto. apply in_seq; lia. }
  assert (Hpo : (other_base p) <> PI) by (unfold other_base; destruct p; discriminate).
  set (o := mkRow (upd q (pbits (other_base p)) (repeat pid n)) false).
  assert (Lo : length (ops o) = n) by apply single_len.
  assert (Hall : forall i, n <= i < 2 * n -> antic st o i = false).
  { intros i Hi. unfold antic, o; cbn [ops]. rewrite (symp_single n) by (auto; apply len_row; lia).
    replace i with (i - n + n) by lia. rewrite letter, Z by lia. reflexivity. }
  destruct (measure_total n (fun _ => mkDraw false (QArith_base.Qmake 0 1) 0) 0 st o W ltac:(lia) Lo
     (single_nonid n (other_base p) q Hq Hpo) None ltac:(intros f X; discriminate)) as (st' & b & k' & _ & R & _).
  destruct (det_outcome n st o b st' v W Lo Hall R HD) as [_ Eb].
  set (o' := mkRow (ops o) b).
  assert (So : stabilises n (denote o') v).
  { unfold stabilises. intros a Ha. rewrite papply_closed by (cbn [o' ops]; lia).
    specialize (Eb a Ha). rewrite papply_closed in Eb by lia. unfold vscale in Eb.
    unfold o'; cbn [neg ops]. cbn [o neg ops] in *. unfold o in Eb; cbn [neg ops sgn] in Eb.
    match type of Eb with ?x = _ => transitivity (zimul (sgn b) x) end. ring.
    rewrite Eb. transitivity (zimul (zimul (sgn b) (sgn b)) (v a)). ring.
    rewrite sgn_sq. ring. }
  pose proof (stab_not_anti n o' (mkRow (upd q (pbits p) (repeat pid n)) false) v m Lo (single_len n p q) So) as H.
  rewrite denote_single in H. specialize (H He Hv). unfold o', o in H; cbn [ops] in H.
  rewrite (symp_single n) in H by (auto; apply single_len).
  rewrite nth_upd_same in H by (rewrite repeat_length; auto).
  unfold other_base in H. destruct Hp; subst p; discriminate.
Qed.

Lemma ptrace_ok : exists t', ptrace st q p = Ok t' /\ weak (n - 1) t' /\
  describes (n - 1) t' (slice q (base_bit p m) v).
Proof.
  pose proof W as (L & F & C). assert (Hn : 0 < n) by lia.
  unfold ptrace. rewrite (wf_nqubits n) by auto.
  assert (Ec : match p with PX => Ok (getx q) | PZ => Ok (getz q) | _ => Err ValueError end = Ok (pcol p q)).
  { destruct Hp; subst p; reflexivity. }
  rewrite Ec. cbn [bindR]. destruct (Nat.leb_spec n q); [lia|].
  set (col := map (fun r => pcol p q (ops r)) (skipn n st)).
  assert (Lc : length col = n) by (unfold col; rewrite map_length, skipn_length; lia).
  assert (Nc : forall i, i < n -> nth i col false = pcol p q (ops (st@@(i + n)))).
  { intros i Hi. unfold col. rewrite (nth_indep _ false ((fun r => pcol p q (ops r)) row0)) by (fold col; lia).
    rewrite (map_nth (fun r => pcol p q (ops r))). rewrite skipn_nth by auto. auto. }
  pose proof (nonzero_sorted col) as SS.
  assert (NZ : forall i, In i (nonzero col) <-> i < n /\ pcol p q (ops (st@@(i + n))) = true).
  { intros i. rewrite nonzero_in, Lc. split; intros [H1 H2]; split; auto; rewrite Nc in * by auto; auto. }
  destruct (nonzero col) as [|f others] eqn:EO.
  { exfalso. destruct some_one as (i & Hi & Ei). assert (I : In i []) by (apply NZ; auto). destruct I. }
  destruct (proj1 (NZ f)) as [Hf Pf]; [simpl; auto|].
  inversion SS as [|? ? SS1 SS2]. rewrite Forall_forall in SS2.
  destruct (ptrace_loop n f others st L F Hf (sorted_NoDup _ SS1)) as (st' & E & L' & F' & D' & S').
  { intros i Hi. split. apply NZ; simpl; auto. specialize (SS2 i Hi). lia. }
  rewrite E. cbn [bindR].
  destruct (delete_rows n f st' L' Hf) as (LR & DR & SR).
  set (t1 := delete_nth f (delete_nth (f + n) st')) in *.
  exists (map (delete_qubit q) t1). split; [reflexivity|].
  assert (N' : forall i, i < 2 * (n - 1) -> (map (delete_qubit q) t1)@@i = delete_qubit q (t1@@i)).
  { intros i Hi. apply nth_map_row. lia. }
  (* stabilisers of the loop result *)
  assert (Lt : forall i, i < n -> i <> f -> nth q (ops (st'@@(i + n))) pid = pid /\
      (forall j, j < 2 * n -> j <> f -> j <> f + n ->
         symp (ops (st@@j)) (ops (st'@@(i + n))) = symp (ops (st@@j)) (ops (st@@(i + n)))) /\
      symp (ops (st'@@(i + n))) (ops (st@@(f + n))) = false /\
      stabilises n (denote (st'@@(i + n))) v).
  { intros i Hi Hif. rewrite S' by auto. pose proof (proj1 (describes_iff n st v L) HD) as HD'.
    assert (Fi : length (ops (st@@(i + n))) = n) by (apply F; lia).
    assert (Ff : length (ops (st@@(f + n))) = n) by (apply F; lia).
    assert (Cif : symp (ops (st@@(i + n))) (ops (st@@(f + n))) = false).
    { rewrite C by lia. unfold conj_rows. destruct (Nat.eqb_spec (i + n + n) (f + n)), (Nat.eqb_spec (f + n + n) (i + n)); auto; lia. }
    destruct (memb i others) eqn:EM.
    - apply memb_iff in EM. destruct (proj1 (NZ i)) as [_ Pi]; [simpl; auto|].
      split; [|split; [|split]].
      + unfold mulrow; cbn [ops].
        rewrite nth_xor_ops by lia. rewrite !letter by auto. rewrite Pi, Pf. rewrite !xorb_nilpotent. auto.
      + intros j Hj ? ?. unfold mulrow; cbn [ops]. rewrite symp_xor_r by (rewrite ?F by lia; lia).
        rewrite (C j (f + n)) by lia. unfold conj_rows.
        destruct (Nat.eqb_spec (j + n) (f + n)), (Nat.eqb_spec (f + n + n) j); try lia. apply xorb_false_r.
      + unfold mulrow; cbn [ops]. rewrite symp_xor_l by lia. rewrite Cif, symp_self. auto.
      + apply mul_stabilises; auto; apply HD'; lia.
    - apply memb_false in EM. split; [|split; [auto|split; [auto|apply HD'; lia]]].
      rewrite letter by auto. destruct (pcol p q (ops (st@@(i + n)))) eqn:EP; auto. exfalso.
      assert (I : In i (f :: others)) by (apply NZ; auto). destruct I; [congruence|auto]. }
  assert (RL : forall i, i < 2 * (n - 1) -> length (ops (t1@@i)) = n).
  { intros i Hi. destruct (Nat.lt_ge_cases i (n - 1)).
    - rewrite DR by auto. apply F'. destruct (keep_lt n f i); lia.
    - replace i with (i - (n - 1) + (n - 1)) by lia. rewrite SR by lia. apply F'.
      destruct (keep_lt n f (i - (n - 1))); lia. }
  split.
  - split; [rewrite map_length; auto|split].
    + intros i Hi. rewrite N' by auto. unfold delete_qubit; cbn [ops]. rewrite length_delete; rewrite RL; auto.
    + intros i j Hi Hj. rewrite !N' by lia. unfold delete_qubit; cbn [ops].
      rewrite symp_delete by (rewrite !RL by lia; lia).
      replace j with (j - (n - 1) + (n - 1)) by lia. set (j' := j - (n - 1)).
      assert (Hj' : j' < n - 1) by (unfold j'; lia).
      rewrite (SR j') by auto.
      destruct (keep_lt n f j' Hf Hj') as [Kj1 Kj2]. destruct (Lt (keep f j') Kj1 Kj2) as (Tj & Cj & Cfj & _).
      rewrite Tj. replace (sp1 (nth q (ops (t1@@i)) pid) pid) with false
        by (unfold sp1, pid; cbn [fst snd]; rewrite !andb_false_r; auto).
      rewrite xorb_false_r.
      destruct (Nat.lt_ge_cases i (n - 1)) as [Hin|Hin].
      * rewrite DR by auto. destruct (keep_lt n f i Hf Hin) as [Ki1 Ki2]. rewrite D' by auto.
        rewrite Cj by lia. rewrite C by lia. unfold conj_rows.
        pose proof (keep_inj f i j') as KI.
        destruct (Nat.eqb_spec (keep f i + n) (keep f j' + n)), (Nat.eqb_spec (keep f j' + n + n) (keep f i)),
          (Nat.eqb_spec (i + (n - 1)) (j' + (n - 1))), (Nat.eqb_spec (j' + (n - 1) + (n - 1)) i); auto; try lia.
        exfalso. apply n0. assert (i = j') by lia. subst i. auto.
      * replace i with (i - (n - 1) + (n - 1)) by lia. set (i' := i - (n - 1)).
        assert (Hi' : i' < n - 1) by (unfold i'; lia). rewrite (SR i') by auto.
        destruct (keep_lt n f i' Hf Hi') as [Ki1 Ki2].
        assert (Z : symp (ops (st'@@(keep f i' + n))) (ops (st'@@(keep f j' + n))) = false).
        { rewrite (S' (keep f i')) by auto.
          assert (Z1 : symp (ops (st@@(keep f i' + n))) (ops (st'@@(keep f j' + n))) = false).
          { rewrite Cj by lia. rewrite C by lia. unfold conj_rows.
            destruct (Nat.eqb_spec (keep f i' + n + n) (keep f j' + n)), (Nat.eqb_spec (keep f j' + n + n) (keep f i' + n)); auto; lia. }
          destruct (memb (keep f i') others); auto. unfold mulrow; cbn [ops].
          rewrite symp_xor_l by (rewrite ?F, ?F' by lia; lia). rewrite Z1. rewrite symp_comm. rewrite Cfj. auto. }
        rewrite Z. unfold conj_rows.
        destruct (Nat.eqb_spec (i' + (n - 1) + (n - 1)) (j' + (n - 1))), (Nat.eqb_spec (j' + (n - 1) + (n - 1)) (i' + (n - 1))); auto; lia.
  - apply describes_iff. rewrite map_length; auto. intros i Hi. rewrite N' by lia.
    replace i with (i - (n - 1) + (n - 1)) by lia. rewrite SR by lia.
    destruct (keep_lt n f (i - (n - 1)) Hf ltac:(lia)) as [Ki1 Ki2].
    destruct (Lt _ Ki1 Ki2) as (T & _ & _ & S). apply slice_stabilises; auto. apply F'. lia.
Qed.
End Trace.

(** * Sorting *)
Lemma insert_index_perm key i l : Permutation (insert_index key i l) (i :: l).
Proof.
  induction l as [|j l IH]; cbn [insert_index]; auto. destruct (key i <=? key j); auto.
  eapply perm_trans. apply perm_skip, IH. apply perm_swap.
Qed.

Lemma insert_index_sorted key i l : StronglySorted (fun a b => key a <= key b) l ->
  StronglySorted (fun a b => key a <= key b) (insert_index key i l).
Proof.
  induction 1 as [|j l H IH HF]; cbn [insert_index]. repeat constructor.
  destruct (Nat.leb_spec (key i) (key j)).
  - constructor. constructor; auto. constructor; auto. eapply Forall_impl; [|apply HF]. cbn beta. intros; lia.
  - constructor; auto. apply Forall_forall. intros x Hx.
    apply (Permutation_in _ (insert_index_perm key i l)) in Hx. destruct Hx as [<-|Hx]. lia.
    rewrite Forall_forall in HF. auto.
Qed.

Lemma argsort_perm targets : Permutation (argsort targets) (seq 0 (length targets)).
Proof.
  unfold argsort. induction (seq 0 (length targets)) as [|i l IH]; cbn [fold_right]; auto.
  eapply perm_trans. apply insert_index_perm. auto.
Qed.

Lemma argsort_sorted targets : StronglySorted (fun a b => nth a targets 0 <= nth b targets 0) (argsort targets).
Proof.
  unfold argsort. induction (seq 0 (length targets)) as [|i l IH]; cbn [fold_right]. constructor.
  apply (insert_index_sorted (fun i => nth i targets 0)). auto.
Qed.

Lemma sorted_snoc {A} (R : A -> A -> Prop) l x : StronglySorted R l -> (forall y, In y l -> R y x) ->
  StronglySorted R (l ++ [x]).
Proof.
  induction 1 as [|a l H IH HF]; intros Hx; cbn [app]. repeat constructor.
  constructor. apply IH. intros; apply Hx; simpl; auto. apply Forall_app. split; auto. constructor; auto.
  apply Hx; simpl; auto.
Qed.

Lemma sorted_rev {A} (R : A -> A -> Prop) l : StronglySorted R l -> StronglySorted (fun a b => R b a) (rev l).
Proof.
  induction 1 as [|a l H IH HF]; cbn [rev]. constructor. apply sorted_snoc; auto.
  intros y Hy. apply in_rev in Hy. rewrite Forall_forall in HF. auto.
Qed.

(** * Measurements one after the other *)
Lemma measured_ext n g P w m m' l k v k' v' : (forall i, In i l -> m i = m' i) ->
  measured n g P w m l k v k' v' -> measured n g P w m' l k v k' v'.
Proof.
  intros E H. induction H as [k v|i l k v k' v' He H IH|i l k v k' v' Hb Hm H IH].
  - constructor.
  - assert (X : m i = m' i) by (apply E; simpl; auto). rewrite X in *. apply measured_sure; auto.
    apply IH. intros; apply E; simpl; auto.
  - assert (X : m i = m' i) by (apply E; simpl; auto). rewrite X in *. apply measured_random; auto.
    apply IH. intros; apply E; simpl; auto.
Qed.

Definition pop (n : nat) (p : pauli1) (q : nat) : row := mkRow (upd q (pbits p) (repeat pid n)) false.

Lemma stab_eigen n p q b v :
  stabilises n (denote (mkRow (upd q (pbits p) (repeat pid n)) b)) v <->
  veq n (papply (single n false p q) v) (vscale (sgn b) v).
Proof.
  rewrite <- denote_single. unfold stabilises. split; intros H a Ha; specialize (H a Ha).
  - rewrite papply_closed in * by (cbn [ops]; rewrite single_len; auto). cbn [neg ops sgn] in *.
    unfold vscale. rewrite <- H. destruct b; cbn [sgn]; ring.
  - rewrite papply_closed in * by (cbn [ops]; rewrite single_len; auto). cbn [neg ops sgn] in *.
    unfold vscale in H. match type of H with ?x = _ => transitivity (zimul (sgn b) x) end. ring. rewrite H.
    destruct b; cbn [sgn]; ring.
Qed.

Lemma one_measurement n g k st p q forced v : wf n st -> q < n -> reset_kind p -> good_forced forced ->
  describes n st v -> (norm2 n v <> 0)%Z ->
  exists st' m k', measure g k st (pop n p q) forced = Ok (st', m, k') /\ wf n st' /\
    describes n st' (project (single n false p q) m v) /\ (norm2 n (project (single n false p q) m v) <> 0)%Z /\
    ((veq n (papply (single n false p q) v) (vscale (sgn m) v) /\ k' = k) \/
     ((forall b, norm2 n (project (single n false p q) b v) = 2 * norm2 n v)%Z /\
       m = match forced with Some f => (f =? 1)%Z | None => d_bit (g k) end /\
       k' = match forced with Some _ => k | None => S k end)) /\
    veq n (papply (single n false p q) (project (single n false p q) m v))
          (vscale (sgn m) (project (single n false p q) m v)).
Proof.
  intros W Hq Hp Hf HD Hv.
  assert (Hpi : p <> PI) by (destruct Hp; subst; discriminate).
  destruct (measure_total n g k st (pop n p q) W ltac:(lia) (single_len n p q) (single_nonid n p q Hq Hpi) forced Hf)
    as (st' & m & k' & HM & HR & _).
  destruct (measure_sem n g k st (pop n p q) forced st' m k' v W ltac:(lia) (single_len n p q)
     (single_nonid n p q Hq Hpi) Hf HM HD) as (W' & D' & HN).
  assert (ED : denote (pop n p q) = single n false p q) by apply denote_single. rewrite ED in *.
  exists st', m, k'. split; [auto|split; [auto|split; [auto|split; [|split]]]].
  - destruct HN as [(H & _)|(H & _)]. rewrite H; lia. rewrite H; lia.
  - destruct HN as [(_ & H1 & _ & H2)|(H1 & H2)]; [left; auto|right]. split; [auto|].
    destruct forced; destruct H2; auto.
  - pose proof (project_new n (pop n p q) m v (single_len n p q)) as PN. rewrite ED in PN.
    cbn [pop ops neg] in PN. rewrite xorb_false_l in PN. apply stab_eigen. exact PN.
Qed.

Lemma bases_fold n g p targets fo : reset_kind p -> Forall (fun q => q < n) targets ->
  (forall i, i < length targets -> good_forced (nth i fo None)) ->
  forall l st res k v, wf n st -> describes n st v -> (norm2 n v <> 0)%Z -> NoDup l ->
    (forall i, In i l -> i < length targets) -> length res = length targets ->
  exists st' ms k' v', foldR (measure_base_step g n p targets fo false) l (st, res, k) = Ok (st', ms, k') /\
    length ms = length targets /\ (forall j, ~ In j l -> nth j ms false = nth j res false) /\
    wf n st' /\ describes n st' v' /\ (norm2 n v' <> 0)%Z /\
    measured n g (fun i => single n false p (nth i targets 0)) (fun i => nth i fo None) (fun i => nth i ms false)
      l k v k' v'.
Proof.
  intros Hp HT HF. induction l as [|i l IH]; intros st res k v W HD Hv ND Hl Hr; cbn [foldR].
  - exists st, res, k, v. repeat (split; auto). constructor.
  - inversion ND as [|? ? Hi ND']; subst.
    assert (Hil : i < length targets) by (apply Hl; simpl; auto).
    assert (Hq : nth i targets 0 < n) by (rewrite Forall_forall in HT; apply HT, nth_In; auto).
    assert (Hpi : p <> PI) by (destruct Hp; subst; discriminate).
    destruct (one_measurement n g k st p (nth i targets 0) (nth i fo None) v W Hq Hp (HF i Hil) HD Hv)
      as (st1 & m & k1 & HM & W1 & D1 & V1 & HC & _).
    unfold measure_base_step at 1. rewrite (sqpo_ok n) by auto. cbn [bindR].
    change (mkRow (upd (nth i targets 0) (pbits p) (repeat pid n)) false) with (pop n p (nth i targets 0)).
    rewrite HM. cbn [bindR].
    destruct (IH st1 (upd i m res) k1 _ W1 D1 V1 ND') as (st' & ms & k' & v' & E & Lm & Nm & W' & D' & V' & HS).
    { intros; apply Hl; simpl; auto. }
    { rewrite length_upd; auto. }
    exists st', ms, k', v'. split; [auto|]. split; [auto|].
    assert (Em : nth i ms false = m). { rewrite Nm by auto. apply nth_upd_same. lia. }
    split. { intros j Hj. rewrite Nm. apply nth_upd_other. intros ->. apply Hj; simpl; auto. intros H; apply Hj; simpl; auto. }
    split; [auto|split; [auto|split; [auto|]]].
    destruct HC as [(HC & ->)|(HC & Hm & ->)].
    + apply measured_sure; rewrite Em; auto.
    + apply measured_random; rewrite ?Em; auto.
Qed.

(** The forced outcome of each target. *)
Definition wanted (forced : forced_arg) (i : nat) : option Z :=
  match forced with
  | ForcedOne o => o
  | ForcedSeq [o] => o
  | ForcedSeq l => nth i l None
  end.
Definition wanted_ok (forced : forced_arg) (targets : nat) : Prop :=
  match forced with
  | ForcedOne o => good_forced o
  | ForcedSeq l => Forall good_forced l /\ (length l = 1 \/ length l = targets)
  end.

Lemma nth_repeat_none {A} (o : A) n d i : i < n -> nth i (repeat o n) d = o.
Proof. intros. apply nth_repeat_lt; auto. Qed.

Lemma pad_ok forced targets : wanted_ok forced targets ->
  exists fo, pad_forced forced targets = Ok fo /\
    forall i, i < targets -> nth i fo None = wanted forced i /\ good_forced (wanted forced i).
Proof.
  intros H. unfold pad_forced. destruct forced as [o|l]; cbn [wanted_ok] in H.
  - eexists. split; [reflexivity|]. intros i Hi. rewrite nth_repeat_none by auto. auto.
  - destruct H as [HF HL]. assert (HG : forall i, i < length l -> good_forced (nth i l None)).
    { intros i Hi. rewrite Forall_forall in HF. apply HF, nth_In; auto. }
    destruct l as [|o [|o' l]].
    + destruct HL as [HL|HL]; [discriminate|]. cbn [length] in HL. subst targets. eexists. split; [reflexivity|]. intros i Hi. lia.
    + eexists. split; [reflexivity|]. intros i Hi. rewrite nth_repeat_none by auto. split; auto. apply (HG 0). simpl; lia.
    + destruct HL as [HL|HL]; [discriminate|]. subst targets. rewrite Nat.eqb_refl. eexists. split; [reflexivity|].
      intros i Hi. cbn [wanted]. auto.
Qed.

Lemma measured_ext_wanted n g P w w' m l k v k' v' : (forall i, In i l -> w i = w' i) ->
  measured n g P w m l k v k' v' -> measured n g P w' m l k v k' v'.
Proof.
  intros E H. induction H as [k v|i l k v k' v' He H IH|i l k v k' v' Hb Hm H IH].
  - constructor.
  - apply measured_sure; auto. apply IH. intros; apply E; simpl; auto.
  - assert (X : w i = w' i) by (apply E; simpl; auto). rewrite X in *. apply measured_random; auto.
    apply IH. intros; apply E; simpl; auto.
Qed.

(** What stays and what holds after a sequence of measurements. *)
Lemma measured_keep n g p targets w m r : length (ops r) = n ->
  forall l k v k' v', measured n g (fun i => single n false p (nth i targets 0)) w m l k v k' v' ->
  (forall i, In i l -> symp (ops r) (upd (nth i targets 0) (pbits p) (repeat pid n)) = false) ->
  stabilises n (denote r) v -> stabilises n (denote r) v'.
Proof.
  intros Hr l k v k' v' H. induction H as [k v|i l k v k' v' He H IH|i l k v k' v' Hb Hm H IH]; intros HC Hs; auto.
  - apply IH. intros; apply HC; simpl; auto. rewrite <- denote_single. apply project_keep; auto. apply single_len.
    apply HC; simpl; auto.
  - apply IH. intros; apply HC; simpl; auto. rewrite <- denote_single. apply project_keep; auto. apply single_len.
    apply HC; simpl; auto.
Qed.

Lemma same_letter_commutes n p q q' : q < n -> q' < n ->
  symp (upd q (pbits p) (repeat pid n)) (upd q' (pbits p) (repeat pid n)) = false.
Proof.
  intros Hq Hq'. rewrite (symp_single n) by (auto; apply single_len). rewrite nth_upd.
  destruct ((q =? q') && (q <? length (repeat pid n))).
  - unfold sp1. destruct p; reflexivity.
  - rewrite nth_repeat_lt by auto. reflexivity.
Qed.

Lemma measured_eigen n g p targets w m : (forall i, i < length targets -> nth i targets 0 < n) ->
  forall l k v k' v', measured n g (fun i => single n false p (nth i targets 0)) w m l k v k' v' ->
  (forall i, In i l -> i < length targets) ->
  forall i, In i l -> veq n (papply (single n false p (nth i targets 0)) v') (vscale (sgn (m i)) v').
Proof.
  intros HT l k v k' v' H.
  induction H as [k v|i l k v k' v' He H IH|i l k v k' v' Hb Hm H IH]; intros Hl j Hj; [destruct Hj| | ];
    (destruct Hj as [->|Hj]; [|apply IH; auto; intros; apply Hl; simpl; auto]);
    apply stab_eigen; (eapply measured_keep; [apply single_len|eassumption| | ]).
  1, 3: intros i Hi; cbn [ops]; apply same_letter_commutes; apply HT, Hl; simpl; auto.
  all: rewrite <- denote_single;
    pose proof (project_new n (mkRow (upd (nth j targets 0) (pbits p) (repeat pid n)) false) (m j) v (single_len n p _)) as PN;
    cbn [ops neg] in PN; rewrite xorb_false_l in PN; exact PN.
Qed.
