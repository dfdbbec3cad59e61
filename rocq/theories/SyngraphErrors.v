(** Error histories as selections of edges of the syndrome graph, and results as Pauli frames. *)
Require Import List Bool Arith ZArith QArith Lia Relations.
From Verif Require Import Base BaseProofs QSpec PauliModel PauliSem PauliProofs PauliAlg MeasureProofs GraphSpec GraphProofs GraphComponents
  LatticeSpec LatticeOps GeneratorSpec
  ErasureModel ErasureProofs SyngraphModel SyngraphBuild SyngraphDup SyngraphComp SyngraphObjs SyngraphProofs.
Import ListNotations.
Open Scope nat_scope.
Local Arguments incident : simpl never.
Local Arguments upd : simpl never.

(** Whether the error of an edge is part of an error history. *)
Definition happened (H : nat -> nat -> bool * bool) (F : nat -> nat -> bool) (k : ekind) : bool :=
  match k with
  | QubitError t _ q PX => fst (H t q)
  | QubitError t _ q PZ => snd (H t q)
  | QubitError _ _ _ _ => false
  | StabError t s => F t s
  end.

Lemma boundary_list (L : list (list nat * ekind)) (p : ekind -> bool) d v :
  boundary (map fst L) (fun i => p (nth i (map snd L) d)) v =
  parity (map (fun e => p (snd e) && existsb (Nat.eqb v) (fst e)) L).
Proof.
  unfold boundary. rewrite map_length.
  set (f := fun e : list nat * ekind => p (snd e) && existsb (Nat.eqb v) (fst e)).
  rewrite (parity_ext _ (fun i => f (nth i L ([], d)))).
  - f_equal. rewrite <- (map_map (fun i => nth i L ([], d)) f). f_equal. clear.
    induction L as [|e L IH]; cbn; auto. f_equal. rewrite <- seq_shift, map_map. auto.
  - intros i I. apply in_seq in I. unfold f, incident.
    rewrite <- (map_nth snd), <- (map_nth fst). reflexivity.
Qed.

Lemma parity_app l1 l2 : parity (l1 ++ l2) = xorb (parity l1) (parity l2).
Proof. unfold parity. induction l1 as [|b l1 IH]; cbn [app fold_right]; [destruct (fold_right xorb false l2); auto|]. rewrite IH, xorb_assoc. auto. Qed.

Lemma parity_flat {A B} (f : B -> bool) (g : A -> list B) l :
  parity (map f (flat_map g l)) = parity (map (fun a => parity (map f (g a))) l).
Proof.
  induction l as [|a l IH]; [reflexivity|]. cbn [flat_map map]. rewrite map_app, parity_app, IH. reflexivity.
Qed.

Lemma mem_offset a v l : existsb (Nat.eqb (a + v)) (map (fun s => a + s) l) = existsb (Nat.eqb v) l.
Proof.
  induction l as [|s l IH]; cbn; auto. rewrite IH. f_equal.
  destruct (Nat.eqb_spec v s) as [->|D]; [apply Nat.eqb_refl|apply Nat.eqb_neq; lia].
Qed.

Lemma mem_nonzero l s : existsb (Nat.eqb s) (nonzero l) = nth s l false.
Proof.
  apply eq_true_iff_eq. rewrite existsb_exists. split.
  - intros (x & I & X). apply Nat.eqb_eq in X. subst x. apply nonzero_in in I. tauto.
  - intros X. exists s. split; [|apply Nat.eqb_refl]. apply nonzero_in. split; auto.
    destruct (Nat.lt_ge_cases s (length l)); auto. rewrite nth_overflow in X; [discriminate|auto].
Qed.

Lemma ops_map r k : length (ops r) = k -> ops r = map (fac r) (seq 0 k).
Proof.
  intros L. apply list_ext with (d := (false, false)); [rewrite map_length, seq_length; auto|].
  intros i Li. rewrite nth_map_seq by lia. reflexivity.
Qed.

Lemma sign_anti a b k : length (ops a) = k -> length (ops b) = k ->
  commutator_sign a b = anti (seq 0 k) (fac a) (fac b).
Proof.
  intros La Lb. rewrite commutator_sign_symp by congruence. rewrite (ops_map a k La), (ops_map b k Lb).
  apply symp_anti.
Qed.

Lemma anti_single k q p f : q < k ->
  anti (seq 0 k) (fac (mkRow (upd q p (repeat (false, false) k)) false)) f = sp p (f q).
Proof.
  intros L. unfold anti. rewrite (GraphProofs.parity_ext _ (fun d => (d =? q) && sp p (f q))).
  2: { intros d I. apply in_seq in I. unfold fac. cbn [ops]. rewrite nth_upd, repeat_length.
       destruct (Nat.eqb_spec q d) as [->|D].
       - rewrite Nat.eqb_refl. assert (X : d <? k = true) by (apply Nat.ltb_lt; lia). rewrite X. reflexivity.
       - cbn [andb]. rewrite nth_repeat_lt by lia. rewrite (proj2 (Nat.eqb_neq d q)) by auto. reflexivity. }
  change (fold_right xorb false) with parity.
  rewrite (parity_one _ q).
  - rewrite Nat.eqb_refl. auto.
  - apply seq_NoDup.
  - apply in_seq. lia.
  - intros d I D. rewrite (proj2 (Nat.eqb_neq d q)) by auto. reflexivity.
Qed.

Lemma seq_offset a k : map (fun q => a + q) (seq 0 k) = seq a k.
Proof.
  apply list_ext with (d := 0); [rewrite map_length, !seq_length; auto|]. intros i L.
  rewrite map_length, seq_length in L. rewrite nth_map_seq, seq_nth; auto.
Qed.

Section Pattern.
Variables (rounds : nat) (n : nat) (gens : list row).
Notation m := (length gens).
Hypothesis Hg : forall g, In g gens -> length (ops g) = n.
Variables (H : nat -> nat -> bool * bool) (F : nat -> nat -> bool).
Hypothesis F0 : forall s, s < m -> F 0 s = false.
Hypothesis F1 : forall s, s < m -> F rounds s = false.

Lemma nth_gens s : s < m -> length (ops (nth s gens row0)) = n.
Proof. intros L. apply Hg, nth_In; auto. Qed.

Lemma touched_in op s : s < m -> existsb (Nat.eqb s) (touched gens op) = commutator_sign op (nth s gens row0).
Proof.
  intros L. unfold touched. rewrite mem_nonzero.
  rewrite (nth_indep _ false (commutator_sign op row0)) by (rewrite map_length; auto). apply map_nth.
Qed.

Lemma touched_other op a v t : t <> a -> v < m ->
  existsb (Nat.eqb (t * m + v)) (map (fun s => a * m + s) (touched gens op)) = false.
Proof.
  intros D L. destruct (existsb _ _) eqn:X; auto. apply existsb_exists in X. destruct X as (x & I & X).
  apply Nat.eqb_eq in X. apply in_map_iff in I. destruct I as (s & <- & I). apply touched_lt in I.
  exfalso. apply D. nia.
Qed.

Lemma qubit_part t s : t < rounds -> s < m ->
  parity (map (fun e => happened H F (snd e) && existsb (Nat.eqb (t * m + s)) (fst e))
    (flat_map (fun t => map (qubit_edge n gens t) (seq 0 (2 * n))) (seq 0 rounds))) =
  anti (seq 0 n) (fac (nth s gens row0)) (H t).
Proof.
  intros Lt Ls. rewrite parity_flat. rewrite (parity_one _ t).
  - rewrite map_map. set (f := fun k => _ && _).
    replace (2 * n) with (n + n) by lia. rewrite seq_app, map_app, parity_app.
    replace (map f (seq (0 + n) n)) with (map (fun q => f (n + q)) (seq 0 n)).
    2: { rewrite <- (map_map (fun q => n + q) f), seq_offset. reflexivity. }
    rewrite <- parity_xor. unfold anti. fold (parity (map (fun d => sp (fac (nth s gens row0) d) (H t d)) (seq 0 n))).
    apply parity_ext. intros q I. apply in_seq in I. unfold f. cbn [qubit_edge fst snd].
    rewrite !mem_offset, !touched_in by auto.
    rewrite !nth_the_ops by lia. unfold letter_of.
    rewrite (proj2 (Nat.ltb_lt q n)) by lia. rewrite (proj2 (Nat.ltb_ge (n + q) n)) by lia.
    replace (n + q - n) with q by lia. cbn [fst snd happened].
    rewrite !(sign_anti _ _ n) by (try apply nth_gens; auto; cbn [x_op z_op ops]; rewrite length_upd, repeat_length; auto).
    unfold x_op, z_op. rewrite !anti_single by lia. unfold sp. cbn [fst snd].
    destruct (H t q) as [[] []], (fac (nth s gens row0) q) as [[] []]; reflexivity.
  - apply seq_NoDup.
  - apply in_seq. lia.
  - intros a I D. rewrite map_map. apply parity_false. intros k _. cbn [qubit_edge fst snd].
    rewrite touched_other by auto. apply andb_false_r.
Qed.

Lemma stab_part t s : t < rounds -> s < m ->
  parity (map (fun e => happened H F (snd e) && existsb (Nat.eqb (t * m + s)) (fst e))
    (flat_map (fun t => map (stab_edge gens t) (seq 0 m)) (seq 1 (rounds - 1)))) =
  xorb (F t s) (F (S t) s).
Proof.
  intros Lt Ls. rewrite parity_flat.
  rewrite (parity_ext _ (fun a => xorb ((a =? t) && F a s) ((a =? S t) && F a s))).
  - rewrite parity_xor. f_equal.
    + destruct (Nat.eq_dec t 0) as [->|D].
      * rewrite F0 by auto. apply parity_false. intros a I. apply in_seq in I.
        rewrite (proj2 (Nat.eqb_neq a 0)) by lia. auto.
      * rewrite (parity_one _ t); [rewrite Nat.eqb_refl; auto|apply seq_NoDup|apply in_seq; lia|].
        intros a _ D'. rewrite (proj2 (Nat.eqb_neq a t)) by auto. auto.
    + destruct (Nat.eq_dec (S t) rounds) as [D|D].
      * rewrite D, F1 by auto. apply parity_false. intros a I. apply in_seq in I.
        rewrite (proj2 (Nat.eqb_neq a rounds)) by lia. auto.
      * rewrite (parity_one _ (S t)); [rewrite Nat.eqb_refl; auto|apply seq_NoDup|apply in_seq; lia|].
        intros a _ D'. rewrite (proj2 (Nat.eqb_neq a (S t))) by auto. auto.
  - intros a I. apply in_seq in I. rewrite map_map. cbn [stab_edge fst snd happened existsb].
    rewrite (parity_one _ s).
    + destruct (Nat.eqb_spec a t) as [->|D1].
      * rewrite (proj2 (Nat.eqb_neq t (S t))) by lia. rewrite Nat.eqb_refl. cbn [andb orb].
        rewrite !orb_true_r, andb_true_r, xorb_false_r. auto.
      * destruct (Nat.eqb_spec a (S t)) as [->|D2].
        -- replace (S t - 1) with t by lia. rewrite Nat.eqb_refl. cbn [andb orb]. rewrite andb_true_r, xorb_false_l. auto.
        -- cbn [andb xorb]. destruct a as [|a]; [lia|]. replace (S a - 1) with a by lia.
           rewrite (proj2 (Nat.eqb_neq (t * m + s) (a * m + s))) by nia.
           rewrite (proj2 (Nat.eqb_neq (t * m + s) (S a * m + s))) by nia. cbn. apply andb_false_r.
    + apply seq_NoDup.
    + apply in_seq. lia.
    + intros s' I' D. apply in_seq in I'. destruct a as [|a]; [lia|]. replace (S a - 1) with a by lia.
      rewrite (proj2 (Nat.eqb_neq (t * m + s) (a * m + s'))).
      2: { intros X. apply D. assert (t = a) by nia. nia. }
      rewrite (proj2 (Nat.eqb_neq (t * m + s) (S a * m + s'))).
      2: { intros X. apply D. assert (t = S a) by nia. nia. }
      cbn. apply andb_false_r.
Qed.

Theorem pattern_boundary t s d : t < rounds -> s < m ->
  boundary (map fst (the_edges rounds n gens)) (fun i => happened H F (nth i (map snd (the_edges rounds n gens)) d)) (t * m + s) =
  xorb (anti (seq 0 n) (fac (nth s gens row0)) (H t)) (xorb (F t s) (F (S t) s)).
Proof.
  intros Lt Ls. rewrite boundary_list. unfold the_edges. rewrite map_app, parity_app.
  rewrite qubit_part, stab_part by auto. auto.
Qed.
End Pattern.

(** * Products of many operators *)

Lemma sign_of_unit p : ziabs2 p = 1%Z -> exists b, sign_of_phase p = Ok b.
Proof.
  intros U. unfold sign_of_phase. destruct (negb (im p =? 0)%Z) eqn:A; [eauto|].
  destruct (negb (re p =? 0)%Z) eqn:B; [eauto|]. exfalso.
  apply negb_false_iff, Z.eqb_eq in A, B. unfold ziabs2 in U. rewrite A, B in U. discriminate.
Qed.

Lemma ipow_abs k : ziabs2 (ipow k) = 1%Z.
Proof.
  unfold ipow. assert (H : (0 <= k mod 4 < 4)%Z) by (apply Z.mod_pos_bound; lia).
  assert (C : (k mod 4 = 0 \/ k mod 4 = 1 \/ k mod 4 = 2 \/ k mod 4 = 3)%Z) by lia.
  destruct C as [-> |[-> |[-> | ->]]]; reflexivity.
Qed.

Lemma multiply2_unit ph a b : ziabs2 ph = 1%Z -> length (ops a) = length (ops b) ->
  exists r ph', multiply2 ph a b = Ok (r, ph') /\ ops r = xor_ops (ops a) (ops b) /\ ziabs2 ph' = 1%Z.
Proof.
  intros U L. unfold multiply2. rewrite L, Nat.eqb_refl. cbn [negb]. rewrite b2z_sgn.
  set (p := zimul _ _). assert (Up : ziabs2 p = 1%Z) by (unfold p; rewrite !ziabs2_mul, U, ipow_abs, sgn_abs; reflexivity).
  destruct (sign_of_unit p Up) as (b0 & ->). cbn [bindR]. eexists _, p. split; [reflexivity|]. auto.
Qed.

Definition xor_all (k : nat) (os : list row) : list (bool * bool) :=
  fold_right (fun o acc => xor_ops (ops o) acc) (repeat pid k) os.

Lemma length_xor_all k os : (forall o, In o os -> length (ops o) = k) -> length (xor_all k os) = k.
Proof.
  induction os as [|o os IH]; cbn; intros H; [apply repeat_length|].
  fold (xor_all k os). rewrite length_xor_ops; rewrite (H o) by (left; auto); auto.
  rewrite IH; auto.
Qed.

Lemma chain_ok k rest : forall ph last, ziabs2 ph = 1%Z -> length (ops last) = k ->
  (forall o, In o rest -> length (ops o) = k) ->
  exists r ph', multiply_chain ph last rest = Ok (r, ph') /\ ops r = xor_ops (xor_all k rest) (ops last).
Proof.
  induction rest as [|o rest IH]; intros ph last U L H; cbn [multiply_chain].
  - eexists _, _. split; [reflexivity|]. cbn. rewrite xor_ops_id_l; auto.
  - assert (Lo : length (ops o) = k) by (apply H; left; auto).
    destruct (multiply2_unit ph o last U) as (r & ph' & -> & R & U'); [congruence|]. cbn [bindR fst snd].
    destruct (IH ph' r U') as (r' & ph'' & -> & R').
    + rewrite R, length_xor_ops; congruence.
    + intros; apply H; right; auto.
    + eexists _, _. split; [reflexivity|]. rewrite R', R. cbn [xor_all fold_right]. fold (xor_all k rest).
      rewrite xor_ops_assoc. f_equal. apply xor_ops_comm.
Qed.

Lemma xor_all_app k a b : (forall o, In o (a ++ b) -> length (ops o) = k) ->
  xor_all k (a ++ b) = xor_ops (xor_all k a) (xor_all k b).
Proof.
  induction a as [|o a IH]; intros H.
  - cbn. rewrite xor_ops_id_l; auto. apply length_xor_all. auto.
  - change (xor_all k ((o :: a) ++ b)) with (xor_ops (ops o) (xor_all k (a ++ b))).
    rewrite IH by (intros; apply H; right; auto).
    change (xor_all k (o :: a)) with (xor_ops (ops o) (xor_all k a)). apply xor_ops_assoc.
Qed.

Lemma xor_all_rev k a : (forall o, In o a -> length (ops o) = k) -> xor_all k (rev a) = xor_all k a.
Proof.
  induction a as [|o a IH]; intros H; auto. cbn [rev]. rewrite xor_all_app.
  - rewrite IH by (intros; apply H; right; auto). cbn. rewrite xor_ops_id_r by (apply H; left; auto). apply xor_ops_comm.
  - intros x I. apply H. apply in_app_or in I. destruct I as [I|[<-|[]]]; [right; apply in_rev; auto|left; auto].
Qed.

Lemma multiply_any k os : os <> [] -> (forall o, In o os -> length (ops o) = k) ->
  exists r ph, multiply os = Ok (r, ph) /\ ops r = xor_all k os.
Proof.
  intros NE H. rewrite <- (xor_all_rev k os) by auto. unfold multiply. destruct (rev os) as [|l rest] eqn:R.
  - exfalso. apply NE. rewrite <- (rev_involutive os), R. auto.
  - assert (H' : forall o, In o (l :: rest) -> length (ops o) = k).
    { intros o I. apply H. apply in_rev. rewrite R. auto. }
    assert (Ll : length (ops l) = k) by (apply H'; left; auto).
    assert (X : xor_all k (l :: rest) = xor_ops (xor_all k rest) (ops l)) by apply xor_ops_comm.
    destruct rest as [|o rest].
    + eexists _, _. split; [reflexivity|]. rewrite X. cbn. rewrite xor_ops_id_l; auto.
    + rewrite X. apply chain_ok; auto. intros; apply H'; right; auto.
Qed.

Lemma nth_xor_ops a : forall b q, length a = length b ->
  nth q (xor_ops a b) (false, false) = pxor (nth q a (false, false)) (nth q b (false, false)).
Proof.
  induction a as [|[x z] a IH]; intros [|[x' z'] b] q L; cbn in L; try lia; destruct q; cbn; auto.
Qed.

Lemma nth_xor_all k os q : (forall o, In o os -> length (ops o) = k) ->
  nth q (xor_all k os) (false, false) =
  (parity (map (fun o => fst (fac o q)) os), parity (map (fun o => snd (fac o q)) os)).
Proof.
  induction os as [|o os IH]; intros H.
  - cbn. destruct (Nat.lt_ge_cases q k); [rewrite nth_repeat_lt; auto|rewrite nth_overflow; auto; rewrite repeat_length; auto].
  - change (xor_all k (o :: os)) with (xor_ops (ops o) (xor_all k os)).
    rewrite nth_xor_ops.
    + rewrite IH by (intros; apply H; right; auto). reflexivity.
    + rewrite length_xor_all by (intros; apply H; right; auto). apply H; left; auto.
Qed.

(** * Selected errors *)

Definition op_index (k : ekind) (j : nat) : bool := match k with QubitError _ op _ _ => op =? j | StabError _ _ => false end.

Lemma selection_fold L : forall sel, (forall t op q p b, In (QubitError t op q p, b) L -> op < length sel) ->
  exists sel', foldR (fun sel (kr : ekind * bool) =>
                match fst kr with
                | QubitError _ op _ _ => do b <- get sel op; put sel op (xorb b (snd kr))
                | StabError _ _ => Ok sel
                end) L sel = Ok sel' /\ length sel' = length sel /\
    forall j, nth j sel' false = xorb (nth j sel false) (parity (map (fun kr => op_index (fst kr) j && snd kr) L)).
Proof.
  induction L as [|[k b] L IH]; intros sel H; cbn [foldR].
  - exists sel. split; [auto|]. split; [auto|]. intros. cbn. rewrite xorb_false_r. auto.
  - cbn [fst snd]. destruct k as [t op q p|t s].
    + assert (Lo : op < length sel) by (apply (H t op q p b); left; auto).
      rewrite (get_nth _ _ false) by auto. cbn [bindR]. rewrite put_upd by auto. cbn [bindR].
      destruct (IH (upd op (xorb (nth op sel false) b) sel)) as (sel' & -> & L' & X).
      { intros t' op' q' p' b' I. rewrite length_upd. apply (H t' op' q' p' b'). right; auto. }
      exists sel'. split; [auto|]. rewrite length_upd in L'. split; [auto|]. intros j. rewrite X, nth_upd.
      change (parity (map ?f (?a :: L))) with (xorb (f a) (parity (map f L))). cbn [fst snd op_index].
      apply Nat.ltb_lt in Lo. rewrite Lo, andb_true_r. destruct (Nat.eqb_spec op j) as [->|].
      * cbn [andb]. apply xorb_assoc.
      * cbn [andb]. rewrite xorb_false_l. auto.
    + cbn [bindR]. destruct (IH sel) as (sel' & -> & L' & X).
      { intros; eapply H; right; eauto. }
      exists sel'. split; [auto|]. split; [auto|]. intros j. rewrite X.
      change (parity (map ?f (?a :: L))) with (xorb (f a) (parity (map f L))). cbn [fst snd op_index andb].
      rewrite xorb_false_l. auto.
Qed.

Lemma parity_nonzero (f : nat -> bool) sel : parity (map f (nonzero sel)) =
  parity (map (fun j => nth j sel false && f j) (seq 0 (length sel))).
Proof.
  unfold nonzero. symmetry. rewrite (parity_filter (fun j => nth j sel false && f j) (fun i => nth i sel false)).
  - apply parity_ext. intros j I. apply filter_In in I. destruct I as [_ ->]. auto.
  - intros j _ X. apply andb_true_iff in X. tauto.
Qed.

(** * Indices of the edges *)

Section Index.
Variables (rounds n : nat) (gens : list row).
Notation m := (length gens).
Hypothesis Hm : 0 < m.
Notation L := (the_edges rounds n gens).

Definition qi (t k : nat) : nat := t * (2 * n) + k.
Definition si (t s : nat) : nat := rounds * (2 * n) + ((t - 1) * m + s).

Lemma length_qubit_part : length (flat_map (fun t => map (qubit_edge n gens t) (seq 0 (2 * n))) (seq 0 rounds)) = rounds * (2 * n).
Proof.
  rewrite (flat_map_length_const _ (2 * n)), seq_length; auto. intros; rewrite map_length, seq_length; auto.
Qed.

Lemma length_the_edges : length L = rounds * (2 * n) + (rounds - 1) * m.
Proof.
  unfold the_edges. rewrite app_length, length_qubit_part. f_equal.
  rewrite (flat_map_length_const _ m), seq_length; auto. intros; rewrite map_length, seq_length; auto.
Qed.

Lemma nth_map_any {A} (f : nat -> A) k i d : i < k -> nth i (map f (seq 0 k)) d = f i.
Proof. apply nth_map_seq. Qed.

Lemma qi_lt t k : t < rounds -> k < 2 * n -> qi t k < rounds * (2 * n).
Proof.
  intros Lt Lk. assert (A : S t * (2 * n) <= rounds * (2 * n)) by (apply Nat.mul_le_mono_r; lia).
  rewrite Nat.mul_succ_l in A. unfold qi. lia.
Qed.

Lemma nth_qi t k d : t < rounds -> k < 2 * n -> nth (qi t k) L d = qubit_edge n gens t k.
Proof.
  intros Lt Lk. pose proof (qi_lt t k Lt Lk). unfold the_edges, qi in *. rewrite app_nth1 by (rewrite length_qubit_part; auto).
  rewrite (nth_flat_map _ (2 * n) _ d 0); auto.
  - rewrite seq_nth by auto. cbn [plus]. apply nth_map_any; auto.
  - intros; rewrite map_length, seq_length; auto.
  - rewrite seq_length; auto.
Qed.

Lemma nth_si t s d : 0 < t < rounds -> s < m -> nth (si t s) L d = stab_edge gens t s.
Proof.
  intros Lt Ls. unfold the_edges, si. rewrite app_nth2 by (rewrite length_qubit_part; apply Nat.le_add_r).
  rewrite length_qubit_part, Nat.add_comm, Nat.add_sub.
  rewrite (nth_flat_map _ m _ d 0); auto.
  - rewrite seq_nth by lia. replace (1 + (t - 1)) with t by lia. apply nth_map_any; auto.
  - intros; rewrite map_length, seq_length; auto.
  - rewrite seq_length; lia.
Qed.

Lemma index_cases i : i < length L ->
  (exists t k, t < rounds /\ k < 2 * n /\ i = qi t k) \/ (exists t s, 0 < t < rounds /\ s < m /\ i = si t s).
Proof.
  rewrite length_the_edges. intros Li. destruct (Nat.lt_ge_cases i (rounds * (2 * n))) as [A|A].
  - left. assert (N : 2 * n <> 0) by nia. exists (i / (2 * n)), (i mod (2 * n)). unfold qi.
    pose proof (Nat.div_mod i (2 * n) N). pose proof (Nat.mod_upper_bound i (2 * n) N).
    split; [|split; auto; lia]. apply Nat.div_lt_upper_bound; auto. lia.
  - right. set (j := i - rounds * (2 * n)). assert (N : m <> 0) by lia.
    exists (S (j / m)), (j mod m). unfold si. replace (S (j / m) - 1) with (j / m) by lia.
    pose proof (Nat.div_mod j m N). pose proof (Nat.mod_upper_bound j m N).
    assert (j / m < rounds - 1) by (apply Nat.div_lt_upper_bound; auto; unfold j in *; lia).
    split; [lia|]. split; auto. unfold j in *. lia.
Qed.

(** The history which is selected by a result. *)
Definition result_errors (res : list bool) (t q : nat) : bool * bool :=
  if t <? rounds then (nth (qi t q) res false, nth (qi t (n + q)) res false) else (false, false).
Definition result_flips (res : list bool) (t s : nat) : bool :=
  (0 <? t) && (t <? rounds) && nth (si t s) res false.

Lemma result_happened res i d : i < length L ->
  happened (result_errors res) (result_flips res) (nth i (map snd L) d) = nth i res false.
Proof.
  intros Li. rewrite (nth_indep _ d (snd (@nil nat, d))) by (rewrite map_length; auto). rewrite map_nth.
  destruct (index_cases i Li) as [(t & k & Lt & Lk & ->)|(t & s & Lt & Ls & ->)].
  - rewrite nth_qi by auto. cbn [qubit_edge snd]. unfold letter_of, result_errors.
    pose proof Lt as Lt'. apply Nat.ltb_lt in Lt'. destruct (Nat.ltb_spec k n); cbn [fst snd happened]; rewrite Lt'; cbn [fst snd]; auto.
    replace (n + (k - n)) with k by lia. auto.
  - rewrite nth_si by auto. cbn [stab_edge snd happened]. unfold result_flips.
    rewrite (proj2 (Nat.ltb_lt 0 t)), (proj2 (Nat.ltb_lt t rounds)) by lia. auto.
Qed.

Hypothesis Hg : forall g, In g gens -> length (ops g) = n.

Lemma parity_telescope (f : nat -> bool) k : parity (map (fun t => xorb (f t) (f (S t))) (seq 0 k)) = xorb (f 0) (f k).
Proof.
  induction k as [|k IH]; [cbn; rewrite xorb_nilpotent; auto|].
  rewrite seq_snoc, map_app, parity_app, IH. cbn. rewrite xorb_false_r.
  rewrite xorb_assoc. f_equal. rewrite <- xorb_assoc, xorb_nilpotent, xorb_false_l. auto.
Qed.

Lemma anti_parity D f (h : nat -> nat -> bool * bool) l :
  anti D f (fun q => (parity (map (fun t => fst (h t q)) l), parity (map (fun t => snd (h t q)) l))) =
  parity (map (fun t => anti D f (h t)) l).
Proof.
  induction l as [|t l IH].
  - cbn. apply anti_zero. intros d _. unfold sp. cbn. rewrite !andb_false_r. auto.
  - change (parity (map (fun t => anti D f (h t)) (t :: l))) with (xorb (anti D f (h t)) (parity (map (fun t => anti D f (h t)) l))).
    rewrite <- IH, <- anti_xor_r. reflexivity.
Qed.

(** The errors of all rounds together anticommute with a generator exactly if its syndrome bits
    of all rounds have odd parity. *)
Lemma frame_syndrome res syn s : s < m ->
  (forall t, t < rounds -> boundary (map fst L) (bits res) (t * m + s) = syn t s) ->
  anti (seq 0 n) (fac (nth s gens row0))
    (fun q => (parity (map (fun t => fst (result_errors res t q)) (seq 0 rounds)),
               parity (map (fun t => snd (result_errors res t q)) (seq 0 rounds)))) =
  parity (map (fun t => syn t s) (seq 0 rounds)).
Proof.
  intros Ls HB. rewrite anti_parity.
  assert (Z0 : result_flips res 0 s = false) by reflexivity.
  assert (Z1 : result_flips res rounds s = false).
  { unfold result_flips. rewrite Nat.ltb_irrefl, andb_false_r. auto. }
  rewrite (parity_ext _ (fun t => xorb (syn t s) (xorb (result_flips res t s) (result_flips res (S t) s))) (seq 0 rounds)).
  - rewrite parity_xor, parity_telescope, Z0, Z1. cbn. rewrite xorb_false_r. auto.
  - intros t I. apply in_seq in I. rewrite <- HB by lia.
    assert (X : boundary (map fst L) (bits res) (t * m + s) =
      boundary (map fst L) (fun i => happened (result_errors res) (result_flips res) (nth i (map snd L) (StabError 0 0))) (t * m + s)).
    { apply boundary_ext. intros i Ii. rewrite map_length in Ii. symmetry. apply result_happened; auto. }
    rewrite X, pattern_boundary by (auto; try lia; intros; unfold result_flips; rewrite ?Nat.ltb_irrefl, ?andb_false_r; auto).
    rewrite xorb_assoc, xorb_nilpotent, xorb_false_r. auto.
Qed.

(** The parity of the results for one operator. *)
Lemma op_parity res j : j < 2 * n -> length res = length L ->
  parity (map (fun kr => op_index (fst kr) j && snd kr) (combine (map snd L) res)) =
  parity (map (fun t => nth (qi t j) res false) (seq 0 rounds)).
Proof.
  intros Lj LR.
  assert (X : map (fun kr : ekind * bool => op_index (fst kr) j && snd kr) (combine (map snd L) res) =
    map (fun i => op_index (snd (nth i L ([], StabError 0 0))) j && nth i res false) (seq 0 (length L))).
  { apply list_ext with (d := false); [rewrite !map_length, combine_length, map_length, seq_length; lia|].
    intros i Li. rewrite map_length, combine_length, map_length, LR, Nat.min_id in Li.
    rewrite nth_map_seq by auto.
    set (f := fun kr : ekind * bool => op_index (fst kr) j && snd kr).
    rewrite (nth_indep _ false (f (StabError 0 0, false))) by (rewrite map_length, combine_length, map_length; lia).
    rewrite map_nth, combine_nth by (rewrite map_length; auto). unfold f. cbn [fst snd].
    rewrite (nth_indep _ (StabError 0 0) (snd ([] : list nat, StabError 0 0))) by (rewrite map_length; auto).
    rewrite map_nth. auto. }
  rewrite X, length_the_edges. clear X. rewrite seq_app, map_app, parity_app.
  rewrite (parity_false _ (seq (0 + rounds * (2 * n)) ((rounds - 1) * m))).
  - rewrite xorb_false_r.
    assert (G : forall r, r <= rounds -> parity (map (fun i => op_index (snd (nth i L ([], StabError 0 0))) j && nth i res false) (seq 0 (r * (2 * n)))) =
       parity (map (fun t => nth (qi t j) res false) (seq 0 r))).
    { induction r as [|r IH]; intros Lr; [reflexivity|].
      replace (S r * (2 * n)) with (r * (2 * n) + 2 * n) by lia.
      rewrite seq_app, map_app, parity_app, IH by lia. rewrite (seq_snoc 0 r), map_app, parity_app. f_equal.
      rewrite (parity_one _ (qi r j)).
      - rewrite nth_qi by lia. cbn [qubit_edge snd op_index]. rewrite Nat.eqb_refl. cbn. rewrite xorb_false_r. auto.
      - apply seq_NoDup.
      - apply in_seq. unfold qi. lia.
      - intros i I D. apply in_seq in I. unfold qi in D.
        replace i with (qi r (i - r * (2 * n))) by (unfold qi; lia). rewrite nth_qi by lia.
        cbn [qubit_edge snd op_index]. rewrite (proj2 (Nat.eqb_neq _ _)) by lia. auto. }
    apply G. auto.
  - intros i I. apply in_seq in I. destruct (index_cases i) as [(t & k & Lt & Lk & ->)|(t & s & Lt & Ls & ->)].
    + rewrite length_the_edges. lia.
    + exfalso. pose proof (qi_lt t k Lt Lk). lia.
    + rewrite nth_si by auto. reflexivity.
Qed.
End Index.
