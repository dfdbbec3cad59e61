(** Lemmas: union find with split edges. *)
Require Import List Bool Arith Lia QArith Qround Lqa.
From Verif Require Import Base BaseProofs ErasureModel UnionFindModel GraphSpec GraphProofs
  ErasureProofs ErasureForest UnionFindTree UnionFindInv UnionFindOps UnionFindInit UnionFindStep UnionFindFinal SplitModel.
Import ListNotations.
Open Scope nat_scope.

Local Arguments upd : simpl never.
Local Arguments bits : simpl never.

Section I.
Variables (n : nat) (edges : list (list nat)).
Hypothesis WF : well_formed n edges.
Notation m := (length edges).
Notation link := (link edges).
Notation uobj := (uobj n edges).


Lemma attach_any (P : nat -> bool) i adj : i < m -> P i = false ->
  nbr_ok n edges P adj ->
  exists adj', attach i (nth i edges []) adj = Ok adj' /\ nbr_ok n edges (fun j => P j || (j =? i)) adj'.
Proof.
  intros Li Pi [LA NB].
  assert (OFF : forall v j o, In (j, o) (nth v adj []) -> v < n -> j <> i).
  { intros v j o I L. destruct (NB v L) as [_ X]. apply X in I. destruct I as [I _].
    intros ->. congruence. }
  assert (NDA : forall v o, v < n -> NoDup (nth v adj [] ++ [(i, o)])).
  { intros v o L. apply nodup_app; [apply NB; auto|repeat constructor; auto|].
    intros x I [<-|[]]. apply OFF in I; auto. }
  assert (OTHER : forall v j o, j <> i -> (((P j || (j =? i)) = true /\ link j v o) <->
                                                    (P j = true /\ link j v o))).
  { intros v j o D. apply Nat.eqb_neq in D. rewrite D, orb_false_r. tauto. }
  destruct (edge_cases n edges WF i Li) as [(a & Ea & La)|(a & b & Ea & Dab & La & Lb)];
    rewrite (nth_error_nth _ _ _ Ea); cbn [attach].
  - rewrite (get_nth adj a []) by lia. cbn [bindR]. rewrite put_upd by lia.
    eexists. split; [reflexivity|]. split; [rewrite length_upd; auto|].
    assert (LI : forall v o, link i v o <-> v = a /\ o = None).
    { intros v o. unfold GraphProofs.link. rewrite Ea. split.
      - intros [[X ->]|(w & _ & [X|X])]; try discriminate. injection X as ->. auto.
      - intros [-> ->]. auto. }
    intros v Lv. destruct (NB v Lv) as [NV XV]. destruct (Nat.eq_dec v a) as [->|D].
    + rewrite nth_upd_same by lia. split; auto. intros j o. rewrite in_app_iff, XV. cbn [In].
      destruct (Nat.eq_dec j i) as [->|Dj].
      * rewrite LI, Pi, Nat.eqb_refl. split.
        -- intros [[X _]|[X|[]]]; [discriminate|]. injection X as <-. split; auto.
        -- intros [_ [_ ->]]. auto.
      * rewrite OTHER by auto. split; [intros [X|[X|[]]]; [auto|congruence]|auto].
    + rewrite nth_upd_other by auto. split; auto. intros j o. rewrite XV.
      destruct (Nat.eq_dec j i) as [->|Dj]; [|rewrite OTHER by auto; tauto].
      rewrite LI. split; [intros [X _]; congruence|tauto].
  - rewrite (get_nth adj a []) by lia. cbn [bindR]. rewrite put_upd by lia. cbn [bindR].
    rewrite (get_nth _ b []) by (rewrite length_upd; lia). cbn [bindR].
    rewrite put_upd by (rewrite length_upd; lia).
    eexists. split; [reflexivity|]. split; [rewrite !length_upd; auto|].
    assert (LI : forall v o, link i v o <-> (v = a /\ o = Some b) \/ (v = b /\ o = Some a)).
    { intros v o. unfold GraphProofs.link. rewrite Ea. split.
      - intros [[X ->]|(w & -> & [X|X])]; try discriminate; injection X; intros; subst; auto.
      - intros [[-> ->]|[-> ->]]; right; eauto. }
    rewrite (nth_upd_other) by auto.
    intros v Lv. destruct (NB v Lv) as [NV XV]. destruct (Nat.eq_dec v b) as [->|D].
    + rewrite nth_upd_same by (rewrite length_upd; lia). split; auto.
      intros j o. rewrite in_app_iff, XV. cbn [In]. destruct (Nat.eq_dec j i) as [->|Dj].
      * rewrite LI, Pi, Nat.eqb_refl. split.
        -- intros [[X _]|[X|[]]]; [discriminate|]. injection X as <-. split; auto.
        -- intros [_ [[X _]|[_ ->]]]; [congruence|auto].
      * rewrite OTHER by auto. split; [intros [X|[X|[]]]; [auto|congruence]|auto].
    + rewrite nth_upd_other by auto. destruct (Nat.eq_dec v a) as [->|Da].
      * rewrite nth_upd_same by lia. split; auto. intros j o. rewrite in_app_iff, XV. cbn [In].
        destruct (Nat.eq_dec j i) as [->|Dj].
        -- rewrite LI, Pi, Nat.eqb_refl. split.
           ++ intros [[X _]|[X|[]]]; [discriminate|]. injection X as <-. split; auto.
           ++ intros [_ [[_ ->]|[X _]]]; [auto|congruence].
        -- rewrite OTHER by auto. split; [intros [X|[X|[]]]; [auto|congruence]|auto].
      * rewrite nth_upd_other by auto. split; auto. intros j o. rewrite XV.
        destruct (Nat.eq_dec j i) as [->|Dj]; [|rewrite OTHER by auto; tauto].
        rewrite LI. split; [intros [X _]; congruence|].
        intros [_ [[X _]|[X _]]]; congruence.
Qed.

End I.

(** * The split graph *)
Definition firsts (n i : nat) (edges : list (list nat)) : list (list nat) := map (fun ie => [hd 0 (snd ie); n + fst ie]) (combine (seq i (length edges)) edges).
Definition seconds (n i : nat) (edges : list (list nat)) : list (list nat) := map (fun ie => second_half n (fst ie) (snd ie)) (combine (seq i (length edges)) edges).
Definition halves (n : nat) (edges : list (list nat)) : list (list nat) := firsts n 0 edges ++ seconds n 0 edges.
Lemma numbered_len {A} (f : nat * list nat -> A) i (edges : list (list nat)) : length (map f (combine (seq i (length edges)) edges)) = length edges.
Proof. rewrite map_length, combine_length, seq_length. lia. Qed.
Lemma numbered_nth {A} (f : nat * list nat -> A) d : forall edges b i, i < length edges -> nth i (map f (combine (seq b (length edges)) edges)) d = f (b + i, nth i edges []).
Proof.
  induction edges as [|e edges IH]; intros b i L; cbn [length] in L; [lia|]. cbn [length seq combine map]. destruct i as [|i]; cbn [nth].
  - rewrite Nat.add_0_r. auto.
  - rewrite IH by lia. do 2 f_equal. lia.
Qed.
Lemma halves_len n edges : length (halves n edges) = 2 * length edges.
Proof. unfold halves, firsts, seconds. rewrite app_length, !numbered_len. lia. Qed.
Lemma halves_one n edges i : i < length edges -> nth i (halves n edges) [] = [hd 0 (nth i edges []); n + i].
Proof. intros L. unfold halves, firsts. rewrite app_nth1 by (rewrite numbered_len; auto). rewrite numbered_nth by auto. auto. Qed.
Lemma halves_two n edges i : i < length edges -> nth (length edges + i) (halves n edges) [] = second_half n i (nth i edges []).
Proof. intros L. unfold halves, firsts, seconds. rewrite app_nth2 by (rewrite numbered_len; lia). rewrite numbered_len. replace (length edges + i - length edges) with i by lia. rewrite numbered_nth by auto. auto. Qed.
Lemma edge_or n edges i : well_formed n edges -> i < length edges ->
  (exists v, nth i edges [] = [v] /\ v < n) \/ (exists u v, nth i edges [] = [u; v] /\ u <> v /\ u < n /\ v < n).
Proof. intros WF L. apply WF. apply nth_In. auto. Qed.
Lemma halves_wf n edges : well_formed n edges -> well_formed (n + length edges) (halves n edges).
Proof.
  intros WF e I. destruct (In_nth _ _ [] I) as (j & Lj & <-). rewrite halves_len in Lj. destruct (Nat.lt_ge_cases j (length edges)) as [L|L].
  - right. rewrite halves_one by auto. destruct (edge_or n edges j WF L) as [(u & -> & Lu)|(u & v & -> & _ & Lu & _)]; cbn [hd]; exists u, (n + j); repeat split; lia.
  - replace j with (length edges + (j - length edges)) by lia. set (i := j - length edges). assert (Li : i < length edges) by (unfold i; lia). rewrite halves_two by auto.
    destruct (edge_or n edges i WF Li) as [(v & -> & Lv)|(u & v & -> & _ & Lu & Lv)]; cbn [second_half].
    + left. exists (n + i). split; auto. lia.
    + right. exists (n + i), v. repeat split; lia.
Qed.

(** * Construction *)
Lemma looked_up N l : (forall x, In x l -> x < N) -> exists r, mapR (get (repeat tt N)) l = Ok r.
Proof.
  induction l as [|x l IHl]; intros Y; cbn [mapR]; [eauto|].
  rewrite (get_nth _ x tt) by (rewrite repeat_length; apply Y; left; auto). cbn [bindR].
  destruct IHl as [r R]; [intros y I; apply Y; right; auto|]. rewrite R. cbn [bindR]. eauto.
Qed.
Lemma skip_one {A} (d : A) : forall l i, i < length l -> skipn i l = nth i l d :: skipn (S i) l.
Proof. induction l as [|x l IH]; intros [|i] L; cbn [length] in L; try lia; auto. cbn [skipn nth]. rewrite IH by lia. auto. Qed.
Lemma first_more n edges i : i < length edges -> map (fun ie : nat * list nat => [hd 0 (snd ie); n + fst ie]) (combine (seq i (length edges - i)) (skipn i edges)) =
  [hd 0 (nth i edges []); n + i] :: map (fun ie : nat * list nat => [hd 0 (snd ie); n + fst ie]) (combine (seq (S i) (length edges - S i)) (skipn (S i) edges)).
Proof. intros L. rewrite (skip_one [] edges i L). replace (length edges - i) with (S (length edges - S i)) by lia. reflexivity. Qed.

Section New.
Variables (n : nat) (edges : list (list nat)).
Hypothesis WF : well_formed n edges.
Notation m := (length edges).
Notation body := (fun (s : list (list entry) * (list (list nat) * list (list nat))) (ie : nat * list nat) =>
             let '(adj, (one, two)) := s in
             do _ <- mapR (get (repeat tt (n + m))) (snd ie);
             do h <- first_half n (fst ie) (snd ie);
             do adj <- attach (fst ie) h adj;
             do adj <- attach (m + fst ie) (second_half n (fst ie) (snd ie)) adj;
             Ok (adj, (one ++ [h], two ++ [second_half n (fst ie) (snd ie)]))).
Lemma split_all : forall k i adj one two, k + i = m -> nbr_ok (n + m) (halves n edges) (fun j => (j <? i) || ((m <=? j) && (j <? m + i))) adj ->
  exists adj', foldR body (combine (seq i k) (skipn i edges)) (adj, (one, two)) =
    Ok (adj', (one ++ map (fun ie => [hd 0 (snd ie); n + fst ie]) (combine (seq i k) (skipn i edges)), two ++ map (fun ie => second_half n (fst ie) (snd ie)) (combine (seq i k) (skipn i edges)))) /\
    nbr_ok (n + m) (halves n edges) (fun j => (j <? m) || ((m <=? j) && (j <? m + m))) adj'.
Proof.
  induction k as [|k IH]; intros i adj one two E X.
  - exists adj. cbn [seq combine map foldR]. rewrite !app_nil_r. replace i with m in X by lia. auto.
  - assert (Li : i < m) by lia. rewrite (skip_one [] edges i Li). cbn [seq combine map]. cbn [foldR]. cbn [fst snd].
    destruct (looked_up (n + m) (nth i edges [])) as (r & ->).
    { intros x I. destruct (edge_or n edges i WF Li) as [(v & Ev & Lv)|(a & b & Ev & _ & La & Lb)]; rewrite Ev in I; cbn in I; intuition (subst; lia). }
    cbn [bindR].
    assert (FH : first_half n i (nth i edges []) = Ok [hd 0 (nth i edges []); n + i]) by (destruct (edge_or n edges i WF Li) as [(v & -> & Lv)|(a & b & -> & _)]; auto).
    rewrite FH. cbn [bindR].
    assert (P1 : ((i <? i) || ((m <=? i) && (i <? m + i))) = false) by (rewrite Nat.ltb_irrefl; destruct (Nat.leb_spec m i); [lia|auto]).
    destruct (attach_any (n + m) (halves n edges) (halves_wf n edges WF) (fun j => (j <? i) || ((m <=? j) && (j <? m + i))) i adj) as (adj1 & E1 & X1); auto; [rewrite halves_len; lia|].
    rewrite halves_one in E1 by auto. rewrite E1. cbn [bindR].
    assert (P2 : ((m + i <? i) || ((m <=? m + i) && (m + i <? m + i)) || (m + i =? i)) = false).
    { rewrite Nat.ltb_irrefl, andb_false_r. destruct (Nat.ltb_spec (m + i) i); [lia|]. destruct (Nat.eqb_spec (m + i) i); [lia|auto]. }
    destruct (attach_any (n + m) (halves n edges) (halves_wf n edges WF) (fun j => (j <? i) || ((m <=? j) && (j <? m + i)) || (j =? i)) (m + i) adj1) as (adj2 & E2 & X2); auto; [rewrite halves_len; lia|].
    rewrite halves_two in E2 by auto. rewrite E2. cbn [bindR].
    destruct (IH (S i) adj2 (one ++ [[hd 0 (nth i edges []); n + i]]) (two ++ [second_half n i (nth i edges [])])) as (adj' & E' & X'); [lia| |].
    { eapply nbr_is_ext; [exact X2|]. intros v j o _. cbn beta.
      replace ((j <? i) || ((m <=? j) && (j <? m + i)) || (j =? i) || (j =? m + i)) with ((j <? S i) || ((m <=? j) && (j <? m + S i))); [tauto|].
      destruct (Nat.ltb_spec j (S i)), (Nat.ltb_spec j i), (Nat.leb_spec m j), (Nat.ltb_spec j (m + S i)), (Nat.ltb_spec j (m + i)), (Nat.eqb_spec j i), (Nat.eqb_spec j (m + i)); cbn; auto; lia. }
    exists adj'. split; auto. rewrite E'. rewrite <- !app_assoc. reflexivity.
Qed.
Lemma new_split_ready : exists u, new_split n edges = Ok u /\ uready (n + m) (halves n edges) u /\ u_grow u = repeat new_growth (2 * m).
Proof.
  unfold new_split. destruct (split_all m 0 (repeat [] (n + m)) [] []) as (adj & E & X); [lia| |].
  { split; [apply repeat_length|]. intros v L.
    assert (NN : nth v (repeat (@nil entry) (n + m)) [] = []) by (rewrite nth_repeat; auto).
    rewrite NN. split; [constructor|]. intros i o. cbn [In]. split; [tauto|]. intros [Y _].
    destruct (Nat.ltb_spec i 0), (Nat.leb_spec m i), (Nat.ltb_spec i (m + 0)); cbn in Y; try discriminate; lia. }
  cbn [skipn] in E. rewrite E. cbn [bindR fst snd app]. eexists. split; [reflexivity|]. split; [|reflexivity].
  split; [|cbn; apply repeat_length]. constructor; cbn [u_ends u_adj u_grow].
  - auto.
  - eapply nbr_is_ext; [exact X|]. intros v i o _. cbn beta. split; [tauto|].
    intros [_ K]. split; auto. pose proof (link_lt (n + m) (halves n edges) (halves_wf n edges WF) i v o K) as L. rewrite halves_len in L.
    destruct (Nat.ltb_spec i m), (Nat.leb_spec m i), (Nat.ltb_spec i (m + m)); auto; lia.
  - rewrite halves_len. apply repeat_length.
  - intros g I. apply repeat_spec in I. subst. reflexivity.
Qed.

(** * Components *)
Lemma parity_zeros l (f : nat -> bool) : (forall x, In x l -> f x = false) -> parity (map f l) = false.
Proof. induction l as [|x l IH]; intros H; auto. cbn [map]. unfold parity in *. cbn [fold_right]. rewrite H by (left; auto). rewrite IH; auto. intros y I. apply H. right. auto. Qed.
Lemma parity_split syn S : length syn = n -> parity_on (n + m) (bits (syn ++ repeat false m)) S = parity_on n (bits syn) S.
Proof.
  intros L. unfold parity_on. rewrite seq_app, map_app.
  assert (PA : forall a b, parity (a ++ b) = xorb (parity a) (parity b)).
  { induction a as [|x a IH]; intros b; unfold parity in *; cbn [app fold_right]; [destruct (fold_right xorb false b); auto|]. rewrite IH, xorb_assoc. auto. }
  rewrite PA, (parity_zeros (seq (0 + n) m)).
  - rewrite xorb_false_r. f_equal. apply map_ext_in. intros v I. apply in_seq in I. unfold bits. rewrite app_nth1 by lia. auto.
  - intros v I. apply in_seq in I. unfold bits. rewrite app_nth2 by lia. rewrite nth_repeat. apply andb_false_r.
Qed.
Lemma even_down syn (one two : nat -> Prop) (dec : forall i, {two i} + {~ two i}) : length syn = n ->
  even_components (n + m) (halves n edges) (fun j => (j < m /\ one j) \/ (exists i, j = m + i /\ i < m /\ two i)) (bits (syn ++ repeat false m)) ->
  even_components n edges (fun i => i < m /\ one i /\ two i) (bits syn).
Proof.
  intros L EV S IS.
  set (S' := fun v => if v <? n then S v else let i := v - n in if dec i then match nth i edges [] with [_; b] => S b | _ => false end else S (hd 0 (nth i edges []))).
  assert (IN : forall v, v < n -> S' v = S v) by (intros v Lv; unfold S'; destruct (Nat.ltb_spec v n); [auto|lia]).
  assert (ADD : forall i, S' (n + i) = if dec i then match nth i edges [] with [_; b] => S b | _ => false end else S (hd 0 (nth i edges []))).
  { intros i. unfold S'. destruct (Nat.ltb_spec (n + i) n); [lia|]. replace (n + i - n) with i by lia. auto. }
  rewrite <- (EV S').
  - rewrite parity_split by auto. unfold parity_on. f_equal. apply map_ext_in. intros v I. apply in_seq in I. rewrite IN by lia. auto.
  - intros j [[Lj O]|(i & -> & Li & T)].
    + rewrite halves_one by auto. specialize (IS j). destruct (edge_or n edges j WF Lj) as [(v & Ev & Lv)|(a & b & Ev & _ & La & Lb)]; rewrite Ev in *; cbn [hd]; rewrite IN, ADD, Ev by auto.
      * destruct (dec j); auto. * destruct (dec j); auto.
    + rewrite halves_two by auto. destruct (edge_or n edges i WF Li) as [(v & Ev & Lv)|(a & b & Ev & _ & La & Lb)]; rewrite Ev; cbn [second_half]; rewrite ADD, Ev; destruct (dec i); try tauto.
      rewrite IN by auto. auto.
Qed.
Lemma even_up syn : length syn = n -> even_components n edges (fun _ => True) (bits syn) ->
  even_components (n + m) (halves n edges) (fun _ => True) (bits (syn ++ repeat false m)).
Proof.
  intros L EV S IS. rewrite parity_split by auto. apply EV. intros i _.
  destruct (Nat.lt_ge_cases i m) as [Li|Li]; [|rewrite nth_overflow by auto; auto].
  assert (A := IS i I). assert (B := IS (m + i) I). rewrite halves_one in A by auto. rewrite halves_two in B by auto.
  destruct (edge_or n edges i WF Li) as [(v & Ev & Lv)|(a & b & Ev & _ & La & Lb)]; rewrite Ev in *; cbn [hd second_half] in *; congruence.
Qed.

(** * Union find *)
Lemma split_complete_spec u i : uobj (n + m) (halves n edges) u -> In i (split_complete m u) <-> i < m /\ In i (complete_edges u) /\ In (m + i) (complete_edges u).
Proof.
  intros UO. unfold split_complete. rewrite filter_In, in_seq, andb_true_iff. unfold complete_edges. rewrite !filter_In, !in_seq.
  assert (LG := uo_grow _ _ u UO). rewrite halves_len in LG. rewrite LG. intuition lia.
Qed.
Lemma split_union_find_ok er syn u fuel : uready (n + m) (halves n edges) u -> length syn = n -> (forall e, In e er -> e < m) -> total (fresh (u_grow u)) < fuel ->
  (split_union_find fuel m er syn u = Err AssertionError /\ ~ even_components n edges (fun _ => True) (bits syn)) \/
  (exists u' sel, split_union_find fuel m er syn u = Ok (u', sel) /\ uready (n + m) (halves n edges) u' /\
    (forall e, In e er -> In e sel) /\ (forall e, In e sel -> e < m) /\ NoDup sel /\ even_components n edges (fun i => In i sel) (bits syn)).
Proof.
  intros R LS LE F. unfold split_union_find. assert (LV : length (u_verts u) = n + m) by apply R. rewrite LV, LS. replace (n + m - m) with n by lia. rewrite Nat.eqb_refl. cbn [assertR bindR].
  destruct (union_find_ok (n + m) (halves n edges) (halves_wf n edges WF) (flat_map (fun e => [e; e + m]) er) (syn ++ repeat false m) u fuel) as [[E NE]|(u1 & sel & E & R1 & SE & SM & ND & EV)]; auto.
  - rewrite app_length, repeat_length. lia.
  - intros e I. apply in_flat_map in I as (x & Ix & I). apply LE in Ix. rewrite halves_len. cbn in I. intuition lia.
  - left. rewrite E. split; auto. intros EV. apply NE. apply even_up; auto.
  - right. rewrite E. cbn [bindR fst]. exists u1, (split_complete m u1). split; auto. split; auto.
    assert (UO : uobj (n + m) (halves n edges) u1) by apply R1.
    assert (ES : sel = complete_edges u1).
    { unfold union_find in E. destruct (init_graph _ _ u) as [u2|]; [|discriminate]. cbn [bindR] in E. destruct (steps fuel u2) as [u3|]; [|discriminate]. cbn [bindR] in E. injection E as <- <-. auto. }
    split; [|split; [|split]].
    + intros e I. apply split_complete_spec; auto. split; [auto|]. rewrite <- ES. split; apply SE; apply in_flat_map; exists e; split; auto; cbn; [auto|]. right. left. lia.
    + intros e I. apply split_complete_spec in I; auto. tauto.
    + apply NoDup_filter, seq_NoDup.
    + assert (D := even_down syn (fun i => In i sel) (fun i => In (m + i) sel) (fun i => in_dec Nat.eq_dec (m + i) sel) LS).
      intros S IS. apply D.
      * intros S' IS'. apply EV. intros j Ij. apply IS'. apply SM in Ij as Lj. rewrite halves_len in Lj. destruct (Nat.lt_ge_cases j m); [left; auto|]. right. exists (j - m). replace (m + (j - m)) with j by lia. repeat split; auto. lia.
      * intros i (Li & I1 & I2). apply IS. apply split_complete_spec; auto. rewrite <- ES. auto.
Qed.
End New.
