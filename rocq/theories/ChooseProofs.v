(** Union find with chosen growth increments: every step completes an edge. *)
Require Import List Bool Arith Lia QArith Qround Lqa.
From Verif Require Import Base BaseProofs ErasureModel UnionFindModel GraphSpec GraphProofs
  ErasureProofs UnionFindTree UnionFindInv UnionFindOps UnionFindInit UnionFindStep UnionFindFinal ErasureForest ChooseModel.
Import ListNotations.
Open Scope nat_scope.

Local Arguments upd : simpl never.

(** ** Edges left *)
Definition left1 (g : growth) : nat := if complete g then 0 else 1.
Definition left (gs : list growth) : nat := list_sum (map left1 gs).
Lemma left_upd gs i g g' : nth_error gs i = Some g -> left (upd i g' gs) + left1 g = left gs + left1 g'.
Proof.
  unfold left. revert i. induction gs as [|a gs IH]; intros [|i] E; try discriminate.
  - injection E as ->. unfold upd; cbn. fold (list_sum (map left1 gs)). lia.
  - change (upd (S i) g' (a :: gs)) with (a :: upd i g' gs). cbn [map list_sum fold_right].
    apply IH in E. unfold list_sum in *. lia.
Qed.
Lemma left_le gs : left gs <= length gs.
Proof. unfold left. induction gs as [|g gs IH]; cbn [map list_sum fold_right length]; [auto|]. unfold list_sum in IH. unfold left1 at 1. destruct (complete g); lia. Qed.

(** ** An edge which gets what it lacks *)
Definition track (e : nat) (q0 M : Q) (gs : list growth) : Prop :=
  exists g, nth_error gs e = Some g /\ g_max g = M /\ (complete g = true \/ exists q, g_cur g = Some q /\ (q0 <= q)%Q).
Lemma nth_error_upd_same {A} i (a : A) l : i < length l -> nth_error (upd i a l) i = Some a.
Proof. revert i. induction l as [|b l IH]; intros [|i] L; cbn in L; try lia; [reflexivity|]. change (upd (S i) a (b :: l)) with (b :: upd i a l). cbn [nth_error]. apply IH. lia. Qed.
Lemma grow_edge_track d e q0 M s s' en : (0 <= d)%Q -> grow_edge_by (Some d) s en = Ok s' -> track e q0 M (fst (fst s)) ->
  track e q0 M (fst (fst s')) /\ (fst en = e -> (M - q0 <= d)%Q -> cmp (fst (fst s')) e = true) /\ (cmp (fst (fst s)) e = true -> cmp (fst (fst s')) e = true).
Proof.
  destruct s as [[gs k] new], en as [i o]. cbn [fst snd]. intros D E (g & N & MX & T). unfold grow_edge_by in E. cbn [fst] in E. unfold get in E.
  destruct (nth_error gs i) as [gi|] eqn:NI; cbn [bindR] in E; [|discriminate].
  destruct (complete gi) eqn:CI.
  { injection E as <-. cbn [fst snd]. split; [exists g; auto|]. split; [|auto]. intros -> _. unfold cmp. rewrite NI. auto. }
  unfold grow_by in E. rewrite CI in E. cbn [negb assertR bindR] in E. injection E as <-. cbn [fst snd].
  assert (Li : i < length gs) by (apply nth_error_Some; congruence). set (g' := mkGrowth _ _ _).
  destruct (Nat.eq_dec i e) as [->|NE].
  - rewrite NI in N. injection N as ->. destruct T as [T|(q & Q & LQ)]; [congruence|].
    assert (C' : (M - q0 <= d)%Q -> complete g' = true). { intros LD. unfold complete, g'. cbn [g_cur g_max]. rewrite Q. apply Qle_bool_iff. rewrite MX. lra. }
    split; [|split].
    + exists g'. rewrite nth_error_upd_same by auto. split; [auto|]. split; [exact MX|]. right. exists (q + d)%Q. unfold g'. cbn [g_cur]. rewrite Q. split; [auto|lra].
    + intros _ LD. unfold cmp. rewrite nth_error_upd_same by auto. auto.
    + intros C. unfold cmp in C. rewrite NI in C. congruence.
  - assert (O : nth_error (upd i g' gs) e = nth_error gs e) by (apply nth_error_upd_other; auto). split; [exists g; rewrite O; auto|]. split; [congruence|]. unfold cmp. rewrite O. auto.
Qed.
Lemma grow_edges_track d e q0 M (l : list entry) : (0 <= d)%Q -> forall s s', foldR (grow_edge_by (Some d)) l s = Ok s' -> track e q0 M (fst (fst s)) ->
  track e q0 M (fst (fst s')) /\ (forall o, In (e, o) l -> (M - q0 <= d)%Q -> cmp (fst (fst s')) e = true) /\ (cmp (fst (fst s)) e = true -> cmp (fst (fst s')) e = true).
Proof.
  intros D. induction l as [|en l IH]; cbn [foldR]; intros s s' E T; [injection E as <-; split; [auto|]; split; [intros o []|auto]|].
  destruct (grow_edge_by (Some d) s en) as [s1|] eqn:E1; cbn [bindR] in E; [|discriminate]. destruct (grow_edge_track d e q0 M s s1 en D E1 T) as (T1 & A1 & B1). destruct (IH s1 s' E T1) as (T2 & A2 & B2).
  split; [auto|]. split; [|auto]. intros o [X|X] L; [apply B2, A1; [subst en|]; auto|eauto].
Qed.
Lemma grow_verts_track d e q0 M (adj : list (list entry)) b : (0 <= d)%Q -> forall s s', foldR (fun s v => do l <- get adj v; foldR (grow_edge_by (Some d)) l s) b s = Ok s' -> track e q0 M (fst (fst s)) ->
  (forall v o, In v b -> In (e, o) (nth v adj []) -> (M - q0 <= d)%Q -> cmp (fst (fst s')) e = true) /\ (cmp (fst (fst s)) e = true -> cmp (fst (fst s')) e = true).
Proof.
  intros D. induction b as [|v b IH]; cbn [foldR]; intros s s' E T; [injection E as <-; split; [intros ? ? []|auto]|].
  destruct (get adj v) as [l|] eqn:GV; cbn [bindR] in E; [|discriminate]. destruct (foldR (grow_edge_by (Some d)) l s) as [s1|] eqn:E1; cbn [bindR] in E; [|discriminate].
  destruct (grow_edges_track d e q0 M l D s s1 E1 T) as (T1 & A1 & B1). destruct (IH s1 s' E T1) as (A2 & B2). split; [|auto].
  intros w o [<-|I] IE LD; [|eauto]. apply B2, (A1 o); auto. unfold get in GV. destruct (nth_error adj v) eqn:NV; [|discriminate]. injection GV as <-. rewrite (nth_error_nth _ _ _ NV) in IE. auto.
Qed.

(** ** The choice *)
Lemma fold_min l : forall x : Q, let r := fold_left (fun a b => if Qle_bool a b then a else b) l x in r = x \/ In r l.
Proof.
  induction l as [|y l IH]; intros x; cbn [fold_left]; [auto|]. destruct (IH (if Qle_bool x y then x else y)) as [E|I]; [|right; right; auto].
  cbv zeta in E |- *. rewrite E. destruct (Qle_bool x y); [auto|right; left; auto].
Qed.
Definition lacks (gs : list growth) (en : entry) (d : Q) : Prop := exists g q, nth_error gs (fst en) = Some g /\ complete g = false /\ g_cur g = Some q /\ d = (g_max g - q)%Q.
Lemma incomplete_cur g : complete g = false -> exists q, g_cur g = Some q /\ (q < g_max g)%Q.
Proof. unfold complete. destruct (g_cur g) as [q|]; [|discriminate]. intros C. exists q. split; auto. apply Qnot_le_lt. intros L. apply Qle_bool_iff in L. congruence. Qed.
Lemma lacking_ok gs (l : list entry) : forall acc, (forall i o, In (i, o) l -> i < length gs) -> exists r, foldR (lacking gs) l acc = Ok (acc ++ r) /\
  (forall d, In d r -> exists en, In en l /\ lacks gs en d) /\ (r = [] -> forall i o, In (i, o) l -> cmp gs i = true).
Proof.
  induction l as [|[i o] l IH]; intros acc L; cbn [foldR].
  - exists []. rewrite app_nil_r. split; [auto|]. split; [intros d []|intros _ ? ? []].
  - assert (Li : i < length gs) by (apply (L i o); left; auto). destruct (nth_error gs i) as [g|] eqn:N; [|apply nth_error_None in N; lia].
    unfold lacking at 1. cbn [fst]. unfold get. rewrite N. cbn [bindR]. destruct (complete g) eqn:C.
    + destruct (IH acc) as (r & E & A & B); [intros; eapply L; right; eauto|]. exists r. split; [auto|]. split; [intros d I; destruct (A d I) as (en & J & K); exists en; split; [right|]; auto|].
      intros Z j p [X|X]; [injection X as <- <-; unfold cmp; rewrite N; auto|eauto].
    + destruct (incomplete_cur g C) as (q & Q & LQ). rewrite Q. destruct (IH (acc ++ [(g_max g - q)%Q])) as (r & E & A & B); [intros; eapply L; right; eauto|].
      exists ((g_max g - q)%Q :: r). split; [rewrite E, <- app_assoc; auto|]. split; [|discriminate]. intros d [<-|I]; [exists (i, o); split; [left; auto|exists g, q; auto]|]. destruct (A d I) as (en & J & K). exists en. split; [right|]; auto.
Qed.
Lemma lacking_all (adj : list (list entry)) gs b : (forall v, In v b -> v < length adj /\ forall i o, In (i, o) (nth v adj []) -> i < length gs) -> forall acc,
  exists r, foldR (fun acc v => do l <- get adj v; foldR (lacking gs) l acc) b acc = Ok (acc ++ r) /\
    (forall d, In d r -> exists v en, In v b /\ In en (nth v adj []) /\ lacks gs en d) /\ (r = [] -> forall v i o, In v b -> In (i, o) (nth v adj []) -> cmp gs i = true).
Proof.
  induction b as [|v b IH]; intros L acc; cbn [foldR].
  - exists []. rewrite app_nil_r. split; [auto|]. split; [intros d []|intros _ ? ? ? []].
  - destruct (L v (or_introl eq_refl)) as [Lv Le]. rewrite (get_nth adj v []) by auto. cbn [bindR]. destruct (lacking_ok gs (nth v adj []) acc Le) as (r1 & E1 & A1 & B1). rewrite E1. cbn [bindR].
    destruct (IH (fun w I => L w (or_intror I)) (acc ++ r1)) as (r2 & E2 & A2 & B2). exists (r1 ++ r2). split; [rewrite E2, <- app_assoc; auto|]. split.
    + intros d I. apply in_app_iff in I. destruct I as [I|I]; [destruct (A1 d I) as (en & J & K); exists v, en; split; [left; auto|auto]|]. destruct (A2 d I) as (w & en & J & K). exists w, en. split; [right; auto|auto].
    + intros Z. apply app_eq_nil in Z. destruct Z as [Z1 Z2]. intros w i o [<-|I] J; [eapply B1; eauto|eapply B2; eauto].
Qed.
Lemma choose_ok (adj : list (list entry)) gs b : (forall v, In v b -> v < length adj /\ forall i o, In (i, o) (nth v adj []) -> i < length gs) ->
  exists inc, choose_increment adj gs b = Ok inc /\
    match inc with
    | None => forall v i o, In v b -> In (i, o) (nth v adj []) -> cmp gs i = true
    | Some d => exists v en, In v b /\ In en (nth v adj []) /\ lacks gs en d
    end.
Proof.
  intros L. destruct (lacking_all adj gs b L []) as (r & E & A & B). unfold choose_increment. rewrite E. cbn [bindR app]. eexists. split; [reflexivity|].
  destruct r as [|x l]; [apply B; auto|]. apply A. destruct (fold_min l x) as [X|X]; cbv zeta in X; [left; auto|right; auto].
Qed.
Lemma grow_none (adj : list (list entry)) gs k new b : (forall v, In v b -> v < length adj /\ forall i o, In (i, o) (nth v adj []) -> i < length gs) -> (forall v i o, In v b -> In (i, o) (nth v adj []) -> cmp gs i = true) ->
  forall inc, foldR (fun s v => do l <- get adj v; foldR (grow_edge_by inc) l s) b (gs, k, new) = Ok (gs, k, new).
Proof.
  intros L C inc. induction b as [|v b IH]; cbn [foldR]; [auto|]. rewrite (get_nth adj v []) by (apply L; left; auto). cbn [bindR].
  assert (X : forall l, (forall i o, In (i, o) l -> cmp gs i = true) -> foldR (grow_edge_by inc) l (gs, k, new) = Ok (gs, k, new)).
  { induction l as [|[i o] l IHl]; intros H; cbn [foldR]; [auto|]. pose proof (H i o (or_introl eq_refl)) as Ci. unfold cmp in Ci. destruct (nth_error gs i) as [g|] eqn:N; [|discriminate].
    unfold grow_edge_by at 1. cbn [fst]. unfold get. rewrite N. cbn [bindR]. rewrite Ci. cbn [bindR]. apply IHl. intros. eapply H. right; eauto. }
  rewrite X by (intros; eapply C; [left; reflexivity|eauto]). cbn [bindR]. apply IH; [intros w I; apply L; right; auto|intros w i o I; apply C; right; auto].
Qed.

Section I.
Variables (n : nat) (edges : list (list nat)).
Hypothesis WF : well_formed n edges.

Notation link := (link edges).
Notation m := (length edges).
Notation cl cs c := (nth c cs dead).
Notation st vs v := (v_state (nth v vs new_vertex)).
Notation uobj := (uobj n edges).
Notation loose gs x := (exists i o, link i x o /\ cmp gs i = false).

(** ** Growth *)
Section G.
Variables (gs0 : list growth) (P : nat -> Prop).

Record ginv (s : list growth * nat * list nat) : Prop := {
  gi_len : length (fst (fst s)) = m;
  gi_inc : forall g, In g (fst (fst s)) -> positive_inc g;
  gi_mono : forall j, cmp gs0 j = true -> cmp (fst (fst s)) j = true;
  gi_nodup : NoDup (snd s);
  gi_new : forall j, In j (snd s) <-> cmp gs0 j = false /\ cmp (fst (fst s)) j = true;
  gi_end : forall j, In j (snd s) -> exists v o, P v /\ link j v o;
  gi_cnt : length (snd s) <= snd (fst s);
  gi_tot : left (fst (fst s)) + length (snd s) <= left gs0
}.

Lemma grow_edge_by_ok inc s v i o : ginv s -> P v -> link i v o ->
  exists s', grow_edge_by inc s (i, o) = Ok s' /\ ginv s' /\ snd (fst s) <= snd (fst s') /\
    (cmp gs0 i = false -> 0 < snd (fst s')).
Proof.
  destruct s as [[gs k] new]. intros [LG IN MO ND NW EN CN TO] Pv K. cbn [fst snd] in *.
  destruct (link_lt n edges WF i v o K) as [Li Lv]. unfold grow_edge_by. cbn [fst].
  destruct (nth_error gs i) as [g|] eqn:E.
  2: { apply nth_error_None in E. lia. }
  unfold get. rewrite E. cbn [bindR].
  assert (C : cmp gs i = complete g) by (unfold cmp; rewrite E; auto).
  destruct (complete g) eqn:CG.
  { exists (gs, k, new). split; [auto|]. split; [constructor; auto|]. split; [auto|]. cbn.
    intros C0. assert (I : In i new) by (apply NW; auto). destruct new; [destruct I|]. cbn in CN. lia. }
  assert (Pg : positive_inc g) by (apply IN; eapply nth_error_In; eauto).
  unfold grow_by. rewrite CG. cbn [negb assertR bindR]. set (g' := mkGrowth _ _ _). assert (GI : g_inc g' = g_inc g) by reflexivity.
  assert (CU : forall j, cmp (upd i g' gs) j = if j =? i then complete g' else cmp gs j)
    by (intros; apply cmp_upd; lia).
  assert (C0 : cmp gs0 i = false).
  { destruct (cmp gs0 i) eqn:X; auto. apply MO in X. congruence. }
  pose proof (left_upd gs i g g' E) as TU. unfold left1 in TU. rewrite CG in TU.
  eexists. split; [reflexivity|]. split; [|cbn [fst snd]; split; [lia|intros _; lia]].
  constructor; cbn [fst snd].
  - rewrite length_upd; auto.
  - intros x I. apply in_upd in I. destruct I as [->|I]; [exact Pg|auto].
  - intros j Cj. rewrite CU. destruct (Nat.eqb_spec j i) as [->|]; auto. congruence.
  - destruct (complete g'); auto. apply nodup_app; auto; [repeat constructor; auto|].
    intros x I [<-|[]]. apply NW in I. destruct I. congruence.
  - intros j. rewrite CU. destruct (complete g') eqn:CG'.
    + rewrite in_app_iff, NW. cbn [In]. destruct (Nat.eqb_spec j i) as [->|D].
      * tauto.
      * split; [intros [I|[I|[]]]; [auto|congruence]|auto].
    + rewrite NW. destruct (Nat.eqb_spec j i) as [->|D]; [|tauto]. rewrite C. tauto.
  - intros j I. destruct (complete g'); auto. apply in_app_iff in I.
    destruct I as [I|[<-|[]]]; auto. exists v, o. auto.
  - destruct (complete g'); [rewrite app_length; cbn|]; lia.
  - destruct (complete g'); [rewrite app_length; cbn|]; lia.
Qed.

Lemma grow_edges_by_ok inc v l : forall s, ginv s -> P v -> (forall i o, In (i, o) l -> link i v o) ->
  exists s', foldR (grow_edge_by inc) l s = Ok s' /\ ginv s' /\ snd (fst s) <= snd (fst s') /\
    (forall i o, In (i, o) l -> cmp gs0 i = false -> 0 < snd (fst s')).
Proof.
  induction l as [|[i o] l IH]; intros s G Pv K.
  - exists s. split; [auto|]. split; auto. split; auto. intros ? ? [].
  - destruct (grow_edge_by_ok inc s v i o G Pv) as (s1 & E1 & G1 & L1 & C1). { apply K. left; auto. }
    destruct (IH s1 G1 Pv) as (s2 & E2 & G2 & L2 & C2). { intros. apply K. right; auto. }
    exists s2. cbn [foldR]. rewrite E1. cbn [bindR]. split; auto. split; auto. split; [lia|].
    intros j q [X|I] C; [injection X as -> ->; specialize (C1 C); lia|eauto].
Qed.

Lemma grow_verts_by_ok inc adj b : nbr_ok n edges (fun _ => true) adj -> forall s, ginv s ->
  (forall v, In v b -> v < n /\ P v) ->
  exists s', foldR (fun s v => do l <- get adj v; foldR (grow_edge_by inc) l s) b s = Ok s' /\ ginv s' /\
    snd (fst s) <= snd (fst s') /\
    (forall v, In v b -> loose gs0 v -> 0 < snd (fst s')).
Proof.
  intros [LA NB]. induction b as [|v b IH]; intros s G Pb.
  - exists s. split; [auto|]. split; auto. split; auto. intros ? [].
  - destruct (Pb v) as [Lv Pv]; [left; auto|]. destruct (NB v Lv) as [_ NV].
    destruct (grow_edges_by_ok inc v (nth v adj []) s G Pv) as (s1 & E1 & G1 & L1 & C1).
    { intros i o I. apply NV in I. tauto. }
    destruct (IH s1 G1) as (s2 & E2 & G2 & L2 & C2). { intros w I. apply Pb. right; auto. }
    exists s2. cbn [foldR]. rewrite (get_nth adj v []) by lia. cbn [bindR]. rewrite E1.
    split; [exact E2|]. split; auto. split; [lia|].
    intros w [<-|I] LO; [|apply (C2 w); auto].
    destruct LO as (i & o & K & C). assert (0 < snd (fst s1)); [|lia].
    apply (C1 i o); auto. apply NV. auto.
Qed.

Lemma grow_clusters_by_ok adj cs mn l : nbr_ok n edges (fun _ => true) adj -> forall s, ginv s -> (0 < snd (fst s) -> left (fst (fst s)) < left gs0) ->
  (forall c, In c l -> exists b, c < length cs /\ c_bound (cl cs c) = Some b /\
     forall v, In v b -> v < n /\ P v /\ loose gs0 v) ->
  exists s', foldR (grow_cluster_by adj cs mn) l s = Ok s' /\ ginv s' /\ (0 < snd (fst s') -> left (fst (fst s')) < left gs0) /\
    snd (fst s) <= snd (fst s') /\
    (forall c b, In c l -> c_bound (cl cs c) = Some b -> length b <= mn -> b <> [] ->
       0 < snd (fst s')).
Proof.
  intros NB. induction l as [|c l IH]; intros s G J X.
  - exists s. split; [auto|]. split; auto. split; auto. split; auto. intros ? ? [].
  - destruct (X c) as (b & Lc & B & PB); [left; auto|].
    assert (STEP : exists s1, grow_cluster_by adj cs mn s c = Ok s1 /\ ginv s1 /\ (0 < snd (fst s1) -> left (fst (fst s1)) < left gs0) /\
      snd (fst s) <= snd (fst s1) /\ (length b <= mn -> b <> [] -> 0 < snd (fst s1))).
    { unfold grow_cluster_by. rewrite (get_nth cs c dead) by auto. cbn [bindR]. rewrite B.
      destruct (Nat.ltb_spec mn (length b)).
      - exists s. split; [auto|]. split; auto. split; auto. split; auto. lia.
      - assert (LL : forall v, In v b -> v < length adj /\ forall i o, In (i, o) (nth v adj []) -> i < length (fst (fst s))).
        { intros v I. destruct (PB v I) as (Lv & _). destruct NB as [LA NV]. split; [lia|]. intros i o J2. destruct (NV v Lv) as [_ NN]. apply NN in J2. rewrite (gi_len s G). apply (link_lt n edges WF i v o). tauto. }
        destruct (choose_ok adj (fst (fst s)) b LL) as (inc & EI & CI). rewrite EI. cbn [bindR].
        destruct (grow_verts_by_ok inc adj b NB s G) as (s1 & E1 & G1 & L1 & C1).
        { intros v I. destruct (PB v I) as (? & ? & ?). auto. }
        exists s1. split; auto. split; auto. split; [|split; auto].
        2: { intros _ NE. destruct b as [|v b]; [congruence|]. apply (C1 v); [left; auto|]. apply PB. left; auto. }
        destruct inc as [d|].
        + intros _. destruct CI as (v & [e o] & Iv & Ie & g & q & N & CG & Q & ED). cbn [fst] in N.
          assert (PD : (0 <= d)%Q) by (destruct (incomplete_cur g CG) as (q' & Q' & LQ); rewrite Q in Q'; injection Q' as <-; rewrite ED; lra).
          destruct (grow_verts_track d e q (g_max g) adj b PD s s1 E1) as [T _]; [exists g; split; [auto|]; split; [auto|]; right; exists q; split; [auto|apply Qle_refl]|].
          assert (CE : cmp (fst (fst s1)) e = true) by (apply (T v o); auto; rewrite ED; apply Qle_refl).
          assert (I : In e (snd s1)). { apply (gi_new s1 G1). split; auto. destruct (cmp gs0 e) eqn:C0; auto. apply (gi_mono s G) in C0. unfold cmp in C0. rewrite N in C0. congruence. }
          pose proof (gi_tot s1 G1). destruct (snd s1); [destruct I|cbn in *; lia].
        + destruct s as [[gs k] new]. cbn [fst snd] in *. rewrite (grow_none adj gs k new b LL CI None) in E1. injection E1 as <-. exact J. }
    destruct STEP as (s1 & E1 & G1 & J1 & L1 & C1).
    destruct (IH s1 G1 J1) as (s2 & E2 & G2 & J2 & L2 & C2). { intros d I. apply X. right; auto. }
    exists s2. cbn [foldR]. rewrite E1. cbn [bindR]. split; [exact E2|]. split; auto. split; auto. split; [lia|].
    intros d b' [<-|I] B' LB NE; [|eapply C2; eauto].
    assert (b' = b) by congruence. subst. specialize (C1 LB NE). lia.
Qed.

End G.

Variable syn : nat -> bool.
Notation uinv := (uinv n edges syn).
Notation stable := (stable n edges syn).
Notation plus_edge i H := (fun j => (j =? i) || H j).

Lemma step_by_ok u lab H : uobj u -> stable u lab H ->
  (forall x, x < n -> syn x = true -> lab x <> None) ->
  (step_by u = Err AssertionError /\ ~ even_components n edges (fun _ => True) syn) \/
  exists u' lab' H', step_by u = Ok u' /\ uobj u' /\ stable u' lab' H' /\
    (forall x, x < n -> syn x = true -> lab' x <> None) /\
    (forall i, cmp (u_grow u) i = true -> cmp (u_grow u') i = true) /\
    (u_open u' = [] \/ left (u_grow u') < left (u_grow u)) /\
    exists u1, refresh_open u = Ok u1 /\ ((u_open u1 = [] /\ u_grow u' = u_grow u) \/
      exists mn k new, foldR (grow_cluster_by (u_adj u1) (u_clus u1) mn) (u_open u1) (u_grow u1, 0, []) =
        Ok (u_grow u', k, new)).
Proof.
  intros UO [U0 HC SB] SL. unfold step_by.
  destruct (refresh_ok n edges syn u lab H U0) as (u1 & E1 & K1 & V1 & L1 & B1 & O1 & U).
  rewrite E1. cbn [bindR].
  assert (UO1 : uobj u1) by (eapply uobj_keeps; eauto).
  assert (G1 : u_grow u1 = u_grow u) by apply K1.
  destruct (u_open u1) as [|c0 l0] eqn:EO.
  { right. exists u1, lab, H. split; [auto|]. split; auto. split.
    - constructor; [rewrite EO; auto|rewrite G1; auto|rewrite G1, V1; auto].
    - split; auto. split; [rewrite G1; auto|]. split; auto. exists u1. split; auto. }
  rewrite <- EO in *. assert (NE : u_open u1 <> []) by congruence. clear EO.
  assert (LB : forall c, In c (u_open u1) -> exists b, c < length (u_clus u1) /\
    c_bound (cl (u_clus u1) c) = Some b /\ (even_components n edges (fun _ => True) syn -> b <> [])).
  { intros c I. apply O1 in I. apply (live_boundary n edges WF syn u1 lab H); auto. }
  set (size := fun c => match c_bound (cl (u_clus u1) c) with Some b => length b | None => 0 end).
  assert (SZ : boundary_sizes u1 = Ok (map size (u_open u1))).
  { unfold boundary_sizes. revert LB. generalize (u_open u1). induction l as [|c l IH]; intros X; auto.
    cbn [mapR map]. destruct (X c) as (b & Lc & B & _); [left; auto|].
    rewrite (get_nth _ c dead) by auto. cbn [bindR]. unfold size at 1. rewrite B. cbn [bindR].
    rewrite IH; auto. intros d I. apply X. right; auto. }
  rewrite SZ. cbn [bindR]. set (mn := fold_right _ _ _).
  destruct (grow_clusters_by_ok (u_grow u) (fun v => st (u_verts u1) v = Boundary) (u_adj u1) (u_clus u1) mn
     (u_open u1) (uo_adj n edges u1 UO1) (u_grow u1, 0, [])) as (s & E2 & GI & JP & _ & CP).
  { constructor; cbn [fst snd]; auto.
    - apply UO1.
    - intros g I. apply (uo_inc n edges u1 UO1 g I).
    - rewrite G1. auto.
    - constructor.
    - rewrite G1. intros j. cbn. split; [tauto|]. intros []. congruence.
    - intros j [].
    - rewrite G1. cbn. lia. }
  { cbn [fst snd]. lia. }
  { intros c I. destruct (LB c I) as (b & Lc & B & NB). exists b. split; auto. split; auto.
    intros v Iv. destruct (ui_bound _ _ _ _ _ _ _ _ U c b B) as [_ BD]. apply BD in Iv.
    destruct Iv as [Ev SV]. split; [apply (ui_used _ _ _ _ _ _ _ _ U v c Ev)|]. split; auto.
    apply SB. rewrite <- V1. auto. }
  rewrite E2. cbn [bindR]. destruct s as [[gs k] new].
  destruct GI as [LG IN MO ND NW EN CN TO]. cbn [fst snd] in *.
  assert (KP : even_components n edges (fun _ => True) syn -> 0 < k).
  { intros EV. assert (I : In mn (map size (u_open u1))).
    { apply min_in. destruct (u_open u1); [congruence|discriminate]. }
    apply in_map_iff in I. destruct I as (c & Ec & I). destruct (LB c I) as (b & Lc & B & NB).
    apply (CP c b I B); auto. unfold size in Ec. rewrite B in Ec. lia. }
  destruct (Nat.ltb_spec 0 k) as [K0|K0]; cbn [assertR bindR].
  2: { left. split; [reflexivity|]. intros EV. apply KP in EV. lia. }
  right.
  set (u2 := set_grow gs u1).
  assert (UO2 : uobj u2).
  { destruct UO1 as [A B C D]. constructor; auto. }
  destruct new as [|i0 new0] eqn:EN0.
  { exists u2, lab, H. split; auto. split; auto.
    assert (CM : forall j, cmp gs j = cmp (u_grow u) j).
    { intros j. destruct (cmp (u_grow u) j) eqn:X; auto. destruct (cmp gs j) eqn:Y; auto.
      destruct (proj2 (NW j)); auto. }
    split.
    - constructor; cbn [u2 set_grow u_verts u_clus u_open u_grow]; auto.
      + intros i. rewrite CM. auto.
      + intros x X. rewrite V1 in X. destruct (SB x X) as (i & o & Ki & C). exists i, o.
        rewrite CM. auto.
    - split; auto. split; [cbn [u2 set_grow u_grow]; auto|]. split.
      + right. cbn [u2 set_grow u_grow]. lia.
      + exists u1. split; auto. right. exists mn, k, []. exact E2. }
  rewrite <- EN0 in *. clear EN0 i0 new0.
  destruct (handle_list n edges WF syn new u2 lab H UO2) as (u3 & lab3 & H3 & E3 & X3 & U3 & HH); auto.
  { intros i I. split.
    - apply NW in I. destruct (H i) eqn:Y; auto. apply HC in Y. destruct I. congruence.
    - destruct (EN i I) as (v & o & Pv & K). exists v, o. auto. }
  rewrite E3. cbn [bindR].
  assert (G3 : u_grow u3 = gs) by apply X3.
  assert (UO3 : uobj u3) by (eapply uobj_keeps; [exact UO2|apply X3]).
  assert (H3C : forall i, H3 i = true <-> cmp gs i = true).
  { intros i. rewrite HH, NW, HC. split.
    - intros [Y|[_ Y]]; auto.
    - intros Y. destruct (cmp (u_grow u) i); auto. }
  destruct (update_list n edges WF syn (seq 0 (length (u_clus u3))) u3 lab3 H3 UO3 U3) as (u4 & E4 & K4 & U4 & S4 & T4).
  { intros c I. apply in_seq in I. lia. } { apply seq_NoDup. } { rewrite G3. apply H3C. }
  assert (G4 : u_grow u4 = gs) by (rewrite <- G3; apply K4).
  exists u4, lab3, H3. split; [exact E4|]. split; [eapply uobj_keeps; eauto|]. split.
  - constructor; auto.
    + rewrite G4. auto.
    + rewrite G4. intros x X. pose proof (S4 x X) as X'.
      destruct (boundary_lab n edges syn _ _ _ _ _ _ U4 X) as [c Ec].
      rewrite <- G3. apply (T4 x c); auto. apply in_seq.
      destruct (ui_live _ _ _ _ _ _ _ _ U3 x c Ec) as [b B]. apply live_lt in B. lia.
  - split; [intros x L S; apply X3; auto|]. split; [rewrite G4; auto|].
    split; [right; rewrite G4; lia|]. exists u1. split; auto. right. exists mn, k, new. rewrite G4. exact E2.
Qed.

Lemma steps_by_ok : forall fuel u lab H, uobj u -> stable u lab H ->
  (forall x, x < n -> syn x = true -> lab x <> None) ->
  left (u_grow u) < fuel ->
  (steps_by fuel u = Err AssertionError /\ ~ even_components n edges (fun _ => True) syn) \/
  exists u' lab' H', steps_by fuel u = Ok u' /\ uobj u' /\ stable u' lab' H' /\
    (forall x, x < n -> syn x = true -> lab' x <> None) /\
    (forall i, cmp (u_grow u) i = true -> cmp (u_grow u') i = true) /\ u_open u' = [].
Proof.
  induction fuel as [|fuel IH]; intros u lab H UO S SL F; [lia|].
  cbn [steps_by]. destruct (u_open u) as [|c l] eqn:EO.
  { right. exists u, lab, H. split; [auto|]. auto 10. }
  destruct (step_by_ok u lab H UO S SL) as [[E1 NE]|(u1 & lab1 & H1 & E1 & UO1 & S1 & SL1 & M1 & T1 & _)].
  { left. rewrite E1. auto. }
  rewrite E1. cbn [bindR]. destruct T1 as [O1|T1].
  { right. exists u1, lab1, H1. split; [destruct fuel; cbn [steps_by]; rewrite O1; auto|]. auto 10. }
  destruct (IH u1 lab1 H1) as [?|(u2 & lab2 & H2 & E2 & UO2 & S2 & SL2 & M2 & O2)]; auto; [lia|].
  right. exists u2, lab2, H2. auto 10.
Qed.


End I.

Section F.
Variables (n : nat) (edges : list (list nat)).
Hypothesis WF : well_formed n edges.
Notation m := (length edges).
Notation uready := (uready n edges).

Lemma union_find_by_ok er syn u fuel : uready u -> length syn = n -> (forall e, In e er -> e < m) ->
  m < fuel ->
  (union_find_by fuel er syn u = Err AssertionError /\
   ~ even_components n edges (fun _ => True) (bits syn)) \/
  (exists u' sel, union_find_by fuel er syn u = Ok (u', sel) /\ uready u' /\
    (forall e, In e er -> In e sel) /\ (forall e, In e sel -> e < m) /\ NoDup sel /\
    even_components n edges (fun i => In i sel) (bits syn)).
Proof.
  intros R LS LE F. unfold union_find_by.
  destruct (init_ok n edges WF er syn u R LS LE) as (u1 & lab1 & H1 & E1 & UO1 & S1 & SL1 & C1 & T1 & _).
  rewrite E1. cbn [bindR].
  destruct (steps_by_ok n edges WF (bits syn) fuel u1 lab1 H1 UO1 S1 SL1) as
    [[E2 NE]|(u2 & lab2 & H2 & E2 & UO2 & S2 & SL2 & M2 & O2)]; [pose proof (left_le (u_grow u1)) as LL; rewrite (uo_grow n edges u1 UO1) in LL; lia| |].
  { left. rewrite E2. auto. }
  right. exists u2, (complete_edges u2). rewrite E2. cbn [bindR]. split; auto.
  split; [split; [auto|apply (ui_len _ _ _ _ _ _ _ _ (s_inv _ _ _ _ _ _ S2))]|].
  split; [intros e I; apply (complete_edges_spec n edges); auto|].
  split; [intros e I; apply (cmp_lt n edges u2 e UO2); apply (complete_edges_spec n edges); auto|].
  split; [apply NoDup_filter, seq_NoDup|].
  pose proof (closed_even n edges (bits syn) u2 lab2 H2 S2 O2 SL2) as EV.
  intros A I. apply EV. intros i Hi. apply I. apply (complete_edges_spec n edges); auto.
Qed.

Lemma uf_decode_by_ok er syn u fuel : uready u -> length syn = n -> (forall e, In e er -> e < m) ->
  m < fuel ->
  (uf_decode_by fuel er syn u = Err AssertionError /\
   ~ even_components n edges (fun _ => True) (bits syn)) \/
  (exists u' corr, uf_decode_by fuel er syn u = Ok (u', corr) /\ uready u' /\
    length corr = m /\ explains n edges (bits corr) (bits syn)).
Proof.
  intros R LS LE F. unfold uf_decode_by.
  destruct (union_find_by_ok er syn u fuel R LS LE F) as [[E NE]|(u1 & sel & E & R1 & SE & SM & ND & EV)];
    rewrite E; cbn [bindR]; [left; auto|right].
  destruct R as [UO LV]. rewrite LV, (uo_ends n edges u UO). cbn [fst snd].
  destruct (erasure_decode_ok n edges sel syn WF SM LS) as (corr & E2 & LC & SS & X).
  rewrite E2. cbn [bindR]. exists u1, corr. split; [auto|]. split; [auto|]. split; [auto|]. apply X. exact EV.
Qed.

End F.

(** More fuel does not change a result. *)
Lemma steps_by_more : forall fuel u r, steps_by fuel u = Ok r -> forall k, steps_by (fuel + k) u = Ok r.
Proof.
  induction fuel as [|fuel IH]; intros u r E k.
  - cbn in E. destruct (u_open u) eqn:O; [|discriminate]. injection E as <-.
    destruct k; cbn; rewrite O; auto.
  - cbn [steps_by Nat.add] in *. destruct (u_open u) eqn:O; auto.
    destruct (step_by u) as [u1|]; [|discriminate]. cbn [bindR] in *. auto.
Qed.
Lemma uf_decode_by_more fuel er syn u r k : uf_decode_by fuel er syn u = Ok r -> uf_decode_by (fuel + k) er syn u = Ok r.
Proof.
  unfold uf_decode_by, union_find_by. destruct (init_graph er syn u) as [u1|]; [|discriminate].
  cbn [bindR]. destruct (steps_by fuel u1) as [u2|] eqn:S; [|discriminate].
  rewrite (steps_by_more _ _ _ S). auto.
Qed.
