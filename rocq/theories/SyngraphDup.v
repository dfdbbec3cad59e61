(** Elimination of duplicate edges. *)
Require Import List Bool Arith ZArith QArith Lia Lqa Sorted.
From Verif Require Import Base BaseProofs QSpec PauliModel GraphSpec ErasureModel
  ErasureProofs SyngraphModel SyngraphBuild.
Import ListNotations.
Open Scope nat_scope.
Local Arguments incident : simpl never.
Local Arguments upd : simpl never.

(** * The order of weights *)

Lemma wlt_irrefl a : wlt a a = false.
Proof.
  destruct a as [|[]|q]; cbn; auto. apply negb_false_iff, Qle_bool_iff, Qle_refl.
Qed.

Lemma Qlt_bool_spec p q : negb (Qle_bool q p) = true <-> (p < q)%Q.
Proof.
  rewrite negb_true_iff. split.
  - intros H. apply Qnot_le_lt. intros X. apply Qle_bool_iff in X. congruence.
  - intros H. destruct (Qle_bool q p) eqn:E; auto. apply Qle_bool_iff in E. lra.
Qed.

Lemma wlt_trans a b c : wlt a b = true -> wlt b c = true -> wlt a c = true.
Proof.
  destruct a as [|[]|p], b as [|[]|q], c as [|[]|r]; cbn; auto; try discriminate.
  rewrite !Qlt_bool_spec. intros; lra.
Qed.

(** Negative transitivity and equality for numbers. *)
Lemma wge_trans a b c : is_nan b = false -> wlt a b = false -> wlt b c = false -> wlt a c = false.
Proof.
  destruct a as [|[]|p], b as [|[]|q], c as [|[]|r]; cbn; auto; try discriminate.
  rewrite !negb_false_iff, !Qle_bool_iff. intros; lra.
Qed.

Lemma weqb_wlt a b : is_nan a = false -> is_nan b = false ->
  weqb a b = negb (wlt a b) && negb (wlt b a).
Proof.
  destruct a as [|[]|p], b as [|[]|q]; cbn; auto; try discriminate. intros _ _.
  rewrite !negb_involutive. destruct (Qeq_bool p q) eqn:E.
  - apply Qeq_bool_iff in E. symmetry. apply andb_true_iff. rewrite !Qle_bool_iff. lra.
  - destruct (Qle_bool q p) eqn:A, (Qle_bool p q) eqn:B; auto. apply Qle_bool_iff in A, B.
    apply Qeq_bool_neq in E. elim E. lra.
Qed.

Lemma weqb_refl a : is_nan a = false -> weqb a a = true.
Proof. intros H. rewrite weqb_wlt, wlt_irrefl by auto. auto. Qed.

(** * Keys *)

Lemma eqb_key_spec a b : reflect (a = b) (eqb_key a b).
Proof.
  revert b. induction a as [|x a IH]; intros [|y b]; cbn; try (constructor; congruence).
  destruct (Nat.eqb_spec x y) as [->|D]; cbn; [|constructor; congruence].
  destruct (IH b) as [->|D]; constructor; congruence.
Qed.

(** * Selection of the lightest edge *)

(** The weight of an edge. *)
Definition wof (wt : list weight) (i : nat) : weight := nth i wt NaN.

Section Select.
Variables (wt : list weight).
Notation w := (wof wt).

(** Edge [i] is chosen before edge [j]: it is lighter, or it is not heavier and comes first. *)
Definition preferred (i j : nat) : bool := wlt (w i) (w j) || (i <? j) && negb (wlt (w j) (w i)).

(** Weights and missing weights side by side. *)
Definition mixed (es : list nat) : bool := existsb (fun i => is_nan (w i)) es && negb (forallb (fun i => is_nan (w i)) es).

Lemma preferred_irrefl i : preferred i i = false.
Proof. unfold preferred. rewrite wlt_irrefl, Nat.ltb_irrefl. auto. Qed.

Lemma mem_spec i l : existsb (Nat.eqb i) l = true <-> In i l.
Proof.
  rewrite existsb_exists. split.
  - intros (x & I & X). apply Nat.eqb_eq in X. subst; auto.
  - intros I. exists i. split; auto. apply Nat.eqb_refl.
Qed.

Lemma fold_disable sel es on :
  length (fold_left (fun on e => if e =? sel then on else upd e false on) es on) = length on /\
  forall i, nth i (fold_left (fun on e => if e =? sel then on else upd e false on) es on) false =
    nth i on false && negb (existsb (Nat.eqb i) es && negb (i =? sel)).
Proof.
  revert on. induction es as [|e es IH]; intros on; cbn [fold_left existsb].
  - split; auto. intros i. rewrite andb_true_r. auto.
  - destruct (IH (if e =? sel then on else upd e false on)) as [L X]. split.
    + rewrite L. destruct (e =? sel); rewrite ?length_upd; auto.
    + intros i. rewrite X. destruct (Nat.eqb_spec e sel) as [->|D].
      * destruct (Nat.eqb_spec i sel) as [->|D']; cbn; [rewrite !andb_false_r; auto|].
        rewrite andb_true_r. auto.
      * rewrite nth_upd. destruct (Nat.eqb_spec i e) as [->|D'].
        -- rewrite Nat.eqb_refl. apply Nat.eqb_neq in D. rewrite D. cbn [andb orb negb]. rewrite andb_true_r, andb_false_r.
           destruct (Nat.ltb_spec e (length on)); auto.
           rewrite (nth_overflow on) by lia. reflexivity.
        -- destruct (Nat.eqb_spec e i); [congruence|]. cbn [andb orb negb]. auto.
Qed.

Lemma fold_min_spec l : forall a, is_nan a = false -> (forall b, In b l -> is_nan b = false) ->
  let lo := fold_left (fun a b => if wlt b a then b else a) l a in
  In lo (a :: l) /\ forall b, In b (a :: l) -> wlt b lo = false.
Proof.
  induction l as [|b l IH]; intros a Na Nl; cbn [fold_left].
  - split; [left; auto|]. intros c [<-|[]]. apply wlt_irrefl.
  - assert (Nb : is_nan b = false) by (apply Nl; left; auto).
    destruct (wlt b a) eqn:E.
    + destruct (IH b Nb) as [I X]; [intros; apply Nl; right; auto|]. cbn in *. split; [tauto|].
      intros c [<-|[<-|Ic]]; auto.
      apply (wge_trans a b _ Nb); auto. destruct (wlt a b) eqn:E2; auto.
      pose proof (wlt_trans _ _ _ E E2). rewrite wlt_irrefl in H. discriminate.
    + destruct (IH a Na) as [I X]; [intros; apply Nl; right; auto|]. cbn in *. split; [tauto|].
      intros c [<-|[<-|Ic]]; auto. apply (wge_trans b a _ Na); auto.
Qed.

Lemma find_first {A} (f : A -> bool) l a : find f l = Some a ->
  exists l1 l2, l = l1 ++ a :: l2 /\ f a = true /\ forall b, In b l1 -> f b = false.
Proof.
  induction l as [|b l IH]; cbn; intros E; [discriminate|]. destruct (f b) eqn:Fb.
  - injection E as <-. exists [], l. repeat split; auto. intros ? [].
  - destruct (IH E) as (l1 & l2 & -> & Fa & X). exists (b :: l1), l2. repeat split; auto.
    intros c [<-|I]; auto.
Qed.

Lemma sorted_app (l1 l2 : list nat) a : StronglySorted lt (l1 ++ a :: l2) ->
  (forall b, In b l1 -> b < a) /\ (forall b, In b l2 -> a < b).
Proof.
  induction l1 as [|c l1 IH]; cbn; intros S; inversion S as [|? ? S' F]; subst.
  - split; [intros ? []|]. rewrite Forall_forall in F. auto.
  - destruct (IH S') as [X Y]. split; auto. intros b [<-|I]; auto.
    rewrite Forall_forall in F. apply F, in_or_app. right; left; auto.
Qed.

Lemma existsb_map_nan es : existsb is_nan (map w es) = existsb (fun i => is_nan (w i)) es.
Proof. induction es; cbn; auto. rewrite IHes; auto. Qed.
Lemma forallb_map_nan es : forallb is_nan (map w es) = forallb (fun i => is_nan (w i)) es.
Proof. induction es; cbn; auto. rewrite IHes; auto. Qed.
Lemma find_combine es lo : find (fun ew : nat * weight => weqb (snd ew) lo) (combine es (map w es)) =
  option_map (fun i => (i, w i)) (find (fun i => weqb (w i) lo) es).
Proof. induction es as [|e es IH]; cbn; auto. destruct (weqb _ _); auto. Qed.

Lemma wmin_spec es : es <> [] -> (forall i, In i es -> is_nan (w i) = false) ->
  exists lo, wmin (map w es) = Ok lo /\ is_nan lo = false /\ (exists i0, w i0 = lo /\ In i0 es) /\
    forall i, In i es -> wlt (w i) lo = false.
Proof.
  intros NE NN. destruct es as [|e0 es0]; [congruence|].
  destruct (fold_min_spec (map w es0) (w e0)) as [I X].
  { apply NN; left; auto. }
  { intros b J. apply in_map_iff in J. destruct J as (j & <- & J). apply NN. right; auto. }
  cbv beta zeta in I, X. cbn [map wmin]. eexists. split; [reflexivity|].
  set (lo := fold_left _ (map w es0) (w e0)) in *.
  change (w e0 :: map w es0) with (map w (e0 :: es0)) in I, X.
  apply in_map_iff in I. destruct I as (i0 & E0 & I0).
  split; [rewrite <- E0; apply NN; auto|]. split; [eauto|]. intros i I. apply X, in_map; auto.
Qed.

(** The edge which is not disabled comes before all others. *)
Lemma select_ok on es : es <> [] -> StronglySorted lt es -> (forall i, In i es -> i < length wt) ->
  (mixed es = true /\ select_lightest wt on es = Err ValueError) \/
  (mixed es = false /\ exists on', select_lightest wt on es = Ok on' /\ length on' = length on /\
    forall i, nth i on' false =
      nth i on false && negb (existsb (Nat.eqb i) es && existsb (fun j => preferred j i) es)).
Proof.
  intros NE S B. unfold select_lightest. rewrite (take_ok _ _ NaN) by auto. change (map (fun i => nth i wt NaN) es) with (map w es). cbn [bindR].
  rewrite existsb_map_nan, forallb_map_nan. unfold mixed.
  destruct (existsb (fun i => is_nan (w i)) es) eqn:XN.
  - destruct (forallb (fun i => is_nan (w i)) es) eqn:FN; [right|left; split; auto].
    split; auto. destruct es as [|e es]; [congruence|]. cbn [bindR negb]. eexists. split; [reflexivity|].
    destruct (fold_disable e (e :: es) on) as [L X]. split; [exact L|]. intros i. rewrite X.
    f_equal. f_equal. destruct (existsb (Nat.eqb i) (e :: es)) eqn:I; auto. cbn [andb].
    apply mem_spec in I. rewrite forallb_forall in FN. clear XN.
    assert (NP : forall j, In j (e :: es) -> preferred j i = (j <? i)).
    { intros j J. unfold preferred. apply FN in J. apply FN in I. destruct (w j), (w i); try discriminate.
      cbn. rewrite andb_true_r. auto. }
    destruct (Nat.eqb_spec i e) as [->|D]; cbn [negb]; symmetry.
    + destruct (existsb _ _) eqn:E; auto. apply existsb_exists in E. destruct E as (j & J & P).
      cbv beta in P. rewrite (NP j J) in P. apply Nat.ltb_lt in P. destruct J as [->|J]; [lia|].
      inversion S as [|? ? _ F]; subst. rewrite Forall_forall in F. apply F in J. lia.
    + apply existsb_exists. exists e. split; [left; auto|]. rewrite NP by (left; auto).
      apply Nat.ltb_lt. destruct I as [->|I]; [congruence|]. inversion S as [|? ? _ F]; subst.
      rewrite Forall_forall in F. apply F; auto.
  - right. split; auto.
    assert (NN : forall i, In i es -> is_nan (w i) = false).
    { intros i I. destruct (is_nan (w i)) eqn:E; auto.
      rewrite <- XN. symmetry. apply existsb_exists. exists i. auto. }
    clear XN.
    destruct (wmin_spec es NE NN) as (lo & -> & LO & (i0 & E0 & I0) & X). cbn [bindR].
    rewrite find_combine. destruct (find (fun i => weqb (w i) lo) es) as [sel|] eqn:F.
    2: { apply find_none with (x := i0) in F; auto. rewrite E0, weqb_refl in F by auto. discriminate. }
    cbn [option_map bindR fst]. eexists. split; [reflexivity|].
    destruct (fold_disable sel es on) as [L Y]. split; [exact L|]. intros i. rewrite Y.
    f_equal. f_equal. destruct (existsb (Nat.eqb i) es) eqn:I; auto. cbn [andb]. apply mem_spec in I.
    apply find_first in F. destruct F as (l1 & l2 & SP & Q & FI).
    assert (Isel : In sel es) by (rewrite SP; apply in_or_app; right; left; auto).
    rewrite weqb_wlt in Q by auto. apply andb_true_iff in Q. destruct Q as [Q1 Q2]. apply negb_true_iff in Q1, Q2.
    assert (MIN : forall j, In j es -> wlt (w j) (w sel) = false).
    { intros j J. apply (wge_trans _ lo _ LO); auto. }
    assert (SA : (forall b, In b l1 -> b < sel) /\ (forall b, In b l2 -> sel < b)).
    { apply sorted_app. rewrite <- SP. auto. }
    assert (BEF : forall j, In j l1 -> wlt (w sel) (w j) = true).
    { intros j J. assert (Je : In j es) by (rewrite SP; apply in_or_app; auto).
      pose proof (FI j J) as Z. rewrite weqb_wlt in Z by auto.
      assert (wlt (w j) lo = false) as E1 by (apply X; auto). rewrite E1 in Z. cbn in Z.
      apply negb_false_iff in Z. destruct (wlt (w sel) (w j)) eqn:E2; auto.
      rewrite (wge_trans lo (w sel) (w j)) in Z; auto. }
    destruct (Nat.eqb_spec i sel) as [->|D]; cbn [negb]; symmetry.
    + destruct (existsb _ _) eqn:E; auto. apply existsb_exists in E. destruct E as (j & J & P).
      unfold preferred in P. rewrite MIN in P by auto. cbn in P. apply andb_true_iff in P. destruct P as [P1 P2].
      apply Nat.ltb_lt in P1. rewrite SP in J. apply in_app_or in J. destruct J as [J|[J|J]].
      * rewrite BEF in P2 by auto. discriminate.
      * lia.
      * apply SA in J. lia.
    + apply existsb_exists. exists sel. split; auto. unfold preferred. rewrite MIN by auto. cbn [negb].
      rewrite andb_true_r. rewrite SP in I. apply in_app_or in I. destruct I as [J|[J|J]].
      * rewrite BEF; auto.
      * congruence.
      * apply SA in J. apply Nat.ltb_lt in J. rewrite J, orb_true_r. auto.
Qed.
End Select.

(** * The loops *)

Section Dup.
Variables (E : list (list nat)) (wt : list weight).
Hypothesis Hw : length wt = length E.
Notation key := (fun i => nth i E []).
Notation group P k := (filter (fun j => eqb_key (key j) k) P).

(** Edge [i] is disabled because of a parallel edge in [P]. *)
Definition killed (P : list nat) (i : nat) : bool :=
  existsb (Nat.eqb i) P && existsb (fun j => eqb_key (key j) (key i) && preferred wt j i) P.
Definition clash (P : list nat) : Prop := exists i, In i P /\ mixed wt (group P (key i)) = true.

Definition dict_ok (P : list nat) (d : list (list nat * list nat)) : Prop :=
  NoDup (map fst d) /\ (forall k es, In (k, es) d -> es = group P k /\ es <> []) /\
  (forall j, In j P -> In (key j) (map fst d)).

Lemma dict_push_in key e d k es : NoDup (map fst d) ->
  (In (k, es) (dict_push key e d) <->
   (k <> key /\ In (k, es) d) \/
   (k = key /\ ((exists es0, In (key, es0) d /\ es = es0 ++ [e]) \/ (~ In key (map fst d) /\ es = [e])))).
Proof.
  induction d as [|[k0 es0] d IH]; intros N.
  - cbn. split.
    + intros [X|[]]. injection X as <- <-. right. split; auto.
    + intros [[_ []]|[-> [(x & [] & _)|[_ ->]]]]. auto.
  - cbn [dict_push map fst] in *. inversion N as [|? ? NI N']; subst.
    destruct (eqb_key_spec k0 key) as [->|D].
    + cbn. split.
      * intros [X|I].
        -- injection X as <- <-. right. split; auto. left. exists es0. auto.
        -- left. split; auto. intros ->. apply NI. apply in_map_iff. exists (key, es). auto.
      * intros [[X [Y|I]]|[-> [(x & [Y|I] & ->)|[Y ->]]]].
        -- congruence.
        -- auto.
        -- injection Y as <-. auto.
        -- exfalso. apply NI. apply in_map_iff. exists (key, x). auto.
        -- exfalso. apply Y. auto.
    + cbn. rewrite IH by auto. split.
      * intros [X|[[X I]|[-> [(x & I & ->)|[Y ->]]]]].
        -- injection X as <- <-. left. split; auto.
        -- auto.
        -- right. split; auto. left. exists x. auto.
        -- right. split; auto. right. split; auto. intros [Z|Z]; auto.
      * intros [[X [Y|I]]|[-> [(x & [Y|I] & ->)|[Y ->]]]]; auto.
        -- congruence.
        -- right. right. split; auto. left. exists x. auto.
        -- right. right. split; [auto|]. right. split; auto.
Qed.

Lemma dict_push_keys key e d : NoDup (map fst d) -> NoDup (map fst (dict_push key e d)) /\
  forall k, In k (map fst (dict_push key e d)) <-> k = key \/ In k (map fst d).
Proof.
  induction d as [|[k0 es0] d IH]; intros N; cbn [dict_push map fst] in *.
  - split; [repeat constructor; intros []|]. cbn. intuition.
  - inversion N as [|? ? NI N']; subst. destruct (eqb_key_spec k0 key) as [->|D].
    + cbn. split; auto. intuition.
    + cbn. destruct (IH N') as [A B]. split.
      * constructor; auto. rewrite B. intros [X|X]; auto.
      * intros k. rewrite B. intuition.
Qed.

Lemma group_snoc P e k : group (P ++ [e]) k = group P k ++ if eqb_key (key e) k then [e] else [].
Proof. rewrite filter_app. cbn. destruct (eqb_key _ _); auto. Qed.

Lemma dict_push_ok P d e : dict_ok P d -> dict_ok (P ++ [e]) (dict_push (key e) e d).
Proof.
  intros (N & G & K). destruct (dict_push_keys (key e) e d N) as [N' K']. split; [auto|]. split.
  - intros k es I. apply dict_push_in in I; auto. rewrite group_snoc.
    destruct I as [[D I]|[-> [(es0 & I & ->)|[NI ->]]]].
    + apply G in I. destruct (eqb_key_spec (key e) k); [congruence|]. rewrite app_nil_r. auto.
    + apply G in I. destruct (eqb_key_spec (key e) (key e)); [|congruence]. destruct I as [-> _].
      split; auto. destruct (group P (key e)); discriminate.
    + destruct (eqb_key_spec (key e) (key e)); [|congruence]. split; [|discriminate].
      destruct (group P (key e)) as [|j l] eqn:Z; auto.
      assert (J : In j (j :: l)) by (left; auto). rewrite <- Z in J. apply filter_In in J.
      destruct J as [J X]. apply K in J. destruct (eqb_key_spec (key j) (key e)) as [Y|]; [|discriminate].
      rewrite Y in J. tauto.
  - intros j I. apply K'. apply in_app_or in I. destruct I as [I|[<-|[]]]; auto.
Qed.

Definition pick (on : list bool) (kes : list nat * list nat) : Res (list bool) :=
  if 1 <? length (snd kes) then select_lightest wt on (snd kes) else Ok on.

Lemma pick_ok on k es : es <> [] -> StronglySorted lt es -> (forall i, In i es -> i < length wt) ->
  (mixed wt es = true /\ pick on (k, es) = Err ValueError) \/
  (mixed wt es = false /\ exists on', pick on (k, es) = Ok on' /\ length on' = length on /\
    forall i, nth i on' false =
      nth i on false && negb (existsb (Nat.eqb i) es && existsb (fun j => preferred wt j i) es)).
Proof.
  intros NE S B. unfold pick. cbn [snd]. destruct (Nat.ltb_spec 1 (length es)); [apply select_ok; auto|].
  destruct es as [|e [|e' es]]; [congruence| |cbn in H; lia]. right. split.
  - unfold mixed. cbn. destruct (is_nan _); auto.
  - exists on. split; [auto|]. split; [auto|]. intros i. cbn. rewrite !orb_false_r.
    destruct (Nat.eqb_spec i e) as [->|]; cbn; [rewrite preferred_irrefl|]; rewrite andb_true_r; auto.
Qed.

Lemma picks_ok d : forall on,
  (forall k es, In (k, es) d -> es <> [] /\ StronglySorted lt es /\ forall i, In i es -> i < length wt) ->
  ((exists k es, In (k, es) d /\ mixed wt es = true) /\ foldR pick d on = Err ValueError) \/
  ((forall k es, In (k, es) d -> mixed wt es = false) /\
   exists on', foldR pick d on = Ok on' /\ length on' = length on /\
    forall i, nth i on' false = nth i on false &&
      negb (existsb (fun kes => existsb (Nat.eqb i) (snd kes) && existsb (fun j => preferred wt j i) (snd kes)) d)).
Proof.
  induction d as [|[k es] d IH]; intros on H.
  - right. split; [intros ? ? []|]. exists on. cbn. split; [auto|]. split; [auto|].
    intros; rewrite andb_true_r; auto.
  - cbn [foldR]. destruct (H k es) as (NE & S & B); [left; auto|].
    destruct (pick_ok on k es) as [[M ->]|(M & on1 & -> & L1 & X1)]; [auto..| |].
    + left. split; auto. exists k, es. split; auto. left; auto.
    + cbn [bindR]. destruct (IH on1) as [[(k' & es' & I & M') ->]|(M' & on2 & -> & L2 & X2)].
      * intros k' es' I'. apply (H k' es'). right; auto.
      * left. split; auto. exists k', es'. split; auto. right; auto.
      * right. split; [intros k' es' [X|I]; [injection X as <- <-; auto|eauto]|].
        exists on2. split; [auto|]. split; [congruence|]. intros i. rewrite X2, X1. cbn [existsb snd].
        rewrite negb_orb, andb_assoc. auto.
Qed.

Lemma sorted_filter (f : nat -> bool) l : StronglySorted lt l -> StronglySorted lt (filter f l).
Proof.
  induction l as [|a l IH]; intros S; cbn; [constructor|]. inversion S as [|? ? S' F]; subst.
  destruct (f a); auto. constructor; auto. rewrite Forall_forall in *. intros x I.
  apply filter_In in I. apply F. tauto.
Qed.

Lemma sorted_seq a k : StronglySorted lt (seq a k).
Proof.
  revert a. induction k as [|k IH]; intros a; cbn; constructor; auto.
  apply Forall_forall. intros x I. apply in_seq in I. lia.
Qed.

Lemma sorted_prefix (l1 l2 : list nat) : StronglySorted lt (l1 ++ l2) -> StronglySorted lt l1.
Proof.
  induction l1 as [|a l1 IH]; cbn; intros S; [constructor|]. inversion S as [|? ? S' F]; subst.
  constructor; auto. rewrite Forall_forall in *. intros x I. apply F, in_or_app. auto.
Qed.

Lemma killed_dict P d i : dict_ok P d ->
  existsb (fun kes => existsb (Nat.eqb i) (snd kes) && existsb (fun j => preferred wt j i) (snd kes)) d = killed P i.
Proof.
  intros (N & G & K). apply eq_true_iff_eq. rewrite existsb_exists. unfold killed.
  rewrite andb_true_iff, mem_spec, existsb_exists. split.
  - intros ([k es] & I & X). cbn in X. apply andb_true_iff in X. destruct X as [X Y].
    apply mem_spec in X. apply existsb_exists in Y. destruct Y as (j & J & Y).
    apply G in I. destruct I as [-> _]. apply filter_In in X, J. destruct X as [X1 X2], J as [J1 J2].
    split; auto. exists j. split; auto. destruct (eqb_key_spec (key i) k) as [<-|]; [|discriminate].
    rewrite J2, Y. auto.
  - intros [I (j & J & X)]. apply andb_true_iff in X. destruct X as [X Y].
    pose proof (K i I) as Z. apply in_map_iff in Z. destruct Z as ([k es] & Z & W). cbn in Z.
    exists (k, es). split; auto. cbn. apply G in W. destruct W as [-> _]. subst k.
    apply andb_true_iff. split.
    + apply mem_spec. apply filter_In. split; auto. destruct (eqb_key_spec (key i) (key i)); auto.
    + apply existsb_exists. exists j. split; auto. apply filter_In. auto.
Qed.

Lemma clash_dict P d : dict_ok P d ->
  (clash P <-> exists k es, In (k, es) d /\ mixed wt es = true).
Proof.
  intros (N & G & K). split.
  - intros (i & I & M). pose proof (K i I) as Z. apply in_map_iff in Z. destruct Z as ([k es] & Z & W).
    cbn in Z. subst k. exists (key i), es. split; auto. apply G in W. destruct W as [-> _]. auto.
  - intros (k & es & I & M). apply G in I. destruct I as [-> NE].
    destruct (group P k) as [|i l] eqn:Z; [congruence|].
    assert (J : In i (i :: l)) by (left; auto). rewrite <- Z in J. apply filter_In in J. destruct J as [J X].
    exists i. split; auto. destruct (eqb_key_spec (key i) k) as [->|]; [|discriminate]. rewrite Z. auto.
Qed.

Lemma killed_prefix P e i : killed P i = true -> killed (P ++ [e]) i = true.
Proof.
  unfold killed. rewrite !andb_true_iff, !existsb_app. intros [A B]. rewrite A, B. auto.
Qed.

Variable g : sgraph.
Hypothesis HE : sg_ends g = E.
Hypothesis HW : sg_wt g = wt.

Lemma duplicate_step_ok P d on on0 e : dict_ok P d -> StronglySorted lt (P ++ [e]) ->
  (forall i, In i (P ++ [e]) -> i < length E) ->
  (forall i, nth i on false = nth i on0 false && negb (killed P i)) ->
  (clash (P ++ [e]) /\ duplicate_step g (d, on) e = Err ValueError) \/
  (~ clash (P ++ [e]) /\ exists d' on', duplicate_step g (d, on) e = Ok (d', on') /\ dict_ok (P ++ [e]) d' /\
    length on' = length on /\ forall i, nth i on' false = nth i on0 false && negb (killed (P ++ [e]) i)).
Proof.
  intros D S B X. unfold duplicate_step. rewrite HE, (get_nth _ _ []) by (apply B, in_or_app; right; left; auto).
  cbn [bindR fst snd]. rewrite HW. pose proof (dict_push_ok P d e D) as D'.
  set (d' := dict_push (key e) e d) in *.
  assert (H : forall k es, In (k, es) d' -> es <> [] /\ StronglySorted lt es /\ forall i, In i es -> i < length wt).
  { intros k es I. destruct D' as (_ & G & _). apply G in I. destruct I as [-> NE]. split; auto.
    split; [apply sorted_filter; auto|]. intros i I. apply filter_In in I. rewrite Hw. apply B. tauto. }
  change (foldR _ d' on) with (foldR pick d' on).
  destruct (picks_ok d' on H) as [[M ->]|(M & on' & -> & L & Y)].
  - left. split; auto. apply (clash_dict _ d'); auto.
  - right. split.
    + rewrite (clash_dict _ d' D'). intros (k & es & I & Z). apply M in I. congruence.
    + exists d', on'. cbn. split; [auto|]. split; [auto|]. split; [auto|]. intros i.
      rewrite Y, X, killed_dict with (P := P ++ [e]) by auto.
      destruct (killed P i) eqn:Z; [rewrite (killed_prefix P e i Z)|]; cbn; rewrite ?andb_false_r, ?andb_true_r; auto.
Qed.

Lemma clash_prefix P Q : clash P -> clash (P ++ Q).
Proof.
  intros (i & I & M). exists i. split; [apply in_or_app; auto|]. rewrite filter_app.
  unfold mixed in *. apply andb_true_iff in M. destruct M as [M1 M2]. rewrite existsb_app, forallb_app, M1.
  apply negb_true_iff in M2. rewrite M2. auto.
Qed.

Lemma duplicate_loop_ok on0 Q : forall P d on, dict_ok P d -> StronglySorted lt (P ++ Q) ->
  (forall i, In i (P ++ Q) -> i < length E) ->
  (forall i, nth i on false = nth i on0 false && negb (killed P i)) -> ~ clash P ->
  (clash (P ++ Q) /\ foldR (duplicate_step g) Q (d, on) = Err ValueError) \/
  (~ clash (P ++ Q) /\ exists s, foldR (duplicate_step g) Q (d, on) = Ok s /\
    length (snd s) = length on /\ forall i, nth i (snd s) false = nth i on0 false && negb (killed (P ++ Q) i)).
Proof.
  induction Q as [|e Q IH]; intros P d on D S B X C.
  - right. rewrite app_nil_r in *. split; auto. exists (d, on). cbn. auto.
  - cbn [foldR]. replace (P ++ e :: Q) with ((P ++ [e]) ++ Q) in * by (rewrite <- app_assoc; auto).
    destruct (duplicate_step_ok P d on on0 e) as [[K ->]|(K & d' & on' & -> & D' & L' & X')]; auto.
    + apply sorted_prefix in S. auto.
    + intros i I. apply B, in_or_app; auto.
    + left. split; auto. apply clash_prefix; auto.
    + cbn [bindR]. destruct (IH (P ++ [e]) d' on') as [[K' ->]|(K' & s & -> & L'' & X'')]; auto.
      right. split; auto. exists s. split; [auto|]. split; [congruence|auto].
Qed.

Lemma vertices_loop_ok (vs : list nat) : forall on,
  ((exists v, In v vs /\ clash (at_vertex E v)) /\
   foldR (fun on es => do s <- foldR (duplicate_step g) es ([], on); Ok (snd s)) (map (at_vertex E) vs) on = Err ValueError) \/
  ((forall v, In v vs -> ~ clash (at_vertex E v)) /\ exists on',
   foldR (fun on es => do s <- foldR (duplicate_step g) es ([], on); Ok (snd s)) (map (at_vertex E) vs) on = Ok on' /\
   length on' = length on /\
   forall i, nth i on' false = nth i on false && negb (existsb (fun v => killed (at_vertex E v) i) vs)).
Proof.
  induction vs as [|v vs IH]; intros on; cbn [map foldR].
  - right. split; [intros ? []|]. exists on. split; [auto|]. split; [auto|]. intros; cbn; rewrite andb_true_r; auto.
  - destruct (duplicate_loop_ok on (at_vertex E v) [] [] on) as [[K ->]|(K & s & -> & L & X)].
    + split; [constructor|]. split; [intros ? ? []|intros ? []].
    + cbn. apply sorted_filter, sorted_seq.
    + cbn. intros i I. apply at_vertex_spec in I. tauto.
    + intros i. unfold killed. cbn. rewrite andb_true_r. auto.
    + intros (i & [] & _).
    + left. split; auto. exists v. split; auto. left; auto.
    + cbn [bindR app] in *. destruct (IH (snd s)) as [[(v' & I & C) ->]|(C & on' & -> & L' & X')].
      * left. split; auto. exists v'. split; auto. right; auto.
      * right. split; [intros v' [<-|I]; auto|]. exists on'. split; [auto|]. split; [congruence|].
        intros i. rewrite X', X. cbn [existsb]. rewrite negb_orb, andb_assoc. auto.
Qed.

Variable nv : nat.
Hypothesis Hv : sg_vedges g = map (at_vertex E) (seq 0 nv).
Hypothesis Hlt : forall e v, In e E -> In v e -> v < nv.

(** Two parallel edges, one with a weight and one without. *)
Definition bad_pair : Prop := exists i j, i < length E /\ j < length E /\ key i = key j /\ key i <> [] /\
  is_nan (wof wt i) = true /\ is_nan (wof wt j) = false.
(** A parallel edge is preferred. *)
Definition beaten (i : nat) : bool := match key i with [] => false | _ =>
  existsb (fun j => eqb_key (key j) (key i) && preferred wt j i) (seq 0 (length E)) end.

Lemma mixed_spec es : mixed wt es = true <->
  (exists i, In i es /\ is_nan (wof wt i) = true) /\ (exists j, In j es /\ is_nan (wof wt j) = false).
Proof.
  unfold mixed. rewrite andb_true_iff, existsb_exists. split.
  - intros [A B]. split; auto. induction es as [|e es IH]; cbn in B; [discriminate|].
    destruct (is_nan (wof wt e)) eqn:X; [|exists e; split; auto; left; auto].
    assert (Y : exists j, In j es /\ is_nan (wof wt j) = false).
    { destruct (forallb (fun i => is_nan (wof wt i)) es) eqn:Z; [discriminate|].
      clear -Z. induction es as [|e es IH]; cbn in Z; [discriminate|].
      destruct (is_nan (wof wt e)) eqn:X; [|exists e; split; auto; left; auto].
      destruct (IH Z) as (j & I & J). exists j. split; auto. right; auto. }
    destruct Y as (j & I & J). exists j. split; auto. right; auto.
  - intros [A (j & I & J)]. split; auto. apply negb_true_iff.
    destruct (forallb _ es) eqn:X; auto. rewrite forallb_forall in X. apply X in I. congruence.
Qed.

Lemma clash_bad : (exists v, In v (seq 0 nv) /\ clash (at_vertex E v)) <-> bad_pair.
Proof.
  split.
  - intros (v & _ & i & I & M). apply mixed_spec in M. destruct M as [(a & A & NA) (b & B & NB)].
    apply filter_In in A, B. destruct A as [A1 A2], B as [B1 B2].
    destruct (eqb_key_spec (key a) (key i)) as [Ka|]; [|discriminate].
    destruct (eqb_key_spec (key b) (key i)) as [Kb|]; [|discriminate].
    apply at_vertex_spec in A1, B1. exists a, b. split; [tauto|]. split; [tauto|]. split; [congruence|].
    split; auto. destruct A1 as [_ A1]. intros Z. rewrite Z in A1. destruct A1.
  - intros (i & j & Li & Lj & K & NE & Ni & Nj). destruct (key i) as [|v l] eqn:Ki; [congruence|].
    exists v. assert (Iv : In v (key i)) by (rewrite Ki; left; auto). split.
    + apply in_seq. split; [lia|]. cbn. apply (Hlt (key i)); auto. apply nth_In; auto.
    + assert (Ai : In i (at_vertex E v)) by (apply at_vertex_spec; auto).
      exists i. split; auto. apply mixed_spec. split.
      * exists i. split; auto. apply filter_In. split; auto. destruct (eqb_key_spec (key i) (key i)); auto.
      * exists j. split; auto. apply filter_In. split.
        -- apply at_vertex_spec. split; auto. rewrite <- K. left; auto.
        -- destruct (eqb_key_spec (key j) (key i)); auto. congruence.
Qed.

Lemma killed_beaten i : i < length E -> existsb (fun v => killed (at_vertex E v) i) (seq 0 nv) = beaten i.
Proof.
  intros Li. apply eq_true_iff_eq. rewrite existsb_exists. unfold beaten. split.
  - intros (v & _ & K). unfold killed in K. apply andb_true_iff in K. destruct K as [I K].
    apply mem_spec in I. apply at_vertex_spec in I. destruct I as [_ I]. destruct (key i) eqn:Ki; [destruct I|].
    apply existsb_exists in K. destruct K as (j & J & K). apply existsb_exists. exists j.
    apply at_vertex_spec in J. split; [apply in_seq; lia|]. auto.
  - destruct (key i) as [|v l] eqn:Ki; [discriminate|]. intros K. apply existsb_exists in K.
    destruct K as (j & J & K). apply in_seq in J. exists v.
    assert (Iv : In v (key i)) by (rewrite Ki; left; auto). split.
    + apply in_seq. split; [lia|]. cbn. apply (Hlt (key i)); auto. apply nth_In; auto.
    + unfold killed. apply andb_true_iff. split.
      * apply mem_spec, at_vertex_spec. auto.
      * apply existsb_exists. exists j. split; [|rewrite Ki; auto]. apply at_vertex_spec. split; [lia|].
        apply andb_true_iff in K. destruct K as [K _]. rewrite <- Ki in K.
        destruct (eqb_key_spec (key j) (key i)) as [->|]; [auto|discriminate].
Qed.

Lemma disable_duplicates_ok :
  (bad_pair /\ disable_duplicates g = Err ValueError) \/
  (~ bad_pair /\ exists on, disable_duplicates g = Ok (set_on on g) /\ length on = length (sg_on g) /\
   forall i, i < length E -> nth i on false = nth i (sg_on g) false && negb (beaten i)).
Proof.
  unfold disable_duplicates. rewrite Hv.
  destruct (vertices_loop_ok (seq 0 nv) (sg_on g)) as [[C ->]|(C & on & -> & L & X)].
  - left. split; auto. apply clash_bad; auto.
  - right. split.
    + rewrite <- clash_bad. intros (v & I & Y). apply C in I. auto.
    + exists on. split; [auto|]. split; [auto|]. intros i Li. rewrite X, killed_beaten; auto.
Qed.
End Dup.
