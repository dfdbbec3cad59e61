(** Updates of the table of qubit errors from a file. *)
Require Import String List Bool Arith ZArith QArith Lia.
From Verif Require Import Base BaseProofs TablesModel TablesSpec TablesProofs TablesQubits InstantiateModel QubitFileModel.
Import ListNotations.
Local Open Scope string_scope.
Local Open Scope nat_scope.
Local Open Scope list_scope.

(** The file gives a number to a qubit. *)
Definition cell_given (ids : list Z) (file : list (option Q)) (q : Z) (v : Q) : Prop :=
  exists k, nth_error ids k = Some q /\ nth_error file k = Some (Some v).
Lemma distinct_ids_ok l : distinct_ids l = true <-> NoDup l.
Proof.
  induction l as [|k l IH]; cbn [distinct_ids]; [split; [constructor|auto]|]. rewrite andb_true_iff, negb_true_iff, IH, NoDup_cons_iff. apply and_iff_compat_r. split.
  - intros H I. assert (X : existsb (Z.eqb k) l = true) by (apply existsb_exists; exists k; split; [auto|apply Z.eqb_refl]). congruence.
  - intros H. apply not_true_iff_false. intros X. apply existsb_exists in X as (y & I & E). apply Z.eqb_eq in E. subst. auto.
Qed.
Lemma find_id_ok q v : forall ids file, NoDup ids -> (find_id q (combine ids file) = Some v <-> cell_given ids file q v).
Proof.
  unfold cell_given. induction ids as [|k ids IH]; intros [|x file] N; cbn [combine find_id].
  - split; [discriminate|intros ([|j] & A & _); discriminate].
  - split; [discriminate|intros ([|j] & A & _); discriminate].
  - split; [discriminate|intros ([|j] & _ & B); discriminate].
  - apply NoDup_cons_iff in N as [NI N]. destruct (Z.eqb_spec k q) as [->|D].
    + split; [intros ->; exists 0; auto|]. intros ([|j] & A & B); cbn in A, B; [congruence|]. apply nth_error_In in A. contradiction.
    + rewrite (IH file N). split; intros (j & A & B); [exists (S j); auto|]. destruct j as [|j]; cbn in A, B; [congruence|]. exists j. auto.
Qed.

(** A table in which one column has been set. *)
Definition put (name : string) (vs : list Q) (t t' : qubit_table) : Prop :=
  qt_rows t' = qt_rows t /\ NoDup (map fst (qt_cols t')) /\ forall n x, In (n, x) (qt_cols t') <-> n = name /\ x = vs \/ n <> name /\ In (n, x) (qt_cols t).
Lemma put_old name vs vs0 t : NoDup (map fst (qt_cols t)) -> In (name, vs0) (qt_cols t) -> put name vs t (set_column name vs t).
Proof.
  intros N C. unfold put, set_column. cbn [qt_rows qt_cols]. split; [auto|split].
  - rewrite map_map. replace (map _ (qt_cols t)) with (map fst (qt_cols t)); [auto|]. apply map_ext. intros [a b]. cbn. destruct (String.eqb_spec a name); auto.
  - intros n1 x. rewrite in_map_iff. split.
    + intros ([a b] & E & I). cbn in E. destruct (String.eqb_spec a name) as [->|D]; injection E as <- <-; auto.
    + intros [[-> ->]|[D I]]; [exists (name, vs0); cbn; rewrite String.eqb_refl; auto|]. exists (n1, x). cbn. destruct (String.eqb_spec n1 name); [contradiction|auto].
Qed.
Lemma put_new name vs t : NoDup (map fst (qt_cols t)) -> ~ In name (map fst (qt_cols t)) -> put name vs t (mkTable (qt_rows t) (qt_cols t ++ [(name, vs)])).
Proof.
  intros N NI. unfold put. cbn [qt_rows qt_cols]. split; [auto|split].
  - rewrite map_app. cbn [map fst]. apply NoDup_Add with (a := name) (l := map fst (qt_cols t)); [|auto]. rewrite <- (app_nil_r (map fst (qt_cols t))) at 1. apply Add_app.
  - intros n x. rewrite in_app_iff. cbn [In]. split.
    + intros [I|[[= <- <-]|[]]]; [|auto]. right. split; [|auto]. intros ->. apply NI. change name with (fst (name, x)). apply in_map. auto.
    + intros [[-> ->]|[_ I]]; auto.
Qed.
Lemma mapR_nth {A B} (f : A -> Res B) l : forall l', mapR f l = Ok l' -> length l' = length l /\ forall i a, nth_error l i = Some a -> exists b, f a = Ok b /\ nth_error l' i = Some b.
Proof.
  induction l as [|a l IH]; intros l'; cbn [mapR]; [intros [= <-]; split; [auto|intros [|i] ? [=]]|]. destruct (f a) as [b|] eqn:E; cbn [bindR]; [|discriminate]. destruct (mapR f l) as [bs|]; cbn [bindR]; [|discriminate]. intros [= <-]. destruct (IH bs eq_refl) as [L K]. split; [cbn; lia|]. intros [|i] x; cbn [nth_error]; [intros [= <-]; exists b; auto|apply K].
Qed.

Lemma merge_column_ok c t name file t' : well_formed t -> merge_column c t (name, file) = Ok t' ->
  well_formed t' /\ qt_rows t' = qt_rows t /\ (forall n, In n (map fst (qt_cols t')) <-> n = name \/ In n (map fst (qt_cols t))) /\
  (forall n q v, n <> name -> (holds t' n q v <-> holds t n q v)) /\
  (forall q v, holds t' name q v <-> In q (map fst (qt_rows t)) /\ cell_given (cs_ids c) file q v \/ (forall w, ~ cell_given (cs_ids c) file q w) /\ holds t name q v).
Proof.
  intros W H.
  assert (S : NoDup (cs_ids c) /\ exists vs, put name vs t t' /\ length vs = length (qt_rows t) /\
    forall i q ty v, nth_error (qt_rows t) i = Some (q, ty) -> (nth_error vs i = Some v <-> find_id q (combine (cs_ids c) file) = Some v \/
      find_id q (combine (cs_ids c) file) = None /\ exists vs0, In (name, vs0) (qt_cols t) /\ nth_error vs0 i = Some v)).
  { unfold merge_column in H. cbn [fst snd] in H. destruct (column t name) as [vs0|] eqn:C.
    - apply (column_ok t name vs0 (wf_names _ W)) in C. unfold update_column in H. destruct (distinct_ids (cs_ids c)) eqn:D; cbn [negb bindR] in H; [|discriminate]. split; [apply distinct_ids_ok; auto|].
      set (vs := map _ (combine (qt_rows t) vs0)) in H. injection H as <-. exists vs. pose proof (wf_lengths _ W _ _ C) as L. split; [eapply put_old; [apply W|eauto]|]. split; [unfold vs; rewrite map_length, combine_length; lia|].
      intros i q ty v R. assert (exists x, nth_error vs0 i = Some x) as [x X] by (destruct (nth_error vs0 i) eqn:E; [eauto|]; apply nth_error_None in E; assert (i < length (qt_rows t)) by (apply nth_error_Some; congruence); lia).
      assert (Y : nth_error (combine (qt_rows t) vs0) i = Some (q, ty, x)).
      { revert R X. clear. revert i vs0. induction (qt_rows t) as [|a l IH]; intros [|i] [|b vs0]; cbn; try discriminate; [congruence|apply IH]. }
      unfold vs. rewrite (map_nth_error _ _ _ Y). cbn [fst snd]. destruct (find_id q (combine (cs_ids c) file)) as [w|].
      + split; [intros [= ->]; auto|intros [[= ->]|[[=] _]]; auto].
      + split; [intros [= <-]; right; split; [auto|exists vs0; auto]|]. intros [[=]|[_ (vs1 & I1 & E1)]]. apply (column_ok t name vs0 (wf_names _ W)) in C. apply (column_ok t name vs1 (wf_names _ W)) in I1. congruence.
    - assert (NI : ~ In name (map fst (qt_cols t))). { intros I. apply in_map_iff in I as ([n vs] & E & I). cbn in E. subst n. apply (column_ok t name vs (wf_names _ W)) in I. congruence. }
      destruct (distinct_ids (cs_ids c)) eqn:D; cbn [negb] in H; [|discriminate]. split; [apply distinct_ids_ok; auto|].
      destruct (mapR _ (qt_rows t)) as [vs|] eqn:M; cbn [bindR] in H; [|discriminate]. injection H as <-. exists vs. apply mapR_nth in M as [L K]. split; [apply put_new; [apply W|auto]|]. split; [auto|].
      intros i q ty v R. destruct (K _ _ R) as (b & E & N). cbn [fst] in E. rewrite N. destruct (find_id q (combine (cs_ids c) file)) as [w|]; [|discriminate]. injection E as ->.
      split; [auto|intros [X|[X _]]; [auto|discriminate]]. }
  destruct S as (ND & vs & (PR & PN & PC) & L & K). split; [|split; [auto|split; [|split]]].
  - split; [rewrite PR; apply W|rewrite PR; apply W|auto|]. intros n x I. rewrite PR. apply PC in I as [[-> ->]|[_ I]]; [auto|apply (wf_lengths _ W n); auto].
  - intros n. rewrite !in_map_iff. split.
    + intros ([a x] & <- & I). apply PC in I as [[-> _]|[_ I]]; [left; auto|right; exists (a, x); auto].
    + intros [->|([a x] & E & I)]; [exists (name, vs); split; [auto|apply PC; auto]|]. cbn in E. subst a. destruct (string_dec n name) as [->|D]; [exists (name, vs); split; [auto|apply PC; auto]|exists (n, x); split; [auto|apply PC; auto]].
  - intros n q v D. unfold holds. rewrite PR. split; intros (i & ty & x & A & B & F); exists i, ty, x; (split; [auto|split; [|auto]]); [apply PC in B as [[X _]|[_ B]]; [contradiction|auto]|apply PC; auto].
  - intros q v. unfold holds. rewrite PR. assert (G : forall w, find_id q (combine (cs_ids c) file) = Some w <-> cell_given (cs_ids c) file q w) by (intros; apply find_id_ok; auto). split.
    + intros (i & ty & x & A & B & F). apply PC in B as [[_ ->]|[X _]]; [|contradiction]. apply (K _ _ _ _ A) in F as [F|(F & vs0 & I0 & E0)].
      * left. split; [change q with (fst (q, ty)); apply in_map; eapply nth_error_In; eauto|apply G; auto].
      * right. split; [intros w X; apply G in X; congruence|]. exists i, ty, vs0. auto.
    + intros [[I X]|[N (i & ty & x & A & B & F)]].
      * apply in_map_iff in I as ([q' ty] & E & I). cbn in E. subst q'. apply In_nth_error in I as [i R]. exists i, ty, vs. split; [auto|]. split; [apply PC; auto|]. apply (K _ _ _ _ R). left. apply G. auto.
      * exists i, ty, vs. split; [auto|]. split; [apply PC; auto|]. apply (K _ _ _ _ A). right. split; [|exists x; auto]. destruct (find_id q _) as [w|]; [|auto]. exfalso. apply (N w). apply G. auto.
Qed.

Lemma merge_ok c cols : NoDup (map fst cols) -> forall t t', well_formed t -> foldR (merge_column c) cols t = Ok t' ->
  well_formed t' /\ qt_rows t' = qt_rows t /\ (forall n, In n (map fst (qt_cols t')) <-> In n (map fst cols) \/ In n (map fst (qt_cols t))) /\
  (forall n q v, holds t' n q v <->
     (In q (map fst (qt_rows t)) /\ exists file, In (n, file) cols /\ cell_given (cs_ids c) file q v) \/
     (forall file w, In (n, file) cols -> ~ cell_given (cs_ids c) file q w) /\ holds t n q v).
Proof.
  induction cols as [|[name file] cols IH]; intros N t t' W; cbn [foldR].
  - intros [= <-]. split; [auto|]. split; [auto|]. split; [intros n; cbn; tauto|]. intros n q v. split; [intros H; right; split; [intros ? ? []|auto]|intros [[_ (f & [] & _)]|[_ H]]; auto].
  - cbn [map fst] in N. apply NoDup_cons_iff in N as [NI N]. destruct (merge_column c t (name, file)) as [t1|] eqn:E; cbn [bindR]; [|discriminate]. intros F.
    destruct (merge_column_ok c t name file t1 W E) as (W1 & R1 & C1 & O1 & S1). destruct (IH N t1 t' W1 F) as (W2 & R2 & C2 & H2). rewrite R1 in R2, H2.
    split; [auto|]. split; [auto|]. split; [intros n; rewrite C2, C1; cbn [map fst In]; intuition|]. intros n q v. rewrite H2. destruct (string_dec n name) as [->|D].
    + assert (NO : forall f, ~ In (name, f) cols) by (intros f I; apply NI; change name with (fst (name, f)); apply in_map; auto). rewrite S1. split.
      * intros [[_ (f & I & _)]|[_ [[I G]|[G H]]]]; [exfalso; eapply NO; eauto|left; split; [auto|]; exists file; split; [left|]; auto|right; split; [|auto]]. intros f w [[= <-]|I]; [apply G|exfalso; eapply NO; eauto].
      * intros [[I (f & [[= <-]|J] & G)]|[G H]]; [|exfalso; eapply NO; eauto|]; (right; split; [intros f' w J; exfalso; eapply NO; eauto|]); [left; auto|right; split; [|auto]]. intros w. apply G. left. auto.
    + rewrite (O1 n q v D). split.
      * intros [[I (f & J & G)]|[G H]]; [left; split; [auto|]; exists f; split; [right|]; auto|right; split; [|auto]]. intros f w [[= X _]|J]; [congruence|apply G; auto].
      * intros [[I (f & [[= X _]|J] & G)]|[G H]]; [congruence|left; split; [auto|]; exists f; auto|right; split; [|auto]]. intros f w J. apply G. right. auto.
Qed.
(** All columns are in the table: there is no exception. *)
Lemma merge_total c cols : NoDup (cs_ids c) -> NoDup (map fst cols) -> forall t, well_formed t -> (forall n, In n (map fst cols) -> In n (map fst (qt_cols t))) -> exists t', foldR (merge_column c) cols t = Ok t'.
Proof.
  intros NI. induction cols as [|[name file] cols IH]; intros N t W H; cbn [foldR]; [eauto|]. cbn [map fst] in N. apply NoDup_cons_iff in N as [NN N].
  destruct (merge_column c t (name, file)) as [t1|] eqn:E; cbn [bindR].
  - destruct (merge_column_ok c t name file t1 W E) as (W1 & R1 & C1 & _). apply IH; auto. intros n I. apply C1. right. apply H. right. auto.
  - exfalso. assert (I : In name (map fst (qt_cols t))) by (apply H; left; auto). apply in_map_iff in I as ([n vs] & EN & I). cbn in EN. subst n. apply (column_ok t name vs (wf_names _ W)) in I.
    unfold merge_column in E. cbn [fst snd] in E. rewrite I in E. unfold update_column in E. rewrite (proj2 (distinct_ids_ok _) NI) in E. discriminate.
Qed.
