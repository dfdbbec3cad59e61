(** Facts about boundaries of edge selections and about forests. *)
Require Import List Bool Arith Lia.
From Verif Require Import GraphSpec.
Import ListNotations.

(** ** Parities *)

Lemma parity_xor {A} (f g : A -> bool) l :
  parity (map (fun x => xorb (f x) (g x)) l) = xorb (parity (map f l)) (parity (map g l)).
Proof.
  induction l as [|a l IH]; cbn; auto. unfold parity in *. rewrite IH.
  destruct (f a), (g a), (fold_right xorb false (map f l)), (fold_right xorb false (map g l));
    reflexivity.
Qed.

Lemma parity_ext {A} (f g : A -> bool) l :
  (forall x, In x l -> f x = g x) -> parity (map f l) = parity (map g l).
Proof. intros H. f_equal. apply map_ext_in; auto. Qed.

Lemma parity_false {A} (f : A -> bool) l :
  (forall x, In x l -> f x = false) -> parity (map f l) = false.
Proof.
  induction l as [|a l IH]; cbn; intros H; auto.
  rewrite H by auto. rewrite xorb_false_l. apply IH; auto.
Qed.

Lemma parity_swap {A B} (f : A -> B -> bool) la lb :
  parity (map (fun a => parity (map (f a) lb)) la) =
  parity (map (fun b => parity (map (fun a => f a b) la)) lb).
Proof.
  induction la as [|a la IH]; cbn.
  - symmetry. apply parity_false. reflexivity.
  - unfold parity at 1. cbn. fold (parity (map (fun a => parity (map (f a) lb)) la)).
    rewrite IH, <- parity_xor. reflexivity.
Qed.

Lemma parity_and {A} (c : bool) (f : A -> bool) l :
  parity (map (fun x => c && f x) l) = c && parity (map f l).
Proof.
  destruct c; cbn; [reflexivity|]. apply parity_false; reflexivity.
Qed.

Lemma parity_one {A} (f : A -> bool) (a : A) l :
  NoDup l -> In a l -> (forall x, In x l -> x <> a -> f x = false) ->
  parity (map f l) = f a.
Proof.
  induction l as [|b l IH]; cbn; intros N I H; [destruct I|].
  inversion N; subst. destruct I as [->|I].
  - fold (parity (map f l)). rewrite (parity_false f l), xorb_false_r; auto.
    intros x Ix. apply H; auto. congruence.
  - assert (D : b <> a) by congruence.
    rewrite (H b) by auto. rewrite xorb_false_l. apply IH; auto.
Qed.

Lemma parity_two {A} (f : A -> bool) (a b : A) l :
  NoDup l -> In a l -> In b l -> a <> b ->
  (forall x, In x l -> x <> a -> x <> b -> f x = false) ->
  parity (map f l) = xorb (f a) (f b).
Proof.
  induction l as [|c l IH]; cbn; intros N I J D H; [destruct I|].
  inversion N; subst. fold (parity (map f l)). destruct I as [->|I], J as [->|J].
  - congruence.
  - f_equal. apply parity_one; auto. intros x Ix D'. apply H; auto. congruence.
  - rewrite xorb_comm. f_equal. apply parity_one; auto.
    intros x Ix D'. apply H; auto. congruence.
  - assert (c <> a) by congruence. assert (c <> b) by congruence.
    rewrite (H c) by auto. rewrite xorb_false_l. apply IH; auto.
Qed.

(** ** Edges *)

Section G.
Variables (n : nat) (edges : list (list nat)).
Hypothesis WF : well_formed n edges.

(** Edge [i] leads from [v] to [o] ([None]: the edge dangles). *)
Definition link (i v : nat) (o : option nat) : Prop :=
  (nth_error edges i = Some [v] /\ o = None) \/
  (exists w, o = Some w /\ (nth_error edges i = Some [v; w] \/ nth_error edges i = Some [w; v])).

Lemma edge_cases i : i < length edges ->
  (exists v, nth_error edges i = Some [v] /\ v < n) \/
  (exists u v, nth_error edges i = Some [u; v] /\ u <> v /\ u < n /\ v < n).
Proof.
  intros L. destruct (nth_error edges i) as [e|] eqn:E.
  2: { apply nth_error_None in E. lia. }
  apply nth_error_In in E as I. destruct (WF e I) as [(v & -> & ?)|(u & v & -> & ?)]; eauto.
Qed.

Lemma link_lt i v o : link i v o -> i < length edges /\ v < n.
Proof.
  intros H. assert (L : i < length edges).
  { destruct H as [[H _]|(w & _ & [H|H])]; apply nth_error_Some; congruence. }
  split; auto.
  destruct (edge_cases i L) as [(a & E & ?)|(a & b & E & ?)];
    destruct H as [[H _]|(w & _ & [H|H])]; rewrite E in H; try discriminate; injection H; intros; subst; tauto.
Qed.

Lemma link_other i v w : link i v (Some w) -> w < n /\ v <> w /\ link i w (Some v).
Proof.
  intros H. destruct (link_lt _ _ _ H) as [L _].
  destruct H as [[_ H]|(w' & HH & H)]; [discriminate|]. injection HH as <-.
  destruct (edge_cases i L) as [(a & E & ?)|(a & b & E & ? & ? & ?)].
  - destruct H as [H|H]; congruence.
  - repeat split.
    + destruct H as [H|H]; rewrite E in H; injection H; intros; subst; auto.
    + destruct H as [H|H]; rewrite E in H; injection H; intros; subst; auto.
    + right. exists v. tauto.
Qed.

Lemma link_fun i v o o' : link i v o -> link i v o' -> o = o'.
Proof.
  intros H H'. destruct (link_lt _ _ _ H) as [L _].
  destruct (edge_cases i L) as [(a & E & ?)|(a & b & E & ? & ? & ?)];
  destruct H as [[H Ho]|(w & Ho & [H|H])], H' as [[H' Ho']|(w' & Ho' & [H'|H'])];
    rewrite E in H, H'; try discriminate; congruence.
Qed.

(** The ends of an edge. *)
Lemma link_ends i v w x o : link i v (Some w) -> link i x o ->
  (x = v /\ o = Some w) \/ (x = w /\ o = Some v).
Proof.
  intros H H'. destruct (link_lt _ _ _ H) as [L _].
  destruct (edge_cases i L) as [(a & E & ?)|(a & b & E & ? & ? & ?)];
  destruct H as [[H Ho]|(w1 & Ho & [H|H])], H' as [[H' Ho']|(w' & Ho' & [H'|H'])];
    rewrite E in H, H'; try discriminate; injection H; injection H'; injection Ho; intros; subst;
    auto.
Qed.

Lemma link_dangling i v x o : link i v None -> link i x o -> x = v /\ o = None.
Proof.
  intros [[H _]|(w & H & _)] H'; [|discriminate].
  destruct H' as [[H' ->]|(w' & _ & [H'|H'])]; rewrite H in H'; try discriminate.
  injection H' as ->. auto.
Qed.

Lemma link_incident i v : incident edges i v = true <-> exists o, link i v o.
Proof.
  unfold incident. rewrite existsb_exists. split.
  - intros (x & I & E). apply Nat.eqb_eq in E. subst x.
    assert (L : i < length edges).
    { destruct (Nat.lt_ge_cases i (length edges)); auto.
      rewrite nth_overflow in I by auto. destruct I. }
    destruct (edge_cases i L) as [(a & E & ?)|(a & b & E & ? & ? & ?)];
      rewrite (nth_error_nth _ _ _ E) in I; cbn in I.
    + destruct I as [<-|[]]. exists None. left; auto.
    + destruct I as [<-|[<-|[]]]; [exists (Some b)|exists (Some a)]; right; eauto.
  - intros (o & [[H _]|(w & _ & [H|H])]); exists v; rewrite (nth_error_nth _ _ _ H); cbn;
      rewrite Nat.eqb_refl; auto.
Qed.

Lemma incident_false i v : ~ (exists o, link i v o) -> incident edges i v = false.
Proof.
  intros H. destruct (incident edges i v) eqn:E; auto. apply link_incident in E. tauto.
Qed.

(** ** Boundaries *)

Lemma boundary_xor s1 s2 v :
  boundary edges (fun i => xorb (s1 i) (s2 i)) v =
  xorb (boundary edges s1 v) (boundary edges s2 v).
Proof.
  unfold boundary. rewrite <- parity_xor. apply parity_ext. intros i _.
  destruct (s1 i), (s2 i), (incident edges i v); reflexivity.
Qed.

Lemma boundary_ext s1 s2 v :
  (forall i, i < length edges -> s1 i = s2 i) -> boundary edges s1 v = boundary edges s2 v.
Proof.
  intros H. apply parity_ext. intros i I. apply in_seq in I. rewrite H; auto. lia.
Qed.

Lemma boundary_none v s : (forall i, s i = true -> incident edges i v = false) ->
  boundary edges s v = false.
Proof.
  intros H. apply parity_false. intros i _. destruct (s i) eqn:E; auto. cbn. auto.
Qed.

(** The selection of a single edge. *)
Lemma boundary_single e v : e < length edges ->
  boundary edges (fun i => i =? e) v = incident edges e v.
Proof.
  intros L. unfold boundary. rewrite (parity_one _ e).
  - rewrite Nat.eqb_refl. reflexivity.
  - apply seq_NoDup.
  - apply in_seq. lia.
  - intros x _ D. apply Nat.eqb_neq in D. rewrite D. reflexivity.
Qed.

Lemma incident_parity i S : i < length edges ->
  parity (map (fun v => S v && incident edges i v) (seq 0 n)) =
  match nth i edges [] with
  | [v] => S v
  | [u; v] => xorb (S u) (S v)
  | _ => false
  end.
Proof.
  intros L. destruct (edge_cases i L) as [(a & E & ?)|(a & b & E & D & ? & ?)];
    rewrite (nth_error_nth _ _ _ E).
  - rewrite (parity_one _ a).
    + unfold incident. rewrite (nth_error_nth _ _ _ E). cbn. rewrite Nat.eqb_refl.
      apply andb_true_r.
    + apply seq_NoDup.
    + apply in_seq. lia.
    + intros x _ D. unfold incident. rewrite (nth_error_nth _ _ _ E). cbn.
      apply Nat.eqb_neq in D. rewrite D. apply andb_false_r.
  - rewrite (parity_two _ a b); auto.
    + unfold incident. rewrite (nth_error_nth _ _ _ E). cbn. rewrite !Nat.eqb_refl.
      rewrite !orb_true_r, !andb_true_r. reflexivity.
    + apply seq_NoDup.
    + apply in_seq. lia.
    + apply in_seq. lia.
    + intros x _ D1 D2. unfold incident. rewrite (nth_error_nth _ _ _ E). cbn.
      apply Nat.eqb_neq in D1, D2. rewrite D1, D2. apply andb_false_r.
Qed.

(** Edges inside of an isolated set have an even boundary there. *)
Lemma isolated_boundary allowed S s :
  isolated edges allowed S -> (forall i, i < length edges -> s i = true -> allowed i) ->
  parity_on n (boundary edges s) S = false.
Proof.
  intros I A. unfold parity_on, boundary.
  rewrite (parity_ext _ (fun v => parity (map (fun i => S v && (s i && incident edges i v))
    (seq 0 (length edges))))).
  2: { intros v _. symmetry. apply parity_and. }
  rewrite parity_swap. apply parity_false. intros i Hi. apply in_seq in Hi.
  rewrite (parity_ext _ (fun v => s i && (S v && incident edges i v))).
  2: { intros v _. destruct (S v), (s i); reflexivity. }
  rewrite parity_and. destruct (s i) eqn:Es; auto. cbn.
  rewrite incident_parity by lia. specialize (I i (A i ltac:(lia) Es)).
  destruct (nth i edges []) as [|a [|b [|]]]; auto.
  rewrite I. apply xorb_nilpotent.
Qed.

Lemma parity_on_ext f g S : (forall v, v < n -> S v = true -> f v = g v) ->
  parity_on n f S = parity_on n g S.
Proof.
  intros H. apply parity_ext. intros v I. apply in_seq in I.
  destruct (S v) eqn:E; auto. cbn. apply H; auto. lia.
Qed.

Lemma parity_on_xor f g S :
  parity_on n (fun v => xorb (f v) (g v)) S = xorb (parity_on n f S) (parity_on n g S).
Proof.
  unfold parity_on. rewrite <- parity_xor. apply parity_ext. intros v _.
  destruct (S v), (f v), (g v); reflexivity.
Qed.

(** Explainable syndromes have an even number of bits on each isolated set. *)
Lemma explainable_even allowed syn :
  explainable n edges allowed syn -> even_components n edges allowed syn.
Proof.
  intros (s & A & X) S I. rewrite <- (isolated_boundary allowed S s); auto.
  apply parity_on_ext. intros v L _. symmetry. apply X; auto.
Qed.

(** ** Forests *)

(** [forest lab V E R]: the vertices [V] and edges [E] form trees, built in the order from
    the end of [V].  Trees with label 0 hang on a dangling edge each; for every other label
    there is at most one tree; its first vertex is in the list [R] of roots. *)
Inductive forest (lab : nat -> nat) : list nat -> list nat -> list nat -> Prop :=
| fo_nil : forest lab [] [] []
| fo_root v V E R :
    forest lab V E R -> v < n -> ~ In v V -> lab v <> 0 ->
    (forall r, In r R -> lab r <> lab v) -> forest lab (v :: V) E (v :: R)
| fo_dangling v e V E R :
    forest lab V E R -> v < n -> ~ In v V -> lab v = 0 -> link e v None -> ~ In e E ->
    forest lab (v :: V) (e :: E) R
| fo_grow v u e V E R :
    forest lab V E R -> v < n -> ~ In v V -> In u V -> lab v = lab u ->
    link e v (Some u) -> ~ In e E -> forest lab (v :: V) (e :: E) R.

Lemma forest_ext lab lab' V E R :
  forest lab V E R -> (forall v, In v V -> lab v = lab' v) -> forest lab' V E R.
Proof.
  assert (RV : forall V E R, forest lab V E R -> forall r, In r R -> In r V).
  { clear. induction 1; cbn; intuition. }
  induction 1; intros X.
  - constructor.
  - constructor; auto.
    + apply IHforest. intros; apply X; cbn; auto.
    + rewrite <- X by (cbn; auto). auto.
    + intros r I. rewrite <- !X; cbn; auto. right. eapply RV; eauto.
  - constructor; auto.
    + apply IHforest. intros; apply X; cbn; auto.
    + rewrite <- X by (cbn; auto). auto.
  - apply fo_grow with u; auto.
    + apply IHforest. intros; apply X; cbn; auto.
    + rewrite <- !X by (cbn; auto). auto.
Qed.

Lemma forest_lt lab V E R v : forest lab V E R -> In v V -> v < n.
Proof. induction 1; cbn; intuition; subst; auto. Qed.

Lemma forest_nodup lab V E R : forest lab V E R -> NoDup V.
Proof. induction 1; constructor; auto. Qed.

Lemma forest_nodup_E lab V E R : forest lab V E R -> NoDup E.
Proof. induction 1; auto; constructor; auto. Qed.

Lemma forest_roots lab V E R r : forest lab V E R -> In r R -> In r V /\ lab r <> 0.
Proof.
  induction 1; cbn; intros I; try tauto.
  - destruct I as [<-|I]; auto. destruct (IHforest I). auto.
Qed.

(** Every end of an edge of the forest is a vertex of the forest. *)
Lemma forest_edge lab V E R e x o :
  forest lab V E R -> In e E -> link e x o ->
  In x V /\ (forall w, o = Some w -> In w V /\ lab w = lab x) /\ (o = None -> lab x = 0).
Proof.
  induction 1 as [|w V E R F IH Lt NI L0 LR|w e0 V E R F IH Lt NI L0 K0 NE
                  |w u e0 V E R F IH Lt NI U LU K0 NE]; cbn; intros I K.
  - destruct I.
  - destruct (IH I K) as (A & B & C).
    split; [auto|]. split; [|auto]. intros y Hy. destruct (B y Hy). auto.
  - destruct I as [->|I].
    + destruct (link_dangling _ _ _ _ K0 K). subst. repeat split; auto; discriminate.
    + destruct (IH I K) as (A & B & C).
      split; [auto|]. split; [|auto]. intros y Hy. destruct (B y Hy). auto.
  - destruct I as [->|I].
    + destruct (link_ends _ _ _ _ _ K0 K) as [[-> ->]|[-> ->]].
      * split; [auto|]. split; [|discriminate]. intros y Hy. injection Hy as <-. auto.
      * split; [auto|]. split; [|discriminate]. intros y Hy. injection Hy as <-. auto.
    + destruct (IH I K) as (A & B & C).
      split; [auto|]. split; [|auto]. intros y Hy. destruct (B y Hy). auto.
Qed.

Lemma forest_root_unique lab V E R r r' :
  forest lab V E R -> In r R -> In r' R -> lab r = lab r' -> r = r'.
Proof.
  induction 1; cbn; intros I J X; try tauto.
  destruct I as [<-|I], J as [<-|J]; auto.
  - symmetry in X. contradict X. auto.
  - contradict X. auto.
Qed.

(** A label that is used belongs to a root, unless it is 0. *)
Lemma forest_label lab V E R v :
  forest lab V E R -> In v V -> lab v <> 0 -> exists r, In r R /\ lab r = lab v.
Proof.
  intros H. revert v.
  induction H as [|w V E R F IH Lt NI L0 LR|w e0 V E R F IH Lt NI L0 K0 NE
                  |w u e0 V E R F IH Lt NI U LU K0 NE]; cbn; intros v I X.
  - destruct I.
  - destruct I as [<-|I]; [exists w; auto|].
    destruct (IH v I X) as (r & ? & ?). exists r; auto.
  - destruct I as [<-|I]; [congruence|]. auto.
  - destruct I as [<-|I]; [|auto]. rewrite LU in X |- *. apply IH; auto.
Qed.

(** Degree: which edges of the list end at a vertex. *)
Definition touches (E : list nat) (v e : nat) : Prop := In e E /\ exists o, link e v o.

Ltac setiff := let x := fresh "x" in intros x; cbn [In];
  repeat match goal with H : forall y, In y _ <-> _ |- _ => rewrite (H x); clear H end;
  split; [intros [<-|SX] || intros SX | intros [SX SY]]; intuition congruence.

(** A vertex without edges is a root, alone with its label; it can be removed. *)
Lemma forest_remove_isolated lab V E R v :
  forest lab V E R -> In v V -> (forall e, ~ touches E v e) ->
  In v R /\ (forall w, In w V -> lab w = lab v -> w = v) /\
  exists V' R', forest lab V' E R' /\
    (forall x, In x V' <-> In x V /\ x <> v) /\
    (forall x, In x R' <-> In x R /\ x <> v) /\ length V = S (length V').
Proof.
  induction 1 as [|w V E R F IH Lt NI L0 LR|w e V E R F IH Lt NI L0 K NE
                  |w u e V E R F IH Lt NI U LU K NE]; intros I T.
  - destruct I.
  - destruct I as [->|I].
    + split; [left; auto|]. split.
      * intros x [<-|Ix] X; auto. exfalso.
        destruct (forest_label _ _ _ _ _ F Ix) as (r & Ir & Xr); [congruence|].
        apply (LR r Ir). congruence.
      * assert (NR : ~ In v R) by (intros J; apply NI; eapply forest_roots; eauto).
        exists V, R. split; [auto|]. split; [setiff|]. split; [setiff|]. auto.
    + destruct (IH I T) as (A & B & V' & R' & F' & HV & HR & HL).
      assert (D : w <> v) by congruence. split; [right; auto|]. split.
      * intros x [<-|Ix] X; auto. exfalso. apply (LR v A). auto.
      * exists (w :: V'), (w :: R').
        split; [|split; [setiff|split; [setiff|cbn; auto]]].
        constructor; auto.
        -- rewrite HV. tauto.
        -- intros r Ir. apply LR. apply HR; auto.
  - destruct I as [->|I].
    + exfalso. apply (T e). split; cbn; eauto.
    + destruct IH as (A & B & V' & R' & F' & HV & HR & HL); auto.
      { intros e' [Ie' ?]. apply (T e'). split; cbn; auto. }
      assert (D : w <> v) by congruence. split; [auto|]. split.
      * intros x [<-|Ix] X; auto. exfalso.
        destruct (forest_roots _ _ _ _ _ F A). congruence.
      * exists (w :: V'), R'. split; [|split; [setiff|split; [auto|cbn; auto]]].
        constructor; auto. rewrite HV. tauto.
  - destruct I as [->|I].
    + exfalso. apply (T e). split; cbn; eauto.
    + destruct IH as (A & B & V' & R' & F' & HV & HR & HL); auto.
      { intros e' [Ie' ?]. apply (T e'). split; cbn; auto. }
      assert (UV : u <> v).
      { intros ->. apply (T e). split; cbn; auto. exists (Some w). apply link_other; auto. }
      assert (D : w <> v) by congruence. split; [auto|]. split.
      * intros x [<-|Ix] X; auto. exfalso. apply UV. apply B; auto. congruence.
      * exists (w :: V'), R'. split; [|split; [setiff|split; [auto|cbn; auto]]].
        apply fo_grow with u; auto; rewrite HV; tauto.
Qed.

(** A vertex with exactly one edge can be removed together with it. *)
Lemma forest_remove_leaf lab V E R v e :
  forest lab V E R -> In v V -> touches E v e -> (forall e', touches E v e' -> e' = e) ->
  exists V' E' R', forest lab V' E' R' /\
    (forall x, In x V' <-> In x V /\ x <> v) /\
    (forall x, In x E' <-> In x E /\ x <> e) /\
    (forall r, In r R' -> exists r0, In r0 R /\ lab r0 = lab r) /\
    length V = S (length V').
Proof.
  induction 1 as [|w V E R F IH Lt NI L0 LR|w e0 V E R F IH Lt NI L0 K NE
                  |w u e0 V E R F IH Lt NI U LU K NE]; intros I T TU.
  - destruct I.
  - destruct I as [->|I].
    + exfalso. destruct T as [Ie (o & Ko)]. apply NI.
      exact (proj1 (forest_edge _ _ _ _ _ _ _ F Ie Ko)).
    + destruct (IH I T TU) as (V' & E' & R' & F' & HV & HE & HR & HL).
      assert (D : w <> v) by congruence.
      exists (w :: V'), E', (w :: R').
      split; [|split; [setiff|split; [auto|split; [|cbn; auto]]]].
      * constructor; auto.
        -- rewrite HV. tauto.
        -- intros r Ir. destruct (HR r Ir) as (r0 & I0 & <-). auto.
      * intros r [<-|Ir]; [exists w; cbn; auto|].
        destruct (HR r Ir) as (r0 & ? & ?). exists r0; cbn; auto.
  - destruct I as [->|I].
    + assert (e0 = e) as -> by (apply TU; split; cbn; eauto).
      exists V, E, R. split; [auto|split; [setiff|split; [setiff|split; [|cbn; auto]]]].
      intros r Ir. exists r; auto.
    + assert (D : e0 <> e).
      { intros ->. destruct T as [_ (o & Ko)].
        destruct (link_dangling _ _ _ _ K Ko). congruence. }
      assert (Dv : w <> v) by congruence.
      destruct IH as (V' & E' & R' & F' & HV & HE & HR & HL); auto.
      { destruct T as [[->|Ie] ?]; [congruence|]. split; auto. }
      { intros e' [Ie' ?]. apply TU. split; cbn; auto. }
      exists (w :: V'), (e0 :: E'), R'.
      split; [|split; [setiff|split; [setiff|split; [auto|cbn; auto]]]].
      constructor; auto; [rewrite HV|rewrite HE]; tauto.
  - destruct I as [->|I].
    + assert (e0 = e) as -> by (apply TU; split; cbn; eauto).
      exists V, E, R. split; [auto|split; [setiff|split; [setiff|split; [|cbn; auto]]]].
      intros r Ir. exists r; auto.
    + assert (Dv : w <> v) by congruence.
      destruct (Nat.eq_dec u v) as [->|D].
      * (* the leaf is the parent of the last vertex, which becomes a root *)
        assert (e0 = e) as ->.
        { apply TU. split; cbn; auto. exists (Some w). apply link_other; auto. }
        destruct (forest_remove_isolated _ _ _ _ _ F I) as (A & B & V' & R' & F' & HV & HR & HL).
        { intros e' [Ie' ?]. assert (e' = e) by (apply TU; split; cbn; auto). congruence. }
        destruct (forest_roots _ _ _ _ _ F A) as [_ A0].
        exists (w :: V'), E, (w :: R').
        split; [|split; [setiff|split; [setiff|split; [|cbn; auto]]]].
        -- constructor; auto.
           ++ rewrite HV. tauto.
           ++ congruence.
           ++ intros r Ir X. apply HR in Ir. destruct Ir as [Ir Dr]. apply Dr.
              apply (forest_root_unique _ _ _ _ r v F Ir A). congruence.
        -- intros r [<-|Ir]; [exists v; auto|]. exists r. split; auto. apply HR; auto.
      * assert (De : e0 <> e).
        { intros ->. destruct T as [_ (o & Ko)].
          destruct (link_ends _ _ _ _ _ K Ko) as [[-> _]|[-> _]]; congruence. }
        destruct IH as (V' & E' & R' & F' & HV & HE & HR & HL); auto.
        { destruct T as [[->|Ie] ?]; [congruence|]. split; auto. }
        { intros e' [Ie' ?]. apply TU. split; cbn; auto. }
        exists (w :: V'), (e0 :: E'), R'.
        split; [|split; [setiff|split; [setiff|split; [auto|cbn; auto]]]].
        apply fo_grow with u; auto; try (rewrite HV; tauto). rewrite HE; tauto.
Qed.

(** The vertex added last has at most one edge. *)
Lemma forest_last lab v V E R :
  forest lab (v :: V) E R -> forall e e', touches E v e -> touches E v e' -> e = e'.
Proof.
  intros H. inversion H; subst; intros e1 e2 [I1 (o1 & K1)] [I2 (o2 & K2)];
    match goal with F : forest _ V _ _, N : ~ In v V |- _ =>
      assert (NK : forall e' o', In e' _ -> link e' v o' -> False)
        by (intros e' o' A B; exact (N (proj1 (forest_edge _ _ _ _ _ _ _ F A B))))
    end.
  - destruct (NK e1 o1); auto.
  - destruct I1 as [<-|I1], I2 as [<-|I2]; auto; exfalso; eauto.
  - destruct I1 as [<-|I1], I2 as [<-|I2]; auto; exfalso; eauto.
Qed.

End G.
