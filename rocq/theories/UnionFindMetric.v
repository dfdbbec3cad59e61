(** Distances inside the clusters of a growth process on a graph with dangling edges: short
    cycles are closed by the edges which are added, so that errors of low weight are corrected. *)
Require Import List Bool Arith Lia.
From Verif Require Import Base BaseProofs GraphSpec GraphProofs.
Import ListNotations.
Open Scope nat_scope.

(** * Sums *)
Notation sum f l := (list_sum (map f l)).

Lemma sum_cons {A} (f : A -> nat) a l : sum f (a :: l) = f a + sum f l.
Proof. reflexivity. Qed.

Lemma sum_app {A} (f : A -> nat) l l' : sum f (l ++ l') = sum f l + sum f l'.
Proof. induction l as [|a l IH]; [reflexivity|]. cbn [app]. rewrite !sum_cons, IH. lia. Qed.

Lemma sum_rev {A} (f : A -> nat) l : sum f (rev l) = sum f l.
Proof. induction l as [|a l IH]; [reflexivity|]. cbn [rev]. rewrite sum_app, !sum_cons, IH. cbn. lia. Qed.

Lemma sum_plus {A} (f g : A -> nat) l : sum (fun x => f x + g x) l = sum f l + sum g l.
Proof. induction l as [|a l IH]; [reflexivity|]. rewrite !sum_cons, IH. lia. Qed.

Lemma sum_le {A} (f g : A -> nat) l : (forall x, In x l -> f x <= g x) -> sum f l <= sum g l.
Proof.
  induction l as [|a l IH]; intros X; [reflexivity|]. rewrite !sum_cons.
  pose proof (X a (or_introl eq_refl)). specialize (IH (fun x I => X x (or_intror I))). lia.
Qed.

Lemma sum_ext {A} (f g : A -> nat) l : (forall x, In x l -> f x = g x) -> sum f l = sum g l.
Proof. intros X. f_equal. apply map_ext_in; auto. Qed.

Lemma sum_in {A} (f : A -> nat) l a : In a l -> f a <= sum f l.
Proof. induction l as [|b l IH]; [intros []|]. rewrite sum_cons. intros [->|I]; [lia|]. apply IH in I. lia. Qed.

Lemma sum_mult {A} c (f : A -> nat) l : sum (fun x => c * f x) l = c * sum f l.
Proof. induction l as [|a l IH]; [cbn; lia|]. rewrite !sum_cons, IH. lia. Qed.

Lemma sum_zero {A} (f : A -> nat) l : (forall x, In x l -> f x = 0) -> sum f l = 0.
Proof.
  intros X. rewrite (sum_ext f (fun _ => 0)); auto. clear X.
  induction l as [|a l IH]; cbn; auto.
Qed.

Lemma sum_swap {A B} (f : A -> B -> nat) la lb :
  sum (fun a => sum (f a) lb) la = sum (fun b => sum (fun a => f a b) la) lb.
Proof.
  induction la as [|a la IH].
  - symmetry. apply sum_zero. reflexivity.
  - rewrite sum_cons, IH, <- sum_plus. reflexivity.
Qed.

(** One value of a function changed. *)
Lemma sum_change (f g : nat -> nat) k l : NoDup l -> In k l -> (forall x, x <> k -> f x = g x) ->
  sum f l + g k = sum g l + f k.
Proof.
  induction l as [|a l IH]; [intros _ []|]. rewrite !sum_cons. intros N I X. inversion N as [|? ? NI N']; subst.
  destruct (Nat.eq_dec a k) as [->|D].
  - assert (sum f l = sum g l). { apply sum_ext. intros x Ix. apply X. intros ->. tauto. }
    lia.
  - destruct I as [->|I]; [congruence|]. specialize (IH N' I X). rewrite (X a D). lia.
Qed.

Definition nb (b : bool) : nat := if b then 1 else 0.

Section M.
Variables (n : nat) (edges : list (list nat)).
Hypothesis WF : well_formed n edges.
(** [w i]: edge [i] changes the logical value. *)
Variable w : nat -> bool.
(** [mw i]: the length of edge [i], a number of growth steps. *)
Variable mw : nat -> nat.
Variable d : nat.
Notation link := (link edges).
Notation m := (length edges).

Notation weight p := (parity (map w p)).

(** No short cycle changes the logical value. *)
Definition no_short : Prop := forall sel, explains n edges sel (fun _ => false) ->
  sum (fun i => nb (sel i) * mw i) (seq 0 m) < d ->
  parity (map (fun i => sel i && w i) (seq 0 m)) = false.
Hypothesis HD : no_short.

(** ** Lists of edges *)
(** The edges which are an odd number of times in a list. *)
Definition odd_in (p : list nat) (i : nat) : bool := parity (map (Nat.eqb i) p).

Lemma parity_odd_in (f : nat -> bool) p : (forall i, In i p -> i < m) ->
  parity (map (fun i => odd_in p i && f i) (seq 0 m)) = parity (map f p).
Proof.
  intros L. unfold odd_in.
  rewrite (parity_ext _ (fun i => parity (map (fun j => (i =? j) && f i) p))).
  - rewrite parity_swap. apply parity_ext. intros j I. rewrite (parity_one _ j).
    + rewrite Nat.eqb_refl. reflexivity.
    + apply seq_NoDup.
    + apply in_seq. specialize (L j I). lia.
    + intros x _ D. apply Nat.eqb_neq in D. rewrite D. reflexivity.
  - intros i _. rewrite andb_comm, <- parity_and. apply parity_ext. intros; apply andb_comm.
Qed.

Lemma odd_in_count p : (forall i, In i p -> i < m) -> sum (fun i => nb (odd_in p i) * mw i) (seq 0 m) <= sum mw p.
Proof.
  induction p as [|a p IH]; intros L.
  - rewrite sum_zero; auto.
  - transitivity (sum (fun i => nb (i =? a) * mw i + nb (odd_in p i) * mw i) (seq 0 m)).
    + apply sum_le. intros i _. unfold odd_in. cbn [map parity fold_right].
      fold (parity (map (Nat.eqb i) p)). destruct (i =? a), (parity (map (Nat.eqb i) p)); cbn [nb xorb]; lia.
    + rewrite sum_plus. specialize (IH (fun i I => L i (or_intror I))).
      assert (sum (fun i => nb (i =? a) * mw i) (seq 0 m) <= mw a).
      { pose proof (sum_change (fun i => nb (i =? a) * mw i) (fun _ => 0) a (seq 0 m) (seq_NoDup _ _)) as C.
        cbn beta in C. rewrite (sum_zero (fun _ => 0)), Nat.eqb_refl in C by reflexivity. cbn [nb] in C.
        enough (sum (fun i => nb (i =? a) * mw i) (seq 0 m) + 0 = 0 + 1 * mw a) by lia. apply C.
        - apply in_seq. specialize (L a (or_introl eq_refl)). lia.
        - intros x D. apply Nat.eqb_neq in D. rewrite D. reflexivity. }
      rewrite sum_cons. lia.
Qed.

Lemma short_list p : (forall i, In i p -> i < m) ->
  (forall v, v < n -> parity (map (fun i => incident edges i v) p) = false) ->
  sum mw p < d -> weight p = false.
Proof.
  intros L B S. rewrite <- (parity_odd_in w p L). apply HD.
  - intros v Lv. unfold boundary. rewrite (parity_odd_in (fun i => incident edges i v) p L). auto.
  - pose proof (odd_in_count p L). lia.
Qed.

(** ** Paths *)
Inductive path (R : nat -> bool) : nat -> nat -> list nat -> Prop :=
| path_nil x : x < n -> path R x x []
| path_cons x y z i p : R i = true -> link i x (Some y) -> path R y z p -> path R x z (i :: p).

Lemma path_lt R x y p : path R x y p -> x < n /\ y < n /\ forall i, In i p -> i < m.
Proof.
  induction 1 as [x L|x y z i p Si K P (A & B & C)].
  - split; auto. split; auto. intros ? [].
  - destruct (link_lt n edges WF i x _ K). split; auto. split; auto. intros j [<-|I]; auto.
Qed.

Lemma path_mono (R R' : nat -> bool) x y p : (forall i, R i = true -> R' i = true) -> path R x y p -> path R' x y p.
Proof. intros X. induction 1; econstructor; eauto. Qed.

Lemma path_app R x y z p q : path R x y p -> path R y z q -> path R x z (p ++ q).
Proof. induction 1; cbn; auto. intros. econstructor; eauto. Qed.

Lemma link_sym i x y : link i x (Some y) -> link i y (Some x).
Proof. intros K. destruct (link_other n edges WF i x y K) as (_ & _ & X). auto. Qed.

Lemma path_rev R x y p : path R x y p -> path R y x (rev p).
Proof.
  induction 1 as [x L|x y z i p Si K P IH]; cbn; [constructor; auto|].
  eapply path_app; [exact IH|]. econstructor; [exact Si|apply link_sym; exact K|].
  constructor. destruct (link_lt n edges WF i x _ K); auto.
Qed.

Lemma incident_two i x y v : link i x (Some y) -> incident edges i v = xorb (v =? x) (v =? y).
Proof.
  intros K. destruct (link_other n edges WF i x y K) as (_ & D & K').
  destruct (Nat.eqb_spec v x) as [->|Dx]; [|destruct (Nat.eqb_spec v y) as [->|Dy]].
  - apply Nat.eqb_neq in D. rewrite D. cbn [xorb]. apply (link_incident n edges WF); eauto.
  - cbn [xorb]. apply (link_incident n edges WF); eauto.
  - apply (incident_false n edges WF). intros [o Ko].
    destruct (link_ends n edges WF i x y v o K Ko) as [[? _]|[? _]]; congruence.
Qed.

Lemma incident_one i x v : link i x None -> incident edges i v = (v =? x).
Proof.
  intros K. destruct (Nat.eqb_spec v x) as [->|Dx].
  - cbn [xorb]. apply (link_incident n edges WF); eauto.
  - apply (incident_false n edges WF). intros [o Ko].
    destruct (link_dangling edges i x v o K Ko). congruence.
Qed.

Lemma path_boundary R x y p v : path R x y p ->
  parity (map (fun i => incident edges i v) p) = xorb (v =? x) (v =? y).
Proof.
  induction 1 as [x L|x y z i p Si K P IH].
  - cbn. destruct (v =? x); reflexivity.
  - cbn [map parity fold_right]. fold (parity (map (fun i => incident edges i v) p)). rewrite IH.
    rewrite (incident_two i x y v K). destruct (v =? x), (v =? y), (v =? z); reflexivity.
Qed.

Lemma parity_app l l' : parity (l ++ l') = xorb (parity l) (parity l').
Proof.
  induction l as [|b l IH]; cbn [app]; [destruct (parity l'); reflexivity|].
  cbn [parity fold_right]. fold (parity (l ++ l')) (parity l). rewrite IH. apply eq_sym, xorb_assoc.
Qed.

(** ** Labelled clusters with potentials *)
Record flat (R : nat -> bool) (cl W a : nat -> nat) (phi psi dg : nat -> bool) : Prop := {
  f_lt : forall x, x < n -> cl x < n;
  f_path : forall x y, x < n -> y < n -> cl x = cl y ->
    exists p, path R x y p /\ sum mw p + a x + a y <= W (cl x);
  f_two : forall i x y, R i = true -> link i x (Some y) -> cl x = cl y /\ w i = xorb (phi x) (phi y);
  f_one : forall i x, R i = true -> link i x None -> dg (cl x) = true /\ w i = xorb (phi x) (psi (cl x));
  f_exit : forall x, x < n -> dg (cl x) = true -> exists p i y,
    path R x y p /\ R i = true /\ link i y None /\ mw i + sum mw p + a x <= W (cl x)
}.

Notation total W := (sum W (seq 0 n)).

Lemma flat_start : flat (fun _ => false) (fun x => x) (fun _ => 0) (fun _ => 0)
  (fun _ => false) (fun _ => false) (fun _ => false).
Proof.
  constructor; try discriminate; auto.
  intros x y Lx Ly <-. exists []. split; [constructor; auto|cbn; lia].
Qed.

Lemma path_flat R cl W a phi psi dg x y p : flat R cl W a phi psi dg -> path R x y p ->
  cl x = cl y /\ weight p = xorb (phi x) (phi y).
Proof.
  intros F. induction 1 as [x L|x y z i p Si K P [IH1 IH2]].
  - cbn. destruct (phi x); auto.
  - destruct (f_two _ _ _ _ _ _ _ F i x y Si K) as [E1 E2]. split; [congruence|].
    cbn [map parity fold_right]. fold (parity (map w p)). rewrite IH2, E2.
    destruct (phi x), (phi y), (phi z); reflexivity.
Qed.

Lemma W_le_total (W : nat -> nat) l : l < n -> W l <= total W.
Proof. intros L. apply (sum_in W). apply in_seq. lia. Qed.

Lemma total_add (W : nat -> nat) l c : l < n -> total (fun k => if k =? l then W k + c else W k) = total W + c.
Proof.
  intros L. pose proof (sum_change (fun k => if k =? l then W k + c else W k) W l (seq 0 n) (seq_NoDup _ _)) as X.
  cbn beta in X. rewrite Nat.eqb_refl in X. enough (sum (fun k => if k =? l then W k + c else W k) (seq 0 n) + W l = total W + (W l + c)) by lia.
  apply X. { apply in_seq. lia. } intros x D. apply Nat.eqb_neq in D. rewrite D. reflexivity.
Qed.

Lemma total_merge (W : nat -> nat) k l c : k < n -> l < n -> k <> l ->
  total (fun j => if j =? k then W k + W l + c else if j =? l then 0 else W j) = total W + c.
Proof.
  intros Lk Ll D.
  pose proof (sum_change (fun j => if j =? l then 0 else W j) W l (seq 0 n) (seq_NoDup _ _)) as X1.
  pose proof (sum_change (fun j => if j =? k then W k + W l + c else if j =? l then 0 else W j)
    (fun j => if j =? l then 0 else W j) k (seq 0 n) (seq_NoDup _ _)) as X2.
  cbn beta in X1, X2. rewrite Nat.eqb_refl in X1, X2. apply Nat.eqb_neq in D. rewrite D in X2.
  assert (I : forall j, j < n -> In j (seq 0 n)) by (intros; apply in_seq; lia).
  specialize (X1 (I l Ll)). specialize (X2 (I k Lk)).
  assert (Y1 : sum (fun j => if j =? l then 0 else W j) (seq 0 n) + W l = total W + 0).
  { apply X1. intros x Dx. apply Nat.eqb_neq in Dx. rewrite Dx. reflexivity. }
  assert (Y2 : sum (fun j => if j =? k then W k + W l + c else if j =? l then 0 else W j) (seq 0 n) + W k =
    sum (fun j => if j =? l then 0 else W j) (seq 0 n) + (W k + W l + c)).
  { apply X2. intros x Dx. apply Nat.eqb_neq in Dx. rewrite Dx. reflexivity. }
  lia.
Qed.

Notation plus_edge i R := (fun j => (j =? i) || R j).

Lemma plus_mono i (R : nat -> bool) j : R j = true -> (plus_edge i R) j = true.
Proof. intros E. cbn beta. rewrite E. apply orb_true_r. Qed.
Lemma plus_same i (R : nat -> bool) : (plus_edge i R) i = true.
Proof. cbn beta. rewrite Nat.eqb_refl. reflexivity. Qed.

(** The weight of a short closed list. *)
Lemma short_weight p : (forall i, In i p -> i < m) ->
  (forall v, v < n -> parity (map (fun i => incident edges i v) p) = false) ->
  sum mw p < d -> weight p = false.
Proof. apply short_list. Qed.

(** A dangling edge, with some credit [c]. *)
Lemma flat_add_one R cl W a phi psi dg i x c : flat R cl W a phi psi dg ->
  link i x None -> mw i <= a x + c -> total W + c < d ->
  exists W' psi' dg', flat (plus_edge i R) cl W' a phi psi' dg' /\ total W' = total W + c.
Proof.
  intros F K C T. destruct (link_lt n edges WF i x _ K) as [Li Lx].
  pose proof (f_lt _ _ _ _ _ _ _ F x Lx) as Ll. pose proof (W_le_total W _ Ll) as WT.
  set (l := cl x) in *.
  set (q := if dg l then psi l else xorb (w i) (phi x)).
  assert (Q : w i = xorb (phi x) q).
  { unfold q. destruct (dg l) eqn:D; [|destruct (w i), (phi x); reflexivity].
    destruct (f_exit _ _ _ _ _ _ _ F x Lx D) as (p & j & y & P & Sj & Kj & B).
    destruct (path_lt _ _ _ _ P) as (_ & Ly & LP). destruct (link_lt n edges WF j y _ Kj) as [Lj _].
    destruct (path_flat _ _ _ _ _ _ _ _ _ _ F P) as [E1 E2].
    destruct (f_one _ _ _ _ _ _ _ F j y Sj Kj) as [_ E3]. rewrite <- E1 in E3. fold l in E3, B.
    assert (Z : weight (i :: p ++ [j]) = false).
    { apply short_weight; auto.
      - intros e [<-|I]; auto. apply in_app_iff in I. destruct I as [I|[<-|[]]]; auto.
      - intros v Lv. change (i :: p ++ [j]) with ([i] ++ (p ++ [j])). rewrite !map_app, !parity_app.
        rewrite (path_boundary _ _ _ _ v P). cbn.
        rewrite (incident_one i x v K), (incident_one j y v Kj).
        destruct (v =? x), (v =? y); reflexivity.
      - rewrite sum_cons, sum_app, sum_cons; cbn [map list_sum fold_right]; lia. }
    change (i :: p ++ [j]) with ([i] ++ (p ++ [j])) in Z. rewrite !map_app, !parity_app, E2 in Z.
    cbn in Z. rewrite E3 in Z. destruct (w i), (phi x), (phi y), (psi l); cbn in *; congruence. }
  exists (fun k => if k =? l then W k + c else W k), (fun k => if k =? l then q else psi k), (fun k => if k =? l then true else dg k).
  split; [|apply total_add; auto].
  assert (UP : forall k, W k <= (if k =? l then W k + c else W k)) by (intros k; destruct (k =? l); lia).
  constructor.
  - apply F.
  - intros y z Ly Lz E. destruct (f_path _ _ _ _ _ _ _ F y z Ly Lz E) as (p & P & B).
    exists p. split; [eapply path_mono; [apply plus_mono|exact P]|]. specialize (UP (cl y)). lia.
  - intros j y z Sj Kj. apply orb_true_iff in Sj. destruct Sj as [Sj|Sj].
    + apply Nat.eqb_eq in Sj. subst j. destruct (link_dangling edges i x y _ K Kj). discriminate.
    + apply (f_two _ _ _ _ _ _ _ F j); auto.
  - intros j y Sj Kj. apply orb_true_iff in Sj. destruct Sj as [Sj|Sj].
    + apply Nat.eqb_eq in Sj. subst j. destruct (link_dangling edges i x y _ K Kj) as [-> _].
      fold l. rewrite Nat.eqb_refl. auto.
    + destruct (f_one _ _ _ _ _ _ _ F j y Sj Kj) as [E1 E2].
      destruct (Nat.eqb_spec (cl y) l) as [E|E]; auto. split; auto.
      unfold q. rewrite <- E, E1. rewrite E2. reflexivity.
  - intros y Ly Dy. destruct (Nat.eqb_spec (cl y) l) as [E|E].
    + destruct (f_path _ _ _ _ _ _ _ F y x Ly Lx E) as (p & P & B).
      exists p, i, x. split; [eapply path_mono; [apply plus_mono|exact P]|]. split; [apply plus_same|]. split; auto.
      rewrite E in *. lia.
    + destruct (f_exit _ _ _ _ _ _ _ F y Ly Dy) as (p & j & z & P & Sj & Kj & B).
      exists p, j, z. split; [eapply path_mono; [apply plus_mono|exact P]|]. split; [apply plus_mono; auto|]. auto.
Qed.

(** An edge between two vertices. *)
Lemma flat_add_two R cl W a phi psi dg i x y c : flat R cl W a phi psi dg ->
  link i x (Some y) -> mw i <= a x + a y + c -> total W + c < d ->
  exists cl' W' phi' psi' dg', flat (plus_edge i R) cl' W' a phi' psi' dg' /\ total W' = total W + c.
Proof.
  intros F K C T. destruct (link_lt n edges WF i x _ K) as [Li Lx].
  destruct (link_other n edges WF i x y K) as (Ly & _ & K').
  pose proof (f_lt _ _ _ _ _ _ _ F x Lx) as Lk. pose proof (f_lt _ _ _ _ _ _ _ F y Ly) as Ll.
  pose proof (W_le_total W _ Lk) as WT.
  destruct (Nat.eq_dec (cl x) (cl y)) as [E|NE].
  - (* inside of a cluster *)
    destruct (f_path _ _ _ _ _ _ _ F x y Lx Ly E) as (p & P & B).
    destruct (path_lt _ _ _ _ P) as (_ & _ & LP).
    destruct (path_flat _ _ _ _ _ _ _ _ _ _ F P) as [_ E2].
    assert (Q : w i = xorb (phi x) (phi y)).
    { assert (Z : weight (i :: p) = false).
      { apply short_weight; auto.
        - intros e [<-|I]; auto.
        - intros v Lv. cbn [map parity fold_right]. fold (parity (map (fun i => incident edges i v) p)).
          rewrite (path_boundary _ _ _ _ v P), (incident_two i x y v K).
          destruct (v =? x), (v =? y); reflexivity.
        - rewrite sum_cons; lia. }
      cbn [map parity fold_right] in Z. fold (parity (map w p)) in Z. rewrite E2 in Z.
      destruct (w i), (phi x), (phi y); cbn in *; congruence. }
    exists cl, (fun k => if k =? cl x then W k + c else W k), phi, psi, dg.
    split; [|apply total_add; auto].
    assert (UP : forall k, W k <= (if k =? cl x then W k + c else W k)) by (intros k; destruct (k =? cl x); lia).
    constructor.
    + apply F.
    + intros u v Lu Lv Euv. destruct (f_path _ _ _ _ _ _ _ F u v Lu Lv Euv) as (q & PQ & BQ).
      exists q. split; [eapply path_mono; [apply plus_mono|exact PQ]|]. specialize (UP (cl u)). lia.
    + intros j u v Rj Kj. apply orb_true_iff in Rj. destruct Rj as [Rj|Rj].
      * apply Nat.eqb_eq in Rj. subst j.
        destruct (link_ends n edges WF i x y u _ K Kj) as [[-> X]|[-> X]]; injection X as ->; auto.
        split; auto. rewrite Q. apply xorb_comm.
      * apply (f_two _ _ _ _ _ _ _ F j); auto.
    + intros j u Rj Kj. apply orb_true_iff in Rj. destruct Rj as [Rj|Rj].
      * apply Nat.eqb_eq in Rj. subst j. destruct (link_dangling edges i u x _ Kj K). discriminate.
      * apply (f_one _ _ _ _ _ _ _ F j); auto.
    + intros u Lu Du. destruct (f_exit _ _ _ _ _ _ _ F u Lu Du) as (q & j & z & PQ & Rj & Kj & BQ).
      exists q, j, z. split; [eapply path_mono; [apply plus_mono|exact PQ]|].
      split; [apply plus_mono; auto|]. split; auto. specialize (UP (cl u)). lia.
  - (* two clusters *)
    set (k := cl x) in *. set (l := cl y) in *.
    set (del := xorb (w i) (xorb (phi x) (phi y))).
    set (cl' := fun z => if cl z =? l then k else cl z).
    set (W' := fun j => if j =? k then W k + W l + c else if j =? l then 0 else W j).
    set (phi' := fun z => if cl z =? l then xorb (phi z) del else phi z).
    set (psi' := fun j => if j =? k then if dg k then psi k else xorb (psi l) del else psi j).
    set (dg' := fun j => if j =? k then dg k || dg l else dg j).
    assert (TW : total W' = total W + c) by (apply total_merge; auto).
    exists cl', W', phi', psi', dg'. split; auto.
    assert (CL : forall z, z < n -> cl' z < n).
    { intros z Lz. unfold cl'. destruct (cl z =? l); auto. apply (f_lt _ _ _ _ _ _ _ F z Lz). }
    assert (WK : W' k = W k + W l + c) by (unfold W'; rewrite Nat.eqb_refl; auto).
    assert (WO : forall j, j <> k -> j <> l -> W' j = W j).
    { intros j D1 D2. unfold W'. apply Nat.eqb_neq in D1, D2. rewrite D1, D2. auto. }
    assert (CK : forall z, cl z = k -> cl' z = k).
    { intros z E. unfold cl'. rewrite E. destruct (k =? l); auto. }
    assert (CLL : forall z, cl z = l -> cl' z = k).
    { intros z E. unfold cl'. rewrite E, Nat.eqb_refl. auto. }
    assert (CO : forall z, cl z <> l -> cl' z = cl z).
    { intros z D. unfold cl'. apply Nat.eqb_neq in D. rewrite D. auto. }
    assert (UP : forall z, W (cl z) <= W' (cl' z)).
    { intros z. destruct (Nat.eq_dec (cl z) l) as [E|D]; [rewrite (CLL z E), WK, E; lia|].
      rewrite (CO z D). destruct (Nat.eq_dec (cl z) k) as [E|D']; [rewrite E, WK; lia|].
      rewrite WO; auto. }
    (* from one part to the other *)
    assert (CROSS : forall u v, u < n -> v < n -> cl u = k -> cl v = l ->
      exists p, path (plus_edge i R) u v p /\ sum mw p + a u + a v <= W k + W l + c).
    { intros u v Lu Lv Eu Ev.
      destruct (f_path _ _ _ _ _ _ _ F u x Lu Lx Eu) as (p & P & B).
      destruct (f_path _ _ _ _ _ _ _ F y v Ly Lv (eq_sym Ev)) as (q & P' & B'). rewrite Eu in B.
      fold l in B'. exists (p ++ i :: q). split.
      - eapply path_app; [eapply path_mono; [apply plus_mono|exact P]|].
        econstructor; [apply plus_same|exact K|eapply path_mono; [apply plus_mono|exact P']].
      - rewrite sum_app, sum_cons; lia. }
    constructor; auto.
    + intros u v Lu Lv E.
      destruct (Nat.eq_dec (cl u) (cl v)) as [E'|D'].
      * destruct (f_path _ _ _ _ _ _ _ F u v Lu Lv E') as (q & PQ & BQ).
        exists q. split; [eapply path_mono; [apply plus_mono|exact PQ]|]. specialize (UP u). lia.
      * assert (X : (cl u = k /\ cl v = l) \/ (cl u = l /\ cl v = k)).
        { unfold cl' in E. destruct (Nat.eqb_spec (cl u) l), (Nat.eqb_spec (cl v) l); try congruence;
            [right|left]; split; congruence. }
        destruct X as [[Eu Ev]|[Eu Ev]].
        -- destruct (CROSS u v Lu Lv Eu Ev) as (p & P & B). exists p. rewrite (CK u Eu), WK. auto.
        -- destruct (CROSS v u Lv Lu Ev Eu) as (p & P & B). exists (rev p).
           rewrite (CLL u Eu), WK, sum_rev. split; [apply path_rev; auto|lia].
    + intros j u v Rj Kj. apply orb_true_iff in Rj. destruct Rj as [Rj|Rj].
      * apply Nat.eqb_eq in Rj. subst j.
        assert (X : phi' x = phi x /\ phi' y = xorb (phi y) del).
        { unfold phi'. fold k l. rewrite Nat.eqb_refl. apply Nat.eqb_neq in NE. rewrite NE. auto. }
        destruct X as [X1 X2].
        destruct (link_ends n edges WF i x y u _ K Kj) as [[-> X]|[-> X]]; injection X as ->.
        -- rewrite (CK x eq_refl), (CLL y eq_refl), X1, X2. split; auto.
           unfold del. destruct (w i), (phi x), (phi y); reflexivity.
        -- rewrite (CK x eq_refl), (CLL y eq_refl), X1, X2. split; auto.
           unfold del. destruct (w i), (phi x), (phi y); reflexivity.
      * destruct (f_two _ _ _ _ _ _ _ F j u v Rj Kj) as [E1 E2]. unfold cl', phi'. rewrite E1. split; auto.
        destruct (cl v =? l); rewrite E2; destruct (phi u), (phi v), del; reflexivity.
    + intros j u Rj Kj. apply orb_true_iff in Rj. destruct Rj as [Rj|Rj].
      { apply Nat.eqb_eq in Rj. subst j. destruct (link_dangling edges i u x _ Kj K). discriminate. }
      destruct (f_one _ _ _ _ _ _ _ F j u Rj Kj) as [E1 E2]. destruct (link_lt n edges WF j u _ Kj) as [_ Lu].
      unfold dg', phi', psi'.
      destruct (Nat.eqb_spec (cl u) l) as [E|D].
      * rewrite (CLL u E), Nat.eqb_refl. rewrite E in E1, E2. rewrite E1, orb_true_r. split; auto.
        rewrite E2. destruct (dg k) eqn:DK; [|destruct (phi u), (psi l), del; reflexivity].
        (* two exits *)
        destruct (f_exit _ _ _ _ _ _ _ F x Lx DK) as (p1 & j1 & z1 & P1 & R1 & K1 & B1).
        destruct (f_exit _ _ _ _ _ _ _ F y Ly E1) as (p2 & j2 & z2 & P2 & R2 & K2 & B2).
        fold k in B1. fold l in B2.
        destruct (path_lt _ _ _ _ P1) as (_ & _ & L1). destruct (path_lt _ _ _ _ P2) as (_ & _ & L2).
        destruct (path_flat _ _ _ _ _ _ _ _ _ _ F P1) as [C1 G1].
        destruct (path_flat _ _ _ _ _ _ _ _ _ _ F P2) as [C2 G2].
        destruct (f_one _ _ _ _ _ _ _ F j1 z1 R1 K1) as [_ Q1]. rewrite <- C1 in Q1. fold k in Q1.
        destruct (f_one _ _ _ _ _ _ _ F j2 z2 R2 K2) as [_ Q2]. rewrite <- C2 in Q2. fold l in Q2.
        destruct (link_lt n edges WF j1 z1 _ K1) as [LJ1 _]. destruct (link_lt n edges WF j2 z2 _ K2) as [LJ2 _].
        assert (Z : weight ([j1] ++ p1 ++ [i] ++ p2 ++ [j2]) = false).
        { apply short_weight; auto.
          - intros e I. rewrite !in_app_iff in I. destruct I as [[<-|[]]|[I|[[<-|[]]|[I|[<-|[]]]]]]; auto.
          - intros v Lv. rewrite !map_app, !parity_app, (path_boundary _ _ _ _ v P1), (path_boundary _ _ _ _ v P2).
            cbn. rewrite (incident_one j1 z1 v K1), (incident_one j2 z2 v K2), (incident_two i x y v K).
            destruct (v =? x), (v =? y), (v =? z1), (v =? z2); reflexivity.
          - rewrite !sum_app, !sum_cons; cbn [map list_sum fold_right].
            pose proof (W_le_total W' k Lk) as WT'. rewrite WK, TW in WT'. lia. }
        rewrite !map_app, !parity_app, G1, G2 in Z. cbn in Z. rewrite Q1, Q2 in Z. unfold del.
        destruct (w i), (phi x), (phi y), (phi z1), (phi z2), (psi k), (psi l), (phi u); cbn in *; congruence.
      * rewrite (CO u D). destruct (Nat.eqb_spec (cl u) k) as [E|D']; auto.
        rewrite E in E1, E2. rewrite E1. auto.
    + intros u Lu Du. unfold dg' in Du.
      assert (OLD : dg (cl u) = true -> exists p j z, path (plus_edge i R) u z p /\ (plus_edge i R) j = true /\
        link j z None /\ mw j + sum mw p + a u <= W' (cl' u)).
      { intros D. destruct (f_exit _ _ _ _ _ _ _ F u Lu D) as (q & j & z & PQ & Rj & Kj & BQ).
        exists q, j, z. split; [eapply path_mono; [apply plus_mono|exact PQ]|].
        split; [apply plus_mono; auto|]. split; auto. specialize (UP u). lia. }
      destruct (Nat.eq_dec (cl u) l) as [E|D].
      * destruct (dg l) eqn:DL; [apply OLD; congruence|].
        rewrite (CLL u E), Nat.eqb_refl, orb_false_r in Du.
        destruct (f_exit _ _ _ _ _ _ _ F x Lx Du) as (q & j & z & PQ & Rj & Kj & BQ). fold k in BQ.
        destruct (CROSS x u Lx Lu eq_refl E) as (p & P & B).
        destruct (f_path _ _ _ _ _ _ _ F u y Lu Ly E) as (p' & P' & B'). rewrite E in B'.
        exists (p' ++ i :: q), j, z. rewrite (CLL u E), WK. split.
        { eapply path_app; [eapply path_mono; [apply plus_mono|exact P']|].
          econstructor; [apply plus_same|exact K'|eapply path_mono; [apply plus_mono|exact PQ]]. }
        split; [apply plus_mono; auto|]. split; auto. rewrite sum_app, sum_cons; lia.
      * rewrite (CO u D) in Du. destruct (Nat.eqb_spec (cl u) k) as [E|D']; [|apply OLD; auto].
        destruct (dg k) eqn:DK; [apply OLD; congruence|]. cbn in Du.
        destruct (f_exit _ _ _ _ _ _ _ F y Ly Du) as (q & j & z & PQ & Rj & Kj & BQ). fold l in BQ.
        destruct (f_path _ _ _ _ _ _ _ F u x Lu Lx E) as (p' & P' & B'). rewrite E in B'.
        exists (p' ++ i :: q), j, z. rewrite (CK u E), WK. split.
        { eapply path_app; [eapply path_mono; [apply plus_mono|exact P']|].
          econstructor; [apply plus_same|exact K|eapply path_mono; [apply plus_mono|exact PQ]]. }
        split; [apply plus_mono; auto|]. split; auto. rewrite sum_app, sum_cons; lia.
Qed.

(** Growth of a set of clusters without dangling edges. *)
Lemma flat_grow R cl W a phi psi dg (T : nat -> bool) : flat R cl W a phi psi dg ->
  (forall l, T l = true -> dg l = false) ->
  flat R cl (fun l => W l + 2 * nb (T l)) (fun x => a x + nb (T (cl x))) phi psi dg.
Proof.
  intros F D. constructor; try apply F.
  - intros x y Lx Ly E. destruct (f_path _ _ _ _ _ _ _ F x y Lx Ly E) as (p & P & B).
    exists p. split; auto. rewrite <- E. lia.
  - intros x Lx Dx. destruct (f_exit _ _ _ _ _ _ _ F x Lx Dx) as (p & i & y & P & Ri & K & B).
    exists p, i, y. split; auto. split; auto. split; auto. destruct (T (cl x)) eqn:E; cbn [nb]; [|lia].
    rewrite (D _ E) in Dx. discriminate.
Qed.

(** The sum of a function over the ends of an edge. *)
Definition over (f : nat -> nat) (i : nat) : nat := list_sum (map f (nth i edges [])).

Lemma over_two f i x y : link i x (Some y) -> over f i = f x + f y.
Proof.
  intros [[_ X]|(y' & X & [K|K])]; [discriminate| |]; injection X as <-;
    unfold over; rewrite (nth_error_nth _ _ _ K); cbn; lia.
Qed.
Lemma over_one f i x : link i x None -> over f i = f x.
Proof.
  intros [[K _]|(y' & X & _)]; [|discriminate]. unfold over; rewrite (nth_error_nth _ _ _ K); cbn; lia.
Qed.
Lemma over_link i : i < m -> exists x o, link i x o.
Proof.
  intros L. destruct (edge_cases n edges WF i L) as [(v & E & _)|(u & v & E & _)].
  - exists v, None. left; auto. - exists u, (Some v). right. eauto.
Qed.

(** Several edges. *)
Lemma flat_add_list (c : nat -> nat) l : forall R cl W a phi psi dg, flat R cl W a phi psi dg ->
  (forall i, In i l -> i < m /\ mw i <= over a i + c i) -> total W + sum c l < d ->
  exists cl' W' phi' psi' dg', flat (fun j => existsb (Nat.eqb j) l || R j) cl' W' a phi' psi' dg' /\ total W' = total W + sum c l.
Proof.
  induction l as [|i l IH]; intros R cl W a phi psi dg F X T.
  - exists cl, W, phi, psi, dg. cbn [existsb orb map list_sum fold_right]. split; [|lia]. exact F.
  - rewrite sum_cons in T. destruct (X i (or_introl eq_refl)) as [Li Ci].
    assert (Y : exists cl' W' phi' psi' dg', flat (plus_edge i R) cl' W' a phi' psi' dg' /\ total W' = total W + c i).
    { destruct (over_link i Li) as (x & [y|] & K).
      - rewrite (over_two a i x y K) in Ci. eapply flat_add_two; eauto. lia.
      - rewrite (over_one a i x K) in Ci.
        destruct (flat_add_one R cl W a phi psi dg i x (c i)) as (W' & psi' & dg' & F' & T'); auto. { lia. }
        exists cl, W', phi, psi', dg'. auto. }
    destruct Y as (cl1 & W1 & phi1 & psi1 & dg1 & F1 & T1).
    destruct (IH _ _ _ _ _ _ _ F1) as (cl2 & W2 & phi2 & psi2 & dg2 & F2 & T2).
    { intros j I. apply X. right; auto. } { lia. }
    exists cl2, W2, phi2, psi2, dg2. split; [|rewrite sum_cons; lia].
    assert (EX : forall j, existsb (Nat.eqb j) l || (plus_edge i R) j = existsb (Nat.eqb j) (i :: l) || R j).
    { intros j. cbn [existsb]. destruct (j =? i), (existsb (Nat.eqb j) l), (R j); reflexivity. }
    destruct F2 as [A1 A2 A3 A4 A5]. constructor; auto.
    + intros x y Lx Ly E. destruct (A2 x y Lx Ly E) as (p & P & B). exists p. split; auto.
      eapply path_mono; [|exact P]. intros j. cbn beta. rewrite <- EX. auto.
    + intros j x y. rewrite <- EX. apply A3.
    + intros j x. rewrite <- EX. apply A4.
    + intros x Lx D. destruct (A5 x Lx D) as (p & j & y & P & Rj & K & B). exists p, j, y.
      rewrite <- EX. split; auto. eapply path_mono; [|exact P]. intros e. cbn beta. rewrite <- EX. auto.
Qed.

(** Cycles of added edges do not change the logical value. *)
Lemma flat_end R cl W a phi psi dg sel : flat R cl W a phi psi dg ->
  (forall i, i < m -> sel i = true -> R i = true) -> explains n edges sel (fun _ => false) ->
  parity (map (fun i => sel i && w i) (seq 0 m)) = false.
Proof.
  intros F IN EX.
  (* the edges as sums over their ends *)
  set (ins := fun f i => match nth i edges [] with [v] => f v | [u; v] => xorb (f u) (f v) | _ => false end : bool).
  assert (HS : forall f, parity (map (fun i => sel i && ins f i) (seq 0 m)) = false).
  { intros f. rewrite (parity_ext _ (fun i => parity (map (fun v => sel i && (f v && incident edges i v)) (seq 0 n)))).
    - rewrite parity_swap. apply parity_false. intros v Iv. apply in_seq in Iv.
      rewrite (parity_ext _ (fun i => f v && (sel i && incident edges i v))).
      + rewrite parity_and. unfold explains, boundary in EX. rewrite EX by lia. apply andb_false_r.
      + intros i _. destruct (sel i), (f v); reflexivity.
    - intros i Ii. apply in_seq in Ii. rewrite parity_and, (incident_parity n edges WF i f) by lia. reflexivity. }
  (* the number of dangling edges with a label *)
  assert (DL : forall l, l < n -> parity (map (fun i => sel i && match nth i edges [] with [v] => cl v =? l | _ => false end) (seq 0 m)) = false).
  { intros l _. etransitivity; [|apply (HS (fun v => cl v =? l))]. apply parity_ext. intros i Ii. apply in_seq in Ii.
    destruct (sel i) eqn:Si; [|reflexivity]. cbn [andb]. unfold ins.
    destruct (edge_cases n edges WF i) as [(v & E & _)|(u & v & E & _)]; [lia| |]; rewrite (nth_error_nth _ _ _ E); auto.
    destruct (f_two _ _ _ _ _ _ _ F i u v) as [C _]. { apply IN; [lia|auto]. } { right. eauto. }
    rewrite C. symmetry. apply xorb_nilpotent. }
  rewrite (parity_ext _ (fun i => xorb (sel i && ins phi i)
     (parity (map (fun l => psi l && (sel i && match nth i edges [] with [v] => cl v =? l | _ => false end)) (seq 0 n))))).
  - rewrite parity_xor, HS, parity_swap, xorb_false_l. apply parity_false. intros l Il. apply in_seq in Il.
    rewrite parity_and, DL by lia. apply andb_false_r.
  - intros i Ii. apply in_seq in Ii. destruct (sel i) eqn:Si; cbn [andb].
    + unfold ins. destruct (edge_cases n edges WF i) as [(v & E & Lv)|(u & v & E & _)]; [lia| |]; rewrite (nth_error_nth _ _ _ E).
      * destruct (f_one _ _ _ _ _ _ _ F i v) as [_ C]. { apply IN; [lia|auto]. } { left. auto. }
        rewrite C. f_equal. rewrite (parity_one _ (cl v)).
        -- rewrite Nat.eqb_refl, andb_true_r. reflexivity.
        -- apply seq_NoDup.
        -- apply in_seq. pose proof (f_lt _ _ _ _ _ _ _ F v Lv). lia.
        -- intros l _ D. apply Nat.eqb_neq in D. rewrite Nat.eqb_sym, D. apply andb_false_r.
      * destruct (f_two _ _ _ _ _ _ _ F i u v) as [_ C]. { apply IN; [lia|auto]. } { right. eauto. }
        rewrite C. rewrite parity_false; [destruct (phi u), (phi v); reflexivity|].
        intros l _. apply andb_false_r.
    + symmetry. rewrite xorb_false_l. apply parity_false. intros l _. apply andb_false_r.
Qed.
End M.
