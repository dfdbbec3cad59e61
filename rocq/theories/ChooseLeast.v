(** The chosen increment is the least lack of the edges at the boundary of a cluster. *)
Require Import List Bool Arith Lia QArith Lqa.
From Verif Require Import Base BaseProofs ErasureModel UnionFindModel UnionFindStep ChooseModel ChooseProofs.
Import ListNotations.
Open Scope nat_scope.

Lemma fold_least l : forall x y : Q, (y = x \/ In y l) -> (fold_left (fun a b => if Qle_bool a b then a else b) l x <= y)%Q.
Proof.
  assert (H : forall l x, (fold_left (fun a b => if Qle_bool a b then a else b) l x <= x)%Q /\ forall y, In y l -> (fold_left (fun a b => if Qle_bool a b then a else b) l x <= y)%Q).
  { induction l0 as [|z l0 IH]; intros x; cbn [fold_left]; [split; [apply Qle_refl|intros y []]|]. destruct (IH (if Qle_bool x z then x else z)) as [A B].
    assert (M : ((if Qle_bool x z then x else z) <= x)%Q /\ ((if Qle_bool x z then x else z) <= z)%Q).
    { destruct (Qle_bool x z) eqn:E; [apply Qle_bool_iff in E; split; [apply Qle_refl|auto]|]. assert (N : ~ (x <= z)%Q) by (intros L; apply Qle_bool_iff in L; congruence). split; [lra|apply Qle_refl]. }
    split; [lra|]. intros y [<-|I]; [lra|auto]. }
  intros x y [->|I]; [exact (proj1 (H l x))|exact (proj2 (H l x) y I)].
Qed.
Lemma lacking_acc gs (l : list entry) : forall acc r, foldR (lacking gs) l acc = Ok r ->
  (forall d, In d acc -> In d r) /\ (forall en d, In en l -> lacks gs en d -> In d r) /\ (forall d, In d r -> In d acc \/ exists en, In en l /\ lacks gs en d).
Proof.
  induction l as [|en l IH]; intros acc r; cbn [foldR]; [intros [= <-]; split; [auto|]; split; [intros ? ? []|auto]|].
  unfold lacking at 1. destruct (get gs (fst en)) as [g|] eqn:G; cbn [bindR]; [|discriminate]. intros E. destruct (IH _ r E) as (A & B & C).
  assert (N : nth_error gs (fst en) = Some g) by (unfold get in G; destruct (nth_error gs (fst en)); congruence).
  split; [|split].
  - intros d I. apply A. destruct (complete g); [auto|]. apply in_app_iff. auto.
  - intros e d [<-|I] K; [|eauto]. destruct K as (g' & q & N' & C' & Q & ->). rewrite N in N'. injection N' as <-. apply A. rewrite C', Q. apply in_app_iff. right. left. auto.
  - intros d I. destruct (C d I) as [J|(e & J & K)]; [|right; exists e; split; [right|]; auto]. destruct (complete g) eqn:CG; [auto|]. apply in_app_iff in J. destruct J as [J|J]; [auto|]. right. exists en. split; [left; auto|].
    destruct (incomplete_cur g CG) as (q & Q & _). rewrite Q in J. destruct J as [<-|[]]. exists g, q. auto.
Qed.
Lemma lacking_acc_all (adj : list (list entry)) gs b : forall acc r, foldR (fun acc v => do l <- get adj v; foldR (lacking gs) l acc) b acc = Ok r ->
  (forall d, In d acc -> In d r) /\ (forall v en d, In v b -> In en (nth v adj []) -> lacks gs en d -> In d r) /\ (forall d, In d r -> In d acc \/ exists v en, In v b /\ In en (nth v adj []) /\ lacks gs en d).
Proof.
  induction b as [|v b IH]; intros acc r; cbn [foldR]; [intros [= <-]; split; [auto|]; split; [intros ? ? ? []|auto]|].
  destruct (get adj v) as [l|] eqn:G; cbn [bindR]; [|discriminate]. destruct (foldR (lacking gs) l acc) as [a1|] eqn:E1; cbn [bindR]; [|discriminate]. intros E.
  assert (N : nth v adj [] = l) by (unfold get in G; destruct (nth_error adj v) eqn:NV; [injection G as <-; apply nth_error_nth; auto|discriminate]).
  destruct (lacking_acc gs l acc a1 E1) as (A1 & B1 & C1). destruct (IH a1 r E) as (A2 & B2 & C2). split; [auto|]. split.
  - intros w en d [<-|I] J K; [|eauto]. rewrite N in J. apply A2. eapply B1; eauto.
  - intros d I. destruct (C2 d I) as [J|(w & en & J & K)]; [|right; exists w, en; split; [right|]; auto]. destruct (C1 d J) as [J1|(en & J1 & K1)]; [auto|]. right. exists v, en. rewrite N. split; [left; auto|auto].
Qed.
Theorem choose_least adj gs b inc : choose_increment adj gs b = Ok inc ->
  match inc with
  | Some d => (exists v en, In v b /\ In en (nth v adj []) /\ lacks gs en d) /\ forall v en d', In v b -> In en (nth v adj []) -> lacks gs en d' -> (d <= d')%Q
  | None => forall v en d', In v b -> In en (nth v adj []) -> ~ lacks gs en d'
  end.
Proof.
  unfold choose_increment. destruct (foldR _ b []) as [r|] eqn:E; cbn [bindR]; [|discriminate]. intros [= <-]. destruct (lacking_acc_all adj gs b [] r E) as (_ & B & C). destruct r as [|x l].
  - intros v en d Iv Ie K. exact (B v en d Iv Ie K).
  - split.
    + destruct (C (fold_left (fun a b => if Qle_bool a b then a else b) l x)) as [[]|H]; auto. destruct (fold_min l x) as [X|X]; cbv zeta in X; [left; auto|right; auto].
    + intros v en d' Iv Ie K. apply fold_least. destruct (B v en d' Iv Ie K) as [->|I]; auto.
Qed.
