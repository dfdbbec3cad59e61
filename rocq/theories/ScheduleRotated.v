(** The parallel schedule of the rotated planar code. *)
Require Import List Bool Arith ZArith Lia String Permutation.
From Verif Require Import Base BaseProofs QSpec PauliModel PauliSem PauliProofs PauliAlg LatticeModel CodesModel CodesSpec LatticeSpec LatticeProofs LatticeEdit LatticeOps BuildProofs CodesProofs RotatedProofs ScheduleProofs.
Import ListNotations.
Local Open Scope nat_scope.
Local Open Scope list_scope.
Ltac Zify.zify_post_hook ::= Z.to_euclidean_division_equations.
Local Opaque Z.mul Z.add Z.sub.

Definition rtau (q p : pos) : option nat := flip q (index_of (displacement q p) diagonal_order).
Definition rtime (a b x y : Z) : nat :=
  if (x =? y)%Z then (if (x =? 1)%Z then 0 else 3) else if (y =? 1)%Z then (if (a mod 2 =? b mod 2)%Z then 2 else 1) else (if (a mod 2 =? b mod 2)%Z then 1 else 2).
Lemma rtau_time a b p : radj (2 * a, 2 * b)%Z p -> rtau (2 * a, 2 * b)%Z p = Some (rtime a b (fst p - 2 * a) (snd p - 2 * b)).
Proof.
  unfold radj, rtau, displacement, rtime. cbn [fst snd]. intros [X Y].
  assert (P : forall x, Z.abs x = 1%Z -> periodic x = x) by (intros x Ex; unfold periodic; rewrite Ex; reflexivity). rewrite !P by auto.
  unfold flip. cbn [fst snd]. replace ((2 * a + 2 * b) mod 4 =? 0)%Z with (a mod 2 =? b mod 2)%Z by (destruct (Z.eqb_spec (a mod 2) (b mod 2)), (Z.eqb_spec ((2 * a + 2 * b) mod 4) 0); auto; lia).
  assert ((fst p - 2 * a = 1 \/ fst p - 2 * a = -1) /\ (snd p - 2 * b = 1 \/ snd p - 2 * b = -1))%Z as [[-> | ->] [-> | ->]] by lia; cbn [index_of diagonal_order]; destruct (a mod 2 =? b mod 2)%Z; reflexivity.
Qed.
Lemma rotated_edge_adj d z o p f g q : nth_error (rvs d) o = Some (KStab g, q) -> In (o, p, f) (res d z) -> exists a b, q = (2 * a, 2 * b)%Z /\ radj (2 * a, 2 * b)%Z p.
Proof.
  intros Q I. apply in_res in I as [(g' & q' & Q' & A & _)|I].
  - rewrite Q in Q'. injection Q' as <- <-. apply rstab_pos in Q as (a & b & -> & _). eauto.
  - exfalso. apply in_rL in I as (x & _ & J). destruct (rvs_logical d). destruct J as [(-> & _)|(-> & _)]; congruence.
Qed.
Lemma rotated_conflict_free d z : (2 <= d)%Z -> exists l, rotated_lattice d z diagonal_order = Ok l /\ conflict_free l.
Proof.
  intros D. destruct (rotated_built d z diagonal_order D diagonal_all) as (l & E & B & X & T & St). exists l. split; auto.
  apply (timed_conflict_free rtau _ _ _ _ _ B T St).
  - apply nodup_rvs; auto.
  - intros o p f g q I Q. destruct (rotated_edge_adj _ _ _ _ _ _ _ Q I) as (a & b & -> & A). rewrite rtau_time by auto. eexists. split; [reflexivity|]. unfold rtime. cbn [List.length diagonal_order].
    repeat (match goal with |- context [(?u =? ?v)%Z] => destruct (u =? v)%Z end); lia.
  - intros o p f p' f' g q I I' Q F. destruct (rotated_edge_adj _ _ _ _ _ _ _ Q I) as (a & b & -> & A). destruct (rotated_edge_adj _ _ _ _ _ _ _ Q I') as (a' & b' & E' & A').
    injection E' as E1 E2. assert (a = a' /\ b = b') as [<- <-] by lia. rewrite !rtau_time in F by auto. injection F as F. unfold radj, rtime in *. destruct p as [pi pj], p' as [ri rj]. cbn [fst snd] in *. revert F.
    assert ((pi = 2 * a + 1 \/ pi = 2 * a - 1) /\ (pj = 2 * b + 1 \/ pj = 2 * b - 1) /\ (ri = 2 * a + 1 \/ ri = 2 * a - 1) /\ (rj = 2 * b + 1 \/ rj = 2 * b - 1))%Z as ([-> | ->] & [-> | ->] & [-> | ->] & [-> | ->]) by lia; auto;
    repeat (match goal with |- context [(?u =? ?v)%Z] => destruct (Z.eqb_spec u v) end); intros; try discriminate; exfalso; lia.
  - intros o p f o' f' g q g' q' I I' Q Q' F. destruct (rotated_edge_adj _ _ _ _ _ _ _ Q I) as (a & b & -> & A). destruct (rotated_edge_adj _ _ _ _ _ _ _ Q' I') as (a' & b' & -> & A').
    rewrite !rtau_time in F by auto. injection F as F. unfold radj, rtime in *. destruct p as [pi pj]. cbn [fst snd] in *. revert F.
    assert ((pi = 2 * a + 1 \/ pi = 2 * a - 1) /\ (pj = 2 * b + 1 \/ pj = 2 * b - 1))%Z as ([-> | ->] & [-> | ->]) by lia;
    (assert (Ca : (a' = a \/ a' = a + 1 \/ a' = a - 1)%Z) by lia); (assert (Cb : (b' = b \/ b' = b + 1 \/ b' = b - 1)%Z) by lia); destruct Ca as [-> | [-> | ->]], Cb as [-> | [-> | ->]]; auto; try (exfalso; lia);
    repeat (match goal with |- context [(?u =? ?v)%Z] => destruct (Z.eqb_spec u v) end); intros; try discriminate; exfalso; lia.
Qed.
Lemma rotated_interleaves d z : (2 <= d)%Z -> exists l, rotated_lattice d z diagonal_order = Ok l /\ interleaves l.
Proof.
  intros D. destruct (rotated_built d z diagonal_order D diagonal_all) as (l & E & B & X & T & St). exists l. split; auto.
  assert (ND := nodup_dpos _ (nodup_rvs d D)).
  apply (timed_interleaves rtau _ _ _ _ B T); auto.
  intros s t ga qa gb qb A Bq. destruct (rstab_pos _ _ _ _ A) as (a & b & -> & SA & ->). destruct (rstab_pos _ _ _ _ Bq) as (a' & b' & -> & SB & ->).
  pose proof (rotated_anti d z s t a b a' b') as S. unfold stabat in SA, SB.
  assert (BI : forall x y, In (x, y) (dpos (rvs d)) <-> (1 <= x <= 2 * d - 1 /\ 1 <= y <= 2 * d - 1 /\ x mod 2 = 1 /\ y mod 2 = 1)%Z) by (intros x y; rewrite in_dpos, in_rvdata; unfold rbox; cbn [fst snd]; lia).
  assert (NO : (forall p, In p (dpos (rvs d)) -> sp (fac (res d z) s p) (fac (res d z) t p) = true -> before (rtau (2 * a, 2 * b)%Z p) (rtau (2 * a', 2 * b')%Z p) = true -> False) ->
    exists L : list pos, NoDup L /\ Nat.even (List.length L) = true /\ (forall p, In p L <-> In p (dpos (rvs d)) /\ sp (fac (res d z) s p) (fac (res d z) t p) = true /\ before (rtau (2 * a, 2 * b)%Z p) (rtau (2 * a', 2 * b')%Z p) = true)).
  { intros H. exists []. split; [constructor|]. split; auto. intros p. split; [intros []|]. intros (P & F & G). eapply H; eauto. }
  assert (YES : forall p1 p2, p1 <> p2 -> In p1 (dpos (rvs d)) -> In p2 (dpos (rvs d)) -> radj (2 * a, 2 * b)%Z p1 -> radj (2 * a', 2 * b')%Z p1 -> radj (2 * a, 2 * b)%Z p2 -> radj (2 * a', 2 * b')%Z p2 ->
     (Z.abs (a - a') + Z.abs (b - b') = 1)%Z -> (forall p, In p (dpos (rvs d)) -> radj (2 * a, 2 * b)%Z p -> radj (2 * a', 2 * b')%Z p -> p = p1 \/ p = p2) ->
     (forall p, p = p1 \/ p = p2 -> rtime a b (fst p - 2 * a) (snd p - 2 * b) < rtime a' b' (fst p - 2 * a') (snd p - 2 * b')) ->
    exists L : list pos, NoDup L /\ Nat.even (List.length L) = true /\ (forall p, In p L <-> In p (dpos (rvs d)) /\ sp (fac (res d z) s p) (fac (res d z) t p) = true /\ before (rtau (2 * a, 2 * b)%Z p) (rtau (2 * a', 2 * b')%Z p) = true)).
  { intros p1 p2 N I1 I2 R1 R1' R2 R2' Ab U Lt. exists [p1; p2]. split; [apply even_two; auto|]. split; auto. intros p. split.
    - intros I. assert (J : p = p1 \/ p = p2) by (destruct I as [<-|[<-|[]]]; auto). assert (In p (dpos (rvs d)) /\ radj (2 * a, 2 * b)%Z p /\ radj (2 * a', 2 * b')%Z p) as (K1 & K2 & K3) by (destruct J; subst; auto).
      split; auto. split. apply S; auto. rewrite !rtau_time by auto. cbn [before]. apply Nat.ltb_lt. auto.
    - intros (P & F & _). apply S in F as (F1 & F2 & _); auto. destruct (U p P F1 F2); subst; cbn [In]; auto. }
  assert (Cases : (a' = a + 1 /\ b' = b \/ a' = a /\ b' = b + 1 \/ a' = a - 1 /\ b' = b \/ a' = a /\ b' = b - 1 \/ Z.abs (a - a') + Z.abs (b - b') <> 1)%Z) by lia.
  destruct Cases as [[-> ->]|[[-> ->]|[C|[C|C]]]].
  - apply (YES (2 * a + 1, 2 * b + 1)%Z (2 * a + 1, 2 * b - 1)%Z); unfold radj; cbn [fst snd]; try apply BI; try lia.
    + intros F. injection F as F. lia.
    + intros [x y] _ R1 R2. cbn [fst snd] in *. assert (x = 2 * a + 1 /\ (y = 2 * b + 1 \/ y = 2 * b - 1))%Z as [-> [-> | ->]] by lia; auto.
    + intros p [-> | ->]; cbn [fst snd]; unfold rtime; repeat (match goal with |- context [(?u =? ?v)%Z] => destruct (Z.eqb_spec u v) end); lia.
  - apply (YES (2 * a + 1, 2 * b + 1)%Z (2 * a - 1, 2 * b + 1)%Z); unfold radj; cbn [fst snd]; try apply BI; try lia.
    + intros F. injection F as F. lia.
    + intros [x y] _ R1 R2. cbn [fst snd] in *. assert (y = 2 * b + 1 /\ (x = 2 * a + 1 \/ x = 2 * a - 1))%Z as [-> [-> | ->]] by lia; auto.
    + intros p [-> | ->]; cbn [fst snd]; unfold rtime; repeat (match goal with |- context [(?u =? ?v)%Z] => destruct (Z.eqb_spec u v) end); lia.
  - destruct C as [-> ->]. apply NO. intros [x y] P F Bf. apply S in F as (F1 & F2 & _); auto. rewrite !rtau_time in Bf by auto. cbn [before] in Bf. apply Nat.ltb_lt in Bf. unfold radj in F1, F2. cbn [fst snd] in *. revert Bf.
    assert (x = 2 * a - 1 /\ (y = 2 * b + 1 \/ y = 2 * b - 1))%Z as [-> [-> | ->]] by lia; unfold rtime; repeat (match goal with |- context [(?u =? ?v)%Z] => destruct (Z.eqb_spec u v) end); lia.
  - destruct C as [-> ->]. apply NO. intros [x y] P F Bf. apply S in F as (F1 & F2 & _); auto. rewrite !rtau_time in Bf by auto. cbn [before] in Bf. apply Nat.ltb_lt in Bf. unfold radj in F1, F2. cbn [fst snd] in *. revert Bf.
    assert (y = 2 * b - 1 /\ (x = 2 * a + 1 \/ x = 2 * a - 1))%Z as [-> [-> | ->]] by lia; unfold rtime; repeat (match goal with |- context [(?u =? ?v)%Z] => destruct (Z.eqb_spec u v) end); lia.
  - apply NO. intros p P F _. apply S in F as (_ & _ & F); auto.
Qed.
