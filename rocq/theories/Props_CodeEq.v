(** Properties of the comparison of codes. *)
Require Import String List Bool Arith ZArith Lia.
From Verif Require Import Base BaseProofs PauliModel CodesModel.
Import ListNotations.
Local Open Scope nat_scope.
Local Open Scope list_scope.

(** * C39 Code equality is not an equivalence *)
(** All operators have [n] factors. *)
Definition uniform (n : nat) (c : stabcode) : Prop := forall r, In r (c_stabs c ++ c_logicals c) -> length (ops r) = n.
(** Two lists agree as far as both go. *)
Definition agree {A} (a b : list A) : Prop := forall i x y, nth_error a i = Some x -> nth_error b i = Some y -> x = y.

Lemma bits_eqb : forall a b : list bool, length a = length b -> (forallb (fun xy => Bool.eqb (fst xy) (snd xy)) (combine a b) = true <-> a = b).
Proof.
  induction a as [|x a IH]; intros [|y b]; cbn; try discriminate; [tauto|]. intros [= L]. rewrite andb_true_iff, IH by auto. rewrite Bool.eqb_true_iff.
  split; [intros [-> ->]; auto|intros [= -> ->]; auto].
Qed.
Lemma app_same_length {A} : forall (a b c d : list A), length a = length b -> a ++ c = b ++ d -> a = b /\ c = d.
Proof. induction a as [|x a IH]; intros [|y b] c d; cbn; try discriminate; auto. intros [= L] [= -> E]. destruct (IH b c d L E) as [-> ->]. auto. Qed.
Lemma bits_inj r s : length (ops r) = length (ops s) -> (row_bits r = row_bits s <-> r = s).
Proof.
  intros L. split; [|intros ->; auto]. destruct r as [o g], s as [o' g']. unfold row_bits. cbn [ops neg] in *. intros E.
  apply app_same_length in E as [E1 E]; [|rewrite !map_length; auto]. apply app_same_length in E as [E2 [= ->]]; [|rewrite !map_length; auto].
  f_equal. clear - L E1 E2. revert o' L E1 E2. induction o as [|[x z] o IH]; intros [|[x' z'] o']; cbn; try discriminate; auto.
  intros [= L] [= -> E1] [= -> E2]. f_equal. auto.
Qed.
Lemma row_eqb_ok r s : length (ops r) = length (ops s) -> exists b, row_eqb r s = Ok b /\ (b = true <-> r = s).
Proof.
  intros L. unfold row_eqb. rewrite (proj2 (Nat.eqb_eq _ _) L). eexists. split; [reflexivity|]. rewrite bits_eqb; [apply bits_inj; auto|].
  unfold row_bits. rewrite !app_length, !map_length, L. auto.
Qed.
Lemma agree_cons {A} (x y : A) a b : agree (x :: a) (y :: b) <-> x = y /\ agree a b.
Proof.
  split; [intros H; split; [apply (H 0); auto|intros i; apply (H (S i))]|]. intros [-> H] [|i] u v; cbn; [congruence|apply H].
Qed.
Lemma rows_eqb_ok : forall a b n, (forall r, In r (a ++ b) -> length (ops r) = n) -> exists t, rows_eqb a b = Ok t /\ (t = true <-> agree a b).
Proof.
  unfold rows_eqb. induction a as [|r a IH]; intros b n H.
  - exists true. split; auto. split; auto. intros _ [|i]; discriminate.
  - destruct b as [|s b]; [exists true; split; auto; split; auto; intros _ [|i] ? ?; discriminate|]. cbn [combine mapR bindR fst snd].
    destruct (IH b n) as (t & E & T); [intros u I; apply H; apply in_app_iff in I as [I|I]; apply in_app_iff; cbn; tauto|].
    destruct (row_eqb_ok r s) as (b0 & -> & B); [rewrite (H r), (H s); auto; apply in_app_iff; cbn; tauto|]. cbn [bindR].
    destruct (mapR _ (combine a b)) as [bs|]; [|discriminate]. cbn [bindR forallb] in *. injection E as E. exists (b0 && t). rewrite <- E. split; auto.
    rewrite andb_true_iff, agree_cons, E, B, T. tauto.
Qed.

(** The comparison looks at the operators as far as both lists go. *)
Theorem C39_compare : forall n a b, uniform n a -> uniform n b -> exists t, code_eqb a b = Ok t /\
  (t = true <-> agree (c_stabs a) (c_stabs b) /\ agree (c_logicals a) (c_logicals b)).
Proof.
  intros n a b A B. unfold uniform in *. unfold code_eqb.
  destruct (rows_eqb_ok (c_stabs a) (c_stabs b) n) as (t & -> & T); [intros r I; apply in_app_iff in I as [I|I]; [apply A|apply B]; apply in_app_iff; auto|].
  destruct (rows_eqb_ok (c_logicals a) (c_logicals b) n) as (u & E & U); [intros r I; apply in_app_iff in I as [I|I]; [apply A|apply B]; apply in_app_iff; auto|].
  cbn [bindR]. destruct t; [exists u; split; auto; tauto|]. exists false. split; auto. split; [discriminate|]. intros [G _]. apply T in G. auto.
Qed.
Print Assumptions C39_compare.

Lemma row_eqb_sym r s : row_eqb r s = row_eqb s r.
Proof.
  unfold row_eqb. rewrite Nat.eqb_sym. destruct (length (ops s) =? length (ops r)) eqn:E; auto. f_equal. generalize (row_bits r) (row_bits s).
  induction l as [|x l IH]; intros [|y l']; cbn; auto. rewrite IH. f_equal. destruct x, y; auto.
Qed.
Lemma rows_eqb_sym : forall a b, rows_eqb a b = rows_eqb b a.
Proof.
  assert (H : forall a b, mapR (fun xy => row_eqb (fst xy) (snd xy)) (combine a b) = mapR (fun xy => row_eqb (fst xy) (snd xy)) (combine b a)).
  { induction a as [|r a IH]; intros [|s b]; cbn; auto. rewrite row_eqb_sym. rewrite IH. auto. }
  intros a b. unfold rows_eqb. rewrite H. auto.
Qed.
(** It is reflexive and symmetric, and says the truth about codes with equal numbers of operators. *)
Theorem C39_reflexive : forall a, code_eqb a a = Ok true.
Proof.
  assert (R : forall a, rows_eqb a a = Ok true).
  { unfold rows_eqb. induction a as [|r a IH]; cbn; auto. destruct (row_eqb_ok r r eq_refl) as (b & -> & B). rewrite (proj2 B eq_refl). cbn [bindR].
    destruct (mapR _ (combine a a)); [|discriminate]. cbn in *. auto. }
  intros a. unfold code_eqb. rewrite R. cbn [bindR]. auto.
Qed.
Print Assumptions C39_reflexive.
Theorem C39_symmetric : forall a b, code_eqb a b = code_eqb b a.
Proof.
  intros a b. unfold code_eqb. rewrite (rows_eqb_sym (c_stabs a)), (rows_eqb_sym (c_logicals a)). auto.
Qed.
Print Assumptions C39_symmetric.
Lemma agree_eq {A} : forall a b : list A, length a = length b -> (agree a b <-> a = b).
Proof.
  induction a as [|x a IH]; intros [|y b]; cbn; try discriminate; [split; auto; intros _ []; discriminate|].
  intros [= L]. rewrite agree_cons, IH by auto. split; [intros [-> ->]; auto|intros [= -> ->]; auto].
Qed.
Theorem C39_same_numbers : forall n a b, uniform n a -> uniform n b -> n_stabgens a = n_stabgens b -> n_logical_ops a = n_logical_ops b ->
  (code_eqb a b = Ok true <-> a = b).
Proof.
  intros n a b A B S L. destruct (C39_compare n a b A B) as (t & E & T). unfold n_stabgens, n_logical_ops in *.
  rewrite (agree_eq _ _ S), (agree_eq _ _ L) in T. rewrite E. destruct a, b; cbn in *. split.
  - intros [= ->]. destruct (proj1 T eq_refl). congruence.
  - intros [= -> ->]. f_equal. tauto.
Qed.
Print Assumptions C39_same_numbers.

(** Three valid codes on three qubits: one with two logical qubits and the generator ZZI, and two
    with one logical qubit and the generators ZZI and IIZ or IIX. *)
Definition pI := (false, false). Definition pX := (true, false). Definition pZ := (false, true).
Definition two_logical : stabcode := mkStabcode [mkRow [pZ; pZ; pI] false] [mkRow [pX; pX; pI] false; mkRow [pZ; pI; pI] false; mkRow [pI; pI; pX] false; mkRow [pI; pI; pZ] false].
Definition with_third (p : bool * bool) : stabcode := mkStabcode [mkRow [pZ; pZ; pI] false; mkRow [pI; pI; p] false] [mkRow [pX; pX; pI] false; mkRow [pZ; pI; pI] false].
Theorem C39_transitive_refuted : exists a b c, uniform 3 a /\ uniform 3 b /\ uniform 3 c /\ check a = Ok tt /\ check b = Ok tt /\ check c = Ok tt /\
  code_eqb a b = Ok true /\ code_eqb b c = Ok true /\ code_eqb a c = Ok false.
Proof.
  exists (with_third pZ), two_logical, (with_third pX). repeat split; try (intros r I; cbn in I; repeat destruct I as [<-|I]; auto; contradiction); vm_compute; reflexivity.
Qed.
Print Assumptions C39_transitive_refuted.
(** Codes with different numbers of generators and of logical qubits can be equal. *)
Theorem C39_numbers_refuted : exists a b, check a = Ok tt /\ check b = Ok tt /\ code_eqb a b = Ok true /\ n_stabgens a <> n_stabgens b /\ n_logical_qubits a <> n_logical_qubits b.
Proof. exists (with_third pZ), two_logical. repeat split; try (vm_compute; reflexivity); vm_compute; discriminate. Qed.
Print Assumptions C39_numbers_refuted.
(** The planar and the rotated code, and the planar code with another number of rounds. *)
Example C39_example :
  (do a <- make_planar 1 2; do b <- make_planar 5 2; code_eqb (c_ops a) (c_ops b)) = Ok true /\
  (do a <- make_rotated_planar 1 3 false; do b <- make_rotated_planar 1 3 true; code_eqb (c_ops a) (c_ops b)) = Ok false /\
  code_eqb two_logical (mkStabcode [mkRow [pZ; pZ; pI] true] (c_logicals two_logical)) = Ok false.
Proof. repeat split; vm_compute; reflexivity. Qed.
