(** Decision procedures for codes with few qubits. *)
Require Import List Bool Arith Lia.
From Verif Require Import Base BaseProofs QSpec PauliModel PauliSem PauliProofs PauliAlg TableauProofs LatticeModel CodesModel CodesSpec GroupAlg.
From Verif Require GeneratorSpec.
Import ListNotations.
Notation row0 := GeneratorSpec.row0.

Definition validb (n s k : nat) (c : stabcode) : bool :=
  (length (c_stabs c) =? s) && (length (c_logicals c) =? 2 * k) &&
  forallb (fun r => length (ops r) =? n) (c_stabs c ++ c_logicals c) &&
  forallb (fun r => existsb (fun p : bool * bool => fst p || snd p) (ops r)) (c_stabs c ++ c_logicals c) &&
  forallb (fun a => forallb (fun b => negb (symp (ops a) (ops b))) (c_stabs c ++ c_logicals c)) (c_stabs c) &&
  forallb (fun i => forallb (fun j => Bool.eqb (symp (ops (nth i (c_logicals c) row0)) (ops (nth j (c_logicals c) row0))) ((i / 2 =? j / 2) && negb (i =? j))) (seq 0 (2 * k))) (seq 0 (2 * k)).
Lemma validb_ok n s k c : validb n s k c = true -> valid_code n s k c.
Proof.
  unfold validb. rewrite !andb_true_iff, !forallb_forall. intros (((((A & B) & W) & NT) & C) & P). apply Nat.eqb_eq in A, B.
  assert (W' : forall r, In r (c_stabs c) \/ In r (c_logicals c) -> length (ops r) = n) by (intros r I; apply Nat.eqb_eq, W, in_app_iff; auto).
  assert (CC : forall a b, In a (c_stabs c) -> In b (c_stabs c) \/ In b (c_logicals c) -> commute n (denote a) (denote b)).
  { intros a b I J. apply commute_iff; auto. specialize (C a I). rewrite forallb_forall in C. apply negb_true_iff, C, in_app_iff. auto. }
  split; auto.
  - intros r I. apply in_app_iff in I. specialize (NT r I). apply existsb_exists in NT. destruct NT as (p & J & Q). apply (In_nth _ _ (false, false)) in J. destruct J as (i & _ & <-). exists i.
    intros E. rewrite E in Q. discriminate.
  - intros i j a b X Y. assert (Li : i < 2 * k) by (rewrite <- B; apply nth_error_Some; congruence). assert (Lj : j < 2 * k) by (rewrite <- B; apply nth_error_Some; congruence).
    specialize (P i). rewrite forallb_forall in P. specialize (P ltac:(apply in_seq; lia) j ltac:(apply in_seq; lia)). apply eqb_prop in P.
    rewrite (nth_error_nth _ _ row0 X), (nth_error_nth _ _ row0 Y) in P. apply nth_error_In in X, Y.
    destruct ((i / 2 =? j / 2) && negb (i =? j)); [apply anticommute_iff|apply commute_iff]; auto.
Qed.

Fixpoint all_lists (k : nat) : list (list bool) := match k with 0 => [[]] | S k => map (cons false) (all_lists k) ++ map (cons true) (all_lists k) end.
Lemma in_all_lists c : In c (all_lists (length c)).
Proof. induction c as [|b c IH]; cbn; [auto|]. apply in_app_iff. destruct b; [right|left]; apply in_map; auto. Qed.
Definition identityb (l : list (bool * bool)) : bool := forallb (fun p : bool * bool => negb (fst p || snd p)) l.
Definition indepb (n : nat) (rs : list (list (bool * bool))) : bool :=
  forallb (fun c => implb (identityb (lincomb n c rs)) (forallb negb c)) (all_lists (length rs)).
Lemma indepb_ok n rs : indepb n rs = true -> indep n rs.
Proof.
  unfold indepb, indep. rewrite forallb_forall. intros H c L Z. specialize (H c). rewrite <- L in H. specialize (H (in_all_lists c)).
  assert (I : identityb (lincomb n c rs) = true) by (rewrite Z; clear; induction n; auto). rewrite I in H. cbn [implb] in H. rewrite <- L. clear - H. induction c as [|b c IH]; auto.
  cbn in H. apply andb_true_iff in H. destruct H as [H1 H2]. destruct b; [discriminate|]. cbn. f_equal. auto.
Qed.
