(** Lemmas about lists, updates and the exception monad. *)
Require Import List Bool Arith ZArith Lia.
From Verif Require Import Base.
Import ListNotations.

Lemma length_upd {A} i (a : A) l : length (upd i a l) = length l.
Proof. revert i; induction l; destruct i; simpl; auto. Qed.

Lemma nth_upd_same {A} i (a : A) l d : i < length l -> nth i (upd i a l) d = a.
Proof. revert i; induction l; destruct i; simpl; intros; auto; try lia. apply IHl; lia. Qed.

Lemma nth_upd_other {A} i j (a : A) l d : i <> j -> nth j (upd i a l) d = nth j l d.
Proof.
  revert i j; induction l; destruct i, j; simpl; intros; auto; try congruence.
Qed.

Lemma nth_upd {A} i j (a : A) l d :
  nth j (upd i a l) d = if (i =? j) && (i <? length l) then a else nth j l d.
Proof.
  destruct (Nat.eqb_spec i j); simpl.
  - subst j. destruct (Nat.ltb_spec i (length l)).
    + apply nth_upd_same; auto.
    + rewrite !nth_overflow; auto; rewrite ?length_upd; lia.
  - apply nth_upd_other; auto.
Qed.

Lemma upd_upd_same {A} i (a b : A) l : upd i a (upd i b l) = upd i a l.
Proof. revert i; induction l; destruct i; simpl; intros; f_equal; auto. Qed.

Lemma upd_upd_comm {A} i j (a b : A) l : i <> j -> upd i a (upd j b l) = upd j b (upd i a l).
Proof.
  revert i j; induction l; destruct i, j; simpl; intros; auto; try congruence.
  f_equal; apply IHl; lia.
Qed.

Lemma upd_nth {A} i l (d : A) : upd i (nth i l d) l = l.
Proof. revert i; induction l; destruct i; simpl; intros; f_equal; auto. Qed.

Lemma upd_overflow {A} i (a : A) l : length l <= i -> upd i a l = l.
Proof. revert i; induction l; destruct i; simpl; intros; auto; try lia. f_equal; apply IHl; lia. Qed.

Lemma upd_app_l {A} i (a : A) l l' : i < length l -> upd i a (l ++ l') = upd i a l ++ l'.
Proof. revert i; induction l; destruct i; simpl; intros; auto; try lia. f_equal; apply IHl; lia. Qed.

Lemma upd_app_r {A} i (a : A) l l' : length l <= i -> upd i a (l ++ l') = l ++ upd (i - length l) a l'.
Proof.
  revert i; induction l; destruct i; simpl; intros; auto; try lia. f_equal; apply IHl; lia.
Qed.

Lemma list_ext {A} (l l' : list A) d :
  length l = length l' -> (forall i, i < length l -> nth i l d = nth i l' d) -> l = l'.
Proof.
  revert l'; induction l; destruct l'; simpl; intros; try lia; auto.
  f_equal. apply (H0 0); lia. apply IHl; auto. intros i Hi. apply (H0 (S i)); lia.
Qed.

Lemma foldR_app {A S} (f : S -> A -> Res S) l1 l2 s :
  foldR f (l1 ++ l2) s = bindR (foldR f l1 s) (foldR f l2).
Proof. revert s; induction l1; simpl; intros; auto. destruct (f s a); simpl; auto. Qed.

Lemma nth_map_seq {A} (f : nat -> A) n i d : i < n -> nth i (map f (seq 0 n)) d = f i.
Proof.
  intros. rewrite (nth_indep _ d (f 0)) by (rewrite map_length, seq_length; lia).
  rewrite map_nth, seq_nth; auto.
Qed.

Lemma nth_repeat_lt {A} (a d : A) n i : i < n -> nth i (repeat a n) d = a.
Proof. revert i; induction n; destruct i; simpl; intros; auto; try lia. apply IHn; lia. Qed.

Lemma bindR_Ok {A B} (m : Res A) (f : A -> Res B) b :
  bindR m f = Ok b -> exists a, m = Ok a /\ f a = Ok b.
Proof. destruct m; simpl; intros; try discriminate. eauto. Qed.
