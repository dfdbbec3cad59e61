(** Solvers which try all sets of edges: the contracts of the libraries can be kept. *)
Require Import List Bool Arith ZArith QArith Lqa Lia.
From Verif Require Import Base BaseProofs GraphSpec GraphProofs MatchingModel MatchingSpec MatchingComp.
Import ListNotations.
Open Scope nat_scope.

Fixpoint all_bits (k : nat) : list (list bool) :=
  match k with O => [[]] | S k => flat_map (fun l => [false :: l; true :: l]) (all_bits k) end.
Lemma all_bits_in k : forall l, length l = k -> In l (all_bits k).
Proof.
  induction k as [|k IH]; intros l L; [destruct l; [left; auto|discriminate]|]. destruct l as [|b l]; [discriminate|]. injection L as L.
  cbn [all_bits]. apply in_flat_map. exists l. split; auto. destruct b; cbn; auto.
Qed.
Definition cheapest_of {A} (cost : A -> Q) (l : list A) : option A :=
  fold_right (fun a b => match b with None => Some a | Some c => if Qle_bool (cost a) (cost c) then Some a else Some c end) None l.
Lemma cheapest_of_ok {A} (cost : A -> Q) l : l <> [] -> exists a, cheapest_of cost l = Some a /\ In a l /\ forall b, In b l -> (cost a <= cost b)%Q.
Proof.
  induction l as [|a l IH]; [congruence|]. intros _. cbn [cheapest_of fold_right]. fold (cheapest_of cost l).
  destruct l as [|b l]; [exists a; split; [auto|]; split; [left; auto|]; intros c [<-|[]]; apply Qle_refl|].
  destruct (IH ltac:(discriminate)) as (c & -> & I & M). destruct (Qle_bool (cost a) (cost c)) eqn:Q.
  - apply Qle_bool_iff in Q. exists a. split; auto. split; [left; auto|]. intros x [<-|J]; [apply Qle_refl|]. eapply Qle_trans; eauto.
  - exists c. split; auto. split; [right; auto|]. intros x [<-|J]; auto. destruct (Qlt_le_dec (cost c) (cost a)) as [Z|Z]; [apply Qlt_le_weak; auto|].
    apply Qle_bool_iff in Z. congruence.
Qed.

(** * PyMatching *)
Definition pm_solvesb (g : pm_graph) (syn : list bool) (sel : nat -> bool) : bool :=
  forallb (fun v => existsb (Nat.eqb v) (pm_bound g) ||
    Bool.eqb (parity (map (fun i => sel i && pm_end (pm_nth g i) v) (seq 0 (length (pm_edges g))))) (nth v syn false))
    (seq 0 (length syn) ++ flat_map (fun e => [pe_a e; pe_b e]) (pm_edges g)).
Lemma pm_solvesb_ok g syn sel : pm_solvesb g syn sel = true <-> pm_solves g syn sel.
Proof.
  unfold pm_solvesb. rewrite forallb_forall. split.
  - intros H v NB. destruct (existsb (Nat.eqb v) (seq 0 (length syn) ++ flat_map (fun e => [pe_a e; pe_b e]) (pm_edges g))) eqn:X.
    + apply existsb_exists in X. destruct X as (v' & I & Q). apply Nat.eqb_eq in Q. subst v'. specialize (H v I). apply orb_true_iff in H. destruct H as [H|H].
      * exfalso. apply NB. apply existsb_exists in H. destruct H as (v' & J & Q). apply Nat.eqb_eq in Q. subst; auto.
      * apply Bool.eqb_prop in H. auto.
    + assert (NI : ~ In v (seq 0 (length syn) ++ flat_map (fun e => [pe_a e; pe_b e]) (pm_edges g))).
      { intros I. apply not_true_iff_false in X. apply X. apply existsb_exists. exists v. split; auto. apply Nat.eqb_refl. }
      rewrite in_app_iff, in_seq in NI. rewrite (nth_overflow syn) by lia. apply parity_false. intros i I. apply in_seq in I.
      assert (J : In (pm_nth g i) (pm_edges g)) by (apply nth_In; lia). unfold pm_end.
      rewrite (proj2 (Nat.eqb_neq _ _)), (proj2 (Nat.eqb_neq _ _)); [apply andb_false_r| |]; intros Z; apply NI; right; apply in_flat_map; exists (pm_nth g i); cbn; auto.
  - intros H v _. destruct (existsb (Nat.eqb v) (pm_bound g)) eqn:X; auto. cbn [orb]. rewrite H; [apply Bool.eqb_reflx|].
    intros I. apply not_true_iff_false in X. apply X. apply existsb_exists. exists v. split; auto. apply Nat.eqb_refl.
Qed.

Definition pm_brute (g : pm_graph) (syn : list bool) : Res (list bool) :=
  match cheapest_of (fun l => pm_total g (bits l)) (filter (fun l => pm_solvesb g syn (bits l)) (all_bits (length (pm_edges g)))) with
  | None => Err ValueError
  | Some l => Ok (map (fun f => parity (map (fun i => bits l i && (pe_fault (pm_nth g i) =? f)) (seq 0 (length (pm_edges g))))) (seq 0 (pm_faults g)))
  end.

Lemma bits_map (sel : nat -> bool) k i : i < k -> bits (map sel (seq 0 k)) i = sel i.
Proof. intros L. unfold bits. apply nth_map_seq; auto. Qed.
Lemma pm_solves_ext g syn sel sel' : (forall i, i < length (pm_edges g) -> sel i = sel' i) -> pm_solves g syn sel -> pm_solves g syn sel'.
Proof. intros H S v N. rewrite <- (S v N). apply parity_ext. intros i I. apply in_seq in I. rewrite H; auto; lia. Qed.

Theorem pm_brute_ok : pm_contract pm_brute.
Proof.
  intros g syn _ (sel & SO). unfold pm_brute. set (k := length (pm_edges g)).
  assert (IN : forall sel, pm_solves g syn sel -> In (map sel (seq 0 k)) (filter (fun l => pm_solvesb g syn (bits l)) (all_bits k))).
  { intros s H. apply filter_In. split; [apply all_bits_in; rewrite map_length, seq_length; auto|]. apply pm_solvesb_ok.
    apply (pm_solves_ext g syn s); auto. intros i L. rewrite bits_map by auto. auto. }
  destruct (cheapest_of_ok (fun l => pm_total g (bits l)) (filter (fun l => pm_solvesb g syn (bits l)) (all_bits k))) as (l & -> & I & M).
  { intros Z. specialize (IN sel SO). rewrite Z in IN. destruct IN. }
  exists (bits l). split; [apply filter_In in I; apply pm_solvesb_ok; tauto|]. split; [|reflexivity].
  intros s H. eapply Qle_trans; [apply (M _ (IN s H))|]. apply Qle_lteq. right. unfold pm_total. apply qsum_ext. intros i J. apply in_seq in J.
  rewrite bits_map by (unfold k; lia). reflexivity.
Qed.

(** * Fusion Blossom *)
Definition fb_solvesb (g : fb_graph) (syn : list nat) (sel : nat -> bool) : bool :=
  forallb (fun v => existsb (Nat.eqb v) (fb_virtual g) ||
    Bool.eqb (parity (map (fun i => sel i && fb_end (fb_nth g i) v) (seq 0 (length (fb_edges g))))) (existsb (Nat.eqb v) syn))
    (syn ++ flat_map (fun e => [fst (fst e); snd (fst e)]) (fb_edges g)).
Lemma fb_solvesb_ok g syn sel : fb_solvesb g syn sel = true <-> fb_solves g syn sel.
Proof.
  unfold fb_solvesb. rewrite forallb_forall. split.
  - intros H v NB. destruct (existsb (Nat.eqb v) (syn ++ flat_map (fun e => [fst (fst e); snd (fst e)]) (fb_edges g))) eqn:X.
    + apply existsb_exists in X. destruct X as (v' & I & Q). apply Nat.eqb_eq in Q. subst v'. specialize (H v I). apply orb_true_iff in H. destruct H as [H|H].
      * exfalso. apply NB. apply existsb_exists in H. destruct H as (v' & J & Q). apply Nat.eqb_eq in Q. subst; auto.
      * apply Bool.eqb_prop in H. auto.
    + assert (NI : ~ In v (syn ++ flat_map (fun e => [fst (fst e); snd (fst e)]) (fb_edges g))).
      { intros I. apply not_true_iff_false in X. apply X. apply existsb_exists. exists v. split; auto. apply Nat.eqb_refl. }
      rewrite in_app_iff in NI. destruct (existsb (Nat.eqb v) syn) eqn:Y; [exfalso; apply NI; left; apply existsb_exists in Y; destruct Y as (v' & J & Q); apply Nat.eqb_eq in Q; subst; auto|].
      apply parity_false. intros i I. apply in_seq in I.
      assert (J : In (fb_nth g i) (fb_edges g)) by (apply nth_In; lia). unfold fb_end.
      rewrite (proj2 (Nat.eqb_neq _ _)), (proj2 (Nat.eqb_neq _ _)); [apply andb_false_r| |]; intros Z; apply NI; right; apply in_flat_map; exists (fb_nth g i); cbn; auto.
  - intros H v _. destruct (existsb (Nat.eqb v) (fb_virtual g)) eqn:X; auto. cbn [orb]. rewrite H; [apply Bool.eqb_reflx|].
    intros I. apply not_true_iff_false in X. apply X. apply existsb_exists. exists v. split; auto. apply Nat.eqb_refl.
Qed.

Definition fb_brute (g : fb_graph) (syn er : list nat) : Res (list nat) :=
  match cheapest_of (fun l => fb_total g er (bits l)) (filter (fun l => fb_solvesb g syn (bits l)) (all_bits (length (fb_edges g)))) with
  | None => Err ValueError
  | Some l => Ok (filter (bits l) (seq 0 (length (fb_edges g))))
  end.

Theorem fb_brute_ok : fb_contract fb_brute.
Proof.
  intros g syn er _ (sel & SO). unfold fb_brute. set (k := length (fb_edges g)).
  assert (EXT : forall s s', (forall i, i < k -> s i = s' i) -> fb_solves g syn s -> fb_solves g syn s').
  { intros s s' H S v N. rewrite <- (S v N). apply parity_ext. intros i I. apply in_seq in I. rewrite H; auto; unfold k; lia. }
  assert (TOT : forall s s', (forall i, i < k -> s i = s' i) -> (fb_total g er s == fb_total g er s')%Q).
  { intros s s' H. apply qsum_ext. intros i I. apply in_seq in I. rewrite H by (unfold k; lia). reflexivity. }
  assert (IN : forall sel, fb_solves g syn sel -> In (map sel (seq 0 k)) (filter (fun l => fb_solvesb g syn (bits l)) (all_bits k))).
  { intros s H. apply filter_In. split; [apply all_bits_in; rewrite map_length, seq_length; auto|]. apply fb_solvesb_ok.
    apply (EXT s); auto. intros i L. rewrite bits_map by auto. auto. }
  destruct (cheapest_of_ok (fun l => fb_total g er (bits l)) (filter (fun l => fb_solvesb g syn (bits l)) (all_bits k))) as (l & -> & I & M).
  { intros Z. specialize (IN sel SO). rewrite Z in IN. destruct IN. }
  eexists. split; [reflexivity|]. cbv zeta.
  assert (SEL : forall i, i < k -> bits l i = existsb (Nat.eqb i) (filter (bits l) (seq 0 k))).
  { intros i L. symmetry. destruct (bits l i) eqn:B.
    - apply existsb_exists. exists i. split; [apply filter_In; split; [apply in_seq; lia|auto]|apply Nat.eqb_refl].
    - apply not_true_iff_false. intros X. apply existsb_exists in X. destruct X as (j & J & Q). apply Nat.eqb_eq in Q. subst j. apply filter_In in J. destruct J; congruence. }
  split; [apply (EXT (bits l)); auto; apply filter_In in I; apply fb_solvesb_ok; tauto|].
  intros s H. rewrite <- (TOT (bits l)) by auto. eapply Qle_trans; [apply (M _ (IN s H))|]. apply Qle_lteq. right. apply TOT. intros i L. apply bits_map; auto.
Qed.
