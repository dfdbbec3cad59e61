(** C81: Gaussian errors.  C82: cached indices of the full code. *)
Require Import List Bool Arith Lia ZArith QArith Lqa.
From Verif Require Import Base BaseProofs LatticeModel LatticeSpec LatticeProofs LatticeOps LatticeEdit CodesModel CacheModel CacheProofs.
Import ListNotations.
Open Scope nat_scope.

(** The library draws [n] standard variates between bounds of which the first is the smaller one; nothing is said about
    other bounds. *)
Definition draws (standard : Q -> Q -> nat -> list Q) : Prop :=
  forall a b n, (a < b)%Q -> length (standard a b n) = n /\ forall x, In x (standard a b n) -> (a <= x /\ x <= b)%Q.

Lemma in_range a : negb (Qle_bool 0 a && Qle_bool a 1) = false <-> (0 <= a /\ a <= 1)%Q.
Proof. rewrite negb_false_iff, andb_true_iff, !Qle_bool_iff. tauto. Qed.
(** One probability for each qubit, for means and positive deviations up to one. *)
Theorem C81_gaussian standard mean dev n : draws standard -> (0 <= mean <= 1)%Q -> (0 < dev <= 1)%Q ->
  exists ps, generate_gaussian_errors standard mean dev n = Ok ps /\ length ps = n /\ forall p, In p ps -> (0 <= p <= 1)%Q.
Proof.
  intros D M [S0 S1]. unfold generate_gaussian_errors, gaussian_distribution. rewrite (proj2 (in_range mean) M), (proj2 (in_range dev)) by lra.
  assert (E : Qeq_bool dev 0 = false) by (apply not_true_iff_false; rewrite Qeq_bool_iff; lra). rewrite E. cbn [bindR]. eexists. split; [reflexivity|]. unfold rvs. cbn [t_lo t_hi t_loc t_scale].
  destruct (D ((0 - mean) / dev)%Q ((1 - mean) / dev)%Q n) as [L B].
  { unfold Qdiv. apply Qmult_lt_r; [apply Qinv_lt_0_compat; auto|lra]. }
  split; [rewrite map_length; auto|]. intros p I. apply in_map_iff in I. destruct I as (x & <- & I). destruct (B x I) as [B1 B2].
  assert (X1 : (dev * ((0 - mean) / dev) == 0 - mean)%Q) by (field; lra). assert (X2 : (dev * ((1 - mean) / dev) == 1 - mean)%Q) by (field; lra).
  apply (Qmult_le_l _ _ dev S0) in B1, B2. lra.
Qed.
Print Assumptions C81_gaussian.
(** No probability is cut off: each one comes from a standard variate between the bounds. *)
Theorem C81_reached mean dev p t : (0 <= p <= 1)%Q -> gaussian_distribution mean dev = Ok t ->
  exists x, (t_lo t <= x /\ x <= t_hi t /\ t_loc t + t_scale t * x == p)%Q.
Proof.
  intros P. unfold gaussian_distribution. destruct (negb _) eqn:M; [discriminate|]. destruct (negb (Qle_bool 0 dev && _)) eqn:S; [discriminate|]. destruct (Qeq_bool dev 0) eqn:Z; [discriminate|]. intros [= <-]. cbn [t_lo t_hi t_loc t_scale].
  apply in_range in M, S. assert (NZ : ~ (dev == 0)%Q) by (rewrite <- Qeq_bool_iff; congruence). assert (D : (0 < dev)%Q) by (destruct (Qlt_le_dec 0 dev); [auto|exfalso; apply NZ; lra]).
  exists ((p - mean) / dev)%Q. assert (I : (0 <= / dev)%Q) by (apply Qlt_le_weak, Qinv_lt_0_compat; auto).
  split; [|split]; [unfold Qdiv; apply Qmult_le_compat_r; [lra|auto]|unfold Qdiv; apply Qmult_le_compat_r; [lra|auto]|field; auto].
Qed.
Print Assumptions C81_reached.
(** ValueError is raised exactly for numbers which are not between 0 and 1. *)
Theorem C81_refused standard mean dev n :
  generate_gaussian_errors standard mean dev n = Err ValueError <-> ~ ((0 <= mean <= 1)%Q /\ (0 <= dev <= 1)%Q).
Proof.
  unfold generate_gaussian_errors, gaussian_distribution. destruct (negb _) eqn:M; [|destruct (negb (Qle_bool 0 dev && _)) eqn:S].
  - split; [|auto]. intros _ [H _]. apply in_range in H. congruence.
  - split; [|auto]. intros _ [_ H]. apply in_range in H. congruence.
  - apply in_range in M, S. destruct (Qeq_bool dev 0); cbn [bindR]; (split; [discriminate|intros H; exfalso; apply H; auto]).
Qed.
Print Assumptions C81_refused.
(** The documented range includes the deviation zero, which is accepted and then divided by. *)
Theorem C81_zero_refuted standard mean n : (0 <= mean <= 1)%Q -> generate_gaussian_errors standard mean 0 n = Err ZeroDivisionError.
Proof. intros M. unfold generate_gaussian_errors, gaussian_distribution. rewrite (proj2 (in_range mean) M). reflexivity. Qed.
Print Assumptions C81_zero_refuted.
(** A library which returns the lower bound, the middle and the upper bound in turn. *)
Definition three (a b : Q) (n : nat) : list Q := map (fun k => match k mod 3 with O => a | S O => ((a + b) / 2)%Q | _ => b end) (seq 0 n).
Example C81_example :
  draws three /\
  match generate_gaussian_errors three (1 # 10) (1 # 20) 4 with Ok ps => map Qred ps = [0; 1 # 2; 1; 0]%Q | Err _ => False end /\
  generate_gaussian_errors three 2 (1 # 20) 4 = Err ValueError /\ generate_gaussian_errors three (1 # 10) 2 4 = Err ValueError /\ generate_gaussian_errors three (1 # 10) 0 4 = Err ZeroDivisionError.
Proof.
  split; [|vm_compute; auto]. intros a b n L. unfold three. split; [rewrite map_length, seq_length; auto|]. intros x I. apply in_map_iff in I. destruct I as (k & <- & _).
  assert (X : ((a + b) / 2 == a + (b - a) * (1 # 2))%Q) by field. destruct (k mod 3) as [|[|m]]; try (rewrite X); lra.
Qed.

(** * Cached indices *)
(** The dictionary has the positions of the data qubits and of the ancillas, each with the number of the qubit. *)
Theorem C82_cache l p q : reachable l -> indexed l ->
  (index_get (cache_full_code_indices l) p = Some q <->
   exists k i, nth_error (l_data l ++ l_stabs l) k = Some i /\ v_pos (l_heap l i) = p /\ q = Some k).
Proof.
  intros R X. pose proof (reachable_consistent l R) as C. rewrite (cache_get l p q C). destruct X as (_ & _ & _ & EQ & NUM). split.
  - intros (i & I & N & P & V). rewrite EQ, app_assoc in I. apply in_app_or in I. destruct I as [I|I].
    + destruct (In_nth_error _ _ I) as [k K]. exists k, i. split; [auto|]. split; [auto|]. rewrite <- V. apply NUM. rewrite EQ, app_assoc, nth_error_app1; [auto|]. apply nth_error_Some. congruence.
    + rewrite (cons_logicals _ C) in I. apply filter_In in I. destruct I as [_ I]. congruence.
  - intros (k & i & K & P & ->). assert (KE : nth_error (l_equbits l) k = Some i) by (rewrite EQ, app_assoc, nth_error_app1; [auto|apply nth_error_Some; congruence]).
    exists i. split; [eapply nth_error_In; eauto|]. split; [|split; [auto|apply NUM; auto]].
    apply nth_error_In in K. apply in_app_or in K. rewrite (cons_data _ C), (cons_stabs _ C) in K. unfold is_logical. destruct K as [K|K]; apply filter_In in K; destruct K as [_ K]; unfold is_data, is_stab in K; destruct (v_kind (l_heap l i)); auto; discriminate.
Qed.
Print Assumptions C82_cache.
(** It serves its purpose: after fabrication errors of any kind, whether an exception has been raised or not, the position
    of each remaining qubit gives the number which the qubit had in the full code. *)
Theorem C82_fabrication l qubits gates stabs keep_gauge join l' e i : reachable l -> indexed l ->
  apply_fabrication_errors qubits gates stabs keep_gauge join l = (l', e) -> In i (l_data l' ++ l_stabs l') ->
  exists k, nth_error (l_data l ++ l_stabs l) k = Some i /\ index_get (cache_full_code_indices l) (v_pos (l_heap l' i)) = Some (Some k).
Proof.
  intros R X F I. assert (R' : reachable l') by (pose proof (reach_op l (OFabrication qubits gates stabs keep_gauge join) R Logic.I) as Y; cbn [run_op] in Y; rewrite F in Y; exact Y).
  pose proof (reachable_consistent l R) as C. pose proof (reachable_consistent l' R') as C'.
  pose proof (quiet_fabrication qubits gates stabs keep_gauge join l) as Q. rewrite F in Q. cbn [fst] in Q. destruct Q as (QP & QK & QV).
  assert (J : In i (l_data l ++ l_stabs l)).
  { apply in_app_or in I. apply in_or_app. rewrite (cons_data _ C'), (cons_stabs _ C') in I. rewrite (cons_data _ C), (cons_stabs _ C). unfold is_data, is_stab in *.
    destruct I as [I|I]; apply filter_In in I; destruct I as [I K]; rewrite QK in K; [left|right]; apply filter_In; split; auto. }
  destruct (In_nth_error _ _ J) as [k K]. exists k. split; [auto|]. apply C82_cache; auto. exists k, i. auto.
Qed.
Print Assumptions C82_fabrication.

(** The planar code of size 2 without its middle qubit: the remaining qubits have other numbers, but the cached ones are found. *)
Definition ca_run (qubits : list locator) : Res (index_dict * list (option nat * option (option nat))) :=
  do l <- planar_lattice 2 nwes;
  let c := cache_full_code_indices l in
  match apply_fabrication_errors qubits [] [] None None l with
  | (l', None) => Ok (c, map (fun i => (v_equbit (l_heap l' i), index_get c (v_pos (l_heap l' i)))) (l_data l' ++ l_stabs l'))
  | (_, Some e) => Err e
  end.
Example C82_example :
  ca_run [AtPos (1, 1)%Z] =
    Ok ([((0, 0)%Z, Some 0); ((0, 2)%Z, Some 1); ((1, 1)%Z, Some 2); ((2, 0)%Z, Some 3); ((2, 2)%Z, Some 4);
         ((0, 1)%Z, Some 5); ((1, 0)%Z, Some 6); ((1, 2)%Z, Some 7); ((2, 1)%Z, Some 8)],
        [(Some 0, Some (Some 0)); (Some 1, Some (Some 1)); (Some 2, Some (Some 3)); (Some 3, Some (Some 4));
         (Some 4, Some (Some 5)); (Some 5, Some (Some 6))]).
Proof. vm_compute. reflexivity. Qed.
