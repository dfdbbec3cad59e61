(** Connected components and the sets that no edge leaves. *)
Require Import List Bool Arith Lia Relations.
From Verif Require Import GraphSpec GraphProofs.
Import ListNotations.

Section C.
Variables (n : nat) (edges : list (list nat)).
Hypothesis WF : well_formed n edges.
Variable allowed : nat -> Prop.
Hypothesis dec : forall i, {allowed i} + {~ allowed i}.

Notation connected := (connected edges allowed).

Lemma connected_sym u v : connected u v -> connected v u.
Proof.
  induction 1 as [x y (i & A & [E|E])|x|x y z _ IH1 _ IH2].
  - apply rt_step. exists i. auto.
  - apply rt_step. exists i. auto.
  - apply rt_refl.
  - eapply rt_trans; eauto.
Qed.

(** Labels which are equal exactly for connected vertices. *)
Lemma component_labels : exists lab : nat -> nat,
  forall u v, lab u = lab v <-> connected u v.
Proof.
  assert (IND : forall k, k <= length edges -> exists lab : nat -> nat,
    (forall u v, lab u = lab v -> connected u v) /\
    (forall i u v, i < k -> allowed i -> nth_error edges i = Some [u; v] -> lab u = lab v)).
  { induction k as [|k IH]; intros L.
    - exists (fun v => v). split; [intros u v ->; apply rt_refl|intros; lia].
    - destruct IH as (lab & H1 & H2); [lia|].
      assert (KEEP : (forall u v, allowed k -> nth_error edges k = Some [u; v] -> lab u = lab v) ->
        exists lab : nat -> nat, (forall u v, lab u = lab v -> connected u v) /\
        (forall i u v, i < S k -> allowed i -> nth_error edges i = Some [u; v] -> lab u = lab v)).
      { intros X. exists lab. split; auto. intros i u v Li A E.
        destruct (Nat.eq_dec i k) as [->|]; [auto|]. apply (H2 i); auto. lia. }
      destruct (dec k) as [A|NA]; [|apply KEEP; tauto].
      destruct (edge_cases n edges WF k L) as [(a & E & _)|(a & b & E & _ & _ & _)];
        [apply KEEP; congruence|].
      exists (fun w => if lab w =? lab b then lab a else lab w). split.
      + assert (AB : connected a b) by (apply rt_step; exists k; auto).
        intros u v X. destruct (Nat.eqb_spec (lab u) (lab b)) as [U|U],
          (Nat.eqb_spec (lab v) (lab b)) as [V|V].
        * apply H1. congruence.
        * apply rt_trans with b; [apply H1; auto|]. apply rt_trans with a; [|apply H1; auto].
          apply connected_sym; auto.
        * apply rt_trans with a; [apply H1; auto|]. apply rt_trans with b; [auto|].
          apply H1; auto.
        * apply H1; auto.
      + intros i u v Li Ai Ei. destruct (Nat.eq_dec i k) as [->|D].
        * rewrite E in Ei. injection Ei as -> ->. rewrite Nat.eqb_refl.
          destruct (lab u =? lab v); auto.
        * rewrite (H2 i u v) by (auto; lia). auto. }
  destruct (IND (length edges) (le_n _)) as (lab & H1 & H2).
  exists lab. intros u v. split; [auto|].
  induction 1 as [x y (i & A & [E|E])|x|x y z _ IH1 _ IH2]; [| | |congruence]; auto.
  - eapply H2; eauto. apply nth_error_Some. congruence.
  - symmetry. eapply H2; eauto. apply nth_error_Some. congruence.
Qed.

(** A set that no allowed edge leaves is a union of components. *)
Lemma isolated_connected S u v : isolated edges allowed S -> connected u v -> S u = S v.
Proof.
  intros I. induction 1 as [x y (i & A & [E|E])|x|x y z _ IH1 _ IH2]; auto; try congruence.
  - specialize (I i A). rewrite (nth_error_nth _ _ _ E) in I. auto.
  - specialize (I i A). rewrite (nth_error_nth _ _ _ E) in I. auto.
Qed.

(** The condition on components is the condition on isolated sets. *)
Theorem components_even syn :
  even_components n edges allowed syn <->
  forall C, component edges allowed C -> 
    (exists i v, allowed i /\ nth_error edges i = Some [v] /\ C v = true) \/
    parity_on n syn C = false.
Proof.
  split.
  - intros EV C (r & HC).
    (* a dangling edge? *)
    set (test := fun i => if dec i then match nth i edges [] with [v] => C v | _ => false end
                          else false).
    destruct (existsb test (seq 0 (length edges))) eqn:B.
    + left. apply existsb_exists in B. destruct B as (i & I & B). unfold test in B.
      apply in_seq in I. destruct (dec i) as [A|]; [|discriminate].
      destruct (edge_cases n edges WF i) as [(a & E & _)|(a & b & E & _ & _ & _)]; [lia| |];
        rewrite (nth_error_nth _ _ _ E) in B; [|discriminate].
      exists i, a. auto.
    + right. apply EV. intros i A.
      destruct (Nat.lt_ge_cases i (length edges)) as [L|L].
      2: { rewrite nth_overflow by auto. auto. }
      destruct (edge_cases n edges WF i L) as [(a & E & _)|(a & b & E & _ & _ & _)];
        rewrite (nth_error_nth _ _ _ E).
      * destruct (C a) eqn:Ca; auto.
        assert (existsb test (seq 0 (length edges)) = true); [|congruence].
        apply existsb_exists. exists i. split; [apply in_seq; lia|]. unfold test.
        destruct (dec i); [|tauto]. rewrite (nth_error_nth _ _ _ E). auto.
      * assert (AB : connected a b) by (apply rt_step; exists i; auto).
        destruct (C a) eqn:Ca, (C b) eqn:Cb; auto; exfalso.
        -- assert (C b = true); [|congruence]. apply HC. eapply rt_trans; [apply HC; eauto|auto].
        -- assert (C a = true); [|congruence]. apply HC. eapply rt_trans; [apply HC; eauto|].
           apply connected_sym; auto.
  - intros H S I. destruct component_labels as (lab & HL).
    (* sum over the labels *)
    assert (EX : exists N, forall v, v < n -> lab v < N).
    { clear. induction n as [|k [N IH]].
      - exists 0. intros; lia.
      - exists (N + Datatypes.S (lab k)). intros v L. destruct (Nat.eq_dec v k) as [->|]; [lia|].
        specialize (IH v). lia. }
    destruct EX as (N & HN). unfold parity_on.
    rewrite (map_ext_in _ (fun v => parity (map (fun l => (lab v =? l) && (S v && syn v)) (seq 0 N)))).
    2: { intros v IV. apply in_seq in IV.
      rewrite parity_one with (a := lab v).
      - rewrite Nat.eqb_refl. reflexivity.
      - apply seq_NoDup.
      - apply in_seq. specialize (HN v). lia.
      - intros j _ D. apply Nat.eqb_neq in D. rewrite Nat.eqb_sym, D. reflexivity. }
    rewrite parity_swap.
    apply parity_false. intros l _.
    destruct (existsb (fun v => lab v =? l) (seq 0 n)) eqn:B.
    2: { apply parity_false. intros v IV.
      destruct (lab v =? l) eqn:EL; auto.
      assert (existsb (fun v => lab v =? l) (seq 0 n) = true); [|congruence].
      apply existsb_exists. eauto. }
    apply existsb_exists in B. destruct B as (r & Ir & Er). apply Nat.eqb_eq in Er.
    destruct (H (fun v => lab v =? l)) as [(i & v & A & E & Cv)|E].
    + exists r. intros v. rewrite Nat.eqb_eq, <- HL. intuition congruence.
    + apply Nat.eqb_eq in Cv. specialize (I i A) as X.
      rewrite (nth_error_nth _ _ _ E) in X.
      apply parity_false. intros w _. destruct (Nat.eqb_spec (lab w) l); auto.
      rewrite (isolated_connected S w v), X; auto. apply HL. congruence.
    + destruct (S r) eqn:Sr.
      * unfold parity_on in E. rewrite <- E. f_equal. apply map_ext. intros w.
        destruct (Nat.eqb_spec (lab w) l); auto.
        rewrite (isolated_connected S w r), Sr; auto. apply HL. congruence.
      * apply parity_false. intros w _. destruct (Nat.eqb_spec (lab w) l); auto.
        rewrite (isolated_connected S w r), Sr; auto. apply HL. congruence.
Qed.

End C.
