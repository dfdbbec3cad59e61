(** Property C76: union find with split edges. *)
Require Import List Bool Arith Lia QArith.
From Verif Require Import Base BaseProofs GraphSpec GraphProofs GraphComponents ErasureModel ErasureProofs ErasureForest
  UnionFindModel UnionFindTree UnionFindInv UnionFindOps UnionFindInit UnionFindStep UnionFindFinal SplitModel SplitProofs Props_UnionFind.
Import ListNotations.
Open Scope nat_scope.

(** * C76 Union find with split edges *)
(** Graph objects of a class which splits edges: new, after removing weights, or after a call. *)
Inductive split_object (n : nat) (edges : list (list nat)) : ugraph -> Prop :=
| split_new u : new_split n edges = Ok u -> split_object n edges u
| split_no_weights b u : split_object n edges u -> split_object n edges (unset_weights b u)
| split_used fuel erased syndrome u u' corr : split_object n edges u ->
    (forall i, In i erased -> i < length edges) -> length syndrome = n ->
    split_decode fuel n edges erased syndrome u = Ok (u', corr) -> split_object n edges u'.

Lemma split_more n edges er syn u fuel k r : split_decode fuel n edges er syn u = Ok r -> split_decode (fuel + k) n edges er syn u = Ok r.
Proof.
  unfold split_decode, split_union_find. destruct (assertR _); [|discriminate]. cbn [bindR]. unfold union_find. destruct (init_graph _ _ u) as [u1|]; [|discriminate]. cbn [bindR].
  destruct (steps fuel u1) as [u2|] eqn:E; [|discriminate]. rewrite (steps_more _ _ _ E). auto.
Qed.
Lemma split_decode_ok n edges er syn u fuel : well_formed n edges -> uready (n + length edges) (halves n edges) u -> length syn = n -> (forall e, In e er -> e < length edges) ->
  total (fresh (u_grow u)) < fuel ->
  (split_decode fuel n edges er syn u = Err AssertionError /\ ~ even_components n edges (fun _ => True) (bits syn)) \/
  (exists u' corr, split_decode fuel n edges er syn u = Ok (u', corr) /\ uready (n + length edges) (halves n edges) u' /\ length corr = length edges /\ explains n edges (bits corr) (bits syn)).
Proof.
  intros WF R LS LE F. unfold split_decode. destruct (split_union_find_ok n edges WF er syn u fuel R LS LE F) as [[E NE]|(u1 & sel & E & R1 & SE & SM & ND & EV)]; rewrite E; cbn [bindR fst snd]; [left; auto|right].
  destruct (erasure_decode_ok n edges sel syn WF SM LS) as (corr & E2 & LC & SS & X). rewrite E2. cbn [bindR]. exists u1, corr. auto.
Qed.
Lemma split_object_ready n edges u : well_formed n edges -> split_object n edges u -> uready (n + length edges) (halves n edges) u.
Proof.
  intros WF. induction 1 as [u E|b u _ IH|fuel er syn u u' corr _ IH LE LS E].
  - destruct (new_split_ready n edges WF) as (u' & E' & R & _). congruence.
  - apply unset_weights_ready; auto using halves_wf.
  - set (N := S (total (fresh (u_grow u)))).
    destruct (split_decode_ok n edges er syn u (fuel + N) WF IH LS LE) as [[X _]|(u1 & c1 & X & R & _)]; [unfold N; lia| |];
      rewrite (split_more _ _ _ _ _ _ N _ E) in X; [discriminate|congruence].
Qed.

(** The growth of the halves of the edges ends.  If some selection of edges explains the syndrome,
    the edges with two complete halves contain the erased ones, and each component of them has a
    dangling edge or an even number of syndrome bits.  If there is none, [AssertionError] is
    raised. *)
Theorem C76_split_union_find : forall n edges u, well_formed n edges -> split_object n edges u ->
  exists bound, forall erased syndrome fuel,
    (forall i, In i erased -> i < length edges) -> length syndrome = n -> bound <= fuel ->
    (explainable n edges (fun _ => True) (bits syndrome) /\
      exists u' grown, split_union_find fuel (length edges) erased syndrome u = Ok (u', grown) /\
        (forall i, In i erased -> In i grown) /\ NoDup grown /\
        (forall i, In i grown -> i < length edges) /\
        (forall C, component edges (fun i => In i grown) C ->
           (exists i v, In i grown /\ nth_error edges i = Some [v] /\ C v = true) \/
           parity_on n (bits syndrome) C = false)) \/
     (~ explainable n edges (fun _ => True) (bits syndrome) /\
      split_union_find fuel (length edges) erased syndrome u = Err AssertionError).
Proof.
  intros n edges u WF O. apply (split_object_ready n edges u WF) in O.
  exists (S (total (fresh (u_grow u)))). intros er syn fuel LE LS F.
  destruct (split_union_find_ok n edges WF er syn u fuel O LS LE F) as [[X NE]|(u1 & sel & X & R1 & SE & SM & ND & EV)].
  - right. split; auto. rewrite (even_all n edges WF syn LS). auto.
  - left. split.
    + apply (even_all n edges WF syn LS). intros A IA. apply EV. intros i _. apply IA. auto.
    + exists u1, sel. split; [auto|]. split; [auto|]. split; [auto|]. split; [auto|].
      apply (components_even n edges WF (fun i => In i sel) (fun i => in_dec Nat.eq_dec i sel)). auto.
Qed.
Print Assumptions C76_split_union_find.

(** The decoder with split edges finds a correction for every syndrome which has one, for every
    object; a new object makes at most [4 m + 1] steps. *)
Theorem C76_split_decode : forall n edges u, well_formed n edges -> split_object n edges u ->
  exists bound, (new_split n edges = Ok u -> bound = 4 * length edges + 1) /\ forall erased syndrome fuel,
    (forall i, In i erased -> i < length edges) -> length syndrome = n -> bound <= fuel ->
    (explainable n edges (fun _ => True) (bits syndrome) /\
      exists u' corr, split_decode fuel n edges erased syndrome u = Ok (u', corr) /\ split_object n edges u' /\
        length corr = length edges /\ explains n edges (bits corr) (bits syndrome)) \/
     (~ explainable n edges (fun _ => True) (bits syndrome) /\
      split_decode fuel n edges erased syndrome u = Err AssertionError).
Proof.
  intros n edges u WF O. assert (R := split_object_ready n edges u WF O).
  exists (S (total (fresh (u_grow u)))). split.
  - intros N. destruct (new_split_ready n edges WF) as (u' & E' & _ & G). assert (u' = u) by congruence. subst u'. rewrite G, <- (halves_len n edges), total_new, halves_len. lia.
  - intros er syn fuel LE LS F. destruct (split_decode_ok n edges er syn u fuel WF R LS LE F) as [[X NE]|(u1 & corr & X & R1 & LC & EX)].
    + right. split; auto. rewrite (even_all n edges WF syn LS). auto.
    + left. split; [exists (bits corr); auto|]. exists u1, corr. split; [auto|]. split; [|auto]. eapply split_used; eauto.
Qed.
Print Assumptions C76_split_decode.

(** A new object exists for every well-formed graph. *)
Theorem C76_split_new : forall n edges, well_formed n edges -> exists u, new_split n edges = Ok u.
Proof. intros n edges WF. destruct (new_split_ready n edges WF) as (u & E & _). eauto. Qed.
Print Assumptions C76_split_new.

(** Weights, one for each edge as the decoder interface gives them, can not be set on objects with
    split edges: the assertion compares their number with the number of halves. *)
Theorem C76_split_weights_refuted : forall n edges u c ws, well_formed n edges -> split_object n edges u -> edges <> [] ->
  length ws = length edges -> (exists w, In w ws /\ ~ w == 0)%Q -> set_weights c ws u = Err AssertionError.
Proof.
  intros n edges u c ws WF O NE LW (w & Iw & Nw). destruct (split_object_ready n edges u WF O) as [UO _].
  unfold set_weights, min_nonzero. destruct (filter _ ws) as [|x l] eqn:E.
  - exfalso. assert (I : In w (filter (fun w => negb (Qeq_bool w 0)) ws)) by (apply filter_In; split; auto; destruct (Qeq_bool w 0) eqn:Q; auto; apply Qeq_bool_iff in Q; contradiction). rewrite E in I. destruct I.
  - cbn [bindR]. rewrite (uo_grow _ _ u UO), halves_len, LW. destruct (Nat.eqb_spec (length edges) (2 * length edges)) as [Q|]; [|reflexivity]. destruct edges; [congruence|]. cbn in Q. lia.
Qed.
Print Assumptions C76_split_weights_refuted.

(** The line of eight vertices of C34.  Two neighbouring bits are joined by the edge between them; with
    an erased edge and two bits at its ends nothing grows.  Without dangling edges a single bit
    has no explanation. *)
Definition split_result (n : nat) (edges : list (list nat)) (erased : list nat) (syn : list bool) : Res (list nat * list bool) :=
  do u <- new_split n edges;
  do r <- split_union_find 60 (length edges) erased syn u;
  do d <- split_decode 60 n edges erased syn (fst r);
  Ok (snd r, snd d).
Example C76_example :
  split_result 8 uf_edges [] [false; true; true; false; false; false; false; false] =
    Ok ([2], [false; false; true; false; false; false; false; false; false; false]) /\
  split_result 8 uf_edges [3] [false; false; true; true; false; false; false; false] =
    Ok ([3], [false; false; false; true; false; false; false; false; false; false]) /\
  split_result 8 uf_edges [] [true; false; false; false; false; false; true; false] =
    Ok ([0; 1; 5; 6; 7; 8; 9], [true; false; false; false; false; false; false; true; true; false]) /\
  split_result 2 [[0; 1]] [] [true; false] = Err AssertionError /\
  (do u <- new_split 2 [[0; 1]; [1]]; set_weights 2 [1; 2]%Q u) = Err AssertionError.
Proof. repeat split; vm_compute; reflexivity. Qed.
