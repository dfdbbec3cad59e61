(** Properties C34 and C35: the union-find decoder. *)
Require Import List Bool Arith Lia QArith Lqa.
From Verif Require Import Base BaseProofs GraphSpec GraphProofs GraphComponents ErasureModel
  UnionFindModel UnionFindStep UnionFindFinal.
Import ListNotations.
Open Scope nat_scope.

(** Graph objects of the decoder as they come up when it is used: a new object, weights that
    are set or removed, and the object after a call of the decoder. *)
Inductive uf_object (n : nat) (edges : list (list nat)) : ugraph -> Prop :=
| uf_new u : new_ugraph n edges = Ok u -> uf_object n edges u
| uf_weights c ws u u' : uf_object n edges u -> (0 <= c)%Q -> (forall w, In w ws -> 0 <= w)%Q ->
    set_weights c ws u = Ok u' -> uf_object n edges u'
| uf_no_weights b u : uf_object n edges u -> uf_object n edges (unset_weights b u)
| uf_used fuel erased syndrome u u' corr : uf_object n edges u ->
    (forall i, In i erased -> i < length edges) -> length syndrome = n ->
    uf_decode fuel erased syndrome u = Ok (u', corr) -> uf_object n edges u'.

Lemma uf_object_ready n edges u : well_formed n edges -> uf_object n edges u -> uready n edges u.
Proof.
  intros WF. induction 1 as [u E|c ws u u' _ IH Pc PW E|b u _ IH|fuel er syn u u' corr _ IH LE LS E].
  - destruct (new_ugraph_ready n edges WF) as (u' & E' & R & _). congruence.
  - eapply set_weights_ready; eauto.
  - apply unset_weights_ready; auto.
  - set (N := S (total (fresh (u_grow u)))).
    destruct (uf_decode_ok n edges WF er syn u (fuel + N) IH LS LE) as
      [[X _]|(u1 & c1 & X & R & _)]; [unfold N; lia| |];
      rewrite (uf_decode_more _ _ _ _ _ N E) in X; [discriminate|congruence].
Qed.

(** * C34 Union-find growth terminates with decodable clusters *)

(** A new object without weights: at most [2 m + 1] steps are made.  If some selection of edges
    explains the syndrome, the growth ends with a set of edges that contains the erased ones,
    and each component of it has a dangling edge or an even number of syndrome bits; so a
    selection of grown edges explains the syndrome.  If there is none, [AssertionError] is
    raised ("Could not find any edges to grow"). *)
Theorem C34_union_find : forall n edges erased syndrome fuel,
  well_formed n edges -> (forall i, In i erased -> i < length edges) ->
  length syndrome = n -> 2 * length edges < fuel ->
  exists u, new_ugraph n edges = Ok u /\
    ((explainable n edges (fun _ => True) (bits syndrome) /\
      exists u' grown, union_find fuel erased syndrome u = Ok (u', grown) /\
        (forall i, In i erased -> In i grown) /\ NoDup grown /\
        (forall i, In i grown -> i < length edges) /\
        (forall C, component edges (fun i => In i grown) C ->
           (exists i v, In i grown /\ nth_error edges i = Some [v] /\ C v = true) \/
           parity_on n (bits syndrome) C = false)) \/
     (~ explainable n edges (fun _ => True) (bits syndrome) /\
      union_find fuel erased syndrome u = Err AssertionError)).
Proof.
  intros n edges er syn fuel WF LE LS F.
  destruct (new_ugraph_ready n edges WF) as (u & E & R & G). exists u. split; auto.
  destruct (union_find_ok n edges WF er syn u fuel R LS LE) as
    [[X NE]|(u1 & sel & X & R1 & SE & SM & ND & EV)].
  { rewrite G, total_new. auto. }
  - right. split; auto. rewrite (even_all n edges WF syn LS). auto.
  - left. split.
    + apply (even_all n edges WF syn LS). intros A IA. apply EV. intros i _. apply IA. auto.
    + exists u1, sel. split; [auto|]. split; [auto|]. split; [auto|]. split; [auto|].
      apply (components_even n edges WF (fun i => In i sel) (fun i => in_dec Nat.eq_dec i sel)). auto.
Qed.
Print Assumptions C34_union_find.

(** The same for every object, with or without weights: there is a number of steps which is
    enough for all erasures and syndromes. *)
Theorem C34_union_find_weighted : forall n edges u, well_formed n edges -> uf_object n edges u ->
  exists bound, forall erased syndrome fuel,
    (forall i, In i erased -> i < length edges) -> length syndrome = n -> bound <= fuel ->
    (explainable n edges (fun _ => True) (bits syndrome) /\
      exists u' grown, union_find fuel erased syndrome u = Ok (u', grown) /\
        (forall i, In i erased -> In i grown) /\ NoDup grown /\
        (forall i, In i grown -> i < length edges) /\
        (forall C, component edges (fun i => In i grown) C ->
           (exists i v, In i grown /\ nth_error edges i = Some [v] /\ C v = true) \/
           parity_on n (bits syndrome) C = false)) \/
     (~ explainable n edges (fun _ => True) (bits syndrome) /\
      union_find fuel erased syndrome u = Err AssertionError).
Proof.
  intros n edges u WF O. apply (uf_object_ready n edges u WF) in O.
  exists (S (total (fresh (u_grow u)))). intros er syn fuel LE LS F.
  destruct (union_find_ok n edges WF er syn u fuel O LS LE F) as
    [[X NE]|(u1 & sel & X & R1 & SE & SM & ND & EV)].
  - right. split; auto. rewrite (even_all n edges WF syn LS). auto.
  - left. split.
    + apply (even_all n edges WF syn LS). intros A IA. apply EV. intros i _. apply IA. auto.
    + exists u1, sel. split; [auto|]. split; [auto|]. split; [auto|]. split; [auto|].
      apply (components_even n edges WF (fun i => In i sel) (fun i => in_dec Nat.eq_dec i sel)). auto.
Qed.
Print Assumptions C34_union_find_weighted.

(** The premise of the property in terms of the components of the graph. *)
Theorem C34_condition : forall n edges syndrome, well_formed n edges -> length syndrome = n ->
  (explainable n edges (fun _ => True) (bits syndrome) <->
   forall C, component edges (fun _ => True) C ->
     (exists i v, nth_error edges i = Some [v] /\ C v = true) \/
     parity_on n (bits syndrome) C = false).
Proof.
  intros n edges syn WF LS. rewrite (even_all n edges WF syn LS).
  rewrite (components_even n edges WF (fun _ => True) (fun _ => left I)).
  split; intros X C HC; destruct (X C HC) as [(i & v & Y)|Y]; auto; left; exists i, v; tauto.
Qed.
Print Assumptions C34_condition.

(** A line of eight vertices with a dangling edge at both ends and a cycle; the second call has
    weights with a zero among them. *)
Definition uf_edges : list (list nat) :=
  [[0]; [0; 1]; [1; 2]; [2; 3]; [3; 4]; [4; 5]; [5; 6]; [6; 7]; [7]; [2; 5]].
Definition uf_grown (ws : list Q) (erased : list nat) (syn : list bool) : Res (list nat) :=
  do u <- new_ugraph 8 uf_edges;
  do u <- match ws with [] => Ok u | _ => set_weights 2 ws u end;
  do r <- union_find 100 erased syn u; Ok (snd r).
Example C34_example :
  uf_grown [] [6] [false; false; false; true; true; false; false; false] = Ok [4; 6] /\
  uf_grown [] [6] [false; true; false; true; true; false; true; false] = Ok [1; 2; 3; 4; 5; 6; 9] /\
  uf_grown [5#1; 1#2; 3#1; 1#1; 2#1; 1#1; 0#1; 4#1; 1#1; 7#1]%Q []
    [false; true; false; true; false; false; false; false] = Ok [1; 2; 3; 4].
Proof. vm_compute. auto. Qed.
Example C34_example_odd : (do u <- new_ugraph 3 [[0; 1]; [1; 2]; [2; 0]];
  union_find 100 [] [true; false; false] u) = Err AssertionError.
Proof. vm_compute. reflexivity. Qed.

(** [UnionFindBase.update_weights] passes weights to the decoder without any check, so that
    they can be negative; then the growth need not end.  (The weights given to [set_syngraph]
    are checked.) *)
Definition shrinking (a b : Q) : ugraph -> Prop := fun u => exists u0,
  (do u <- new_ugraph 2 [[0]; [0; 1]; [1]];
   do u <- set_weights 2 [1; 1; -1#1]%Q u; init_graph [] [true; false] u) = Ok u0 /\
  u = set_grow [mkGrowth (Some a) 1 (Some (-1#4)%Q); mkGrowth (Some b) 1 (Some (-1#4)%Q);
                mkGrowth (Some 0%Q) 1 (Some (1#4)%Q)] u0.

Lemma shrinking_step a b u : (a <= 0)%Q -> (b <= 0)%Q -> shrinking a b u ->
  exists u', step u = Ok u' /\ shrinking (a + (-1#4)) (b + (-1#4)) u' /\ u_open u = [0].
Proof.
  intros A B (u0 & E & ->). vm_compute in E. injection E as <-.
  assert (NA : Qle_bool 1 a = false).
  { destruct (Qle_bool 1 a) eqn:X; auto. apply Qle_bool_iff in X. lra. }
  assert (NB : Qle_bool 1 b = false).
  { destruct (Qle_bool 1 b) eqn:X; auto. apply Qle_bool_iff in X. lra. }
  assert (NA' : Qle_bool 1 (a + (-1#4)) = false).
  { destruct (Qle_bool 1 (a + (-1#4))) eqn:X; auto. apply Qle_bool_iff in X. lra. }
  assert (NB' : Qle_bool 1 (b + (-1#4)) = false).
  { destruct (Qle_bool 1 (b + (-1#4))) eqn:X; auto. apply Qle_bool_iff in X. lra. }
  match goal with |- context [step (set_grow _ ?x)] =>
    exists (set_grow [mkGrowth (Some (a + (-1#4))%Q) 1 (Some (-1#4)%Q);
      mkGrowth (Some (b + (-1#4))%Q) 1 (Some (-1#4)%Q); mkGrowth (Some 0%Q) 1 (Some (1#4)%Q)] x) end.
  split; [|split; [eexists; split; [vm_compute; reflexivity|reflexivity]|reflexivity]].
  repeat (cbv -[Qle_bool Qplus]; rewrite ?NA, ?NB, ?NA', ?NB'). reflexivity.
Qed.

Theorem C34_negative_weights_refuted : exists n edges c ws u u' erased syndrome,
  well_formed n edges /\ new_ugraph n edges = Ok u /\ set_weights c ws u = Ok u' /\
  length syndrome = n /\ explainable n edges (fun _ => True) (bits syndrome) /\
  erased = [] /\ forall fuel, union_find fuel erased syndrome u' = Err Unmodelled.
Proof.
  exists 2, [[0]; [0; 1]; [1]], 2%Q, [1; 1; -1#1]%Q. eexists. eexists. exists [], [true; false].
  split. { intros e [<-|[<-|[<-|[]]]]; [left; exists 0; auto|right; exists 0, 1; auto 6|left; exists 1; auto]. }
  split; [vm_compute; reflexivity|]. split; [vm_compute; reflexivity|]. split; [reflexivity|].
  split.
  { exists (bits [true; false; false]). split; auto. intros v L.
    destruct v as [|[|v]]; [vm_compute; reflexivity|vm_compute; reflexivity|lia]. }
  split; [reflexivity|]. intros fuel.
  assert (X : forall fuel a b u, (a <= 0)%Q -> (b <= 0)%Q -> shrinking a b u -> steps fuel u = Err Unmodelled).
  { induction fuel0 as [|f IH]; intros a b u A B S;
      destruct (shrinking_step a b u A B S) as (u' & E & S' & O); cbn [steps]; rewrite O; auto.
    rewrite E. cbn [bindR]. apply (IH (a + (-1#4))%Q (b + (-1#4))%Q); auto; lra. }
  unfold union_find. match goal with |- context [init_graph ?a ?b ?c] =>
    assert (Y : exists u, init_graph a b c = Ok u /\ shrinking 0 0 u) end.
  { eexists. split; [vm_compute; reflexivity|]. eexists. split; [vm_compute; reflexivity|reflexivity]. }
  destruct Y as (u & -> & S). cbn [bindR]. rewrite (X fuel 0%Q 0%Q u); auto; lra.
Qed.
Print Assumptions C34_negative_weights_refuted.

(** * C35 Union-find decoding reproduces the syndrome *)

(** For each object of the decoder, with or without weights and however often it has been used
    before: if some selection of edges explains the syndrome, the decoder returns one that
    does, and the object can be used again. *)
Theorem C35_union_find_decoder : forall n edges u, well_formed n edges -> uf_object n edges u ->
  exists bound, forall erased syndrome fuel,
    (forall i, In i erased -> i < length edges) -> length syndrome = n -> bound <= fuel ->
    (explainable n edges (fun _ => True) (bits syndrome) /\
     exists u' corr, uf_decode fuel erased syndrome u = Ok (u', corr) /\
       length corr = length edges /\ explains n edges (bits corr) (bits syndrome) /\
       uf_object n edges u') \/
    (~ explainable n edges (fun _ => True) (bits syndrome) /\
     uf_decode fuel erased syndrome u = Err AssertionError).
Proof.
  intros n edges u WF O. pose proof (uf_object_ready n edges u WF O) as R.
  exists (S (total (fresh (u_grow u)))). intros er syn fuel LE LS F.
  destruct (uf_decode_ok n edges WF er syn u fuel R LS LE F) as
    [[X NE]|(u1 & corr & X & R1 & LC & EX)].
  - right. split; auto. rewrite (even_all n edges WF syn LS). auto.
  - left. split; [exists (bits corr); auto|]. exists u1, corr. split; [auto|]. split; [auto|].
    split; [auto|]. eapply uf_used; eauto.
Qed.
Print Assumptions C35_union_find_decoder.

(** A new object without weights needs [2 m + 1] steps at most. *)
Theorem C35_without_weights : forall n edges erased syndrome,
  well_formed n edges -> (forall i, In i erased -> i < length edges) -> length syndrome = n ->
  explainable n edges (fun _ => True) (bits syndrome) ->
  exists u u' corr, new_ugraph n edges = Ok u /\
    uf_decode (2 * length edges + 1) erased syndrome u = Ok (u', corr) /\
    length corr = length edges /\ explains n edges (bits corr) (bits syndrome).
Proof.
  intros n edges er syn WF LE LS EX.
  destruct (new_ugraph_ready n edges WF) as (u & E & R & G).
  destruct (uf_decode_ok n edges WF er syn u (2 * length edges + 1) R LS LE) as
    [[X NE]|(u1 & corr & X & R1 & LC & Y)].
  { rewrite G, total_new. lia. }
  - apply (even_all n edges WF syn LS) in EX. tauto.
  - exists u, u1, corr. auto.
Qed.
Print Assumptions C35_without_weights.

Example C35_example : (do u <- new_ugraph 8 uf_edges;
  do r <- uf_decode 100 [6] [false; true; false; true; true; false; true; false] u; Ok (snd r)) =
  Ok [false; false; true; false; true; false; true; false; false; true].
Proof. vm_compute. reflexivity. Qed.
(** Two calls of the same object, with weights set in between. *)
Example C35_example_reuse : (do u <- new_ugraph 8 uf_edges;
  do r <- uf_decode 100 [] [false; true; false; true; true; false; true; false] u;
  do u <- set_weights 2 [5#1; 1#2; 3#1; 1#1; 2#1; 1#1; 0#1; 4#1; 1#1; 7#1]%Q (fst r);
  do r <- uf_decode 100 [9] [false; true; false; true; true; false; true; false] u; Ok (snd r)) =
  Ok [false; false; true; false; true; false; true; false; false; true].
Proof. vm_compute. reflexivity. Qed.
