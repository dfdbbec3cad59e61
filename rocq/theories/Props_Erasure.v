(** Property C33: the erasure decoder. *)
Require Import List Bool Arith Lia.
From Verif Require Import Base BaseProofs GraphSpec GraphProofs GraphComponents ErasureModel
  ErasureProofs ErasurePeel ErasureForest.
Import ListNotations.

(** * C33 Erasure decoder returns a correction inside the erasure with exactly the given
    syndrome *)

(** Every call with indices of existing edges and a syndrome of the right length ends without
    any exception and returns erased edges only.  If every connected component of the erased
    edges has a dangling edge or an even number of syndrome bits, the boundary of the returned
    edges is the syndrome. *)
Theorem C33_erasure_decoder : forall n edges erased syndrome,
  well_formed n edges -> (forall i, In i erased -> i < length edges) ->
  length syndrome = n ->
  exists corr, erasure_decode n edges erased syndrome = Ok corr /\
    length corr = length edges /\
    (forall i, bits corr i = true -> In i erased) /\
    ((forall C, component edges (fun i => In i erased) C ->
        (exists i v, In i erased /\ nth_error edges i = Some [v] /\ C v = true) \/
        parity_on n (bits syndrome) C = false) ->
     explains n edges (bits corr) (bits syndrome)).
Proof.
  intros n edges er syn WF HI LS.
  destruct (erasure_decode_ok n edges er syn WF HI LS) as (corr & E & L & S & X).
  exists corr. split; [auto|]. split; [auto|]. split; [auto|]. intros H. apply X.
  apply (components_even n edges WF (fun i => In i er) (fun i => in_dec Nat.eq_dec i er)).
  exact H.
Qed.
Print Assumptions C33_erasure_decoder.

(** The decoder finds a correction whenever there is one: its answer explains the syndrome
    exactly when some set of erased edges does. *)
Theorem C33_finds_correction : forall n edges erased syndrome,
  well_formed n edges -> (forall i, In i erased -> i < length edges) ->
  length syndrome = n ->
  exists corr, erasure_decode n edges erased syndrome = Ok corr /\
    (explains n edges (bits corr) (bits syndrome) <->
     explainable n edges (fun i => In i erased) (bits syndrome)).
Proof.
  intros n edges er syn WF HI LS.
  destruct (erasure_decode_ok n edges er syn WF HI LS) as (corr & E & L & S & X).
  exists corr. split; [auto|]. split.
  - intros Y. exists (bits corr). auto.
  - intros Y. apply X. apply (explainable_even n edges WF). auto.
Qed.
Print Assumptions C33_finds_correction.

(** The condition on components is necessary and sufficient for a correction to exist. *)
Theorem C33_condition : forall n edges erased syndrome,
  well_formed n edges -> (forall i, In i erased -> i < length edges) ->
  length syndrome = n ->
  (explainable n edges (fun i => In i erased) (bits syndrome) <->
   forall C, component edges (fun i => In i erased) C ->
     (exists i v, In i erased /\ nth_error edges i = Some [v] /\ C v = true) \/
     parity_on n (bits syndrome) C = false).
Proof.
  intros n edges er syn WF HI LS.
  rewrite <- (components_even n edges WF (fun i => In i er) (fun i => in_dec Nat.eq_dec i er)).
  split.
  - apply (explainable_even n edges WF).
  - intros H. destruct (erasure_decode_ok n edges er syn WF HI LS) as (corr & E & L & S & X).
    exists (bits corr). auto.
Qed.
Print Assumptions C33_condition.

(** A grid of six vertices with dangling edges on both sides; a cycle is erased, with a branch
    to a dangling edge, and three syndrome bits. *)
Definition grid_edges : list (list nat) :=
  [[0]; [0; 1]; [1; 2]; [2]; [3]; [3; 4]; [4; 5]; [5]; [0; 3]; [1; 4]; [2; 5]].
Example C33_example :
  erasure_decode 6 grid_edges [1; 5; 8; 9; 2; 3] [true; false; true; true; false; false] =
  Ok [false; false; false; true; false; false; false; false; true; false; false].
Proof. vm_compute. reflexivity. Qed.
Example C33_example_odd :
  erasure_decode 6 grid_edges [1; 5; 8; 9; 2; 3] [true; false; true; true; true; false] =
  Ok [false; false; true; false; false; false; false; false; true; true; false].
Proof. vm_compute. reflexivity. Qed.

(** Without the condition nothing is reported: with a single erased edge and a single syndrome
    bit, the decoder returns a selection with a different boundary. *)
Theorem C33_undecodable_reported_refuted : exists n edges erased syndrome corr,
  well_formed n edges /\ (forall i, In i erased -> i < length edges) /\
  length syndrome = n /\
  erasure_decode n edges erased syndrome = Ok corr /\
  ~ explains n edges (bits corr) (bits syndrome).
Proof.
  exists 2, [[0; 1]], [0], [true; false], [false]. split.
  { intros e [<-|[]]. right. exists 0, 1. repeat split; auto. }
  split. { intros i [<-|[]]. cbn. lia. }
  split; [reflexivity|]. split; [vm_compute; reflexivity|].
  intros X. specialize (X 0 Nat.lt_0_2). vm_compute in X. discriminate.
Qed.
Print Assumptions C33_undecodable_reported_refuted.

(** The order of the edges passed to the decoder does not matter for the guarantee, but edges
    which do not exist are refused. *)
Theorem C33_missing_edge : forall n edges erased1 i erased2 syndrome,
  well_formed n edges -> (forall j, In j erased1 -> j < length edges) -> length edges <= i ->
  erasure_decode n edges (erased1 ++ i :: erased2) syndrome = Err IndexError.
Proof.
  intros n edges l1 i l2 syn WF H L. unfold erasure_decode.
  set (g := reset_subgraph _).
  destruct (enable_edges_ok n edges WF l1 g) as (ven & een & E & _); auto;
    try (cbn; apply repeat_length).
  unfold enable_edges in *. rewrite foldR_app, E. cbn [bindR foldR].
  unfold get at 1. rewrite (proj2 (nth_error_None _ i)); [reflexivity|]. cbn. auto.
Qed.
Print Assumptions C33_missing_edge.
