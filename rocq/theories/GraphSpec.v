(** Vocabulary for decoders on graphs with dangling edges.  Nothing here refers to a model
    of the code. *)
Require Import List Bool Arith Lia Relations.
Import ListNotations.

(** Exclusive or of a list of bits. *)
Definition parity (l : list bool) : bool := fold_right xorb false l.

(** Graphs as given to the decoders: [n] vertices, every edge joins two different vertices
    or dangles from one vertex. *)
Definition well_formed (n : nat) (edges : list (list nat)) : Prop :=
  forall e, In e edges ->
    (exists v, e = [v] /\ v < n) \/
    (exists u v, e = [u; v] /\ u <> v /\ u < n /\ v < n).

(** Vertex [v] is an end of edge [i]. *)
Definition incident (edges : list (list nat)) (i v : nat) : bool :=
  existsb (Nat.eqb v) (nth i edges []).

(** Whether an odd number of selected edges end at [v]. *)
Definition boundary (edges : list (list nat)) (sel : nat -> bool) (v : nat) : bool :=
  parity (map (fun i => sel i && incident edges i v) (seq 0 (length edges))).

(** A selection of edges explains a syndrome if each vertex has the bit 1 exactly when an
    odd number of selected edges end there. *)
Definition explains (n : nat) (edges : list (list nat)) (sel : nat -> bool)
  (syn : nat -> bool) : Prop :=
  forall v, v < n -> boundary edges sel v = syn v.

(** The syndrome can be caused by errors on a set of edges. *)
Definition explainable (n : nat) (edges : list (list nat)) (allowed : nat -> Prop)
  (syn : nat -> bool) : Prop :=
  exists sel, (forall i, sel i = true -> allowed i) /\ explains n edges sel syn.

(** A set of vertices which no allowed edge leaves and from which no allowed edge
    dangles: a union of connected components without dangling edges. *)
Definition isolated (edges : list (list nat)) (allowed : nat -> Prop) (S : nat -> bool)
  : Prop :=
  forall i, allowed i ->
    match nth i edges [] with
    | [v] => S v = false
    | [u; v] => S u = S v
    | _ => True
    end.

(** Number of syndrome bits on a set of vertices, modulo two. *)
Definition parity_on (n : nat) (syn S : nat -> bool) : bool :=
  parity (map (fun v => S v && syn v) (seq 0 n)).

(** Every connected component of the allowed edges has a dangling edge or an even number of
    syndrome bits. *)
Definition even_components (n : nat) (edges : list (list nat)) (allowed : nat -> Prop)
  (syn : nat -> bool) : Prop :=
  forall S, isolated edges allowed S -> parity_on n syn S = false.

(** A list of bits as a function. *)
Definition bits (l : list bool) (i : nat) : bool := nth i l false.

(** [u] and [v] are joined by a path of allowed edges. *)
Definition connected (edges : list (list nat)) (allowed : nat -> Prop) : nat -> nat -> Prop :=
  clos_refl_trans nat (fun u v => exists i, allowed i /\
    (nth_error edges i = Some [u; v] \/ nth_error edges i = Some [v; u])).

(** [C] is the connected component of some vertex. *)
Definition component (edges : list (list nat)) (allowed : nat -> Prop) (C : nat -> bool)
  : Prop :=
  exists r, forall v, C v = true <-> connected edges allowed r v.
