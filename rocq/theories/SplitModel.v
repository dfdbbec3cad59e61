(** Model of union find with split edges (plaquette/decoders/unionfind_decoder.py, class attribute
    [split_edges]): every edge becomes two edges with an additional vertex between them.
    Simplification: [n_add_vertices] is an argument [m] instead of an attribute; as it is the number
    of edges, the case [n_add_vertices == 0] with its own branches is the graph without edges. *)
Require Import List Bool Arith QArith.
From Verif Require Import Base ErasureModel UnionFindModel.
Import ListNotations.
Open Scope nat_scope.

(** unionfind_decoder.py 321-330: the halves of edge [i]; [vertices[0]] of an empty tuple raises
    [IndexError], more than two vertices are treated as one. *)
Definition first_half (n i : nat) (edge : list nat) : Res (list nat) :=
  match edge with [] => Err IndexError | a :: _ => Ok [a; n + i] end.
Definition second_half (n i : nat) (edge : list nat) : list nat :=
  match edge with [_; b] => [n + i; b] | _ => [n + i] end.

(** unionfind_decoder.py 305-331 [Graph.set_vertices_split_edges], 574-579.  Both halves are attached
    to their vertices before the next edge is looked at. *)
Definition new_split (n : nat) (edges : list (list nat)) : Res ugraph :=
  let m := length edges in
  do r <- foldR (fun (s : list (list entry) * (list (list nat) * list (list nat))) (ie : nat * list nat) =>
             let '(adj, (one, two)) := s in
             do _ <- mapR (get (repeat tt (n + m))) (snd ie);
             do h <- first_half n (fst ie) (snd ie);
             do adj <- attach (fst ie) h adj;
             do adj <- attach (m + fst ie) (second_half n (fst ie) (snd ie)) adj;
             Ok (adj, (one ++ [h], two ++ [second_half n (fst ie) (snd ie)])))
           (combine (seq 0 m) edges) (repeat [] (n + m), ([], []));
  Ok (mkUgraph (fst (snd r) ++ snd (snd r)) (fst r) (repeat new_growth (2 * m)) (repeat new_vertex (n + m)) [] []).

(** unionfind_decoder.py 345-351: the second branch of [Graph.get_complete_edges]. *)
Definition split_complete (m : nat) (u : ugraph) : list nat :=
  let done i := match nth_error (u_grow u) i with Some g => complete g | None => false end in
  filter (fun i => done i && done (m + i)) (seq 0 m).

(** unionfind_decoder.py 388-416, 645-653: [union_find].  Both halves of erased edges are complete
    (412-414).  The syndrome has no values for the additional vertices (390), whose bits stay
    False (104, 391-392). *)
Definition split_union_find (fuel m : nat) (erasure : list nat) (syn : list bool) (u : ugraph) : Res (ugraph * list nat) :=
  do _ <- assertR (length syn =? length (u_verts u) - m);
  do r <- union_find fuel (flat_map (fun e => [e; e + m]) erasure) (syn ++ repeat false m) u;
  Ok (fst r, split_complete m (fst r)).

(** unionfind_decoder.py 728-755: [UnionFindDecoder] with a class which splits edges; the erasure
    decoder has the graph itself. *)
Definition split_decode (fuel n : nat) (edges : list (list nat)) (erasure : list nat) (syn : list bool) (u : ugraph) : Res (ugraph * list bool) :=
  do r <- split_union_find fuel (length edges) erasure syn u;
  do corr <- erasure_decode n edges (snd r) syn;
  Ok (fst r, corr).
