(** Model of the erasure decoder
    (/repo/src/plaquette/decoders/unionfind_erasure.py).

    Simplifications:
    - a neighbour [-1] (dangling edge) and an edge index [-1] (no edge) are [None];
    - [edge_progress], [clusters] and [vertex_in_cluster] are written but never read by the
      erasure decoder and are left out; [missing_neighbours] is only needed for the
      assertions made while it is built;
    - [vertex_enabled] and [edge_enabled] are [None] before the first call of
      [reset_subgraph]; the model has empty lists there, so that an access raises
      [IndexError] instead of [TypeError].  The decoder always resets first. *)
Require Import List Bool Arith Lia.
From Verif Require Import Base.
Import ListNotations.

(** Python: [l[i]] for a list or a one-dimensional array and an index [i >= 0]. *)
Definition get {A} (l : list A) (i : nat) : Res A :=
  match nth_error l i with Some a => Ok a | None => Err IndexError end.

(** Python: [l[i] = a] for a list or a one-dimensional array and an index [i >= 0]. *)
Definition put {A} (l : list A) (i : nat) (a : A) : Res (list A) :=
  if i <? length l then Ok (upd i a l) else Err IndexError.

(** Python: [assert b]. *)
Definition assertR (b : bool) : Res unit := if b then Ok tt else Err AssertionError.

(** An entry of a neighbour list: the edge index and the vertex behind the edge. *)
Definition entry := (nat * option nat)%type.

(** Equality of two vertices or [-1]. *)
Definition eqb_onat (a b : option nat) : bool :=
  match a, b with
  | Some x, Some y => x =? y
  | None, None => true
  | _, _ => false
  end.

(** Equality of tuples as used by [in] and [list.remove]
    (unionfind_erasure.py 205-211, 265-276). *)
Definition eqb_entry (a b : entry) : bool :=
  (fst a =? fst b) && eqb_onat (snd a) (snd b).

(** Python: [l.remove(x)], [ValueError] if there is no such element
    (unionfind_erasure.py 211). *)
Fixpoint removeR (x : entry) (l : list entry) : Res (list entry) :=
  match l with
  | [] => Err ValueError
  | y :: l' => if eqb_entry x y then Ok l' else do r <- removeR x l'; Ok (y :: r)
  end.

(** unionfind_erasure.py 71-157: class [Graph]. *)
Record egraph := mkEgraph {
  eg_n : nat;                                  (* n_vertices *)
  eg_edges : list (list nat);                  (* edges *)
  eg_ven : list bool;                          (* vertex_enabled *)
  eg_een : list bool;                          (* edge_enabled *)
  eg_nbr : option (list (list entry));         (* neighbours *)
  eg_leaf : option (list nat)                  (* leaf_vertices *)
}.

Definition set_ven x g := mkEgraph (eg_n g) (eg_edges g) x (eg_een g) (eg_nbr g) (eg_leaf g).
Definition set_een x g := mkEgraph (eg_n g) (eg_edges g) (eg_ven g) x (eg_nbr g) (eg_leaf g).
Definition set_nbr x g := mkEgraph (eg_n g) (eg_edges g) (eg_ven g) (eg_een g) x (eg_leaf g).
Definition set_leaf x g := mkEgraph (eg_n g) (eg_edges g) (eg_ven g) (eg_een g) (eg_nbr g) x.

(** unionfind_erasure.py 129-161: [Graph.__init__] and [copy]. *)
Definition new_graph (n : nat) (edges : list (list nat)) : egraph :=
  mkEgraph n edges [] [] None None.

(** unionfind_erasure.py 163-173: [reset_subgraph(False, False)]. *)
Definition reset_subgraph (g : egraph) : egraph :=
  set_een (repeat false (length (eg_edges g))) (set_ven (repeat false (eg_n g)) g).

(** unionfind_erasure.py 175-183: [enable_vertex]. *)
Definition enable_vertex (v : nat) (en : bool) (g : egraph) : Res egraph :=
  do _ <- match en, eg_nbr g with
          | false, Some nb => do l <- get nb v; assertR (length l =? 0)
          | _, _ => Ok tt
          end;
  do ven <- put (eg_ven g) v en;
  Ok (set_ven ven g).

(** unionfind_erasure.py 202-203: the pairs (vertex, neighbour) of an edge; unpacking a tuple of
    any other length raises [ValueError]. *)
Definition ends (edge : list nat) : Res (list (nat * option nat)) :=
  match edge with
  | [a] => Ok [(a, None)]
  | [a; b] => Ok [(a, Some b); (b, Some a)]
  | _ => Err ValueError
  end.

(** unionfind_erasure.py 203-215: body of the loop over the ends of the edge. *)
Definition enable_end (edge_idx : nat) (en : bool) (g : egraph) (vn : nat * option nat)
  : Res egraph :=
  let (v, n) := vn in
  match eg_nbr g with
  | None => Ok g
  | Some nb =>
      do nlist <- get nb v;
      let was_leaf := length nlist <=? 1 in
      do nlist' <- (if en
                    then do _ <- assertR (negb (existsb (eqb_entry (edge_idx, n)) nlist));
                         Ok (nlist ++ [(edge_idx, n)])
                    else removeR (edge_idx, n) nlist);
      let g' := set_nbr (Some (upd v nlist' nb)) g in
      match eg_leaf g with
      | None => Ok g'
      | Some lf =>
          do _ <- assertR (negb en);
          Ok (if (length nlist' <=? 1) && negb was_leaf
              then set_leaf (Some (lf ++ [v])) g' else g')
      end
  end.

(** unionfind_erasure.py 185-215: [enable_edge]. *)
Definition enable_edge (edge_idx : nat) (en : bool) (g : egraph) : Res egraph :=
  do edge <- get (eg_edges g) edge_idx;
  do _ <- foldR (fun _ v => do b <- get (eg_ven g) v; assertR b) edge tt;
  do old <- get (eg_een g) edge_idx;
  let g' := set_een (upd edge_idx en (eg_een g)) g in
  match eg_nbr g with
  | None => Ok g'
  | Some _ =>
      if eqb old en then Ok g'
      else do pairs <- ends edge; foldR (enable_end edge_idx en) pairs g'
  end.

(** unionfind_erasure.py 217-223: [enable_edges(edges, True, select_vertices=True)]. *)
Definition enable_edges (idxs : list nat) (g : egraph) : Res egraph :=
  foldR (fun g e =>
           do edge <- get (eg_edges g) e;
           do g' <- foldR (fun g v => enable_vertex v true g) edge g;
           enable_edge e true g') idxs g.

(** unionfind_erasure.py 265-276: [_update_neighbours]. *)
Definition add_neighbours (i : nat) (edge : list nat) (nb : list (list entry))
  : Res (list (list entry)) :=
  do pairs <- ends edge;
  foldR (fun nb (vn : nat * option nat) =>
           do l <- get nb (fst vn);
           do _ <- assertR (negb (existsb (eqb_entry (i, snd vn)) l));
           Ok (upd (fst vn) (l ++ [(i, snd vn)]) nb)) pairs nb.

(** unionfind_erasure.py 253-263: [update_neighbours]. *)
Definition update_neighbours (g : egraph) : Res egraph :=
  let empty := repeat [] (eg_n g) in
  do nbs <- foldR (fun (nm : list (list entry) * list (list entry)) i =>
              let (nb, missing) := nm in
              do edge <- get (eg_edges g) i;
              do on <- get (eg_een g) i;
              if on
              then do _ <- foldR (fun _ v => do b <- get (eg_ven g) v; assertR b) edge tt;
                   do nb' <- add_neighbours i edge nb; Ok (nb', missing)
              else do missing' <- add_neighbours i edge missing; Ok (nb, missing'))
            (seq 0 (length (eg_edges g))) (empty, empty);
  Ok (set_nbr (Some (fst nbs)) g).

(** unionfind_erasure.py 245-251: [get_neighbours]; the lists exist after
    [update_neighbours] ([TypeError] before). *)
Definition get_neighbours (g : egraph) (v : nat) : Res (list entry) :=
  do b <- get (eg_ven g) v;
  do _ <- assertR b;
  match eg_nbr g with None => Err TypeError | Some nb => get nb v end.

(** unionfind_erasure.py 282-292: [update_leaves]. *)
Definition update_leaves (g : egraph) : Res egraph :=
  match eg_nbr g with
  | None => Err TypeError
  | Some nb =>
      do lf <- foldR (fun acc v =>
                 do sel <- get (eg_ven g) v;
                 if sel then do l <- get nb v;
                             Ok (if length l <=? 1 then acc ++ [v] else acc)
                 else Ok acc) (seq 0 (length (eg_ven g))) [];
      Ok (set_leaf (Some lf) g)
  end.

(** unionfind_erasure.py 225-229: [iter_vertices]. *)
Definition iter_vertices (g : egraph) : list nat :=
  filter (fun v => nth v (eg_ven g) false) (seq 0 (length (eg_ven g))).

(** unionfind_erasure.py 294-318: [pop_leaf]; the leaf list is not empty.  Returns the leaf,
    the edge and the other vertex. *)
Definition pop_leaf (g : egraph) (rest : list nat) (leaf : nat)
  : Res (egraph * (option nat * option nat)) :=
  let g := set_leaf (Some rest) g in
  do on <- get (eg_ven g) leaf;
  do _ <- assertR on;
  match eg_nbr g with
  | None => Err TypeError
  | Some nb =>
      do neighs <- get nb leaf;
      match neighs with
      | [] => do g' <- enable_vertex leaf false g; Ok (g', (None, None))
      | (e, other) :: _ =>
          do g1 <- enable_edge e false g;
          do g2 <- enable_vertex leaf false g1;
          Ok (g2, (Some e, other))
      end
  end.

(** State of [peel_forest]: the forest, [end_vertex], [corr] and [syndrome]. *)
Record peel := mkPeel {
  p_forest : egraph;
  p_end : list bool;
  p_corr : list bool;
  p_syn : list bool
}.

(** unionfind_erasure.py 428-452: body of the loop over the popped leaves, after
    [pop_leaf]. *)
Definition peel_body (p : peel) (leaf : nat) (e other : option nat) : Res peel :=
  do is_end <- get (p_end p) leaf;
  if is_end
  then match e with
       | None => Ok (mkPeel (p_forest p) (upd leaf false (p_end p)) (p_corr p) (p_syn p))
       | Some _ => Err AssertionError
       end
  else match e with
       | None => Err AssertionError
       | Some e =>
           do end' <- match other with
                      | None => Ok (p_end p)
                      | Some o =>
                          do l <- get_neighbours (p_forest p) o;
                          if length l =? 0 then put (p_end p) o true else Ok (p_end p)
                      end;
           do s <- get (p_syn p) leaf;
           if s
           then do c <- get (p_corr p) e;
                do _ <- assertR (negb c);
                let syn := upd leaf false (p_syn p) in
                do syn' <- match other with
                           | None => Ok syn
                           | Some o => do b <- get syn o; put syn o (negb b)
                           end;
                Ok (mkPeel (p_forest p) end' (upd e true (p_corr p)) syn')
           else Ok (mkPeel (p_forest p) end' (p_corr p) (p_syn p))
       end.

(** unionfind_erasure.py 320-323, 428: [pop_leaves] and the loop over it.  [fuel] bounds the
    number of leaves; with too little fuel the result is [Unmodelled].  *)
Fixpoint peel_loop (fuel : nat) (p : peel) : Res peel :=
  match eg_leaf (p_forest p) with
  | None => Ok p
  | Some lf =>
      match rev lf with
      | [] => Ok p
      | leaf :: rest =>
          match fuel with
          | O => Err Unmodelled
          | S fuel =>
              do r <- pop_leaf (p_forest p) (rev rest) leaf;
              let '(f, (e, other)) := r in
              do p' <- peel_body (mkPeel f (p_end p) (p_corr p) (p_syn p)) leaf e other;
              peel_loop fuel p'
          end
      end
  end.

(** unionfind_erasure.py 408-455: [peel_forest]. *)
Definition peel_forest (forest : egraph) (syndrome : list bool) : Res (list bool) :=
  do f1 <- update_neighbours forest;
  do f2 <- update_leaves f1;
  let p := mkPeel f2 (repeat false (eg_n forest))
                  (repeat false (length (eg_edges forest))) syndrome in
  do p' <- peel_loop (S (eg_n forest)) p;
  do _ <- assertR (forallb negb (p_end p'));
  Ok (p_corr p').

(** unionfind_erasure.py 463-472: one pass of the loop that selects dangling edges.
    State: graph, forest, [new_vertices].  An edge disabled earlier in the loop is skipped by
    the generator [iter_edges] (231-235). *)
Definition dangling_step (s : egraph * egraph * list nat) (i : nat)
  : Res (egraph * egraph * list nat) :=
  let '(g, f, new) := s in
  do on <- get (eg_een g) i;
  if on then
    do edge <- get (eg_edges g) i;
    match edge with
    | [v] =>
        do used <- get (eg_ven f) v;
        if used then do g' <- enable_edge i false g; Ok (g', f, new)
        else do f1 <- enable_vertex v true f;
             do f2 <- enable_edge i true f1;
             Ok (g, f2, new ++ [v])
    | _ => Ok s
    end
  else Ok s.

(** unionfind_erasure.py 474-481: the inner loop that looks for a vertex which is not yet
    part of the forest, entered with an empty list [new_vertices].  [rem] is
    [rem_vertices] in reverse order (the code takes the last element). *)
Fixpoint start_component (rem : list nat) (f : egraph) : Res (list nat * egraph * list nat) :=
  match rem with
  | [] => Ok ([], f, [])
  | c :: rem' =>
      do used <- get (eg_ven f) c;
      if used then start_component rem' f
      else do f' <- enable_vertex c true f; Ok (rem', f', [c])
  end.

(** unionfind_erasure.py 491-501: body of the loop over the neighbours of [cur]. *)
Definition visit_neighbour (s : egraph * list nat) (en : entry) : Res (egraph * list nat) :=
  let (f, new) := s in
  let (i, neigh) := en in
  do on <- get (eg_een f) i;
  if on then Ok s
  else match neigh with
       | None => Err AssertionError
       | Some v =>
           do used <- get (eg_ven f) v;
           if used then Ok s
           else do f1 <- enable_vertex v true f;
                do f2 <- enable_edge i true f1;
                Ok (f2, new ++ [v])
       end.

(** unionfind_erasure.py 473-501: the main loop.  [fuel] bounds the number of iterations. *)
Fixpoint forest_loop (fuel : nat) (g : egraph) (rem new : list nat) (f : egraph)
  : Res egraph :=
  match fuel with
  | O => Err Unmodelled
  | S fuel =>
      do s <- match new with
              | [] => start_component rem f
              | _ :: _ => Ok (rem, f, new)
              end;
      let '(rem1, f1, new1) := s in
      match new1 with
      | [] => Ok f1
      | cur :: new2 =>
          do nb <- get_neighbours g cur;
          do s2 <- foldR visit_neighbour nb (f1, new2);
          forest_loop fuel g rem1 (snd s2) (fst s2)
      end
  end.

(** unionfind_erasure.py 457-501: [construct_forest]. *)
Definition construct_forest (g : egraph) : Res egraph :=
  let f := reset_subgraph (new_graph (eg_n g) (eg_edges g)) in
  let rem := rev (iter_vertices g) in
  do s <- foldR dangling_step (seq 0 (length (eg_edges g))) (g, f, []);
  let '(g', f', new) := s in
  forest_loop (S (eg_n g)) g' rem new f'.

(** unionfind_erasure.py 393-406: [ErasureDecoder.decode] for a graph given by the number of
    vertices and the edges. *)
Definition erasure_decode (n : nat) (edges : list (list nat)) (sel_edges : list nat)
  (syndrome : list bool) : Res (list bool) :=
  let g := reset_subgraph (set_nbr None (new_graph n edges)) in
  do g1 <- enable_edges sel_edges g;
  do g2 <- update_neighbours g1;
  do f <- construct_forest g2;
  peel_forest f syndrome.
