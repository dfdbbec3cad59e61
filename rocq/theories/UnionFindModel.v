(** Model of the union-find decoder
    (/repo/src/plaquette/decoders/unionfind_decoder.py).

    Objects are represented by their indices: a vertex and an edge by [idx], a cluster by its
    position in [Graph.clusters].  References from objects to objects are optional indices.

    Simplifications:
    - floats are rationals; [None] as growth or increment stands for infinity, which is what
      the increment of an edge of weight zero is (numpy's [1 / 0.0]);
    - [split_edges] and [choose_growth_increment_enabled] are [False] in all classes of the
      repository, so the code behind them is left out (277-331 [set_vertices_split_edges],
      345-352, 412-414, 635-643) and [choose_growth_increment] returns [None];
    - [n_vertices] of a cluster is written and never read, and left out;
    - loops whose number of iterations is not obvious get fuel, and [Unmodelled] is the result
      when it is used up. *)
Require Import List Bool Arith Lia QArith.
From Verif Require Import Base ErasureModel.
Import ListNotations.
Open Scope nat_scope.

(** unionfind_decoder.py 74-77: states of a vertex. *)
Inductive vstate := Unused | Boundary | Interior.

(** [==] for the states (156-166, 198, 208). *)
Definition eqb_vstate (a b : vstate) : bool :=
  match a, b with
  | Unused, Unused | Boundary, Boundary | Interior, Interior => true
  | _, _ => false
  end.

(** unionfind_decoder.py 80-114: class [Vertex] without the list of edges. *)
Record vertex := mkVertex {
  v_state : vstate;
  v_parent : option nat;
  v_cluster : option nat;
  v_syn : bool
}.

Definition set_v_parent x v := mkVertex (v_state v) x (v_cluster v) (v_syn v).

(** unionfind_decoder.py 212-224: class [Edge], the growth. *)
Record growth := mkGrowth {
  g_cur : option Q;          (* cur_growth *)
  g_max : Q;                 (* max_growth *)
  g_inc : option Q           (* growth_increment *)
}.

(** unionfind_decoder.py 455-472: class [Cluster].  The parity [-1] is [None]. *)
Record cluster := mkCluster {
  c_root : option nat;               (* root_vertex *)
  c_bound : option (list nat);       (* boundary *)
  c_par : option bool;               (* parity *)
  c_open : bool                      (* open *)
}.

(** unionfind_decoder.py 270-292: class [Graph].  [u_adj] has for each vertex the pairs of
    [Vertex.edges] and [Vertex.neigh_vertices]. *)
Record ugraph := mkUgraph {
  u_ends : list (list nat);              (* Edge.vertices *)
  u_adj : list (list entry);
  u_grow : list growth;
  u_verts : list vertex;
  u_clus : list cluster;                 (* clusters *)
  u_open : list nat                      (* open_clusters *)
}.

Definition set_grow x u := mkUgraph (u_ends u) (u_adj u) x (u_verts u) (u_clus u) (u_open u).
Definition set_verts x u := mkUgraph (u_ends u) (u_adj u) (u_grow u) x (u_clus u) (u_open u).
Definition set_clus x u := mkUgraph (u_ends u) (u_adj u) (u_grow u) (u_verts u) x (u_open u).
Definition set_open x u := mkUgraph (u_ends u) (u_adj u) (u_grow u) (u_verts u) (u_clus u) x.

(** unionfind_decoder.py 219-224: class attributes of an edge. *)
Definition new_growth : growth := mkGrowth (Some 0%Q) 2%Q (Some 1%Q).

(** unionfind_decoder.py 100-106: class attributes of a vertex. *)
Definition new_vertex : vertex := mkVertex Unused None None false.

(** unionfind_decoder.py 134-146: [Vertex.add_edge] for the ends of an edge (226-235).  The
    assertions of [add_edge] hold because it is called for the ends of the edge only. *)
Definition attach (i : nat) (edge : list nat) (adj : list (list entry))
  : Res (list (list entry)) :=
  match edge with
  | [a] => do l <- get adj a; put adj a (l ++ [(i, None)])
  | [a; b] => do la <- get adj a; do adj1 <- put adj a (la ++ [(i, Some b)]);
              do lb <- get adj1 b;
              put adj1 b (lb ++ [(i, Some a)])
  | _ => Err AssertionError
  end.

(** unionfind_decoder.py 284-303, 574-581: [Graph.__init__], [set_vertices_edges].  The
    vertices of edge [i] are looked up before the edge is made, so that a vertex which does
    not exist raises [IndexError] before the check of the length. *)
Definition new_ugraph (n : nat) (edges : list (list nat)) : Res ugraph :=
  do adj <- foldR (fun adj (ie : nat * list nat) =>
              do _ <- mapR (get (repeat tt n)) (snd ie);
              attach (fst ie) (snd ie) adj)
            (combine (seq 0 (length edges)) edges) (repeat [] n);
  Ok (mkUgraph edges adj (repeat new_growth (length edges)) (repeat new_vertex n) [] []).

(** unionfind_decoder.py 246-248: [Edge.is_complete]. *)
Definition complete (e : growth) : bool :=
  match g_cur e with None => true | Some q => Qle_bool (g_max e) q end.

(** unionfind_decoder.py 250-253: [Edge.set_complete]. *)
Definition set_complete (e : growth) : Res growth :=
  do _ <- assertR (negb (complete e));
  Ok (mkGrowth (Some (g_max e)) (g_max e) (g_inc e)).

(** unionfind_decoder.py 255-267: [Edge.grow(None)]. *)
Definition grow (e : growth) : Res growth :=
  do _ <- assertR (negb (complete e));
  Ok (mkGrowth (match g_cur e, g_inc e with
                | Some q, Some d => Some (q + d)%Q
                | _, _ => None
                end) (g_max e) (g_inc e)).

(** unionfind_decoder.py 152-154: [Vertex.all_edges_complete]. *)
Definition all_complete (u : ugraph) (v : nat) : Res bool :=
  do l <- get (u_adj u) v;
  foldR (fun b (en : entry) => if b : bool then do e <- get (u_grow u) (fst en); Ok (complete e)
                               else Ok false) l true.

(** unionfind_decoder.py 168-179: [Vertex.find_root] with the update of [parent]. *)
Fixpoint find_root (fuel : nat) (vs : list vertex) (v : nat) : Res (list vertex * nat) :=
  match fuel with
  | O => Err Unmodelled
  | S fuel =>
      do x <- get vs v;
      match v_parent x with
      | None => do _ <- assertR (match v_cluster x with Some _ => true | None => false end);
                Ok (vs, v)
      | Some p =>
          do r <- find_root fuel vs p;
          let (vs1, root) := r in
          do x1 <- get vs1 v;
          Ok (upd v (set_v_parent (Some root) x1) vs1, root)
      end
  end.

(** unionfind_decoder.py 181-186: [Vertex.r_cluster]. *)
Definition r_cluster (u : ugraph) (v : nat) : Res (ugraph * nat) :=
  do r <- find_root (S (length (u_verts u))) (u_verts u) v;
  let (vs, root) := r in
  do x <- get vs root;
  match v_cluster x with
  | None => Err AssertionError
  | Some c => Ok (set_verts vs u, c)
  end.

(** unionfind_decoder.py 188-194: [Vertex.set_parent]. *)
Definition set_parent (x : vertex) (root : nat) : Res vertex :=
  do _ <- assertR (xorb (match v_cluster x with None => true | Some _ => false end)
                        (match v_parent x with None => true | Some _ => false end));
  Ok (mkVertex (v_state x) (Some root) None (v_syn x)).

(** unionfind_decoder.py 196-204: [Vertex.to_boundary]; the argument is a cluster ([inl]) or a
    vertex ([inr]). *)
Definition to_boundary (x : vertex) (root : nat + nat) : Res vertex :=
  do _ <- assertR (eqb_vstate (v_state x) Unused);
  Ok (match root with
      | inl c => mkVertex Boundary (v_parent x) (Some c) (v_syn x)
      | inr r => mkVertex Boundary (Some r) (v_cluster x) (v_syn x)
      end).

(** unionfind_decoder.py 206-209: [Vertex.to_interior]. *)
Definition to_interior (x : vertex) : Res vertex :=
  do _ <- assertR (eqb_vstate (v_state x) Boundary);
  Ok (mkVertex Interior (v_parent x) (v_cluster x) (v_syn x)).

(** unionfind_decoder.py 354-366, 474-481: [Graph.refresh_open_clusters]. *)
Definition refresh_open (u : ugraph) : Res ugraph :=
  do r <- foldR (fun (s : list cluster * list nat) c =>
            let (cs, new) := s in
            do k <- get cs c;
            match c_par k with
            | Some true => Ok (cs, new ++ [c])
            | _ => do _ <- assertR (c_open k);
                   Ok (upd c (mkCluster (c_root k) (c_bound k) (c_par k) false) cs, new)
            end) (u_open u) (u_clus u, []);
  Ok (set_open (snd r) (set_clus (fst r) u)).

(** unionfind_decoder.py 368-377, 483-490: [Graph.reopen_cluster]. *)
Definition reopen (u : ugraph) (c : nat) : Res ugraph :=
  do k <- get (u_clus u) c;
  do _ <- assertR (negb (c_open k));
  Ok (set_open (u_open u ++ [c])
       (set_clus (upd c (mkCluster (c_root k) (c_bound k) (c_par k) true) (u_clus u)) u)).

(** unionfind_decoder.py 379-386: [Graph.reset] with [Vertex.reset] (116-120) and [Edge.reset]
    (242-244). *)
Definition reset_graph (u : ugraph) : ugraph :=
  mkUgraph (u_ends u) (u_adj u)
    (map (fun e => mkGrowth (Some 0%Q) (g_max e) (g_inc e)) (u_grow u))
    (map (fun x => mkVertex Unused None None (v_syn x)) (u_verts u)) [] [].

(** unionfind_decoder.py 388-392: [Graph.set_syndrome]. *)
Definition set_syndrome (syn : list bool) (u : ugraph) : Res ugraph :=
  do _ <- assertR (length syn =? length (u_verts u));
  Ok (set_verts (map (fun xs : vertex * bool =>
                        mkVertex (v_state (fst xs)) (v_parent (fst xs)) (v_cluster (fst xs))
                          (snd xs)) (combine (u_verts u) syn)) u).

(** unionfind_decoder.py 394-399: [Graph.add_cluster]. *)
Definition add_cluster (u : ugraph) : ugraph * nat :=
  let c := length (u_clus u) in
  (set_open (u_open u ++ [c])
     (set_clus (u_clus u ++ [mkCluster None (Some []) (Some false) true]) u), c).

(** unionfind_decoder.py 499-501: [Cluster.add_dangling_edge]. *)
Definition add_dangling (u : ugraph) (c : nat) : Res ugraph :=
  do k <- get (u_clus u) c;
  Ok (set_clus (upd c (mkCluster (c_root k) (c_bound k) None (c_open k)) (u_clus u)) u).

(** unionfind_decoder.py 532-545: [Cluster.add_vertex]. *)
Definition add_vertex (u : ugraph) (c v : nat) : Res ugraph :=
  do k <- get (u_clus u) c;
  match c_bound k with
  | None => Err AssertionError
  | Some b =>
      do x <- get (u_verts u) v;
      let par := match c_par k with None => None | Some p => Some (xorb p (v_syn x)) end in
      do rx <- match b with
               | [] => do x' <- to_boundary x (inl c); Ok (Some v, x')
               | _ :: _ =>
                   match c_root k with
                   | None => Err AssertionError
                   | Some r => do x' <- to_boundary x (inr r); Ok (Some r, x')
                   end
               end;
      Ok (set_verts (upd v (snd rx) (u_verts u))
           (set_clus (upd c (mkCluster (fst rx) (Some (b ++ [v])) par (c_open k)) (u_clus u))
              u))
  end.

(** unionfind_decoder.py 547-557: [Cluster.update_after_growth]. *)
Definition update_after_growth (u : ugraph) (c : nat) : Res ugraph :=
  do k <- get (u_clus u) c;
  match c_bound k with
  | None => Ok u
  | Some b =>
      do r <- foldR (fun (s : list vertex * list nat) v =>
                let (vs, new) := s in
                do all <- all_complete u v;
                if all : bool
                then do x <- get vs v; do x' <- to_interior x; Ok (upd v x' vs, new)
                else Ok (vs, new ++ [v])) b (u_verts u, []);
      Ok (set_verts (fst r)
           (set_clus (upd c (mkCluster (c_root k) (Some (snd r)) (c_par k) (c_open k))
                        (u_clus u)) u))
  end.

(** unionfind_decoder.py 515-530: [Cluster.merge_with] for two different clusters after the
    choice of the one to be kept ([self]), with [delete] (492-497). *)
Definition absorb (u : ugraph) (self other : nat) : Res ugraph :=
  do s <- get (u_clus u) self;
  do o <- get (u_clus u) other;
  match c_bound s, c_bound o with
  | Some bs, Some bo =>
      let par := match c_par s, c_par o with
                 | Some p, Some q => Some (xorb p q)
                 | _, _ => None
                 end in
      match c_root s, c_root o with
      | Some rs, Some ro =>
          do x <- get (u_verts u) ro;
          do x' <- set_parent x rs;
          let cs := upd other (mkCluster None None (Some false) (c_open o))
                      (upd self (mkCluster (Some rs) (Some (bs ++ bo)) par (c_open s))
                         (u_clus u)) in
          let u' := set_clus cs (set_verts (upd ro x' (u_verts u)) u) in
          match c_open s, par with
          | false, Some true => reopen u' self
          | _, _ => Ok u'
          end
      | _, _ => Err AssertionError
      end
  | _, _ => Err AssertionError
  end.

(** unionfind_decoder.py 503-514: [Cluster.merge_with]; the recursive call has the clusters
    exchanged and does not recur again, because the comparison is strict. *)
Definition merge_with (u : ugraph) (self other : nat) : Res ugraph :=
  if self =? other then Ok u
  else
    do s <- get (u_clus u) self;
    do o <- get (u_clus u) other;
    match c_bound s, c_bound o with
    | Some bs, Some bo =>
        if length bs <? length bo then absorb u other self else absorb u self other
    | _, _ => Err AssertionError
    end.

(** unionfind_decoder.py 433-443: body of the loop over the edges of a vertex in
    [init_erasure_clusters].  State: graph, [edge_visited], [todo]. *)
Definition explore (c : nat) (s : ugraph * list bool * list nat) (en : entry)
  : Res (ugraph * list bool * list nat) :=
  let '(u, vis, todo) := s in
  let (e, next) := en in
  do seen <- get vis e;
  if seen then Ok s
  else
    let vis := upd e true vis in
    do g <- get (u_grow u) e;
    if complete g then
      match next with
      | None => do u' <- add_dangling u c; Ok (u', vis, todo)
      | Some w =>
          do x <- get (u_verts u) w;
          if eqb_vstate (v_state x) Unused
          then do u' <- add_vertex u c w; Ok (u', vis, todo ++ [w])
          else Ok (u, vis, todo)
      end
    else Ok (u, vis, todo).

(** unionfind_decoder.py 431-443: [while todo].  [todo] is in the order of the code, the last
    element is taken.  *)
Fixpoint search (fuel : nat) (c : nat) (u : ugraph) (vis : list bool) (todo : list nat)
  : Res (ugraph * list bool) :=
  match rev todo with
  | [] => Ok (u, vis)
  | v :: rest =>
      match fuel with
      | O => Err Unmodelled
      | S fuel =>
          do l <- get (u_adj u) v;
          do s <- foldR (explore c) l (u, vis, rev rest);
          let '(u', vis', todo') := s in
          search fuel c u' vis' todo'
      end
  end.

(** unionfind_decoder.py 424-444: body of the loop over the edges in
    [init_erasure_clusters]. *)
Definition erasure_cluster (s : ugraph * list bool) (i : nat) : Res (ugraph * list bool) :=
  let (u, vis) := s in
  do seen <- get vis i;
  do g <- get (u_grow u) i;
  if seen || negb (complete g) then Ok s
  else
    let (u1, c) := add_cluster u in
    do edge <- get (u_ends u1) i;
    do start <- get edge 0;
    do u2 <- add_vertex u1 c start;
    do r <- search (S (length (u_verts u))) c u2 vis [start];
    let (u3, vis3) := r in
    do u4 <- update_after_growth u3 c;
    Ok (u4, vis3).

(** unionfind_decoder.py 418-444: [Graph.init_erasure_clusters]. *)
Definition init_erasure_clusters (u : ugraph) : Res ugraph :=
  let m := length (u_grow u) in
  do s <- foldR erasure_cluster (seq 0 m) (u, repeat false m);
  Ok (fst s).

(** unionfind_decoder.py 446-452: [Graph.init_syndrome_clusters]. *)
Definition init_syndrome_clusters (u : ugraph) : Res ugraph :=
  foldR (fun u v =>
           do x <- get (u_verts u) v;
           if v_syn x && eqb_vstate (v_state x) Unused
           then let (u1, c) := add_cluster u in
                do u2 <- add_vertex u1 c v;
                update_after_growth u2 c
           else Ok u) (seq 0 (length (u_verts u))) u.

(** unionfind_decoder.py 401-416: [Graph.init]. *)
Definition init_graph (erasure : list nat) (syn : list bool) (u : ugraph) : Res ugraph :=
  do u1 <- set_syndrome syn (reset_graph u);
  do u2 <- foldR (fun u e =>
             do g <- get (u_grow u) e;
             if complete g then Ok u
             else do g' <- set_complete g; Ok (set_grow (upd e g' (u_grow u)) u)) erasure u1;
  do u3 <- init_erasure_clusters u2;
  init_syndrome_clusters u3.

(** unionfind_decoder.py 668-674: body of the loops over the edges of the vertices of a
    cluster in [step].  State: growth of the edges, [edges_grown], [new_edges]. *)
Definition grow_edge (s : list growth * nat * list nat) (en : entry)
  : Res (list growth * nat * list nat) :=
  let '(gs, k, new) := s in
  do g <- get gs (fst en);
  if complete g then Ok s
  else do g' <- grow g;
       Ok (upd (fst en) g' gs, S k, if complete g' then new ++ [fst en] else new).

(** unionfind_decoder.py 663-674: body of the loop over the open clusters in [step]. *)
Definition grow_cluster (adj : list (list entry)) (cs : list cluster) (min_size : nat)
  (s : list growth * nat * list nat) (c : nat) : Res (list growth * nat * list nat) :=
  do k <- get cs c;
  match c_bound k with
  | None => Err TypeError
  | Some b =>
      if min_size <? length b then Ok s
      else foldR (fun s v => do l <- get adj v; foldR grow_edge l s) b s
  end.

(** unionfind_decoder.py 683-706: body of the loop in [handle_new_edges]. *)
Definition handle_edge (u : ugraph) (e : nat) : Res ugraph :=
  do edge <- get (u_ends u) e;
  match edge with
  | [v] =>
      do x <- get (u_verts u) v;
      do _ <- assertR (eqb_vstate (v_state x) Boundary);
      do r <- r_cluster u v;
      add_dangling (fst r) (snd r)
  | [a; b] =>
      do xa <- get (u_verts u) a;
      let (v0, v1) := if eqb_vstate (v_state xa) Boundary then (a, b) else (b, a) in
      do x0 <- get (u_verts u) v0;
      do _ <- assertR (eqb_vstate (v_state x0) Boundary);
      do x1 <- get (u_verts u) v1;
      if eqb_vstate (v_state x1) Boundary
      then do r0 <- r_cluster u v0;
           do r1 <- r_cluster (fst r0) v1;
           merge_with (fst r1) (snd r0) (snd r1)
      else do _ <- assertR (eqb_vstate (v_state x1) Unused);
           do r0 <- r_cluster u v0;
           add_vertex (fst r0) (snd r0) v1
  | _ => Err ValueError
  end.

(** unionfind_decoder.py 660: sizes of the boundaries; [len(None)] raises [TypeError]. *)
Definition boundary_sizes (u : ugraph) : Res (list nat) :=
  mapR (fun c => do k <- get (u_clus u) c;
                 match c_bound k with None => Err TypeError | Some b => Ok (length b) end)
    (u_open u).

(** unionfind_decoder.py 655-679: [UnionFindNoWeights.step]. *)
Definition step (u : ugraph) : Res ugraph :=
  do u <- refresh_open u;
  match u_open u with
  | [] => Ok u
  | _ :: _ =>
      do sizes <- boundary_sizes u;
      let min_size := fold_right Nat.min (hd 0 sizes) sizes in
      do r <- foldR (grow_cluster (u_adj u) (u_clus u) min_size) (u_open u)
                (u_grow u, 0, []);
      let '(gs, edges_grown, new) := r in
      do _ <- assertR (0 <? edges_grown);
      let u := set_grow gs u in
      match new with
      | [] => Ok u
      | _ :: _ =>
          do u <- foldR handle_edge new u;
          foldR update_after_growth (seq 0 (length (u_clus u))) u
      end
  end.

(** unionfind_decoder.py 650-651: the loop of [union_find]. *)
Fixpoint steps (fuel : nat) (u : ugraph) : Res ugraph :=
  match u_open u with
  | [] => Ok u
  | _ :: _ => match fuel with
              | O => Err Unmodelled
              | S fuel => do u' <- step u; steps fuel u'
              end
  end.

(** unionfind_decoder.py 333-344: [Graph.get_complete_edges]. *)
Definition complete_edges (u : ugraph) : list nat :=
  filter (fun i => match nth_error (u_grow u) i with Some g => complete g | None => false end)
    (seq 0 (length (u_grow u))).

(** unionfind_decoder.py 645-653: [UnionFindNoWeights.union_find]. *)
Definition union_find (fuel : nat) (erasure : list nat) (syn : list bool) (u : ugraph)
  : Res (ugraph * list nat) :=
  do u1 <- init_graph erasure syn u;
  do u2 <- steps fuel u1;
  Ok (u2, complete_edges u2).

(** unionfind_decoder.py 740-755: [UnionFindDecoder.decode] with the erasure decoder. *)
Definition uf_decode (fuel : nat) (erasure : list nat) (syn : list bool) (u : ugraph)
  : Res (ugraph * list bool) :=
  do r <- union_find fuel erasure syn u;
  do corr <- erasure_decode (length (u_verts u)) (u_ends u) (snd r) syn;
  Ok (fst r, corr).

(** unionfind_decoder.py 603-607: [set_weights(None)]; [weighted] tells whether weights have
    been set before. *)
Definition unset_weights (weighted : bool) (u : ugraph) : ugraph :=
  if weighted
  then set_grow (map (fun g => mkGrowth (g_cur g) 2%Q (Some 1%Q)) (u_grow u)) u
  else u.

(** unionfind_decoder.py 609: the minimum of the weights other than zero; [np.min] of an empty
    array raises [ValueError]. *)
Definition min_nonzero (ws : list Q) : Res Q :=
  match filter (fun w => negb (Qeq_bool w 0)) ws with
  | [] => Err ValueError
  | w :: l => Ok (fold_left (fun a b => if Qle_bool a b then a else b) l w)
  end.

(** unionfind_decoder.py 609-611, 712-717: [UnionFind.set_weights] with an array of weights;
    [c] is the normalisation coefficient (2 by default).  The increment [1 / 0] is infinite. *)
Definition set_weights (c : Q) (ws : list Q) (u : ugraph) : Res ugraph :=
  do lo <- min_nonzero ws;
  do _ <- assertR (length ws =? length (u_grow u));
  Ok (set_grow (map (fun gw : growth * Q =>
         let w := (c * snd gw / lo)%Q in
         mkGrowth (g_cur (fst gw)) 1%Q
           (if Qeq_bool w 0 then None else Some (1 / (2 * w))%Q))
       (combine (u_grow u) ws)) u).
