(** Model of the syndrome graph (/repo/src/plaquette/syngraph/__init__.py, without the
    statistics and the manager).

    Vertices, edges and components are represented by their indices in [SyndromeGraph.vertices],
    [edges] and [components]; an attribute of the vertices or edges is a list with one entry for
    each object.

    Simplifications:
    - a weight is NaN, infinite or a rational number;
    - [_edge_weights] has the weights of the edges at all times and is left out;
    - [qubit_idx] is an array with one element in the code, and so are the weights and erasures
      looked up with it; numpy treats them as numbers in all places where they are used (with
      [DeprecationWarning]s for the conversion to a number, numpy >= 1.25);
    - if there is only one generator, [commutator_sign] squeezes the matrix to one dimension and
      [np.where] is applied to numbers; this works like an array with one element (with a
      [DeprecationWarning], and no more since numpy 2.1);
    - [n_rounds] is not negative, and generators with different numbers of qubits or with no
      qubits at all are not modelled. *)
Require Import List Bool Arith ZArith QArith Lia.
From Verif Require Import Base QSpec PauliModel ErasureModel.
Import ListNotations.
Open Scope nat_scope.

(** Edge weights: floats (345-346). *)
Inductive weight := NaN | Inf (negative : bool) | Fin (q : Q).

(** np.isnan, np.isinf (753, 786-787, 554-556). *)
Definition is_nan (w : weight) : bool := match w with NaN => true | _ => false end.
Definition is_inf (w : weight) : bool := match w with Inf _ => true | _ => false end.

(** [a < b] for floats (791: [min]). *)
Definition wlt (a b : weight) : bool :=
  match a, b with
  | NaN, _ | _, NaN => false
  | Inf s, Inf t => s && negb t
  | Inf s, Fin _ => s
  | Fin _, Inf t => negb t
  | Fin p, Fin q => negb (Qle_bool q p)
  end.

(** [a == b] for floats (792). *)
Definition weqb (a b : weight) : bool :=
  match a, b with
  | Inf s, Inf t => Bool.eqb s t
  | Fin p, Fin q => Qeq_bool p q
  | _, _ => false
  end.

(** 395-413 [QubitErrorEdge], 416-437 [StabilizerErrorEdge]: the class of an edge with the
    attributes of the subclass. *)
Inductive ekind :=
| QubitError (time_step error_op_idx qubit_idx : nat) (pauli : pauli1)
| StabError (time_step stabgen_idx : nat).

(** 440-475 [SyndromeGraphComponent].  [edge_erased] does not exist before the first call of
    [set_erasure]. *)
Record comp := mkComp {
  k_n : nat;                         (* n_vertices *)
  k_edges : list (list nat);         (* edges *)
  k_dang : bool;                     (* has_dangling_edges *)
  k_wt : list weight;                (* edge_weights *)
  k_erased : option (list bool);     (* edge_erased *)
  k_result : list bool;              (* edge_decoder_result *)
  k_new : bool;                      (* decoder_results_new *)
  k_syn : list bool;                 (* syndrome *)
  k_vidx : list nat;                 (* parent_vertex_idx *)
  k_eidx : list nat                  (* parent_edge_idx *)
}.

(** 564-606 [SyndromeGraph] with 238-284 [Vertex] and 326-357 [Edge]. *)
Record sgraph := mkSgraph {
  sg_rounds : nat;                      (* n_rounds *)
  sg_n : nat;                           (* n_qubits *)
  sg_m : nat;                           (* n_stabgens *)
  sg_ops : list row;                    (* error_ops *)
  sg_verts : list (nat * nat);          (* Vertex.time_step, Vertex.stabgen_idx *)
  sg_at : list (list nat);              (* vertices_at_time *)
  sg_vedges : list (list nat);          (* Vertex.all_edges *)
  sg_vneigh : list (list (nat * nat));  (* Vertex.all_neighbours *)
  sg_vcomp : list (option nat);         (* Vertex.connected_component_idx *)
  sg_ends : list (list nat);            (* Edge.vertices *)
  sg_kind : list ekind;
  sg_wt : list weight;                  (* Edge.weight *)
  sg_on : list bool;                    (* Edge.enabled *)
  sg_ecomp : list (option nat);         (* Edge.connected_component_idx *)
  sg_result : list bool;                (* Edge.decoder_result *)
  sg_comps : list comp                  (* components *)
}.
(** [Vertex.syndrome] and [Edge.erased] are written and only read to fill the arrays in
    [set_syndrome] and [set_erasure] at once, and are left out. *)

(** Assignments to attributes. *)
Definition set_adj ve vn g := mkSgraph (sg_rounds g) (sg_n g) (sg_m g) (sg_ops g) (sg_verts g) (sg_at g)
  ve vn (sg_vcomp g) (sg_ends g) (sg_kind g) (sg_wt g) (sg_on g) (sg_ecomp g) (sg_result g) (sg_comps g).
Definition set_wt x g := mkSgraph (sg_rounds g) (sg_n g) (sg_m g) (sg_ops g) (sg_verts g) (sg_at g)
  (sg_vedges g) (sg_vneigh g) (sg_vcomp g) (sg_ends g) (sg_kind g) x (sg_on g) (sg_ecomp g) (sg_result g) (sg_comps g).
Definition set_on x g := mkSgraph (sg_rounds g) (sg_n g) (sg_m g) (sg_ops g) (sg_verts g) (sg_at g)
  (sg_vedges g) (sg_vneigh g) (sg_vcomp g) (sg_ends g) (sg_kind g) (sg_wt g) x (sg_ecomp g) (sg_result g) (sg_comps g).
Definition set_vcomp x g := mkSgraph (sg_rounds g) (sg_n g) (sg_m g) (sg_ops g) (sg_verts g) (sg_at g)
  (sg_vedges g) (sg_vneigh g) x (sg_ends g) (sg_kind g) (sg_wt g) (sg_on g) (sg_ecomp g) (sg_result g) (sg_comps g).
Definition set_ecomp x g := mkSgraph (sg_rounds g) (sg_n g) (sg_m g) (sg_ops g) (sg_verts g) (sg_at g)
  (sg_vedges g) (sg_vneigh g) (sg_vcomp g) (sg_ends g) (sg_kind g) (sg_wt g) (sg_on g) x (sg_result g) (sg_comps g).
Definition set_result x g := mkSgraph (sg_rounds g) (sg_n g) (sg_m g) (sg_ops g) (sg_verts g) (sg_at g)
  (sg_vedges g) (sg_vneigh g) (sg_vcomp g) (sg_ends g) (sg_kind g) (sg_wt g) (sg_on g) (sg_ecomp g) x (sg_comps g).
Definition set_comps x g := mkSgraph (sg_rounds g) (sg_n g) (sg_m g) (sg_ops g) (sg_verts g) (sg_at g)
  (sg_vedges g) (sg_vneigh g) (sg_vcomp g) (sg_ends g) (sg_kind g) (sg_wt g) (sg_on g) (sg_ecomp g) (sg_result g) x.

(** numpy: [a[idx]] for an array of indices. *)
Definition take {A} (l : list A) (idx : list nat) : Res (list A) := mapR (get l) idx.

(** * Vertices and edges *)

(** 286-292 [Vertex.add_edge] of vertex [v] for edge [i] with the vertices [ends].  Edges are
    compared by their first attribute [edge_idx] (dataclass equality); so are vertices. *)
Definition add_edge (i : nat) (ends : list nat) (g : sgraph) (v : nat) : Res sgraph :=
  do es <- get (sg_vedges g) v;
  do nb <- get (sg_vneigh g) v;
  do _ <- assertR (forallb (fun e => negb (e =? i)) es);
  Ok (set_adj (upd v (es ++ [i]) (sg_vedges g))
              (upd v (nb ++ map (pair i) (filter (fun w => negb (w =? v)) ends)) (sg_vneigh g)) g).

(** 719-728, 736-743 (a new edge is appended to [edges]) with 340-361 (its attributes and
    [__post_init__]). *)
Definition new_edge (ends : list nat) (kind : ekind) (g : sgraph) : Res sgraph :=
  do g1 <- foldR (add_edge (length (sg_ends g)) ends) ends g;
  Ok (mkSgraph (sg_rounds g1) (sg_n g1) (sg_m g1) (sg_ops g1) (sg_verts g1) (sg_at g1)
       (sg_vedges g1) (sg_vneigh g1) (sg_vcomp g1) (sg_ends g1 ++ [ends]) (sg_kind g1 ++ [kind])
       (sg_wt g1 ++ [NaN]) (sg_on g1 ++ [true]) (sg_ecomp g1 ++ [None]) (sg_result g1 ++ [false])
       (sg_comps g1)).

(** 656-665 [_init_error_ops]. *)
Definition error_ops (n : nat) : Res (list row) :=
  mapR (fun oi : pauli1 * nat => single_qubit_pauli_operator false (fst oi) (snd oi) n)
    (list_prod [PX; PZ] (seq 0 n)).

(** 667-680 [_init_vertices]: [vertices] and [vertices_at_time]. *)
Definition init_vertices (rounds m : nat) : list (nat * nat) * list (list nat) :=
  fold_left (fun (s : list (nat * nat) * list (list nat)) t =>
               (fst s ++ map (pair t) (seq 0 m), snd s ++ [seq (length (fst s)) m]))
    (seq 0 rounds) ([], []).

(** 685-692: only single-qubit operators. *)
Definition check_single (n : nat) (op : row) : Res unit :=
  match nonzero (map fst (ops op) ++ map snd (ops op)) with
  | [] | [_] => Ok tt
  | [a; b] => if b - a =? n then Ok tt else Err ValueError
  | _ => Err ValueError
  end.

(** 706-718: qubit and letter of an error operator.  If there is no letter, the code uses the
    qubit of the edge before. *)
Definition op_letter (op : row) : Res (nat * pauli1) :=
  match nonzero (map fst (ops op)), nonzero (map snd (ops op)) with
  | [_], [q] => Ok (q, PY)
  | [q], _ => Ok (q, PX)
  | _, [q] => Ok (q, PZ)
  | _, _ => Err Unmodelled
  end.

(** 694-728: body of the loops of [_init_qubit_error_edges]; [ksg] is an entry of
    [enumerate(comm_signs)]. *)
Definition add_qubit_edge (t : nat) (g : sgraph) (ksg : nat * list bool) : Res sgraph :=
  let '(k, signs) := ksg in
  let idx := nonzero signs in
  if 2 <? length idx then Err ValueError
  else
    do ends <- mapR (fun s => do vs <- get (sg_at g) t; get vs s) idx;
    do op <- get (sg_ops g) k;
    do ql <- op_letter op;
    new_edge ends (QubitError t k (fst ql) (snd ql)) g.

(** 682-728 [_init_qubit_error_edges]. *)
Definition init_qubit_edges (stabgens : list row) (g : sgraph) : Res sgraph :=
  if (sg_n g =? 0) || negb (forallb (fun r => length (ops r) =? sg_n g) stabgens) then Err Unmodelled
  else
    let signs := map (fun op => map (commutator_sign op) stabgens) (sg_ops g) in
    do _ <- mapR (check_single (sg_n g)) (sg_ops g);
    foldR (fun g t => foldR (add_qubit_edge t) (combine (seq 0 (length signs)) signs) g)
      (seq 0 (sg_rounds g)) g.

(** 732-743: body of the loops of [_init_measurement_error_edges]. *)
Definition add_stab_edge (t : nat) (g : sgraph) (s : nat) : Res sgraph :=
  do prev <- get (sg_at g) (t - 1);
  do a <- get prev s;
  do cur <- get (sg_at g) t;
  do b <- get cur s;
  new_edge [a; b] (StabError t s) g.

(** 729-743 [_init_measurement_error_edges]. *)
Definition init_stab_edges (g : sgraph) : Res sgraph :=
  foldR (fun g t => foldR (add_stab_edge t) (seq 0 (sg_m g)) g) (seq 1 (sg_rounds g - 1)) g.

(** * Weights *)

(** An argument of [set_edge_weights]: a number or an array. *)
Inductive wspec := WNum (w : weight) | WArr (l : list weight).

(** 871-873: [np.ones([k]) * x]. *)
Definition broadcast (k : nat) (x : wspec) : Res (list weight) :=
  match x with
  | WNum w => Ok (repeat w k)
  | WArr l =>
      if (length l =? k) || (k =? 1) then Ok l
      else match l with [w] => Ok (repeat w k) | _ => Err ValueError end
  end.

(** The keyword arguments of [set_edge_weights]. *)
Record warg := mkWarg { w_x : wspec; w_z : wspec; w_meas : wspec }.

(** 875-887: the new weight of an edge. *)
Definition edge_weight (px pz ms : list weight) (k : ekind) : Res weight :=
  match k with
  | QubitError _ _ q PX => get px q
  | QubitError _ _ q PZ => get pz q
  | QubitError _ _ _ _ => Err ValueError
  | StabError _ s => get ms s
  end.

(** 842-891 [set_edge_weights] as called by [__init__]; after that it raises [ValueError]
    (863-869). *)
Definition set_edge_weights (w : warg) (g : sgraph) : Res sgraph :=
  do px <- broadcast (sg_n g) (w_x w);
  do pz <- broadcast (sg_n g) (w_z w);
  do ms <- broadcast (sg_m g) (w_meas w);
  do ws <- mapR (edge_weight px pz ms) (sg_kind g);
  Ok (set_wt ws g).

(** 746-755 [_check_edges_infweight]. *)
Definition disable_inf (g : sgraph) : sgraph :=
  set_on (map (fun ow : bool * weight => if is_inf (snd ow) then false else fst ow)
            (combine (sg_on g) (sg_wt g))) g.

(** Python [min] of a non-empty list (791). *)
Definition wmin (ws : list weight) : Res weight :=
  match ws with
  | [] => Err ValueError
  | w :: l => Ok (fold_left (fun a b => if wlt b a then b else a) l w)
  end.

(** 777-795 [_select_lightest_edge]. *)
Definition select_lightest (wt : list weight) (on : list bool) (edges : list nat) : Res (list bool) :=
  do ws <- take wt edges;
  do sel <-
    (if existsb is_nan ws then
       if negb (forallb is_nan ws) then Err ValueError
       else match edges with [] => Err IndexError | e :: _ => Ok e end
     else
       do lo <- wmin ws;
       match find (fun ew : nat * weight => weqb (snd ew) lo) (combine edges ws) with
       | Some ew => Ok (fst ew)
       | None => Err StopIteration
       end);
  Ok (fold_left (fun on e => if e =? sel then on else upd e false on) edges on).

(** Equality of tuples of vertex indices (767-770). *)
Fixpoint eqb_key (a b : list nat) : bool :=
  match a, b with
  | [], [] => true
  | x :: a', y :: b' => (x =? y) && eqb_key a' b'
  | _, _ => false
  end.

(** 767-770: the edge is appended to the entry of the dict. *)
Fixpoint dict_push (key : list nat) (e : nat) (d : list (list nat * list nat)) : list (list nat * list nat) :=
  match d with
  | [] => [(key, [e])]
  | (k, es) :: d' => if eqb_key k key then (k, es ++ [e]) :: d' else (k, es) :: dict_push key e d'
  end.

(** 765-773: body of the loop over [vertex.all_edges]. *)
Definition duplicate_step (g : sgraph) (s : list (list nat * list nat) * list bool) (e : nat)
  : Res (list (list nat * list nat) * list bool) :=
  do key <- get (sg_ends g) e;
  let d := dict_push key e (fst s) in
  do on <- foldR (fun on (kes : list nat * list nat) =>
             if 1 <? length (snd kes) then select_lightest (sg_wt g) on (snd kes) else Ok on) d (snd s);
  Ok (d, on).

(** 757-774 [_check_edges_duplicate]. *)
Definition disable_duplicates (g : sgraph) : Res sgraph :=
  do on <- foldR (fun on es => do s <- foldR (duplicate_step g) es ([], on); Ok (snd s))
             (sg_vedges g) (sg_on g);
  Ok (set_on on g).

(** * Connected components *)

(** [i == j] for optional indices (316, 840). *)
Definition eqb_opt (a : option nat) (c : nat) : bool :=
  match a with Some x => x =? c | None => false end.

(** [edge.enabled]. *)
Definition enabled (g : sgraph) (e : nat) : bool := nth e (sg_on g) false.

(** 313-316: body of the loop over the enabled edges in [Vertex.set_connected_component] with
    363-369 [Edge.set_connected_component]. *)
Definition mark_edge (c : nat) (ec : list (option nat)) (e : nat) : Res (list (option nat)) :=
  do x <- get ec e;
  match x with
  | None => Ok (upd e (Some c) ec)
  | Some c' => do _ <- assertR (c' =? c); Ok ec
  end.

(** 308-316 [Vertex.set_connected_component] with 294-299 [Vertex.edges]. *)
Definition mark_vertex (c : nat) (g : sgraph) (v : nat) : Res sgraph :=
  do x <- get (sg_vcomp g) v;
  do _ <- assertR (match x with None => true | Some _ => false end);
  do es <- get (sg_vedges g) v;
  do ec <- foldR (mark_edge c) (filter (enabled g) es) (sg_ecomp g);
  Ok (set_ecomp ec (set_vcomp (upd v (Some c) (sg_vcomp g)) g)).

(** 834-840: body of the loop over the neighbours. *)
Definition visit (c : nat) (s : sgraph * list nat) (w : nat) : Res (sgraph * list nat) :=
  do x <- get (sg_vcomp (fst s)) w;
  match x with
  | None => do g <- mark_vertex c (fst s) w; Ok (g, snd s ++ [w])
  | Some c' => do _ <- assertR (c' =? c); Ok s
  end.

(** 832-840: [while todo] with 301-306 [Vertex.neighbours].  The last element of [todo] is
    popped. *)
Fixpoint explore_component (fuel : nat) (c : nat) (g : sgraph) (todo : list nat) : Res sgraph :=
  match rev todo with
  | [] => Ok g
  | v :: rest =>
      match fuel with
      | O => Err Unmodelled
      | S fuel =>
          do nb <- get (sg_vneigh g) v;
          do s <- foldR (visit c) (map snd (filter (fun ev => enabled g (fst ev)) nb)) (g, rev rest);
          explore_component fuel c (fst s) (snd s)
      end
  end.

(** 828-840 [_find_connected_component]. *)
Definition find_component (g : sgraph) (v c : nat) : Res sgraph :=
  do g1 <- mark_vertex c g v;
  explore_component (length (sg_verts g)) c g1 [v].

(** 797-808: the loop of [_init_conn_components]; a vertex without component is looked at a
    second time, when it has one. *)
Definition find_components (g : sgraph) : Res (sgraph * nat) :=
  foldR (fun (s : sgraph * nat) v =>
           do x <- get (sg_vcomp (fst s)) v;
           match x with
           | Some _ => Ok s
           | None => do g <- find_component (fst s) v (snd s); Ok (g, S (snd s))
           end)
    (seq 0 (length (sg_verts g))) (g, 0).

(** Python: [all(x is not None)]; the entries, or [AssertionError] (501: the entry -1 of
    [rev_vertex_idx] is [None]). *)
Definition someR {A} (o : option A) : Res A := match o with Some a => Ok a | None => Err AssertionError end.

(** 477-504 [SyndromeGraphComponent.__init__].  [max] of an empty array raises [ValueError]. *)
Definition new_component (verts edges : list nat) (ends : list (list nat)) (ws : list weight) : Res comp :=
  match verts with
  | [] => Err ValueError
  | _ =>
      let n := length verts in
      let rev_idx := fold_left (fun r (vi : nat * nat) => upd (fst vi) (Some (snd vi)) r)
                       (combine verts (seq 0 n)) (repeat None (S (list_max verts))) in
      do es <- mapR (mapR (get rev_idx)) ends;
      do es <- mapR (mapR someR) es;
      do _ <- assertR (length ws =? length es);
      Ok (mkComp n es (existsb (fun e => length e =? 1) es) ws None
            (repeat false (length es)) true (repeat false n) verts edges)
  end.

(** 814-819: indices of the objects which belong to component [c]. *)
Definition members (c : nat) (l : list (option nat)) : list nat :=
  filter (fun i => eqb_opt (nth i l None) c) (seq 0 (length l)).

(** 810-826 [_init_components_objects]. *)
Definition init_components (g : sgraph) (n_components : nat) : Res sgraph :=
  do _ <- mapR someR (sg_vcomp g);
  do cs <- mapR (fun c =>
             let es := members c (sg_ecomp g) in
             do ends <- take (sg_ends g) es;
             new_component (members c (sg_vcomp g)) es ends (repeat NaN (length es)))
           (seq 0 n_components);
  Ok (set_comps cs g).

(** 824-826 [components_with_edges]. *)
Definition has_edges (k : comp) : bool := negb (length (k_edges k) =? 0).

(** Assignments to attributes of a component; a loop over [components_with_edges]. *)
Definition set_k_wt x k := mkComp (k_n k) (k_edges k) (k_dang k) x (k_erased k) (k_result k) (k_new k) (k_syn k) (k_vidx k) (k_eidx k).
Definition set_k_erased x k := mkComp (k_n k) (k_edges k) (k_dang k) (k_wt k) x (k_result k) (k_new k) (k_syn k) (k_vidx k) (k_eidx k).
Definition set_k_result x b k := mkComp (k_n k) (k_edges k) (k_dang k) (k_wt k) (k_erased k) x b (k_syn k) (k_vidx k) (k_eidx k).
Definition set_k_syn x k := mkComp (k_n k) (k_edges k) (k_dang k) (k_wt k) (k_erased k) (k_result k) (k_new k) x (k_vidx k) (k_eidx k).
Definition with_edges (f : comp -> Res comp) (k : comp) : Res comp := if has_edges k then f k else Ok k.

(** 506-510 [SyndromeGraphComponent.set_edge_weights]. *)
Definition comp_set_weights (ws : list weight) (k : comp) : Res comp :=
  do _ <- assertR (length ws =? length (k_edges k)); Ok (set_k_wt ws k).

(** 893-896 [_set_edge_weights_on_components]. *)
Definition weights_on_components (g : sgraph) : Res sgraph :=
  do cs <- mapR (with_edges (fun k => do ws <- take (sg_wt g) (k_eidx k); comp_set_weights ws k)) (sg_comps g);
  Ok (set_comps cs g).

(** 608-644 [__init__].  [stabgens[0]] raises [IndexError] if there are no generators. *)
Definition new_sgraph (rounds : nat) (stabgens : list row) (weights : option warg) : Res sgraph :=
  match stabgens with
  | [] => Err IndexError
  | s0 :: _ =>
      let n := length (ops s0) in
      do eops <- error_ops n;
      let '(verts, at_time) := init_vertices rounds (length stabgens) in
      let nv := length verts in
      let g := mkSgraph rounds n (length stabgens) eops verts at_time
                 (repeat [] nv) (repeat [] nv) (repeat None nv) [] [] [] [] [] [] [] in
      do g <- init_qubit_edges stabgens g;
      do g <- init_stab_edges g;
      do g <- match weights with Some w => set_edge_weights w g | None => Ok g end;
      do g <- disable_duplicates (disable_inf g);
      do gc <- find_components g;
      do g <- init_components (fst gc) (snd gc);
      weights_on_components g
  end.

(** * Erasure, syndrome and results *)

(** numpy: an array of shape [(a, b)]. *)
Definition has_shape {A} (x : list (list A)) (a b : nat) : bool :=
  (length x =? a) && forallb (fun r => length r =? b) x.

(** numpy: [x[i, j]]. *)
Definition get2 {A} (x : list (list A)) (i j : nat) : Res A := do r <- get x i; get r j.

(** 512-516 [SyndromeGraphComponent.set_erasure]. *)
Definition comp_set_erasure (er : list bool) (k : comp) : Res comp :=
  do _ <- assertR (length er =? length (k_edges k)); Ok (set_k_erased (Some er) k).

(** 898-921 [set_erasure]. *)
Definition set_erasure (qubit_erased : option (list (list bool))) (g : sgraph) : Res sgraph :=
  let q := match qubit_erased with Some x => x | None => repeat (repeat false (sg_n g)) (sg_rounds g) end in
  do _ <- assertR (has_shape q (sg_rounds g) (sg_n g));
  do er <- mapR (fun k => match k with QubitError t _ i _ => get2 q t i | StabError _ _ => Ok false end) (sg_kind g);
  do cs <- mapR (with_edges (fun k => do e <- take er (k_eidx k); comp_set_erasure e k)) (sg_comps g);
  Ok (set_comps cs g).

(** 518-524 [SyndromeGraphComponent.set_syndrome]. *)
Definition comp_set_syndrome (syn : list bool) (k : comp) : Res comp :=
  do _ <- assertR (length syn =? k_n k); Ok (set_k_syn syn k).

(** 923-952 [set_syndrome]. *)
Definition set_syndrome (syndrome : option (list (list bool))) (g : sgraph) : Res sgraph :=
  let q := match syndrome with Some x => x | None => repeat (repeat false (sg_m g)) (sg_rounds g) end in
  do _ <- assertR (has_shape q (sg_rounds g) (sg_m g));
  do s <- foldR (fun (s : list bool * list (list bool)) (p : nat * nat) =>
            do d <- get2 (snd s) (fst p) (snd p);
            do _ <- assertR (negb d);
            do b <- get2 q (fst p) (snd p);
            do r <- get (snd s) (fst p);
            Ok (fst s ++ [b], upd (fst p) (upd (snd p) true r) (snd s)))
          (sg_verts g) ([], repeat (repeat false (sg_m g)) (sg_rounds g));
  do _ <- assertR (forallb (forallb (fun b => b)) (snd s));
  do cs <- mapR (fun k => do x <- take (fst s) (k_vidx k); comp_set_syndrome x k) (sg_comps g);
  Ok (set_comps cs g).

(** 526-545 [SyndromeGraphComponent.set_edge_decoder_results]. *)
Definition comp_set_results (res : list bool) (k : comp) : Res comp :=
  do _ <- assertR (length res =? length (k_edges k)); Ok (set_k_result res true k).

(** 646-654 [from_code]. *)
Definition from_code (rounds : nat) (stabilisers : list row) (weights : option warg) : Res sgraph :=
  new_sgraph rounds stabilisers weights.

(** [sgraph.components[c].set_edge_decoder_results(res)]: the call of a decoder for a component
    (unionfind_interfaces.py:76). *)
Definition set_results (c : nat) (res : list bool) (g : sgraph) : Res sgraph :=
  do k <- get (sg_comps g) c;
  do k <- comp_set_results res k;
  do cs <- put (sg_comps g) c k;
  Ok (set_comps cs g).

(** 547-561 [SyndromeGraphComponent.is_weighted]. *)
Definition is_weighted (support_mixed : bool) (k : comp) : Res bool :=
  if forallb is_nan (k_wt k) then Ok false
  else if negb support_mixed && existsb is_nan (k_wt k) then Err ValueError
  else Ok true.

(** 954-972 [combine_decoding_results]. *)
Definition combine_results (results : list (list bool)) (g : sgraph) : Res (list bool) :=
  let cs := filter has_edges (sg_comps g) in
  do _ <- assertR (length results =? length cs);
  foldR (fun r (kr : comp * list bool) =>
           do _ <- assertR (length (snd kr) =? length (k_eidx (fst kr)));
           foldR (fun r (eb : nat * bool) => put r (fst eb) (snd eb)) (combine (k_eidx (fst kr)) (snd kr)) r)
    (combine cs results) (repeat false (length (sg_ends g))).

(** 974-979 [update_decoder_results]. *)
Definition update_results (g : sgraph) : Res sgraph :=
  do r <- foldR (fun r k => if has_edges k then
                   foldR (fun r (eb : nat * bool) => put r (fst eb) (snd eb)) (combine (k_eidx k) (k_result k)) r
                 else Ok r) (sg_comps g) (sg_result g);
  Ok (set_comps (map (fun k => if has_edges k then set_k_result (k_result k) false k else k) (sg_comps g))
        (set_result r g)).

(** 981-998 [result_as_error_op_selection]. *)
Definition result_selection (g : sgraph) : Res (list bool) :=
  if existsb k_new (filter has_edges (sg_comps g)) then Err ValueError
  else foldR (fun sel (kr : ekind * bool) =>
                match fst kr with
                | QubitError _ op _ _ => do b <- get sel op; put sel op (xorb b (snd kr))
                | StabError _ _ => Ok sel
                end) (combine (sg_kind g) (sg_result g)) (repeat false (length (sg_ops g))).

(** 1000-1010 [result_as_pauli_frame]. *)
Definition result_frame (g : sgraph) : Res row :=
  do sel <- result_selection g;
  do os <- take (sg_ops g) (nonzero sel);
  match os with
  | [] => Ok (mkRow (repeat (false, false) (sg_n g)) false)
  | _ => do r <- multiply os; Ok (fst r)
  end.
