(** Model of the decoders which call PyMatching and Fusion Blossom
    (/repo/src/plaquette/decoders/matching.py, fusionblossom.py and interfaces.py).

    The two libraries are not part of the repository.  The models are functions of an arbitrary
    solver; what is expected of it is stated in MatchingSpec.v and appears as a hypothesis of the
    theorems.

    Simplifications:
    - floats are rationals (100 * w / max(w) is exact before it is truncated);
    - [pymatching.Matching] and [fb.SolverInitializer] are the data given to them.  Of the checks
      in [add_edge] the one for duplicate edges is modelled;
    - a decoder for a component keeps the position of the component in [components] instead of
      a reference to the object. *)
Require Import List Bool Arith ZArith QArith Qround Lia.
From Verif Require Import Base PauliModel ErasureModel UnionFindModel SyngraphModel DecoderModel.
Import ListNotations.
Open Scope nat_scope.

(** * PyMatching *)

(** [pymatching.Matching]: edges between two nodes with a fault id and a weight, and the set of
    boundary nodes. *)
Record pm_edge := mkPmEdge { pe_a : nat; pe_b : nat; pe_fault : nat; pe_weight : Q }.
Record pm_graph := mkPmGraph { pm_edges : list pm_edge; pm_bound : list nat }.

(** [Matching.add_edge] with [merge_strategy="disallow"] (matching.py 35, 58): a second edge
    between two nodes is refused. *)
Definition pm_joins (a b : nat) (e : pm_edge) : bool :=
  ((pe_a e =? a) && (pe_b e =? b)) || ((pe_a e =? b) && (pe_b e =? a)).
Definition pm_add_edge (a b fault : nat) (w : Q) (g : pm_graph) : Res pm_graph :=
  if existsb (pm_joins a b) (pm_edges g) then Err ValueError
  else Ok (mkPmGraph (pm_edges g ++ [mkPmEdge a b fault w]) (pm_bound g)).

(** matching.py 54-70: body of the loop over the edges.  The state is the graph and
    [boundary_edges]; without weights PyMatching uses the weight 1. *)
Definition py_edge (k : comp) (weighted : bool) (s : pm_graph * list nat) (ie : nat * list nat) : Res (pm_graph * list nat) :=
  do w <- (if weighted then do x <- get (k_wt k) (fst ie); finite x else Ok 1%Q);
  match snd ie with
  | [a; b] => do g <- pm_add_edge a b (fst ie) w (fst s); Ok (g, snd s)
  | [a] =>
      do c <- get (snd s) a;
      do g <- pm_add_edge a (k_n k + c) (fst ie) w (fst s);
      Ok (g, upd a (S c) (snd s))
  | _ => Err ValueError
  end.

(** matching.py 37-73 [set_syngraph]. *)
Definition py_new (k : comp) : Res pm_graph :=
  do weighted <- is_weighted false k;
  do _ <- (if weighted then check_weights_sane (Some (k_wt k)) else Ok true);
  do s <- foldR (py_edge k weighted) (combine (seq 0 (length (k_edges k))) (k_edges k)) (mkPmGraph [] [], repeat 0 (k_n k));
  let c := list_max (snd s) in
  Ok (if 0 <? c then mkPmGraph (pm_edges (fst s)) (map (Nat.add (k_n k)) (seq 0 c)) else fst s).

(** matching.py 91-98 [decode] up to the call which stores the result. *)
Definition py_decode (solver : pm_graph -> list bool -> Res (list bool)) (g : pm_graph) (k : comp) : Res (list bool) :=
  do er <- (match k_erased k with Some er => Ok er | None => Err AttributeError end);
  if existsb (fun b => b) er then Err ValueError
  else solver g (k_syn k).

(** * Fusion Blossom *)

(** [fb.SolverInitializer]: the number of vertices, edges with weights, virtual vertices. *)
Record fb_graph := mkFbGraph { fb_n : nat; fb_edges : list (nat * nat * Z); fb_virtual : list nat }.

(** fusionblossom.py 44-50: [weights].  The weights are not negative here, so that [astype(int)]
    rounds down.  Division by zero gives NaN, for which the result is not defined. *)
Definition qmax (l : list Q) : Q := fold_left (fun a b => if Qle_bool a b then b else a) (tl l) (hd 0%Q l).
Definition fb_weights (k : comp) : Res (list Z) :=
  do weighted <- is_weighted false k;
  if weighted : bool then
    do _ <- check_weights_sane (Some (k_wt k));
    do qs <- mapR finite (k_wt k);
    if Qeq_bool (qmax qs) 0 then Err Unmodelled
    else Ok (map (fun q => Qfloor (100 * q / qmax qs)) qs)
  else Ok (map (fun _ => 1%Z) (k_edges k)).

(** fusionblossom.py 54-59: body of the loop over the edges.  The state is [edges] and
    [open_vertices]. *)
Definition fb_edge (n : nat) (ws : list Z) (s : list (nat * nat * Z) * list nat) (ie : nat * list nat)
  : Res (list (nat * nat * Z) * list nat) :=
  do x <- get ws (fst ie);
  let w := (2 * x)%Z in
  match snd ie with
  | [] => Err IndexError
  | [a] => let o := n + length (snd s) in Ok (fst s ++ [(a, o, w)], snd s ++ [o])
  | a :: b :: _ => Ok (fst s ++ [(a, b, w)], snd s)
  end.

(** fusionblossom.py 34-62 [set_syngraph]. *)
Definition fb_new (k : comp) : Res fb_graph :=
  do ws <- fb_weights k;
  do s <- foldR (fb_edge (k_n k) ws) (combine (seq 0 (length (k_edges k))) (k_edges k)) ([], []);
  Ok (mkFbGraph (k_n k + length (snd s)) (fst s) (snd s)).

(** fusionblossom.py 80-101 [get_syndrome_pattern] and [decode] up to the call which stores the
    result.  The solver gets the graph, the vertices of the syndrome and the erased edges, and
    returns positions of edges. *)
Definition fb_decode (solver : fb_graph -> list nat -> list nat -> Res (list nat)) (g : fb_graph) (k : comp) : Res (list bool) :=
  do er <- (match k_erased k with Some er => Ok er | None => Err AttributeError end);
  do r <- solver g (nonzero (k_syn k)) (nonzero er);
  Ok (map (fun i => existsb (Nat.eqb i) r) (seq 0 (length (k_edges k)))).

(** * The interfaces *)

(** decoderbase.py 186-200, 273-297, interfaces.py 16-26, 54-62: [ComponentDecoder] and
    [DecoderInterface] for a class [_decoder_cls] whose objects are made by [new] for a component
    and do not change when they decode. *)
Record xdecoder (B : Type) := mkXdecoder { xd_graph : sgraph; xd_decs : list (nat * B) }.
Arguments mkXdecoder {B}.
Arguments xd_graph {B}.
Arguments xd_decs {B}.

(** decoderbase.py 212-223 [ComponentDecoder.set_syngraph], called by the constructor (288-297)
    of [DecoderInterface]. *)
Definition x_new {B} (new : comp -> Res B) (g : sgraph) : Res (xdecoder B) :=
  do ds <- mapR (fun ck : nat * comp => do b <- new (snd ck); Ok (fst ck, b))
             (filter (fun ck => has_edges (snd ck)) (combine (seq 0 (length (sg_comps g))) (sg_comps g)));
  Ok (mkXdecoder g ds).

(** decoderbase.py 225-230 [update_weights], matching.py 75-89, fusionblossom.py 64-78. *)
Definition x_update_weights {B} (new : comp -> Res B) (d : xdecoder B) : Res (xdecoder B) :=
  do ds <- mapR (fun x : nat * B => do k <- get (sg_comps (xd_graph d)) (fst x); do b <- new k; Ok (fst x, b)) (xd_decs d);
  Ok (mkXdecoder (xd_graph d) ds).

(** decoderbase.py 269-270: body of the loop over the decoders, with the call of
    [set_edge_decoder_results] (matching.py 98, fusionblossom.py 101). *)
Definition x_component {B} (dec : B -> comp -> Res (list bool)) (g : sgraph) (x : nat * B) : Res sgraph :=
  do k <- get (sg_comps g) (fst x);
  do res <- dec (snd x) k;
  set_results (fst x) res g.

(** decoderbase.py 257-270 [ComponentDecoder.decode] and 389-425 [DecoderInterface.decode]. *)
Definition x_decode {B} (dec : B -> comp -> Res (list bool)) (er : option (list (list bool))) (syn : list (list bool))
  (d : xdecoder B) : Res (xdecoder B * row) :=
  do g <- set_erasure er (xd_graph d);
  do g <- set_syndrome (Some syn) g;
  do _ <- check_decodable g;
  do g <- foldR (x_component dec) (xd_decs d) g;
  do g <- update_results g;
  do fr <- result_frame g;
  Ok (mkXdecoder g (xd_decs d), fr).
