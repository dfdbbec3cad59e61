(** Model of union find with chosen growth increments ([choose_growth_increment_enabled], which no class of the
    repository sets). *)
Require Import List Bool Arith QArith.
From Verif Require Import Base ErasureModel UnionFindModel.
Import ListNotations.
Open Scope nat_scope.

(** unionfind_decoder.py 255-267: [Edge.grow] with an increment or None. *)
Definition grow_by (inc : option Q) (e : growth) : Res growth :=
  do _ <- assertR (negb (complete e));
  Ok (mkGrowth (match g_cur e, (match inc with Some d => Some d | None => g_inc e end) with
                | Some q, Some d => Some (q + d)%Q
                | _, _ => None
                end) (g_max e) (g_inc e)).

(** unionfind_decoder.py 636-640: what the edges of a vertex lack; [None] is infinite, so that the edge is complete. *)
Definition lacking (gs : list growth) (acc : list Q) (en : entry) : Res (list Q) :=
  do g <- get gs (fst en);
  Ok (if complete g then acc else acc ++ match g_cur g with Some q => [(g_max g - q)%Q] | None => [] end).

(** unionfind_decoder.py 617-643: [choose_growth_increment] of an object with weights; the switch is on. *)
Definition choose_increment (adj : list (list entry)) (gs : list growth) (b : list nat) : Res (option Q) :=
  do incs <- foldR (fun acc v => do l <- get adj v; foldR (lacking gs) l acc) b [];
  Ok (match incs with
      | [] => None
      | x :: l => Some (fold_left (fun a b => if Qle_bool a b then a else b) l x)
      end).

(** unionfind_decoder.py 668-674: as [grow_edge], with the increment of the cluster. *)
Definition grow_edge_by (inc : option Q) (s : list growth * nat * list nat) (en : entry)
  : Res (list growth * nat * list nat) :=
  let '(gs, k, new) := s in
  do g <- get gs (fst en);
  if complete g then Ok s
  else do g' <- grow_by inc g;
       Ok (upd (fst en) g' gs, S k, if complete g' then new ++ [fst en] else new).

(** unionfind_decoder.py 663-674: as [grow_cluster]; the increment is chosen before the edges of the cluster grow. *)
Definition grow_cluster_by (adj : list (list entry)) (cs : list cluster) (min_size : nat)
  (s : list growth * nat * list nat) (c : nat) : Res (list growth * nat * list nat) :=
  do k <- get cs c;
  match c_bound k with
  | None => Err TypeError
  | Some b =>
      if min_size <? length b then Ok s
      else do inc <- choose_increment adj (fst (fst s)) b;
           foldR (fun s v => do l <- get adj v; foldR (grow_edge_by inc) l s) b s
  end.

(** unionfind_decoder.py 655-679: [step] with chosen increments. *)
Definition step_by (u : ugraph) : Res ugraph :=
  do u <- refresh_open u;
  match u_open u with
  | [] => Ok u
  | _ :: _ =>
      do sizes <- boundary_sizes u;
      let min_size := fold_right Nat.min (hd 0 sizes) sizes in
      do r <- foldR (grow_cluster_by (u_adj u) (u_clus u) min_size) (u_open u)
                (u_grow u, 0, []);
      let '(gs, edges_grown, new) := r in
      do _ <- assertR (0 <? edges_grown);
      let u := set_grow gs u in
      match new with
      | [] => Ok u
      | _ :: _ =>
          do u <- foldR handle_edge new u;
          foldR update_after_growth (seq 0 (length (u_clus u))) u
      end
  end.

(** unionfind_decoder.py 650-651: the loop of [union_find]. *)
Fixpoint steps_by (fuel : nat) (u : ugraph) : Res ugraph :=
  match u_open u with
  | [] => Ok u
  | _ :: _ => match fuel with
              | O => Err Unmodelled
              | S fuel => do u' <- step_by u; steps_by fuel u'
              end
  end.

(** unionfind_decoder.py 645-653: [union_find]. *)
Definition union_find_by (fuel : nat) (erasure : list nat) (syn : list bool) (u : ugraph)
  : Res (ugraph * list nat) :=
  do u1 <- init_graph erasure syn u;
  do u2 <- steps_by fuel u1;
  Ok (u2, complete_edges u2).

(** unionfind_decoder.py 740-755: [UnionFindDecoder.decode] with the erasure decoder. *)
Definition uf_decode_by (fuel : nat) (erasure : list nat) (syn : list bool) (u : ugraph)
  : Res (ugraph * list bool) :=
  do r <- union_find_by fuel erasure syn u;
  do corr <- erasure_decode (length (u_verts u)) (u_ends u) (snd r) syn;
  Ok (fst r, corr).
