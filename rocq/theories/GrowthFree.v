(** The functions of union find other than growth use the growth of edges only to see which are complete. *)
Require Import List Bool Arith Lia QArith Lqa.
From Verif Require Import Base BaseProofs ErasureModel UnionFindModel UnionFindStep.
Import ListNotations.
Open Scope nat_scope.

Local Arguments upd : simpl never.

Definition liftR {A B} (f : A -> B) (r : Res A) : Res B := match r with Ok x => Ok (f x) | Err e => Err e end.

Lemma fold_lift {S S' X} (h : S -> S') (f : S -> X -> Res S) (f' : S' -> X -> Res S') l :
  (forall s x, f' (h s) x = liftR h (f s x)) -> forall s, foldR f' l (h s) = liftR h (foldR f l s).
Proof. intros H. induction l as [|x l IH]; intros s; cbn [foldR]; [auto|]. rewrite H. destruct (f s x); cbn [liftR bindR]; auto. Qed.
Lemma foldR_ext {S X} (f f' : S -> X -> Res S) l : (forall s x, f' s x = f s x) -> forall s, foldR f' l s = foldR f l s.
Proof. intros H. induction l as [|x l IH]; intros s; cbn [foldR]; [auto|]. rewrite H. destruct (f s x); cbn [bindR]; auto. Qed.
Lemma get_map {A B} (f : A -> B) l i : get (map f l) i = liftR f (get l i).
Proof. unfold get. rewrite nth_error_map. destruct (nth_error l i); auto. Qed.
Lemma map_upd {A B} (f : A -> B) i a l : map f (upd i a l) = upd i (f a) (map f l).
Proof. revert i. induction l as [|b l IH]; intros [|i]; auto. change (upd (S i) a (b :: l)) with (b :: upd i a l). cbn [map]. rewrite IH. auto. Qed.

(** A change of the growth of edges which keeps what is complete. *)
Section H.
Variable noinc : growth -> growth.
Hypothesis complete_noinc : forall g, complete (noinc g) = complete g.
Hypothesis full_noinc : forall g, mkGrowth (Some (g_max (noinc g))) (g_max (noinc g)) (g_inc (noinc g)) = noinc (mkGrowth (Some (g_max g)) (g_max g) (g_inc g)).
Hypothesis empty_noinc : forall g, mkGrowth (Some 0%Q) (g_max (noinc g)) (g_inc (noinc g)) = noinc (mkGrowth (Some 0%Q) (g_max g) (g_inc g)).
Definition bare (u : ugraph) : ugraph := set_grow (map noinc (u_grow u)) u.
Lemma bare_verts vs u : bare (set_verts vs u) = set_verts vs (bare u). Proof. reflexivity. Qed.
Lemma bare_clus cs u : bare (set_clus cs u) = set_clus cs (bare u). Proof. reflexivity. Qed.
Lemma bare_open l u : bare (set_open l u) = set_open l (bare u). Proof. reflexivity. Qed.

Lemma all_complete_bare u v : all_complete (bare u) v = all_complete u v.
Proof.
  unfold all_complete. change (u_adj (bare u)) with (u_adj u). destruct (get (u_adj u) v); cbn [bindR]; [|auto]. apply foldR_ext. intros b en. destruct b; [|auto].
  change (u_grow (bare u)) with (map noinc (u_grow u)). rewrite get_map. destruct (get (u_grow u) (fst en)); cbn [liftR bindR]; rewrite ?complete_noinc; auto.
Qed.
Lemma r_cluster_bare u v : r_cluster (bare u) v = liftR (fun p => (bare (fst p), snd p)) (r_cluster u v).
Proof. unfold r_cluster. change (u_verts (bare u)) with (u_verts u). destruct (find_root _ _ v) as [[vs r]|]; cbn [bindR liftR]; [|auto]. destruct (get vs r) as [x|]; cbn [bindR liftR]; [|auto]. destruct (v_cluster x); auto. Qed.
Lemma add_dangling_bare u c : add_dangling (bare u) c = liftR bare (add_dangling u c).
Proof. unfold add_dangling. change (u_clus (bare u)) with (u_clus u). destruct (get (u_clus u) c); auto. Qed.
Lemma add_vertex_bare u c v : add_vertex (bare u) c v = liftR bare (add_vertex u c v).
Proof.
  unfold add_vertex. change (u_clus (bare u)) with (u_clus u). change (u_verts (bare u)) with (u_verts u). destruct (get (u_clus u) c) as [k|]; cbn [bindR liftR]; [|auto]. destruct (c_bound k) as [b|]; [|auto].
  destruct (get (u_verts u) v) as [x|]; cbn [bindR liftR]; [|auto]. cbv zeta. match goal with |- bindR ?r _ = _ => destruct r end; auto.
Qed.
Lemma update_bare u c : update_after_growth (bare u) c = liftR bare (update_after_growth u c).
Proof.
  unfold update_after_growth. change (u_clus (bare u)) with (u_clus u). change (u_verts (bare u)) with (u_verts u). destruct (get (u_clus u) c) as [k|]; cbn [bindR liftR]; [|auto]. destruct (c_bound k) as [b|]; [|auto].
  rewrite (foldR_ext (fun (s : list vertex * list nat) v => let (vs, new) := s in do all <- all_complete u v; if all : bool then do x <- get vs v; do x' <- to_interior x; Ok (upd v x' vs, new) else Ok (vs, new ++ [v]))) by (intros [vs new] v; rewrite all_complete_bare; auto).
  match goal with |- bindR ?r _ = _ => destruct r end; auto.
Qed.
Lemma reopen_bare u c : reopen (bare u) c = liftR bare (reopen u c).
Proof. unfold reopen. change (u_clus (bare u)) with (u_clus u). destruct (get (u_clus u) c) as [k|]; cbn [bindR liftR]; [|auto]. destruct (assertR _); auto. Qed.
Lemma absorb_bare u a b : absorb (bare u) a b = liftR bare (absorb u a b).
Proof.
  unfold absorb. change (u_clus (bare u)) with (u_clus u). change (u_verts (bare u)) with (u_verts u). destruct (get (u_clus u) a) as [s|]; cbn [bindR liftR]; [|auto]. destruct (get (u_clus u) b) as [o|]; cbn [bindR liftR]; [|auto].
  destruct (c_bound s), (c_bound o); auto. cbv zeta. destruct (c_root s), (c_root o); auto. match goal with |- context [get (u_verts u) ?r] => destruct (get (u_verts u) r) as [x|] end; cbn [bindR liftR]; [|auto]. destruct (set_parent x _); cbn [bindR liftR]; [|auto].
  rewrite <- bare_verts, <- bare_clus. match goal with |- match ?x with _ => _ end = _ => destruct x end; [auto|]. match goal with |- match ?x with _ => _ end = _ => destruct x as [[|]|] end; auto. apply reopen_bare.
Qed.
Lemma merge_bare u a b : merge_with (bare u) a b = liftR bare (merge_with u a b).
Proof.
  unfold merge_with. change (u_clus (bare u)) with (u_clus u). destruct (a =? b); [auto|]. destruct (get (u_clus u) a) as [s|]; cbn [bindR liftR]; [|auto]. destruct (get (u_clus u) b) as [o|]; cbn [bindR liftR]; [|auto].
  destruct (c_bound s), (c_bound o); auto. destruct (_ <? _); apply absorb_bare.
Qed.
Lemma refresh_bare u : refresh_open (bare u) = liftR bare (refresh_open u).
Proof. unfold refresh_open. change (u_clus (bare u)) with (u_clus u). change (u_open (bare u)) with (u_open u). match goal with |- bindR ?r _ = _ => destruct r end; auto. Qed.
Lemma handle_bare u e : handle_edge (bare u) e = liftR bare (handle_edge u e).
Proof.
  unfold handle_edge. change (u_ends (bare u)) with (u_ends u). change (u_verts (bare u)) with (u_verts u). destruct (get (u_ends u) e) as [[|a [|b [|]]]|]; cbn [bindR liftR]; auto.
  - destruct (get (u_verts u) a); cbn [bindR liftR]; [|auto]. destruct (assertR _); cbn [bindR liftR]; [|auto]. rewrite r_cluster_bare. destruct (r_cluster u a) as [[u1 c]|]; cbn [bindR liftR fst snd]; [|auto]. apply add_dangling_bare.
  - destruct (get (u_verts u) a) as [xa|]; cbn [bindR liftR]; [|auto]. destruct (if eqb_vstate (v_state xa) Boundary then (a, b) else (b, a)) as [v0 v1]. destruct (get (u_verts u) v0); cbn [bindR liftR]; [|auto]. destruct (assertR _); cbn [bindR liftR]; [|auto].
    destruct (get (u_verts u) v1) as [x1|]; cbn [bindR liftR]; [|auto]. destruct (eqb_vstate (v_state x1) Boundary).
    + rewrite r_cluster_bare. destruct (r_cluster u v0) as [[u1 c]|]; cbn [bindR liftR fst snd]; [|auto]. rewrite r_cluster_bare. destruct (r_cluster u1 v1) as [[u2 c2]|]; cbn [bindR liftR fst snd]; [|auto]. apply merge_bare.
    + destruct (assertR _); cbn [bindR liftR]; [|auto]. rewrite r_cluster_bare. destruct (r_cluster u v0) as [[u1 c]|]; cbn [bindR liftR fst snd]; [|auto]. apply add_vertex_bare.
Qed.

(** ** Initialisation *)
Definition bare2 (p : ugraph * list bool) : ugraph * list bool := (bare (fst p), snd p).
Definition bare3 (p : ugraph * list bool * list nat) : ugraph * list bool * list nat := (bare2 (fst p), snd p).
Lemma explore_bare c s en : explore c (bare3 s) en = liftR bare3 (explore c s en).
Proof.
  destruct s as [[u vis] todo], en as [e next]. unfold bare3, bare2, explore. cbn [fst snd]. destruct (get vis e) as [seen|]; cbn [bindR liftR]; [|auto]. destruct seen; [auto|]. cbv zeta.
  change (u_grow (bare u)) with (map noinc (u_grow u)). rewrite get_map. destruct (get (u_grow u) e) as [g|]; cbn [bindR liftR]; [|auto]. rewrite complete_noinc. destruct (complete g); [|auto]. destruct next as [w|].
  - change (u_verts (bare u)) with (u_verts u). destruct (get (u_verts u) w) as [x|]; cbn [bindR liftR]; [|auto]. destruct (eqb_vstate _ _); [|auto]. rewrite add_vertex_bare. destruct (add_vertex u c w); auto.
  - rewrite add_dangling_bare. destruct (add_dangling u c); auto.
Qed.
Lemma search_bare fuel c : forall u vis todo, search fuel c (bare u) vis todo = liftR bare2 (search fuel c u vis todo).
Proof.
  induction fuel as [|fuel IH]; intros u vis todo; cbn [search]; destruct (rev todo) as [|v rest]; auto. change (u_adj (bare u)) with (u_adj u). destruct (get (u_adj u) v) as [l|]; cbn [bindR liftR]; [|auto].
  change (bare u, vis, rev rest) with (bare3 (u, vis, rev rest)). rewrite (fold_lift bare3 (explore c)) by apply explore_bare. destruct (foldR (explore c) l (u, vis, rev rest)) as [[[u1 vis1] todo1]|]; cbn [bindR liftR bare3 bare2 fst snd]; [|auto]. apply IH.
Qed.
Lemma erasure_bare s i : erasure_cluster (bare2 s) i = liftR bare2 (erasure_cluster s i).
Proof.
  destruct s as [u vis]. unfold bare2, erasure_cluster. cbn [fst snd]. destruct (get vis i) as [seen|]; cbn [bindR liftR]; [|auto]. change (u_grow (bare u)) with (map noinc (u_grow u)). rewrite get_map.
  destruct (get (u_grow u) i) as [g|]; cbn [bindR liftR]; [|auto]. rewrite complete_noinc. destruct (seen || negb (complete g)); [auto|].
  unfold add_cluster. change (u_clus (bare u)) with (u_clus u). change (u_open (bare u)) with (u_open u). cbv zeta. rewrite <- bare_clus, <- bare_open. set (u1 := set_open _ _). change (u_ends (bare u1)) with (u_ends u1). change (length (u_verts (bare u))) with (length (u_verts u)).
  destruct (get (u_ends u1) i) as [ed|]; cbn [bindR liftR]; [|auto]. destruct (get ed 0) as [st|]; cbn [bindR liftR]; [|auto]. rewrite add_vertex_bare. destruct (add_vertex u1 _ st) as [u2|]; cbn [bindR liftR]; [|auto].
  rewrite search_bare. destruct (search _ _ u2 vis [st]) as [[u3 vis3]|]; cbn [bindR liftR bare2 fst snd]; [|auto]. rewrite update_bare. destruct (update_after_growth u3 _); auto.
Qed.
Lemma set_complete_bare g : set_complete (noinc g) = liftR noinc (set_complete g).
Proof. unfold set_complete. rewrite complete_noinc. destruct (assertR _); cbn [bindR liftR]; [|auto]. rewrite full_noinc. auto. Qed.
Lemma init_bare er syn u : init_graph er syn (bare u) = liftR bare (init_graph er syn u).
Proof.
  unfold init_graph. assert (R : reset_graph (bare u) = bare (reset_graph u)) by (unfold reset_graph, bare, set_grow; cbn [u_grow u_ends u_adj u_verts u_clus u_open]; f_equal; rewrite !map_map; apply map_ext; intros g; apply empty_noinc). rewrite R. set (u0 := reset_graph u).
  assert (S : set_syndrome syn (bare u0) = liftR bare (set_syndrome syn u0)) by (unfold set_syndrome; change (u_verts (bare u0)) with (u_verts u0); destruct (assertR _); auto). rewrite S.
  destruct (set_syndrome syn u0) as [u1|]; cbn [bindR liftR]; [|auto].
  rewrite (fold_lift bare (fun u e => do g <- get (u_grow u) e; if complete g then Ok u else do g' <- set_complete g; Ok (set_grow (upd e g' (u_grow u)) u))).
  2:{ intros v e. change (u_grow (bare v)) with (map noinc (u_grow v)). rewrite get_map. destruct (get (u_grow v) e) as [g|]; cbn [bindR liftR]; [|auto]. rewrite complete_noinc. destruct (complete g); [auto|]. rewrite set_complete_bare. destruct (set_complete g) as [g'|]; cbn [bindR liftR]; [|auto].
      unfold bare. cbn [u_grow set_grow]. rewrite map_upd. auto. }
  match goal with |- bindR (liftR bare ?r) _ = _ => destruct r as [u2|] end; cbn [bindR liftR]; [|auto].
  unfold init_erasure_clusters. change (u_grow (bare u2)) with (map noinc (u_grow u2)). rewrite map_length. cbv zeta. set (m := length (u_grow u2)). change (bare u2, repeat false m) with (bare2 (u2, repeat false m)). rewrite (fold_lift bare2 erasure_cluster) by apply erasure_bare.
  destruct (foldR erasure_cluster (seq 0 m) (u2, repeat false m)) as [[u3 vis]|]; cbn [bindR liftR bare2 fst snd]; [|auto].
  unfold init_syndrome_clusters. change (u_verts (bare u3)) with (u_verts u3).
  apply fold_lift. intros v x. change (u_verts (bare v)) with (u_verts v). destruct (get (u_verts v) x) as [y|]; cbn [bindR liftR]; [|auto]. destruct (_ && _); [|auto].
  unfold add_cluster. change (u_clus (bare v)) with (u_clus v). change (u_open (bare v)) with (u_open v). cbv zeta. rewrite <- bare_clus, <- bare_open. set (v1 := set_open _ _). rewrite add_vertex_bare. destruct (add_vertex v1 _ x) as [v2|]; cbn [bindR liftR]; [|auto]. apply update_bare.
Qed.

Lemma complete_edges_bare u : complete_edges (bare u) = complete_edges u.
Proof.
  unfold complete_edges. change (u_grow (bare u)) with (map noinc (u_grow u)). rewrite map_length. apply filter_ext. intros i. rewrite nth_error_map. destruct (nth_error (u_grow u) i); cbn [option_map]; auto.
Qed.
End H.
