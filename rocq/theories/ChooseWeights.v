(** Union find with chosen growth increments does not depend on the increments of the edges. *)
Require Import List Bool Arith Lia QArith Lqa.
From Verif Require Import Base BaseProofs ErasureModel UnionFindModel UnionFindStep GrowthFree ChooseModel ChooseProofs.
Import ListNotations.
Open Scope nat_scope.

Local Arguments upd : simpl never.

(** A graph without the increments of its edges. *)
Definition noinc (g : growth) : growth := mkGrowth (g_cur g) (g_max g) None.
Notation bare := (bare noinc).
Lemma complete_noinc g : complete (noinc g) = complete g.
Proof. reflexivity. Qed.

(** ** Growth *)
Definition bareg (s : list growth * nat * list nat) : list growth * nat * list nat := (map noinc (fst (fst s)), snd (fst s), snd s).
Lemma grow_edge_bare d s en : grow_edge_by (Some d) (bareg s) en = liftR bareg (grow_edge_by (Some d) s en).
Proof.
  destruct s as [[gs k] new]. unfold bareg, grow_edge_by. cbn [fst snd]. rewrite get_map. destruct (get gs (fst en)) as [g|]; cbn [bindR liftR]; [|auto]. rewrite complete_noinc. destruct (complete g) eqn:C; [auto|].
  unfold grow_by. rewrite complete_noinc, C. cbn [negb assertR bindR liftR fst snd]. rewrite map_upd. auto.
Qed.
Lemma lacking_bare gs acc en : lacking (map noinc gs) acc en = lacking gs acc en.
Proof. unfold lacking. rewrite get_map. destruct (get gs (fst en)); auto. Qed.
Lemma choose_bare adj gs b : choose_increment adj (map noinc gs) b = choose_increment adj gs b.
Proof.
  unfold choose_increment. rewrite (foldR_ext (fun acc v => do l <- get adj v; foldR (lacking gs) l acc)); [auto|]. intros acc v. destruct (get adj v); cbn [bindR]; [|auto]. apply foldR_ext. apply lacking_bare.
Qed.
Lemma lacking_nothing gs (l : list entry) : forall acc r, foldR (lacking gs) l acc = Ok r -> length acc <= length r /\
  (length r = length acc -> forall inc k new, foldR (grow_edge_by inc) l (gs, k, new) = Ok (gs, k, new)).
Proof.
  induction l as [|en l IH]; intros acc r; cbn [foldR]; [intros [= <-]; auto|]. unfold lacking at 1. destruct (get gs (fst en)) as [g|] eqn:G; cbn [bindR]; [|discriminate]. intros E. destruct (complete g) eqn:C.
  - destruct (IH acc r E) as [L H]. split; auto. intros Z inc k new. unfold grow_edge_by at 1. rewrite G. cbn [bindR]. rewrite C. cbn [bindR]. apply H. auto.
  - destruct (incomplete_cur g C) as (q & Q & _). rewrite Q in E. destruct (IH _ r E) as [L _]. rewrite app_length in L. cbn in L. split; [lia|]. intros Z. lia.
Qed.
Lemma lacking_none adj gs b : forall acc r, foldR (fun acc v => do l <- get adj v; foldR (lacking gs) l acc) b acc = Ok r -> length acc <= length r /\
  (length r = length acc -> forall inc k new, foldR (fun s v => do l <- get adj v; foldR (grow_edge_by inc) l s) b (gs, k, new) = Ok (gs, k, new)).
Proof.
  induction b as [|v b IH]; intros acc r; cbn [foldR]; [intros [= <-]; auto|]. destruct (get adj v) as [l|] eqn:G; cbn [bindR]; [|discriminate]. destruct (foldR (lacking gs) l acc) as [a1|] eqn:E1; cbn [bindR]; [|discriminate]. intros E.
  destruct (lacking_nothing gs l acc a1 E1) as [L1 H1]. destruct (IH a1 r E) as [L2 H2]. split; [lia|]. intros Z inc k new. rewrite H1 by lia. cbn [bindR]. apply H2. lia.
Qed.
Lemma grow_cluster_bare adj cs mn s c : grow_cluster_by adj cs mn (bareg s) c = liftR bareg (grow_cluster_by adj cs mn s c).
Proof.
  destruct s as [[gs k] new]. unfold grow_cluster_by. destruct (get cs c) as [x|]; cbn [bindR liftR]; [|auto]. destruct (c_bound x) as [b|]; [|auto]. destruct (mn <? length b); [auto|]. cbn [bareg fst snd]. rewrite choose_bare.
  destruct (choose_increment adj gs b) as [[d|]|] eqn:E; cbn [bindR liftR]; [| |auto].
  - change (map noinc gs, k, new) with (bareg (gs, k, new)). apply fold_lift. intros s v. destruct (get adj v) as [l|]; cbn [bindR liftR]; [|auto]. apply fold_lift. apply grow_edge_bare.
  - assert (N : forall gs, choose_increment adj gs b = Ok None -> foldR (fun s v => do l <- get adj v; foldR (grow_edge_by None) l s) b (gs, k, new) = Ok (gs, k, new)).
    { intros gs1 E1. unfold choose_increment in E1. destruct (foldR _ b []) as [r|] eqn:F; cbn [bindR] in E1; [|discriminate]. destruct r; [|discriminate]. apply (lacking_none adj gs1 b [] [] F). auto. }
    rewrite (N gs E). cbn [liftR]. apply (N (map noinc gs)). rewrite choose_bare. auto.
Qed.
Lemma step_bare u : step_by (bare u) = liftR bare (step_by u).
Proof.
  unfold step_by. rewrite (refresh_bare noinc). destruct (refresh_open u) as [u1|]; cbn [bindR liftR]; [|auto]. change (u_open (bare u1)) with (u_open u1). destruct (u_open u1) as [|c0 l0] eqn:O; [auto|]. rewrite <- O.
  assert (BS : boundary_sizes (bare u1) = boundary_sizes u1) by reflexivity. rewrite BS. destruct (boundary_sizes u1) as [sizes|]; cbn [bindR liftR]; [|auto]. cbv zeta. change (u_adj (bare u1)) with (u_adj u1). change (u_clus (bare u1)) with (u_clus u1).
  change (u_grow (bare u1), 0, @nil nat) with (bareg (u_grow u1, 0, [])). rewrite (fold_lift bareg (grow_cluster_by (u_adj u1) (u_clus u1) (fold_right Nat.min (hd 0 sizes) sizes))) by (intros; apply grow_cluster_bare).
  match goal with |- bindR (liftR bareg ?r) _ = _ => destruct r as [[[gs k] new]|] end; cbn [bindR liftR bareg fst snd]; [|auto]. destruct (assertR _); cbn [bindR liftR]; [|auto].
  assert (SG : set_grow (map noinc gs) (bare u1) = bare (set_grow gs u1)) by reflexivity. rewrite SG. destruct new as [|e new]; [auto|]. rewrite (fold_lift bare handle_edge) by apply (handle_bare noinc).
  destruct (foldR handle_edge (e :: new) (set_grow gs u1)) as [u2|]; cbn [bindR liftR]; [|auto]. change (u_clus (bare u2)) with (u_clus u2). apply fold_lift. apply (update_bare noinc). auto.
Qed.
Lemma steps_bare fuel : forall u, steps_by fuel (bare u) = liftR bare (steps_by fuel u).
Proof.
  induction fuel as [|fuel IH]; intros u; cbn [steps_by]; change (u_open (bare u)) with (u_open u); destruct (u_open u); auto. rewrite step_bare. destruct (step_by u) as [u1|]; cbn [bindR liftR]; auto.
Qed.
Lemma union_find_bare fuel er syn u : union_find_by fuel er syn (bare u) = liftR (fun p => (bare (fst p), snd p)) (union_find_by fuel er syn u).
Proof.
  unfold union_find_by. rewrite (init_bare noinc) by reflexivity. destruct (init_graph er syn u) as [u1|]; cbn [bindR liftR]; [|auto]. rewrite steps_bare. destruct (steps_by fuel u1) as [u2|]; cbn [bindR liftR fst snd]; [|auto]. rewrite (complete_edges_bare noinc) by reflexivity. auto.
Qed.
Lemma set_weights_bare c ws c' ws' u u1 u2 : set_weights c ws u = Ok u1 -> set_weights c' ws' u = Ok u2 -> bare u1 = bare u2.
Proof.
  unfold set_weights. destruct (min_nonzero ws) as [lo|]; cbn [bindR]; [|discriminate]. destruct (min_nonzero ws') as [lo'|]; cbn [bindR]; [|discriminate].
  destruct (Nat.eqb_spec (length ws) (length (u_grow u))) as [L|]; cbn [assertR bindR]; [|discriminate]. destruct (Nat.eqb_spec (length ws') (length (u_grow u))) as [L'|]; cbn [assertR bindR]; [|discriminate]. intros [= <-] [= <-].
  unfold GrowthFree.bare, set_grow. cbn [u_grow u_ends u_adj u_verts u_clus u_open]. f_equal. rewrite !map_map. revert ws ws' L L'. generalize (u_grow u). induction l as [|g l IH]; intros [|w ws] [|w' ws'] L L'; try discriminate; [auto|]. cbn [combine map]. f_equal. cbn in L, L'. apply IH; lia.
Qed.
