(** Weighted union find does not depend on the unit of the weights. *)
Require Import List Bool Arith Lia QArith Qreduction Lqa.
From Verif Require Import Base BaseProofs ErasureModel UnionFindModel UnionFindStep GrowthFree.
Import ListNotations.
Open Scope nat_scope.

Local Arguments upd : simpl never.

(** ** Growth up to the representation of rational numbers *)
Definition normg (g : growth) : growth := mkGrowth (option_map Qred (g_cur g)) (Qred (g_max g)) (option_map Qred (g_inc g)).
Notation norm := (bare normg).
Lemma Qred_eq a b : Qred a = Qred b -> (a == b)%Q.
Proof. intros H. rewrite <- (Qred_correct a), H, Qred_correct. reflexivity. Qed.
Lemma Qle_bool_ext a b c d : (a == c)%Q -> (b == d)%Q -> Qle_bool a b = Qle_bool c d.
Proof. intros H K. apply eq_true_iff_eq. rewrite !Qle_bool_iff, H, K. tauto. Qed.
Lemma complete_normg g : complete (normg g) = complete g.
Proof. unfold complete, normg. cbn [g_cur g_max]. destruct (g_cur g); cbn [option_map]; [|auto]. apply Qle_bool_ext; apply Qred_correct. Qed.
Lemma full_normg g : mkGrowth (Some (g_max (normg g))) (g_max (normg g)) (g_inc (normg g)) = normg (mkGrowth (Some (g_max g)) (g_max g) (g_inc g)).
Proof. reflexivity. Qed.
Lemma empty_normg g : mkGrowth (Some 0%Q) (g_max (normg g)) (g_inc (normg g)) = normg (mkGrowth (Some 0%Q) (g_max g) (g_inc g)).
Proof. reflexivity. Qed.
Lemma normg_complete g g' : normg g = normg g' -> complete g = complete g'.
Proof. intros H. rewrite <- (complete_normg g), H, complete_normg. auto. Qed.
Lemma option_red a b : option_map Qred a = option_map Qred b -> match a, b with Some x, Some y => (x == y)%Q | None, None => True | _, _ => False end.
Proof. destruct a, b; cbn; intros H; try discriminate; auto. apply Qred_eq. congruence. Qed.
Lemma grow_normg g g' : normg g = normg g' -> liftR normg (grow g) = liftR normg (grow g').
Proof.
  intros H. unfold grow. rewrite (normg_complete g g' H). destruct (assertR _); cbn [bindR liftR]; [|auto]. unfold normg in *. cbn [g_cur g_max g_inc]. injection H as H1 H2 H3. rewrite H2, H3. f_equal. f_equal.
  apply option_red in H1. apply option_red in H3. destruct (g_cur g), (g_cur g'), (g_inc g), (g_inc g'); cbn [option_map]; try tauto. f_equal. apply Qred_complete. rewrite H1, H3. reflexivity.
Qed.

Definition normm (s : list growth * nat * list nat) : list growth * nat * list nat := (map normg (fst (fst s)), snd (fst s), snd s).
Lemma fold_rel {S X K} (h : S -> K) (f : S -> X -> Res S) l : (forall s s' x, h s = h s' -> liftR h (f s x) = liftR h (f s' x)) -> forall s s', h s = h s' -> liftR h (foldR f l s) = liftR h (foldR f l s').
Proof.
  intros H. induction l as [|x l IH]; intros s s' E; cbn [foldR liftR]; [congruence|]. pose proof (H s s' x E) as HX. destruct (f s x), (f s' x); cbn [liftR bindR] in *; try congruence. apply IH. congruence.
Qed.
Lemma map_get {A B} (h : A -> B) l l' i : map h l = map h l' -> liftR h (get l i) = liftR h (get l' i).
Proof. intros H. rewrite <- !get_map, H. auto. Qed.
Lemma grow_edge_norm s s' en : normm s = normm s' -> liftR normm (grow_edge s en) = liftR normm (grow_edge s' en).
Proof.
  destruct s as [[gs k] new], s' as [[gs' k'] new']. unfold normm. cbn [fst snd]. intros [= H <- <-]. unfold grow_edge. pose proof (map_get normg gs gs' (fst en) H) as G. destruct (get gs (fst en)) as [g|], (get gs' (fst en)) as [g'|]; cbn [liftR bindR] in *; try congruence.
  assert (E : normg g = normg g') by congruence. rewrite (normg_complete g g' E). destruct (complete g'); cbn [liftR fst snd]; [congruence|]. pose proof (grow_normg g g' E) as W. destruct (grow g) as [x|], (grow g') as [x'|]; cbn [liftR bindR] in *; try congruence.
  assert (EX : normg x = normg x') by congruence. cbn [fst snd]. rewrite !map_upd, H, EX, (normg_complete x x' EX). auto.
Qed.
Lemma grow_cluster_norm adj cs mn s s' c : normm s = normm s' -> liftR normm (grow_cluster adj cs mn s c) = liftR normm (grow_cluster adj cs mn s' c).
Proof.
  intros H. unfold grow_cluster. destruct (get cs c) as [k|]; cbn [bindR liftR]; [|auto]. destruct (c_bound k) as [b|]; [|auto]. destruct (mn <? length b); [cbn [liftR]; congruence|].
  apply fold_rel; [|auto]. intros t t' v E. destruct (get adj v); cbn [bindR liftR]; [|auto]. apply fold_rel; [|auto]. intros; apply grow_edge_norm; auto.
Qed.

(** ** Steps *)
Lemma norm_fields u u' : norm u = norm u' -> u_ends u = u_ends u' /\ u_adj u = u_adj u' /\ u_verts u = u_verts u' /\ u_clus u = u_clus u' /\ u_open u = u_open u' /\ map normg (u_grow u) = map normg (u_grow u').
Proof. unfold bare, set_grow. intros H. injection H. auto 10. Qed.
(** A function which commutes with normalisation maps equal graphs to equal graphs. *)
Lemma commuting {X} (f : ugraph -> X -> Res ugraph) : (forall u x, f (norm u) x = liftR norm (f u x)) -> forall u u' x, norm u = norm u' -> liftR norm (f u x) = liftR norm (f u' x).
Proof. intros H u u' x E. rewrite <- !H, E. auto. Qed.
Lemma step_norm u u' : norm u = norm u' -> liftR norm (step u) = liftR norm (step u').
Proof.
  intros E. unfold step. pose proof (commuting (fun u (_ : unit) => refresh_open u) (fun u _ => refresh_bare normg u) u u' tt E) as R. cbn beta in R.
  destruct (refresh_open u) as [u1|], (refresh_open u') as [u1'|]; cbn [liftR bindR] in *; try congruence. assert (E1 : norm u1 = norm u1') by congruence. clear R E u u'.
  destruct (norm_fields u1 u1' E1) as (EE & EA & EV & EC & EO & EG). rewrite EO. destruct (u_open u1') as [|c0 l0] eqn:O; [cbn [liftR]; congruence|]. 
  assert (BS : boundary_sizes u1 = boundary_sizes u1') by (unfold boundary_sizes; rewrite EO, EC, O; auto). rewrite BS. destruct (boundary_sizes u1') as [sizes|]; cbn [bindR liftR]; [|auto]. cbv zeta. rewrite EA, EC.
  pose proof (fold_rel normm (grow_cluster (u_adj u1') (u_clus u1') (fold_right Nat.min (hd 0 sizes) sizes)) (c0 :: l0) (fun s s' c => grow_cluster_norm _ _ _ s s' c) (u_grow u1, 0, []) (u_grow u1', 0, [])) as F.
  specialize (F ltac:(unfold normm; cbn [fst snd]; congruence)).
  destruct (foldR _ (c0 :: l0) (u_grow u1, 0, [])) as [[[gs k] new]|], (foldR _ (c0 :: l0) (u_grow u1', 0, [])) as [[[gs' k'] new']|]; cbn [liftR bindR] in *; try congruence.
  unfold normm in F. cbn [fst snd] in F. injection F as FG <- <-. destruct (assertR _); cbn [bindR liftR]; [|auto].
  assert (E2 : norm (set_grow gs u1) = norm (set_grow gs' u1')) by (unfold bare, set_grow; cbn [u_grow u_ends u_adj u_verts u_clus u_open]; congruence). destruct new as [|e new]; [cbn [liftR]; congruence|].
  pose proof (fold_rel norm handle_edge (e :: new) (commuting handle_edge (handle_bare normg)) _ _ E2) as HF.
  destruct (foldR handle_edge (e :: new) (set_grow gs u1)) as [u2|], (foldR handle_edge (e :: new) (set_grow gs' u1')) as [u2'|]; cbn [liftR bindR] in *; try congruence. assert (E3 : norm u2 = norm u2') by congruence.
  destruct (norm_fields u2 u2' E3) as (_ & _ & _ & EC2 & _ & _). rewrite EC2. apply fold_rel; [|auto]. apply commuting. apply (update_bare normg). apply complete_normg.
Qed.
Lemma steps_norm fuel : forall u u', norm u = norm u' -> liftR norm (steps fuel u) = liftR norm (steps fuel u').
Proof.
  induction fuel as [|fuel IH]; intros u u' E; cbn [steps]; destruct (norm_fields u u' E) as (_ & _ & _ & _ & EO & _); rewrite EO; destruct (u_open u'); cbn [liftR]; try congruence.
  pose proof (step_norm u u' E) as S. destruct (step u), (step u'); cbn [liftR bindR] in *; try congruence. apply IH. congruence.
Qed.
Lemma union_find_norm fuel er syn u u' : norm u = norm u' -> liftR (fun p => (norm (fst p), snd p)) (union_find fuel er syn u) = liftR (fun p => (norm (fst p), snd p)) (union_find fuel er syn u').
Proof.
  intros E. unfold union_find. pose proof (commuting (fun u (_ : unit) => init_graph er syn u) (fun u _ => init_bare normg complete_normg full_normg empty_normg er syn u) u u' tt E) as I. cbn beta in I.
  destruct (init_graph er syn u) as [u1|], (init_graph er syn u') as [u1'|]; cbn [liftR bindR] in *; try congruence. pose proof (steps_norm fuel u1 u1' ltac:(congruence)) as S.
  destruct (steps fuel u1) as [u2|], (steps fuel u1') as [u2'|]; cbn [liftR bindR fst snd] in *; try congruence. assert (E2 : norm u2 = norm u2') by congruence.
  rewrite <- (complete_edges_bare normg complete_normg u2), <- (complete_edges_bare normg complete_normg u2'), E2. auto.
Qed.

(** ** Weights *)
Lemma min_nonzero_scale k ws : (0 < k)%Q -> min_nonzero (map (Qmult k) ws) = liftR (Qmult k) (min_nonzero ws).
Proof.
  intros K. unfold min_nonzero.
  assert (F : filter (fun w => negb (Qeq_bool w 0)) (map (Qmult k) ws) = map (Qmult k) (filter (fun w => negb (Qeq_bool w 0)) ws)).
  { induction ws as [|w ws IH]; cbn [map filter]; [auto|]. rewrite IH. assert (E : Qeq_bool (k * w) 0 = Qeq_bool w 0).
    { apply eq_true_iff_eq. rewrite !Qeq_bool_iff. split; [intros H; apply Qmult_integral in H; destruct H; [lra|auto]|intros ->; ring]. }
    rewrite E. destruct (Qeq_bool w 0); auto. }
  rewrite F. destruct (filter _ ws) as [|w l]; cbn [map liftR]; [auto|]. f_equal. clear F. revert w. induction l as [|x l IH]; intros w; cbn [map fold_left]; [auto|]. rewrite <- IH. f_equal.
  assert (E : Qle_bool (k * w) (k * x) = Qle_bool w x) by (apply eq_true_iff_eq; rewrite !Qle_bool_iff, Qmult_le_l by auto; tauto). rewrite E. destruct (Qle_bool w x); auto.
Qed.
Lemma min_nonzero_not ws lo : min_nonzero ws = Ok lo -> ~ (lo == 0)%Q.
Proof.
  unfold min_nonzero. destruct (filter _ ws) as [|w l] eqn:F; [discriminate|]. intros [= <-] Z.
  assert (I : forall l w, let r := fold_left (fun a b => if Qle_bool a b then a else b) l w in r = w \/ In r l).
  { induction l0 as [|y l0 IH]; intros x; cbn [fold_left]; [auto|]. destruct (IH (if Qle_bool x y then x else y)) as [E|J]; [|right; right; auto]. cbv zeta in E |- *. rewrite E. destruct (Qle_bool x y); [auto|right; left; auto]. }
  assert (J : In (fold_left (fun a b => if Qle_bool a b then a else b) l w) (w :: l)) by (destruct (I l w) as [E|J]; cbv zeta in *; [left; auto|right; auto]).
  rewrite <- F in J. apply filter_In in J. destruct J as [_ J]. apply Qeq_bool_iff in Z. rewrite Z in J. discriminate.
Qed.
Lemma set_weights_scale c k ws u u1 : (0 < k)%Q -> set_weights c ws u = Ok u1 -> exists u2, set_weights c (map (Qmult k) ws) u = Ok u2 /\ norm u1 = norm u2.
Proof.
  intros K. unfold set_weights. rewrite min_nonzero_scale by auto. destruct (min_nonzero ws) as [lo|] eqn:M; cbn [bindR liftR]; [|discriminate]. rewrite map_length. destruct (assertR _) as [[]|]; cbn [bindR]; [|discriminate]. intros [= <-]. eexists. split; [reflexivity|].
  pose proof (min_nonzero_not ws lo M) as NZ. unfold bare, set_grow. cbn [u_grow u_ends u_adj u_verts u_clus u_open]. f_equal. rewrite !map_map. clear M. revert ws. generalize (u_grow u). induction l as [|g l IH]; intros [|w ws]; cbn [combine map]; [auto|auto|auto|]. f_equal; [|apply IH].
  cbn [fst snd]. cbv zeta. assert (E : (c * w / lo == c * (k * w) / (k * lo))%Q) by (field; split; [auto|lra]).
  assert (B : Qeq_bool (c * (k * w) / (k * lo)) 0 = Qeq_bool (c * w / lo) 0) by (apply eq_true_iff_eq; rewrite !Qeq_bool_iff, E; tauto). rewrite B. destruct (Qeq_bool (c * w / lo) 0); [auto|]. unfold normg. cbn [g_cur g_max g_inc option_map]. f_equal. f_equal. apply Qred_complete. rewrite E. reflexivity.
Qed.
