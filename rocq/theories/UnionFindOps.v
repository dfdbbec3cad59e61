(** Merging clusters, vertices that become interior, and the list of open clusters. *)
Require Import List Bool Arith Lia.
From Verif Require Import Base BaseProofs ErasureModel UnionFindModel GraphSpec GraphProofs
  ErasureProofs UnionFindTree UnionFindInv.
Import ListNotations.

Local Arguments upd : simpl never.

(** An edge is fully grown. *)
Definition cmp (gs : list growth) (i : nat) : bool :=
  match nth_error gs i with Some g => complete g | None => false end.

(** The parts of the graph which clusters do not touch. *)
Definition keeps (u u' : ugraph) : Prop :=
  u_ends u' = u_ends u /\ u_adj u' = u_adj u /\ u_grow u' = u_grow u.

Lemma keeps_refl u : keeps u u.
Proof. repeat split. Qed.

Lemma keeps_trans a b c : keeps a b -> keeps b c -> keeps a c.
Proof. intros (A & B & C) (A' & B' & C'). repeat split; congruence. Qed.

Lemma nodup_app {A} (a b : list A) :
  NoDup a -> NoDup b -> (forall x, In x a -> In x b -> False) -> NoDup (a ++ b).
Proof.
  induction a as [|y a IH]; cbn; intros X Y Z; auto. inversion X; subst. constructor.
  - rewrite in_app_iff. intros [I|I]; auto. eapply Z; eauto.
  - apply IH; auto. intros; eapply Z; eauto.
Qed.

Section I.
Variables (n : nat) (edges : list (list nat)).
Hypothesis WF : well_formed n edges.
Variable syn : nat -> bool.

Notation link := (link edges).
Notation m := (length edges).
Notation cl cs c := (nth c cs dead).
Notation st vs v := (v_state (nth v vs new_vertex)).
Notation uinv := (uinv n edges syn).
Notation plus_edge i H := (fun j => (j =? i) || H j).

(** ** Merging *)

Definition mergelab (lab : nat -> option nat) (s o : nat) : nat -> option nat :=
  fun x => if labis lab o x then Some s else lab x.

Lemma mergelab_other lab s o x : lab x <> Some o -> mergelab lab s o x = lab x.
Proof.
  intros D. unfold mergelab. destruct (labis lab o x) eqn:E; auto.
  apply labis_true in E. congruence.
Qed.

Lemma mergelab_o lab s o x : lab x = Some o -> mergelab lab s o x = Some s.
Proof. intros E. unfold mergelab. apply labis_true in E. rewrite E. auto. Qed.

Lemma mergelab_some lab s o x : s <> o -> 
  forall d, mergelab lab s o x = Some d <-> (lab x = Some d /\ d <> o) \/ (lab x = Some o /\ d = s).
Proof.
  intros D d. unfold mergelab. destruct (labis lab o x) eqn:E.
  - apply labis_true in E. rewrite E. split.
    + intros X. injection X as <-. auto.
    + intros [[X Y]|[_ ->]]; congruence.
  - assert (lab x <> Some o). { intros X. apply labis_true in X. congruence. }
    split.
    + intros X. left. split; congruence.
    + intros [[X _]|[X _]]; congruence.
Qed.

Lemma merge_inv vs cs opn lab H i v w s o rs ro cs' opn' x' :
  uinv vs cs opn lab H -> lab v = Some s -> lab w = Some o -> s <> o -> link i v (Some w) ->
  c_root (cl cs s) = Some rs -> c_root (cl cs o) = Some ro ->
  x' = mkVertex (v_state (vx vs ro)) (Some rs) None (v_syn (vx vs ro)) ->
  forall bs bo par op,
  c_bound (cl cs s) = Some bs -> c_bound (cl cs o) = Some bo ->
  par = match c_par (cl cs s), c_par (cl cs o) with Some p, Some q => Some (xorb p q) | _, _ => None end ->
  (forall d, cl cs' d = if d =? o then mkCluster None None (Some false) (c_open (cl cs o))
                        else if d =? s then mkCluster (Some rs) (Some (bs ++ bo)) par op
                        else cl cs d) ->
  NoDup opn' -> (forall d, In d opn' <-> c_open (cl cs' d) = true) ->
  (par = Some true -> op = true) ->
  uinv (upd ro x' vs) cs' opn' (mergelab lab s o) (plus_edge i H).
Proof.
  intros U Ev Ew D K RS RO X' bs bo par op BS BO PAR CL NO HO ODD.
  pose proof (ui_len _ _ _ _ _ _ _ _ U) as LN.
  destruct (ui_root _ _ _ _ _ _ _ _ U s bs BS) as (rs' & RS' & LS). assert (rs' = rs) by congruence; subst rs'.
  destruct (ui_root _ _ _ _ _ _ _ _ U o bo BO) as (ro' & RO' & LO). assert (ro' = ro) by congruence; subst ro'.
  destruct (ui_tree _ _ _ _ _ _ _ _ U rs s LS) as (ks & q & RRS & C1 & VS). assert (q = rs) by congruence; subst q.
  destruct (ui_tree _ _ _ _ _ _ _ _ U ro o LO) as (ko & q & RRO & C2 & VO). assert (q = ro) by congruence; subst q.
  destruct (rooted_end _ _ _ _ RRO) as [PRO LRO].
  assert (DR : ro <> rs) by congruence.
  set (vs' := upd ro x' vs).
  assert (VX : forall x, x <> ro -> vx vs' x = vx vs x).
  { intros x E. apply nth_upd_other; auto. }
  assert (VR : vx vs' ro = x') by (apply nth_upd_same; auto).
  assert (ST : forall x, st vs' x = st vs x).
  { intros x. destruct (Nat.eq_dec x ro) as [->|E]; [rewrite VR, X'; auto|rewrite VX; auto]. }
  assert (SY : forall x, v_syn (vx vs' x) = v_syn (vx vs x)).
  { intros x. destruct (Nat.eq_dec x ro) as [->|E]; [rewrite VR, X'; auto|rewrite VX; auto]. }
  assert (ML : forall x d, mergelab lab s o x = Some d <->
            (lab x = Some d /\ d <> o) \/ (lab x = Some o /\ d = s)).
  { intros x d. apply mergelab_some; auto. }
  assert (Dso : s =? o = false) by (apply Nat.eqb_neq; auto).
  constructor.
  - unfold vs'. rewrite length_upd; auto.
  - intros x Lx E. assert (Ex : lab x = None).
    { unfold mergelab in E. destruct (labis lab o x); [discriminate|auto]. }
    rewrite VX by congruence. apply (ui_free _ _ _ _ _ _ _ _ U); auto.
  - intros x d E. rewrite ST, SY. apply ML in E.
    destruct E as [[E _]|[E _]]; eapply (ui_used _ _ _ _ _ _ _ _ U); eauto.
  - assert (HG : forall y j q, rooted vs y j q -> exists j', rooted vs' y j' (if q =? ro then rs else q)).
    { apply hang; auto.
      - eapply rooted_root; eauto.
      - rewrite X'. reflexivity. }
    intros x d E. apply ML in E. destruct E as [[E ND]|[E ->]].
    + destruct (ui_tree _ _ _ _ _ _ _ _ U x d E) as (k & r & RR & CR & VR').
      destruct (HG x k r RR) as (k' & R'). assert (DRR : r <> ro) by congruence.
      apply Nat.eqb_neq in DRR as DRR'. rewrite DRR' in R'. exists k', r. split; auto.
      rewrite VX by auto. split; auto. rewrite CL. apply Nat.eqb_neq in ND. rewrite ND.
      destruct (Nat.eqb_spec d s) as [->|]; auto. cbn. congruence.
    + destruct (ui_tree _ _ _ _ _ _ _ _ U x o E) as (k & r & RR & CR & VR').
      assert (r = ro) by congruence. subst r.
      destruct (HG x k ro RR) as (k' & R'). rewrite Nat.eqb_refl in R'. exists k', rs.
      split; auto. rewrite CL, Dso, Nat.eqb_refl. split; auto. rewrite VX by auto. auto.
  - intros x d E. rewrite CL. apply ML in E. destruct E as [[E ND]|[E ->]].
    + apply Nat.eqb_neq in ND. rewrite ND. destruct (d =? s); cbn; eauto.
      apply (ui_live _ _ _ _ _ _ _ _ U x d E).
    + rewrite Dso, Nat.eqb_refl. cbn. eauto.
  - destruct (ui_bound _ _ _ _ _ _ _ _ U s bs BS) as [N1 B1].
    destruct (ui_bound _ _ _ _ _ _ _ _ U o bo BO) as [N2 B2].
    intros d bd. rewrite CL. destruct (Nat.eqb_spec d o) as [->|NDo]; [discriminate|].
    destruct (Nat.eqb_spec d s) as [->|NDs]; cbn [c_bound].
    + intros X. injection X as <-. split.
      * apply nodup_app; auto. intros x I J. apply B1 in I. apply B2 in J.
        destruct I as [I _], J as [J _]. congruence.
      * intros x. rewrite in_app_iff, B1, B2, ML, ST. intuition congruence.
    + intros X. destruct (ui_bound _ _ _ _ _ _ _ _ U d bd X) as [ND BD]. split; auto.
      intros x. rewrite BD, ML, ST. intuition congruence.
  - intros d bd. rewrite CL. destruct (Nat.eqb_spec d o) as [->|NDo]; [discriminate|].
    destruct (Nat.eqb_spec d s) as [->|NDs]; cbn [c_bound c_root].
    + intros _. exists rs. split; auto. apply ML. left. auto.
    + intros X. destruct (ui_root _ _ _ _ _ _ _ _ U d bd X) as (q & Q1 & Q2). exists q. split; auto.
      apply ML. left. auto.
  - assert (DG : forall j x, (j =? i) || H j = true -> link j x None -> H j = true).
    { intros j x Hj Kj. apply orb_true_iff in Hj. destruct Hj as [Hj|Hj]; auto.
      apply Nat.eqb_eq in Hj. subst j. destruct (link_dangling edges i x v _ Kj K). discriminate. }
    intros d. rewrite CL. destruct (Nat.eqb_spec d o) as [->|NDo]; cbn [c_par].
    { split.
      - rewrite (parity_on_set n syn _ (fun _ => false)); [apply parity_on_none|].
        intros x _. destruct (labis (mergelab lab s o) o x) eqn:E; auto.
        apply labis_true in E. apply ML in E. intuition congruence.
      - intros j x _ _ E. apply ML in E. intuition congruence. }
    pose proof (ui_par _ _ _ _ _ _ _ _ U d) as P.
    destruct (Nat.eqb_spec d s) as [->|NDs]; cbn [c_par].
    + pose proof (ui_par _ _ _ _ _ _ _ _ U o) as P'. subst par.
      destruct (c_par (cl cs s)) as [p|].
      2: { destruct P as (j & x & Hj & Kj & Ex). exists j, x. cbn beta. rewrite Hj, orb_true_r.
           split; auto. split; auto. apply ML. left; auto. }
      destruct (c_par (cl cs o)) as [q|].
      2: { destruct P' as (j & x & Hj & Kj & Ex). exists j, x. cbn beta. rewrite Hj, orb_true_r.
           split; auto. split; auto. apply ML. right; auto. }
      destruct P as [P X], P' as [P' Y]. split.
      * rewrite (parity_on_set n syn _ (fun x => xorb (labis lab s x) (labis lab o x))).
        { rewrite parity_on_union. congruence. }
        intros x _. unfold labis, mergelab, labis. destruct (lab x) as [y|]; auto.
        destruct (Nat.eqb_spec y o) as [->|].
        -- rewrite Nat.eqb_refl. rewrite Nat.eqb_sym, Dso. reflexivity.
        -- rewrite xorb_false_r. reflexivity.
      * intros j x Hj Kj E. apply DG with (x := x) in Hj; auto. apply ML in E.
        destruct E as [[E _]|[E _]]; [apply (X j x Hj Kj E)|apply (Y j x Hj Kj E)].
    + destruct (c_par (cl cs d)) as [p|].
      * destruct P as [P X]. split.
        -- rewrite <- P. apply parity_on_set. intros x _. unfold labis, mergelab, labis.
           destruct (lab x) as [y|]; auto. destruct (Nat.eqb_spec y o) as [->|]; auto.
           apply Nat.eqb_neq in NDo. rewrite (Nat.eqb_sym o d), NDo. apply Nat.eqb_neq. congruence.
        -- intros j x Hj Kj E. apply DG with (x := x) in Hj; auto. apply ML in E.
           destruct E as [[E _]|[E ?]]; [apply (X j x Hj Kj E)|congruence].
      * destruct P as (j & x & Hj & Kj & Ex). exists j, x. cbn beta. rewrite Hj, orb_true_r.
        split; auto. split; auto. apply ML. left; auto.
  - intros j x y Hj Kj. apply orb_true_iff in Hj. destruct Hj as [Hj|Hj].
    + apply Nat.eqb_eq in Hj. subst j. exists s.
      destruct (link_ends n edges WF i v w x (Some y) K Kj) as [[-> E]|[-> E]];
        injection E as ->; rewrite !ML; auto.
    + destruct (ui_two _ _ _ _ _ _ _ _ U j x y Hj Kj) as (d & D1 & D2).
      destruct (Nat.eq_dec d o) as [->|NDo].
      * exists s. rewrite !ML. auto.
      * exists d. rewrite !ML. auto.
  - intros j x Hj Kj. apply orb_true_iff in Hj. destruct Hj as [Hj|Hj].
    + apply Nat.eqb_eq in Hj. subst j. destruct (link_dangling edges i x v _ Kj K). discriminate.
    + destruct (ui_dang _ _ _ _ _ _ _ _ U j x Hj Kj) as (d & D1).
      destruct (Nat.eq_dec d o) as [->|NDo].
      * exists s. rewrite !ML. auto.
      * exists d. rewrite !ML. auto.
  - intros A I.
    assert (I' : isolated edges (fun j => H j = true) A).
    { eapply isolated_mono; [|exact I]. intros j Hj. cbn beta. rewrite Hj. apply orb_true_r. }
    assert (AV : A v = A w).
    { eapply (isolated_two edges); [exact I| |exact K]. cbn beta. rewrite Nat.eqb_refl; auto. }
    pose proof (ui_conn _ _ _ _ _ _ _ _ U A I') as CN.
    intros x y d Ex Ey. apply ML in Ex. apply ML in Ey.
    destruct Ex as [[Ex Nx]|[Ex Nx]], Ey as [[Ey Ny]|[Ey Ny]]; subst.
    + eapply CN; eauto.
    + rewrite (CN x v s), AV by auto. eapply CN; eauto.
    + rewrite (CN y v s), AV by auto. eapply CN; eauto.
    + eapply CN; eauto.
  - intros x. rewrite ST. intros SX j q Kj. rewrite (ui_int _ _ _ _ _ _ _ _ U x SX j q Kj).
    apply orb_true_r.
  - auto.
  - auto.
  - intros d. rewrite CL. destruct (d =? o); [discriminate|]. destruct (d =? s); cbn; auto.
    apply (ui_odd _ _ _ _ _ _ _ _ U).
Qed.

Lemma absorb_ok u lab H i v w s o :
  uinv (u_verts u) (u_clus u) (u_open u) lab H ->
  lab v = Some s -> lab w = Some o -> s <> o -> link i v (Some w) ->
  exists u', absorb u s o = Ok u' /\ keeps u u' /\
    length (u_clus u') = length (u_clus u) /\
    (forall x, st (u_verts u') x = st (u_verts u) x) /\
    uinv (u_verts u') (u_clus u') (u_open u') (mergelab lab s o) (plus_edge i H).
Proof.
  intros U Ev Ew D K.
  destruct (ui_live _ _ _ _ _ _ _ _ U v s Ev) as [bs BS].
  destruct (ui_live _ _ _ _ _ _ _ _ U w o Ew) as [bo BO].
  pose proof (live_lt _ _ _ BS) as L1. pose proof (live_lt _ _ _ BO) as L2.
  destruct (ui_root _ _ _ _ _ _ _ _ U s bs BS) as (rs & RS & LS).
  destruct (ui_root _ _ _ _ _ _ _ _ U o bo BO) as (ro & RO & LO).
  destruct (ui_tree _ _ _ _ _ _ _ _ U ro o LO) as (ko & q & RRO & C2 & VO).
  assert (q = ro) by congruence; subst q.
  destruct (rooted_end _ _ _ _ RRO) as [PRO LRO].
  unfold absorb. rewrite (get_nth _ s dead), (get_nth _ o dead) by auto. cbn [bindR].
  rewrite BS, BO, RS, RO. rewrite (get_nth _ ro new_vertex) by auto. cbn [bindR].
  unfold set_parent. rewrite VO, PRO. cbn [xorb assertR bindR].
  set (par := match c_par (cl (u_clus u) s) with Some _ => _ | None => None end).
  set (x' := mkVertex _ _ _ _).
  set (ks := cl (u_clus u) s) in *. set (ko' := cl (u_clus u) o) in *.
  set (cs1 := upd o _ _).
  assert (LC : length cs1 = length (u_clus u)) by (unfold cs1; rewrite !length_upd; auto).
  assert (CL1 : forall d, cl cs1 d = if d =? o then mkCluster None None (Some false) (c_open ko')
      else if d =? s then mkCluster (Some rs) (Some (bs ++ bo)) par (c_open ks)
      else cl (u_clus u) d).
  { intros d. unfold cs1. rewrite cl_upd by (rewrite length_upd; auto).
    destruct (d =? o); auto. apply cl_upd; auto. }
  set (vs' := upd ro x' (u_verts u)).
  assert (ST : forall x, st vs' x = st (u_verts u) x).
  { intros x. unfold vs'. rewrite vx_upd by auto. destruct (Nat.eqb_spec x ro) as [->|]; auto. }
  assert (Dso : s =? o = false) by (apply Nat.eqb_neq; auto).
  assert (MAIN : (par = Some true -> c_open ks = true) ->
    exists u', Ok (set_clus cs1 (set_verts vs' u)) = Ok u' /\ keeps u u' /\
    length (u_clus u') = length (u_clus u) /\
    (forall x, st (u_verts u') x = st (u_verts u) x) /\
    uinv (u_verts u') (u_clus u') (u_open u') (mergelab lab s o) (plus_edge i H)).
  { intros OP. eexists. split; [reflexivity|]. split; [repeat split|]. split; [exact LC|].
    split; [exact ST|]. cbn [u_verts u_clus u_open set_clus set_verts].
    eapply (merge_inv (u_verts u) (u_clus u) (u_open u)) with (v := v) (w := w); eauto.
    - apply U.
    - intros d. rewrite CL1. destruct (Nat.eqb_spec d o) as [->|]; [apply (ui_open _ _ _ _ _ _ _ _ U)|].
      destruct (Nat.eqb_spec d s) as [->|]; apply (ui_open _ _ _ _ _ _ _ _ U). }
  destruct (c_open ks) eqn:OS; [apply MAIN; auto|].
  destruct par as [[|]|] eqn:EP; [|apply MAIN; discriminate|apply MAIN; discriminate].
  clear MAIN. unfold reopen. cbn [u_clus set_clus]. rewrite (get_nth _ s dead) by lia.
  rewrite CL1, Dso, Nat.eqb_refl. cbn [bindR c_open negb assertR c_root c_bound c_par].
  eexists. split; [reflexivity|]. split; [repeat split|].
  cbn [u_verts u_clus u_open set_clus set_verts set_open].
  split; [rewrite length_upd; auto|]. split; [exact ST|].
  assert (CL2 : forall d, cl (upd s (mkCluster (Some rs) (Some (bs ++ bo)) (Some true) true) cs1) d =
      if d =? o then mkCluster None None (Some false) (c_open ko')
      else if d =? s then mkCluster (Some rs) (Some (bs ++ bo)) (Some true) true
      else cl (u_clus u) d).
  { intros d. rewrite cl_upd by lia. rewrite CL1. destruct (Nat.eqb_spec d s) as [->|]; auto.
    rewrite Dso. auto. }
  eapply (merge_inv (u_verts u) (u_clus u) (u_open u)) with (v := v) (w := w) (par := Some true)
    (op := true); eauto.
  - apply NoDup_Add with (a := s) (l := u_open u).
    { replace (u_open u) with (u_open u ++ []) at 1 by apply app_nil_r. apply Add_app. }
    split; [apply U|]. rewrite (ui_open _ _ _ _ _ _ _ _ U). fold ks. congruence.
  - intros d. rewrite in_app_iff, CL2, (ui_open _ _ _ _ _ _ _ _ U).
    destruct (Nat.eqb_spec d o) as [->|Do]; cbn [In c_open]; [fold ko'; split; [intros [I|[I|[]]]; auto; congruence|auto]|].
    destruct (Nat.eqb_spec d s) as [->|Ds]; cbn [c_open]; [tauto|].
    split; [intros [I|[I|[]]]; auto; congruence|auto].
Qed.

Lemma merge_ok u lab H i v w s o :
  uinv (u_verts u) (u_clus u) (u_open u) lab H ->
  lab v = Some s -> lab w = Some o -> link i v (Some w) ->
  exists u' lab', merge_with u s o = Ok u' /\ keeps u u' /\
    length (u_clus u') = length (u_clus u) /\
    (forall x, st (u_verts u') x = st (u_verts u) x) /\
    (forall x, lab' x = None <-> lab x = None) /\
    uinv (u_verts u') (u_clus u') (u_open u') lab' (plus_edge i H).
Proof.
  intros U Ev Ew K. unfold merge_with. destruct (Nat.eqb_spec s o) as [->|D].
  - exists u, lab. split; [auto|]. split; [apply keeps_refl|]. split; [auto|]. split; [auto|].
    split; [tauto|]. apply (uinv_inner n edges WF syn) with (v := v) (w := w) (c := o); auto.
  - destruct (ui_live _ _ _ _ _ _ _ _ U v s Ev) as [bs BS].
    destruct (ui_live _ _ _ _ _ _ _ _ U w o Ew) as [bo BO].
    rewrite (get_nth _ s dead) by (eapply live_lt; eauto).
    rewrite (get_nth _ o dead) by (eapply live_lt; eauto). cbn [bindR]. rewrite BS, BO.
    assert (MN : forall a b x, mergelab lab a b x = None <-> lab x = None).
    { intros a b x. unfold mergelab. destruct (labis lab b x) eqn:E; [|tauto].
      apply labis_true in E. split; congruence. }
    destruct (length bs <? length bo).
    + destruct (link_other n edges WF i v w K) as (_ & _ & K').
      destruct (absorb_ok u lab H i w v o s U) as (u' & E & A & B & C & F); auto.
      exists u', (mergelab lab o s). do 4 (split; [auto|]). split; [apply MN|auto].
    + destruct (absorb_ok u lab H i v w s o U) as (u' & E & A & B & C & F); auto.
      exists u', (mergelab lab s o). do 4 (split; [auto|]). split; [apply MN|auto].
Qed.

(** ** Vertices that become interior *)

Definition allc (adj : list (list entry)) (gs : list growth) (v : nat) : bool :=
  forallb (fun en => cmp gs (fst en)) (nth v adj []).

Lemma all_complete_ok u v : nbr_ok n edges (fun _ => true) (u_adj u) ->
  length (u_grow u) = m -> v < n ->
  all_complete u v = Ok (allc (u_adj u) (u_grow u) v).
Proof.
  intros [LA NB] LG Lv. destruct (NB v Lv) as [_ X]. unfold all_complete, allc.
  rewrite (get_nth _ v []) by lia. cbn [bindR].
  assert (Y : forall en, In en (nth v (u_adj u) []) -> fst en < length (u_grow u)).
  { intros [i o] I. apply X in I. destruct I as [_ K]. destruct (link_lt n edges WF _ _ _ K). cbn; lia. }
  clear X NB. revert Y. generalize (nth v (u_adj u) []). intros l.
  set (body := fun (b : bool) (en : entry) =>
     if b : bool then do e <- get (u_grow u) (fst en); Ok (complete e) else Ok false).
  assert (FF : forall l, foldR body l false = Ok false).
  { induction l0; cbn; auto. }
  induction l as [|[i o] l IH]; intros Y; auto.
  cbn [foldR forallb fst]. unfold body at 1, cmp at 1, get. cbn [fst].
  specialize (Y (i, o) (or_introl eq_refl)) as L. cbn in L.
  destruct (nth_error (u_grow u) i) as [g|] eqn:E.
  2: { apply nth_error_None in E. lia. }
  cbn [bindR]. destruct (complete g); cbn [andb].
  - apply IH. intros en I. apply Y. right; auto.
  - apply FF.
Qed.

Lemma allc_spec adj gs v : nbr_ok n edges (fun _ => true) adj -> v < n ->
  (allc adj gs v = true <-> forall i o, link i v o -> cmp gs i = true).
Proof.
  intros [LA NB] Lv. destruct (NB v Lv) as [_ X]. unfold allc. rewrite forallb_forall. split.
  - intros Y i o K. apply (Y (i, o)). apply X. auto.
  - intros Y [i o] I. apply X in I. destruct I as [_ K]. cbn. eauto.
Qed.

Lemma update_fold u all : forall b vs new,
  (forall v, In v b -> all_complete u v = Ok (all v)) -> NoDup b ->
  (forall v, In v b -> v < length vs /\ st vs v = Boundary) ->
  exists vs', foldR (fun (s : list vertex * list nat) v =>
                let (vs, new) := s in
                do a <- all_complete u v;
                if a : bool
                then do x <- get vs v; do x' <- to_interior x; Ok (upd v x' vs, new)
                else Ok (vs, new ++ [v])) b (vs, new) =
      Ok (vs', new ++ filter (fun v => negb (all v)) b) /\
    length vs' = length vs /\
    (forall x, (In x b /\ all x = true /\
                vx vs' x = mkVertex Interior (v_parent (vx vs x)) (v_cluster (vx vs x)) (v_syn (vx vs x))) \/
               (~ (In x b /\ all x = true) /\ vx vs' x = vx vs x)).
Proof.
  induction b as [|v b IH]; intros vs new A ND S.
  - exists vs. cbn. rewrite app_nil_r. split; auto. split; auto. intros x. right. split; auto. tauto.
  - cbn [foldR filter]. rewrite A by (left; auto). cbn [bindR]. inversion ND as [|? ? NI ND']; subst.
    destruct (S v) as [L SV]; [left; auto|].
    destruct (all v) eqn:EA; cbn [negb].
    + rewrite (get_nth vs v new_vertex) by auto. cbn [bindR]. unfold to_interior at 1.
      rewrite SV. cbn [eqb_vstate assertR bindR].
      set (x' := mkVertex _ _ _ _).
      destruct (IH (upd v x' vs) new) as (vs' & E & LL & X); auto.
      { intros y I. apply A. right; auto. }
      { intros y I. rewrite length_upd. destruct (S y) as [Ly Sy]; [right; auto|]. split; auto.
        rewrite nth_upd_other; auto. congruence. }
      exists vs'. split; [exact E|]. split; [rewrite LL, length_upd; auto|].
      intros x. destruct (Nat.eq_dec x v) as [->|Dx].
      * left. split; [left; auto|]. split; auto. destruct (X v) as [(I & _)|[_ X']]; [tauto|].
        rewrite X', nth_upd_same by auto. reflexivity.
      * destruct (X x) as [(I & B & X')|[B X']]; rewrite nth_upd_other in X' by auto.
        -- left. split; [right|]; auto.
        -- right. split; auto. intros [[?|?] ?]; [congruence|tauto].
    + destruct (IH vs (new ++ [v])) as (vs' & E & LL & X); auto.
      { intros y I. apply A. right; auto. }
      { intros y I. apply S. right; auto. }
      exists vs'. rewrite <- app_assoc in E. split; [exact E|]. split; auto.
      intros x. destruct (X x) as [(I & B & X')|[B X']].
      * left. split; [right|]; auto.
      * right. split; auto. intros [[->|?] ?]; [congruence|tauto].
Qed.

Lemma update_ok u lab H c :
  uinv (u_verts u) (u_clus u) (u_open u) lab H -> c < length (u_clus u) ->
  nbr_ok n edges (fun _ => true) (u_adj u) -> length (u_grow u) = m ->
  (forall v i o, lab v = Some c -> link i v o -> cmp (u_grow u) i = true -> H i = true) ->
  exists u', update_after_growth u c = Ok u' /\ keeps u u' /\
    length (u_clus u') = length (u_clus u) /\ u_open u' = u_open u /\
    (forall x, lab x <> Some c -> st (u_verts u') x = st (u_verts u) x) /\
    (forall x, lab x = Some c -> st (u_verts u') x = Boundary ->
       st (u_verts u) x = Boundary /\ exists i o, link i x o /\ cmp (u_grow u) i = false) /\
    (forall x, v_syn (vx (u_verts u') x) = v_syn (vx (u_verts u) x)) /\
    uinv (u_verts u') (u_clus u') (u_open u') lab H.
Proof.
  intros U L NB LG CH. unfold update_after_growth.
  rewrite (get_nth _ c dead) by auto. cbn [bindR]. set (k := cl (u_clus u) c) in *.
  destruct (c_bound k) as [b|] eqn:EB.
  2: { exists u. split; [auto|]. split; [apply keeps_refl|]. split; [auto|]. split; [auto|]. split; [auto|].
       split; [|auto]. intros x E. destruct (ui_live _ _ _ _ _ _ _ _ U x c E) as [b B].
       fold k in B. congruence. }
  destruct (ui_bound _ _ _ _ _ _ _ _ U c b EB) as [ND BD].
  pose proof (ui_len _ _ _ _ _ _ _ _ U) as LN.
  set (all := allc (u_adj u) (u_grow u)).
  assert (LB : forall v, In v b -> v < n).
  { intros v I. apply BD in I. destruct I as [I _]. apply (ui_used _ _ _ _ _ _ _ _ U v c I). }
  destruct (update_fold u all b (u_verts u) []) as (vs' & E & LV & X); auto.
  { intros v I. apply all_complete_ok; auto. }
  { intros v I. rewrite LN. split; auto. apply BD; auto. }
  rewrite E. cbn [bindR fst snd app].
  eexists. split; [reflexivity|]. split; [repeat split|].
  cbn [u_clus set_clus set_verts u_open u_verts].
  split; [apply length_upd|]. split; [auto|].
  set (b' := filter _ b). set (cs' := upd c _ _).
  assert (CL : forall d, cl cs' d = if d =? c then mkCluster (c_root k) (Some b') (c_par k) (c_open k)
                                    else cl (u_clus u) d) by (intros; apply cl_upd; auto).
  assert (CR : forall d, c_root (cl cs' d) = c_root (cl (u_clus u) d)).
  { intros d. rewrite CL. destruct (Nat.eqb_spec d c) as [->|]; auto. }
  assert (CP : forall d, c_par (cl cs' d) = c_par (cl (u_clus u) d)).
  { intros d. rewrite CL. destruct (Nat.eqb_spec d c) as [->|]; auto. }
  assert (CO : forall d, c_open (cl cs' d) = c_open (cl (u_clus u) d)).
  { intros d. rewrite CL. destruct (Nat.eqb_spec d c) as [->|]; auto. }
  assert (CBN : forall d bd, c_bound (cl cs' d) = Some bd -> exists bd', c_bound (cl (u_clus u) d) = Some bd').
  { intros d bd. rewrite CL. destruct (Nat.eqb_spec d c) as [->|]; eauto. }
  assert (CBS : forall d bd, c_bound (cl (u_clus u) d) = Some bd -> exists bd', c_bound (cl cs' d) = Some bd').
  { intros d bd. rewrite CL. destruct (Nat.eqb_spec d c) as [->|]; cbn; eauto. }
  assert (SO : forall x, lab x <> Some c -> vx vs' x = vx (u_verts u) x).
  { intros x D. destruct (X x) as [(I & _)|[_ Y]]; auto. apply BD in I. tauto. }
  assert (SY : forall x, v_syn (vx vs' x) = v_syn (vx (u_verts u) x)).
  { intros x. destruct (X x) as [(_ & _ & ->)|[_ ->]]; auto. }
  assert (PP : forall x, v_parent (vx vs' x) = v_parent (vx (u_verts u) x)).
  { intros x. destruct (X x) as [(_ & _ & ->)|[_ ->]]; auto. }
  assert (VC : forall x, v_cluster (vx vs' x) = v_cluster (vx (u_verts u) x)).
  { intros x. destruct (X x) as [(_ & _ & ->)|[_ ->]]; auto. }
  assert (RT : forall w i r, rooted (u_verts u) w i r -> rooted vs' w i r).
  { induction 1.
    - constructor; [lia|]. rewrite PP. auto.
    - econstructor; eauto; [lia|]. rewrite PP. auto. }
  assert (SB : forall x, lab x = Some c -> (st vs' x = Boundary <-> In x b /\ all x = false)).
  { intros x Ex. destruct (X x) as [(I & A & ->)|[N ->]].
    - cbn. split; [discriminate|]. intros [_ Y]. congruence.
    - split.
      + intros Y. assert (I : In x b) by (apply BD; auto). split; auto.
        destruct (all x) eqn:A; auto. tauto.
      + intros [I _]. apply BD; auto. }
  split; [intros x D; rewrite SO; auto|]. split.
  { intros x Ex Y. apply SB in Y; auto. destruct Y as [I A]. split; [apply BD; auto|].
    destruct NB as [LA NB]. destruct (NB x (LB x I)) as [_ W].
    unfold all, allc in A. clear -A W.
    assert (EX : exists en, In en (nth x (u_adj u) []) /\ cmp (u_grow u) (fst en) = false).
    { clear W. induction (nth x (u_adj u) []) as [|en l IH]; [discriminate|]. cbn in A.
      destruct (cmp (u_grow u) (fst en)) eqn:Y; [|exists en; split; [left|]; auto].
      destruct (IH A) as (e & I & F). exists e. split; [right|]; auto. }
    destruct EX as ([i o] & I & F). apply W in I. destruct I as [_ K]. eauto. }
  split; [auto|].
  constructor; try apply U.
  - lia.
  - intros x Lx Ex. rewrite SO by congruence. apply (ui_free _ _ _ _ _ _ _ _ U); auto.
  - intros x d Ex. rewrite SY. destruct (ui_used _ _ _ _ _ _ _ _ U x d Ex) as (A & B & C).
    split; auto. split; auto. destruct (X x) as [(_ & _ & ->)|[_ ->]]; auto. discriminate.
  - intros x d Ex. destruct (ui_tree _ _ _ _ _ _ _ _ U x d Ex) as (j & r & A & B & C).
    exists j, r. rewrite CR, VC. auto.
  - intros x d Ex. destruct (ui_live _ _ _ _ _ _ _ _ U x d Ex) as (bd & B). eauto.
  - intros d bd. rewrite CL. destruct (Nat.eqb_spec d c) as [->|D].
    + cbn [c_bound]. intros Y. injection Y as <-. split; [apply NoDup_filter; auto|].
      intros x. unfold b'. rewrite filter_In, negb_true_iff. split.
      * intros [I A]. assert (Ex : lab x = Some c) by (apply BD; auto). split; auto. apply SB; auto.
      * intros [Ex Y]. apply SB; auto.
    + intros Y. destruct (ui_bound _ _ _ _ _ _ _ _ U d bd Y) as [N B]. split; auto.
      intros x. rewrite B. split; intros [Ex S]; (split; [auto|]).
      * rewrite SO; auto. congruence.
      * rewrite SO in S; auto. congruence.
  - intros d bd Y. rewrite CR. destruct (CBN d bd Y) as (bd' & B). apply (ui_root _ _ _ _ _ _ _ _ U d bd' B).
  - intros d. rewrite CP. apply (ui_par _ _ _ _ _ _ _ _ U).
  - intros x SX i o K. destruct (X x) as [(I & A & _)|[_ Y]].
    + apply BD in I. destruct I as [Ex _]. apply (CH x i o Ex K).
      pose proof (ui_used _ _ _ _ _ _ _ _ U x c Ex) as (Lx & _).
      apply (proj1 (allc_spec (u_adj u) (u_grow u) x NB Lx) A i o K).
    + rewrite Y in SX. apply (ui_int _ _ _ _ _ _ _ _ U x SX i o K).
  - intros d. rewrite CO. apply (ui_open _ _ _ _ _ _ _ _ U).
  - intros d. rewrite CO, CP. apply (ui_odd _ _ _ _ _ _ _ _ U).
Qed.

End I.
