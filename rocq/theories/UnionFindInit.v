(** The initial clusters of the union-find decoder. *)
Require Import List Bool Arith Lia QArith.
From Verif Require Import Base BaseProofs ErasureModel UnionFindModel GraphSpec GraphProofs
  ErasureProofs UnionFindTree UnionFindInv UnionFindOps.
Import ListNotations.
Open Scope nat_scope.

Local Arguments upd : simpl never.

Lemma option_eq_dec (x : option nat) c : {x = Some c} + {x <> Some c}.
Proof. repeat decide equality. Qed.

Section I.
Variables (n : nat) (edges : list (list nat)).
Hypothesis WF : well_formed n edges.

Notation link := (link edges).
Notation m := (length edges).
Notation cl cs c := (nth c cs dead).
Notation st vs v := (v_state (nth v vs new_vertex)).

(** What stays the same in a graph object when it is used. *)
Record uobj (u : ugraph) : Prop := {
  uo_ends : u_ends u = edges;
  uo_adj : nbr_ok n edges (fun _ => true) (u_adj u);
  uo_grow : length (u_grow u) = m;
  uo_inc : forall g, In g (u_grow u) -> match g_inc g with None => True | Some d => (0 < d)%Q end
}.

Lemma uobj_keeps u u' : uobj u -> keeps u u' -> uobj u'.
Proof.
  intros [A B C D] (E & F & G). constructor; [rewrite E|rewrite F|rewrite G|rewrite G]; auto.
Qed.

Variable syn : nat -> bool.
Notation uinv := (uinv n edges syn).
Notation plus_edge i H := (fun j => (j =? i) || H j).

Lemma unused_iff vs cs opn lab H v : uinv vs cs opn lab H -> v < n ->
  (st vs v = Unused <-> lab v = None).
Proof.
  intros U L. split; intros E.
  - destruct (lab v) as [c|] eqn:X; auto. destruct (ui_used _ _ _ _ _ _ _ _ U v c X) as (_ & Y & _).
    congruence.
  - rewrite (ui_free _ _ _ _ _ _ _ _ U v L E). reflexivity.
Qed.

Lemma unused_eqb vs cs opn lab H v : uinv vs cs opn lab H -> v < n ->
  eqb_vstate (st vs v) Unused = match lab v with None => true | Some _ => false end.
Proof.
  intros U L. pose proof (unused_iff _ _ _ _ _ _ U L) as X.
  destruct (lab v), (st vs v); cbn; auto; destruct X as [X Y]; try (specialize (Y eq_refl));
    try (specialize (X eq_refl)); congruence.
Qed.

Lemma vsyn_is vs cs opn lab H v : uinv vs cs opn lab H -> v < n -> v_syn (vx vs v) = syn v.
Proof.
  intros U L. destruct (lab v) as [c|] eqn:E.
  - apply (ui_used _ _ _ _ _ _ _ _ U v c E).
  - rewrite (ui_free _ _ _ _ _ _ _ _ U v L E). reflexivity.
Qed.

(** ** Refreshing the list of open clusters *)

Lemma refresh_fold : forall l cs new, NoDup l ->
  (forall c, In c l -> c_open (cl cs c) = true) ->
  exists cs', foldR (fun (s : list cluster * list nat) c =>
            let (cs, new) := s in
            do k <- get cs c;
            match c_par k with
            | Some true => Ok (cs, new ++ [c])
            | _ => do _ <- assertR (c_open k);
                   Ok (upd c (mkCluster (c_root k) (c_bound k) (c_par k) false) cs, new)
            end) l (cs, new) = 
      Ok (cs', new ++ filter (fun c => match c_par (cl cs c) with Some true => true | _ => false end) l) /\
    length cs' = length cs /\
    forall d, (cl cs' d = cl cs d /\ (In d l -> c_par (cl cs d) = Some true)) \/
      (In d l /\ c_par (cl cs d) <> Some true /\
       cl cs' d = mkCluster (c_root (cl cs d)) (c_bound (cl cs d)) (c_par (cl cs d)) false) .
Proof.
  intros l. set (body := fun _ _ => _).
  induction l as [|c l IH]; intros cs new ND O.
  - exists cs. cbn. rewrite app_nil_r. split; auto. split; auto. intros d. left. split; auto. tauto.
  - inversion ND as [|? ? NI ND']; subst.
    assert (Oc : c_open (cl cs c) = true) by (apply O; left; auto).
    pose proof (open_lt _ _ Oc) as L.
    assert (STEP : body (cs, new) c =
      if match c_par (cl cs c) with Some true => true | _ => false end then Ok (cs, new ++ [c])
      else Ok (upd c (mkCluster (c_root (cl cs c)) (c_bound (cl cs c)) (c_par (cl cs c)) false) cs, new)).
    { unfold body. rewrite (get_nth _ c dead) by auto. cbn [bindR]. rewrite Oc.
      destruct (c_par (cl cs c)) as [[|]|]; reflexivity. }
    cbn [foldR]. rewrite STEP. clear STEP. cbn [filter].
    destruct (match c_par (cl cs c) with Some true => true | _ => false end) eqn:E; cbn [bindR].
    + destruct (IH cs (new ++ [c]) ND') as (cs' & F & LL & X).
      { intros d I. apply O. right; auto. }
      exists cs'. rewrite <- app_assoc in F. split; [exact F|]. split; auto.
      intros d. destruct (X d) as [[Y Z]|(I & ?)]; [left|right].
      * split; auto. intros [<-|I]; auto. destruct (c_par (cl cs c)) as [[|]|]; congruence.
      * split; [right|]; auto.
    + set (k' := mkCluster _ _ _ _).
      assert (CL : forall d, cl (upd c k' cs) d = if d =? c then k' else cl cs d)
        by (intros; apply cl_upd; auto).
      destruct (IH (upd c k' cs) new ND') as (cs' & F & LL & X).
      { intros d I. rewrite CL. destruct (Nat.eqb_spec d c); [congruence|]. apply O. right; auto. }
      exists cs'. split.
      * rewrite F. f_equal. f_equal. f_equal. apply filter_ext_in. intros d I. rewrite CL.
        destruct (Nat.eqb_spec d c); [congruence|auto].
      * split; [rewrite LL, length_upd; auto|]. intros d.
        specialize (X d). rewrite CL in X. clear CL. destruct X as [[-> Z]|(I & P & ->)].
        -- destruct (Nat.eqb_spec d c) as [Edc|D]; [subst d|].
           ++ right. split; [left; auto|]. split; auto. intros Y. rewrite Y in E. discriminate.
           ++ left. split; auto. intros [?|I]; [congruence|auto].
        -- destruct (Nat.eqb_spec d c) as [->|]; [tauto|]. right. split; [right|]; auto.
Qed.

Lemma refresh_ok u lab H : uinv (u_verts u) (u_clus u) (u_open u) lab H ->
  exists u', refresh_open u = Ok u' /\ keeps u u' /\ u_verts u' = u_verts u /\
    length (u_clus u') = length (u_clus u) /\
    (forall d, c_bound (cl (u_clus u') d) = c_bound (cl (u_clus u) d)) /\
    (forall c, In c (u_open u') <-> c_par (cl (u_clus u') c) = Some true) /\
    uinv (u_verts u') (u_clus u') (u_open u') lab H.
Proof.
  intros U. unfold refresh_open.
  destruct (refresh_fold (u_open u) (u_clus u) []) as (cs' & F & LL & X).
  { apply U. } { intros c. apply (ui_open _ _ _ _ _ _ _ _ U). }
  rewrite F. cbn [bindR fst snd app]. eexists. split; [reflexivity|]. split; [repeat split|].
  cbn [u_verts u_clus u_open set_clus set_verts set_open].
  split; [auto|]. split; [auto|].
  assert (CB : forall d, c_bound (cl cs' d) = c_bound (cl (u_clus u) d)).
  { intros d. destruct (X d) as [[-> _]|(_ & _ & ->)]; auto. }
  assert (CR : forall d, c_root (cl cs' d) = c_root (cl (u_clus u) d)).
  { intros d. destruct (X d) as [[-> _]|(_ & _ & ->)]; auto. }
  assert (CP : forall d, c_par (cl cs' d) = c_par (cl (u_clus u) d)).
  { intros d. destruct (X d) as [[-> _]|(_ & _ & ->)]; auto. }
  set (on := filter _ _).
  assert (ON : forall c, In c on <-> c_par (cl cs' c) = Some true).
  { intros c. unfold on. rewrite filter_In, CP. split.
    - intros [_ Y]. destruct (c_par _) as [[|]|]; auto; discriminate.
    - intros Y. rewrite Y. split; auto. apply (ui_open _ _ _ _ _ _ _ _ U).
      apply (ui_odd _ _ _ _ _ _ _ _ U). auto. }
  split; [auto|]. split; [auto|].
  constructor; try apply U.
  - intros v c E. rewrite CR. apply (ui_tree _ _ _ _ _ _ _ _ U v c E).
  - intros v c E. rewrite CB. apply (ui_live _ _ _ _ _ _ _ _ U v c E).
  - intros c b. rewrite CB. apply (ui_bound _ _ _ _ _ _ _ _ U c b).
  - intros c b. rewrite CB, CR. apply (ui_root _ _ _ _ _ _ _ _ U c b).
  - intros c. rewrite CP. apply (ui_par _ _ _ _ _ _ _ _ U c).
  - apply NoDup_filter. apply U.
  - intros c. rewrite ON. rewrite CP. split.
    + intros E. destruct (X c) as [[-> _]|(_ & N & _)]; [|congruence].
      apply (ui_odd _ _ _ _ _ _ _ _ U). auto.
    + intros E. destruct (X c) as [[Y Z]|(_ & _ & Y)]; rewrite Y in E; [|discriminate].
      apply Z. apply (ui_open _ _ _ _ _ _ _ _ U). auto.
  - intros c E. destruct (X c) as [[-> _]|(_ & N & _)].
    + apply (ui_odd _ _ _ _ _ _ _ _ U). rewrite <- CP. auto.
    + rewrite CP in E. congruence.
Qed.

(** ** Clusters of erased edges *)

Definition free (lab : nat -> option nat) : nat :=
  length (filter (fun x => match lab x with None => true | Some _ => false end) (seq 0 n)).

Lemma free_relab lab w c : w < n -> lab w = None -> S (free (relab lab w c)) = free lab.
Proof.
  intros L E. unfold free.
  replace (seq 0 n) with (seq 0 w ++ w :: seq (S w) (n - S w)).
  2: { replace n with (w + (1 + (n - S w))) at 2 by lia. rewrite seq_app. reflexivity. }
  rewrite !filter_app, !app_length. cbn [filter]. rewrite relab_same, E. cbn [length].
  rewrite (filter_ext_in _ (fun x => match lab x with None => true | Some _ => false end) (seq 0 w)).
  2: { intros x I. apply in_seq in I. rewrite relab_other by lia. auto. }
  rewrite (filter_ext_in (fun x => match relab lab w c x with None => true | Some _ => false end)
     (fun x => match lab x with None => true | Some _ => false end) (seq (S w) _)).
  2: { intros x I. apply in_seq in I. rewrite relab_other by lia. auto. }
  lia.
Qed.

Lemma free_le lab : free lab <= n.
Proof.
  unfold free. rewrite <- (seq_length n 0) at 2. generalize (seq 0 n).
  induction l; cbn; auto. destruct (lab a); cbn; lia.
Qed.

Notation on vis i := (nth i vis false).
Notation loose gs x := (exists i o, link i x o /\ cmp gs i = false).

(** Invariant of the search for cluster [c]; [cur] has the vertex whose edges are visited. *)
Record dfs (c : nat) (cur : list nat) (u : ugraph) (vis : list bool) (todo : list nat)
  (lab : nat -> option nat) (H : nat -> bool) : Prop := {
  d_inv : uinv (u_verts u) (u_clus u) (u_open u) lab H;
  d_len : length vis = m;
  d_cmp : forall i, H i = true -> cmp (u_grow u) i = true;
  d_vis : forall i, on vis i = true -> cmp (u_grow u) i = true -> H i = true;
  d_todo : forall x, In x (cur ++ todo) -> lab x = Some c /\ st (u_verts u) x = Boundary;
  d_open : In c (u_open u);
  d_done : forall x d, lab x = Some d -> ~ In x (cur ++ todo) ->
             forall i o, link i x o -> on vis i = true;
  d_stab : forall x, lab x <> Some c -> st (u_verts u) x = Boundary -> loose (u_grow u) x
}.

Lemma on_upd vis i j : i < length vis -> on (upd i true vis) j = (j =? i) || on vis j.
Proof.
  intros L. rewrite nth_upd. apply Nat.ltb_lt in L. rewrite L, andb_true_r, Nat.eqb_sym.
  destruct (j =? i); auto.
Qed.

Definition grown_from (u : ugraph) (vis : list bool) (lab : nat -> option nat)
  (u' : ugraph) (vis' : list bool) (lab' : nat -> option nat) : Prop :=
  keeps u u' /\ (forall i, on vis i = true -> on vis' i = true) /\
  (forall x d, lab x = Some d -> lab' x = Some d) .

Lemma grown_trans u vis lab u1 vis1 lab1 u2 vis2 lab2 :
  grown_from u vis lab u1 vis1 lab1 -> grown_from u1 vis1 lab1 u2 vis2 lab2 ->
  grown_from u vis lab u2 vis2 lab2.
Proof.
  intros (A & B & C) (A' & B' & C'). split; [eapply keeps_trans; eauto|]. split; auto.
Qed.

Lemma explore_ok c v u vis todo lab H i o : uobj u -> dfs c [v] u vis todo lab H -> link i v o ->
  exists u' vis' todo' lab' H', explore c (u, vis, todo) (i, o) = Ok (u', vis', todo') /\
    dfs c [v] u' vis' todo' lab' H' /\ grown_from u vis lab u' vis' lab' /\
    on vis' i = true /\ free lab' + length todo' = free lab + length todo.
Proof.
  intros UO D K. pose proof D as [U LV DC DV DT DO DD DS].
  destruct (link_lt n edges WF i v o K) as [Li Lv].
  assert (Lvis : i < length vis) by lia.
  assert (LG : i < length (u_grow u)) by (rewrite (uo_grow u UO); auto).
  unfold explore. rewrite (get_nth vis i false) by auto. cbn [bindR].
  destruct (on vis i) eqn:Vi.
  { exists u, vis, todo, lab, H. split; [auto|]. split; [auto|].
    split; [split; [apply keeps_refl|auto]|]. auto. }
  assert (GM : forall u' lab', keeps u u' -> (forall x d, lab x = Some d -> lab' x = Some d) ->
      grown_from u vis lab u' (upd i true vis) lab').
  { intros u' lab' KK X. split; auto. split; auto. intros j E. rewrite on_upd, E by auto. apply orb_true_r. }
  assert (ONI : on (upd i true vis) i = true) by (rewrite on_upd, Nat.eqb_refl by auto; auto).
  assert (LV' : length (upd i true vis) = m) by (rewrite length_upd; auto).
  assert (DV' : cmp (u_grow u) i = true -> forall j, on (upd i true vis) j = true ->
             cmp (u_grow u) j = true -> plus_edge i H j = true).
  { intros Ci j. rewrite on_upd by auto. destruct (j =? i); auto. cbn. intros. rewrite (DV j); auto. }
  assert (DC' : cmp (u_grow u) i = true -> forall j, plus_edge i H j = true -> cmp (u_grow u) j = true).
  { intros Ci j. cbn beta. destruct (Nat.eqb_spec j i) as [->|]; cbn; auto. }
  destruct (DT v) as [Ev SV]; [left; auto|].
  assert (Cgi : exists g, nth_error (u_grow u) i = Some g /\ cmp (u_grow u) i = complete g).
  { unfold cmp. destruct (nth_error (u_grow u) i) as [g|] eqn:E; [eauto|].
    apply nth_error_None in E. lia. }
  destruct Cgi as (g & Eg & Cg). unfold get at 1. rewrite Eg. cbn [bindR]. rewrite <- Cg.
  destruct (cmp (u_grow u) i) eqn:Ci.
  2: { exists u, (upd i true vis), todo, lab, H. split; [auto|]. split.
       - constructor; auto.
         + intros j. rewrite on_upd by auto. destruct (Nat.eqb_spec j i) as [->|]; auto. congruence.
         + intros x d E NI j q Kj. rewrite on_upd by auto. rewrite (DD x d E NI j q Kj). apply orb_true_r.
       - split; [apply GM; [apply keeps_refl|auto]|]. auto. }
  specialize (DC' eq_refl). specialize (DV' eq_refl).
  assert (DD' : forall x d, lab x = Some d -> ~ In x ([v] ++ todo) ->
             forall j q, link j x q -> on (upd i true vis) j = true).
  { intros x d E NI j q Kj. rewrite on_upd by auto. rewrite (DD x d E NI j q Kj). apply orb_true_r. }
  destruct o as [w|].
  - destruct (link_other n edges WF i v w K) as (Lw & Dvw & Kw).
    rewrite (get_nth _ w new_vertex) by (rewrite (ui_len _ _ _ _ _ _ _ _ U); auto). cbn [bindR].
    rewrite (unused_eqb _ _ _ _ _ _ U Lw). destruct (lab w) as [d|] eqn:Ew.
    + assert (IW : In w ([v] ++ todo)).
      { destruct (in_dec Nat.eq_dec w ([v] ++ todo)) as [I|NI]; auto.
        rewrite (DD w d Ew NI i _ Kw) in Vi. discriminate. }
      destruct (DT w IW) as [Ew' _].
      exists u, (upd i true vis), todo, lab, (plus_edge i H). split; [auto|]. split.
      * constructor; auto. apply (uinv_inner n edges WF syn) with (v := v) (w := w) (c := c); auto.
      * split; [apply GM; [apply keeps_refl|auto]|]. auto.
    + destruct (add_vertex_ok n edges WF syn u lab H i v w c U Ev SV Ew K) as
        (vs' & cs' & E & LC & CB & VX & SW & U').
      { intros _. apply (ui_open _ _ _ _ _ _ _ _ U). auto. }
      rewrite E. cbn [bindR].
      exists (set_verts vs' (set_clus cs' u)), (upd i true vis), (todo ++ [w]), (relab lab w c),
        (plus_edge i H).
      assert (RL : forall x d, lab x = Some d -> relab lab w c x = Some d).
      { intros x d X. rewrite relab_other; auto. congruence. }
      split; [auto|]. split.
      * constructor; cbn [u_verts u_clus u_open u_grow set_verts set_clus]; auto.
        -- intros x. rewrite app_assoc, in_app_iff. intros [I|[<-|[]]].
           ++ destruct (DT x I) as [X Y]. split; auto. rewrite VX; auto. congruence.
           ++ split; auto. apply relab_same.
        -- intros x d X NI. rewrite app_assoc, in_app_iff in NI.
           apply (DD' x d); [|tauto]. rewrite relab_other in X; auto.
           intros ->. apply NI. right. left. auto.
        -- intros x X S. assert (Dx : x <> w). { intros ->. apply X. apply relab_same. }
           rewrite relab_other in X by auto. rewrite VX in S by auto. apply DS; auto.
      * split; [apply GM; [repeat split|auto]|]. split; auto.
        rewrite app_length. cbn [length]. pose proof (free_relab lab w c Lw Ew). lia.
  - destruct (add_dangling_ok n edges syn u lab H i v c U Ev K) as (cs' & E & LC & CB & U').
    rewrite E. cbn [bindR].
    exists (set_clus cs' u), (upd i true vis), todo, lab, (plus_edge i H).
    split; [auto|]. split.
    + constructor; cbn [u_verts u_clus u_open u_grow set_verts set_clus]; auto.
    + split; [apply GM; [repeat split|auto]|]. auto.
Qed.

Lemma explore_list c v l : forall u vis todo lab H, uobj u -> dfs c [v] u vis todo lab H ->
  (forall i o, In (i, o) l -> link i v o) ->
  exists u' vis' todo' lab' H', foldR (explore c) l (u, vis, todo) = Ok (u', vis', todo') /\
    dfs c [v] u' vis' todo' lab' H' /\ grown_from u vis lab u' vis' lab' /\
    (forall i o, In (i, o) l -> on vis' i = true) /\
    free lab' + length todo' = free lab + length todo.
Proof.
  induction l as [|[i o] l IH]; intros u vis todo lab H UO D K.
  - exists u, vis, todo, lab, H. split; [auto|]. split; [auto|].
    split; [split; [apply keeps_refl|auto]|]. split; [intros ? ? []|auto].
  - destruct (explore_ok c v u vis todo lab H i o UO D) as (u1 & vis1 & todo1 & lab1 & H1 & E1 & D1 & G1 & V1 & F1).
    { apply K. left. auto. }
    destruct (IH u1 vis1 todo1 lab1 H1) as (u2 & vis2 & todo2 & lab2 & H2 & E2 & D2 & G2 & V2 & F2); auto.
    { eapply uobj_keeps; eauto. apply G1. } { intros j q I. apply K. right; auto. }
    exists u2, vis2, todo2, lab2, H2. cbn [foldR]. rewrite E1. cbn [bindR]. split; [exact E2|].
    split; [exact D2|]. split; [eapply grown_trans; eauto|]. split; [|lia].
    intros j q [X|I]; [injection X as -> ->; apply G2; auto|eauto].
Qed.

Lemma search_ok c : forall fuel u vis todo lab H, uobj u -> dfs c [] u vis todo lab H ->
  free lab + length todo <= fuel ->
  exists u' vis' lab' H', search fuel c u vis todo = Ok (u', vis') /\
    dfs c [] u' vis' [] lab' H' /\ grown_from u vis lab u' vis' lab'.
Proof.
  induction fuel as [|fuel IH]; intros u vis todo lab H UO D F.
  - assert (todo = []) by (destruct todo; [auto|cbn in F; lia]). subst.
    exists u, vis, lab, H. split; [auto|]. split; auto. split; [apply keeps_refl|auto].
  - destruct (rev todo) as [|v rest] eqn:RT.
    { assert (todo = []) by (rewrite <- (rev_involutive todo), RT; auto). subst.
      exists u, vis, lab, H. split; [auto|]. split; auto. split; [apply keeps_refl|auto]. }
    assert (TD : todo = rev rest ++ [v]) by (rewrite <- (rev_involutive todo), RT; auto).
    assert (SI : forall x, In x ([] ++ todo) <-> In x ([v] ++ rev rest)).
    { intros x. rewrite TD. cbn [app In]. rewrite in_app_iff. cbn. tauto. }
    assert (D1 : dfs c [v] u vis (rev rest) lab H).
    { destruct D as [U LV DC DV DT DO DD DS]. constructor; auto.
      - intros x I. apply DT. apply SI. auto.
      - intros x d E NI. apply (DD x d E). rewrite SI. auto. }
    cbn [search]. rewrite RT.
    assert (Lv : v < n).
    { destruct D1 as [U _ _ _ DT _ _ _]. destruct (DT v) as [Ev _]; [left; auto|].
      apply (ui_used _ _ _ _ _ _ _ _ U v c Ev). }
    destruct (uo_adj u UO) as [LA NB]. destruct (NB v Lv) as [_ NV].
    rewrite (get_nth _ v []) by lia. cbn [bindR].
    destruct (explore_list c v (nth v (u_adj u) []) u vis (rev rest) lab H UO D1) as
      (u1 & vis1 & todo1 & lab1 & H1 & E1 & D2 & G1 & V1 & F1).
    { intros i o I. apply NV in I. tauto. }
    rewrite E1. cbn [bindR].
    destruct (IH u1 vis1 todo1 lab1 H1) as (u2 & vis2 & lab2 & H2 & E2 & D3 & G2).
    { eapply uobj_keeps; eauto. apply G1. }
    { destruct D2 as [U LV DC DV DT DO DD DS]. constructor; auto.
      - intros x I. apply DT. right. auto.
      - intros x d E NI i o K. destruct (Nat.eq_dec x v) as [->|Dx].
        + apply (V1 i o). apply NV. auto.
        + apply (DD x d E) with (o := o); auto. intros [?|I]; [congruence|auto]. }
    { rewrite TD, app_length in F. cbn in F. lia. }
    exists u2, vis2, lab2, H2. split; auto. split; auto. eapply grown_trans; eauto.
Qed.

(** Between the clusters. *)
Record idle (u : ugraph) (vis : list bool) (lab : nat -> option nat) (H : nat -> bool)
  : Prop := {
  i_inv : uinv (u_verts u) (u_clus u) (u_open u) lab H;
  i_len : length vis = m;
  i_cmp : forall i, H i = true -> cmp (u_grow u) i = true;
  i_vis : forall i, on vis i = true -> cmp (u_grow u) i = true -> H i = true;
  i_done : forall x d, lab x = Some d -> forall i o, link i x o -> on vis i = true;
  i_stab : forall x, st (u_verts u) x = Boundary -> loose (u_grow u) x
}.

Lemma erasure_cluster_ok u vis lab H i : uobj u -> idle u vis lab H -> i < m ->
  exists u' vis' lab' H', erasure_cluster (u, vis) i = Ok (u', vis') /\
    idle u' vis' lab' H' /\ grown_from u vis lab u' vis' lab' /\
    (cmp (u_grow u) i = true -> on vis' i = true).
Proof.
  intros UO D Li. pose proof D as [U LV DC DV DD DS]. unfold erasure_cluster.
  rewrite (get_nth vis i false) by lia. cbn [bindR].
  assert (Cgi : exists g, nth_error (u_grow u) i = Some g /\ cmp (u_grow u) i = complete g).
  { unfold cmp. destruct (nth_error (u_grow u) i) as [g|] eqn:E; [eauto|].
    apply nth_error_None in E. pose proof (uo_grow u UO). lia. }
  destruct Cgi as (g & Eg & Cg). unfold get at 1. rewrite Eg. cbn [bindR]. rewrite <- Cg.
  destruct (on vis i || negb (cmp (u_grow u) i)) eqn:B.
  { exists u, vis, lab, H. split; [auto|]. split; [auto|].
    split; [split; [apply keeps_refl|auto]|]. intros Y. rewrite Y in B.
    rewrite orb_false_r in B. auto. }
  apply orb_false_iff in B. destruct B as [Vi B]. apply negb_false_iff in B.
  unfold add_cluster at 1. set (c := length (u_clus u)).
  set (u1 := set_open _ _).
  assert (E1 : u1 = fst (add_cluster u)) by reflexivity.
  assert (Ends : u_ends u1 = edges) by (apply (uo_ends u UO)).
  assert (X : exists a l o, nth_error edges i = Some (a :: l) /\ a < n /\ link i a o).
  { destruct (edge_cases n edges WF i Li) as [(a & Ea & La)|(a & b & Ea & Dab & La & Lb)].
    - exists a, [], None. split; auto. split; auto. left. auto.
    - exists a, [b], (Some b). split; auto. split; auto. right. exists b. auto. }
  destruct X as (a & l & o & Ea & La & LK).
  assert (Fa : lab a = None).
  { destruct (lab a) as [d|] eqn:X; auto. rewrite (DD a d X i o LK) in Vi. discriminate. }
  rewrite Ends. unfold get at 1. rewrite Ea. cbn [bindR get nth_error].
  rewrite E1. unfold c.
  destruct (new_cluster_ok n edges syn u lab H a U Fa La) as
         (vs2 & cs2 & E2 & L2 & C2 & CC & V2 & S2 & U2).
  rewrite E2. cbn [bindR]. fold c in U2 |- *. set (u2 := set_verts _ _).
  assert (K2 : keeps u u2) by (repeat split).
  assert (D2 : dfs c [] u2 vis [a] (relab lab a c) H).
  { constructor; cbn [u_verts u_clus u_open u_grow set_verts set_clus set_open u2]; auto.
    - intros x [<-|[]]. split; auto. apply relab_same.
    - apply in_app_iff. right. left. auto.
    - intros x d X NI. rewrite relab_other in X by (intros ->; apply NI; left; auto). apply (DD x d X).
    - intros x X S. assert (Dx : x <> a) by (intros ->; apply X; apply relab_same).
      rewrite V2 in S by auto. apply DS; auto. }
  destruct (search_ok c (S (length (u_verts u))) u2 vis [a] (relab lab a c) H) as
         (u3 & vis3 & lab3 & H3 & E3 & D3 & G3).
  { eapply uobj_keeps; eauto. } { auto. }
  { rewrite (ui_len _ _ _ _ _ _ _ _ U). pose proof (free_le (relab lab a c)). cbn [length]. lia. }
  rewrite E3. cbn [bindR].
  assert (UO3 : uobj u3) by (eapply uobj_keeps; [eapply uobj_keeps; eauto|apply G3]).
  destruct D3 as [U3 LV3 DC3 DV3 DT3 DO3 DD3 DS3].
  assert (La3 : lab3 a = Some c) by (apply G3; apply relab_same).
  destruct (ui_live _ _ _ _ _ _ _ _ U3 a c La3) as [b3 B3].
  destruct (update_ok n edges WF syn u3 lab3 H3 c U3) as
         (u4 & E4 & K4 & L4 & O4 & S4 & T4 & Y4 & U4).
  { eapply live_lt; eauto. } { apply UO3. } { apply UO3. }
  { intros x j q X Kj Cj. apply (DV3 j); auto. apply (DD3 x c X) with (o := q); auto. }
  rewrite E4. cbn [bindR]. exists u4, vis3, lab3, H3. split; [auto|].
  assert (G4 : u_grow u4 = u_grow u3) by apply K4.
  split.
  { constructor; try rewrite G4; auto.
    - intros x d X. apply (DD3 x d X). auto.
    - intros x X. destruct (option_eq_dec (lab3 x) c) as [Lx|Lx].
      + apply (T4 x Lx X).
      + apply DS3; auto. rewrite <- S4; auto. }
  split; [|intros _; apply (DD3 a c La3) with (o := o); auto].
  split; [eapply keeps_trans; [eapply keeps_trans; [exact K2|apply G3]|exact K4]|].
  split; [apply G3|]. intros x d X. apply G3. rewrite relab_other; auto. congruence.
Qed.

Lemma erasure_list l : forall u vis lab H, uobj u -> idle u vis lab H -> (forall i, In i l -> i < m) ->
  exists u' vis' lab' H', foldR erasure_cluster l (u, vis) = Ok (u', vis') /\
    idle u' vis' lab' H' /\ grown_from u vis lab u' vis' lab' /\
    (forall i, In i l -> cmp (u_grow u) i = true -> on vis' i = true).
Proof.
  induction l as [|i l IH]; intros u vis lab H UO D L.
  - exists u, vis, lab, H. split; [auto|]. split; [auto|].
    split; [split; [apply keeps_refl|auto]|]. intros ? [].
  - destruct (erasure_cluster_ok u vis lab H i UO D) as (u1 & vis1 & lab1 & H1 & E1 & D1 & G1 & V1).
    { apply L. left; auto. }
    destruct (IH u1 vis1 lab1 H1) as (u2 & vis2 & lab2 & H2 & E2 & D2 & G2 & V2); auto.
    { eapply uobj_keeps; eauto. apply G1. } { intros j I. apply L. right; auto. }
    exists u2, vis2, lab2, H2. cbn [foldR]. rewrite E1. cbn [bindR]. split; [exact E2|].
    split; [exact D2|]. split; [eapply grown_trans; eauto|].
    intros j [<-|I] C.
    + apply G2. auto.
    + apply V2; auto. destruct G1 as ((_ & _ & ->) & _). auto.
Qed.

(** ** Stable graphs: every complete edge has been added and every syndrome vertex is used *)
Record stable (u : ugraph) (lab : nat -> option nat) (H : nat -> bool) : Prop := {
  s_inv : uinv (u_verts u) (u_clus u) (u_open u) lab H;
  s_cmp : forall i, H i = true <-> cmp (u_grow u) i = true;
  s_stab : forall x, st (u_verts u) x = Boundary -> loose (u_grow u) x
}.

Lemma cmp_lt u i : uobj u -> cmp (u_grow u) i = true -> i < m.
Proof.
  intros UO C. rewrite <- (uo_grow u UO). apply nth_error_Some. unfold cmp in C. intros E.
  rewrite E in C. discriminate.
Qed.

Lemma empty_idle u : uobj u -> u_clus u = [] -> u_open u = [] ->
  length (u_verts u) = n -> (forall v, v < n -> vx (u_verts u) v = mkVertex Unused None None (syn v)) ->
  idle u (repeat false m) (fun _ => None) (fun _ => false).
Proof.
  intros UO EC EO L V.
  assert (ST : forall x, st (u_verts u) x = Unused).
  { intros x. destruct (Nat.lt_ge_cases x n).
    - rewrite V by auto. auto.
    - rewrite nth_overflow by lia. auto. }
  assert (NC : forall c, cl (u_clus u) c = dead) by (intros c; rewrite EC; destruct c; auto).
  constructor.
  - constructor; auto; try discriminate.
    + intros c b. rewrite NC. discriminate.
    + intros c b. rewrite NC. discriminate.
    + intros c. rewrite NC. cbn. split; [|intros; discriminate].
      rewrite (parity_on_set n syn _ (fun _ => false)); [apply parity_on_none|auto].
    + intros v S. rewrite ST in S. discriminate.
    + rewrite EO. constructor.
    + intros c. rewrite NC, EO. cbn. split; [tauto|discriminate].
    + intros c. rewrite NC. discriminate.
  - apply repeat_length.
  - discriminate.
  - intros i. rewrite nth_repeat. discriminate.
  - discriminate.
  - intros x S. rewrite ST in S. discriminate.
Qed.

Lemma init_erasure_ok u : uobj u -> u_clus u = [] -> u_open u = [] ->
  length (u_verts u) = n -> (forall v, v < n -> vx (u_verts u) v = mkVertex Unused None None (syn v)) ->
  exists u' lab H, init_erasure_clusters u = Ok u' /\ keeps u u' /\ stable u' lab H.
Proof.
  intros UO EC EO L V. unfold init_erasure_clusters.
  destruct (erasure_list (seq 0 (length (u_grow u))) u (repeat false m) (fun _ => None) (fun _ => false))
    as (u' & vis & lab & H & E & D & G & VS); auto.
  { apply empty_idle; auto. } { intros i I. apply in_seq in I. rewrite (uo_grow u UO) in I. lia. }
  rewrite <- (uo_grow u UO) in E. rewrite E. cbn [bindR fst]. exists u', lab, H.
  split; auto. split; [apply G|]. destruct D as [U LV DC DV DD DS].
  constructor; auto. intros i. split; auto. intros C. apply DV; auto.
  assert (EG : u_grow u' = u_grow u) by apply G. rewrite EG in C.
  apply VS; auto. apply in_seq. pose proof (cmp_lt u i UO C). rewrite (uo_grow u UO). lia.
Qed.

Lemma syndrome_list l : forall u lab H, uobj u -> stable u lab H -> (forall v, In v l -> v < n) ->
  exists u' lab' H', foldR (fun u v =>
           do x <- get (u_verts u) v;
           if v_syn x && eqb_vstate (v_state x) Unused
           then let (u1, c) := add_cluster u in
                do u2 <- add_vertex u1 c v;
                update_after_growth u2 c
           else Ok u) l u = Ok u' /\ keeps u u' /\ stable u' lab' H' /\
    (forall x, lab x <> None -> lab' x <> None) /\
    (forall v, In v l -> syn v = true -> lab' v <> None).
Proof.
  set (body := fun _ _ => _).
  induction l as [|v l IH]; intros u lab H UO D L.
  - exists u, lab, H. split; [auto|]. split; [apply keeps_refl|]. split; [auto|]. split; [auto|]. intros ? [].
  - assert (Lv : v < n) by (apply L; left; auto). pose proof D as [U DC DS].
    assert (STEP : exists u1 lab1, body u v = Ok u1 /\ keeps u u1 /\ stable u1 lab1 H /\
       (forall x, lab x <> None -> lab1 x <> None) /\ (syn v = true -> lab1 v <> None)).
    { unfold body. rewrite (get_nth _ v new_vertex) by (rewrite (ui_len _ _ _ _ _ _ _ _ U); auto).
      cbn [bindR]. rewrite (unused_eqb _ _ _ _ _ _ U Lv), (vsyn_is _ _ _ _ _ _ U Lv).
      destruct (syn v && match lab v with None => true | Some _ => false end) eqn:B.
      2: { exists u, lab. split; [auto|]. split; [apply keeps_refl|]. split; auto. split; auto.
           intros S. rewrite S in B. cbn in B. destruct (lab v); congruence. }
      apply andb_true_iff in B. destruct B as [Sv B].
      assert (Fv : lab v = None) by (destruct (lab v); congruence). clear B.
      unfold add_cluster at 1. set (c := length (u_clus u)). set (u1 := set_open _ _).
      assert (E1 : u1 = fst (add_cluster u)) by reflexivity. rewrite E1. unfold c.
      destruct (new_cluster_ok n edges syn u lab H v U Fv Lv) as
         (vs2 & cs2 & E2 & L2 & C2 & CC & V2 & S2 & U2).
      rewrite E2. cbn [bindR]. fold c in U2, CC |- *. set (u2 := set_verts _ _).
      assert (K2 : keeps u u2) by (repeat split).
      assert (UO2 : uobj u2) by (eapply uobj_keeps; eauto).
      destruct (update_ok n edges WF syn u2 (relab lab v c) H c U2) as
         (u4 & E4 & K4 & L4 & O4 & S4 & T4 & Y4 & U4).
      { cbn [u_clus u2 set_verts set_clus]. rewrite L2. unfold c. lia. }
      { apply UO2. } { apply UO2. } { intros x i o _ _ C. apply DC. exact C. }
      rewrite E4. cbn [bindR]. exists u4, (relab lab v c). split; auto.
      split; [exact (keeps_trans _ _ _ K2 K4)|].
      assert (G4 : u_grow u4 = u_grow u) by apply K4.
      split.
      - constructor; [auto|rewrite G4; auto|rewrite G4]. intros x X. destruct (option_eq_dec (relab lab v c x) c) as [Lx|Lx].
        + apply (T4 x Lx X).
        + apply DS. rewrite S4 in X by auto. cbn [u2 u_verts set_verts] in X.
          rewrite V2 in X; auto. intros ->. apply Lx. apply relab_same.
      - split.
        + intros x X. unfold relab. destruct (x =? v); congruence.
        + intros _. rewrite relab_same. discriminate. }
    destruct STEP as (u1 & lab1 & E1 & K1 & D1 & M1 & V1).
    destruct (IH u1 lab1 H) as (u2 & lab2 & H2 & E2 & K2 & D2 & M2 & V2); auto.
    { eapply uobj_keeps; eauto. } { intros x I. apply L. right; auto. }
    exists u2, lab2, H2. cbn [foldR]. rewrite E1. cbn [bindR]. split; [exact E2|].
    split; [eapply keeps_trans; eauto|]. split; auto. split; auto.
    intros x [<-|I] S; auto.
Qed.

Lemma init_syndrome_ok u lab H : uobj u -> stable u lab H ->
  exists u' lab' H', init_syndrome_clusters u = Ok u' /\ keeps u u' /\ stable u' lab' H' /\
    (forall v, v < n -> syn v = true -> lab' v <> None).
Proof.
  intros UO D. unfold init_syndrome_clusters.
  destruct (syndrome_list (seq 0 (length (u_verts u))) u lab H UO D) as (u' & lab' & H' & E & K & D' & M & V).
  { intros v I. apply in_seq in I. rewrite (ui_len _ _ _ _ _ _ _ _ (s_inv _ _ _ D)) in I. lia. }
  exists u', lab', H'. rewrite E. split; auto. split; auto. split; auto.
  intros v L S. apply V; auto. apply in_seq. rewrite (ui_len _ _ _ _ _ _ _ _ (s_inv _ _ _ D)). lia.
Qed.

End I.
