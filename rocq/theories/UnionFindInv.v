(** Invariant of the clusters of the union-find decoder and the operations that keep it. *)
Require Import List Bool Arith Lia.
From Verif Require Import Base BaseProofs ErasureModel UnionFindModel GraphSpec GraphProofs
  ErasureProofs UnionFindTree.
Import ListNotations.

Local Arguments upd : simpl never.

Definition dead : cluster := mkCluster None None (Some false) false.

Section I.
Variables (n : nat) (edges : list (list nat)).
Hypothesis WF : well_formed n edges.
Variable syn : nat -> bool.

Notation link := (link edges).
Notation m := (length edges).
Notation cl cs c := (nth c cs dead).
Notation st vs v := (v_state (nth v vs new_vertex)).

(** The set of vertices with a label. *)
Definition labis (lab : nat -> option nat) (c v : nat) : bool :=
  match lab v with Some d => d =? c | None => false end.

Lemma labis_true lab c v : labis lab c v = true <-> lab v = Some c.
Proof.
  unfold labis. destruct (lab v) as [d|]; [|split; discriminate].
  rewrite Nat.eqb_eq. split; congruence.
Qed.

(** [lab] gives the cluster of each vertex; [H] is the set of edges which have been added to
    clusters. *)
Record uinv (vs : list vertex) (cs : list cluster) (opn : list nat)
  (lab : nat -> option nat) (H : nat -> bool) : Prop := {
  ui_len : length vs = n;
  ui_free : forall v, v < n -> lab v = None -> vx vs v = mkVertex Unused None None (syn v);
  ui_used : forall v c, lab v = Some c -> v < n /\ st vs v <> Unused /\ v_syn (vx vs v) = syn v;
  ui_tree : forall v c, lab v = Some c -> exists k r, rooted vs v k r /\
              c_root (cl cs c) = Some r /\ v_cluster (vx vs r) = Some c;
  ui_live : forall v c, lab v = Some c -> exists b, c_bound (cl cs c) = Some b;
  ui_bound : forall c b, c_bound (cl cs c) = Some b ->
              NoDup b /\ forall v, In v b <-> lab v = Some c /\ st vs v = Boundary;
  ui_root : forall c b, c_bound (cl cs c) = Some b ->
              exists r, c_root (cl cs c) = Some r /\ lab r = Some c;
  ui_par : forall c, match c_par (cl cs c) with
             | None => exists i v, H i = true /\ link i v None /\ lab v = Some c
             | Some p => parity_on n syn (labis lab c) = p /\
                         forall i v, H i = true -> link i v None -> lab v <> Some c
             end;
  ui_two : forall i v w, H i = true -> link i v (Some w) ->
             exists c, lab v = Some c /\ lab w = Some c;
  ui_dang : forall i v, H i = true -> link i v None -> exists c, lab v = Some c;
  ui_conn : forall A, isolated edges (fun i => H i = true) A ->
             forall v w c, lab v = Some c -> lab w = Some c -> A v = A w;
  ui_int : forall v, st vs v = Interior -> forall i o, link i v o -> H i = true;
  ui_nodup : NoDup opn;
  ui_open : forall c, In c opn <-> c_open (cl cs c) = true;
  ui_odd : forall c, c_par (cl cs c) = Some true -> c_open (cl cs c) = true
}.

Lemma live_lt cs c b : c_bound (cl cs c) = Some b -> c < length cs.
Proof.
  intros E. destruct (Nat.lt_ge_cases c (length cs)); auto.
  rewrite nth_overflow in E by auto. discriminate.
Qed.

Lemma open_lt cs c : c_open (cl cs c) = true -> c < length cs.
Proof.
  intros E. destruct (Nat.lt_ge_cases c (length cs)); auto.
  rewrite nth_overflow in E by auto. discriminate.
Qed.

Lemma cl_upd c k cs d : c < length cs -> cl (upd c k cs) d = if d =? c then k else cl cs d.
Proof.
  intros L. rewrite nth_upd. apply Nat.ltb_lt in L. rewrite L, andb_true_r, Nat.eqb_sym. auto.
Qed.

Lemma vx_upd v x vs w : v < length vs -> vx (upd v x vs) w = if w =? v then x else vx vs w.
Proof.
  intros L. rewrite nth_upd. apply Nat.ltb_lt in L. rewrite L, andb_true_r, Nat.eqb_sym. auto.
Qed.

Lemma isolated_mono (H H' : nat -> bool) A : (forall i, H i = true -> H' i = true) ->
  isolated edges (fun i => H' i = true) A -> isolated edges (fun i => H i = true) A.
Proof. intros X I i Hi. apply I. auto. Qed.

Lemma isolated_two (H : nat -> bool) A i v w : isolated edges (fun i => H i = true) A ->
  H i = true -> link i v (Some w) -> A v = A w.
Proof.
  intros I Hi K. specialize (I i Hi).
  destruct K as [[_ X]|(w' & X & [K|K])]; [discriminate| |]; injection X as <-;
    rewrite (nth_error_nth _ _ _ K) in I; auto.
Qed.

Lemma isolated_one (H : nat -> bool) A i v : isolated edges (fun i => H i = true) A ->
  H i = true -> link i v None -> A v = false.
Proof.
  intros I Hi K. specialize (I i Hi).
  destruct K as [[K _]|(w' & X & _)]; [|discriminate].
  rewrite (nth_error_nth _ _ _ K) in I; auto.
Qed.

(** Parities of sets. *)
Lemma parity_on_set A B : (forall v, v < n -> A v = B v) -> parity_on n syn A = parity_on n syn B.
Proof. intros X. apply parity_ext. intros v I. apply in_seq in I. rewrite X; auto. lia. Qed.

Lemma parity_on_union A B : parity_on n syn (fun v => xorb (A v) (B v)) =
  xorb (parity_on n syn A) (parity_on n syn B).
Proof.
  unfold parity_on. rewrite <- parity_xor. apply parity_ext. intros v _.
  destruct (A v), (B v), (syn v); reflexivity.
Qed.

Lemma parity_on_one w : w < n -> parity_on n syn (fun v => v =? w) = syn w.
Proof.
  intros L. unfold parity_on. rewrite parity_one with (a := w).
  - rewrite Nat.eqb_refl. reflexivity.
  - apply seq_NoDup.
  - apply in_seq. lia.
  - intros x _ D. apply Nat.eqb_neq in D. rewrite D. reflexivity.
Qed.

Lemma parity_on_none : parity_on n syn (fun _ => false) = false.
Proof. apply parity_false. reflexivity. Qed.

(** ** Finding the cluster of a vertex *)
Lemma uinv_compress vs vs' cs opn lab H : uinv vs cs opn lab H -> same_but_parent vs vs' ->
  (forall w i r, rooted vs w i r -> exists i', rooted vs' w i' r) ->
  uinv vs' cs opn lab H.
Proof.
  intros U [L S] K.
  constructor; try apply U.
  - rewrite L. apply U.
  - intros v Lv E. pose proof (ui_free _ _ _ _ _ U v Lv E) as X.
    destruct (S v) as (A & B & C & D). rewrite X in *. cbn in *.
    destruct (vx vs' v) as [s p c y]; cbn in *. rewrite (D eq_refl). congruence.
  - intros v c E. destruct (S v) as (A & _ & C & _). rewrite A, C. apply (ui_used _ _ _ _ _ U v c E).
  - intros v c E. destruct (ui_tree _ _ _ _ _ U v c E) as (k & r & R & A & B).
    destruct (K _ _ _ R) as (k' & R'). exists k', r. split; auto. split; auto.
    destruct (S r) as (_ & X & _). congruence.
  - intros c b E. destruct (ui_bound _ _ _ _ _ U c b E) as [N X]. split; auto.
    intros v. rewrite X. destruct (S v) as (A & _). rewrite A. tauto.
  - intros v. destruct (S v) as (A & _). rewrite A. apply U.
Qed.

Lemma r_cluster_ok u lab H v c : uinv (u_verts u) (u_clus u) (u_open u) lab H ->
  lab v = Some c ->
  exists vs', r_cluster u v = Ok (set_verts vs' u, c) /\ uinv vs' (u_clus u) (u_open u) lab H /\
    same_but_parent (u_verts u) vs'.
Proof.
  intros U E. destruct (ui_tree _ _ _ _ _ U v c E) as (k & r & R & A & B).
  unfold r_cluster.
  destruct (find_root_ok (S (length (u_verts u))) (u_verts u) v k r R) as (vs' & F & S & K).
  { pose proof (rooted_depth _ _ _ _ R). lia. } { congruence. }
  rewrite F. cbn [bindR]. pose proof S as [L S'].
  rewrite (get_nth vs' r new_vertex) by (destruct (rooted_end _ _ _ _ R); lia). cbn [bindR].
  destruct (S' r) as (_ & X & _). rewrite X, B. exists vs'. split; [reflexivity|].
  split; [|auto]. eapply uinv_compress; eauto.
Qed.

(** ** A dangling edge *)
Notation plus_edge i H := (fun j => (j =? i) || H j).

Lemma add_dangling_ok u lab H i v c : uinv (u_verts u) (u_clus u) (u_open u) lab H ->
  lab v = Some c -> link i v None ->
  exists cs', add_dangling u c = Ok (set_clus cs' u) /\
    length cs' = length (u_clus u) /\
    (forall d, c_bound (cl cs' d) = c_bound (cl (u_clus u) d)) /\
    uinv (u_verts u) cs' (u_open u) lab (plus_edge i H).
Proof.
  intros U E K. destruct (ui_live _ _ _ _ _ U v c E) as [b B].
  pose proof (live_lt _ _ _ B) as L. unfold add_dangling.
  rewrite (get_nth _ c dead) by auto. cbn [bindR]. eexists. split; [reflexivity|].
  split; [apply length_upd|].
  set (k := cl (u_clus u) c) in *.
  set (cs' := upd c _ _).
  assert (CL : forall d, cl cs' d = if d =? c then mkCluster (c_root k) (c_bound k) None (c_open k)
                                    else cl (u_clus u) d) by (intros; apply cl_upd; auto).
  assert (CB : forall d, c_bound (cl cs' d) = c_bound (cl (u_clus u) d)).
  { intros d. rewrite CL. destruct (Nat.eqb_spec d c) as [->|]; auto. }
  assert (CR : forall d, c_root (cl cs' d) = c_root (cl (u_clus u) d)).
  { intros d. rewrite CL. destruct (Nat.eqb_spec d c) as [->|]; auto. }
  assert (CO : forall d, c_open (cl cs' d) = c_open (cl (u_clus u) d)).
  { intros d. rewrite CL. destruct (Nat.eqb_spec d c) as [->|]; auto. }
  split; [exact CB|].
  constructor; try apply U.
  - intros x d. rewrite CR. apply (ui_tree _ _ _ _ _ U).
  - intros x d. rewrite CB. apply (ui_live _ _ _ _ _ U).
  - intros d x. rewrite CB. apply (ui_bound _ _ _ _ _ U).
  - intros d x. rewrite CB, CR. apply (ui_root _ _ _ _ _ U).
  - intros d. rewrite CL. destruct (Nat.eqb_spec d c) as [->|D].
    + exists i, v. rewrite Nat.eqb_refl. auto.
    + pose proof (ui_par _ _ _ _ _ U d) as P. destruct (c_par (cl (u_clus u) d)) as [p|].
      * destruct P as [P X]. split; auto. intros j x Hj Kj. apply orb_true_iff in Hj.
        destruct Hj as [Hj|Hj]; [|eauto]. apply Nat.eqb_eq in Hj. subst j.
        destruct (link_dangling edges i v x None K Kj) as [-> _]. congruence.
      * destruct P as (j & x & Hj & Kj & Ex). exists j, x. rewrite Hj, orb_true_r. auto.
  - intros j x w Hj Kj. apply orb_true_iff in Hj. destruct Hj as [Hj|Hj].
    + apply Nat.eqb_eq in Hj. subst j. destruct (link_dangling edges i v x _ K Kj). discriminate.
    + apply (ui_two _ _ _ _ _ U j); auto.
  - intros j x Hj Kj. apply orb_true_iff in Hj. destruct Hj as [Hj|Hj].
    + apply Nat.eqb_eq in Hj. subst j. destruct (link_dangling edges i v x _ K Kj) as [-> _]. eauto.
    + apply (ui_dang _ _ _ _ _ U j); auto.
  - intros A I. apply (ui_conn _ _ _ _ _ U). eapply isolated_mono; [|exact I].
    intros j Hj. cbn beta. rewrite Hj. apply orb_true_r.
  - intros x S j o Kj. rewrite (ui_int _ _ _ _ _ U x S j o Kj). apply orb_true_r.
  - intros d. rewrite CO. apply (ui_open _ _ _ _ _ U).
  - intros d. rewrite CO, CL. destruct (Nat.eqb_spec d c); [discriminate|]. apply (ui_odd _ _ _ _ _ U).
Qed.

(** ** An edge inside a cluster *)
Lemma uinv_inner vs cs opn lab H i v w c : uinv vs cs opn lab H ->
  lab v = Some c -> lab w = Some c -> link i v (Some w) ->
  uinv vs cs opn lab (plus_edge i H).
Proof.
  intros U E E' K. constructor; try apply U.
  - intros d. pose proof (ui_par _ _ _ _ _ U d) as P. destruct (c_par (cl cs d)) as [p|].
    + destruct P as [P X]. split; auto. intros j x Hj Kj. apply orb_true_iff in Hj.
      destruct Hj as [Hj|Hj]; [|eauto]. apply Nat.eqb_eq in Hj. subst j.
      destruct (link_dangling edges i x v _ Kj K). discriminate.
    + destruct P as (j & x & Hj & Kj & Ex). exists j, x. rewrite Hj, orb_true_r. auto.
  - intros j x y Hj Kj. apply orb_true_iff in Hj. destruct Hj as [Hj|Hj].
    + apply Nat.eqb_eq in Hj. subst j. exists c.
      destruct (link_ends n edges WF i v w x (Some y) K Kj) as [[-> X]|[-> X]];
        injection X as ->; auto.
    + apply (ui_two _ _ _ _ _ U j); auto.
  - intros j x Hj Kj. apply orb_true_iff in Hj. destruct Hj as [Hj|Hj].
    + apply Nat.eqb_eq in Hj. subst j. destruct (link_dangling edges i x v _ Kj K). discriminate.
    + apply (ui_dang _ _ _ _ _ U j); auto.
  - intros A I. apply (ui_conn _ _ _ _ _ U). eapply isolated_mono; [|exact I].
    intros j Hj. cbn beta. rewrite Hj. apply orb_true_r.
  - intros x S j o Kj. rewrite (ui_int _ _ _ _ _ U x S j o Kj). apply orb_true_r.
Qed.

Definition relab (lab : nat -> option nat) (w c : nat) : nat -> option nat :=
  fun x => if x =? w then Some c else lab x.

Lemma relab_same lab w c : relab lab w c w = Some c.
Proof. unfold relab. rewrite Nat.eqb_refl. auto. Qed.

Lemma relab_other lab w c x : x <> w -> relab lab w c x = lab x.
Proof. intros D. unfold relab. apply Nat.eqb_neq in D. rewrite D. auto. Qed.

Lemma labis_relab lab w c d x : lab w = None ->
  labis (relab lab w c) d x = xorb (labis lab d x) ((x =? w) && (d =? c)).
Proof.
  intros E. unfold labis, relab. destruct (Nat.eqb_spec x w) as [->|D]; cbn.
  - rewrite E, xorb_false_l. apply Nat.eqb_sym.
  - rewrite xorb_false_r. auto.
Qed.

(** ** A new vertex for a cluster *)
Lemma add_vertex_ok u lab H i v w c : uinv (u_verts u) (u_clus u) (u_open u) lab H ->
  lab v = Some c -> st (u_verts u) v = Boundary -> lab w = None -> link i v (Some w) ->
  (syn w = true -> c_open (cl (u_clus u) c) = true) ->
  exists vs' cs', add_vertex u c w = Ok (set_verts vs' (set_clus cs' u)) /\
    length cs' = length (u_clus u) /\
    (forall d, d <> c -> c_bound (cl cs' d) = c_bound (cl (u_clus u) d)) /\
    (forall x, x <> w -> vx vs' x = vx (u_verts u) x) /\ st vs' w = Boundary /\
    uinv vs' cs' (u_open u) (relab lab w c) (plus_edge i H).
Proof.
  intros U E SB EW K SO. destruct (ui_live _ _ _ _ _ U v c E) as [b B].
  pose proof (live_lt _ _ _ B) as L. unfold add_vertex.
  destruct (link_other n edges WF i v w K) as (Lw & Dvw & Kw).
  pose proof (ui_len _ _ _ _ _ U) as LN.
  rewrite (get_nth _ c dead) by auto. cbn [bindR].
  set (k := cl (u_clus u) c) in *. rewrite B.
  rewrite (get_nth _ w new_vertex) by lia. cbn [bindR].
  pose proof (ui_free _ _ _ _ _ U w Lw EW) as FW. rewrite FW. cbn [v_syn].
  destruct (ui_root _ _ _ _ _ U c b B) as (r & CRr & LR). fold k in CRr.
  destruct (ui_bound _ _ _ _ _ U c b B) as [NB BB].
  assert (IB : In v b) by (apply BB; auto).
  destruct b as [|b0 b']; [destruct IB|]. rewrite CRr. cbn [bindR to_boundary v_state eqb_vstate assertR v_cluster snd fst].
  set (b := b0 :: b') in *.
  destruct (ui_tree _ _ _ _ _ U r c LR) as (kr & r' & RR & CR' & VC).
  assert (r' = r) by (fold k in CR'; congruence). subst r'.
  eexists _, _. split; [reflexivity|].
  set (vs' := upd w _ _). set (cs' := upd c _ _).
  split; [apply length_upd|].
  assert (CL : forall d, cl cs' d = if d =? c then mkCluster (Some r) (Some (b ++ [w]))
      match c_par k with None => None | Some p => Some (xorb p (syn w)) end (c_open k)
                                    else cl (u_clus u) d) by (intros; apply cl_upd; auto).
  assert (VX : forall x, x <> w -> vx vs' x = vx (u_verts u) x).
  { intros x D. unfold vs'. apply nth_upd_other. auto. }
  assert (VW : vx vs' w = mkVertex Boundary (Some r) None (syn w)).
  { apply nth_upd_same. lia. }
  split. { intros d D. rewrite CL. apply Nat.eqb_neq in D. rewrite D. auto. }
  split; [exact VX|]. split; [rewrite VW; reflexivity|].
  assert (DR : r <> w) by congruence.
  assert (NR : forall d x, lab d = Some x -> d <> w) by congruence.
  constructor.
  - unfold vs'. rewrite length_upd. auto.
  - intros x Lx. unfold relab. destruct (Nat.eqb_spec x w); [discriminate|].
    intros Ex. rewrite VX by auto. apply (ui_free _ _ _ _ _ U); auto.
  - intros x d. unfold relab. destruct (Nat.eqb_spec x w) as [->|D].
    + intros _. rewrite VW. cbn. repeat split; auto. discriminate.
    + intros Ex. rewrite VX by auto. apply (ui_used _ _ _ _ _ U x d Ex).
  - assert (HG : forall y j q, rooted (u_verts u) y j q -> exists j',
               rooted vs' y j' (if q =? w then r else q)).
    { apply hang; auto; try lia.
      - rewrite FW. reflexivity.
      - eapply rooted_root; eauto. }
    intros x d. unfold relab. destruct (Nat.eqb_spec x w) as [->|D].
    + intros X. injection X as <-. rewrite CL, Nat.eqb_refl.
      destruct (HG r 0 r (rooted_root _ _ _ _ RR)) as (j & RJ).
      apply Nat.eqb_neq in DR as DR'. rewrite DR' in RJ.
      exists (S j), r. split.
      { apply ro_step with r; auto. unfold vs'; rewrite length_upd; lia. rewrite VW; auto. }
      split; [reflexivity|]. rewrite VX by auto. auto.
    + intros Ex. destruct (ui_tree _ _ _ _ _ U x d Ex) as (j & q & RQ & CQ & VQ).
      assert (DQ : q <> w). { intros ->. rewrite FW in VQ. discriminate. }
      destruct (HG x j q RQ) as (j' & RJ). apply Nat.eqb_neq in DQ as DQ'. rewrite DQ' in RJ.
      exists j', q. split; auto. rewrite CL. split; [|rewrite VX; auto].
      destruct (Nat.eqb_spec d c) as [->|]; auto. cbn. fold k in CQ. congruence.
  - intros x d. unfold relab. rewrite CL. destruct (Nat.eqb_spec d c) as [->|D].
    + cbn. eauto.
    + destruct (Nat.eqb_spec x w); [congruence|]. apply (ui_live _ _ _ _ _ U).
  - intros d bd. rewrite CL. destruct (Nat.eqb_spec d c) as [->|D].
    + cbn [c_bound]. intros X. assert (bd = b ++ [w]) by congruence. subst bd. clear X. split.
      * apply NoDup_Add with (a := w) (l := b).
        { replace b with (b ++ []) at 1 by apply app_nil_r. apply Add_app. }
        split; auto. intros I. apply BB in I. destruct I as [I _]. congruence.
      * intros x. rewrite in_app_iff. destruct (Nat.eq_dec x w) as [->|Dx].
        -- rewrite relab_same, VW. cbn. tauto.
        -- rewrite relab_other, VX, <- BB by auto. cbn [In]. intuition congruence.
    + intros X. destruct (ui_bound _ _ _ _ _ U d bd X) as [ND BD]. split; auto.
      intros x. rewrite BD. destruct (Nat.eq_dec x w) as [->|Dx].
      * rewrite relab_same, EW. intuition congruence.
      * rewrite relab_other, VX by auto. tauto.
  - intros d bd. rewrite CL. destruct (Nat.eqb_spec d c) as [->|D].
    + intros _. exists r. split; auto. rewrite relab_other; auto.
    + intros X. destruct (ui_root _ _ _ _ _ U d bd X) as (q & Q1 & Q2). exists q. split; auto.
      rewrite relab_other; auto. eauto.
  - intros d.
    assert (DG : forall j x, (j =? i) || H j = true -> link j x None ->
              H j = true /\ exists y, lab x = Some y /\ relab lab w c x = Some y).
    { intros j x Hj Kj. apply orb_true_iff in Hj. destruct Hj as [Hj|Hj].
      - apply Nat.eqb_eq in Hj. subst j. destruct (link_dangling edges i x v _ Kj K). discriminate.
      - split; auto. destruct (ui_dang _ _ _ _ _ U j x Hj Kj) as [y Ey]. exists y. split; auto.
        rewrite relab_other; eauto. }
    pose proof (ui_par _ _ _ _ _ U d) as P.
    assert (DN : (exists j x, H j = true /\ link j x None /\ lab x = Some d) ->
      exists j x, (j =? i) || H j = true /\ link j x None /\ relab lab w c x = Some d).
    { intros (j & x & Hj & Kj & Ex). exists j, x. rewrite Hj, orb_true_r. split; auto. split; auto.
      rewrite relab_other; eauto. }
    assert (DP : (forall j x, H j = true -> link j x None -> lab x <> Some d) ->
      forall j x, (j =? i) || H j = true -> link j x None -> relab lab w c x <> Some d).
    { intros X j x Hj Kj. destruct (DG j x Hj Kj) as (Hj' & y & E1 & E2). specialize (X j x Hj' Kj).
      congruence. }
    assert (PA : parity_on n syn (labis (relab lab w c) d) =
                 xorb (parity_on n syn (labis lab d)) ((d =? c) && syn w)).
    { rewrite (parity_on_set _ (fun x => xorb (labis lab d x) ((x =? w) && (d =? c)))).
      2: { intros x _. apply labis_relab; auto. }
      rewrite parity_on_union. f_equal. destruct (d =? c); cbn.
      - rewrite (parity_on_set _ (fun x => x =? w)) by (intros; apply andb_true_r).
        apply parity_on_one; auto.
      - rewrite (parity_on_set _ (fun _ => false)) by (intros; apply andb_false_r).
        apply parity_on_none. }
    rewrite CL. destruct (Nat.eqb_spec d c) as [->|D]; cbn [c_par].
    + fold k in P. destruct (c_par k) as [p|]; [|apply DN; exact P].
      destruct P as [P X]. split; [rewrite PA, P; reflexivity|]. exact (DP X).
    + destruct (c_par (cl (u_clus u) d)) as [p|]; [|apply DN; exact P].
      destruct P as [P X]. split; [rewrite PA, P; apply xorb_false_r|]. exact (DP X).
  - intros j x y Hj Kj. apply orb_true_iff in Hj. destruct Hj as [Hj|Hj].
    + apply Nat.eqb_eq in Hj. subst j. exists c.
      destruct (link_ends n edges WF i v w x (Some y) K Kj) as [[-> X]|[-> X]];
        injection X as ->; rewrite relab_same, relab_other; auto.
    + destruct (ui_two _ _ _ _ _ U j x y Hj Kj) as (d & D1 & D2). exists d.
      rewrite !relab_other; eauto.
  - intros j x Hj Kj. apply orb_true_iff in Hj. destruct Hj as [Hj|Hj].
    + apply Nat.eqb_eq in Hj. subst j. destruct (link_dangling edges i x v _ Kj K). discriminate.
    + destruct (ui_dang _ _ _ _ _ U j x Hj Kj) as (d & D1). exists d.
      rewrite relab_other; eauto.
  - intros A I.
    assert (I' : isolated edges (fun j => H j = true) A).
    { eapply isolated_mono; [|exact I]. intros j Hj. cbn beta. rewrite Hj. apply orb_true_r. }
    assert (AV : A v = A w). { eapply isolated_two; [exact I| |exact K]. cbn beta; rewrite Nat.eqb_refl; auto. }
    intros x y d. unfold relab. destruct (Nat.eqb_spec x w) as [->|Dx], (Nat.eqb_spec y w) as [->|Dy].
    + auto.
    + intros X. injection X as <-. intros Ey. rewrite <- AV. eapply (ui_conn _ _ _ _ _ U A I'); eauto.
    + intros Ex X. injection X as <-. rewrite <- AV. eapply (ui_conn _ _ _ _ _ U A I'); eauto.
    + apply (ui_conn _ _ _ _ _ U A I').
  - intros x. destruct (Nat.eq_dec x w) as [->|D].
    + rewrite VW. discriminate.
    + rewrite VX by auto. intros SX j o Kj. rewrite (ui_int _ _ _ _ _ U x SX j o Kj). apply orb_true_r.
  - apply U.
  - intros d. rewrite CL. rewrite (ui_open _ _ _ _ _ U).
    destruct (Nat.eqb_spec d c) as [->|]; cbn; tauto.
  - intros d. rewrite CL. pose proof (ui_odd _ _ _ _ _ U d) as O.
    destruct (Nat.eqb_spec d c) as [->|]; auto. cbn. fold k in O, SO.
    destruct (c_par k) as [[|]|]; auto; try discriminate. destruct (syn w); cbn; auto; discriminate.
Qed.

(** ** A new cluster with one vertex *)
Lemma new_cluster_ok u lab H w : uinv (u_verts u) (u_clus u) (u_open u) lab H ->
  lab w = None -> w < n ->
  let c := length (u_clus u) in
  exists vs' cs', add_vertex (fst (add_cluster u)) c w =
      Ok (set_verts vs' (set_clus cs' (set_open (u_open u ++ [c]) u))) /\
    length cs' = S (length (u_clus u)) /\
    (forall d, d <> c -> cl cs' d = cl (u_clus u) d) /\
    cl cs' c = mkCluster (Some w) (Some [w]) (Some (syn w)) true /\
    (forall x, x <> w -> vx vs' x = vx (u_verts u) x) /\ st vs' w = Boundary /\
    uinv vs' cs' (u_open u ++ [c]) (relab lab w c) H.
Proof.
  intros U EW Lw c.
  pose proof (ui_len _ _ _ _ _ U) as LN.
  pose proof (ui_free _ _ _ _ _ U w Lw EW) as FW.
  unfold add_vertex, add_cluster. cbn [fst u_clus set_open set_clus u_verts]. fold c.
  set (cs1 := u_clus u ++ _).
  assert (L1 : length cs1 = S c) by (unfold cs1; rewrite app_length; cbn; unfold c; lia).
  rewrite (get_nth _ c dead) by lia.
  assert (N1 : cl cs1 c = mkCluster None (Some []) (Some false) true).
  { unfold cs1. rewrite app_nth2 by (unfold c; lia). unfold c. rewrite Nat.sub_diag. reflexivity. }
  rewrite N1. cbn [bindR c_bound].
  rewrite (get_nth _ w new_vertex) by lia. cbn [bindR]. rewrite FW.
  cbn [v_syn bindR to_boundary v_state eqb_vstate assertR v_parent snd fst c_par c_open app].
  rewrite xorb_false_l.
  eexists _, _. split; [reflexivity|].
  set (vs' := upd w _ _). set (cs' := upd c _ _).
  split; [unfold cs'; rewrite length_upd; auto|].
  assert (CL : forall d, d <> c -> cl cs' d = cl (u_clus u) d).
  { intros d D. unfold cs'. rewrite nth_upd_other by auto. unfold cs1.
    destruct (Nat.lt_ge_cases d c).
    - apply app_nth1. auto.
    - rewrite !nth_overflow; auto; try lia. rewrite app_length. cbn. unfold c in *. lia. }
  assert (CC : cl cs' c = mkCluster (Some w) (Some [w]) (Some (syn w)) true).
  { apply nth_upd_same. lia. }
  assert (CD : cl (u_clus u) c = dead) by (apply nth_overflow; unfold c; lia).
  assert (VX : forall x, x <> w -> vx vs' x = vx (u_verts u) x).
  { intros x D. unfold vs'. apply nth_upd_other. auto. }
  assert (VW : vx vs' w = mkVertex Boundary None (Some c) (syn w)).
  { apply nth_upd_same. lia. }
  assert (NC : forall x, lab x <> Some c).
  { intros x E. destruct (ui_live _ _ _ _ _ U x c E) as [b B]. rewrite CD in B. discriminate. }
  assert (DW : forall x d, lab x = Some d -> x <> w) by congruence.
  assert (DC : forall x d, lab x = Some d -> d <> c) by congruence.
  split; [auto|]. split; [auto|]. split; [auto|]. split; [rewrite VW; auto|].
  constructor.
  - unfold vs'. rewrite length_upd. auto.
  - intros x Lx. unfold relab. destruct (Nat.eqb_spec x w); [discriminate|].
    intros Ex. rewrite VX by auto. apply (ui_free _ _ _ _ _ U); auto.
  - intros x d. unfold relab. destruct (Nat.eqb_spec x w) as [->|D].
    + intros _. rewrite VW. cbn. repeat split; auto. discriminate.
    + intros Ex. rewrite VX by auto. apply (ui_used _ _ _ _ _ U x d Ex).
  - intros x d. unfold relab. destruct (Nat.eqb_spec x w) as [->|D].
    + intros X. injection X as <-. exists 0, w. rewrite CC, VW. split; auto.
      constructor; [unfold vs'; rewrite length_upd; lia|]. rewrite VW; auto.
    + intros Ex. destruct (ui_tree _ _ _ _ _ U x d Ex) as (j & q & RQ & CQ & VQ).
      exists j, q. split.
      { apply rooted_upd; auto. rewrite FW. reflexivity. }
      rewrite CL by eauto. split; auto. rewrite VX; auto.
      intros ->. rewrite FW in VQ. discriminate.
  - intros x d. unfold relab. destruct (Nat.eqb_spec x w) as [->|D].
    + intros X. injection X as <-. rewrite CC. cbn. eauto.
    + intros Ex. rewrite CL by eauto. apply (ui_live _ _ _ _ _ U x d Ex).
  - intros d bd. destruct (Nat.eq_dec d c) as [->|D].
    + rewrite CC. cbn. intros X. injection X as <-. split; [repeat constructor; auto|].
      intros x. destruct (Nat.eq_dec x w) as [->|Dx].
      * rewrite relab_same, VW. cbn. tauto.
      * rewrite relab_other by auto. cbn. split; [intros [?|[]]; congruence|].
        intros [X _]. destruct (NC x X).
    + rewrite CL by auto. intros X. destruct (ui_bound _ _ _ _ _ U d bd X) as [ND BD].
      split; auto. intros x. rewrite BD. destruct (Nat.eq_dec x w) as [->|Dx].
      * rewrite relab_same, EW. intuition congruence.
      * rewrite relab_other, VX by auto. tauto.
  - intros d bd. destruct (Nat.eq_dec d c) as [->|D].
    + rewrite CC. exists w. split; auto. apply relab_same.
    + rewrite CL by auto. intros X. destruct (ui_root _ _ _ _ _ U d bd X) as (q & Q1 & Q2).
      exists q. split; auto. rewrite relab_other; eauto.
  - intros d. pose proof (ui_par _ _ _ _ _ U d) as P.
    assert (PA : parity_on n syn (labis (relab lab w c) d) =
                 xorb (parity_on n syn (labis lab d)) ((d =? c) && syn w)).
    { rewrite (parity_on_set _ (fun x => xorb (labis lab d x) ((x =? w) && (d =? c)))).
      2: { intros x _. apply labis_relab; auto. }
      rewrite parity_on_union. f_equal. destruct (d =? c); cbn.
      - rewrite (parity_on_set _ (fun x => x =? w)) by (intros; apply andb_true_r).
        apply parity_on_one; auto.
      - rewrite (parity_on_set _ (fun _ => false)) by (intros; apply andb_false_r).
        apply parity_on_none. }
    destruct (Nat.eq_dec d c) as [->|D].
    + rewrite CC. cbn. split.
      * rewrite PA, Nat.eqb_refl. cbn. rewrite CD in P. cbn in P. destruct P as [-> _].
        apply xorb_false_l.
      * intros i x Hi K. destruct (ui_dang _ _ _ _ _ U i x Hi K) as [y Ey].
        rewrite relab_other by eauto. auto.
    + rewrite CL by auto. apply Nat.eqb_neq in D as D'. rewrite D' in PA. cbn in PA.
      rewrite xorb_false_r in PA. rewrite PA.
      destruct (c_par (cl (u_clus u) d)) as [p|].
      * destruct P as [P X]. split; auto. intros i x Hi K.
        destruct (ui_dang _ _ _ _ _ U i x Hi K) as [y Ey]. rewrite relab_other by eauto. eauto.
      * destruct P as (i & x & Hi & K & Ex). exists i, x. split; auto. split; auto.
        rewrite relab_other; eauto.
  - intros j x y Hj Kj. destruct (ui_two _ _ _ _ _ U j x y Hj Kj) as (d & D1 & D2). exists d.
    rewrite !relab_other; eauto.
  - intros j x Hj Kj. destruct (ui_dang _ _ _ _ _ U j x Hj Kj) as (d & D1). exists d.
    rewrite relab_other; eauto.
  - intros A I x y d. unfold relab.
    destruct (Nat.eqb_spec x w) as [->|Dx], (Nat.eqb_spec y w) as [->|Dy]; auto.
    + intros X. injection X as <-. intros Ey. destruct (NC y Ey).
    + intros Ex X. injection X as <-. destruct (NC x Ex).
    + apply (ui_conn _ _ _ _ _ U A I).
  - intros x. destruct (Nat.eq_dec x w) as [->|D].
    + rewrite VW. discriminate.
    + rewrite VX by auto. apply (ui_int _ _ _ _ _ U).
  - apply NoDup_Add with (a := c) (l := u_open u).
    { replace (u_open u) with (u_open u ++ []) at 1 by apply app_nil_r. apply Add_app. }
    split; [apply U|]. rewrite (ui_open _ _ _ _ _ U), CD. discriminate.
  - intros d. rewrite in_app_iff, (ui_open _ _ _ _ _ U). destruct (Nat.eq_dec d c) as [->|D].
    + rewrite CC. cbn. tauto.
    + rewrite CL by auto. cbn. intuition congruence.
  - intros d. destruct (Nat.eq_dec d c) as [->|D].
    + rewrite CC. auto.
    + rewrite CL by auto. apply (ui_odd _ _ _ _ _ U).
Qed.

End I.
