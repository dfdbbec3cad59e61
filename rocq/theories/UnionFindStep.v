(** A step of the union-find decoder: growth, new edges, and termination. *)
Require Import List Bool Arith Lia QArith Qround Lqa.
From Verif Require Import Base BaseProofs ErasureModel UnionFindModel GraphSpec GraphProofs
  ErasureProofs UnionFindTree UnionFindInv UnionFindOps UnionFindInit.
Import ListNotations.
Open Scope nat_scope.

Local Arguments upd : simpl never.

(** ** How often an edge can grow *)

Definition need (g : growth) : nat :=
  if complete g then 0
  else match g_cur g, g_inc g with
       | Some q, Some d => Z.to_nat (Qceiling ((g_max g - q) / d))
       | _, _ => 1
       end.

Definition positive_inc (g : growth) : Prop :=
  match g_inc g with None => True | Some d => (0 < d)%Q end.

Lemma ceiling_pos x : (0 < x)%Q -> (1 <= Qceiling x)%Z.
Proof.
  intros P. destruct (Z_lt_le_dec 0 (Qceiling x)) as [L|L]; [lia|].
  pose proof (Qle_ceiling x) as C. assert (inject_Z (Qceiling x) <= 0)%Q.
  { change 0%Q with (inject_Z 0). rewrite <- Zle_Qle. auto. }
  lra.
Qed.

Lemma ceiling_pred x y : (y <= x - 1)%Q -> (Qceiling y <= Qceiling x - 1)%Z.
Proof.
  intros L. pose proof (Qle_ceiling x) as C.
  assert (y <= inject_Z (Qceiling x - 1))%Q.
  { unfold Zminus. rewrite inject_Z_plus. change (inject_Z (- (1))) with (-(1))%Q. lra. }
  apply Qceiling_resp_le in H. rewrite Qceiling_Z in H. auto.
Qed.

Lemma need_pos g : positive_inc g -> complete g = false -> 1 <= need g.
Proof.
  intros P C. unfold need, positive_inc in *. rewrite C. unfold complete in C.
  destruct (g_cur g) as [q|]; [|auto]. destruct (g_inc g) as [d|]; auto.
  assert (~ (g_max g <= q)%Q). { intros L. apply Qle_bool_iff in L. congruence. }
  assert (0 < (g_max g - q) / d)%Q.
  { apply Qlt_shift_div_l; auto. lra. }
  apply ceiling_pos in H0. lia.
Qed.

Lemma grow_ok g : positive_inc g -> complete g = false ->
  exists g', grow g = Ok g' /\ g_inc g' = g_inc g /\ need g' < need g.
Proof.
  intros P C. unfold grow. rewrite C. cbn [negb assertR bindR]. eexists. split; [reflexivity|].
  split; [reflexivity|]. pose proof (need_pos g P C) as NP.
  set (g' := mkGrowth _ _ _). destruct (complete g') eqn:C'.
  { unfold need at 1. rewrite C'. lia. }
  unfold need in *. rewrite C, C' in *. unfold g' in *. cbn [g_cur g_max g_inc] in *.
  unfold positive_inc in P. destruct (g_cur g) as [q|]; [|discriminate].
  destruct (g_inc g) as [d|]; [|discriminate].
  assert (L : ((g_max g - (q + d)) / d <= (g_max g - q) / d - 1)%Q).
  { apply Qle_lteq. right. field. intros X. rewrite X in P. discriminate. }
  apply ceiling_pred in L. lia.
Qed.

Definition total (gs : list growth) : nat := list_sum (map need gs).

Lemma total_upd gs i g g' : nth_error gs i = Some g ->
  total (upd i g' gs) + need g = total gs + need g'.
Proof.
  unfold total. revert i. induction gs as [|a gs IH]; intros [|i] E; try discriminate.
  - injection E as ->. unfold upd; cbn. fold (list_sum (map need gs)). lia.
  - change (upd (S i) g' (a :: gs)) with (a :: upd i g' gs). cbn [map list_sum fold_right].
    apply IH in E. unfold list_sum in *. lia.
Qed.

Lemma cmp_upd gs i g' j : i < length gs ->
  cmp (upd i g' gs) j = if j =? i then complete g' else cmp gs j.
Proof.
  intros L. unfold cmp. destruct (Nat.eqb_spec j i) as [->|D].
  - rewrite (nth_error_nth' _ new_growth) by (rewrite length_upd; auto). rewrite nth_upd_same; auto.
  - destruct (Nat.lt_ge_cases j (length gs)).
    + rewrite (nth_error_nth' _ new_growth) by (rewrite length_upd; auto).
      rewrite (nth_error_nth' gs new_growth) by auto. rewrite nth_upd_other; auto.
    + rewrite (proj2 (nth_error_None _ _)) by (rewrite length_upd; auto).
      rewrite (proj2 (nth_error_None _ _)); auto.
Qed.

Lemma in_upd {A} i (a b : A) l : In b (upd i a l) -> b = a \/ In b l.
Proof.
  revert i. induction l as [|x l IH]; intros [|i]; unfold upd; fold (@upd A); cbn.
  1-2: tauto.
  - intros [<-|I]; auto.
  - intros [<-|I]; auto. apply IH in I. tauto.
Qed.

Section I.
Variables (n : nat) (edges : list (list nat)).
Hypothesis WF : well_formed n edges.

Notation link := (link edges).
Notation m := (length edges).
Notation cl cs c := (nth c cs dead).
Notation st vs v := (v_state (nth v vs new_vertex)).
Notation uobj := (uobj n edges).
Notation loose gs x := (exists i o, link i x o /\ cmp gs i = false).

(** ** Growth *)
Section G.
Variables (gs0 : list growth) (P : nat -> Prop).

Record ginv (s : list growth * nat * list nat) : Prop := {
  gi_len : length (fst (fst s)) = m;
  gi_inc : forall g, In g (fst (fst s)) -> positive_inc g;
  gi_mono : forall j, cmp gs0 j = true -> cmp (fst (fst s)) j = true;
  gi_nodup : NoDup (snd s);
  gi_new : forall j, In j (snd s) <-> cmp gs0 j = false /\ cmp (fst (fst s)) j = true;
  gi_end : forall j, In j (snd s) -> exists v o, P v /\ link j v o;
  gi_cnt : length (snd s) <= snd (fst s);
  gi_tot : total (fst (fst s)) + snd (fst s) <= total gs0
}.

Definition progress (s s' : list growth * nat * list nat) : Prop :=
  snd (fst s) <= snd (fst s').

Lemma grow_edge_ok s v i o : ginv s -> P v -> link i v o ->
  exists s', grow_edge s (i, o) = Ok s' /\ ginv s' /\ snd (fst s) <= snd (fst s') /\
    (cmp gs0 i = false -> 0 < snd (fst s')).
Proof.
  destruct s as [[gs k] new]. intros [LG IN MO ND NW EN CN TO] Pv K. cbn [fst snd] in *.
  destruct (link_lt n edges WF i v o K) as [Li Lv]. unfold grow_edge. cbn [fst].
  destruct (nth_error gs i) as [g|] eqn:E.
  2: { apply nth_error_None in E. lia. }
  unfold get. rewrite E. cbn [bindR].
  assert (C : cmp gs i = complete g) by (unfold cmp; rewrite E; auto).
  destruct (complete g) eqn:CG.
  { exists (gs, k, new). split; [auto|]. split; [constructor; auto|]. split; [auto|]. cbn.
    intros C0. assert (I : In i new) by (apply NW; auto). destruct new; [destruct I|]. cbn in CN. lia. }
  assert (Pg : positive_inc g) by (apply IN; eapply nth_error_In; eauto).
  destruct (grow_ok g Pg CG) as (g' & G & GI & NG). rewrite G. cbn [bindR].
  assert (CU : forall j, cmp (upd i g' gs) j = if j =? i then complete g' else cmp gs j)
    by (intros; apply cmp_upd; lia).
  assert (C0 : cmp gs0 i = false).
  { destruct (cmp gs0 i) eqn:X; auto. apply MO in X. congruence. }
  pose proof (total_upd gs i g g' E) as TU.
  eexists. split; [reflexivity|]. split; [|cbn [fst snd]; split; [lia|intros _; lia]].
  constructor; cbn [fst snd].
  - rewrite length_upd; auto.
  - intros x I. apply in_upd in I. destruct I as [->|I]; auto. unfold positive_inc in *. rewrite GI. auto.
  - intros j Cj. rewrite CU. destruct (Nat.eqb_spec j i) as [->|]; auto. congruence.
  - destruct (complete g'); auto. apply nodup_app; auto; [repeat constructor; auto|].
    intros x I [<-|[]]. apply NW in I. destruct I. congruence.
  - intros j. rewrite CU. destruct (complete g') eqn:CG'.
    + rewrite in_app_iff, NW. cbn [In]. destruct (Nat.eqb_spec j i) as [->|D].
      * tauto.
      * split; [intros [I|[I|[]]]; [auto|congruence]|auto].
    + rewrite NW. destruct (Nat.eqb_spec j i) as [->|D]; [|tauto]. rewrite C. tauto.
  - intros j I. destruct (complete g'); auto. apply in_app_iff in I.
    destruct I as [I|[<-|[]]]; auto. exists v, o. auto.
  - destruct (complete g'); [rewrite app_length; cbn|]; lia.
  - lia.
Qed.

Lemma grow_edges_ok v l : forall s, ginv s -> P v -> (forall i o, In (i, o) l -> link i v o) ->
  exists s', foldR grow_edge l s = Ok s' /\ ginv s' /\ snd (fst s) <= snd (fst s') /\
    (forall i o, In (i, o) l -> cmp gs0 i = false -> 0 < snd (fst s')).
Proof.
  induction l as [|[i o] l IH]; intros s G Pv K.
  - exists s. split; [auto|]. split; auto. split; auto. intros ? ? [].
  - destruct (grow_edge_ok s v i o G Pv) as (s1 & E1 & G1 & L1 & C1). { apply K. left; auto. }
    destruct (IH s1 G1 Pv) as (s2 & E2 & G2 & L2 & C2). { intros. apply K. right; auto. }
    exists s2. cbn [foldR]. rewrite E1. cbn [bindR]. split; auto. split; auto. split; [lia|].
    intros j q [X|I] C; [injection X as -> ->; specialize (C1 C); lia|eauto].
Qed.

Lemma grow_verts_ok adj b : nbr_ok n edges (fun _ => true) adj -> forall s, ginv s ->
  (forall v, In v b -> v < n /\ P v) ->
  exists s', foldR (fun s v => do l <- get adj v; foldR grow_edge l s) b s = Ok s' /\ ginv s' /\
    snd (fst s) <= snd (fst s') /\
    (forall v, In v b -> loose gs0 v -> 0 < snd (fst s')).
Proof.
  intros [LA NB]. induction b as [|v b IH]; intros s G Pb.
  - exists s. split; [auto|]. split; auto. split; auto. intros ? [].
  - destruct (Pb v) as [Lv Pv]; [left; auto|]. destruct (NB v Lv) as [_ NV].
    destruct (grow_edges_ok v (nth v adj []) s G Pv) as (s1 & E1 & G1 & L1 & C1).
    { intros i o I. apply NV in I. tauto. }
    destruct (IH s1 G1) as (s2 & E2 & G2 & L2 & C2). { intros w I. apply Pb. right; auto. }
    exists s2. cbn [foldR]. rewrite (get_nth adj v []) by lia. cbn [bindR]. rewrite E1.
    split; [exact E2|]. split; auto. split; [lia|].
    intros w [<-|I] LO; [|apply (C2 w); auto].
    destruct LO as (i & o & K & C). assert (0 < snd (fst s1)); [|lia].
    apply (C1 i o); auto. apply NV. auto.
Qed.

Lemma grow_clusters_ok adj cs mn l : nbr_ok n edges (fun _ => true) adj -> forall s, ginv s ->
  (forall c, In c l -> exists b, c < length cs /\ c_bound (cl cs c) = Some b /\
     forall v, In v b -> v < n /\ P v /\ loose gs0 v) ->
  exists s', foldR (grow_cluster adj cs mn) l s = Ok s' /\ ginv s' /\
    snd (fst s) <= snd (fst s') /\
    (forall c b, In c l -> c_bound (cl cs c) = Some b -> length b <= mn -> b <> [] ->
       0 < snd (fst s')).
Proof.
  intros NB. induction l as [|c l IH]; intros s G X.
  - exists s. split; [auto|]. split; auto. split; auto. intros ? ? [].
  - destruct (X c) as (b & Lc & B & PB); [left; auto|].
    assert (STEP : exists s1, grow_cluster adj cs mn s c = Ok s1 /\ ginv s1 /\
      snd (fst s) <= snd (fst s1) /\ (length b <= mn -> b <> [] -> 0 < snd (fst s1))).
    { unfold grow_cluster. rewrite (get_nth cs c dead) by auto. cbn [bindR]. rewrite B.
      destruct (Nat.ltb_spec mn (length b)).
      - exists s. split; [auto|]. split; auto. split; auto. lia.
      - destruct (grow_verts_ok adj b NB s G) as (s1 & E1 & G1 & L1 & C1).
        { intros v I. destruct (PB v I) as (? & ? & ?). auto. }
        exists s1. split; auto. split; auto. split; auto. intros _ NE.
        destruct b as [|v b]; [congruence|]. apply (C1 v); [left; auto|].
        apply PB. left; auto. }
    destruct STEP as (s1 & E1 & G1 & L1 & C1).
    destruct (IH s1 G1) as (s2 & E2 & G2 & L2 & C2). { intros d I. apply X. right; auto. }
    exists s2. cbn [foldR]. rewrite E1. cbn [bindR]. split; [exact E2|]. split; auto. split; [lia|].
    intros d b' [<-|I] B' LB NE; [|eapply C2; eauto].
    assert (b' = b) by congruence. subst. specialize (C1 LB NE). lia.
Qed.

End G.

Variable syn : nat -> bool.
Notation uinv := (uinv n edges syn).
Notation stable := (stable n edges syn).
Notation plus_edge i H := (fun j => (j =? i) || H j).

(** ** New edges *)

Lemma boundary_lab vs cs opn lab H v : uinv vs cs opn lab H -> st vs v = Boundary ->
  exists c, lab v = Some c.
Proof.
  intros U S. destruct (Nat.lt_ge_cases v n) as [L|L].
  - destruct (lab v) as [c|] eqn:E; eauto.
    rewrite (ui_free _ _ _ _ _ _ _ _ U v L E) in S. discriminate.
  - rewrite nth_overflow in S; [discriminate|]. rewrite (ui_len _ _ _ _ _ _ _ _ U). auto.
Qed.

Definition extends (u : ugraph) (lab : nat -> option nat) (u' : ugraph)
  (lab' : nat -> option nat) : Prop :=
  keeps u u' /\ (forall x, lab x <> None -> lab' x <> None) /\
  (forall x, st (u_verts u) x = Boundary -> st (u_verts u') x = Boundary).

Lemma extends_trans u lab u1 lab1 u2 lab2 : extends u lab u1 lab1 -> extends u1 lab1 u2 lab2 ->
  extends u lab u2 lab2.
Proof. intros (A & B & C) (A' & B' & C'). split; [eapply keeps_trans; eauto|auto]. Qed.

(** The edge after its first end, which is in a boundary, has been found. *)
Lemma join_ok u lab H i v w : uinv (u_verts u) (u_clus u) (u_open u) lab H ->
  (forall x, x < n -> syn x = true -> lab x <> None) ->
  H i = false -> st (u_verts u) v = Boundary -> link i v (Some w) ->
  exists u' lab', 
    (if eqb_vstate (st (u_verts u) w) Boundary
     then do r0 <- r_cluster u v;
          do r1 <- r_cluster (fst r0) w;
          merge_with (fst r1) (snd r0) (snd r1)
     else do _ <- assertR (eqb_vstate (st (u_verts u) w) Unused);
          do r0 <- r_cluster u v;
          add_vertex (fst r0) (snd r0) w) = Ok u' /\ extends u lab u' lab' /\
    uinv (u_verts u') (u_clus u') (u_open u') lab' (plus_edge i H).
Proof.
  intros U SL Hi SV K. destruct (boundary_lab _ _ _ _ _ _ U SV) as [c Ev].
  destruct (link_other n edges WF i v w K) as (Lw & Dvw & Kw).
  destruct (r_cluster_ok n edges syn u lab H v c U Ev) as (vs1 & R1 & U1 & L1 & S1).
  assert (ST1 : forall x, st vs1 x = st (u_verts u) x) by (intros x; apply S1).
  set (u1 := set_verts vs1 u) in *. rewrite R1. cbn [bindR fst snd].
  destruct (eqb_vstate (st (u_verts u) w) Boundary) eqn:B.
  - assert (SW : st (u_verts u) w = Boundary) by (destruct (st (u_verts u) w); auto; discriminate).
    destruct (boundary_lab _ _ _ _ _ _ U SW) as [d Ew].
    destruct (r_cluster_ok n edges syn u1 lab H w d U1 Ew) as (vs2 & R2 & U2 & L2 & S2).
    assert (ST2 : forall x, st vs2 x = st (u_verts u) x).
    { intros x. rewrite <- ST1. apply S2. }
    rewrite R2. cbn [bindR fst snd].
    destruct (merge_ok n edges WF syn (set_verts vs2 u1) lab H i v w c d U2 Ev Ew K) as
      (u' & lab' & E & KK & LC & ST & LN & U').
    exists u', lab'. split; auto. split; auto. split; [|split].
    + destruct KK as (A & B' & C). repeat split; auto.
    + intros x X Y. apply X, LN, Y.
    + intros x X. rewrite ST. cbn [u_verts set_verts]. rewrite ST2. auto.
  - assert (Ew : lab w = None).
    { destruct (lab w) as [d|] eqn:X; auto. destruct (ui_used _ _ _ _ _ _ _ _ U w d X) as (_ & Y & _).
      destruct (st (u_verts u) w) eqn:Z; try congruence; try discriminate.
      rewrite (ui_int _ _ _ _ _ _ _ _ U w Z i _ Kw) in Hi. discriminate. }
    rewrite (proj2 (unused_iff n edges syn _ _ _ _ _ w U Lw) Ew). cbn [eqb_vstate assertR bindR].
    destruct (add_vertex_ok n edges WF syn u1 lab H i v w c U1 Ev) as
        (vs' & cs' & E & LC & CB & VX & SW & U'); auto.
    { cbn [u1 u_verts set_verts]. rewrite ST1. auto. }
    { intros Y. destruct (SL w Lw Y Ew). }
    cbn [bindR fst snd]. rewrite E. eexists. exists (relab lab w c). split; [reflexivity|].
    split; [|exact U']. split; [repeat split|]. split.
    + intros x X. unfold relab. destruct (x =? w); [discriminate|auto].
    + intros x X. cbn [u_verts set_verts set_clus]. rewrite VX.
      * cbn [u1 u_verts set_verts]. rewrite ST1. auto.
      * intros ->. rewrite X in B. discriminate.
Qed.

Lemma handle_edge_ok u lab H i v o : uobj u -> uinv (u_verts u) (u_clus u) (u_open u) lab H ->
  (forall x, x < n -> syn x = true -> lab x <> None) ->
  H i = false -> st (u_verts u) v = Boundary -> link i v o ->
  exists u' lab', handle_edge u i = Ok u' /\ extends u lab u' lab' /\
    uinv (u_verts u') (u_clus u') (u_open u') lab' (plus_edge i H).
Proof.
  intros UO U SL Hi SV K. destruct (link_lt n edges WF i v o K) as [Li Lv].
  pose proof (ui_len _ _ _ _ _ _ _ _ U) as LN.
  unfold handle_edge. rewrite (uo_ends n edges u UO). unfold get at 1.
  destruct (edge_cases n edges WF i Li) as [(a & Ea & La)|(a & b & Ea & Dab & La & Lb)]; rewrite Ea; cbn [bindR].
  - assert (v = a /\ o = None) as [-> ->].
    { destruct K as [[K ->]|(w' & _ & [K|K])]; rewrite Ea in K; try discriminate. split; congruence. }
    rewrite (get_nth _ a new_vertex) by lia. cbn [bindR]. rewrite SV. cbn [eqb_vstate assertR bindR].
    destruct (boundary_lab _ _ _ _ _ _ U SV) as [c Ev].
    destruct (r_cluster_ok n edges syn u lab H a c U Ev) as (vs1 & R1 & U1 & L1 & S1).
    rewrite R1. cbn [bindR fst snd].
    destruct (add_dangling_ok n edges syn (set_verts vs1 u) lab H i a c U1 Ev K) as (cs' & E & LC & CB & U').
    rewrite E. eexists. exists lab. split; [reflexivity|]. split; [|exact U'].
    split; [repeat split|]. split; auto. intros x X. cbn [u_verts set_verts set_clus].
    destruct (S1 x) as (-> & _). auto.
  - rewrite (get_nth _ a new_vertex) by lia. cbn [bindR].
    assert (KA : link i a (Some b)) by (right; exists b; auto).
    assert (KB : link i b (Some a)) by (right; exists a; auto).
    assert (X : v = a \/ v = b).
    { destruct K as [[K ->]|(w' & _ & [K|K])]; rewrite Ea in K; try discriminate; injection K; auto. }
    destruct (eqb_vstate (st (u_verts u) a) Boundary) eqn:BA.
    + assert (SA : st (u_verts u) a = Boundary) by (destruct (st (u_verts u) a); auto; discriminate).
      rewrite (get_nth _ a new_vertex) by lia. cbn [bindR]. rewrite BA. cbn [assertR bindR].
      rewrite (get_nth _ b new_vertex) by lia. cbn [bindR]. apply join_ok; auto.
    + assert (v = b). { destruct X as [->|]; auto. rewrite SV in BA. discriminate. } subst v.
      rewrite (get_nth _ b new_vertex) by lia. cbn [bindR]. rewrite SV. cbn [eqb_vstate assertR bindR].
      rewrite (get_nth _ a new_vertex) by lia. cbn [bindR]. apply join_ok; auto.
Qed.

Lemma handle_list l : forall u lab H, uobj u -> uinv (u_verts u) (u_clus u) (u_open u) lab H ->
  (forall x, x < n -> syn x = true -> lab x <> None) -> NoDup l ->
  (forall i, In i l -> H i = false /\ exists v o, st (u_verts u) v = Boundary /\ link i v o) ->
  exists u' lab' H', foldR handle_edge l u = Ok u' /\ extends u lab u' lab' /\
    uinv (u_verts u') (u_clus u') (u_open u') lab' H' /\
    (forall j, H' j = true <-> H j = true \/ In j l).
Proof.
  induction l as [|i l IH]; intros u lab H UO U SL ND X.
  - exists u, lab, H. split; [auto|]. split; [split; [apply keeps_refl|auto]|]. split; auto.
    intros j. cbn. tauto.
  - inversion ND as [|? ? NI ND']; subst. destruct (X i) as (Hi & v & o & SV & K); [left; auto|].
    destruct (handle_edge_ok u lab H i v o UO U SL Hi SV K) as (u1 & lab1 & E1 & X1 & U1).
    destruct (IH u1 lab1 _ (uobj_keeps _ _ _ _ UO (proj1 X1)) U1) as (u2 & lab2 & H2 & E2 & X2 & U2 & HH); auto.
    { intros x L S. apply X1. auto. }
    { intros j I. destruct (X j) as (Hj & w & q & SW & Kj); [right; auto|]. split.
      - rewrite Hj, orb_false_r. apply Nat.eqb_neq. congruence.
      - exists w, q. split; auto. apply X1. auto. }
    exists u2, lab2, H2. cbn [foldR]. rewrite E1. cbn [bindR]. split; [exact E2|].
    split; [eapply extends_trans; eauto|]. split; auto.
    intros j. rewrite HH, orb_true_iff, Nat.eqb_eq. cbn [In]. split; intros Y.
    + destruct Y as [[->|?]|?]; auto.
    + destruct Y as [?|[->|?]]; auto.
Qed.

(** ** Updating all clusters *)

Lemma update_list l : forall u lab H, uobj u -> uinv (u_verts u) (u_clus u) (u_open u) lab H ->
  (forall c, In c l -> c < length (u_clus u)) -> NoDup l ->
  (forall i, cmp (u_grow u) i = true -> H i = true) ->
  exists u', foldR update_after_growth l u = Ok u' /\ keeps u u' /\
    uinv (u_verts u') (u_clus u') (u_open u') lab H /\
    (forall x, st (u_verts u') x = Boundary -> st (u_verts u) x = Boundary) /\
    (forall x c, In c l -> lab x = Some c -> st (u_verts u') x = Boundary -> loose (u_grow u) x).
Proof.
  induction l as [|c l IH]; intros u lab H UO U L ND CH.
  - exists u. split; [auto|]. split; [apply keeps_refl|]. split; auto. split; auto. intros ? ? [].
  - inversion ND as [|? ? NI ND']; subst.
    destruct (update_ok n edges WF syn u lab H c U) as (u1 & E1 & K1 & L1 & O1 & S1 & T1 & Y1 & U1).
    { apply L. left; auto. } { apply UO. } { apply UO. } { intros. apply CH; auto. }
    assert (G1 : u_grow u1 = u_grow u) by apply K1.
    destruct (IH u1 lab H (uobj_keeps _ _ _ _ UO K1) U1) as (u2 & E2 & K2 & U2 & S2 & T2); auto.
    { intros d I. rewrite L1. apply L. right; auto. } { rewrite G1. auto. }
    exists u2. cbn [foldR]. rewrite E1. cbn [bindR]. split; [exact E2|].
    split; [eapply keeps_trans; eauto|]. split; [auto|]. split.
    + intros x X. apply S2 in X. destruct (option_eq_dec (lab x) c) as [Lx|Lx].
      * apply (T1 x Lx X).
      * rewrite S1 in X; auto.
    + intros x d [<-|I] Lx X.
      * apply S2 in X. apply (T1 x Lx X).
      * rewrite <- G1. apply (T2 x d I Lx X).
Qed.

(** ** Boundaries are not empty *)

Lemma odd_vertex A : parity_on n syn A = true -> exists x, x < n /\ A x = true /\ syn x = true.
Proof.
  intros P. destruct (existsb (fun x => A x && syn x) (seq 0 n)) eqn:E.
  - apply existsb_exists in E. destruct E as (x & I & B). apply in_seq in I.
    apply andb_true_iff in B. exists x. intuition lia.
  - rewrite (parity_on_set n syn A (fun x => A x && negb (syn x))) in P.
    + unfold parity_on in P. rewrite parity_false in P; [discriminate|].
      intros x _. destruct (A x), (syn x); reflexivity.
    + intros x L. assert (N : ~ (A x && syn x = true)).
      { intros B. rewrite <- not_true_iff_false in E. apply E. apply existsb_exists.
        exists x. split; auto. apply in_seq. lia. }
      destruct (A x), (syn x); cbn in *; congruence.
Qed.

Lemma live_boundary u lab H c : uinv (u_verts u) (u_clus u) (u_open u) lab H ->
  c_par (cl (u_clus u) c) = Some true ->
  exists b, c < length (u_clus u) /\ c_bound (cl (u_clus u) c) = Some b /\
    (even_components n edges (fun _ => True) syn -> b <> []).
Proof.
  intros U PA. pose proof (ui_par _ _ _ _ _ _ _ _ U c) as P. rewrite PA in P. destruct P as [P ND].
  destruct (odd_vertex _ P) as (x & Lx & Ax & _). apply labis_true in Ax.
  destruct (ui_live _ _ _ _ _ _ _ _ U x c Ax) as [b B].
  exists b. split; [eapply live_lt; eauto|]. split; auto. intros EV ->.
  destruct (ui_bound _ _ _ _ _ _ _ _ U c [] B) as [_ BD].
  assert (INT : forall y, lab y = Some c -> st (u_verts u) y = Interior).
  { intros y Ey. destruct (ui_used _ _ _ _ _ _ _ _ U y c Ey) as (_ & NU & _).
    destruct (st (u_verts u) y) eqn:S; auto; [congruence|]. destruct (BD y) as [_ Z].
    destruct (Z (conj Ey S)). }
  rewrite (EV (labis lab c)) in P; [discriminate|].
  intros i _. destruct (nth_error edges i) as [e|] eqn:E.
  2: { rewrite nth_overflow; auto. apply nth_error_None. auto. }
  assert (Li : i < m) by (apply nth_error_Some; congruence).
  rewrite (nth_error_nth _ _ _ E).
  destruct (edge_cases n edges WF i Li) as [(a & Ea & La)|(a & d & Ea & Dab & La & Lb)];
    rewrite E in Ea; injection Ea as ->.
  - destruct (labis lab c a) eqn:Y; auto. apply labis_true in Y.
    assert (K : link i a None) by (left; auto).
    pose proof (ui_int _ _ _ _ _ _ _ _ U a (INT a Y) i _ K) as Hi. destruct (ND i a Hi K Y).
  - assert (KA : link i a (Some d)) by (right; exists d; auto).
    assert (KB : link i d (Some a)) by (right; exists a; auto).
    apply eq_true_iff_eq. rewrite !labis_true. split; intros Y.
    + pose proof (ui_int _ _ _ _ _ _ _ _ U a (INT a Y) i _ KA) as Hi.
      destruct (ui_two _ _ _ _ _ _ _ _ U i a d Hi KA) as (c' & Z1 & Z2). congruence.
    + pose proof (ui_int _ _ _ _ _ _ _ _ U d (INT d Y) i _ KB) as Hi.
      destruct (ui_two _ _ _ _ _ _ _ _ U i d a Hi KB) as (c' & Z1 & Z2). congruence.
Qed.

Lemma min_in l : l <> [] -> In (fold_right Nat.min (hd 0 l) l) l.
Proof.
  destruct l as [|a l]; [congruence|]. intros _. cbn [hd].
  assert (X : forall l, fold_right Nat.min a l = a \/ In (fold_right Nat.min a l) l).
  { induction l0 as [|b l0 IH]; cbn; auto.
    destruct (Nat.min_spec b (fold_right Nat.min a l0)) as [[_ ->]|[_ ->]]; auto.
    destruct IH; auto. }
  cbn [fold_right]. destruct (X l) as [->|I].
  - rewrite Nat.min_id. left; auto.
  - destruct (Nat.min_spec a (fold_right Nat.min a l)) as [[_ ->]|[_ ->]]; [left|right]; auto.
Qed.

(** ** A step *)

Lemma step_ok u lab H : uobj u -> stable u lab H ->
  (forall x, x < n -> syn x = true -> lab x <> None) ->
  (step u = Err AssertionError /\ ~ even_components n edges (fun _ => True) syn) \/
  exists u' lab' H', step u = Ok u' /\ uobj u' /\ stable u' lab' H' /\
    (forall x, x < n -> syn x = true -> lab' x <> None) /\
    (forall i, cmp (u_grow u) i = true -> cmp (u_grow u') i = true) /\
    (u_open u' = [] \/ total (u_grow u') < total (u_grow u)) /\
    exists u1, refresh_open u = Ok u1 /\ ((u_open u1 = [] /\ u_grow u' = u_grow u) \/
      exists mn k new, foldR (grow_cluster (u_adj u1) (u_clus u1) mn) (u_open u1) (u_grow u1, 0, []) =
        Ok (u_grow u', k, new)).
Proof.
  intros UO [U0 HC SB] SL. unfold step.
  destruct (refresh_ok n edges syn u lab H U0) as (u1 & E1 & K1 & V1 & L1 & B1 & O1 & U).
  rewrite E1. cbn [bindR].
  assert (UO1 : uobj u1) by (eapply uobj_keeps; eauto).
  assert (G1 : u_grow u1 = u_grow u) by apply K1.
  destruct (u_open u1) as [|c0 l0] eqn:EO.
  { right. exists u1, lab, H. split; [auto|]. split; auto. split.
    - constructor; [rewrite EO; auto|rewrite G1; auto|rewrite G1, V1; auto].
    - split; auto. split; [rewrite G1; auto|]. split; auto. exists u1. split; auto. }
  rewrite <- EO in *. assert (NE : u_open u1 <> []) by congruence. clear EO.
  assert (LB : forall c, In c (u_open u1) -> exists b, c < length (u_clus u1) /\
    c_bound (cl (u_clus u1) c) = Some b /\ (even_components n edges (fun _ => True) syn -> b <> [])).
  { intros c I. apply O1 in I. apply (live_boundary u1 lab H); auto. }
  set (size := fun c => match c_bound (cl (u_clus u1) c) with Some b => length b | None => 0 end).
  assert (SZ : boundary_sizes u1 = Ok (map size (u_open u1))).
  { unfold boundary_sizes. revert LB. generalize (u_open u1). induction l as [|c l IH]; intros X; auto.
    cbn [mapR map]. destruct (X c) as (b & Lc & B & _); [left; auto|].
    rewrite (get_nth _ c dead) by auto. cbn [bindR]. unfold size at 1. rewrite B. cbn [bindR].
    rewrite IH; auto. intros d I. apply X. right; auto. }
  rewrite SZ. cbn [bindR]. set (mn := fold_right _ _ _).
  destruct (grow_clusters_ok (u_grow u) (fun v => st (u_verts u1) v = Boundary) (u_adj u1) (u_clus u1) mn
     (u_open u1) (uo_adj n edges u1 UO1) (u_grow u1, 0, [])) as (s & E2 & GI & _ & CP).
  { constructor; cbn [fst snd]; auto.
    - apply UO1.
    - intros g I. apply (uo_inc n edges u1 UO1 g I).
    - rewrite G1. auto.
    - constructor.
    - rewrite G1. intros j. cbn. split; [tauto|]. intros []. congruence.
    - intros j [].
    - rewrite G1. lia. }
  { intros c I. destruct (LB c I) as (b & Lc & B & NB). exists b. split; auto. split; auto.
    intros v Iv. destruct (ui_bound _ _ _ _ _ _ _ _ U c b B) as [_ BD]. apply BD in Iv.
    destruct Iv as [Ev SV]. split; [apply (ui_used _ _ _ _ _ _ _ _ U v c Ev)|]. split; auto.
    apply SB. rewrite <- V1. auto. }
  rewrite E2. cbn [bindR]. destruct s as [[gs k] new].
  destruct GI as [LG IN MO ND NW EN CN TO]. cbn [fst snd] in *.
  assert (KP : even_components n edges (fun _ => True) syn -> 0 < k).
  { intros EV. assert (I : In mn (map size (u_open u1))).
    { apply min_in. destruct (u_open u1); [congruence|discriminate]. }
    apply in_map_iff in I. destruct I as (c & Ec & I). destruct (LB c I) as (b & Lc & B & NB).
    apply (CP c b I B); auto. unfold size in Ec. rewrite B in Ec. lia. }
  destruct (Nat.ltb_spec 0 k) as [K0|K0]; cbn [assertR bindR].
  2: { left. split; [reflexivity|]. intros EV. apply KP in EV. lia. }
  right.
  set (u2 := set_grow gs u1).
  assert (UO2 : uobj u2).
  { destruct UO1 as [A B C D]. constructor; auto. }
  destruct new as [|i0 new0] eqn:EN0.
  { exists u2, lab, H. split; auto. split; auto.
    assert (CM : forall j, cmp gs j = cmp (u_grow u) j).
    { intros j. destruct (cmp (u_grow u) j) eqn:X; auto. destruct (cmp gs j) eqn:Y; auto.
      destruct (proj2 (NW j)); auto. }
    split.
    - constructor; cbn [u2 set_grow u_verts u_clus u_open u_grow]; auto.
      + intros i. rewrite CM. auto.
      + intros x X. rewrite V1 in X. destruct (SB x X) as (i & o & Ki & C). exists i, o.
        rewrite CM. auto.
    - split; auto. split; [cbn [u2 set_grow u_grow]; auto|]. split.
      + right. cbn [u2 set_grow u_grow]. lia.
      + exists u1. split; auto. right. exists mn, k, []. exact E2. }
  rewrite <- EN0 in *. clear EN0 i0 new0.
  destruct (handle_list new u2 lab H UO2) as (u3 & lab3 & H3 & E3 & X3 & U3 & HH); auto.
  { intros i I. split.
    - apply NW in I. destruct (H i) eqn:Y; auto. apply HC in Y. destruct I. congruence.
    - destruct (EN i I) as (v & o & Pv & K). exists v, o. auto. }
  rewrite E3. cbn [bindR].
  assert (G3 : u_grow u3 = gs) by apply X3.
  assert (UO3 : uobj u3) by (eapply uobj_keeps; [exact UO2|apply X3]).
  assert (H3C : forall i, H3 i = true <-> cmp gs i = true).
  { intros i. rewrite HH, NW, HC. split.
    - intros [Y|[_ Y]]; auto.
    - intros Y. destruct (cmp (u_grow u) i); auto. }
  destruct (update_list (seq 0 (length (u_clus u3))) u3 lab3 H3 UO3 U3) as (u4 & E4 & K4 & U4 & S4 & T4).
  { intros c I. apply in_seq in I. lia. } { apply seq_NoDup. } { rewrite G3. apply H3C. }
  assert (G4 : u_grow u4 = gs) by (rewrite <- G3; apply K4).
  exists u4, lab3, H3. split; [exact E4|]. split; [eapply uobj_keeps; eauto|]. split.
  - constructor; auto.
    + rewrite G4. auto.
    + rewrite G4. intros x X. pose proof (S4 x X) as X'.
      destruct (boundary_lab _ _ _ _ _ _ U4 X) as [c Ec].
      rewrite <- G3. apply (T4 x c); auto. apply in_seq.
      destruct (ui_live _ _ _ _ _ _ _ _ U3 x c Ec) as [b B]. apply live_lt in B. lia.
  - split; [intros x L S; apply X3; auto|]. split; [rewrite G4; auto|].
    split; [right; rewrite G4; lia|]. exists u1. split; auto. right. exists mn, k, new. rewrite G4. exact E2.
Qed.

Lemma steps_ok : forall fuel u lab H, uobj u -> stable u lab H ->
  (forall x, x < n -> syn x = true -> lab x <> None) ->
  total (u_grow u) < fuel ->
  (steps fuel u = Err AssertionError /\ ~ even_components n edges (fun _ => True) syn) \/
  exists u' lab' H', steps fuel u = Ok u' /\ uobj u' /\ stable u' lab' H' /\
    (forall x, x < n -> syn x = true -> lab' x <> None) /\
    (forall i, cmp (u_grow u) i = true -> cmp (u_grow u') i = true) /\ u_open u' = [].
Proof.
  induction fuel as [|fuel IH]; intros u lab H UO S SL F; [lia|].
  cbn [steps]. destruct (u_open u) as [|c l] eqn:EO.
  { right. exists u, lab, H. split; [auto|]. auto 10. }
  destruct (step_ok u lab H UO S SL) as [[E1 NE]|(u1 & lab1 & H1 & E1 & UO1 & S1 & SL1 & M1 & T1 & _)].
  { left. rewrite E1. auto. }
  rewrite E1. cbn [bindR]. destruct T1 as [O1|T1].
  { right. exists u1, lab1, H1. split; [destruct fuel; cbn [steps]; rewrite O1; auto|]. auto 10. }
  destruct (IH u1 lab1 H1) as [?|(u2 & lab2 & H2 & E2 & UO2 & S2 & SL2 & M2 & O2)]; auto; [lia|].
  right. exists u2, lab2, H2. auto 10.
Qed.

(** No open cluster is left: the complete edges have components of even parity. *)
Lemma closed_even u lab H : stable u lab H -> u_open u = [] ->
  (forall x, x < n -> syn x = true -> lab x <> None) ->
  even_components n edges (fun i => cmp (u_grow u) i = true) syn.
Proof.
  intros [U HC _] EO SL A IA.
  assert (IA' : isolated edges (fun i => H i = true) A).
  { intros i Hi. apply IA. apply HC. auto. }
  assert (NO : forall c, c_par (cl (u_clus u) c) <> Some true).
  { intros c X. apply (ui_odd _ _ _ _ _ _ _ _ U) in X. apply (ui_open _ _ _ _ _ _ _ _ U) in X.
    rewrite EO in X. destruct X. }
  (* the parity of the part of [A] in the first [k] clusters *)
  assert (X : forall k, parity_on n syn (fun x => A x && match lab x with Some c => c <? k | None => false end) = false).
  { induction k as [|k IH].
    - rewrite (parity_on_set n syn _ (fun _ => false)); [apply parity_on_none|].
      intros x _. destruct (lab x); apply andb_false_r.
    - rewrite (parity_on_set n syn _ (fun x => xorb (A x && match lab x with Some c => c <? k | None => false end)
                 (A x && labis lab k x))).
      + rewrite parity_on_union, IH, xorb_false_l.
        destruct (existsb (fun x => A x && labis lab k x) (seq 0 n)) eqn:E.
        * apply existsb_exists in E. destruct E as (y & _ & B). apply andb_true_iff in B.
          destruct B as [Ay Ly]. apply labis_true in Ly.
          rewrite (parity_on_set n syn _ (labis lab k)).
          -- pose proof (ui_par _ _ _ _ _ _ _ _ U k) as P. pose proof (NO k) as N.
             destruct (c_par (cl (u_clus u) k)) as [[|]|]; [congruence|apply P|].
             destruct P as (i & v & Hi & K & Ev).
             rewrite (ui_conn _ _ _ _ _ _ _ _ U A IA' y v k Ly Ev) in Ay.
             rewrite (isolated_one edges H A i v IA' Hi K) in Ay. discriminate.
          -- intros x _. destruct (labis lab k x) eqn:Lx; [|apply andb_false_r].
             apply labis_true in Lx. rewrite (ui_conn _ _ _ _ _ _ _ _ U A IA' x y k Lx Ly), Ay. auto.
        * rewrite (parity_on_set n syn _ (fun _ => false)); [apply parity_on_none|].
          intros x L. destruct (A x && labis lab k x) eqn:B; auto.
          rewrite <- not_true_iff_false in E. destruct E. apply existsb_exists. exists x.
          split; auto. apply in_seq. lia.
      + intros x _. unfold labis. destruct (lab x) as [c|]; [|destruct (A x); auto].
        destruct (A x); cbn [andb xorb]; auto.
        destruct (Nat.ltb_spec c (S k)), (Nat.ltb_spec c k), (Nat.eqb_spec c k); auto; lia. }
  rewrite <- (X (length (u_clus u))).
  apply parity_ext. intros x I. apply in_seq in I.
  destruct (lab x) as [c|] eqn:Ex.
  - destruct (ui_live _ _ _ _ _ _ _ _ U x c Ex) as [b B]. apply live_lt in B.
    apply Nat.ltb_lt in B. rewrite B, andb_true_r. auto.
  - destruct (syn x) eqn:Sx; [|destruct (A x); auto]. destruct (SL x); auto. lia.
Qed.

End I.
