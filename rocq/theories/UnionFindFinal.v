(** The whole union-find decoder. *)
Require Import List Bool Arith Lia QArith Qround Lqa.
From Verif Require Import Base BaseProofs ErasureModel UnionFindModel GraphSpec GraphProofs
  ErasureProofs ErasureForest UnionFindTree UnionFindInv UnionFindOps UnionFindInit UnionFindStep.
Import ListNotations.
Open Scope nat_scope.

Local Arguments upd : simpl never.
Local Arguments bits : simpl never.

Section I.
Variables (n : nat) (edges : list (list nat)).
Hypothesis WF : well_formed n edges.
Notation m := (length edges).
Notation link := (link edges).
Notation uobj := (uobj n edges).

(** ** Objects *)

(** A graph object between the calls. *)
Definition uready (u : ugraph) : Prop := uobj u /\ length (u_verts u) = n.

Lemma attach_ok i adj : i < m ->
  nbr_ok n edges (fun j => j <? i) adj ->
  exists adj', attach i (nth i edges []) adj = Ok adj' /\ nbr_ok n edges (fun j => j <? S i) adj'.
Proof.
  intros Li [LA NB].
  assert (OFF : forall v j o, In (j, o) (nth v adj []) -> v < n -> j < i).
  { intros v j o I L. destruct (NB v L) as [_ X]. apply X in I. destruct I as [I _].
    apply Nat.ltb_lt in I. auto. }
  assert (NDA : forall v o, v < n -> NoDup (nth v adj [] ++ [(i, o)])).
  { intros v o L. apply nodup_app; [apply NB; auto|repeat constructor; auto|].
    intros x I [<-|[]]. apply OFF in I; auto. lia. }
  assert (OTHER : forall v j o, j < i \/ j <> i -> (((j <? S i) = true /\ link j v o) <->
                                                    ((j <? i) = true /\ link j v o))).
  { intros v j o D. rewrite !Nat.ltb_lt. intuition lia. }
  destruct (edge_cases n edges WF i Li) as [(a & Ea & La)|(a & b & Ea & Dab & La & Lb)];
    rewrite (nth_error_nth _ _ _ Ea); cbn [attach].
  - rewrite (get_nth adj a []) by lia. cbn [bindR]. rewrite put_upd by lia.
    eexists. split; [reflexivity|]. split; [rewrite length_upd; auto|].
    assert (LI : forall v o, link i v o <-> v = a /\ o = None).
    { intros v o. unfold GraphProofs.link. rewrite Ea. split.
      - intros [[X ->]|(w & _ & [X|X])]; try discriminate. injection X as ->. auto.
      - intros [-> ->]. auto. }
    intros v Lv. destruct (NB v Lv) as [NV XV]. destruct (Nat.eq_dec v a) as [->|D].
    + rewrite nth_upd_same by lia. split; auto. intros j o. rewrite in_app_iff, XV. cbn [In].
      destruct (Nat.eq_dec j i) as [->|Dj].
      * rewrite LI, Nat.ltb_irrefl. split.
        -- intros [[X _]|[X|[]]]; [discriminate|]. injection X as <-. split; auto. apply Nat.ltb_lt; lia.
        -- intros [_ [_ ->]]. auto.
      * rewrite OTHER by auto. split; [intros [X|[X|[]]]; [auto|congruence]|auto].
    + rewrite nth_upd_other by auto. split; auto. intros j o. rewrite XV.
      destruct (Nat.eq_dec j i) as [->|Dj]; [|rewrite OTHER by auto; tauto].
      rewrite LI. split; [intros [X _]; rewrite Nat.ltb_irrefl in X; discriminate|tauto].
  - rewrite (get_nth adj a []) by lia. cbn [bindR]. rewrite put_upd by lia. cbn [bindR].
    rewrite (get_nth _ b []) by (rewrite length_upd; lia). cbn [bindR].
    rewrite put_upd by (rewrite length_upd; lia).
    eexists. split; [reflexivity|]. split; [rewrite !length_upd; auto|].
    assert (LI : forall v o, link i v o <-> (v = a /\ o = Some b) \/ (v = b /\ o = Some a)).
    { intros v o. unfold GraphProofs.link. rewrite Ea. split.
      - intros [[X ->]|(w & -> & [X|X])]; try discriminate; injection X; intros; subst; auto.
      - intros [[-> ->]|[-> ->]]; right; eauto. }
    rewrite (nth_upd_other) by auto.
    intros v Lv. destruct (NB v Lv) as [NV XV]. destruct (Nat.eq_dec v b) as [->|D].
    + rewrite nth_upd_same by (rewrite length_upd; lia). split; auto.
      intros j o. rewrite in_app_iff, XV. cbn [In]. destruct (Nat.eq_dec j i) as [->|Dj].
      * rewrite LI, Nat.ltb_irrefl. split.
        -- intros [[X _]|[X|[]]]; [discriminate|]. injection X as <-. split; auto. apply Nat.ltb_lt; lia.
        -- intros [_ [[X _]|[_ ->]]]; [congruence|auto].
      * rewrite OTHER by auto. split; [intros [X|[X|[]]]; [auto|congruence]|auto].
    + rewrite nth_upd_other by auto. destruct (Nat.eq_dec v a) as [->|Da].
      * rewrite nth_upd_same by lia. split; auto. intros j o. rewrite in_app_iff, XV. cbn [In].
        destruct (Nat.eq_dec j i) as [->|Dj].
        -- rewrite LI, Nat.ltb_irrefl. split.
           ++ intros [[X _]|[X|[]]]; [discriminate|]. injection X as <-. split; auto. apply Nat.ltb_lt; lia.
           ++ intros [_ [[_ ->]|[X _]]]; [auto|congruence].
        -- rewrite OTHER by auto. split; [intros [X|[X|[]]]; [auto|congruence]|auto].
      * rewrite nth_upd_other by auto. split; auto. intros j o. rewrite XV.
        destruct (Nat.eq_dec j i) as [->|Dj]; [|rewrite OTHER by auto; tauto].
        rewrite LI. split; [intros [X _]; rewrite Nat.ltb_irrefl in X; discriminate|].
        intros [_ [[X _]|[X _]]]; congruence.
Qed.

Lemma attach_all : forall k i adj, k + i = m -> nbr_ok n edges (fun j => j <? i) adj ->
  exists adj', foldR (fun adj (ie : nat * list nat) =>
              do _ <- mapR (get (repeat tt n)) (snd ie);
              attach (fst ie) (snd ie) adj)
            (combine (seq i k) (skipn i edges)) adj = Ok adj' /\
    nbr_ok n edges (fun j => j <? m) adj'.
Proof.
  set (body := fun _ _ => _).
  induction k as [|k IH]; intros i adj E X.
  - exists adj. cbn. replace m with i by lia. auto.
  - assert (Li : i < m) by lia.
    assert (SK : skipn i edges = nth i edges [] :: skipn (S i) edges).
    { destruct (nth_error edges i) as [e|] eqn:Ee; [|apply nth_error_None in Ee; lia].
      rewrite (nth_error_nth _ _ _ Ee). clear -Ee. revert edges Ee. induction i as [|i IH]; intros [|x l] E; try discriminate.
      - injection E as ->. reflexivity.
      - cbn [skipn]. apply IH. auto. }
    rewrite SK. cbn [seq combine foldR].
    assert (ST : body adj (i, nth i edges []) = attach i (nth i edges []) adj).
    { unfold body. cbn [fst snd].
      assert (MR : forall l, (forall x, In x l -> x < n) -> exists r, mapR (get (repeat tt n)) l = Ok r).
      { induction l as [|x l IHl]; intros Y; cbn [mapR]; [eauto|].
        rewrite (get_nth _ x tt) by (rewrite repeat_length; apply Y; left; auto). cbn [bindR].
        destruct IHl as [r R]; [intros y I; apply Y; right; auto|]. rewrite R. cbn [bindR]. eauto. }
      destruct (MR (nth i edges [])) as [r R]; [|rewrite R; reflexivity].
      intros x I. destruct (WF (nth i edges []) (nth_In _ _ Li)) as [(v & Ev & Lv)|(a & b & Ev & _ & La & Lb)];
        rewrite Ev in I; cbn in I; intuition (subst; auto). }
    rewrite ST. destruct (attach_ok i adj Li X) as (adj1 & E1 & X1). rewrite E1. cbn [bindR].
    apply IH; auto. lia.
Qed.

Lemma new_ugraph_ready : exists u, new_ugraph n edges = Ok u /\ uready u /\
  u_grow u = repeat new_growth m.
Proof.
  unfold new_ugraph. destruct (attach_all m 0 (repeat [] n)) as (adj & E & X); [lia| |].
  { split; [apply repeat_length|]. intros v L.
    assert (NN : nth v (repeat (@nil entry) n) [] = []) by (rewrite nth_repeat; auto).
    rewrite NN. split; [constructor|]. intros i o. cbn. split; [tauto|].
    intros [Y _]. destruct i; discriminate. }
  cbn [skipn] in E. rewrite E. cbn [bindR]. eexists. split; [reflexivity|]. split; [|reflexivity].
  split; [|cbn; apply repeat_length]. constructor; cbn [u_ends u_adj u_grow].
  - auto.
  - eapply nbr_is_ext; [exact X|]. intros v i o _. cbn beta. split; [tauto|].
    intros [_ K]. split; auto. apply Nat.ltb_lt. apply (link_lt n edges WF i v o K).
  - apply repeat_length.
  - intros g I. apply repeat_spec in I. subst. reflexivity.
Qed.

Lemma min_fold l : forall w, (0 < w)%Q -> (forall x, In x l -> 0 < x)%Q ->
  (0 < fold_left (fun a b => if Qle_bool a b then a else b) l w)%Q.
Proof.
  induction l as [|y l IH]; intros w P X; cbn; auto.
  apply IH; [|intros x I; apply X; right; auto]. destruct (Qle_bool w y); auto.
  apply X. left; auto.
Qed.

Lemma set_weights_ready c ws u u' : uready u -> (0 <= c)%Q -> (forall w, In w ws -> 0 <= w)%Q ->
  set_weights c ws u = Ok u' -> uready u'.
Proof.
  intros [UO L] Pc PW. unfold set_weights, min_nonzero.
  destruct (filter _ ws) as [|w0 l] eqn:F; [discriminate|]. cbn [bindR].
  assert (PF : forall x, In x (w0 :: l) -> (0 < x)%Q).
  { intros x I. rewrite <- F in I. apply filter_In in I. destruct I as [I B]. apply PW in I.
    apply negb_true_iff in B. apply Qle_lteq in I. destruct I as [I|I]; auto.
    rewrite (proj2 (Qeq_bool_iff x 0)) in B; [discriminate|]. rewrite I. reflexivity. }
  assert (P0 : (0 < fold_left (fun a b => if Qle_bool a b then a else b) l w0)%Q).
  { apply min_fold; [apply PF; left; auto|]. intros x I. apply PF. right; auto. }
  set (lo := fold_left _ _ _) in *.
  destruct (length ws =? length (u_grow u)) eqn:LW; [|discriminate]. cbn [assertR bindR].
  apply Nat.eqb_eq in LW. intros X. injection X as <-. split; [|exact L].
  destruct UO as [A B C D]. constructor; cbn [u_ends u_adj u_grow set_grow]; auto.
  - rewrite map_length, combine_length. lia.
  - intros g I. apply in_map_iff in I. destruct I as ((g0 & w) & <- & I). cbn [g_inc snd].
    destruct (Qeq_bool (c * w / lo) 0) eqn:Z; auto.
    apply in_combine_r in I. apply PW in I.
    assert (NZ : ~ (c * w / lo == 0)%Q).
    { intros Y. apply Qeq_bool_iff in Y. congruence. }
    assert (PP : (0 <= c * w / lo)%Q).
    { apply Qle_shift_div_l; auto. rewrite Qmult_0_l. apply Qmult_le_0_compat; auto. }
    assert (0 < c * w / lo)%Q.
    { apply Qle_lteq in PP. destruct PP as [P1|Y]; auto. destruct NZ. symmetry. auto. }
    apply Qlt_shift_div_l; lra.
Qed.

Lemma unset_weights_ready b u : uready u -> uready (unset_weights b u).
Proof.
  intros [UO L]. destruct b; [|split; auto]. split; [|exact L].
  destruct UO as [A B C D]. constructor; cbn [u_ends u_adj u_grow set_grow unset_weights]; auto.
  - rewrite map_length; auto.
  - intros g I. apply in_map_iff in I. destruct I as (g0 & <- & _). reflexivity.
Qed.

(** ** Initialisation *)

Definition fresh (gs : list growth) : list growth :=
  map (fun e => mkGrowth (Some 0%Q) (g_max e) (g_inc e)) gs.

Lemma set_complete_ok g : complete g = false ->
  exists g', set_complete g = Ok g' /\ complete g' = true /\ g_inc g' = g_inc g /\ g_max g' = g_max g.
Proof.
  intros C. unfold set_complete. rewrite C. cbn. eexists. split; [reflexivity|]. split; auto.
  unfold complete. cbn. apply Qle_bool_iff. apply Qle_refl.
Qed.

Lemma nth_error_upd_other {A} i j (a : A) l : j <> i -> nth_error (upd i a l) j = nth_error l j.
Proof.
  revert i j. induction l as [|b l IH]; intros [|i] [|j] D; try congruence; auto. apply IH. congruence.
Qed.

Lemma fresh_upd gs i g g' : nth_error gs i = Some g -> g_inc g' = g_inc g -> g_max g' = g_max g ->
  fresh (upd i g' gs) = fresh gs.
Proof.
  revert i. induction gs as [|a gs IH]; intros [|i] E I M; try discriminate.
  - injection E as ->. unfold fresh, upd; cbn. rewrite I, M. auto.
  - change (upd (S i) g' (a :: gs)) with (a :: upd i g' gs). cbn [fresh map]. f_equal. apply IH; auto.
Qed.

Lemma erase_list l : forall u, uobj u -> (forall e, In e l -> e < m) ->
  exists gs, foldR (fun u e =>
             do g <- get (u_grow u) e;
             if complete g then Ok u
             else do g' <- set_complete g; Ok (set_grow (upd e g' (u_grow u)) u)) l u =
      Ok (set_grow gs u) /\ uobj (set_grow gs u) /\ total gs <= total (u_grow u) /\
    (forall i, cmp gs i = true <-> cmp (u_grow u) i = true \/ In i l) /\
    (forall i, ~ In i l -> nth_error gs i = nth_error (u_grow u) i) /\ fresh gs = fresh (u_grow u).
Proof.
  set (body := fun _ _ => _).
  induction l as [|e l IH]; intros u UO L.
  - exists (u_grow u). destruct u; cbn in *. split; auto. split; auto. split; auto. split; [intros i; tauto|]. split; auto.
  - assert (Le : e < length (u_grow u)).
    { rewrite (uo_grow n edges u UO). apply L. left; auto. }
    assert (STEP : exists gs, body u e = Ok (set_grow gs u) /\ uobj (set_grow gs u) /\
       total gs <= total (u_grow u) /\ (forall i, cmp gs i = true <-> cmp (u_grow u) i = true \/ i = e) /\
       (forall i, i <> e -> nth_error gs i = nth_error (u_grow u) i) /\ fresh gs = fresh (u_grow u)).
    { unfold body. destruct (nth_error (u_grow u) e) as [g|] eqn:E; [|apply nth_error_None in E; lia].
      unfold get. rewrite E. cbn [bindR].
      assert (C : cmp (u_grow u) e = complete g) by (unfold cmp; rewrite E; auto).
      destruct (complete g) eqn:CG.
      - exists (u_grow u). destruct u; cbn in *. split; auto. split; auto. split; auto.
        split; [|split; auto]. intros i. split; auto. intros [Y| ->]; auto.
      - destruct (set_complete_ok g CG) as (g' & G & CG' & GI & GM). rewrite G. cbn [bindR].
        eexists. split; [reflexivity|]. split; [|split; [|split; [|split]]].
        + destruct UO as [A B D F]. constructor; cbn [u_ends u_adj u_grow set_grow]; auto.
          * rewrite length_upd; auto.
          * intros x I. apply in_upd in I. destruct I as [->|I]; [|apply (F x I)].
            rewrite GI. apply F. eapply nth_error_In; eauto.
        + pose proof (total_upd _ _ _ g' E). assert (need g' = 0) by (unfold need; rewrite CG'; auto). lia.
        + intros i. rewrite cmp_upd by auto. destruct (Nat.eqb_spec i e) as [->|D]; [tauto|].
          split; [auto|]. intros [Y|Y]; [auto|congruence].
        + intros i D. apply nth_error_upd_other. auto.
        + apply fresh_upd with (g := g); auto. }
    destruct STEP as (gs1 & E1 & UO1 & T1 & C1 & N1 & F1).
    destruct (IH (set_grow gs1 u) UO1) as (gs2 & E2 & UO2 & T2 & C2 & N2 & F2). { intros x I. apply L. right; auto. }
    exists gs2. cbn [foldR]. rewrite E1. cbn [bindR]. split; [exact E2|]. split; [exact UO2|].
    cbn [u_grow set_grow] in *. split; [lia|]. split; [|split; [|congruence]].
    2: { intros i NI. rewrite N2, N1; auto; intros ?; apply NI; [left|right]; auto. }
    intros i. rewrite C2, C1. cbn [In]. split; intros X.
    + destruct X as [[Y| ->]|?]; auto.
    + destruct X as [Y|[->|Y]]; auto.
Qed.

Lemma init_ok er syn u : uready u -> length syn = n -> (forall e, In e er -> e < m) ->
  exists u' lab H, init_graph er syn u = Ok u' /\ uobj u' /\ stable n edges (bits syn) u' lab H /\
    (forall v, v < n -> bits syn v = true -> lab v <> None) /\
    (forall e, In e er -> cmp (u_grow u') e = true) /\
    total (u_grow u') <= total (fresh (u_grow u)) /\
    (forall i, ~ In i er -> nth_error (u_grow u') i = nth_error (fresh (u_grow u)) i) /\
    fresh (u_grow u') = fresh (u_grow u).
Proof.
  intros [UO LV] LS LE. unfold init_graph, set_syndrome.
  set (u0 := reset_graph u).
  assert (L0 : length (u_verts u0) = n) by (cbn; rewrite map_length; auto).
  rewrite L0, LS, Nat.eqb_refl. cbn [assertR bindR].
  set (vs := map _ (combine _ syn)). set (u1 := set_verts vs u0).
  assert (UO1 : uobj u1).
  { destruct UO as [A B C D]. constructor; cbn [u_ends u_adj u_grow u1 u0 set_verts reset_graph]; auto.
    - rewrite map_length; auto.
    - intros g I. apply in_map_iff in I. destruct I as (g0 & <- & I). apply (D g0 I). }
  destruct (erase_list er u1 UO1 LE) as (gs & E2 & UO2 & T2 & C2 & N2 & F2). rewrite E2. cbn [bindR].
  set (u2 := set_grow gs u1) in *.
  assert (VS : forall v, v < n -> nth v vs new_vertex = mkVertex Unused None None (bits syn v)).
  { intros v L. unfold vs. 
    assert (LC : v < length (combine (u_verts u0) syn)) by (rewrite combine_length; lia).
    set (f := fun _ => _).
    rewrite (nth_indep _ new_vertex (f (new_vertex, false))) by (rewrite map_length; auto).
    rewrite map_nth. rewrite combine_nth by lia. unfold f. cbn [fst snd]. unfold bits.
    assert (Q : exists y, nth v (u_verts u0) new_vertex = mkVertex Unused None None y).
    { cbn [u0 reset_graph u_verts]. set (g := fun x => mkVertex Unused None None (v_syn x)).
      exists (v_syn (nth v (u_verts u) new_vertex)).
      rewrite (nth_indep _ new_vertex (g new_vertex)) by (rewrite map_length; lia).
      rewrite map_nth. reflexivity. }
    destruct Q as [y ->]. reflexivity. }
  destruct (init_erasure_ok n edges WF (bits syn) u2 UO2) as (u3 & lab3 & H3 & E3 & K3 & S3); auto.
  { cbn [u2 u1 u_verts set_grow set_verts]. unfold vs. rewrite map_length, combine_length. lia. }
  rewrite E3. cbn [bindR].
  assert (UO3 : uobj u3) by (eapply uobj_keeps; eauto).
  destruct (init_syndrome_ok n edges WF (bits syn) u3 lab3 H3 UO3 S3) as (u4 & lab4 & H4 & E4 & K4 & S4 & V4).
  assert (G4 : u_grow u4 = gs).
  { destruct K4 as (_ & _ & ->). destruct K3 as (_ & _ & ->). reflexivity. }
  exists u4, lab4, H4. split; auto. split; [eapply uobj_keeps; eauto|]. split; auto. split; auto.
  rewrite G4. split; [intros e I; apply C2; auto|]. split; auto. split; auto.
  rewrite F2. cbn [u1 u0 set_verts reset_graph u_grow]. unfold fresh. rewrite map_map. reflexivity.
Qed.

(** ** The decoder *)

Lemma complete_edges_spec u i : uobj u -> (In i (complete_edges u) <-> cmp (u_grow u) i = true).
Proof.
  intros UO. unfold complete_edges. rewrite filter_In, in_seq. fold (cmp (u_grow u) i).
  split; [tauto|]. intros C. split; auto. pose proof (cmp_lt n edges u i UO C).
  rewrite (uo_grow n edges u UO). lia.
Qed.

Lemma union_find_ok er syn u fuel : uready u -> length syn = n -> (forall e, In e er -> e < m) ->
  total (fresh (u_grow u)) < fuel ->
  (union_find fuel er syn u = Err AssertionError /\
   ~ even_components n edges (fun _ => True) (bits syn)) \/
  (exists u' sel, union_find fuel er syn u = Ok (u', sel) /\ uready u' /\
    (forall e, In e er -> In e sel) /\ (forall e, In e sel -> e < m) /\ NoDup sel /\
    even_components n edges (fun i => In i sel) (bits syn)).
Proof.
  intros R LS LE F. unfold union_find.
  destruct (init_ok er syn u R LS LE) as (u1 & lab1 & H1 & E1 & UO1 & S1 & SL1 & C1 & T1 & _).
  rewrite E1. cbn [bindR].
  destruct (steps_ok n edges WF (bits syn) fuel u1 lab1 H1 UO1 S1 SL1) as
    [[E2 NE]|(u2 & lab2 & H2 & E2 & UO2 & S2 & SL2 & M2 & O2)]; [lia| |].
  { left. rewrite E2. auto. }
  right. exists u2, (complete_edges u2). rewrite E2. cbn [bindR]. split; auto.
  split; [split; [auto|apply (ui_len _ _ _ _ _ _ _ _ (s_inv _ _ _ _ _ _ S2))]|].
  split; [intros e I; apply complete_edges_spec; auto|].
  split; [intros e I; apply (cmp_lt n edges u2 e UO2); apply complete_edges_spec; auto|].
  split; [apply NoDup_filter, seq_NoDup|].
  pose proof (closed_even n edges (bits syn) u2 lab2 H2 S2 O2 SL2) as EV.
  intros A I. apply EV. intros i Hi. apply I. apply complete_edges_spec; auto.
Qed.

Lemma uf_decode_ok er syn u fuel : uready u -> length syn = n -> (forall e, In e er -> e < m) ->
  total (fresh (u_grow u)) < fuel ->
  (uf_decode fuel er syn u = Err AssertionError /\
   ~ even_components n edges (fun _ => True) (bits syn)) \/
  (exists u' corr, uf_decode fuel er syn u = Ok (u', corr) /\ uready u' /\
    length corr = m /\ explains n edges (bits corr) (bits syn)).
Proof.
  intros R LS LE F. unfold uf_decode.
  destruct (union_find_ok er syn u fuel R LS LE F) as [[E NE]|(u1 & sel & E & R1 & SE & SM & ND & EV)];
    rewrite E; cbn [bindR]; [left; auto|right].
  destruct R as [UO LV]. rewrite LV, (uo_ends n edges u UO). cbn [fst snd].
  destruct (erasure_decode_ok n edges sel syn WF SM LS) as (corr & E2 & LC & SS & X).
  rewrite E2. cbn [bindR]. exists u1, corr. split; [auto|]. split; [auto|]. split; [auto|]. apply X. exact EV.
Qed.

(** Decodable syndromes of the whole graph. *)
Lemma even_all syn : length syn = n ->
  (explainable n edges (fun _ => True) (bits syn) <->
   even_components n edges (fun _ => True) (bits syn)).
Proof.
  intros LS. split.
  - apply (explainable_even n edges WF).
  - intros EV. destruct (erasure_decode_ok n edges (seq 0 m) syn WF) as (corr & E & L & S & X); auto.
    { intros i I. apply in_seq in I. lia. }
    exists (bits corr). split; auto. apply X. intros A IA. apply EV. intros i _.
    destruct (Nat.lt_ge_cases i m).
    + apply IA. apply in_seq. lia.
    + rewrite nth_overflow; auto.
Qed.

Lemma total_new : total (fresh (repeat new_growth m)) = 2 * m.
Proof.
  unfold fresh, total. induction m as [|k IH]; auto. cbn [repeat map list_sum fold_right].
  change (need (mkGrowth (Some 0%Q) (g_max new_growth) (g_inc new_growth))) with 2.
  unfold list_sum in IH. lia.
Qed.

End I.

(** More fuel does not change a result. *)
Lemma steps_more : forall fuel u r, steps fuel u = Ok r -> forall k, steps (fuel + k) u = Ok r.
Proof.
  induction fuel as [|fuel IH]; intros u r E k.
  - cbn in E. destruct (u_open u) eqn:O; [|discriminate]. injection E as <-.
    destruct k; cbn; rewrite O; auto.
  - cbn [steps Nat.add] in *. destruct (u_open u) eqn:O; auto.
    destruct (step u) as [u1|]; [|discriminate]. cbn [bindR] in *. auto.
Qed.

Lemma uf_decode_more fuel er syn u r k : uf_decode fuel er syn u = Ok r ->
  uf_decode (fuel + k) er syn u = Ok r.
Proof.
  unfold uf_decode, union_find. destruct (init_graph er syn u) as [u1|]; [|discriminate].
  cbn [bindR]. destruct (steps fuel u1) as [u2|] eqn:S; [|discriminate].
  rewrite (steps_more _ _ _ S). auto.
Qed.
