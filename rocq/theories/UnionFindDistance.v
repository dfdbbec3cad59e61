(** The growth of the union-find decoder is a growth process (UnionFindGrowth.v), so that errors
    of low weight are corrected. *)
Require Import List Bool Arith Lia QArith Qround Lqa.
From Verif Require Import Base BaseProofs ErasureModel UnionFindModel GraphSpec GraphProofs
  ErasureProofs ErasureForest UnionFindTree UnionFindInv UnionFindOps UnionFindInit UnionFindStep
  UnionFindFinal UnionFindMetric UnionFindGrowth.
Import ListNotations.
Open Scope nat_scope.

Local Arguments upd : simpl never.
Local Arguments bits : simpl never.

(** ** How often an edge still has to grow *)
Definition needs (gs : list growth) (i : nat) : nat :=
  match nth_error gs i with Some g => need g | None => 0 end.

Lemma grow_need g g' : positive_inc g -> grow g = Ok g' ->
  complete g = false /\ need g' = need g - 1 /\ g_inc g' = g_inc g /\ g_max g' = g_max g.
Proof.
  intros P. unfold grow. destruct (complete g) eqn:C; [discriminate|]. cbn [negb assertR bindR].
  intros X. injection X as <-. split; auto. split; [|auto].
  pose proof (need_pos g P C) as NP.
  set (g' := mkGrowth _ _ _). unfold need at 1. destruct (complete g') eqn:C'.
  - unfold need. rewrite C. unfold need in NP. rewrite C in NP. unfold complete in C, C'. unfold g' in C'.
    cbn [g_cur g_max] in C'. unfold positive_inc in P. destruct (g_cur g) as [q|]; [|discriminate].
    destruct (g_inc g) as [d|]; [|auto].
    apply Qle_bool_iff in C'.
    assert (L : ((g_max g - q) / d <= 1)%Q) by (apply Qle_shift_div_r; auto; lra).
    apply Qceiling_resp_le in L. change (Qceiling 1) with 1%Z in L. lia.
  - unfold need. rewrite C. unfold g' in *. cbn [g_cur g_max g_inc] in *.
    unfold positive_inc in P. destruct (g_cur g) as [q|]; [|discriminate].
    destruct (g_inc g) as [d|]; [|discriminate].
    assert (L : ((g_max g - (q + d)) / d == (g_max g - q) / d + inject_Z (-1))%Q).
    { change (inject_Z (-1)) with (-1)%Q. field. intros X. rewrite X in P. discriminate. }
    rewrite (Qceiling_comp _ _ L). 
    assert (Z : (Qceiling ((g_max g - q) / d + inject_Z (-1)) = Qceiling ((g_max g - q) / d) - 1)%Z).
    { unfold Qceiling. 
      assert (Y : (- ((g_max g - q) / d + inject_Z (-1)) == - ((g_max g - q) / d) + inject_Z 1)%Q).
      { change (inject_Z (-1)) with (-1)%Q. change (inject_Z 1) with 1%Q. lra. }
      rewrite (Qfloor_comp _ _ Y). 
      assert (W : (Qfloor (- ((g_max g - q) / d) + inject_Z 1) = Qfloor (- ((g_max g - q) / d)) + 1)%Z).
      { generalize (- ((g_max g - q) / d))%Q. intros z.
        apply Z.le_antisymm.
        - assert (inject_Z (Qfloor (z + inject_Z 1)) - 1 <= z)%Q.
          { pose proof (Qfloor_le (z + inject_Z 1)). change (inject_Z 1) with 1%Q in *. lra. }
          assert (inject_Z (Qfloor (z + inject_Z 1) - 1) <= z)%Q.
          { unfold Zminus. rewrite inject_Z_plus. change (inject_Z (- (1))) with (-(1))%Q. lra. }
          apply Qfloor_resp_le in H0. rewrite Qfloor_Z in H0. lia.
        - assert (inject_Z (Qfloor z + 1) <= z + inject_Z 1)%Q.
          { rewrite inject_Z_plus. pose proof (Qfloor_le z). lra. }
          apply Qfloor_resp_le in H. rewrite Qfloor_Z in H. lia. }
      lia. }
    rewrite Z. lia.
Qed.

Lemma complete_need g : positive_inc g -> (complete g = true <-> need g = 0).
Proof.
  intros P. split.
  - unfold need. intros ->. auto.
  - intros Z. destruct (complete g) eqn:C; auto. pose proof (need_pos g P C). lia.
Qed.

(** ** The edges which are grown *)
Definition visits (l : list entry) (i : nat) : nat := sum (fun en : entry => nb (fst en =? i)) l.

Lemma nth_error_upd {A} i (a : A) l j : i < length l ->
  nth_error (upd i a l) j = if j =? i then Some a else nth_error l j.
Proof.
  revert i j. induction l as [|b l IH]; intros [|i] [|j] L; cbn in L; try lia; auto.
  apply (IH i j). lia.
Qed.

(** What growth does to a list of edges. *)
Definition grew (gs gs' : list growth) (v : nat -> nat) : Prop :=
  length gs' = length gs /\ (forall g, In g gs' -> positive_inc g) /\
  (forall i, needs gs' i = needs gs i - v i) /\ fresh gs' = fresh gs.

Lemma grew_trans a b c v v' : grew a b v -> grew b c v' -> grew a c (fun i => v i + v' i).
Proof.
  intros (A1 & A2 & A3 & A4) (B1 & B2 & B3 & B4). split; [congruence|]. split; auto. split; [|congruence].
  intros i. rewrite B3, A3. lia.
Qed.

Lemma grow_edge_needs s en s' : (forall g, In g (fst (fst s)) -> positive_inc g) ->
  grow_edge s en = Ok s' -> grew (fst (fst s)) (fst (fst s')) (fun i => nb (fst en =? i)).
Proof.
  destruct s as [[gs k] new]. cbn [fst]. intros P. unfold grow_edge, get.
  destruct (nth_error gs (fst en)) as [g|] eqn:E; [|discriminate]. cbn [bindR].
  assert (Pg : positive_inc g) by (apply P; eapply nth_error_In; eauto).
  assert (L : fst en < length gs) by (apply nth_error_Some; congruence).
  destruct (complete g) eqn:C.
  - intros X. injection X as <-. cbn [fst]. split; auto. split; auto. split; auto.
    intros i. destruct (Nat.eqb_spec (fst en) i) as [<-|]; cbn [nb]; [|lia].
    unfold needs. rewrite E. apply complete_need in C; auto. lia.
  - destruct (grow g) as [g'|] eqn:G; [|discriminate]. cbn [bindR]. intros X. injection X as <-. cbn [fst].
    destruct (grow_need g g' Pg G) as (_ & N & I & M).
    split; [apply length_upd|]. split; [|split].
    + intros x Ix. apply in_upd in Ix. destruct Ix as [->|Ix]; auto. unfold positive_inc in *. rewrite I. auto.
    + intros i. unfold needs. rewrite nth_error_upd by auto. rewrite (Nat.eqb_sym i).
      destruct (Nat.eqb_spec (fst en) i) as [<-|]; cbn [nb]; [rewrite E; auto|lia].
    + eapply fresh_upd; eauto.
Qed.

Lemma grow_edges_needs l : forall s s', (forall g, In g (fst (fst s)) -> positive_inc g) ->
  foldR grow_edge l s = Ok s' -> grew (fst (fst s)) (fst (fst s')) (visits l).
Proof.
  induction l as [|en l IH]; intros s s' P X.
  - injection X as <-. split; auto. split; auto. split; auto. intros i. cbn. lia.
  - cbn [foldR] in X. destruct (grow_edge s en) as [s1|] eqn:E; [|discriminate]. cbn [bindR] in X.
    pose proof (grow_edge_needs s en s1 P E) as G1.
    pose proof (IH s1 s' (proj1 (proj2 G1)) X) as G2.
    pose proof (grew_trans _ _ _ _ _ G1 G2) as G. exact G.
Qed.

(** All the entries of a list of vertices. *)
Definition entries (adj : list (list entry)) (b : list nat) : list entry := flat_map (fun v => nth v adj []) b.

Lemma get_ok {A} (l : list A) i a d : get l i = Ok a -> nth i l d = a.
Proof. unfold get. destruct (nth_error l i) eqn:E; [|discriminate]. intros X. injection X as <-. apply nth_error_nth. auto. Qed.

Lemma grow_verts_needs adj b : forall s s', (forall g, In g (fst (fst s)) -> positive_inc g) ->
  foldR (fun s v => do l <- get adj v; foldR grow_edge l s) b s = Ok s' ->
  grew (fst (fst s)) (fst (fst s')) (visits (entries adj b)).
Proof.
  induction b as [|v b IH]; intros s s' P X.
  - injection X as <-. split; auto. split; auto. split; auto. intros i. cbn. lia.
  - cbn [foldR] in X. destruct (get adj v) as [l|] eqn:G; [|discriminate]. cbn [bindR] in X.
    destruct (foldR grow_edge l s) as [s1|] eqn:E; [|discriminate]. cbn [bindR] in X.
    pose proof (grow_edges_needs l s s1 P E) as G1.
    pose proof (IH s1 s' (proj1 (proj2 G1)) X) as G2.
    pose proof (grew_trans _ _ _ _ _ G1 G2) as (A & B & C & D). split; auto. split; auto. split; auto.
    intros i. rewrite C. unfold visits, entries. cbn [flat_map]. rewrite (get_ok adj v l [] G), sum_app. auto.
Qed.

(** The boundary of a cluster if it is small enough. *)
Definition chosen (cs : list cluster) (mn c : nat) : list nat :=
  match c_bound (nth c cs dead) with Some b => if mn <? length b then [] else b | None => [] end.

Lemma grow_clusters_needs adj cs mn l : forall s s', (forall g, In g (fst (fst s)) -> positive_inc g) ->
  foldR (grow_cluster adj cs mn) l s = Ok s' ->
  grew (fst (fst s)) (fst (fst s')) (visits (entries adj (flat_map (chosen cs mn) l))).
Proof.
  induction l as [|c l IH]; intros s s' P X.
  - injection X as <-. split; auto. split; auto. split; auto. intros i. cbn. lia.
  - cbn [foldR] in X. destruct (grow_cluster adj cs mn s c) as [s1|] eqn:E; [|discriminate]. cbn [bindR] in X.
    assert (G1 : grew (fst (fst s)) (fst (fst s1)) (visits (entries adj (chosen cs mn c)))).
    { unfold grow_cluster in E. destruct (get cs c) as [k|] eqn:G; [|discriminate]. cbn [bindR] in E.
      unfold chosen. rewrite (get_ok cs c k dead G). destruct (c_bound k) as [b|]; [|discriminate].
      destruct (mn <? length b).
      - injection E as <-. split; auto. split; auto. split; auto. intros i. cbn. lia.
      - apply (grow_verts_needs adj b s s1 P E). }
    pose proof (IH s1 s' (proj1 (proj2 G1)) X) as G2.
    pose proof (grew_trans _ _ _ _ _ G1 G2) as (A & B & C & D). split; auto. split; auto. split; auto.
    intros i. rewrite C. unfold visits, entries. cbn [flat_map]. rewrite flat_map_app, sum_app. auto.
Qed.

Section D.
Variables (n : nat) (edges : list (list nat)).
Hypothesis WF : well_formed n edges.
Notation link := (link edges).
Notation m := (length edges).
Notation cl cs c := (nth c cs dead).
Notation st vs v := (v_state (nth v vs new_vertex)).
Notation uobj := (uobj n edges).
Notation over := (over edges).

(** The number of visits of an edge is the number of its ends in a set of vertices. *)
Lemma visits_vertex adj v i : nbr_ok n edges (fun _ => true) adj -> v < n -> i < m ->
  visits (nth v adj []) i = over (fun x => nb (x =? v)) i.
Proof.
  intros [LA NB] Lv Li. destruct (NB v Lv) as [ND NV].
  assert (AT1 : forall l, NoDup l -> (forall o o', In (i, o) l -> In (i, o') l -> o = o') ->
    visits l i = nb (existsb (fun en : entry => fst en =? i) l)).
  { induction l as [|[j o] l IH]; intros N U; [reflexivity|]. unfold visits in *. rewrite sum_cons. cbn [fst existsb].
    inversion N as [|? ? NI N']; subst. rewrite IH; auto; [|intros; eapply U; right; eauto].
    destruct (Nat.eqb_spec j i) as [->|D]; cbn [orb nb]; [|lia].
    destruct (existsb (fun en : entry => fst en =? i) l) eqn:Q; cbn [nb]; [|lia]. exfalso.
    apply existsb_exists in Q. destruct Q as ([j' o'] & I & Q). cbn [fst] in Q. apply Nat.eqb_eq in Q. subst j'.
    assert (o = o') by (eapply U; [left; reflexivity|right; exact I]). subst. tauto. }
  rewrite AT1; auto.
  2: { intros o o' I I'. apply NV in I, I'. eapply (link_fun n edges WF); [apply I|apply I']. }
  assert (Q : existsb (fun en : entry => fst en =? i) (nth v adj []) = true <-> exists o, link i v o).
  { rewrite existsb_exists. split.
    - intros ([j o] & I & J). cbn [fst] in J. apply Nat.eqb_eq in J. subst j. apply NV in I. exists o. apply I.
    - intros [o K]. exists (i, o). cbn [fst]. rewrite Nat.eqb_refl. split; auto. apply NV. auto. }
  destruct (over_link n edges WF i Li) as (x & [y|] & K).
  - rewrite (over_two edges _ i x y K). destruct (link_other n edges WF i x y K) as (Ly & D & K').
    destruct (existsb (fun en : entry => fst en =? i) (nth v adj [])) eqn:B.
    + apply proj1 in Q. specialize (Q eq_refl). destruct Q as [o Ko].
      destruct (link_ends n edges WF i x y v o K Ko) as [[-> _]|[-> _]].
      * rewrite Nat.eqb_refl. apply Nat.neq_sym, Nat.eqb_neq in D. rewrite Nat.eqb_sym in D. 
        destruct (Nat.eqb_spec y x); cbn; auto. subst. rewrite Nat.eqb_refl in D. discriminate.
      * rewrite Nat.eqb_refl. destruct (Nat.eqb_spec x y); cbn; auto. congruence.
    + destruct (Nat.eqb_spec x v) as [->|]; [assert (X : false = true); [apply Q; eauto|discriminate]|].
      destruct (Nat.eqb_spec y v) as [->|]; [|reflexivity]. assert (X : false = true); [|discriminate].
      apply Q. eauto.
  - rewrite (over_one edges _ i x K).
    destruct (existsb (fun en : entry => fst en =? i) (nth v adj [])) eqn:B.
    + apply proj1 in Q. specialize (Q eq_refl). destruct Q as [o Ko].
      destruct (link_dangling edges i x v o K Ko) as [-> _]. rewrite Nat.eqb_refl. auto.
    + destruct (Nat.eqb_spec x v) as [->|]; [|reflexivity]. assert (X : false = true); [|discriminate].
      apply Q. eauto.
Qed.

Lemma over_map f g i : (forall x, In x (nth i edges []) -> f x = g x) -> over f i = over g i.
Proof. intros X. unfold UnionFindMetric.over. f_equal. apply map_ext_in. auto. Qed.

Lemma visits_entries adj b i : nbr_ok n edges (fun _ => true) adj -> (forall v, In v b -> v < n) -> NoDup b -> i < m ->
  visits (entries adj b) i = over (fun x => nb (existsb (Nat.eqb x) b)) i.
Proof.
  intros NB L ND Li. induction b as [|v b IH].
  - unfold visits, entries. cbn [flat_map existsb nb]. cbn [map list_sum fold_right]. symmetry.
    unfold UnionFindMetric.over. apply sum_zero. auto.
  - unfold visits, entries in *. cbn [flat_map]. rewrite sum_app. inversion ND as [|? ? NI ND']; subst.
    rewrite IH; auto; [|intros; apply L; right; auto].
    pose proof (visits_vertex adj v i NB (L v (or_introl eq_refl)) Li) as V. unfold visits in V. rewrite V.
    unfold UnionFindMetric.over. rewrite <- sum_plus. apply sum_ext. intros x _. cbn [existsb].
    destruct (Nat.eqb_spec x v) as [->|]; cbn [orb nb]; [|lia].
    destruct (existsb (Nat.eqb v) b) eqn:Q; cbn [nb]; auto. apply existsb_in in Q. tauto.
Qed.

Variable w : nat -> bool.
Variable mw : nat -> nat.
Variable d : nat.
Hypothesis HD : no_short n edges w mw d.
Hypothesis MP : forall i, i < m -> 1 <= mw i.
Variables (E syn er : nat -> bool).
Hypothesis EX : explains n edges E syn.
Hypothesis HB : sum (budget mw E er) (seq 0 m) < d.
Notation uinv := (uinv n edges syn).
Notation stable := (stable n edges syn).
Notation grown := (grown n edges w mw E er).

(** The counters of the edges. *)
Definition counts (u : ugraph) (i : nat) : nat := mw i - needs (u_grow u) i.
Definition bounded (u : ugraph) : Prop := forall i, i < m -> needs (u_grow u) i <= mw i.

Lemma cmp_needs u i : uobj u -> i < m -> (cmp (u_grow u) i = true <-> needs (u_grow u) i = 0).
Proof.
  intros UO L. unfold cmp, needs. destruct (nth_error (u_grow u) i) as [g|] eqn:Q.
  - apply complete_need. apply (uo_inc n edges u UO). eapply nth_error_In; eauto.
  - apply nth_error_None in Q. rewrite (uo_grow n edges u UO) in Q. lia.
Qed.

Lemma step_grown u lab H u' : uobj u -> stable u lab H ->
  (forall x, x < n -> syn x = true -> lab x <> None) -> bounded u -> grown (counts u) -> step u = Ok u' ->
  grown (counts u') /\ bounded u' /\ fresh (u_grow u') = fresh (u_grow u).
Proof.
  intros UO S SL BN GR X. pose proof S as [U0 HC SB].
  destruct (step_ok n edges WF syn u lab H UO S SL) as [[Y _]|(u2 & lab2 & H2 & Y & UO2 & S2 & _ & _ & _ & u1 & R & Z)]; [congruence|].
  rewrite Y in X. injection X as ->.
  destruct (refresh_ok n edges syn u lab H U0) as (u1' & R' & K1 & V1 & L1 & B1 & O1 & U).
  rewrite R in R'. injection R' as <-.
  assert (UO1 : uobj u1) by exact (uobj_keeps n edges u u1 UO K1).
  assert (G1 : u_grow u1 = u_grow u) by apply K1.
  destruct Z as [[_ Z]|(mn & k & new & Z)].
  { unfold counts, bounded. rewrite Z. split; [exact GR|]. split; [exact BN|auto]. }
  pose proof (grow_clusters_needs (u_adj u1) (u_clus u1) mn (u_open u1) (u_grow u1, 0, []) (u_grow u', k, new) (uo_inc n edges u1 UO1) Z) as (A1 & A2 & A3 & A4). cbn [fst] in *.
  rewrite G1 in A1, A3, A4.
  (* the grown boundary *)
  set (bd := flat_map (chosen (u_clus u1) mn) (u_open u1)) in *.
  assert (BD : forall v, In v bd <-> exists c b, In c (u_open u1) /\ c_bound (cl (u_clus u1) c) = Some b /\
    length b <= mn /\ lab v = Some c /\ st (u_verts u1) v = Boundary).
  { intros v. unfold bd. rewrite in_flat_map. split.
    - intros (c & I & J). unfold chosen in J. destruct (c_bound (cl (u_clus u1) c)) as [b|] eqn:B; [|destruct J].
      destruct (Nat.ltb_spec mn (length b)); [destruct J|]. destruct (ui_bound _ _ _ _ _ _ _ _ U c b B) as [_ Q].
      apply Q in J. exists c, b. tauto.
    - intros (c & b & I & B & L & Q). exists c. split; auto. unfold chosen. rewrite B.
      apply Nat.leb_le in L. rewrite Nat.ltb_antisym, L. cbn [negb].
      destruct (ui_bound _ _ _ _ _ _ _ _ U c b B) as [_ W]. apply W. auto. }
  assert (BL : forall v, In v bd -> v < n).
  { intros v I. apply BD in I. destruct I as (c & b & _ & _ & _ & Q & _). apply (ui_used _ _ _ _ _ _ _ _ U v c Q). }
  assert (BN' : NoDup bd).
  { enough (NF : forall l, NoDup l -> NoDup (flat_map (chosen (u_clus u1) mn) l))
      by (apply NF, (ui_nodup _ _ _ _ _ _ _ _ U)). clear -U.
    induction l as [|c l IH]; intros ND; cbn [flat_map]; [constructor|].
    inversion ND as [|? ? NI ND']; subst. apply nodup_app; auto.
    - unfold chosen. destruct (c_bound (cl (u_clus u1) c)) as [b|] eqn:B; [|constructor].
      destruct (mn <? length b); [constructor|]. apply (ui_bound _ _ _ _ _ _ _ _ U c b B).
    - intros x I J. apply in_flat_map in J. destruct J as (c' & I' & J).
      assert (Q : forall c, In x (chosen (u_clus u1) mn c) -> lab x = Some c).
      { clear -U. intros c I. unfold chosen in I. destruct (c_bound (cl (u_clus u1) c)) as [b|] eqn:B; [|destruct I].
        destruct (mn <? length b); [destruct I|]. destruct (ui_bound _ _ _ _ _ _ _ _ U c b B) as [_ W]. apply W. auto. }
      apply Q in I, J. assert (c = c') by congruence. subst. tauto. }
  assert (VI : forall i, i < m -> visits (entries (u_adj u1) bd) i = over (fun x => nb (existsb (Nat.eqb x) bd)) i).
  { intros i L. apply visits_entries; auto. apply UO1. }
  (* the vertices of the clusters *)
  set (picked := fun c => existsb (Nat.eqb c) (u_open u1) &&
     match c_bound (cl (u_clus u1) c) with Some b => length b <=? mn | None => false end).
  set (G := fun x => match lab x with Some c => picked c | None => false end).
  assert (PO : forall c, picked c = true -> c_par (cl (u_clus u1) c) = Some true).
  { intros c Q. apply andb_true_iff in Q. destruct Q as [Q _]. apply existsb_in in Q. apply O1. auto. }
  assert (HI : forall i, i < m -> (mw i <=? counts u i) = true <-> H i = true).
  { intros i L. rewrite Nat.leb_le. unfold counts. rewrite (HC i), (cmp_needs u i UO L).
    pose proof (MP i L). pose proof (BN i L). lia. }
  assert (IS : forall A, isolated edges (fun i => (mw i <=? counts u i) = true) A <-> isolated edges (fun i => H i = true) A).
  { intros A. split; intros Q i Hi.
    - destruct (Nat.lt_ge_cases i m) as [L|L]; [apply Q, HI; auto|rewrite nth_overflow; auto].
    - destruct (Nat.lt_ge_cases i m) as [L|L]; [apply Q, HI; auto|rewrite nth_overflow; auto]. }
  assert (ISC : forall c, c_par (cl (u_clus u1) c) = Some true -> isolated edges (fun i => H i = true) (labis lab c)).
  { intros c PA i Hi. pose proof (ui_par _ _ _ _ _ _ _ _ U c) as P. rewrite PA in P. destruct P as [_ ND].
    destruct (Nat.lt_ge_cases i m) as [Li|Li]; [|rewrite nth_overflow; auto].
    destruct (edge_cases n edges WF i Li) as [(a & Ea & La)|(a & b & Ea & Dab & La & Lb)]; rewrite (nth_error_nth _ _ _ Ea).
    - destruct (labis lab c a) eqn:Q; auto. apply labis_true in Q. destruct (ND i a Hi); auto. left; auto.
    - assert (K : link i a (Some b)) by (right; eauto).
      destruct (ui_two _ _ _ _ _ _ _ _ U i a b Hi K) as (c' & Z1 & Z2). unfold labis. rewrite Z1, Z2. auto. }
  assert (GW : grows n edges syn (fun i => mw i <=? counts u i) G).
  { split.
    - apply IS. intros i Hi.
      destruct (Nat.lt_ge_cases i m) as [Li|Li]; [|rewrite nth_overflow; auto].
      destruct (edge_cases n edges WF i Li) as [(a & Ea & La)|(a & b & Ea & Dab & La & Lb)]; rewrite (nth_error_nth _ _ _ Ea).
      + unfold G. destruct (lab a) as [c|] eqn:Q; auto. destruct (picked c) eqn:PC; auto. apply PO in PC.
        pose proof (ui_par _ _ _ _ _ _ _ _ U c) as P. rewrite PC in P. destruct P as [_ ND].
        destruct (ND i a Hi); auto. left; auto.
      + assert (K : link i a (Some b)) by (right; eauto).
        destruct (ui_two _ _ _ _ _ _ _ _ U i a b Hi K) as (c' & Z1 & Z2). unfold G. rewrite Z1, Z2. auto.
    - intros A x IA CA Lx Ax Gx. apply IS in IA. unfold G in Gx. destruct (lab x) as [c|] eqn:Q; [|discriminate].
      apply PO in Gx. pose proof (ui_par _ _ _ _ _ _ _ _ U c) as P. rewrite Gx in P. destruct P as [P _].
      rewrite <- P. unfold parity_on. apply parity_ext. intros y Iy. apply in_seq in Iy. f_equal.
      destruct (labis lab c y) eqn:LY.
      + apply labis_true in LY. rewrite (ui_conn _ _ _ _ _ _ _ _ U A IA y x c LY Q). auto.
      + destruct (A y) eqn:Ay; auto. rewrite <- LY, <- (CA (labis lab c)) with (y := x); auto; [|apply IS, ISC; auto|lia].
        symmetry. apply labis_true. auto. }
  split; [|split; auto].
  - eapply (grown_step n edges WF w mw d HD E syn er EX HB (counts u) (counts u') G GR GW).
    + intros i L Q. unfold counts in *. rewrite A3. lia.
    + intros i L Q. cbn zeta. pose proof (BN i L) as Bi.
      assert (NI : H i = false).
      { destruct (H i) eqn:Hi; auto. apply HI in Hi; auto. apply Nat.leb_le in Hi. lia. }
      assert (OV : over (fun x => nb (G x)) i = visits (entries (u_adj u1) bd) i).
      { rewrite VI by auto. apply over_map. intros x I. f_equal.
        assert (K : exists o, link i x o).
        { destruct (edge_cases n edges WF i L) as [(a & Ea & La)|(a & b & Ea & Dab & La & Lb)];
            rewrite (nth_error_nth _ _ _ Ea) in I; cbn in I.
          - destruct I as [<-|[]]. exists None. left; auto.
          - destruct I as [<-|[<-|[]]]; [exists (Some b)|exists (Some a)]; right; eauto. }
        destruct K as [o K].
        apply eq_true_iff_eq. rewrite existsb_in, BD. unfold G. split.
        - destruct (lab x) as [c|] eqn:Q'; [|discriminate]. intros PC. unfold picked in PC.
          apply andb_true_iff in PC. destruct PC as [P1 P2]. apply existsb_in in P1.
          destruct (c_bound (cl (u_clus u1) c)) as [b|] eqn:B; [|discriminate]. apply Nat.leb_le in P2.
          exists c, b. split; auto. split; auto. split; auto. split; auto.
          destruct (ui_used _ _ _ _ _ _ _ _ U x c Q') as (_ & NU & _).
          destruct (st (u_verts u1) x) eqn:SX; auto; [congruence|].
          rewrite (ui_int _ _ _ _ _ _ _ _ U x SX i o K) in NI. discriminate.
        - intros (c & b & I1 & B & LB & Q' & _). rewrite Q'. unfold picked. rewrite B. apply Nat.leb_le in LB.
          rewrite LB, andb_true_r. apply existsb_in. auto. }
      rewrite OV. unfold counts in *. rewrite A3.
      destruct (Nat.ltb_spec (mw i - needs (u_grow u) i + visits (entries (u_adj u1) bd) i) (mw i)); lia.
  - intros i L. rewrite A3. specialize (BN i L). lia.
Qed.

Lemma steps_grown : forall fuel u lab H u', uobj u -> stable u lab H ->
  (forall x, x < n -> syn x = true -> lab x <> None) -> bounded u -> grown (counts u) -> steps fuel u = Ok u' ->
  grown (counts u') /\ bounded u' /\ fresh (u_grow u') = fresh (u_grow u) /\ uobj u'.
Proof.
  induction fuel as [|fuel IH]; intros u lab H u' UO S SL BN GR X.
  - cbn in X. destruct (u_open u); [|discriminate]. injection X as <-. auto.
  - cbn [steps] in X. destruct (u_open u); [injection X as <-; auto|].
    destruct (step u) as [u1|] eqn:Y; [|discriminate]. cbn [bindR] in X.
    destruct (step_grown u lab H u1 UO S SL BN GR Y) as (G1 & B1 & F1).
    destruct (step_ok n edges WF syn u lab H UO S SL) as [[Z _]|(u2 & lab2 & H2 & Z & UO2 & S2 & SL2 & _)]; [congruence|].
    rewrite Y in Z. injection Z as <-.
    destruct (IH u1 lab2 H2 u' UO2 S2 SL2 B1 G1 X) as (G2 & B2 & F2 & UO3).
    split; auto. split; auto. split; auto. congruence.
Qed.

(** The counters at the start. *)
Lemma start_grown erased u u' : uobj u -> uobj u' -> (forall i, i < m -> mw i = needs (fresh (u_grow u)) i) ->
  (forall i, er i = true <-> In i erased) ->
  (forall e, In e erased -> cmp (u_grow u') e = true) ->
  (forall i, ~ In i erased -> nth_error (u_grow u') i = nth_error (fresh (u_grow u)) i) ->
  grown (counts u') /\ bounded u'.
Proof.
  intros UO UO' MW ER C N. split.
  - apply (grown_start n edges WF w mw d HD MP E er HB).
    + intros i L Q. unfold counts. apply ER, C in Q. apply cmp_needs in Q; auto. lia.
    + intros i L Q. unfold counts. assert (NI : ~ In i erased) by (intros I; apply ER in I; congruence).
      rewrite (MW i L). unfold needs. rewrite (N i NI). lia.
  - intros i L. destruct (er i) eqn:Q.
    + apply ER, C in Q. apply cmp_needs in Q; auto. lia.
    + assert (NI : ~ In i erased) by (intros I; apply ER in I; congruence).
      rewrite (MW i L). unfold needs. rewrite (N i NI). lia.
Qed.
End D.

(** The decoder keeps the lengths of the edges. *)
Lemma fresh_fresh gs : fresh (fresh gs) = fresh gs.
Proof. unfold fresh. rewrite map_map. reflexivity. Qed.

Lemma uf_decode_limit n edges w d E fuel er syn u u' corr : well_formed n edges -> uready n edges u ->
  length syn = n -> (forall i, In i er -> i < length edges) ->
  let mw := needs (fresh (u_grow u)) in
  no_short n edges w mw d -> (forall i, i < length edges -> 1 <= mw i) ->
  explains n edges E (bits syn) ->
  sum (budget mw E (fun i => existsb (Nat.eqb i) er)) (seq 0 (length edges)) < d ->
  uf_decode fuel er syn u = Ok (u', corr) ->
  length corr = length edges /\ explains n edges (bits corr) (bits syn) /\
  parity (map (fun i => bits corr i && w i) (seq 0 (length edges))) =
  parity (map (fun i => E i && w i) (seq 0 (length edges))).
Proof.
  intros WF R LS LE mw HD MP EX HB X.
  assert (CE : length corr = length edges /\ explains n edges (bits corr) (bits syn)).
  { set (N := S (total (fresh (u_grow u)))).
    destruct (uf_decode_ok n edges WF er syn u (fuel + N) R LS LE) as
      [[Y _]|(u1 & c1 & Y & _ & LC & CX)]; [unfold N; lia| |];
      rewrite (uf_decode_more _ _ _ _ _ N X) in Y; [discriminate|]. injection Y as <- <-. auto. }
  destruct CE as [LC CX]. split; auto. split; auto.
  unfold uf_decode, union_find in X.
  destruct (init_ok n edges WF er syn u R LS LE) as (u1 & lab & H & I & UO1 & S1 & SL & C1 & _ & N1 & F1).
  rewrite I in X. cbn [bindR] in X. destruct (steps fuel u1) as [u2|] eqn:Y; [|discriminate]. cbn [bindR fst snd] in X.
  assert (ER : forall i, existsb (Nat.eqb i) er = true <-> In i er) by (intros; apply existsb_in).
  destruct (start_grown n edges WF w mw d HD MP E (fun i => existsb (Nat.eqb i) er) HB er u u1 (proj1 R) UO1
    (fun i _ => eq_refl) ER C1 N1) as [G1 B1].
  destruct (steps_grown n edges WF w mw d HD MP E (bits syn) _ EX HB fuel u1 lab H u2 UO1 S1 SL B1 G1 Y)
    as (G2 & B2 & F2 & UO2).
  rewrite (proj2 R), (uo_ends n edges u (proj1 R)) in X.
  destruct (erasure_decode_ok n edges (complete_edges u2) syn WF) as (c & Z & _ & SE & _); auto.
  { intros i J. apply (cmp_lt n edges u2 i UO2). apply (complete_edges_spec n edges); auto. }
  rewrite Z in X. cbn [bindR] in X. injection X as <- <-.
  eapply (grown_end n edges WF w mw d HD E (bits syn) _ EX HB (counts mw u2)); eauto.
  intros i L Q. apply SE in Q. apply (complete_edges_spec n edges) in Q; auto.
  eapply cmp_needs in Q; eauto. unfold counts. lia.
Qed.

(** The decoder keeps the lengths of the edges. *)
Lemma uf_decode_fresh n edges fuel er syn u u' corr : well_formed n edges -> uready n edges u ->
  length syn = n -> (forall i, In i er -> i < length edges) ->
  uf_decode fuel er syn u = Ok (u', corr) -> fresh (u_grow u') = fresh (u_grow u).
Proof.
  intros WF [UO LV] LS LE X. unfold uf_decode, union_find in X.
  destruct (init_ok n edges WF er syn u (conj UO LV) LS LE) as (u1 & lab & H & I & UO1 & S1 & SL & C1 & _ & N1 & F1).
  rewrite I in X. cbn [bindR] in X. destruct (steps fuel u1) as [u2|] eqn:Y; [|discriminate]. cbn [bindR fst snd] in X.
  destruct (erasure_decode _ _ _ _) as [c|]; [|discriminate]. cbn [bindR] in X. injection X as <- <-.
  rewrite <- F1. clear -WF UO1 S1 SL Y.
  revert u1 lab H UO1 S1 SL Y. induction fuel as [|fuel IH]; intros u1 lab H UO1 S1 SL Y.
  - cbn in Y. destruct (u_open u1); [|discriminate]. injection Y as <-. auto.
  - cbn [steps] in Y. destruct (u_open u1); [injection Y as <-; auto|].
    destruct (step u1) as [u3|] eqn:Z; [|discriminate]. cbn [bindR] in Y.
    pose proof Z as Z0.
    destruct (step_ok n edges WF _ u1 lab H UO1 S1 SL) as [[Q _]|(u4 & lab2 & H2 & Q & UO2 & S2 & SL2 & _ & _ & u5 & RF & K)]; [congruence|].
    rewrite Z in Q. injection Q as <-. rewrite (IH u3 lab2 H2 UO2 S2 SL2 Y).
    destruct K as [[_ K]|(mn & k & new & K)]; [congruence|].
    pose proof S1 as [U0 _ _].
    destruct (refresh_ok n edges _ u1 lab H U0) as (u1' & R' & K1 & _). rewrite RF in R'. injection R' as <-.
    assert (UO5 : uobj n edges u5) by exact (uobj_keeps n edges u1 u5 UO1 K1).
    pose proof (grow_clusters_needs (u_adj u5) (u_clus u5) mn (u_open u5) (u_grow u5, 0, []) (u_grow u3, k, new) (uo_inc n edges u5 UO5) K) as (_ & _ & _ & A4). cbn [fst] in A4.
    rewrite A4. destruct K1 as (_ & _ & ->). auto.
Qed.
