(** The connected components found by [SyndromeGraph._init_conn_components]. *)
Require Import List Bool Arith ZArith QArith Lia Relations.
From Verif Require Import Base BaseProofs QSpec PauliModel MeasureProofs GraphSpec GraphProofs GraphComponents
  ErasureModel ErasureProofs SyngraphModel SyngraphBuild.
Import ListNotations.
Open Scope nat_scope.
Local Arguments incident : simpl never.
Local Arguments upd : simpl never.

(** Edges with at most two ends. *)
Definition small_edges (nv : nat) (E : list (list nat)) : Prop := forall e, In e E ->
  e = [] \/ (exists v, e = [v] /\ v < nv) \/ (exists u v, e = [u; v] /\ u <> v /\ u < nv /\ v < nv).

Section Comp.
Variables (nv : nat) (E : list (list nat)) (g0 : sgraph).
Hypothesis Hnv : length (sg_verts g0) = nv.
Hypothesis HE : sg_ends g0 = E.
Hypothesis Hve : sg_vedges g0 = map (at_vertex E) (seq 0 nv).
Hypothesis Hvn : sg_vneigh g0 = map (behind E) (seq 0 nv).
Hypothesis Hsm : small_edges nv E.
Hypothesis Hon : length (sg_on g0) = length E.
Notation key i := (nth i E []).
Notation on := (enabled g0).
Definition allowed (i : nat) : Prop := on i = true.

Definition mg (vc ec : list (option nat)) : sgraph := set_ecomp ec (set_vcomp vc g0).
Notation lab vc v := (nth v vc None).

Definition adj (u v : nat) : Prop := exists i, allowed i /\ (nth_error E i = Some [u; v] \/ nth_error E i = Some [v; u]).
Notation conn := (connected E allowed).

Lemma on_lt i : on i = true -> i < length E.
Proof.
  intros X. rewrite <- Hon. destruct (Nat.lt_ge_cases i (length (sg_on g0))); auto. unfold enabled in X.
  rewrite nth_overflow in X; [discriminate|auto].
Qed.

Lemma key_lt i v : In v (key i) -> v < nv.
Proof.
  intros I. destruct (Nat.lt_ge_cases i (length E)) as [L|L]; [|rewrite nth_overflow in I; [destruct I|auto]].
  destruct (Hsm (key i)) as [Y|[(w & Y & Z)|(a & b & Y & _ & Z1 & Z2)]]; [apply nth_In; auto|..]; rewrite Y in I; cbn in I.
  - destruct I.
  - destruct I as [<-|[]]; auto.
  - destruct I as [<-|[<-|[]]]; auto.
Qed.

Lemma adj_lt u v : adj u v -> u < nv /\ v < nv.
Proof.
  intros (i & A & X). assert (I : In u (key i) /\ In v (key i)).
  { destruct X as [X|X]; rewrite (nth_error_nth _ _ [] X); cbn; auto. }
  destruct I as [I J]. apply key_lt in I, J. auto.
Qed.

Lemma adj_sym u v : adj u v -> adj v u.
Proof. intros (i & A & [X|X]); exists i; auto. Qed.

Lemma two_ends i u v : on i = true -> In u (key i) -> In v (key i) -> u <> v -> adj u v.
Proof.
  intros A I J D. pose proof (on_lt i A) as L. exists i. split; auto.
  rewrite (nth_error_nth' _ [] L).
  destruct (Hsm (key i)) as [Y|[(w & Y & Z)|(a & b & Y & _ & Z1 & Z2)]]; [apply nth_In; auto|..];
    rewrite Y in *; cbn in I, J.
  - destruct I.
  - destruct I as [<-|[]], J as [<-|[]]; congruence.
  - destruct I as [<-|[<-|[]]], J as [<-|[<-|[]]]; auto; congruence.
Qed.

Lemma neighbours_spec u v : In v (map snd (filter (fun ev => on (fst ev)) (behind E u))) <-> adj u v.
Proof.
  rewrite in_map_iff. split.
  - intros ([i w] & X & I). cbn in X. subst w. apply filter_In in I. destruct I as [I A]. cbn in A.
    unfold behind in I. apply in_flat_map in I. destruct I as (j & J & I).
    apply in_map_iff in I. destruct I as (w & X & I). injection X as <- <-.
    unfold others in I. apply filter_In in I. destruct I as [I D]. apply negb_true_iff, Nat.eqb_neq in D.
    apply at_vertex_spec in J. apply two_ends with j; tauto || auto.
  - intros (i & A & X). exists (i, v). split; auto. apply filter_In. split; auto.
    pose proof (on_lt i A) as L. unfold behind. apply in_flat_map. exists i.
    assert (K : key i = [u; v] \/ key i = [v; u]).
    { destruct X as [X|X]; rewrite (nth_error_nth _ _ [] X); auto. }
    assert (D : u <> v).
    { destruct (Hsm (key i)) as [Y|[(w & Y & _)|(a & b & Y & D & _)]]; [apply nth_In; auto|..];
        destruct K as [K|K]; rewrite K in Y; try discriminate; injection Y as -> ->; auto. }
    split.
    + apply at_vertex_spec. split; auto. destruct K as [-> | ->]; cbn; auto.
    + apply in_map. apply filter_In. split; [destruct K as [-> | ->]; cbn; auto|].
      apply negb_true_iff, Nat.eqb_neq. auto.
Qed.

(** * The state while components are found *)

(** [c]: the current component; [P u v]: the edge from [u] to [v] has not been looked at. *)
Record inv (c k : nat) (P : nat -> nat -> Prop) (vc ec : list (option nat)) : Prop := mkInv {
  i_vlen : length vc = nv;
  i_elen : length ec = length E;
  i_edge : forall i c', nth i ec None = Some c' <-> on i = true /\ exists v, In v (key i) /\ lab vc v = Some c';
  i_closed : forall u v c', adj u v -> lab vc u = Some c' -> lab vc v = Some c' \/ (c' = c /\ P u v);
  i_conn : forall u v c', lab vc u = Some c' -> lab vc v = Some c' -> conn u v;
  i_bound : forall v c', lab vc v = Some c' -> c' < k;
  i_used : forall c', c' < k -> exists v, lab vc v = Some c'
}.

Lemma mark_edges c es : NoDup es -> forall ec, (forall i, In i es -> i < length ec) ->
  (forall i, In i es -> nth i ec None = None \/ nth i ec None = Some c) ->
  exists ec', foldR (mark_edge c) es ec = Ok ec' /\ length ec' = length ec /\
    forall i, nth i ec' None = if existsb (Nat.eqb i) es then Some c else nth i ec None.
Proof.
  intros N. induction es as [|e es IH]; intros ec B X; cbn [foldR].
  - exists ec. split; [auto|]. split; auto.
  - inversion N as [|? ? NI N']; subst.
    assert (Le : e < length ec) by (apply B; left; auto).
    assert (Y : exists ec1, mark_edge c ec e = Ok ec1 /\ length ec1 = length ec /\
              forall i, nth i ec1 None = if i =? e then Some c else nth i ec None).
    { unfold mark_edge. rewrite (get_nth _ _ None) by auto. cbn [bindR].
      destruct (X e) as [-> | Z]; [left; auto| |].
      - exists (upd e (Some c) ec). rewrite length_upd. split; [auto|]. split; [auto|]. intros i.
        rewrite nth_upd, Nat.eqb_sym. apply Nat.ltb_lt in Le. rewrite Le, andb_true_r. auto.
      - rewrite Z, Nat.eqb_refl. cbn. exists ec. split; [auto|]. split; [auto|]. intros i.
        destruct (Nat.eqb_spec i e) as [->|]; auto. }
    destruct Y as (ec1 & -> & L1 & Y). cbn [bindR].
    destruct (IH N' ec1) as (ec' & -> & L' & Z).
    + intros i I. rewrite L1. apply B. right; auto.
    + intros i I. rewrite Y. destruct (Nat.eqb_spec i e) as [->|]; [contradiction|]. apply X. right; auto.
    + exists ec'. split; [auto|]. split; [congruence|]. intros i. rewrite Z, Y. cbn [existsb].
      destruct (existsb _ es); [rewrite orb_true_r; auto|]. rewrite orb_false_r. auto.
Qed.

Lemma lab_upd (vc : list (option nat)) v c w : v < length vc -> lab (upd v (Some c) vc) w = if w =? v then Some c else lab vc w.
Proof. intros L. cbn. rewrite nth_upd, Nat.eqb_sym. apply Nat.ltb_lt in L. rewrite L, andb_true_r. auto. Qed.

Lemma mark_vertex_ok c k P vc ec v : inv c k P vc ec -> v < nv -> lab vc v = None ->
  (k = c /\ (forall u w, ~ P u w) \/ k = S c /\ exists p, adj p v /\ lab vc p = Some c) ->
  exists ec', mark_vertex c (mg vc ec) v = Ok (mg (upd v (Some c) vc) ec') /\
    inv c (S c) (fun u w => P u w \/ u = v) (upd v (Some c) vc) ec'.
Proof.
  intros I Lv Nv Hk. destruct I as [VL EL IE IC ICo IB IU].
  unfold mark_vertex. cbn [mg set_ecomp set_vcomp sg_vcomp sg_vedges sg_ecomp].
  rewrite (get_nth _ _ None) by lia. cbn [bindR]. cbn beta in Nv. rewrite Nv. cbn [assertR bindR].
  rewrite Hve, (get_nth _ _ []) by (rewrite map_length, seq_length; auto). cbn [bindR].
  rewrite nth_map_seq by auto.
  change (enabled (mg vc ec)) with on.
  destruct (mark_edges c (filter on (at_vertex E v))) with (ec := ec) as (ec' & -> & L' & X).
  - apply NoDup_filter. unfold at_vertex. apply NoDup_filter, seq_NoDup.
  - intros i Ii. apply filter_In in Ii. destruct Ii as [Ii _]. apply at_vertex_spec in Ii. lia.
  - intros i Ii. apply filter_In in Ii. destruct Ii as [Ii A]. apply at_vertex_spec in Ii. destruct Ii as [Li Ii].
    destruct (nth i ec None) as [c'|] eqn:Y; auto. right. f_equal. apply IE in Y. destruct Y as [_ (u & Iu & Hu)].
    assert (D : u <> v) by (intros ->; congruence).
    destruct (IC u v c') as [Z|[Z _]]; auto; [eapply two_ends; eauto|congruence].
  - cbn [bindR]. exists ec'. split; auto.
    assert (NP : forall u c', adj u v -> lab vc u = Some c' -> c' = c /\ P u v).
    { intros u c' A Hu. destruct (IC u v c' A Hu) as [Z|Z]; [congruence|auto]. }
    split.
    + rewrite length_upd. auto.
    + congruence.
    + intros i c'. rewrite X. destruct (existsb (Nat.eqb i) (filter on (at_vertex E v))) eqn:M.
      * apply existsb_exists in M. destruct M as (j & J & M). apply Nat.eqb_eq in M. subst j.
        apply filter_In in J. destruct J as [J A]. apply at_vertex_spec in J. destruct J as [Li J].
        split.
        -- intros Z. injection Z as <-. split; auto. exists v. split; auto.
           rewrite lab_upd by lia. rewrite Nat.eqb_refl. auto.
        -- intros [_ (u & Iu & Hu)]. rewrite lab_upd in Hu by lia. destruct (Nat.eqb_spec u v) as [->|D]; auto.
           destruct (NP u c') as [-> _]; auto. eapply two_ends; eauto.
      * rewrite IE. split; intros [A (u & Iu & Hu)]; split; auto; exists u; split; auto.
        -- rewrite lab_upd by lia. destruct (Nat.eqb_spec u v) as [->|]; auto. congruence.
        -- rewrite lab_upd in Hu by lia. destruct (Nat.eqb_spec u v) as [->|]; auto.
           exfalso. assert (Z : existsb (Nat.eqb i) (filter on (at_vertex E v)) = true); [|congruence].
           apply existsb_exists. exists i. split; [|apply Nat.eqb_refl]. apply filter_In. split; auto.
           apply at_vertex_spec. split; auto. apply on_lt; auto.
    + intros u w c' A. rewrite !lab_upd by lia. destruct (Nat.eqb_spec u v) as [->|D].
      * intros Z. injection Z as <-. destruct (w =? v); auto.
      * intros Hu. destruct (Nat.eqb_spec w v) as [->|D'].
        -- destruct (NP u c' A Hu) as [-> _]. auto.
        -- destruct (IC u w c' A Hu) as [Z|[-> Z]]; auto.
    + intros u w c'. rewrite !lab_upd by lia.
      assert (K : forall x, lab vc x = Some c -> conn x v).
      { intros x Hx. destruct Hk as [[-> _]|[-> (p & A & Hp)]].
        - apply IB in Hx. lia.
        - eapply rt_trans; [apply (ICo x p c); auto|]. apply rt_step. exact A. }
      destruct (Nat.eqb_spec u v) as [->|D], (Nat.eqb_spec w v) as [->|D'].
      * intros _ _. apply rt_refl.
      * intros Z. injection Z as <-. intros Hw. apply connected_sym, K; auto.
      * intros Hu Z. injection Z as <-. apply K; auto.
      * apply ICo.
    + intros u c'. rewrite lab_upd by lia. destruct (u =? v).
      * intros Z. injection Z as <-. lia.
      * intros Z. apply IB in Z. destruct Hk as [[-> _]|[-> _]]; lia.
    + intros c' L. destruct (Nat.eq_dec c' c) as [->|D].
      * exists v. rewrite lab_upd by lia. rewrite Nat.eqb_refl. auto.
      * destruct (IU c') as (u & Hu); [destruct Hk as [[-> _]|[-> _]]; lia|].
        exists u. rewrite lab_upd by lia. destruct (Nat.eqb_spec u v) as [->|]; auto. congruence.
Qed.

(** Vertices without component. *)
Definition unl (vc : list (option nat)) : nat := length (filter (fun x => match x with None => true | _ => false end) vc).

Lemma unl_upd vc : forall v c, v < length vc -> nth v vc None = None -> S (unl (upd v (Some c) vc)) = unl vc.
Proof.
  induction vc as [|x vc IH]; intros [|v] c L X; cbn in L; try lia.
  - cbn in X. subst x. reflexivity.
  - cbn in X. change (upd (S v) (Some c) (x :: vc)) with (x :: upd v (Some c) vc). unfold unl in *. cbn [filter].
    destruct x; cbn [length]; [|f_equal]; apply IH; lia || auto.
Qed.

Lemma unl_le vc : unl vc <= length vc.
Proof. unfold unl. induction vc as [|[x|] vc IH]; cbn; lia. Qed.

Lemma inv_weaken c k (P P' : nat -> nat -> Prop) vc ec : (forall u w, P u w -> adj u w -> P' u w) ->
  inv c k P vc ec -> inv c k P' vc ec.
Proof.
  intros H [VL EL IE IC ICo IB IU]. split; auto. intros u v c' A Hu.
  destruct (IC u v c' A Hu) as [Z|[-> Z]]; auto.
Qed.

Lemma visits_ok c p ws : forall vc ec todo,
  inv c (S c) (fun u w => In u todo \/ u = p /\ In w ws) vc ec ->
  (forall w, In w ws -> adj p w) -> lab vc p = Some c -> (forall u, In u todo -> lab vc u = Some c) ->
  exists vc' ec' todo', foldR (visit c) ws (mg vc ec, todo) = Ok (mg vc' ec', todo') /\
    inv c (S c) (fun u w => In u todo') vc' ec' /\ (forall u, In u todo' -> lab vc' u = Some c) /\
    unl vc' + length todo' = unl vc + length todo /\
    (forall v c', lab vc v = Some c' -> lab vc' v = Some c').
Proof.
  induction ws as [|w ws IH]; intros vc ec todo I Hw Hp Ht; cbn [foldR].
  - exists vc, ec, todo. split; [auto|]. split; [|auto]. eapply inv_weaken; [|eauto]. intros u w [Z|[_ []]] _; auto.
  - assert (A : adj p w) by (apply Hw; left; auto). destruct (adj_lt _ _ A) as [_ Lw].
    unfold visit at 1. cbn [fst snd mg set_ecomp set_vcomp sg_vcomp].
    rewrite (get_nth _ _ None) by (rewrite (i_vlen _ _ _ _ _ I); auto). cbn [bindR].
    destruct (nth w vc None) as [c'|] eqn:X.
    + assert (c' = c) as ->.
      { destruct (i_closed _ _ _ _ _ I w p c') as [Z|[Z _]]; auto; [apply adj_sym; auto|congruence]. }
      rewrite Nat.eqb_refl. cbn [assertR bindR].
      destruct (IH vc ec todo) as (vc' & ec' & todo' & E1 & Z); auto.
      * destruct I as [VL EL IE IC ICo IB IU]. split; auto. intros u v c' A' Hu.
        destruct (IC u v c' A' Hu) as [Z|[-> [Z|[-> [<-|Z]]]]]; auto.
      * intros; apply Hw; right; auto.
      * exists vc', ec', todo'. split; auto.
    + destruct (mark_vertex_ok c (S c) _ vc ec w I Lw X) as (ec1 & M & I1).
      { right. split; auto. exists p. auto. }
      change (set_ecomp ec (set_vcomp vc g0)) with (mg vc ec). rewrite M. cbn [bindR].
      assert (Lw' : w < length vc) by (rewrite (i_vlen _ _ _ _ _ I); auto).
      assert (K : forall v c', lab vc v = Some c' -> lab (upd w (Some c) vc) v = Some c').
      { intros v c' Hv. rewrite lab_upd by auto. destruct (Nat.eqb_spec v w) as [->|]; auto. congruence. }
      destruct (IH (upd w (Some c) vc) ec1 (todo ++ [w])) as (vc' & ec' & todo' & E1 & I' & Ht' & U & Mo).
      * destruct I1 as [VL EL IE IC ICo IB IU]. split; auto. intros u v c' A' Hu.
        destruct (IC u v c' A' Hu) as [Z|[-> [[Z|[-> [<-|Z]]]| ->]]]; auto.
        -- right. split; auto. left. apply in_or_app; auto.
        -- left. rewrite lab_upd by auto. rewrite Nat.eqb_refl. auto.
        -- right. split; auto. left. apply in_or_app; right; left; auto.
      * intros; apply Hw; right; auto.
      * apply K; auto.
      * intros u Iu. apply in_app_or in Iu. destruct Iu as [Iu|[<-|[]]]; [apply K; auto|].
        rewrite lab_upd by auto. rewrite Nat.eqb_refl. auto.
      * exists vc', ec', todo'. split; [auto|]. split; [auto|]. split; [auto|]. split.
        -- rewrite U, app_length. pose proof (unl_upd vc w c Lw' X). cbn. lia.
        -- intros; apply Mo, K; auto.
Qed.

Lemma explore_ok c fuel : forall vc ec todo, inv c (S c) (fun u w => In u todo) vc ec ->
  (forall u, In u todo -> lab vc u = Some c) -> unl vc + length todo <= fuel ->
  exists vc' ec', explore_component fuel c (mg vc ec) todo = Ok (mg vc' ec') /\
    inv c (S c) (fun u w => False) vc' ec' /\ (forall v c', lab vc v = Some c' -> lab vc' v = Some c').
Proof.
  induction fuel as [|fuel IH]; intros vc ec todo I Ht F; cbn [explore_component].
  - destruct todo; [|cbn in F; lia]. cbn. exists vc, ec. auto.
  - destruct (rev todo) as [|p rest] eqn:R.
    + assert (todo = []) as -> by (rewrite <- (rev_involutive todo), R; auto).
      exists vc, ec. auto.
    + assert (T : todo = rev rest ++ [p]) by (rewrite <- (rev_involutive todo), R; auto).
      assert (Hp : lab vc p = Some c) by (apply Ht; rewrite T; apply in_or_app; right; left; auto).
      assert (Lp : p < nv).
      { rewrite <- (i_vlen _ _ _ _ _ I). destruct (Nat.lt_ge_cases p (length vc)); auto.
        cbn in Hp. rewrite nth_overflow in Hp; [discriminate|auto]. }
      cbn [mg set_ecomp set_vcomp sg_vneigh]. rewrite Hvn.
      rewrite (get_nth _ _ []) by (rewrite map_length, seq_length; auto). cbn [bindR].
      rewrite nth_map_seq by auto.
      change (set_ecomp ec (set_vcomp vc g0)) with (mg vc ec). change (enabled (mg vc ec)) with on.
      destruct (visits_ok c p (map snd (filter (fun ev => on (fst ev)) (behind E p))) vc ec (rev rest))
        as (vc1 & ec1 & todo1 & -> & I1 & Ht1 & U1 & M1).
      * eapply inv_weaken; [|eauto]. cbn. intros u w Iu A. rewrite T in Iu. apply in_app_or in Iu.
        destruct Iu as [Iu|[<-|[]]]; auto. right. split; auto. apply neighbours_spec; auto.
      * intros w. apply neighbours_spec.
      * auto.
      * intros u Iu. apply Ht. rewrite T. apply in_or_app; auto.
      * cbn [bindR fst snd]. destruct (IH vc1 ec1 todo1) as (vc2 & ec2 & -> & I2 & M2); auto.
        -- rewrite U1. rewrite T, app_length in F. cbn in F. lia.
        -- exists vc2, ec2. split; [auto|]. split; auto.
Qed.

Definition done (c : nat) := inv c c (fun _ _ => False).

Lemma find_component_ok c vc ec v : done c vc ec -> v < nv -> lab vc v = None ->
  exists vc' ec', find_component (mg vc ec) v c = Ok (mg vc' ec') /\ done (S c) vc' ec' /\
    (forall w c', lab vc w = Some c' -> lab vc' w = Some c') /\ lab vc' v <> None.
Proof.
  intros I Lv Nv. unfold find_component.
  destruct (mark_vertex_ok c c _ vc ec v I Lv Nv) as (ec1 & -> & I1).
  { left. split; auto. }
  cbn [bindR]. change (length (sg_verts (mg vc ec))) with (length (sg_verts g0)). rewrite Hnv.
  assert (Lv' : v < length vc) by (rewrite (i_vlen _ _ _ _ _ I); auto).
  destruct (explore_ok c nv (upd v (Some c) vc) ec1 [v]) as (vc' & ec' & -> & I' & M).
  - eapply inv_weaken; [|eauto]. cbn. intros u w [[]|Z] _. auto.
  - intros u [<-|[]]. rewrite lab_upd by auto. rewrite Nat.eqb_refl. auto.
  - pose proof (unl_upd vc v c Lv' Nv). pose proof (unl_le vc). rewrite (i_vlen _ _ _ _ _ I) in *. cbn. lia.
  - exists vc', ec'. split; [auto|]. split; [|split].
    + destruct I' as [VL EL IE IC ICo IB IU]. split; auto. intros u w c' A Hu.
      destruct (IC u w c' A Hu) as [Z|[_ []]]; auto.
    + intros w c' Hw. apply M. rewrite lab_upd by auto. destruct (Nat.eqb_spec w v) as [->|]; auto. congruence.
    + rewrite (M v c); [discriminate|]. rewrite lab_upd by auto. rewrite Nat.eqb_refl. auto.
Qed.

Lemma done_0 : done 0 (repeat None nv) (repeat None (length E)).
Proof.
  assert (X : forall k v, nth v (repeat (@None nat) k) None = None).
  { intros k v. destruct (Nat.lt_ge_cases v k); [apply nth_repeat_lt; auto|apply nth_overflow; rewrite repeat_length; auto]. }
  split; cbn beta; try (rewrite repeat_length; auto); intros; rewrite ?X in *; try discriminate; try lia.
  split; [discriminate|]. intros [_ (v & _ & Z)]. rewrite X in Z. discriminate.
Qed.

Lemma find_components_ok : sg_vcomp g0 = repeat None nv -> sg_ecomp g0 = repeat None (length E) ->
  exists vc ec k, find_components g0 = Ok (mg vc ec, k) /\ done k vc ec /\ forall v, v < nv -> lab vc v <> None.
Proof.
  intros HV HC. unfold find_components.
  assert (G : forall vs vc ec k, (forall v, In v vs -> v < nv) -> done k vc ec ->
    exists vc' ec' k', foldR (fun (s : sgraph * nat) v => do x <- get (sg_vcomp (fst s)) v;
           match x with Some _ => Ok s | None => do g <- find_component (fst s) v (snd s); Ok (g, S (snd s)) end)
      vs (mg vc ec, k) = Ok (mg vc' ec', k') /\ done k' vc' ec' /\
      (forall w c', lab vc w = Some c' -> lab vc' w = Some c') /\ forall v, In v vs -> lab vc' v <> None).
  { induction vs as [|v vs IH]; intros vc ec k B D; cbn [foldR].
    - exists vc, ec, k. split; [auto|]. split; [auto|]. split; [auto|]. intros ? [].
    - assert (Lv : v < nv) by (apply B; left; auto). cbn [fst snd mg set_ecomp set_vcomp sg_vcomp].
      rewrite (get_nth _ _ None) by (rewrite (i_vlen _ _ _ _ _ D); auto). cbn [bindR].
      change (set_ecomp ec (set_vcomp vc g0)) with (mg vc ec).
      destruct (nth v vc None) as [c|] eqn:X.
      + cbn [bindR]. destruct (IH vc ec k) as (vc' & ec' & k' & -> & D' & M & A); auto.
        { intros; apply B; right; auto. }
        exists vc', ec', k'. split; [auto|]. split; [auto|]. split; [auto|].
        intros w [<-|I]; auto. rewrite (M v c X). discriminate.
      + destruct (find_component_ok k vc ec v D Lv X) as (vc1 & ec1 & -> & D1 & M1 & A1). cbn [bindR].
        destruct (IH vc1 ec1 (S k)) as (vc' & ec' & k' & -> & D' & M & A); auto.
        { intros; apply B; right; auto. }
        exists vc', ec', k'. split; [auto|]. split; [auto|]. split; [auto|].
        intros w [<-|I]; auto. destruct (nth v vc1 None) as [c|] eqn:Y; [|congruence]. rewrite (M v c Y). discriminate. }
  destruct (G (seq 0 nv) (repeat None nv) (repeat None (length E)) 0) as (vc & ec & k & X & D & _ & A).
  - intros v I. apply in_seq in I. lia.
  - apply done_0.
  - exists vc, ec, k. split.
    + rewrite Hnv. replace (mg (repeat None nv) (repeat None (length E))) with g0 in X; [exact X|].
      unfold mg. rewrite <- HV, <- HC. destruct g0; reflexivity.
    + split; auto. intros v L. apply A, in_seq. lia.
Qed.

(** What the labels mean. *)
Lemma done_labels k vc ec : done k vc ec -> (forall v, v < nv -> lab vc v <> None) ->
  forall u v, u < nv -> v < nv -> (lab vc u = lab vc v <-> conn u v).
Proof.
  intros D A u v Lu Lv. split.
  - intros X. destruct (nth u vc None) as [c|] eqn:Y; [|exfalso; apply (A u Lu); auto].
    eapply (i_conn _ _ _ _ _ D); [exact Y|]. cbn in *. congruence.
  - intros C. assert (G : forall c, lab vc u = Some c -> lab vc v = Some c).
    { clear -C D Hsm Hon. induction C as [u v Z|u|u w v _ IH1 _ IH2]; auto.
      intros c X. destruct (i_closed _ _ _ _ _ D u v c Z X) as [Y|[_ []]]; auto. }
    cbn in *. destruct (nth u vc None) as [c|] eqn:Y; [|exfalso; apply (A u Lu); auto]. symmetry. auto.
Qed.
End Comp.
