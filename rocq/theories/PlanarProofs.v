(** The planar code for every size. *)
Require Import List Bool Arith ZArith Lia String Permutation.
From Verif Require Import Base BaseProofs QSpec PauliModel PauliSem PauliProofs PauliAlg LatticeModel CodesModel CodesSpec LatticeSpec LatticeProofs LatticeEdit LatticeOps BuildProofs CodesProofs.
Import ListNotations.
Local Open Scope nat_scope.
Local Open Scope list_scope.
Ltac Zify.zify_post_hook ::= Z.to_euclidean_division_equations.
Local Opaque Z.mul Z.add Z.sub.

Definition pkind (i j : Z) : kind := if (i mod 2 =? j mod 2)%Z then KData else if (j mod 2 =? 0)%Z then KStab GA else KStab GB.
Definition pgrid (d : Z) : list (kind * pos) := flat_map (fun i => flat_map (fun j => [(pkind i j, (i, j))]) (zrange 0 (2 * d - 1) 1)) (zrange 0 (2 * d - 1) 1).
Definition pT (d : Z) (s : nat) (p : pos) (g : group) : list (nat * pos * factor) :=
  flat_map (fun x : pos => if ((fst p + fst x <? 0) || (snd p + snd x <? 0) || (2 * d - 2 <? fst p + fst x) || (2 * d - 2 <? snd p + snd x))%Z then []
                     else [(s, (fst p + fst x, snd p + snd x)%Z, group_factor g)]) cross.
Definition plog (d : Z) : list (kind * pos) := [(KLogical "X", (2 * d - 1, d - 1)%Z); (KLogical "Z", (d - 1, 2 * d - 1)%Z)].
Definition pvs d := pgrid d ++ plog d.
Definition pL (d : Z) : list (nat * pos * factor) :=
  flat_map (fun i => [(List.length (pgrid d), (2 * d - 2, 2 * i)%Z, FX); (S (List.length (pgrid d)), (2 * i, 2 * d - 2)%Z, FZ)]) (zrange 0 d 1).
Definition pes d := flat_map (stab_edges (pT d)) (numbered (pgrid d)) ++ pL d.

Lemma in_pgrid d k i j : In (k, (i, j)) (pgrid d) <-> (0 <= i <= 2 * d - 2 /\ 0 <= j <= 2 * d - 2)%Z /\ k = pkind i j.
Proof.
  unfold pgrid. rewrite in_flat_map. split.
  - intros (i' & I & J). apply in_flat_map in J as (j' & J & [E|[]]). injection E as <- <- <-. rewrite in_zrange in I, J by lia. split; auto. lia.
  - intros [[A B] ->]. exists i. rewrite in_zrange by lia. split. { lia. } apply in_flat_map. exists j. rewrite in_zrange by lia. split. { lia. } left; auto.
Qed.
Lemma nodup_pgrid d : NoDup (map snd (pgrid d)).
Proof.
  apply nodup_flat_map.
  - apply nodup_zrange. lia.
  - intros i I. apply nodup_flat_map.
    + apply nodup_zrange; lia.
    + intros. cbn. constructor; auto. constructor.
    + intros x y a b _ _ [<-|[]] [<-|[]] E. cbn in E. congruence.
  - intros x y a b _ _ A B E. apply in_flat_map in A as (j & _ & [<-|[]]). apply in_flat_map in B as (j' & _ & [<-|[]]). cbn in E. congruence.
Qed.
Lemma nodup_pvs d : (2 <= d)%Z -> NoDup (map snd (pvs d)).
Proof.
  intros D. unfold pvs. rewrite map_app. apply NoDup_app3. apply nodup_pgrid.
  - cbn [map plog snd]. constructor. intros [E|[]]. injection E as E1 E2. lia. constructor; auto. constructor.
  - intros p I J. apply in_map_iff in I as ([k [i j]] & <- & I). apply in_pgrid in I. cbn [map plog snd In] in J. destruct J as [E|[E|[]]]; injection E as E1 E2; lia.
Qed.
Definition cadj (q p : pos) : Prop := (Z.abs (fst p - fst q) + Z.abs (snd p - snd q) = 1)%Z.
Definition pbox (d : Z) (p : pos) : Prop := (0 <= fst p <= 2 * d - 2 /\ 0 <= snd p <= 2 * d - 2)%Z.
Lemma in_pT d s q g t : In t (pT d s q g) <-> exists p, t = (s, p, group_factor g) /\ cadj q p /\ pbox d p.
Proof.
  unfold pT. rewrite in_flat_map. split.
  - intros (x & I & J). destruct ((fst q + fst x <? 0) || (snd q + snd x <? 0) || (2 * d - 2 <? fst q + fst x) || (2 * d - 2 <? snd q + snd x))%Z eqn:C; [destruct J|].
    destruct J as [<-|[]]. eexists; split; [reflexivity|]. unfold cadj, pbox. cbn [fst snd]. cbn in I. destruct I as [<-|[<-|[<-|[<-|[]]]]]; cbn [fst snd] in *; lia.
  - intros (p & -> & A & B). unfold cadj, pbox in *. exists (fst p - fst q, snd p - snd q)%Z. split.
    + cbn. destruct p as [a b], q as [a' b']; cbn [fst snd] in *. assert ((a - a' = 0 /\ b - b' = 1) \/ (a - a' = 0 /\ b - b' = -1) \/ (a - a' = 1 /\ b - b' = 0) \/ (a - a' = -1 /\ b - b' = 0))%Z by lia.
      destruct H as [[-> ->]|[[-> ->]|[[-> ->]|[-> ->]]]]; auto.
    + cbn [fst snd]. replace (_ || _) with false by lia. left. destruct p as [a b]. cbn [fst snd] in *. do 2 f_equal. f_equal; lia.
Qed.
Lemma nodup_pT d s q g : NoDup (map fst (pT d s q g)).
Proof.
  unfold pT. apply nodup_flat_map.
  - repeat constructor; cbn; intuition congruence.
  - intros x _. destruct (_ || _); cbn; repeat constructor; auto.
  - intros x y a b _ _ A B E. destruct (_ || _) in A; [destruct A|]. destruct (_ || _) in B; [destruct B|]. destruct A as [<-|[]], B as [<-|[]]. cbn in E. destruct x, y; cbn in E. injection E. intros. f_equal; lia.
Qed.
Lemma in_pL d o p f : In (o, p, f) (pL d) <-> exists i, (0 <= i < d)%Z /\ ((o = List.length (pgrid d) /\ p = (2 * d - 2, 2 * i)%Z /\ f = FX) \/ (o = S (List.length (pgrid d)) /\ p = (2 * i, 2 * d - 2)%Z /\ f = FZ)).
Proof.
  unfold pL. rewrite in_flat_map. split.
  - intros (i & I & J). rewrite in_zrange in I by lia. exists i. split. lia. destruct J as [E|[E|[]]]; injection E as <- <- <-; auto.
  - intros (i & I & J). exists i. rewrite in_zrange by lia. split. split; lia. cbn. destruct J as [(-> & -> & ->)|(-> & -> & ->)]; auto.
Qed.
Lemma nodup_pes d : NoDup (map fst (pes d)).
Proof.
  unfold pes. rewrite map_app. apply NoDup_app3.
  - apply nodup_stab_edges. intros i p g t I. apply in_pT in I as (? & -> & _). auto. apply nodup_pT.
  - unfold pL. apply nodup_flat_map. apply nodup_zrange; lia.
    + intros i _. cbn. constructor; [|constructor; auto; constructor]. intros [E|[]]. injection E as E _ _. lia.
    + intros x y a b _ _ [<-|[<-|[]]] [<-|[<-|[]]] E; cbn in E; injection E; lia.
  - intros [o p] I J. apply in_map_iff in I as (t & E & I). apply in_stab_edges in I as (i & g & q & Q & I). apply in_pT in I as (p' & -> & _). cbn in E. injection E as -> ->.
    apply in_map_iff in J as ([[o' p''] f] & E & J). cbn in E. injection E as -> ->. apply in_pL in J as (x & _ & J).
    assert (o < List.length (pgrid d)) by (apply nth_error_Some; congruence). lia.
Qed.
Lemma pvs_logical d : nth_error (pvs d) (List.length (pgrid d)) = Some (KLogical "X", (2 * d - 1, d - 1)%Z) /\ nth_error (pvs d) (S (List.length (pgrid d))) = Some (KLogical "Z", (d - 1, 2 * d - 1)%Z).
Proof. unfold pvs. rewrite !nth_error_app2 by lia. rewrite Nat.sub_diag, Nat.sub_succ_l, Nat.sub_diag by lia. auto. Qed.
Lemma pvs_stab d o g q : nth_error (pvs d) o = Some (KStab g, q) <-> nth_error (pgrid d) o = Some (KStab g, q).
Proof.
  unfold pvs. destruct (Nat.ltb_spec o (List.length (pgrid d))).
  - rewrite nth_error_app1 by auto. tauto.
  - rewrite nth_error_app2 by auto. assert (nth_error (pgrid d) o = None) by (apply nth_error_None; auto). rewrite H0. split; [|discriminate].
    destruct (o - List.length (pgrid d)) as [|[|[]]]; discriminate.
Qed.
Lemma in_pdata d i j : In (KData, (i, j)) (pvs d) <-> (pbox d (i, j) /\ i mod 2 = j mod 2)%Z.
Proof.
  unfold pvs, pbox. rewrite in_app_iff, in_pgrid. cbn [fst snd]. unfold pkind. split.
  - intros [[A B]|[E|[E|[]]]]; try discriminate. split; auto. destruct (Z.eqb_spec (i mod 2) (j mod 2)); auto. destruct (_ =? _)%Z; discriminate.
  - intros [A B]. left. split; auto. rewrite B, Z.eqb_refl. auto.
Qed.
Lemma pstab_pos d o g i j : nth_error (pvs d) o = Some (KStab g, (i, j)) -> (pbox d (i, j) /\ i mod 2 <> j mod 2 /\ (g = GA /\ j mod 2 = 0 \/ g = GB /\ j mod 2 = 1))%Z.
Proof.
  intros E. apply pvs_stab in E. apply nth_error_In in E. apply in_pgrid in E as [A B]. split; auto. unfold pkind in B.
  destruct (Z.eqb_spec (i mod 2) (j mod 2)); [discriminate|]. split; auto. destruct (Z.eqb_spec (j mod 2) 0); injection B as ->; [left|right]; split; auto. lia.
Qed.

(** The construction succeeds. *)
Lemma planar_built d order : (2 <= d)%Z -> (forall x, In x cross -> In x order) ->
  exists l, planar_lattice d order = Ok l /\ built (2 * d, 2 * d)%Z (pvs d) (pes d) l /\ indexed l /\
    (forall e, In e (l_edges l) -> forall g q, nth_error (pvs d) (e_op e) = Some (KStab g, q) -> e_time e = index_of (displacement q (v_pos (l_heap l (e_data e)))) order) /\
    l_steps l = Some (List.length order).
Proof.
  intros D O. unfold planar_lattice, construct. destruct (built_empty (2 * d, 2 * d)%Z) as (l0 & -> & B0); cbn [fst snd]; try lia. cbn [bindR].
  unfold planar_body. cbv zeta.
  assert (A1 : adds (forE (fun i => forE (fun j => if (i mod 2 =? j mod 2)%Z then add_data (i, j) else if (j mod 2 =? 0)%Z then add_stabgen (i, j) GA else add_stabgen (i, j) GB) (zrange 0 (2 * d - 1) 1)) (zrange 0 (2 * d - 1) 1)) (pgrid d)).
  { apply adds_for. intros i _. apply adds_for. intros j _. unfold pkind. destruct (i mod 2 =? j mod 2)%Z; [|destruct (j mod 2 =? 0)%Z]; apply adds_one. }
  assert (I1 : forall w, In w (pgrid d) -> inside (2 * d, 2 * d)%Z (snd w)). { intros [k [i j]] I. apply in_pgrid in I. unfold inside. cbn [fst snd]. lia. }
  destruct (A1 (2 * d, 2 * d)%Z [] []) with (l := l0) as (l1 & E1 & B1); auto. apply nodup_pgrid. cbn [app] in B1.
  rewrite (seq_step _ _ _ l1 E1).
  assert (okey0 : forall t, In t (pes d) -> okey (pvs d) t).
  { intros [[o p] f] I. unfold pes in I. apply in_app_iff in I as [I|I].
    - apply in_stab_edges in I as (i & g & [qi qj] & Q & I). apply in_pT in I as ([pi pj] & E & A & B). injection E as -> -> ->. apply pvs_stab in Q.
      split. 2: { exists (KStab g), (qi, qj). split; auto; discriminate. } cbn [fst snd]. apply in_pdata. split; auto. apply pstab_pos in Q. unfold cadj in A. cbn [fst snd] in *. lia.
    - apply in_pL in I as (i & I & J). destruct (pvs_logical d) as [X Z]. destruct J as [(-> & -> & ->)|(-> & -> & ->)]; split; cbn [fst snd].
      + apply in_pdata. unfold pbox. cbn [fst snd]. lia.
      + eexists _, _. split; eauto; discriminate.
      + apply in_pdata. unfold pbox. cbn [fst snd]. lia.
      + eexists _, _. split; eauto; discriminate. }
  set (es0 := flat_map (stab_edges (pT d)) (numbered (pgrid d))) in *.
  assert (D1 : draws (pgrid d) (for_stabs (fun s p g => forE (fun x => if ((fst p + fst x <? 0) || (snd p + snd x <? 0) || (2 * d - 2 <? fst p + fst x) || (2 * d - 2 <? snd p + snd x))%Z then skip else edge_to (fst p + fst x, snd p + snd x)%Z s (group_factor g)) cross)) es0).
  { apply draws_for_stabs. intros i g p _. apply draws_for. intros x _. apply draws_if. apply draws_skip. apply draws_one. }
  destruct (D1 (2 * d, 2 * d)%Z []) with (l := l1) as (l2 & E2 & B2); auto.
  { intros [[o p] f] I. apply in_stab_edges in I as (i & g & [qi qj] & Q & I). apply in_pT in I as ([pi pj] & E & A & B). injection E as -> -> ->.
    split. 2: { exists (KStab g), (qi, qj). split; auto; discriminate. } cbn [fst snd]. apply in_pgrid. pose proof (proj2 (pvs_stab d i g (qi, qj)) Q) as Q'. apply pstab_pos in Q'. unfold cadj in A. cbn [fst snd] in *.
    split; auto. unfold pkind. replace (pi mod 2 =? pj mod 2)%Z with true by lia. auto. }
  { pose proof (nodup_pes d) as N. unfold pes in N. fold es0 in N. rewrite map_app in N. apply nodup_app_l in N. auto. }
  cbn [app] in B2. rewrite (seq_step _ _ _ l2 E2).
  destruct (built_add _ _ _ _ (KLogical "X") (2 * d - 2 + 1, d - 1)%Z B2) as (l3 & E3 & B3).
  { intros I. apply in_map_iff in I as ([k [i j]] & E & I). apply in_pgrid in I. cbn [snd] in E. injection E as F1 F2. lia. }
  { unfold inside. cbn [fst snd]. lia. }
  unfold with_logical at 1. unfold add_logical at 1. rewrite (seq_step _ _ _ l3 E3). rewrite (b_next _ _ _ _ B2).
  destruct (built_add _ _ _ _ (KLogical "Z") (d - 1, 2 * d - 2 + 1)%Z B3) as (l4 & E4 & B4).
  { rewrite map_app, in_app_iff. intros [I|[E|[]]]. apply in_map_iff in I as ([k [i j]] & E & I). apply in_pgrid in I. cbn [snd] in E. injection E as F1 F2. lia. cbn [snd] in E. injection E as F1 F2. lia. }
  { unfold inside. cbn [fst snd]. lia. }
  unfold with_logical at 1. unfold add_logical at 1. rewrite (seq_step _ _ _ l4 E4). rewrite (b_next _ _ _ _ B3), app_length. cbn [List.length].
  rewrite Nat.add_1_r. rewrite <- app_assoc in B4. cbn [app] in B4. replace (2 * d - 2 + 1)%Z with (2 * d - 1)%Z in B4 by lia. fold (plog d) in B4. fold (pvs d) in B4.
  assert (D2 : draws (pvs d) (forE (fun i => edge_to (2 * d - 2, 2 * i)%Z (List.length (pgrid d)) FX ;; edge_to (2 * i, 2 * d - 2)%Z (S (List.length (pgrid d))) FZ) (zrange 0 d 1)) (pL d)).
  { apply draws_for. intros i _. apply (draws_seq (pvs d) _ _ [_] [_]); apply draws_one. }
  destruct (D2 (2 * d, 2 * d)%Z es0) with (l := l4) as (l5 & E5 & B5); auto.
  { intros t I. apply okey0. apply in_app_iff. auto. }
  { apply nodup_pes. }
  rewrite (seq_step _ _ _ l5 E5). fold (pes d) in B5.
  destruct (runs_order _ _ _ _ order B5) as (l6 & E6 & B6 & T6 & S6).
  { intros o p f g q I Q. unfold pes in I. apply in_app_iff in I as [I|I].
    - apply in_stab_edges in I as (i & g' & q' & Q' & I). apply in_pT in I as (p' & E & A & B). injection E as -> -> ->. apply pvs_stab in Q. rewrite Q in Q'. injection Q' as <- <-.
      assert (X : In (displacement q p') cross).
      { unfold displacement, periodic, cadj in *. replace (1 <? Z.abs (fst p' - fst q))%Z with false by lia. replace (1 <? Z.abs (snd p' - snd q))%Z with false by lia. cbn.
        assert ((fst p' - fst q = 0 /\ snd p' - snd q = 1) \/ (fst p' - fst q = 0 /\ snd p' - snd q = -1) \/ (fst p' - fst q = 1 /\ snd p' - snd q = 0) \/ (fst p' - fst q = -1 /\ snd p' - snd q = 0))%Z by lia.
        destruct H as [[-> ->]|[[-> ->]|[[-> ->]|[-> ->]]]]; auto. }
      apply O in X. clear -X. induction order as [|y r IH]; [destruct X|]. cbn. destruct (pos_eqb (displacement q p') y) eqn:E; [eauto|].
      destruct X as [->|X]. rewrite (proj2 (pos_eqb_eq _ _) eq_refl) in E; discriminate. destruct (IH X) as [t ->]. cbn. eauto.
    - exfalso. apply in_pL in I as (i & I & J). destruct (pvs_logical d) as [X Z]. destruct J as [(-> & -> & ->)|(-> & -> & ->)]; congruence. }
  rewrite (seq_step _ _ _ l6 E6). destruct (runs_indices _ _ _ _ B6) as (B7 & X7 & Ed7). exists (assign_indices l6). unfold modify. split; auto. split; auto. split; auto.
  destruct (assign_indices_spec l6 (b_cons _ _ _ _ B6)) as (_ & R & _). split.
  - intros e I g q Q. rewrite (rn_pos _ _ R). apply (T6 e) with (g := g); auto. rewrite <- Ed7; auto.
  - rewrite (rn_steps _ _ R). auto.
Qed.

(** * The operators *)
Definition cadjb (q p : pos) : bool := (Z.abs (fst p - fst q) + Z.abs (snd p - snd q) =? 1)%Z.
Lemma in_pes d o p f : In (o, p, f) (pes d) <->
  (exists g q, nth_error (pvs d) o = Some (KStab g, q) /\ cadj q p /\ pbox d p /\ f = group_factor g) \/
  (exists i, (0 <= i < d)%Z /\ ((o = List.length (pgrid d) /\ p = (2 * d - 2, 2 * i)%Z /\ f = FX) \/ (o = S (List.length (pgrid d)) /\ p = (2 * i, 2 * d - 2)%Z /\ f = FZ))).
Proof.
  unfold pes. rewrite in_app_iff, in_pL, in_stab_edges. split; (intros [H|H]; [left|right; auto]).
  - destruct H as (i & g & q & Q & I). apply in_pT in I as (p' & E & A & B). injection E as -> -> ->. exists g, q. rewrite pvs_stab. auto.
  - destruct H as (g & q & Q & A & B & ->). exists o, g, q. split. apply pvs_stab; auto. apply in_pT. eauto.
Qed.
Lemma pfac_stab d o g q p : nth_error (pvs d) o = Some (KStab g, q) -> In p (dpos (pvs d)) -> fac (pes d) o p = if cadjb q p then fbits (group_factor g) else (false, false).
Proof.
  intros Q P. destruct p as [i j]. apply in_dpos in P. apply in_pdata in P as [P _]. destruct (cadjb q (i, j)) eqn:C.
  - apply fac_in. apply nodup_pes. apply in_pes. left. exists g, q. split; auto. split; auto. apply Z.eqb_eq in C. auto.
  - apply fac_out. intros f I. apply in_pes in I as [(g' & q' & Q' & A & _)|(x & X & J)].
    + rewrite Q in Q'. injection Q' as <- <-. apply Z.eqb_neq in C. auto.
    + destruct (pvs_logical d). destruct J as [(-> & _)|(-> & _)]; congruence.
Qed.
Lemma pfac_x d p : In p (dpos (pvs d)) -> fac (pes d) (List.length (pgrid d)) p = if (fst p =? 2 * d - 2)%Z then (true, false) else (false, false).
Proof.
  intros P. destruct p as [i j]. apply in_dpos in P. apply in_pdata in P as [P M]. unfold pbox in P. cbn [fst snd] in *. destruct (Z.eqb_spec i (2 * d - 2)).
  - change (true, false) with (fbits FX). apply fac_in. apply nodup_pes. apply in_pes. right. exists (j / 2)%Z. split. lia. left. split; auto. split; auto. f_equal; lia.
  - apply fac_out. intros f I. destruct (pvs_logical d). apply in_pes in I as [(g' & q' & Q' & A & _)|(x & X & [(E & E' & _)|(E & _)])]; [congruence| |lia]. injection E'. auto.
Qed.
Lemma pfac_z d p : In p (dpos (pvs d)) -> fac (pes d) (S (List.length (pgrid d))) p = if (snd p =? 2 * d - 2)%Z then (false, true) else (false, false).
Proof.
  intros P. destruct p as [i j]. apply in_dpos in P. apply in_pdata in P as [P M]. unfold pbox in P. cbn [fst snd] in *. destruct (Z.eqb_spec j (2 * d - 2)).
  - change (false, true) with (fbits FZ). apply fac_in. apply nodup_pes. apply in_pes. right. exists (i / 2)%Z. split. lia. right. split; auto. split; auto. f_equal; lia.
  - apply fac_out. intros f I. destruct (pvs_logical d). apply in_pes in I as [(g' & q' & Q' & A & _)|(x & X & [(E & _)|(E & E' & _)])]; [congruence|lia|]. injection E'. auto.
Qed.
Lemma plog_ids d : log_ids (pvs d) = [List.length (pgrid d); S (List.length (pgrid d))].
Proof.
  unfold pvs. rewrite log_ids_app. auto.
  - intros [k [i j]] I. apply in_pgrid in I as [_ ->]. unfold pkind, isl. cbn. destruct (_ =? _)%Z; auto. destruct (_ =? _)%Z; auto.
  - intros kp [<-|[<-|[]]]; auto.
Qed.
Ltac two E := cbn [In]; split; [intros [<-|[<-|[]]]|].
Lemma planar_stab_stab d a b : (2 <= d)%Z -> In a (stab_ids (pvs d)) -> In b (stab_ids (pvs d)) -> symp (ops (brow (pvs d) (pes d) a)) (ops (brow (pvs d) (pes d) b)) = false.
Proof.
  intros D A B. apply in_stab_ids in A as (ga & [ai aj] & A). apply in_stab_ids in B as (gb & [bi bj] & B).
  pose proof (pstab_pos _ _ _ _ _ A) as PA. pose proof (pstab_pos _ _ _ _ _ B) as PB. unfold pbox in PA, PB. cbn [fst snd] in PA, PB.
  assert (ND := nodup_dpos _ (nodup_pvs d D)).
  assert (S : forall p, In p (dpos (pvs d)) -> (sp (fac (pes d) a p) (fac (pes d) b p) = true <-> cadj (ai, aj) p /\ cadj (bi, bj) p /\ ga <> gb)).
  { intros p P. rewrite (pfac_stab d a ga _ p A P), (pfac_stab d b gb _ p B P). unfold cadjb, cadj.
    destruct (Z.eqb_spec (Z.abs (fst p - fst (ai, aj)) + Z.abs (snd p - snd (ai, aj))) 1); [|split; [discriminate|intros (? & _); contradiction]].
    destruct (Z.eqb_spec (Z.abs (fst p - fst (bi, bj)) + Z.abs (snd p - snd (bi, bj))) 1); [|split; [destruct ga; discriminate|intros (_ & ? & _); contradiction]].
    destruct PA as (_ & _ & [[-> _]|[-> _]]), PB as (_ & _ & [[-> _]|[-> _]]); cbn; intuition congruence. }
  destruct (Z.eqb_spec (Z.abs (ai - bi)) 1) as [E1|E1]; [destruct (Z.eqb_spec (Z.abs (aj - bj)) 1) as [E2|E2]|].
  - rewrite (brow_count _ _ a b [(ai, bj); (bi, aj)]); auto.
    + repeat constructor; cbn; auto. intros [E|[]]. injection E as E3 E4. lia.
    + intros [pi pj]. cbn [In]. split.
      * intros [E|[E|[]]]; injection E as <- <-; (assert (P : In (KData, (ai, bj)) (pvs d) /\ In (KData, (bi, aj)) (pvs d)) by (rewrite !in_pdata; unfold pbox; cbn [fst snd]; lia));
        (split; [apply in_dpos; tauto|]); apply S; try (apply in_dpos; tauto); unfold cadj; cbn [fst snd]; (split; [lia|split; [lia|]]); intros X; rewrite X in PA; destruct PA as (_ & _ & [[? ?]|[? ?]]), PB as (_ & _ & [[? ?]|[? ?]]); try congruence; lia.
      * intros [P E]. apply S in E; auto. apply in_dpos, in_pdata in P as [P M]. unfold cadj in E. cbn [fst snd] in E.
        assert ((pi = ai /\ pj = bj) \/ (pi = bi /\ pj = aj))%Z as [[-> ->]|[-> ->]] by lia; auto.
  - rewrite (brow_count _ _ a b []); auto. constructor. intros [pi pj]. cbn [In]. split; [tauto|]. intros [P E]. apply S in E; auto. apply in_dpos, in_pdata in P as [P M]. unfold cadj in E. cbn [fst snd] in E. 
    assert (aj mod 2 <> bj mod 2)%Z by (destruct E as (_ & _ & N), PA as (_ & _ & [[-> ?]|[-> ?]]), PB as (_ & _ & [[-> ?]|[-> ?]]); try congruence; lia). lia.
  - rewrite (brow_count _ _ a b []); auto. constructor. intros [pi pj]. cbn [In]. split; [tauto|]. intros [P E]. apply S in E; auto. apply in_dpos, in_pdata in P as [P M]. unfold cadj in E. cbn [fst snd] in E. 
    assert (aj mod 2 <> bj mod 2)%Z by (destruct E as (_ & _ & N), PA as (_ & _ & [[-> ?]|[-> ?]]), PB as (_ & _ & [[-> ?]|[-> ?]]); try congruence; lia). lia.
Qed.
Lemma planar_stab_x d a : (2 <= d)%Z -> In a (stab_ids (pvs d)) -> symp (ops (brow (pvs d) (pes d) a)) (ops (brow (pvs d) (pes d) (List.length (pgrid d)))) = false.
Proof.
  intros D A. apply in_stab_ids in A as (ga & [ai aj] & A). pose proof (pstab_pos _ _ _ _ _ A) as PA. unfold pbox in PA. cbn [fst snd] in PA. assert (ND := nodup_dpos _ (nodup_pvs d D)).
  assert (S : forall p, In p (dpos (pvs d)) -> (sp (fac (pes d) a p) (fac (pes d) (List.length (pgrid d)) p) = true <-> cadj (ai, aj) p /\ fst p = (2 * d - 2)%Z /\ ga = GB)).
  { intros p P. rewrite (pfac_stab d a ga _ p A P), (pfac_x d p P). unfold cadjb, cadj.
    destruct (Z.eqb_spec (Z.abs (fst p - fst (ai, aj)) + Z.abs (snd p - snd (ai, aj))) 1); [|split; [discriminate|intros (? & _); contradiction]].
    destruct (Z.eqb_spec (fst p) (2 * d - 2)); [|split; [destruct ga; discriminate|intros (_ & ? & _); contradiction]].
    destruct PA as (_ & _ & [[-> _]|[-> _]]); cbn; intuition congruence. }
  destruct (Z.eqb_spec ai (2 * d - 2)) as [E1|E1].
  - rewrite (brow_count _ _ a _ [(ai, aj - 1)%Z; (ai, aj + 1)%Z]); auto.
    + repeat constructor; cbn; auto. intros [E|[]]. injection E as E3. lia.
    + intros [pi pj]. cbn [In]. split.
      * assert (ga = GB /\ aj mod 2 = 1)%Z as [-> ?] by (destruct PA as (_ & ? & [[-> ?]|[-> ?]]); split; auto; lia).
        intros [E|[E|[]]]; injection E as <- <-; (assert (P : In (KData, (ai, aj - 1)%Z) (pvs d) /\ In (KData, (ai, aj + 1)%Z) (pvs d)) by (rewrite !in_pdata; unfold pbox; cbn [fst snd]; lia));
        (split; [apply in_dpos; tauto|]); apply S; try (apply in_dpos; tauto); unfold cadj; cbn [fst snd]; (split; [lia|split; [lia|auto]]).
      * intros [P E]. apply S in E; auto. apply in_dpos, in_pdata in P as [P M]. unfold cadj in E. cbn [fst snd] in E.
        assert ((pi = ai /\ pj = aj - 1) \/ (pi = ai /\ pj = aj + 1))%Z as [[-> ->]|[-> ->]] by lia; auto.
  - rewrite (brow_count _ _ a _ []); auto. constructor. intros [pi pj]. cbn [In]. split; [tauto|]. intros [P E]. apply S in E; auto. apply in_dpos, in_pdata in P as [P M]. unfold cadj in E. cbn [fst snd] in E.
    destruct E as (E & E' & ->). destruct PA as (_ & ? & [[? ?]|[? ?]]); [discriminate|]. lia.
Qed.
Lemma planar_stab_z d a : (2 <= d)%Z -> In a (stab_ids (pvs d)) -> symp (ops (brow (pvs d) (pes d) a)) (ops (brow (pvs d) (pes d) (S (List.length (pgrid d))))) = false.
Proof.
  intros D A. apply in_stab_ids in A as (ga & [ai aj] & A). pose proof (pstab_pos _ _ _ _ _ A) as PA. unfold pbox in PA. cbn [fst snd] in PA. assert (ND := nodup_dpos _ (nodup_pvs d D)).
  assert (S : forall p, In p (dpos (pvs d)) -> (sp (fac (pes d) a p) (fac (pes d) (S (List.length (pgrid d))) p) = true <-> cadj (ai, aj) p /\ snd p = (2 * d - 2)%Z /\ ga = GA)).
  { intros p P. rewrite (pfac_stab d a ga _ p A P), (pfac_z d p P). unfold cadjb, cadj.
    destruct (Z.eqb_spec (Z.abs (fst p - fst (ai, aj)) + Z.abs (snd p - snd (ai, aj))) 1); [|split; [discriminate|intros (? & _); contradiction]].
    destruct (Z.eqb_spec (snd p) (2 * d - 2)); [|split; [destruct ga; discriminate|intros (_ & ? & _); contradiction]].
    destruct PA as (_ & _ & [[-> _]|[-> _]]); cbn; intuition congruence. }
  destruct (Z.eqb_spec aj (2 * d - 2)) as [E1|E1].
  - rewrite (brow_count _ _ a _ [(ai - 1, aj)%Z; (ai + 1, aj)%Z]); auto.
    + repeat constructor; cbn; auto. intros [E|[]]. injection E as E3. lia.
    + intros [pi pj]. cbn [In]. split.
      * assert (ga = GA /\ aj mod 2 = 0)%Z as [-> ?] by (destruct PA as (_ & ? & [[-> ?]|[-> ?]]); split; auto; lia).
        intros [E|[E|[]]]; injection E as <- <-; (assert (P : In (KData, (ai - 1, aj)%Z) (pvs d) /\ In (KData, (ai + 1, aj)%Z) (pvs d)) by (rewrite !in_pdata; unfold pbox; cbn [fst snd]; lia));
        (split; [apply in_dpos; tauto|]); apply S; try (apply in_dpos; tauto); unfold cadj; cbn [fst snd]; (split; [lia|split; [lia|auto]]).
      * intros [P E]. apply S in E; auto. apply in_dpos, in_pdata in P as [P M]. unfold cadj in E. cbn [fst snd] in E.
        assert ((pi = ai - 1 /\ pj = aj) \/ (pi = ai + 1 /\ pj = aj))%Z as [[-> ->]|[-> ->]] by lia; auto.
  - rewrite (brow_count _ _ a _ []); auto. constructor. intros [pi pj]. cbn [In]. split; [tauto|]. intros [P E]. apply S in E; auto. apply in_dpos, in_pdata in P as [P M]. unfold cadj in E. cbn [fst snd] in E.
    destruct E as (E & E' & ->). destruct PA as (_ & ? & [[? ?]|[? ?]]); [|discriminate]. lia.
Qed.
Lemma planar_x_z d : (2 <= d)%Z -> symp (ops (brow (pvs d) (pes d) (List.length (pgrid d)))) (ops (brow (pvs d) (pes d) (S (List.length (pgrid d))))) = true.
Proof.
  intros D. assert (ND := nodup_dpos _ (nodup_pvs d D)). rewrite (brow_count _ _ _ _ [(2 * d - 2, 2 * d - 2)%Z]); auto.
  - repeat constructor; cbn; auto.
  - intros p. assert (I : In (2 * d - 2, 2 * d - 2)%Z (dpos (pvs d))) by (apply in_dpos, in_pdata; unfold pbox; cbn [fst snd]; lia). cbn [In]. split.
    + intros [<-|[]]. split; auto. rewrite pfac_x, pfac_z by auto. cbn [fst snd]. rewrite Z.eqb_refl. auto.
    + intros [P E]. rewrite pfac_x, pfac_z in E by auto. destruct (Z.eqb_spec (fst p) (2 * d - 2)); [|destruct (_ =? _)%Z; discriminate]. destruct (Z.eqb_spec (snd p) (2 * d - 2)); [|discriminate].
      left. destruct p; cbn [fst snd] in *; congruence.
Qed.
(** * Counting *)
Lemma planar_data_count d : (2 <= d)%Z -> List.length (dpos (pvs d)) = Z.to_nat (d * d + (d - 1) * (d - 1)).
Proof.
  intros D. rewrite (length_same _ (grid pair (zrange 0 (2 * d - 1) 2) (zrange 0 (2 * d - 1) 2) ++ grid pair (zrange 1 (2 * d - 1) 2) (zrange 1 (2 * d - 1) 2))).
  - rewrite app_length, !length_grid, !length_zrange. replace ((2 * d - 1 - 0 + 2 - 1) / 2)%Z with d by lia. replace ((2 * d - 1 - 1 + 2 - 1) / 2)%Z with (d - 1)%Z by lia.
    rewrite Z2Nat.inj_add by nia. rewrite !Z2Nat.inj_mul by lia. auto.
  - apply nodup_dpos, nodup_pvs; auto.
  - apply NoDup_app3; try (apply nodup_grid; [apply nodup_zrange; lia|apply nodup_zrange; lia|intros ? ? ? ? E; injection E; auto]).
    intros p I J. apply in_grid in I as (i & j & I & I' & ->). apply in_grid in J as (i' & j' & J & J' & E). injection E as -> ->. rewrite in_zrange in I, J by lia. lia.
  - intros [i j]. rewrite in_dpos, in_pdata, in_app_iff, !in_grid. unfold pbox. cbn [fst snd]. split.
    + intros [A B]. destruct (Z.eqb_spec (i mod 2) 0); [left|right]; exists i, j; rewrite !in_zrange by lia; (split; [lia|split; [lia|auto]]).
    + intros [(x & y & X & Y & E)|(x & y & X & Y & E)]; injection E as -> ->; rewrite in_zrange in X, Y by lia; lia.
Qed.
Lemma planar_stab_count d : (2 <= d)%Z -> List.length (stab_ids (pvs d)) = Z.to_nat (2 * (d * (d - 1))).
Proof.
  intros D. rewrite length_stab_ids. rewrite (length_same _ (grid pair (zrange 0 (2 * d - 1) 2) (zrange 1 (2 * d - 1) 2) ++ grid pair (zrange 1 (2 * d - 1) 2) (zrange 0 (2 * d - 1) 2))).
  - rewrite app_length, !length_grid, !length_zrange. replace ((2 * d - 1 - 0 + 2 - 1) / 2)%Z with d by lia. replace ((2 * d - 1 - 1 + 2 - 1) / 2)%Z with (d - 1)%Z by lia.
    rewrite !Z2Nat.inj_mul by nia. change (Z.to_nat 2) with 2. lia.
  - apply nodup_spos, nodup_pvs; auto.
  - apply NoDup_app3; try (apply nodup_grid; [apply nodup_zrange; lia|apply nodup_zrange; lia|intros ? ? ? ? E; injection E; auto]).
    intros p I J. apply in_grid in I as (i & j & I & I' & ->). apply in_grid in J as (i' & j' & J & J' & E). injection E as -> ->. rewrite in_zrange in I, J by lia. lia.
  - intros [i j]. rewrite in_spos, in_app_iff, !in_grid. split.
    + intros [g I]. apply In_nth_error in I as [o I]. apply pstab_pos in I. unfold pbox in I. cbn [fst snd] in I. destruct (Z.eqb_spec (i mod 2) 0); [left|right]; exists i, j; rewrite !in_zrange by lia; (split; [lia|split; [lia|auto]]).
    + intros [(x & y & X & Y & E)|(x & y & X & Y & E)]; injection E as -> ->; rewrite in_zrange in X, Y by lia.
      * exists GB. apply in_app_iff. left. apply in_pgrid. split. lia. unfold pkind. replace (x mod 2 =? y mod 2)%Z with false by lia. replace (y mod 2 =? 0)%Z with false by lia. auto.
      * exists GA. apply in_app_iff. left. apply in_pgrid. split. lia. unfold pkind. replace (x mod 2 =? y mod 2)%Z with false by lia. replace (y mod 2 =? 0)%Z with true by lia. auto.
Qed.
Definition planar_code d : stabcode := mkStabcode (map (brow (pvs d) (pes d)) (stab_ids (pvs d))) (map (brow (pvs d) (pes d)) (log_ids (pvs d))).
Lemma planar_edge_of d o : (2 <= d)%Z -> In o (stab_ids (pvs d)) \/ In o (log_ids (pvs d)) -> exists p f, In (o, p, f) (pes d) /\ In p (dpos (pvs d)).
Proof.
  intros D [I|I].
  - apply in_stab_ids in I as (g & [i j] & Q). pose proof (pstab_pos _ _ _ _ _ Q) as P. unfold pbox in P. cbn [fst snd] in P.
    assert (exists p, cadj (i, j) p /\ pbox d p) as ([i' j'] & A & B).
    { destruct (Z.eqb_spec i 0). exists (i + 1, j)%Z. unfold cadj, pbox. cbn [fst snd]. lia. exists (i - 1, j)%Z. unfold cadj, pbox. cbn [fst snd]. lia. }
    exists (i', j'), (group_factor g). split. apply in_pes. left. exists g, (i, j). auto. apply in_dpos, in_pdata. split; auto. unfold cadj in A. cbn [fst snd] in A. lia.
  - rewrite plog_ids in I. cbn in I. destruct I as [<-|[<-|[]]].
    + exists (2 * d - 2, 2 * 0)%Z, FX. split. apply in_pes. right. exists 0%Z. split; [lia|]. auto. apply in_dpos, in_pdata. unfold pbox. cbn [fst snd]. lia.
    + exists (2 * 0, 2 * d - 2)%Z, FZ. split. apply in_pes. right. exists 0%Z. split; [lia|]. auto. apply in_dpos, in_pdata. unfold pbox. cbn [fst snd]. lia.
Qed.
Lemma planar_valid d : (2 <= d)%Z -> valid_code (Z.to_nat (d * d + (d - 1) * (d - 1))) (Z.to_nat (2 * (d * (d - 1)))) 1 (planar_code d).
Proof.
  intros D. rewrite <- planar_data_count, <- planar_stab_count by auto. apply built_valid.
  - apply nodup_pes.
  - rewrite plog_ids. auto.
  - intros; apply planar_edge_of; auto.
  - intros; apply planar_stab_stab; auto.
  - intros a b A B. rewrite plog_ids in B. destruct B as [<-|[<-|[]]]. apply planar_stab_x; auto. apply planar_stab_z; auto.
  - intros i j a b A B. rewrite plog_ids in A, B. pose proof (planar_x_z d D) as XZ.
    destruct i as [|[|[]]]; cbn in A; try discriminate; destruct j as [|[|[]]]; cbn in B; try discriminate; injection A as <-; injection B as <-; cbn [Nat.div Nat.eqb negb andb Nat.divmod fst].
    + apply symp_self.
    + auto.
    + rewrite symp_comm. auto.
    + apply symp_self.
Qed.
Lemma planar_make d r : (2 <= d)%Z -> exists l, planar_lattice d nwes = Ok l /\ make_planar r d = Ok (mkCode (planar_code d) l r).
Proof.
  intros D. destruct (planar_built d nwes D) as (l & E & B & X & _). cbn; tauto. exists l. split; auto. unfold make_planar, make_code. rewrite E. cbn [bindR].
  rewrite (built_from _ _ _ _ B X); auto.
  - intros o O. destruct (planar_edge_of d o D O) as (p & f & I & _). eauto.
  - intros N. pose proof (planar_stab_count d D) as L. rewrite N in L. cbn [List.length] in L. nia.
  - exists 0. rewrite plog_ids. auto.
Qed.
