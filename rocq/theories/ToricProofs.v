(** The toric code for every size. *)
Require Import List Bool Arith ZArith Lia String Permutation.
From Verif Require Import Base BaseProofs QSpec PauliModel PauliSem PauliProofs PauliAlg LatticeModel CodesModel CodesSpec LatticeSpec LatticeProofs LatticeEdit LatticeOps BuildProofs CodesProofs.
Import ListNotations.
Local Open Scope nat_scope.
Local Open Scope list_scope.
Ltac Zify.zify_post_hook ::= Z.to_euclidean_division_equations.
Local Opaque Z.mul Z.add Z.sub.
(** Lists of explicitly different members. *)
Ltac apart := repeat (apply NoDup_cons; [cbn [In]; intros AP; repeat (destruct AP as [AP|AP]; [injection AP; intros; lia|]); destruct AP|]); apply NoDup_nil.

Definition tkind (i j : Z) : kind := if negb (i mod 2 =? j mod 2)%Z then KData else if (j mod 2 =? 0)%Z then KStab GA else KStab GB.
Definition tgrid (d : Z) : list (kind * pos) := flat_map (fun i => flat_map (fun j => [(tkind (i + 1) (j + 1), (i + 1, j + 1)%Z)]) (zrange 0 (2 * d) 1)) (zrange 0 (2 * d) 1).
Definition tT (d : Z) (s : nat) (p : pos) (g : group) : list (nat * pos * factor) :=
  flat_map (fun x : pos => [(s, (torus (2 * d) (fst p + fst x), torus (2 * d) (snd p + snd x)), group_factor g)]) cross.
Definition tlog (d : Z) : list (kind * pos) := [(KLogical "X", (0, d)%Z); (KLogical "Z", (d, 2 * d + 1)%Z); (KLogical "X", (d, 0)%Z); (KLogical "Z", (2 * d + 1, d)%Z)].
Definition tvs d := tgrid d ++ tlog d.
Definition tn d := List.length (tgrid d).
Definition tL (d : Z) : list (nat * pos * factor) :=
  flat_map (fun i => [(tn d, (1, 2 * i + 2)%Z, FX); (S (tn d), (2 * i + 1, 2 * d)%Z, FZ); (S (S (tn d)), (2 * i + 2, 1)%Z, FX); (S (S (S (tn d))), (2 * d, 2 * i + 1)%Z, FZ)]) (zrange 0 d 1).
Definition tes d := flat_map (stab_edges (tT d)) (numbered (tgrid d)) ++ tL d.
Definition tbox (d : Z) (p : pos) : Prop := (1 <= fst p <= 2 * d /\ 1 <= snd p <= 2 * d)%Z.

Lemma in_tgrid d k i j : In (k, (i, j)) (tgrid d) <-> tbox d (i, j) /\ k = tkind i j.
Proof.
  unfold tgrid, tbox. rewrite in_flat_map. cbn [fst snd]. split.
  - intros (i' & I & J). apply in_flat_map in J as (j' & J & [E|[]]). injection E as <- <- <-. rewrite in_zrange in I, J by lia. split; auto. lia.
  - intros [[A B] ->]. exists (i - 1)%Z. rewrite in_zrange by lia. split. { lia. } apply in_flat_map. exists (j - 1)%Z. rewrite in_zrange by lia. split. { lia. }
    left. replace (i - 1 + 1)%Z with i by lia. replace (j - 1 + 1)%Z with j by lia. auto.
Qed.
Lemma nodup_tgrid d : NoDup (map snd (tgrid d)).
Proof.
  apply nodup_flat_map.
  - apply nodup_zrange. lia.
  - intros i I. apply nodup_flat_map.
    + apply nodup_zrange; lia.
    + intros. cbn. constructor; auto. constructor.
    + intros x y a b _ _ [<-|[]] [<-|[]] E. cbn in E. injection E as E. lia.
  - intros x y a b _ _ A B E. apply in_flat_map in A as (j & _ & [<-|[]]). apply in_flat_map in B as (j' & _ & [<-|[]]). cbn in E. injection E as E1 E2. lia.
Qed.
Lemma nodup_tvs d : (2 <= d)%Z -> NoDup (map snd (tvs d)).
Proof.
  intros D. unfold tvs. rewrite map_app. apply NoDup_app3. apply nodup_tgrid.
  - cbn [map tlog snd]. apart.
  - intros p I J. apply in_map_iff in I as ([k [i j]] & <- & I). apply in_tgrid in I as [I _]. unfold tbox in I. cbn [fst snd] in I. cbn [map tlog snd In] in J. repeat (destruct J as [J|J]; [injection J; intros; lia|]). destruct J.
Qed.
(** Neighbours on a circle of length [m]. *)
Definition cyc (m a b : Z) : Prop := (b = a + 1 /\ a < m \/ b = a - 1 /\ 1 < a \/ a = m /\ b = 1 \/ a = 1 /\ b = m)%Z.
Definition tadj (m : Z) (q p : pos) : Prop := (fst p = fst q /\ cyc m (snd q) (snd p)) \/ (snd p = snd q /\ cyc m (fst q) (fst p)).
Lemma torus_cyc m a : (1 <= a <= m)%Z -> (torus m a = a /\ (forall b, cyc m a b <-> b = torus m (a + 1) \/ b = torus m (a + -1)))%Z.
Proof.
  intros A. unfold torus, cyc. cbv zeta. split.
  - destruct (Z.eqb_spec a 0); [lia|]. destruct (Z.ltb_spec m a); lia.
  - intros b. destruct (Z.eqb_spec (a + 1) 0); [lia|]. destruct (Z.ltb_spec m (a + 1)); destruct (Z.eqb_spec (a + -1) 0); [destruct (Z.ltb_spec m m); lia|destruct (Z.ltb_spec m (a + -1)); lia|destruct (Z.ltb_spec m m); lia|destruct (Z.ltb_spec m (a + -1)); lia].
Qed.
Lemma in_tT d s q g t : tbox d q -> (In t (tT d s q g) <-> exists p, t = (s, p, group_factor g) /\ tadj (2 * d) q p).
Proof.
  intros [B1 B2]. destruct q as [a b]. cbn [fst snd] in *. destruct (torus_cyc (2 * d) a B1) as [Ta Ca]. destruct (torus_cyc (2 * d) b B2) as [Tb Cb].
  unfold tT, cross. cbn [flat_map app fst snd In]. rewrite !Z.add_0_r, Ta, Tb. unfold tadj. split.
  - intros [<-|[<-|[<-|[<-|[]]]]]; eexists; (split; [reflexivity|]); cbn [fst snd]; rewrite ?Ca, ?Cb; auto.
  - intros ([x y] & -> & H). cbn [fst snd] in H. rewrite Ca, Cb in H. destruct H as [[-> [-> | ->]]|[-> [-> | ->]]]; auto.
Qed.
Lemma tadj_box d q p : (1 <= d)%Z -> tbox d q -> tadj (2 * d) q p -> tbox d p.
Proof. unfold tbox, tadj, cyc. intros. lia. Qed.
Lemma torus_step d a : (2 <= d)%Z -> (1 <= a <= 2 * d)%Z -> (torus (2 * d) (a + 1) <> torus (2 * d) (a + -1) /\ torus (2 * d) (a + 1) <> a /\ torus (2 * d) (a + -1) <> a)%Z.
Proof.
  intros D A. unfold torus. cbv zeta. destruct (Z.eqb_spec (a + 1) 0); [lia|]. destruct (Z.ltb_spec (2 * d) (a + 1)); destruct (Z.eqb_spec (a + -1) 0); [lia|destruct (Z.ltb_spec (2 * d) (a + -1)); lia|destruct (Z.ltb_spec (2 * d) (2 * d)); lia|destruct (Z.ltb_spec (2 * d) (a + -1)); lia].
Qed.
Lemma nodup_tT d s q g : (2 <= d)%Z -> tbox d q -> NoDup (map fst (tT d s q g)).
Proof.
  intros D [B1 B2]. destruct q as [a b]. cbn [fst snd] in *. destruct (torus_cyc (2 * d) a B1) as [Ta _]. destruct (torus_cyc (2 * d) b B2) as [Tb _].
  destruct (torus_step d a D B1) as (A1 & A2 & A3). destruct (torus_step d b D B2) as (C1 & C2 & C3).
  unfold tT, cross. cbn [flat_map app fst snd map]. rewrite !Z.add_0_r, Ta, Tb.
  apart.
Qed.
Lemma in_tL d o p f : In (o, p, f) (tL d) <-> exists i, (0 <= i < d)%Z /\
  ((o = tn d /\ p = (1, 2 * i + 2)%Z /\ f = FX) \/ (o = S (tn d) /\ p = (2 * i + 1, 2 * d)%Z /\ f = FZ) \/
   (o = S (S (tn d)) /\ p = (2 * i + 2, 1)%Z /\ f = FX) \/ (o = S (S (S (tn d))) /\ p = (2 * d, 2 * i + 1)%Z /\ f = FZ)).
Proof.
  unfold tL. rewrite in_flat_map. split.
  - intros (i & I & J). rewrite in_zrange in I by lia. exists i. split. lia. destruct J as [E|[E|[E|[E|[]]]]]; injection E as <- <- <-; auto 6.
  - intros (i & I & J). exists i. rewrite in_zrange by lia. split. split; lia. cbn. destruct J as [(-> & -> & ->)|[(-> & -> & ->)|[(-> & -> & ->)|(-> & -> & ->)]]]; auto.
Qed.
Lemma tvs_stab d o g q : nth_error (tvs d) o = Some (KStab g, q) <-> nth_error (tgrid d) o = Some (KStab g, q).
Proof.
  unfold tvs. destruct (Nat.ltb_spec o (List.length (tgrid d))).
  - rewrite nth_error_app1 by auto. tauto.
  - rewrite nth_error_app2 by auto. assert (nth_error (tgrid d) o = None) by (apply nth_error_None; auto). rewrite H0. split; [|discriminate].
    destruct (o - List.length (tgrid d)) as [|[|[|[|[]]]]]; discriminate.
Qed.
Lemma tvs_logical d : (forall k, k < 4 -> exists n p, nth_error (tvs d) (k + tn d) = Some (KLogical n, p)).
Proof.
  intros k K. unfold tvs, tn. rewrite nth_error_app2 by lia. replace (k + List.length (tgrid d) - List.length (tgrid d)) with k by lia.
  destruct k as [|[|[|[|k]]]]; cbn; eauto. lia.
Qed.
Lemma tlog_not_stab d k g q : k < 4 -> nth_error (tvs d) (k + tn d) = Some (KStab g, q) -> False.
Proof. intros K E. destruct (tvs_logical d k K) as (n & p & X). congruence. Qed.
Lemma in_tdata d i j : In (KData, (i, j)) (tvs d) <-> (tbox d (i, j) /\ i mod 2 <> j mod 2)%Z.
Proof.
  unfold tvs. rewrite in_app_iff, in_tgrid. unfold tkind. split.
  - intros [[A B]|[E|[E|[E|[E|[]]]]]]; try discriminate. split; auto. destruct (Z.eqb_spec (i mod 2) (j mod 2)); auto. cbn in B. destruct (_ =? _)%Z; discriminate.
  - intros [A B]. left. split; auto. rewrite (proj2 (Z.eqb_neq _ _) B). auto.
Qed.
Lemma tstab_pos d o g i j : nth_error (tvs d) o = Some (KStab g, (i, j)) -> (tbox d (i, j) /\ (g = GA /\ i mod 2 = 0 /\ j mod 2 = 0 \/ g = GB /\ i mod 2 = 1 /\ j mod 2 = 1))%Z.
Proof.
  intros E. apply tvs_stab in E. apply nth_error_In in E. apply in_tgrid in E as [A B]. split; auto. unfold tkind in B.
  destruct (Z.eqb_spec (i mod 2) (j mod 2)); [|discriminate]. cbn in B. destruct (Z.eqb_spec (j mod 2) 0); injection B as ->; [left|right]; split; auto; lia.
Qed.
Lemma in_tstab_edges d o p f : In (o, p, f) (flat_map (stab_edges (tT d)) (numbered (tgrid d))) <->
  exists g q, nth_error (tvs d) o = Some (KStab g, q) /\ tadj (2 * d) q p /\ f = group_factor g.
Proof.
  rewrite in_stab_edges. split.
  - intros (i & g & [a b] & Q & I). apply tvs_stab in Q. pose proof (tstab_pos _ _ _ _ _ Q) as [B _]. apply in_tT in I as (p' & E & A); auto. injection E as -> -> ->. eauto 6.
  - intros (g & [a b] & Q & A & ->). exists o, g, (a, b). pose proof (tstab_pos _ _ _ _ _ Q) as [B _]. apply tvs_stab in Q. split; auto. apply in_tT; eauto.
Qed.
Lemma nodup_tes d : (2 <= d)%Z -> NoDup (map fst (tes d)).
Proof.
  intros D. unfold tes. rewrite map_app. apply NoDup_app3.
  - apply nodup_flat_map.
    + apply nodup_numbered.
    + intros [i [k [a b]]] I. apply in_numbered in I. destruct k; cbn [stab_edges map]; try apply NoDup_nil. apply tvs_stab, tstab_pos in I as [B _]. apply nodup_tT; auto.
    + assert (O : forall i k p t, In t (stab_edges (tT d) (i, (k, p))) -> fst (fst t) = i). { intros i [|g|n] p t I; cbn [stab_edges] in I; [destruct I| |destruct I]. unfold tT, cross in I. cbn [flat_map app In] in I. destruct I as [<-|[<-|[<-|[<-|[]]]]]; auto. }
      intros [i [k p]] [j [k' p']] a b I J A B E. apply O in A. apply O in B. assert (i = j) by congruence. subst j. apply in_numbered in I. apply in_numbered in J. congruence.
  - unfold tL. apply nodup_flat_map. apply nodup_zrange; lia.
    + intros i _. cbn [map fst]. apart.
    + intros x y a b _ _ [<-|[<-|[<-|[<-|[]]]]] [<-|[<-|[<-|[<-|[]]]]] E; cbn [fst] in E; injection E; lia.
  - intros [o p] I J. apply in_map_iff in I as ([[o' p'] f] & E & I). apply in_tstab_edges in I as (g & q & Q & _). cbn in E. injection E as -> ->.
    apply in_map_iff in J as ([[o' p''] f'] & E & J). cbn in E. injection E as -> ->. apply in_tL in J as (x & _ & J).
    apply tvs_stab in Q. assert (o < tn d) by (apply nth_error_Some; congruence). lia.
Qed.
Lemma tes_okey d t : (2 <= d)%Z -> In t (tes d) -> okey (tvs d) t.
Proof.
  intros D. destruct t as [[o p] f]. intros I. unfold tes in I. apply in_app_iff in I as [I|I].
  - apply in_tstab_edges in I as (g & [qi qj] & Q & A & ->). destruct p as [pi pj].
    split. 2: { exists (KStab g), (qi, qj). split; auto; discriminate. } cbn [fst snd]. apply in_tdata. apply tstab_pos in Q as [B G]. split. apply (tadj_box d (qi, qj)); auto. lia.
    unfold tadj, cyc in A. cbn [fst snd] in *. lia.
  - apply in_tL in I as (i & I & J). assert (exists k, k < 4 /\ o = k + tn d) as (k & K & ->).
    { destruct J as [(-> & _)|[(-> & _)|[(-> & _)|(-> & _)]]]; [exists 0|exists 1|exists 2|exists 3]; auto with arith. }
    destruct (tvs_logical d k K) as (n & q & Q). split; cbn [fst snd]. 2: { exists (KLogical n), q. split; auto; discriminate. }
    destruct J as [(_ & -> & _)|[(_ & -> & _)|[(_ & -> & _)|(_ & -> & _)]]]; apply in_tdata; unfold tbox; cbn [fst snd]; lia.
Qed.
Lemma tadj_displacement d q p : (2 <= d)%Z -> tbox d q -> tadj (2 * d) q p -> In (displacement q p) cross.
Proof.
  intros D B A. assert (tbox d p) by (eapply tadj_box; eauto; lia). unfold displacement, periodic, tadj, cyc, tbox in *. apply in_cross.
  destruct (Z.ltb_spec 1 (Z.abs (fst p - fst q))); destruct (Z.ltb_spec 1 (Z.abs (snd p - snd q))); destruct (Z.ltb_spec 0 (fst p - fst q)); destruct (Z.ltb_spec 0 (snd p - snd q)); lia.
Qed.
Lemma toric_built d order : (2 <= d)%Z -> (forall x, In x cross -> In x order) ->
  exists l, toric_lattice d order = Ok l /\ built (2 * d + 2, 2 * d + 2)%Z (tvs d) (tes d) l /\ indexed l /\
    (forall e, In e (l_edges l) -> forall g q, nth_error (tvs d) (e_op e) = Some (KStab g, q) -> e_time e = index_of (displacement q (v_pos (l_heap l (e_data e)))) order) /\
    l_steps l = Some (List.length order).
Proof.
  intros D O. unfold toric_lattice, construct. destruct (built_empty (2 * d + 2, 2 * d + 2)%Z) as (l0 & -> & B0); cbn [fst snd]; try lia. cbn [bindR].
  unfold toric_body. cbv zeta.
  set (prog := forE _ (zrange 0 (2 * d) 1)).
  assert (A1 : adds prog (tgrid d)).
  { apply adds_for. intros i _. apply adds_for. intros j _. unfold tkind. destruct (negb ((i + 1) mod 2 =? (j + 1) mod 2)%Z); [|destruct ((j + 1) mod 2 =? 0)%Z]; apply adds_one. }
  assert (I1 : forall w, In w (tgrid d) -> inside (2 * d + 2, 2 * d + 2)%Z (snd w)). { intros [k [i j]] I. apply in_tgrid in I as [I _]. unfold inside, tbox in *. cbn [fst snd] in *. lia. }
  destruct (A1 (2 * d + 2, 2 * d + 2)%Z [] []) with (l := l0) as (l1 & E1 & B1); auto. apply nodup_tgrid. cbn [app] in B1.
  rewrite (seq_step _ _ _ l1 E1). clearbody prog.
  set (es0 := flat_map (stab_edges (tT d)) (numbered (tgrid d))) in *.
  set (prog2 := for_stabs _).
  assert (D1 : draws (tgrid d) prog2 es0).
  { apply draws_for_stabs. intros i g p _. apply draws_for. intros x _. apply draws_one. }
  destruct (D1 (2 * d + 2, 2 * d + 2)%Z []) with (l := l1) as (l2 & E2 & B2); auto.
  { intros [[o p] f] I. destruct (tes_okey d (o, p, f) D) as [K1 K2]. apply in_app_iff. auto. apply in_tstab_edges in I as (g & q & Q & A & ->). cbn [fst snd] in *. destruct p as [pi pj]. split; cbn [fst snd].
    - apply in_tgrid. apply in_tdata in K1 as [K1 K3]. split; auto. unfold tkind. rewrite (proj2 (Z.eqb_neq _ _) K3). auto.
    - apply tvs_stab in Q. exists (KStab g), q. split; auto. discriminate. }
  { pose proof (nodup_tes d D) as N. unfold tes in N. fold es0 in N. rewrite map_app in N. apply nodup_app_l in N. auto. }
  cbn [app] in B2. rewrite (seq_step _ _ _ l2 E2). clearbody prog2.
  pose proof (nodup_tvs d D) as NV. unfold tvs in NV. rewrite map_app in NV. apply NoDup_app_inv in NV as (_ & NL & NX). cbn [tlog map snd] in NL, NX.
  destruct (built_add _ _ _ _ (KLogical "X") (0, d)%Z B2) as (l3 & E3 & B3).
  { intros I. apply (NX _ I). cbn [In]; auto. } { unfold inside. cbn [fst snd]. lia. }
  unfold with_logical at 1. unfold add_logical at 1. rewrite (seq_step _ _ _ l3 E3). rewrite (b_next _ _ _ _ B2).
  destruct (built_add _ _ _ _ (KLogical "Z") (d, 2 * d + 1)%Z B3) as (l4 & E4 & B4).
  { rewrite map_app, in_app_iff. intros [I|[E|[]]]. apply (NX _ I). cbn [In]; auto. cbn [snd] in E. injection E as F1 F2. lia. } { unfold inside. cbn [fst snd]. lia. }
  unfold with_logical at 1. unfold add_logical at 1. rewrite (seq_step _ _ _ l4 E4). rewrite (b_next _ _ _ _ B3).
  destruct (built_add _ _ _ _ (KLogical "X") (d, 0)%Z B4) as (l5 & E5 & B5).
  { rewrite !map_app, !in_app_iff. intros [[I|[E|[]]]|[E|[]]]. apply (NX _ I). cbn [In]; auto. cbn [snd] in E. injection E as F1 F2. lia. cbn [snd] in E. injection E as F2. lia. } { unfold inside. cbn [fst snd]. lia. }
  unfold with_logical at 1. unfold add_logical at 1. rewrite (seq_step _ _ _ l5 E5). rewrite (b_next _ _ _ _ B4).
  destruct (built_add _ _ _ _ (KLogical "Z") (2 * d + 1, d)%Z B5) as (l6 & E6 & B6).
  { rewrite !map_app, !in_app_iff. intros [[[I|[E|[]]]|[E|[]]]|[E|[]]]. apply (NX _ I). cbn [In]; auto. all: cbn [snd] in E; injection E as F1; lia. } { unfold inside. cbn [fst snd]. lia. }
  unfold with_logical at 1. unfold add_logical at 1. rewrite (seq_step _ _ _ l6 E6). rewrite (b_next _ _ _ _ B5).
  repeat rewrite app_length. cbn [List.length]. fold (tn d). replace (tn d + 1 + 1 + 1) with (S (S (S (tn d)))) by lia. replace (tn d + 1 + 1) with (S (S (tn d))) by lia. replace (tn d + 1) with (S (tn d)) by lia.
  rewrite <- !app_assoc in B6. cbn [app] in B6. fold (tlog d) in B6. fold (tvs d) in B6.
  set (prog3 := forE _ (zrange 0 d 1)).
  assert (D2 : draws (tvs d) prog3 (tL d)).
  { apply draws_for. intros i _. apply (draws_seq (tvs d) _ _ [_] [_; _; _]); [apply draws_one|]. apply (draws_seq (tvs d) _ _ [_] [_; _]); [apply draws_one|]. apply (draws_seq (tvs d) _ _ [_] [_]); apply draws_one. }
  destruct (D2 (2 * d + 2, 2 * d + 2)%Z es0) with (l := l6) as (l7 & E7 & B7); auto.
  { intros t I. apply tes_okey; auto. apply in_app_iff. auto. }
  { apply nodup_tes; auto. }
  rewrite (seq_step _ _ _ l7 E7). fold (tes d) in B7.
  destruct (runs_order _ _ _ _ order B7) as (l8 & E8 & B8 & T8 & S8).
  { intros o p f g q I Q. unfold tes in I. apply in_app_iff in I as [I|I].
    - apply in_tstab_edges in I as (g' & q' & Q' & A & ->). rewrite Q in Q'. injection Q' as <- <-. destruct q as [qi qj]. apply index_of_in, O. apply (tadj_displacement d); auto. apply tstab_pos in Q. tauto.
    - exfalso. apply in_tL in I as (i & I & J). destruct J as [(-> & _)|[(-> & _)|[(-> & _)|(-> & _)]]].
      apply (tlog_not_stab d 0 g q); auto with arith. apply (tlog_not_stab d 1 g q); auto with arith. apply (tlog_not_stab d 2 g q); auto with arith. apply (tlog_not_stab d 3 g q); auto with arith. }
  rewrite (seq_step _ _ _ l8 E8). destruct (runs_indices _ _ _ _ B8) as (B9 & X9 & Ed9). exists (assign_indices l8). unfold modify. split; auto. split; auto. split; auto.
  destruct (assign_indices_spec l8 (b_cons _ _ _ _ B8)) as (_ & R & _). split.
  - intros e I g q Q. rewrite (rn_pos _ _ R). apply (T8 e) with (g := g); auto. rewrite <- Ed9; auto.
  - rewrite (rn_steps _ _ R). auto.
Qed.

(** * The operators *)
Lemma in_tes d o p f : In (o, p, f) (tes d) <-> (exists g q, nth_error (tvs d) o = Some (KStab g, q) /\ tadj (2 * d) q p /\ f = group_factor g) \/ In (o, p, f) (tL d).
Proof. unfold tes. rewrite in_app_iff, in_tstab_edges. tauto. Qed.
Lemma tfac_stab d o g q p : (2 <= d)%Z -> nth_error (tvs d) o = Some (KStab g, q) ->
  (tadj (2 * d) q p /\ fac (tes d) o p = fbits (group_factor g)) \/ (~ tadj (2 * d) q p /\ fac (tes d) o p = (false, false)).
Proof.
  intros D Q. assert (Dec : {tadj (2 * d) q p} + {~ tadj (2 * d) q p}).
  { assert (DC : forall a b, {cyc (2 * d) a b} + {~ cyc (2 * d) a b}).
    { intros a b. destruct ((b =? a + 1) && (a <? 2 * d) || (b =? a - 1) && (1 <? a) || (a =? 2 * d) && (b =? 1) || (a =? 1) && (b =? 2 * d))%Z eqn:E; [left|right]; unfold cyc; lia. }
    unfold tadj. destruct (Z.eq_dec (fst p) (fst q)), (DC (snd q) (snd p)), (Z.eq_dec (snd p) (snd q)), (DC (fst q) (fst p)); tauto. }
  destruct Dec as [A|N]; [left|right]; split; auto.
  - apply fac_in. apply nodup_tes; auto. apply in_tes. left. eauto.
  - apply fac_out. intros f I. apply in_tes in I as [(g' & q' & Q' & A & _)|I].
    + rewrite Q in Q'. injection Q' as <- <-. auto.
    + apply in_tL in I as (x & X & J). destruct J as [(-> & _)|[(-> & _)|[(-> & _)|(-> & _)]]];
        [apply (tlog_not_stab d 0 g q)|apply (tlog_not_stab d 1 g q)|apply (tlog_not_stab d 2 g q)|apply (tlog_not_stab d 3 g q)]; auto with arith.
Qed.
(** The supports of the four logical operators among the data qubits. *)
Definition tsup (d : Z) (k : nat) (p : pos) : bool :=
  match k with 0 => (fst p =? 1)%Z | 1 => (snd p =? 2 * d)%Z | 2 => (snd p =? 1)%Z | _ => (fst p =? 2 * d)%Z end.
Definition tbits (k : nat) : bool * bool := match k with 0 => (true, false) | 1 => (false, true) | 2 => (true, false) | _ => (false, true) end.
Lemma tfac_log d k p : (2 <= d)%Z -> k < 4 -> In p (dpos (tvs d)) -> fac (tes d) (k + tn d) p = if tsup d k p then tbits k else (false, false).
Proof.
  intros D K P. destruct p as [i j]. apply in_dpos, in_tdata in P as [P M]. unfold tbox in P. cbn [fst snd] in P. destruct (tsup d k (i, j)) eqn:T.
  - assert (exists f, tbits k = fbits f /\ In (k + tn d, (i, j), f) (tL d)) as (f & -> & I).
    { destruct k as [|[|[|[|k]]]]; cbn [tsup tbits fst snd Nat.add] in *; try lia; apply Z.eqb_eq in T; [exists FX|exists FZ|exists FX|exists FZ]; (split; [reflexivity|]); apply in_tL.
      - exists (j / 2 - 1)%Z. split. lia. left. split; auto. split; auto. f_equal; lia.
      - exists (i / 2)%Z. split. lia. right; left. split; auto. split; auto. f_equal; lia.
      - exists (i / 2 - 1)%Z. split. lia. right; right; left. split; auto. split; auto. f_equal; lia.
      - exists (j / 2)%Z. split. lia. right; right; right. split; auto. split; auto. f_equal; lia. }
    apply fac_in. apply nodup_tes; auto. apply in_tes; auto.
  - apply fac_out. intros f I. apply in_tes in I as [(g & q & Q & _)|I]. apply (tlog_not_stab d k g q); auto.
    apply in_tL in I as (x & X & J).
    destruct k as [|[|[|[|k]]]]; cbn [tsup tbits fst snd Nat.add] in *; try lia; apply Z.eqb_neq in T; apply T;
      destruct J as [(E & E' & _)|[(E & E' & _)|[(E & E' & _)|(E & E' & _)]]]; try lia; injection E'; auto.
Qed.
Lemma tlog_ids d : log_ids (tvs d) = [0 + tn d; 1 + tn d; 2 + tn d; 3 + tn d].
Proof.
  unfold tvs. rewrite log_ids_app. reflexivity.
  - intros [k [i j]] I. apply in_tgrid in I as [_ ->]. unfold tkind, isl. cbn [fst]. destruct (negb _); auto. destruct (_ =? _)%Z; auto.
  - intros kp [<-|[<-|[<-|[<-|[]]]]]; auto.
Qed.
Lemma cyc_cases d a b : (2 <= d)%Z -> {cyc (2 * d) a b} + {~ cyc (2 * d) a b}.
Proof. intros D. destruct ((b =? a + 1) && (a <? 2 * d) || (b =? a - 1) && (1 <? a) || (a =? 2 * d) && (b =? 1) || (a =? 1) && (b =? 2 * d))%Z eqn:E; [left|right]; unfold cyc; lia. Qed.
Lemma toric_stab_stab d a b : (2 <= d)%Z -> In a (stab_ids (tvs d)) -> In b (stab_ids (tvs d)) -> symp (ops (brow (tvs d) (tes d) a)) (ops (brow (tvs d) (tes d) b)) = false.
Proof.
  intros D A B. apply in_stab_ids in A as (ga & [ai aj] & A). apply in_stab_ids in B as (gb & [bi bj] & B).
  pose proof (tstab_pos _ _ _ _ _ A) as PA. pose proof (tstab_pos _ _ _ _ _ B) as PB. unfold tbox in PA, PB. cbn [fst snd] in PA, PB.
  assert (ND := nodup_dpos _ (nodup_tvs d D)).
  assert (S : forall p, sp (fac (tes d) a p) (fac (tes d) b p) = true <-> tadj (2 * d) (ai, aj) p /\ tadj (2 * d) (bi, bj) p /\ ga <> gb).
  { intros p. destruct (tfac_stab d a ga _ p D A) as [[Ta ->]|[Na ->]]; [|split; [discriminate|tauto]].
    destruct (tfac_stab d b gb _ p D B) as [[Tb ->]|[Nb ->]]; [|split; [destruct ga; discriminate|tauto]].
    destruct PA as (_ & [[-> _]|[-> _]]), PB as (_ & [[-> _]|[-> _]]); cbn; intuition congruence. }
  assert (G : (ga = gb /\ (ai - bi) mod 2 = 0 /\ (aj - bj) mod 2 = 0 \/ ga <> gb /\ (ai - bi) mod 2 = 1 /\ (aj - bj) mod 2 = 1)%Z).
  { destruct PA as (_ & [[-> PA]|[-> PA]]), PB as (_ & [[-> PB]|[-> PB]]); [left|right|right|left]; (split; [auto; discriminate|]); lia. }
  destruct G as [[<- _]|[G GM]]. { apply brow_none. intros p _. destruct (sp _ _) eqn:E; auto. apply S in E. tauto. }
  destruct (cyc_cases d ai bi D) as [C1|C1]; [destruct (cyc_cases d aj bj D) as [C2|C2]|].
  - apply (brow_two _ _ a b (ai, bj) (bi, aj)); auto.
    + intros E. injection E as E3 E4. lia.
    + apply in_dpos, in_tdata. unfold tbox. cbn [fst snd]. destruct PA as (PA & [(_ & X)|(_ & X)]), PB as (PB & [(_ & Y)|(_ & Y)]); lia.
    + apply in_dpos, in_tdata. unfold tbox. cbn [fst snd]. destruct PA as (PA & [(_ & X)|(_ & X)]), PB as (PB & [(_ & Y)|(_ & Y)]); lia.
    + intros [pi pj] P. rewrite S. unfold tadj. cbn [fst snd]. split.
      * intros (H1 & H2 & _). destruct H1 as [[-> H1]|[-> H1]], H2 as [[? H2]|[? H2]]; subst; auto; unfold cyc in *; exfalso; lia.
      * intros [E|E]; injection E as -> ->; (split; [|split; auto]); [left|right|right|left]; split; auto; unfold cyc in *; lia.
  - apply brow_none. intros [pi pj] P. destruct (sp _ _) eqn:E; auto. exfalso. apply S in E as (H1 & H2 & _). unfold tadj in *. cbn [fst snd] in *.
    destruct H1 as [[-> H1]|[-> H1]], H2 as [[? H2]|[? H2]]; subst; try lia; unfold cyc in *; lia.
  - apply brow_none. intros [pi pj] P. destruct (sp _ _) eqn:E; auto. exfalso. apply S in E as (H1 & H2 & _). unfold tadj in *. cbn [fst snd] in *.
    destruct H1 as [[-> H1]|[-> H1]], H2 as [[? H2]|[? H2]]; subst; try lia; unfold cyc in *; lia.
Qed.
Definition up (d a : Z) : Z := if (a =? 2 * d)%Z then 1%Z else (a + 1)%Z.
Definition down (d a : Z) : Z := if (a =? 1)%Z then (2 * d)%Z else (a - 1)%Z.
Lemma cyc_iff d a b : (1 <= a <= 2 * d)%Z -> (cyc (2 * d) a b <-> b = up d a \/ b = down d a).
Proof. intros A. unfold cyc, up, down. destruct (Z.eqb_spec a (2 * d)), (Z.eqb_spec a 1); lia. Qed.
Lemma up_down d a : (2 <= d)%Z -> (1 <= a <= 2 * d)%Z -> (up d a <> down d a /\ 1 <= up d a <= 2 * d /\ 1 <= down d a <= 2 * d /\ up d a mod 2 <> a mod 2 /\ down d a mod 2 <> a mod 2)%Z.
Proof. intros D A. unfold up, down. destruct (Z.eqb_spec a (2 * d)), (Z.eqb_spec a 1); lia. Qed.
(** The group whose generators meet the k-th logical operator in different factors. *)
Definition tgroup (k : nat) : group := match k with 0 => GB | 1 => GA | 2 => GB | _ => GA end.
Lemma toric_stab_log d a k : (2 <= d)%Z -> k < 4 -> In a (stab_ids (tvs d)) -> symp (ops (brow (tvs d) (tes d) a)) (ops (brow (tvs d) (tes d) (k + tn d))) = false.
Proof.
  intros D K A. apply in_stab_ids in A as (ga & [ai aj] & A). pose proof (tstab_pos _ _ _ _ _ A) as PA. unfold tbox in PA. cbn [fst snd] in PA. assert (ND := nodup_dpos _ (nodup_tvs d D)).
  assert (S : forall p, In p (dpos (tvs d)) -> (sp (fac (tes d) a p) (fac (tes d) (k + tn d) p) = true <-> tadj (2 * d) (ai, aj) p /\ tsup d k p = true /\ ga = tgroup k)).
  { intros p P. rewrite (tfac_log d k p D K P). destruct (tfac_stab d a ga _ p D A) as [[Ta ->]|[Na ->]]; [|split; [discriminate|tauto]].
    destruct (tsup d k p); [|split; [destruct ga; discriminate|intuition discriminate]].
    destruct PA as (_ & [[-> _]|[-> _]]); destruct k as [|[|[|[|k]]]]; try lia; cbn; intuition congruence. }
  destruct (up_down d ai D) as (ui & ui1 & ui2 & ui3 & ui4); [lia|]. destruct (up_down d aj D) as (uj & uj1 & uj2 & uj3 & uj4); [lia|].
  assert (Ci := cyc_iff d ai). assert (Cj := cyc_iff d aj).
  assert (G : ga = tgroup k \/ ga <> tgroup k) by (destruct ga, (tgroup k); auto; right; discriminate).
  destruct G as [G|G]. 2: { apply brow_none. intros p P. destruct (sp _ _) eqn:E; auto. apply S in E; tauto. }
  assert (NB : (k = 0 \/ k = 3) /\ ai <> (if k =? 0 then 1%Z else (2 * d)%Z) -> forall p, In p (dpos (tvs d)) -> sp (fac (tes d) a p) (fac (tes d) (k + tn d) p) = false).
  { intros [KK NE] [pi pj] P. destruct (sp _ _) eqn:E; auto. exfalso. apply S in E as (T & U & _); auto. unfold tadj in T. cbn [fst snd] in T. rewrite Ci, Cj in T by lia.
    destruct KK as [-> | ->]; cbn [tsup tgroup fst snd Nat.eqb] in *; subst ga; apply Z.eqb_eq in U; destruct PA as (PA & [(X & ?)|(X & ?)]); try discriminate; destruct T as [[T _]|[_ [T|T]]]; lia. }
  assert (NB' : (k = 1 \/ k = 2) /\ aj <> (if k =? 2 then 1%Z else (2 * d)%Z) -> forall p, In p (dpos (tvs d)) -> sp (fac (tes d) a p) (fac (tes d) (k + tn d) p) = false).
  { intros [KK NE] [pi pj] P. destruct (sp _ _) eqn:E; auto. exfalso. apply S in E as (T & U & _); auto. unfold tadj in T. cbn [fst snd] in T. rewrite Ci, Cj in T by lia.
    destruct KK as [-> | ->]; cbn [tsup tgroup fst snd Nat.eqb] in *; subst ga; apply Z.eqb_eq in U; destruct PA as (PA & [(X & ?)|(X & ?)]); try discriminate; destruct T as [[_ [T|T]]|[T _]]; lia. }
  assert (Row : (k = 0 \/ k = 3) /\ ai = (if k =? 0 then 1%Z else (2 * d)%Z) -> symp (ops (brow (tvs d) (tes d) a)) (ops (brow (tvs d) (tes d) (k + tn d))) = false).
  { intros [KK EQ]. apply (brow_two _ _ a _ (ai, up d aj) (ai, down d aj)); auto.
    - intros E. injection E. auto.
    - apply in_dpos, in_tdata. unfold tbox. cbn [fst snd]. destruct PA as (PA & [(X & ?)|(X & ?)]); lia.
    - apply in_dpos, in_tdata. unfold tbox. cbn [fst snd]. destruct PA as (PA & [(X & ?)|(X & ?)]); lia.
    - intros [pi pj] P. rewrite S by auto. unfold tadj. cbn [fst snd]. rewrite Ci, Cj by lia.
      assert (U : tsup d k (pi, pj) = true <-> pi = ai) by (destruct KK as [-> | ->]; cbn [tsup fst Nat.eqb] in *; rewrite Z.eqb_eq; lia). rewrite U. split.
      + intros ([[-> [-> | ->]]|[_ [T|T]]] & V & _); auto; exfalso; rewrite V in T; rewrite <- T in *; lia.
      + intros [E|E]; injection E as -> ->; auto. }
  assert (Col : (k = 1 \/ k = 2) /\ aj = (if k =? 2 then 1%Z else (2 * d)%Z) -> symp (ops (brow (tvs d) (tes d) a)) (ops (brow (tvs d) (tes d) (k + tn d))) = false).
  { intros [KK EQ]. apply (brow_two _ _ a _ (up d ai, aj) (down d ai, aj)); auto.
    - intros E. injection E. auto.
    - apply in_dpos, in_tdata. unfold tbox. cbn [fst snd]. destruct PA as (PA & [(X & ?)|(X & ?)]); lia.
    - apply in_dpos, in_tdata. unfold tbox. cbn [fst snd]. destruct PA as (PA & [(X & ?)|(X & ?)]); lia.
    - intros [pi pj] P. rewrite S by auto. unfold tadj. cbn [fst snd]. rewrite Ci, Cj by lia.
      assert (U : tsup d k (pi, pj) = true <-> pj = aj) by (destruct KK as [-> | ->]; cbn [tsup snd Nat.eqb] in *; rewrite Z.eqb_eq; lia). rewrite U. split.
      + intros ([[_ [T|T]]|[-> [-> | ->]]] & V & _); auto; exfalso; rewrite V in T; rewrite <- T in *; lia.
      + intros [E|E]; injection E as -> ->; auto. }
  destruct k as [|[|[|[|k]]]]; try lia.
  - destruct (Z.eq_dec ai 1); [apply Row; auto|apply brow_none; apply NB; auto].
  - destruct (Z.eq_dec aj (2 * d)); [apply Col; auto|apply brow_none; apply NB'; auto].
  - destruct (Z.eq_dec aj 1); [apply Col; auto|apply brow_none; apply NB'; auto].
  - destruct (Z.eq_dec ai (2 * d)); [apply Row; auto|apply brow_none; apply NB; auto].
Qed.
Lemma toric_log_log d k k' : (2 <= d)%Z -> k < 4 -> k' < 4 -> symp (ops (brow (tvs d) (tes d) (k + tn d))) (ops (brow (tvs d) (tes d) (k' + tn d))) = (k / 2 =? k' / 2) && negb (k =? k').
Proof.
  intros D.
  assert (F : forall k p, k < 4 -> In p (dpos (tvs d)) -> fac (tes d) (k + tn d) p = if tsup d k p then tbits k else (false, false)) by (intros; apply tfac_log; auto).
  assert (H : forall k k', k <= k' -> k' < 4 -> symp (ops (brow (tvs d) (tes d) (k + tn d))) (ops (brow (tvs d) (tes d) (k' + tn d))) = (k / 2 =? k' / 2) && negb (k =? k')).
  { intros x y L K'. assert (ND := nodup_dpos _ (nodup_tvs d D)).
    assert (C : x = y \/ (x = 0 /\ y = 1) \/ (x = 2 /\ y = 3) \/ (x = 0 /\ y = 2) \/ (x = 1 /\ y = 3) \/ (x = 0 /\ y = 3) \/ (x = 1 /\ y = 2)) by lia.
    destruct C as [->|[[-> ->]|[[-> ->]|[[-> ->]|[[-> ->]|[[-> ->]|[-> ->]]]]]]].
    - rewrite symp_self, !Nat.eqb_refl. auto.
    - apply (brow_one _ _ _ _ (1, 2 * d)%Z); auto. apply in_dpos, in_tdata; unfold tbox; cbn [fst snd]; lia.
      intros [i j] P. rewrite !F by auto with arith. cbn [tsup tbits fst snd]. destruct (Z.eqb_spec i 1), (Z.eqb_spec j (2 * d)); cbn; split; intros X; try discriminate; try (f_equal; auto; fail); auto; injection X; intros; lia.
    - apply (brow_one _ _ _ _ (2 * d, 1)%Z); auto. apply in_dpos, in_tdata; unfold tbox; cbn [fst snd]; lia.
      intros [i j] P. rewrite !F by auto with arith. cbn [tsup tbits fst snd]. destruct (Z.eqb_spec i (2 * d)), (Z.eqb_spec j 1); cbn; split; intros X; try discriminate; try (f_equal; auto; fail); auto; injection X; intros; lia.
    - apply brow_none. intros [i j] P. rewrite !F by auto with arith. cbn [tsup tbits fst snd]. destruct (i =? 1)%Z, (j =? 1)%Z; auto.
    - apply brow_none. intros [i j] P. rewrite !F by auto with arith. cbn [tsup tbits fst snd]. destruct (i =? 2 * d)%Z, (j =? 2 * d)%Z; auto.
    - apply brow_none. intros [i j] P. rewrite !F by auto with arith. cbn [tsup tbits fst snd]. destruct (Z.eqb_spec i 1), (Z.eqb_spec i (2 * d)); auto; lia.
    - apply brow_none. intros [i j] P. rewrite !F by auto with arith. cbn [tsup tbits fst snd]. destruct (Z.eqb_spec j 1), (Z.eqb_spec j (2 * d)); auto; lia. }
  intros K K'. destruct (Nat.leb_spec k k'). apply H; auto. rewrite symp_comm, H by lia. rewrite (Nat.eqb_sym k' k), (Nat.eqb_sym (k' / 2)). auto.
Qed.
(** * Counting *)
Lemma toric_data_count d : (2 <= d)%Z -> List.length (dpos (tvs d)) = Z.to_nat (2 * (d * d)).
Proof.
  intros D. rewrite (length_same _ (grid pair (zrange 1 (2 * d + 1) 2) (zrange 2 (2 * d + 1) 2) ++ grid pair (zrange 2 (2 * d + 1) 2) (zrange 1 (2 * d + 1) 2))).
  - rewrite app_length, !length_grid, !length_zrange. replace ((2 * d + 1 - 1 + 2 - 1) / 2)%Z with d by lia. replace ((2 * d + 1 - 2 + 2 - 1) / 2)%Z with d by lia.
    rewrite !Z2Nat.inj_mul by nia. change (Z.to_nat 2) with 2. lia.
  - apply nodup_dpos, nodup_tvs; auto.
  - apply NoDup_app3; try (apply nodup_grid; [apply nodup_zrange; lia|apply nodup_zrange; lia|intros ? ? ? ? E; injection E; auto]).
    intros p I J. apply in_grid in I as (i & j & I & I' & ->). apply in_grid in J as (i' & j' & J & J' & E). injection E as -> ->. rewrite in_zrange in I, J by lia. lia.
  - intros [i j]. rewrite in_dpos, in_tdata, in_app_iff, !in_grid. unfold tbox. cbn [fst snd]. split.
    + intros [A B]. destruct (Z.eqb_spec (i mod 2) 0); [right|left]; exists i, j; rewrite !in_zrange by lia; (split; [lia|split; [lia|auto]]).
    + intros [(x & y & X & Y & E)|(x & y & X & Y & E)]; injection E as -> ->; rewrite in_zrange in X, Y by lia; lia.
Qed.
Lemma toric_stab_count d : (2 <= d)%Z -> List.length (stab_ids (tvs d)) = Z.to_nat (2 * (d * d)).
Proof.
  intros D. rewrite length_stab_ids. rewrite (length_same _ (grid pair (zrange 1 (2 * d + 1) 2) (zrange 1 (2 * d + 1) 2) ++ grid pair (zrange 2 (2 * d + 1) 2) (zrange 2 (2 * d + 1) 2))).
  - rewrite app_length, !length_grid, !length_zrange. replace ((2 * d + 1 - 1 + 2 - 1) / 2)%Z with d by lia. replace ((2 * d + 1 - 2 + 2 - 1) / 2)%Z with d by lia.
    rewrite !Z2Nat.inj_mul by nia. change (Z.to_nat 2) with 2. lia.
  - apply nodup_spos, nodup_tvs; auto.
  - apply NoDup_app3; try (apply nodup_grid; [apply nodup_zrange; lia|apply nodup_zrange; lia|intros ? ? ? ? E; injection E; auto]).
    intros p I J. apply in_grid in I as (i & j & I & I' & ->). apply in_grid in J as (i' & j' & J & J' & E). injection E as -> ->. rewrite in_zrange in I, J by lia. lia.
  - intros [i j]. rewrite in_spos, in_app_iff, !in_grid. split.
    + intros [g I]. apply In_nth_error in I as [o I]. apply tstab_pos in I. unfold tbox in I. cbn [fst snd] in I. destruct (Z.eqb_spec (i mod 2) 0); [right|left]; exists i, j; rewrite !in_zrange by lia; (split; [lia|split; [lia|auto]]).
    + intros [(x & y & X & Y & E)|(x & y & X & Y & E)]; injection E as -> ->; rewrite in_zrange in X, Y by lia.
      * exists GB. apply in_app_iff. left. apply in_tgrid. split. unfold tbox; cbn [fst snd]; lia. unfold tkind. replace (x mod 2 =? y mod 2)%Z with true by lia. replace (y mod 2 =? 0)%Z with false by lia. auto.
      * exists GA. apply in_app_iff. left. apply in_tgrid. split. unfold tbox; cbn [fst snd]; lia. unfold tkind. replace (x mod 2 =? y mod 2)%Z with true by lia. replace (y mod 2 =? 0)%Z with true by lia. auto.
Qed.
Definition toric_code d : stabcode := mkStabcode (map (brow (tvs d) (tes d)) (stab_ids (tvs d))) (map (brow (tvs d) (tes d)) (log_ids (tvs d))).
Lemma toric_edge_of d o : (2 <= d)%Z -> In o (stab_ids (tvs d)) \/ In o (log_ids (tvs d)) -> exists p f, In (o, p, f) (tes d) /\ In p (dpos (tvs d)).
Proof.
  intros D I. assert (exists p f, In (o, p, f) (tes d)) as (p & f & E).
  { destruct I as [I|I].
    - apply in_stab_ids in I as (g & [i j] & Q). pose proof (tstab_pos _ _ _ _ _ Q) as [[P1 P2] _]. cbn [fst snd] in *. exists (i, up d j), (group_factor g). apply in_tes. left. exists g, (i, j). split; auto. split; auto.
      left. split; auto. apply cyc_iff; auto.
    - rewrite tlog_ids in I. assert (L : forall t, In t (tL d) -> In t (tes d)) by (intros; apply in_app_iff; auto).
      destruct I as [<-|[<-|[<-|[<-|[]]]]]; eexists _, _; apply L, in_tL; exists 0%Z; (split; [lia|]).
      left; auto. right; left; auto. right; right; left; auto. right; right; right; auto. }
  exists p, f. split; auto. apply in_dpos. apply (tes_okey d _ D E).
Qed.
Lemma toric_valid d : (2 <= d)%Z -> valid_code (Z.to_nat (2 * (d * d))) (Z.to_nat (2 * (d * d))) 2 (toric_code d).
Proof.
  intros D. rewrite <- toric_data_count at 1 by auto. rewrite <- toric_stab_count by auto. apply built_valid.
  - apply nodup_tes; auto.
  - rewrite tlog_ids. auto.
  - intros; apply toric_edge_of; auto.
  - intros; apply toric_stab_stab; auto.
  - intros a b A B. rewrite tlog_ids in B. destruct B as [<-|[<-|[<-|[<-|[]]]]]; apply toric_stab_log; auto with arith.
  - intros i j a b A B. rewrite tlog_ids in A, B.
    assert (E : forall i a, nth_error [0 + tn d; 1 + tn d; 2 + tn d; 3 + tn d] i = Some a -> i < 4 /\ a = i + tn d).
    { intros [|[|[|[|[]]]]] x Ex; cbn in Ex; try discriminate; injection Ex as <-; split; auto with arith. }
    destruct (E _ _ A) as [La ->]. destruct (E _ _ B) as [Lb ->]. apply toric_log_log; auto.
Qed.
Lemma toric_make d r : (2 <= d)%Z -> exists l, toric_lattice d nwes = Ok l /\ make_toric r d = Ok (mkCode (toric_code d) l r).
Proof.
  intros D. destruct (toric_built d nwes D) as (l & E & B & X & _). cbn; tauto. exists l. split; auto. unfold make_toric, make_code. rewrite E. cbn [bindR].
  rewrite (built_from _ _ _ _ B X); auto.
  - intros o O. destruct (toric_edge_of d o D O) as (p & f & I & _). eauto.
  - intros N. pose proof (toric_stab_count d D) as L. rewrite N in L. cbn [List.length] in L. nia.
  - exists 1. rewrite tlog_ids. auto.
Qed.
