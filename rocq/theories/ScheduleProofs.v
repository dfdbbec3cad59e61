(** The parallel schedules of the built-in codes. *)
Require Import List Bool Arith ZArith Lia String Permutation.
From Verif Require Import Base BaseProofs QSpec PauliModel PauliSem PauliProofs PauliAlg LatticeModel CodesModel CodesSpec LatticeSpec LatticeProofs LatticeEdit LatticeOps BuildProofs CodesProofs PlanarProofs ToricProofs RotatedProofs.
Import ListNotations.
Local Open Scope nat_scope.
Local Open Scope list_scope.
Ltac Zify.zify_post_hook ::= Z.to_euclidean_division_equations.
Local Opaque Z.mul Z.add Z.sub.

(** The time steps are given by a function of the positions. *)
Definition timed (tau : pos -> pos -> option nat) vs (l : lattice) : Prop :=
  forall e, In e (l_edges l) -> forall g q, nth_error vs (e_op e) = Some (KStab g, q) -> e_time e = tau q (v_pos (l_heap l (e_data e))).
Lemma built_same_data sh vs es l i j : built sh vs es l -> In i (l_data l) -> In j (l_data l) -> v_pos (l_heap l i) = v_pos (l_heap l j) -> i = j.
Proof.
  intros B I J E. apply (built_in_data _ _ _ _ _ B) in I as [p I]. apply (built_in_data _ _ _ _ _ B) in J as [p' J].
  destruct (b_vs _ _ _ _ B _ _ I) as [_ P1]. destruct (b_vs _ _ _ _ B _ _ J) as [_ P2]. cbn in P1, P2. apply (built_pos_inj _ _ _ _ _ _ KData KData p B); auto. congruence.
Qed.
Lemma edge_ends_inj l e e' : consistent l -> In e (l_edges l) -> In e' (l_edges l) -> e_op e = e_op e' -> e_data e = e_data e' -> e = e'.
Proof.
  intros C I J A B. pose proof (cons_simple _ C) as N. assert (E : ends e = ends e') by (unfold ends; congruence). clear - N I J E.
  induction (l_edges l) as [|x r IH]; cbn in *; [tauto|]. inversion N; subst. destruct I as [->|I], J as [->|J]; auto.
  - exfalso. apply H1. rewrite E. apply in_map; auto.
  - exfalso. apply H1. rewrite <- E. apply in_map; auto.
Qed.
Lemma timed_conflict_free tau sh vs es l n : built sh vs es l -> timed tau vs l -> l_steps l = Some n -> NoDup (map snd vs) ->
  (forall o p f g q, In (o, p, f) es -> nth_error vs o = Some (KStab g, q) -> exists t, tau q p = Some t /\ t < n) ->
  (forall o p f p' f' g q, In (o, p, f) es -> In (o, p', f') es -> nth_error vs o = Some (KStab g, q) -> tau q p = tau q p' -> p = p') ->
  (forall o p f o' f' g q g' q', In (o, p, f) es -> In (o', p, f') es -> nth_error vs o = Some (KStab g, q) -> nth_error vs o' = Some (KStab g', q') -> tau q p = tau q' p -> q = q') ->
  conflict_free l.
Proof.
  intros B T N ND H1 H2 H3.
  assert (K : forall e, In e (l_edges l) -> In (e_op e, v_pos (l_heap l (e_data e)), e_factor e) es). { intros e I. rewrite <- (b_edges _ _ _ _ B). apply in_map_iff. exists e. auto. }
  split.
  - intros e I O. rewrite (built_stabs _ _ _ _ B) in O. apply in_stab_ids in O as (g & q & Q). destruct (H1 _ _ _ _ _ (K e I) Q) as (t & E & L). exists t, n. rewrite (T e I g q Q). auto.
  - intros e e' I I' O O' Et S. rewrite (built_stabs _ _ _ _ B) in O, O'. apply in_stab_ids in O as (g & q & Q). apply in_stab_ids in O' as (g' & q' & Q').
    rewrite (T e I g q Q), (T e' I' g' q' Q') in Et. pose proof (K e I) as Ke. pose proof (K e' I') as Ke'.
    destruct (cons_ends _ (b_cons _ _ _ _ B) e I) as [D _]. destruct (cons_ends _ (b_cons _ _ _ _ B) e' I') as [D' _].
    destruct S as [S|S]; apply (edge_ends_inj l); auto; try apply (b_cons _ _ _ _ B).
    + rewrite <- S in Q', Ke'. rewrite Q in Q'. injection Q' as <- <-. apply (built_same_data _ _ _ _ _ _ B D D'). eapply H2; eauto.
    + rewrite <- S in Ke', Et. assert (q = q') by (exact (H3 _ _ _ _ _ _ _ _ _ Ke Ke' Q Q' Et)). subst q'. eapply (built_pos_inj _ _ _ _ _ _ _ _ q B); eauto.
Qed.
Lemma timed_gate tau sh vs es l o d p f g q : built sh vs es l -> timed tau vs l -> In d (l_data l) -> v_pos (l_heap l d) = p -> In (o, p, f) es -> nth_error vs o = Some (KStab g, q) -> gate_time l o d = tau q p.
Proof.
  intros B T D P I Q. unfold gate_time. destruct (find _ _) as [e|] eqn:F.
  - apply find_some in F as [F1 F2]. apply andb_true_iff in F2 as [F2 F3]. apply Nat.eqb_eq in F2, F3. subst o d p. apply (T e F1 g q); auto.
  - exfalso. rewrite <- (b_edges _ _ _ _ B) in I. apply in_map_iff in I as (e & E & I). injection E as E1 E2 E3. pose proof (find_none _ _ F e I) as X. cbn in X.
    assert (e_data e = d). { apply (built_same_data _ _ _ _ _ _ B); auto. apply (cons_ends _ (b_cons _ _ _ _ B)); auto. congruence. }
    rewrite E1, H, !Nat.eqb_refl in X. discriminate.
Qed.
Lemma filter_map_length {A B} (f : A -> B) (P : A -> bool) (Q : B -> bool) l : (forall x, In x l -> P x = Q (f x)) -> List.length (filter P l) = List.length (filter Q (map f l)).
Proof. induction l; cbn; auto. intros H. rewrite (H a) by auto. destruct (Q (f a)); cbn; rewrite IHl; auto. Qed.
Lemma fac_edge es o p : fac es o p <> (false, false) -> exists f, In (o, p, f) es.
Proof.
  unfold fac. destruct (find _ es) as [[[o' p'] f]|] eqn:F; [|congruence]. intros _. apply find_some in F as [I E]. cbn in E. apply andb_true_iff in E as [E1 E2]. apply Nat.eqb_eq in E1. apply pos_eqb_eq in E2. subst. eauto.
Qed.
Lemma timed_interleaves tau sh vs es l : built sh vs es l -> timed tau vs l ->
  (forall s t g q g' q', nth_error vs s = Some (KStab g, q) -> nth_error vs t = Some (KStab g', q') ->
     exists L, NoDup L /\ Nat.even (List.length L) = true /\ (forall p, In p L <-> In p (dpos vs) /\ sp (fac es s p) (fac es t p) = true /\ before (tau q p) (tau q' p) = true)) ->
  NoDup (dpos vs) -> interleaves l.
Proof.
  intros B T H ND s t S T'. rewrite (built_stabs _ _ _ _ B) in S, T'. apply in_stab_ids in S as (g & q & Q). apply in_stab_ids in T' as (g' & q' & Q').
  destruct (H s t g q g' q' Q Q') as (L & NL & EL & HL). unfold crossings.
  rewrite (filter_map_length (fun d => v_pos (l_heap l d)) _ (fun p => sp (fac es s p) (fac es t p) && before (tau q p) (tau q' p))).
  - rewrite (built_dpos _ _ _ _ B). rewrite (count_exact _ _ L); auto. intros p. rewrite HL, andb_true_iff. tauto.
  - intros d D. rewrite !(built_pw _ _ _ _ _ _ B D). destruct (sp _ _) eqn:E; auto. cbn [andb].
    destruct (fac_edge es s (v_pos (l_heap l d))) as [f F]. { intros X. rewrite X in E. discriminate. }
    destruct (fac_edge es t (v_pos (l_heap l d))) as [f' F']. { intros X. rewrite X in E. rewrite sp_zero_r in E. discriminate. }
    rewrite (timed_gate tau _ _ _ _ s d _ f g q B T D eq_refl F Q), (timed_gate tau _ _ _ _ t d _ f' g' q' B T D eq_refl F' Q'). auto.
Qed.
Lemma index_of_lt x order t : index_of x order = Some t -> t < List.length order.
Proof. revert t. induction order; cbn; intros t; [discriminate|]. destruct (pos_eqb x a). intros E; injection E as <-; lia. destruct (index_of x order); [|discriminate]. cbn. intros E; injection E as <-. specialize (IHorder n eq_refl). lia. Qed.
Lemma index_of_inj x y order t : index_of x order = Some t -> index_of y order = Some t -> x = y.
Proof.
  revert t. induction order; cbn; intros t; [discriminate|]. destruct (pos_eqb x a) eqn:E1, (pos_eqb y a) eqn:E2.
  - apply pos_eqb_eq in E1, E2. congruence.
  - intros E; injection E as <-. destruct (index_of y order); discriminate.
  - intros E F; injection F as <-. destruct (index_of x order); discriminate.
  - destruct (index_of x order), (index_of y order); try discriminate. cbn. intros E F. injection E as <-. injection F as E. subst. eapply IHorder; eauto.
Qed.
Lemma index_of_same x y order : (exists t, index_of x order = Some t) -> index_of x order = index_of y order -> x = y.
Proof. intros [t E] F. eapply index_of_inj; eauto. congruence. Qed.
(** * Planar *)
Lemma planar_displacement q p : cadj q p -> displacement q p = (fst p - fst q, snd p - snd q)%Z.
Proof. unfold cadj, displacement, periodic. intros A. destruct (Z.ltb_spec 1 (Z.abs (fst p - fst q))); [lia|]. destruct (Z.ltb_spec 1 (Z.abs (snd p - snd q))); [lia|]. auto. Qed.
Lemma planar_edge_adj d o p f g q : nth_error (pvs d) o = Some (KStab g, q) -> In (o, p, f) (pes d) -> cadj q p.
Proof.
  intros Q I. apply in_pes in I as [(g' & q' & Q' & A & _)|(x & _ & J)]. rewrite Q in Q'. injection Q' as <- <-. auto.
  destruct (pvs_logical d). destruct J as [(-> & _)|(-> & _)]; congruence.
Qed.
Lemma planar_in_cross q p : cadj q p -> In (displacement q p) cross.
Proof. intros A. rewrite planar_displacement by auto. apply in_cross. unfold cadj in A. lia. Qed.
Lemma planar_conflict_free d order : (2 <= d)%Z -> (forall x, In x cross -> In x order) -> exists l, planar_lattice d order = Ok l /\ conflict_free l.
Proof.
  intros D O. destruct (planar_built d order D O) as (l & E & B & X & T & St). exists l. split; auto.
  assert (Ex : forall q p, cadj q p -> exists t, index_of (displacement q p) order = Some t) by (intros; apply index_of_in, O, planar_in_cross; auto).
  apply (timed_conflict_free (fun q p => index_of (displacement q p) order) _ _ _ _ _ B T St).
  - apply nodup_pvs; auto.
  - intros o p f g q I Q. destruct (Ex q p) as [t T']. eapply planar_edge_adj; eauto. exists t. split; auto. eapply index_of_lt; eauto.
  - intros o p f p' f' g q I I' Q F. pose proof (planar_edge_adj _ _ _ _ _ _ Q I) as A. pose proof (planar_edge_adj _ _ _ _ _ _ Q I') as A'.
    apply index_of_same in F; auto. rewrite !planar_displacement in F by auto. injection F as F1 F2. destruct p, p'; cbn [fst snd] in *. f_equal; lia.
  - intros o p f o' f' g q g' q' I I' Q Q' F. pose proof (planar_edge_adj _ _ _ _ _ _ Q I) as A. pose proof (planar_edge_adj _ _ _ _ _ _ Q' I') as A'.
    apply index_of_same in F; auto. rewrite !planar_displacement in F by auto. injection F as F1 F2. destruct q, q'; cbn [fst snd] in *. f_equal; lia.
Qed.
Definition nwes_time (x y : Z) : nat := if (y =? 1)%Z then 0 else if (x =? -1)%Z then 1 else if (x =? 1)%Z then 2 else 3.
Lemma nwes_index x y : In (x, y) cross -> index_of (x, y) nwes = Some (nwes_time x y).
Proof. intros I. apply in_cross in I as [[-> [-> | ->]]|[-> [-> | ->]]]; reflexivity. Qed.
Lemma even_two {A} (a b : A) : a <> b -> NoDup [a; b].
Proof. intros N. constructor. intros [E|[]]; congruence. constructor; auto. constructor. Qed.
Lemma planar_interleaves d : (2 <= d)%Z -> exists l, planar_lattice d nwes = Ok l /\ interleaves l.
Proof.
  intros D. destruct (planar_built d nwes D) as (l & E & B & X & T & St). cbn; tauto. exists l. split; auto.
  assert (ND := nodup_dpos _ (nodup_pvs d D)).
  apply (timed_interleaves (fun q p => index_of (displacement q p) nwes) _ _ _ _ B T); auto.
  intros s t ga [ai aj] gb [bi bj] A Bq. pose proof (pstab_pos _ _ _ _ _ A) as PA. pose proof (pstab_pos _ _ _ _ _ Bq) as PB. unfold pbox in PA, PB. cbn [fst snd] in PA, PB.
  assert (S : forall p, In p (dpos (pvs d)) -> (sp (fac (pes d) s p) (fac (pes d) t p) = true <-> cadj (ai, aj) p /\ cadj (bi, bj) p /\ ga <> gb)).
  { intros p P. rewrite (pfac_stab _ _ _ _ _ A P), (pfac_stab _ _ _ _ _ Bq P). unfold cadjb, cadj. cbn [fst snd].
    destruct (Z.eqb_spec (Z.abs (fst p - ai) + Z.abs (snd p - aj)) 1), (Z.eqb_spec (Z.abs (fst p - bi) + Z.abs (snd p - bj)) 1); destruct ga, gb; cbn; intuition congruence. }
  assert (Tm : forall i j p, cadj (i, j) p -> index_of (displacement (i, j) p) nwes = Some (nwes_time (fst p - i) (snd p - j))).
  { intros i j p C. pose proof (planar_in_cross _ _ C) as I. rewrite planar_displacement in * by auto. cbn [fst snd] in *. apply nwes_index; auto. }
  assert (G : (ga = gb /\ (ai - bi) mod 2 = 0 /\ (aj - bj) mod 2 = 0 \/ ga <> gb /\ (ai - bi) mod 2 = 1 /\ (aj - bj) mod 2 = 1)%Z).
  { destruct PA as (_ & ? & [[-> PA]|[-> PA]]), PB as (_ & ? & [[-> PB]|[-> PB]]); [left|right|right|left]; (split; [auto; discriminate|]); lia. }
  assert (C : (ga <> gb /\ Z.abs (bi - ai) = 1 /\ bj = aj + 1)%Z \/ ~ (ga <> gb /\ Z.abs (bi - ai) = 1 /\ bj = aj + 1)%Z).
  { destruct G as [[G _]|[G _]]. tauto. destruct (Z.eq_dec (Z.abs (bi - ai)) 1), (Z.eq_dec bj (aj + 1)); tauto. }
  destruct C as [(G1 & C1 & ->)|C].
  - exists [(bi, aj); (ai, aj + 1)%Z]. split; [|split; auto].
    + apply even_two. intros F. injection F as F1 F2. lia.
    + intros p. split.
      * intros [<-|[<-|[]]]; (assert (P : forall p, p = (bi, aj) \/ p = (ai, aj + 1)%Z -> In p (dpos (pvs d))) by (intros p0 [-> | ->]; apply in_dpos, in_pdata; unfold pbox; cbn [fst snd]; lia)); (split; [apply P; auto|]);
          (split; [apply S; [apply P; auto|]; unfold cadj; cbn [fst snd]; repeat split; auto; lia|]); rewrite !Tm by (unfold cadj; cbn [fst snd]; lia); cbn [fst snd before]; unfold nwes_time; apply Nat.ltb_lt;
          repeat (match goal with |- context [(?u =? ?v)%Z] => destruct (Z.eqb_spec u v) end); lia.
      * intros (P & F & _). apply S in F as (F1 & F2 & _); auto. destruct p as [pi pj]. unfold cadj in F1, F2. cbn [fst snd] in *. assert ((pi = bi /\ pj = aj) \/ (pi = ai /\ pj = aj + 1))%Z as [[-> ->]|[-> ->]] by lia; cbn [In]; auto.
  - exists []. split; [constructor|]. split; auto. intros p. split; [intros []|]. intros (P & F & Bf). apply S in F as (F1 & F2 & F3); auto. rewrite !Tm in Bf by auto. cbn [before] in Bf. apply Nat.ltb_lt in Bf.
    unfold cadj, nwes_time in *. cbn [fst snd] in *. exfalso. destruct G as [[G _]|[_ G]]; [auto|].
    assert (W : (Z.abs (bi - ai) = 1 /\ bj = aj - 1)%Z). { assert (~ (Z.abs (bi - ai) = 1 /\ bj = aj + 1)%Z) by tauto. lia. } 
    destruct W as [W ->]. assert ((fst p = bi /\ snd p = aj) \/ (fst p = ai /\ snd p = aj - 1))%Z as [[Y1 Y2]|[Y1 Y2]] by lia; rewrite Y1, Y2 in Bf; revert Bf;
    repeat (match goal with |- context [(?u =? ?v)%Z] => destruct (Z.eqb_spec u v) end); lia.
Qed.
