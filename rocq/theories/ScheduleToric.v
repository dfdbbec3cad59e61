(** The parallel schedule of the toric code. *)
Require Import List Bool Arith ZArith Lia String Permutation.
From Verif Require Import Base BaseProofs QSpec PauliModel PauliSem PauliProofs PauliAlg LatticeModel CodesModel CodesSpec LatticeSpec LatticeProofs LatticeEdit LatticeOps BuildProofs CodesProofs ToricProofs ScheduleProofs.
Import ListNotations.
Local Open Scope nat_scope.
Local Open Scope list_scope.
Ltac Zify.zify_post_hook ::= Z.to_euclidean_division_equations.
Local Opaque Z.mul Z.add Z.sub.

Lemma cyc_inv d a b : (2 <= d)%Z -> (1 <= a <= 2 * d)%Z -> cyc (2 * d) a b ->
  ((1 <= b <= 2 * d /\ a mod 2 <> b mod 2) /\ (b = up d a /\ a = down d b /\ periodic (b - a) = 1 /\ periodic (a - b) = -1 \/ b = down d a /\ a = up d b /\ periodic (b - a) = -1 /\ periodic (a - b) = 1))%Z.
Proof.
  intros D A C. unfold cyc in C. destruct C as [[-> C]|[[-> C]|[[-> ->]|[-> ->]]]]; (split; [split; lia|]); unfold up, down, periodic;
  [left|right|left|right]; (split; [|split; [|split]]);
  repeat (match goal with |- context [(?u =? ?v)%Z] => destruct (Z.eqb_spec u v) | |- context [(?u <? ?v)%Z] => destruct (Z.ltb_spec u v) end); lia.
Qed.
Lemma periodic_zero a : periodic (a - a) = 0%Z.
Proof. rewrite Z.sub_diag. reflexivity. Qed.
Lemma toric_edge_adj d o p f g q : (2 <= d)%Z -> nth_error (tvs d) o = Some (KStab g, q) -> In (o, p, f) (tes d) -> tbox d q /\ tadj (2 * d) q p.
Proof.
  intros D Q I. apply in_tes in I as [(g' & q' & Q' & A & _)|I].
  - rewrite Q in Q'. injection Q' as <- <-. destruct q as [i j]. apply tstab_pos in Q as [Q _]. auto.
  - exfalso. apply in_tL in I as (x & _ & J). destruct J as [(-> & _)|[(-> & _)|[(-> & _)|(-> & _)]]];
      [apply (tlog_not_stab d 0 g q)|apply (tlog_not_stab d 1 g q)|apply (tlog_not_stab d 2 g q)|apply (tlog_not_stab d 3 g q)]; auto with arith.
Qed.
Lemma toric_conflict_free d order : (2 <= d)%Z -> (forall x, In x cross -> In x order) -> exists l, toric_lattice d order = Ok l /\ conflict_free l.
Proof.
  intros D O. destruct (toric_built d order D O) as (l & E & B & X & T & St). exists l. split; auto.
  assert (Ex : forall q p, tbox d q -> tadj (2 * d) q p -> exists t, index_of (displacement q p) order = Some t) by (intros; apply index_of_in, O, (tadj_displacement d); auto).
  apply (timed_conflict_free (fun q p => index_of (displacement q p) order) _ _ _ _ _ B T St).
  - apply nodup_tvs; auto.
  - intros o p f g q I Q. destruct (toric_edge_adj _ _ _ _ _ _ D Q I) as [Bq A]. destruct (Ex q p) as [t T']; auto. exists t. split; auto. eapply index_of_lt; eauto.
  - intros o p f p' f' g q I I' Q F. destruct (toric_edge_adj _ _ _ _ _ _ D Q I) as [Bq A]. destruct (toric_edge_adj _ _ _ _ _ _ D Q I') as [_ A'].
    apply index_of_same in F; auto. destruct q as [qi qj], p as [pi pj], p' as [ri rj]. unfold displacement, tadj, tbox in *. cbn [fst snd] in *. destruct Bq as [B1 B2]. injection F as F1 F2.
    destruct A as [[-> A]|[-> A]], A' as [[-> A']|[-> A']]; apply cyc_inv in A as [_ [(-> & _ & P1 & _)|(-> & _ & P1 & _)]]; auto; apply cyc_inv in A' as [_ [(-> & _ & P2 & _)|(-> & _ & P2 & _)]]; auto; rewrite ?periodic_zero in *; try congruence; lia.
  - intros o p f o' f' g q g' q' I I' Q Q' F. destruct (toric_edge_adj _ _ _ _ _ _ D Q I) as [Bq A]. destruct (toric_edge_adj _ _ _ _ _ _ D Q' I') as [Bq' A'].
    apply index_of_same in F; auto. destruct q as [qi qj], p as [pi pj], q' as [ri rj]. unfold displacement, tadj, tbox in *. cbn [fst snd] in *. destruct Bq as [B1 B2]. destruct Bq' as [B3 B4]. injection F as F1 F2.
    destruct A as [[-> A]|[-> A]], A' as [[E' A']|[E' A']]; apply cyc_inv in A as [_ [(_ & Z1 & P1 & _)|(_ & Z1 & P1 & _)]]; auto; apply cyc_inv in A' as [_ [(_ & Z2 & P2 & _)|(_ & Z2 & P2 & _)]]; auto; subst; rewrite ?periodic_zero in *; try congruence; lia.
Qed.
Lemma toric_interleaves d : (2 <= d)%Z -> exists l, toric_lattice d nwes = Ok l /\ interleaves l.
Proof.
  intros D. destruct (toric_built d nwes D) as (l & E & B & X & T & St). cbn; tauto. exists l. split; auto.
  assert (ND := nodup_dpos _ (nodup_tvs d D)).
  apply (timed_interleaves (fun q p => index_of (displacement q p) nwes) _ _ _ _ B T); auto.
  intros s t ga [ai aj] gb [bi bj] A Bq. pose proof (tstab_pos _ _ _ _ _ A) as PA. pose proof (tstab_pos _ _ _ _ _ Bq) as PB. unfold tbox in PA, PB. cbn [fst snd] in PA, PB.
  assert (S : forall p, sp (fac (tes d) s p) (fac (tes d) t p) = true <-> tadj (2 * d) (ai, aj) p /\ tadj (2 * d) (bi, bj) p /\ ga <> gb).
  { intros p. destruct (tfac_stab d s ga _ p D A) as [[Ta ->]|[Na ->]]; [|split; [discriminate|tauto]].
    destruct (tfac_stab d t gb _ p D Bq) as [[Tb ->]|[Nb ->]]; [|split; [destruct ga; discriminate|tauto]].
    destruct PA as (_ & [[-> _]|[-> _]]), PB as (_ & [[-> _]|[-> _]]); cbn; intuition congruence. }
  assert (G : (ga = gb /\ (ai - bi) mod 2 = 0 /\ (aj - bj) mod 2 = 0 \/ ga <> gb /\ (ai - bi) mod 2 = 1 /\ (aj - bj) mod 2 = 1)%Z).
  { destruct PA as (_ & [[-> PA]|[-> PA]]), PB as (_ & [[-> PB]|[-> PB]]); [left|right|right|left]; (split; [auto; discriminate|]); lia. }
  destruct PA as ((PA1 & PA2) & PA3). destruct PB as ((PB1 & PB2) & PB3).
  (* the two candidates *)
  assert (W : forall p, sp (fac (tes d) s p) (fac (tes d) t p) = true -> cyc (2 * d) ai bi /\ cyc (2 * d) aj bj /\ (p = (bi, aj) \/ p = (ai, bj))).
  { intros [pi pj] F. apply S in F as (H1 & H2 & F3). destruct G as [[G _]|[_ G]]; [congruence|]. unfold tadj in H1, H2. cbn [fst snd] in *.
    destruct H1 as [[-> H1]|[-> H1]], H2 as [[H0 H2]|[H0 H2]]; subst; try (exfalso; apply cyc_inv in H1; apply cyc_inv in H2; auto; lia).
    - split; [|split; auto]. unfold cyc in *; lia. - split; [|split; auto]; unfold cyc in *; lia. }
  destruct (cyc_cases d ai bi D) as [C1|C1]; [destruct (cyc_cases d aj bj D) as [C2|C2]|].
  2,3: exists []; (split; [constructor|split; auto]); intros p; split; [intros []|]; intros (_ & F & _); apply W in F; tauto.
  assert (G1 : ga <> gb). { destruct G as [[_ G]|[G _]]; auto. apply cyc_inv in C1; auto. lia. }
  destruct (cyc_inv _ _ _ D PA1 C1) as [_ H1]. destruct (cyc_inv _ _ _ D PA2 C2) as [_ H2].
  assert (H1' : (periodic (bi - ai) = 1 /\ periodic (ai - bi) = -1 \/ periodic (bi - ai) = -1 /\ periodic (ai - bi) = 1)%Z) by tauto.
  assert (NP : (bi, aj) <> (ai, bj)). { intros F. injection F as F1 F2. apply cyc_inv in C1; auto. lia. }
  assert (Sy : forall a b, (1 <= a <= 2 * d)%Z -> cyc (2 * d) a b -> cyc (2 * d) b a) by (intros a b; unfold cyc; lia).
  pose proof (Sy _ _ PA1 C1) as C1s. pose proof (Sy _ _ PA2 C2) as C2s.
  assert (M : (ai mod 2 = aj mod 2 /\ ai mod 2 <> bi mod 2 /\ bi mod 2 = bj mod 2)%Z). { assert ((ai mod 2 = aj mod 2 /\ bi mod 2 = bj mod 2)%Z) by (destruct PA3 as [[_ ?]|[_ ?]], PB3 as [[_ ?]|[_ ?]]; lia). apply cyc_inv in C1; auto. lia. }
  destruct H2 as [(_ & _ & P2 & P2')|(_ & _ & P2 & P2')].
  - exists [(bi, aj); (ai, bj)]. split; [apply even_two; auto|split; auto]. intros p. split.
    + intros I. assert (P : In p (dpos (tvs d)) /\ sp (fac (tes d) s p) (fac (tes d) t p) = true).
      { destruct I as [<-|[<-|[]]]; (split; [apply in_dpos, in_tdata; unfold tbox; cbn [fst snd]; clear - PA1 PA2 PB1 PB2 M; lia|]); apply S; unfold tadj; cbn [fst snd]; (split; [|split; auto]); auto. }
      split; [tauto|split; [tauto|]]. destruct I as [<-|[<-|[]]]; unfold displacement; cbn [fst snd]; rewrite ?periodic_zero, ?P2, ?P2'; destruct H1' as [[Y1 Y2]|[Y1 Y2]]; rewrite ?Y1, ?Y2; reflexivity.
    + intros (_ & F & _). apply W in F as (_ & _ & [-> | ->]); cbn [In]; auto.
  - exists []. split; [constructor|]. split; auto. intros p. split; [intros []|]. intros (_ & F & Bf). exfalso. apply W in F as (_ & _ & [-> | ->]);
      unfold displacement in Bf; cbn [fst snd] in Bf; rewrite ?periodic_zero, ?P2, ?P2' in Bf; destruct H1' as [[Y1 Y2]|[Y1 Y2]]; rewrite ?Y1, ?Y2 in Bf; discriminate Bf.
Qed.
