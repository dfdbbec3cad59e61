(** The rotated planar code and its XZZX variant for every size. *)
Require Import List Bool Arith ZArith Lia String Permutation.
From Verif Require Import Base BaseProofs QSpec PauliModel PauliSem PauliProofs PauliAlg LatticeModel CodesModel CodesSpec LatticeSpec LatticeProofs LatticeEdit LatticeOps BuildProofs CodesProofs.
Import ListNotations.
Local Open Scope nat_scope.
Local Open Scope list_scope.
Ltac Zify.zify_post_hook ::= Z.to_euclidean_division_equations.
Local Opaque Z.mul Z.add Z.sub.

Definition rdata (d : Z) : list (kind * pos) := flat_map (fun i => flat_map (fun j => [(KData, (i, j))]) (zrange 1 (2 * d) 2)) (zrange 1 (2 * d) 2).
Definition rinner (d : Z) : list (kind * pos) :=
  flat_map (fun i => flat_map (fun j => [(if ((i / 2) mod 2 =? (j / 2) mod 2)%Z then KStab GA else KStab GB, (i, j))]) (zrange 2 (2 * d) 2)) (zrange 2 (2 * d) 2).
Definition rtop (d : Z) : list (kind * pos) := flat_map (fun i => [(KStab GA, (0, i)%Z); (KStab GA, (2 * d, i - d mod 2 * 2)%Z)]) (zrange 4 (2 * d) 4).
Definition rside (d : Z) : list (kind * pos) := flat_map (fun i => [(KStab GB, (i, 0)%Z); (KStab GB, (i + d mod 2 * 2, 2 * d)%Z)]) (zrange 2 (2 * d) 4).
Definition rgrid d := rdata d ++ rinner d ++ rtop d ++ rside d.
Definition rT (d : Z) (xzzx : bool) (s : nat) (p : pos) (g : group) : list (nat * pos * factor) :=
  flat_map (fun x : factor * pos => if ((1 <=? fst p + fst (snd x)) && (fst p + fst (snd x) <=? 2 * d - 1) && (1 <=? snd p + snd (snd x)) && (snd p + snd (snd x) <=? 2 * d - 1))%Z
                     then [(s, (fst p + fst (snd x), snd p + snd (snd x))%Z, if xzzx then fst x else group_factor g)] else []) corners.
Definition rmid d := (d + d mod 2 - 1)%Z.
Definition rlog (d : Z) : list (kind * pos) := [(KLogical "X", (rmid d, 0)%Z); (KLogical "Z", (0, rmid d)%Z)].
Definition rvs d := rgrid d ++ rlog d.
Definition rn d := List.length (rgrid d).
Definition rL (d : Z) (xzzx : bool) : list (nat * pos * factor) :=
  flat_map (fun i => [(rn d, (i, 1)%Z, if negb xzzx || ((i / 2) mod 2 =? 0)%Z then FX else FZ); (S (rn d), (1, i)%Z, if negb xzzx || ((i / 2) mod 2 =? 0)%Z then FZ else FX)]) (zrange 1 (2 * d) 2).
Definition res d xzzx := flat_map (stab_edges (rT d xzzx)) (numbered (rgrid d)) ++ rL d xzzx.

(** Data qubits at odd coordinates; generators at twice the coordinates [a], [b]. *)
Definition rbox (d : Z) (p : pos) : Prop := (1 <= fst p <= 2 * d - 1 /\ 1 <= snd p <= 2 * d - 1)%Z.
Definition stabat (d a b : Z) : Prop :=
  (0 <= a <= d /\ 0 <= b <= d /\ (a = 0 \/ a = d -> a mod 2 = b mod 2 /\ 1 <= b <= d - 1) /\ (b = 0 \/ b = d -> a mod 2 <> b mod 2 /\ 1 <= a <= d - 1))%Z.
Definition rgroup (a b : Z) : group := if (a mod 2 =? b mod 2)%Z then GA else GB.

Lemma in_rdata d k i j : In (k, (i, j)) (rdata d) <-> (rbox d (i, j) /\ i mod 2 = 1 /\ j mod 2 = 1)%Z /\ k = KData.
Proof.
  unfold rdata, rbox. rewrite in_flat_map. cbn [fst snd]. split.
  - intros (i' & I & J). apply in_flat_map in J as (j' & J & [E|[]]). injection E as <- <- <-. rewrite in_zrange in I, J by lia. split; auto. lia.
  - intros [A ->]. exists i. rewrite in_zrange by lia. split. lia. apply in_flat_map. exists j. rewrite in_zrange by lia. split. lia. left; auto.
Qed.
Lemma in_rinner d k i j : In (k, (i, j)) (rinner d) <-> exists a b, (i = 2 * a /\ j = 2 * b /\ 1 <= a <= d - 1 /\ 1 <= b <= d - 1)%Z /\ k = KStab (rgroup a b).
Proof.
  unfold rinner. rewrite in_flat_map. split.
  - intros (i' & I & J). apply in_flat_map in J as (j' & J & [E|[]]). injection E as <- <- <-. rewrite in_zrange in I, J by lia. exists (i' / 2)%Z, (j' / 2)%Z. split. lia. unfold rgroup. destruct (_ =? _)%Z; auto.
  - intros (a & b & (-> & -> & A & B) & ->). exists (2 * a)%Z. rewrite in_zrange by lia. split. lia. apply in_flat_map. exists (2 * b)%Z. rewrite in_zrange by lia. split. lia.
    left. unfold rgroup. replace (2 * a / 2)%Z with a by lia. replace (2 * b / 2)%Z with b by lia. destruct (_ =? _)%Z; auto.
Qed.
Lemma in_rtop d k i j : In (k, (i, j)) (rtop d) <-> exists a b, (i = 2 * a /\ j = 2 * b /\ (a = 0 \/ a = d) /\ a mod 2 = b mod 2 /\ 1 <= b <= d - 1)%Z /\ k = KStab GA.
Proof.
  unfold rtop. rewrite in_flat_map. split.
  - intros (x & I & [E|[E|[]]]); injection E as <- <- <-; rewrite in_zrange in I by lia.
    + exists 0%Z, (x / 2)%Z. split; auto. lia.
    + exists d, ((x - d mod 2 * 2) / 2)%Z. split; auto. lia.
  - intros (a & b & (-> & -> & [-> | ->] & A & B) & ->).
    + exists (2 * b)%Z. rewrite in_zrange by lia. split. lia. left. auto.
    + exists (2 * b + d mod 2 * 2)%Z. rewrite in_zrange by lia. split. lia. right; left. do 2 f_equal. lia.
Qed.
Lemma in_rside d k i j : In (k, (i, j)) (rside d) <-> exists a b, (i = 2 * a /\ j = 2 * b /\ (b = 0 \/ b = d) /\ a mod 2 <> b mod 2 /\ 1 <= a <= d - 1)%Z /\ k = KStab GB.
Proof.
  unfold rside. rewrite in_flat_map. split.
  - intros (x & I & [E|[E|[]]]); injection E as <- <- <-; rewrite in_zrange in I by lia.
    + exists (x / 2)%Z, 0%Z. split; auto. lia.
    + exists ((x + d mod 2 * 2) / 2)%Z, d. split; auto. lia.
  - intros (a & b & (-> & -> & [-> | ->] & A & B) & ->).
    + exists (2 * a)%Z. rewrite in_zrange by lia. split. lia. left. auto.
    + exists (2 * a - d mod 2 * 2)%Z. rewrite in_zrange by lia. split. lia. right; left. do 2 f_equal. lia.
Qed.
Lemma in_rstab d g i j : In (KStab g, (i, j)) (rgrid d) <-> exists a b, i = (2 * a)%Z /\ j = (2 * b)%Z /\ stabat d a b /\ g = rgroup a b.
Proof.
  unfold rgrid. rewrite !in_app_iff, in_rdata, in_rinner, in_rtop, in_rside. unfold stabat. split.
  - intros [[_ E]|[(a & b & A & E)|[(a & b & A & E)|(a & b & A & E)]]]; [discriminate| | |]; injection E as ->; exists a, b; (split; [lia|split; [lia|split; [lia|]]]); auto; unfold rgroup.
    + replace (a mod 2 =? b mod 2)%Z with true by lia. auto.
    + replace (a mod 2 =? b mod 2)%Z with false by lia. auto.
  - intros (a & b & -> & -> & A & ->). right.
    assert (C : (a = 0 \/ a = d)%Z \/ (b = 0 \/ b = d)%Z \/ (1 <= a <= d - 1 /\ 1 <= b <= d - 1)%Z) by lia. destruct C as [C|[C|C]].
    + right; left. exists a, b. split. lia. unfold rgroup. replace (a mod 2 =? b mod 2)%Z with true by lia. auto.
    + right; right. exists a, b. split. lia. unfold rgroup. replace (a mod 2 =? b mod 2)%Z with false by lia. auto.
    + left. exists a, b. split; [lia|auto].
Qed.
Lemma in_rgdata d i j : In (KData, (i, j)) (rgrid d) <-> (rbox d (i, j) /\ i mod 2 = 1 /\ j mod 2 = 1)%Z.
Proof.
  unfold rgrid. rewrite !in_app_iff, in_rdata, in_rinner, in_rtop, in_rside. split; [|tauto].
  intros [[A _]|[(a & b & A & E)|[(a & b & A & E)|(a & b & A & E)]]]; auto; discriminate.
Qed.
Lemma nodup_rgrid d : NoDup (map snd (rgrid d)).
Proof.
  unfold rgrid. rewrite !map_app. 
  assert (N1 : NoDup (map snd (rdata d))).
  { apply nodup_flat_map. apply nodup_zrange; lia.
    - intros i I. apply nodup_flat_map. apply nodup_zrange; lia. intros. cbn. constructor; auto; constructor.
      intros x y a b _ _ [<-|[]] [<-|[]] E. cbn in E. congruence.
    - intros x y a b _ _ A B E. apply in_flat_map in A as (j & _ & [<-|[]]). apply in_flat_map in B as (j' & _ & [<-|[]]). cbn in E. congruence. }
  assert (N2 : NoDup (map snd (rinner d))).
  { apply nodup_flat_map. apply nodup_zrange; lia.
    - intros i I. apply nodup_flat_map. apply nodup_zrange; lia. intros. cbn. constructor; auto; constructor.
      intros x y a b _ _ [<-|[]] [<-|[]] E. cbn in E. congruence.
    - intros x y a b _ _ A B E. apply in_flat_map in A as (j & _ & [<-|[]]). apply in_flat_map in B as (j' & _ & [<-|[]]). cbn in E. congruence. }
  assert (N3 : NoDup (map snd (rtop d))).
  { apply nodup_flat_map. apply nodup_zrange; lia.
    - intros i I. rewrite in_zrange in I by lia. cbn [map snd]. constructor; [|constructor; auto; constructor]. intros [E|[]]. injection E. lia.
    - intros x y a b X Y [<-|[<-|[]]] [<-|[<-|[]]] E; rewrite in_zrange in X, Y by lia; cbn [snd] in E; injection E; lia. }
  assert (N4 : NoDup (map snd (rside d))).
  { apply nodup_flat_map. apply nodup_zrange; lia.
    - intros i I. rewrite in_zrange in I by lia. cbn [map snd]. constructor; [|constructor; auto; constructor]. intros [E|[]]. injection E. lia.
    - intros x y a b X Y [<-|[<-|[]]] [<-|[<-|[]]] E; rewrite in_zrange in X, Y by lia; cbn [snd] in E; injection E; lia. }
  apply NoDup_app3; auto. apply NoDup_app3; auto. apply NoDup_app3; auto.
  - intros p I J. apply in_map_iff in I as ([k [i j]] & <- & I). apply in_map_iff in J as ([k' [i' j']] & E & J). cbn [snd] in E. injection E as -> ->.
    apply in_rtop in I as (a & b & I & _). apply in_rside in J as (a' & b' & J & _). lia.
  - intros p I J. apply in_map_iff in I as ([k [i j]] & <- & I). apply in_rinner in I as (a & b & I & _). rewrite in_app_iff in J.
    destruct J as [J|J]; apply in_map_iff in J as ([k' [i' j']] & E & J); cbn [snd] in E; injection E as -> ->; [apply in_rtop in J|apply in_rside in J]; destruct J as (a' & b' & J & _); lia.
  - intros p I J. apply in_map_iff in I as ([k [i j]] & <- & I). apply in_rdata in I as [I _]. rewrite !in_app_iff in J.
    destruct J as [J|[J|J]]; apply in_map_iff in J as ([k' [i' j']] & E & J); cbn [snd] in E; injection E as -> ->; [apply in_rinner in J|apply in_rtop in J|apply in_rside in J]; destruct J as (a' & b' & J & _); lia.
Qed.
Lemma rgrid_kind d k p : In (k, p) (rgrid d) -> k = KData \/ exists g, k = KStab g.
Proof.
  destruct p as [i j]. unfold rgrid. rewrite !in_app_iff, in_rdata, in_rinner, in_rtop, in_rside.
  intros [[_ ->]|[(a & b & A & ->)|[(a & b & A & ->)|(a & b & A & ->)]]]; eauto.
Qed.
Lemma rlog_free d p : (2 <= d)%Z -> In p (map snd (rgrid d)) -> p <> (rmid d, 0)%Z /\ p <> (0, rmid d)%Z.
Proof.
  intros D I. apply in_map_iff in I as ([k [i j]] & <- & I). cbn [snd]. destruct (rgrid_kind _ _ _ I) as [->|[g ->]].
  - apply in_rgdata in I. unfold rbox in I. cbn [fst snd] in I. split; intros E; injection E; lia.
  - apply in_rstab in I as (a & b & -> & -> & A & _). unfold stabat, rmid in *. split; intros E; injection E as E1 E2; lia.
Qed.
Lemma nodup_rvs d : (2 <= d)%Z -> NoDup (map snd (rvs d)).
Proof.
  intros D. unfold rvs. rewrite map_app. apply NoDup_app3. apply nodup_rgrid.
  - cbn [map rlog snd]. constructor; [|constructor; auto; constructor]. intros [E|[]]. injection E as E1 E2. unfold rmid in *. lia.
  - intros p I J. destruct (rlog_free d p D I). cbn [map rlog snd In] in J. intuition.
Qed.
(** Corner [p] of the generator [q], and the factor there. *)
Definition radj (q p : pos) : Prop := (Z.abs (fst p - fst q) = 1 /\ Z.abs (snd p - snd q) = 1)%Z.
Definition rfactor (xzzx : bool) (g : group) (q p : pos) : factor :=
  if xzzx then (if ((fst p - fst q) =? (snd p - snd q))%Z then FX else FZ) else group_factor g.
Lemma in_corners f x y : In (f, (x, y)) corners <-> (Z.abs x = 1 /\ Z.abs y = 1)%Z /\ f = if (x =? y)%Z then FX else FZ.
Proof.
  unfold corners. cbn [In]. split.
  - intros [E|[E|[E|[E|[]]]]]; injection E as <- <- <-; split; auto; lia.
  - intros [A ->]. assert ((x = 1 \/ x = -1) /\ (y = 1 \/ y = -1))%Z as [[-> | ->] [-> | ->]] by lia; cbn; auto.
Qed.
Lemma in_rT d z s q g t : In t (rT d z s q g) <-> exists p, t = (s, p, rfactor z g q p) /\ radj q p /\ rbox d p.
Proof.
  unfold rT. rewrite in_flat_map. unfold radj, rbox, rfactor. split.
  - intros ([f [x y]] & I & J). apply in_corners in I as [I ->]. cbn [fst snd] in J. destruct (_ && _) eqn:C in J; [|destruct J].
    destruct J as [<-|[]]. exists (fst q + x, snd q + y)%Z; split; [|cbn [fst snd]; lia]. cbn [fst snd]. replace (fst q + x - fst q)%Z with x by lia. replace (snd q + y - snd q)%Z with y by lia. auto.
  - intros ([pi pj] & -> & A & B). cbn [fst snd] in *. exists (if (pi - fst q =? pj - snd q)%Z then FX else FZ, (pi - fst q, pj - snd q)%Z). split. apply in_corners. auto.
    cbn [fst snd]. replace (_ && _) with true by lia. left. replace (fst q + (pi - fst q))%Z with pi by lia. replace (snd q + (pj - snd q))%Z with pj by lia. auto.
Qed.
Lemma nodup_rT d z s q g : NoDup (map fst (rT d z s q g)).
Proof.
  unfold rT. apply nodup_flat_map.
  - unfold corners. repeat (apply NoDup_cons; [cbn [In]; intros AP; repeat (destruct AP as [AP|AP]; [discriminate|]); destruct AP|]); apply NoDup_nil.
  - intros x _. destruct (_ && _); cbn; repeat constructor; auto.
  - intros [f [x y]] [f' [x' y']] a b X Y A B E. destruct (_ && _) in A; [|destruct A]. destruct (_ && _) in B; [|destruct B]. destruct A as [<-|[]], B as [<-|[]]. cbn [fst snd] in E. injection E as E1 E2.
    assert (x = x') by lia. assert (y = y') by lia. subst. apply in_corners in X as [_ ->]. apply in_corners in Y as [_ ->]. auto.
Qed.
Definition rxf (z : bool) (i : Z) : factor := if negb z || ((i / 2) mod 2 =? 0)%Z then FX else FZ.
Definition rzf (z : bool) (i : Z) : factor := if negb z || ((i / 2) mod 2 =? 0)%Z then FZ else FX.
Lemma in_rL d z o p f : In (o, p, f) (rL d z) <-> exists i, (1 <= i <= 2 * d - 1 /\ i mod 2 = 1)%Z /\ ((o = rn d /\ p = (i, 1)%Z /\ f = rxf z i) \/ (o = S (rn d) /\ p = (1, i)%Z /\ f = rzf z i)).
Proof.
  unfold rL. rewrite in_flat_map. split.
  - intros (i & I & J). rewrite in_zrange in I by lia. exists i. split. lia. destruct J as [E|[E|[]]]; injection E as <- <- <-; auto.
  - intros (i & I & J). exists i. rewrite in_zrange by lia. split. lia. destruct J as [(-> & -> & ->)|(-> & -> & ->)]; [left|right; left]; auto.
Qed.
Lemma nodup_res d z : NoDup (map fst (res d z)).
Proof.
  unfold res. rewrite map_app. apply NoDup_app3.
  - apply nodup_stab_edges. intros i p g t I. apply in_rT in I as (? & -> & _). auto. apply nodup_rT.
  - unfold rL. apply nodup_flat_map. apply nodup_zrange; lia.
    + intros i _. cbn [map fst]. constructor; [|constructor; auto; constructor]. intros [E|[]]. injection E as E _ _. lia.
    + intros x y a b _ _ [<-|[<-|[]]] [<-|[<-|[]]] E; cbn [fst] in E; injection E; lia.
  - intros [o p] I J. apply in_map_iff in I as (t & E & I). apply in_stab_edges in I as (i & g & q & Q & I). apply in_rT in I as (p' & -> & _). cbn in E. injection E as -> ->.
    apply in_map_iff in J as ([[o' p''] f] & E & J). cbn in E. injection E as -> ->. apply in_rL in J as (x & _ & J).
    assert (o < rn d) by (apply nth_error_Some; congruence). lia.
Qed.
Lemma rvs_logical d : nth_error (rvs d) (rn d) = Some (KLogical "X", (rmid d, 0)%Z) /\ nth_error (rvs d) (S (rn d)) = Some (KLogical "Z", (0, rmid d)%Z).
Proof. unfold rvs, rn. rewrite !nth_error_app2 by lia. rewrite Nat.sub_diag, Nat.sub_succ_l, Nat.sub_diag by lia. auto. Qed.
Lemma rvs_stab d o g q : nth_error (rvs d) o = Some (KStab g, q) <-> nth_error (rgrid d) o = Some (KStab g, q).
Proof.
  unfold rvs. destruct (Nat.ltb_spec o (List.length (rgrid d))).
  - rewrite nth_error_app1 by auto. tauto.
  - rewrite nth_error_app2 by auto. assert (nth_error (rgrid d) o = None) by (apply nth_error_None; auto). rewrite H0. split; [|discriminate].
    destruct (o - List.length (rgrid d)) as [|[|[]]]; discriminate.
Qed.
Lemma in_rvdata d i j : In (KData, (i, j)) (rvs d) <-> (rbox d (i, j) /\ i mod 2 = 1 /\ j mod 2 = 1)%Z.
Proof. unfold rvs. rewrite in_app_iff, in_rgdata. split; auto. intros [A|[E|[E|[]]]]; auto; discriminate. Qed.
Lemma rstab_pos d o g q : nth_error (rvs d) o = Some (KStab g, q) -> exists a b, q = (2 * a, 2 * b)%Z /\ stabat d a b /\ g = rgroup a b.
Proof. intros E. apply rvs_stab in E. apply nth_error_In in E. destruct q as [i j]. apply in_rstab in E as (a & b & -> & -> & H). eauto. Qed.
Lemma in_res d z o p f : In (o, p, f) (res d z) <->
  (exists g q, nth_error (rvs d) o = Some (KStab g, q) /\ radj q p /\ rbox d p /\ f = rfactor z g q p) \/ In (o, p, f) (rL d z).
Proof.
  unfold res. rewrite in_app_iff, in_stab_edges. split; (intros [H|H]; [left|right; auto]).
  - destruct H as (i & g & q & Q & I). apply in_rT in I as (p' & E & A & B). injection E as -> -> ->. exists g, q. rewrite rvs_stab. auto.
  - destruct H as (g & q & Q & A & B & ->). exists o, g, q. split. apply rvs_stab; auto. apply in_rT. eauto.
Qed.
Lemma res_okey d z t : (2 <= d)%Z -> In t (res d z) -> okey (rvs d) t.
Proof.
  intros D. destruct t as [[o p] f]. intros I. apply in_res in I as [(g & q & Q & A & B & ->)|I].
  - destruct p as [pi pj]. split. 2: { exists (KStab g), q. split; auto; discriminate. } cbn [fst snd]. apply in_rvdata. destruct (rstab_pos _ _ _ _ Q) as (a & b & -> & _). unfold radj in A. cbn [fst snd] in A. split; auto. lia.
  - apply in_rL in I as (i & I & J). destruct (rvs_logical d) as [X Z]. destruct J as [(-> & -> & ->)|(-> & -> & ->)]; split; cbn [fst snd]; try (eexists _, _; split; eauto; discriminate);
      apply in_rvdata; unfold rbox; cbn [fst snd]; lia.
Qed.

(** * The edge times *)
Definition flip (q : pos) (t : option nat) : option nat :=
  if ((fst q + snd q) mod 4 =? 0)%Z then match t with Some 1 => Some 2 | Some 2 => Some 1 | x => x end else t.
Lemma runs_inverted sh vs es l :
  built sh vs es l ->
  exists l', inverted_order l = (l', None) /\ built sh vs es l' /\ l_steps l' = l_steps l /\ (forall i, v_pos (l_heap l' i) = v_pos (l_heap l i)) /\
    (forall e', In e' (l_edges l') -> exists e, In e (l_edges l) /\ e_op e' = e_op e /\ e_data e' = e_data e /\
       forall g q, nth_error vs (e_op e) = Some (KStab g, q) -> e_time e' = flip q (e_time e)).
Proof.
  intros B. unfold inverted_order.
  set (F := fun e => if negb (is_stab (l_heap l (e_op e))) then None else if negb ((fst (v_pos (l_heap l (e_op e))) + snd (v_pos (l_heap l (e_op e)))) mod 4 =? 0)%Z then None
     else match e_time e with Some 1 => Some 2 | Some 2 => Some 1 | _ => None end).
  destruct (timing_loop_exact invert_edge F l (l_edges l) l) with (done := @nil edge) as (l' & E & C' & Fr & Ed); auto.
  { intros e l2 I Fr. unfold invert_edge, F. unfold is_stab. rewrite (fr_kind _ _ Fr), !(fr_pos _ _ Fr).
    destruct (negb _); auto. destruct (negb _); auto. destruct (e_time e) as [[|[|[|t]]]|]; auto. }
  { apply B. } { apply frame_refl. }
  exists l'. split; auto. cbn [app] in Ed. split; [|split; [|split]].
  - apply (built_frame sh vs es l); auto. rewrite Ed, map_map, <- (b_edges _ _ _ _ B). apply map_ext. intros e. unfold ekey, retimed. destruct (F e); reflexivity.
  - apply (fr_steps _ _ Fr).
  - apply (fr_pos _ _ Fr).
  - intros e' I. rewrite Ed in I. apply in_map_iff in I as (e & <- & I). exists e. split; auto.
    assert (X : e_op (retimed F e) = e_op e /\ e_data (retimed F e) = e_data e) by (unfold retimed; destruct (F e); auto). destruct X as [X1 X2]. split; auto. split; auto.
    intros g q Q. destruct (b_vs _ _ _ _ B _ _ Q) as [K P]. cbn in K, P. unfold retimed, flip, F, is_stab. rewrite K, P. cbn [negb]. destruct ((fst q + snd q) mod 4 =? 0)%Z; cbn [negb]; auto.
    destruct (e_time e) as [[|[|[|t]]]|] eqn:T; cbn; auto.
Qed.
Lemma radj_displacement q p order : radj q p -> (forall x y, (Z.abs x = 1 /\ Z.abs y = 1)%Z -> In (x, y) order) -> exists t, index_of (displacement q p) order = Some t.
Proof.
  intros A O. apply index_of_in. unfold displacement, periodic, radj in *. apply O. destruct (Z.ltb_spec 1 (Z.abs (fst p - fst q))); [lia|]. destruct (Z.ltb_spec 1 (Z.abs (snd p - snd q))); lia.
Qed.
Lemma rotated_built d z order : (2 <= d)%Z -> (forall x y, (Z.abs x = 1 /\ Z.abs y = 1)%Z -> In (x, y) order) ->
  exists l, rotated_lattice d z order = Ok l /\ built (2 * d + 1, 2 * d + 1)%Z (rvs d) (res d z) l /\ indexed l /\
    (forall e, In e (l_edges l) -> forall g q, nth_error (rvs d) (e_op e) = Some (KStab g, q) -> e_time e = flip q (index_of (displacement q (v_pos (l_heap l (e_data e)))) order)) /\
    l_steps l = Some (List.length order).
Proof.
  intros D O. unfold rotated_lattice, construct. destruct (built_empty (2 * d + 1, 2 * d + 1)%Z) as (l0 & -> & B0); cbn [fst snd]; try lia. cbn [bindR].
  unfold rotated_body. cbv zeta.
  assert (NG := nodup_rgrid d). unfold rgrid in NG.
  assert (I1 : forall w, In w (rgrid d) -> inside (2 * d + 1, 2 * d + 1)%Z (snd w)).
  { intros [k [i j]] I. unfold inside. cbn [fst snd]. destruct (rgrid_kind _ _ _ I) as [->|[g ->]]. apply in_rgdata in I. unfold rbox in I. cbn [fst snd] in I. lia. apply in_rstab in I as (a & b & -> & -> & A & _). unfold stabat in A. lia. }
  set (prog1 := forE _ (zrange 1 (2 * d) 2)).
  assert (A1 : adds prog1 (rdata d)). { apply adds_for. intros i _. apply adds_for. intros j _. apply adds_one. }
  destruct (A1 (2 * d + 1, 2 * d + 1)%Z [] []) with (l := l0) as (l1 & E1 & B1); auto.
  { cbn [app]. rewrite map_app in NG. apply nodup_app_l in NG. auto. } { intros w W. apply I1. apply in_app_iff. auto. }
  cbn [app] in B1. rewrite (seq_step _ _ _ l1 E1). clearbody prog1.
  set (prog2 := forE _ (zrange 2 (2 * d) 2)).
  assert (A2 : adds prog2 (rinner d)). { apply adds_for. intros i _. apply adds_for. intros j _. destruct (_ =? _)%Z; apply adds_one. }
  destruct (A2 (2 * d + 1, 2 * d + 1)%Z (rdata d) []) with (l := l1) as (l2 & E2 & B2); auto.
  { rewrite app_assoc, map_app in NG. apply nodup_app_l in NG. auto. } { intros w W. apply I1. unfold rgrid. rewrite !in_app_iff. auto. }
  rewrite (seq_step _ _ _ l2 E2). clearbody prog2.
  set (prog3 := forE _ (zrange 4 (2 * d) 4)).
  assert (A3 : adds prog3 (rtop d)). { apply adds_for. intros i _. apply (adds_seq _ _ [_] [_]); apply adds_one. }
  destruct (A3 (2 * d + 1, 2 * d + 1)%Z (rdata d ++ rinner d) []) with (l := l2) as (l3 & E3 & B3); auto.
  { rewrite !app_assoc, map_app in NG. apply nodup_app_l in NG. auto. } { intros w W. apply I1. unfold rgrid. rewrite !in_app_iff. auto. }
  rewrite (seq_step _ _ _ l3 E3). clearbody prog3.
  set (prog4 := forE _ (zrange 2 (2 * d) 4)).
  assert (A4 : adds prog4 (rside d)). { apply adds_for. intros i _. apply (adds_seq _ _ [_] [_]); apply adds_one. }
  destruct (A4 (2 * d + 1, 2 * d + 1)%Z ((rdata d ++ rinner d) ++ rtop d) []) with (l := l3) as (l4 & E4 & B4); auto.
  { rewrite <- !app_assoc. auto. } { intros w W. apply I1. unfold rgrid. rewrite !in_app_iff. auto. }
  rewrite (seq_step _ _ _ l4 E4). clearbody prog4. rewrite <- !app_assoc in B4. fold (rgrid d) in B4.
  set (es0 := flat_map (stab_edges (rT d z)) (numbered (rgrid d))) in *.
  set (prog5 := for_stabs _).
  assert (D1 : draws (rgrid d) prog5 es0).
  { apply draws_for_stabs. intros i g p _. apply draws_for. intros x _. apply draws_if. apply draws_one. apply draws_skip. }
  destruct (D1 (2 * d + 1, 2 * d + 1)%Z []) with (l := l4) as (l5 & E5 & B5); auto.
  { intros [[o p] f] I. destruct (res_okey d z (o, p, f) D) as [K1 K2]. apply in_app_iff. auto. cbn [fst snd] in *. destruct p as [pi pj]. split; cbn [fst snd].
    - apply in_rgdata. apply in_rvdata in K1. auto.
    - apply in_stab_edges in I as (i & g & q & Q & I). apply in_rT in I as (p' & E & _). injection E as -> _ _. exists (KStab g), q. split; auto. discriminate. }
  { pose proof (nodup_res d z) as N. unfold res in N. fold es0 in N. rewrite map_app in N. apply nodup_app_l in N. auto. }
  cbn [app] in B5. rewrite (seq_step _ _ _ l5 E5). clearbody prog5. fold (rmid d).
  assert (RM : (0 <= rmid d < 2 * d + 1)%Z) by (unfold rmid; lia).
  destruct (built_add _ _ _ _ (KLogical "X") (rmid d, 0)%Z B5) as (l6 & E6 & B6).
  { intros I. apply (rlog_free d) in I; tauto. } { unfold inside. cbn [fst snd]. lia. }
  unfold with_logical at 1. unfold add_logical at 1. rewrite (seq_step _ _ _ l6 E6). rewrite (b_next _ _ _ _ B5).
  destruct (built_add _ _ _ _ (KLogical "Z") (0, rmid d)%Z B6) as (l7 & E7 & B7).
  { rewrite map_app, in_app_iff. intros [I|[E|[]]]. apply (rlog_free d) in I; tauto. cbn [snd] in E. injection E as F1 F2. unfold rmid in *. lia. } { unfold inside. cbn [fst snd]. lia. }
  unfold with_logical at 1. unfold add_logical at 1. rewrite (seq_step _ _ _ l7 E7). rewrite (b_next _ _ _ _ B6), app_length. cbn [List.length].
  rewrite Nat.add_1_r. fold (rn d). rewrite <- app_assoc in B7. cbn [app] in B7. fold (rlog d) in B7. fold (rvs d) in B7.
  set (prog6 := forE _ (zrange 1 (2 * d) 2)).
  assert (D2 : draws (rvs d) prog6 (rL d z)). { apply draws_for. intros i _. apply (draws_seq (rvs d) _ _ [_] [_]); apply draws_one. }
  destruct (D2 (2 * d + 1, 2 * d + 1)%Z es0) with (l := l7) as (l8 & E8 & B8); auto.
  { intros t I. apply (res_okey d z); auto. apply in_app_iff. auto. }
  { apply nodup_res. }
  rewrite (seq_step _ _ _ l8 E8). fold (res d z) in B8. clearbody prog6.
  destruct (runs_order _ _ _ _ order B8) as (l9 & E9 & B9 & T9 & S9).
  { intros o p f g q I Q. apply in_res in I as [(g' & q' & Q' & A & _)|I].
    - rewrite Q in Q'. injection Q' as <- <-. apply radj_displacement; auto.
    - exfalso. apply in_rL in I as (i & I & J). destruct (rvs_logical d) as [X Z]. destruct J as [(-> & _)|(-> & _)]; congruence. }
  rewrite (seq_step _ _ _ l9 E9). destruct (runs_inverted _ _ _ _ B9) as (l10 & E10 & B10 & S10 & P10 & T10). rewrite (seq_step _ _ _ l10 E10).
  destruct (runs_indices _ _ _ _ B10) as (B11 & X11 & Ed11). exists (assign_indices l10). unfold modify. split; auto. split; auto. split; auto.
  destruct (assign_indices_spec l10 (b_cons _ _ _ _ B10)) as (_ & R & _). split.
  - intros e I g q Q. rewrite (rn_pos _ _ R), P10. rewrite Ed11 in I. destruct (T10 e I) as (e0 & I0 & Eo & Ed & Te). rewrite Eo in Q. rewrite (Te g q Q), Ed. f_equal. apply (T9 e0) with (g := g); auto.
  - rewrite (rn_steps _ _ R), S10. auto.
Qed.

(** * The operators *)
Definition radjb (q p : pos) : bool := ((Z.abs (fst p - fst q) =? 1) && (Z.abs (snd p - snd q) =? 1))%Z.
Lemma radjb_iff q p : radjb q p = true <-> radj q p.
Proof. unfold radjb, radj. lia. Qed.
Lemma rfac_stab d z o g q p : nth_error (rvs d) o = Some (KStab g, q) -> In p (dpos (rvs d)) -> fac (res d z) o p = if radjb q p then fbits (rfactor z g q p) else (false, false).
Proof.
  intros Q P. destruct p as [i j]. apply in_dpos, in_rvdata in P as [P _]. destruct (radjb q (i, j)) eqn:C.
  - apply fac_in. apply nodup_res. apply in_res. left. exists g, q. apply radjb_iff in C. auto.
  - apply fac_out. intros f I. apply in_res in I as [(g' & q' & Q' & A & _)|I].
    + rewrite Q in Q'. injection Q' as <- <-. apply radjb_iff in A. congruence.
    + apply in_rL in I as (x & X & J). destruct (rvs_logical d). destruct J as [(-> & _)|(-> & _)]; congruence.
Qed.
Lemma rfac_x d z p : In p (dpos (rvs d)) -> fac (res d z) (rn d) p = if (snd p =? 1)%Z then fbits (rxf z (fst p)) else (false, false).
Proof.
  intros P. destruct p as [i j]. apply in_dpos, in_rvdata in P as [P M]. unfold rbox in P. cbn [fst snd] in *. destruct (Z.eqb_spec j 1).
  - subst. apply fac_in. apply nodup_res. apply in_res. right. apply in_rL. exists i. split. lia. auto.
  - apply fac_out. intros f I. destruct (rvs_logical d). apply in_res in I as [(g' & q' & Q' & _)|I]; [congruence|]. apply in_rL in I as (x & X & [(E & E' & _)|(E & _)]); [|lia]. injection E'. auto.
Qed.
Lemma rfac_z d z p : In p (dpos (rvs d)) -> fac (res d z) (S (rn d)) p = if (fst p =? 1)%Z then fbits (rzf z (snd p)) else (false, false).
Proof.
  intros P. destruct p as [i j]. apply in_dpos, in_rvdata in P as [P M]. unfold rbox in P. cbn [fst snd] in *. destruct (Z.eqb_spec i 1).
  - subst. apply fac_in. apply nodup_res. apply in_res. right. apply in_rL. exists j. split. lia. auto.
  - apply fac_out. intros f I. destruct (rvs_logical d). apply in_res in I as [(g' & q' & Q' & _)|I]; [congruence|]. apply in_rL in I as (x & X & [(E & _)|(E & E' & _)]); [lia|]. injection E'. auto.
Qed.
Lemma rlog_ids d : log_ids (rvs d) = [rn d; S (rn d)].
Proof.
  unfold rvs. rewrite log_ids_app. auto.
  - intros [k p] I. apply rgrid_kind in I as [->|[g ->]]; auto.
  - intros kp [<-|[<-|[]]]; auto.
Qed.
Lemma rgroup_cases a b : (rgroup a b = GA /\ a mod 2 = b mod 2 \/ rgroup a b = GB /\ a mod 2 <> b mod 2)%Z.
Proof. unfold rgroup. destruct (Z.eqb_spec (a mod 2) (b mod 2)); auto. Qed.
Lemma sp_fbits f g : sp (fbits f) (fbits g) = true <-> f <> g.
Proof. destruct f, g; cbn; intuition congruence. Qed.
(** Two generators have different factors exactly at the shared corners of direct neighbours. *)
Lemma rotated_anti d z o o' a b a' b' p : nth_error (rvs d) o = Some (KStab (rgroup a b), (2 * a, 2 * b)%Z) -> nth_error (rvs d) o' = Some (KStab (rgroup a' b'), (2 * a', 2 * b')%Z) -> In p (dpos (rvs d)) ->
  (sp (fac (res d z) o p) (fac (res d z) o' p) = true <-> radj (2 * a, 2 * b)%Z p /\ radj (2 * a', 2 * b')%Z p /\ (Z.abs (a - a') + Z.abs (b - b') = 1)%Z).
Proof.
  intros A B P. rewrite (rfac_stab d z o _ _ p A P), (rfac_stab d z o' _ _ p B P). destruct p as [i j]. apply in_dpos, in_rvdata in P as [_ P].
  destruct (radjb (2 * a, 2 * b)%Z (i, j)) eqn:Ra.
  2: { split; [discriminate|]. intros (H & _). apply radjb_iff in H. congruence. }
  destruct (radjb (2 * a', 2 * b')%Z (i, j)) eqn:Rb.
  2: { rewrite sp_zero_r. split; [discriminate|]. intros (_ & H & _). apply radjb_iff in H. congruence. }
  apply radjb_iff in Ra, Rb. rewrite sp_fbits. unfold radj in *. cbn [fst snd] in *. unfold rfactor. cbn [fst snd].
  assert (K : (Z.abs (a - a') + Z.abs (b - b') = 1 <-> ~ (a - a') mod 2 = (b - b') mod 2)%Z) by lia. destruct z.
  - destruct (Z.eqb_spec (i - 2 * a) (j - 2 * b)), (Z.eqb_spec (i - 2 * a') (j - 2 * b')); split; try congruence; intros; try (split; [auto|split; [auto|lia]]); try (exfalso; lia); try discriminate.
  - destruct (rgroup_cases a b) as [[-> ?]|[-> ?]], (rgroup_cases a' b') as [[-> ?]|[-> ?]]; cbn; split; try congruence; intros; try (split; [auto|split; [auto|lia]]); try (exfalso; lia); try discriminate.
Qed.
Lemma rotated_stab_stab d z a b : (2 <= d)%Z -> In a (stab_ids (rvs d)) -> In b (stab_ids (rvs d)) -> symp (ops (brow (rvs d) (res d z) a)) (ops (brow (rvs d) (res d z) b)) = false.
Proof.
  intros D A B. apply in_stab_ids in A as (ga & qa & A). apply in_stab_ids in B as (gb & qb & B).
  destruct (rstab_pos _ _ _ _ A) as (x & y & -> & SA & ->). destruct (rstab_pos _ _ _ _ B) as (x' & y' & -> & SB & ->).
  assert (ND := nodup_dpos _ (nodup_rvs d D)). pose proof (rotated_anti d z a b x y x' y') as S.
  destruct (Z.eqb_spec (Z.abs (x - x') + Z.abs (y - y')) 1) as [N|N].
  2: { apply brow_none. intros p P. destruct (sp _ _) eqn:E; auto. apply S in E; auto. lia. }
  unfold stabat in SA, SB. assert (C : (y = y' /\ Z.abs (x - x') = 1 /\ 1 <= y <= d - 1 \/ x = x' /\ Z.abs (y - y') = 1 /\ 1 <= x <= d - 1)%Z) by lia.
  destruct C as [(<- & C & R)|(<- & C & R)].
  - apply (brow_two _ _ a b (x + x', 2 * y - 1)%Z (x + x', 2 * y + 1)%Z); auto.
    + intros E. injection E as E. lia.
    + apply in_dpos, in_rvdata. unfold rbox. cbn [fst snd]. lia.
    + apply in_dpos, in_rvdata. unfold rbox. cbn [fst snd]. lia.
    + intros [i j] P. rewrite S by auto. unfold radj. cbn [fst snd]. split.
      * intros. assert (i = x + x' /\ (j = 2 * y - 1 \/ j = 2 * y + 1))%Z as [-> [-> | ->]] by lia; auto.
      * intros [E|E]; injection E as -> ->; lia.
  - apply (brow_two _ _ a b (2 * x - 1, y + y')%Z (2 * x + 1, y + y')%Z); auto.
    + intros E. injection E as E. lia.
    + apply in_dpos, in_rvdata. unfold rbox. cbn [fst snd]. lia.
    + apply in_dpos, in_rvdata. unfold rbox. cbn [fst snd]. lia.
    + intros [i j] P. rewrite S by auto. unfold radj. cbn [fst snd]. split.
      * intros. assert (j = y + y' /\ (i = 2 * x - 1 \/ i = 2 * x + 1))%Z as [-> [-> | ->]] by lia; auto.
      * intros [E|E]; injection E as -> ->; lia.
Qed.
Lemma rotated_anti_x d z o a b p : nth_error (rvs d) o = Some (KStab (rgroup a b), (2 * a, 2 * b)%Z) -> In p (dpos (rvs d)) ->
  (sp (fac (res d z) o p) (fac (res d z) (rn d) p) = true <-> radj (2 * a, 2 * b)%Z p /\ snd p = 1%Z /\ (a mod 2 <> b mod 2)%Z).
Proof.
  intros A P. rewrite (rfac_stab d z o _ _ p A P), (rfac_x d z p P). destruct p as [i j]. apply in_dpos, in_rvdata in P as [_ P].
  destruct (radjb (2 * a, 2 * b)%Z (i, j)) eqn:Ra.
  2: { split; [discriminate|]. intros (H & _). apply radjb_iff in H. congruence. }
  cbn [fst snd]. destruct (Z.eqb_spec j 1) as [->|]. 2: { rewrite sp_zero_r. split; [discriminate|]. intros (_ & H & _). congruence. }
  apply radjb_iff in Ra. rewrite sp_fbits. unfold radj in *. cbn [fst snd] in *. unfold rfactor, rxf. cbn [fst snd].
  assert (Ia : (i = 2 * a + 1 \/ i = 2 * a - 1)%Z) by lia. assert (Ib : (b = 0 \/ b = 1)%Z) by lia. destruct z; cbn [negb orb].
  - destruct Ia as [-> | ->], Ib as [-> | ->]; (match goal with |- context [((?u =? ?v)%Z)] => destruct (Z.eqb_spec u v) end); (match goal with |- context [((?u =? ?v)%Z)] => destruct (Z.eqb_spec u v) end);
      split; try congruence; intros; try (split; [auto|split; [auto|lia]]); try (exfalso; lia); try discriminate.
  - destruct (rgroup_cases a b) as [[-> ?]|[-> ?]]; cbn; split; try congruence; intros; try (split; [auto|split; [auto|lia]]); try (exfalso; lia); try discriminate.
Qed.
Lemma rotated_anti_z d z o a b p : nth_error (rvs d) o = Some (KStab (rgroup a b), (2 * a, 2 * b)%Z) -> In p (dpos (rvs d)) ->
  (sp (fac (res d z) o p) (fac (res d z) (S (rn d)) p) = true <-> radj (2 * a, 2 * b)%Z p /\ fst p = 1%Z /\ (a mod 2 = b mod 2)%Z).
Proof.
  intros A P. rewrite (rfac_stab d z o _ _ p A P), (rfac_z d z p P). destruct p as [i j]. apply in_dpos, in_rvdata in P as [_ P].
  destruct (radjb (2 * a, 2 * b)%Z (i, j)) eqn:Ra.
  2: { split; [discriminate|]. intros (H & _). apply radjb_iff in H. congruence. }
  cbn [fst snd]. destruct (Z.eqb_spec i 1) as [->|]. 2: { rewrite sp_zero_r. split; [discriminate|]. intros (_ & H & _). congruence. }
  apply radjb_iff in Ra. rewrite sp_fbits. unfold radj in *. cbn [fst snd] in *. unfold rfactor, rzf. cbn [fst snd].
  assert (Ia : (j = 2 * b + 1 \/ j = 2 * b - 1)%Z) by lia. assert (Ib : (a = 0 \/ a = 1)%Z) by lia. destruct z; cbn [negb orb].
  - destruct Ia as [-> | ->], Ib as [-> | ->]; (match goal with |- context [((?u =? ?v)%Z)] => destruct (Z.eqb_spec u v) end); (match goal with |- context [((?u =? ?v)%Z)] => destruct (Z.eqb_spec u v) end);
      split; try congruence; intros; try (split; [auto|split; [auto|lia]]); try (exfalso; lia); try discriminate.
  - destruct (rgroup_cases a b) as [[-> ?]|[-> ?]]; cbn; split; try congruence; intros; try (split; [auto|split; [auto|lia]]); try (exfalso; lia); try discriminate.
Qed.
Lemma rotated_stab_x d z a : (2 <= d)%Z -> In a (stab_ids (rvs d)) -> symp (ops (brow (rvs d) (res d z) a)) (ops (brow (rvs d) (res d z) (rn d))) = false.
Proof.
  intros D A. apply in_stab_ids in A as (ga & qa & A). destruct (rstab_pos _ _ _ _ A) as (x & y & -> & SA & ->). assert (ND := nodup_dpos _ (nodup_rvs d D)). pose proof (rotated_anti_x d z a x y) as S. unfold stabat in SA.
  destruct (Z.eqb_spec ((x - y) mod 2) 0) as [N|N]; [|assert (C : (y = 0 \/ y = 1)%Z \/ ~ (y = 0 \/ y = 1)%Z) by lia; destruct C as [C|C]].
  - apply brow_none. intros p P. destruct (sp _ _) eqn:E; auto. apply S in E; auto. lia.
  - apply (brow_two _ _ a _ (2 * x - 1, 1)%Z (2 * x + 1, 1)%Z); auto.
    + intros E. injection E as E. lia.
    + apply in_dpos, in_rvdata. unfold rbox. cbn [fst snd]. lia.
    + apply in_dpos, in_rvdata. unfold rbox. cbn [fst snd]. lia.
    + intros [i j] P. rewrite S by auto. unfold radj. cbn [fst snd]. split.
      * intros. assert (j = 1 /\ (i = 2 * x - 1 \/ i = 2 * x + 1))%Z as [-> [-> | ->]] by lia; auto.
      * intros [E|E]; injection E as -> ->; lia.
  - apply brow_none. intros p P. destruct (sp _ _) eqn:E; auto. apply S in E; auto. unfold radj in E. cbn [fst snd] in E. lia.
Qed.
Lemma rotated_stab_z d z a : (2 <= d)%Z -> In a (stab_ids (rvs d)) -> symp (ops (brow (rvs d) (res d z) a)) (ops (brow (rvs d) (res d z) (S (rn d)))) = false.
Proof.
  intros D A. apply in_stab_ids in A as (ga & qa & A). destruct (rstab_pos _ _ _ _ A) as (x & y & -> & SA & ->). assert (ND := nodup_dpos _ (nodup_rvs d D)). pose proof (rotated_anti_z d z a x y) as S. unfold stabat in SA.
  destruct (Z.eqb_spec ((x - y) mod 2) 1) as [N|N]; [|assert (C : (x = 0 \/ x = 1)%Z \/ ~ (x = 0 \/ x = 1)%Z) by lia; destruct C as [C|C]].
  - apply brow_none. intros p P. destruct (sp _ _) eqn:E; auto. apply S in E; auto. lia.
  - apply (brow_two _ _ a _ (1, 2 * y - 1)%Z (1, 2 * y + 1)%Z); auto.
    + intros E. injection E as E. lia.
    + apply in_dpos, in_rvdata. unfold rbox. cbn [fst snd]. lia.
    + apply in_dpos, in_rvdata. unfold rbox. cbn [fst snd]. lia.
    + intros [i j] P. rewrite S by auto. unfold radj. cbn [fst snd]. split.
      * intros. assert (i = 1 /\ (j = 2 * y - 1 \/ j = 2 * y + 1))%Z as [-> [-> | ->]] by lia; auto.
      * intros [E|E]; injection E as -> ->; lia.
  - apply brow_none. intros p P. destruct (sp _ _) eqn:E; auto. apply S in E; auto. unfold radj in E. cbn [fst snd] in E. lia.
Qed.
Lemma rotated_x_z d z : (2 <= d)%Z -> symp (ops (brow (rvs d) (res d z) (rn d))) (ops (brow (rvs d) (res d z) (S (rn d)))) = true.
Proof.
  intros D. apply (brow_one _ _ _ _ (1, 1)%Z). apply nodup_dpos, nodup_rvs; auto. apply in_dpos, in_rvdata; unfold rbox; cbn [fst snd]; lia.
  intros [i j] P. rewrite rfac_x, rfac_z by auto. cbn [fst snd]. destruct (Z.eqb_spec j 1), (Z.eqb_spec i 1); try (subst; split; [rewrite ?sp_zero_r; discriminate|intros E; injection E; intros; lia]).
  subst. split; auto. intros _. destruct z; reflexivity.
Qed.
(** * Counting *)
Lemma rotated_data_count d : (2 <= d)%Z -> List.length (dpos (rvs d)) = Z.to_nat (d * d).
Proof.
  intros D. rewrite (length_same _ (grid pair (zrange 1 (2 * d) 2) (zrange 1 (2 * d) 2))).
  - rewrite !length_grid, !length_zrange. replace ((2 * d - 1 + 2 - 1) / 2)%Z with d by lia. rewrite !Z2Nat.inj_mul by nia. auto.
  - apply nodup_dpos, nodup_rvs; auto.
  - apply nodup_grid; [apply nodup_zrange; lia|apply nodup_zrange; lia|intros ? ? ? ? E; injection E; auto].
  - intros [i j]. rewrite in_dpos, in_rvdata, in_grid. unfold rbox. cbn [fst snd]. split.
    + intros A. exists i, j; rewrite !in_zrange by lia; (split; [lia|split; [lia|auto]]).
    + intros (x & y & X & Y & E); injection E as -> ->; rewrite in_zrange in X, Y by lia; lia.
Qed.
Lemma flat_map_pair {A B} (f : A -> list B) xs : (forall x, List.length (f x) = 2) -> List.length (flat_map f xs) = 2 * List.length xs.
Proof. intros H. induction xs; cbn [flat_map]; auto. rewrite app_length, H, IHxs. cbn [List.length]. lia. Qed.
Lemma all_stabs (l : list (kind * pos)) : (forall kp, In kp l -> iss kp = true) -> List.length (spos l) = List.length l.
Proof.
  intros H. unfold spos. rewrite map_length. f_equal. induction l as [|a l IH]; cbn; auto. rewrite (H a (or_introl eq_refl)). f_equal. apply IH. intros; apply H; right; auto.
Qed.
Lemma rotated_stab_count d : (2 <= d)%Z -> List.length (stab_ids (rvs d)) = Z.to_nat (d * d - 1).
Proof.
  intros D. rewrite length_stab_ids. unfold rvs, rgrid. rewrite !spos_app, !app_length.
  assert (E0 : spos (rdata d) = []). { destruct (spos (rdata d)) as [|[i j] r] eqn:E; auto. assert (I : In (i, j) (spos (rdata d))) by (rewrite E; left; auto). apply in_spos in I as [g I]. apply in_rdata in I as [_ I]. discriminate. }
  assert (El : spos (rlog d) = []) by reflexivity. rewrite E0, El. cbn [List.length].
  rewrite (all_stabs (rtop d)), (all_stabs (rside d)), (all_stabs (rinner d)).
  - assert (L1 : List.length (rinner d) = Z.to_nat ((d - 1) * (d - 1))).
    { unfold rinner. transitivity (List.length (grid (fun i j => (if ((i / 2) mod 2 =? (j / 2) mod 2)%Z then KStab GA else KStab GB, (i, j))) (zrange 2 (2 * d) 2) (zrange 2 (2 * d) 2))).
      - reflexivity.
      - rewrite length_grid, !length_zrange. replace ((2 * d - 2 + 2 - 1) / 2)%Z with (d - 1)%Z by lia. rewrite !Z2Nat.inj_mul by nia. auto. }
    unfold rtop, rside. rewrite !flat_map_pair, !length_zrange, L1 by reflexivity.
    replace (Z.to_nat (d * d - 1)) with (Z.to_nat ((d - 1) * (d - 1)) + Z.to_nat (2 * (d - 1))).
    + assert (Z.to_nat (2 * (d - 1)) = 2 * Z.to_nat ((2 * d - 4 + 4 - 1) / 4) + 2 * Z.to_nat ((2 * d - 2 + 4 - 1) / 4)). { apply Nat2Z.inj. rewrite Nat2Z.inj_add, !Nat2Z.inj_mul. lia. }
      rewrite H. lia.
    + rewrite <- Z2Nat.inj_add by nia. f_equal. nia.
  - intros [k [i j]] I. apply in_rinner in I as (a & b & _ & ->). auto.
  - intros [k [i j]] I. apply in_rside in I as (a & b & _ & ->). auto.
  - intros [k [i j]] I. apply in_rtop in I as (a & b & _ & ->). auto.
Qed.
Definition rotated_code d z : stabcode := mkStabcode (map (brow (rvs d) (res d z)) (stab_ids (rvs d))) (map (brow (rvs d) (res d z)) (log_ids (rvs d))).
Lemma rotated_edge_of d z o : (2 <= d)%Z -> In o (stab_ids (rvs d)) \/ In o (log_ids (rvs d)) -> exists p f, In (o, p, f) (res d z) /\ In p (dpos (rvs d)).
Proof.
  intros D I. assert (exists p f, In (o, p, f) (res d z)) as (p & f & E).
  { destruct I as [I|I].
    - apply in_stab_ids in I as (g & q & Q). destruct (rstab_pos _ _ _ _ Q) as (a & b & -> & S & ->). unfold stabat in S.
      exists (if a =? 0 then 1 else 2 * a - 1, if b =? 0 then 1 else 2 * b - 1)%Z. eexists. apply in_res. left. eexists _, _. split; [eauto|]. split; [|split; [|reflexivity]]; unfold radj, rbox; cbn [fst snd]; destruct (Z.eqb_spec a 0), (Z.eqb_spec b 0); lia.
    - rewrite rlog_ids in I. destruct I as [<-|[<-|[]]]; eexists _, _; apply in_res; right; apply in_rL; exists 1%Z; (split; [lia|]); [left|right]; auto. }
  exists p, f. split; auto. apply in_dpos. apply (res_okey d z _ D E).
Qed.
Lemma rotated_valid d z : (2 <= d)%Z -> valid_code (Z.to_nat (d * d)) (Z.to_nat (d * d - 1)) 1 (rotated_code d z).
Proof.
  intros D. rewrite <- rotated_data_count, <- rotated_stab_count by auto. apply built_valid.
  - apply nodup_res; auto.
  - rewrite rlog_ids. auto.
  - intros; apply rotated_edge_of; auto.
  - intros; apply rotated_stab_stab; auto.
  - intros a b A B. rewrite rlog_ids in B. destruct B as [<-|[<-|[]]]. apply rotated_stab_x; auto. apply rotated_stab_z; auto.
  - intros i j a b A B. rewrite rlog_ids in A, B. pose proof (rotated_x_z d z D) as XZ.
    destruct i as [|[|[]]]; cbn in A; try discriminate; destruct j as [|[|[]]]; cbn in B; try discriminate; injection A as <-; injection B as <-; cbn [Nat.div Nat.eqb negb andb Nat.divmod fst].
    + apply symp_self.
    + auto.
    + rewrite symp_comm. auto.
    + apply symp_self.
Qed.
Lemma diagonal_all x y : (Z.abs x = 1 /\ Z.abs y = 1)%Z -> In (x, y) diagonal_order.
Proof. intros A. assert ((x = 1 \/ x = -1) /\ (y = 1 \/ y = -1))%Z as [[-> | ->] [-> | ->]] by lia; cbn; auto. Qed.
Lemma rotated_make d z r : (2 <= d)%Z -> exists l, rotated_lattice d z diagonal_order = Ok l /\ make_rotated_planar r d z = Ok (mkCode (rotated_code d z) l r).
Proof.
  intros D. destruct (rotated_built d z diagonal_order D diagonal_all) as (l & E & B & X & _). exists l. split; auto. unfold make_rotated_planar, make_code. rewrite E. cbn [bindR].
  rewrite (built_from _ _ _ _ B X); auto.
  - intros o O. destruct (rotated_edge_of d z o D O) as (p & f & I & _). eauto.
  - intros N. pose proof (rotated_stab_count d D) as L. rewrite N in L. cbn [List.length] in L. nia.
  - exists 0. rewrite rlog_ids. auto.
Qed.
