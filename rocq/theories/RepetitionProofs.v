(** The repetition code for every odd size. *)
Require Import List Bool Arith ZArith Lia String Permutation.
From Verif Require Import Base BaseProofs QSpec PauliModel PauliSem PauliProofs PauliAlg LatticeModel CodesModel CodesSpec LatticeSpec LatticeProofs LatticeEdit LatticeOps BuildProofs CodesProofs.
Import ListNotations.
Local Open Scope nat_scope.
Local Open Scope list_scope.
Ltac Zify.zify_post_hook ::= Z.to_euclidean_division_equations.
Local Opaque Z.mul Z.add Z.sub.

Definition cdata (d : Z) : list (kind * pos) := map (fun i => (KData, (i, 0)%Z)) (zrange 0 (2 * d) 2).
Definition cstab (i : Z) : kind * pos := (KStab GA, (i, 0)%Z).
Definition cgrid (d : Z) := cdata d ++ map cstab (zrange 1 (2 * d - 2) 2).
Definition clog (d : Z) : list (kind * pos) := [(KLogical "X", (d - 1, 1)%Z); (KLogical "Z", (2 * d - 1, 0)%Z)].
Definition cvs d := cgrid d ++ clog d.
Definition cn d := List.length (cgrid d).
Definition cT (s : nat) (p : pos) (g : group) : list (nat * pos * factor) := [(s, (fst p + -1, 0)%Z, FZ); (s, (fst p + 1, 0)%Z, FZ)].
Definition cX (d : Z) : list (nat * pos * factor) := flat_map (fun i => [(cn d, (i, 0)%Z, FX)]) (zrange 0 (2 * d) 2).
Definition ces d := (flat_map (stab_edges cT) (numbered (cgrid d)) ++ cX d) ++ [(S (cn d), (2 * d - 2, 0)%Z, FZ)].

Lemma in_cgrid d k i j : In (k, (i, j)) (cgrid d) <-> (j = 0 /\ 0 <= i < 2 * d /\ (k = KData /\ i mod 2 = 0 \/ k = KStab GA /\ i mod 2 = 1 /\ i < 2 * d - 2))%Z.
Proof.
  unfold cgrid, cdata, cstab. rewrite in_app_iff, !in_map_iff. split.
  - intros [(x & E & I)|(x & E & I)]; injection E as <- <- <-; rewrite in_zrange in I by lia; repeat (split; auto; try lia). left; split; auto; lia. right; split; auto; lia.
  - intros (-> & I & [[-> M]|[-> M]]); [left|right]; exists i; rewrite in_zrange by lia; split; auto; lia.
Qed.
Lemma nodup_cgrid d : NoDup (map snd (cgrid d)).
Proof.
  unfold cgrid, cdata. rewrite map_app, !map_map. apply NoDup_app3.
  - apply FinFun.Injective_map_NoDup. intros a b E; injection E; auto. apply nodup_zrange; lia.
  - apply FinFun.Injective_map_NoDup. intros a b E; injection E; auto. apply nodup_zrange; lia.
  - intros p A B. apply in_map_iff in A as (x & <- & A). apply in_map_iff in B as (y & E & B). cbn [cstab snd] in E. injection E as ->. rewrite in_zrange in A, B by lia. lia.
Qed.
Lemma clog_free d p : (2 <= d)%Z -> In p (map snd (clog d)) -> ~ In p (map snd (cgrid d)).
Proof.
  intros D I J. apply in_map_iff in J as ([k [i j]] & E & J). apply in_cgrid in J. cbn [snd] in E. subst p. cbn [clog map snd In] in I. destruct I as [E|[E|[]]]; injection E; intros; subst; destruct J as (? & ? & [[_ ?]|[_ ?]]); lia.
Qed.
Lemma nodup_cvs d : (2 <= d)%Z -> NoDup (map snd (cvs d)).
Proof.
  intros D. unfold cvs. rewrite map_app. apply NoDup_app3. apply nodup_cgrid.
  - cbn [clog map snd]. apply NoDup_cons. 2: apply NoDup_cons. 3: apply NoDup_nil. 2: auto. intros [E|[]]. injection E as E1 E2. lia.
  - intros p A B. apply (clog_free d p); auto.
Qed.
Lemma cvs_stab d o g q : nth_error (cvs d) o = Some (KStab g, q) <-> nth_error (cgrid d) o = Some (KStab g, q).
Proof.
  unfold cvs. destruct (Nat.ltb_spec o (List.length (cgrid d))).
  - rewrite nth_error_app1 by auto. tauto.
  - rewrite nth_error_app2 by auto. assert (nth_error (cgrid d) o = None) by (apply nth_error_None; auto). rewrite H0. split; [|discriminate].
    destruct (o - List.length (cgrid d)) as [|[|[]]]; discriminate.
Qed.
Lemma cvs_logical d : nth_error (cvs d) (cn d) = Some (KLogical "X", (d - 1, 1)%Z) /\ nth_error (cvs d) (S (cn d)) = Some (KLogical "Z", (2 * d - 1, 0)%Z).
Proof. unfold cvs, cn. rewrite !nth_error_app2 by lia. rewrite Nat.sub_diag. replace (S (List.length (cgrid d)) - List.length (cgrid d)) with 1 by lia. auto. Qed.
Lemma in_cdata d i j : In (KData, (i, j)) (cvs d) <-> (j = 0 /\ 0 <= i < 2 * d /\ i mod 2 = 0)%Z.
Proof.
  unfold cvs. rewrite in_app_iff, in_cgrid. split.
  - intros [(A & B & [[_ C]|[C _]])|[E|[E|[]]]]; try discriminate. auto.
  - intros (A & B & C). left. auto.
Qed.
Lemma cstab_pos d o g q : nth_error (cvs d) o = Some (KStab g, q) -> exists i, (q = (i, 0) /\ 1 <= i < 2 * d - 2 /\ i mod 2 = 1)%Z /\ g = GA.
Proof. intros E. apply cvs_stab in E. apply nth_error_In in E. destruct q as [i j]. apply in_cgrid in E as (-> & B & [[C _]|[C D]]); [discriminate|]. injection C as ->. exists i. split; auto. split; auto. lia. Qed.
Lemma in_ces d o p f : In (o, p, f) (ces d) <->
  (exists g q, nth_error (cvs d) o = Some (KStab g, q) /\ (snd p = 0 /\ Z.abs (fst p - fst q) = 1)%Z /\ f = FZ) \/
  (o = cn d /\ (snd p = 0 /\ 0 <= fst p < 2 * d /\ fst p mod 2 = 0)%Z /\ f = FX) \/ (o = S (cn d) /\ p = (2 * d - 2, 0)%Z /\ f = FZ).
Proof.
  unfold ces. rewrite !in_app_iff, in_stab_edges. unfold cX. rewrite in_flat_map. destruct p as [i j]. cbn [fst snd]. split.
  - intros [[(s & g & q & Q & I)|(x & I & J)]|[E|[]]].
    + apply cvs_stab in Q. left. exists g, q. unfold cT in I. destruct I as [E|[E|[]]]; injection E; intros; subst; split; auto; split; auto; lia.
    + destruct J as [E|[]]. injection E as <- <- <- <-. rewrite in_zrange in I by lia. right. left. split; auto. split; auto. lia.
    + injection E as <- <- <- <-. auto.
  - intros [(g & q & Q & [-> A] & ->)|[(-> & (-> & A & B) & ->)|(-> & E & ->)]].
    + left. left. exists o, g, q. apply cvs_stab in Q. split; auto. unfold cT. assert (i = fst q + -1 \/ i = fst q + 1)%Z as [-> | ->] by lia; [left|right; left]; auto.
    + left. right. exists i. split. rewrite in_zrange by lia. lia. left; auto.
    + injection E as -> ->. right. left. auto.
Qed.
Lemma nodup_ces d : NoDup (map fst (ces d)).
Proof.
  unfold ces. rewrite map_app. apply NoDup_app3. rewrite map_app. apply NoDup_app3.
  - apply nodup_stab_edges. intros i p g t [<-|[<-|[]]]; auto. intros i p g. cbn [cT map fst]. apply NoDup_cons. intros [E|[]]. injection E; lia. apply NoDup_cons; auto. apply NoDup_nil.
  - unfold cX. apply nodup_flat_map. apply nodup_zrange; lia. intros; cbn. constructor; auto. constructor. intros x y a b _ _ [<-|[]] [<-|[]] E. cbn [fst] in E. injection E; auto.
  - intros [o p] A B. apply in_map_iff in A as ([[o' p'] f] & E & A). cbn [fst] in E. injection E as -> ->. apply in_stab_edges in A as (s & g & q & Q & I). assert (o = s) by (destruct I as [E|[E|[]]]; injection E; auto). subst s.
    apply in_map_iff in B as ([[o' p''] f'] & E & B). cbn [fst] in E. injection E as -> ->. apply in_flat_map in B as (x & _ & [E|[]]). injection E as <- <- <-.
    assert (cn d < List.length (cgrid d)) by (apply nth_error_Some; congruence). unfold cn in *. lia.
  - cbn. constructor; auto. constructor.
  - intros [o p] A [E|[]]. cbn [fst] in E. injection E as <- <-. apply in_map_iff in A as ([[o' p'] f] & E & A). cbn [fst] in E. injection E as -> ->. apply in_app_iff in A as [A|A].
    + apply in_stab_edges in A as (s & g & q & Q & I). assert (S (cn d) = s) by (destruct I as [E|[E|[]]]; injection E; auto). subst s.
      assert (S (cn d) < List.length (cgrid d)) by (apply nth_error_Some; congruence). unfold cn in *. lia.
    + apply in_flat_map in A as (x & _ & [E|[]]). injection E; lia.
Qed.
Lemma ces_okey d t : (2 <= d)%Z -> In t (ces d) -> okey (cvs d) t.
Proof.
  intros D. destruct t as [[o [i j]] f]. intros I. apply in_ces in I. destruct (cvs_logical d) as [X Z]. destruct I as [(g & q & Q & [A B] & ->)|[(-> & (A & B) & ->)|(-> & E & ->)]]; split; cbn [fst snd] in *.
  - destruct (cstab_pos _ _ _ _ Q) as (x & (-> & C) & ->). cbn [fst snd] in *. apply in_cdata. lia.
  - exists (KStab g), q. split; auto; discriminate.
  - apply in_cdata. auto.
  - eexists _, _. split; eauto. discriminate.
  - injection E as -> ->. apply in_cdata. lia.
  - eexists _, _. split; eauto. discriminate.
Qed.
(** The loop creates every generator together with its edges. *)
Lemma forE_cons {X} (f : X -> eff) x xs : forE f (x :: xs) = seqE (f x) (forE f xs).
Proof. reflexivity. Qed.
Lemma rep_loop sh xs : forall vs es, NoDup (map snd (vs ++ map cstab xs)) -> (forall x, In x xs -> inside sh (x, 0)%Z /\ In (KData, (x + -1, 0)%Z) vs /\ In (KData, (x + 1, 0)%Z) vs) ->
  (forall t, In t es -> fst (fst t) < List.length vs) -> NoDup (map fst es) ->
  runs sh (forE (fun i => with_stabgen (i, 0)%Z GA (fun s => forE (fun di => edge_to (i + di, 0)%Z s FZ) [-1; 1]%Z)) xs) vs es
    (vs ++ map cstab xs) (es ++ flat_map (stab_edges cT) (enumerate_from (List.length vs) (map cstab xs))).
Proof.
  induction xs as [|x xs IH]; intros vs es N I K KN.
  - cbn. rewrite !List.app_nil_r. apply runs_skip.
  - rewrite forE_cons. cbn [map enumerate_from flat_map stab_edges cstab]. destruct (I x (or_introl eq_refl)) as (I1 & I2 & I3).
    set (vs1 := vs ++ [cstab x]). set (es1 := es ++ cT (List.length vs) (x, 0)%Z GA).
    assert (KN1 : NoDup (map fst es1)).
    { unfold es1. rewrite map_app. apply NoDup_app3; auto.
      - cbn [cT map fst]. apply NoDup_cons. intros [E|[]]. injection E; lia. apply NoDup_cons; auto. apply NoDup_nil.
      - intros t A B. apply in_map_iff in A as (t' & <- & A). apply K in A. apply in_map_iff in B as (t'' & E & [<-|[<-|[]]]); rewrite <- E in A; cbn [fst] in A; lia. }
    assert (R : runs sh (with_stabgen (x, 0)%Z GA (fun s => forE (fun di => edge_to (x + di, 0)%Z s FZ) [-1; 1]%Z)) vs es vs1 es1).
    { apply (runs_with sh (KStab GA) (x, 0)%Z); auto.
      - rewrite map_app in N. cbn [map cstab snd] in N. apply NoDup_remove_2 in N. rewrite in_app_iff in N. tauto.
      - assert (Dr : draws (vs ++ [(KStab GA, (x, 0)%Z)]) (forE (fun di => edge_to (x + di, 0)%Z (List.length vs) FZ) [-1; 1]%Z) (cT (List.length vs) (x, 0)%Z GA)).
        { apply (draws_for _ _ (fun di => [(List.length vs, (x + di, 0)%Z, FZ)])). intros; apply draws_one. }
        apply Dr.
        + assert (Q : nth_error (vs ++ [(KStab GA, (x, 0)%Z)]) (List.length vs) = Some (KStab GA, (x, 0)%Z)) by (rewrite nth_error_app2, Nat.sub_diag; auto).
          intros t [<-|[<-|[]]]; cbn [fst snd]; (split; [apply in_app_iff; auto|eexists _, _; split; [exact Q|discriminate]]).
        + fold es1. exact KN1. }
    eapply runs_seq. exact R. replace (vs ++ cstab x :: map cstab xs) with (vs1 ++ map cstab xs) by (unfold vs1; rewrite <- app_assoc; auto).
    rewrite app_assoc. fold es1. replace (S (List.length vs)) with (List.length vs1) by (unfold vs1; rewrite app_length; cbn; lia).
    apply IH; auto.
    + unfold vs1. rewrite <- app_assoc. auto.
    + intros y Y. destruct (I y (or_intror Y)) as (A & B & C). unfold vs1. rewrite !in_app_iff. auto.
    + intros t T. unfold vs1. rewrite app_length. cbn [List.length]. unfold es1 in T. apply in_app_iff in T as [T|[<-|[<-|[]]]]; cbn [fst]; [apply K in T|..]; lia.
Qed.
Lemma repetition_built d : (2 <= d)%Z -> (d mod 2 = 1)%Z ->
  exists l, repetition_lattice d = Ok l /\ built (2 * d, 2)%Z (cvs d) (ces d) l /\ indexed l.
Proof.
  intros D O. unfold repetition_lattice. rewrite O. cbn [negb Z.eqb Pos.eqb]. unfold construct. destruct (built_empty (2 * d, 2)%Z) as (l0 & -> & B0); cbn [fst snd]; try lia. cbn [bindR].
  unfold repetition_body. assert (NG := nodup_cgrid d). 
  assert (I1 : forall w, In w (cgrid d) -> inside (2 * d, 2)%Z (snd w)).
  { intros [k [i j]] I. apply in_cgrid in I as (-> & A & _). unfold inside. cbn [fst snd]. lia. }
  set (prog1 := forE _ (zrange 0 (2 * d) 2)).
  assert (A1 : adds prog1 (cdata d)). { unfold cdata. rewrite <- (flat_map_concat_map (fun i => [(KData, (i, 0)%Z)])) || idtac. assert (E : map (fun i => (KData, (i, 0)%Z)) (zrange 0 (2 * d) 2) = flat_map (fun i => [(KData, (i, 0)%Z)]) (zrange 0 (2 * d) 2)) by (induction (zrange 0 (2 * d) 2); cbn; congruence). rewrite E. apply adds_for. intros i _. apply adds_one. }
  destruct (A1 (2 * d, 2)%Z [] []) with (l := l0) as (l1 & E1 & B1); auto.
  { cbn [app]. unfold cgrid in NG. rewrite map_app in NG. apply nodup_app_l in NG. auto. } { intros w W. apply I1. apply in_app_iff. auto. }
  cbn [app] in B1. rewrite (seq_step _ _ _ l1 E1). clearbody prog1.
  destruct (rep_loop (2 * d, 2)%Z (zrange 1 (2 * d - 2) 2) (cdata d) []) with (l := l1) as (l2 & E2 & B2); auto.
  { intros x X. rewrite in_zrange in X by lia. split. unfold inside; cbn [fst snd]; lia. unfold cdata. rewrite !in_map_iff. split; eexists; (split; [reflexivity|]); rewrite in_zrange by lia; lia. }
  { intros t []. } { constructor. }
  rewrite (seq_step _ _ _ l2 E2). fold (cgrid d) in B2. cbn [app] in B2.
  assert (EE : flat_map (stab_edges cT) (numbered (cgrid d)) = flat_map (stab_edges cT) (enumerate_from (List.length (cdata d)) (map cstab (zrange 1 (2 * d - 2) 2)))).
  { unfold cgrid. rewrite numbered_app, flat_map_app. assert (Z0 : flat_map (stab_edges cT) (numbered (cdata d)) = []); [|rewrite Z0; auto].
    destruct (flat_map (stab_edges cT) (numbered (cdata d))) as [|t r] eqn:E; auto. assert (I : In t (flat_map (stab_edges cT) (numbered (cdata d)))) by (rewrite E; left; auto).
    apply in_stab_edges in I as (i & g & p & Q & _). apply nth_error_In in Q. apply in_map_iff in Q as (x & Q & _). discriminate. }
  rewrite <- EE in B2.
  destruct (built_add _ _ _ _ (KLogical "X") (d - 1, 1)%Z B2) as (l3 & E3 & B3).
  { apply (clog_free d); auto. left; auto. } { unfold inside. cbn [fst snd]. lia. }
  unfold with_logical at 1. unfold add_logical at 1. rewrite (seq_step _ _ _ l3 E3). rewrite (b_next _ _ _ _ B2). fold (cn d).
  set (vs3 := cgrid d ++ [(KLogical "X", (d - 1, 1)%Z)]) in *.
  set (prog3 := forE _ (zrange 0 (2 * d) 2)).
  assert (D1 : draws vs3 prog3 (cX d)). { apply draws_for. intros. apply draws_one. }
  assert (NE := nodup_ces d). unfold ces in NE.
  assert (SK : forall t, In t (ces d) -> fst (fst t) <= cn d -> okey vs3 t).
  { intros [[o p] f] I L. destruct (ces_okey d (o, p, f) D I) as [A (k & q & Q & N)]. cbn [fst snd] in *. split; cbn [fst snd].
    - destruct p as [i j]. apply in_cdata in A as (-> & A). apply in_app_iff. left. apply in_cgrid. split; auto. split; [lia|]. left; split; auto; lia.
    - exists k, q. split; auto. unfold cvs, clog in Q. replace (cgrid d ++ _) with (vs3 ++ [(KLogical "Z", (2 * d - 1, 0)%Z)]) in Q by (unfold vs3; rewrite <- app_assoc; auto).
      rewrite nth_error_app1 in Q; auto. unfold vs3. rewrite app_length. cbn [List.length]. unfold cn in L. lia. }
  destruct (D1 (2 * d, 2)%Z (flat_map (stab_edges cT) (numbered (cgrid d)))) with (l := l3) as (l4 & E4 & B4); auto.
  { intros t T. apply SK. unfold ces. rewrite !in_app_iff. auto. apply in_flat_map in T as (x & _ & [<-|[]]). cbn [fst]. auto. }
  { rewrite map_app in NE. apply nodup_app_l in NE. auto. }
  rewrite (seq_step _ _ _ l4 E4). clearbody prog3.
  destruct (built_add _ _ _ _ (KLogical "Z") (2 * d - 1, 0)%Z B4) as (l5 & E5 & B5).
  { unfold vs3. rewrite map_app, in_app_iff. intros [I|[E|[]]]. apply (clog_free d) in I; auto. right; left; auto. cbn [snd] in E. injection E as F1 F2. lia. } { unfold inside. cbn [fst snd]. lia. }
  unfold with_logical at 1. unfold add_logical at 1. rewrite (seq_step _ _ _ l5 E5). rewrite (b_next _ _ _ _ B4).
  assert (L3 : List.length vs3 = S (cn d)) by (unfold vs3, cn; rewrite app_length; cbn [List.length]; lia). rewrite L3.
  replace (vs3 ++ _) with (cvs d) in B5 by (unfold cvs, vs3, clog; rewrite <- app_assoc; auto).
  destruct (built_edge _ _ _ _ (S (cn d)) (2 * d - 2, 0)%Z FZ B5) as (l6 & E6 & B6).
  { apply (ces_okey d); auto. unfold ces. rewrite !in_app_iff. right; left; auto. }
  { rewrite map_app in NE. cbn [map fst] in NE. apply NoDup_remove_2 in NE. rewrite List.app_nil_r in NE. auto. }
  rewrite (seq_step _ _ _ l6 E6). fold (ces d) in B6. destruct (runs_indices _ _ _ _ B6) as (B7 & X7 & _). exists (assign_indices l6). auto.
Qed.

(** * The operators *)
Lemma cfac_stab d o g q p : nth_error (cvs d) o = Some (KStab g, q) -> In p (dpos (cvs d)) -> fac (ces d) o p = if (Z.abs (fst p - fst q) =? 1)%Z then (false, true) else (false, false).
Proof.
  intros Q P. destruct p as [i j]. apply in_dpos, in_cdata in P as [-> P]. cbn [fst snd]. destruct (Z.eqb_spec (Z.abs (i - fst q)) 1).
  - apply (fac_in _ _ _ FZ). apply nodup_ces. apply in_ces. left. exists g, q. auto.
  - apply fac_out. intros f I. destruct (cvs_logical d). apply in_ces in I as [(g' & q' & Q' & [_ A] & _)|[(-> & _)|(-> & _)]]; [|congruence|congruence].
    rewrite Q in Q'. injection Q' as <- <-. cbn [fst] in A. auto.
Qed.
Lemma cfac_x d p : In p (dpos (cvs d)) -> fac (ces d) (cn d) p = (true, false).
Proof. intros P. destruct p as [i j]. apply in_dpos, in_cdata in P. apply (fac_in _ _ _ FX). apply nodup_ces. apply in_ces. right. left. cbn [fst snd]. auto. Qed.
Lemma cfac_z d p : In p (dpos (cvs d)) -> fac (ces d) (S (cn d)) p = if (fst p =? 2 * d - 2)%Z then (false, true) else (false, false).
Proof.
  intros P. destruct p as [i j]. apply in_dpos, in_cdata in P as (-> & P). cbn [fst snd]. destruct (Z.eqb_spec i (2 * d - 2)).
  - subst. apply (fac_in _ _ _ FZ). apply nodup_ces. apply in_ces. auto.
  - apply fac_out. intros f I. destruct (cvs_logical d). apply in_ces in I as [(g' & q' & Q' & _)|[(E & _)|(_ & E & _)]]; [congruence|lia|]. injection E; auto.
Qed.
Lemma clog_ids d : log_ids (cvs d) = [cn d; S (cn d)].
Proof.
  unfold cvs. rewrite log_ids_app. auto.
  - intros [k [i j]] I. apply in_cgrid in I as (_ & _ & [[-> _]|[-> _]]); auto.
  - intros kp [<-|[<-|[]]]; auto.
Qed.
Lemma sp_z x y : sp (false, x) (false, y) = false.
Proof. destruct x, y; auto. Qed.
Lemma rep_stab_stab d a b : In a (stab_ids (cvs d)) -> In b (stab_ids (cvs d)) -> symp (ops (brow (cvs d) (ces d) a)) (ops (brow (cvs d) (ces d) b)) = false.
Proof.
  intros A B. apply in_stab_ids in A as (ga & qa & A). apply in_stab_ids in B as (gb & qb & B). apply brow_none. intros p P. rewrite (cfac_stab d a ga qa), (cfac_stab d b gb qb) by auto.
  destruct (_ =? _)%Z, (_ =? _)%Z; auto.
Qed.
Lemma rep_stab_z d a : In a (stab_ids (cvs d)) -> symp (ops (brow (cvs d) (ces d) a)) (ops (brow (cvs d) (ces d) (S (cn d)))) = false.
Proof.
  intros A. apply in_stab_ids in A as (ga & qa & A). apply brow_none. intros p P. rewrite (cfac_stab d a ga qa), cfac_z by auto. destruct (_ =? _)%Z, (_ =? _)%Z; auto.
Qed.
Lemma rep_stab_x d a : (2 <= d)%Z -> In a (stab_ids (cvs d)) -> symp (ops (brow (cvs d) (ces d) a)) (ops (brow (cvs d) (ces d) (cn d))) = false.
Proof.
  intros D A. apply in_stab_ids in A as (ga & qa & A). destruct (cstab_pos _ _ _ _ A) as (x & (-> & C & M) & ->).
  apply (brow_two _ _ a _ (x - 1, 0)%Z (x + 1, 0)%Z). apply nodup_dpos, nodup_cvs; auto. intros E; injection E; lia. 1,2: apply in_dpos, in_cdata; lia.
  intros [i j] P. rewrite (cfac_stab d a _ _ _ A P), (cfac_x d _ P). apply in_dpos, in_cdata in P as [-> P]. cbn [fst snd]. destruct (Z.eqb_spec (Z.abs (i - x)) 1).
  - split; auto. intros _. assert (i = x - 1 \/ i = x + 1)%Z as [-> | ->] by lia; auto.
  - split; [discriminate|]. intros [E|E]; injection E; lia.
Qed.
Lemma rep_x_z d : (2 <= d)%Z -> symp (ops (brow (cvs d) (ces d) (cn d))) (ops (brow (cvs d) (ces d) (S (cn d)))) = true.
Proof.
  intros D. apply (brow_one _ _ _ _ (2 * d - 2, 0)%Z). apply nodup_dpos, nodup_cvs; auto. apply in_dpos, in_cdata; lia.
  intros [i j] P. rewrite cfac_x, cfac_z by auto. apply in_dpos, in_cdata in P as [-> P]. cbn [fst snd]. destruct (Z.eqb_spec i (2 * d - 2)).
  - subst. tauto.
  - split; [discriminate|]. intros E; injection E; lia.
Qed.
Lemma filter_all {A} (f : A -> bool) l : (forall x, In x l -> f x = true) -> filter f l = l.
Proof. induction l; cbn; auto. intros H. rewrite H by auto. f_equal. auto. Qed.
Lemma rep_data_count d : (2 <= d)%Z -> List.length (dpos (cvs d)) = Z.to_nat d.
Proof.
  intros D. rewrite (length_same _ (map (fun i => (i, 0)%Z) (zrange 0 (2 * d) 2))).
  - rewrite map_length, length_zrange. f_equal. lia.
  - apply nodup_dpos, nodup_cvs; auto.
  - apply FinFun.Injective_map_NoDup. intros a b E; injection E; auto. apply nodup_zrange; lia.
  - intros [i j]. rewrite in_dpos, in_cdata, in_map_iff. split.
    + intros (-> & A). exists i. rewrite in_zrange by lia. split; auto. lia.
    + intros (x & E & I). injection E as -> <-. rewrite in_zrange in I by lia. lia.
Qed.
Lemma rep_stab_count d : (2 <= d)%Z -> List.length (stab_ids (cvs d)) = Z.to_nat (d - 1).
Proof.
  intros D. rewrite length_stab_ids. rewrite (length_same _ (map (fun i => (i, 0)%Z) (zrange 1 (2 * d - 2) 2))).
  - rewrite map_length, length_zrange. f_equal. lia.
  - apply nodup_spos, nodup_cvs; auto.
  - apply FinFun.Injective_map_NoDup. intros a b E; injection E; auto. apply nodup_zrange; lia.
  - intros p. rewrite in_spos, in_map_iff. split.
    + intros (g & I). apply In_nth_error in I as [o I]. apply cstab_pos in I as (i & (-> & A & B) & _). exists i. rewrite in_zrange by lia. split; auto. lia.
    + intros (x & <- & I). rewrite in_zrange in I by lia. exists GA. apply in_app_iff. left. apply in_cgrid. split; auto. split; [lia|]. right. split; auto. lia.
Qed.
Definition repetition_code d : stabcode := mkStabcode (map (brow (cvs d) (ces d)) (stab_ids (cvs d))) (map (brow (cvs d) (ces d)) (log_ids (cvs d))).
Lemma rep_edge_of d o : (2 <= d)%Z -> In o (stab_ids (cvs d)) \/ In o (log_ids (cvs d)) -> exists p f, In (o, p, f) (ces d) /\ In p (dpos (cvs d)).
Proof.
  intros D I. assert (exists p f, In (o, p, f) (ces d)) as (p & f & E).
  { destruct I as [I|I].
    - apply in_stab_ids in I as (g & q & Q). destruct (cstab_pos _ _ _ _ Q) as (i & (-> & _) & _). exists (i + 1, 0)%Z, FZ. apply in_ces. left. eexists _, _. split; [eauto|]. cbn [fst snd]. split; auto. lia.
    - rewrite clog_ids in I. destruct I as [<-|[<-|[]]]. exists (0, 0)%Z, FX. apply in_ces. right. left. cbn [fst snd]. split; auto. split; auto. lia. eexists _, _. apply in_ces. right. right. eauto. }
  exists p, f. split; auto. apply in_dpos. apply (ces_okey d _ D E).
Qed.
Lemma repetition_valid d : (2 <= d)%Z -> valid_code (Z.to_nat d) (Z.to_nat (d - 1)) 1 (repetition_code d).
Proof.
  intros D. rewrite <- rep_data_count, <- rep_stab_count by auto. apply built_valid.
  - apply nodup_ces; auto.
  - rewrite clog_ids. auto.
  - intros; apply rep_edge_of; auto.
  - intros; apply rep_stab_stab; auto.
  - intros a b A B. rewrite clog_ids in B. destruct B as [<-|[<-|[]]]. apply rep_stab_x; auto. apply rep_stab_z; auto.
  - intros i j a b A B. rewrite clog_ids in A, B. pose proof (rep_x_z d D) as XZ.
    destruct i as [|[|[]]]; cbn in A; try discriminate; destruct j as [|[|[]]]; cbn in B; try discriminate; injection A as <-; injection B as <-; cbn [Nat.div Nat.eqb negb andb Nat.divmod fst].
    + apply symp_self.
    + auto.
    + rewrite symp_comm. auto.
    + apply symp_self.
Qed.
Lemma repetition_make d r : (2 <= d)%Z -> (d mod 2 = 1)%Z -> exists l, repetition_lattice d = Ok l /\ make_repetition r d = Ok (mkCode (repetition_code d) l r).
Proof.
  intros D O. destruct (repetition_built d D O) as (l & E & B & X). exists l. split; auto. unfold make_repetition, make_code. rewrite E. cbn [bindR].
  rewrite (built_from _ _ _ _ B X); auto.
  - intros o I. destruct (rep_edge_of d o D I) as (p & f & J & _). eauto.
  - intros N. pose proof (rep_stab_count d D) as L. rewrite N in L. cbn [List.length] in L. lia.
  - exists 0. rewrite clog_ids. auto.
Qed.
