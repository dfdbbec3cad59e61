(** In the built-in codes every X or Z error on one data qubit is seen by at most two generators. *)
Require Import List Bool Arith ZArith Lia String.
From Verif Require Import Base BaseProofs QSpec PauliModel LatticeModel CodesModel CodesSpec LatticeSpec BuildProofs CodesProofs
  PlanarProofs RotatedProofs ToricProofs RepetitionProofs SyngraphFinal.
From Verif Require GeneratorSpec.
Import ListNotations.
Local Open Scope nat_scope.
Local Open Scope list_scope.
Ltac Zify.zify_post_hook ::= Z.to_euclidean_division_equations.

Lemma NoDup_stab_ids vs : NoDup (stab_ids vs).
Proof.
  unfold stab_ids, numbered. assert (H : forall a, NoDup (map fst (filter (fun x => iss (snd x)) (enumerate_from a vs))) /\
    forall i, In i (map fst (filter (fun x => iss (snd x)) (enumerate_from a vs))) -> a <= i).
  { induction vs as [|x vs IH]; intros a; cbn [enumerate_from filter map]; [split; [constructor|intros i []]|].
    destruct (IH (S a)) as [N B]. destruct (iss (snd (a, x))); cbn [map fst]; split; auto.
    - constructor; auto. intros I. apply B in I. lia.
    - intros i [<-|I]; [lia|]. apply B in I. lia.
    - intros i I. apply B in I. lia. }
  apply H.
Qed.

Lemma two_positions vs (f : nat -> bool) p1 p2 : NoDup (map snd vs) ->
  (forall o g q, nth_error vs o = Some (KStab g, q) -> f o = true -> q = p1 \/ q = p2) ->
  List.length (filter f (stab_ids vs)) <= 2.
Proof.
  intros N H. set (l := filter f (stab_ids vs)).
  assert (ND : NoDup l) by (apply NoDup_filter, NoDup_stab_ids).
  assert (P : forall o, In o l -> exists g q, nth_error vs o = Some (KStab g, q) /\ (q = p1 \/ q = p2)).
  { intros o I. apply filter_In in I. destruct I as [I F]. apply in_stab_ids in I. destruct I as (g & q & Q). exists g, q. split; auto. apply (H o g q); auto. }
  assert (ND2 : NoDup (map (fun o => nth o (map snd vs) p1) l)).
  { clear - ND P N. induction l as [|o l IH]; cbn; [constructor|]. inversion ND; subst. constructor.
    - intros I. apply in_map_iff in I. destruct I as (o' & E & I). destruct (P o (or_introl eq_refl)) as (g & q & Q & _). destruct (P o' (or_intror I)) as (g' & q' & Q' & _).
      assert (L : o < List.length (map snd vs)) by (rewrite map_length; apply nth_error_Some; congruence).
      assert (L' : o' < List.length (map snd vs)) by (rewrite map_length; apply nth_error_Some; congruence).
      assert (o' = o) by (apply (proj1 (NoDup_nth (map snd vs) p1) N); auto). subst. auto.
    - apply IH; auto. intros o' I. apply P. right; auto. }
  assert (IN : incl (map (fun o => nth o (map snd vs) p1) l) [p1; p2]).
  { intros x I. apply in_map_iff in I. destruct I as (o & <- & I). destruct (P o I) as (g & q & Q & D).
    assert (E : nth o (map snd vs) p1 = q) by (apply nth_error_nth; rewrite nth_error_map, Q; reflexivity). rewrite E. destruct D as [-> | ->]; cbn; auto. }
  apply (NoDup_incl_length ND2) in IN. rewrite map_length in IN. exact IN.
Qed.

Lemma filter_brow vs es (c : bool * bool -> bool) q : q < List.length (dpos vs) ->
  List.length (filter (fun g => c (GeneratorSpec.fac g q)) (map (brow vs es) (stab_ids vs))) =
  List.length (filter (fun o => c (fac es o (nth q (dpos vs) (0, 0)%Z))) (stab_ids vs)).
Proof.
  intros L. induction (stab_ids vs) as [|o l IH]; auto. cbn [map filter].
  assert (E : GeneratorSpec.fac (brow vs es o) q = fac es o (nth q (dpos vs) (0, 0)%Z)).
  { unfold GeneratorSpec.fac. cbn [brow ops]. rewrite (nth_indep _ _ (fac es o (0, 0)%Z)) by (rewrite map_length; auto). apply map_nth. }
  rewrite E. destruct (c _); cbn [List.length]; auto.
Qed.

Lemma positions_graph_like vs es : NoDup (map snd vs) ->
  (forall p, In p (dpos vs) -> exists x1 x2 z1 z2, forall o g q, nth_error vs o = Some (KStab g, q) ->
     (snd (fac es o p) = true -> q = x1 \/ q = x2) /\ (fst (fac es o p) = true -> q = z1 \/ q = z2)) ->
  graph_like (List.length (dpos vs)) (map (brow vs es) (stab_ids vs)).
Proof.
  intros N H q L. destruct (H (nth q (dpos vs) (0, 0)%Z) (nth_In _ _ L)) as (x1 & x2 & z1 & z2 & P).
  rewrite (filter_brow vs es (clashes PX)), (filter_brow vs es (clashes PZ)) by auto. cbn [clashes]. split.
  - apply (two_positions vs _ x1 x2 N). intros o g r Q F. apply (P o g r Q); auto.
  - apply (two_positions vs _ z1 z2 N). intros o g r Q F. apply (P o g r Q); auto.
Qed.

Theorem planar_graph_like d : (2 <= d)%Z -> graph_like (List.length (dpos (pvs d))) (c_stabs (planar_code d)).
Proof.
  intros D. apply positions_graph_like; [apply nodup_pvs; auto|]. intros [i j] P.
  assert (P' : (i mod 2 = j mod 2)%Z) by (apply in_dpos, in_pdata in P; tauto).
  set (a := [(i, j + 1); (i, j - 1)]%Z). set (b := [(i + 1, j); (i - 1, j)]%Z).
  assert (K : forall o g q, nth_error (pvs d) o = Some (KStab g, q) -> fac (pes d) o (i, j) <> (false, false) ->
    fac (pes d) o (i, j) = fbits (group_factor g) /\
    ((g = GA /\ (if (j mod 2 =? 0)%Z then In q b else In q a)) \/ (g = GB /\ (if (j mod 2 =? 0)%Z then In q a else In q b)))).
  { intros o g [qi qj] Q F. rewrite (pfac_stab d o g _ _ Q P) in *. destruct (cadjb (qi, qj) (i, j)) eqn:C; [|congruence]. split; auto.
    apply Z.eqb_eq in C. cbn [fst snd] in C. pose proof (pstab_pos _ _ _ _ _ Q) as (_ & M & G).
    unfold a, b. destruct (Z.eqb_spec (j mod 2) 0) as [J|J]; destruct G as [[-> G]|[-> G]]; [left|right|left|right]; (split; [auto|]).
    - assert (qj = j /\ (qi = i + 1 \/ qi = i - 1))%Z as [-> [-> | ->]] by lia; cbn; auto.
    - assert (qi = i /\ (qj = j + 1 \/ qj = j - 1))%Z as [-> [-> | ->]] by lia; cbn; auto.
    - assert (qi = i /\ (qj = j + 1 \/ qj = j - 1))%Z as [-> [-> | ->]] by lia; cbn; auto.
    - assert (qj = j /\ (qi = i + 1 \/ qi = i - 1))%Z as [-> [-> | ->]] by lia; cbn; auto. }
  assert (T : forall q x y : pos, In q [x; y] -> q = x \/ q = y) by (intros q x y [<-|[<-|[]]]; auto).
  destruct (j mod 2 =? 0)%Z.
  - eexists _, _, _, _. intros o g q Q. split; intros F; destruct (K o g q Q) as (E & [[-> I]|[-> I]]); try (intros X; rewrite X in F; discriminate); rewrite E in F; try discriminate; apply T; exact I.
  - eexists _, _, _, _. intros o g q Q. split; intros F; destruct (K o g q Q) as (E & [[-> I]|[-> I]]); try (intros X; rewrite X in F; discriminate); rewrite E in F; try discriminate; apply T; exact I.
Qed.

Theorem rotated_graph_like d z : (2 <= d)%Z -> graph_like (List.length (dpos (rvs d))) (c_stabs (rotated_code d z)).
Proof.
  intros D. apply positions_graph_like; [apply nodup_rvs; auto|]. intros [i j] P.
  assert (P' : (i mod 2 = 1 /\ j mod 2 = 1)%Z) by (apply in_dpos, in_rvdata in P; tauto).
  set (a := [(i + 1, j + 1); (i - 1, j - 1)]%Z). set (b := [(i + 1, j - 1); (i - 1, j + 1)]%Z).
  set (c := z || (((i + 1) / 2) mod 2 =? ((j + 1) / 2) mod 2)%Z).
  assert (K : forall o g q, nth_error (rvs d) o = Some (KStab g, q) -> fac (res d z) o (i, j) <> (false, false) ->
    (fac (res d z) o (i, j) = (true, false) /\ (if c then In q a else In q b)) \/ (fac (res d z) o (i, j) = (false, true) /\ (if c then In q b else In q a))).
  { intros o g q Q F. rewrite (rfac_stab d z o g _ _ Q P) in *. destruct (radjb q (i, j)) eqn:C; [|congruence].
    destruct (rstab_pos _ _ _ _ Q) as (x & y & -> & _ & ->). apply radjb_iff in C. unfold radj in C. cbn [fst snd] in C.
    unfold rfactor. cbn [fst snd]. subst c. destruct z; cbn [orb].
    - destruct (Z.eqb_spec (i - 2 * x) (j - 2 * y)); [left|right]; (split; [reflexivity|]); unfold a, b.
      + assert ((2 * x = i + 1 /\ 2 * y = j + 1) \/ (2 * x = i - 1 /\ 2 * y = j - 1))%Z as [[-> ->]|[-> ->]] by lia; cbn; auto.
      + assert ((2 * x = i + 1 /\ 2 * y = j - 1) \/ (2 * x = i - 1 /\ 2 * y = j + 1))%Z as [[-> ->]|[-> ->]] by lia; cbn; auto.
    - destruct (rgroup_cases x y) as [[-> M]|[-> M]]; [left|right]; (split; [reflexivity|]); unfold a, b;
        destruct (Z.eqb_spec (((i + 1) / 2) mod 2) (((j + 1) / 2) mod 2)).
      + assert ((2 * x = i + 1 /\ 2 * y = j + 1) \/ (2 * x = i - 1 /\ 2 * y = j - 1))%Z as [[-> ->]|[-> ->]] by lia; cbn; auto.
      + assert ((2 * x = i + 1 /\ 2 * y = j - 1) \/ (2 * x = i - 1 /\ 2 * y = j + 1))%Z as [[-> ->]|[-> ->]] by lia; cbn; auto.
      + assert ((2 * x = i + 1 /\ 2 * y = j - 1) \/ (2 * x = i - 1 /\ 2 * y = j + 1))%Z as [[-> ->]|[-> ->]] by lia; cbn; auto.
      + assert ((2 * x = i + 1 /\ 2 * y = j + 1) \/ (2 * x = i - 1 /\ 2 * y = j - 1))%Z as [[-> ->]|[-> ->]] by lia; cbn; auto. }
  assert (T : forall q x y : pos, In q [x; y] -> q = x \/ q = y) by (intros q x y [<-|[<-|[]]]; auto).
  clearbody c. destruct c.
  - eexists _, _, _, _. intros o g q Q. split; intros F; destruct (K o g q Q) as [[E I]|[E I]]; try (intros X; rewrite X in F; discriminate); rewrite E in F; try discriminate; apply T; exact I.
  - eexists _, _, _, _. intros o g q Q. split; intros F; destruct (K o g q Q) as [[E I]|[E I]]; try (intros X; rewrite X in F; discriminate); rewrite E in F; try discriminate; apply T; exact I.
Qed.

Theorem toric_graph_like d : (2 <= d)%Z -> graph_like (List.length (dpos (tvs d))) (c_stabs (toric_code d)).
Proof.
  intros D. apply positions_graph_like; [apply nodup_tvs; auto|]. intros [i j] P.
  assert (P' : (1 <= i <= 2 * d /\ 1 <= j <= 2 * d /\ i mod 2 <> j mod 2)%Z).
  { apply in_dpos, in_tdata in P as [P M]. unfold tbox in P. cbn [fst snd] in P. lia. }
  set (a := [(i, up d j); (i, down d j)]%Z). set (b := [(up d i, j); (down d i, j)]%Z).
  assert (K : forall o g q, nth_error (tvs d) o = Some (KStab g, q) -> fac (tes d) o (i, j) <> (false, false) ->
    fac (tes d) o (i, j) = fbits (group_factor g) /\
    ((g = GA /\ (if (j mod 2 =? 0)%Z then In q b else In q a)) \/ (g = GB /\ (if (j mod 2 =? 0)%Z then In q a else In q b)))).
  { intros o g [qi qj] Q F. destruct (tfac_stab d o g (qi, qj) (i, j) D Q) as [[A E]|[_ E]]; [|congruence]. split; auto.
    pose proof (tstab_pos _ _ _ _ _ Q) as (B & G). unfold tbox in B. cbn [fst snd] in B.
    assert (U : forall x, (1 <= x <= 2 * d)%Z -> (up d x mod 2 <> x mod 2 /\ down d x mod 2 <> x mod 2)%Z) by (intros x X; destruct (up_down d x D X) as (_ & _ & _ & Y & Z); auto).
    assert (CY : forall x y, (1 <= x <= 2 * d)%Z -> (1 <= y <= 2 * d)%Z -> cyc (2 * d) y x -> y = up d x \/ y = down d x).
    { intros x y X Y C. apply (cyc_iff d x y X). unfold cyc in *. lia. }
    assert (A' : (qi = i /\ (qj = up d j \/ qj = down d j)) \/ (qj = j /\ (qi = up d i \/ qi = down d i))).
    { destruct A as [[A1 A2]|[A1 A2]]; cbn [fst snd] in *; [left|right]; (split; [auto|]); apply CY; auto; lia. }
    clear A F. destruct (U i) as [U1 U2]; [lia|]. destruct (U j) as [U3 U4]; [lia|]. clear U CY.
    unfold a, b. destruct (Z.eqb_spec (j mod 2) 0) as [J|J]; destruct G as [[-> G]|[-> G]]; [left|right|left|right]; (split; [auto|]);
      destruct A' as [[-> [-> | ->]]|[-> [-> | ->]]]; try (cbn; auto; fail); exfalso; lia. }
  assert (T : forall q x y : pos, In q [x; y] -> q = x \/ q = y) by (intros q x y [<-|[<-|[]]]; auto).
  destruct (j mod 2 =? 0)%Z.
  - eexists _, _, _, _. intros o g q Q. split; intros F; destruct (K o g q Q) as (E & [[-> I]|[-> I]]); try (intros X; rewrite X in F; discriminate); rewrite E in F; try discriminate; apply T; exact I.
  - eexists _, _, _, _. intros o g q Q. split; intros F; destruct (K o g q Q) as (E & [[-> I]|[-> I]]); try (intros X; rewrite X in F; discriminate); rewrite E in F; try discriminate; apply T; exact I.
Qed.

Theorem repetition_graph_like d : (2 <= d)%Z -> graph_like (List.length (dpos (cvs d))) (c_stabs (repetition_code d)).
Proof.
  intros D. apply positions_graph_like; [apply nodup_cvs; auto|]. intros [i j] P.
  exists (i + 1, 0)%Z, (i - 1, 0)%Z, (0, 0)%Z, (0, 0)%Z. intros o g q Q. rewrite (cfac_stab d o g q _ Q P).
  destruct (cstab_pos _ _ _ _ Q) as (x & (-> & _) & _). cbn [fst]. destruct (Z.eqb_spec (Z.abs (i - x)) 1) as [E|E]; cbn [fst snd]; split; try discriminate.
  intros _. assert (x = i + 1 \/ x = i - 1)%Z as [-> | ->] by lia; auto.
Qed.

(** Checked by computation for a given code. *)
Definition graph_likeb (n : nat) (gens : list row) : bool :=
  forallb (fun q => (List.length (filter (fun g => clashes PX (GeneratorSpec.fac g q)) gens) <=? 2) &&
                    (List.length (filter (fun g => clashes PZ (GeneratorSpec.fac g q)) gens) <=? 2)) (seq 0 n).
Lemma graph_likeb_iff n gens : graph_likeb n gens = true <-> graph_like n gens.
Proof.
  unfold graph_likeb, graph_like. rewrite forallb_forall. split.
  - intros H q L. specialize (H q ltac:(apply in_seq; lia)). apply andb_true_iff in H. rewrite !Nat.leb_le in H. auto.
  - intros H q I. apply in_seq in I. rewrite andb_true_iff, !Nat.leb_le. apply H. lia.
Qed.
Lemma valid_qubits n s k c : valid_code n s k c -> c_stabs c <> [] -> n_data_qubits c = n.
Proof.
  intros V N. unfold n_data_qubits, nqubits. destruct (c_stabs c) as [|g l] eqn:E; [congruence|]. apply (vc_width _ _ _ _ V). left. rewrite E. left; auto.
Qed.
