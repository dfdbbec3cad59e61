(** The generators of the built-in codes are independent, except for the two products of all generators
    of one kind of the toric code. *)
Require Import List Bool Arith ZArith Lia String.
From Verif Require Import Base BaseProofs QSpec PauliModel PauliSem PauliProofs PauliAlg TableauProofs LatticeModel CodesModel CodesSpec LatticeSpec LatticeOps BuildProofs CodesProofs
  PlanarProofs RotatedProofs ToricProofs RepetitionProofs GraphSpec GraphProofs UnionFindMetric GraphCuts SyngraphFinal GraphlikeCodes FaultSpec
  CodeDistance CodeDistanceToric CodeDistanceRotated GroupSpec GroupAlg GroupCodes.
From Verif Require GeneratorSpec.
Import ListNotations.
Local Open Scope nat_scope.
Local Open Scope list_scope.
Ltac Zify.zify_post_hook ::= Z.to_euclidean_division_equations.

Lemma keep_all {A} (l : list A) : filter (fun _ => true) l = l.
Proof. induction l; cbn; congruence. Qed.
Lemma independent_all vs es : NoDup (map snd vs) ->
  (forall ch : pos -> bool, (forall q, ch q = true -> exists g, In (KStab g, q) vs) ->
    (forall p, In p (dpos vs) -> parity (map (fun s => ch (at_pos vs s) && fst (fac es s p)) (stab_ids vs)) = false /\
                                parity (map (fun s => ch (at_pos vs s) && snd (fac es s p)) (stab_ids vs)) = false) ->
    forall q, ch q = false) ->
  indep (List.length (dpos vs)) (map ops (map (brow vs es) (stab_ids vs))).
Proof.
  intros N H. rewrite <- (keep_all (stab_ids vs)) at 1. apply independent_positions; auto. intros ch S Z. apply H; auto.
  intros q E. destruct (S q E) as (g & o & Q & _). exists g. eapply nth_error_In; eauto.
Qed.
Lemma xorb_out a b : xorb a b = false -> b = false -> a = false.
Proof. intros E ->. rewrite xorb_false_r in E. auto. Qed.

(** * The repetition code *)
Theorem repetition_indep d : (2 <= d)%Z -> indep (List.length (dpos (cvs d))) (map ops (c_stabs (repetition_code d))).
Proof.
  intros D. apply independent_all; [apply nodup_cvs; auto|]. intros ch S Z.
  assert (ST : forall i j, ch (i, j) = true -> (j = 0 /\ 1 <= i < 2 * d - 2 /\ i mod 2 = 1)%Z).
  { intros i j E. destruct (S _ E) as (g & I). apply in_cstab in I. tauto. }
  assert (K : forall k i, (i <= 2 * zn k)%Z -> ch (i, 0)%Z = false).
  { induction k as [|k IH]; intros i B; destruct (ch (i, 0)%Z) eqn:E; auto; pose proof (ST _ _ E) as (_ & B' & M); [lia|].
    rewrite <- E. apply (xorb_out _ (ch (i - 1 - 1, 0)%Z)); [|apply IH; lia].
    assert (P : In (i - 1, 0)%Z (dpos (cvs d))) by (apply in_dpos, in_cdata; lia).
    destruct (Z _ P) as [_ Z2]. rewrite <- Z2. symmetry.
    apply (chosen_two (cvs d) (ces d) (fun g q => g = GA /\ snd q = 0 /\ 1 <= fst q < 2 * d - 2 /\ fst q mod 2 = 1)%Z
          (fun g q => if (Z.abs (i - 1 - fst q) =? 1)%Z then (false, true) else (false, false)) snd ch (i - 1, 0)%Z (i, 0)%Z (i - 1 - 1, 0)%Z).
    - apply nodup_cvs; auto.
    - intros X. injection X. lia.
    - intros g [a b]. rewrite stab_exists, in_cstab. reflexivity.
    - intros o g q Q. apply (cfac_stab d o g q _ Q P).
    - intros g [a b] (_ & S2 & _) _ C. cbn [fst snd] in *. destruct (Z.eqb_spec (Z.abs (i - 1 - a)) 1); [|discriminate].
      subst b. assert (a = i \/ a = i - 1 - 1)%Z as [-> | ->] by lia; auto.
    - cbn [fst snd]. replace (Z.abs (i - 1 - i) =? 1)%Z with true by lia. split; [intros X; exists GA; repeat split; auto; lia|tauto || (intros (g & _ & X & _); auto)].
    - cbn [fst snd]. replace (Z.abs (i - 1 - (i - 1 - 1)) =? 1)%Z with true by lia. split; [intros X; pose proof (ST _ _ X); exists GA; repeat split; auto; lia|intros (g & _ & X & _); auto]. }
  intros [i j]. destruct (ch (i, j)) eqn:E; auto. pose proof (ST _ _ E) as (-> & B & M). rewrite <- E. apply (K (Z.to_nat i)). lia.
Qed.

(** * The planar code *)
Theorem planar_indep d : (2 <= d)%Z -> indep (List.length (dpos (pvs d))) (map ops (c_stabs (planar_code d))).
Proof.
  intros D. apply independent_all; [apply nodup_pvs; auto|]. intros ch S Z.
  assert (ST : forall q, ch q = true -> exists g, pstab d g q) by (intros q E; destruct (S _ E) as (g & I); apply in_pstab in I; eauto).
  assert (SA : forall q, ch q = true -> (snd q mod 2 = 0)%Z -> pstab d GA q) by (intros q E M; destruct (ST _ E) as (g & B & N & [[-> M']|[-> M']]); [split; auto|lia]).
  assert (SB : forall q, ch q = true -> (snd q mod 2 = 1)%Z -> pstab d GB q) by (intros q E M; destruct (ST _ E) as (g & B & N & [[-> M']|[-> M']]); [lia|split; auto]).
  assert (KA : forall k i j, (i <= 2 * zn k)%Z -> (j mod 2 = 0)%Z -> ch (i, j) = false).
  { induction k as [|k IH]; intros i j B M; destruct (ch (i, j)) eqn:E; auto; pose proof (SA _ E M) as P1; apply pstab_a in P1; cbn [fst snd] in P1; [lia|].
    rewrite <- E. apply (xorb_out _ (ch (i - 1 - 1, j)%Z)); [|apply IH; lia].
    assert (P : In (i - 1, j)%Z (dpos (pvs d))) by (apply in_dpos, in_pdata; unfold pbox; cbn [fst snd]; lia).
    destruct (Z _ P) as [Z1 _]. rewrite <- Z1. symmetry. apply (planar_letter d fst ch (i - 1, j)%Z (i, j) (i - 1 - 1, j)%Z _ _ GA D P); auto.
    - intros X. injection X. lia.
    - intros [] U; cbn; congruence.
    - intros [a b]. rewrite pstab_a, cadjb_true. cbn [fst snd]. intros X1 X2 X3. assert (b = j /\ (a = i \/ a = i - 1 - 1))%Z as [-> [-> | ->]] by lia; auto.
    - rewrite cadjb_true. cbn [fst snd]. split; [intros X; split; [apply SA; auto|split; auto; lia]|tauto].
    - rewrite cadjb_true. cbn [fst snd]. split; [intros X; split; [apply SA; auto|split; auto; lia]|tauto]. }
  assert (KB : forall k i j, (j <= 2 * zn k)%Z -> (j mod 2 = 1)%Z -> ch (i, j) = false).
  { induction k as [|k IH]; intros i j B M; destruct (ch (i, j)) eqn:E; auto; pose proof (SB _ E M) as P1; apply pstab_b in P1; cbn [fst snd] in P1; [lia|].
    rewrite <- E. apply (xorb_out _ (ch (i, j - 1 - 1)%Z)); [|apply IH; lia].
    assert (P : In (i, j - 1)%Z (dpos (pvs d))) by (apply in_dpos, in_pdata; unfold pbox; cbn [fst snd]; lia).
    destruct (Z _ P) as [_ Z1]. rewrite <- Z1. symmetry. apply (planar_letter d snd ch (i, j - 1)%Z (i, j) (i, j - 1 - 1)%Z _ _ GB D P); auto.
    - intros X. injection X. lia.
    - intros [] U; cbn; congruence.
    - intros [a b]. rewrite pstab_b, cadjb_true. cbn [fst snd]. intros X1 X2 X3. assert (a = i /\ (b = j \/ b = j - 1 - 1))%Z as [-> [-> | ->]] by lia; auto.
    - rewrite cadjb_true. cbn [fst snd]. split; [intros X; split; [apply SB; auto|split; auto; lia]|tauto].
    - rewrite cadjb_true. cbn [fst snd]. split; [intros X; split; [apply SB; auto; cbn [snd]; lia|split; auto; lia]|tauto]. }
  intros [i j]. destruct (Z.eq_dec (j mod 2) 0); [apply (KA (Z.to_nat i)); auto; lia|apply (KB (Z.to_nat j)); lia].
Qed.

(** * The rotated code *)
(** Around a data qubit the opposite generators have the same letter there and the others the other letter. *)
Lemma rotated_cell d z (ch : pos -> bool) a b : (2 <= d)%Z -> (0 <= a <= d - 1)%Z -> (0 <= b <= d - 1)%Z ->
  (forall q, ch q = true -> exists g, In (KStab g, q) (rvs d)) ->
  (parity (map (fun s => ch (at_pos (rvs d) s) && fst (fac (res d z) s (2 * a + 1, 2 * b + 1)%Z)) (stab_ids (rvs d))) = false /\
   parity (map (fun s => ch (at_pos (rvs d) s) && snd (fac (res d z) s (2 * a + 1, 2 * b + 1)%Z)) (stab_ids (rvs d))) = false) ->
  ch (2 * a, 2 * b)%Z = ch (2 * (a + 1), 2 * (b + 1))%Z /\ ch (2 * (a + 1), 2 * b)%Z = ch (2 * a, 2 * (b + 1))%Z.
Proof.
  intros D A B S Z.
  assert (P : In (2 * a + 1, 2 * b + 1)%Z (dpos (rvs d))) by (apply in_dpos, in_rvdata; unfold rbox; cbn [fst snd]; lia).
  set (p := (2 * a + 1, 2 * b + 1)%Z) in *.
  set (stab := fun g (q : pos) => In (KStab g, q) (rvs d)).
  assert (ST : forall g q, stab g q -> exists x y, q = (2 * x, 2 * y)%Z /\ stabat d x y /\ g = rgroup x y).
  { intros g q I. apply In_nth_error in I. destruct I as (o & Q). apply (rstab_pos d o g q Q). }
  set (letters := fun g (q : pos) => if radjb q p then fbits (rfactor z g q p) else (false, false)).
  assert (FA : forall o g q, nth_error (rvs d) o = Some (KStab g, q) -> fac (res d z) o p = letters g q) by (intros o g q Q; apply (rfac_stab d z o g q p Q P)).
  assert (SX : forall g q, (exists o, nth_error (rvs d) o = Some (KStab g, q)) <-> stab g q) by (intros g q; apply stab_exists).
  assert (COR : forall x y, radjb (2 * x, 2 * y)%Z p = true -> ((x = a \/ x = a + 1) /\ (y = b \/ y = b + 1))%Z) by (intros x y; unfold radjb, p; cbn [fst snd]; lia).
  (* the letter of the first and third corner *)
  set (dx := if z then true else (a mod 2 =? b mod 2)%Z).
  assert (LD : forall x y, (x = a /\ y = b \/ x = a + 1 /\ y = b + 1)%Z -> letters (rgroup x y) (2 * x, 2 * y)%Z = if dx then (true, false) else (false, true)).
  { intros x y H. unfold letters. replace (radjb (2 * x, 2 * y)%Z p) with true by (unfold radjb, p; cbn [fst snd]; lia). unfold rfactor, dx, p, rgroup. cbn [fst snd]. destruct z.
    - replace (2 * a + 1 - 2 * x =? 2 * b + 1 - 2 * y)%Z with true by lia. reflexivity.
    - replace (x mod 2 =? y mod 2)%Z with (a mod 2 =? b mod 2)%Z by lia. destruct (a mod 2 =? b mod 2)%Z; reflexivity. }
  assert (LA : forall x y, (x = a /\ y = b + 1 \/ x = a + 1 /\ y = b)%Z -> letters (rgroup x y) (2 * x, 2 * y)%Z = if dx then (false, true) else (true, false)).
  { intros x y H. unfold letters. replace (radjb (2 * x, 2 * y)%Z p) with true by (unfold radjb, p; cbn [fst snd]; lia). unfold rfactor, dx, p, rgroup. cbn [fst snd]. destruct z.
    - replace (2 * a + 1 - 2 * x =? 2 * b + 1 - 2 * y)%Z with false by lia. reflexivity.
    - replace (x mod 2 =? y mod 2)%Z with (negb (a mod 2 =? b mod 2)%Z) by lia. destruct (a mod 2 =? b mod 2)%Z; reflexivity. }
  assert (OUT : forall g q, stab g q -> letters g q <> (false, false) -> exists x y, q = (2 * x, 2 * y)%Z /\ g = rgroup x y /\ (x = a \/ x = a + 1)%Z /\ (y = b \/ y = b + 1)%Z).
  { intros g q I N. destruct (ST g q I) as (x & y & -> & _ & ->). exists x, y. split; auto. split; auto. apply COR. unfold letters in N. destruct (radjb _ p); [auto|congruence]. }
  set (cd := fun w : bool * bool => if dx then fst w else snd w). set (ca := fun w : bool * bool => if dx then snd w else fst w).
  assert (ON : forall x y c, c (letters (rgroup x y) (2 * x, 2 * y)%Z) = true -> (ch (2 * x, 2 * y)%Z = true <->
    exists g, stab g (2 * x, 2 * y)%Z /\ ch (2 * x, 2 * y)%Z = true /\ c (letters g (2 * x, 2 * y)%Z) = true)).
  { intros x y c C. split; [|intros (g & _ & X & _); auto]. intros X. destruct (S _ X) as (g & I). exists g. split; auto. split; auto.
    destruct (ST g _ I) as (x' & y' & E & _ & ->). assert (E1 := f_equal fst E). assert (E2 := f_equal snd E). cbn [fst snd] in E1, E2. assert (x' = x) by lia. assert (y' = y) by lia. subst x' y'. auto. }
  assert (ZC : forall c, (c = fst \/ c = snd) -> parity (map (fun s => ch (at_pos (rvs d) s) && c (fac (res d z) s p)) (stab_ids (rvs d))) = false) by (intros c [-> | ->]; tauto).
  assert (ED : parity (map (fun s => ch (at_pos (rvs d) s) && cd (fac (res d z) s p)) (stab_ids (rvs d))) = false) by (unfold cd; destruct dx; tauto).
  assert (EA : parity (map (fun s => ch (at_pos (rvs d) s) && ca (fac (res d z) s p)) (stab_ids (rvs d))) = false) by (unfold ca; destruct dx; tauto).
  assert (CD : cd (if dx then (true, false) else (false, true)) = true /\ cd (if dx then (false, true) else (true, false)) = false /\ cd (false, false) = false) by (unfold cd; destruct dx; auto).
  assert (CA : ca (if dx then (false, true) else (true, false)) = true /\ ca (if dx then (true, false) else (false, true)) = false /\ ca (false, false) = false) by (unfold ca; destruct dx; auto).
  split.
  - apply xorb_eq. rewrite <- ED. symmetry. apply (chosen_two (rvs d) (res d z) stab letters cd ch p (2 * a, 2 * b)%Z (2 * (a + 1), 2 * (b + 1))%Z); auto.
    + apply nodup_rvs; auto.
    + intros X. apply (f_equal fst) in X. cbn [fst] in X. lia.
    + intros g q I _ C. destruct (OUT g q I) as (x & y & -> & -> & [-> | ->] & [-> | ->]); auto.
      * intros Q. rewrite Q in C. destruct CD as (_ & _ & CD). congruence.
      * rewrite LA in C by lia. destruct CD as (_ & CD & _). congruence.
      * rewrite LA in C by lia. destruct CD as (_ & CD & _). congruence.
    + apply ON. rewrite LD by lia. tauto.
    + apply ON. rewrite LD by lia. tauto.
  - apply xorb_eq. rewrite <- EA. symmetry. apply (chosen_two (rvs d) (res d z) stab letters ca ch p (2 * (a + 1), 2 * b)%Z (2 * a, 2 * (b + 1))%Z); auto.
    + apply nodup_rvs; auto.
    + intros X. apply (f_equal fst) in X. cbn [fst] in X. lia.
    + intros g q I _ C. destruct (OUT g q I) as (x & y & -> & -> & [-> | ->] & [-> | ->]); auto.
      * intros Q. rewrite Q in C. destruct CA as (_ & _ & CA). congruence.
      * rewrite LD in C by lia. destruct CA as (_ & CA & _). congruence.
      * rewrite LD in C by lia. destruct CA as (_ & CA & _). congruence.
    + apply ON. rewrite LA by lia. tauto.
    + apply ON. rewrite LA by lia. tauto.
Qed.

Theorem rotated_indep d z : (2 <= d)%Z -> indep (List.length (dpos (rvs d))) (map ops (c_stabs (rotated_code d z))).
Proof.
  intros D. apply independent_all; [apply nodup_rvs; auto|]. intros ch S Z.
  assert (ST : forall q, ch q = true -> exists a b, q = (2 * a, 2 * b)%Z /\ stabat d a b).
  { intros q E. destruct (S _ E) as (g & I). apply In_nth_error in I. destruct I as (o & Q). destruct (rstab_pos d o g q Q) as (a & b & H & H' & _). eauto. }
  assert (SA : forall a b, ch (2 * a, 2 * b)%Z = true -> stabat d a b).
  { intros a b E. destruct (ST _ E) as (a' & b' & X & H). assert (X1 := f_equal fst X). assert (X2 := f_equal snd X). cbn [fst snd] in X1, X2. assert (a = a') by lia. assert (b = b') by lia. subst a' b'. auto. }
  assert (CELL : forall a b, (0 <= a <= d - 1)%Z -> (0 <= b <= d - 1)%Z -> ch (2 * a, 2 * b)%Z = ch (2 * (a + 1), 2 * (b + 1))%Z /\ ch (2 * (a + 1), 2 * b)%Z = ch (2 * a, 2 * (b + 1))%Z).
  { intros a b A B. apply (rotated_cell d z); auto. apply Z. apply in_dpos, in_rvdata. unfold rbox. cbn [fst snd]. lia. }
  assert (KA : forall k a b, (b <= zn k)%Z -> (a mod 2 = b mod 2)%Z -> ch (2 * a, 2 * b)%Z = false).
  { induction k as [|k IH]; intros a b B M; destruct (ch (2 * a, 2 * b)%Z) eqn:E; auto; pose proof (SA _ _ E) as P1; unfold stabat in P1; [lia|].
    assert (B0 : (1 <= b)%Z) by lia. rewrite <- E. destruct (Z.eq_dec a 0) as [-> |NA].
    - destruct (CELL 0 (b - 1))%Z as [_ H]; try lia. replace (b - 1 + 1)%Z with b in H by lia. rewrite <- H. apply IH; lia.
    - destruct (CELL (a - 1) (b - 1))%Z as [H _]; try lia. replace (b - 1 + 1)%Z with b in H by lia. replace (a - 1 + 1)%Z with a in H by lia. rewrite <- H. apply IH; lia. }
  assert (KB : forall k a b, (a <= zn k)%Z -> (a mod 2 <> b mod 2)%Z -> ch (2 * a, 2 * b)%Z = false).
  { induction k as [|k IH]; intros a b B M; destruct (ch (2 * a, 2 * b)%Z) eqn:E; auto; pose proof (SA _ _ E) as P1; unfold stabat in P1; [lia|].
    assert (B0 : (1 <= a)%Z) by lia. rewrite <- E. destruct (Z.eq_dec b 0) as [-> |NA].
    - destruct (CELL (a - 1) 0)%Z as [_ H]; try lia. replace (a - 1 + 1)%Z with a in H by lia. rewrite H. apply IH; lia.
    - destruct (CELL (a - 1) (b - 1))%Z as [H _]; try lia. replace (b - 1 + 1)%Z with b in H by lia. replace (a - 1 + 1)%Z with a in H by lia. rewrite <- H. apply IH; lia. }
  intros q. destruct (ch q) eqn:E; auto. destruct (ST _ E) as (a & b & -> & H). unfold stabat in H. rewrite <- E.
  destruct (Z.eq_dec (a mod 2) (b mod 2)); [apply (KA (Z.to_nat b)); auto; lia|apply (KB (Z.to_nat a)); auto; lia].
Qed.

(** * The toric code *)
(** One generator of each kind is omitted. *)
Definition tbase (G : group) : Z := match G with GA => 2 | _ => 1 end.
Definition tkeep (d : Z) (o : nat) : bool := negb (pos_eqb (at_pos (tvs d) o) (tbase GA, tbase GA)) && negb (pos_eqb (at_pos (tvs d) o) (tbase GB, tbase GB)).

Lemma toric_pair d G (ch : pos -> bool) p (vertical : bool) : (2 <= d)%Z -> G <> GU -> In p (dpos (tvs d)) ->
  (forall q, ch q = true -> exists g, In (KStab g, q) (tvs d)) ->
  ((if vertical then snd p else fst p) mod 2 = kind_parity G)%Z ->
  parity (map (fun s => ch (at_pos (tvs d) s) && letter G (fac (tes d) s p)) (stab_ids (tvs d))) =
  xorb (ch (if vertical then (up d (fst p), snd p) else (fst p, up d (snd p)))) (ch (if vertical then (down d (fst p), snd p) else (fst p, down d (snd p)))).
Proof.
  intros D U P S K. destruct p as [i j]. cbn [fst snd] in *. pose proof P as P'. apply in_dpos, in_tdata in P'. destruct P' as (B & M). unfold tbox in B. cbn [fst snd] in B.
  destruct (letter_only G U) as (C0 & C1 & C2). destruct B as [B1 B2].
  destruct (around_cell d i D B1) as (I1 & I2 & I3 & (I4 & I5 & I6) & I7 & I8). destruct (around_cell d j D B2) as (J1 & J2 & J3 & (J4 & J5 & J6) & J7 & J8).
  assert (SG : forall q, ch q = true -> (fst q mod 2 = kind_parity G)%Z -> tstab d G q).
  { intros q E X. destruct (S q E) as (g & I). apply in_tstab in I. destruct I as (TB & [(-> & X1 & X2)|(-> & X1 & X2)]); apply tstab_iff; auto; unfold tbox in TB; split; try tauto; split; try tauto; destruct G; cbn in *; try congruence; lia. }
  assert (KP : (kind_parity G = 0 \/ kind_parity G = 1)%Z) by (destruct G; cbn; auto).
  destruct vertical.
  - apply (toric_letter d (letter G) ch (i, j) (up d i, j) (down d i, j) _ _ G D P); auto.
    + intros X. injection X. auto.
    + intros [a b]. rewrite tstab_iff by auto. cbn [fst snd]. intros (X1 & X2 & X3 & X4) _ [[A1 A2]|[A1 A2]]; cbn [fst snd] in *; subst; [exfalso; apply M; congruence|].
      destruct (I3 a X1 A2) as [-> | ->]; auto.
    + split; [intros X; split; [apply SG; auto; cbn [fst]; lia|]; split; [auto|right; split; auto]|tauto].
    + split; [intros X; split; [apply SG; auto; cbn [fst]; lia|]; split; [auto|right; split; auto]|tauto].
  - apply (toric_letter d (letter G) ch (i, j) (i, up d j) (i, down d j) _ _ G D P); auto.
    + intros X. injection X. auto.
    + intros [a b]. rewrite tstab_iff by auto. cbn [fst snd]. intros (X1 & X2 & X3 & X4) _ [[A1 A2]|[A1 A2]]; cbn [fst snd] in *; subst; [|exfalso; apply M; congruence].
      destruct (J3 b X2 A2) as [-> | ->]; auto.
    + split; [intros X; split; [apply SG; auto; cbn [fst]; lia|]; split; [auto|left; split; auto]|tauto].
    + split; [intros X; split; [apply SG; auto; cbn [fst]; lia|]; split; [auto|left; split; auto]|tauto].
Qed.

Theorem toric_indep d : (2 <= d)%Z -> indep (List.length (dpos (tvs d))) (map ops (map (brow (tvs d) (tes d)) (filter (tkeep d) (stab_ids (tvs d))))).
Proof.
  intros D. apply independent_positions; [apply nodup_tvs; auto|]. intros ch S Z.
  assert (ST : forall q, ch q = true -> exists g, In (KStab g, q) (tvs d)) by (intros q E; destruct (S q E) as (g & o & Q & _); exists g; eapply nth_error_In; eauto).
  assert (BASE : forall G, G <> GU -> ch (tbase G, tbase G) = false).
  { intros G U. destruct (ch (tbase G, tbase G)) eqn:E; auto. destruct (S _ E) as (g & o & Q & KP). unfold tkeep, at_pos in KP. rewrite (nth_error_nth _ _ _ Q) in KP. cbn [snd] in KP.
    destruct G; cbn in KP; congruence. }
  assert (ROW : forall G i j, G <> GU -> (1 <= i)%Z -> (i + 2 <= 2 * d)%Z -> (1 <= j <= 2 * d)%Z -> (i mod 2 = kind_parity G)%Z -> (j mod 2 = kind_parity G)%Z -> ch (i + 2, j)%Z = ch (i, j)).
  { intros G i j U B1 B2 B3 M1 M2. assert (P : In (i + 1, j)%Z (dpos (tvs d))) by (apply in_dpos, in_tdata; unfold tbox; cbn [fst snd]; lia).
    apply xorb_eq. pose proof (toric_pair d G ch (i + 1, j)%Z true D U P ST M2) as T. cbn [fst snd] in T. unfold up, down in T.
    replace (i + 1 =? 2 * d)%Z with false in T by lia. replace (i + 1 =? 1)%Z with false in T by lia. replace (i + 1 + 1)%Z with (i + 2)%Z in T by lia. replace (i + 1 - 1)%Z with i in T by lia.
    rewrite <- T. destruct (Z _ P). destruct G; cbn [letter]; auto. }
  assert (COL : forall G i j, G <> GU -> (1 <= j)%Z -> (j + 2 <= 2 * d)%Z -> (1 <= i <= 2 * d)%Z -> (i mod 2 = kind_parity G)%Z -> (j mod 2 = kind_parity G)%Z -> ch (i, j + 2)%Z = ch (i, j)).
  { intros G i j U B1 B2 B3 M1 M2. assert (P : In (i, j + 1)%Z (dpos (tvs d))) by (apply in_dpos, in_tdata; unfold tbox; cbn [fst snd]; lia).
    apply xorb_eq. pose proof (toric_pair d G ch (i, j + 1)%Z false D U P ST M1) as T. cbn [fst snd] in T. unfold up, down in T.
    replace (j + 1 =? 2 * d)%Z with false in T by lia. replace (j + 1 =? 1)%Z with false in T by lia. replace (j + 1 + 1)%Z with (j + 2)%Z in T by lia. replace (j + 1 - 1)%Z with j in T by lia.
    rewrite <- T. destruct (Z _ P). destruct G; cbn [letter]; auto. }
  assert (ALL : forall G, G <> GU -> forall k m, (tbase G + 2 * zn k <= 2 * d)%Z -> (tbase G + 2 * zn m <= 2 * d)%Z -> ch (tbase G + 2 * zn k, tbase G + 2 * zn m)%Z = false).
  { intros G U. assert (TB : (1 <= tbase G)%Z /\ (tbase G mod 2 = kind_parity G)%Z) by (destruct G; cbn; split; lia || congruence). destruct TB as [TB TM].
    induction k as [|k IH]; intros m B1 B2.
    - replace (tbase G + 2 * zn 0)%Z with (tbase G) by lia. induction m as [|m IHm].
      + replace (tbase G + 2 * zn 0)%Z with (tbase G) by lia. auto.
      + replace (tbase G + 2 * zn (Datatypes.S m))%Z with (tbase G + 2 * zn m + 2)%Z by lia. rewrite (COL G) by (auto; lia). apply IHm. lia.
    - replace (tbase G + 2 * zn (Datatypes.S k))%Z with (tbase G + 2 * zn k + 2)%Z by lia. rewrite (ROW G) by (auto; lia). apply IH; lia. }
  intros [i j]. destruct (ch (i, j)) eqn:E; auto. destruct (ST _ E) as (g & I). apply in_tstab in I. unfold tstab, tbox in I. cbn [fst snd] in I. rewrite <- E.
  destruct I as ((B1 & B2) & [(-> & M1 & M2)|(-> & M1 & M2)]).
  - replace (i, j) with (tbase GA + 2 * zn (Z.to_nat ((i - 2) / 2)), tbase GA + 2 * zn (Z.to_nat ((j - 2) / 2)))%Z by (cbn [tbase]; f_equal; lia). apply ALL; [discriminate|cbn [tbase]; lia..].
  - replace (i, j) with (tbase GB + 2 * zn (Z.to_nat ((i - 1) / 2)), tbase GB + 2 * zn (Z.to_nat ((j - 1) / 2)))%Z by (cbn [tbase]; f_equal; lia). apply ALL; [discriminate|cbn [tbase]; lia..].
Qed.

Lemma toric_there d G : (2 <= d)%Z -> G <> GU -> exists o, In o (stab_ids (tvs d)) /\ at_pos (tvs d) o = (tbase G, tbase G).
Proof.
  intros D U. assert (I : In (KStab G, (tbase G, tbase G)) (tvs d)) by (apply in_tstab, tstab_iff; auto; destruct G; try congruence; unfold tbase, kind_parity; cbn [fst snd]; lia).
  apply In_nth_error in I. destruct I as (o & Q). exists o. split; [apply in_stab_ids; eauto|]. unfold at_pos. rewrite (nth_error_nth _ _ _ Q). auto.
Qed.
Lemma toric_kept d : (2 <= d)%Z -> List.length (filter (tkeep d) (stab_ids (tvs d))) + 2 = List.length (stab_ids (tvs d)).
Proof.
  intros D. destruct (toric_there d GA D) as (a & A1 & A2); [discriminate|]. destruct (toric_there d GB D) as (b & B1 & B2); [discriminate|].
  assert (NE : a <> b) by (intros ->; rewrite A2 in B2; discriminate).
  assert (KA : tkeep d a = false) by (unfold tkeep; rewrite A2; reflexivity). assert (KB : tkeep d b = false) by (unfold tkeep; rewrite B2; reflexivity).
  assert (N := NoDup_stab_ids (tvs d)). set (l := stab_ids (tvs d)) in *. set (f := filter (tkeep d) l).
  assert (NF : NoDup (a :: b :: f)).
  { constructor; [intros [->|I]; [congruence|apply filter_In in I; destruct I; congruence]|]. constructor; [intros I; apply filter_In in I; destruct I; congruence|]. apply NoDup_filter. auto. }
  assert (L1 : List.length (a :: b :: f) <= List.length l) by (apply NoDup_incl_length; auto; intros x [<-|[<-|I]]; auto; apply filter_In in I; tauto).
  assert (L2 : List.length l <= List.length (a :: b :: f)).
  { apply NoDup_incl_length; auto. intros x I. destruct (tkeep d x) eqn:K; [right; right; apply filter_In; auto|]. unfold tkeep in K. apply andb_false_iff in K.
    destruct K as [K|K]; apply negb_false_iff, pos_eqb_eq in K; [left|right; left]; apply (stab_at (tvs d)); auto; try (apply nodup_tvs; auto); congruence. }
  cbn [List.length] in *. lia.
Qed.

(** Every generator is the product of the others of its kind. *)
Theorem toric_dependent d i : (2 <= d)%Z -> i < List.length (stab_ids (tvs d)) ->
  generated (List.length (dpos (tvs d))) (without i (c_stabs (toric_code d))) (GeneratorSpec.fac (nth i (c_stabs (toric_code d)) row0)).
Proof.
  intros D L. set (o := nth i (stab_ids (tvs d)) 0). assert (IO : In o (stab_ids (tvs d))) by (apply nth_In; auto).
  pose proof IO as IO'. apply in_stab_ids in IO'. destruct IO' as (G & q & Q). assert (SQ : tstab d G q) by (apply in_tstab; eapply nth_error_In; eauto).
  assert (U := tstab_group _ _ _ SQ). assert (AT : at_pos (tvs d) o = q) by (unfold at_pos; rewrite (nth_error_nth _ _ _ Q); auto).
  set (ch := fun q : pos => ((1 <=? fst q) && (fst q <=? 2 * d) && (1 <=? snd q) && (snd q <=? 2 * d) && (fst q mod 2 =? kind_parity G) && (snd q mod 2 =? kind_parity G))%Z).
  assert (CH : forall q, ch q = true <-> tstab d G q) by (intros p; rewrite tstab_iff by auto; unfold ch; lia).
  assert (ST : forall q, ch q = true -> exists g, In (KStab g, q) (tvs d)) by (intros p E; exists G; apply in_tstab, CH; auto).
  assert (W : forall g, In g (c_stabs (toric_code d)) -> List.length (ops g) = List.length (dpos (tvs d))).
  { intros g I. apply in_map_iff in I. destruct I as (x & <- & _). cbn. apply map_length. }
  apply (relation_without _ _ i (map (fun s => ch (at_pos (tvs d) s)) (stab_ids (tvs d)))); auto.
  - cbn [toric_code c_stabs]. rewrite !map_length. auto.
  - cbn [toric_code c_stabs]. rewrite map_length. auto.
  - cbn [toric_code c_stabs]. rewrite map_map.
    assert (LW : forall x, List.length (ops (brow (tvs d) (tes d) x)) = List.length (dpos (tvs d))) by (intros x; cbn; apply map_length).
    assert (LL : List.length (lincomb (List.length (dpos (tvs d))) (map (fun s => ch (at_pos (tvs d) s)) (stab_ids (tvs d))) (map (fun x => ops (brow (tvs d) (tes d) x)) (stab_ids (tvs d)))) = List.length (dpos (tvs d))).
    { apply length_lincomb, Forall_forall. intros x I. apply in_map_iff in I. destruct I as (y & <- & _). auto. }
    apply (list_ext _ _ pid); [rewrite LL, repeat_length; auto|]. intros k Lk. rewrite LL in Lk. rewrite nth_repeat, lincomb_parity by auto.
    assert (P : In (nth k (dpos (tvs d)) (0, 0)%Z) (dpos (tvs d))) by (apply nth_In; auto). set (p := nth k (dpos (tvs d)) (0, 0)%Z) in *.
    assert (FA : forall f : bool * bool -> bool, parity (map (fun s => ch (at_pos (tvs d) s) && f (nth k (ops (brow (tvs d) (tes d) s)) pid)) (stab_ids (tvs d))) =
      parity (map (fun s => ch (at_pos (tvs d) s) && f (fac (tes d) s p)) (stab_ids (tvs d)))).
    { intros f. apply parity_ext. intros s _. f_equal. f_equal. apply (brow_fac (tvs d) (tes d) s k Lk). }
    rewrite (FA fst), (FA snd).
    assert (PD : In (KData, p) (tvs d)) by (apply in_dpos; auto). destruct p as [x y] eqn:EP. apply in_tdata in PD. destruct PD as ((B1 & B2) & M). cbn [fst snd] in B1, B2.
    destruct (around_cell d x D B1) as (_ & _ & _ & (I4 & I5 & _) & I7 & I8). destruct (around_cell d y D B2) as (_ & _ & _ & (J4 & J5 & _) & J7 & J8).
    assert (KP : (kind_parity G = 0 \/ kind_parity G = 1)%Z) by (destruct G; cbn; auto).
    assert (OWN : parity (map (fun s => ch (at_pos (tvs d) s) && letter G (fac (tes d) s (x, y))) (stab_ids (tvs d))) = false).
    { destruct (Z.eq_dec (y mod 2) (kind_parity G)) as [E|E].
      - rewrite (toric_pair d G ch (x, y) true D U P ST E). cbn [fst snd].
        rewrite (proj2 (CH (up d x, y))), (proj2 (CH (down d x, y))); auto; apply tstab_iff; auto; cbn [fst snd]; lia.
      - assert (E' : (x mod 2 = kind_parity G)%Z) by lia. rewrite (toric_pair d G ch (x, y) false D U P ST E'). cbn [fst snd].
        rewrite (proj2 (CH (x, up d y))), (proj2 (CH (x, down d y))); auto; apply tstab_iff; auto; cbn [fst snd]; lia. }
    assert (NOT : forall H, H <> GU -> H <> G -> parity (map (fun s => ch (at_pos (tvs d) s) && letter H (fac (tes d) s (x, y))) (stab_ids (tvs d))) = false).
    { intros H UH NH. apply toric_none; auto. intros r [R1 R2]. destruct (ch r) eqn:E; auto. apply CH, tstab_iff in E; auto. destruct H, G; try congruence; cbn in *; lia. }
    destruct G; try congruence; [pose proof (NOT GB) as N2|pose proof (NOT GA) as N2]; cbn [letter] in *; rewrite OWN, N2 by discriminate; reflexivity.
  - rewrite (nth_indep _ false (ch (at_pos (tvs d) 0))) by (rewrite map_length; auto). rewrite (map_nth (fun s => ch (at_pos (tvs d) s))). fold o. rewrite AT. apply CH. auto.
Qed.
