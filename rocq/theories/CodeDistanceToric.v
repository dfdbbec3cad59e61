(** Disjoint representatives of the logical operators of the toric code. *)
Require Import List Bool Arith ZArith Lia String.
From Verif Require Import Base BaseProofs QSpec PauliModel PauliAlg LatticeModel CodesModel CodesSpec LatticeSpec LatticeOps BuildProofs CodesProofs
  ToricProofs GraphSpec GraphProofs UnionFindMetric GraphCuts SyngraphFinal GraphlikeCodes FaultSpec CodeDistance.
From Verif Require GeneratorSpec.
Import ListNotations.
Local Open Scope nat_scope.
Local Open Scope list_scope.
Ltac Zify.zify_post_hook ::= Z.to_euclidean_division_equations.

(** * The toric code *)
Definition tstab (d : Z) (g : group) (q : pos) : Prop :=
  (tbox d q /\ (g = GA /\ fst q mod 2 = 0 /\ snd q mod 2 = 0 \/ g = GB /\ fst q mod 2 = 1 /\ snd q mod 2 = 1))%Z.
Lemma in_tstab d g q : In (KStab g, q) (tvs d) <-> tstab d g q.
Proof.
  destruct q as [a b]. unfold tstab. cbn [fst snd]. split.
  - intros I. apply In_nth_error in I. destruct I as (o & Q). apply (tstab_pos d o g a b Q).
  - intros (B & G). unfold tvs. apply in_app_iff. left. apply in_tgrid. split; auto.
    unfold tkind. destruct G as [(-> & G & H)|(-> & G & H)]; rewrite G, H; reflexivity.
Qed.
Lemma tstab_group d g q : tstab d g q -> g <> GU.
Proof. intros (_ & [[-> _]|[-> _]]); discriminate. Qed.

Lemma toric_letter d (c : bool * bool -> bool) (ch : pos -> bool) p p1 p2 e1 e2 G : (2 <= d)%Z -> In p (dpos (tvs d)) -> p1 <> p2 ->
  (c (false, false) = false) -> c (fbits (group_factor G)) = true -> (forall g, g <> GU -> c (fbits (group_factor g)) = true -> g = G) ->
  (forall q, tstab d G q -> ch q = true -> tadj (2 * d) q p -> q = p1 \/ q = p2) ->
  (e1 = true <-> tstab d G p1 /\ ch p1 = true /\ tadj (2 * d) p1 p) ->
  (e2 = true <-> tstab d G p2 /\ ch p2 = true /\ tadj (2 * d) p2 p) ->
  parity (map (fun s => ch (at_pos (tvs d) s) && c (fac (tes d) s p)) (stab_ids (tvs d))) = xorb e1 e2.
Proof.
  intros D P NE C0 C1 C2 TWO E1 E2.
  assert (DEC : forall q, {tadj (2 * d) q p} + {~ tadj (2 * d) q p}).
  { intros q. unfold tadj. destruct (Z.eq_dec (fst p) (fst q)), (Z.eq_dec (snd p) (snd q)), (cyc_cases d (snd q) (snd p) D), (cyc_cases d (fst q) (fst p) D); (left; tauto) || (right; tauto). }
  assert (CC : forall g q, g <> GU -> (c (if DEC q then fbits (group_factor g) else (false, false)) = true <-> tadj (2 * d) q p /\ g = G)).
  { intros g q U. destruct (DEC q); [|rewrite C0; split; [discriminate|intros [X _]; contradiction]]. split; [intros X; split; auto|intros [_ ->]; auto]. }
  assert (EE : forall r e, (e = true <-> tstab d G r /\ ch r = true /\ tadj (2 * d) r p) ->
    (e = true <-> exists g, tstab d g r /\ ch r = true /\ c (if DEC r then fbits (group_factor g) else (false, false)) = true)).
  { intros r e E. rewrite E. split; [intros (A & B & F); exists G; rewrite CC by (apply (tstab_group d _ r A)); auto|intros (g & A & B & F)].
    apply CC in F; [|apply (tstab_group d _ r A)]. destruct F as [F ->]; auto. }
  apply (chosen_two (tvs d) (tes d) (tstab d) (fun g q => if DEC q then fbits (group_factor g) else (false, false)) c ch p p1 p2); auto.
  - apply nodup_tvs; auto.
  - intros g q. rewrite stab_exists. apply in_tstab.
  - intros o g q Q. destruct (tfac_stab d o g q p D Q) as [[A ->]|[A ->]]; destruct (DEC q); auto; contradiction.
  - intros g q S1 S2 S3. apply CC in S3; [|apply (tstab_group d _ q S1)]. destruct S3 as [S3 ->]. auto.
Qed.
Lemma toric_letter0 d (c : bool * bool -> bool) (ch : pos -> bool) p G : (2 <= d)%Z -> In p (dpos (tvs d)) ->
  (c (false, false) = false) -> (forall g, g <> GU -> c (fbits (group_factor g)) = true -> g = G) -> (forall q, tstab d G q -> ch q = false) ->
  parity (map (fun s => ch (at_pos (tvs d) s) && c (fac (tes d) s p)) (stab_ids (tvs d))) = false.
Proof.
  intros D P C0 C2 N. apply chosen_none. intros o g q Q C. destruct (tfac_stab d o g q p D Q) as [[A ->]|[A ->]]; auto.
  assert (S1 : tstab d g q) by (apply in_tstab; eapply nth_error_In; eauto). destruct (c (fbits (group_factor g))) eqn:X; auto.
  rewrite (N q) in C; [discriminate|]. rewrite <- (C2 g (tstab_group _ _ _ S1) X). auto.
Qed.
(** The group [G] has the letter [c] and lies on the rows and columns with parity [e]. *)
Definition kind_parity (G : group) : Z := match G with GA => 0 | _ => 1 end.
Lemma tstab_iff d G q : G <> GU -> (tstab d G q <-> (1 <= fst q <= 2 * d /\ 1 <= snd q <= 2 * d /\ fst q mod 2 = kind_parity G /\ snd q mod 2 = kind_parity G)%Z).
Proof.
  intros U. unfold tstab, tbox, kind_parity. destruct G; try congruence; (split; [intros (B & [(X & Y)|(X & Y)]); try discriminate; lia|intros X; split; [lia|]]); [left|right]; split; auto; lia.
Qed.

Definition other (G : group) : group := match G with GA => GB | _ => GA end.
Definition letter (G : group) : bool * bool -> bool := match G with GA => fst | _ => snd end.
Lemma letter_only G : G <> GU -> letter G (false, false) = false /\ letter G (fbits (group_factor G)) = true /\
  (forall g, g <> GU -> letter G (fbits (group_factor g)) = true -> g = G).
Proof. intros U. destruct G; try congruence; (split; [reflexivity|]; split; [reflexivity|]); intros [] V; cbn; congruence. Qed.

Lemma up_is d i x : (1 <= i <= 2 * d)%Z -> (2 <= x <= 2 * d)%Z -> (up d i = x <-> i = x - 1)%Z.
Proof. intros A B. unfold up. destruct (Z.eqb_spec i (2 * d)); lia. Qed.
Lemma down_is d i x : (1 <= i <= 2 * d)%Z -> (1 <= x <= 2 * d - 1)%Z -> (down d i = x <-> i = x + 1)%Z.
Proof. intros A B. unfold down. destruct (Z.eqb_spec i 1); lia. Qed.
Lemma cyc_comm d a b : (1 <= a <= 2 * d)%Z -> (1 <= b <= 2 * d)%Z -> cyc (2 * d) a b -> cyc (2 * d) b a.
Proof. unfold cyc. lia. Qed.
Lemma around_cell d i : (2 <= d)%Z -> (1 <= i <= 2 * d)%Z -> cyc (2 * d) (up d i) i /\ cyc (2 * d) (down d i) i /\
  (forall a, (1 <= a <= 2 * d)%Z -> cyc (2 * d) a i -> a = up d i \/ a = down d i) /\
  (1 <= up d i <= 2 * d /\ 1 <= down d i <= 2 * d /\ up d i <> down d i)%Z /\ (up d i mod 2 <> i mod 2 /\ down d i mod 2 <> i mod 2)%Z.
Proof.
  intros D B. destruct (up_down d i D B) as (A1 & A2 & A3 & A4 & A5). pose proof (cyc_iff d i) as C.
  split; [apply cyc_comm; auto; apply C; auto|]. split; [apply cyc_comm; auto; apply C; auto|]. split; [|auto].
  intros a Ba X. apply C; auto. apply cyc_comm; auto.
Qed.
Lemma other_parity a b s k : (a mod 2 <> b mod 2 -> b mod 2 = s mod 2 -> (s + 1) mod 2 = k -> a mod 2 = k)%Z.
Proof. lia. Qed.
Lemma same_parity a b s k : (a mod 2 <> b mod 2 -> b mod 2 <> s mod 2 -> (s + 1) mod 2 = k -> b mod 2 = k /\ a mod 2 <> k)%Z.
Proof. lia. Qed.

(** Rows of the torus; [s] is the first row, the generators of the group [G] are between the rows. *)
Lemma toric_rows d G (s : Z) k (i j : Z) : (2 <= d)%Z -> G <> GU -> (1 <= s <= 2)%Z -> ((s + 1) mod 2 = kind_parity G)%Z -> S k < Z.to_nat d -> In (i, j) (dpos (tvs d)) ->
  parity (map (fun o => (fun q : pos => (fst q =? 2 * zn k + s + 1)%Z) (at_pos (tvs d) o) && letter G (fac (tes d) o (i, j))) (stab_ids (tvs d))) =
  xorb (i =? 2 * zn k + s)%Z (i =? 2 * zn (S k) + s)%Z.
Proof.
  intros D U S1 S2 Lk P. pose proof P as P'. apply in_dpos, in_tdata in P'. destruct P' as (B & M). unfold tbox in B. cbn [fst snd] in B.
  destruct (letter_only G U) as (C0 & C1 & C2). destruct B as [B1 B2].
  destruct (around_cell d i D B1) as (I1 & I2 & I3 & (I4 & I5 & I6) & I7 & I8). destruct (around_cell d j D B2) as (J1 & J2 & J3 & (J4 & J5 & J6) & J7 & J8).
  assert (XB : (2 <= 2 * zn k + s + 1 <= 2 * d - 1)%Z) by lia.
  destruct (Z.eq_dec (i mod 2) (s mod 2)) as [I0|I0].
  - assert (JK : (j mod 2 = kind_parity G)%Z) by (apply (other_parity j i s); auto).
    apply (toric_letter d (letter G) (fun q : pos => (fst q =? 2 * zn k + s + 1)%Z) (i, j) (up d i, j)%Z (down d i, j)%Z _ _ G D P); auto.
    + intros X; injection X; auto.
    + intros [a b]. rewrite tstab_iff by auto. cbn [fst snd]. intros (X1 & X2 & X3 & X4) _ [[A1 A2]|[A1 A2]]; cbn [fst snd] in *; subst.
      * exfalso. apply M. congruence.
      * destruct (I3 a X1 A2) as [-> | ->]; auto.
    + rewrite tstab_iff, !Z.eqb_eq by auto. cbn [fst snd]. rewrite up_is by lia. split; [intros ->|intros (_ & X & _); lia].
      split; [|split; [lia|right; split; auto]]. split; [auto|]. split; [auto|]. split; [apply (other_parity _ (2 * zn k + s) s); auto|auto].
    + rewrite tstab_iff, !Z.eqb_eq by auto. cbn [fst snd]. rewrite down_is by lia. split; [intros ->|intros (_ & X & _); lia].
      split; [|split; [lia|right; split; auto]]. split; [auto|]. split; [auto|]. split; [apply (other_parity _ (2 * zn (S k) + s) s); auto|auto].
  - assert (N : (j mod 2 <> i mod 2)%Z) by congruence. destruct (same_parity j i s _ N I0 S2) as [IK JK].
    replace (xorb (i =? 2 * zn k + s)%Z (i =? 2 * zn (S k) + s)%Z) with (xorb (i =? 2 * zn k + s + 1)%Z (i =? 2 * zn k + s + 1)%Z).
    + assert (KU : (up d j mod 2 = kind_parity G)%Z) by (clear - J7 JK IK; destruct G; cbn in *; lia).
      assert (KD : (down d j mod 2 = kind_parity G)%Z) by (clear - J8 JK IK; destruct G; cbn in *; lia).
      apply (toric_letter d (letter G) (fun q : pos => (fst q =? 2 * zn k + s + 1)%Z) (i, j) (i, up d j)%Z (i, down d j)%Z _ _ G D P); auto.
      * intros X; injection X; auto.
      * intros [a b]. rewrite tstab_iff by auto. cbn [fst snd]. intros (X1 & X2 & X3 & X4) _ [[A1 A2]|[A1 A2]]; cbn [fst snd] in *; subst; [|contradiction].
        destruct (J3 b X2 A2) as [-> | ->]; auto.
      * rewrite tstab_iff by auto. cbn [fst snd]. split; [intros X; split; [auto|]; split; [auto|left; split; auto]|tauto].
      * rewrite tstab_iff by auto. cbn [fst snd]. split; [intros X; split; [auto|]; split; [auto|left; split; auto]|tauto].
    + rewrite xorb_nilpotent. clear - I0. destruct (Z.eqb_spec i (2 * zn k + s)); [lia|]. destruct (Z.eqb_spec i (2 * zn (S k) + s)); [lia|]. reflexivity.
Qed.
Lemma toric_columns d G (s : Z) k (i j : Z) : (2 <= d)%Z -> G <> GU -> (1 <= s <= 2)%Z -> ((s + 1) mod 2 = kind_parity G)%Z -> S k < Z.to_nat d -> In (i, j) (dpos (tvs d)) ->
  parity (map (fun o => (fun q : pos => (snd q =? 2 * zn k + s + 1)%Z) (at_pos (tvs d) o) && letter G (fac (tes d) o (i, j))) (stab_ids (tvs d))) =
  xorb (j =? 2 * zn k + s)%Z (j =? 2 * zn (S k) + s)%Z.
Proof.
  intros D U S1 S2 Lk P. pose proof P as P'. apply in_dpos, in_tdata in P'. destruct P' as (B & M). unfold tbox in B. cbn [fst snd] in B.
  destruct (letter_only G U) as (C0 & C1 & C2). destruct B as [B1 B2].
  destruct (around_cell d i D B1) as (I1 & I2 & I3 & (I4 & I5 & I6) & I7 & I8). destruct (around_cell d j D B2) as (J1 & J2 & J3 & (J4 & J5 & J6) & J7 & J8).
  assert (XB : (2 <= 2 * zn k + s + 1 <= 2 * d - 1)%Z) by lia.
  destruct (Z.eq_dec (j mod 2) (s mod 2)) as [I0|I0].
  - assert (IK : (i mod 2 = kind_parity G)%Z) by (apply (other_parity i j s); auto).
    apply (toric_letter d (letter G) (fun q : pos => (snd q =? 2 * zn k + s + 1)%Z) (i, j) (i, up d j)%Z (i, down d j)%Z _ _ G D P); auto.
    + intros X; injection X; auto.
    + intros [a b]. rewrite tstab_iff by auto. cbn [fst snd]. intros (X1 & X2 & X3 & X4) _ [[A1 A2]|[A1 A2]]; cbn [fst snd] in *; subst.
      * destruct (J3 b X2 A2) as [-> | ->]; auto.
      * exfalso. apply M. congruence.
    + rewrite tstab_iff, !Z.eqb_eq by auto. cbn [fst snd]. rewrite up_is by lia. split; [intros ->|intros (_ & X & _); lia].
      split; [|split; [lia|left; split; auto]]. split; [auto|]. split; [auto|]. split; [auto|apply (other_parity _ (2 * zn k + s) s); auto].
    + rewrite tstab_iff, !Z.eqb_eq by auto. cbn [fst snd]. rewrite down_is by lia. split; [intros ->|intros (_ & X & _); lia].
      split; [|split; [lia|left; split; auto]]. split; [auto|]. split; [auto|]. split; [auto|apply (other_parity _ (2 * zn (S k) + s) s); auto].
  - destruct (same_parity i j s _ M I0 S2) as [JK IK].
    replace (xorb (j =? 2 * zn k + s)%Z (j =? 2 * zn (S k) + s)%Z) with (xorb (j =? 2 * zn k + s + 1)%Z (j =? 2 * zn k + s + 1)%Z).
    + assert (KU : (up d i mod 2 = kind_parity G)%Z) by (clear - I7 JK IK; destruct G; cbn in *; lia).
      assert (KD : (down d i mod 2 = kind_parity G)%Z) by (clear - I8 JK IK; destruct G; cbn in *; lia).
      apply (toric_letter d (letter G) (fun q : pos => (snd q =? 2 * zn k + s + 1)%Z) (i, j) (up d i, j)%Z (down d i, j)%Z _ _ G D P); auto.
      * intros X; injection X; auto.
      * intros [a b]. rewrite tstab_iff by auto. cbn [fst snd]. intros (X1 & X2 & X3 & X4) _ [[A1 A2]|[A1 A2]]; cbn [fst snd] in *; subst; [contradiction|].
        destruct (I3 a X1 A2) as [-> | ->]; auto.
      * rewrite tstab_iff by auto. cbn [fst snd]. split; [intros X; split; [auto|]; split; [auto|right; split; auto]|tauto].
      * rewrite tstab_iff by auto. cbn [fst snd]. split; [intros X; split; [auto|]; split; [auto|right; split; auto]|tauto].
    + rewrite xorb_nilpotent. clear - I0. destruct (Z.eqb_spec j (2 * zn k + s)); [lia|]. destruct (Z.eqb_spec j (2 * zn (S k) + s)); [lia|]. reflexivity.
Qed.

Lemma toric_none d G (ch : pos -> bool) p : (2 <= d)%Z -> G <> GU -> In p (dpos (tvs d)) -> (forall q, (fst q mod 2 = kind_parity G /\ snd q mod 2 = kind_parity G)%Z -> ch q = false) ->
  parity (map (fun o => ch (at_pos (tvs d) o) && letter G (fac (tes d) o p)) (stab_ids (tvs d))) = false.
Proof.
  intros D U P N. destruct (letter_only G U) as (C0 & _ & C2). apply (toric_letter0 d (letter G) ch p G D P C0 C2). intros q Q. apply tstab_iff in Q; auto. apply N; tauto.
Qed.

Theorem toric_logical d k : (2 <= d)%Z -> k < 4 ->
  logical_distance (List.length (dpos (tvs d))) (c_stabs (toric_code d)) (GeneratorSpec.fac (brow (tvs d) (tes d) (k + tn d))) (Z.to_nat d).
Proof.
  intros D K.
  assert (EQ : forall (a b : Z) (x : bool * bool), (if (a =? b)%Z then x else (false, false)) <> (false, false) -> a = b) by (intros a b x; destruct (Z.eqb_spec a b); congruence).
  destruct k as [|[|[|[|]]]]; [..|lia].
  - apply (position_distance _ _ _ _ 0 (fun k p => if (fst p =? 2 * zn k + 1)%Z then (true, false) else (false, false)) (fun k q => (fst q =? 2 * zn k + 1 + 1)%Z)).
    + lia.
    + intros p P. rewrite tfac_log by auto. reflexivity.
    + intros k [i j] Lk P. eapply pair_is; [apply (toric_rows d GA 1 k i j); auto; [discriminate|lia]|apply (toric_none d GB (fun q => (fst q =? 2 * zn k + 1 + 1)%Z) (i, j) D); auto; [discriminate|]|].
      * intros [a b] [X _]. cbn [fst] in *. change (kind_parity GB) with 1%Z in X. lia.
      * cbn [fst]. destruct (i =? 2 * zn k + 1)%Z, (i =? 2 * zn (S k) + 1)%Z; reflexivity.
    + intros k k' p Lk Lk' P A B. apply EQ in A, B. lia.
  - apply (position_distance _ _ _ _ (Z.to_nat d - 1) (fun k p => if (snd p =? 2 * zn k + 2)%Z then (false, true) else (false, false)) (fun k q => (snd q =? 2 * zn k + 2 + 1)%Z)).
    + lia.
    + intros p P. rewrite tfac_log by auto. cbn [tsup tbits]. replace (2 * zn (Z.to_nat d - 1) + 2)%Z with (2 * d)%Z by lia. reflexivity.
    + intros k [i j] Lk P. eapply pair_is; [apply (toric_none d GA (fun q => (snd q =? 2 * zn k + 2 + 1)%Z) (i, j) D); auto; [discriminate|]|apply (toric_columns d GB 2 k i j); auto; [discriminate|lia]|].
      * intros [a b] [_ X]. cbn [snd] in *. change (kind_parity GA) with 0%Z in X. lia.
      * cbn [snd]. destruct (j =? 2 * zn k + 2)%Z, (j =? 2 * zn (S k) + 2)%Z; reflexivity.
    + intros k k' p Lk Lk' P A B. apply EQ in A, B. lia.
  - apply (position_distance _ _ _ _ 0 (fun k p => if (snd p =? 2 * zn k + 1)%Z then (true, false) else (false, false)) (fun k q => (snd q =? 2 * zn k + 1 + 1)%Z)).
    + lia.
    + intros p P. rewrite tfac_log by auto. reflexivity.
    + intros k [i j] Lk P. eapply pair_is; [apply (toric_columns d GA 1 k i j); auto; [discriminate|lia]|apply (toric_none d GB (fun q => (snd q =? 2 * zn k + 1 + 1)%Z) (i, j) D); auto; [discriminate|]|].
      * intros [a b] [_ X]. cbn [snd] in *. change (kind_parity GB) with 1%Z in X. lia.
      * cbn [snd]. destruct (j =? 2 * zn k + 1)%Z, (j =? 2 * zn (S k) + 1)%Z; reflexivity.
    + intros k k' p Lk Lk' P A B. apply EQ in A, B. lia.
  - apply (position_distance _ _ _ _ (Z.to_nat d - 1) (fun k p => if (fst p =? 2 * zn k + 2)%Z then (false, true) else (false, false)) (fun k q => (fst q =? 2 * zn k + 2 + 1)%Z)).
    + lia.
    + intros p P. rewrite tfac_log by auto. cbn [tsup tbits]. replace (2 * zn (Z.to_nat d - 1) + 2)%Z with (2 * d)%Z by lia. reflexivity.
    + intros k [i j] Lk P. eapply pair_is; [apply (toric_none d GA (fun q => (fst q =? 2 * zn k + 2 + 1)%Z) (i, j) D); auto; [discriminate|]|apply (toric_rows d GB 2 k i j); auto; [discriminate|lia]|].
      * intros [a b] [X _]. cbn [fst] in *. change (kind_parity GA) with 0%Z in X. lia.
      * cbn [fst]. destruct (i =? 2 * zn k + 2)%Z, (i =? 2 * zn (S k) + 2)%Z; reflexivity.
    + intros k k' p Lk Lk' P A B. apply EQ in A, B. lia.
Qed.

Theorem toric_distance d k : (2 <= d)%Z -> k < 4 ->
  exact_distance (List.length (dpos (tvs d))) (c_stabs (toric_code d)) (GeneratorSpec.fac (brow (tvs d) (tes d) (k + tn d))) (Z.to_nat d).
Proof.
  intros D K. set (partner := match k with 0 => 1 | 1 => 0 | 2 => 3 | _ => 2 end).
  set (cell := fun i => match k with 0 => (2 * zn i + 1, 2 * d)%Z | 1 => (1, 2 * zn i + 2)%Z | 2 => (2 * d, 2 * zn i + 1)%Z | _ => (2 * zn i + 2, 1)%Z end : pos).
  apply (exact_positions _ _ _ (partner + tn d) _ (map cell (seq 0 (Z.to_nat d)))).
  - apply nodup_tvs; auto.
  - apply toric_logical; auto.
  - intros a I. apply toric_stab_log; auto. unfold partner. destruct k as [|[|[|]]]; lia.
  - rewrite toric_log_log; auto; unfold partner; destruct k as [|[|[|[|]]]]; try lia; reflexivity.
  - intros [i j] P F. rewrite tfac_log in F; auto; [|unfold partner; destruct k as [|[|[|]]]; lia].
    apply in_dpos, in_tdata in P. destruct P as (B & M). unfold tbox in B. cbn [fst snd] in B. apply in_map_iff.
    unfold partner in F. unfold cell. destruct k as [|[|[|[|]]]]; [..|lia]; cbn [tsup fst snd] in F; (destruct (Z.eqb_spec i 1), (Z.eqb_spec j 1), (Z.eqb_spec i (2 * d)), (Z.eqb_spec j (2 * d)); try congruence; try lia).
    all: (exists (Z.to_nat ((i - 1) / 2)); split; [f_equal; lia|apply in_seq; lia]) || (exists (Z.to_nat ((j - 1) / 2)); split; [f_equal; lia|apply in_seq; lia]).
  - rewrite map_length, seq_length. auto.
Qed.
