(** Disjoint representatives of the logical operators of the rotated planar code. *)
Require Import List Bool Arith ZArith Lia String.
From Verif Require Import Base BaseProofs QSpec PauliModel PauliAlg LatticeModel CodesModel CodesSpec LatticeSpec LatticeOps BuildProofs CodesProofs
  RotatedProofs GraphSpec GraphProofs UnionFindMetric GraphCuts SyngraphFinal GraphlikeCodes FaultSpec CodeDistance.
From Verif Require GeneratorSpec.
Import ListNotations.
Local Open Scope nat_scope.
Local Open Scope list_scope.
Ltac Zify.zify_post_hook ::= Z.to_euclidean_division_equations.


Lemma rotated_one d z (c : bool * bool -> bool) (ch : pos -> bool) p a b : (2 <= d)%Z -> In p (dpos (rvs d)) -> c (false, false) = false -> stabat d a b -> ch (2 * a, 2 * b)%Z = true ->
  (forall a' b', ch (2 * a', 2 * b')%Z = true -> radjb (2 * a', 2 * b')%Z p = true -> a' = a /\ b' = b) ->
  parity (map (fun s => ch (at_pos (rvs d) s) && c (fac (res d z) s p)) (stab_ids (rvs d))) =
  c (if radjb (2 * a, 2 * b)%Z p then fbits (rfactor z (rgroup a b) (2 * a, 2 * b)%Z p) else (false, false)).
Proof.
  intros D P C0 SA CH U. assert (AT : forall o g q, nth_error (rvs d) o = Some (KStab g, q) -> at_pos (rvs d) o = q) by (intros o g q Q; unfold at_pos; rewrite (nth_error_nth _ _ _ Q); auto).
  assert (EX : exists o, nth_error (rvs d) o = Some (KStab (rgroup a b), (2 * a, 2 * b)%Z)).
  { apply stab_exists. unfold rvs. apply in_app_iff. left. apply in_rstab. exists a, b. auto. }
  destruct EX as (o & O). rewrite <- (rfac_stab d z o _ _ p O P).
  transitivity (ch (at_pos (rvs d) o) && c (fac (res d z) o p)); [|rewrite (AT _ _ _ O), CH; auto].
  apply (parity_one (fun s => ch (at_pos (rvs d) s) && c (fac (res d z) s p))); [apply NoDup_stab_ids|apply in_stab_ids; eauto|].
  intros s I NE. apply in_stab_ids in I. destruct I as (g & q & Q). cbv beta. rewrite (AT _ _ _ Q), (rfac_stab d z s g q p Q P).
  destruct (ch q) eqn:CQ; auto. cbn [andb]. destruct (radjb q p) eqn:RA; auto. exfalso. apply NE.
  destruct (rstab_pos _ _ _ _ Q) as (a' & b' & -> & SA' & ->). destruct (U a' b' CQ RA) as [-> ->].
  pose proof (nodup_rvs d D) as N. rewrite NoDup_nth_error in N. apply N; [rewrite map_length; apply nth_error_Some; congruence|]. rewrite !nth_error_map, Q, O. auto.
Qed.

Definition row_rep (z : bool) (k : nat) (p : pos) : bool * bool :=
  if (snd p =? 2 * zn k + 1)%Z then fbits (if negb z || ((fst p / 2) mod 2 =? zn k mod 2)%Z then FX else FZ) else (false, false).
Definition col_rep (z : bool) (k : nat) (p : pos) : bool * bool :=
  if (fst p =? 2 * zn k + 1)%Z then fbits (if negb z || ((snd p / 2) mod 2 =? zn k mod 2)%Z then FZ else FX) else (false, false).
Definition near (a k : Z) : Z := if (a mod 2 =? (k + 1) mod 2)%Z then a else (a + 1)%Z.
Definition far (a k : Z) : Z := if (a mod 2 =? (k + 1) mod 2)%Z then (a + 1)%Z else a.

Lemma row_step z a b k : pxor (row_rep z k (2 * a + 1, 2 * b + 1)%Z) (row_rep z (S k) (2 * a + 1, 2 * b + 1)%Z) =
  (if radjb (2 * near a (zn k), 2 * (zn k + 1))%Z (2 * a + 1, 2 * b + 1)%Z
   then fbits (rfactor z (rgroup (near a (zn k)) (zn k + 1)) (2 * near a (zn k), 2 * (zn k + 1))%Z (2 * a + 1, 2 * b + 1)%Z) else (false, false)).
Proof.
  unfold row_rep. cbn [fst snd]. assert (E : zn (S k) = (zn k + 1)%Z) by lia. rewrite E. clear E. set (x := zn k). assert (X : (0 <= x)%Z) by lia. clearbody x.
  replace ((2 * a + 1) / 2)%Z with a by lia.
  assert (G : rgroup (near a x) (x + 1) = GA) by (unfold rgroup, near; destruct (Z.eqb_spec (a mod 2) ((x + 1) mod 2)); [rewrite e, Z.eqb_refl; auto|destruct (Z.eqb_spec ((a + 1) mod 2) ((x + 1) mod 2)); auto; lia]).
  rewrite G. unfold radjb, rfactor. cbn [fst snd].
  assert (NA : (Z.abs (2 * a + 1 - 2 * near a x) =? 1)%Z = true) by (unfold near; destruct (a mod 2 =? (x + 1) mod 2)%Z; lia). rewrite NA. cbn [andb].
  destruct (Z.eqb_spec (2 * b + 1) (2 * x + 1)) as [B1|B1]; [|destruct (Z.eqb_spec (2 * b + 1) (2 * (x + 1) + 1)) as [B2|B2]].
  - replace (2 * b + 1 =? 2 * (x + 1) + 1)%Z with false by lia. replace (Z.abs (2 * b + 1 - 2 * (x + 1)) =? 1)%Z with true by lia.
    destruct z; [|reflexivity]. cbn [negb orb]. unfold near.
    destruct (Z.eqb_spec (a mod 2) ((x + 1) mod 2)), (Z.eqb_spec (a mod 2) (x mod 2)); try lia.
    + replace (2 * a + 1 - 2 * a =? 2 * b + 1 - 2 * (x + 1))%Z with false by lia. reflexivity.
    + replace (2 * a + 1 - 2 * (a + 1) =? 2 * b + 1 - 2 * (x + 1))%Z with true by lia. reflexivity.
  - replace (Z.abs (2 * b + 1 - 2 * (x + 1)) =? 1)%Z with true by lia.
    destruct z; [|reflexivity]. cbn [negb orb]. unfold near.
    destruct (Z.eqb_spec (a mod 2) ((x + 1) mod 2)); try lia.
    + replace (2 * a + 1 - 2 * a =? 2 * b + 1 - 2 * (x + 1))%Z with true by lia. reflexivity.
    + replace (2 * a + 1 - 2 * (a + 1) =? 2 * b + 1 - 2 * (x + 1))%Z with false by lia. reflexivity.
  - replace (Z.abs (2 * b + 1 - 2 * (x + 1)) =? 1)%Z with false by lia. reflexivity.
Qed.

Lemma col_step z a b k : pxor (col_rep z k (2 * a + 1, 2 * b + 1)%Z) (col_rep z (S k) (2 * a + 1, 2 * b + 1)%Z) =
  (if radjb (2 * (zn k + 1), 2 * far b (zn k))%Z (2 * a + 1, 2 * b + 1)%Z
   then fbits (rfactor z (rgroup (zn k + 1) (far b (zn k))) (2 * (zn k + 1), 2 * far b (zn k))%Z (2 * a + 1, 2 * b + 1)%Z) else (false, false)).
Proof.
  unfold col_rep. cbn [fst snd]. assert (E : zn (S k) = (zn k + 1)%Z) by lia. rewrite E. clear E. set (x := zn k). assert (X : (0 <= x)%Z) by lia. clearbody x.
  replace ((2 * b + 1) / 2)%Z with b by lia.
  assert (G : rgroup (x + 1) (far b x) = GB) by (unfold rgroup, far; destruct (Z.eqb_spec (b mod 2) ((x + 1) mod 2)); [destruct (Z.eqb_spec ((x + 1) mod 2) ((b + 1) mod 2)); auto; lia|destruct (Z.eqb_spec ((x + 1) mod 2) (b mod 2)); auto; lia]).
  rewrite G. unfold radjb, rfactor. cbn [fst snd].
  assert (NA : (Z.abs (2 * b + 1 - 2 * far b x) =? 1)%Z = true) by (unfold far; destruct (b mod 2 =? (x + 1) mod 2)%Z; lia). rewrite NA, andb_true_r.
  destruct (Z.eqb_spec (2 * a + 1) (2 * x + 1)) as [B1|B1]; [|destruct (Z.eqb_spec (2 * a + 1) (2 * (x + 1) + 1)) as [B2|B2]].
  - replace (2 * a + 1 =? 2 * (x + 1) + 1)%Z with false by lia. replace (Z.abs (2 * a + 1 - 2 * (x + 1)) =? 1)%Z with true by lia.
    destruct z; [|reflexivity]. cbn [negb orb]. unfold far.
    destruct (Z.eqb_spec (b mod 2) ((x + 1) mod 2)), (Z.eqb_spec (b mod 2) (x mod 2)); try lia.
    + replace (2 * a + 1 - 2 * (x + 1) =? 2 * b + 1 - 2 * (b + 1))%Z with true by lia. reflexivity.
    + replace (2 * a + 1 - 2 * (x + 1) =? 2 * b + 1 - 2 * b)%Z with false by lia. reflexivity.
  - replace (Z.abs (2 * a + 1 - 2 * (x + 1)) =? 1)%Z with true by lia.
    destruct z; [|reflexivity]. cbn [negb orb]. unfold far.
    destruct (Z.eqb_spec (b mod 2) ((x + 1) mod 2)); try lia.
    + replace (2 * a + 1 - 2 * (x + 1) =? 2 * b + 1 - 2 * (b + 1))%Z with false by lia. reflexivity.
    + replace (2 * a + 1 - 2 * (x + 1) =? 2 * b + 1 - 2 * b)%Z with true by lia. reflexivity.
  - replace (Z.abs (2 * a + 1 - 2 * (x + 1)) =? 1)%Z with false by lia. reflexivity.
Qed.

Definition row_chosen (k : nat) (q : pos) : bool := ((snd q =? 2 * (zn k + 1)) && ((fst q / 2) mod 2 =? (zn k + 1) mod 2))%Z.
Definition col_chosen (k : nat) (q : pos) : bool := ((fst q =? 2 * (zn k + 1)) && negb ((snd q / 2) mod 2 =? (zn k + 1) mod 2))%Z.

Lemma row_unique k a b a' b' : row_chosen k (2 * a', 2 * b')%Z = true -> radjb (2 * a', 2 * b')%Z (2 * a + 1, 2 * b + 1)%Z = true -> a' = near a (zn k) /\ b' = (zn k + 1)%Z.
Proof. unfold row_chosen, radjb, near. cbn [fst snd]. replace (2 * a' / 2)%Z with a' by lia. intros A B. destruct (Z.eqb_spec (a mod 2) ((zn k + 1) mod 2)); lia. Qed.
Lemma col_unique k a b a' b' : col_chosen k (2 * a', 2 * b')%Z = true -> radjb (2 * a', 2 * b')%Z (2 * a + 1, 2 * b + 1)%Z = true -> a' = (zn k + 1)%Z /\ b' = far b (zn k).
Proof. unfold col_chosen, radjb, far. cbn [fst snd]. replace (2 * b' / 2)%Z with b' by lia. intros A B. destruct (Z.eqb_spec (b mod 2) ((zn k + 1) mod 2)); lia. Qed.
Lemma row_there d k a : (0 <= a <= d - 1)%Z -> (zn k + 1 <= d - 1)%Z -> stabat d (near a (zn k)) (zn k + 1) /\ row_chosen k (2 * near a (zn k), 2 * (zn k + 1))%Z = true.
Proof.
  intros A K. unfold stabat, row_chosen. cbn [fst snd]. replace (2 * near a (zn k) / 2)%Z with (near a (zn k)) by lia.
  assert (near a (zn k) mod 2 = (zn k + 1) mod 2)%Z by (unfold near; destruct (Z.eqb_spec (a mod 2) ((zn k + 1) mod 2)); lia).
  assert (a <= near a (zn k) <= a + 1)%Z by (unfold near; destruct (_ =? _)%Z; lia). lia.
Qed.
Lemma col_there d k b : (0 <= b <= d - 1)%Z -> (zn k + 1 <= d - 1)%Z -> stabat d (zn k + 1) (far b (zn k)) /\ col_chosen k (2 * (zn k + 1), 2 * far b (zn k))%Z = true.
Proof.
  intros A K. unfold stabat, col_chosen. cbn [fst snd]. replace (2 * far b (zn k) / 2)%Z with (far b (zn k)) by lia.
  assert (far b (zn k) mod 2 <> (zn k + 1) mod 2)%Z by (unfold far; destruct (Z.eqb_spec (b mod 2) ((zn k + 1) mod 2)); lia).
  assert (b <= far b (zn k) <= b + 1)%Z by (unfold far; destruct (_ =? _)%Z; lia). lia.
Qed.

Lemma rdata_at d p : In p (dpos (rvs d)) -> exists a b, p = (2 * a + 1, 2 * b + 1)%Z /\ (0 <= a <= d - 1)%Z /\ (0 <= b <= d - 1)%Z.
Proof.
  destruct p as [i j]. intros P. apply in_dpos, in_rvdata in P. unfold rbox in P. cbn [fst snd] in P. exists (i / 2)%Z, (j / 2)%Z. split; [f_equal; lia|lia].
Qed.

Theorem rotated_x_distance d z : (2 <= d)%Z ->
  exact_distance (List.length (dpos (rvs d))) (c_stabs (rotated_code d z)) (GeneratorSpec.fac (brow (rvs d) (res d z) (rn d))) (Z.to_nat d).
Proof.
  intros D. apply (exact_positions _ _ _ (S (rn d)) _ (map (fun i => (1, 2 * zn i + 1)%Z : pos) (seq 0 (Z.to_nat d)))); try (rewrite map_length, seq_length; auto).
  - apply nodup_rvs; auto.
  - apply (position_distance _ _ _ _ 0 (row_rep z) row_chosen).
    + lia.
    + intros p P. rewrite rfac_x by auto. reflexivity.
    + intros k p Lk P. destruct (rdata_at d p P) as (a & b & -> & A & B). destruct (row_there d k a A ltac:(lia)) as [T1 T2].
      rewrite (rotated_one d z fst (row_chosen k) _ (near a (zn k)) (zn k + 1)%Z D P eq_refl T1 T2) by (intros a' b'; apply row_unique).
      rewrite (rotated_one d z snd (row_chosen k) _ (near a (zn k)) (zn k + 1)%Z D P eq_refl T1 T2) by (intros a' b'; apply row_unique).
      rewrite <- surjective_pairing. apply row_step.
    + intros k k' p Lk Lk' P. unfold row_rep. destruct (Z.eqb_spec (snd p) (2 * zn k + 1)), (Z.eqb_spec (snd p) (2 * zn k' + 1)); try congruence. intros _ _. lia.
  - intros a I. apply rotated_stab_z; auto.
  - apply rotated_x_z; auto.
  - intros p P F. rewrite rfac_z in F by auto. destruct (rdata_at d p P) as (a & b & -> & A & B). cbn [fst] in F. destruct (Z.eqb_spec (2 * a + 1) 1); [|congruence].
    apply in_map_iff. exists (Z.to_nat b). split; [f_equal; lia|apply in_seq; lia].
Qed.

Theorem rotated_z_distance d z : (2 <= d)%Z ->
  exact_distance (List.length (dpos (rvs d))) (c_stabs (rotated_code d z)) (GeneratorSpec.fac (brow (rvs d) (res d z) (S (rn d)))) (Z.to_nat d).
Proof.
  intros D. apply (exact_positions _ _ _ (rn d) _ (map (fun i => (2 * zn i + 1, 1)%Z : pos) (seq 0 (Z.to_nat d)))); try (rewrite map_length, seq_length; auto).
  - apply nodup_rvs; auto.
  - apply (position_distance _ _ _ _ 0 (col_rep z) col_chosen).
    + lia.
    + intros p P. rewrite rfac_z by auto. reflexivity.
    + intros k p Lk P. destruct (rdata_at d p P) as (a & b & -> & A & B). destruct (col_there d k b B ltac:(lia)) as [T1 T2].
      rewrite (rotated_one d z fst (col_chosen k) _ (zn k + 1)%Z (far b (zn k)) D P eq_refl T1 T2) by (intros a' b'; apply col_unique).
      rewrite (rotated_one d z snd (col_chosen k) _ (zn k + 1)%Z (far b (zn k)) D P eq_refl T1 T2) by (intros a' b'; apply col_unique).
      rewrite <- surjective_pairing. apply col_step.
    + intros k k' p Lk Lk' P. unfold col_rep. destruct (Z.eqb_spec (fst p) (2 * zn k + 1)), (Z.eqb_spec (fst p) (2 * zn k' + 1)); try congruence. intros _ _. lia.
  - intros a I. apply rotated_stab_x; auto.
  - rewrite symp_comm. apply rotated_x_z; auto.
  - intros p P F. rewrite rfac_x in F by auto. destruct (rdata_at d p P) as (a & b & -> & A & B). cbn [snd] in F. destruct (Z.eqb_spec (2 * b + 1) 1); [|congruence].
    apply in_map_iff. exists (Z.to_nat a). split; [f_equal; lia|apply in_seq; lia].
Qed.
