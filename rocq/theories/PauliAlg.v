(** Lemmas: commutation and products of Pauli rows. *)
Require Import List Bool Arith ZArith Lia Ring ZifyBool.
From Verif Require Import Base BaseProofs QSpec PauliModel PauliSem PauliProofs.
Import ListNotations.
Ltac Zify.zify_post_hook ::= Z.div_mod_to_equations.

(** * Symplectic form *)
Fixpoint symp (a b : list (bool * bool)) : bool :=
  match a, b with
  | (x1, z1) :: a', (x2, z2) :: b' => xorb (xorb (x1 && z2) (z1 && x2)) (symp a' b')
  | _, _ => false
  end.

Lemma symp_comm a : forall b, symp a b = symp b a.
Proof.
  induction a as [|[x1 z1] a IH]; intros [|[x2 z2] b]; simpl; auto.
  rewrite IH. f_equal. destruct x1, z1, x2, z2; auto.
Qed.

Lemma symp_self a : symp a a = false.
Proof. induction a as [|[[] []] a IH]; simpl; auto; rewrite IH; auto. Qed.

Lemma length_xor_ops a : forall b, length a = length b -> length (xor_ops a b) = length a.
Proof.
  induction a as [|[x1 z1] a IH]; intros [|[x2 z2] b]; simpl; intros; try lia.
  f_equal; apply IH; lia.
Qed.

Lemma symp_xor_r a : forall b c, length a = length b -> length b = length c ->
  symp a (xor_ops b c) = xorb (symp a b) (symp a c).
Proof.
  induction a as [|[x1 z1] a IH]; intros [|[x2 z2] b] [|[x3 z3] c]; simpl; intros; try lia; auto.
  rewrite IH by lia. destruct x1, z1, x2, z2, x3, z3, (symp a b), (symp a c); reflexivity.
Qed.

Lemma symp_xor_l a b c : length a = length b -> length b = length c ->
  symp (xor_ops a b) c = xorb (symp a c) (symp b c).
Proof.
  intros. rewrite symp_comm, symp_xor_r by lia. rewrite (symp_comm c a), (symp_comm c b). auto.
Qed.

Lemma symp_id_l n b : symp (repeat pid n) b = false.
Proof. revert b; induction n; intros [|[x z] b]; simpl; auto; rewrite IHn; auto. Qed.

Lemma xor_ops_comm a : forall b, xor_ops a b = xor_ops b a.
Proof.
  induction a as [|[x1 z1] a IH]; intros [|[x2 z2] b]; simpl; auto.
  rewrite IH, (xorb_comm x1), (xorb_comm z1). auto.
Qed.

Lemma xor_ops_assoc a : forall b c, xor_ops a (xor_ops b c) = xor_ops (xor_ops a b) c.
Proof.
  induction a as [|[x1 z1] a IH]; intros [|[x2 z2] b] [|[x3 z3] c]; simpl; auto.
  rewrite IH, !xorb_assoc. auto.
Qed.

Lemma xor_ops_self a : xor_ops a a = repeat pid (length a).
Proof. induction a as [|[x1 z1] a IH]; simpl; auto. rewrite IH, !xorb_nilpotent. auto. Qed.

Lemma xor_ops_id_l a : forall n, length a = n -> xor_ops (repeat pid n) a = a.
Proof.
  induction a as [|[x1 z1] a IH]; intros [|n]; simpl; intros; try lia; auto.
  rewrite IH by lia. destruct x1, z1; auto.
Qed.

Lemma xor_ops_id_r a n : length a = n -> xor_ops a (repeat pid n) = a.
Proof. intros. rewrite xor_ops_comm. apply xor_ops_id_l; auto. Qed.

Lemma dot8_parity a : forall b,
  ((dot8 a b) mod 2 = b2z (fold_right xorb false (map (fun p => fst p && snd p) (combine a b))))%Z.
Proof.
  induction a as [|x a IH]; intros [|y b]; try reflexivity.
  cbn [dot8 combine map fold_right fst snd].
  specialize (IH b).
  set (D := dot8 a b) in *. set (F := fold_right _ _ _) in *. clearbody D F.
  destruct x, y, F; cbn [b2z andb xorb] in *; lia.
Qed.

Lemma commutator_sign_symp_gen a : forall b, length a = length b ->
  symp a b = xorb (fold_right xorb false (map (fun p => fst p && snd p) (combine (map fst a) (map snd b))))
                  (fold_right xorb false (map (fun p => fst p && snd p) (combine (map snd a) (map fst b)))).
Proof.
  induction a as [|[x1 z1] a IH]; intros [|[x2 z2] b]; simpl; intros; try lia; auto.
  rewrite IH by lia.
  set (F := fold_right _ _ _). set (G := fold_right _ _ _). clearbody F G.
  destruct x1, z1, x2, z2, F, G; auto.
Qed.

Lemma commutator_sign_symp a b : length (ops a) = length (ops b) ->
  commutator_sign a b = symp (ops a) (ops b).
Proof.
  intros H. unfold commutator_sign. cbv zeta. rewrite commutator_sign_symp_gen by auto.
  pose proof (dot8_parity (map fst (ops a)) (map snd (ops b))) as H1.
  pose proof (dot8_parity (map snd (ops a)) (map fst (ops b))) as H2.
  revert H1 H2. generalize (dot8 (map fst (ops a)) (map snd (ops b))) as D1.
  generalize (dot8 (map snd (ops a)) (map fst (ops b))) as D2.
  generalize (fold_right xorb false (map (fun p : bool * bool => fst p && snd p)
               (combine (map fst (ops a)) (map snd (ops b))))) as F.
  generalize (fold_right xorb false (map (fun p : bool * bool => fst p && snd p)
               (combine (map snd (ops a)) (map fst (ops b))))) as G.
  intros G F D2 D1 H1 H2.
  assert (E : (((D1 + D2) mod 256) mod 2 = b2z (xorb F G))%Z)
    by (destruct F, G; cbn [b2z xorb] in *; lia).
  rewrite E. destruct F, G; reflexivity.
Qed.

(** * Product of operators *)
Lemma mod4_cases k : (k mod 4 = 0 \/ k mod 4 = 1 \/ k mod 4 = 2 \/ k mod 4 = 3)%Z.
Proof. lia. Qed.

Lemma ipow_add j k : ipow (j + k) = zimul (ipow j) (ipow k).
Proof.
  unfold ipow. rewrite (Z.add_mod j k 4) by lia.
  destruct (mod4_cases j) as [->|[->|[->| ->]]], (mod4_cases k) as [->|[->|[->| ->]]]; reflexivity.
Qed.

Lemma flipx_xor a : forall b x, length a = length b -> length x = length a ->
  flipx b (flipx a x) = flipx (xor_ops a b) x.
Proof.
  induction a as [|[x1 z1] a IH]; intros [|[x2 z2] b] [|y x]; simpl; intros; try lia; auto.
  rewrite IH by lia. rewrite xorb_assoc. auto.
Qed.

Lemma fac_mul a : forall b x, length a = length b -> length x = length a ->
  zimul (fac a x) (fac b (flipx a x)) = zimul (ipow (phase_exponent a b)) (fac (xor_ops a b) x).
Proof.
  induction a as [|[x1 z1] a IH]; intros [|[x2 z2] b] [|y x] H1 H2; try (simpl in *; lia).
  - reflexivity.
  - cbn [fac flipx xor_ops phase_exponent fst] in *.
    rewrite ipow_add.
    transitivity (zimul (zimul (ent (x1,z1) y) (ent (x2,z2) (xorb y x1)))
                        (zimul (fac a x) (fac b (flipx a x)))). ring.
    rewrite IH by (simpl in *; lia).
    replace (zimul (ent (x1, z1) y) (ent (x2, z2) (xorb y x1)))
      with (zimul (ipow (g_phase x1 z1 x2 z2)) (ent (xorb x1 x2, xorb z1 z2) y))
      by (destruct x1, z1, x2, z2, y; reflexivity).
    ring.
Qed.

Lemma fac_swap a : forall b x, length a = length b -> length x = length a ->
  zimul (fac a x) (fac b (flipx a x)) =
  zimul (sgn (symp a b)) (zimul (fac b x) (fac a (flipx b x))).
Proof.
  induction a as [|[x1 z1] a IH]; intros [|[x2 z2] b] [|y x] H1 H2; try (simpl in *; lia).
  - reflexivity.
  - cbn [fac flipx symp fst].
    transitivity (zimul (zimul (ent (x1,z1) y) (ent (x2,z2) (xorb y x1)))
                        (zimul (fac a x) (fac b (flipx a x)))). ring.
    rewrite IH by (simpl in *; lia). rewrite <- sgn_mul.
    replace (zimul (ent (x1, z1) y) (ent (x2, z2) (xorb y x1)))
      with (zimul (sgn (xorb (x1 && z2) (z1 && x2))) (zimul (ent (x2, z2) y) (ent (x1,z1) (xorb y x2))))
      by (destruct x1, z1, x2, z2, y; reflexivity).
    ring.
Qed.

Lemma papply_papply n a b v x : length (ops a) = n -> length (ops b) = n -> length x = n ->
  papply (denote a) (papply (denote b) v) x =
  zimul (zimul (zimul (sgn (neg a)) (sgn (neg b))) (zimul (fac (ops a) x) (fac (ops b) (flipx (ops a) x))))
        (v (flipx (xor_ops (ops a) (ops b)) x)).
Proof.
  intros. rewrite papply_closed by lia. rewrite papply_closed by (rewrite length_flipx; lia).
  rewrite flipx_xor by lia. ring.
Qed.

Lemma papply_swap n a b v : length (ops a) = n -> length (ops b) = n ->
  veq n (papply (denote a) (papply (denote b) v))
        (vscale (sgn (symp (ops a) (ops b))) (papply (denote b) (papply (denote a) v))).
Proof.
  intros Ha Hb x Hx. unfold vscale.
  rewrite (papply_papply n a b), (papply_papply n b a) by auto.
  rewrite fac_swap by lia. rewrite (xor_ops_comm (ops b)). ring.
Qed.

Lemma ent_nonzero p x : ziabs2 (ent p x) = 1%Z.
Proof. destruct p as [[] []], x; reflexivity. Qed.

Lemma ziabs2_mul a b : (ziabs2 (zimul a b) = ziabs2 a * ziabs2 b)%Z.
Proof. unfold ziabs2; simpl; ring. Qed.

Lemma fac_abs o : forall a, ziabs2 (fac o a) = 1%Z.
Proof.
  induction o as [|p o IH]; intros [|x a]; simpl; try reflexivity.
  rewrite ziabs2_mul, ent_nonzero, IH. auto.
Qed.

Lemma sgn_abs b : ziabs2 (sgn b) = 1%Z.
Proof. destruct b; reflexivity. Qed.

Lemma commute_iff n a b : length (ops a) = n -> length (ops b) = n ->
  (commute n (denote a) (denote b) <-> symp (ops a) (ops b) = false).
Proof.
  intros Ha Hb. split.
  - intros H. destruct (symp (ops a) (ops b)) eqn:E; auto. exfalso.
    pose proof (papply_swap n a b (fun _ => zi1) Ha Hb) as H1. rewrite E in H1.
    specialize (H (fun _ => zi1) (repeat false n) (repeat_length _ _)).
    specialize (H1 (repeat false n) (repeat_length _ _)).
    unfold vscale in H1. rewrite H in H1.
    set (w := papply (denote b) (papply (denote a) (fun _ => zi1)) (repeat false n)) in *.
    assert (W : ziabs2 w = 1%Z).
    { subst w. rewrite (papply_papply n) by (auto; apply repeat_length).
      rewrite !ziabs2_mul, !fac_abs, !sgn_abs. reflexivity. }
    destruct w as [wr wi]. unfold zimul, sgn, ziopp, zi1 in H1. cbn [re im] in H1.
    pose proof (f_equal re H1) as E1; pose proof (f_equal im H1) as E2; cbn [re im] in E1, E2. assert (wr = 0)%Z by lia. assert (wi = 0)%Z by lia.
    subst. discriminate W.
  - intros E v. pose proof (papply_swap n a b v Ha Hb) as H1. rewrite E in H1.
    intros x Hx. rewrite H1 by auto. unfold vscale. simpl. ring.
Qed.

Lemma anticommute_iff n a b : length (ops a) = n -> length (ops b) = n ->
  (anticommute n (denote a) (denote b) <-> symp (ops a) (ops b) = true).
Proof.
  intros Ha Hb. split.
  - intros H. destruct (symp (ops a) (ops b)) eqn:E; auto. exfalso.
    pose proof (papply_swap n a b (fun _ => zi1) Ha Hb) as H1. rewrite E in H1.
    specialize (H (fun _ => zi1) (repeat false n) (repeat_length _ _)).
    specialize (H1 (repeat false n) (repeat_length _ _)).
    unfold vscale in H, H1. rewrite H1 in H.
    set (w := papply (denote b) (papply (denote a) (fun _ => zi1)) (repeat false n)) in *.
    assert (W : ziabs2 w = 1%Z).
    { subst w. rewrite (papply_papply n) by (auto; apply repeat_length).
      rewrite !ziabs2_mul, !fac_abs, !sgn_abs. reflexivity. }
    destruct w as [wr wi]. unfold zimul, sgn, ziopp, zi1 in H. cbn [re im] in H.
    pose proof (f_equal re H) as E1; pose proof (f_equal im H) as E2; cbn [re im] in E1, E2. assert (wr = 0)%Z by lia. assert (wi = 0)%Z by lia.
    subst. discriminate W.
  - intros E v. pose proof (papply_swap n a b v Ha Hb) as H1. rewrite E in H1. exact H1.
Qed.

(** ** multiply *)
(** Sign bit computed by multiply for two rows. *)
Definition mulrow (a b : row) : row :=
  mkRow (xor_ops (ops a) (ops b))
        (xorb (xorb (neg a) (neg b)) (2 <=? phase_exponent (ops a) (ops b) mod 4)%Z).

Lemma b2z_sgn s : mkZi (1 - 2 * b2z s) 0 = sgn s.
Proof. destruct s; reflexivity. Qed.

Lemma sign_of_ipow k s : sign_of_phase (zimul (zimul zi1 (ipow k)) (sgn s)) =
  Ok (xorb s (2 <=? k mod 4)%Z).
Proof.
  unfold ipow. destruct (mod4_cases k) as [->|[->|[->| ->]]], s; reflexivity.
Qed.

Lemma multiply_pair a b : length (ops a) = length (ops b) ->
  multiply [a; b] = Ok (mulrow a b,
     zimul (ipow (phase_exponent (ops a) (ops b))) (sgn (xorb (neg a) (neg b)))).
Proof.
  intros H. unfold multiply. cbn [rev app]. cbn [multiply_chain]. unfold multiply2.
  rewrite H, Nat.eqb_refl. cbn [negb]. rewrite b2z_sgn, sign_of_ipow. cbn [bindR fst snd].
  unfold mulrow. f_equal. f_equal.
  replace (zimul zi1 (ipow (phase_exponent (ops a) (ops b)))) with (ipow (phase_exponent (ops a) (ops b))) by ring.
  auto.
Qed.

Lemma phase_parity a : forall b, length a = length b ->
  (phase_exponent a b mod 2 = b2z (symp a b))%Z.
Proof.
  induction a as [|[x1 z1] a IH]; intros [|[x2 z2] b]; intros H; try (simpl in *; lia); try reflexivity.
  cbn [phase_exponent symp]. specialize (IH b). set (P := phase_exponent a b) in *.
  set (S := symp a b) in *. simpl in H.
  assert (IH' : (P mod 2 = b2z S)%Z) by (apply IH; lia). clearbody P S. clear IH H.
  destruct x1, z1, x2, z2, S; cbn [g_phase b2z andb xorb] in *; lia.
Qed.

(** The true product equals [i^(anti)] times the row computed by multiply. *)
Lemma mulrow_product n a b v : length (ops a) = n -> length (ops b) = n ->
  veq n (papply (denote a) (papply (denote b) v))
        (vscale (if symp (ops a) (ops b) then zii else zi1) (papply (denote (mulrow a b)) v)).
Proof.
  intros Ha Hb x Hx. rewrite (papply_papply n) by auto. unfold vscale.
  rewrite papply_closed by (unfold mulrow; cbn [ops]; rewrite length_xor_ops; lia).
  rewrite fac_mul by lia. unfold mulrow; cbn [ops neg].
  pose proof (phase_parity (ops a) (ops b) ltac:(lia)) as HP.
  set (k := phase_exponent _ _) in *.
  assert (E : zimul (zimul (sgn (neg a)) (sgn (neg b))) (ipow k) =
              zimul (if symp (ops a) (ops b) then zii else zi1)
                    (sgn (xorb (xorb (neg a) (neg b)) (2 <=? k mod 4)%Z))).
  { unfold ipow.
    destruct (mod4_cases k) as [E|[E|[E|E]]]; rewrite E;
      destruct (symp (ops a) (ops b)); cbn [b2z] in HP; try lia;
      destruct (neg a), (neg b); reflexivity. }
  transitivity (zimul (zimul (zimul (sgn (neg a)) (sgn (neg b))) (ipow k))
    (zimul (fac (xor_ops (ops a) (ops b)) x) (v (flipx (xor_ops (ops a) (ops b)) x)))). ring.
  rewrite E. ring.
Qed.

Lemma length_mulrow a b : length (ops a) = length (ops b) -> length (ops (mulrow a b)) = length (ops a).
Proof. intros. unfold mulrow; simpl. apply length_xor_ops; auto. Qed.

(** The phase returned by multiply is the exact phase of the product. *)
Lemma multiply_phase_exact n a b v r ph : length (ops a) = n -> length (ops b) = n ->
  multiply [a; b] = Ok (r, ph) ->
  veq n (papply (denote a) (papply (denote b) v)) (vscale ph (ptensor (map p1 (ops r)) v)).
Proof.
  intros Ha Hb. rewrite multiply_pair by lia. intros [= <- <-].
  intros x Hx. rewrite (papply_papply n) by auto. unfold vscale.
  rewrite ptensor_closed by (unfold mulrow; cbn [ops]; rewrite length_xor_ops; lia).
  rewrite fac_mul by lia. unfold mulrow; cbn [ops]. rewrite sgn_mul. ring.
Qed.

(** * Inner products and norms *)
Lemma zisum_app l l' : zisum (l ++ l') = ziadd (zisum l) (zisum l').
Proof. induction l; simpl; [ring|]. rewrite IHl. ring. Qed.
Lemma zsum_app l l' : zsum (l ++ l') = (zsum l + zsum l')%Z.
Proof. induction l; simpl; auto. rewrite IHl. ring. Qed.

Lemma labels_length n : forall a, In a (labels n) -> length a = n.
Proof.
  induction n; simpl; intros a H.
  - destruct H as [<-|[]]; auto.
  - apply in_app_iff in H. destruct H as [H|H]; apply in_map_iff in H; destruct H as [b [<- Hb]];
      simpl; f_equal; auto.
Qed.

Lemma labels_all n : forall a, length a = n -> In a (labels n).
Proof.
  induction n; intros [|x a] H; simpl in *; try lia; auto.
  apply in_app_iff. destruct x; [right|left]; apply in_map; apply IHn; lia.
Qed.

Lemma labels_count n : length (labels n) = 2 ^ n.
Proof. induction n; simpl; auto. rewrite app_length, !map_length, IHn. lia. Qed.

Lemma inner_S n v w : inner (S n) v w =
  ziadd (inner n (fun l => v (false :: l)) (fun l => w (false :: l)))
        (inner n (fun l => v (true :: l)) (fun l => w (true :: l))).
Proof. unfold inner. cbn [labels]. rewrite map_app, zisum_app, !map_map. auto. Qed.

Lemma inner_ext n v v' w w' : veq n v v' -> veq n w w' -> inner n v w = inner n v' w'.
Proof.
  intros H1 H2. unfold inner. f_equal. apply map_ext_in. intros a Ha.
  apply labels_length in Ha. rewrite H1, H2; auto.
Qed.

Lemma norm2_ext n v w : veq n v w -> norm2 n v = norm2 n w.
Proof.
  intros H. unfold norm2. f_equal. apply map_ext_in. intros a Ha.
  apply labels_length in Ha. rewrite H; auto.
Qed.

Lemma inner_norm2 n v : inner n v v = mkZi (norm2 n v) 0.
Proof.
  unfold inner, norm2. induction (labels n); simpl; auto.
  rewrite IHl. apply Zi_eq; unfold ziabs2; simpl; ring.
Qed.

Lemma inner_add_l n u v w : inner n (vadd u v) w = ziadd (inner n u w) (inner n v w).
Proof.
  unfold inner, vadd. induction (labels n); simpl; [ring|]. rewrite IHl, ziconj_add. ring.
Qed.
Lemma inner_add_r n u v w : inner n u (vadd v w) = ziadd (inner n u v) (inner n u w).
Proof.
  unfold inner, vadd. induction (labels n); simpl; [ring|]. rewrite IHl. ring.
Qed.
Lemma inner_scale_l n c v w : inner n (vscale c v) w = zimul (ziconj c) (inner n v w).
Proof.
  unfold inner, vscale. induction (labels n); simpl; [ring|]. rewrite IHl, ziconj_mul. ring.
Qed.
Lemma inner_scale_r n c v w : inner n v (vscale c w) = zimul c (inner n v w).
Proof.
  unfold inner, vscale. induction (labels n); simpl; [ring|]. rewrite IHl. ring.
Qed.
Lemma inner_conj n v w : ziconj (inner n v w) = inner n w v.
Proof.
  unfold inner. induction (labels n); simpl; auto. rewrite ziconj_add, IHl, ziconj_mul, ziconj_conj. ring.
Qed.

Lemma ptensor_hermitian o : forall v w, inner (length o) (ptensor (map p1 o) v) w =
                                       inner (length o) v (ptensor (map p1 o) w).
Proof.
  induction o as [|p o IH]; intros v w. reflexivity.
  cbn [length map ptensor]. rewrite !inner_S.
  set (T := ptensor (map p1 o)) in *.
  set (v0 := fun l => v (false :: l)). set (v1 := fun l => v (true :: l)).
  set (w0 := fun l => w (false :: l)). set (w1 := fun l => w (true :: l)).
  change (ziadd
     (inner (length o) (vadd (vscale (mP (p1 p) false false) (T v0)) (vscale (mP (p1 p) false true) (T v1))) w0)
     (inner (length o) (vadd (vscale (mP (p1 p) true false) (T v0)) (vscale (mP (p1 p) true true) (T v1))) w1) =
    ziadd
     (inner (length o) v0 (vadd (vscale (mP (p1 p) false false) (T w0)) (vscale (mP (p1 p) false true) (T w1))))
     (inner (length o) v1 (vadd (vscale (mP (p1 p) true false) (T w0)) (vscale (mP (p1 p) true true) (T w1))))).
  rewrite !inner_add_l, !inner_add_r, !inner_scale_l, !inner_scale_r. rewrite !IH.
  destruct p as [[] []]; simpl; unfold mI, mX, mY, mZ; simpl;
    apply Zi_eq; simpl; ring.
Qed.

Lemma papply_hermitian n r v w : length (ops r) = n ->
  inner n (papply (denote r) v) w = inner n v (papply (denote r) w).
Proof.
  intros <-. unfold papply, denote; cbn [fst snd].
  rewrite inner_scale_l, inner_scale_r, ptensor_hermitian. destruct (neg r); simpl; apply Zi_eq; simpl; ring.
Qed.

Lemma veq_refl n v : veq n v v.  Proof. intros a _; auto. Qed.
Lemma veq_sym n v w : veq n v w -> veq n w v.  Proof. intros H a Ha; rewrite H; auto. Qed.
Lemma veq_trans n u v w : veq n u v -> veq n v w -> veq n u w.
Proof. intros H1 H2 a Ha; rewrite H1, H2; auto. Qed.

Lemma vscale_ext n c v w : veq n v w -> veq n (vscale c v) (vscale c w).
Proof. intros H a Ha. unfold vscale. rewrite H; auto. Qed.
Lemma vadd_ext n v v' w w' : veq n v v' -> veq n w w' -> veq n (vadd v w) (vadd v' w').
Proof. intros H1 H2 a Ha. unfold vadd. rewrite H1, H2; auto. Qed.

Lemma papply_ext n r v w : length (ops r) = n -> veq n v w ->
  veq n (papply (denote r) v) (papply (denote r) w).
Proof.
  intros Hr H a Ha. rewrite !papply_closed by lia. rewrite H; auto. rewrite length_flipx; lia.
Qed.

Lemma papply_scale n r c v : length (ops r) = n ->
  veq n (papply (denote r) (vscale c v)) (vscale c (papply (denote r) v)).
Proof. intros Hr a Ha. unfold vscale at 2. rewrite !papply_closed by lia. unfold vscale. ring. Qed.

Lemma papply_add n r v w : length (ops r) = n ->
  veq n (papply (denote r) (vadd v w)) (vadd (papply (denote r) v) (papply (denote r) w)).
Proof. intros Hr a Ha. unfold vadd at 2. rewrite !papply_closed by lia. unfold vadd. ring. Qed.

Lemma fac_id n : forall a, fac (repeat pid n) a = zi1.
Proof. induction n; intros [|x a]; simpl; auto. rewrite IHn. destruct x; reflexivity. Qed.
Lemma flipx_id n : forall a, length a = n -> flipx (repeat pid n) a = a.
Proof. induction n; intros [|x a]; simpl; intros; auto; try lia. rewrite IHn by lia. rewrite xorb_false_r; auto. Qed.

Lemma papply_id n s v : veq n (papply (denote (mkRow (repeat pid n) s)) v) (vscale (sgn s) v).
Proof.
  intros a Ha. rewrite papply_closed by (cbn [ops]; rewrite repeat_length; lia). cbn [ops neg].
  rewrite fac_id, flipx_id by auto. unfold vscale. ring.
Qed.

Lemma phase_exponent_self a : (phase_exponent a a = 0)%Z.
Proof. induction a as [|[[] []] a IH]; cbn [phase_exponent]; auto; rewrite IH; reflexivity. Qed.

Lemma papply_invol n r v : length (ops r) = n ->
  veq n (papply (denote r) (papply (denote r) v)) v.
Proof.
  intros Hr. eapply veq_trans. apply mulrow_product; auto.
  rewrite symp_self. unfold mulrow. rewrite phase_exponent_self, xor_ops_self, Hr, xorb_nilpotent.
  change (xorb false (2 <=? 0 mod 4)%Z) with false.
  eapply veq_trans. apply vscale_ext, papply_id. intros a Ha. unfold vscale; simpl. ring.
Qed.

Lemma norm2_papply n r v : length (ops r) = n -> norm2 n (papply (denote r) v) = norm2 n v.
Proof.
  intros Hr. assert (inner n (papply (denote r) v) (papply (denote r) v) = inner n v v).
  { rewrite papply_hermitian by auto. apply inner_ext. apply veq_refl. apply papply_invol; auto. }
  rewrite !inner_norm2 in H. injection H; auto.
Qed.

(** Born weight of a random outcome: if some stabiliser of v anticommutes with P then both
    projections have squared norm 2 |v|^2, i.e. probability 1/2 each. *)
Lemma project_norm n S P m v : length (ops S) = n -> length (ops P) = n ->
  symp (ops S) (ops P) = true -> stabilises n (denote S) v ->
  (norm2 n (project (denote P) m v) = 2 * norm2 n v)%Z.
Proof.
  intros HS HP Hsp Hst.
  assert (HZ : inner n v (papply (denote P) v) = zi0).
  { assert (E : inner n v (papply (denote P) v) = ziopp (inner n v (papply (denote P) v))).
    { transitivity (inner n (papply (denote S) v) (papply (denote P) v)).
      { apply inner_ext. apply veq_sym; auto. apply veq_refl. }
      rewrite papply_hermitian by auto.
      rewrite (inner_ext n v v _ (vscale (ziopp zi1) (papply (denote P) v))).
      - rewrite inner_scale_r. ring.
      - apply veq_refl.
      - eapply veq_trans. apply (papply_swap n); auto. rewrite Hsp. cbn [sgn].
        apply vscale_ext. apply papply_ext; auto. }
    destruct (inner n v (papply (denote P) v)) as [x y]. pose proof (f_equal re E) as E1; pose proof (f_equal im E) as E2. unfold ziopp in *. cbn [re im] in E1, E2.
    apply Zi_eq; simpl; lia. }
  assert (E : inner n (project (denote P) m v) (project (denote P) m v) = mkZi (2 * norm2 n v) 0).
  { unfold project. rewrite !inner_add_l, !inner_add_r, !inner_scale_l, !inner_scale_r.
    rewrite (inner_norm2 n v), (inner_norm2 n (papply _ _)), norm2_papply by auto.
    rewrite HZ. rewrite papply_hermitian, HZ by auto.
    destruct m; apply Zi_eq; unfold sgn, ziconj, ziadd, zimul, ziopp, zi1, zi0; cbn [re im]; ring. }
  rewrite inner_norm2 in E. injection E; auto.
Qed.
