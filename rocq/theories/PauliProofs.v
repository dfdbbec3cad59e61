(** Lemmas: closed form of Pauli action, gates, products, commutation. *)
Require Import List Bool Arith ZArith Lia Ring Setoid.
From Verif Require Import Base BaseProofs QSpec PauliModel PauliSem.
Import ListNotations.

(** * Gaussian integers form a ring *)
Lemma Zi_eq a b : re a = re b -> im a = im b -> a = b.
Proof. destruct a, b; simpl; intros; subst; auto. Qed.

Lemma Zi_ring : ring_theory zi0 zi1 ziadd zimul zisub ziopp (@eq Zi).
Proof.
  constructor; intros; try apply Zi_eq; try reflexivity;
    unfold zisub, ziadd, zimul, ziopp; cbn [re im zi0 zi1]; ring.
Qed.
Add Ring ZiRing : Zi_ring.

Lemma ziconj_mul a b : ziconj (zimul a b) = zimul (ziconj a) (ziconj b).
Proof. apply Zi_eq; simpl; ring. Qed.
Lemma ziconj_add a b : ziconj (ziadd a b) = ziadd (ziconj a) (ziconj b).
Proof. apply Zi_eq; simpl; ring. Qed.
Lemma ziconj_conj a : ziconj (ziconj a) = a.
Proof. apply Zi_eq; simpl; ring. Qed.

Lemma sgn_mul a b : zimul (sgn a) (sgn b) = sgn (xorb a b).
Proof. destruct a, b; reflexivity. Qed.
Lemma sgn_sq a : zimul (sgn a) (sgn a) = zi1.
Proof. destruct a; reflexivity. Qed.

(** * Closed form *)
Definition pid : bool * bool := (false, false).

Definition ent (p : bool * bool) (a : bool) : Zi := mP (p1 p) a (xorb a (fst p)).

Fixpoint fac (o : list (bool * bool)) (a : list bool) : Zi :=
  match o, a with
  | p :: o', x :: a' => zimul (ent p x) (fac o' a')
  | _, _ => zi1
  end.

Fixpoint flipx (o : list (bool * bool)) (a : list bool) : list bool :=
  match o, a with
  | p :: o', x :: a' => xorb x (fst p) :: flipx o' a'
  | _, _ => []
  end.

Lemma length_flipx o a : length o = length a -> length (flipx o a) = length a.
Proof. revert a; induction o; intros [|x a']; simpl; intros; auto; try lia. Qed.

Lemma ptensor_closed o : forall v a, length a = length o ->
  ptensor (map p1 o) v a = zimul (fac o a) (v (flipx o a)).
Proof.
  induction o as [|p o IH]; intros v [|x a] Hl; simpl in *; try lia.
  - ring.
  - rewrite !IH by lia.
    destruct p as [[] []], x; unfold ent; simpl; unfold mI, mX, mZ, mY; simpl;
      try ring.
Qed.

Lemma papply_closed r v a : length a = length (ops r) ->
  papply (denote r) v a = zimul (zimul (sgn (neg r)) (fac (ops r) a)) (v (flipx (ops r) a)).
Proof.
  intros. unfold papply, denote, vscale; simpl. rewrite ptensor_closed by auto. ring.
Qed.

Lemma fac_split q : forall o a, q < length o -> length a = length o ->
  fac o a = zimul (ent (nth q o pid) (nth q a false)) (fac (upd q pid o) a).
Proof.
  induction q; intros [|p o] [|x a] Hq Hl; simpl in *; try lia.
  - unfold ent at 3. simpl. destruct x; unfold mI; simpl; ring.
  - rewrite (IHq o a) by lia. ring.
Qed.

Lemma fac_irrel q b : forall o a,
  fac (upd q pid o) (upd q b a) = fac (upd q pid o) a.
Proof.
  induction q; intros [|p o] [|x a]; simpl; auto.
  - destruct x, b; reflexivity.
  - rewrite IHq; auto.
Qed.

Lemma flipx_upd_a q b : forall o a, q < length o -> length a = length o ->
  flipx o (upd q b a) = upd q (xorb b (fst (nth q o pid))) (flipx o a).
Proof.
  induction q; intros [|p o] [|x a] Hq Hl; simpl in *; try lia; auto.
  rewrite IHq by lia; auto.
Qed.

Lemma flipx_upd_o q p : forall o a, q < length o -> length a = length o ->
  flipx (upd q p o) a = upd q (xorb (nth q a false) (fst p)) (flipx o a).
Proof.
  induction q; intros [|p' o] [|x a] Hq Hl; simpl in *; try lia; auto.
  rewrite IHq by lia; auto.
Qed.

Lemma nth_flipx q : forall o a, length a = length o -> q < length o ->
  nth q (flipx o a) false = xorb (nth q a false) (fst (nth q o pid)).
Proof.
  induction q; intros [|p' o] [|x a] Hl Hq; simpl in *; try lia; auto.
  apply IHq; lia.
Qed.

Lemma upd_flip_pid q : forall o a, q < length o -> length a = length o ->
  upd q (nth q a false) (flipx o a) = flipx (upd q pid o) a.
Proof. intros. rewrite flipx_upd_o by auto. simpl. rewrite xorb_false_r. auto. Qed.

(** * One-qubit gates *)
Ltac upd_norm :=
  repeat first
    [ rewrite length_upd
    | rewrite upd_upd_same
    | rewrite nth_upd_same by (rewrite ?length_upd, ?length_flipx; rewrite ?length_upd; lia) ].

(** A generic intertwining criterion for a one-qubit matrix and a row update. *)
Lemma apply1_intertwine (m : mat2) (q : nat) (r : row) (p' : bool * bool) (s' : bool) n v :
  length (ops r) = n -> q < n ->
  let p := nth q (ops r) pid in
  (forall a b, zimul (zimul (sgn (neg r)) (m a (xorb b (fst p)))) (ent p (xorb b (fst p))) =
               zimul (zimul (sgn s') (ent p' a)) (m (xorb a (fst p')) b)) ->
  veq n (apply1 m q (papply (denote r) v))
        (papply (denote (mkRow (upd q p' (ops r)) s')) (apply1 m q v)).
Proof.
  intros Hn Hq p H a Ha. unfold apply1.
  rewrite !papply_closed by (cbn [ops]; rewrite ?length_upd; lia). cbn [ops neg].
  rewrite !flipx_upd_a, !flipx_upd_o by lia.
  rewrite nth_upd_same by (rewrite length_flipx; lia).
  rewrite !upd_upd_same.
  rewrite (fac_split q (ops r) (upd q false a)) by (rewrite ?length_upd; lia).
  rewrite (fac_split q (ops r) (upd q true a)) by (rewrite ?length_upd; lia).
  rewrite (fac_split q (upd q p' (ops r)) a) by (rewrite ?length_upd; lia).
  rewrite !fac_irrel, upd_upd_same. rewrite !nth_upd_same by lia.
  fold p. set (F := fac _ a). set (x := nth q a false).
  pose proof (H x false) as H0. pose proof (H x true) as H1.
  set (v0 := v (upd q false (flipx (ops r) a))) in *.
  set (v1 := v (upd q true (flipx (ops r) a))) in *.
  destruct p as [[] z]; cbn [fst xorb] in *;
    change (xorb false true) with true in *; change (xorb true true) with false in *;
    change (xorb false false) with false in *; change (xorb true false) with true in *;
    fold v0 v1.
  - transitivity (zimul F (ziadd
      (zimul (zimul (zimul (sgn (neg r)) (m x true)) (ent (true, z) true)) v0)
      (zimul (zimul (zimul (sgn (neg r)) (m x false)) (ent (true, z) false)) v1))).
    ring. rewrite H0, H1. ring.
  - transitivity (zimul F (ziadd
      (zimul (zimul (zimul (sgn (neg r)) (m x false)) (ent (false, z) false)) v0)
      (zimul (zimul (zimul (sgn (neg r)) (m x true)) (ent (false, z) true)) v1))).
    ring. rewrite H0, H1. ring.
Qed.

Lemma getxz q o : nth q o pid = (getx q o, getz q o).
Proof. unfold getx, getz, pid. destruct (nth q o (false,false)); auto. Qed.

Ltac solve1 r q :=
  rewrite getxz; destruct (getx q (ops r)), (getz q (ops r)), (neg r);
  intros [] []; reflexivity.

Lemma h_conj n q r v : length (ops r) = n -> q < n ->
  veq n (apply1 mH q (papply (denote r) v)) (papply (denote (h_row q r)) (apply1 mH q v)).
Proof.
  intros Hn Hq. apply apply1_intertwine; auto. solve1 r q.
Qed.

Lemma s_conj n q r v : length (ops r) = n -> q < n ->
  veq n (apply1 mS q (papply (denote r) v)) (papply (denote (s_row q r)) (apply1 mS q v)).
Proof.
  intros Hn Hq. apply apply1_intertwine; auto. solve1 r q.
Qed.

Lemma mkrow_same q r s : mkRow (ops r) s = mkRow (upd q (nth q (ops r) pid) (ops r)) s.
Proof. rewrite upd_nth. auto. Qed.

Lemma x_conj n q r v : length (ops r) = n -> q < n ->
  veq n (apply1 mX q (papply (denote r) v)) (papply (denote (x_row q r)) (apply1 mX q v)).
Proof.
  intros Hn Hq. unfold x_row. rewrite (mkrow_same q). apply apply1_intertwine; auto. solve1 r q.
Qed.

Lemma z_conj n q r v : length (ops r) = n -> q < n ->
  veq n (apply1 mZ q (papply (denote r) v)) (papply (denote (z_row q r)) (apply1 mZ q v)).
Proof.
  intros Hn Hq. unfold z_row. rewrite (mkrow_same q). apply apply1_intertwine; auto. solve1 r q.
Qed.

Lemma y_conj n q r v : length (ops r) = n -> q < n ->
  veq n (apply1 mY q (papply (denote r) v))
        (papply (denote (z_row q (x_row q r))) (apply1 mY q v)).
Proof.
  intros Hn Hq. unfold z_row, x_row. cbn [ops neg].
  rewrite (mkrow_same q). apply apply1_intertwine; auto. solve1 r q.
Qed.

(** * Two-qubit gates *)
Lemma apply2_intertwine (m : mat4) (c t : nat) (r : row) (pc' pt' : bool * bool) (s' : bool) n v :
  length (ops r) = n -> c < n -> t < n -> c <> t ->
  let pc := nth c (ops r) pid in
  let pt := nth t (ops r) pid in
  (forall x y i j,
     zimul (zimul (sgn (neg r)) (m x y (xorb i (fst pc)) (xorb j (fst pt))))
           (zimul (ent pc (xorb i (fst pc))) (ent pt (xorb j (fst pt)))) =
     zimul (zimul (sgn s') (zimul (ent pc' x) (ent pt' y)))
           (m (xorb x (fst pc')) (xorb y (fst pt')) i j)) ->
  veq n (apply2 m c t (papply (denote r) v))
        (papply (denote (mkRow (upd c pc' (upd t pt' (ops r))) s')) (apply2 m c t v)).
Proof.
  intros Hn Hc Ht Hct pc pt H a Ha. unfold apply2.
  rewrite !papply_closed by (cbn [ops]; rewrite ?length_upd; lia). cbn [ops neg].
  assert (Lf : length (flipx (ops r) a) = n) by (rewrite length_flipx; lia).
  assert (E : forall i j, flipx (ops r) (upd t j (upd c i a)) =
                upd t (xorb j (fst pt)) (upd c (xorb i (fst pc)) (flipx (ops r) a))).
  { intros. rewrite !flipx_upd_a by (rewrite ?length_upd; lia). auto. }
  rewrite !E. clear E.
  rewrite (flipx_upd_o c pc') by (rewrite ?length_upd; lia).
  rewrite (flipx_upd_o t pt') by (rewrite ?length_upd; lia).
  assert (Fs : forall i j, fac (ops r) (upd t j (upd c i a)) =
     zimul (zimul (ent pc i) (ent pt j)) (fac (upd t pid (upd c pid (ops r))) a)).
  { intros. rewrite (fac_split c) by (rewrite ?length_upd; lia).
    rewrite (nth_upd_other t c) by auto. rewrite nth_upd_same by lia.
    rewrite (fac_split t) by (rewrite ?length_upd; lia).
    rewrite (nth_upd_other c t) by auto. rewrite nth_upd_same by (rewrite length_upd; lia).
    fold pc pt. rewrite fac_irrel. rewrite (upd_upd_comm t c) by auto. rewrite fac_irrel. ring. }
  rewrite !Fs. clear Fs.
  assert (Fs : fac (upd c pc' (upd t pt' (ops r))) a =
     zimul (zimul (ent pc' (nth c a false)) (ent pt' (nth t a false))) (fac (upd t pid (upd c pid (ops r))) a)).
  { rewrite (fac_split c) by (rewrite ?length_upd; lia).
    rewrite nth_upd_same by (rewrite ?length_upd; lia). rewrite upd_upd_same.
    rewrite (fac_split t) by (rewrite ?length_upd; lia).
    rewrite (nth_upd_other c t) by auto. rewrite nth_upd_same by lia.
    rewrite (upd_upd_comm c t) by auto. rewrite (upd_upd_comm t c) by auto.
    rewrite (upd_upd_comm c t pid pt') by auto. rewrite upd_upd_same. ring. }
  rewrite Fs. clear Fs.
  set (x := nth c a false) in *. set (y := nth t a false) in *.
  rewrite nth_upd_same by (rewrite length_upd; lia).
  rewrite (nth_upd_other c t) by auto. rewrite nth_upd_same by lia.
  assert (U : forall i j, upd t j (upd c i (upd c (xorb x (fst pc'))
                (upd t (xorb y (fst pt')) (flipx (ops r) a)))) =
              upd t j (upd c i (flipx (ops r) a))).
  { intros. rewrite upd_upd_same. rewrite (upd_upd_comm t c) by auto.
    rewrite upd_upd_same. rewrite (upd_upd_comm c t) by auto. auto. }
  rewrite !U. clear U.
  set (F := fac _ a).
  set (w := fun i j => v (upd t j (upd c i (flipx (ops r) a)))).
  repeat match goal with |- context [v (upd t ?j (upd c ?i (flipx (ops r) a)))] =>
    change (v (upd t j (upd c i (flipx (ops r) a)))) with (w i j) end.
  set (L := fun i j => zimul (zimul (sgn (neg r)) (m x y (xorb i (fst pc)) (xorb j (fst pt))))
           (zimul (ent pc (xorb i (fst pc))) (ent pt (xorb j (fst pt))))).
  transitivity (zimul F (ziadd (ziadd (zimul (L false false) (w false false)) (zimul (L false true) (w false true)))
                               (ziadd (zimul (L true false) (w true false)) (zimul (L true true) (w true true))))).
  { subst L. cbv beta.
    destruct pc as [[] zc], pt as [[] zt]; cbn [fst xorb];
    change (xorb false true) with true; change (xorb true true) with false;
    change (xorb false false) with false; change (xorb true false) with true; ring. }
  subst L. cbv beta. rewrite !H. fold x y. ring.
Qed.

Lemma cx_row_ops c t r : c < length (ops r) -> t < length (ops r) -> c <> t ->
  let o := ops r in
  cx_row c t r =
  mkRow (upd c (getx c o, xorb (getz c o) (getz t o)) (upd t (xorb (getx t o) (getx c o), getz t o) o))
        (xorb (neg r) (getx c o && getz t o && xorb (xorb (getx t o) (getz c o)) true)).
Proof.
  intros Hc Ht Hct o. subst o. unfold cx_row. f_equal. unfold setz, setx.
  unfold getx, getz. rewrite !(nth_upd_other t c) by auto. rewrite !nth_upd_same by lia. auto.
Qed.

Lemma cz_row_ops c t r : c < length (ops r) -> t < length (ops r) -> c <> t ->
  let o := ops r in
  cz_row c t r =
  mkRow (upd c (getx c o, xorb (getz c o) (getx t o)) (upd t (getx t o, xorb (getz t o) (getx c o)) o))
        (xorb (neg r) (getx c o && getx t o && xorb (getz t o) (getz c o))).
Proof.
  intros Hc Ht Hct o. subst o. unfold cz_row. f_equal. unfold setz, setx.
  unfold getx, getz. rewrite !(nth_upd_other t c) by auto. rewrite !nth_upd_same by lia. auto.
Qed.

Lemma cx_conj n c t r v : length (ops r) = n -> c < n -> t < n -> c <> t ->
  veq n (apply2 mCX c t (papply (denote r) v)) (papply (denote (cx_row c t r)) (apply2 mCX c t v)).
Proof.
  intros Hn Hc Ht Hct. rewrite cx_row_ops by lia. apply apply2_intertwine; auto.
  rewrite !getxz.
  destruct (getx c (ops r)), (getz c (ops r)), (getx t (ops r)), (getz t (ops r)), (neg r);
    intros [] [] [] []; reflexivity.
Qed.

Lemma cz_conj n c t r v : length (ops r) = n -> c < n -> t < n -> c <> t ->
  veq n (apply2 mCZ c t (papply (denote r) v)) (papply (denote (cz_row c t r)) (apply2 mCZ c t v)).
Proof.
  intros Hn Hc Ht Hct. rewrite cz_row_ops by lia. apply apply2_intertwine; auto.
  rewrite !getxz.
  destruct (getx c (ops r)), (getz c (ops r)), (getx t (ops r)), (getz t (ops r)), (neg r);
    intros [] [] [] []; reflexivity.
Qed.
