(** Lemmas: syntactic form of tableau validity, non-degeneracy, gates. *)
Require Import List Bool Arith ZArith Lia Ring FinFun.
From Verif Require Import Base BaseProofs QSpec PauliModel PauliSem PauliProofs PauliAlg.
Import ListNotations.

Notation "t @@ i" := (nth i t row0) (at level 9, i at level 8, format "t @@ i").

Definition wf (n : nat) (t : tableau) : Prop :=
  length t = 2 * n /\
  (forall i, i < 2 * n -> length (ops (t@@i)) = n) /\
  forall i j, i < 2 * n -> j < 2 * n -> symp (ops (t@@i)) (ops (t@@j)) = conj_rows n i j.

Lemma valid_wf n t : valid n t <-> wf n t.
Proof.
  split.
  - intros (L & F & C).
    assert (F' : forall i, i < 2 * n -> length (ops (t@@i)) = n).
    { rewrite Forall_forall in F. intros i Hi. apply F, nth_In; lia. }
    split; [auto|split; [auto|]]. intros i j Hi Hj. specialize (C i j Hi Hj).
    destruct (conj_rows n i j).
    + apply anticommute_iff in C; auto.
    + apply commute_iff in C; auto.
  - intros (L & F & C). split; [auto|split].
    + apply Forall_forall. intros r Hr. apply (In_nth _ _ row0) in Hr.
      destruct Hr as (i & Hi & <-). apply F; lia.
    + intros i j Hi Hj. specialize (C i j Hi Hj). destruct (conj_rows n i j).
      * apply anticommute_iff; auto.
      * apply commute_iff; auto.
Qed.

Lemma describes_iff n t v : length t = 2 * n ->
  (describes n t v <-> forall i, n <= i < 2 * n -> stabilises n (denote (t@@i)) v).
Proof.
  intros L. unfold describes, stab_rows. rewrite Forall_forall. split.
  - intros H i Hi. apply H.
    replace (t@@i) with (nth (i - n) (skipn n t) row0).
    + apply nth_In. rewrite skipn_length. lia.
    + rewrite <- (firstn_skipn n t) at 2. rewrite app_nth2; rewrite firstn_length_le by lia; auto; lia.
  - intros H r Hr. apply (In_nth _ _ row0) in Hr. destruct Hr as (i & Hi & <-).
    rewrite skipn_length in Hi.
    replace (nth i (skipn n t) row0) with (t@@(n + i)).
    + apply H; lia.
    + rewrite <- (firstn_skipn n t) at 1.
      rewrite app_nth2; rewrite firstn_length_le by lia; try lia. f_equal; lia.
Qed.

Lemma wf_nqubits n t : wf n t -> 0 < n -> nqubits t = n.
Proof.
  intros (L & F & _) Hn. destruct t as [|r t]; simpl in *. lia. apply (F 0). lia.
Qed.

(** * Non-degeneracy *)
Fixpoint lincomb (n : nat) (c : list bool) (rs : list (list (bool * bool))) : list (bool * bool) :=
  match c, rs with
  | b :: c', r :: rs' => if b then xor_ops r (lincomb n c' rs') else lincomb n c' rs'
  | _, _ => repeat pid n
  end.

Lemma length_lincomb n c : forall rs, Forall (fun r => length r = n) rs -> length (lincomb n c rs) = n.
Proof.
  induction c as [|b c IH]; intros [|r rs] H; simpl; try apply repeat_length.
  inversion H; subst. destruct b; auto. rewrite length_xor_ops; auto. rewrite IH; auto.
Qed.

(** xor of [c_i && symp r_i w] *)
Fixpoint xsum (c : list bool) (f : list bool) : bool :=
  match c, f with
  | b :: c', x :: f' => xorb (b && x) (xsum c' f')
  | _, _ => false
  end.

Lemma symp_lincomb n c w : length w = n -> forall rs, Forall (fun r => length r = n) rs ->
  symp (lincomb n c rs) w = xsum c (map (fun r => symp r w) rs).
Proof.
  intros Hw. induction c as [|b c IH]; intros [|r rs] H; simpl; try apply symp_id_l.
  inversion H as [|? ? Hr Hrs]. destruct b; simpl.
  - rewrite symp_xor_l by (rewrite length_lincomb; auto; lia). rewrite IH; auto.
  - rewrite IH; auto. destruct (xsum _ _); auto.
Qed.

Lemma xsum_single c : forall f j, (forall i, nth i f false = (i =? j)) -> xsum c f = nth j c false && (j <? length f).
Proof.
  induction c as [|b c IH]; intros [|x f] j H; simpl.
  - destruct j; auto.
  - destruct j; auto.
  - specialize (H j). rewrite Nat.eqb_refl in H. destruct j; discriminate.
  - destruct j.
    + pose proof (H 0) as H0. simpl in H0. subst x. simpl.
      assert (E : forall c, xsum c f = false).
      { assert (Z : forall i, nth i f false = false) by (intros i; exact (H (S i))).
        clear - Z. induction f as [|x f IHf]; intros [|b c]; simpl; auto.
        pose proof (Z 0) as Z0; simpl in Z0; subst. rewrite andb_false_r, xorb_false_l.
        apply IHf. intros i; exact (Z (S i)). }
      rewrite E. destruct b; auto.
    + pose proof (H 0) as H0. simpl in H0. subst x. rewrite andb_false_r, xorb_false_l.
      rewrite (IH f j). reflexivity. intros i; exact (H (S i)).
Qed.

Fixpoint all_ops (n : nat) : list (list (bool * bool)) :=
  match n with
  | O => [[]]
  | S n' => flat_map (fun p => map (cons p) (all_ops n'))
              [(false,false); (false,true); (true,false); (true,true)]
  end.

Lemma all_ops_count n : length (all_ops n) = 2 ^ (2 * n).
Proof.
  induction n; auto. cbn [all_ops flat_map]. rewrite !app_length, !map_length, IHn.
  replace (2 * S n) with (S (S (2 * n))) by lia. simpl. lia.
Qed.

Lemma all_ops_in n : forall o, length o = n -> In o (all_ops n).
Proof.
  induction n; intros [|p o] H; simpl in *; try lia; auto.
  rewrite !in_app_iff. assert (I : In o (all_ops n)) by (apply IHn; lia).
  destruct p as [[] []]; [do 3 right; left|do 2 right; left|right; left|left]; apply in_map; auto.
Qed.

Lemma NoDup_app_intro {A} (l l' : list A) : NoDup l -> NoDup l' ->
  (forall a, In a l -> ~ In a l') -> NoDup (l ++ l').
Proof.
  induction l; simpl; intros H1 H2 H3; auto. inversion H1; subst. constructor.
  - rewrite in_app_iff. intros [H|H]; auto. apply (H3 a); auto.
  - apply IHl; auto.
Qed.

Lemma labels_NoDup n : NoDup (labels n).
Proof.
  induction n; simpl. repeat constructor; auto.
  assert (M : forall b, NoDup (map (cons b) (labels n))).
  { intros b. apply FinFun.Injective_map_NoDup; auto. intros x y E; injection E; auto. }
  apply NoDup_app_intro; auto. intros a Ha Hb. apply in_map_iff in Ha, Hb.
  destruct Ha as (x & <- & _), Hb as (y & E & _). discriminate.
Qed.

Definition partner (n j : nat) : nat := if j <? n then j + n else j - n.

Lemma conj_partner n i j : i < 2 * n -> j < 2 * n -> conj_rows n i j = (i =? partner n j).
Proof.
  intros. unfold conj_rows, partner.
  destruct (Nat.ltb_spec j n);
  destruct (Nat.eqb_spec (i + n) j), (Nat.eqb_spec (j + n) i); simpl;
    symmetry; try (apply Nat.eqb_eq; lia); apply Nat.eqb_neq; lia.
Qed.

Lemma partner_lt n j : j < 2 * n -> partner n j < 2 * n.
Proof. unfold partner. destruct (Nat.ltb_spec j n); lia. Qed.
Lemma partner_partner n j : j < 2 * n -> partner n (partner n j) = j.
Proof.
  unfold partner. intros. destruct (Nat.ltb_spec j n).
  - destruct (Nat.ltb_spec (j + n) n); lia.
  - destruct (Nat.ltb_spec (j - n) n); lia.
Qed.

Section Nondeg.
Variables (n : nat) (t : tableau).
Hypothesis W : wf n t.
Let rs := map ops t.

Local Lemma rs_len : Forall (fun r => length r = n) rs.
Proof.
  destruct W as (L & F & _). subst rs. apply Forall_forall. intros r Hr.
  apply in_map_iff in Hr. destruct Hr as (x & <- & Hx). apply (In_nth _ _ row0) in Hx.
  destruct Hx as (i & Hi & <-). apply F; lia.
Qed.

Local Lemma coeff c j : j < 2 * n -> symp (lincomb n c rs) (ops (t@@j)) = nth (partner n j) c false.
Proof.
  intros Hj. destruct W as (L & F & C). rewrite symp_lincomb; auto using rs_len.
  subst rs. rewrite map_map.
  rewrite (xsum_single c _ (partner n j)).
  - rewrite map_length, L. replace (partner n j <? 2 * n) with true. apply andb_true_r.
    symmetry; apply Nat.ltb_lt, partner_lt; auto.
  - intros i. destruct (Nat.lt_ge_cases i (2 * n)) as [Hi|Hi].
    + rewrite (nth_indep _ false ((fun x => symp (ops x) (ops (t@@j))) row0)) by (rewrite map_length; lia).
      rewrite (map_nth (fun x => symp (ops x) (ops (t@@j)))). rewrite C by auto. apply conj_partner; auto.
    + rewrite nth_overflow by (rewrite map_length; lia). symmetry. apply Nat.eqb_neq.
      pose proof (partner_lt n j Hj). lia.
Qed.

Lemma span w : length w = n -> exists c, length c = 2 * n /\ w = lincomb n c rs.
Proof.
  intros Hw.
  assert (I : incl (all_ops n) (map (fun c => lincomb n c rs) (labels (2 * n)))).
  { apply NoDup_length_incl.
    - assert (Inj : forall c c', In c (labels (2*n)) -> In c' (labels (2*n)) ->
          lincomb n c rs = lincomb n c' rs -> c = c').
      { intros c c' Hc Hc' E. apply labels_length in Hc, Hc'.
        apply (list_ext _ _ false). lia. intros i Hi.
        rewrite <- (partner_partner n i) by lia.
        rewrite <- !coeff by (apply partner_lt; lia). rewrite E; auto. }
      revert Inj. generalize (labels_NoDup (2 * n)). induction (labels (2 * n)) as [|c l IH]; simpl; intros ND Inj.
      constructor. inversion ND; subst. constructor.
      + intros Hin. apply in_map_iff in Hin. destruct Hin as (c' & E & Hc').
        apply H1. rewrite (Inj c c'); auto.
      + apply IH; auto.
    - rewrite all_ops_count, map_length, labels_count. lia.
    - intros o Ho. apply in_map_iff in Ho. destruct Ho as (c & <- & _).
      apply all_ops_in. apply length_lincomb, rs_len. }
  specialize (I w (all_ops_in n w Hw)). apply in_map_iff in I. destruct I as (c & <- & Hc).
  exists c. split; auto. apply labels_length; auto.
Qed.

Lemma lincomb_zero c : (forall i, nth i c false = false) -> forall l, lincomb n c l = repeat pid n.
Proof.
  induction c as [|b c IH]; intros H l; simpl; auto.
  destruct l; auto. pose proof (H 0); simpl in *; subst. apply IH. intros i; exact (H (S i)).
Qed.

Lemma nondegenerate w : length w = n ->
  (forall j, j < 2 * n -> symp w (ops (t@@j)) = false) -> w = repeat pid n.
Proof.
  intros Hw H. destruct (span w Hw) as (c & Hc & ->). apply lincomb_zero.
  intros i. destruct (Nat.lt_ge_cases i (2 * n)).
  - rewrite <- (partner_partner n i) by auto. rewrite <- coeff by (apply partner_lt; auto).
    apply H. apply partner_lt; auto.
  - apply nth_overflow. lia.
Qed.
End Nondeg.

(** * zero_state *)
Lemma length_zero_state n : length (zero_state n) = 2 * n.
Proof. unfold zero_state. rewrite app_length, !map_length, !seq_length. lia. Qed.

Lemma zero_state_row n i : i < 2 * n ->
  (zero_state n)@@i = if i <? n
    then mkRow (map (fun q => (q =? i, false)) (seq 0 n)) false
    else mkRow (map (fun q => (false, q =? i - n)) (seq 0 n)) false.
Proof.
  intros Hi. unfold zero_state.
  destruct (Nat.ltb_spec i n).
  - rewrite app_nth1 by (rewrite map_length, seq_length; lia). rewrite nth_map_seq by auto. auto.
  - rewrite app_nth2 by (rewrite map_length, seq_length; lia). rewrite map_length, seq_length.
    rewrite nth_map_seq by lia. auto.
Qed.

Lemma symp_map f g l : symp (map f l) (map g l) =
  fold_right xorb false (map (fun q : nat => xorb (fst (f q) && snd (g q)) (snd (f q) && fst (g q))) l).
Proof.
  induction l; simpl; auto. destruct (f a), (g a); simpl. rewrite IHl. auto.
Qed.

Lemma xor_seq_single i : forall n s, fold_right xorb false (map (fun q => q =? i) (seq s n)) = (s <=? i) && (i <? s + n).
Proof.
  induction n; intros s; cbn [seq map fold_right].
  - destruct (Nat.leb_spec s i), (Nat.ltb_spec i (s + 0)); auto; lia.
  - rewrite IHn. destruct (Nat.eqb_spec s i), (Nat.leb_spec s i), (Nat.leb_spec (S s) i),
      (Nat.ltb_spec i (S s + n)), (Nat.ltb_spec i (s + S n)); simpl; auto; lia.
Qed.

Lemma xor_false_map {A} (f : A -> bool) l : (forall a, f a = false) -> fold_right xorb false (map f l) = false.
Proof. intros H; induction l; simpl; auto. rewrite H, IHl; auto. Qed.

Lemma xor_seq_pair i j n : i < n -> fold_right xorb false (map (fun q => (q =? i) && (q =? j)) (seq 0 n)) = (i =? j).
Proof.
  intros Hi. destruct (Nat.eqb_spec i j).
  - subst. rewrite (map_ext _ (fun q => q =? j)) by (intros; apply andb_diag).
    rewrite xor_seq_single. destruct (Nat.ltb_spec j (0 + n)); auto; lia.
  - apply xor_false_map. intros q. destruct (Nat.eqb_spec q i), (Nat.eqb_spec q j); auto; lia.
Qed.

Lemma zero_state_wf n : wf n (zero_state n).
Proof.
  split; [apply length_zero_state|split].
  - intros i Hi. rewrite zero_state_row by auto.
    destruct (i <? n); cbn [ops]; rewrite map_length, seq_length; auto.
  - intros i j Hi Hj. rewrite !zero_state_row by auto.
    unfold conj_rows.
    destruct (Nat.ltb_spec i n), (Nat.ltb_spec j n); cbn [ops]; rewrite symp_map; cbn [fst snd].
    + rewrite xor_false_map. destruct (Nat.eqb_spec (i + n) j), (Nat.eqb_spec (j + n) i); auto; lia.
      intros a. destruct (a =? i); auto.
    + rewrite (map_ext _ (fun q => (q =? i) && (q =? j - n))) by (intros; rewrite xorb_false_r; auto).
      rewrite xor_seq_pair by auto.
      destruct (Nat.eqb_spec i (j - n)), (Nat.eqb_spec (i + n) j), (Nat.eqb_spec (j + n) i); auto; lia.
    + rewrite (map_ext _ (fun q => (q =? j) && (q =? i - n))) by (intros q; destruct (q =? j), (q =? i - n); auto).
      rewrite xor_seq_pair by auto.
      destruct (Nat.eqb_spec j (i - n)), (Nat.eqb_spec (i + n) j), (Nat.eqb_spec (j + n) i); auto; lia.
    + rewrite xor_false_map. destruct (Nat.eqb_spec (i + n) j), (Nat.eqb_spec (j + n) i); auto; lia.
      intros a. rewrite andb_false_r. auto.
Qed.

(** Z_q acts on |0..0> trivially. *)
Lemma z_only_ket0 o : forall a, length a = length o -> Forall (fun p => fst p = false) o ->
  zimul (fac o a) (ket0 (flipx o a)) = ket0 a.
Proof.
  induction o as [|[x z] o IH]; intros [|y a] Hl HF; simpl in *; try lia.
  - unfold ket0; simpl; ring.
  - inversion HF as [|? ? Hx HF']; subst. simpl in Hx. subst x.
    rewrite xorb_false_r. assert (IH' := IH a ltac:(lia) HF').
    unfold ket0 in *. cbn [forallb]. destruct y; cbn [negb andb]. ring.
    rewrite <- IH'. destruct z; unfold ent; simpl; unfold mZ, mI; simpl; ring.
Qed.

Lemma zero_state_describes n : describes n (zero_state n) ket0.
Proof.
  apply describes_iff. apply length_zero_state. intros i Hi. rewrite zero_state_row by lia.
  destruct (Nat.ltb_spec i n); try lia. intros a Ha.
  rewrite papply_closed by (cbn [ops]; rewrite map_length, seq_length; lia). cbn [ops neg sgn].
  rewrite <- (z_only_ket0 (map (fun q => (false, q =? i - n)) (seq 0 n)) a).
  - ring.
  - rewrite map_length, seq_length; lia.
  - apply Forall_forall. intros p Hp. apply in_map_iff in Hp. destruct Hp as (q & <- & _). auto.
Qed.

(** * Gates preserve the symplectic form *)
Definition sp1 (p q : bool * bool) : bool := xorb (fst p && snd q) (snd p && fst q).

Lemma symp_upd q p p' : forall a b, q < length a -> length a = length b ->
  symp (upd q p a) (upd q p' b) = xorb (xorb (symp a b) (sp1 (nth q a pid) (nth q b pid))) (sp1 p p').
Proof.
  induction q; intros [|[x z] a] [|[x' z'] b] Hq Hl; simpl in *; try lia.
  - destruct p, p'; unfold sp1; simpl. destruct (symp a b), x, z, x', z', b0, b1, b2, b3; auto.
  - rewrite IHq by lia. rewrite <- !xorb_assoc. auto.
Qed.

Definition ops_len_preserving (f : row -> row) := forall r, length (ops (f r)) = length (ops r).
Definition symp_preserving (n : nat) (f : row -> row) := forall a b,
  length (ops a) = n -> length (ops b) = n -> symp (ops (f a)) (ops (f b)) = symp (ops a) (ops b).

Lemma h_symp n q : q < n -> symp_preserving n (h_row q).
Proof.
  intros Hq a b Ha Hb. unfold h_row; cbn [ops]. rewrite symp_upd by lia. rewrite !getxz.
  unfold sp1; cbn [fst snd].
  destruct (getx q (ops a)), (getz q (ops a)), (getx q (ops b)), (getz q (ops b)), (symp (ops a) (ops b)); auto.
Qed.
Lemma s_symp n q : q < n -> symp_preserving n (s_row q).
Proof.
  intros Hq a b Ha Hb. unfold s_row, setz; cbn [ops]. rewrite symp_upd by lia. rewrite !getxz.
  unfold sp1; cbn [fst snd].
  destruct (getx q (ops a)), (getz q (ops a)), (getx q (ops b)), (getz q (ops b)), (symp (ops a) (ops b)); auto.
Qed.
Lemma x_symp n q : symp_preserving n (x_row q).
Proof. intros a b Ha Hb. auto. Qed.
Lemma z_symp n q : symp_preserving n (z_row q).
Proof. intros a b Ha Hb. auto. Qed.
Lemma cx_symp n c t : c < n -> t < n -> c <> t -> symp_preserving n (cx_row c t).
Proof.
  intros Hc Ht Hct a b Ha Hb. rewrite !cx_row_ops by lia. cbn [ops].
  rewrite symp_upd by (rewrite ?length_upd; lia). rewrite symp_upd by lia.
  rewrite !(nth_upd_other t c) by auto. rewrite !getxz. unfold sp1; cbn [fst snd].
  destruct (getx c (ops a)), (getz c (ops a)), (getx c (ops b)), (getz c (ops b)),
    (getx t (ops a)), (getz t (ops a)), (getx t (ops b)), (getz t (ops b)), (symp (ops a) (ops b)); auto.
Qed.
Lemma cz_symp n c t : c < n -> t < n -> c <> t -> symp_preserving n (cz_row c t).
Proof.
  intros Hc Ht Hct a b Ha Hb. rewrite !cz_row_ops by lia. cbn [ops].
  rewrite symp_upd by (rewrite ?length_upd; lia). rewrite symp_upd by lia.
  rewrite !(nth_upd_other t c) by auto. rewrite !getxz. unfold sp1; cbn [fst snd].
  destruct (getx c (ops a)), (getz c (ops a)), (getx c (ops b)), (getz c (ops b)),
    (getx t (ops a)), (getz t (ops a)), (getx t (ops b)), (getz t (ops b)), (symp (ops a) (ops b)); auto.
Qed.

Lemma h_len q : ops_len_preserving (h_row q). Proof. intros r; apply length_upd. Qed.
Lemma s_len q : ops_len_preserving (s_row q). Proof. intros r; apply length_upd. Qed.
Lemma x_len q : ops_len_preserving (x_row q). Proof. intros r; auto. Qed.
Lemma z_len q : ops_len_preserving (z_row q). Proof. intros r; auto. Qed.
Lemma cx_len c t : ops_len_preserving (cx_row c t).
Proof. intros r; unfold cx_row, setz, setx; cbn [ops]. rewrite !length_upd; auto. Qed.
Lemma cz_len c t : ops_len_preserving (cz_row c t).
Proof. intros r; unfold cz_row, setz, setx; cbn [ops]. rewrite !length_upd; auto. Qed.

Lemma nth_map_row f t i : i < length t -> nth i (map f t) row0 = f (nth i t row0).
Proof. intros. rewrite (nth_indep _ row0 (f row0)) by (rewrite map_length; auto). apply map_nth. Qed.

Lemma gate_wf n f t : ops_len_preserving f -> symp_preserving n f -> wf n t -> wf n (map f t).
Proof.
  intros HL HS (L & F & C). split; [rewrite map_length; auto|split].
  - intros i Hi. rewrite nth_map_row by lia. rewrite HL. auto.
  - intros i j Hi Hj. rewrite !nth_map_row by lia. rewrite HS; auto.
Qed.

(** If [U P = f(P) U] on n qubits then the updated tableau describes the new vector. *)
Lemma gate_describes n f t (U : vec -> vec) v :
  (forall v w, veq n v w -> veq n (U v) (U w)) ->
  (forall r v, length (ops r) = n -> veq n (U (papply (denote r) v)) (papply (denote (f r)) (U v))) ->
  wf n t -> describes n t v -> describes n (map f t) (U v).
Proof.
  intros HU HC (L & F & _) HD. apply describes_iff. rewrite map_length; auto.
  rewrite describes_iff in HD by auto. intros i Hi. rewrite nth_map_row by lia.
  specialize (HD i Hi). unfold stabilises in *.
  eapply veq_trans. apply veq_sym. apply HC. apply F; lia. apply HU; auto.
Qed.

Lemma apply1_ext n m q v w : veq n v w -> veq n (apply1 m q v) (apply1 m q w).
Proof. intros H a Ha. unfold apply1. rewrite !H by (rewrite length_upd; auto). auto. Qed.
Lemma apply2_ext n m c t v w : veq n v w -> veq n (apply2 m c t v) (apply2 m c t w).
Proof. intros H a Ha. unfold apply2. rewrite !H by (rewrite !length_upd; auto). auto. Qed.
