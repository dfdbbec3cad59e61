(** Whole gates on whole tableaus; reset; sequences of operations. *)
Require Import List Bool Arith ZArith Lia.
From Verif Require Import Base BaseProofs QSpec PauliModel PauliSem PauliProofs PauliAlg TableauProofs
  MeasureProofs StateProofs StateSpec.
Import ListNotations.

Definition rows (n : nat) (t : tableau) : Prop := t <> [] /\ Forall (fun r => length (ops r) = n) t.

Lemma rows_nqubits n t : rows n t -> nqubits t = n.
Proof. intros [H F]. destruct t; [tauto|]. inversion F; auto. Qed.

Lemma rows_map n t f : ops_len_preserving f -> rows n t -> rows n (map f t).
Proof.
  intros HL [H F]. split. destruct t; simpl; congruence.
  apply Forall_map. eapply Forall_impl; [|apply F]. intros; rewrite HL; auto.
Qed.

Definition rowfold {A} (f : A -> row -> row) (qs : list A) (r : row) : row := fold_left (fun r q => f q r) qs r.

Lemma rowfold_len {A} (f : A -> row -> row) qs : (forall q, ops_len_preserving (f q)) ->
  ops_len_preserving (rowfold f qs).
Proof. intros H. unfold rowfold, ops_len_preserving in *. induction qs; intros r; cbn; auto. rewrite IHqs. apply H. Qed.

Lemma map_rowfold_cons {A} (f : A -> row -> row) q qs t :
  map (rowfold f (q :: qs)) t = map (rowfold f qs) (map (f q) t).
Proof. rewrite map_map. auto. Qed.

Lemma fold_gate1 n f qs : (forall q, ops_len_preserving (f q)) -> Forall (fun q => q < n) qs ->
  forall t, rows n t -> foldR (gate1_step f) qs t = Ok (map (rowfold f qs) t).
Proof.
  intros HL. induction qs as [|q qs IH]; intros HF t R.
  - simpl. rewrite map_id. auto.
  - inversion HF; subst. cbn [foldR]. unfold gate1_step at 1. rewrite (rows_nqubits n) by auto.
    destruct (Nat.ltb_spec q n); try lia. cbn [bindR]. rewrite map_rowfold_cons. apply IH; auto.
    apply rows_map; auto.
Qed.

Lemma fold_gate2 n f cts : (forall c t, ops_len_preserving (f c t)) ->
  Forall (fun ct => fst ct < n /\ snd ct < n /\ fst ct <> snd ct) cts ->
  forall t, rows n t ->
  foldR (gate2_step f) cts t = Ok (map (rowfold (fun ct => f (fst ct) (snd ct)) cts) t).
Proof.
  intros HL. induction cts as [|[c q] cts IH]; intros HF t R.
  - simpl. rewrite map_id. auto.
  - inversion HF as [|? ? H1 H2]; subst. cbn [fst snd] in *. cbn [foldR]. unfold gate2_step at 1.
    rewrite (rows_nqubits n) by auto. cbn [fst snd].
    destruct (Nat.ltb_spec c n); try lia. destruct (Nat.ltb_spec q n); try lia. cbn [andb bindR].
    rewrite map_rowfold_cons. cbn [fst snd]. apply IH; auto. apply rows_map; auto.
Qed.

Lemma no_overflow n qs : Forall (fun q => q < n) qs -> existsb (fun q => n <=? q) qs = false.
Proof.
  induction 1; simpl; auto. rewrite IHForall. destruct (Nat.leb_spec n x); auto; lia.
Qed.

Lemma rowfold_conj {A} n (f : A -> row -> row) (u : A -> vec -> vec) qs :
  (forall q, ops_len_preserving (f q)) ->
  (forall q v w, veq n v w -> veq n (u q v) (u q w)) ->
  (forall q r v, In q qs -> length (ops r) = n -> veq n (u q (papply (denote r) v)) (papply (denote (f q r)) (u q v))) ->
  forall r v, length (ops r) = n ->
  veq n (fold_left (fun w q => u q w) qs (papply (denote r) v))
        (papply (denote (rowfold f qs r)) (fold_left (fun w q => u q w) qs v)).
Proof.
  intros HL HE. induction qs as [|q qs IH]; intros HC r v Hr.
  - apply veq_refl.
  - cbn [fold_left]. eapply veq_trans.
    + assert (X : forall l v w, veq n v w -> veq n (fold_left (fun w q => u q w) l v) (fold_left (fun w q => u q w) l w)).
      { induction l; simpl; auto. }
      apply X. apply HC; simpl; auto.
    + apply IH. intros; apply HC; simpl; auto. rewrite HL; auto.
Qed.

Lemma rowfold_symp {A} n (f : A -> row -> row) qs : (forall q, ops_len_preserving (f q)) ->
  (forall q, In q qs -> symp_preserving n (f q)) -> symp_preserving n (rowfold f qs).
Proof.
  intros HL. induction qs as [|q qs IH]; intros HS a b Ha Hb; auto.
  cbn. fold (rowfold f qs (f q a)) (rowfold f qs (f q b)). unfold rowfold in IH.
  rewrite IH; try (rewrite HL; auto). apply HS; simpl; auto. intros; apply HS; simpl; auto.
Qed.

(** y = z after x; signs commute, so it is the same as both on each qubit in turn. *)
Definition y_row (q : nat) (r : row) : row := z_row q (x_row q r).

Lemma x_rowfold_ops qs : forall r, ops (rowfold x_row qs r) = ops r.
Proof. unfold rowfold. induction qs; intros r; cbn [fold_left]; auto. rewrite IHqs. auto. Qed.

Lemma rowfold_neg (h : nat -> list (bool * bool) -> bool) f :
  (forall q r, f q r = mkRow (ops r) (xorb (neg r) (h q (ops r)))) ->
  forall qs r, rowfold f qs r = mkRow (ops r) (xorb (neg r) (fold_right xorb false (map (fun q => h q (ops r)) qs))).
Proof.
  intros Hf. induction qs as [|q qs IH]; intros r.
  - cbn. rewrite xorb_false_r. destruct r; auto.
  - unfold rowfold. cbn [fold_left map fold_right]. fold (rowfold f qs (f q r)). rewrite IH, Hf. cbn [ops neg].
    rewrite xorb_assoc. auto.
Qed.

Lemma xor_map_split {A} (a b : A -> bool) l : fold_right xorb false (map (fun q => xorb (a q) (b q)) l) =
  xorb (fold_right xorb false (map a l)) (fold_right xorb false (map b l)).
Proof.
  induction l; simpl; auto. rewrite IHl.
  destruct (a a0), (b a0), (fold_right xorb false (map a l)), (fold_right xorb false (map b l)); auto.
Qed.

Lemma y_rowfold qs r : rowfold z_row qs (rowfold x_row qs r) = rowfold y_row qs r.
Proof.
  rewrite (rowfold_neg (fun q o => getz q o) x_row) by (intros; reflexivity).
  rewrite (rowfold_neg (fun q o => getx q o) z_row) by (intros; reflexivity). cbn [ops neg].
  rewrite (rowfold_neg (fun q o => xorb (getz q o) (getx q o)) y_row).
  2: { intros q x. unfold y_row, z_row, x_row. cbn [ops neg]. rewrite xorb_assoc. auto. }
  rewrite xor_map_split, xorb_assoc. auto.
Qed.

Lemma x_len q : ops_len_preserving (x_row q). Proof. intros r; auto. Qed.
Lemma z_len q : ops_len_preserving (z_row q). Proof. intros r; auto. Qed.
Lemma y_len q : ops_len_preserving (y_row q). Proof. intros r; auto. Qed.
Lemma h_len q : ops_len_preserving (h_row q). Proof. intros r; cbn. rewrite length_upd; auto. Qed.
Lemma s_len q : ops_len_preserving (s_row q). Proof. intros r; cbn. unfold setz. rewrite length_upd; auto. Qed.

Section Gates.
Variables (n : nat) (t : tableau).
Hypothesis R : rows n t.

Lemma hadamard_ok qs : Forall (fun q => q < n) qs -> hadamard t qs = Ok (map (rowfold h_row qs) t).
Proof. intros H. apply (fold_gate1 n); auto. intros; apply h_len. Qed.
Lemma phase_gate_ok qs : Forall (fun q => q < n) qs -> phase_gate t qs = Ok (map (rowfold s_row qs) t).
Proof. intros H. apply (fold_gate1 n); auto. intros; apply s_len. Qed.
Lemma gate_x_ok qs : Forall (fun q => q < n) qs -> gate_x t qs = Ok (map (rowfold x_row qs) t).
Proof.
  intros H. unfold gate_x, gate_checked. rewrite (rows_nqubits n t R), no_overflow by auto.
  apply (fold_gate1 n); auto. intros; apply x_len.
Qed.
Lemma gate_z_ok qs : Forall (fun q => q < n) qs -> gate_z t qs = Ok (map (rowfold z_row qs) t).
Proof.
  intros H. unfold gate_z, gate_checked. rewrite (rows_nqubits n t R), no_overflow by auto.
  apply (fold_gate1 n); auto. intros; apply z_len.
Qed.
End Gates.

Lemma gate_y_ok n t qs : rows n t -> Forall (fun q => q < n) qs -> gate_y t qs = Ok (map (rowfold y_row qs) t).
Proof.
  intros R H. unfold gate_y. rewrite (gate_x_ok n) by auto. cbn [bindR]. rewrite (gate_z_ok n); auto.
  - rewrite map_map. f_equal. apply map_ext. intros r. apply y_rowfold.
  - apply rows_map; auto. apply rowfold_len. intros; apply x_len.
Qed.

Definition cxp (ct : nat * nat) := cx_row (fst ct) (snd ct).
Definition czp (ct : nat * nat) := cz_row (fst ct) (snd ct).

Lemma cx_ok n t cs ts : rows n t -> pairs_ok n cs ts ->
  control_not_gate t cs ts = Ok (map (rowfold cxp (combine cs ts)) t).
Proof.
  intros R [HL HF]. unfold control_not_gate. rewrite HL, Nat.eqb_refl. cbn [negb].
  apply (fold_gate2 n); auto. intros; apply cx_len.
Qed.
Lemma cz_ok n t cs ts : rows n t -> pairs_ok n cs ts ->
  control_phase_gate t cs ts = Ok (map (rowfold czp (combine cs ts)) t).
Proof.
  intros R [HL HF]. unfold control_phase_gate. rewrite HL, Nat.eqb_refl. cbn [negb].
  apply (fold_gate2 n); auto. intros; apply cz_len.
Qed.

(** Row-level conjugation for whole gates. *)
Section Conj.
Variable n : nat.
Definition conjugates (U : vec -> vec) (f : row -> row) : Prop :=
  forall r v, length (ops r) = n -> veq n (U (papply (denote r) v)) (papply (denote (f r)) (U v)).

Ltac c1 len conj := intros H r v Hr; unfold all1;
  apply (rowfold_conj n _ (fun q => apply1 _ q)); auto;
  [intros; apply len | intros; apply apply1_ext; auto
  | intros q r0 v0 Hq Hr0; apply conj; auto; rewrite Forall_forall in H; auto].

Lemma h_all qs : Forall (fun q => q < n) qs -> conjugates (all1 mH qs) (rowfold h_row qs).
Proof. c1 h_len h_conj. Qed.
Lemma s_all qs : Forall (fun q => q < n) qs -> conjugates (all1 mS qs) (rowfold s_row qs).
Proof. c1 s_len s_conj. Qed.
Lemma x_all qs : Forall (fun q => q < n) qs -> conjugates (all1 mX qs) (rowfold x_row qs).
Proof. c1 x_len x_conj. Qed.
Lemma y_all qs : Forall (fun q => q < n) qs -> conjugates (all1 mY qs) (rowfold y_row qs).
Proof. c1 y_len y_conj. Qed.
Lemma z_all qs : Forall (fun q => q < n) qs -> conjugates (all1 mZ qs) (rowfold z_row qs).
Proof. c1 z_len z_conj. Qed.

Ltac c2 len conj := intros [H1 H2] r v Hr; unfold all2;
  apply (rowfold_conj n _ (fun ct => apply2 _ (fst ct) (snd ct))); auto;
  [intros; apply len | intros; apply apply2_ext; auto
  | intros q r0 v0 Hq Hr0; rewrite Forall_forall in H2; specialize (H2 _ Hq); apply conj; tauto].

Lemma cx_all cs ts : pairs_ok n cs ts -> conjugates (all2 mCX (combine cs ts)) (rowfold cxp (combine cs ts)).
Proof. c2 cx_len cx_conj. Qed.
Lemma cz_all cs ts : pairs_ok n cs ts -> conjugates (all2 mCZ (combine cs ts)) (rowfold czp (combine cs ts)).
Proof. c2 cz_len cz_conj. Qed.
End Conj.

Lemma all1_ext n m qs : forall v w, veq n v w -> veq n (all1 m qs v) (all1 m qs w).
Proof. unfold all1. induction qs; simpl; auto. intros. apply IHqs. apply apply1_ext; auto. Qed.
Lemma all2_ext n m qs : forall v w, veq n v w -> veq n (all2 m qs v) (all2 m qs w).
Proof. unfold all2. induction qs; simpl; auto. intros. apply IHqs. apply apply2_ext; auto. Qed.

Lemma wf_rows n t : wf n t -> 0 < n -> rows n t.
Proof.
  intros (L & F & _) Hn. split. destruct t; simpl in *; [lia|congruence].
  apply Forall_forall. intros r Hr. apply (In_nth _ _ row0) in Hr. destruct Hr as (i & Hi & <-). apply F; lia.
Qed.

(** Symplectic invariance for whole gates. *)
Lemma symp1 n f qs : (forall q, ops_len_preserving (f q)) -> (forall q, q < n -> symp_preserving n (f q)) ->
  Forall (fun q => q < n) qs -> symp_preserving n (rowfold f qs).
Proof.
  intros HL HS HF. apply rowfold_symp; auto. intros q Hq. apply HS. rewrite Forall_forall in HF; auto.
Qed.
Lemma y_symp n q : symp_preserving n (y_row q).
Proof. intros a b Ha Hb. reflexivity. Qed.

(** * Reset *)
Definition pbits (p : pauli1) : bool * bool :=
  match p with PI => (false, false) | PX => (true, false) | PY => (true, true) | PZ => (false, true) end.

Lemma sqpo_ok n sign p q : q < n -> p <> PI ->
  single_qubit_pauli_operator sign p q n = Ok (mkRow (upd q (pbits p) (repeat pid n)) sign).
Proof.
  intros Hq Hp. unfold single_qubit_pauli_operator.
  destruct (Nat.ltb_spec n 1); try lia. destruct (Nat.leb_spec n q); try lia.
  destruct p; auto; congruence.
Qed.

Lemma map_upd {A B} (f : A -> B) q a : forall l, map f (upd q a l) = upd q (f a) (map f l).
Proof. induction q; intros [|x l]; simpl; auto. rewrite IHq; auto. Qed.
Lemma map_rep {A B} (f : A -> B) a n : map f (repeat a n) = repeat (f a) n.
Proof. induction n; simpl; f_equal; auto. Qed.

Lemma denote_single n sign p q : denote (mkRow (upd q (pbits p) (repeat pid n)) sign) = single n sign p q.
Proof. unfold denote, single. cbn [neg ops]. rewrite map_upd, map_rep. destruct p; auto. Qed.

Lemma single_nonid n p q : q < n -> p <> PI -> upd q (pbits p) (repeat pid n) <> repeat pid n.
Proof.
  intros Hq Hp E. apply (f_equal (fun l => nth q l pid)) in E.
  rewrite nth_upd_same in E by (rewrite repeat_length; auto). rewrite nth_repeat in E.
  destruct p; try congruence; discriminate.
Qed.

Lemma symp_upd_r q p : forall a b, q < length a -> length a = length b ->
  symp a (upd q p b) = xorb (xorb (symp a b) (sp1 (nth q a pid) (nth q b pid))) (sp1 (nth q a pid) p).
Proof.
  intros a b Hq Hl. rewrite <- (upd_nth q a pid) at 1. apply symp_upd; auto.
Qed.

Lemma symp_id_r n a : symp a (repeat pid n) = false.
Proof. rewrite symp_comm. apply symp_id_l. Qed.

Lemma symp_single n a q p : length a = n -> q < n ->
  symp a (upd q p (repeat pid n)) = sp1 (nth q a pid) p.
Proof.
  intros Ha Hq. rewrite symp_upd_r by (rewrite ?repeat_length; lia). rewrite symp_id_r, nth_repeat.
  unfold sp1. cbn [fst snd pid]. rewrite !andb_false_r. cbn [xorb]. destruct (xorb _ _); auto.
Qed.

(** The vector after one reset step: project, then flip if the outcome was 1. *)
Definition flip_mat (p : pauli1) : mat2 := match p with PZ => mX | PX => mZ | _ => mI end.
Definition reset_vec (n : nat) (sign : bool) (p : pauli1) (q : nat) (m : bool) (v : vec) : vec :=
  let w := project (single n sign p q) m v in if m then apply1 (flip_mat p) q w else w.

Lemma apply1_pauli_aux p : forall q a v, q < length a ->
  apply1 (mP p) q v a = zimul (fac (upd q (pbits p) (repeat pid (length a))) a)
                              (v (flipx (upd q (pbits p) (repeat pid (length a))) a)).
Proof.
  induction q; intros [|x a] w Hl; simpl in Hl; try lia.
  - cbn [length repeat upd fac flipx]. rewrite fac_id, flipx_id by auto. unfold apply1. cbn [nth upd].
    destruct p, x; cbn [pbits ent fst p1 mP xorb]; unfold ent; cbn [p1 mP fst xorb];
      unfold mI, mX, mY, mZ; cbn [eqb]; ring.
  - cbn [length repeat upd fac flipx].
    transitivity (apply1 (mP p) q (fun l => w (x :: l)) a). { reflexivity. }
    rewrite IHq by lia. cbn [fst pid]. rewrite xorb_false_r.
    replace (ent pid x) with zi1 by (destruct x; reflexivity). ring.
Qed.

(** A one-qubit Pauli matrix on qubit q is the corresponding Pauli operator. *)
Lemma apply1_pauli n p q v : q < n -> veq n (apply1 (mP p) q v) (papply (single n false p q) v).
Proof.
  intros Hq a Ha. rewrite <- denote_single.
  rewrite papply_closed by (cbn [ops]; rewrite length_upd, repeat_length; lia). cbn [ops neg sgn].
  rewrite apply1_pauli_aux by lia. rewrite Ha. ring.
Qed.

Lemma single_len n p q : length (upd q (pbits p) (repeat pid n)) = n.
Proof. rewrite length_upd, repeat_length; auto. Qed.

Lemma apply1_pauli_norm n p q v : q < n -> norm2 n (apply1 (mP p) q v) = norm2 n v.
Proof.
  intros Hq. rewrite (norm2_ext n _ _ (apply1_pauli n p q v Hq)). rewrite <- denote_single.
  apply norm2_papply. apply single_len.
Qed.

(** An operator acting trivially on q survives a one-qubit Pauli on q. *)
Lemma trivial_keep n r p q v : length (ops r) = n -> q < n -> nth q (ops r) pid = pid ->
  stabilises n (denote r) v -> stabilises n (denote r) (apply1 (mP p) q v).
Proof.
  intros Hr Hq Ht Hs. unfold stabilises.
  assert (Hl : length (ops (mkRow (upd q (pbits p) (repeat pid n)) false)) = n) by apply single_len.
  assert (E := apply1_pauli n p q v Hq). rewrite <- denote_single in E.
  eapply veq_trans. apply papply_ext; [auto|]. apply E.
  eapply veq_trans. 2: apply veq_sym; apply E.
  eapply veq_trans. apply papply_swap; auto. cbn [ops].
  rewrite symp_single by auto. rewrite Ht. unfold sp1; cbn [fst snd pid andb xorb sgn].
  eapply veq_trans. 2: apply papply_ext; [auto|apply Hs]. intros a _. unfold vscale. ring.
Qed.

Lemma p1_id b : p1 b = PI <-> b = pid.
Proof. destruct b as [[] []]; simpl; split; auto; discriminate. Qed.

Lemma trivial_nth r q : nth q (snd (denote r)) PI = PI <-> nth q (ops r) pid = pid.
Proof. unfold denote; cbn [snd]. change PI with (p1 pid) at 1. rewrite map_nth. apply p1_id. Qed.

Definition reset_kind (p : pauli1) := p = PX \/ p = PZ.

Lemma flip_fixes n sign p q v : q < n -> reset_kind p ->
  stabilises n (single n (xorb sign true) p q) v ->
  stabilises n (single n sign p q) (apply1 (flip_mat p) q v).
Proof.
  intros Hq Hp Hs. unfold stabilises in *. rewrite <- denote_single in *.
  set (r := mkRow (upd q (pbits p) (repeat pid n)) (xorb sign true)) in *.
  assert (Hl : length (ops r) = n) by apply single_len.
  assert (X : mkRow (upd q (pbits p) (repeat pid n)) sign =
    match p with PZ => x_row q r | _ => z_row q r end).
  { destruct Hp as [-> | ->]; subst r; unfold x_row, z_row, getx, getz; cbn [ops neg];
    change (false, false) with pid; rewrite nth_upd_same by (rewrite repeat_length; auto); cbn [pbits fst snd];
    rewrite xorb_assoc; cbn [xorb]; rewrite xorb_false_r; auto. }
  rewrite X. clear X. destruct Hp as [-> | ->]; cbn [flip_mat].
  - eapply veq_trans. apply veq_sym, z_conj; auto. apply apply1_ext; auto.
  - eapply veq_trans. apply veq_sym, x_conj; auto. apply apply1_ext; auto.
Qed.

Lemma reset_step_ok n g sign p st k q v :
  wf n st -> q < n -> reset_kind p -> describes n st v ->
  exists st' k' m, reset_step g sign p (st, k) q = Ok (st', k') /\ wf n st' /\
    describes n st' (reset_vec n sign p q m v) /\
    stabilises n (single n sign p q) (reset_vec n sign p q m v) /\
    (norm2 n (reset_vec n sign p q m v) = 4 * norm2 n v \/
     norm2 n (reset_vec n sign p q m v) = 2 * norm2 n v)%Z /\
    (norm2 n (project (single n sign p q) m v) = 4 * norm2 n v \/
     (forall m', norm2 n (project (single n sign p q) m' v) = 2 * norm2 n v))%Z /\
    forall r, length (ops r) = n -> nth q (ops r) pid = pid ->
      stabilises n (denote r) v -> stabilises n (denote r) (reset_vec n sign p q m v).
Proof.
  intros W Hq Hp HD. assert (Hn : 0 < n) by lia.
  assert (Hpi : p <> PI) by (destruct Hp; subst; discriminate).
  set (op := mkRow (upd q (pbits p) (repeat pid n)) sign).
  assert (Hop : length (ops op) = n) by apply single_len.
  assert (Hid : ops op <> repeat pid n) by (apply single_nonid; auto).
  assert (HG : good_forced None) by (intros f; discriminate).
  destruct (measure_total n g k st op W Hn Hop Hid None HG) as (st1 & m & k1 & HM & _).
  destruct (measure_sem n g k st op None st1 m k1 v W Hn Hop Hid HG HM HD) as (W1 & D1 & HN).
  assert (Ed : denote op = single n sign p q) by apply denote_single.
  rewrite Ed in D1, HN.
  assert (HS : stabilises n (single n (xorb sign m) p q) (project (single n sign p q) m v)).
  { rewrite <- Ed. rewrite <- denote_single. apply (project_new n op m v Hop). }
  assert (HT : forall r, length (ops r) = n -> nth q (ops r) pid = pid ->
      stabilises n (denote r) v -> stabilises n (denote r) (project (single n sign p q) m v)).
  { intros r Hr Ht Hs. rewrite <- Ed. apply project_keep; auto. unfold op; cbn [ops].
    rewrite symp_single by auto. rewrite Ht. unfold sp1; cbn [fst snd pid andb xorb]; auto. }
  assert (HNN : (norm2 n (project (single n sign p q) m v) = 4 * norm2 n v \/
     norm2 n (project (single n sign p q) m v) = 2 * norm2 n v)%Z).
  { destruct HN as [(H & _)|(H & _)]; auto. }
  assert (HNN' : (norm2 n (project (single n sign p q) m v) = 4 * norm2 n v \/
     (forall m', norm2 n (project (single n sign p q) m' v) = 2 * norm2 n v))%Z).
  { destruct HN as [(H & _)|(H & _)]; auto. }
  assert (R1 : rows n st1) by (apply wf_rows; auto).
  assert (FQ : Forall (fun q => q < n) [q]) by auto.
  unfold reset_step. rewrite (wf_nqubits n) by auto. rewrite sqpo_ok by auto. cbn [bindR]. fold op.
  rewrite HM. cbn [bindR]. unfold reset_vec. destruct m.
  - rewrite (gate_x_ok n), (gate_z_ok n) by auto.
    exists (map (rowfold (match p with PZ => x_row | _ => z_row end) [q]) st1), k1, true.
    cbn [rowfold fold_left].
    split. { destruct Hp as [-> | ->]; reflexivity. }
    split. { destruct Hp as [-> | ->].
             apply gate_wf; auto. apply z_len. apply z_symp. apply gate_wf; auto. apply x_len. apply x_symp. }
    split. { destruct Hp as [-> | ->]; cbn [flip_mat].
             apply (gate_describes n _ st1 (apply1 mZ q)); auto. intros; apply apply1_ext; auto. intros; apply z_conj; auto.
             apply (gate_describes n _ st1 (apply1 mX q)); auto. intros; apply apply1_ext; auto. intros; apply x_conj; auto. }
    split. { apply flip_fixes; auto. }
    assert (EM : flip_mat p = mP (match p with PZ => PX | _ => PZ end)) by (destruct Hp as [-> | ->]; auto).
    rewrite EM. split.
    + rewrite apply1_pauli_norm by auto. auto.
    + split; auto. intros r Hr Ht Hs. apply trivial_keep; auto.
  - exists st1, k1, false. repeat (split; auto). rewrite xorb_false_r in HS. auto.
Qed.

Lemma reset_ok n g sign p : reset_kind p -> forall qs st k v,
  wf n st -> 0 < n -> Forall (fun q => q < n) qs -> describes n st v ->
  exists st' k' v', reset_qubits g k st sign p qs = Ok (st', k') /\ wf n st' /\ describes n st' v' /\
    ((norm2 n v <> 0)%Z -> (norm2 n v' <> 0)%Z) /\
    (forall q, In q qs -> stabilises n (single n sign p q) v') /\
    forall r, length (ops r) = n -> (forall q, In q qs -> nth q (ops r) pid = pid) ->
      stabilises n (denote r) v -> stabilises n (denote r) v'.
Proof.
  intros Hp. induction qs as [|q qs IH]; intros st k v W Hn HF HD.
  - exists st, k, v. unfold reset_qubits; cbn [foldR]. repeat (split; auto). intros q [].
  - inversion HF as [|? ? Hq HF']; subst.
    destruct (reset_step_ok n g sign p st k q v W Hq Hp HD) as (st1 & k1 & m & E & W1 & D1 & S1 & N1 & _ & T1).
    destruct (IH st1 k1 _ W1 Hn HF' D1) as (st2 & k2 & v2 & E2 & W2 & D2 & N2 & S2 & T2).
    exists st2, k2, v2. unfold reset_qubits in *. cbn [foldR]. rewrite E. cbn [bindR].
    split; auto. split; auto. split; auto. split. { intros Hv. apply N2. lia. }
    split.
    + intros q' [<-|Hin]; auto.
      destruct (in_dec Nat.eq_dec q qs) as [|Hout]; auto.
      rewrite <- denote_single. apply T2. apply single_len.
      * intros q' Hq'. cbn [ops]. rewrite nth_upd_other by congruence. apply nth_repeat.
      * rewrite denote_single. auto.
    + intros r Hr Ht Hs. apply T2; auto. intros; apply Ht; simpl; auto. apply T1; auto. apply Ht; simpl; auto.
Qed.

(** * Sequences of operations *)
Lemma nonid_exists n o : length o = n -> (exists q, nth q o (false, false) <> (false, false)) -> o <> repeat pid n.
Proof. intros Hl (q & Hq) ->. apply Hq. apply nth_repeat. Qed.

Lemma reset_step_wf n g sign p st k q : wf n st -> q < n -> p <> PI ->
  exists st' k', reset_step g sign p (st, k) q = Ok (st', k') /\ wf n st'.
Proof.
  intros W Hq Hp.
  destruct (exists_described n st W) as (v & _ & HD).
  set (op := mkRow (upd q (pbits p) (repeat pid n)) sign).
  assert (Hn : 0 < n) by lia.
  assert (Hop : length (ops op) = n) by apply single_len.
  assert (Hid : ops op <> repeat pid n) by (apply single_nonid; auto).
  assert (HG : good_forced None) by (intros f; discriminate).
  destruct (measure_total n g k st op W Hn Hop Hid None HG) as (st1 & m & k1 & HM & _).
  destruct (measure_sem n g k st op None st1 m k1 v W Hn Hop Hid HG HM HD) as (W1 & _).
  assert (R1 : rows n st1) by (apply wf_rows; auto).
  unfold reset_step. rewrite (wf_nqubits n) by auto. rewrite sqpo_ok by auto. cbn [bindR]. fold op.
  rewrite HM. cbn [bindR]. destruct m; [|eauto].
  rewrite (gate_x_ok n), (gate_z_ok n) by auto.
  destruct p; cbn [bindR]; try (eexists _, _; split; [reflexivity|auto]; fail).
  - exists (map (z_row q) st1), k1. split; auto. apply gate_wf; auto. apply z_len. apply z_symp.
  - exists (map (x_row q) st1), k1. split; auto. apply gate_wf; auto. apply x_len. apply x_symp.
Qed.

Lemma exec_ok n g o st k : 0 < n -> wf n st -> oper_ok n o ->
  exists st' k', exec g (st, k) o = Ok (st', k') /\ wf n st'.
Proof.
  intros Hn W HO. assert (R : rows n st) by (apply wf_rows; auto).
  destruct o; cbn [exec oper_ok] in *.
  - rewrite (hadamard_ok n) by auto. eexists _, _. split. reflexivity. apply gate_wf; auto.
    apply rowfold_len, h_len. apply symp1; auto. apply h_len. intros; apply h_symp; auto.
  - rewrite (phase_gate_ok n) by auto. eexists _, _. split. reflexivity. apply gate_wf; auto.
    apply rowfold_len, s_len. apply symp1; auto. apply s_len. intros; apply s_symp; auto.
  - rewrite (gate_x_ok n) by auto. eexists _, _. split. reflexivity. apply gate_wf; auto.
    apply rowfold_len, x_len. apply symp1; auto. apply x_len. intros; apply x_symp; auto.
  - rewrite (gate_y_ok n) by auto. eexists _, _. split. reflexivity. apply gate_wf; auto.
    apply rowfold_len, y_len. apply symp1; auto. apply y_len. intros; apply y_symp; auto.
  - rewrite (gate_z_ok n) by auto. eexists _, _. split. reflexivity. apply gate_wf; auto.
    apply rowfold_len, z_len. apply symp1; auto. apply z_len. intros; apply z_symp; auto.
  - rewrite (cx_ok n) by auto. eexists _, _. split. reflexivity. apply gate_wf; auto.
    apply rowfold_len. intros; apply cx_len. apply rowfold_symp. intros; apply cx_len.
    intros q Hq. destruct HO as [_ HO]. rewrite Forall_forall in HO. specialize (HO _ Hq). apply cx_symp; tauto.
  - rewrite (cz_ok n) by auto. eexists _, _. split. reflexivity. apply gate_wf; auto.
    apply rowfold_len. intros; apply cz_len. apply rowfold_symp. intros; apply cz_len.
    intros q Hq. destruct HO as [_ HO]. rewrite Forall_forall in HO. specialize (HO _ Hq). apply cz_symp; tauto.
  - destruct HO as (Hl & Hid & Hf).
    assert (Hid' : ops op <> repeat pid n) by (apply nonid_exists; auto).
    destruct (measure_total n g k st op W Hn Hl Hid' forced Hf) as (st1 & m & k1 & HM & HR & _).
    rewrite HM. cbn [bindR fst snd]. eexists _, _. split. reflexivity. eapply meas_wf; eauto.
  - destruct HO as (HF & [Hp | ->]).
    + unfold reset_qubits. revert st k W R. induction qs as [|q qs IH]; intros st k W R.
      * eexists _, _. split. reflexivity. auto.
      * inversion HF; subst. destruct (reset_step_wf n g sign p st k q W) as (st1 & k1 & E & W1); auto.
        cbn [foldR]. rewrite E. cbn [bindR]. apply IH; auto. apply wf_rows; auto.
    + eexists _, _. split. reflexivity. auto.
Qed.

Lemma exec_seq_ok n g : forall os st k, 0 < n -> wf n st -> Forall (oper_ok n) os ->
  exists st' k', foldR (exec g) os (st, k) = Ok (st', k') /\ wf n st'.
Proof.
  induction os as [|o os IH]; intros st k Hn W HF.
  - eexists _, _. split. reflexivity. auto.
  - inversion HF; subst. destruct (exec_ok n g o st k Hn W) as (st1 & k1 & E & W1); auto.
    cbn [foldR]. rewrite E. cbn [bindR]. apply IH; auto.
Qed.
