(** Consequences of the measurement lemmas: Born rule, repeatability, existence of the
    described vector, reset. *)
Require Import List Bool Arith ZArith Lia.
From Verif Require Import Base BaseProofs QSpec PauliModel PauliSem PauliProofs PauliAlg TableauProofs MeasureProofs.
Import ListNotations.

Lemma norm2_nonneg n v : (0 <= norm2 n v)%Z.
Proof.
  unfold norm2. induction (labels n) as [|a l IH]; cbn [map zsum]. lia.
  assert (0 <= ziabs2 (v a))%Z by (unfold ziabs2; nia). lia.
Qed.

Lemma ziabs2_zero a : ziabs2 a = 0%Z -> a = zi0.
Proof. unfold ziabs2. intros H. apply Zi_eq; cbn [re im zi0]; nia. Qed.

Lemma norm2_zero n v : norm2 n v = 0%Z <-> veq n v (fun _ => zi0).
Proof.
  split.
  - intros H a Ha. apply labels_all in Ha. apply ziabs2_zero.
    unfold norm2 in H. revert H. induction (labels n) as [|b l IH]; cbn [map zsum]; intros H. destruct Ha.
    assert (0 <= ziabs2 (v b))%Z by (unfold ziabs2; nia).
    assert (0 <= zsum (map (fun a => ziabs2 (v a)) l))%Z.
    { clear. induction l as [|c l IH]; cbn [map zsum]. lia. assert (0 <= ziabs2 (v c))%Z by (unfold ziabs2; nia). lia. }
    destruct Ha as [<-|Ha]. lia. apply IH; auto. lia.
  - intros H. rewrite (norm2_ext n v (fun _ => zi0)) by auto.
    unfold norm2. induction (labels n); cbn [map zsum]; auto.
Qed.

Lemma norm2_scale n c v : norm2 n (vscale c v) = (ziabs2 c * norm2 n v)%Z.
Proof.
  unfold norm2, vscale. induction (labels n) as [|a l IH]; cbn [map zsum]. lia.
  rewrite IH, ziabs2_mul. lia.
Qed.

Lemma vscale_vscale n c d v : veq n (vscale c (vscale d v)) (vscale (zimul c d) v).
Proof. intros a _. unfold vscale. ring. Qed.

(** Eigenvector: the projection on the right outcome doubles the vector, the other one
    is zero. *)
Lemma project_eigen n P m v : veq n (papply P v) (vscale (sgn m) v) ->
  veq n (project P m v) (vscale (mkZi 2 0) v) /\ veq n (project P (negb m) v) (fun _ => zi0).
Proof.
  intros H. unfold project. split; intros a Ha; unfold vadd, vscale; rewrite H by auto; unfold vscale;
    destruct m; cbn [sgn negb]; apply Zi_eq; cbn [re im ziadd zimul ziopp zi1 zi0]; ring.
Qed.

Lemma describes_ext n t v w : (forall i, i < length t -> length (ops (t@@i)) = n) -> length t = 2 * n ->
  veq n v w -> describes n t v -> describes n t w.
Proof.
  intros F L E HD. apply describes_iff; auto. rewrite describes_iff in HD by auto.
  intros i Hi. specialize (HD i Hi). unfold stabilises in *.
  eapply veq_trans. apply papply_ext. apply F; lia. apply veq_sym; eauto.
  eapply veq_trans; eauto.
Qed.

Lemma describes_scale n t v c : wf n t -> describes n t v -> describes n t (vscale c v).
Proof.
  intros (L & F & _) HD. apply describes_iff; auto. rewrite describes_iff in HD by auto.
  intros i Hi. specialize (HD i Hi). unfold stabilises in *.
  eapply veq_trans. apply papply_scale. apply F; lia. apply vscale_ext; auto.
Qed.

Lemma antic_dec n st op : (exists i, n <= i < 2 * n /\ antic st op i = true) \/
  (forall i, n <= i < 2 * n -> antic st op i = false).
Proof.
  destruct (existsb (antic st op) (seq n n)) eqn:E.
  - left. apply existsb_exists in E. destruct E as (i & Hi & E). apply in_seq in Hi. exists i; split; auto; lia.
  - right. intros i Hi. destruct (antic st op i) eqn:E'; auto.
    assert (existsb (antic st op) (seq n n) = true); [|congruence].
    apply existsb_exists. exists i. split; auto. apply in_seq; lia.
Qed.

Definition good_forced (forced : option Z) := forall f, forced = Some f -> f = 0%Z \/ f = 1%Z.

(** Everything about one measurement. *)
Lemma measure_sem n g k st op forced st' m k' v :
  wf n st -> 0 < n -> length (ops op) = n -> ops op <> repeat pid n -> good_forced forced ->
  measure g k st op forced = Ok (st', m, k') -> describes n st v ->
  wf n st' /\ describes n st' (project (denote op) m v) /\
  ((norm2 n (project (denote op) m v) = 4 * norm2 n v /\ k' = k /\ st' = st /\
    veq n (papply (denote op) v) (vscale (sgn m) v))%Z \/
   (forall m', norm2 n (project (denote op) m' v) = 2 * norm2 n v)%Z /\
   match forced with
   | Some f => m = (f =? 1)%Z /\ k' = k
   | None => m = d_bit (g k) /\ k' = S k
   end).
Proof.
  intros W Hn Ho Hid Hf HM HD. pose proof W as (L & F & C).
  destruct (measure_total n g k st op W Hn Ho Hid forced Hf) as (st1 & m1 & k1 & E & R & H1 & H2).
  rewrite HM in E. injection E as <- <- <-.
  split; [eapply meas_wf; eauto|].
  destruct (antic_dec n st op) as [(i & Hi & Ha)|Hall].
  - destruct R as [p Hp Hpa Hfirst L' N|scratch Hall _ _ _].
    + split. { eapply (rand_describes n st op p m st'); eauto. } right. split.
      * intros m'. rewrite describes_iff in HD by auto.
        apply (project_norm n (st@@p)); auto. apply F; lia.
      * destruct forced; apply H1; eauto.
    + rewrite Hall in Ha by auto. discriminate.
  - destruct (det_outcome n st op m st' v W Ho Hall R HD) as (-> & Heig).
    destruct (project_eigen n _ m v Heig) as [P1 _].
    split.
    + apply (describes_ext n st (vscale (mkZi 2 0) v)).
      intros; apply F; lia. auto. apply veq_sym; auto. apply describes_scale; auto.
    + left. split; [|split; auto]. rewrite (norm2_ext n _ _ P1), norm2_scale. reflexivity.
Qed.

(** An eigenvector decides the measurement. *)
Lemma stab_not_anti n a b v s : length (ops a) = n -> length (ops b) = n ->
  stabilises n (denote a) v -> veq n (papply (denote b) v) (vscale (sgn s) v) -> (norm2 n v <> 0)%Z ->
  symp (ops a) (ops b) = false.
Proof.
  intros Ha Hb Hs He Hv. destruct (symp (ops a) (ops b)) eqn:E; auto. exfalso. apply Hv.
  apply norm2_zero. intros x Hx.
  pose proof (papply_swap n a b v Ha Hb x Hx) as H. rewrite E in H. cbn [sgn] in H. unfold vscale in H.
  assert (X1 : papply (denote a) (papply (denote b) v) x = zimul (sgn s) (v x)).
  { rewrite (papply_ext n a _ (vscale (sgn s) v) Ha He x Hx). rewrite (papply_scale n a _ v Ha x Hx).
    unfold vscale. rewrite (Hs x Hx). auto. }
  assert (X2 : papply (denote b) (papply (denote a) v) x = zimul (sgn s) (v x)).
  { rewrite (papply_ext n b _ v Hb Hs x Hx). apply (He x Hx). }
  rewrite X1, X2 in H.
  pose proof (f_equal re H) as R. pose proof (f_equal im H) as I.
  destruct s; cbn [sgn zimul ziopp re im zi1 zi0] in R, I; apply Zi_eq; cbn [re im zi0]; lia.
Qed.

Lemma measure_eigen n g k st op forced v m :
  wf n st -> 0 < n -> length (ops op) = n -> ops op <> repeat pid n -> good_forced forced ->
  describes n st v -> (norm2 n v <> 0)%Z -> veq n (papply (denote op) v) (vscale (sgn m) v) ->
  measure g k st op forced = Ok (st, m, k).
Proof.
  intros W Hn Ho Hid Hf HD Hv He. pose proof W as (L & F & C).
  destruct (measure_total n g k st op W Hn Ho Hid forced Hf) as (st1 & m1 & k1 & E & R & _ & H2).
  assert (Hall : forall i, n <= i < 2 * n -> antic st op i = false).
  { intros i Hi. unfold antic. rewrite describes_iff in HD by auto.
    eapply (stab_not_anti n); eauto. apply F; lia. }
  rewrite E. rewrite (H2 Hall).
  destruct (det_outcome n st op m1 st1 v W Ho Hall R HD) as (-> & He1).
  assert (m1 = m); [|subst; auto].
  destruct (bool_dec m1 m) as [|Hne]; auto. exfalso. apply Hv. apply norm2_zero. intros x Hx.
  pose proof (He x Hx) as Q1. rewrite (He1 x Hx) in Q1. unfold vscale in Q1.
  pose proof (f_equal re Q1) as Rr. pose proof (f_equal im Q1) as Ii.
  destruct m, m1; try congruence; cbn [sgn zimul ziopp re im zi1] in Rr, Ii;
    apply Zi_eq; cbn [re im zi0]; lia.
Qed.

(** Repeatability. *)
Lemma StronglySorted_single l x : (forall i, In i l <-> i = x) -> Sorted.StronglySorted lt l -> l = [x].
Proof.
  intros H S. destruct l as [|a l]. exfalso. assert (In x []) by (apply H; auto). auto.
  assert (a = x) by (apply H; simpl; auto). subst.
  destruct l as [|b l]; auto. assert (b = x) by (apply H; simpl; auto). subst.
  inversion S; subst. inversion H3; subst. lia.
Qed.

Lemma measure_again n g k st op forced st' m k' :
  wf n st -> 0 < n -> length (ops op) = n -> ops op <> repeat pid n -> good_forced forced ->
  measure g k st op forced = Ok (st', m, k') ->
  forall g2 k2 forced2, good_forced forced2 -> measure g2 k2 st' op forced2 = Ok (st', m, k2).
Proof.
  intros W Hn Ho Hid Hf HM g2 k2 forced2 Hf2. pose proof W as (L & F & C).
  destruct (measure_total n g k st op W Hn Ho Hid forced Hf) as (st1 & m1 & k1 & E & R & _ & _).
  rewrite HM in E. injection E as <- <- <-.
  assert (W' : wf n st') by (eapply meas_wf; eauto).
  destruct (measure_total n g2 k2 st' op W' Hn Ho Hid forced2 Hf2) as (st2 & m2 & k2' & E2 & R2 & _ & H2).
  assert (Hall : forall i, n <= i < 2 * n -> antic st' op i = false).
  { intros i Hi. destruct R as [p Hp Hpa Hfirst L' N|scratch Hall -> _ _]; auto.
    unfold antic. assert (st'@@p = mkRow (ops op) (xorb (neg op) m)) as Ep.
    { rewrite N by lia. unfold rand_row. rewrite Nat.eqb_refl. auto. }
    destruct W' as (_ & _ & C'). specialize (C' i p ltac:(lia) ltac:(lia)). rewrite Ep in C'. cbn [ops] in C'.
    rewrite C'. unfold conj_rows. destruct (Nat.eqb_spec (i + n) p), (Nat.eqb_spec (p + n) i); auto; lia. }
  rewrite E2, (H2 Hall).
  destruct R2 as [p2 Hp2 Hpa2|scratch2 _ -> HE2 Hm2].
  { rewrite Hall in Hpa2 by auto. discriminate. }
  assert (m2 = m); [|subst; auto].
  destruct R as [p Hp Hpa Hfirst L' N|scratch Hall0 Est HE Hm].
  - assert (Ep : st'@@p = mkRow (ops op) (xorb (neg op) m)).
    { rewrite N by lia. unfold rand_row. rewrite Nat.eqb_refl. auto. }
    assert (Hnz : nonzero (map (fun r => commutator_sign r op) st') = [p - n]).
    { apply StronglySorted_single; [|apply nonzero_sorted].
      intros i. rewrite (nz_in n) by auto. unfold antic. split.
      - intros [Hi Ha]. destruct (Nat.le_gt_cases n i).
        + specialize (Hall i ltac:(lia)). unfold antic in Hall. congruence.
        + destruct W' as (_ & _ & C'). specialize (C' i p ltac:(lia) ltac:(lia)). rewrite Ep in C'. cbn [ops] in C'.
          rewrite C' in Ha. unfold conj_rows in Ha.
          destruct (Nat.eqb_spec (i + n) p), (Nat.eqb_spec (p + n) i); simpl in *; try lia; discriminate.
      - intros ->. split. lia. destruct W' as (_ & _ & C'). specialize (C' (p - n) p ltac:(lia) ltac:(lia)).
        rewrite Ep in C'. cbn [ops] in C'. rewrite C'. unfold conj_rows.
        destruct (Nat.eqb_spec (p - n + n) p); auto; lia. }
    rewrite Hnz in HE2. destruct W' as (L2 & F2 & C2).
    rewrite (scratch_fold n st' F2 L2) in HE2; cbn [ops].
    2: apply repeat_length. 2: intros i [<-|[]]; lia.
    cbn [fold_left] in HE2. replace (p - n + n) with p in HE2 by lia. rewrite Ep in HE2.
    injection HE2 as <-. rewrite Hm2. unfold mulrow; cbn [neg ops].
    assert (PE : phase_exponent (repeat (false, false) n) (ops op) = 0%Z).
    { clear. generalize (ops op). induction n; intros [|[a b] o]; simpl; auto. }
    rewrite PE. change (2 <=? 0 mod 4)%Z with false. rewrite xorb_false_l, xorb_false_r.
    destruct (neg op), m; auto.
  - subst st'. rewrite HE in HE2. injection HE2 as <-. congruence.
Qed.

(** Every valid tableau describes a non-zero vector. *)
Lemma papply_nonzero n r v : length (ops r) = n -> (norm2 n v <> 0)%Z -> (norm2 n (papply (denote r) v) <> 0)%Z.
Proof. intros H Hv. rewrite norm2_papply; auto. Qed.

Lemma exists_described_upto n st : wf n st -> forall j, j <= n ->
  exists v, (norm2 n v <> 0)%Z /\ forall i, i < j -> stabilises n (denote (st@@(i + n))) v.
Proof.
  intros (L & F & C). induction j as [|j IH]; intros Hj.
  - exists ket0. split; [|intros; lia]. intros E. rewrite norm2_zero in E.
    specialize (E (repeat false n) (repeat_length _ _)). unfold ket0 in E.
    replace (forallb negb (repeat false n)) with true in E. discriminate.
    clear. induction n; simpl; auto.
  - destruct IH as (v & Hv & Hs). lia.
    set (S := st@@(j + n)). set (D := st@@j).
    assert (LS : length (ops S) = n) by (apply F; lia). assert (LD : length (ops D) = n) by (apply F; lia).
    destruct (Z.eq_dec (norm2 n (project (denote S) false v)) 0) as [Z0|NZ].
    + exists (papply (denote D) v). split. apply papply_nonzero; auto.
      assert (EV : veq n (papply (denote S) v) (vscale (ziopp zi1) v)).
      { rewrite norm2_zero in Z0. intros a Ha. specialize (Z0 a Ha). unfold project, vadd, vscale in *.
        cbn [sgn] in Z0. pose proof (f_equal re Z0) as R; pose proof (f_equal im Z0) as I.
        cbn [ziadd zimul re im zi0 zi1 ziopp] in *. apply Zi_eq; cbn [zimul re im ziopp zi1]; lia. }
      intros i Hi. unfold stabilises.
      assert (LSi : length (ops (st@@(i+n))) = n) by (apply F; lia).
      eapply veq_trans. apply papply_swap; auto.
      unfold D. rewrite C by lia. unfold conj_rows.
      destruct (Nat.eqb_spec (i + n + n) j); try lia. cbn [orb].
      destruct (Nat.eqb_spec (j + n) (i + n)).
      * assert (i = j) by lia. subst i. cbn [sgn].
        eapply veq_trans. apply vscale_ext. apply papply_ext; eauto.
        eapply veq_trans. apply vscale_ext. apply papply_scale; auto.
        intros a _. unfold vscale. ring.
      * cbn [sgn]. eapply veq_trans. apply vscale_ext. apply papply_ext; auto. apply Hs. lia.
        intros a _. unfold vscale. ring.
    + exists (project (denote S) false v). split; auto.
      intros i Hi. destruct (Nat.eq_dec i j) as [->|Hne].
      * fold S. pose proof (project_new n S false v LS) as P. rewrite xorb_false_r in P.
        destruct S; auto.
      * apply project_keep; auto. apply F; lia.
        unfold S. rewrite C by lia. unfold conj_rows.
        destruct (Nat.eqb_spec (i + n + n) (j + n)), (Nat.eqb_spec (j + n + n) (i + n)); auto; lia.
        apply Hs; lia.
Qed.

Lemma exists_described n st : wf n st -> exists v, (norm2 n v <> 0)%Z /\ describes n st v.
Proof.
  intros W. destruct (exists_described_upto n st W n (le_n _)) as (v & Hv & Hs).
  exists v. split; auto. pose proof W as (L & _). apply describes_iff; auto.
  intros i Hi. replace i with (i - n + n) by lia. apply Hs. lia.
Qed.
