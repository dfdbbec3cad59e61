(** Lemmas: measure and reset. *)
Require Import List Bool Arith ZArith Lia Ring Sorted.
From Verif Require Import Base BaseProofs QSpec PauliModel PauliSem PauliProofs PauliAlg TableauProofs.
Import ListNotations.

(** * nonzero *)
Lemma nonzero_in l i : In i (nonzero l) <-> i < length l /\ nth i l false = true.
Proof. unfold nonzero. rewrite filter_In, in_seq. split; intros [H1 H2]; split; auto; lia. Qed.

Lemma sorted_filter f l : StronglySorted lt l -> StronglySorted lt (filter f l).
Proof.
  induction 1; simpl. constructor. destruct (f a); auto. constructor; auto.
  rewrite Forall_forall in *. intros x Hx. apply filter_In in Hx. apply H0, Hx.
Qed.

Lemma sorted_seq n : forall s, StronglySorted lt (seq s n).
Proof.
  induction n; intros s; simpl; constructor; auto. apply Forall_forall. intros x Hx.
  apply in_seq in Hx. lia.
Qed.

Lemma nonzero_sorted l : StronglySorted lt (nonzero l).
Proof. apply sorted_filter, sorted_seq. Qed.

Lemma sorted_NoDup l : StronglySorted lt l -> NoDup l.
Proof.
  induction 1; constructor; auto. rewrite Forall_forall in H0. intros Hin. specialize (H0 _ Hin). lia.
Qed.

Lemma sorted_app_last l x : StronglySorted lt (l ++ [x]) -> forall y, In y l -> y < x.
Proof.
  induction l; simpl; intros H y Hy. tauto. inversion H; subst. destruct Hy as [<-|Hy]; auto.
  rewrite Forall_forall in H3. apply H3. apply in_app_iff; simpl; auto.
Qed.

Lemma rev_last_max l x r : StronglySorted lt l -> rev l = x :: r ->
  In x l /\ forall y, In y l -> y <= x.
Proof.
  intros HS HR. assert (E : l = rev r ++ [x]).
  { rewrite <- (rev_involutive l), HR. auto. }
  split. rewrite E. apply in_app_iff; simpl; auto.
  intros y Hy. rewrite E in Hy, HS. apply in_app_iff in Hy. destruct Hy as [Hy|[<-|[]]]; auto.
  apply (sorted_app_last _ _ HS) in Hy. lia.
Qed.

(** * The row operations of a random measurement *)
Lemma mul_into_ok p st i : length (ops (st@@p)) = length (ops (st@@i)) ->
  mul_into p st i = Ok (upd i (mulrow (st@@p) (st@@i)) st).
Proof. intros H. unfold mul_into. rewrite multiply_pair by auto. reflexivity. Qed.

Definition memb (i : nat) (l : list nat) : bool := existsb (Nat.eqb i) l.
Lemma memb_iff i l : memb i l = true <-> In i l.
Proof.
  unfold memb. rewrite existsb_exists. split.
  - intros (x & Hx & E). apply Nat.eqb_eq in E. subst; auto.
  - intros H. exists i. split; auto. apply Nat.eqb_refl.
Qed.
Lemma memb_false i l : memb i l = false <-> ~ In i l.
Proof. rewrite <- memb_iff. destruct (memb i l); split; congruence. Qed.

Lemma mul_fold n p : forall others st,
  length st = 2 * n -> (forall i, i < 2 * n -> length (ops (st@@i)) = n) -> p < 2 * n ->
  NoDup others -> ~ In p others -> (forall i, In i others -> i < 2 * n) ->
  exists st1, foldR (mul_into p) others st = Ok st1 /\ length st1 = 2 * n /\
    forall i, i < 2 * n -> st1@@i = if memb i others then mulrow (st@@p) (st@@i) else st@@i.
Proof.
  induction others as [|j others IH]; intros st L F Hp ND Hnp Hlt.
  - exists st. simpl. auto.
  - inversion ND as [|? ? Hj ND']; subst. simpl in *.
    assert (j < 2 * n) by auto.
    rewrite mul_into_ok by (rewrite !F; auto). cbn [bindR].
    set (st' := upd j (mulrow (st@@p) (st@@j)) st).
    assert (L' : length st' = 2 * n) by (unfold st'; rewrite length_upd; auto).
    assert (N : forall i, i < 2 * n -> st'@@i = if i =? j then mulrow (st@@p) (st@@j) else st@@i).
    { intros i Hi. unfold st'. rewrite nth_upd. rewrite (Nat.eqb_sym j i).
      destruct (Nat.eqb_spec i j); simpl; auto. destruct (Nat.ltb_spec j (length st)); auto; lia. }
    assert (F' : forall i, i < 2 * n -> length (ops (st'@@i)) = n).
    { intros i Hi. rewrite N by auto. destruct (i =? j); auto. rewrite length_mulrow; auto. rewrite !F; auto. }
    destruct (IH st' L' F' Hp ND' ltac:(tauto) ltac:(auto)) as (st1 & E & L1 & N1).
    exists st1. split; auto. split; auto. intros i Hi. rewrite N1 by auto. rewrite !N by auto.
    replace (p =? j) with false by (symmetry; apply Nat.eqb_neq; intuition).
    unfold memb; simpl. fold (memb i others).
    destruct (Nat.eqb_spec i j); simpl; auto. subst i.
    replace (memb j others) with false; auto. symmetry. apply memb_false; auto.
Qed.

Lemma commsign_row n st op i : length st = 2 * n -> (forall i, i < 2 * n -> length (ops (st@@i)) = n) ->
  length (ops op) = n -> i < 2 * n ->
  nth i (map (fun r => commutator_sign r op) st) false = symp (ops (st@@i)) (ops op).
Proof.
  intros L F Ho Hi.
  rewrite (nth_indep _ false ((fun r => commutator_sign r op) row0)) by (rewrite map_length; lia).
  rewrite (map_nth (fun r => commutator_sign r op)). apply commutator_sign_symp. rewrite F; auto.
Qed.

Definition antic (st : tableau) (op : row) (i : nat) : bool := symp (ops (st@@i)) (ops op).

Lemma nz_in_rows n st op i : length st = 2 * n -> (forall i, i < 2 * n -> length (ops (st@@i)) = n) ->
  length (ops op) = n ->
  (In i (nonzero (map (fun r => commutator_sign r op) st)) <-> i < 2 * n /\ antic st op i = true).
Proof.
  intros L F Ho. rewrite nonzero_in, map_length.
  rewrite L. split; intros [H1 H2]; split; auto;
    unfold antic in *; rewrite ?(commsign_row n st op i) in *; auto.
Qed.

Lemma nz_in n st op i : wf n st -> length (ops op) = n ->
  (In i (nonzero (map (fun r => commutator_sign r op) st)) <-> i < 2 * n /\ antic st op i = true).
Proof. intros (L & F & _) Ho. apply nz_in_rows; auto. Qed.

(** The state after a random measurement, row by row. *)
Definition rand_row (n : nat) (st : tableau) (op : row) (p : nat) (m : bool) (i : nat) : row :=
  if i =? p then mkRow (ops op) (xorb (neg op) m)
  else if i =? p - n then st@@p
  else if antic st op i then mulrow (st@@p) (st@@i) else st@@i.

Inductive meas_result (n : nat) (st : tableau) (op : row) (m : bool) (st' : tableau) : Prop :=
| MRandom p : n <= p < 2 * n -> antic st op p = true ->
    (forall i, n <= i < p -> antic st op i = false) ->
    length st' = 2 * n ->
    (forall i, i < 2 * n -> st'@@i = rand_row n st op p m i) ->
    meas_result n st op m st'
| MDet scratch : (forall i, n <= i < 2 * n -> antic st op i = false) ->
    st' = st ->
    foldR (scratch_step st n) (nonzero (map (fun r => commutator_sign r op) st))
          (mkRow (repeat (false, false) n) false) = Ok scratch ->
    m = negb (eqb (neg scratch) (neg op)) ->
    meas_result n st op m st'.

Lemma scratch_fold n st : (forall i, i < 2 * n -> length (ops (st@@i)) = n) -> length st = 2 * n ->
  forall l s, length (ops s) = n -> (forall i, In i l -> i < n) ->
  foldR (scratch_step st n) l s = Ok (fold_left (fun s i => mulrow s (st@@(i + n))) l s).
Proof.
  intros F L. induction l as [|i l IH]; intros s Hs Hl; simpl; auto.
  assert (i < n) by (apply Hl; simpl; auto).
  unfold scratch_step at 1. rewrite multiply_pair by (rewrite F; lia). cbn [bindR fst].
  apply IH. rewrite length_mulrow; rewrite ?F by lia; lia. intros; apply Hl; simpl; auto.
Qed.

Lemma measure_total_rows n g k st op : length st = 2 * n -> (forall i, i < 2 * n -> length (ops (st@@i)) = n) ->
  0 < n -> length (ops op) = n -> (exists j, j < 2 * n /\ antic st op j = true) ->
  forall forced, (forall f, forced = Some f -> f = 0%Z \/ f = 1%Z) ->
  exists st' m k', measure g k st op forced = Ok (st', m, k') /\ meas_result n st op m st' /\
    (* forced outcome is honoured, otherwise the generator decides *)
    ((exists i, n <= i < 2 * n /\ antic st op i = true) ->
       match forced with
       | Some f => m = (f =? 1)%Z /\ k' = k
       | None => m = d_bit (g k) /\ k' = S k
       end) /\
    ((forall i, n <= i < 2 * n -> antic st op i = false) -> k' = k).
Proof.
  intros L F Hn Ho (j & Hj & Ej) forced Hf.
  assert (EN : nqubits st = n).
  { destruct st as [|r st0]; simpl in *. lia. apply (F 0). lia. }
  unfold measure. rewrite EN.
  rewrite Ho, Nat.eqb_refl. cbn [negb].
  pose proof (nonzero_sorted (map (fun r => commutator_sign r op) st)) as SS.
  pose proof (fun i => nz_in_rows n st op i L F Ho) as NZ.
  set (nz := nonzero (map (fun r => commutator_sign r op) st)) in *.
  destruct (rev nz) as [|last rest] eqn:ER.
  { exfalso. assert (I : In j nz) by (apply NZ; split; auto).
    apply (f_equal (@rev nat)) in ER. rewrite rev_involutive in ER. rewrite ER in I. destruct I. }
  destruct (rev_last_max nz last rest SS ER) as [Hlin Hlmax].
  destruct (Nat.leb_spec n last) as [Hl|Hl].
  - pose proof (sorted_filter (fun i => n <=? i) nz SS) as SF.
    assert (Ilast : In last (filter (fun i => n <=? i) nz)).
    { apply filter_In. split; auto. apply Nat.leb_le; auto. }
    destruct (filter (fun i => n <=? i) nz) as [|p rest'] eqn:EF. destruct Ilast.
    assert (Hp : In p nz /\ n <= p).
    { assert (I : In p (p :: rest')) by (simpl; auto). rewrite <- EF in I. apply filter_In in I.
      destruct I as [I1 I2]. apply Nat.leb_le in I2. auto. }
    destruct Hp as [Hpnz Hnp]. apply NZ in Hpnz as Hp'. destruct Hp' as [Hp2 Hpa].
    destruct (mul_fold n p (filter (fun i => negb (i =? p)) nz) st) as (st1 & E1 & L1 & N1); auto.
    { apply NoDup_filter, sorted_NoDup; auto. }
    { intros I. apply filter_In in I. rewrite Nat.eqb_refl in I. destruct I; discriminate. }
    { intros i I. apply filter_In in I. apply NZ, I. }
    rewrite E1. cbn [bindR].
    assert (Hmk : exists m k', match forced with
                       | Some f => if (f =? 0)%Z then Ok (false, k)
                                   else if (f =? 1)%Z then Ok (true, k)
                                   else Err ValueError
                       | None => Ok (d_bit (g k), S k)
                       end = Ok (m, k') /\
       match forced with
       | Some f => m = (f =? 1)%Z /\ k' = k
       | None => m = d_bit (g k) /\ k' = S k
       end).
    { destruct forced as [f|]; [|eauto]. destruct (Hf f eq_refl); subst; simpl; eauto. }
    destruct Hmk as (m & k' & -> & Hm). cbn [bindR fst snd].
    eexists _, m, k'. split; [reflexivity|]. split; [|split; auto].
    + apply (MRandom _ _ _ _ _ p); auto.
      * intros i Hi. destruct (antic st op i) eqn:EA; auto. exfalso.
        assert (I : In i (p :: rest')).
        { rewrite <- EF. apply filter_In. split. apply NZ. split; auto; lia. apply Nat.leb_le; lia. }
        inversion SF as [|? ? SF1 SF2]; subst. destruct I as [<-|I]; [lia|].
        rewrite Forall_forall in SF2. specialize (SF2 _ I). lia.
      * rewrite !length_upd; auto.
      * intros i Hi. unfold rand_row. rewrite !nth_upd, !length_upd, L1.
        rewrite (Nat.eqb_sym p i), (Nat.eqb_sym (p - n) i).
        destruct (Nat.ltb_spec p (2 * n)); [|lia]. destruct (Nat.ltb_spec (p - n) (2 * n)); [|lia].
        rewrite !andb_true_r.
        destruct (Nat.eqb_spec i p); auto.
        assert (Mp : memb p (filter (fun i => negb (i =? p)) nz) = false).
        { apply memb_false. intros I. apply filter_In in I. rewrite Nat.eqb_refl in I. destruct I; discriminate. }
        rewrite !N1 by auto. rewrite Mp.
        destruct (Nat.eqb_spec i (p - n)); auto.
        replace (memb i (filter (fun i0 => negb (i0 =? p)) nz)) with (antic st op i); auto.
        destruct (antic st op i) eqn:EA.
        -- symmetry. apply memb_iff. apply filter_In. split. apply NZ; auto.
           apply negb_true_iff, Nat.eqb_neq; auto.
        -- symmetry. apply memb_false. intros I. apply filter_In in I. destruct I as [I _].
           apply NZ in I. destruct I. congruence.
    + intros Hall. rewrite Hall in Hpa by lia. discriminate.
  - assert (Hall : forall i, n <= i < 2 * n -> antic st op i = false).
    { intros i Hi. destruct (antic st op i) eqn:EA; auto. exfalso.
      assert (I : In i nz) by (apply NZ; split; auto; lia). specialize (Hlmax i I). lia. }
    assert (Hsm : forall i, In i nz -> i < n).
    { intros i I. specialize (Hlmax i I). lia. }
    pose proof (scratch_fold n st F L nz (mkRow (repeat (false, false) n) false)
                  (repeat_length _ _) Hsm) as E.
    rewrite E. cbn [bindR].
    eexists st, _, k. split; [reflexivity|]. split; [|split; auto].
    + eapply (MDet _ _ _ _ _ _ Hall eq_refl E). auto.
    + intros (i & Hi & EA). rewrite Hall in EA by auto. discriminate.
Qed.

Lemma measure_total n g k st op : wf n st -> 0 < n -> length (ops op) = n ->
  ops op <> repeat pid n ->
  forall forced, (forall f, forced = Some f -> f = 0%Z \/ f = 1%Z) ->
  exists st' m k', measure g k st op forced = Ok (st', m, k') /\ meas_result n st op m st' /\
    (* forced outcome is honoured, otherwise the generator decides *)
    ((exists i, n <= i < 2 * n /\ antic st op i = true) ->
       match forced with
       | Some f => m = (f =? 1)%Z /\ k' = k
       | None => m = d_bit (g k) /\ k' = S k
       end) /\
    ((forall i, n <= i < 2 * n -> antic st op i = false) -> k' = k).
Proof.
  intros W Hn Ho Hid forced Hf. pose proof W as (L & F & C).
  apply measure_total_rows; auto.
  destruct (existsb (antic st op) (seq 0 (2 * n))) eqn:E.
  - apply existsb_exists in E. destruct E as (j & Hj & E). apply in_seq in Hj. exists j. split; auto; lia.
  - exfalso. apply Hid. apply (nondegenerate n st W); auto. intros j Hj.
    destruct (symp (ops op) (ops (st@@j))) eqn:E'; auto.
    assert (existsb (antic st op) (seq 0 (2 * n)) = true); [|congruence].
    apply existsb_exists. exists j. split. apply in_seq; lia. unfold antic. rewrite symp_comm; auto.
Qed.

(** * Deterministic case *)
Lemma symp_fold n st w : (forall i, i < 2 * n -> length (ops (st@@i)) = n) -> length w = n ->
  forall l s, length (ops s) = n -> (forall i, In i l -> i < n) ->
  symp (ops (fold_left (fun s i => mulrow s (st@@(i + n))) l s)) w =
  xorb (symp (ops s) w) (fold_right xorb false (map (fun i => symp (ops (st@@(i + n))) w) l)).
Proof.
  intros F Hw. induction l as [|i l IH]; intros s Hs Hl.
  - simpl. destruct (symp (ops s) w); auto.
  - assert (i < n) by (apply Hl; simpl; auto). cbn [fold_left].
    rewrite IH.
    + unfold mulrow; cbn [ops]. rewrite symp_xor_l by (rewrite ?F by lia; lia).
      cbn [map fold_right]. rewrite <- !xorb_assoc. auto.
    + rewrite length_mulrow; rewrite ?F by lia; lia.
    + intros; apply Hl; simpl; auto.
Qed.

Lemma length_fold n st : (forall i, i < 2 * n -> length (ops (st@@i)) = n) ->
  forall l s, length (ops s) = n -> (forall i, In i l -> i < n) ->
  length (ops (fold_left (fun s i => mulrow s (st@@(i + n))) l s)) = n.
Proof.
  intros F. induction l as [|i l IH]; intros s Hs Hl; auto. cbn [fold_left].
  assert (i < n) by (apply Hl; simpl; auto).
  apply IH. rewrite length_mulrow; rewrite ?F by lia; lia. intros; apply Hl; simpl; auto.
Qed.

Lemma xor_indicator (f : nat -> bool) j l : NoDup l -> (forall i, In i l -> f i = (i =? j)) ->
  fold_right xorb false (map f l) = memb j l.
Proof.
  intros ND H. induction l as [|i l IH]; simpl; auto.
  inversion ND; subst. rewrite IH by (auto; intros; apply H; simpl; auto).
  rewrite H by (simpl; auto).
  unfold memb; simpl. fold (memb j l). rewrite (Nat.eqb_sym j i).
  destruct (Nat.eqb_spec i j).
  - subst. replace (memb j l) with false; auto. symmetry; apply memb_false; auto.
  - apply xorb_false_l.
Qed.

Lemma xor_all_false {A} (f : A -> bool) l : (forall a, In a l -> f a = false) ->
  fold_right xorb false (map f l) = false.
Proof. intros H; induction l; simpl; auto. rewrite H, IHl; simpl; auto. intros; apply H; simpl; auto. Qed.

(** A product of stabilisers: it fixes every vector the stabilisers fix. *)
Lemma fold_stabilises n st v : wf n st ->
  (forall i, n <= i < 2 * n -> stabilises n (denote (st@@i)) v) ->
  forall l s, length (ops s) = n -> (forall i, In i l -> i < n) ->
  (forall i, n <= i < 2 * n -> symp (ops s) (ops (st@@i)) = false) ->
  stabilises n (denote s) v ->
  stabilises n (denote (fold_left (fun s i => mulrow s (st@@(i + n))) l s)) v.
Proof.
  intros (L & F & C) HD. induction l as [|i l IH]; intros s Hs Hl Hc Hsv; auto.
  assert (i < n) by (apply Hl; simpl; auto). cbn [fold_left].
  assert (Fi : length (ops (st@@(i + n))) = n) by (apply F; lia).
  apply IH.
  - rewrite length_mulrow; auto. lia.
  - intros; apply Hl; simpl; auto.
  - intros j Hj. assert (Fj : length (ops (st@@j)) = n) by (apply F; lia).
    unfold mulrow; cbn [ops]. rewrite symp_xor_l by lia.
    rewrite Hc by auto. rewrite C by lia. unfold conj_rows.
    destruct (Nat.eqb_spec (i + n + n) j), (Nat.eqb_spec (j + n) (i + n)); auto; lia.
  - unfold stabilises in *. pose proof (mulrow_product n s (st@@(i + n)) v Hs Fi) as HM.
    rewrite Hc in HM by lia.
    eapply veq_trans. 2: { eapply veq_trans. 2: apply Hsv. apply papply_ext; auto. apply (HD (i + n)); lia. }
    apply veq_sym. eapply veq_trans. apply HM. intros a Ha. unfold vscale. ring.
Qed.

Lemma det_outcome n st op m st' v : wf n st -> length (ops op) = n ->
  (forall i, n <= i < 2 * n -> antic st op i = false) ->
  meas_result n st op m st' -> describes n st v ->
  st' = st /\ veq n (papply (denote op) v) (vscale (sgn m) v).
Proof.
  intros W Ho Hall HR HD. pose proof W as (L & F & C).
  destruct HR as [p Hp Hpa|scratch _ Hst HE Hm].
  { rewrite Hall in Hpa by auto. discriminate. }
  split; auto. clear Hst.
  rewrite describes_iff in HD by auto.
  pose proof (fun i => nz_in n st op i W Ho) as NZ.
  pose proof (sorted_NoDup _ (nonzero_sorted (map (fun r => commutator_sign r op) st))) as ND.
  set (nz := nonzero (map (fun r => commutator_sign r op) st)) in *.
  assert (Hsm : forall i, In i nz -> i < n).
  { intros i I. apply NZ in I. destruct I as [I1 I2]. destruct (Nat.lt_ge_cases i n); auto.
    rewrite Hall in I2 by lia. discriminate. }
  set (s0 := mkRow (repeat (false, false) n) false) in *.
  assert (Hs0 : length (ops s0) = n) by apply repeat_length.
  rewrite (scratch_fold n st F L nz s0 Hs0 Hsm) in HE. injection HE as HE.
  set (sc := fold_left (fun s i => mulrow s (st@@(i + n))) nz s0) in *. subst scratch.
  assert (Lsc : length (ops sc) = n) by (apply length_fold; auto).
  assert (Eo : ops sc = ops op).
  { assert (X : xor_ops (ops sc) (ops op) = repeat pid n).
    { apply (nondegenerate n st W). rewrite length_xor_ops; lia. intros j Hj.
      rewrite symp_xor_l by (rewrite ?F by lia; lia).
      unfold sc. rewrite (symp_fold n st (ops (st@@j)) F (F j Hj)) by auto.
      unfold s0 at 1; cbn [ops]. fold pid. rewrite symp_id_l, xorb_false_l.
      rewrite (symp_comm (ops op)). change (symp (ops (st@@j)) (ops op)) with (antic st op j).
      destruct (Nat.lt_ge_cases j n) as [Hjn|Hjn].
      - rewrite (xor_indicator _ j nz ND).
        + destruct (antic st op j) eqn:EA.
          * assert (In j nz) by (apply NZ; auto). rewrite (proj2 (memb_iff j nz)); auto.
          * rewrite (proj2 (memb_false j nz)); auto. intros I. apply NZ in I. destruct I; congruence.
        + intros i I. specialize (Hsm i I). rewrite C by lia. unfold conj_rows.
          destruct (Nat.eqb_spec (i + n + n) j), (Nat.eqb_spec (j + n) (i + n)), (Nat.eqb_spec i j); auto; lia.
      - rewrite Hall by lia. rewrite xor_all_false; auto. intros i I. specialize (Hsm i I).
        rewrite C by lia. unfold conj_rows.
        destruct (Nat.eqb_spec (i + n + n) j), (Nat.eqb_spec (j + n) (i + n)); auto; lia. }
    transitivity (xor_ops (xor_ops (ops sc) (ops op)) (ops op)).
    - rewrite <- xor_ops_assoc, xor_ops_self, Ho, xor_ops_id_r; auto.
    - rewrite X, xor_ops_id_l; auto. }
  assert (Hsv : stabilises n (denote sc) v).
  { apply (fold_stabilises n st v W HD nz s0); auto.
    - intros i Hi. unfold s0; cbn [ops]. fold pid. apply symp_id_l.
    - unfold stabilises, s0. eapply veq_trans. apply papply_id. intros a Ha. unfold vscale; simpl; ring. }
  intros a Ha. specialize (Hsv a Ha). rewrite papply_closed in Hsv by lia.
  rewrite papply_closed by lia. rewrite Eo in Hsv. unfold vscale. rewrite <- Hsv. subst m.
  destruct (neg sc), (neg op); simpl; ring.
Qed.

(** * Random case *)
Lemma rand_wf n st op p m st' : wf n st -> length (ops op) = n ->
  n <= p < 2 * n -> antic st op p = true -> length st' = 2 * n ->
  (forall i, i < 2 * n -> st'@@i = rand_row n st op p m i) -> wf n st'.
Proof.
  intros (L & F & C) Ho Hp Hpa L' N.
  assert (Fp : length (ops (st@@p)) = n) by (apply F; lia).
  split; auto. split.
  - intros i Hi. rewrite N by auto. unfold rand_row.
    destruct (i =? p); auto. destruct (i =? p - n); auto. destruct (antic st op i); auto.
    rewrite length_mulrow; rewrite ?F by lia; lia.
  - assert (Anti : forall i, i < 2 * n -> i <> p -> i <> p - n ->
               symp (ops (rand_row n st op p m i)) (ops op) = false).
    { intros i Hi H1 H2. unfold rand_row.
      destruct (Nat.eqb_spec i p); [lia|]. destruct (Nat.eqb_spec i (p - n)); [lia|].
      destruct (antic st op i) eqn:EA; auto. unfold mulrow; cbn [ops].
      rewrite symp_xor_l by (rewrite ?F by lia; lia). unfold antic in *. rewrite Hpa, EA. auto. }
    assert (ComP : forall i, i < 2 * n -> i <> p -> i <> p - n ->
               symp (ops (rand_row n st op p m i)) (ops (st@@p)) = false).
    { intros i Hi H1 H2. unfold rand_row.
      destruct (Nat.eqb_spec i p); [lia|]. destruct (Nat.eqb_spec i (p - n)); [lia|].
      assert (E : symp (ops (st@@i)) (ops (st@@p)) = false).
      { rewrite C by lia. unfold conj_rows.
        destruct (Nat.eqb_spec (i + n) p), (Nat.eqb_spec (p + n) i); auto; lia. }
      destruct (antic st op i) eqn:EA; auto. unfold mulrow; cbn [ops].
      rewrite symp_xor_l by (rewrite ?F by lia; lia). rewrite symp_self, E. auto. }
    assert (Com : forall i j, i < 2 * n -> j < 2 * n -> i <> p -> i <> p - n -> j <> p -> j <> p - n ->
               symp (ops (rand_row n st op p m i)) (ops (rand_row n st op p m j)) = conj_rows n i j).
    { intros i j Hi Hj H1 H2 H3 H4.
      assert (E : forall i, i < 2 * n -> i <> p -> i <> p - n ->
         exists b, ops (rand_row n st op p m i) = if b : bool then xor_ops (ops (st@@p)) (ops (st@@i)) else ops (st@@i)).
      { intros k Hk H5 H6. unfold rand_row. destruct (Nat.eqb_spec k p); [lia|].
        destruct (Nat.eqb_spec k (p - n)); [lia|]. exists (antic st op k).
        destruct (antic st op k); auto. }
      pose proof (ComP i Hi H1 H2) as CP.
      destruct (E i Hi H1 H2) as (bi & Ei). destruct (E j Hj H3 H4) as (bj & Ej).
      assert (Pi : symp (ops (st@@p)) (ops (st@@i)) = false).
      { rewrite C by lia. unfold conj_rows.
        destruct (Nat.eqb_spec (p + n) i), (Nat.eqb_spec (i + n) p); auto; lia. }
      assert (Pj : symp (ops (st@@p)) (ops (st@@j)) = false).
      { rewrite C by lia. unfold conj_rows.
        destruct (Nat.eqb_spec (p + n) j), (Nat.eqb_spec (j + n) p); auto; lia. }
      rewrite Ei, Ej. rewrite <- (C i j) by auto.
      assert (Fi := F i Hi). assert (Fj := F j Hj).
      destruct bi, bj; rewrite ?symp_xor_l, ?symp_xor_r by (rewrite ?length_xor_ops; lia);
        rewrite ?symp_self, ?Pi, ?Pj, ?(symp_comm (ops (st@@i)) (ops (st@@p))), ?Pi; auto;
        destruct (symp (ops (st@@i)) (ops (st@@j))); auto. }
    intros i j Hi Hj. rewrite !N by auto.
    assert (Rp : ops (rand_row n st op p m p) = ops op) by (unfold rand_row; rewrite Nat.eqb_refl; auto).
    assert (Rd : ops (rand_row n st op p m (p - n)) = ops (st@@p)).
    { unfold rand_row. destruct (Nat.eqb_spec (p - n) p); [lia|]. rewrite Nat.eqb_refl; auto. }
    unfold antic in Hpa.
    destruct (Nat.eq_dec i p) as [->|Hip].
    { rewrite Rp. destruct (Nat.eq_dec j p) as [->|Hjp].
      { rewrite Rp, symp_self. unfold conj_rows. destruct (Nat.eqb_spec (p + n) p); auto; lia. }
      destruct (Nat.eq_dec j (p - n)) as [->|Hjd].
      { rewrite Rd, symp_comm, Hpa. unfold conj_rows.
        destruct (Nat.eqb_spec (p - n + n) p); rewrite ?orb_true_r; auto; lia. }
      rewrite symp_comm, Anti by auto. unfold conj_rows.
      destruct (Nat.eqb_spec (p + n) j), (Nat.eqb_spec (j + n) p); auto; lia. }
    destruct (Nat.eq_dec i (p - n)) as [->|Hid].
    { rewrite Rd. destruct (Nat.eq_dec j p) as [->|Hjp].
      { rewrite Rp, Hpa. unfold conj_rows. destruct (Nat.eqb_spec (p - n + n) p); auto; lia. }
      destruct (Nat.eq_dec j (p - n)) as [->|Hjd].
      { rewrite Rd, symp_self. unfold conj_rows. destruct (Nat.eqb_spec (p - n + n) (p - n)); auto; lia. }
      rewrite symp_comm, ComP by auto. unfold conj_rows.
      destruct (Nat.eqb_spec (p - n + n) j), (Nat.eqb_spec (j + n) (p - n)); auto; lia. }
    destruct (Nat.eq_dec j p) as [->|Hjp].
    { rewrite Rp, Anti by auto. unfold conj_rows.
      destruct (Nat.eqb_spec (i + n) p), (Nat.eqb_spec (p + n) i); auto; lia. }
    destruct (Nat.eq_dec j (p - n)) as [->|Hjd].
    { rewrite Rd, ComP by auto. unfold conj_rows.
      destruct (Nat.eqb_spec (i + n) (p - n)), (Nat.eqb_spec (p - n + n) i); auto; lia. }
    apply Com; auto.
Qed.

Lemma project_keep n S P m v : length (ops S) = n -> length (ops P) = n ->
  symp (ops S) (ops P) = false -> stabilises n (denote S) v ->
  stabilises n (denote S) (project (denote P) m v).
Proof.
  intros HS HP Hc Hv. unfold stabilises, project in *.
  eapply veq_trans. apply papply_add; auto. apply vadd_ext; auto.
  eapply veq_trans. apply papply_scale; auto. apply vscale_ext.
  eapply veq_trans. apply (papply_swap n); auto. rewrite Hc.
  eapply veq_trans. apply vscale_ext. apply papply_ext; eauto. intros a Ha; unfold vscale; simpl; ring.
Qed.

Lemma project_new n P m v : length (ops P) = n ->
  stabilises n (denote (mkRow (ops P) (xorb (neg P) m))) (project (denote P) m v).
Proof.
  intros HP. unfold stabilises.
  assert (E : forall w, veq n (papply (denote (mkRow (ops P) (xorb (neg P) m))) w)
                              (vscale (sgn m) (papply (denote P) w))).
  { intros w a Ha. unfold vscale. rewrite !papply_closed by (cbn [ops]; lia). cbn [ops neg].
    rewrite <- sgn_mul. ring. }
  eapply veq_trans. apply E. unfold project.
  intros a Ha. unfold vscale at 1. rewrite (papply_add n) by auto. unfold vadd at 1 2.
  rewrite (papply_scale n) by auto. unfold vscale at 1.
  rewrite (papply_invol n) by auto. unfold vscale.
  transitivity (ziadd (zimul (sgn m) (papply (denote P) v a)) (zimul (zimul (sgn m) (sgn m)) (v a))).
  ring. rewrite sgn_sq. ring.
Qed.

Lemma mul_stabilises n a b v : length (ops a) = n -> length (ops b) = n ->
  symp (ops a) (ops b) = false -> stabilises n (denote a) v -> stabilises n (denote b) v ->
  stabilises n (denote (mulrow a b)) v.
Proof.
  intros Ha Hb Hs H1 H2. unfold stabilises in *.
  pose proof (mulrow_product n a b v Ha Hb) as HM. rewrite Hs in HM.
  eapply veq_trans. 2: { eapply veq_trans. 2: apply H1. apply papply_ext; eauto. }
  apply veq_sym. eapply veq_trans. apply HM. intros x Hx. unfold vscale. ring.
Qed.

Lemma rand_describes n st op p m st' v : wf n st -> length (ops op) = n ->
  n <= p < 2 * n -> antic st op p = true -> length st' = 2 * n ->
  (forall i, i < 2 * n -> st'@@i = rand_row n st op p m i) ->
  describes n st v -> describes n st' (project (denote op) m v).
Proof.
  intros (L & F & C) Ho Hp Hpa L' N HD. rewrite describes_iff in HD by auto.
  apply describes_iff; auto. intros i Hi. rewrite N by lia. unfold rand_row.
  destruct (Nat.eqb_spec i p). apply project_new; auto.
  destruct (Nat.eqb_spec i (p - n)); [lia|].
  assert (Fp : length (ops (st@@p)) = n) by (apply F; lia).
  assert (Fi : length (ops (st@@i)) = n) by (apply F; lia).
  destruct (antic st op i) eqn:EA.
  - apply project_keep; auto. rewrite length_mulrow; lia.
    + unfold mulrow; cbn [ops]. rewrite symp_xor_l by lia. unfold antic in *. rewrite Hpa, EA; auto.
    + apply mul_stabilises; auto. rewrite C by lia. unfold conj_rows.
      destruct (Nat.eqb_spec (p + n) i), (Nat.eqb_spec (i + n) p); auto; lia.
  - apply project_keep; auto.
Qed.

(** Summary of a measurement on a valid tableau. *)
Lemma meas_wf n st op m st' : wf n st -> length (ops op) = n -> meas_result n st op m st' -> wf n st'.
Proof.
  intros W Ho [p Hp Hpa Hfst L' N|scratch Hall -> HE Hm]; auto.
  eapply rand_wf; eauto.
Qed.
