(** Lemmas: tableaus whose destabilisers need not commute with each other behave like valid
    tableaus. *)
Require Import List Bool Arith ZArith Lia.
From Verif Require Import Base BaseProofs QSpec PauliModel PauliSem PauliProofs PauliAlg TableauProofs
  MeasureProofs StateProofs StateSpec GateProofs.
Import ListNotations.

(** Like [wf], without the commutation of destabilisers with each other. *)
Definition weak (n : nat) (t : tableau) : Prop :=
  length t = 2 * n /\
  (forall i, i < 2 * n -> length (ops (t@@i)) = n) /\
  forall i j, i < 2 * n -> n <= j < 2 * n -> symp (ops (t@@i)) (ops (t@@j)) = conj_rows n i j.

Definition shape (n : nat) (t : tableau) : Prop :=
  length t = 2 * n /\ forall i, i < 2 * n -> length (ops (t@@i)) = n.

(** The same stabilisers, and destabilisers which anticommute with the same elements of the
    commutant of the stabilisers. *)
Definition sim (n : nat) (t s : tableau) : Prop :=
  shape n t /\ shape n s /\ (forall i, n <= i < 2 * n -> t@@i = s@@i) /\
  forall i op, i < n -> length (ops op) = n ->
    (forall j, n <= j < 2 * n -> antic s op j = false) -> antic t op i = antic s op i.

Lemma sim_refl n t : shape n t -> sim n t t.
Proof. intros H. split; [auto|split; [auto|split; auto]]. Qed.

Lemma repair_upto n t : weak n t -> forall j, j <= n ->
  exists s, weak n s /\ sim n t s /\ forall i k, i < j -> k < j -> symp (ops (s@@i)) (ops (s@@k)) = false.
Proof.
  intros W. induction j as [|j IH]; intros Hj.
  - exists t. split; auto. split; [|lia]. apply sim_refl. destruct W as (L & F & _). split; auto.
  - destruct IH as (s & Ws & Hs & HC). lia.
    pose proof Ws as (L & F & C).
    set (l := filter (fun i => symp (ops (s@@j)) (ops (s@@i))) (seq 0 j)).
    set (d := fold_left (fun r i => mulrow r (s@@(i + n))) l (s@@j)).
    assert (Hl : forall i, In i l -> i < j /\ i < n).
    { intros i Hi. apply filter_In in Hi. destruct Hi as [Hi _]. apply in_seq in Hi. lia. }
    assert (Hl' : forall i, In i l -> i < n) by (intros i Hi; apply Hl; auto).
    assert (Lj : length (ops (s@@j)) = n) by (apply F; lia).
    assert (Ld : length (ops d) = n) by (apply length_fold; auto).
    assert (ND : NoDup l) by (apply NoDup_filter, seq_NoDup).
    assert (Sd : forall w, length w = n -> symp (ops d) w =
        xorb (symp (ops (s@@j)) w) (fold_right xorb false (map (fun i => symp (ops (s@@(i + n))) w) l))).
    { intros w Hw. apply symp_fold; auto. }
    set (s' := upd j d s).
    assert (N : forall i, i < 2 * n -> s'@@i = if i =? j then d else s@@i).
    { intros i Hi. unfold s'. rewrite nth_upd. rewrite (Nat.eqb_sym j i). destruct (Nat.eqb_spec i j); simpl; auto.
      destruct (Nat.ltb_spec j (length s)); auto; lia. }
    assert (F' : forall i, i < 2 * n -> length (ops (s'@@i)) = n).
    { intros i Hi. rewrite N by auto. destruct (i =? j); auto. }
    assert (L' : length s' = 2 * n) by (unfold s'; rewrite length_upd; auto).
    assert (Dd : forall k, k < j -> symp (ops d) (ops (s@@k)) = false).
    { intros k Hk. rewrite Sd by (apply F; lia). rewrite (xor_indicator _ k l ND).
      - destruct (symp (ops (s@@j)) (ops (s@@k))) eqn:E.
        + rewrite (proj2 (memb_iff k l)); auto. apply filter_In. split; auto. apply in_seq; lia.
        + rewrite (proj2 (memb_false k l)); auto. intros I. apply filter_In in I. destruct I; congruence.
      - intros i I. apply Hl in I. rewrite symp_comm, C by lia. unfold conj_rows.
        destruct (Nat.eqb_spec (k + n) (i + n)), (Nat.eqb_spec (i + n + n) k), (Nat.eqb_spec i k); auto; lia. }
    exists s'. split; [|split].
    + split; [auto|split; [auto|]]. intros a b Ha Hb. rewrite !N by lia.
      destruct (Nat.eqb_spec b j); [lia|]. destruct (Nat.eqb_spec a j); [|auto].
      subst a. rewrite Sd by (apply F; lia). rewrite C by lia. rewrite xor_all_false.
      apply xorb_false_r. intros i I. apply Hl in I. rewrite C by lia. unfold conj_rows.
      destruct (Nat.eqb_spec (i + n + n) b), (Nat.eqb_spec (b + n) (i + n)); auto; lia.
    + destruct Hs as ((Lt & Ft) & _ & Hst & Hcom). split; [split; auto|split; [split; auto|split]].
      * intros i Hi. rewrite N by lia. destruct (Nat.eqb_spec i j); [lia|]. apply Hst; auto.
      * intros i op Hi Ho Hall.
        assert (Hall' : forall k, n <= k < 2 * n -> antic s op k = false).
        { intros k Hk. specialize (Hall k Hk). unfold antic in *. rewrite N in Hall by lia.
          destruct (Nat.eqb_spec k j); [lia|auto]. }
        rewrite (Hcom i op Hi Ho Hall'). unfold antic. rewrite N by lia.
        destruct (Nat.eqb_spec i j); auto. subst i. rewrite Sd by auto.
        rewrite xor_all_false. rewrite xorb_false_r; auto. intros k I. apply Hl in I. apply Hall'. lia.
    + intros i k Hi Hk. rewrite !N by lia.
      destruct (Nat.eqb_spec i j), (Nat.eqb_spec k j); subst.
      * apply symp_self.
      * apply Dd. lia.
      * rewrite symp_comm. apply Dd. lia.
      * apply HC; lia.
Qed.

Lemma repair n t : weak n t -> exists s, wf n s /\ sim n t s.
Proof.
  intros W. destruct (repair_upto n t W n (le_n _)) as (s & (L & F & C) & Hs & HC).
  exists s. split; auto. split; [auto|split; [auto|]]. intros i j Hi Hj.
  destruct (Nat.lt_ge_cases j n) as [Hjn|Hjn]; [|apply C; lia].
  destruct (Nat.lt_ge_cases i n) as [Hin|Hin].
  - rewrite HC by auto. unfold conj_rows. destruct (Nat.eqb_spec (i + n) j), (Nat.eqb_spec (j + n) i); auto; lia.
  - rewrite symp_comm, C by lia. unfold conj_rows. apply orb_comm.
Qed.

Lemma sim_describes n t s v : sim n t s -> (describes n t v <-> describes n s v).
Proof.
  intros ((Lt & _) & (Ls & _) & E & _). rewrite !describes_iff by auto.
  split; intros H i Hi; specialize (H i Hi); rewrite E in * by auto; auto.
Qed.

Lemma sim_stab_antic n t s op : sim n t s -> forall i, n <= i < 2 * n -> antic t op i = antic s op i.
Proof. intros (_ & _ & E & _) i Hi. unfold antic. rewrite E; auto. Qed.

(** Measurements. *)
Lemma measure_sim n g k t s op forced : sim n t s -> wf n s -> 0 < n -> length (ops op) = n ->
  ops op <> repeat pid n -> good_forced forced ->
  exists t' s' m k', measure g k t op forced = Ok (t', m, k') /\ measure g k s op forced = Ok (s', m, k') /\
    sim n t' s' /\ wf n s'.
Proof.
  intros Hs W Hn Ho Hid Hf. pose proof Hs as ((Lt & Ft) & (Ls & Fs) & Est & Hcom).
  pose proof (sim_stab_antic n t s op Hs) as EA.
  destruct (measure_total n g k s op W Hn Ho Hid forced Hf) as (s' & m & k' & Es & Rs & Hs1 & Hs2).
  pose proof (meas_wf n s op m s' W Ho Rs) as W'.
  assert (X : exists j, j < 2 * n /\ antic t op j = true).
  { destruct (antic_dec n s op) as [(i & Hi & Ei)|Hall].
    - exists i. split. lia. rewrite EA; auto.
    - destruct (existsb (antic s op) (seq 0 (2 * n))) eqn:E.
      + apply existsb_exists in E. destruct E as (j & Hj & Ej). apply in_seq in Hj.
        destruct (Nat.lt_ge_cases j n) as [Hjn|Hjn].
        * exists j. split. lia. rewrite Hcom; auto.
        * rewrite Hall in Ej by lia. discriminate.
      + exfalso. apply Hid. apply (nondegenerate n s W); auto. intros j Hj.
        destruct (symp (ops op) (ops (s@@j))) eqn:E'; auto.
        assert (existsb (antic s op) (seq 0 (2 * n)) = true); [|congruence].
        apply existsb_exists. exists j. split. apply in_seq; lia. unfold antic. rewrite symp_comm; auto. }
  destruct (measure_total_rows n g k t op Lt Ft Hn Ho X forced Hf) as (t' & m' & k'' & Et & Rt & Ht1 & Ht2).
  exists t', s', m', k''. split; [auto|].
  destruct (antic_dec n s op) as [(i & Hi & Ei)|Hall].
  - assert (Xt : exists i, n <= i < 2 * n /\ antic t op i = true) by (exists i; rewrite EA; auto).
    assert (Xs : exists i, n <= i < 2 * n /\ antic s op i = true) by (exists i; auto).
    assert (Em : m' = m /\ k'' = k').
    { specialize (Ht1 Xt). specialize (Hs1 Xs). destruct forced; destruct Ht1, Hs1; subst; auto. }
    destruct Em as [-> ->]. split; [auto|split; [|auto]].
    destruct Rs as [p Hp Hpa Hfst L' N|scratch Hall _ _ _]; [|rewrite Hall in Ei by auto; discriminate].
    destruct Rt as [p' Hp' Hpa' Hfst' Lt' Nt|scratch Hall _ _ _].
    2: { rewrite <- EA in Ei by auto. rewrite Hall in Ei by auto; discriminate. }
    assert (p' = p).
    { rewrite EA in Hpa' by auto.
      destruct (Nat.lt_trichotomy p p') as [H|[H|H]]; auto.
      - rewrite <- EA in Hpa by auto. rewrite Hfst' in Hpa by lia. discriminate.
      - rewrite Hfst in Hpa' by lia. discriminate. }
    subst p'.
    assert (FtN : forall i, i < 2 * n -> length (ops (t'@@i)) = n).
    { intros a Ha. rewrite Nt by auto. unfold rand_row. destruct (a =? p); auto. destruct (a =? p - n). apply Ft; lia.
      destruct (antic t op a). rewrite length_mulrow; rewrite ?Ft by lia; lia. apply Ft; lia. }
    split; [split; auto|split; [split; [auto|apply W']|split]].
    + intros a Ha. rewrite Nt, N by lia. unfold rand_row. rewrite EA, !Est by (auto; lia). auto.
    + intros a o Ha Hlo Hall.
      assert (Sp : length (ops (s@@p)) = n) by (apply Fs; lia).
      unfold antic. rewrite Nt, N by lia. unfold rand_row.
      destruct (Nat.eqb_spec a p); auto. destruct (Nat.eqb_spec a (p - n)). rewrite Est by auto; auto.
      (* the operator in the old commutant *)
      set (b := symp (ops (s@@p)) (ops o)).
      set (o3 := mkRow (if b then xor_ops (ops op) (ops o) else ops o) false).
      assert (Lo3 : length (ops o3) = n).
      { unfold o3; cbn [ops]. destruct b; auto. rewrite length_xor_ops; lia. }
      assert (So3 : forall w, length w = n -> symp w (ops o3) = xorb (b && symp w (ops op)) (symp w (ops o))).
      { intros w Hw. unfold o3; cbn [ops]. destruct b; cbn [andb].
        rewrite symp_xor_r by lia. auto. rewrite xorb_false_l; auto. }
      assert (Old : forall j, n <= j < 2 * n -> antic s o3 j = false).
      { intros j Hj. unfold antic. rewrite So3 by (apply Fs; lia).
        specialize (Hall j Hj). unfold antic in Hall. rewrite N in Hall by lia. unfold rand_row in Hall.
        unfold antic in Hpa.
        destruct (Nat.eqb_spec j p).
        - subst j. fold b. rewrite Hpa. destruct b; auto.
        - destruct (Nat.eqb_spec j (p - n)); [lia|].
          destruct (antic s op j) eqn:Ej; unfold antic in Ej; rewrite Ej.
          + unfold mulrow in Hall; cbn [ops] in Hall.
            rewrite symp_xor_l in Hall by (rewrite ?Fs by lia; lia). fold b in Hall.
            rewrite andb_true_r. auto.
          + rewrite Hall. rewrite andb_false_r. auto. }
      specialize (Hcom a o3 Ha Lo3 Old). unfold antic in Hcom.
      rewrite !So3 in Hcom by (first [apply Ft|apply Fs]; lia).
      rewrite (Est p) by lia.
      assert (Ex : forall r, length (ops r) = n ->
         symp (ops (if symp (ops r) (ops op) then mulrow (s@@p) r else r)) (ops o) =
         xorb (b && symp (ops r) (ops op)) (symp (ops r) (ops o))).
      { intros r Hr. destruct (symp (ops r) (ops op)).
        - unfold mulrow; cbn [ops]. rewrite symp_xor_l by lia.
          fold b. rewrite andb_true_r. auto.
        - rewrite andb_false_r, xorb_false_l. auto. }
      unfold antic. rewrite !Ex by (first [apply Ft|apply Fs]; lia). auto.
  - assert (Hallt : forall i, n <= i < 2 * n -> antic t op i = false) by (intros; rewrite EA; auto).
    destruct Rs as [p Hp Hpa _ _ _|scratch _ -> HEs Hms]; [rewrite Hall in Hpa by auto; discriminate|].
    destruct Rt as [p Hp Hpa _ _ _|scratcht _ -> HEt Hmt]; [rewrite Hallt in Hpa by auto; discriminate|].
    assert (EC : map (fun r => commutator_sign r op) t = map (fun r => commutator_sign r op) s).
    { apply (list_ext _ _ false). rewrite !map_length; lia. rewrite map_length, Lt. intros a Ha.
      rewrite !(commsign_row n) by auto. change (antic t op a = antic s op a).
      destruct (Nat.lt_ge_cases a n). apply Hcom; auto. apply EA; lia. }
    assert (Hsm : forall i, In i (nonzero (map (fun r => commutator_sign r op) s)) -> i < n).
    { intros a I. apply (nz_in n) in I; auto. destruct I as [I1 I2]. destruct (Nat.lt_ge_cases a n); auto.
      rewrite Hall in I2 by lia. discriminate. }
    rewrite EC in HEt.
    rewrite (scratch_fold n t Ft Lt _ (mkRow (repeat (false, false) n) false) (repeat_length _ _) Hsm) in HEt.
    rewrite (scratch_fold n s Fs Ls _ (mkRow (repeat (false, false) n) false) (repeat_length _ _) Hsm) in HEs.
    assert (EF : forall l r, (forall i, In i l -> i < n) ->
       fold_left (fun r i => mulrow r (t@@(i + n))) l r = fold_left (fun r i => mulrow r (s@@(i + n))) l r).
    { induction l as [|a l IH]; intros r H; simpl; auto. rewrite Est by (specialize (H a (or_introl eq_refl)); lia).
      apply IH. intros; apply H; simpl; auto. }
    rewrite EF in HEt by auto. rewrite HEs in HEt. injection HEt as <-.
    rewrite (Ht2 Hallt). rewrite (Hs2 Hall) in Es. subst m m'. split; auto.
Qed.

(** Gates. *)
Definition ops_involutive (n : nat) (f : row -> row) := forall r, length (ops r) = n -> ops (f (f r)) = ops r.

Lemma gate_sim n f t s : ops_len_preserving f -> symp_preserving n f -> ops_involutive n f ->
  sim n t s -> sim n (map f t) (map f s).
Proof.
  intros HL HS HI ((Lt & Ft) & (Ls & Fs) & Est & Hcom).
  assert (S : forall t, length t = 2 * n -> (forall i, i < 2 * n -> length (ops (t@@i)) = n) -> shape n (map f t)).
  { intros u Lu Fu. split. rewrite map_length; auto. intros i Hi. rewrite nth_map_row by lia. rewrite HL; auto. }
  split; [auto|split; [auto|split]].
  - intros i Hi. rewrite !nth_map_row by lia. rewrite Est; auto.
  - assert (A : forall t op i, length t = 2 * n -> (forall i, i < 2 * n -> length (ops (t@@i)) = n) ->
              length (ops op) = n -> i < 2 * n -> antic (map f t) op i = antic t (f op) i).
    { intros u op i Lu Fu Ho Hi. unfold antic. rewrite nth_map_row by lia.
      rewrite <- (HI op) by auto. apply HS; auto. rewrite HL; auto. }
    intros i op Hi Ho Hall. rewrite !A by (auto; lia). apply Hcom; auto. rewrite HL; auto.
    intros j Hj. rewrite <- A by (auto; lia). auto.
Qed.

Lemma map_id_row (t : tableau) : map (fun r => r) t = t. Proof. apply map_id. Qed.

Lemma rowfold_sim {A} n (f : A -> row -> row) (ok : A -> Prop) qs : (forall q, ops_len_preserving (f q)) ->
  (forall q, ok q -> symp_preserving n (f q)) -> (forall q, ok q -> ops_involutive n (f q)) ->
  Forall ok qs -> forall t s, sim n t s -> sim n (map (rowfold f qs) t) (map (rowfold f qs) s).
Proof.
  intros HL HS HI. induction qs as [|q qs IH]; intros HF t s H.
  - unfold rowfold; cbn [fold_left]. rewrite !map_id_row. auto.
  - inversion HF; subst. rewrite !map_rowfold_cons. apply IH; auto. apply gate_sim; auto.
Qed.

Lemma upd2_same {A} i (l : list A) a b d : nth i l d = b -> upd i b (upd i a l) = l.
Proof. intros <-. rewrite upd_upd_same. apply upd_nth. Qed.

Lemma h_inv n q : q < n -> ops_involutive n (h_row q).
Proof.
  intros Hq r Hr. unfold h_row; cbn [ops]. unfold getx, getz. rewrite !nth_upd_same by lia. cbn [fst snd].
  apply (upd2_same q _ _ _ pid). unfold pid. destruct (nth q (ops r) (false, false)); auto.
Qed.
Lemma s_inv n q : q < n -> ops_involutive n (s_row q).
Proof.
  intros Hq r Hr. unfold s_row, setz; cbn [ops]. unfold getx, getz. rewrite !nth_upd_same by lia. cbn [fst snd].
  apply (upd2_same q _ _ _ pid). unfold pid. destruct (nth q (ops r) (false, false)) as [[] []]; auto.
Qed.
Lemma x_inv n q : ops_involutive n (x_row q). Proof. intros r _. auto. Qed.
Lemma z_inv n q : ops_involutive n (z_row q). Proof. intros r _. auto. Qed.
Lemma y_inv n q : ops_involutive n (y_row q). Proof. intros r _. auto. Qed.

Lemma list_ext_pid (a b : list (bool * bool)) : length a = length b ->
  (forall i, i < length a -> getx i a = getx i b /\ getz i a = getz i b) -> a = b.
Proof.
  intros L H. apply (list_ext _ _ pid); auto. intros i Hi. rewrite !getxz. destruct (H i Hi) as [-> ->]. auto.
Qed.

Lemma getx_upd i j p o : i < length o -> getx j (upd i p o) = if i =? j then fst p else getx j o.
Proof. intros H. unfold getx. rewrite nth_upd. destruct (Nat.eqb_spec i j); simpl; auto.
  destruct (Nat.ltb_spec i (length o)); auto; lia. Qed.
Lemma getz_upd i j p o : i < length o -> getz j (upd i p o) = if i =? j then snd p else getz j o.
Proof. intros H. unfold getz. rewrite nth_upd. destruct (Nat.eqb_spec i j); simpl; auto.
  destruct (Nat.ltb_spec i (length o)); auto; lia. Qed.

Ltac two_inv :=
  apply list_ext_pid; rewrite ?length_upd; auto; intros i Hi;
  repeat (rewrite ?getx_upd, ?getz_upd by (rewrite ?length_upd; lia); cbn [fst snd]);
  repeat (match goal with |- context [Nat.eqb ?a ?b] => destruct (Nat.eqb_spec a b) end; cbn [fst snd]; try lia);
  subst; repeat match goal with |- context [getx ?a ?b] => destruct (getx a b) | |- context [getz ?a ?b] => destruct (getz a b) end;
  auto.

Lemma cx_inv n c t : c < n -> t < n -> c <> t -> ops_involutive n (cx_row c t).
Proof.
  intros Hc Ht Hct r Hr. rewrite cx_row_ops by (rewrite ?(cx_len c t r); lia). rewrite cx_row_ops by lia. cbn [ops].
  two_inv.
Qed.
Lemma cz_inv n c t : c < n -> t < n -> c <> t -> ops_involutive n (cz_row c t).
Proof.
  intros Hc Ht Hct r Hr. rewrite cz_row_ops by (rewrite ?(cz_len c t r); lia). rewrite cz_row_ops by lia. cbn [ops].
  two_inv.
Qed.

Lemma shape_rows n t : shape n t -> 0 < n -> rows n t.
Proof.
  intros (L & F) Hn. split. intros ->. simpl in L; lia.
  apply Forall_forall. intros r Hr. apply (In_nth _ _ row0) in Hr. destruct Hr as (i & Hi & <-). apply F; lia.
Qed.

Lemma gates_sim {A} n (f : A -> row -> row) (ok : A -> Prop) qs t s : (forall q, ops_len_preserving (f q)) ->
  (forall q, ok q -> symp_preserving n (f q)) -> (forall q, ok q -> ops_involutive n (f q)) ->
  Forall ok qs -> sim n t s -> wf n s ->
  sim n (map (rowfold f qs) t) (map (rowfold f qs) s) /\ wf n (map (rowfold f qs) s).
Proof.
  intros HL HS HI HF H W. split. eapply rowfold_sim; eauto.
  apply gate_wf; auto. apply rowfold_len; auto.
  clear - HL HS HF. induction qs as [|q qs IH]. intros a b _ _; auto.
  inversion HF; subst. intros a b Ha Hb. unfold rowfold in *; cbn [fold_left].
  rewrite (IH ltac:(auto) (f q a) (f q b)) by (rewrite HL; auto). apply HS; auto.
Qed.

Lemma reset_step_sim n g sign p t s k q : sim n t s -> wf n s -> 0 < n -> q < n -> p <> PI ->
  exists t' s' k', reset_step g sign p (t, k) q = Ok (t', k') /\ reset_step g sign p (s, k) q = Ok (s', k') /\
    sim n t' s' /\ wf n s'.
Proof.
  intros H W Hn Hq Hp. pose proof H as (St & Ss & _).
  pose proof (rows_nqubits n t (shape_rows n t St Hn)) as Nt.
  pose proof (rows_nqubits n s (shape_rows n s Ss Hn)) as Ns.
  unfold reset_step. rewrite Nt, Ns, (sqpo_ok n) by auto. cbn [bindR].
  destruct (measure_sim n g k t s (mkRow (upd q (pbits p) (repeat pid n)) sign) None H W Hn
    (single_len n p q) (single_nonid n p q Hq Hp) ltac:(intros f E; discriminate))
    as (t1 & s1 & m & k1 & -> & -> & H1 & W1). cbn [bindR].
  pose proof H1 as (St1 & Ss1 & _). assert (HF : Forall (fun q => q < n) [q]) by auto.
  destruct m; [|eexists _, _, _; split; [reflexivity|split; [reflexivity|auto]]].
  destruct p; [congruence| | | ].
  - rewrite !(gate_z_ok n) by (auto using shape_rows). cbn [bindR].
    eexists _, _, _. split; [reflexivity|split; [reflexivity|]].
    apply (gates_sim n z_row (fun q => q < n)); auto; intros; [apply TableauProofs.z_len|apply z_symp|apply z_inv].
  - eexists _, _, _; split; [reflexivity|split; [reflexivity|auto]].
  - rewrite !(gate_x_ok n) by (auto using shape_rows). cbn [bindR].
    eexists _, _, _. split; [reflexivity|split; [reflexivity|]].
    apply (gates_sim n x_row (fun q => q < n)); auto; intros; [apply TableauProofs.x_len|apply x_symp|apply x_inv].
Qed.

Lemma exec_sim n g o t s k : sim n t s -> wf n s -> 0 < n -> oper_ok n o ->
  exists t' s' k', exec g (t, k) o = Ok (t', k') /\ exec g (s, k) o = Ok (s', k') /\ sim n t' s' /\ wf n s'.
Proof.
  intros H W Hn Ho. pose proof H as (St & Ss & _).
  pose proof (shape_rows n t St Hn) as Rt. pose proof (shape_rows n s Ss Hn) as Rs.
  destruct o as [qs|qs|qs|qs|qs|cs ts|cs ts|op forced|sign p qs]; cbn [oper_ok] in Ho; cbn [exec].
  - rewrite !(hadamard_ok n) by auto. cbn [bindR]. eexists _, _, _. split; [reflexivity|split; [reflexivity|]].
    apply (gates_sim n h_row (fun q => q < n)); auto; intros; [apply TableauProofs.h_len|apply h_symp; auto|apply h_inv; auto].
  - rewrite !(phase_gate_ok n) by auto. cbn [bindR]. eexists _, _, _. split; [reflexivity|split; [reflexivity|]].
    apply (gates_sim n s_row (fun q => q < n)); auto; intros; [apply TableauProofs.s_len|apply s_symp; auto|apply s_inv; auto].
  - rewrite !(gate_x_ok n) by auto. cbn [bindR]. eexists _, _, _. split; [reflexivity|split; [reflexivity|]].
    apply (gates_sim n x_row (fun q => q < n)); auto; intros; [apply TableauProofs.x_len|apply x_symp; auto|apply x_inv; auto].
  - rewrite !(gate_y_ok n) by auto. cbn [bindR]. eexists _, _, _. split; [reflexivity|split; [reflexivity|]].
    apply (gates_sim n y_row (fun q => q < n)); auto; intros; [apply y_len|apply y_symp; auto|apply y_inv; auto].
  - rewrite !(gate_z_ok n) by auto. cbn [bindR]. eexists _, _, _. split; [reflexivity|split; [reflexivity|]].
    apply (gates_sim n z_row (fun q => q < n)); auto; intros; [apply TableauProofs.z_len|apply z_symp; auto|apply z_inv; auto].
  - rewrite !(cx_ok n) by auto. cbn [bindR]. eexists _, _, _. split; [reflexivity|split; [reflexivity|]].
    apply (gates_sim n cxp (fun ct => fst ct < n /\ snd ct < n /\ fst ct <> snd ct)); auto.
    + intros q. apply cx_len.
    + intros q (? & ? & ?). apply cx_symp; auto.
    + intros q (? & ? & ?). apply cx_inv; auto.
    + apply Ho.
  - rewrite !(cz_ok n) by auto. cbn [bindR]. eexists _, _, _. split; [reflexivity|split; [reflexivity|]].
    apply (gates_sim n czp (fun ct => fst ct < n /\ snd ct < n /\ fst ct <> snd ct)); auto.
    + intros q. apply cz_len.
    + intros q (? & ? & ?). apply cz_symp; auto.
    + intros q (? & ? & ?). apply cz_inv; auto.
    + apply Ho.
  - destruct Ho as (Ho & Hq & Hf).
    destruct (measure_sim n g k t s op forced H W Hn Ho (nonid_exists n _ Ho Hq) Hf)
      as (t1 & s1 & m & k1 & -> & -> & H1 & W1). cbn [bindR fst snd].
    eexists _, _, _. split; [reflexivity|split; [reflexivity|auto]].
  - destruct Ho as (HF & Hp). unfold reset_qubits. clear Rt Rs St Ss.
    assert (Hp' : qs = [] \/ p <> PI) by tauto. clear Hp. revert t s k H W Hp'.
    induction qs as [|q qs IH]; intros t s k H W Hp; cbn [foldR].
    + eexists _, _, _. split; [reflexivity|split; [reflexivity|auto]].
    + inversion HF; subst. destruct Hp as [Hp|Hp]; [discriminate|].
      destruct (reset_step_sim n g sign p t s k q H W Hn ltac:(auto) Hp) as (t1 & s1 & k1 & -> & -> & H1' & W1).
      cbn [bindR]. apply IH; auto.
Qed.

Lemma exec_seq_sim n g : forall os t s k, sim n t s -> wf n s -> 0 < n -> Forall (oper_ok n) os ->
  exists t' s' k', foldR (exec g) os (t, k) = Ok (t', k') /\ foldR (exec g) os (s, k) = Ok (s', k') /\
    sim n t' s' /\ wf n s'.
Proof.
  induction os as [|o os IH]; intros t s k H W Hn HF; cbn [foldR].
  - eexists _, _, _. split; [reflexivity|split; [reflexivity|auto]].
  - inversion HF; subst.
    destruct (exec_sim n g o t s k H W Hn ltac:(auto)) as (t1 & s1 & k1 & -> & -> & H1' & W1).
    cbn [bindR]. apply IH; auto.
Qed.
