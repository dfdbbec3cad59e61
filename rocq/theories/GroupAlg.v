(** Linear algebra of commuting Pauli operators: an operator which commutes with a maximal independent set
    of commuting operators is a product of them. *)
Require Import List Bool Arith ZArith Lia.
From Verif Require Import Base BaseProofs QSpec PauliModel PauliSem PauliProofs PauliAlg TableauProofs StateProofs DestabProofs.
Import ListNotations.

(** * Products *)
Definition sized (n : nat) (rs : list (list (bool * bool))) : Prop := Forall (fun r => length r = n) rs.
Lemma lincomb_app n c1 : forall rs1 c2 rs2, length c1 = length rs1 -> sized n rs1 -> sized n rs2 ->
  lincomb n (c1 ++ c2) (rs1 ++ rs2) = xor_ops (lincomb n c1 rs1) (lincomb n c2 rs2).
Proof.
  induction c1 as [|b c1 IH]; intros [|r rs1] c2 rs2 L S1 S2; try discriminate; cbn [app lincomb].
  - rewrite xor_ops_id_l; auto. apply length_lincomb; auto.
  - inversion S1; subst. injection L as L. rewrite IH by auto. destruct b; auto. apply xor_ops_assoc.
Qed.
Lemma lincomb_none n k : forall rs, lincomb n (repeat false k) rs = repeat pid n.
Proof. induction k as [|k IH]; intros rs; cbn; auto. destruct rs; auto. Qed.

Lemma xsum_zero c : forall f, (forall i, nth i f false = false) -> xsum c f = false.
Proof.
  induction c as [|b c IH]; intros [|x f] H; cbn; auto. rewrite (H 0 : x = false), andb_false_r, xorb_false_l. apply IH. intros i. apply (H (S i)).
Qed.

Local Lemma nth_firstn {A} (d : A) k : forall i l, i < k -> nth i (firstn k l) d = nth i l d.
Proof. induction k as [|k IH]; intros i l L; [lia|]. destruct l as [|x l]; [destruct i; auto|]. destruct i as [|i]; cbn; auto. apply IH. lia. Qed.
Local Lemma nth_skipn {A} (d : A) k : forall i l, nth i (skipn k l) d = nth (k + i) l d.
Proof. induction k as [|k IH]; intros i l; auto. destruct l as [|x l]; cbn; auto. destruct i; auto. Qed.

(** * Dual operators *)
Definition indep (n : nat) (rs : list (list (bool * bool))) : Prop :=
  forall c, length c = length rs -> lincomb n c rs = repeat pid n -> c = repeat false (length rs).
Definition dual (n : nat) (rs ds : list (list (bool * bool))) : Prop :=
  sized n ds /\ length ds = length rs /\ forall i j, i < length rs -> j < length rs -> symp (nth i ds []) (nth j rs []) = (i =? j).

Lemma sized_nth n rs i : sized n rs -> i < length rs -> length (nth i rs []) = n.
Proof. intros H L. apply (proj1 (Forall_forall _ _) H), nth_In, L. Qed.

Lemma dual_coeff n rs ds c i : sized n rs -> dual n rs ds -> i < length rs -> symp (lincomb n c rs) (nth i ds []) = nth i c false.
Proof.
  intros SR (SD & LD & D) L. rewrite symp_lincomb by (auto; apply sized_nth; auto; lia). rewrite (xsum_single c _ i).
  - rewrite map_length, (proj2 (Nat.ltb_lt _ _) L). apply andb_true_r.
  - intros j. destruct (Nat.lt_ge_cases j (length rs)) as [J|J].
    + rewrite (nth_indep _ false (symp [] (nth i ds []))) by (rewrite map_length; auto). rewrite (map_nth (fun r => symp r (nth i ds []))). rewrite symp_comm, D by auto. apply Nat.eqb_sym.
    + rewrite nth_overflow by (rewrite map_length; auto). symmetry. apply Nat.eqb_neq. lia.
Qed.
Lemma dual_coeff' n rs ds c j : sized n rs -> dual n rs ds -> j < length rs -> symp (lincomb n c ds) (nth j rs []) = nth j c false.
Proof.
  intros SR (SD & LD & D) L. rewrite symp_lincomb by (auto; apply sized_nth; auto; lia). rewrite (xsum_single c _ j).
  - rewrite map_length, LD, (proj2 (Nat.ltb_lt _ _) L). apply andb_true_r.
  - intros i. destruct (Nat.lt_ge_cases i (length rs)) as [J|J].
    + rewrite (nth_indep _ false (symp [] (nth j rs []))) by (rewrite map_length; lia). rewrite (map_nth (fun r => symp r (nth j rs []))). apply D; auto.
    + rewrite nth_overflow by (rewrite map_length; lia). symmetry. apply Nat.eqb_neq. lia.
Qed.

Lemma some_anti n w : length w = n -> w <> repeat pid n -> exists x, length x = n /\ symp x w = true.
Proof.
  intros L NE. pose proof (zero_state_wf n) as W. pose proof W as (LZ & FZ & _).
  destruct (existsb (fun j => symp w (ops ((zero_state n)@@j))) (seq 0 (2 * n))) eqn:E.
  - apply existsb_exists in E. destruct E as (j & I & E). apply in_seq in I. exists (ops ((zero_state n)@@j)). split; [apply FZ; lia|]. rewrite symp_comm. auto.
  - exfalso. apply NE. apply (nondegenerate n (zero_state n) W w L). intros j Lj. destruct (symp w (ops ((zero_state n)@@j))) eqn:F; auto.
    rewrite <- E. symmetry. apply existsb_exists. exists j. split; [apply in_seq; lia|auto].
Qed.

Lemma symp_zero_r n a : symp a (repeat pid n) = false.
Proof. rewrite symp_comm. apply symp_id_l. Qed.

Lemma indep_dual n : forall rs, sized n rs -> indep n rs -> exists ds, dual n rs ds.
Proof.
  induction rs as [|g rs IH] using rev_ind; intros SR IN.
  - exists []. split; [constructor|]. split; auto. intros i j L. cbn in L. lia.
  - assert (S0 : sized n rs) by (apply Forall_app in SR; apply SR). assert (SG : length g = n) by (apply Forall_app in SR; destruct SR as [_ H]; inversion H; auto).
    assert (SG1 : sized n [g]) by (constructor; auto; constructor).
    destruct IH as (ds & DU); auto.
    { intros c L Z. assert (Q : c ++ [false] = repeat false (length (rs ++ [g]))).
      - apply IN; [rewrite !app_length; cbn; lia|]. rewrite lincomb_app by auto. rewrite Z. cbn [lincomb]. apply xor_ops_id_l, repeat_length.
      - rewrite app_length, repeat_app in Q. cbn [length repeat] in Q. apply app_inj_tail in Q. apply Q. }
    pose proof DU as (SD & LD & D).
    set (c0 := map (fun d => symp d g) ds). set (h := lincomb n c0 rs). assert (LH : length h = n) by (apply length_lincomb; auto).
    set (g' := xor_ops h g). assert (LG' : length g' = n) by (unfold g'; rewrite length_xor_ops; auto; lia).
    assert (DG' : forall i, i < length rs -> symp (nth i ds []) g' = false).
    { intros i L. unfold g'. assert (LI : length (nth i ds []) = n) by (apply sized_nth; auto; lia).
      rewrite symp_xor_r by lia. rewrite (symp_comm _ h). unfold h. rewrite (dual_coeff n rs ds) by auto.
      unfold c0. rewrite (nth_indep _ false (symp [] g)) by (rewrite map_length; lia). rewrite (map_nth (fun d => symp d g)). apply xorb_nilpotent. }
    assert (NE : g' <> repeat pid n).
    { intros Z. assert (Q : c0 ++ [true] = repeat false (length (rs ++ [g]))).
      - apply IN; [unfold c0; rewrite !app_length, map_length; cbn; lia|]. rewrite lincomb_app by (auto; unfold c0; rewrite map_length; lia). cbn [lincomb]. rewrite xor_ops_id_r by auto. exact Z.
      - rewrite app_length, repeat_app in Q. cbn [length repeat] in Q. apply app_inj_tail in Q. destruct Q; discriminate. }
    destruct (some_anti n g' LG' NE) as (x & LX & SX).
    set (cx := map (fun r => symp x r) rs). set (y := lincomb n cx ds). assert (LY : length y = n) by (apply length_lincomb; auto).
    set (dm := xor_ops x y). assert (LM : length dm = n) by (unfold dm; rewrite length_xor_ops; lia).
    assert (MR : forall j, j < length rs -> symp dm (nth j rs []) = false).
    { intros j L. assert (LJ : length (nth j rs []) = n) by (apply sized_nth; auto). unfold dm. rewrite symp_xor_l by lia. unfold y. rewrite (dual_coeff' n rs ds) by auto.
      unfold cx. rewrite (nth_indep _ false (symp x [])) by (rewrite map_length; lia). rewrite (map_nth (fun r => symp x r)). apply xorb_nilpotent. }
    assert (MH : symp dm h = false).
    { rewrite symp_comm. unfold h. rewrite symp_lincomb by auto. apply xsum_zero. intros i. destruct (Nat.lt_ge_cases i (length rs)) as [L|L]; [|apply nth_overflow; rewrite map_length; auto].
      rewrite (nth_indep _ false (symp [] dm)) by (rewrite map_length; auto). rewrite (map_nth (fun r => symp r dm)), symp_comm. auto. }
    assert (MG' : symp dm g' = true).
    { unfold dm. rewrite symp_xor_l by lia. rewrite SX. unfold y. rewrite symp_lincomb by auto. rewrite xsum_zero; auto.
      intros i. destruct (Nat.lt_ge_cases i (length rs)) as [L|L]; [|apply nth_overflow; rewrite map_length; lia].
      rewrite (nth_indep _ false (symp [] g')) by (rewrite map_length; lia). rewrite (map_nth (fun r => symp r g')). auto. }
    assert (MG : symp dm g = true).
    { unfold g' in MG'. rewrite symp_xor_r, MH, xorb_false_l in MG' by lia. auto. }
    set (fix_ := fun d => if symp d g then xor_ops d dm else d).
    assert (FL : forall d, length d = n -> length (fix_ d) = n) by (intros d L; unfold fix_; destruct (symp d g); auto; rewrite length_xor_ops; lia).
    exists (map fix_ ds ++ [dm]). split; [|split].
    + apply Forall_app. split; [|constructor; auto; constructor]. apply Forall_forall. intros d I. apply in_map_iff in I. destruct I as (d' & <- & I). apply FL. apply (proj1 (Forall_forall _ _) SD _ I).
    + rewrite !app_length, map_length. cbn. lia.
    + rewrite app_length. cbn [length]. intros i j Li Lj. destruct (Nat.lt_ge_cases i (length rs)) as [A|A].
      * rewrite (app_nth1 (map fix_ ds)) by (rewrite map_length; lia).
        assert (Ld : length (nth i ds []) = n) by (apply sized_nth; auto; lia).
        rewrite (nth_indep _ [] (fix_ [])) by (rewrite map_length; lia). rewrite map_nth.
        destruct (Nat.lt_ge_cases j (length rs)) as [B|B].
        -- rewrite app_nth1 by auto. assert (Lr : length (nth j rs []) = n) by (apply sized_nth; auto).
           unfold fix_. destruct (symp (nth i ds []) g); [rewrite symp_xor_l, MR, xorb_false_r by (auto; lia)|]; apply D; auto.
        -- rewrite app_nth2 by auto. replace (j - length rs) with 0 by lia. cbn [nth]. replace (i =? j) with false by (symmetry; apply Nat.eqb_neq; lia).
           unfold fix_. destruct (symp (nth i ds []) g) eqn:E; auto. rewrite symp_xor_l, E, MG by lia. reflexivity.
      * rewrite (app_nth2 (map fix_ ds)) by (rewrite map_length; lia). rewrite map_length. replace (i - length ds) with 0 by lia. cbn [nth].
        destruct (Nat.lt_ge_cases j (length rs)) as [B|B].
        -- rewrite app_nth1 by auto. rewrite MR by auto. symmetry. apply Nat.eqb_neq. lia.
        -- rewrite app_nth2 by auto. replace (j - length rs) with 0 by lia. cbn [nth]. rewrite MG. symmetry. apply Nat.eqb_eq. lia.
Qed.

(** * Maximal sets *)
Theorem maximal n rs w : length rs = n -> sized n rs -> indep n rs -> (forall i j, i < n -> j < n -> symp (nth i rs []) (nth j rs []) = false) ->
  length w = n -> (forall i, i < n -> symp w (nth i rs []) = false) -> exists c, length c = n /\ w = lincomb n c rs.
Proof.
  intros LR SR IN CO LW CW. destruct (indep_dual n rs SR IN) as (ds & SD & LD & D). rewrite LR in LD, D.
  set (t := map (fun o => mkRow o false) (ds ++ rs)).
  assert (NT : forall i, i < 2 * n -> ops (t @@ i) = nth i (ds ++ rs) []).
  { intros i L. unfold t. rewrite (nth_indep _ row0 (mkRow [] false)) by (rewrite map_length, app_length; lia). rewrite (map_nth (fun o => mkRow o false)). auto. }
  assert (W : weak n t).
  { split; [unfold t; rewrite map_length, app_length; lia|]. split.
    - intros i L. rewrite NT by auto. apply sized_nth; [apply Forall_app; auto|rewrite app_length; lia].
    - intros i j Li Lj. rewrite !NT by lia. assert (QJ : nth j (ds ++ rs) [] = nth (j - n) rs []) by (rewrite app_nth2 by lia; f_equal; lia). rewrite QJ. unfold conj_rows. destruct (Nat.lt_ge_cases i n) as [A|A].
      + rewrite app_nth1 by lia. rewrite D by lia. destruct (Nat.eqb_spec i (j - n)), (Nat.eqb_spec (i + n) j), (Nat.eqb_spec (j + n) i); cbn; auto; lia.
      + rewrite app_nth2 by lia. rewrite LD, CO by lia. destruct (Nat.eqb_spec (i + n) j), (Nat.eqb_spec (j + n) i); cbn; auto; lia. }
  destruct (repair_upto n t W n (le_n n)) as (s & WS & (_ & _ & SAME & _) & CD).
  assert (WF : wf n s).
  { destruct WS as (L & F & C). split; [auto|split; [auto|]]. intros i j Li Lj. destruct (Nat.lt_ge_cases j n) as [A|A]; [|apply C; lia].
    destruct (Nat.lt_ge_cases i n) as [B|B].
    - rewrite CD by auto. unfold conj_rows. destruct (Nat.eqb_spec (i + n) j), (Nat.eqb_spec (j + n) i); cbn; auto; lia.
    - rewrite symp_comm, C by lia. unfold conj_rows. apply orb_comm. }
  destruct (span n s WF w LW) as (c & LC & E).
  assert (Z : firstn n c = repeat false n).
  { apply (list_ext _ _ false); [rewrite firstn_length, repeat_length; lia|]. intros i L. rewrite firstn_length in L.
    rewrite nth_repeat. rewrite nth_firstn by lia.
    assert (Q : symp w (ops (s @@ (i + n))) = nth i c false).
    { rewrite E at 1. rewrite (TableauProofs.coeff n s WF) by lia. unfold partner. replace (i + n <? n) with false by (symmetry; apply Nat.ltb_ge; lia). f_equal. lia. }
    rewrite <- Q. rewrite <- SAME by lia. rewrite NT by lia. rewrite app_nth2 by lia. rewrite LD. apply CW. lia. }
  exists (skipn n c). split; [rewrite skipn_length; lia|]. rewrite E at 1. rewrite <- (firstn_skipn n c) at 1.
  pose proof WF as (LS & FS & _).
  assert (SP : map ops s = map ops (firstn n s) ++ rs).
  { rewrite <- (firstn_skipn n s) at 1. rewrite map_app. f_equal. apply (list_ext _ _ []); [rewrite map_length, skipn_length; lia|]. intros i L. rewrite map_length, skipn_length in L.
    rewrite (nth_indep _ [] (ops row0)) by (rewrite map_length, skipn_length; lia). rewrite (map_nth ops), nth_skipn. rewrite <- SAME by lia. rewrite NT by lia. rewrite app_nth2 by lia. f_equal. lia. }
  assert (SZ : sized n (map ops (firstn n s))).
  { apply Forall_forall. intros o I. apply in_map_iff in I. destruct I as (r & <- & I). apply (In_nth _ _ row0) in I. destruct I as (i & L & <-). rewrite firstn_length in L. rewrite nth_firstn by lia. apply FS. lia. }
  rewrite SP, lincomb_app; auto; [|rewrite firstn_length, map_length, firstn_length; lia].
  rewrite Z, lincomb_none. apply xor_ops_id_l, length_lincomb; auto.
Qed.
