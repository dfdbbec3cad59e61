(** The stabiliser groups of codes with as many independent generators as qubits which are not
    encoded. *)
Require Import List Bool Arith ZArith Lia.
From Verif Require Import Base BaseProofs QSpec PauliModel PauliSem PauliProofs PauliAlg TableauProofs LatticeModel CodesModel CodesSpec LatticeSpec LatticeOps BuildProofs
  CodesProofs GraphSpec GraphProofs GraphCuts SyngraphFinal GraphlikeCodes FaultSpec CodeDistance GroupSpec GroupAlg.
From Verif Require GeneratorSpec.
Import ListNotations.
Local Open Scope nat_scope.
Local Open Scope list_scope.

(** * Operators as lists *)
Definition bits (n : nat) (P : nat -> bool * bool) : list (bool * bool) := map P (seq 0 n).
Lemma length_bits n P : length (bits n P) = n.
Proof. unfold bits. rewrite map_length, seq_length. auto. Qed.
Lemma nth_bits n P q : q < n -> nth q (bits n P) pid = P q.
Proof. intros L. apply (nth_map_seq P). auto. Qed.
Lemma ops_bits n g : length (ops g) = n -> ops g = bits n (GeneratorSpec.fac g).
Proof. intros L. apply (list_ext _ _ pid); [rewrite length_bits; auto|]. intros q Lq. rewrite nth_bits by lia. reflexivity. Qed.
Lemma symp_bits n P R : symp (bits n P) (bits n R) = anti (seq 0 n) P R.
Proof. apply symp_anti. Qed.
Lemma symp_row n g P : length (ops g) = n -> symp (ops g) (bits n P) = anti (seq 0 n) (GeneratorSpec.fac g) P.
Proof. intros L. rewrite (ops_bits n g L). apply symp_bits. Qed.

Lemma nth_xor_ops a : forall b q, length a = length b -> nth q (xor_ops a b) pid = pxor (nth q a pid) (nth q b pid).
Proof.
  induction a as [|[x1 x2] a IH]; intros [|[y1 y2] b] q L; try discriminate; [destruct q; reflexivity|]. injection L as L. destruct q as [|q]; [reflexivity|]. cbn. apply IH. auto.
Qed.

(** Products of listed generators are generated. *)
Lemma generated_ext n gens P R : generated n gens P -> (forall q, q < n -> R q = P q) -> generated n gens R.
Proof.
  intros G. revert R. induction G as [P H|g P Q I G IH H]; intros R E; [apply generated_one|apply (generated_times n gens g P); auto]; intros q L; rewrite E by auto; auto.
Qed.
Lemma generated_incl n gens gens' P : incl gens gens' -> generated n gens P -> generated n gens' P.
Proof. intros I G. induction G as [P H|g P Q J G IH H]; [apply generated_one; auto|apply (generated_times n gens' g P); auto]. Qed.
Lemma lincomb_generated n gens : (forall g, In g gens -> length (ops g) = n) -> forall c P, bits n P = lincomb n c (map ops gens) -> generated n gens P.
Proof.
  intros W c P E. assert (H : forall c sel, incl sel gens -> forall P, bits n P = lincomb n c (map ops sel) -> generated n gens P).
  { clear c P E. induction c as [|b c IH]; intros sel I P E.
    - apply generated_one. intros q L. rewrite <- (nth_bits n P) by auto. rewrite E. cbn. apply nth_repeat.
    - destruct sel as [|g sel].
      + apply generated_one. intros q L. rewrite <- (nth_bits n P) by auto. rewrite E. cbn. apply nth_repeat.
      + cbn [map lincomb] in E. assert (I' : incl sel gens) by (intros x J; apply I; right; auto). destruct b; [|apply (IH sel); auto].
        assert (LG : length (ops g) = n) by (apply W, I; left; auto).
        assert (SZ : sized n (map ops sel)) by (apply Forall_forall; intros o J; apply in_map_iff in J; destruct J as (r & <- & J); auto).
        assert (LL : length (lincomb n c (map ops sel)) = n) by (apply length_lincomb; auto).
        apply (generated_times n gens g (fun q => nth q (lincomb n c (map ops sel)) pid)); [apply I; left; auto| |].
        * apply (IH sel I'). apply (list_ext _ _ pid); [rewrite length_bits; auto|]. intros q L. rewrite length_bits in L. apply nth_bits. auto.
        * intros q L. rewrite <- (nth_bits n P) by auto. rewrite E, nth_xor_ops by lia. reflexivity. }
  apply (H c gens (fun x i => i)). auto.
Qed.
Lemma generated_lincomb n gens P : (forall g, In g gens -> length (ops g) = n) -> generated n gens P -> exists c, length c = length gens /\ bits n P = lincomb n c (map ops gens).
Proof.
  intros W G. assert (SZ : sized n (map ops gens)) by (apply Forall_forall; intros o J; apply in_map_iff in J; destruct J as (r & <- & J); auto).
  induction G as [P H|g P Q I G IH H].
  - exists (repeat false (length gens)). split; [apply repeat_length|]. rewrite lincomb_none. apply (list_ext _ _ pid); [rewrite length_bits, repeat_length; auto|]. intros q L. rewrite length_bits in L.
    rewrite nth_bits, nth_repeat by auto. auto.
  - destruct (IH) as (c & LC & E). apply (In_nth _ _ row0) in I. destruct I as (i & Li & EI).
    exists (upd i (negb (nth i c false)) c). split; [rewrite length_upd; auto|].
    assert (UP : forall c rs i, sized n rs -> length c = length rs -> i < length rs -> lincomb n (upd i (negb (nth i c false)) c) rs = xor_ops (nth i rs []) (lincomb n c rs)).
    { clear. induction c as [|b c IH]; intros [|r rs] i SZ L Li; cbn in L; try lia; try (cbn in Li; lia). inversion SZ as [|? ? LR SR]; subst. change (sized (length r) rs) in SR. injection L as L.
      assert (LL : length (lincomb (length r) c rs) = length r) by (apply length_lincomb; auto).
      destruct i as [|i]; cbn [upd nth lincomb].
      - destruct b; cbn [negb]; auto. rewrite xor_ops_assoc, xor_ops_self, xor_ops_id_l; auto.
      - cbn in Li. assert (length (nth i rs []) = length r) by (apply sized_nth; auto; lia). rewrite IH by (auto; lia). destruct b; auto. rewrite !xor_ops_assoc. f_equal. apply xor_ops_comm. }
    rewrite UP by (auto; rewrite map_length; lia).
    replace (nth i (map ops gens) []) with (ops g) by (rewrite <- EI; rewrite (nth_indep _ [] (ops row0)) by (rewrite map_length; auto); rewrite map_nth; auto).
    assert (LG : length (ops g) = n) by (apply W; rewrite <- EI; apply nth_In; auto).
    rewrite <- E. apply (list_ext _ _ pid); [rewrite length_xor_ops by (rewrite length_bits; auto); rewrite length_bits; lia|]. intros q L. rewrite length_bits in L. rewrite nth_xor_ops by (rewrite length_bits; auto). rewrite !nth_bits by auto. apply H. auto.
Qed.

(** * Complete groups *)
Lemma complete_code n s k c (sel : list row) : valid_code n s k c -> incl sel (c_stabs c) -> length sel + k = n -> indep n (map ops sel) ->
  forall P, commutes_with n (c_stabs c ++ c_logicals c) P <-> generated n (c_stabs c) P.
Proof.
  intros V INC CNT IND P. destruct V as [VS VL VW _ VC VLS VP].
  assert (WS : forall g, In g (c_stabs c) -> length (ops g) = n) by auto. assert (WL : forall g, In g (c_logicals c) -> length (ops g) = n) by auto.
  assert (SC : forall a b, In a (c_stabs c) -> In b (c_stabs c) -> symp (ops a) (ops b) = false) by (intros a b A B; apply (commute_iff n); auto).
  assert (SL : forall a b, In a (c_stabs c) -> In b (c_logicals c) -> symp (ops a) (ops b) = false) by (intros a b A B; apply (commute_iff n); auto).
  assert (LL : forall i j, i < 2 * k -> j < 2 * k -> symp (ops (nth i (c_logicals c) row0)) (ops (nth j (c_logicals c) row0)) = (i / 2 =? j / 2) && negb (i =? j)).
  { intros i j Li Lj. assert (A := VP i j (nth i (c_logicals c) row0) (nth j (c_logicals c) row0)). rewrite <- VL in Li, Lj.
    specialize (A (nth_error_nth' _ _ Li) (nth_error_nth' _ _ Lj)). assert (WI := WL _ (nth_In _ row0 Li)). assert (WJ := WL _ (nth_In _ row0 Lj)).
    destruct ((i / 2 =? j / 2) && negb (i =? j)); [apply (anticommute_iff n)|apply (commute_iff n)]; auto. }
  split.
  - intros CW. apply (generated_incl n sel); auto.
    set (lz := map (fun i => ops (nth (2 * i + 1) (c_logicals c) row0)) (seq 0 k)). set (lx := map (fun i => ops (nth (2 * i) (c_logicals c) row0)) (seq 0 k)).
    assert (NZ : forall i, i < k -> nth i lz [] = ops (nth (2 * i + 1) (c_logicals c) row0)).
    { intros i L. unfold lz. apply (nth_map_seq (fun i => ops (nth (2 * i + 1) (c_logicals c) row0))). auto. }
    assert (NX : forall i, i < k -> nth i lx [] = ops (nth (2 * i) (c_logicals c) row0)).
    { intros i L. unfold lx. apply (nth_map_seq (fun i => ops (nth (2 * i) (c_logicals c) row0))). auto. }
    assert (LZ : length lz = k) by (unfold lz; rewrite map_length, seq_length; auto). assert (LX : length lx = k) by (unfold lx; rewrite map_length, seq_length; auto).
    assert (INL : forall i, i < 2 * k -> In (nth i (c_logicals c) row0) (c_logicals c)) by (intros i L; apply nth_In; lia).
    assert (SZ : sized n lz) by (apply Forall_forall; intros o I; apply (In_nth _ _ []) in I; destruct I as (i & L & <-); rewrite NZ by lia; apply WL, INL; lia).
    assert (SX : sized n lx) by (apply Forall_forall; intros o I; apply (In_nth _ _ []) in I; destruct I as (i & L & <-); rewrite NX by lia; apply WL, INL; lia).
    assert (SS : sized n (map ops sel)) by (apply Forall_forall; intros o I; apply in_map_iff in I; destruct I as (r & <- & I); auto).
    assert (DU : dual n lz lx).
    { split; [auto|]. split; [lia|]. rewrite LZ. intros i j Li Lj. rewrite NX, NZ, LL by lia. replace (2 * i / 2) with i by (rewrite Nat.mul_comm, Nat.div_mul; lia).
      replace ((2 * j + 1) / 2) with j by (rewrite Nat.add_comm, Nat.mul_comm, Nat.div_add; auto). replace (2 * i =? 2 * j + 1) with false by (symmetry; apply Nat.eqb_neq; lia). apply andb_true_r. }
    assert (XS : forall i c1, i < k -> symp (lincomb n c1 (map ops sel)) (nth i lx []) = false).
    { intros i c1 L. rewrite symp_lincomb by (auto; apply sized_nth; auto; lia). apply xsum_zero. intros j. destruct (Nat.lt_ge_cases j (length sel)) as [A|A]; [|apply nth_overflow; rewrite !map_length; auto].
      rewrite (nth_indep _ false (symp [] (nth i lx []))) by (rewrite !map_length; auto). rewrite (map_nth (fun r => symp r (nth i lx []))).
      rewrite (nth_indep _ [] (ops row0)) by (rewrite map_length; auto). rewrite (map_nth ops), NX by auto. apply SL; [apply INC, nth_In; auto|apply INL; lia]. }
    assert (SPLIT : forall c1 c2 w, length c1 = length sel -> length c2 = k -> w = lincomb n (c1 ++ c2) (map ops sel ++ lz) -> (forall i, i < k -> symp w (nth i lx []) = false) ->
      c2 = repeat false k /\ w = lincomb n c1 (map ops sel)).
    { intros c1 c2 w L1 L2 E Z. rewrite lincomb_app in E by (auto; rewrite map_length; auto).
      assert (LA : length (lincomb n c1 (map ops sel)) = n) by (apply length_lincomb; auto). assert (LB : length (lincomb n c2 lz) = n) by (apply length_lincomb; auto).
      assert (ZC : c2 = repeat false k).
      { apply (list_ext _ _ false); [rewrite repeat_length; auto|]. intros i L. rewrite nth_repeat. rewrite <- (dual_coeff n lz lx c2 i) by (auto; lia).
        assert (LXi : length (nth i lx []) = n) by (apply sized_nth; auto; lia). assert (Zi := Z i ltac:(lia)). rewrite E, symp_xor_l, XS, xorb_false_l in Zi by (auto; lia). auto. }
      split; auto. rewrite E, ZC, lincomb_none. apply xor_ops_id_r. auto. }
    assert (LP : length (bits n P) = n) by apply length_bits.
    destruct (maximal n (map ops sel ++ lz) (bits n P)) as (cs & LC & E); auto.
    + rewrite app_length, map_length. lia.
    + apply Forall_app; auto.
    + intros cc L Z. rewrite app_length, map_length, LZ in L |- *. rewrite <- (firstn_skipn (length sel) cc) in Z |- *.
      assert (L1 : length (firstn (length sel) cc) = length sel) by (rewrite firstn_length; lia). assert (L2 : length (skipn (length sel) cc) = k) by (rewrite skipn_length; lia).
      destruct (SPLIT _ _ _ L1 L2 (eq_sym Z)) as (Z2 & Z1); [intros i _; apply symp_id_l|].
      assert (Z3 := IND _ (eq_trans L1 (eq_sym (map_length _ _))) (eq_sym Z1)). rewrite map_length in Z3. rewrite Z2, Z3. rewrite repeat_app. auto.
    + assert (KIND : forall i, i < n -> (exists g, In g (c_stabs c) /\ nth i (map ops sel ++ lz) [] = ops g) \/ exists j, j < k /\ nth i (map ops sel ++ lz) [] = ops (nth (2 * j + 1) (c_logicals c) row0)).
      { intros i L. destruct (Nat.lt_ge_cases i (length sel)) as [A|A].
        - left. exists (nth i sel row0). split; [apply INC, nth_In; auto|]. rewrite app_nth1 by (rewrite map_length; auto). rewrite (nth_indep _ [] (ops row0)) by (rewrite map_length; auto). apply map_nth.
        - right. exists (i - length sel). split; [lia|]. rewrite app_nth2 by (rewrite map_length; auto). rewrite map_length. apply NZ. lia. }
      intros i j Li Lj. destruct (KIND i Li) as [(g & G & ->)|(a & A & ->)], (KIND j Lj) as [(h & H & ->)|(b & B & ->)]; auto.
      * apply SL; auto. apply INL. lia.
      * rewrite symp_comm. apply SL; auto. apply INL. lia.
      * rewrite LL by lia. replace ((2 * a + 1) / 2) with a by (rewrite Nat.add_comm, Nat.mul_comm, Nat.div_add; auto). replace ((2 * b + 1) / 2) with b by (rewrite Nat.add_comm, Nat.mul_comm, Nat.div_add; auto).
        destruct (Nat.eqb_spec a b) as [-> |]; auto. rewrite Nat.eqb_refl. auto.
    + intros i L. rewrite symp_comm. destruct (Nat.lt_ge_cases i (length sel)) as [A|A].
      * rewrite app_nth1 by (rewrite map_length; auto). rewrite (nth_indep _ [] (ops row0)) by (rewrite map_length; auto). rewrite map_nth. assert (IG : In (nth i sel row0) (c_stabs c)) by (apply INC, nth_In; auto).
        rewrite symp_row by auto. apply CW, in_app_iff. auto.
      * rewrite app_nth2 by (rewrite map_length; auto). rewrite map_length, NZ by lia. assert (IG := INL (2 * (i - length sel) + 1) ltac:(lia)). rewrite symp_row by auto. apply CW, in_app_iff. auto.
    + rewrite <- (firstn_skipn (length sel) cs) in E. destruct (SPLIT (firstn (length sel) cs) (skipn (length sel) cs) (bits n P)) as (_ & EP); auto; [rewrite firstn_length; lia|rewrite skipn_length; lia| |].
      * intros i L. rewrite symp_comm, NX by auto. assert (IG := INL (2 * i) ltac:(lia)). rewrite symp_row by auto. apply CW, in_app_iff. auto.
      * apply (lincomb_generated n sel) with (c := firstn (length sel) cs); auto.
  - intros G g IG. induction G as [P H|h P Q IH' G IH H].
    + rewrite anti_comm. apply anti_zero. intros q I. apply in_seq in I. rewrite H by lia. reflexivity.
    + assert (LG : length (ops g) = n) by (apply in_app_iff in IG; destruct IG; auto). assert (LH : length (ops h) = n) by auto.
      rewrite <- symp_row by auto. replace (bits n Q) with (xor_ops (ops h) (bits n P)).
      * rewrite symp_xor_r by (rewrite ?length_bits; lia). rewrite symp_row, IH, xorb_false_r by auto. apply in_app_iff in IG. destruct IG as [IG|IG]; auto. rewrite symp_comm. auto.
      * apply (list_ext _ _ pid); [rewrite length_xor_ops by (rewrite length_bits; auto); rewrite length_bits; lia|]. intros q L. rewrite length_xor_ops in L by (rewrite length_bits; auto).
        rewrite nth_xor_ops by (rewrite length_bits; auto). rewrite !nth_bits by lia. symmetry. apply H. lia.
Qed.

(** * Independent generators *)
Lemma lincomb_parity {A} n (ids : list A) (c : A -> bool) (f : A -> list (bool * bool)) q : (forall o, In o ids -> length (f o) = n) -> q < n ->
  nth q (lincomb n (map c ids) (map f ids)) pid =
  (parity (map (fun s => c s && fst (nth q (f s) pid)) ids), parity (map (fun s => c s && snd (nth q (f s) pid)) ids)).
Proof.
  intros W Lq. induction ids as [|o ids IH]; [cbn; apply nth_repeat|]. cbn [map lincomb parity fold_right].
  assert (W' : forall x, In x ids -> length (f x) = n) by (intros x I; apply W; right; auto). specialize (IH W').
  change (fold_right xorb false (map (fun s => c s && fst (nth q (f s) pid)) ids)) with (parity (map (fun s => c s && fst (nth q (f s) pid)) ids)).
  change (fold_right xorb false (map (fun s => c s && snd (nth q (f s) pid)) ids)) with (parity (map (fun s => c s && snd (nth q (f s) pid)) ids)).
  assert (LL : length (lincomb n (map c ids) (map f ids)) = n) by (apply length_lincomb, Forall_forall; intros r I; apply in_map_iff in I; destruct I as (x & <- & I); auto).
  destruct (c o); [rewrite nth_xor_ops by (rewrite LL; apply W; left; auto)|]; rewrite IH; cbn [andb]; rewrite ?xorb_false_l; auto.
Qed.

Lemma parity_kept {A} (keep : A -> bool) (f : A -> bool) l : parity (map f (filter keep l)) = parity (map (fun s => keep s && f s) l).
Proof.
  unfold parity. induction l as [|x l IH]; auto. cbn [filter map fold_right]. destruct (keep x); cbn [map fold_right andb]; rewrite IH; rewrite ?xorb_false_l; auto.
Qed.

Definition chi (c : list bool) (ids : list nat) (o : nat) : bool := existsb (fun x : bool * nat => fst x && (snd x =? o)) (combine c ids).
Lemma chi_out c : forall ids o, ~ In o ids -> chi c ids o = false.
Proof.
  induction c as [|b c IH]; intros [|x ids] o N; auto. unfold chi. cbn [combine existsb fst snd]. destruct (Nat.eqb_spec x o) as [-> |]; [exfalso; apply N; left; auto|].
  rewrite andb_false_r. apply IH. intros I. apply N. right; auto.
Qed.
Lemma chi_map c : forall ids, NoDup ids -> length c = length ids -> map (chi c ids) ids = c.
Proof.
  induction c as [|b c IH]; intros [|x ids] N L; try discriminate; auto. inversion N as [|? ? NI N']; subst. injection L as L. cbn [map]. f_equal.
  - unfold chi. cbn [combine existsb fst snd]. rewrite Nat.eqb_refl, andb_true_r. fold (chi c ids x). rewrite chi_out by auto. apply orb_false_r.
  - rewrite <- (IH ids N' L) at 2. apply map_ext_in. intros o I. unfold chi at 1. cbn [combine existsb fst snd]. destruct (Nat.eqb_spec x o) as [-> |]; [contradiction|]. rewrite andb_false_r. reflexivity.
Qed.

Lemma stab_at vs o o' : NoDup (map snd vs) -> In o (stab_ids vs) -> In o' (stab_ids vs) -> at_pos vs o = at_pos vs o' -> o = o'.
Proof.
  intros N I J E. apply in_stab_ids in I, J. destruct I as (g & q & Q), J as (g' & q' & Q'). unfold at_pos in E. rewrite (nth_error_nth _ _ _ Q), (nth_error_nth _ _ _ Q') in E. cbn [snd] in E. subst q'.
  rewrite NoDup_nth_error in N. apply N; [rewrite map_length; apply nth_error_Some; congruence|]. rewrite !nth_error_map, Q, Q'. auto.
Qed.

Lemma independent_positions vs es (keep : nat -> bool) : NoDup (map snd vs) ->
  (forall ch : pos -> bool, (forall q, ch q = true -> exists g o, nth_error vs o = Some (KStab g, q) /\ keep o = true) ->
    (forall p, In p (dpos vs) -> parity (map (fun s => ch (at_pos vs s) && fst (fac es s p)) (stab_ids vs)) = false /\
                                parity (map (fun s => ch (at_pos vs s) && snd (fac es s p)) (stab_ids vs)) = false) ->
    forall q, ch q = false) ->
  indep (length (dpos vs)) (map ops (map (brow vs es) (filter keep (stab_ids vs)))).
Proof.
  intros N H c L Z. rewrite !map_length in *. set (ids := filter keep (stab_ids vs)) in *. set (n := length (dpos vs)) in *.
  assert (NI : NoDup ids) by (apply NoDup_filter, NoDup_stab_ids). assert (EC := chi_map c ids NI L).
  set (ch := fun q => existsb (fun o => chi c ids o && pos_eqb (at_pos vs o) q) ids).
  assert (SUB : forall o, In o ids -> In o (stab_ids vs) /\ keep o = true) by (intros o I; apply filter_In; auto).
  assert (CH : forall o, In o (stab_ids vs) -> ch (at_pos vs o) = keep o && chi c ids o).
  { intros o I. unfold ch. destruct (keep o && chi c ids o) eqn:E.
    - apply andb_true_iff in E. destruct E as [E1 E2]. apply existsb_exists. exists o. split; [apply filter_In; auto|]. rewrite E2. apply pos_eqb_eq. auto.
    - destruct (existsb _ ids) eqn:X; auto. apply existsb_exists in X. destruct X as (o' & I' & X). apply andb_true_iff in X. destruct X as [X1 X2]. apply pos_eqb_eq in X2. destruct (SUB o' I') as [S1 S2].
      assert (o' = o) by (apply (stab_at vs); auto). subst o'. rewrite S2, X1 in E. discriminate. }
  assert (Q : forall q, ch q = false).
  { apply H.
    - intros q E. apply existsb_exists in E. destruct E as (o & I & E). apply andb_true_iff in E. destruct E as [_ E]. apply pos_eqb_eq in E. destruct (SUB o I) as [S1 S2].
      apply in_stab_ids in S1. destruct S1 as (g & q' & S1). exists g, o. unfold at_pos in E. rewrite (nth_error_nth _ _ _ S1) in E. cbn [snd] in E. subst q'. auto.
    - intros p P. apply (In_nth _ _ (0, 0)%Z) in P. destruct P as (q & Lq & <-). fold n in Lq.
      assert (E : nth q (lincomb n c (map ops (map (brow vs es) ids))) pid = pid) by (rewrite Z; apply nth_repeat).
      rewrite map_map in E. rewrite <- EC in E. rewrite lincomb_parity in E by (auto; intros o _; cbn; rewrite map_length; auto).
      assert (GO : forall f : bool * bool -> bool, parity (map (fun s => chi c ids s && f (nth q (ops (brow vs es s)) pid)) ids) =
        parity (map (fun s => ch (at_pos vs s) && f (fac es s (nth q (dpos vs) (0, 0)%Z))) (stab_ids vs))).
      { intros f. unfold ids at 2. rewrite parity_kept. apply parity_ext. intros s I. rewrite CH by auto. rewrite andb_assoc. f_equal. f_equal. apply (brow_fac vs es s q Lq). }
      rewrite (GO fst), (GO snd) in E. split; [apply (f_equal fst E)|apply (f_equal snd E)]. }
  rewrite <- EC. apply (list_ext _ _ false); [rewrite map_length, repeat_length; auto|]. intros i Li. rewrite map_length in Li. rewrite nth_repeat.
  rewrite (nth_indep _ false (chi c ids 0)) by (rewrite map_length; auto). rewrite map_nth. assert (I : In (nth i ids 0) ids) by (apply nth_In; auto). destruct (SUB _ I) as [S1 S2].
  assert (E := CH _ S1). rewrite S2, Q in E. auto.
Qed.

(** No generator is a product of the others. *)
Lemma indep_without n gens i : (forall g, In g gens -> length (ops g) = n) -> indep n (map ops gens) -> i < length gens -> ~ generated n (without i gens) (GeneratorSpec.fac (nth i gens row0)).
Proof.
  intros W IND L G.
  assert (EG : gens = firstn i gens ++ nth i gens row0 :: skipn (S i) gens).
  { clear - L. revert i L. induction gens as [|g gens IH]; intros [|i] L; cbn in L; try lia; auto. cbn [firstn nth skipn app]. f_equal. apply IH. lia. }
  set (g := nth i gens row0) in *. assert (IW : incl (without i gens) gens).
  { intros x I. rewrite EG. unfold without in I. apply in_app_iff in I. apply in_app_iff. destruct I; [auto|right; right; auto]. }
  assert (LG : length (ops g) = n) by (apply W, nth_In; auto).
  destruct (generated_lincomb n (without i gens) (GeneratorSpec.fac g)) as (c & LC & E); auto. rewrite <- ops_bits in E by auto.
  assert (L1 : length (firstn i gens) = i) by (rewrite firstn_length; lia). unfold without in LC, E. rewrite app_length, L1, skipn_length in LC.
  rewrite <- (firstn_skipn i c) in E. rewrite map_app in E.
  assert (SZ : forall l, incl l gens -> sized n (map ops l)) by (intros l I; apply Forall_forall; intros o J; apply in_map_iff in J; destruct J as (r & <- & J); auto).
  assert (I1 : incl (firstn i gens) gens) by (intros x I; apply IW, in_app_iff; auto). assert (I2 : incl (skipn (S i) gens) gens) by (intros x I; apply IW, in_app_iff; auto).
  rewrite lincomb_app in E by (auto; rewrite map_length, firstn_length, L1; lia).
  assert (A1 : length (lincomb n (firstn i c) (map ops (firstn i gens))) = n) by (apply length_lincomb, SZ; auto).
  assert (A2 : length (lincomb n (skipn i c) (map ops (skipn (S i) gens))) = n) by (apply length_lincomb, SZ; auto).
  assert (Q : firstn i c ++ true :: skipn i c = repeat false (length (map ops gens))).
  { apply IND; [rewrite map_length, app_length, firstn_length; cbn [length]; rewrite skipn_length; lia|]. rewrite EG at 1. rewrite map_app. cbn [map].
    rewrite lincomb_app; [|rewrite map_length, firstn_length, L1; lia|apply SZ; auto|constructor; [auto|apply (SZ (skipn (S i) gens)); auto]].
    cbn [lincomb]. set (A := lincomb n (firstn i c) _) in *. set (B := lincomb n (skipn i c) _) in *. rewrite E. rewrite (xor_ops_comm A B).
    rewrite (xor_ops_comm (xor_ops B A)), (xor_ops_assoc B B A), xor_ops_self, A2, xor_ops_id_l, xor_ops_self by auto. congruence. }
  assert (T : nth i (firstn i c ++ true :: skipn i c) false = true) by (rewrite app_nth2 by (rewrite firstn_length; lia); rewrite firstn_length; replace (i - _) with 0 by lia; auto).
  rewrite Q, nth_repeat in T. discriminate.
Qed.

(** A relation makes every generator in it a product of the others. *)
Lemma relation_without n gens i c : (forall g, In g gens -> length (ops g) = n) -> length c = length gens -> i < length gens -> lincomb n c (map ops gens) = repeat pid n -> nth i c false = true ->
  generated n (without i gens) (GeneratorSpec.fac (nth i gens row0)).
Proof.
  intros W LC L Z T.
  assert (SPL : forall {A} (d : A) l i, i < length l -> l = firstn i l ++ nth i l d :: skipn (S i) l).
  { clear. intros A d. induction l as [|g l IH]; intros [|i] L; cbn in L; try lia; auto. cbn [firstn nth skipn app]. f_equal. apply IH. lia. }
  assert (EG := SPL _ row0 gens i L). assert (EC := SPL _ false c i ltac:(lia)). rewrite T in EC. set (g := nth i gens row0) in *.
  assert (IW : incl (without i gens) gens).
  { intros x I. rewrite EG. unfold without in I. apply in_app_iff in I. apply in_app_iff. destruct I; [auto|right; right; auto]. }
  assert (LG : length (ops g) = n) by (apply W, nth_In; auto).
  assert (SZ : forall l, incl l gens -> sized n (map ops l)) by (intros l I; apply Forall_forall; intros o J; apply in_map_iff in J; destruct J as (r & <- & J); auto).
  assert (I1 : incl (firstn i gens) gens) by (intros x I; apply IW, in_app_iff; auto). assert (I2 : incl (skipn (S i) gens) gens) by (intros x I; apply IW, in_app_iff; auto).
  assert (L1 : length (firstn i c) = length (map ops (firstn i gens))) by (rewrite map_length, !firstn_length; lia).
  apply lincomb_generated with (c := firstn i c ++ skipn (S i) c); [auto|]. rewrite <- ops_bits by auto. unfold without. rewrite map_app, lincomb_app by auto.
  rewrite EC in Z. rewrite EG in Z at 1. rewrite map_app in Z. cbn [map] in Z. rewrite lincomb_app in Z; [|auto|apply SZ; auto|constructor; [auto|apply (SZ (skipn (S i) gens)); auto]].
  cbn [lincomb] in Z.
  assert (A1 : length (lincomb n (firstn i c) (map ops (firstn i gens))) = n) by (apply length_lincomb, SZ; auto).
  assert (A2 : length (lincomb n (skipn (S i) c) (map ops (skipn (S i) gens))) = n) by (apply length_lincomb, SZ; auto).
  set (A := lincomb n (firstn i c) _) in *. set (B := lincomb n (skipn (S i) c) _) in *.
  rewrite xor_ops_assoc, (xor_ops_comm A), <- xor_ops_assoc in Z. apply (f_equal (fun x => xor_ops x (xor_ops A B))) in Z.
  assert (LAB : length (xor_ops A B) = n) by (rewrite length_xor_ops; lia).
  rewrite <- xor_ops_assoc, xor_ops_self, LAB, xor_ops_id_r, xor_ops_id_l in Z by auto. auto.
Qed.

(** * Operators which commute with the generators *)
Lemma generated_app n gens P R S : generated n gens P -> generated n gens R -> (forall q, q < n -> S q = pxor (P q) (R q)) -> generated n gens S.
Proof.
  intros G. revert R S. induction G as [P H|g P Q I G IH H]; intros R S GR E.
  - apply (generated_ext n gens R); auto. intros q L. rewrite E, H by auto. destruct (R q) as [[] []]; reflexivity.
  - apply (generated_times n gens g (fun q => pxor (P q) (R q))); auto.
    + apply (IH R); auto.
    + intros q L. rewrite E, H by auto. destruct (GeneratorSpec.fac g q) as [[] []], (P q) as [[] []], (R q) as [[] []]; reflexivity.
Qed.
Lemma partner_op_lt k i : i < 2 * k -> partner_op i < 2 * k.
Proof.
  intros L. unfold partner_op. destruct (Nat.even i) eqn:E; [|lia]. apply Nat.even_spec in E. destruct E as (m & ->). lia.
Qed.
Lemma partner_op_eq i j : (i / 2 =? j / 2) && negb (i =? j) = (i =? partner_op j).
Proof.
  pose proof (Nat.div_mod_eq i 2) as Ei. pose proof (Nat.div_mod_eq j 2) as Ej. pose proof (Nat.mod_upper_bound i 2 ltac:(lia)) as Bi. pose proof (Nat.mod_upper_bound j 2 ltac:(lia)) as Bj.
  assert (EV : Nat.even j = (j mod 2 =? 0)).
  { rewrite (Nat.div_mod_eq j 2) at 1. rewrite Nat.even_add, Nat.even_mul. cbn [Nat.even orb]. destruct (j mod 2) as [|[|]]; auto; lia. }
  unfold partner_op. rewrite EV. destruct (Nat.eqb_spec (j mod 2) 0), (Nat.eqb_spec (i / 2) (j / 2)), (Nat.eqb_spec i j); cbn; symmetry; try apply Nat.eqb_eq; try apply Nat.eqb_neq; lia.
Qed.

Lemma normal_code n s k c is P : valid_code n s k c -> (forall R, commutes_with n (c_stabs c ++ c_logicals c) R -> generated n (c_stabs c) R) ->
  commutes_with n (c_stabs c) P -> (forall i, In i is -> i < 2 * k -> anti (seq 0 n) (GeneratorSpec.fac (nth i (c_logicals c) row0)) P = false) ->
  generated n (c_stabs c ++ unread c is) P.
Proof.
  intros V COMP CW CI. pose proof V as [VS VL VW _ VC VLS VP]. set (l := fun i => nth i (c_logicals c) row0).
  assert (LIN : forall i, i < 2 * k -> In (l i) (c_logicals c)) by (intros i L; apply nth_In; lia).
  assert (WL : forall i, i < 2 * k -> length (ops (l i)) = n) by auto.
  assert (ROW : forall a b, length (ops a) = n -> length (ops b) = n -> anti (seq 0 n) (GeneratorSpec.fac a) (GeneratorSpec.fac b) = symp (ops a) (ops b)) by (intros a b A B; rewrite (ops_bits n b B), symp_row; auto).
  assert (LL : forall i j, i < 2 * k -> j < 2 * k -> anti (seq 0 n) (GeneratorSpec.fac (l i)) (GeneratorSpec.fac (l j)) = (i =? partner_op j)).
  { intros i j Li Lj. rewrite ROW by auto. rewrite <- partner_op_eq. pose proof (VP i j (l i) (l j)) as A.
    assert (Ki : i < length (c_logicals c)) by lia. assert (Kj : j < length (c_logicals c)) by lia.
    specialize (A (nth_error_nth' _ _ Ki) (nth_error_nth' _ _ Kj)). destruct ((i / 2 =? j / 2) && negb (i =? j)); [apply (anticommute_iff n)|apply (commute_iff n)]; auto. }
  assert (IN : forall i, i < 2 * k -> anti (seq 0 n) (GeneratorSpec.fac (l (partner_op i))) P = true -> In (l i) (c_stabs c ++ unread c is)).
  { intros i L A. apply in_app_iff. right. unfold unread. apply in_map_iff. exists i. split; auto. apply filter_In. split; [apply in_seq; lia|].
    destruct (existsb (Nat.eqb (partner_op i)) is) eqn:E; auto. apply existsb_exists in E. destruct E as (j & I & E). apply Nat.eqb_eq in E. subst j.
    unfold l in A. rewrite CI in A by (auto; apply partner_op_lt; auto). discriminate. }
  assert (INV : forall i, i < 2 * k -> partner_op (partner_op i) = i).
  { intros i L. symmetry. apply Nat.eqb_eq. rewrite <- partner_op_eq. pose proof (partner_op_eq (partner_op i) i) as X. rewrite Nat.eqb_refl in X. rewrite Nat.eqb_sym, (Nat.eqb_sym i). auto. }
  assert (STEP : forall m, m <= 2 * k -> exists R, commutes_with n (c_stabs c) R /\ (forall i, i < 2 * k -> anti (seq 0 n) (GeneratorSpec.fac (l i)) R = if partner_op i <? m then false else anti (seq 0 n) (GeneratorSpec.fac (l i)) P) /\
    (generated n (c_stabs c ++ unread c is) R -> generated n (c_stabs c ++ unread c is) P)).
  { induction m as [|m IH]; intros L; [exists P; split; [auto|]; split; auto|]. destruct (IH ltac:(lia)) as (R & R1 & R2 & R3).
    destruct (anti (seq 0 n) (GeneratorSpec.fac (l (partner_op m))) P) eqn:E.
    - exists (fun q => pxor (GeneratorSpec.fac (l m) q) (R q)). split; [|split].
      + intros g I. rewrite anti_xor_r, R1, xorb_false_r by auto. rewrite ROW by auto. apply (commute_iff n); auto.
      + intros i Li. rewrite anti_xor_r, LL, R2 by lia. destruct (Nat.eqb_spec i (partner_op m)) as [-> |NE].
        * rewrite INV by lia. rewrite (proj2 (Nat.ltb_ge m m)), (proj2 (Nat.ltb_lt m (S m))), E by lia. reflexivity.
        * assert (partner_op i <> m) by (intros X; apply NE; rewrite <- X, INV; auto). rewrite xorb_false_l. destruct (Nat.ltb_spec (partner_op i) m), (Nat.ltb_spec (partner_op i) (S m)); auto; lia.
      + intros G. apply R3. apply (generated_times n _ (l m) (fun q => pxor (GeneratorSpec.fac (l m) q) (R q))); [apply IN; auto; lia|auto|].
        intros q _. destruct (GeneratorSpec.fac (l m) q) as [[] []], (R q) as [[] []]; reflexivity.
    - exists R. split; [auto|]. split; [|auto]. intros i Li. rewrite R2 by auto. destruct (Nat.ltb_spec (partner_op i) m), (Nat.ltb_spec (partner_op i) (S m)); auto; try lia.
      assert (partner_op i = m) by lia. rewrite <- (INV i) by auto. congruence. }
  destruct (STEP (2 * k) (le_n _)) as (R & R1 & R2 & R3). apply R3. apply (generated_incl n (c_stabs c)); [intros x I; apply in_app_iff; auto|]. apply COMP.
  intros g I. apply in_app_iff in I. destruct I as [I|I]; [auto|]. apply (In_nth _ _ row0) in I. destruct I as (i & L & <-). rewrite VL in L. fold (l i). rewrite R2 by auto.
  rewrite (proj2 (Nat.ltb_lt _ _)); auto. apply partner_op_lt. auto.
Qed.
