(** Lemmas: Pauli frames and Born's rule. *)
Require Import String List Bool Arith ZArith QArith Qfield Lia.
From Verif Require Import Base BaseProofs QSpec PauliModel PauliSem PauliProofs PauliAlg StateSpec TableauProofs MeasureProofs GateProofs StateProofs StimSemProofs CircuitModel SimSpec SimModel SimProofs
  DistSpec DistMean DistSim FrameSpec.
Import ListNotations.
Local Open Scope string_scope.
Local Open Scope nat_scope.
Local Open Scope list_scope.

Section Frames.
Variable n : nat.
Definition like (w u : vec) : Prop := exists k, ziabs2 k = 1%Z /\ veq n w (vscale k u).
Definition Fr (f : frame) : spauli := denote (mkRow f false).
Definition FA (f : frame) (v w : vec) : Prop := List.length f = n /\ like w (papply (Fr f) v).

Lemma veq_refl' u : veq n u u. Proof. intros a _. auto. Qed.
Lemma veq_sym' u v : veq n u v -> veq n v u. Proof. intros H a Ha. symmetry. auto. Qed.
Lemma like_trans a b c : like a b -> like b c -> like a c.
Proof.
  intros (k & K & E) (k' & K' & E'). exists (zimul k k'). split; [rewrite ziabs2_mul, K, K'; auto|].
  intros x Hx. rewrite E by auto. unfold vscale. rewrite E' by auto. unfold vscale. ring.
Qed.
Lemma like_scale k u : ziabs2 k = 1%Z -> like (vscale k u) u.
Proof. intros K. exists k. split; auto. apply veq_refl'. Qed.
Lemma like_veq w u : veq n w u -> like w u.
Proof. intros E. exists zi1. split; auto. intros a Ha. rewrite E by auto. unfold vscale. ring. Qed.
Lemma like_row r v : like (papply (denote r) v) (papply (Fr (ops r)) v).
Proof.
  exists (sgn (neg r)). split; [apply sgn_abs|]. intros a _. unfold papply, Fr, denote, vscale. cbn [fst snd neg ops sgn]. ring.
Qed.
Lemma like_papply f u v : List.length f = n -> like u v -> like (papply (Fr f) u) (papply (Fr f) v).
Proof.
  intros L (k & K & E). exists k. split; auto. eapply veq_trans; [apply papply_ext; [exact L|exact E]|]. apply papply_scale. exact L.
Qed.
Lemma like_norm u v : like u v -> norm2 n u = norm2 n v.
Proof. intros (k & K & E). rewrite (norm2_ext n _ _ E), norm2_scale, K. lia. Qed.
Lemma FA_norm f v w : FA f v w -> norm2 n w = norm2 n v.
Proof. intros (L & H). rewrite (like_norm _ _ H). apply norm2_papply. exact L. Qed.

Lemma FA_unitary (U : vec -> vec) (g : row -> row) f v w :
  (forall u u', veq n u u' -> veq n (U u) (U u')) -> (forall c u, veq n (U (vscale c u)) (vscale c (U u))) ->
  (forall r u, List.length (ops r) = n -> veq n (U (papply (denote r) u)) (papply (denote (g r)) (U u))) ->
  (forall r, List.length (ops r) = n -> List.length (ops (g r)) = n) ->
  FA f v w -> FA (ops (g (mkRow f false))) (U v) (U w).
Proof.
  intros X S C L (Lf & k & K & E). split; [apply L; exact Lf|].
  eapply like_trans; [|apply like_row]. exists k. split; auto.
  eapply veq_trans; [apply X, E|]. eapply veq_trans; [apply S|]. apply vscale_ext. apply C. exact Lf.
Qed.
Lemma pid_default q (f : frame) : nth q f pid = at_qubit q f. Proof. reflexivity. Qed.
Lemma FA_h q f v w : q < n -> FA f v w -> FA (through_h f q) (apply1 mH q v) (apply1 mH q w).
Proof.
  intros Hq H. replace (through_h f q) with (ops (h_row q (mkRow f false))).
  - apply FA_unitary; auto.
    + intros; apply apply1_ext; auto.
    + intros c u a _. apply apply1_scale.
    + intros; apply h_conj; auto.
    + intros r Hr. unfold h_row. cbn [ops]. rewrite length_upd. auto.
  - unfold h_row, through_h. cbn [ops]. unfold getx, getz, at_qubit, PauliModel.getx. destruct (nth q f (false, false)); auto.
Qed.
Lemma FA_gate1 q m (row' : nat -> row -> row) f v w : (forall r, ops (row' q r) = ops r) ->
  (forall r u, List.length (ops r) = n -> veq n (apply1 m q (papply (denote r) u)) (papply (denote (row' q r)) (apply1 m q u))) ->
  FA f v w -> FA f (apply1 m q v) (apply1 m q w).
Proof.
  intros O C H. replace f with (ops (row' q (mkRow f false))) by (rewrite O; auto). apply FA_unitary; auto.
  - intros; apply apply1_ext; auto.
  - intros c u a _. apply apply1_scale.
  - intros r Hr. rewrite O. auto.
Qed.
Lemma FA_x q f v w : q < n -> FA f v w -> FA f (apply1 mX q v) (apply1 mX q w).
Proof. intros Hq. apply (FA_gate1 q mX x_row); [reflexivity|]. intros; apply x_conj; auto. Qed.
Lemma FA_z q f v w : q < n -> FA f v w -> FA f (apply1 mZ q v) (apply1 mZ q w).
Proof. intros Hq. apply (FA_gate1 q mZ z_row); [reflexivity|]. intros; apply z_conj; auto. Qed.
Lemma FA_y q f v w : q < n -> FA f v w -> FA f (apply1 mY q v) (apply1 mY q w).
Proof. intros Hq. apply (FA_gate1 q mY y_row); [reflexivity|]. intros; apply y_conj; auto. Qed.
Lemma FA_cx c t f v w : c < n -> t < n -> c <> t -> FA f v w -> FA (through_cx f (c, t)) (apply2 mCX c t v) (apply2 mCX c t w).
Proof.
  intros Hc Ht D H. assert (L : List.length f = n) by apply H. replace (through_cx f (c, t)) with (ops (cx_row c t (mkRow f false))).
  - apply FA_unitary; auto.
    + intros; apply apply2_ext; auto.
    + intros k u a _. apply apply2_scale.
    + intros; apply cx_conj; auto.
    + intros r Hr. rewrite cx_row_ops by lia. cbn [ops]. rewrite !length_upd. auto.
  - rewrite cx_row_ops by (cbn [ops]; lia). cbn [ops]. unfold through_cx, at_qubit, getx, getz. destruct (nth c f (false, false)), (nth t f (false, false)); auto.
Qed.
Lemma FA_cz c t f v w : c < n -> t < n -> c <> t -> FA f v w -> FA (through_cz f (c, t)) (apply2 mCZ c t v) (apply2 mCZ c t w).
Proof.
  intros Hc Ht D H. assert (L : List.length f = n) by apply H. replace (through_cz f (c, t)) with (ops (cz_row c t (mkRow f false))).
  - apply FA_unitary; auto.
    + intros; apply apply2_ext; auto.
    + intros k u a _. apply apply2_scale.
    + intros; apply cz_conj; auto.
    + intros r Hr. rewrite cz_row_ops by lia. cbn [ops]. rewrite !length_upd. auto.
  - rewrite cz_row_ops by (cbn [ops]; lia). cbn [ops]. unfold through_cz, at_qubit, getx, getz. destruct (nth c f (false, false)), (nth t f (false, false)); auto.
Qed.

(** * Errors *)
Lemma xor_ops_single (p : bool * bool) : forall (f : frame) q, xor_ops (upd q p (repeat pid (List.length f))) f =
  upd q (xorb (fst p) (fst (nth q f pid)), xorb (snd p) (snd (nth q f pid))) f.
Proof.
  induction f as [|[x z] f IH]; intros [|q]; auto.
  - cbn [List.length repeat upd xor_ops nth fst snd]. destruct p. rewrite xor_ops_id_l by auto. reflexivity.
  - cbn [List.length repeat upd nth]. change pid with (false, false) at 1. cbn [xor_ops]. rewrite IH, !xorb_false_l. reflexivity.
Qed.
Lemma hit_xor P q f : List.length f = n -> hit P q f = xor_ops (upd q (pbits P) (repeat pid n)) f.
Proof.
  intros <-. rewrite xor_ops_single. unfold hit, at_qubit. unfold pid. destruct (nth q f (false, false)) as [x z]. destruct P, x, z; reflexivity.
Qed.
Lemma hit_len P q f : List.length (hit P q f) = List.length f.
Proof. unfold hit. destruct (at_qubit q f). apply length_upd. Qed.
Lemma phase_abs (b : bool) : ziabs2 (if b then zii else zi1) = 1%Z. Proof. destruct b; reflexivity. Qed.
Lemma FA_hit P q f v w : q < n -> FA f v w -> FA (hit P q f) v (apply1 (mP P) q w).
Proof.
  intros Hq (L & k & K & E). split; [rewrite hit_len; auto|]. set (a := mkRow (upd q (pbits P) (repeat pid n)) false).
  assert (La : List.length (ops a) = n) by apply single_len.
  eapply like_trans; [apply like_veq, apply1_pauli, Hq|]. rewrite <- denote_single. fold a.
  eapply like_trans; [apply (like_papply (ops a)); [exact La|exists k; split; [exact K|exact E]]|].
  change (Fr (ops a)) with (denote a). unfold Fr.
  eapply like_trans; [apply like_veq, (mulrow_product n a (mkRow f false)); [exact La|exact L]|].
  eapply like_trans; [apply like_scale, phase_abs|]. rewrite hit_xor by auto. apply (like_row (mulrow a (mkRow f false))).
Qed.
Lemma FA_absorb P q f v u w : q < n -> veq n v (apply1 (mP P) q u) -> FA f v w -> FA (hit P q f) u w.
Proof.
  intros Hq V (L & H). split; [rewrite hit_len; auto|]. set (a := mkRow (upd q (pbits P) (repeat pid n)) false).
  assert (La : List.length (ops a) = n) by apply single_len.
  eapply like_trans; [exact H|]. eapply like_trans.
  { apply like_papply; [exact L|]. eapply like_trans; [apply like_veq, V|]. eapply like_trans; [apply like_veq, apply1_pauli, Hq|]. rewrite <- denote_single. fold a. apply like_veq, veq_refl'. }
  unfold Fr. eapply like_trans; [apply like_veq, (mulrow_product n (mkRow f false) a); [exact L|exact La]|].
  eapply like_trans; [apply like_scale, phase_abs|]. rewrite hit_xor by auto. rewrite xor_ops_comm. apply (like_row (mulrow (mkRow f false) a)).
Qed.
Lemma FA_veq f v v' w : veq n v v' -> FA f v w -> FA f v' w.
Proof. intros V (L & H). split; auto. eapply like_trans; [exact H|]. apply like_papply; auto. apply like_veq; auto. Qed.

(** * Measurements *)
Definition Zq (q : nat) := single n false PZ q.
Definition zr (q : nat) : row := mkRow (upd q (pbits PZ) (repeat pid n)) false.
Lemma zr_len q : List.length (ops (zr q)) = n. Proof. apply single_len. Qed.
Lemma zr_denote q : Zq q = denote (zr q). Proof. symmetry. apply denote_single. Qed.
Lemma zr_symp q f : List.length f = n -> q < n -> symp (ops (zr q)) f = fst (at_qubit q f).
Proof.
  intros L Hq. rewrite symp_comm. unfold zr. cbn [ops]. rewrite symp_single by auto. unfold sp1, at_qubit, pid. destruct (nth q f (false, false)) as [x z]. destruct x, z; reflexivity.
Qed.
Lemma FA_project q m f v w : q < n -> FA f v w -> FA f (project (Zq q) (xorb m (fst (at_qubit q f))) v) (project (Zq q) m w).
Proof.
  intros Hq (L & k & K & E). split; auto. exists k. split; auto. rewrite zr_denote.
  pose proof (papply_swap n (zr q) (mkRow f false) v (zr_len q) L) as S. cbn [ops] in S. rewrite zr_symp in S by auto.
  set (x := fst (at_qubit q f)) in *.
  assert (A : veq n (papply (denote (zr q)) w) (vscale k (papply (denote (zr q)) (papply (Fr f) v)))).
  { eapply veq_trans; [apply papply_ext; [apply zr_len|exact E]|]. apply papply_scale, zr_len. }
  assert (B : veq n (papply (Fr f) (project (denote (zr q)) (xorb m x) v)) (vadd (papply (Fr f) v) (vscale (sgn (xorb m x)) (papply (Fr f) (papply (denote (zr q)) v))))).
  { unfold project. eapply veq_trans; [apply papply_add; exact L|]. apply vadd_ext; [apply veq_refl'|]. apply papply_scale. exact L. }
  intros a Ha. unfold vscale at 1. rewrite B by auto. unfold project, vadd, vscale. rewrite A, E by auto. unfold vscale. unfold Fr at 2. rewrite S by auto. unfold vscale, Fr.
  rewrite <- sgn_mul. ring.
Qed.
Lemma born_same q m f v w : q < n -> FA f v w -> born n (Zq q) m w = born n (Zq q) (xorb m (fst (at_qubit q f))) v.
Proof. intros Hq H. unfold born. rewrite (FA_norm _ _ _ (FA_project q m f v w Hq H)), (FA_norm _ _ _ H). auto. Qed.

(** * Resets *)
Definition after_reset (q : nat) (m : bool) (v : vec) : vec := let w := project (Zq q) m v in if m then apply1 mX q w else w.
Lemma project_z q m v : q < n -> veq n (papply (Zq q) (project (Zq q) m v)) (vscale (sgn m) (project (Zq q) m v)).
Proof.
  intros Hq. rewrite zr_denote. unfold project. intros a Ha.
  rewrite (papply_add n (zr q) _ _ (zr_len q) a Ha). unfold vadd. rewrite (papply_scale n (zr q) _ _ (zr_len q) a Ha). unfold vscale.
  rewrite (papply_invol n (zr q) _ (zr_len q) a Ha). pose proof (sgn_sq m) as Q.
  replace (zimul (sgn m) (ziadd (v a) (zimul (sgn m) (papply (denote (zr q)) v a)))) with (ziadd (zimul (sgn m) (v a)) (zimul (zimul (sgn m) (sgn m)) (papply (denote (zr q)) v a))) by ring.
  rewrite Q. ring.
Qed.
Lemma reset_zero q m v : q < n -> veq n (apply1 (mP PZ) q (after_reset q m v)) (after_reset q m v).
Proof.
  intros Hq. eapply veq_trans; [apply apply1_pauli, Hq|]. fold (Zq q). unfold after_reset. destruct m.
  - set (p := project (Zq q) true v). set (xr := mkRow (upd q (pbits PX) (repeat pid n)) false).
    assert (Lx : List.length (ops xr) = n) by apply single_len.
    assert (X : veq n (apply1 mX q p) (papply (denote xr) p)). { unfold xr. rewrite denote_single. apply (apply1_pauli n PX q p Hq). }
    rewrite zr_denote. intros a Ha. rewrite (papply_ext n (zr q) _ _ (zr_len q) X a Ha), (X a Ha).
    rewrite (papply_swap n (zr q) xr p (zr_len q) Lx a Ha).
    replace (symp (ops (zr q)) (ops xr)) with true.
    + unfold vscale. rewrite <- zr_denote. subst p. rewrite (papply_ext n xr _ _ Lx (project_z q true v Hq) a Ha). rewrite (papply_scale n xr _ _ Lx a Ha). unfold vscale. cbn [sgn]. ring.
    + unfold xr, zr. cbn [ops]. rewrite symp_single by (auto; apply single_len). rewrite nth_upd_same by (rewrite repeat_length; auto). reflexivity.
  - intros a Ha. rewrite project_z by auto. unfold vscale. cbn [sgn]. ring.
Qed.
Lemma x_twice q v : q < n -> veq n v (apply1 mX q (apply1 mX q v)).
Proof.
  intros Hq. apply veq_sym'. eapply veq_trans; [apply (apply1_pauli n PX q _ Hq)|]. rewrite <- denote_single.
  eapply veq_trans; [apply papply_ext; [apply single_len|]|].
  - eapply veq_trans; [apply (apply1_pauli n PX q _ Hq)|]. rewrite <- denote_single. apply veq_refl'.
  - apply papply_invol. apply single_len.
Qed.
Lemma hit_twice P P' q f : List.length f = n -> q < n -> hit P q (hit P' q f) = upd q (xorb (xorb (fst (pbits P)) (fst (pbits P'))) (fst (at_qubit q f)), xorb (xorb (snd (pbits P)) (snd (pbits P'))) (snd (at_qubit q f))) f.
Proof.
  intros L Hq. assert (U : forall p p', upd q p (upd q p' f) = upd q p f). { intros p p'. apply upd_upd_same. }
  unfold hit at 2. unfold hit. destruct (at_qubit q f) as [x z] eqn:A. unfold at_qubit. rewrite nth_upd_same by lia. destruct P, P', x, z; cbn [pbits fst snd xorb negb]; rewrite U; reflexivity.
Qed.
Lemma upd_same q (f : frame) p : at_qubit q f = p -> upd q p f = f.
Proof. intros <-. unfold at_qubit. apply upd_nth. Qed.
Lemma FA_reset q m f v w : q < n -> FA f v w -> FA (through_reset f q) (after_reset q (xorb m (fst (at_qubit q f))) v) (after_reset q m w).
Proof.
  intros Hq H. pose proof (FA_project q m f v w Hq H) as HP. assert (L : List.length f = n) by apply H.
  set (m' := xorb m (fst (at_qubit q f))) in *.
  (* the flip after the measurement *)
  assert (A : FA (if m then hit PX q f else f) (project (Zq q) m' v) (after_reset q m w)).
  { unfold after_reset. destruct m; auto. apply (FA_hit PX); auto. }
  (* the flip of the state without errors *)
  set (u := after_reset q m' v) in *.
  assert (B : FA (if m' then hit PX q (if m then hit PX q f else f) else if m then hit PX q f else f) u (after_reset q m w)).
  { unfold u, after_reset at 1. destruct m'; auto. apply (FA_absorb PX q _ _ _ _ Hq (x_twice q _ Hq)). exact A. }
  assert (C : forall g, FA g u (after_reset q m w) -> FA (hit PZ q g) u (after_reset q m w)).
  { intros g G. apply (FA_absorb PZ q g u u _ Hq); auto. apply veq_sym', reset_zero, Hq. }
  unfold through_reset. destruct (at_qubit q f) as [x z] eqn:E. cbn [fst] in m'. subst m'.
  assert (Z1 : forall zz, at_qubit q f = (false, zz) -> FA f u (after_reset q m w) -> FA (upd q (false, false) f) u (after_reset q m w)).
  { intros [|] Y G; [|rewrite upd_same; auto]. apply C in G. unfold hit in G. rewrite Y in G. exact G. }
  destruct m, x; cbn [xorb] in *.
  - (* m = 1, x = 1: m' = 0 *) destruct z; [|unfold hit in B; rewrite E in B; exact B]. apply C in B. rewrite hit_twice, E in B by auto. exact B.
  - (* m = 1, x = 0: m' = 1 *) rewrite hit_twice, E in B by auto. cbn [pbits fst snd xorb] in B. rewrite upd_same in B by (rewrite E; destruct z; auto). apply (Z1 z); auto.
  - (* m = 0, x = 1: m' = 1 *) destruct z; [|unfold hit in B; rewrite E in B; exact B]. apply C in B. rewrite hit_twice, E in B by auto. exact B.
  - apply (Z1 z); auto.
Qed.

(** * Expected values *)
Definition answers := list bool -> list bool -> Q.
Definition good_T (T : answers -> frame_statistic) : Prop :=
  (forall g h, (forall a b, g a b == h a b)%Q -> forall f fl es, (T g f fl es == T h f fl es)%Q) /\
  (forall c d g h f fl es, (T (fun a b => c * g a b + d * h a b) f fl es == c * T g f fl es + d * T h f fl es)%Q).
Definition corr (F : answers) (A : statistic) (T : answers -> frame_statistic) (E : (list bool -> Q) -> statistic) : Prop :=
  good_T T /\ forall f v w ms fl es, FA f v w -> List.length ms = List.length fl ->
  (A w (flipped ms fl) es == T (fun fl' es' => E (fun ms' => F (flipped ms' fl') es') v ms []) f fl es)%Q.

Lemma flipped_snoc ms fl m x : List.length ms = List.length fl -> flipped (ms ++ [m]) (fl ++ [x]) = flipped ms fl ++ [xorb m x].
Proof.
  revert fl. induction ms as [|a ms IH]; intros [|b fl] L; try discriminate L; auto. injection L as L. cbn [app flipped hd tl]. rewrite IH by auto. auto.
Qed.

Lemma corr_frame F A T E (U V : vec -> vec) (h : frame -> frame) : corr F A T E -> (forall f v w, FA f v w -> FA (h f) (V v) (U w)) ->
  corr F (fun v ms es => A (U v) ms es) (fun g f fl es => T g (h f) fl es) (fun g v ms es => E g (V v) ms es).
Proof.
  intros (G & C) H. split.
  - split; [intros g g' X f fl es; apply G; auto|intros; apply G].
  - intros f v w ms fl es FAv L. apply C; auto.
Qed.
Lemma corr_erased F A T E (b : bool) : corr F A T E -> corr F (fun v ms es => A v ms (es ++ [b])) (fun g f fl es => T g f fl (es ++ [b])) E.
Proof.
  intros (G & C). split.
  - split; [intros g g' X f fl es; apply G; auto|intros; apply G].
  - intros f v w ms fl es FAv L. apply C; auto.
Qed.
Lemma corr_sum {X} F E (l : list X) (c : X -> Q) A T : (forall x, In x l -> corr F (A x) (T x) E) ->
  corr F (fun v ms es => sum_over l (fun x => c x * A x v ms es))%Q (fun g f fl es => sum_over l (fun x => c x * T x g f fl es))%Q E.
Proof.
  intros H. split; [split|].
  - intros g h GH f fl es. apply sum_ext. intros x Hx. rewrite (proj1 (proj1 (H x Hx)) g h GH). reflexivity.
  - intros a b g h f fl es. rewrite <- (sum_scale l a), <- (sum_scale l b), <- sum_plus. apply sum_ext. intros x Hx. rewrite (proj2 (proj1 (H x Hx))). ring.
  - intros f v w ms fl es FAv L. apply sum_ext. intros x Hx. rewrite (proj2 (H x Hx) f v w ms fl es FAv L). reflexivity.
Qed.
Lemma corr_mix F E p A A' T T' : corr F A T E -> corr F A' T' E ->
  corr F (fun v ms es => p * A v ms es + (1 - p) * A' v ms es)%Q (fun g f fl es => p * T g f fl es + (1 - p) * T' g f fl es)%Q E.
Proof.
  intros (G & C) (G' & C'). split; [split|].
  - intros g h GH f fl es. rewrite (proj1 G g h GH), (proj1 G' g h GH). reflexivity.
  - intros a b g h f fl es. rewrite (proj2 G), (proj2 G'). ring.
  - intros f v w ms fl es FAv L. rewrite (C f v w ms fl es FAv L), (C' f v w ms fl es FAv L). reflexivity.
Qed.
Lemma corr_ext F A A' T T' E E' : (forall v ms es, A v ms es = A' v ms es) -> (forall g f fl es, T g f fl es = T' g f fl es) -> (forall g v ms, E g v ms [] = E' g v ms []) ->
  corr F A T E -> corr F A' T' E'.
Proof.
  intros HA HT HE (G & C). split; [split|].
  - intros g h GH f fl es. rewrite <- !HT. apply G; auto.
  - intros. rewrite <- !HT. apply G.
  - intros f v w ms fl es FAv L. rewrite <- HA, <- HT, (C f v w ms fl es FAv L). apply G. intros a b. rewrite HE. reflexivity.
Qed.

Lemma corr_ext' F A A' T T' E E' : (forall v ms es, A v ms es = A' v ms es) -> (forall g f fl es, T g f fl es = T' g f fl es) -> (forall g v ms es, E g v ms es = E' g v ms es) ->
  corr F A T E -> corr F A' T' E'.
Proof. intros HA HT HE. apply corr_ext; auto. Qed.

(** One measurement, with a vector [W] of the chosen outcome and a part [r] of the results. *)
Lemma corr_one F A T E q (W : bool -> vec -> vec) (rs : bool -> list bool) (h : frame -> frame) (fs : frame -> list bool) : q < n ->
  (forall m f v w, FA f v w -> FA (h f) (W (xorb m (fst (at_qubit q f))) v) (W m w)) ->
  (forall m f ms fl, List.length ms = List.length fl -> List.length (ms ++ rs m) = List.length (fl ++ fs f) /\
     flipped ms fl ++ rs m = flipped (ms ++ rs (xorb m (fst (at_qubit q f)))) (fl ++ fs f)) ->
  corr F A T E ->
  corr F (fun v ms es => sum_over [false; true] (fun m => born n (Zq q) m v * A (W m v) (ms ++ rs m) es)%Q) (fun g f fl es => T g (h f) (fl ++ fs f) es)
    (fun g v ms es => sum_over [false; true] (fun m => born n (Zq q) m v * E g (W m v) (ms ++ rs m) es)%Q).
Proof.
  intros Hq HW HR (G & C). split; [split|].
  - intros g g' GH f fl es. apply G; auto.
  - intros. apply G.
  - intros f v w ms fl es FAv L. set (x := fst (at_qubit q f)).
    assert (S : forall m, (born n (Zq q) m w * A (W m w) (flipped ms fl ++ rs m) es ==
      born n (Zq q) (xorb m x) v * T (fun fl' es' => E (fun ms' => F (flipped ms' fl') es') (W (xorb m x) v) (ms ++ rs (xorb m x)) []) (h f) (fl ++ fs f) es)%Q).
    { intros m. rewrite (born_same q m f v w Hq FAv). fold x. destruct (HR m f ms fl L) as (_ & ->). fold x.
      rewrite (C (h f) (W (xorb m x) v) (W m w) (ms ++ rs (xorb m x)) (fl ++ fs f) es); [reflexivity|apply HW; auto|apply HR; auto]. }
    rewrite !sum_cons, sum_nil, !S.
    transitivity (T (fun fl' es' => born n (Zq q) false v * E (fun ms' => F (flipped ms' fl') es') (W false v) (ms ++ rs false) [] +
      born n (Zq q) true v * E (fun ms' => F (flipped ms' fl') es') (W true v) (ms ++ rs true) [])%Q (h f) (fl ++ fs f) es).
    + rewrite (proj2 G). destruct x; cbn [xorb]; ring.
    + apply G. intros a b. rewrite !sum_cons, sum_nil. ring.
Qed.
Lemma corr_measure1 F A T E q : q < n -> corr F A T E ->
  corr F (fun v ms es => sum_over [false; true] (fun m => born n (Zq q) m v * A (project (Zq q) m v) (ms ++ [m]) es)%Q)
    (fun g f fl es => T g f (fl ++ [fst (at_qubit q f)]) es)
    (fun g v ms es => sum_over [false; true] (fun m => born n (Zq q) m v * E g (project (Zq q) m v) (ms ++ [m]) es)%Q).
Proof.
  intros Hq C. apply (corr_one F A T E q (fun m v => project (Zq q) m v) (fun m => [m]) (fun f => f) (fun f => [fst (at_qubit q f)])); auto.
  - intros; apply FA_project; auto.
  - intros m f ms fl L. split; [rewrite !app_length; cbn; lia|]. rewrite flipped_snoc by auto. f_equal. f_equal. destruct m, (fst (at_qubit q f)); auto.
Qed.
Lemma corr_reset1 F A T E q : q < n -> corr F A T E ->
  corr F (fun v ms es => sum_over [false; true] (fun m => born n (Zq q) m v * A (after_reset q m v) ms es)%Q)
    (fun g f fl es => T g (through_reset f q) fl es)
    (fun g v ms es => sum_over [false; true] (fun m => born n (Zq q) m v * E g (after_reset q m v) ms es)%Q).
Proof.
  intros Hq C. eapply corr_ext; [| | |apply (corr_one F A T E q (after_reset q) (fun _ => []) (fun f => through_reset f q) (fun _ => [])); auto].
  - intros v ms es. cbv beta. rewrite app_nil_r. auto.
  - intros. cbv beta. rewrite app_nil_r. auto.
  - intros. cbv beta. rewrite app_nil_r. auto.
  - intros; apply FA_reset; auto.
  - intros m f ms fl L. rewrite !app_nil_r. auto.
Qed.
Lemma corr_M F A T E qs : Forall (fun q => q < n) qs -> corr F A T E ->
  corr F (mean_measure n qs A) (fun g f fl es => T g f (fl ++ map (fun q => fst (at_qubit q f)) qs) es) (fun g => mean_measure n qs (E g)).
Proof.
  intros R C. induction R as [|q qs Hq R IH].
  - eapply corr_ext; [| | |exact C]; auto. intros. cbv beta. cbn [map]. rewrite app_nil_r. auto.
  - eapply corr_ext; [| | |apply (corr_measure1 _ _ _ _ q Hq IH)]; auto. intros. cbv beta. rewrite <- app_assoc. auto.
Qed.
Lemma corr_R F A T E qs : Forall (fun q => q < n) qs -> corr F A T E ->
  corr F (mean_reset n qs A) (fun g f fl es => T g (fold_left through_reset qs f) fl es) (fun g => mean_reset n qs (E g)).
Proof.
  intros R C. induction R as [|q qs Hq R IH]; [exact C|].
  eapply corr_ext; [| | |apply (corr_reset1 _ _ _ _ q Hq IH)]; auto.
Qed.
Lemma corr_D F A T E qs : Forall (fun q => q < n) qs -> corr F A T E ->
  corr F (mean_depolarize qs A) (fun g => hits_depolarize qs (T g)) E.
Proof.
  intros R C. induction R as [|q qs Hq R IH]; [exact C|].
  apply (corr_sum F E [PX; PY; PZ] (fun _ => 1 # 3)%Q (fun P v ms es => mean_depolarize qs A (apply1 (mP P) q v) ms es) (fun P g f fl es => hits_depolarize qs (T g) (hit P q f) fl es)).
  intros P _. apply (corr_frame F _ _ E (apply1 (mP P) q) (fun v => v) (hit P q) IH). intros; apply FA_hit; auto.
Qed.
Lemma corr_hit F A T E P q : q < n -> corr F A T E -> corr F (fun v ms es => A (apply1 (mP P) q v) ms es) (fun g f fl es => T g (hit P q f) fl es) E.
Proof. intros Hq C. apply (corr_frame F A T E (apply1 (mP P) q) (fun v => v) (hit P q) C). intros; apply FA_hit; auto. Qed.
Lemma corr_hits F A T E P qs : Forall (fun q => q < n) qs -> corr F A T E -> corr F (fun v ms es => A (all1 (mP P) qs v) ms es) (fun g f fl es => T g (hits P qs f) fl es) E.
Proof.
  intros R C. apply (corr_frame F A T E (all1 (mP P) qs) (fun v => v) (hits P qs) C). induction R as [|q qs Hq R IH]; auto. intros f v w H. apply IH. apply FA_hit; auto.
Qed.
Lemma FA_all1 m (th : frame -> nat -> frame) qs : (forall q f v w, q < n -> FA f v w -> FA (th f q) (apply1 m q v) (apply1 m q w)) -> Forall (fun q => q < n) qs ->
  forall f v w, FA f v w -> FA (fold_left th qs f) (all1 m qs v) (all1 m qs w).
Proof. intros H R. induction R as [|q qs Hq R IH]; auto. intros f v w X. apply IH. auto. Qed.
Lemma FA_all2 m (th : frame -> nat * nat -> frame) cts : (forall c t f v w, c < n -> t < n -> c <> t -> FA f v w -> FA (th f (c, t)) (apply2 m c t v) (apply2 m c t w)) ->
  Forall (fun ct => fst ct < n /\ snd ct < n /\ fst ct <> snd ct) cts -> forall f v w, FA f v w -> FA (fold_left th cts f) (all2 m cts v) (all2 m cts w).
Proof. intros H R. induction R as [|[c t] cts (A & B & D) R IH]; auto. intros f v w X. apply IH. apply H; auto. Qed.
Lemma fold_same qs (f : frame) : fold_left (fun f (_ : nat) => f) qs f = f. Proof. induction qs; auto. Qed.

(** * Gates *)
Lemma range_plain name qs : in_range n (name, map qa qs) -> Forall (fun q => q < n) qs.
Proof. intros R. apply Forall_forall. intros q Hq. apply R. cbn [snd]. apply in_map. auto. Qed.
Lemma range_pairs name cts : in_range n (name, flat_map (fun ct => [qa (fst ct); qa (snd ct)]) cts) -> Forall (fun ct : nat * nat => fst ct <> snd ct) cts ->
  Forall (fun ct => fst ct < n /\ snd ct < n /\ fst ct <> snd ct) cts.
Proof.
  intros R D. rewrite Forall_forall in *. intros ct I. repeat split; [apply R|apply R|auto]; cbn [snd]; apply in_flat_map; exists ct; cbn; auto.
Qed.
Lemma qubits_flat cts : qubits (flat_map (fun ct : nat * nat => [qa (fst ct); qa (snd ct)]) cts) = flat_map (fun ct => [fst ct; snd ct]) cts.
Proof. induction cts as [|[a b] l IH]; auto. cbn [flat_map app]. unfold qubits in *. cbn [flat_map]. rewrite IH. unfold qa. cbn. rewrite !Nat2Z.id. auto. Qed.
Lemma firstn_args ars rest k : List.length ars = k -> firstn k (ars ++ rest : list arg) = ars.
Proof. intros <-. rewrite firstn_app, Nat.sub_diag, firstn_all. cbn. apply app_nil_r. Qed.
Lemma skipn_args ars rest k : List.length ars = k -> skipn k (ars ++ rest : list arg) = rest.
Proof. intros <-. rewrite skipn_app, Nat.sub_diag, skipn_all. auto. Qed.

Lemma args_length ars ps : Forall2 prob_arg ars ps -> List.length ars = List.length ps.
Proof. induction 1; cbn; auto. Qed.
Lemma corr_error F A T E gt : valid_gate (fst gt) (snd gt) -> In (fst gt) error_names -> in_range n gt -> corr F A T E ->
  corr F (mean_gate n gt A) (fun g => error_gate gt (T g)) E.
Proof.
  destruct gt as [name args]. cbn [fst snd]. intros V I R C. inversion V; subst.
  - assert (Q := range_plain _ _ R). unfold error_names in I. cbn [In] in I, H.
    destruct H as [<-|[<-|[<-|[<-|[<-|[<-|[<-|[]]]]]]]]; try (exfalso; clear - I; intuition discriminate);
      (eapply corr_ext; [intros; unfold mean_gate; cbn [String.eqb Ascii.eqb Bool.eqb]; rewrite qubits_qa; reflexivity|intros; unfold error_gate; cbn [String.eqb Ascii.eqb Bool.eqb]; rewrite qubits_qa; reflexivity|reflexivity|]).
    + apply (corr_hits F A T E PX); auto.
    + apply (corr_hits F A T E PY); auto.
    + apply (corr_hits F A T E PZ); auto.
    + apply corr_D; auto.
  - exfalso. unfold error_names in I. cbn [In] in I, H. destruct H as [<-|[<-|[]]]; clear - I; intuition discriminate.
  - assert (Q : q < n) by (apply R; right; left; auto).
    eapply corr_ext; [intros; unfold mean_gate; cbn [String.eqb Ascii.eqb Bool.eqb]; reflexivity|intros; unfold error_gate; cbn [String.eqb Ascii.eqb Bool.eqb]; reflexivity|reflexivity|].
    cbn [nth skipn]. cbn [qubits flat_map app nth]. unfold qa. rewrite Nat2Z.id. apply corr_mix.
    + apply (corr_sum F E letters (fun _ => 1 # 4)%Q (fun P v ms es => A (apply1 (mP P) q v) ms (es ++ [true])) (fun P g f fl es => T g (hit P q f) fl (es ++ [true]))).
      intros P _. apply (corr_erased F (fun v ms es => A (apply1 (mP P) q v) ms es) (fun g f fl es => T g (hit P q f) fl es) E true). apply corr_hit; auto.
    + apply corr_erased; auto.
  - assert (Q : q < n) by (apply R; cbn [snd]; apply in_or_app; right; left; auto). assert (L : List.length ars = 3) by (rewrite (args_length _ _ H); auto).
    eapply corr_ext; [intros; unfold mean_gate; cbn [String.eqb Ascii.eqb Bool.eqb]; rewrite firstn_args, skipn_args by auto; reflexivity|
      intros; unfold error_gate; cbn [String.eqb Ascii.eqb Bool.eqb]; rewrite firstn_args, skipn_args by auto; reflexivity|reflexivity|].
    cbn [qubits flat_map app nth]. unfold qa. rewrite Nat2Z.id.
    apply (corr_sum F E letters (fun P => prob_k (map number ars) (code P)) (fun P v ms es => A (apply1 (mP P) q v) ms es) (fun P g f fl es => T g (hit P q f) fl es)).
    intros P _. apply corr_hit; auto.
  - assert (Q1 : q1 < n) by (apply R; cbn [snd]; apply in_or_app; right; left; auto). assert (Q2 : q2 < n) by (apply R; cbn [snd]; apply in_or_app; right; right; left; auto).
    assert (L : List.length ars = 15) by (rewrite (args_length _ _ H); auto).
    eapply corr_ext; [intros; unfold mean_gate; cbn [String.eqb Ascii.eqb Bool.eqb]; rewrite firstn_args, skipn_args by auto; reflexivity|
      intros; unfold error_gate; cbn [String.eqb Ascii.eqb Bool.eqb]; rewrite firstn_args, skipn_args by auto; reflexivity|reflexivity|].
    cbn [qubits flat_map app nth]. unfold qa. rewrite !Nat2Z.id.
    assert (X : corr F (fun v ms es => sum_over letters (fun P1 => 1 * sum_over letters (fun P2 => prob_k (map number ars) (4 * code P1 + code P2) * A (apply1 (mP P2) q2 (apply1 (mP P1) q1 v)) ms es)))%Q
      (fun g f fl es => sum_over letters (fun P1 => 1 * sum_over letters (fun P2 => prob_k (map number ars) (4 * code P1 + code P2) * T g (hit P2 q2 (hit P1 q1 f)) fl es)))%Q E).
    { apply (corr_sum F E letters (fun _ => 1)%Q (fun P1 v ms es => sum_over letters (fun P2 => prob_k (map number ars) (4 * code P1 + code P2) * A (apply1 (mP P2) q2 (apply1 (mP P1) q1 v)) ms es)%Q)
        (fun P1 g f fl es => sum_over letters (fun P2 => prob_k (map number ars) (4 * code P1 + code P2) * T g (hit P2 q2 (hit P1 q1 f)) fl es)%Q)).
      intros P1 _. apply (corr_sum F E letters (fun P2 => prob_k (map number ars) (4 * code P1 + code P2)) (fun P2 v ms es => A (apply1 (mP P2) q2 (apply1 (mP P1) q1 v)) ms es) (fun P2 g f fl es => T g (hit P2 q2 (hit P1 q1 f)) fl es)).
      intros P2 _. apply (corr_hit F (fun v ms es => A (apply1 (mP P2) q2 v) ms es) (fun g f fl es => T g (hit P2 q2 f) fl es) E P1 q1 Q1). apply corr_hit; auto. }
    assert (Y : forall (h : pauli1 -> Q), (sum_over letters (fun P1 => 1 * h P1) == sum_over letters h)%Q) by (intros h; apply sum_ext; intros; ring).
    destruct X as (G & X). split; [split|].
    + intros g h GH f fl es. pose proof (proj1 G g h GH f fl es) as Z. rewrite !Y in Z. exact Z.
    + intros c d g h f fl es. pose proof (proj2 G c d g h f fl es) as Z. rewrite !Y in Z. exact Z.
    + intros f v w ms fl es FAv LL. pose proof (X f v w ms fl es FAv LL) as Z. rewrite !Y in Z. exact Z.
Qed.
Lemma corr_errors F A T E gs : Forall (fun gt => valid_gate (fst gt) (snd gt)) gs -> Forall (fun gt => In (fst gt) error_names) gs -> Forall (in_range n) gs -> corr F A T E ->
  corr F (mean_gates n gs A) (fun g => error_gates gs (T g)) E.
Proof.
  intros V I R C. induction gs as [|gt gs IH]; [exact C|]. inversion V; inversion I; inversion R; subst. cbn [mean_gates error_gates]. apply (corr_error F (mean_gates n gs A) (fun g => error_gates gs (T g))); auto.
Qed.
Lemma corr_block F A T E bs : Forall (fun b => Forall (fun gt => valid_gate (fst gt) (snd gt)) (br_gates b)) bs -> Forall (fun b => Forall (fun gt => In (fst gt) error_names) (br_gates b)) bs ->
  Forall (fun b => Forall (in_range n) (br_gates b)) bs -> corr F A T E -> corr F (mean_block n bs A) (fun g => error_block bs (T g)) E.
Proof.
  intros V I R C. induction bs as [|b bs IH]; [exact C|]. inversion V; inversion I; inversion R; subst.
  apply (corr_mix F E (br_p b) (mean_gates n (br_gates b) A) (mean_block n bs A) (fun g => error_gates (br_gates b) (T g)) (fun g => error_block bs (T g))); auto. apply corr_errors; auto.
Qed.
Lemma corr_gate F A T E gt : valid_gate (fst gt) (snd gt) -> In (fst gt) clean_names -> in_range n gt -> corr F A T E ->
  corr F (mean_gate n gt A) (fun g => frame_gate gt (T g)) (fun g => mean_gate n gt (E g)).
Proof.
  destruct gt as [name args]. cbn [fst snd]. intros V I R C. inversion V; subst.
  - assert (Q := range_plain _ _ R). unfold clean_names in I. cbn [In] in I, H.
    destruct H as [<-|[<-|[<-|[<-|[<-|[<-|[<-|[]]]]]]]]; try (exfalso; clear - I; intuition discriminate);
      (eapply corr_ext'; [intros; unfold mean_gate; cbn [String.eqb Ascii.eqb Bool.eqb]; rewrite qubits_qa; reflexivity|intros; unfold frame_gate; cbn [String.eqb Ascii.eqb Bool.eqb orb]; try rewrite qubits_qa; reflexivity|
         intros; unfold mean_gate; cbn [String.eqb Ascii.eqb Bool.eqb]; rewrite qubits_qa; reflexivity|]).
    + apply (corr_frame F A T E (all1 mX qs) (all1 mX qs) (fun f => f) C). intros f v w H. rewrite <- (fold_same qs f). apply (FA_all1 mX (fun f _ => f)); auto. intros; apply FA_x; auto.
    + apply (corr_frame F A T E (all1 mY qs) (all1 mY qs) (fun f => f) C). intros f v w H. rewrite <- (fold_same qs f). apply (FA_all1 mY (fun f _ => f)); auto. intros; apply FA_y; auto.
    + apply (corr_frame F A T E (all1 mZ qs) (all1 mZ qs) (fun f => f) C). intros f v w H. rewrite <- (fold_same qs f). apply (FA_all1 mZ (fun f _ => f)); auto. intros; apply FA_z; auto.
    + apply (corr_frame F A T E (all1 mH qs) (all1 mH qs) (fun f => fold_left through_h qs f) C). apply FA_all1; auto. intros; apply FA_h; auto.
    + apply corr_M; auto.
    + apply corr_R; auto.
  - assert (Q := range_pairs _ _ R H0). cbn [In] in H.
    destruct H as [<-|[<-|[]]];
      (eapply corr_ext'; [intros; unfold mean_gate; cbn [String.eqb Ascii.eqb Bool.eqb]; rewrite qubits_flat, pairs_flat; reflexivity|intros; unfold frame_gate; cbn [String.eqb Ascii.eqb Bool.eqb orb]; rewrite qubits_flat, pairs_flat; reflexivity|
         intros; unfold mean_gate; cbn [String.eqb Ascii.eqb Bool.eqb]; rewrite qubits_flat, pairs_flat; reflexivity|]).
    + apply (corr_frame F A T E (all2 mCX cts) (all2 mCX cts) (fun f => fold_left through_cx cts f) C). apply FA_all2; auto. intros; apply FA_cx; auto.
    + apply (corr_frame F A T E (all2 mCZ cts) (all2 mCZ cts) (fun f => fold_left through_cz cts f) C). apply FA_all2; auto. intros; apply FA_cz; auto.
  - exfalso. clear - I. unfold clean_names in I. cbn [In] in I. intuition discriminate.
  - exfalso. clear - I. unfold clean_names in I. cbn [In] in I. intuition discriminate.
  - exfalso. clear - I. unfold clean_names in I. cbn [In] in I. intuition discriminate.
Qed.

(** * Circuits *)
Definition valid_item (it : item) : Prop := match it with Plain gt => valid_gate (fst gt) (snd gt) | Block b bs => Forall (fun b => Forall (fun gt => valid_gate (fst gt) (snd gt)) (br_gates b)) (b :: bs) end.
Lemma clean_or_error name args : valid_gate name args -> In name clean_names \/ existsb (String.eqb name) clean_names = false /\ In name error_names.
Proof.
  intros V. inversion V; subst.
  - cbn [In] in H. destruct H as [<-|[<-|[<-|[<-|[<-|[<-|[<-|[]]]]]]]]; vm_compute; intuition.
  - cbn [In] in H. destruct H as [<-|[<-|[]]]; vm_compute; intuition.
  - vm_compute; intuition.
  - vm_compute; intuition.
  - vm_compute; intuition.
Qed.
Lemma frame_error gt G f fl es : existsb (String.eqb (fst gt)) clean_names = false -> frame_gate gt G f fl es = error_gate gt G f fl es.
Proof.
  destruct gt as [name args]. cbn [fst]. unfold clean_names. cbn [existsb]. unfold frame_gate.
  repeat match goal with |- context [String.eqb name ?s] => destruct (String.eqb name s); cbn [orb]; [discriminate|] end. auto.
Qed.
Theorem corr_items F l : Forall valid_item l -> only_errors l -> Forall (item_range n) l ->
  corr F (expected n l (fun _ ms es => F ms es)) (fun g => framed l (fun _ => g)) (fun g => expected n (noiseless l) (fun _ ms _ => g ms)).
Proof.
  intros V O R. induction l as [|it l IH].
  - split; [split; auto; reflexivity|]. intros. reflexivity.
  - inversion V; inversion O; inversion R; subst. specialize (IH H2 H6 H10). destruct it as [gt|b bs].
    + destruct (clean_or_error _ _ H1) as [I|(X & I)].
      * unfold noiseless. cbn [filter is_clean]. replace (existsb (String.eqb (fst gt)) clean_names) with true; [apply (corr_gate F (expected n l (fun _ ms es => F ms es)) (fun g => framed l (fun _ => g)) (fun g => expected n (noiseless l) (fun _ ms _ => g ms))); auto|].
        symmetry. apply existsb_exists. exists (fst gt). split; auto. apply String.eqb_refl.
      * unfold noiseless. cbn [filter is_clean]. rewrite X. eapply corr_ext'; [reflexivity| |reflexivity|apply (corr_error F (expected n l (fun _ ms es => F ms es)) (fun g => framed l (fun _ => g)) (fun g => expected n (noiseless l) (fun _ ms _ => g ms)) gt); auto].
        intros. cbn [framed]. rewrite frame_error by auto. auto.
    + apply (corr_block F (expected n l (fun _ ms es => F ms es)) (fun g => framed l (fun _ => g)) (fun g => expected n (noiseless l) (fun _ ms _ => g ms)) (b :: bs)); auto.
Qed.
Lemma FA_none v : FA (no_frame n) v v.
Proof.
  split; [apply repeat_length|]. exists zi1. split; auto. intros a Ha. unfold Fr, no_frame. change (false, false) with pid. unfold vscale. rewrite (papply_id n false v a Ha). unfold vscale. cbn [sgn]. ring.
Qed.
Theorem frames F l v : Forall valid_item l -> only_errors l -> Forall (item_range n) l ->
  (expected n l (fun _ ms es => F ms es) v [] [] ==
   framed l (fun _ fl es => expected n (noiseless l) (fun _ ms _ => F (flipped ms fl) es) v [] []) (no_frame n) [] [])%Q.
Proof. intros V O R. apply (proj2 (corr_items F l V O R) (no_frame n) v v [] [] [] (FA_none v) eq_refl). Qed.
Lemma framed_good l : Forall valid_item l -> only_errors l -> Forall (item_range n) l -> good_T (fun g => framed l (fun _ => g)).
Proof. intros V O R. apply (proj1 (corr_items (fun _ _ => 0%Q) l V O R)). Qed.
End Frames.
