(** Lemmas: runs of memory experiments with gate errors, compared with runs without errors. *)
Require Import String List Bool Arith ZArith QArith Lia.
From Verif Require Import Base BaseProofs QSpec PauliModel PauliSem PauliProofs PauliAlg StateSpec GateProofs CircuitModel SimSpec SimModel SimProofs RunProofs StateProofs
  LatticeModel LatticeSpec LatticeProofs LatticeOps LatticeRows CodesModel CodesSpec GeneratorModel GeneratorSpec StabTrack RoundProofs MemoryProofs GeneratorProofs GeneratorSem
  UnpackProofs UnpackLayout MemorySem MemoryTotal ExperimentProofs FrameSpec FrameProofs FrameMemory Props_Circuit Props_Generator.
Import ListNotations.
Local Open Scope string_scope.
Local Open Scope nat_scope.
Local Open Scope list_scope.

(** * Runs in which two-qubit errors are Pauli errors *)
Definition two_paulis (i : ins) (v v' : vec) : Prop := match i with IPauli2 _ a d => exists P1 P2, v' = apply1 (mP P2) d (apply1 (mP P1) a v) | _ => True end.
Inductive srun (n : nat) : list ins -> vec -> list bool -> list bool -> vec -> Prop :=
| sr_nil v : srun n [] v [] [] v
| sr_cons i is v ms es v1 ms' es' v' : istep n i v ms es v1 -> two_paulis i v v1 -> srun n is v1 ms' es' v' -> srun n (i :: is) v (ms ++ ms') (es ++ es') v'.
Lemma srun_irun n is v ms es v' : srun n is v ms es v' -> irun n is v ms es v'.
Proof. induction 1; econstructor; eauto. Qed.
Lemma srun_inv n i is v ms es v' : srun n (i :: is) v ms es v' ->
  exists m1 e1 v1 m2 e2, istep n i v m1 e1 v1 /\ two_paulis i v v1 /\ srun n is v1 m2 e2 v' /\ ms = m1 ++ m2 /\ es = e1 ++ e2.
Proof. intros H. inversion H; subst. repeat eexists; eauto. Qed.
Lemma srun_app n a : forall b v ms es v', srun n (a ++ b) v ms es v' ->
  exists ms1 es1 v1 ms2 es2, srun n a v ms1 es1 v1 /\ srun n b v1 ms2 es2 v' /\ ms = ms1 ++ ms2 /\ es = es1 ++ es2.
Proof.
  induction a as [|i a IH]; intros b v ms es v' H.
  - exists [], [], v, ms, es. repeat split; auto. constructor.
  - cbn in H. apply srun_inv in H. destruct H as (m0 & e0 & v0 & m' & e' & S & T & H & -> & ->).
    destruct (IH _ _ _ _ _ H) as (m1 & e1 & v2 & m2 & e2 & A & B & -> & ->).
    exists (m0 ++ m1), (e0 ++ e1), v2, m2, e2. rewrite !app_assoc. repeat split; auto. econstructor; eauto.
Qed.
Definition fifteen (i : ins) : Prop := match i with IPauli2 ps _ _ => List.length ps = 15 | _ => True end.
Lemma app_same_len {A} : forall (a b c d : list A), List.length a = List.length b -> a ++ c = b ++ d -> a = b /\ c = d.
Proof.
  induction a as [|x a IH]; intros [|y b] c d L H; try discriminate L; auto. injection L as L. cbn in H. injection H as <- H. destruct (IH b c d L H) as [-> ->]. auto.
Qed.
Lemma qgate_two n i v ms es v' : fifteen i -> qgate n (fst (ins_gate i)) (snd (ins_gate i)) v ms es v' -> two_paulis i v v'.
Proof.
  destruct i; try (intros; exact I). cbn [ins_gate fst snd two_paulis fifteen]. intros L H. inversion H; subst.
  match goal with X : _ ++ _ = map AFlt ps ++ _ |- _ => apply app_same_len in X as [_ X]; [injection X as X1 X2 _|] end.
  - apply Nat2Z.inj in X1, X2. subst. eauto.
  - match goal with F : Forall2 prob_arg _ _ |- _ => apply Forall2_len' in F end. rewrite map_length. congruence.
Qed.
Lemma qcirc_srun n : forall is v ms es v', Forall fifteen is -> qcirc n (map ins_gate is) v ms es v' -> srun n is v ms es v'.
Proof.
  induction is as [|i is IH]; intros v ms es v' V H.
  - inversion H; subst. constructor.
  - inversion V as [|? ? V1 V2]; subst. cbn [map] in H. rewrite (surjective_pairing (ins_gate i)) in H. destruct (ins_name i) as [N1 N2].
    apply qcirc_cons_inv in H. destruct H as [H|[H|[H|H]]]; [| | |tauto].
    + destruct H as (m1 & e1 & v1 & m2 & e2 & A & B & -> & ->). econstructor; eauto using qgate_ins, qgate_two.
    + destruct H as (p & inner & ar & m1 & e1 & v1 & m2 & e2 & E & EA & Hp & A & B & -> & ->).
      destruct E as [E|E]; [|tauto]. destruct (ins_error i E) as (p' & q & ->). cbn in EA. injection EA as <- <- <-.
      econstructor; [|exact I|apply IH; eauto]. inversion A; subst; qfacts. cbn. auto.
    + destruct H as (p & inner & ar & E & EA & B).
      destruct E as [[E Hp]|E]; [|tauto]. destruct (ins_error i E) as (p' & q & ->). cbn in EA. injection EA as <- <- <-.
      change ms with ([] ++ ms). change es with ([] ++ es). econstructor; [|exact I|apply IH; eauto]. cbn. auto.
Qed.

(** * Every run is a run without errors up to a frame *)
Definition in_range (n : nat) (i : ins) : Prop := forall q, acts i q -> q < n.
Lemma outcome_frame n q m f v w : q < n -> FA n f v w -> SimSpec.outcome n (single n false PZ q) m w ->
  SimSpec.outcome n (single n false PZ q) (xorb m (fst (at_qubit q f))) v.
Proof.
  intros Hq H. assert (P : forall m', norm2 n (project (single n false PZ q) m' w) = norm2 n (project (single n false PZ q) (xorb m' (fst (at_qubit q f))) v)).
  { intros m'. apply (FA_norm n f), (FA_project n q m' f v w Hq H). }
  pose proof (FA_norm n f v w H) as N. unfold SimSpec.outcome. rewrite P, N. intros [A B]. split; auto. destruct B as [B|B]; auto. right. intros m'.
  specialize (B (xorb m' (fst (at_qubit q f)))). rewrite P in B. replace (xorb (xorb m' (fst (at_qubit q f))) (fst (at_qubit q f))) with m' in B by (destruct m', (fst (at_qubit q f)); auto). auto.
Qed.
Lemma step_frame n i f v w ms es w' : in_range n i -> ins_distinct i -> FA n f v w -> istep n i w ms es w' -> two_paulis i w w' ->
  exists f' v' ms', FA n f' v' w' /\ if ins_clean i then istep n i v ms' [] v' else v' = v /\ ms' = [].
Proof.
  intros R D H S T. destruct i; cbn [istep two_paulis ins_clean ins_distinct] in *.
  - destruct S as (_ & _ & Hq & m & O & ->). eexists _, (after_reset n q (xorb m (fst (at_qubit q f))) v), []. split; [apply (FA_reset n q m f v w Hq H)|].
    conjs; auto. exists (xorb m (fst (at_qubit q f))). split; [apply (outcome_frame n q m f v w Hq H O)|]. unfold after_reset, Zq. destruct (xorb m _); reflexivity.
  - destruct S as (_ & _ & ->). assert (Hq : q < n) by (apply R; left; auto). eexists _, _, []. split; [apply (FA_h n q f v w Hq H)|]. auto.
  - destruct S as (_ & _ & ->). assert (Ha : a < n) by (apply R; destruct p; left; auto). assert (Hd : d < n) by (apply R; destruct p; right; left; auto).
    destruct p; eexists _, _, []; (split; [first [apply (FA_cx n a d f v w Ha Hd D H)|apply (FA_cz n a d f v w Ha Hd D H)]|auto]).
  - destruct S as (_ & Hq & m & -> & O & ->). eexists _, _, [xorb m (fst (at_qubit q f))]. split; [apply (FA_project n q m f v w Hq H)|].
    conjs; auto. exists (xorb m (fst (at_qubit q f))). conjs; auto. apply (outcome_frame n q m f v w Hq H O).
  - destruct S as (_ & _ & P & _ & ->). assert (Hq : q < n) by (apply R; right; right; right; left; auto). eexists _, v, []. split; [apply (FA_hit n P q f v w Hq H)|auto].
  - destruct S as (_ & b & _ & S). assert (Hq : q < n) by (apply R; right; left; auto). destruct b.
    + destruct S as (_ & P & ->). eexists _, v, []. split; [apply (FA_hit n P q f v w Hq H)|auto].
    + destruct S as (_ & ->). exists f, v, []. auto.
  - assert (Hq : q < n) by (apply R; right; right; left; auto). destruct S as (_ & _ & [(_ & ->)|(_ & ->)]).
    + eexists _, v, []. split; [apply (FA_hit n PX q f v w Hq H)|auto].
    + exists f, v, []. auto.
  - destruct T as (P1 & P2 & ->). assert (Ha : a < n) by (apply R; unfold acts; cbn; apply in_app_iff; right; left; auto). assert (Hd : d < n) by (apply R; unfold acts; cbn; apply in_app_iff; right; right; left; auto).
    eexists _, v, []. split; [apply (FA_hit n P2 d _ v _ Hd (FA_hit n P1 a f v w Ha H))|auto].
Qed.
Lemma run_frame n is : forall f v w ms es w', Forall (in_range n) is -> Forall ins_distinct is -> FA n f v w -> srun n is w ms es w' ->
  exists f' v' ms' , FA n f' v' w' /\ irun n (cl is) v ms' [] v'.
Proof.
  induction is as [|i is IH]; intros f v w ms es w' R D H S.
  - inversion S; subst. exists f, v, []. split; auto. constructor.
  - inversion R; subst. inversion D; subst. apply srun_inv in S. destruct S as (m1 & e1 & v1 & m2 & e2 & S & T & S' & -> & ->).
    destruct (step_frame n i f v w m1 e1 v1) as (f1 & u1 & k1 & H1 & K1); auto. destruct (IH f1 u1 v1 m2 e2 w') as (f' & v' & ms' & H' & K'); auto.
    cbn [cl filter]. fold (cl is). destruct (ins_clean i).
    + exists f', v', (k1 ++ ms'). split; auto. change (@nil bool) with (@nil bool ++ []). econstructor; eauto.
    + destruct K1 as [-> ->]. eauto.
Qed.

(** * Values of operators *)
Lemma symp_fun (g h : nat -> bool * bool) D : symp (map g D) (map h D) = anti D g h.
Proof. induction D as [|d D IH]; auto. cbn [map symp]. rewrite IH, anti_cons. destruct (g d), (h d); auto. Qed.
Lemma frame_map n (f : frame) : List.length f = n -> f = map (fun q => at_qubit q f) (seq 0 n).
Proof. intros <-. unfold at_qubit. apply (nth_ext _ _ (false, false) (false, false)); [rewrite map_length, seq_length; auto|]. intros i L. rewrite nth_map_seq by auto. auto. Qed.
Lemma stab_frame n g s f v w : FA n f v w -> stab n g s v -> stab n g (xorb s (anti (seq 0 n) g (fun q => at_qubit q f))) w.
Proof.
  intros (L & k & K & E) S. unfold stab, stabilises in *. set (x := anti _ _ _).
  assert (SY : symp (ops (prow n g (xorb s x))) f = x) by (rewrite (frame_map n f L) at 1; apply symp_fun).
  pose proof (papply_swap n (prow n g (xorb s x)) (mkRow f false) v (prow_len n g _) L) as SW. cbn [ops] in SW. change (map g (seq 0 n)) with (ops (prow n g (xorb s x))) in SW. rewrite SY in SW.
  eapply veq_trans; [apply papply_ext; [apply prow_len|exact E]|].
  eapply veq_trans; [apply papply_scale; apply prow_len|].
  apply veq_sym. eapply veq_trans; [exact E|]. intros a Ha. unfold vscale. f_equal. unfold Fr. rewrite SW by auto. unfold vscale.
  assert (G : veq n (papply (denote (prow n g (xorb s x))) v) (vscale (sgn x) v)).
  { intros b Hb. transitivity (sgn x * papply (denote (prow n g s)) v b)%zi; [|unfold vscale; rewrite (S b Hb); auto].
    unfold papply, vscale, denote. cbn [fst snd prow neg ops]. destruct s, x; cbn [xorb sgn]; ring. }
  rewrite (papply_ext n (mkRow f false) _ _ L G a Ha), (papply_scale n (mkRow f false) _ _ L a Ha). unfold vscale. destruct x; cbn [sgn]; ring.
Qed.
Lemma anti_restrict nd n g h : nd <= n -> data_only (seq 0 nd) g -> anti (seq 0 n) g h = anti (seq 0 nd) g h.
Proof.
  intros L G. replace n with (nd + (n - nd)) by lia. rewrite seq_app. cbn [plus].
  assert (Z : forall k m, nd <= k -> anti (seq k m) g h = false).
  { intros k m. revert k. induction m as [|m IH]; intros k Hk; [reflexivity|]. cbn [seq]. rewrite anti_cons, IH by lia. rewrite (G k) by (rewrite in_seq; lia). rewrite sp_pid_l. auto. }
  assert (Y : forall D E, anti (D ++ E) g h = xorb (anti D g h) (anti E g h)).
  { intros D E. unfold anti. rewrite map_app, fold_right_app. induction D as [|d D IH]; cbn [map fold_right]; [destruct (fold_right xorb false _); auto|]. rewrite IH. apply xorb_assoc_reverse || (symmetry; apply xorb_assoc). }
  rewrite Y, (Z nd) by lia. apply xorb_false_r.
Qed.

(** * Experiments whose rounds between the first and the last measurements are arbitrary *)
Lemma noisy_lemma n nd L (T : nat -> pfun) Ls (TL : nat -> pfun) w M0 ML Mid : nd <= n ->
  measures n (seq 0 nd) none L T M0 -> reads n Ls TL w ML -> Forall (in_range n) Mid -> Forall ins_distinct Mid ->
  (forall u ms u', nz n u -> irun n (cl Mid) u ms [] u' -> nz n u' /\
     forall f s, data_only (seq 0 nd) f -> (forall a, In a L -> anti (seq 0 nd) f (T a) = false) -> stab n f s u -> stab n f s u') ->
  (forall a, In a L -> data_only (seq 0 nd) (T a)) -> (forall a, In a Ls -> data_only (seq 0 nd) (TL a)) ->
  (forall a b, In a L -> In b L -> anti (seq 0 nd) (T a) (T b) = false) -> (forall a b, In a Ls -> In b L -> anti (seq 0 nd) (TL a) (T b) = false) ->
  forall v ms es v', nz n v -> srun n (ML ++ M0 ++ (Mid ++ M0) ++ ML) v ms es v' ->
  exists B0 BF x0 mm xR (f : pfun),
    ms = List.concat B0 ++ map fst x0 ++ mm ++ map fst xR ++ List.concat BF /\
    List.length mm = List.length (flat_map im Mid) /\
    Forall2 (fun a blk => List.length blk = w a) Ls B0 /\ Forall2 (fun a blk => List.length blk = w a) Ls BF /\
    Forall2 (fun (a : nat) (y : bool * bool) => snd y = false) L x0 /\ Forall2 (fun (a : nat) (y : bool * bool) => snd y = false) L xR /\
    (forall s, s < List.length L -> val (nth s xR bb0) = xorb (val (nth s x0 bb0)) (anti (seq 0 nd) (T (nth s L 0)) f)) /\
    (forall k, k < List.length Ls -> xorb (par_bits (nth k B0 [])) (par_bits (nth k BF [])) = anti (seq 0 nd) (TL (nth k Ls 0)) f).
Proof.
  intros Hn HM HL RM DM KM DT DTL CT CTL v ms es v' N H.
  apply srun_app in H. destruct H as (m1 & e1 & v1 & m2 & e2 & A & H & -> & ->).
  apply srun_app in H. destruct H as (m3 & e3 & v3 & m4 & e4 & B & H & -> & ->).
  apply srun_app in H. destruct H as (m5 & e5 & v5 & m6 & e6 & C & H & -> & ->).
  apply srun_app in C. destruct C as (m7 & e7 & w0 & m8 & e8 & C & E & -> & ->).
  apply srun_irun in A, B, E, H.
  apply HL in A; auto. destruct A as (-> & N1 & (B0 & -> & F0) & _).
  apply HM in B; auto. destruct B as (-> & N3 & (x0 & -> & FX) & K3).
  destruct (run_frame n Mid (no_frame n) v3 v3 m7 e7 w0 RM DM) as (f & u & mu & FU & RU); auto using FA_none.
  destruct (KM v3 mu u N3 RU) as [NU KU].
  assert (NW : nz n w0) by (unfold nz; rewrite (FA_norm n f u w0 FU); auto).
  set (F := fun q => at_qubit q f).
  assert (VT : forall g s, data_only (seq 0 nd) g -> (forall a, In a L -> anti (seq 0 nd) g (T a) = false) -> stab n g s v3 -> stab n g (xorb s (anti (seq 0 nd) g F)) w0).
  { intros g s Dg Ag Sg. rewrite <- (anti_restrict nd n g F Hn Dg). apply (stab_frame n g s f u w0 FU). apply KU; auto. }
  apply HM in E; auto. destruct E as (-> & N5 & (xR & -> & FR) & K5).
  apply HL in H; auto. destruct H as (-> & N6 & (BF & -> & F6) & K6).
  exists B0, BF, x0, m7, xR, F. rewrite <- !app_assoc.
  assert (L7 : List.length m7 = List.length (flat_map im Mid)) by (apply srun_irun, irun_len in C; tauto).
  conjs; auto.
  - eapply Forall2_impl_in; [apply F0|]. intros a blk _ [X _]. auto.
  - eapply Forall2_impl_in; [apply F6|]. intros a blk _ [X _]. auto.
  - eapply Forall2_impl_in; [apply FX|]. intros a y _ [X _]. exact X.
  - eapply Forall2_impl_in; [apply FR|]. intros a y _ [X _]. exact X.
  - intros s Hs. assert (I : In (nth s L 0) L) by (apply nth_In; auto).
    assert (S0 := Forall2_nth_in _ _ _ 0 bb0 s FX Hs). cbn beta in S0. destruct S0 as [_ S0].
    assert (S1 := Forall2_nth_in _ _ _ 0 bb0 s FR Hs). cbn beta in S1. destruct S1 as [_ S1].
    apply (VT (T (nth s L 0))) in S0; auto. apply K5 in S0; auto. apply (stab_unique n _ _ _ v5 N5 S1) in S0. exact S0.
  - intros k Hk. assert (I : In (nth k Ls 0) Ls) by (apply nth_In; auto).
    assert (S0 := Forall2_nth_in _ _ _ 0 [] k F0 Hk). cbn beta in S0. destruct S0 as [_ S0].
    assert (S1 := Forall2_nth_in _ _ _ 0 [] k F6 Hk). cbn beta in S1. destruct S1 as [_ S1].
    apply K3 in S0; auto. apply (VT (TL (nth k Ls 0))) in S0; auto. apply K5 in S0; auto. apply K6 in S0; auto.
    assert (X := stab_unique n _ _ _ v' N6 S1 S0). rewrite X. destruct (par_bits (nth k B0 [])), (anti (seq 0 nd) (TL (nth k Ls 0)) F); auto.
Qed.
