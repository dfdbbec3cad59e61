(** The union-find decoder for whole syndrome graphs: each component is decodable exactly if the
    check of the code passes, and the results of the components together explain the syndrome. *)
Require Import List Bool Arith ZArith QArith Lia Relations.
From Verif Require Import Base BaseProofs QSpec PauliModel PauliAlg MeasureProofs GraphSpec GraphProofs
  LatticeSpec LatticeOps GeneratorSpec CodesModel
  ErasureModel ErasureProofs SyngraphModel SyngraphBuild SyngraphDup SyngraphComp SyngraphObjs SyngraphProofs SyngraphErrors
  SyngraphOps SyngraphFinal UnionFindModel UnionFindFinal Props_UnionFind Props_Syngraph DecoderModel.
Import ListNotations.
Open Scope nat_scope.
Local Arguments incident : simpl never.
Local Arguments upd : simpl never.

(** * Single components *)

Lemma parity_count l : parity l = Nat.odd (length (filter (fun b => b) l)).
Proof. rewrite <- (map_id l) at 1. apply parity_odd. Qed.

Lemma parity_bits l n : length l = n -> parity (map (bits l) (seq 0 n)) = parity l.
Proof.
  intros <-. f_equal. apply list_ext with (d := false); [rewrite map_length, seq_length; auto|].
  intros i Li. rewrite map_length, seq_length in Li. rewrite nth_map_seq; auto.
Qed.

Section Comp.
Variables (rounds n : nat) (gens : list row) (w : option warg) (g : sgraph).
Hypothesis U : uses rounds n gens w g.

(** Components are connected: a set of vertices which no edge leaves contains all or none. *)
Lemma local_const k S p q : In k (sg_comps g) -> isolated (k_edges k) (fun _ => True) S ->
  p < k_n k -> q < k_n k -> S p = S q.
Proof.
  intros I IS Lp Lq. destruct (C50_components _ _ _ _ _ U) as (_ & X & _).
  destruct (X k I) as (_ & ND & _ & VB & CO & EI & EN & WF & LE & EE & _). clear X.
  assert (B : forall a, a < k_n k -> In (nth a (k_vidx k) 0) (k_vidx k)) by (intros; apply nth_In; lia).
  assert (A : forall x y, connected (sg_ends g) (active g) x y -> forall a, a < k_n k -> nth a (k_vidx k) 0 = x ->
    exists b, b < k_n k /\ nth b (k_vidx k) 0 = y /\ S a = S b).
  { induction 1 as [x y (i & Ai & E)|x|x y z _ IH1 _ IH2]; intros a La Xa.
    - assert (Ni : In x (nth i (sg_ends g) []) /\ In y (nth i (sg_ends g) [])).
      { destruct E as [E|E]; rewrite (nth_error_nth _ _ _ E); cbn; auto. }
      assert (Ii : In i (k_eidx k)).
      { apply EI. split; auto. exists x. split; [rewrite <- Xa; auto|tauto]. }
      apply (In_nth _ _ 0) in Ii. destruct Ii as (j & Lj & <-). pose proof (EE j Lj) as M.
      assert (IE : In (nth j (k_edges k) []) (k_edges k)) by (apply nth_In; lia).
      pose proof (IS j Logic.I) as ISj.
      destruct (WF _ IE) as [(v & Ev & Lv)|(u & v & Ev & NE & Lu & Lv)]; rewrite Ev in M, ISj; cbn [map] in M.
      + destruct E as [E|E]; apply (nth_error_nth _ _ []) in E; rewrite E in M; discriminate.
      + assert (INJ : forall b c, b < k_n k -> c < k_n k -> nth b (k_vidx k) 0 = nth c (k_vidx k) 0 -> b = c).
        { intros b c Lb Lc Y. apply (proj1 (NoDup_nth _ 0) ND); auto; lia. }
        destruct E as [E|E]; apply (nth_error_nth _ _ []) in E; rewrite E in M; injection M as M1 M2.
        * exists v. split; [auto|]. split; [auto|]. rewrite <- ISj. f_equal. apply INJ; auto. congruence.
        * exists u. split; [auto|]. split; [auto|]. rewrite ISj. f_equal. apply INJ; auto. congruence.
    - eauto.
    - destruct (IH1 a La Xa) as (b & Lb & Xb & Sb). destruct (IH2 b Lb Xb) as (c & Lc & Xc & Sc).
      exists c. split; [auto|]. split; [auto|]. congruence. }
  destruct (A _ _ (proj1 (CO _ (nth q (k_vidx k) 0) (B p Lp) (VB _ (B q Lq))) (B q Lq)) p Lp eq_refl) as (b & Lb & Xb & Sb).
  rewrite Sb. f_equal. apply (proj1 (NoDup_nth _ 0) ND); auto; lia.
Qed.

Lemma comp_dang k : In k (sg_comps g) -> k_dang k = existsb (fun e => length e =? 1) (k_edges k).
Proof.
  intros I. destruct (uses_ready _ _ _ _ _ U) as (s0 & gens' & _ & _ & _ & _ & vl & K & R & _).
  destruct (comp_in _ _ _ _ _ _ _ R k I) as (c & Lc & ->).
  destruct (comp_fields _ _ _ _ _ _ _ R c Lc) as (_ & -> & -> & _). auto.
Qed.

(** The check of a component passes exactly if its syndrome can be explained. *)
Lemma check_component_ok k : In k (sg_comps g) -> length (k_syn k) = k_n k ->
  (check_component k = Ok tt /\ explainable (k_n k) (k_edges k) (fun _ => True) (bits (k_syn k))) \/
  (check_component k = Err ValueError /\ ~ explainable (k_n k) (k_edges k) (fun _ => True) (bits (k_syn k))).
Proof.
  intros I LS. destruct (C50_components _ _ _ _ _ U) as (_ & X & _).
  destruct (X k I) as (NE & _ & _ & _ & _ & _ & EN & WF & _). clear X.
  assert (PN : 0 < k_n k) by (rewrite EN; destruct (k_vidx k); [congruence|cbn; lia]).
  unfold check_component. destruct (Nat.eqb_spec (length (k_edges k)) 0) as [Z|Z].
  - assert (E0 : k_edges k = []) by (destruct (k_edges k); auto; discriminate).
    assert (N1 : k_n k = 1).
    { destruct (Nat.lt_ge_cases 1 (k_n k)) as [L|]; [|lia].
      assert (Y : Nat.eqb 0 0 = Nat.eqb 0 1); [|discriminate].
      apply (local_const k (Nat.eqb 0) 0 1 I); auto. intros i _. rewrite E0. destruct i; exact Logic.I. }
    rewrite N1 in *. cbn [Nat.eqb assertR bindR]. rewrite LS. cbn [Nat.eqb assertR bindR].
    rewrite (get_nth _ _ false) by lia. cbn [bindR]. rewrite E0. change (nth 0 (k_syn k) false) with (bits (k_syn k) 0).
    destruct (bits (k_syn k) 0) eqn:B.
    + right. split; auto. intros (s & _ & X). specialize (X 0 Nat.lt_0_1). rewrite B in X. discriminate.
    + left. split; auto. exists (fun _ => false). split; auto. intros v Lv. assert (v = 0) by lia. subst. rewrite B. auto.
  - rewrite (even_all _ _ WF _ LS). rewrite comp_dang by auto.
    assert (P1 : parity_on (k_n k) (bits (k_syn k)) (fun _ => true) = Nat.odd (length (filter (fun b => b) (k_syn k)))).
    { unfold parity_on. cbn [andb]. rewrite <- parity_count. apply parity_bits; auto. }
    destruct (existsb _ (k_edges k)) eqn:D; cbn [negb andb].
    + left. split; auto. intros S IS. apply existsb_exists in D. destruct D as (e & Ie & Le).
      apply Nat.eqb_eq in Le. destruct (WF e Ie) as [(v & -> & Lv)|(u & v & -> & _)]; [|discriminate].
      apply (In_nth _ _ []) in Ie. destruct Ie as (j & Lj & Ej). pose proof (IS j Logic.I) as Y. rewrite Ej in Y.
      unfold parity_on. rewrite (parity_ext _ (fun _ => false)).
      * apply parity_false. auto.
      * intros p Ip. apply in_seq in Ip. rewrite (local_const k S p v I IS) by lia. rewrite Y. auto.
    + rewrite <- P1. destruct (parity_on _ _ _) eqn:O.
      * right. split; auto. intros EV. specialize (EV (fun _ => true)).
        assert (Y : true = false); [|discriminate]. rewrite <- O. apply EV. intros i _.
        destruct (Nat.lt_ge_cases i (length (k_edges k))) as [L|L]; [|rewrite nth_overflow; auto].
        assert (IE := nth_In (k_edges k) [] L). destruct (WF _ IE) as [(v & Ev & _)|(u & v & Ev & _)]; rewrite Ev; auto.
        exfalso. rewrite <- not_true_iff_false in D. apply D. apply existsb_exists. exists [v]. rewrite <- Ev. split; auto.
        rewrite Ev. auto.
      * left. split; auto. intros S IS. destruct (S 0) eqn:S0.
        -- rewrite <- O. unfold parity_on. apply parity_ext. intros p Ip. apply in_seq in Ip.
           rewrite (local_const k S p 0 I IS) by lia. rewrite S0. auto.
        -- unfold parity_on. rewrite (parity_ext _ (fun _ => false)).
           ++ apply parity_false. auto.
           ++ intros p Ip. apply in_seq in Ip. rewrite (local_const k S p 0 I IS) by lia. rewrite S0. auto.
Qed.
End Comp.

(** * The loop over the decoders *)

Lemma set_results_eq c res g : c < length (sg_comps g) -> length res = length (k_edges (nth c (sg_comps g) comp0)) ->
  set_results c res g = Ok (set_comps (upd c (set_k_result res true (nth c (sg_comps g) comp0)) (sg_comps g)) g).
Proof.
  intros Lc LR. unfold set_results. rewrite (get_nth _ _ comp0) by auto. cbn [bindR]. unfold comp_set_results.
  rewrite LR, Nat.eqb_refl. cbn [assertR bindR]. rewrite put_upd by auto. reflexivity.
Qed.

(** What a decoder does with its component. *)
Definition decoded (k : comp) (u : ugraph) (res : list bool) : Prop :=
  length res = length (k_edges k) /\ explains (k_n k) (k_edges k) (bits res) (bits (k_syn k)) /\
  uf_object (k_n k) (k_edges k) u.

Lemma set_comps_twice a b g : set_comps a (set_comps b g) = set_comps a g.
Proof. reflexivity. Qed.

Lemma decode_loop_ok (P : sgraph -> Prop) fuel :
  (forall c res g g', P g -> set_results c res g = Ok g' -> P g') ->
  forall ds g acc, P g -> NoDup (map d_comp ds) ->
  (forall d, In d ds -> let k := nth (d_comp d) (sg_comps g) comp0 in d_comp d < length (sg_comps g) /\
     exists er u' res, k_erased k = Some er /\ uf_decode fuel (nonzero er) (k_syn k) (d_uf d) = Ok (u', res) /\ decoded k u' res) ->
  exists cs ds', decode_loop fuel ds (g, acc) = Ok (set_comps cs g, acc ++ ds') /\ map d_comp ds' = map d_comp ds /\
    P (set_comps cs g) /\ length cs = length (sg_comps g) /\
    (forall c, ~ In c (map d_comp ds) -> nth c cs comp0 = nth c (sg_comps g) comp0) /\
    (forall d', In d' ds' -> let k := nth (d_comp d') (sg_comps g) comp0 in
       exists res, nth (d_comp d') cs comp0 = set_k_result res true k /\ decoded k (d_uf d') res /\
         exists d er, In d ds /\ d_comp d = d_comp d' /\ k_erased k = Some er /\
           uf_decode fuel (nonzero er) (k_syn k) (d_uf d) = Ok (d_uf d', res)).
Proof.
  intros HP. induction ds as [|d ds IH]; intros g acc Pg ND H.
  - exists (sg_comps g), []. cbn. rewrite app_nil_r. assert (X : set_comps (sg_comps g) g = g) by (destruct g; auto).
    rewrite X. repeat split; auto. intros d' [].
  - cbn [map] in ND. inversion ND as [|? ? NI ND']; subst.
    destruct (H d) as (Lc & er & u' & res & E1 & E2 & D); [left; auto|].
    set (c := d_comp d) in *. set (k := nth c (sg_comps g) comp0) in *.
    set (g1 := set_comps (upd c (set_k_result res true k) (sg_comps g)) g).
    assert (SR : set_results c res g = Ok g1) by (apply set_results_eq; auto; apply D).
    destruct (IH g1 (acc ++ [mkCompdec c u'])) as (cs & ds' & X & M & Pc & L & A & B).
    { eapply HP; eauto. } { auto. }
    { intros d2 I2. destruct (H d2) as (L2 & Y); [right; auto|].
      assert (NE : c <> d_comp d2) by (intros Z; apply NI; rewrite Z; apply in_map; auto).
      cbn [g1 sg_comps set_comps]. rewrite length_upd, nth_upd_other by auto. split; auto. }
    exists cs, (mkCompdec c u' :: ds'). cbn [g1 sg_comps set_comps] in L, A, B. rewrite length_upd in L.
    unfold g1 in X, Pc. rewrite set_comps_twice in X, Pc.
    split; [|split; [|split; [|split; [|split]]]].
    + unfold decode_loop. cbn [foldR fst snd]. unfold decode_component at 1. fold c.
      rewrite (get_nth _ _ comp0) by auto. cbn [bindR]. fold k. rewrite E1. cbn [bindR]. rewrite E2. cbn [bindR fst snd].
      rewrite SR. cbn [bindR fst snd]. unfold decode_loop in X. unfold g1. rewrite X. rewrite <- app_assoc. reflexivity.
    + cbn [map d_comp]. rewrite M. auto.
    + auto.
    + auto.
    + intros c' NI'. cbn [map] in NI'. rewrite A by (intros Z; apply NI'; right; auto).
      apply nth_upd_other. intros Z. apply NI'. left. auto.
    + intros d' [<-|I']; cbn [d_comp d_uf].
      * exists res. split; [rewrite A by auto; apply nth_upd_same; auto|]. split; auto.
        exists d, er. split; [left; auto|]. auto.
      * destruct (B d' I') as (res' & Y & D' & d2 & er2 & I2 & C2 & Q2 & V2).
        assert (NE : c <> d_comp d').
        { intros Z. apply NI. rewrite Z, <- M. apply in_map; auto. }
        rewrite nth_upd_other in Y, D', Q2, V2 by auto. exists res'. split; auto. split; auto.
        exists d2, er2. split; [right; auto|]. auto.
Qed.

(** * Objects *)

Record good (rounds n : nat) (gens : list row) (w : option warg) (d : decoder) : Prop := {
  gd_uses : uses rounds n gens w (dc_graph d);
  gd_outside : forall i, (forall k, In k (sg_comps (dc_graph d)) -> ~ In i (k_eidx k)) -> nth i (sg_result (dc_graph d)) false = false;
  gd_comps : map d_comp (dc_decs d) =
    filter (fun c => has_edges (nth c (sg_comps (dc_graph d)) comp0)) (seq 0 (length (sg_comps (dc_graph d))));
  gd_objects : forall x, In x (dc_decs d) -> let k := nth (d_comp x) (sg_comps (dc_graph d)) comp0 in
    uf_object (k_n k) (k_edges k) (d_uf x) }.

(** A bound for all decoders. *)
Lemma decoders_bound rounds n gens w d : good rounds n gens w d -> exists bound, forall x, In x (dc_decs d) ->
  let k := nth (d_comp x) (sg_comps (dc_graph d)) comp0 in
  forall er syn fuel, (forall i, In i er -> i < length (k_edges k)) -> length syn = k_n k -> bound <= fuel ->
    explainable (k_n k) (k_edges k) (fun _ => True) (bits syn) ->
    exists u' res, uf_decode fuel er syn (d_uf x) = Ok (u', res) /\ length res = length (k_edges k) /\
      explains (k_n k) (k_edges k) (bits res) (bits syn) /\ uf_object (k_n k) (k_edges k) u'.
Proof.
  intros [U _ CM OB].
  assert (WF : forall x, In x (dc_decs d) -> let k := nth (d_comp x) (sg_comps (dc_graph d)) comp0 in well_formed (k_n k) (k_edges k)).
  { intros x I k. destruct (C50_components _ _ _ _ _ U) as (_ & X & _). apply (X k). apply nth_In.
    apply (in_map d_comp) in I. rewrite CM in I. apply filter_In in I. destruct I as [I _]. apply in_seq in I. lia. }
  clear U CM. revert OB WF. generalize (dc_decs d). induction l as [|x l IH]; intros OB WF.
  - exists 0. intros x [].
  - destruct IH as (b1 & H1); [intros; apply OB; right; auto|intros; apply WF; right; auto|].
    destruct (C35_union_find_decoder _ _ _ (WF x (or_introl eq_refl)) (OB x (or_introl eq_refl))) as (b2 & H2).
    exists (max b1 b2). intros y [<-|I] k er syn fuel LE LS LF EX.
    + destruct (H2 er syn fuel LE LS) as [(_ & u' & res & A & B & C & D)|(N & _)]; [lia| |contradiction]. eauto 10.
    + apply (H1 y I er syn fuel LE LS); auto. lia.
Qed.

(** * Decoding *)

Definition vertex_bit (g : sgraph) (syn : list (list bool)) (v : nat) : bool :=
  let p := nth v (sg_verts g) (0, 0) in nth (snd p) (nth (fst p) syn []) false.

Lemma nth_map_comp (f : comp -> comp) cs c : c < length cs -> nth c (map f cs) comp0 = f (nth c cs comp0).
Proof. intros L. rewrite (nth_indep _ comp0 (f comp0)) by (rewrite map_length; auto). apply map_nth. Qed.

Lemma check_decodable_all cs : (forall k, In k cs -> check_component k = Ok tt) ->
  foldR (fun _ k => check_component k) cs tt = Ok tt.
Proof. induction cs as [|k cs IH]; intros H; cbn; auto. rewrite H by (left; auto). cbn. apply IH. intros; apply H; right; auto. Qed.

Lemma check_decodable_dec g : (forall k, In k (sg_comps g) -> check_component k = Ok tt \/ check_component k = Err ValueError) ->
  (check_decodable g = Ok tt /\ forall k, In k (sg_comps g) -> check_component k = Ok tt) \/
  (check_decodable g = Err ValueError /\ exists k, In k (sg_comps g) /\ check_component k = Err ValueError).
Proof.
  unfold check_decodable. induction (sg_comps g) as [|k cs IH]; intros H; cbn [foldR].
  - left. split; auto. intros k [].
  - destruct (H k (or_introl eq_refl)) as [X|X]; rewrite X; cbn [bindR].
    + destruct IH as [[A B]|[A (k' & I & B)]]; [intros; apply H; right; auto| |].
      * left. split; auto. intros k' [<-|I]; auto.
      * right. split; auto. exists k'. split; auto. right; auto.
    + right. split; auto. exists k. split; auto. left; auto.
Qed.

(** Whether a qubit of an edge is marked as erased. *)
Definition marked (g : sgraph) (er : option (list (list bool))) (i : nat) : bool :=
  match kind_of g i, er with QubitError t _ q _, Some e => nth q (nth t e []) false | _, _ => false end.

(** The decoders of the components before and after a call: each one is called with the data of
    its component, and its correction becomes the result of the edges. *)
Definition traced (fuel : nat) (er : option (list (list bool))) (syn : list (list bool)) (d d' : decoder) : Prop :=
  length (sg_comps (dc_graph d')) = length (sg_comps (dc_graph d)) /\
  (forall c, shape_of (nth c (sg_comps (dc_graph d')) comp0) = shape_of (nth c (sg_comps (dc_graph d)) comp0)) /\
  forall x', In x' (dc_decs d') -> exists x res, In x (dc_decs d) /\ d_comp x = d_comp x' /\
    let k := nth (d_comp x) (sg_comps (dc_graph d)) comp0 in
    uf_decode fuel (nonzero (map (marked (dc_graph d) er) (k_eidx k))) (map (vertex_bit (dc_graph d) syn) (k_vidx k)) (d_uf x) = Ok (d_uf x', res) /\
    forall j, j < length (k_eidx k) -> nth (nth j (k_eidx k) 0) (sg_result (dc_graph d')) false = nth j res false.

(** Outcome of a call. *)
Definition outcome (rounds n : nat) (gens : list row) (w : option warg) (d : decoder) (fuel : nat) (er : option (list (list bool))) (syn : list (list bool)) (r : Res (decoder * row)) : Prop :=
  let g := dc_graph d in
  (explainable (length (sg_verts g)) (sg_ends g) (active g) (vertex_bit g syn) /\
   exists d' fr, r = Ok (d', fr) /\ good rounds n gens w d' /\
     sg_ends (dc_graph d') = sg_ends g /\ sg_kind (dc_graph d') = sg_kind g /\ sg_verts (dc_graph d') = sg_verts g /\
     sg_on (dc_graph d') = sg_on g /\
     (forall i, nth i (sg_result (dc_graph d')) false = true -> active g i) /\
     explains (length (sg_verts g)) (sg_ends g) (bits (sg_result (dc_graph d'))) (vertex_bit g syn) /\
     result_frame (dc_graph d') = Ok fr /\ traced fuel er syn d d') \/
  (~ explainable (length (sg_verts g)) (sg_ends g) (active g) (vertex_bit g syn) /\ r = Err ValueError).

Definition shaped (rounds n : nat) (er : option (list (list bool))) : bool :=
  match er with None => true | Some q => has_shape q rounds n end.

Lemma explain_local rounds n gens w g sel syn k : uses rounds n gens w g -> In k (sg_comps g) -> (forall i, sel i = true -> active g i) ->
  explains (length (sg_verts g)) (sg_ends g) sel syn ->
  explainable (k_n k) (k_edges k) (fun _ => True) (fun p => syn (nth p (k_vidx k) 0)).
Proof.
  intros U I A X. destruct (C50_components _ _ _ _ _ U) as (_ & _ & Y). eexists. split; [auto|]. apply (Y sel syn A); auto.
Qed.

Lemma shape_edges a b : shape_of a = shape_of b -> k_edges a = k_edges b.
Proof. intros X. unfold shape_of in X. injection X. auto. Qed.
Lemma shape_fields a b : shape_of a = shape_of b ->
  k_n a = k_n b /\ k_edges a = k_edges b /\ k_vidx a = k_vidx b /\ k_eidx a = k_eidx b.
Proof. intros X. unfold shape_of in X. injection X. auto. Qed.

Theorem decode_outcome rounds n gens w d : good rounds n gens w d -> exists bound, forall er syn fuel, bound <= fuel ->
  if shaped rounds n er && has_shape syn rounds (length gens) then outcome rounds n gens w d fuel er syn (interface_decode fuel er syn d)
  else interface_decode fuel er syn d = Err AssertionError.
Proof.
  intros G. destruct (decoders_bound _ _ _ _ _ G) as (bound & HB). exists bound. intros er syn fuel LF.
  destruct G as [U OUT CM OB]. set (g := dc_graph d) in *.
  pose proof U as ((NE & Hn & Hg) & Hw & Hr & SG).
  destruct (uses_ready _ _ _ _ _ U) as (s0 & gens' & Egens & En & T & _ & vl & K & R & RF). subst n gens.
  pose proof (n_comps _ _ _ _ _ _ _ R) as NC.
  unfold interface_decode, decode_components. fold g.
  destruct (shaped rounds (length (ops s0)) er) eqn:SE; cbn [andb].
  2: { destruct er as [q|]; [|discriminate]. cbn in SE. rewrite (set_erasure_bad rounds s0 gens' w vl K g R q SE). reflexivity. }
  set (q := default (repeat (repeat false (length (ops s0))) rounds) er).
  assert (SQ : has_shape q rounds (length (ops s0)) = true) by (destruct er; [exact SE|apply zeros_shape]).
  destruct (set_erasure_ok rounds s0 gens' w Hn Hg vl K g R er SQ) as [X1 R1]. fold q in X1, R1. rewrite X1. cbn [bindR].
  set (g1 := set_comps (map (erase_comp rounds s0 gens' q) (sg_comps g)) g) in *.
  destruct (has_shape syn rounds (length (s0 :: gens'))) eqn:SS.
  2: { rewrite (set_syndrome_bad rounds s0 gens' w vl K g1 R1 syn SS). reflexivity. }
  destruct (set_syndrome_ok rounds s0 gens' w Hn Hg vl K g1 R1 (Some syn) SS) as [X2 R2]. cbn [default] in X2, R2. rewrite X2. cbn [bindR].
  set (g2 := set_comps (map (syn_comp rounds s0 gens' syn) (sg_comps g1)) g1) in *.
  assert (SG2 : syndrome_graph rounds (s0 :: gens') w g2) by (eapply sg_syndrome; [eapply sg_erasure; eauto|eauto]).
  assert (U2 : uses rounds (length (ops s0)) (s0 :: gens') w g2) by (split; [split; auto|split; auto]).
  pose proof (n_comps _ _ _ _ _ _ _ R2) as NC2.
  set (k0 := fun c => nth c (sg_comps g) comp0).
  assert (K2 : forall c, c < K -> nth c (sg_comps g2) comp0 = syn_comp rounds s0 gens' syn (erase_comp rounds s0 gens' q (k0 c))).
  { intros c Lc. unfold g2. cbn [sg_comps set_comps]. rewrite nth_map_comp by (unfold g1; cbn [sg_comps set_comps]; rewrite map_length; lia).
    unfold g1. cbn [sg_comps set_comps]. rewrite nth_map_comp by lia. auto. }
  assert (SH2 : forall c, c < K -> shape_of (nth c (sg_comps g2) comp0) = shape_of (k0 c)).
  { intros c Lc. rewrite K2 by auto. unfold syn_comp, erase_comp. destruct (has_edges _); reflexivity. }
  assert (V2 : sg_verts g2 = the_verts rounds (s0 :: gens')) by apply (rd_verts _ _ _ _ _ _ _ R2).
  assert (SY2 : forall k, In k (sg_comps g2) -> length (k_syn k) = k_n k /\
    forall p, p < k_n k -> bits (k_syn k) p = vertex_bit g syn (nth p (k_vidx k) 0)).
  { intros k I. pose proof (vidx_len _ _ _ _ _ _ _ R2 k I) as VL.
    destruct (comp_in _ _ _ _ _ _ _ R2 k I) as (c & Lc & Ek).
    assert (Y : k_syn k = map (vertex_bit g syn) (k_vidx k)).
    { rewrite Ek, K2 by auto. unfold syn_comp. cbn [k_syn set_k_syn k_vidx]. apply map_ext. intros v.
      unfold vertex_bit, syndrome_at. rewrite (rd_verts _ _ _ _ _ _ _ R). auto. }
    rewrite Y, map_length. split; [auto|]. intros p Lp. unfold bits.
    rewrite (nth_indep _ false (vertex_bit g syn 0)) by (rewrite map_length; lia). apply map_nth. }
  assert (CD := fun k I => check_component_ok _ _ _ _ _ U2 k I (proj1 (SY2 k I))).
  assert (EXT : forall k, In k (sg_comps g2) -> forall sel, explains (k_n k) (k_edges k) sel (bits (k_syn k)) <->
    explains (k_n k) (k_edges k) sel (fun p => vertex_bit g syn (nth p (k_vidx k) 0))).
  { intros k I sel. destruct (SY2 k I) as [_ Y]. split; intros X v Lv; rewrite X by auto; [|symmetry]; apply Y; auto. }
  destruct (check_decodable_dec g2) as [[Y ALL]|[Y (k & Ik & Ck)]].
  { intros k I. destruct (CD k I) as [[? _]|[? _]]; auto. }
  2: { rewrite Y. cbn [bindR]. right. fold g. split; [|reflexivity].
    intros (sel & A & X). destruct (CD k Ik) as [[Z _]|[_ Z]]; [congruence|]. apply Z.
    destruct (explain_local _ _ _ _ g2 sel (vertex_bit g syn) k U2 Ik A X) as (sel' & _ & E'). exists sel'. split; auto. apply EXT; auto. }
  rewrite Y. cbn [bindR].
  assert (DC : forall x, In x (dc_decs d) -> d_comp x < K /\ has_edges (k0 (d_comp x)) = true).
  { intros x I. apply (in_map d_comp) in I. rewrite CM in I. apply filter_In in I. destruct I as [I J]. apply in_seq in I. split; auto; lia. }
  destruct (decode_loop_ok (syndrome_graph rounds (s0 :: gens') w) fuel
    (fun c res g g' => sg_results rounds (s0 :: gens') w c res g g') (dc_decs d) g2 [] SG2) as (cs & ds' & X3 & M3 & SG3 & L3 & A3 & B3).
  { rewrite CM. apply NoDup_filter, seq_NoDup. }
  { intros x I. destruct (DC x I) as [Lx Hx]. cbn zeta. split; [lia|].
    assert (I2 : In (nth (d_comp x) (sg_comps g2) comp0) (sg_comps g2)) by (apply nth_In; lia).
    destruct (CD _ I2) as [[_ EX]|[Z _]]; [|rewrite ALL in Z by auto; discriminate].
    pose proof (HB x I) as HX. cbn zeta in HX. fold (k0 (d_comp x)) in HX.
    assert (SHx := SH2 _ Lx). destruct (SY2 _ I2) as [LS _]. rewrite K2 in * by auto.
    unfold syn_comp, erase_comp in *. rewrite Hx in *. cbn [k_syn k_n k_edges k_vidx k_erased set_k_syn set_k_erased] in *.
    eexists. 
    edestruct HX as (u' & res & A & B & C & D); [| | |exact EX|]; eauto.
    2: { exists u', res. split; [reflexivity|]. split; [exact A|]. split; [auto|]. split; auto. }
    intros i Ii. apply nonzero_in in Ii. rewrite map_length in Ii. rewrite (eidx_len _ _ _ _ _ _ _ R); [tauto|]. apply nth_In. lia. }
  rewrite X3. cbn [bindR fst snd dc_graph dc_decs app]. set (g3 := set_comps cs g2) in *.
  assert (U3 : uses rounds (length (ops s0)) (s0 :: gens') w g3) by (split; [split; auto|split; auto]).
  destruct (C50_update _ _ _ _ _ U3) as (g4 & X4 & L4 & RIN & ROUT & E4 & K4 & V4 & O4). rewrite X4. cbn [bindR].
  assert (SG4 : syndrome_graph rounds (s0 :: gens') w g4) by (eapply sg_updated; [apply U3|eauto]).
  assert (U4 : uses rounds (length (ops s0)) (s0 :: gens') w g4) by (split; [split; auto|split; auto]).
  destruct (C32_frame _ _ _ _ _ _ U3 X4) as (fr & FR & _). rewrite FR. cbn [bindR].
  assert (C4 : sg_comps g4 = map (fun k => if has_edges k then set_k_result (k_result k) false k else k) cs).
  { unfold update_results in X4. destruct (foldR _ (sg_comps g3) _) in X4; [|discriminate]. cbn [bindR] in X4.
    injection X4 as <-. reflexivity. }
  assert (N3 : forall c, c < K -> exists res b, nth c cs comp0 = set_k_result res b (nth c (sg_comps g2) comp0) /\
    (has_edges (k0 c) = true -> exists u, decoded (nth c (sg_comps g2) comp0) u res)).
  { intros c Lc. destruct (in_dec Nat.eq_dec c (map d_comp ds')) as [I|I].
    - apply in_map_iff in I. destruct I as (x & <- & I). destruct (B3 x I) as (res & Z & D & _). exists res, true. split; [auto|]. intros _. eauto.
    - exists (k_result (nth c (sg_comps g2) comp0)), (k_new (nth c (sg_comps g2) comp0)). split.
      + rewrite A3 by (rewrite <- M3; auto). destruct (nth c (sg_comps g2) comp0); reflexivity.
      + intros HE. exfalso. apply I. rewrite M3, CM. apply filter_In. split; auto. apply in_seq. lia. }
  assert (SH4 : forall c, c < K -> shape_of (nth c (sg_comps g4) comp0) = shape_of (k0 c)).
  { intros c Lc. rewrite <- SH2 by auto. rewrite C4, nth_map_comp by lia. destruct (N3 c Lc) as (res & b & -> & _).
    destruct (has_edges _); reflexivity. }
  assert (LC4 : length (sg_comps g4) = K) by (rewrite C4, map_length; lia).
  assert (SEL : forall i, nth i (sg_result g4) false = true -> active g4 i).
  { intros i Z. assert (D : (exists k, In k (sg_comps g4) /\ In i (k_eidx k)) \/ forall k, In k (sg_comps g4) -> ~ In i (k_eidx k)).
    { destruct (existsb (fun k => if in_dec Nat.eq_dec i (k_eidx k) then true else false) (sg_comps g4)) eqn:B.
      - left. apply existsb_exists in B. destruct B as (k & I & B). exists k. split; auto. destruct (in_dec _ _ _); [auto|discriminate].
      - right. intros k I J. rewrite <- not_true_iff_false in B. apply B, existsb_exists. exists k. split; auto.
        destruct (in_dec _ _ _); [auto|contradiction]. }
    destruct D as [(k & I & J)|D].
    - destruct (C50_components _ _ _ _ _ U4) as (_ & CK & _). destruct (CK k I) as (_ & _ & _ & _ & _ & EI & _). apply EI in J. tauto.
    - assert (FF : true = false); [|discriminate]. rewrite <- Z. rewrite ROUT.
      + change (sg_result g3) with (sg_result g). apply OUT. intros k I J. apply (In_nth _ _ comp0) in I. destruct I as (c & Lc & <-).
        apply (D (nth c (sg_comps g4) comp0)); [apply nth_In; lia|]. assert (SHc := SH4 c ltac:(lia)). unfold shape_of in SHc.
        injection SHc as _ _ _ _ ->. exact J.
      + intros k I J. apply (In_nth _ _ comp0) in I. destruct I as (c & Lc & <-). cbn [g3 sg_comps set_comps] in Lc, J.
        apply (D (nth c (sg_comps g4) comp0)); [apply nth_In; lia|]. assert (SHc := SH4 c ltac:(lia)). unfold shape_of in SHc.
        injection SHc as _ _ _ _ ->. destruct (N3 c ltac:(lia)) as (res & b & Y3 & _). rewrite Y3 in J. cbn [k_eidx set_k_result] in J.
        assert (SHc := SH2 c ltac:(lia)). unfold shape_of in SHc. injection SHc as _ _ _ _ SHc. rewrite <- SHc. exact J. }
  assert (EXP : explains (length (sg_verts g4)) (sg_ends g4) (bits (sg_result g4)) (vertex_bit g syn)).
  { destruct (C50_components _ _ _ _ _ U4) as (_ & _ & CE). apply CE; [exact SEL|]. intros k I.
    apply (In_nth _ _ comp0) in I. destruct I as (c & Lc & Ek). rewrite LC4 in Lc.
    assert (I2 : In (nth c (sg_comps g2) comp0) (sg_comps g2)) by (apply nth_In; lia).
    destruct (N3 c Lc) as (res & b & Y3 & D3).
    assert (F4 : shape_of k = shape_of (nth c (sg_comps g2) comp0)) by (rewrite <- Ek, SH4, SH2; auto).
    destruct (shape_fields _ _ F4) as (F1 & F2 & F3 & F5). rewrite F1, F2, F3, F5. apply EXT; auto.
    assert (F0 := shape_edges _ _ (SH2 c Lc)).
    assert (HE : has_edges (k0 c) = true \/ k_edges (nth c (sg_comps g2) comp0) = []).
    { rewrite F0. unfold has_edges. destruct (k_edges (k0 c)); auto. }
    destruct HE as [HE|HE].
    - destruct (D3 HE) as (u & LR & EX & _). intros v Lv. rewrite <- EX by auto. unfold boundary. apply parity_ext. intros j Ij. apply in_seq in Ij.
      f_equal. unfold bits.
      assert (LJ : j < length (k_eidx (nth c (sg_comps g2) comp0))) by (rewrite <- (eidx_len _ _ _ _ _ _ _ R2) by auto; lia).
      assert (Z := RIN (nth c cs comp0) j). rewrite Y3 in Z. cbn [k_eidx k_result set_k_result] in Z. apply Z; auto.
      rewrite <- Y3. unfold g3. cbn [sg_comps set_comps]. apply nth_In. lia.
    - destruct (CD _ I2) as [[_ (s & _ & EX)]|[Z _]]; [|rewrite ALL in Z by auto; discriminate].
      intros v Lv. rewrite <- EX by auto. rewrite HE. reflexivity. }
  assert (V5 : sg_verts g4 = sg_verts g) by exact V4. assert (E5 : sg_ends g4 = sg_ends g) by exact E4.
  rewrite V5, E5 in EXP. left. split.
  - exists (bits (sg_result g4)). split; [|exact EXP]. intros i Z. apply SEL in Z. unfold active in *. rewrite O4 in Z. exact Z.
  - exists (mkDecoder g4 ds'), fr. split; [auto|]. cbn [dc_graph]. split.
    { split; cbn [dc_graph dc_decs].
      - exact U4.
      - intros i D. destruct (nth i (sg_result g4) false) eqn:Z; auto. exfalso.
        assert (D3 : forall c, c < K -> ~ In i (k_eidx (k0 c))).
        { intros c Lc J. apply (D (nth c (sg_comps g4) comp0)); [apply nth_In; lia|]. assert (SHc := SH4 c Lc). unfold shape_of in SHc.
          injection SHc as _ _ _ _ ->. exact J. }
        rewrite ROUT in Z.
        + change (sg_result g3) with (sg_result g) in Z. rewrite OUT in Z; [discriminate|].
          intros k I J. apply (In_nth _ _ comp0) in I. destruct I as (c & Lc & <-). apply (D3 c); auto; lia.
        + intros k I J. apply (In_nth _ _ comp0) in I. destruct I as (c & Lc & <-). cbn [g3 sg_comps set_comps] in Lc, J.
          apply (D3 c ltac:(lia)). destruct (N3 c ltac:(lia)) as (res & b & Y3 & _). rewrite Y3 in J. cbn [k_eidx set_k_result] in J.
          assert (SHc := SH2 c ltac:(lia)). unfold shape_of in SHc. injection SHc as _ _ _ _ SHc. rewrite <- SHc. exact J.
      - rewrite M3, CM, LC4, NC. apply filter_ext_in. intros c I. apply in_seq in I. assert (SHc := SH4 c ltac:(lia)).
        unfold shape_of in SHc. injection SHc as _ SHc _ _ _. unfold has_edges. rewrite SHc. reflexivity.
      - intros x I. destruct (B3 x I) as (res & _ & (_ & _ & UO) & _). cbn zeta.
        assert (Lx : d_comp x < K).
        { apply (in_map d_comp) in I. rewrite M3, CM in I. apply filter_In in I. destruct I as [I _]. apply in_seq in I. lia. }
        assert (SHc := SH4 _ Lx). rewrite <- SH2 in SHc by auto. unfold shape_of in SHc. injection SHc as -> -> _ _ _. exact UO. }
    split; [rewrite E4; auto|]. split; [rewrite K4; auto|]. split; [rewrite V4; auto|]. split; [rewrite O4; auto|].
    split; [|split; [|split; [auto|]]].
    + intros i Z. apply SEL in Z. unfold active in *. rewrite O4 in Z. exact Z.
    + exact EXP.
    + split; [cbn [dc_graph]; fold g; lia|]. split; cbn [dc_graph dc_decs].
      * intros c. destruct (Nat.lt_ge_cases c K) as [Lc|Lc]; [apply SH4; auto|]. rewrite !nth_overflow by (fold g; lia). reflexivity.
      * intros x' I'. destruct (B3 x' I') as (res & Y3 & _ & x & e & Ix & Cx & Ex & Vx). exists x, res. split; auto. split; auto.
        rewrite Cx. fold g. cbn zeta. assert (Lx : d_comp x' < K) by (rewrite <- Cx; apply DC; auto).
        assert (Hx : has_edges (k0 (d_comp x')) = true) by (rewrite <- Cx; apply DC; auto).
        fold (k0 (d_comp x')).
        assert (KX := K2 _ Lx). rewrite KX in Ex, Vx, Y3. unfold syn_comp, erase_comp in Ex, Vx, Y3. rewrite Hx in Ex, Vx, Y3.
        cbn [k_erased k_syn k_vidx set_k_syn set_k_erased] in Ex, Vx. injection Ex as Ex. split.
        -- rewrite <- Vx. f_equal.
           ++ rewrite <- Ex. f_equal. apply map_ext. intros i. unfold marked, edge_erased, kind_of.
              rewrite (rd_kind _ _ _ _ _ _ _ R). destruct (nth i (kinds rounds s0 gens') (StabError 0 0)) as [t op j p|t s]; auto.
              unfold q. destruct er as [e0|]; auto. cbn [default].
              destruct (Nat.lt_ge_cases t rounds) as [Lt|Lt].
              ** rewrite nth_repeat_lt by auto. destruct (Nat.lt_ge_cases j (length (ops s0))); [rewrite nth_repeat_lt by auto; auto|].
                 rewrite nth_overflow; auto. rewrite repeat_length; auto.
              ** rewrite (nth_overflow (repeat _ _)) by (rewrite repeat_length; auto). destruct j; reflexivity.
           ++ apply map_ext. intros v. unfold vertex_bit, syndrome_at. rewrite (rd_verts _ _ _ _ _ _ _ R). auto.
        -- intros j Lj. assert (Z := RIN (nth (d_comp x') cs comp0) j). rewrite Y3 in Z. cbn [k_eidx k_result set_k_result set_k_syn set_k_erased] in Z.
           apply Z; auto. rewrite <- Y3. unfold g3. cbn [sg_comps set_comps]. apply nth_In. lia.
Qed.
