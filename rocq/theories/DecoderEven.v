(** Decoders without weights, or with the same weight for all errors: all edges of their graphs
    have the same length. *)
Require Import List Bool Arith ZArith QArith Qround Lia Relations Permutation.
From Verif Require Import Base BaseProofs QSpec PauliModel PauliAlg MeasureProofs GraphSpec GraphProofs
  LatticeSpec LatticeOps GeneratorSpec CodesModel
  ErasureModel ErasureProofs SyngraphModel SyngraphBuild SyngraphDup SyngraphComp SyngraphObjs SyngraphProofs SyngraphErrors
  SyngraphOps SyngraphFinal UnionFindModel UnionFindInit UnionFindStep UnionFindFinal UnionFindMetric UnionFindGrowth UnionFindDistance
  Props_UnionFind Props_Syngraph Props_UnionFindDistance DecoderSpec DecoderModel DecoderProofs DecoderObjects DecoderHistory
  DecoderDistance FaultSpec DecoderFaults.
Import ListNotations.
Open Scope nat_scope.
Local Arguments incident : simpl never.

(** No weights, or the weight [x] everywhere. *)
Definition same_weights (n m : nat) (w : option warg) (len : nat) : Prop :=
  match w with
  | None => len = 2
  | Some a => len = 4 /\ exists x, (0 < x)%Q /\ (forall q, q < n -> weight_at (w_x a) q = Fin x /\ weight_at (w_z a) q = Fin x) /\
      forall s, s < m -> weight_at (w_meas a) s = Fin x
  end.

Lemma same_weight rounds n gens w g len : uses rounds n gens w g -> same_weights n (length gens) w len ->
  exists y, (len = 2 /\ y = NaN \/ len = 4 /\ exists x, y = Fin x /\ (0 < x)%Q) /\
  forall i, i < length (sg_ends g) -> weight_of g i = y.
Proof.
  intros U SW. destruct w as [a|].
  - destruct SW as (-> & x & Px & H1 & H2). exists (Fin x). split; [right; eauto|]. intros i Li.
    destruct (weight_kind _ _ _ _ _ _ U Li) as [-> K]. cbn [kind_weight]. destruct (kind_of g i) as [t op q p|t s].
    + destruct K as (_ & Lq & [-> | ->]); apply H1; auto.
    + apply H2. tauto.
  - cbn in SW. exists NaN. split; [auto|]. intros i Li. destruct (weight_kind _ _ _ _ _ _ U Li) as [-> K]. reflexivity.
Qed.

Lemma same_fin rounds n gens w g len : uses rounds n gens w g -> same_weights n (length gens) w len ->
  (forall i, i < length (sg_ends g) -> is_inf (weight_of g i) = false) /\
  (forall i j, i < length (sg_ends g) -> j < length (sg_ends g) -> wlt (weight_of g i) (weight_of g j) = false).
Proof.
  intros U SW. destruct (same_weight _ _ _ _ _ _ U SW) as (y & Y & H). split.
  - intros i Li. rewrite H by auto. destruct Y as [[_ ->]|(_ & x & -> & _)]; auto.
  - intros i j Li Lj. rewrite !H by auto. apply wlt_irrefl.
Qed.

Lemma mapR_in {A B} (f : A -> Res B) l : forall r, mapR f l = Ok r -> forall y, In y r -> exists x, In x l /\ f x = Ok y.
Proof.
  induction l as [|a l IH]; intros r E y I; cbn [mapR] in E; [injection E as <-; destruct I|].
  destruct (f a) as [b|] eqn:F; [|discriminate]. cbn [bindR] in E. destruct (mapR f l) as [r'|]; [|discriminate]. cbn [bindR] in E. injection E as <-.
  destruct I as [<-|I]; [exists a; split; auto; left; auto|]. destruct (IH _ eq_refl y I) as (x & J & X). exists x. split; auto. right; auto.
Qed.

Lemma growth_same x : (0 < x)%Q -> growth_length 2 x x = 4.
Proof.
  intros P. unfold growth_length.
  assert (N : ~ (x == 0)%Q) by (intros Z; rewrite Z in P; discriminate).
  assert (X : (2 * x / x == 2)%Q) by (field; auto).
  destruct (Qeq_bool (2 * x / x) 0) eqn:B; [apply Qeq_bool_iff in B; rewrite X in B; discriminate|].
  rewrite (Qceiling_comp _ 4%Q); [reflexivity|]. rewrite X. reflexivity.
Qed.

Lemma new_decoder_even cls c k x y len : well_formed (k_n k) (k_edges k) -> k_edges k <> [] -> length (k_wt k) = length (k_edges k) ->
  (len = 2 /\ y = NaN \/ len = 4 /\ exists z, y = Fin z /\ (0 < z)%Q) -> (forall v, In v (k_wt k) -> v = y) ->
  new_decoder cls c k = Ok x -> forall i, i < length (u_grow (d_uf x)) -> needs (fresh (u_grow (d_uf x))) i = len.
Proof.
  intros WF NE LW Y ALL X i Li. unfold new_decoder in X. destruct (new_ugraph_ready _ _ WF) as (u & E & R & GR). rewrite E in X. cbn [bindR] in X.
  destruct Y as [[-> ->]|(-> & z & -> & Pz)].
  - unfold is_weighted in X. assert (N : forallb is_nan (k_wt k) = true) by (apply forallb_forall; intros v I; rewrite (ALL v I); auto).
    rewrite N in X. cbn [bindR decoder_set_weights] in X. injection X as <-. cbn [d_uf] in *.
    unfold unset_weights in *. unfold needs, fresh. rewrite GR in *.
    rewrite nth_error_map, nth_error_repeat by (rewrite repeat_length in Li; auto). reflexivity.
  - assert (W0 : exists v, In v (k_wt k)) by (destruct (k_wt k) as [|v l]; [destruct (k_edges k); [congruence|discriminate]|exists v; left; auto]).
    destruct W0 as [v0 I0].
    unfold is_weighted in X. destruct (forallb is_nan (k_wt k)) eqn:N; [rewrite forallb_forall in N; specialize (N v0 I0); rewrite (ALL v0 I0) in N; discriminate|].
    destruct (negb false && existsb is_nan (k_wt k)); [discriminate|]. cbn [bindR] in X.
    destruct (check_weights_sane (Some (k_wt k))); [|discriminate]. cbn [bindR] in X.
    unfold decoder_set_weights in X. destruct (finite_all (k_wt k)) as (qs & Eq & EQ); [intros v I; rewrite (ALL v I); eauto|].
    rewrite Eq in X. cbn [bindR] in X.
    assert (QZ : forall q, In q qs -> q = z).
    { intros q I. assert (J : In (Fin q) (k_wt k)) by (rewrite EQ; apply in_map; auto). apply ALL in J. congruence. }
    destruct cls; [destruct (min_nonzero qs); discriminate|].
    destruct (set_weights 2 qs u) as [u'|] eqn:S; [|discriminate]. cbn [bindR] in X. injection X as <-. cbn [d_uf] in *.
    destruct (min_nonzero qs) as [lo|] eqn:MN; [|unfold set_weights in S; rewrite MN in S; discriminate].
    assert (LO : lo = z).
    { unfold min_nonzero in MN. destruct (filter _ qs) as [|q l] eqn:F; [discriminate|]. injection MN as <-.
      assert (FI : forall a0, In a0 (q :: l) -> a0 = z) by (intros a0 I; rewrite <- F in I; apply filter_In in I; apply QZ; tauto).
      clear F. revert q FI. induction l as [|b l IH]; intros q FI; cbn [fold_left]; [apply FI; left; auto|].
      apply IH. intros a0 [<-|I]; [|apply FI; right; right; auto]. destruct (Qle_bool q b); apply FI; [left|right; left]; auto. }
    subst lo.
    destruct (weights_needs (k_n k) (k_edges k) 2 qs z u u' R) as [LQ ND]; auto.
    { discriminate. } { intros q I. rewrite (QZ q I). apply Qlt_le_weak; auto. }
    assert (R' : uready (k_n k) (k_edges k) u').
    { eapply (set_weights_ready (k_n k) (k_edges k) 2 qs u u'); eauto; [discriminate|]. intros q I. rewrite (QZ q I). apply Qlt_le_weak; auto. }
    rewrite (uo_grow _ _ _ (proj1 R')) in Li. destruct (ND i Li) as [-> _].
    rewrite (QZ (nth i qs 0%Q)) by (apply nth_In; lia). apply growth_same; auto.
Qed.

Lemma even_objects cls rounds n gens w d len : generators n gens -> weights_fit n (length gens) w -> 0 < rounds ->
  same_weights n (length gens) w len -> uf_interface cls rounds gens w d -> even_length len d.
Proof.
  intros G Hw Hr SW. induction 1 as [g d X Y|fuel er syn d d' fr UI IH X|er d g _ IH X|syn d g _ IH X]; auto.
  - intros x I. assert (U : uses rounds n gens w g) by (split; [auto|]; split; [auto|]; split; [auto|apply sg_new; auto]).
    destruct (same_weight _ _ _ _ _ _ U SW) as (y & HY & ALL).
    destruct (C50_components _ _ _ _ _ U) as (_ & CK & _).
    unfold new_interface in Y. destruct (mapR _ _) as [ds|] eqn:M; [|discriminate]. cbn [bindR] in Y. injection Y as <-. cbn [dc_decs] in I.
    destruct (mapR_in _ _ _ M x I) as ([c k] & J & N). cbn [fst snd] in N. apply filter_In in J. destruct J as [J HE]. cbn [snd] in HE.
    apply in_combine_r in J. destruct (CK k J) as (_ & _ & _ & _ & _ & EI & _ & WF & LE & _ & WT).
    eapply (new_decoder_even cls c k x y); eauto.
    + intros Z. unfold has_edges in HE. rewrite Z in HE. discriminate.
    + rewrite WT, map_length. auto.
    + rewrite WT. intros v Iv. apply in_map_iff in Iv. destruct Iv as (i & <- & Ii). apply ALL.
      apply EI in Ii. destruct Ii as (_ & v & _ & Iv). destruct (Nat.lt_ge_cases i (length (sg_ends g))); auto.
      rewrite nth_overflow in Iv by auto. destruct Iv.
  - pose proof (interface_good _ _ _ _ _ _ G Hw Hr UI) as GD.
    destruct (decode_outcome _ _ _ _ _ GD) as (b & H). specialize (H er syn (fuel + b) ltac:(lia)).
    rewrite (interface_decode_more _ _ _ _ _ b X) in H. destruct (_ && _); [|discriminate].
    destruct H as [(_ & d2 & fr2 & E & _ & _ & _ & _ & _ & _ & _ & _ & T)|(_ & E)]; [|discriminate]. injection E as <- <-.
    eapply even_traced; eauto.
Qed.

(** The correction belongs to the results of the edges. *)
Lemma frame_total rounds n gens w g fr : uses rounds n gens w g -> result_frame g = Ok fr ->
  length (ops fr) = n /\ forall q, q < n -> fac fr q = total rounds (result_errors rounds n (sg_result g)) q.
Proof.
  intros U FR. pose proof U as ((_ & Hn & Hg) & _). destruct (uses_ready _ _ _ _ _ U) as (s0 & gens' & -> & -> & T & _ & vl & K & R & RF).
  assert (NN : existsb k_new (filter has_edges (sg_comps g)) = false).
  { destruct (existsb k_new (filter has_edges (sg_comps g))) eqn:X; auto. rewrite result_frame_new in FR by auto. discriminate. }
  destruct (result_frame_ok rounds s0 gens' w Hn Hg vl K g R NN) as (fr' & Z & L & A). rewrite FR in Z. injection Z as <-.
  split; auto.
Qed.

Lemma frame_flips rounds n gens w g fr l : uses rounds n gens w g -> result_frame g = Ok fr ->
  anti (seq 0 n) l (fac fr) = parity (map (fun i => nth i (sg_result g) false && flip g l i) (seq 0 (length (sg_ends g)))).
Proof.
  intros U FR. destruct (frame_total _ _ _ _ _ _ U FR) as [_ A].
  rewrite (anti_ext_total n l (fac fr) (total rounds (result_errors rounds n (sg_result g)))) by auto.
  rewrite <- (history_flips rounds n gens w g U l _ (result_flips rounds n gens (sg_result g))).
  apply parity_ext. intros i I. apply in_seq in I. f_equal.
  pose proof U as (G & _). pose proof (Hm n gens G) as Hm. clear A FR.
  destruct (uses_ready _ _ _ _ _ U) as (s0 & gens' & -> & -> & _ & _ & vl & K & R & _).
  unfold kind_of. rewrite (rd_kind _ _ _ _ _ _ _ R). unfold kinds. apply result_happened; auto.
  destruct I as [_ I]. rewrite (rd_ends _ _ _ _ _ _ _ R) in I. unfold edges in I. rewrite map_length in I. auto.
Qed.

(** * Decoding *)
Theorem faults_corrected cls rounds n gens w d len : generators n gens -> weights_fit n (length gens) w -> 0 < rounds ->
  same_weights n (length gens) w len -> uf_interface cls rounds gens w d -> exists bound, forall fuel er syn E F, bound <= fuel ->
  shaped rounds n er = true -> has_shape syn rounds (length gens) = true -> explained w rounds n gens syn E F ->
  exists d' fr, interface_decode fuel er syn d = Ok (d', fr) /\ uf_interface cls rounds gens w d' /\ length (ops fr) = n /\
    forall l dist allow side, logical_distance n gens l dist -> detected_by n gens allow side l ->
      total_price (2 * (len + 1)) len rounds n gens allow side er E F < len * dist ->
      anti (seq 0 n) l (fun q => pxor (fac fr q) (total rounds E q)) = false.
Proof.
  intros G Hw Hr SW UI. pose proof (interface_good _ _ _ _ _ _ G Hw Hr UI) as GD.
  pose proof (even_objects _ _ _ _ _ _ _ G Hw Hr SW UI) as EV.
  destruct (decode_outcome _ _ _ _ _ GD) as (b & HB). exists b. intros fuel er syn E F Lf SE SS EX. specialize (HB er syn fuel Lf).
  rewrite SE, SS in HB. cbn [andb] in HB. pose proof (gd_uses _ _ _ _ _ GD) as U. destruct (same_fin _ _ _ _ _ _ U SW) as [FIN SAME].
  assert (SY : forall v, v < length (sg_verts (dc_graph d)) ->
    boundary (sg_ends (dc_graph d)) (fun i => happened E F (kind_of (dc_graph d) i)) v = vertex_bit (dc_graph d) syn v).
  { intros v Lv. destruct (vertex_at _ _ _ _ _ _ U Lv) as (t & s & X & Lt & Ls).
    rewrite (C30_history _ _ _ _ _ U E F (ex_first _ _ _ _ _ _ _ EX) (ex_last _ _ _ _ _ _ _ EX) v t s X).
    unfold vertex_bit. rewrite (nth_error_nth _ _ (0, 0) X). cbn [fst snd]. symmetry. apply (ex_syndrome _ _ _ _ _ _ _ EX); auto. }
  assert (NC : none_certain w n (length gens)).
  { destruct w as [a|]; [|exact I]. destruct SW as (_ & x & _ & H1 & H2). split.
    - intros q Lq. destruct (H1 q Lq) as [-> ->]. split; discriminate.
    - intros s Ls. rewrite H2 by auto. discriminate. }
  destruct HB as [(_ & d' & fr & R & GD' & EE & EK & EV' & EO & AC & XP & FR & TR)|(NX & _)].
  2: { exfalso. apply NX. apply (history_explainable rounds n gens w _ syn E F); auto. }
  pose proof (gd_uses _ _ _ _ _ GD') as U'.
  exists d', fr. split; auto. split; [eapply ui_used; eauto|]. split; [apply (frame_total _ _ _ _ _ _ U' FR)|].
  intros l dist allow side LD DET TP. rewrite anti_xor_r.
  rewrite (frame_flips _ _ _ _ _ _ l U' FR), <- (history_flips rounds n gens w _ U l E F).
  assert (FL : forall i, flip (dc_graph d') l i = flip (dc_graph d) l i) by (intros i; unfold flip, kind_of; rewrite EK; auto).
  rewrite EE. rewrite (parity_ext (fun i => nth i (sg_result (dc_graph d')) false && flip (dc_graph d') l i)
    (fun i => nth i (sg_result (dc_graph d')) false && flip (dc_graph d) l i)) by (intros; rewrite FL; auto).
  apply xorb_eq_false.
  destruct (representatives rounds n gens w d GD FIN) as [r HR].
  apply (call_limit rounds n gens w d GD FIN SAME (flip (dc_graph d) l) (relevant (dc_graph d) allow side) dist len) with (r := r) (mark := marked (dc_graph d) er) (fuel := fuel) (er := er) (syn := syn); auto.
  - intros i j v. apply (relevant_same rounds n gens w _ U l allow side DET).
  - intros i. apply (flip_relevant rounds n gens w _ U l allow side DET).
  - intros sel. apply (graph_distance rounds n gens w _ U l dist LD).
  - destruct w as [a|]; cbn in SW; lia.
  - eapply Nat.le_lt_trans; [|exact TP]. apply (price_bound rounds n gens w _ U allow side FIN SAME); auto.
    intros s Ls. apply (ex_first _ _ _ _ _ _ _ EX); auto.
Qed.
