(** Interface objects of the union-find decoder: which are made, and that all of them work. *)
Require Import List Bool Arith ZArith QArith Lia Relations.
From Verif Require Import Base BaseProofs QSpec PauliModel PauliAlg MeasureProofs GraphSpec GraphProofs
  LatticeSpec LatticeOps GeneratorSpec CodesModel
  ErasureModel ErasureProofs SyngraphModel SyngraphBuild SyngraphDup SyngraphComp SyngraphObjs SyngraphProofs SyngraphErrors
  SyngraphOps SyngraphFinal UnionFindModel UnionFindFinal Props_UnionFind Props_Syngraph DecoderModel DecoderProofs.
Import ListNotations.
Open Scope nat_scope.
Local Arguments incident : simpl never.
Local Arguments upd : simpl never.

(** Interface objects for union find: new ones, those which have been used, and those of which a
    call has been refused (erasure or syndrome may have been stored before). *)
Inductive uf_interface (cls : ufclass) (rounds : nat) (gens : list row) (w : option warg) : decoder -> Prop :=
| ui_new g d : new_sgraph rounds gens w = Ok g -> new_interface cls g = Ok d -> uf_interface cls rounds gens w d
| ui_used fuel er syn d d' fr : uf_interface cls rounds gens w d ->
    interface_decode fuel er syn d = Ok (d', fr) -> uf_interface cls rounds gens w d'
| ui_erased er d g : uf_interface cls rounds gens w d ->
    set_erasure er (dc_graph d) = Ok g -> uf_interface cls rounds gens w (mkDecoder g (dc_decs d))
| ui_syndrome syn d g : uf_interface cls rounds gens w d ->
    SyngraphModel.set_syndrome syn (dc_graph d) = Ok g -> uf_interface cls rounds gens w (mkDecoder g (dc_decs d)).

(** * More fuel *)

Lemma foldR_more {A B} (f g : A -> B -> Res A) : (forall a b r, f a b = Ok r -> g a b = Ok r) ->
  forall l a r, foldR f l a = Ok r -> foldR g l a = Ok r.
Proof.
  intros H. induction l as [|b l IH]; intros a r X; cbn [foldR] in *; auto.
  destruct (f a b) as [a'|] eqn:F; [|discriminate]. rewrite (H _ _ _ F). cbn [bindR] in *. auto.
Qed.

Lemma interface_decode_more fuel er syn d r j : interface_decode fuel er syn d = Ok r ->
  interface_decode (fuel + j) er syn d = Ok r.
Proof.
  unfold interface_decode, decode_components. destruct (set_erasure er (dc_graph d)) as [g1|]; [|discriminate]. cbn [bindR].
  destruct (SyngraphModel.set_syndrome (Some syn) g1) as [g2|]; [|discriminate]. cbn [bindR].
  destruct (check_decodable g2) as [[]|]; [|discriminate]. cbn [bindR].
  destruct (decode_loop fuel (dc_decs d) (g2, [])) as [s|] eqn:E; [|discriminate].
  assert (E' : decode_loop (fuel + j) (dc_decs d) (g2, []) = Ok s); [|rewrite E'; auto].
  unfold decode_loop in *. revert E. apply foldR_more. intros a b r' X.
  destruct (decode_component fuel (fst a) b) as [y|] eqn:Y; [|discriminate].
  assert (Y' : decode_component (fuel + j) (fst a) b = Ok y); [|rewrite Y'; auto]. clear X.
  unfold decode_component in *. destruct (get (sg_comps (fst a)) (d_comp b)) as [k|]; [|discriminate]. cbn [bindR] in *.
  destruct (k_erased k) as [e|]; [|discriminate]. cbn [bindR] in *.
  destruct (uf_decode fuel (nonzero e) (k_syn k) (d_uf b)) as [z|] eqn:Z; [|discriminate].
  rewrite (uf_decode_more _ _ _ _ _ _ Z). exact Y.
Qed.

(** * New objects *)

(** Weights of a component which are accepted: none, or (with the class which supports weights)
    finite ones which are not negative and not all zero. *)
Definition accepted (cls : ufclass) (ws : list weight) : Prop :=
  (forall x, In x ws -> x = NaN) \/
  (cls = Weights /\ (forall x, In x ws -> exists q, x = Fin q /\ (0 <= q)%Q) /\ exists q, In (Fin q) ws /\ (0 < q)%Q).

Lemma forallb_false {A} (p : A -> bool) l : forallb p l = false -> exists a, In a l /\ p a = false.
Proof.
  induction l as [|a l IH]; [discriminate|]. cbn. destruct (p a) eqn:P; cbn; intros X.
  - destruct (IH X) as (b & I & Y). eauto.
  - eauto.
Qed.

Lemma existsb_false {A} (p : A -> bool) l : existsb p l = false -> forall a, In a l -> p a = false.
Proof.
  intros X a I. apply not_true_iff_false. intros Y. rewrite <- not_true_iff_false in X. apply X, existsb_exists. eauto.
Qed.

Lemma accepted_dec cls ws : accepted cls ws \/ ~ accepted cls ws.
Proof.
  unfold accepted.
  destruct (forallb is_nan ws) eqn:N.
  { left. left. intros x I. rewrite forallb_forall in N. apply N in I. destruct x; auto; discriminate. }
  assert (N' : ~ forall x, In x ws -> x = NaN).
  { apply forallb_false in N. destruct N as (x & I & X). intros H. rewrite (H x I) in X. discriminate. }
  destruct cls; [right; intros [|[]]; [auto|discriminate]|].
  destruct (forallb (fun x => match x with Fin q => Qle_bool 0 q | _ => false end) ws) eqn:P.
  2: { right. intros [|(_ & H & _)]; auto. apply forallb_false in P. destruct P as (x & I & X). destruct (H x I) as (q & -> & Q).
       apply Qle_bool_iff in Q. congruence. }
  destruct (existsb (fun x => match x with Fin q => negb (Qle_bool q 0) | _ => false end) ws) eqn:Q.
  - left. right. split; [auto|]. split.
    + intros x I. rewrite forallb_forall in P. specialize (P x I). destruct x; try discriminate. exists q. split; auto. apply Qle_bool_iff; auto.
    + apply existsb_exists in Q. destruct Q as (x & I & X). destruct x as [| |q]; try discriminate. exists q. split; auto.
      apply Qnot_le_lt. intros Y. apply Qle_bool_iff in Y. rewrite Y in X. discriminate.
  - right. intros [|(_ & _ & q & I & X)]; auto. pose proof (existsb_false _ _ Q _ I) as Y. cbn in Y.
    apply negb_false_iff, Qle_bool_iff in Y. apply Qlt_not_le in X. contradiction.
Qed.

Lemma finite_all ws : (forall x, In x ws -> exists q, x = Fin q) -> exists qs, mapR finite ws = Ok qs /\ ws = map Fin qs.
Proof.
  induction ws as [|x ws IH]; intros H; cbn.
  - exists []. auto.
  - destruct (H x (or_introl eq_refl)) as (q & ->). destruct IH as (qs & -> & ->); [intros; apply H; right; auto|].
    cbn. exists (q :: qs). auto.
Qed.

Lemma new_decoder_ok cls c k : well_formed (k_n k) (k_edges k) -> length (k_wt k) = length (k_edges k) ->
  (forall x, In x (k_wt k) -> is_inf x = false) -> k_edges k <> [] ->
  (accepted cls (k_wt k) /\ exists u, new_decoder cls c k = Ok (mkCompdec c u) /\ uf_object (k_n k) (k_edges k) u) \/
  (~ accepted cls (k_wt k) /\ new_decoder cls c k = Err ValueError).
Proof.
  intros WF LW FI NE. unfold new_decoder. destruct (new_ugraph_ready _ _ WF) as (u & E & _ & GR). rewrite E. cbn [bindR].
  assert (U : uf_object (k_n k) (k_edges k) u) by (constructor; auto).
  unfold is_weighted. destruct (forallb is_nan (k_wt k)) eqn:N; cbn [bindR].
  { left. split.
    - left. intros x I. rewrite forallb_forall in N. apply N in I. destruct x; auto; discriminate.
    - exists (unset_weights false u). split; [reflexivity|]. apply uf_no_weights; auto. }
  assert (N' : ~ forall x, In x (k_wt k) -> x = NaN).
  { apply forallb_false in N. destruct N as (x & I & X). intros H. rewrite (H x I) in X. discriminate. }
  assert (NACC : (forall q, In (Fin q) (k_wt k) -> (0 < q)%Q -> exists x, In x (k_wt k) /\ forall q, x = Fin q -> ~ (0 <= q)%Q) -> ~ accepted cls (k_wt k)).
  { intros H [|(_ & A & q & I & Q)]; [auto|]. destruct (H q I Q) as (x & Ix & X). destruct (A x Ix) as (q' & -> & Y).
    apply (X q'); auto. }
  destruct (existsb is_nan (k_wt k)) eqn:M; cbn [negb andb bindR].
  { right. split; auto. apply NACC. intros _ _ _. apply existsb_exists in M. destruct M as (x & I & X). exists x. split; auto.
    intros q ->. discriminate. }
  unfold check_weights_sane. rewrite M.
  destruct (existsb (fun x => wlt x (Fin 0)) (k_wt k)) eqn:L; cbn [bindR].
  { right. split; auto. apply NACC. intros _ _ _. apply existsb_exists in L. destruct L as (x & I & X). exists x. split; auto.
    intros q -> Q. cbn in X. apply Qle_bool_iff in Q. rewrite Q in X. discriminate. }
  assert (P : forall x, In x (k_wt k) -> exists q, x = Fin q /\ (0 <= q)%Q).
  { intros x I. pose proof (existsb_false _ _ M x I) as A. pose proof (existsb_false _ _ L x I) as B. pose proof (FI x I) as C.
    destruct x as [|s|q]; try discriminate. exists q. split; auto. cbn in B. apply negb_false_iff, Qle_bool_iff in B. auto. }
  unfold decoder_set_weights. destruct (finite_all (k_wt k)) as (qs & -> & EQ).
  { intros x I. destruct (P x I) as (q & -> & _). eauto. }
  cbn [bindR].
  assert (PQ : forall q, In q qs -> (0 <= q)%Q).
  { intros q I. destruct (P (Fin q)) as (q' & X & Y); [rewrite EQ; apply in_map; auto|]. injection X as <-. auto. }
  destruct cls.
  { right. split; [intros [|[]]; [auto|discriminate]|]. unfold min_nonzero. destruct (filter _ qs); reflexivity. }
  unfold set_weights. destruct (min_nonzero qs) as [lo|e] eqn:MN.
  - left. cbn [bindR]. split.
    + right. split; [auto|]. split; [auto|]. unfold min_nonzero in MN. destruct (filter _ qs) as [|q l] eqn:F; [discriminate|].
      assert (I : In q (q :: l)) by (left; auto). rewrite <- F in I. apply filter_In in I. destruct I as [I Q].
      exists q. split; [rewrite EQ; apply in_map; auto|]. specialize (PQ q I). apply Qle_lteq in PQ. destruct PQ as [|Z]; auto.
      apply negb_true_iff, Qeq_bool_neq in Q. exfalso. apply Q. symmetry. exact Z.
    + assert (LQ : length qs = length (u_grow u)) by (rewrite GR, repeat_length, <- LW, EQ, map_length; auto).
      rewrite LQ, Nat.eqb_refl. cbn [assertR bindR]. eexists. split; [reflexivity|].
      apply (uf_weights _ _ 2%Q qs u); auto; [discriminate|]. unfold set_weights. rewrite MN. cbn [bindR]. rewrite LQ, Nat.eqb_refl. reflexivity.
  - right. unfold min_nonzero in MN. destruct (filter _ qs) as [|q l] eqn:F; [|discriminate]. injection MN as <-. split; [|reflexivity].
    intros [|(_ & _ & q & I & Q)]; [auto|]. rewrite EQ in I. apply in_map_iff in I. destruct I as (q' & X & I). injection X as <-.
    assert (J : In q' (filter (fun w => negb (Qeq_bool w 0)) qs)); [|rewrite F in J; destruct J].
    apply filter_In. split; auto. apply negb_true_iff. apply not_true_iff_false. intros Z. apply Qeq_bool_iff in Z. rewrite Z in Q. discriminate.
Qed.

Lemma combine_seq_fst {A} (p : A -> bool) (d : A) (l : list A) : forall a,
  map fst (filter (fun ck => p (snd ck)) (combine (seq a (length l)) l)) =
  filter (fun c => p (nth (c - a) l d)) (seq a (length l)).
Proof.
  induction l as [|x l IH]; intros a; [reflexivity|]. cbn [length seq combine filter snd].
  rewrite Nat.sub_diag. cbn [nth]. rewrite (filter_ext_in (fun c => p (nth (c - a) (x :: l) d)) (fun c => p (nth (c - S a) l d))).
  - destruct (p x); cbn [map fst]; rewrite IH; auto.
  - intros c I. apply in_seq in I. replace (c - a) with (S (c - S a)) by lia. reflexivity.
Qed.

Lemma new_interface_ok cls rounds n gens w g : generators n gens -> weights_fit n (length gens) w -> 0 < rounds ->
  new_sgraph rounds gens w = Ok g ->
  ((forall k, In k (sg_comps g) -> k_edges k <> [] -> accepted cls (k_wt k)) /\
   exists d, new_interface cls g = Ok d /\ dc_graph d = g /\ good rounds n gens w d) \/
  ((exists k, In k (sg_comps g) /\ k_edges k <> [] /\ ~ accepted cls (k_wt k)) /\ new_interface cls g = Err ValueError).
Proof.
  intros G Hw Hr X. assert (U : uses rounds n gens w g) by (split; [auto|]; split; [auto|]; split; [auto|apply sg_new; auto]).
  destruct (C50_components _ _ _ _ _ U) as (_ & CK & _).
  assert (D : forall k c, In k (sg_comps g) -> k_edges k <> [] ->
    (accepted cls (k_wt k) /\ exists u, new_decoder cls c k = Ok (mkCompdec c u) /\ uf_object (k_n k) (k_edges k) u) \/
    (~ accepted cls (k_wt k) /\ new_decoder cls c k = Err ValueError)).
  { intros k c I NE. destruct (CK k I) as (_ & _ & _ & _ & _ & EI & _ & WF & LE & _ & WT). apply new_decoder_ok; auto.
    - rewrite WT, map_length. auto.
    - rewrite WT. intros x J. apply in_map_iff in J. destruct J as (i & <- & J). apply EI in J. destruct J as [J _].
      apply (C31_parallel _ _ _ _ _ U) in J; [tauto|].
      destruct (Nat.lt_ge_cases i (length (sg_ends g))); auto. unfold active in J.
      destruct (uses_ready _ _ _ _ _ U) as (s0 & gens' & _ & _ & _ & _ & vl & K & R & _).
      rewrite nth_overflow in J; [discriminate|]. rewrite (rd_onlen _ _ _ _ _ _ _ R), <- (rd_ends _ _ _ _ _ _ _ R). auto. }
  unfold new_interface.
  set (l := filter (fun ck : nat * comp => has_edges (snd ck)) (combine (seq 0 (length (sg_comps g))) (sg_comps g))).
  assert (Hl : forall ck, In ck l -> snd ck = nth (fst ck) (sg_comps g) comp0 /\ fst ck < length (sg_comps g) /\
    In (snd ck) (sg_comps g) /\ k_edges (snd ck) <> []).
  { intros [c k] I. apply filter_In in I. destruct I as [I HE]. cbn [fst snd] in *. pose proof (in_combine_r _ _ _ _ I) as Ik.
    apply (In_nth _ _ (0, comp0)) in I. destruct I as (j & Lj & Ej). rewrite combine_length, seq_length in Lj.
    rewrite combine_nth in Ej by apply seq_length. rewrite seq_nth in Ej by lia. injection Ej as <- <-. cbn.
    split; [auto|]. split; [lia|]. split; [auto|]. intros Z. cbn in HE. unfold has_edges in HE. rewrite Z in HE. discriminate. }
  assert (Hl' : forall k, In k (sg_comps g) -> k_edges k <> [] -> exists c, In (c, k) l).
  { intros k I NE. apply (In_nth _ _ comp0) in I. destruct I as (c & Lc & <-). exists c. apply filter_In. split.
    - replace (c, nth c (sg_comps g) comp0) with (nth c (combine (seq 0 (length (sg_comps g))) (sg_comps g)) (0, comp0)).
      + apply nth_In. rewrite combine_length, seq_length. lia.
      + rewrite combine_nth by apply seq_length. rewrite seq_nth by lia. reflexivity.
    - cbn. unfold has_edges. destruct (k_edges (nth c (sg_comps g) comp0)); [congruence|reflexivity]. }
  assert (M : ((forall ck, In ck l -> accepted cls (k_wt (snd ck))) /\
     exists ds, mapR (fun ck : nat * comp => new_decoder cls (fst ck) (snd ck)) l = Ok ds /\ map d_comp ds = map fst l /\
       forall x, In x ds -> let k := nth (d_comp x) (sg_comps g) comp0 in uf_object (k_n k) (k_edges k) (d_uf x)) \/
    ((exists ck, In ck l /\ ~ accepted cls (k_wt (snd ck))) /\ mapR (fun ck : nat * comp => new_decoder cls (fst ck) (snd ck)) l = Err ValueError)).
  { clear Hl'. induction l as [|[c k] l IH]; cbn [mapR].
    - left. split; [intros ck []|]. exists []. split; [auto|]. split; [auto|]. intros x [].
    - destruct (Hl (c, k)) as (Ek & Lc & Ik & NE); [left; auto|]. cbn [fst snd] in *.
      destruct (D k c Ik NE) as [(A & u & -> & UO)|(NA & ->)]; cbn [bindR].
      + destruct IH as [(AA & ds & -> & MM & OO)|((ck & Ick & NA) & ->)]; [intros; apply Hl; right; auto|..].
        * left. split; [intros ck [<-|I]; auto|]. exists (mkCompdec c u :: ds). cbn [bindR]. split; [auto|].
          split; [cbn; rewrite MM; auto|]. intros x [<-|I]; [|apply OO; auto]. cbn. rewrite <- Ek. auto.
        * right. split; [|reflexivity]. exists ck. split; auto. right; auto.
      + right. split; [|reflexivity]. exists (c, k). split; auto. left; auto. }
  destruct M as [(A & ds & -> & MM & OO)|((ck & I & NA) & ->)]; cbn [bindR].
  - left. split.
    { intros k I NE. destruct (Hl' k I NE) as (c & J). apply (A (c, k) J). }
    exists (mkDecoder g ds). split; [auto|]. split; [auto|]. split; cbn [dc_graph dc_decs]; auto.
    + intros i _. pose proof U as ((NE & Hn & Hg) & _). destruct gens as [|s0 gens']; [congruence|].
      assert (n = length (ops s0)) by (symmetry; apply Hg; left; auto). subst n.
      destruct (syndrome_graph_ready rounds s0 gens' w Hn Hg Hw Hr g (sg_new _ _ _ _ X)) as (T & NB & _).
      destruct (new_ok rounds s0 gens' Hn Hg w Hw T NB) as (vl & K & g' & X' & _ & RE & _). rewrite X in X'. injection X' as <-.
      rewrite RE. destruct (Nat.lt_ge_cases i (length (edges rounds s0 gens'))).
      * apply nth_repeat_lt; auto.
      * apply nth_overflow. rewrite repeat_length. auto.
    + rewrite MM. unfold l. rewrite (combine_seq_fst has_edges comp0). apply filter_ext. intros c. rewrite Nat.sub_0_r. auto.
  - right. split; [|reflexivity]. destruct (Hl ck I) as (_ & _ & J & NE). eauto.
Qed.

(** * All objects *)

Lemma good_inputs rounds n gens w d g : good rounds n gens w d -> syndrome_graph rounds gens w g ->
  sg_result g = sg_result (dc_graph d) -> map shape_of (sg_comps g) = map shape_of (sg_comps (dc_graph d)) ->
  good rounds n gens w (mkDecoder g (dc_decs d)).
Proof.
  intros [U OUT CM OB] SG ER SH.
  assert (LC : length (sg_comps g) = length (sg_comps (dc_graph d))) by (rewrite <- (map_length shape_of), SH, map_length; auto).
  assert (NS : forall c, shape_of (nth c (sg_comps g) comp0) = shape_of (nth c (sg_comps (dc_graph d)) comp0)).
  { intros c. rewrite <- !(map_nth shape_of), SH. auto. }
  split; cbn [dc_graph dc_decs].
  - destruct U as (A & B & C & _). split; [auto|]. split; [auto|]. split; auto.
  - intros i H. rewrite ER. apply OUT. intros k I J. apply (In_nth _ _ comp0) in I. destruct I as (c & Lc & <-).
    destruct (shape_fields _ _ (NS c)) as (_ & _ & _ & X). apply (H (nth c (sg_comps g) comp0)); [apply nth_In; lia|]. rewrite X; auto.
  - rewrite CM, LC. apply filter_ext. intros c. unfold has_edges. rewrite (shape_edges _ _ (NS c)). auto.
  - intros x I. destruct (shape_fields _ _ (NS (d_comp x))) as (-> & -> & _). apply OB; auto.
Qed.

Theorem interface_good cls rounds n gens w d : generators n gens -> weights_fit n (length gens) w -> 0 < rounds ->
  uf_interface cls rounds gens w d -> good rounds n gens w d.
Proof.
  intros G Hw Hr. induction 1 as [g d X Y|fuel er syn d d' fr _ IH X|er d g _ IH X|syn d g _ IH X].
  - destruct (new_interface_ok cls _ _ _ _ _ G Hw Hr X) as [(_ & d' & Y' & _ & GD)|(_ & Y')]; congruence.
  - destruct (decode_outcome _ _ _ _ _ IH) as (b & H). specialize (H er syn (fuel + b) ltac:(lia)).
    rewrite (interface_decode_more _ _ _ _ _ b X) in H. destruct (_ && _); [|discriminate].
    destruct H as [(_ & d2 & fr2 & E & GD & _)|(_ & E)]; [|discriminate]. injection E as <- <-. auto.
  - pose proof IH as [U _ _ _]. pose proof U as (_ & _ & _ & SG).
    destruct (uses_ready _ _ _ _ _ U) as (s0 & gens' & -> & -> & _ & _ & vl & K & R & _). destruct G as (_ & Hn & Hg).
    destruct (set_erasure_inv rounds s0 gens' w Hn Hg vl K er _ _ R X) as (_ & EG).
    apply good_inputs; auto; [eapply sg_erasure; eauto|rewrite EG; reflexivity|].
    rewrite EG. cbn [sg_comps set_comps]. rewrite map_map. apply map_ext. intros k. unfold erase_comp. destruct (has_edges k); reflexivity.
  - pose proof IH as [U _ _ _]. pose proof U as (_ & _ & _ & SG).
    destruct (uses_ready _ _ _ _ _ U) as (s0 & gens' & -> & -> & _ & _ & vl & K & R & _). destruct G as (_ & Hn & Hg).
    destruct (set_syndrome_inv rounds s0 gens' w Hn Hg vl K syn _ _ R X) as (_ & EG).
    apply good_inputs; auto; [eapply sg_syndrome; eauto|rewrite EG; reflexivity|].
    rewrite EG. cbn [sg_comps set_comps]. rewrite map_map. apply map_ext. intros k. reflexivity.
Qed.

(** * Errors on edges which are not active *)

(** If no edge has the weight minus infinity, the boundary of a selection of edges without
    infinite weights is the boundary of a selection of active edges. *)
Lemma active_suffices rounds n gens w g sel : uses rounds n gens w g ->
  (forall i, i < length (sg_ends g) -> weight_of g i <> Inf true) ->
  (forall i, i < length (sg_ends g) -> sel i = true -> is_inf (weight_of g i) = false) ->
  exists sel', (forall i, sel' i = true -> active g i) /\
    forall v, boundary (sg_ends g) sel' v = boundary (sg_ends g) sel v.
Proof.
  intros U NI FI. set (m := length (sg_ends g)) in *.
  set (par := fun i j => negb (length (nth i (sg_ends g) []) =? 0) &&
    (forallb (fun v => existsb (Nat.eqb v) (nth j (sg_ends g) [])) (nth i (sg_ends g) []) &&
     forallb (fun v => existsb (Nat.eqb v) (nth i (sg_ends g) [])) (nth j (sg_ends g) []))).
  assert (PAR : forall i j, par i j = true <-> parallel g i j).
  { intros i j. unfold par, parallel. rewrite !andb_true_iff, !forallb_forall, negb_true_iff, Nat.eqb_neq. split.
    - intros (A & B & C). split; [intros Z; apply A; rewrite Z; auto|]. intros v. split; intros I; [apply mem_spec, B|apply mem_spec, C]; auto.
    - intros (A & B). split; [destruct (nth i (sg_ends g) []); cbn; congruence|]. split; intros v I; apply mem_spec, B; auto. }
  set (act := fun j => nth j (sg_on g) false).
  exists (fun j => act j && parity (map (fun i => sel i && par i j) (seq 0 m))). split.
  { intros j X. apply andb_true_iff in X. exact (proj1 X). }
  intros v. unfold boundary. fold m.
  rewrite (parity_ext _ (fun j => parity (map (fun i => sel i && (act j && (par i j && incident (sg_ends g) j v))) (seq 0 m)))).
  2: { intros j _. rewrite (parity_ext (fun i => sel i && (act j && (par i j && incident (sg_ends g) j v)))
         (fun i => (act j && incident (sg_ends g) j v) && (sel i && par i j))).
       - rewrite parity_and. destruct (act j), (incident (sg_ends g) j v), (parity _); reflexivity.
       - intros i _. destruct (act j), (sel i), (par i j), (incident (sg_ends g) j v); reflexivity. }
  rewrite parity_swap. apply parity_ext. intros i Ii. apply in_seq in Ii. rewrite parity_and. destruct (sel i) eqn:Si; auto. cbn [andb].
  destruct (nth i (sg_ends g) []) as [|a r] eqn:EI.
  - rewrite parity_false.
    + unfold incident. rewrite EI. reflexivity.
    + intros j _. unfold par. rewrite EI. cbn. apply andb_false_r.
  - destruct (C31_one _ _ _ _ _ U i) as (j & Lj & Pj & Aj & UQ & _); [unfold m in Ii; lia|rewrite EI; discriminate|apply FI; [lia|auto]|intros; apply NI; auto|].
    rewrite (parity_one _ j).
    + change (act j) with (nth j (sg_on g) false). rewrite Aj, (proj2 (PAR i j) Pj). cbn [andb].
      unfold incident. apply eq_true_iff_eq. destruct Pj as [_ Pj]. rewrite !existsb_exists. split; intros (x & I & X); exists x; split; auto; apply Pj; auto.
    + apply seq_NoDup.
    + apply in_seq. unfold m. lia.
    + intros k Ik D. apply in_seq in Ik. destruct (act k) eqn:Ak; auto. destruct (par i k) eqn:Pk; auto. exfalso. apply D.
      apply UQ; [unfold m in Ik; lia|apply PAR; auto|exact Ak].
Qed.
