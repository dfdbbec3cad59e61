(** Decoders for whole syndrome graphs which call PyMatching or Fusion Blossom: outcomes of calls. *)
Require Import List Bool Arith ZArith QArith Lia Relations.
From Verif Require Import Base BaseProofs QSpec PauliModel PauliAlg MeasureProofs GraphSpec GraphProofs
  LatticeSpec LatticeOps GeneratorSpec CodesModel
  ErasureModel ErasureProofs SyngraphModel SyngraphBuild SyngraphDup SyngraphComp SyngraphObjs SyngraphProofs SyngraphErrors
  SyngraphOps SyngraphFinal UnionFindModel Props_Syngraph DecoderModel DecoderProofs DecoderObjects MatchingModel MatchingSpec MatchingComp.
Import ListNotations.
Open Scope nat_scope.
Local Arguments incident : simpl never.
Local Arguments upd : simpl never.

(** The components of a syndrome graph are proper. *)
Lemma comp_proper rounds n gens w g k : uses rounds n gens w g -> In k (sg_comps g) -> k_edges k <> [] -> proper k.
Proof.
  intros U I NE. destruct (C50_components _ _ _ _ _ U) as (_ & CK & _).
  destruct (CK k I) as (_ & ND & NDE & VB & _ & EI & EN & WF & LE & EE & WT). clear CK.
  assert (LA : forall i, In i (k_eidx k) -> i < length (sg_ends g) /\ active g i).
  { intros i J. apply EI in J. destruct J as (A & v & _ & Iv). split; auto. destruct (Nat.lt_ge_cases i (length (sg_ends g))); auto.
    rewrite nth_overflow in Iv by auto. destruct Iv. }
  split; auto.
  - rewrite WT, map_length. auto.
  - rewrite WT. intros x J. apply in_map_iff in J. destruct J as (i & <- & J). destruct (LA i J) as [L A].
    apply (C31_parallel _ _ _ _ _ U i L) in A. tauto.
  - intros i j Li Lj H. rewrite LE in Li, Lj.
    pose proof (nth_In (k_eidx k) 0 Li) as Ii. pose proof (nth_In (k_eidx k) 0 Lj) as Ij.
    destruct (LA _ Ii) as [L1 A1]. destruct (LA _ Ij) as [L2 A2].
    apply (proj1 (NoDup_nth _ 0) NDE); auto.
    destruct (Nat.eq_dec (nth i (k_eidx k) 0) (nth j (k_eidx k) 0)) as [|D]; auto. exfalso.
    assert (P : parallel g (nth i (k_eidx k) 0) (nth j (k_eidx k) 0)).
    { split.
      - rewrite <- EE by auto. assert (J : In (nth i (k_edges k) []) (k_edges k)) by (apply nth_In; lia).
        destruct (WF _ J) as [(v & -> & _)|(u & v & -> & _)]; discriminate.
      - intros v. rewrite <- !EE by auto. rewrite !in_map_iff. split; intros (p & X & Y); exists p; split; auto; apply H; auto. }
    assert (P' : parallel g (nth j (k_eidx k) 0) (nth i (k_eidx k) 0)).
    { destruct P as [P1 P2]. split; [|intros; symmetry; auto]. intros Z. apply P1. rewrite Z in P2.
      destruct (nth (nth i (k_eidx k) 0) (sg_ends g) []) as [|a e]; auto. exfalso. apply (P2 a). left; auto. }
    apply (C31_parallel _ _ _ _ _ U _ L1) in A1. apply (C31_parallel _ _ _ _ _ U _ L2) in A2.
    destruct (proj2 A1 _ L2 ltac:(auto) P) as [X|[X1 X2]], (proj2 A2 _ L1 ltac:(auto) P') as [Y|[Y1 Y2]]; try congruence; try lia.
    pose proof (wlt_trans _ _ _ X Y) as Z. rewrite wlt_irrefl in Z. discriminate.
Qed.

Section X.
Variables (B : Type) (new : comp -> Res B) (dec : B -> comp -> Res (list bool)) (ok : list weight -> Prop)
  (cost : list bool -> list weight -> nat -> Q) (refuses : list bool -> bool).
Hypothesis new_ok : forall k, proper k -> (ok (k_wt k) /\ exists b, new k = Ok b) \/ (~ ok (k_wt k) /\ exists e, new k = Err e).
Hypothesis new_same : forall k k', k_n k = k_n k' -> k_edges k = k_edges k' -> k_wt k = k_wt k' -> new k = new k'.
Hypothesis dec_ok : forall k b er, proper k -> new k = Ok b -> length (k_syn k) = k_n k -> k_erased k = Some er ->
  length er = length (k_edges k) -> explainable (k_n k) (k_edges k) (fun _ => True) (bits (k_syn k)) ->
  if refuses er then dec b k = Err ValueError else exists res, dec b k = Ok res /\ best k (cost er (k_wt k)) res.

(** * The loop over the decoders *)
Lemma x_loop_ok (P : sgraph -> Prop) :
  (forall c res g g', P g -> set_results c res g = Ok g' -> P g') ->
  forall ds g, P g -> NoDup (map fst ds) ->
  (forall x, In x ds -> let k := nth (fst x) (sg_comps g) comp0 in fst x < length (sg_comps g) /\
     exists res, dec (snd x) k = Ok res /\ length res = length (k_edges k)) ->
  exists cs, foldR (x_component dec) ds g = Ok (set_comps cs g) /\ P (set_comps cs g) /\ length cs = length (sg_comps g) /\
    (forall c, ~ In c (map fst ds) -> nth c cs comp0 = nth c (sg_comps g) comp0) /\
    (forall x, In x ds -> let k := nth (fst x) (sg_comps g) comp0 in
       exists res, nth (fst x) cs comp0 = set_k_result res true k /\ dec (snd x) k = Ok res).
Proof.
  intros HP. induction ds as [|[c b] ds IH]; intros g Pg ND H.
  - exists (sg_comps g). cbn. assert (X : set_comps (sg_comps g) g = g) by (destruct g; auto).
    rewrite X. repeat split; auto. intros d' [].
  - cbn [map fst] in ND. inversion ND as [|? ? NI ND']; subst.
    destruct (H (c, b)) as (Lc & res & E & LR); [left; auto|]. cbn [fst snd] in *.
    set (k := nth c (sg_comps g) comp0) in *.
    set (g1 := set_comps (upd c (set_k_result res true k) (sg_comps g)) g).
    assert (SR : set_results c res g = Ok g1) by (apply set_results_eq; auto).
    destruct (IH g1) as (cs & X & Pc & L & A & Bx).
    { eapply HP; eauto. } { auto. }
    { intros x I. destruct (H x) as (L2 & Y); [right; auto|].
      assert (NE : c <> fst x) by (intros Z; apply NI; rewrite Z; apply in_map; auto).
      cbn [g1 sg_comps set_comps]. rewrite length_upd, nth_upd_other by auto. split; auto. }
    exists cs. cbn [g1 sg_comps set_comps] in L, A, Bx. rewrite length_upd in L. unfold g1 in X, Pc. rewrite set_comps_twice in X, Pc.
    split; [|split; [|split; [|split]]]; auto.
    + cbn [foldR]. unfold x_component at 1. cbn [fst snd]. rewrite (get_nth _ _ comp0) by auto. cbn [bindR]. fold k. rewrite E. cbn [bindR].
      rewrite SR. cbn [bindR]. exact X.
    + intros c' NI'. cbn [map fst] in NI'. rewrite A by (intros Z; apply NI'; right; auto).
      apply nth_upd_other. intros Z. apply NI'. left. auto.
    + intros x [<-|I]; cbn [fst snd].
      * exists res. split; auto. rewrite A by auto. apply nth_upd_same; auto.
      * destruct (Bx x I) as (res' & Y & D).
        assert (NE : c <> fst x) by (intros Z; apply NI; rewrite Z; apply in_map; auto).
        rewrite nth_upd_other in Y, D by auto. eauto.
Qed.

Lemma x_loop_err : forall ds g, NoDup (map fst ds) ->
  (forall x, In x ds -> let k := nth (fst x) (sg_comps g) comp0 in fst x < length (sg_comps g) /\
     ((exists res, dec (snd x) k = Ok res /\ length res = length (k_edges k)) \/ dec (snd x) k = Err ValueError)) ->
  (exists x, In x ds /\ dec (snd x) (nth (fst x) (sg_comps g) comp0) = Err ValueError) ->
  foldR (x_component dec) ds g = Err ValueError.
Proof.
  induction ds as [|[c b] ds IH]; intros g ND H (x & I & X); [destruct I|].
  cbn [map fst] in ND. inversion ND as [|? ? NI ND']; subst.
  destruct (H (c, b)) as (Lc & Y); [left; auto|]. cbn [fst snd] in *.
  cbn [foldR]. unfold x_component at 1. cbn [fst snd]. rewrite (get_nth _ _ comp0) by auto. cbn [bindR].
  destruct Y as [(res & E & LR)|E]; rewrite E; [|reflexivity]. cbn [bindR].
  rewrite set_results_eq by auto. cbn [bindR]. destruct I as [<-|I]; [cbn [fst snd] in X; congruence|].
  assert (NE : forall y, In y ds -> c <> fst y) by (intros y J Z; apply NI; rewrite Z; apply in_map; auto).
  apply IH; auto.
  - intros y J. destruct (H y) as (L2 & Y); [right; auto|]. cbn [sg_comps set_comps]. rewrite length_upd, nth_upd_other by auto. auto.
  - exists x. split; auto. cbn [sg_comps set_comps]. rewrite nth_upd_other by auto. auto.
Qed.

(** * Objects *)
Record xgood (rounds n : nat) (gens : list row) (w : option warg) (d : xdecoder B) : Prop := {
  xg_uses : uses rounds n gens w (xd_graph d);
  xg_outside : forall i, (forall k, In k (sg_comps (xd_graph d)) -> ~ In i (k_eidx k)) -> nth i (sg_result (xd_graph d)) false = false;
  xg_comps : map fst (xd_decs d) =
    filter (fun c => has_edges (nth c (sg_comps (xd_graph d)) comp0)) (seq 0 (length (sg_comps (xd_graph d))));
  xg_objects : forall x, In x (xd_decs d) -> new (nth (fst x) (sg_comps (xd_graph d)) comp0) = Ok (snd x) }.

(** Whether some component refuses the erased qubits. *)
Definition refused (g : sgraph) (er : option (list (list bool))) : Prop :=
  exists k, In k (sg_comps g) /\ k_edges k <> [] /\ refuses (map (marked g er) (k_eidx k)) = true.

(** The result has minimum cost in each component. *)
Definition cheapest (g : sgraph) (er : option (list (list bool))) (syn : list (list bool)) (result : list bool) : Prop :=
  forall k, In k (sg_comps g) -> forall sel,
    explains (k_n k) (k_edges k) sel (fun p => vertex_bit g syn (nth p (k_vidx k) 0)) ->
    (qsum (fun j => if nth (nth j (k_eidx k) 0%nat) result false then cost (map (marked g er) (k_eidx k)) (k_wt k) j else 0) (seq 0 (length (k_eidx k))) <=
     qsum (fun j => if sel j then cost (map (marked g er) (k_eidx k)) (k_wt k) j else 0) (seq 0 (length (k_eidx k))))%Q.

Definition x_outcome (rounds n : nat) (gens : list row) (w : option warg) (d : xdecoder B) (er : option (list (list bool))) (syn : list (list bool))
  (r : Res (xdecoder B * row)) : Prop :=
  let g := xd_graph d in
  (explainable (length (sg_verts g)) (sg_ends g) (active g) (vertex_bit g syn) /\ ~ refused g er /\
   exists d' fr, r = Ok (d', fr) /\ xgood rounds n gens w d' /\
     sg_ends (xd_graph d') = sg_ends g /\ sg_kind (xd_graph d') = sg_kind g /\ sg_verts (xd_graph d') = sg_verts g /\
     sg_on (xd_graph d') = sg_on g /\
     (forall i, nth i (sg_result (xd_graph d')) false = true -> active g i) /\
     (forall i, (forall k, In k (sg_comps g) -> ~ In i (k_eidx k)) -> nth i (sg_result (xd_graph d')) false = false) /\
     explains (length (sg_verts g)) (sg_ends g) (bits (sg_result (xd_graph d'))) (vertex_bit g syn) /\
     result_frame (xd_graph d') = Ok fr /\ cheapest g er syn (sg_result (xd_graph d'))) \/
  ((refused g er \/ ~ explainable (length (sg_verts g)) (sg_ends g) (active g) (vertex_bit g syn)) /\ r = Err ValueError).

Definition full (k : comp) := (shape_of k, k_wt k).
Lemma full_fields a b : full a = full b ->
  k_n a = k_n b /\ k_edges a = k_edges b /\ k_vidx a = k_vidx b /\ k_eidx a = k_eidx b /\ k_wt a = k_wt b.
Proof. intros X. unfold full, shape_of in X. injection X. auto. Qed.

Lemma qsum_nil {A} (f : A -> Q) : qsum f [] = 0%Q.
Proof. reflexivity. Qed.

Theorem x_decode_outcome rounds n gens w d : xgood rounds n gens w d -> forall er syn,
  if shaped rounds n er && has_shape syn rounds (length gens) then x_outcome rounds n gens w d er syn (x_decode dec er syn d)
  else x_decode dec er syn d = Err AssertionError.
Proof.
  intros G er syn. destruct G as [U OUT CM OB]. set (g := xd_graph d) in *.
  pose proof U as ((NE & Hn & Hg) & Hw & Hr & SG).
  destruct (uses_ready _ _ _ _ _ U) as (s0 & gens' & Egens & En & T & _ & vl & K & R & RF). subst n gens.
  pose proof (n_comps _ _ _ _ _ _ _ R) as NC.
  unfold x_decode. fold g.
  destruct (shaped rounds (length (ops s0)) er) eqn:SE; cbn [andb].
  2: { destruct er as [q|]; [|discriminate]. cbn in SE. rewrite (set_erasure_bad rounds s0 gens' w vl K g R q SE). reflexivity. }
  set (q := default (repeat (repeat false (length (ops s0))) rounds) er).
  assert (SQ : has_shape q rounds (length (ops s0)) = true) by (destruct er; [exact SE|apply zeros_shape]).
  destruct (set_erasure_ok rounds s0 gens' w Hn Hg vl K g R er SQ) as [X1 R1]. fold q in X1, R1. rewrite X1. cbn [bindR].
  set (g1 := set_comps (map (erase_comp rounds s0 gens' q) (sg_comps g)) g) in *.
  destruct (has_shape syn rounds (length (s0 :: gens'))) eqn:SS.
  2: { rewrite (set_syndrome_bad rounds s0 gens' w vl K g1 R1 syn SS). reflexivity. }
  destruct (set_syndrome_ok rounds s0 gens' w Hn Hg vl K g1 R1 (Some syn) SS) as [X2 R2]. cbn [default] in X2, R2. rewrite X2. cbn [bindR].
  set (g2 := set_comps (map (syn_comp rounds s0 gens' syn) (sg_comps g1)) g1) in *.
  assert (SG2 : syndrome_graph rounds (s0 :: gens') w g2) by (eapply sg_syndrome; [eapply sg_erasure; eauto|eauto]).
  assert (U2 : uses rounds (length (ops s0)) (s0 :: gens') w g2) by (split; [split; auto|split; auto]).
  pose proof (n_comps _ _ _ _ _ _ _ R2) as NC2.
  set (k0 := fun c => nth c (sg_comps g) comp0).
  assert (K2 : forall c, c < K -> nth c (sg_comps g2) comp0 = syn_comp rounds s0 gens' syn (erase_comp rounds s0 gens' q (k0 c))).
  { intros c Lc. unfold g2. cbn [sg_comps set_comps]. rewrite nth_map_comp by (unfold g1; cbn [sg_comps set_comps]; rewrite map_length; lia).
    unfold g1. cbn [sg_comps set_comps]. rewrite nth_map_comp by lia. auto. }
  assert (SH2 : forall c, c < K -> full (nth c (sg_comps g2) comp0) = full (k0 c)).
  { intros c Lc. rewrite K2 by auto. unfold syn_comp, erase_comp. destruct (has_edges _); reflexivity. }
  assert (SY2 : forall k, In k (sg_comps g2) -> length (k_syn k) = k_n k /\
    forall p, p < k_n k -> bits (k_syn k) p = vertex_bit g syn (nth p (k_vidx k) 0)).
  { intros k I. pose proof (vidx_len _ _ _ _ _ _ _ R2 k I) as VL.
    destruct (comp_in _ _ _ _ _ _ _ R2 k I) as (c & Lc & Ek).
    assert (Y : k_syn k = map (vertex_bit g syn) (k_vidx k)).
    { rewrite Ek, K2 by auto. unfold syn_comp. cbn [k_syn set_k_syn k_vidx]. apply map_ext. intros v.
      unfold vertex_bit, syndrome_at. rewrite (rd_verts _ _ _ _ _ _ _ R). auto. }
    rewrite Y, map_length. split; [auto|]. intros p Lp. unfold bits.
    rewrite (nth_indep _ false (vertex_bit g syn 0)) by (rewrite map_length; lia). apply map_nth. }
  assert (CD := fun k I => check_component_ok _ _ _ _ _ U2 k I (proj1 (SY2 k I))).
  assert (EXT : forall k, In k (sg_comps g2) -> forall sel, explains (k_n k) (k_edges k) sel (bits (k_syn k)) <->
    explains (k_n k) (k_edges k) sel (fun p => vertex_bit g syn (nth p (k_vidx k) 0))).
  { intros k I sel. destruct (SY2 k I) as [_ Y]. split; intros X v Lv; rewrite X by auto; [|symmetry]; apply Y; auto. }
  destruct (check_decodable_dec g2) as [[Y ALL]|[Y (k & Ik & Ck)]].
  { intros k I. destruct (CD k I) as [[? _]|[? _]]; auto. }
  2: { rewrite Y. cbn [bindR]. right. fold g. split; [right|reflexivity].
    intros (sel & A & X). destruct (CD k Ik) as [[Z _]|[_ Z]]; [congruence|]. apply Z.
    destruct (explain_local _ _ _ _ g2 sel (vertex_bit g syn) k U2 Ik A X) as (sel' & _ & E'). exists sel'. split; auto. apply EXT; auto. }
  rewrite Y. cbn [bindR].
  assert (DC : forall x, In x (xd_decs d) -> fst x < K /\ has_edges (k0 (fst x)) = true).
  { intros x I. apply (in_map fst) in I. rewrite CM in I. apply filter_In in I. destruct I as [I J]. apply in_seq in I. split; auto; lia. }
  assert (NDD : NoDup (map fst (xd_decs d))) by (rewrite CM; apply NoDup_filter, seq_NoDup).
  (* the erased edges of a component *)
  assert (ER2 : forall c, c < K -> has_edges (k0 c) = true -> k_erased (nth c (sg_comps g2) comp0) = Some (map (marked g er) (k_eidx (k0 c)))).
  { intros c Lc Hc. rewrite K2 by auto. unfold syn_comp, erase_comp. rewrite Hc. cbn [k_erased set_k_syn set_k_erased]. f_equal. apply map_ext. intros i.
    unfold marked, edge_erased, kind_of.
    rewrite (rd_kind _ _ _ _ _ _ _ R). destruct (nth i (kinds rounds s0 gens') (StabError 0 0)) as [t op j p|t s]; auto.
    unfold q. destruct er as [e0|]; auto. cbn [default].
    destruct (Nat.lt_ge_cases t rounds) as [Lt|Lt].
    - rewrite nth_repeat_lt by auto. destruct (Nat.lt_ge_cases j (length (ops s0))); [rewrite nth_repeat_lt by auto; auto|].
      rewrite nth_overflow; auto. rewrite repeat_length; auto.
    - rewrite (nth_overflow (repeat _ _)) by (rewrite repeat_length; auto). destruct j; reflexivity. }
  assert (EXP2 : forall k, In k (sg_comps g2) -> explainable (k_n k) (k_edges k) (fun _ => True) (bits (k_syn k))).
  { intros k I. destruct (CD k I) as [[_ EX]|[Z _]]; [auto|rewrite ALL in Z by auto; discriminate]. }
  assert (HEN : forall k, has_edges k = true -> k_edges k <> []) by (intros k H Z; unfold has_edges in H; rewrite Z in H; discriminate).
  assert (HEN' : forall k, k_edges k <> [] -> has_edges k = true) by (intros k H; unfold has_edges; destruct (k_edges k); [congruence|reflexivity]).
  assert (DEC : forall x, In x (xd_decs d) -> let k := nth (fst x) (sg_comps g2) comp0 in let e := map (marked g er) (k_eidx (k0 (fst x))) in
     if refuses e then dec (snd x) k = Err ValueError else exists res, dec (snd x) k = Ok res /\ best k (cost e (k_wt k)) res).
  { intros x I k e. destruct (DC x I) as [Lx Hx].
    assert (I2 : In k (sg_comps g2)) by (apply nth_In; lia). destruct (full_fields _ _ (SH2 _ Lx)) as (F1 & F2 & F3 & F4 & F5).
    assert (NEk : k_edges k <> []) by (unfold k; rewrite F2; auto).
    apply dec_ok; auto.
    - apply (comp_proper _ _ _ _ _ _ U2 I2 NEk).
    - rewrite (new_same _ (k0 (fst x))); auto. apply OB; auto.
    - apply (SY2 k I2).
    - apply ER2; auto.
    - unfold e. rewrite map_length. unfold k. rewrite F2. rewrite (eidx_len _ _ _ _ _ _ _ R); auto. apply nth_In. lia. }
  assert (COMPS : forall k, In k (sg_comps g) -> k_edges k <> [] -> exists x, In x (xd_decs d) /\ k0 (fst x) = k).
  { intros k I N. apply (In_nth _ _ comp0) in I. destruct I as (c & Lc & Ek).
    assert (Ic : In c (map fst (xd_decs d))).
    { rewrite CM. apply filter_In. split; [apply in_seq; lia|]. rewrite Ek. apply HEN'; auto. }
    apply in_map_iff in Ic. destruct Ic as (x & Ex & Ix). exists x. split; auto. unfold k0. rewrite Ex. auto. }
  destruct (existsb (fun x => refuses (map (marked g er) (k_eidx (k0 (fst x))))) (xd_decs d)) eqn:RF0.
  { right. apply existsb_exists in RF0. destruct RF0 as (x & Ix & Rx). destruct (DC x Ix) as [Lx Hx]. split.
    - left. exists (k0 (fst x)). split; [apply nth_In; fold g; lia|]. split; auto.
    - rewrite x_loop_err; auto.
      + intros y Iy. destruct (DC y Iy) as [Ly _]. split; [lia|]. specialize (DEC y Iy). cbn zeta in DEC |- *.
        destruct (refuses _); [auto|]. destruct DEC as (res & E & LR & _). left. eauto.
      + exists x. split; auto. specialize (DEC x Ix). cbn zeta in DEC. rewrite Rx in DEC. auto. }
  assert (NRF : forall x, In x (xd_decs d) -> refuses (map (marked g er) (k_eidx (k0 (fst x)))) = false) by (apply existsb_false; auto).
  assert (DEC' : forall x, In x (xd_decs d) -> let k := nth (fst x) (sg_comps g2) comp0 in
     exists res, dec (snd x) k = Ok res /\ best k (cost (map (marked g er) (k_eidx (k0 (fst x)))) (k_wt k)) res).
  { intros x I k. specialize (DEC x I). cbn zeta in DEC. rewrite NRF in DEC by auto. auto. }
  destruct (x_loop_ok (syndrome_graph rounds (s0 :: gens') w)
    (fun c res g g' => sg_results rounds (s0 :: gens') w c res g g') (xd_decs d) g2 SG2 NDD) as (cs & X3 & SG3 & L3 & A3 & B3).
  { intros x I. destruct (DC x I) as [Lx Hx]. cbn zeta. split; [lia|]. destruct (DEC' x I) as (res & E & LR & _). eauto. }
  rewrite X3. cbn [bindR]. set (g3 := set_comps cs g2) in *.
  assert (U3 : uses rounds (length (ops s0)) (s0 :: gens') w g3) by (split; [split; auto|split; auto]).
  destruct (C50_update _ _ _ _ _ U3) as (g4 & X4 & L4 & RIN & ROUT & E4 & K4 & V4 & O4). rewrite X4. cbn [bindR].
  assert (SG4 : syndrome_graph rounds (s0 :: gens') w g4) by (eapply sg_updated; [apply U3|eauto]).
  assert (U4 : uses rounds (length (ops s0)) (s0 :: gens') w g4) by (split; [split; auto|split; auto]).
  destruct (C32_frame _ _ _ _ _ _ U3 X4) as (fr & FR & _). rewrite FR. cbn [bindR].
  assert (C4 : sg_comps g4 = map (fun k => if has_edges k then set_k_result (k_result k) false k else k) cs).
  { unfold update_results in X4. destruct (foldR _ (sg_comps g3) _) in X4; [|discriminate]. cbn [bindR] in X4.
    injection X4 as <-. reflexivity. }
  assert (N3 : forall c, c < K -> exists res b, nth c cs comp0 = set_k_result res b (nth c (sg_comps g2) comp0) /\
    (has_edges (k0 c) = true -> let k := nth c (sg_comps g2) comp0 in best k (cost (map (marked g er) (k_eidx (k0 c))) (k_wt k)) res)).
  { intros c Lc. destruct (in_dec Nat.eq_dec c (map fst (xd_decs d))) as [I|I].
    - apply in_map_iff in I. destruct I as (x & <- & I). destruct (B3 x I) as (res & Z & D). exists res, true. split; [auto|]. intros _ k.
      destruct (DEC' x I) as (res' & D' & BB). cbn zeta in D. rewrite D in D'. injection D' as <-. exact BB.
    - exists (k_result (nth c (sg_comps g2) comp0)), (k_new (nth c (sg_comps g2) comp0)). split.
      + rewrite A3 by auto. destruct (nth c (sg_comps g2) comp0); reflexivity.
      + intros HE. exfalso. apply I. rewrite CM. apply filter_In. split; auto. apply in_seq. lia. }
  assert (SH4 : forall c, c < K -> full (nth c (sg_comps g4) comp0) = full (k0 c)).
  { intros c Lc. rewrite <- SH2 by auto. rewrite C4, nth_map_comp by lia. destruct (N3 c Lc) as (res & b & -> & _).
    destruct (has_edges _); reflexivity. }
  assert (LC4 : length (sg_comps g4) = K) by (rewrite C4, map_length; lia).
  assert (E3 : forall c, c < K -> k_eidx (nth c cs comp0) = k_eidx (k0 c)).
  { intros c Lc. destruct (N3 c Lc) as (res & b & -> & _). cbn [k_eidx set_k_result]. apply (full_fields _ _ (SH2 c Lc)). }
  assert (OUT4 : forall i, (forall c, c < K -> ~ In i (k_eidx (k0 c))) -> nth i (sg_result g4) false = false).
  { intros i D. rewrite ROUT.
    - change (sg_result g3) with (sg_result g). apply OUT. intros k I J. apply (In_nth _ _ comp0) in I. destruct I as (c & Lc & <-).
      apply (D c); auto. lia.
    - intros k I J. apply (In_nth _ _ comp0) in I. destruct I as (c & Lc & <-). cbn [g3 sg_comps set_comps] in Lc, J.
      rewrite E3 in J by lia. apply (D c); auto. lia. }
  assert (SEL : forall i, nth i (sg_result g4) false = true -> active g4 i).
  { intros i Z. destruct (existsb (fun c => existsb (Nat.eqb i) (k_eidx (k0 c))) (seq 0 K)) eqn:EB.
    - apply existsb_exists in EB. destruct EB as (c & Ic & J). apply in_seq in Ic. apply existsb_in in J.
      destruct (C50_components _ _ _ _ _ U) as (_ & CK & _). destruct (CK (k0 c)) as (_ & _ & _ & _ & _ & EI & _); [apply nth_In; fold g; lia|].
      apply EI in J. unfold active. rewrite O4. apply J.
    - assert (FF : true = false); [|discriminate]. rewrite <- Z. apply OUT4. intros c Lc J.
      rewrite <- not_true_iff_false in EB. apply EB, existsb_exists. exists c. split; [apply in_seq; lia|]. apply existsb_in; auto. }
  assert (RES : forall c j res b, c < K -> nth c cs comp0 = set_k_result res b (nth c (sg_comps g2) comp0) -> j < length (k_eidx (k0 c)) ->
    nth (nth j (k_eidx (k0 c)) 0) (sg_result g4) false = nth j res false).
  { intros c j res b Lc Y3 Lj. assert (Z := RIN (nth c cs comp0) j). rewrite E3 in Z by auto.
    rewrite Z; auto; [rewrite Y3; reflexivity|]. unfold g3. cbn [sg_comps set_comps]. apply nth_In. lia. }
  assert (EXP : explains (length (sg_verts g4)) (sg_ends g4) (bits (sg_result g4)) (vertex_bit g syn)).
  { destruct (C50_components _ _ _ _ _ U4) as (_ & _ & CE). apply CE; [exact SEL|]. intros k I.
    apply (In_nth _ _ comp0) in I. destruct I as (c & Lc & Ek). rewrite LC4 in Lc.
    assert (I2 : In (nth c (sg_comps g2) comp0) (sg_comps g2)) by (apply nth_In; lia).
    destruct (N3 c Lc) as (res & b & Y3 & D3).
    destruct (full_fields _ _ (SH2 c Lc)) as (H1 & H2 & H3 & H5 & _).
    assert (F4 : full k = full (nth c (sg_comps g2) comp0)) by (rewrite <- Ek, SH4, SH2; auto).
    destruct (full_fields _ _ F4) as (F1 & F2 & F3 & F5 & _). rewrite F1, F2, F3, F5. apply EXT; auto.
    assert (HE : has_edges (k0 c) = true \/ k_edges (nth c (sg_comps g2) comp0) = []).
    { rewrite H2. unfold has_edges. destruct (k_edges (k0 c)); auto. }
    destruct HE as [HE|HE].
    - destruct (D3 HE) as (LR & EX & _). intros v Lv. rewrite <- EX by auto. unfold boundary. apply parity_ext. intros j Ij. apply in_seq in Ij.
      f_equal. unfold bits. rewrite H5. apply (RES c j res b); auto. rewrite <- H5, <- (eidx_len _ _ _ _ _ _ _ R2) by auto. lia.
    - destruct (EXP2 _ I2) as (s & _ & EX).
      intros v Lv. rewrite <- EX by auto. rewrite HE. reflexivity. }
  assert (V5 : sg_verts g4 = sg_verts g) by exact V4. assert (E5 : sg_ends g4 = sg_ends g) by exact E4.
  assert (O5 : sg_on g4 = sg_on g) by exact O4.
  rewrite V5, E5 in EXP. left. fold g. split; [|split].
  - exists (bits (sg_result g4)). split; [|exact EXP]. intros i Z. apply SEL in Z. unfold active in *. rewrite O5 in Z. exact Z.
  - intros (k & I & N & RR). destruct (COMPS k I N) as (x & Ix & <-). rewrite NRF in RR by auto. discriminate.
  - exists (mkXdecoder g4 (xd_decs d)), fr. split; [auto|]. cbn [xd_graph]. split.
    { split; cbn [xd_graph xd_decs].
      - exact U4.
      - intros i D. apply OUT4. intros c Lc J. apply (D (nth c (sg_comps g4) comp0)); [apply nth_In; lia|].
        destruct (full_fields _ _ (SH4 c Lc)) as (_ & _ & _ & -> & _). auto.
      - rewrite CM, LC4, NC. apply filter_ext_in. intros c I. apply in_seq in I.
        destruct (full_fields _ _ (SH4 c ltac:(lia))) as (_ & F2 & _). unfold has_edges. rewrite F2. reflexivity.
      - intros x I. destruct (DC x I) as [Lx Hx]. destruct (full_fields _ _ (SH4 _ Lx)) as (F1 & F2 & _ & _ & F5).
        rewrite (new_same _ (k0 (fst x))); auto. apply OB; auto. }
    split; [auto|]. split; [rewrite K4; auto|]. split; [auto|]. split; [auto|].
    split; [|split; [|split; [|split; [auto|]]]].
    + intros i Z. apply SEL in Z. unfold active in *. rewrite O5 in Z. exact Z.
    + intros i D. apply OUT4. intros c Lc. apply D. apply nth_In. fold g. lia.
    + exact EXP.
    + intros k I sel EX. apply (In_nth _ _ comp0) in I. destruct I as (c & Lc & Ek). rewrite NC in Lc. fold (k0 c) in Ek. subst k.
      assert (I2 : In (nth c (sg_comps g2) comp0) (sg_comps g2)) by (apply nth_In; lia).
      destruct (full_fields _ _ (SH2 c Lc)) as (H1 & H2 & H3 & H5 & H6).
      pose proof (eidx_len _ _ _ _ _ _ _ R2 _ I2) as EL. rewrite H2, H5 in EL.
      destruct (has_edges (k0 c)) eqn:HE.
      * destruct (N3 c Lc) as (res & b & Y3 & D3). destruct (D3 HE) as (LR & _ & MIN). rewrite H2, H6, EL in MIN.
        eapply Qle_trans; [|apply (MIN sel)].
        -- apply Qle_lteq. right. apply qsum_ext. intros j Ij. apply in_seq in Ij. rewrite (RES c j res b) by (auto; lia). reflexivity.
        -- rewrite <- H2. apply EXT; auto. rewrite H1, H2, H3. exact EX.
      * assert (Z : k_edges (k0 c) = []) by (unfold has_edges in HE; destruct (k_edges (k0 c)); auto; discriminate).
        rewrite <- EL, Z. cbn. apply Qle_refl.
Qed.

(** * Objects which have been made and used *)
Inductive x_interface (rounds : nat) (gens : list row) (w : option warg) : xdecoder B -> Prop :=
| xi_new g d : new_sgraph rounds gens w = Ok g -> x_new new g = Ok d -> x_interface rounds gens w d
| xi_used er syn d d' fr : x_interface rounds gens w d -> x_decode dec er syn d = Ok (d', fr) -> x_interface rounds gens w d'
| xi_weights d d' : x_interface rounds gens w d -> x_update_weights new d = Ok d' -> x_interface rounds gens w d'
| xi_erased er d g : x_interface rounds gens w d -> set_erasure er (xd_graph d) = Ok g -> x_interface rounds gens w (mkXdecoder g (xd_decs d))
| xi_syndrome syn d g : x_interface rounds gens w d -> SyngraphModel.set_syndrome syn (xd_graph d) = Ok g -> x_interface rounds gens w (mkXdecoder g (xd_decs d)).

Lemma mapR_map {A C D} (f : A -> Res C) (h : C -> D) (k : A -> D) l r : (forall a c, f a = Ok c -> h c = k a) -> mapR f l = Ok r -> map h r = map k l.
Proof.
  intros H. revert r. induction l as [|a l IH]; intros r E; cbn [mapR] in E; [injection E as <-; auto|].
  destruct (f a) as [c|] eqn:F; [|discriminate]. cbn [bindR] in E. destruct (mapR f l) as [r'|]; [|discriminate]. cbn [bindR] in E. injection E as <-.
  cbn [map]. rewrite (H a c F), (IH r' eq_refl). auto.
Qed.

Lemma mapR_In {A C} (f : A -> Res C) l : forall r, mapR f l = Ok r -> forall y, In y r -> exists x, In x l /\ f x = Ok y.
Proof.
  induction l as [|a l IH]; intros r E y I; cbn [mapR] in E; [injection E as <-; destruct I|].
  destruct (f a) as [b|] eqn:F; [|discriminate]. cbn [bindR] in E. destruct (mapR f l) as [r'|]; [|discriminate]. cbn [bindR] in E. injection E as <-.
  destruct I as [<-|I]; [exists a; split; auto; left; auto|]. destruct (IH _ eq_refl y I) as (x & J & X). exists x. split; auto. right; auto.
Qed.

Lemma mapR_total {A C} (f : A -> Res C) l : (forall x, In x l -> exists y, f x = Ok y) -> exists r, mapR f l = Ok r.
Proof.
  induction l as [|a l IH]; intros H; cbn [mapR]; [eauto|]. destruct (H a) as (b & ->); [left; auto|]. destruct IH as (r & ->); [intros; apply H; right; auto|].
  cbn [bindR]. eauto.
Qed.

Lemma listed (g : sgraph) c k : In (c, k) (filter (fun ck : nat * comp => has_edges (snd ck)) (combine (seq 0 (length (sg_comps g))) (sg_comps g))) ->
  c < length (sg_comps g) /\ k = nth c (sg_comps g) comp0 /\ In k (sg_comps g) /\ k_edges k <> [].
Proof.
  intros I. apply filter_In in I. destruct I as [I HE]. cbn [fst snd] in *. pose proof (in_combine_r _ _ _ _ I) as Ik.
  apply (In_nth _ _ (0, comp0)) in I. destruct I as (j & Lj & Ej). rewrite combine_length, seq_length in Lj.
  rewrite combine_nth in Ej by apply seq_length. rewrite seq_nth in Ej by lia. injection Ej as <- <-. cbn.
  split; [lia|]. split; [auto|]. split; [auto|]. intros Z. cbn in HE. unfold has_edges in HE. rewrite Z in HE. discriminate.
Qed.

Lemma x_new_good rounds n gens w g d : generators n gens -> weights_fit n (length gens) w -> 0 < rounds ->
  new_sgraph rounds gens w = Ok g -> x_new new g = Ok d -> xgood rounds n gens w d /\ xd_graph d = g.
Proof.
  intros G Hw Hr X Y. assert (U : uses rounds n gens w g) by (split; [auto|]; split; [auto|]; split; [auto|apply sg_new; auto]).
  unfold x_new in Y. destruct (mapR _ _) as [ds|] eqn:M; [|discriminate]. cbn [bindR] in Y. injection Y as <-. cbn [xd_graph]. split; auto.
  split; cbn [xd_graph xd_decs]; auto.
  - intros i _. pose proof U as ((NE & Hn & Hg) & _). destruct gens as [|s0 gens']; [congruence|].
    assert (n = length (ops s0)) by (symmetry; apply Hg; left; auto). subst n.
    destruct (syndrome_graph_ready rounds s0 gens' w Hn Hg Hw Hr g (sg_new _ _ _ _ X)) as (T & NB & _).
    destruct (SyngraphProofs.new_ok rounds s0 gens' Hn Hg w Hw T NB) as (vl & K & g' & X' & _ & RE & _). rewrite X in X'. injection X' as <-.
    rewrite RE. destruct (Nat.lt_ge_cases i (length (edges rounds s0 gens'))).
    * apply nth_repeat_lt; auto.
    * apply nth_overflow. rewrite repeat_length. auto.
  - rewrite (mapR_map _ fst fst _ _) with (2 := M).
    + rewrite (combine_seq_fst has_edges comp0). apply filter_ext. intros c. rewrite Nat.sub_0_r. auto.
    + intros [c k] y E. cbn [fst snd] in E. destruct (new k); [|discriminate]. cbn [bindR] in E. injection E as <-. auto.
  - intros x I. destruct (mapR_In _ _ _ M x I) as ([c k] & J & E). cbn [fst snd] in E. destruct (new k) as [b|] eqn:N; [|discriminate].
    cbn [bindR] in E. injection E as <-. cbn [fst snd]. destruct (listed _ _ _ J) as (_ & <- & _). auto.
Qed.

(** When objects can be made. *)
Lemma x_new_total rounds n gens w g : uses rounds n gens w g ->
  (exists d, x_new new g = Ok d) <-> forall k, In k (sg_comps g) -> k_edges k <> [] -> ok (k_wt k).
Proof.
  intros U. unfold x_new. split.
  - intros (d & Y) k I N. destruct (mapR _ _) as [ds|] eqn:M; [|discriminate].
    destruct (new_ok k (comp_proper _ _ _ _ _ _ U I N)) as [[A _]|(_ & e & E)]; auto. exfalso.
    assert (J : exists c, In (c, k) (filter (fun ck : nat * comp => has_edges (snd ck)) (combine (seq 0 (length (sg_comps g))) (sg_comps g)))).
    { apply (In_nth _ _ comp0) in I. destruct I as (c & Lc & Ek). exists c. apply filter_In. split.
      - replace (c, k) with (nth c (combine (seq 0 (length (sg_comps g))) (sg_comps g)) (0, comp0)).
        + apply nth_In. rewrite combine_length, seq_length. lia.
        + rewrite combine_nth by apply seq_length. rewrite seq_nth by lia. rewrite Ek. reflexivity.
      - cbn. unfold has_edges. destruct (k_edges k); [congruence|reflexivity]. }
    destruct J as (c & J). clear Y. revert ds M. induction (filter _ _) as [|a l IH]; intros ds M; [destruct J|]. cbn [mapR] in M.
    destruct J as [->|J].
    + cbn [fst snd] in M. rewrite E in M. discriminate.
    + destruct (new (snd a)); [|discriminate]. cbn [bindR] in M. destruct (mapR _ l) as [r|] eqn:Z; [|discriminate]. eapply (IH J r); eauto.
  - intros H. destruct (mapR_total (fun ck : nat * comp => do b <- new (snd ck); Ok (fst ck, b))
      (filter (fun ck => has_edges (snd ck)) (combine (seq 0 (length (sg_comps g))) (sg_comps g)))) as (ds & ->); [|cbn [bindR]; eauto].
    intros [c k] J. destruct (listed _ _ _ J) as (_ & _ & I & N). cbn [fst snd].
    destruct (new_ok k (comp_proper _ _ _ _ _ _ U I N)) as [(_ & b & ->)|(C & _)]; [cbn [bindR]; eauto|]. exfalso. auto.
Qed.

Lemma xgood_inputs rounds n gens w d g : xgood rounds n gens w d -> syndrome_graph rounds gens w g ->
  sg_result g = sg_result (xd_graph d) -> map full (sg_comps g) = map full (sg_comps (xd_graph d)) ->
  xgood rounds n gens w (mkXdecoder g (xd_decs d)).
Proof.
  intros [U OUT CM OB] SG ER SH.
  assert (LC : length (sg_comps g) = length (sg_comps (xd_graph d))) by (rewrite <- (map_length full), SH, map_length; auto).
  assert (NS : forall c, full (nth c (sg_comps g) comp0) = full (nth c (sg_comps (xd_graph d)) comp0)).
  { intros c. rewrite <- !(map_nth full), SH. auto. }
  split; cbn [xd_graph xd_decs].
  - destruct U as (A & B' & C & _). split; [auto|]. split; [auto|]. split; auto.
  - intros i H. rewrite ER. apply OUT. intros k I J. apply (In_nth _ _ comp0) in I. destruct I as (c & Lc & <-).
    destruct (full_fields _ _ (NS c)) as (_ & _ & _ & X & _). apply (H (nth c (sg_comps g) comp0)); [apply nth_In; lia|]. rewrite X; auto.
  - rewrite CM, LC. apply filter_ext. intros c. unfold has_edges. destruct (full_fields _ _ (NS c)) as (_ & -> & _). auto.
  - intros x I. destruct (full_fields _ _ (NS (fst x))) as (F1 & F2 & _ & _ & F5). rewrite (new_same _ _ F1 F2 F5). apply OB; auto.
Qed.

(** Updating the weights makes the same objects again. *)
Lemma x_update_same rounds n gens w d : xgood rounds n gens w d -> x_update_weights new d = Ok d.
Proof.
  intros [U _ CM OB]. unfold x_update_weights.
  assert (X : forall l, (forall x, In x l -> In x (xd_decs d)) ->
    mapR (fun x : nat * B => do k <- get (sg_comps (xd_graph d)) (fst x); do b <- new k; Ok (fst x, b)) l = Ok l).
  { induction l as [|[c b] l IH]; intros H; cbn [mapR]; auto.
    assert (I : In (c, b) (xd_decs d)) by (apply H; left; auto). pose proof (OB _ I) as N. cbn [fst snd] in *.
    apply (in_map fst) in I. rewrite CM in I. apply filter_In in I. destruct I as [I _]. apply in_seq in I. cbn [fst] in I.
    rewrite (get_nth _ _ comp0) by lia. cbn [bindR]. rewrite N. cbn [bindR]. rewrite IH by (intros; apply H; right; auto). reflexivity. }
  rewrite X by auto. cbn [bindR]. destruct d; reflexivity.
Qed.

Theorem x_interface_good rounds n gens w d : generators n gens -> weights_fit n (length gens) w -> 0 < rounds ->
  x_interface rounds gens w d -> xgood rounds n gens w d.
Proof.
  intros G Hw Hr. induction 1 as [g d X Y|er syn d d' fr _ IH X|d d' _ IH X|er d g _ IH X|syn d g _ IH X].
  - apply (x_new_good _ _ _ _ _ _ G Hw Hr X Y).
  - pose proof (x_decode_outcome _ _ _ _ _ IH er syn) as H. rewrite X in H. destruct (_ && _); [|discriminate].
    destruct H as [(_ & _ & d2 & fr2 & E & GD & _)|(_ & E)]; [|discriminate]. injection E as <- <-. auto.
  - rewrite (x_update_same _ _ _ _ _ IH) in X. injection X as <-. auto.
  - pose proof IH as [U _ _ _]. pose proof U as (_ & _ & _ & SG).
    destruct (uses_ready _ _ _ _ _ U) as (s0 & gens' & -> & -> & _ & _ & vl & K & R & _). destruct G as (_ & Hn & Hg).
    destruct (set_erasure_inv rounds s0 gens' w Hn Hg vl K er _ _ R X) as (_ & EG).
    apply xgood_inputs; auto; [eapply sg_erasure; eauto|rewrite EG; reflexivity|].
    rewrite EG. cbn [sg_comps set_comps]. rewrite map_map. apply map_ext. intros k. unfold erase_comp. destruct (has_edges k); reflexivity.
  - pose proof IH as [U _ _ _]. pose proof U as (_ & _ & _ & SG).
    destruct (uses_ready _ _ _ _ _ U) as (s0 & gens' & -> & -> & _ & _ & vl & K & R & _). destruct G as (_ & Hn & Hg).
    destruct (set_syndrome_inv rounds s0 gens' w Hn Hg vl K syn _ _ R X) as (_ & EG).
    apply xgood_inputs; auto; [eapply sg_syndrome; eauto|rewrite EG; reflexivity|].
    rewrite EG. cbn [sg_comps set_comps]. rewrite map_map. apply map_ext. intros k. reflexivity.
Qed.
End X.
