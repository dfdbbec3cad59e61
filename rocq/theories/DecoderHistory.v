(** Selections of edges of the syndrome graph and error histories. *)
Require Import List Bool Arith ZArith QArith Lia Relations.
From Verif Require Import Base BaseProofs QSpec PauliModel PauliAlg MeasureProofs GraphSpec GraphProofs
  LatticeSpec LatticeOps GeneratorSpec CodesModel
  ErasureModel ErasureProofs SyngraphModel SyngraphBuild SyngraphDup SyngraphComp SyngraphObjs SyngraphProofs SyngraphErrors
  SyngraphOps SyngraphFinal UnionFindModel UnionFindFinal Props_UnionFind Props_Syngraph DecoderSpec DecoderModel DecoderProofs DecoderObjects.
Import ListNotations.
Open Scope nat_scope.
Local Arguments incident : simpl never.
Local Arguments upd : simpl never.

Lemma weight_kind rounds n gens w g i : uses rounds n gens w g -> i < length (sg_ends g) ->
  weight_of g i = kind_weight w (kind_of g i) /\
  match kind_of g i with
  | QubitError t op q p => t < rounds /\ q < n /\ (p = PX \/ p = PZ)
  | StabError t s => 0 < t < rounds /\ s < length gens
  end.
Proof.
  intros U Li. pose proof U as ((_ & Hn & Hg) & _). destruct (uses_ready _ _ _ _ _ U) as (s0 & gens' & -> & -> & T & _ & vl & K & R & RF).
  rewrite (rd_ends _ _ _ _ _ _ _ R) in Li.
  assert (LK : i < length (kinds rounds s0 gens')) by (unfold kinds, edges in *; rewrite map_length in *; auto).
  unfold weight_of, kind_of. rewrite (rd_wt _ _ _ _ _ _ _ R), (rd_kind _ _ _ _ _ _ _ R). unfold weights.
  split.
  - rewrite (nth_indep _ NaN (kind_weight w (StabError 0 0))) by (rewrite map_length; auto). apply map_nth.
  - pose proof (kinds_in rounds s0 gens' Hn Hg _ (nth_In _ (StabError 0 0) LK)) as X.
    destruct (nth i (kinds rounds s0 gens') (StabError 0 0)); tauto.
Qed.

Lemma vertex_at rounds n gens w g v : uses rounds n gens w g -> v < length (sg_verts g) ->
  exists t s, nth_error (sg_verts g) v = Some (t, s) /\ t < rounds /\ s < length gens.
Proof.
  intros U Lv. destruct (nth_error (sg_verts g) v) as [[t s]|] eqn:X; [|apply nth_error_None in X; lia].
  exists t, s. split; auto. destruct (C30_edges _ _ _ _ _ U) as ((_ & V) & _). apply V. eapply nth_error_In; eauto.
Qed.

Lemma history_explainable rounds n gens w g syn E F : uses rounds n gens w g -> none_certain w n (length gens) ->
  explained w rounds n gens syn E F -> explainable (length (sg_verts g)) (sg_ends g) (active g) (vertex_bit g syn).
Proof.
  intros U NC [F0 F1 ED ER ES].
  destruct (active_suffices _ _ _ _ _ (fun i => happened E F (kind_of g i)) U) as (sel & A & B).
  - intros i Li. destruct (weight_kind _ _ _ _ _ _ U Li) as [-> X].
    destruct w as [a|]; cbn [kind_weight]; [|discriminate]. destruct NC as [N1 N2].
    destruct (kind_of g i) as [t op q p|t s].
    + destruct X as (_ & Lq & [-> | ->]); apply N1; auto.
    + apply N2. tauto.
  - intros i Li. destruct (weight_kind _ _ _ _ _ _ U Li) as [-> X].
    destruct w as [a|]; cbn [kind_weight]; [|auto].
    destruct (kind_of g i) as [t op q p|t s].
    + destruct X as (Lt & Lq & [-> | ->]); cbn [happened]; apply (ED t q Lt Lq).
    + cbn [happened]. apply ER; tauto.
  - exists sel. split; auto. intros v Lv. rewrite B.
    destruct (vertex_at _ _ _ _ _ _ U Lv) as (t & s & X & Lt & Ls).
    rewrite (C30_history _ _ _ _ _ U E F F0 F1 v t s X).
    unfold vertex_bit. rewrite (nth_error_nth _ _ (0, 0) X). cbn [fst snd]. symmetry. auto.
Qed.

Lemma result_history_is rounds n gens w g syn fr : uses rounds n gens w g ->
  (forall i, nth i (sg_result g) false = true -> active g i) ->
  explains (length (sg_verts g)) (sg_ends g) (bits (sg_result g)) (vertex_bit g syn) ->
  result_frame g = Ok fr ->
  length (ops fr) = n /\ explained w rounds n gens syn (result_errors rounds n (sg_result g)) (result_flips rounds n gens (sg_result g)) /\
    forall q, q < n -> fac fr q = total rounds (result_errors rounds n (sg_result g)) q.
Proof.
  intros U AC EX FR. pose proof U as (G & _). pose proof (Hm n gens G) as Hm.
  pose proof (C31_parallel _ _ _ _ _ U) as C31. pose proof (weight_kind rounds n gens w g) as WK.
  pose proof G as (_ & Hn & Hg).
  destruct (uses_ready _ _ _ _ _ U) as (s0 & gens' & -> & -> & T & _ & vl & K & R & RF).
  assert (NN : existsb k_new (filter has_edges (sg_comps g)) = false).
  { destruct (existsb k_new (filter has_edges (sg_comps g))) eqn:X; auto. rewrite result_frame_new in FR by auto. discriminate. }
  destruct (result_frame_ok rounds s0 gens' w Hn Hg vl K g R NN) as (fr' & Z & L & A). rewrite FR in Z. injection Z as <-.
  split; auto.
  split; [|exact A].
  assert (AL : forall i, i < length (sg_ends g) -> nth i (sg_result g) false = true -> is_inf (kind_weight w (kind_of g i)) = false).
  { intros i Li X. destruct (WK i U Li) as [<- _]. apply C31; auto. }
  assert (LE : length (sg_ends g) = length (the_edges rounds (length (ops s0)) (s0 :: gens'))).
  { rewrite (rd_ends _ _ _ _ _ _ _ R). unfold edges. apply map_length. }
  assert (KI : forall i, kind_of g i = nth i (map snd (the_edges rounds (length (ops s0)) (s0 :: gens'))) (StabError 0 0)).
  { intros i. unfold kind_of. rewrite (rd_kind _ _ _ _ _ _ _ R). reflexivity. }
  split.
  - intros s Ls. reflexivity.
  - intros s Ls. unfold result_flips. rewrite Nat.ltb_irrefl, andb_false_r. reflexivity.
  - intros t q Lt Lq. unfold result_errors. rewrite (proj2 (Nat.ltb_lt t rounds)) by auto. cbn [fst snd].
    assert (LL : forall k, k < 2 * length (ops s0) -> qi (length (ops s0)) t k < length (sg_ends g) /\
      kind_of g (qi (length (ops s0)) t k) = snd (qubit_edge (length (ops s0)) (s0 :: gens') t k)).
    { intros k Lk. pose proof (qi_lt rounds (length (ops s0)) (s0 :: gens') Hm t k Lt Lk) as Q. split; [rewrite LE, length_the_edges; lia|].
      rewrite KI. rewrite (nth_indep _ _ (snd (@nil nat, StabError 0 0))) by (rewrite map_length, length_the_edges; lia).
      rewrite map_nth, nth_qi; auto. }
    split; intros X; unfold finite_error; destruct w as [a|]; auto.
    + destruct (LL q) as [L1 K1]; [lia|]. specialize (AL _ L1 X). rewrite K1 in AL. cbn [qubit_edge snd] in AL.
      unfold letter_of in AL. rewrite (proj2 (Nat.ltb_lt q _)) in AL by auto. exact AL.
    + destruct (LL (length (ops s0) + q)) as [L1 K1]; [lia|]. specialize (AL _ L1 X). rewrite K1 in AL. cbn [qubit_edge snd] in AL.
      unfold letter_of in AL. rewrite (proj2 (Nat.ltb_ge _ _)) in AL by lia. cbn in AL.
      replace (length (ops s0) + q - length (ops s0)) with q in AL by lia. exact AL.
  - intros t s Lt Ls. unfold result_flips. rewrite (proj2 (Nat.ltb_lt 0 t)), (proj2 (Nat.ltb_lt t rounds)) by lia. cbn [andb]. intros X.
    unfold finite_error; destruct w as [a|]; auto.
    assert (L1 : si rounds (length (ops s0)) (s0 :: gens') t s < length (sg_ends g)).
    { rewrite LE, length_the_edges. unfold si. nia. }
    specialize (AL _ L1 X). rewrite KI in AL.
    rewrite (nth_indep _ _ (snd (@nil nat, StabError 0 0))) in AL by (rewrite map_length; lia).
    rewrite map_nth, nth_si in AL by auto. exact AL.
  - intros t s Lt Ls. rewrite <- (pattern_boundary rounds (length (ops s0)) (s0 :: gens')) with (d := StabError 0 0); auto.
    + rewrite (rd_ends _ _ _ _ _ _ _ R) in EX. unfold edges in EX.
      rewrite (boundary_ext _ _ (bits (sg_result g))).
      * rewrite EX. 2: { rewrite (rd_verts _ _ _ _ _ _ _ R), length_the_verts. apply vert_bound; auto. }
        unfold vertex_bit. rewrite (rd_verts _ _ _ _ _ _ _ R). rewrite nth_the_verts by auto. reflexivity.
      * intros i Li. rewrite map_length in Li. apply result_happened; auto.
    + intros s' _. unfold result_flips. rewrite Nat.ltb_irrefl, andb_false_r. reflexivity.
Qed.

Lemma result_history rounds n gens w g syn fr : uses rounds n gens w g ->
  (forall i, nth i (sg_result g) false = true -> active g i) ->
  explains (length (sg_verts g)) (sg_ends g) (bits (sg_result g)) (vertex_bit g syn) ->
  result_frame g = Ok fr ->
  length (ops fr) = n /\ exists E F, explained w rounds n gens syn E F /\
    forall q, q < n -> fac fr q = total rounds E q.
Proof. intros U AC EX FR. destruct (result_history_is _ _ _ _ _ _ _ U AC EX FR) as (A & B & C). eauto. Qed.

(** A call, in terms of error histories. *)
Definition history_outcome cls (rounds n : nat) (gens : list row) (w : option warg) (syn : list (list bool)) (r : Res (decoder * row)) : Prop :=
  ((exists E F, explained w rounds n gens syn E F) /\
   exists d' fr, r = Ok (d', fr) /\ uf_interface cls rounds gens w d' /\ length (ops fr) = n /\
     exists E F, explained w rounds n gens syn E F /\ forall q, q < n -> fac fr q = total rounds E q) \/
  (~ (exists E F, explained w rounds n gens syn E F) /\ r = Err ValueError).

Theorem decode_history cls rounds n gens w d : generators n gens -> weights_fit n (length gens) w -> 0 < rounds ->
  none_certain w n (length gens) -> uf_interface cls rounds gens w d -> exists bound, forall er syn fuel, bound <= fuel ->
  if shaped rounds n er && has_shape syn rounds (length gens)
  then history_outcome cls rounds n gens w syn (interface_decode fuel er syn d)
  else interface_decode fuel er syn d = Err AssertionError.
Proof.
  intros G Hw Hr NC UI. pose proof (interface_good _ _ _ _ _ _ G Hw Hr UI) as GD.
  destruct (decode_outcome _ _ _ _ _ GD) as (b & HB). exists b. intros er syn fuel Lf. specialize (HB er syn fuel Lf).
  destruct (shaped rounds n er && has_shape syn rounds (length gens)); auto.
  pose proof (gd_uses _ _ _ _ _ GD) as U.
  destruct HB as [(XP & d' & fr & R & GD' & EE & EK & EV & EO & AC & EX & FR & _)|(NX & R)].
  - left. assert (Q : length (ops fr) = n /\ exists E F, explained w rounds n gens syn E F /\ forall q, q < n -> fac fr q = total rounds E q).
    { apply result_history with (g := dc_graph d'); auto.
      - apply (gd_uses _ _ _ _ _ GD').
      - intros i X. unfold active. rewrite EO. apply AC; auto.
      - rewrite EE, EV. unfold vertex_bit in *. rewrite EV. exact EX. }
    destruct Q as (L & E & F & X & Y). split; [eauto|]. exists d', fr. split; [auto|]. split; [eapply ui_used; eauto|]. split; [auto|]. eauto.
  - right. split; auto. intros (E & F & X). apply NX. eapply history_explainable; eauto.
Qed.
