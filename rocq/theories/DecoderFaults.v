(** Error histories with few faults: from the distance of the code to the one of the graph, and
    from the number of faults to the one of edges. *)
Require Import List Bool Arith ZArith QArith Lia Relations Permutation.
From Verif Require Import Base BaseProofs QSpec PauliModel PauliAlg MeasureProofs GraphSpec GraphProofs
  LatticeSpec LatticeOps GeneratorSpec CodesModel
  ErasureModel ErasureProofs SyngraphModel SyngraphBuild SyngraphDup SyngraphComp SyngraphObjs SyngraphProofs SyngraphErrors
  SyngraphOps SyngraphFinal UnionFindModel UnionFindInit UnionFindStep UnionFindFinal UnionFindMetric UnionFindGrowth UnionFindDistance
  Props_UnionFind Props_Syngraph DecoderSpec DecoderModel DecoderProofs DecoderObjects DecoderHistory DecoderDistance FaultSpec.
Import ListNotations.
Open Scope nat_scope.
Local Arguments incident : simpl never.
Notation total := DecoderSpec.total.

Lemma sum_flat_map {A B} (f : B -> nat) (h : A -> list B) l : sum f (flat_map h l) = sum (fun a => sum f (h a)) l.
Proof. induction l as [|a l IH]; auto. cbn [flat_map]. rewrite sum_app, sum_cons, IH. auto. Qed.

Lemma parity_flat_map {A B} (f : B -> bool) (h : A -> list B) l :
  parity (map f (flat_map h l)) = parity (map (fun a => parity (map f (h a))) l).
Proof.
  induction l as [|a l IH]; auto. cbn [flat_map]. rewrite map_app, parity_app, IH. reflexivity.
Qed.

Lemma sum_map {A B} (f : B -> nat) (h : A -> B) l : sum f (map h l) = sum (fun a => f (h a)) l.
Proof. rewrite map_map. auto. Qed.

Lemma total_anti n f rounds E : anti (seq 0 n) f (total rounds E) = parity (map (fun t => anti (seq 0 n) f (E t)) (seq 0 rounds)).
Proof. apply anti_parity. Qed.

Lemma anti_ext_total n l f f' : (forall q, q < n -> f q = f' q) -> anti (seq 0 n) l f = anti (seq 0 n) l f'.
Proof. intros H. apply anti_ext; auto. intros q I. apply in_seq in I. apply H. lia. Qed.
Lemma xorb_eq_false a b : a = b -> xorb a b = false.
Proof. intros ->. apply xorb_nilpotent. Qed.

Section H.
Variables (rounds n : nat) (gens : list row) (w : option warg) (g : sgraph).
Hypothesis U : uses rounds n gens w g.
Notation m := (length (sg_ends g)).

Lemma kinds_list : map (kind_of g) (seq 0 m) =
  flat_map (fun t => map (fun k => QubitError t k (fst (letter_of n k)) (snd (letter_of n k))) (seq 0 (2 * n))) (seq 0 rounds) ++
  flat_map (fun t => map (StabError t) (seq 0 (length gens))) (seq 1 (rounds - 1)).
Proof.
  destruct (uses_ready _ _ _ _ _ U) as (s0 & gens' & -> & -> & _ & _ & vl & K & R & _).
  transitivity (kinds rounds s0 gens').
  - unfold kind_of. rewrite (rd_kind _ _ _ _ _ _ _ R), (rd_ends _ _ _ _ _ _ _ R).
    assert (LK : length (edges rounds s0 gens') = length (kinds rounds s0 gens')) by (unfold kinds, edges; rewrite !map_length; auto).
    rewrite LK, <- (map_nth_seq (fun x => x)), map_id. auto.
  - unfold kinds, the_edges. rewrite map_app. f_equal.
    + rewrite flat_map_concat_map, concat_map, map_map, flat_map_concat_map. f_equal. apply map_ext. intros t. rewrite map_map. reflexivity.
    + rewrite flat_map_concat_map, concat_map, map_map, flat_map_concat_map. f_equal. apply map_ext. intros t. rewrite map_map. reflexivity.
Qed.

Lemma seq_twice k : seq 0 (2 * k) = seq 0 k ++ map (fun q => k + q) (seq 0 k).
Proof.
  replace (2 * k) with (k + k) by lia. rewrite seq_app. f_equal. cbn [plus].
  apply list_ext with (d := 0); [rewrite map_length, !seq_length; auto|]. intros i L. rewrite seq_length in L.
  rewrite seq_nth, (nth_map_seq (fun q => k + q)) by auto. auto.
Qed.

Lemma letter_x q : q < n -> letter_of n q = (q, PX).
Proof. intros L. unfold letter_of. rewrite (proj2 (Nat.ltb_lt q n)); auto. Qed.
Lemma letter_z q : letter_of n (n + q) = (q, PZ).
Proof. unfold letter_of. rewrite (proj2 (Nat.ltb_ge (n + q) n)) by lia. f_equal. lia. Qed.

Lemma sum_kinds (f : ekind -> nat) : sum (fun i => f (kind_of g i)) (seq 0 m) =
  sum (fun t => sum (fun q => f (QubitError t q q PX) + f (QubitError t (n + q) q PZ)) (seq 0 n)) (seq 0 rounds) +
  sum (fun t => sum (fun s => f (StabError t s)) (seq 0 (length gens))) (seq 1 (rounds - 1)).
Proof.
  rewrite <- sum_map, kinds_list, sum_app, !sum_flat_map. f_equal; apply sum_ext; intros t _; rewrite sum_map; auto.
  rewrite seq_twice, sum_app, sum_plus. f_equal.
  - apply sum_ext. intros q I. apply in_seq in I. rewrite letter_x by lia. auto.
  - rewrite map_map. apply sum_ext. intros q I. rewrite letter_z. auto.
Qed.

Lemma parity_kinds (f : ekind -> bool) : parity (map (fun i => f (kind_of g i)) (seq 0 m)) =
  xorb (parity (map (fun t => parity (map (fun q => xorb (f (QubitError t q q PX)) (f (QubitError t (n + q) q PZ))) (seq 0 n))) (seq 0 rounds)))
    (parity (map (fun t => parity (map (fun s => f (StabError t s)) (seq 0 (length gens)))) (seq 1 (rounds - 1)))).
Proof.
  rewrite <- (map_map (kind_of g) f), kinds_list, map_app, parity_app, !parity_flat_map.
  f_equal; apply parity_ext; intros t _; rewrite map_map; auto.
  rewrite seq_twice, map_app, parity_app, parity_xor. f_equal.
  - apply parity_ext. intros q I. apply in_seq in I. rewrite letter_x by lia. auto.
  - rewrite map_map. apply parity_ext. intros q I. rewrite letter_z. auto.
Qed.

(** * The effect on a logical operator *)

Variable l : nat -> bool * bool.
Definition flip_kind (k : ekind) : bool := match k with QubitError _ _ q p => clashes p (l q) | StabError _ _ => false end.
Definition flip (i : nat) : bool := flip_kind (kind_of g i).

Lemma history_flips E F : parity (map (fun i => happened E F (kind_of g i) && flip i) (seq 0 m)) = anti (seq 0 n) l (total rounds E).
Proof.
  rewrite total_anti.
  unfold flip. rewrite (parity_kinds (fun k => happened E F k && flip_kind k)). cbn [happened flip_kind clashes].
  rewrite (parity_false _ (seq 1 _)), xorb_false_r.
  - apply parity_ext. intros t _. apply parity_ext. intros q _. unfold sp. destruct (l q) as [[] []], (E t q) as [[] []]; auto.
  - intros t _. apply parity_false. intros s _. apply andb_false_r.
Qed.

(** The selections of edges are the error histories. *)
Definition sel_errors (sel : nat -> bool) := result_errors rounds n (map sel (seq 0 m)).
Definition sel_flips (sel : nat -> bool) := result_flips rounds n gens (map sel (seq 0 m)).
Lemma sel_happened sel i : i < m -> happened (sel_errors sel) (sel_flips sel) (kind_of g i) = sel i.
Proof.
  intros L. pose proof U as (G & _). pose proof (Hm n gens G) as Hm. unfold sel_errors, sel_flips, kind_of.
  destruct (uses_ready _ _ _ _ _ U) as (s0 & gens' & -> & -> & _ & _ & vl & K & R & _).
  rewrite (rd_kind _ _ _ _ _ _ _ R). unfold kinds.
  rewrite result_happened; auto.
  - apply nth_map_seq. auto.
  - rewrite (rd_ends _ _ _ _ _ _ _ R) in L. unfold edges in L. rewrite map_length in L. auto.
Qed.

Lemma anti_generators E F s : (forall s, s < length gens -> F 0 s = false) -> (forall s, s < length gens -> F rounds s = false) -> s < length gens ->
  (forall v, v < length (sg_verts g) -> boundary (sg_ends g) (fun i => happened E F (kind_of g i)) v = false) ->
  anti (seq 0 n) (fac (nth s gens row0)) (total rounds E) = false.
Proof.
  intros F0 F1 Ls B. rewrite total_anti.
  rewrite (parity_ext _ (fun t => xorb (F t s) (F (S t) s))).
  - rewrite (parity_telescope (fun t => F t s)), F0, F1; auto.
  - intros t I. apply in_seq in I. destruct (C30_edges _ _ _ _ _ U) as ((_ & V) & _).
    assert (J : In (t, s) (sg_verts g)) by (apply V; lia). apply In_nth_error in J. destruct J as [v X].
    pose proof (C30_history _ _ _ _ _ U E F F0 F1 v t s X) as H. rewrite B in H by (apply nth_error_Some; congruence).
    symmetry in H. apply xorb_eq in H. auto.
Qed.

Lemma graph_distance dist : logical_distance n gens l dist ->
  forall sel, (forall v, v < length (sg_verts g) -> boundary (sg_ends g) sel v = false) ->
  parity (map (fun i => sel i && flip i) (seq 0 m)) = true -> dist <= sum (fun i => nb (sel i)) (seq 0 m).
Proof.
  intros D sel B P. set (E := sel_errors sel). set (F := sel_flips sel).
  assert (HS : forall i, i < m -> happened E F (kind_of g i) = sel i) by (apply sel_happened).
  eapply Nat.le_trans; [apply (D (total rounds E))|].
  - intros s Ls. apply (anti_generators E F); auto.
    + intros s' _. unfold F, sel_flips, result_flips. rewrite Nat.ltb_irrefl, andb_false_r. auto.
    + intros v Lv. rewrite <- (B v Lv). apply boundary_ext. auto.
  - rewrite <- (history_flips E F), <- P. apply parity_ext. intros i I. apply in_seq in I. rewrite HS; auto; lia.
  - erewrite (sum_ext (fun i => nb (sel i))); [|intros i I; apply in_seq in I; rewrite <- HS by lia; reflexivity].
    rewrite (sum_kinds (fun k => nb (happened E F k))). cbn [happened].
    eapply Nat.le_trans; [|apply Nat.le_add_r].
    unfold operator_weight.
    assert (X : forall (p : nat -> bool) k, length (filter p k) = sum (fun q => nb (p q)) k).
    { intros p k. induction k as [|q k IH]; auto. cbn [filter]. rewrite sum_cons, <- IH. destruct (p q); auto. }
    rewrite X, sum_swap. apply sum_le. intros q _. rewrite sum_plus. unfold total. cbn [fst snd].
    pose proof (nb_parity (fun t => fst (E t q)) (seq 0 rounds)) as N1. pose proof (nb_parity (fun t => snd (E t q)) (seq 0 rounds)) as N2.
    unfold parity in N1, N2. destruct (fold_right xorb false (map (fun t => fst (E t q)) _)), (fold_right xorb false (map (fun t => snd (E t q)) _)); cbn [orb nb] in *; lia.
Qed.

(** * The part of the graph which matters *)
Variables (allow : pauli1 -> bool) (side : nat -> bool).
Hypothesis DET : detected_by n gens allow side l.
Definition rel_kind (k : ekind) : bool := match k with QubitError _ _ _ p => allow p | StabError _ s => side s end.
Definition relevant (i : nat) : bool := rel_kind (kind_of g i).

Lemma relevant_side i v t s : i < m -> In v (nth i (sg_ends g) []) -> nth_error (sg_verts g) v = Some (t, s) -> relevant i = side s.
Proof.
  intros Li I V. destruct (C30_edges _ _ _ _ _ U) as (_ & _ & _ & _ & Q). destruct (Q i Li) as (_ & _ & K). clear Q.
  unfold relevant. assert (X : t < rounds /\ s < length gens).
  { destruct (C30_edges _ _ _ _ _ U) as ((_ & W) & _). apply W. eapply nth_error_In; eauto. }
  destruct (kind_of g i) as [t' op q p|t' s']; cbn [rel_kind].
  - destruct K as (_ & Lq & P & K). apply (K v t s V) in I. apply (proj1 DET p q s); tauto.
  - destruct K as (_ & _ & K). apply (K v t s V) in I. destruct I as [-> _]. auto.
Qed.

Lemma relevant_same i j v : i < m -> j < m -> In v (nth i (sg_ends g) []) -> In v (nth j (sg_ends g) []) -> relevant i = relevant j.
Proof.
  intros Li Lj I J. destruct (C30_edges _ _ _ _ _ U) as (_ & _ & _ & _ & Q). destruct (Q i Li) as (_ & VB & _).
  destruct (vertex_at _ _ _ _ _ _ U (VB v I)) as (t & s & X & _).
  rewrite (relevant_side i v t s), (relevant_side j v t s); auto.
Qed.

Lemma flip_relevant i : i < m -> flip i = true -> relevant i = true.
Proof.
  intros Li F. unfold flip, flip_kind, relevant in *. destruct (weight_kind _ _ _ _ _ _ U Li) as [_ K].
  destruct (kind_of g i) as [t op q p|t s]; [|discriminate]. cbn [rel_kind]. apply (proj2 DET p q); tauto.
Qed.

(** * Prices *)
(** An edge which is parallel to another one belongs to an error which can be mistaken for another one. *)
Lemma parallel_twin i j t op q p : i < m -> j < m -> j <> i -> parallel g i j -> kind_of g i = QubitError t op q p -> has_twin n gens p q = true.
Proof.
  intros Li Lj D [NE P] K. destruct (C30_edges _ _ _ _ _ U) as ((_ & VV) & LK & KQ & _ & Q).
  destruct (Q i Li) as (_ & VB & KI). destruct (Q j Lj) as (_ & _ & KJ). rewrite K in KI. destruct KI as (Lt & Lq & PP & KI).
  destruct (nth i (sg_ends g) []) as [|a e] eqn:EI; [congruence|]. rewrite <- EI in *. assert (Ia : In a (nth i (sg_ends g) [])) by (rewrite EI; left; auto).
  destruct (vertex_at _ _ _ _ _ _ U (VB a Ia)) as (ta & sa & Va & Lta & Lsa).
  destruct (kind_of g j) as [t' op' q' p'|t' s'] eqn:KJ'.
  - destruct KJ as (Lt' & Lq' & PP' & KJ).
    assert (ta = t) by (apply (KI a ta sa Va) in Ia; tauto). assert (ta = t') by (apply P in Ia; apply (KJ a ta sa Va) in Ia; tauto).
    assert (TT : t' = t) by congruence. clear dependent ta. subst t'.
    unfold has_twin. apply existsb_exists. exists q'. split; [apply in_seq; lia|]. apply existsb_exists. exists p'.
    split; [destruct PP' as [-> | ->]; cbn; auto|]. apply andb_true_iff. split.
    + apply negb_true_iff. apply not_true_iff_false. intros Y. apply andb_true_iff in Y. destruct Y as [Y1 Y2]. apply Nat.eqb_eq in Y1. subst q'.
      assert (p' = p) by (destruct PP as [-> | ->], PP' as [-> | ->]; auto; discriminate). subst p'.
      destruct (KQ t q p Lt Lq PP) as (i0 & _ & _ & UQ). apply D. rewrite (UQ i op Li K), (UQ j op' Lj KJ'). auto.
    + apply forallb_forall. intros x Ix. apply (In_nth _ _ row0) in Ix. destruct Ix as (s & Ls & <-). apply Bool.eqb_true_iff.
      assert (J : In (t, s) (sg_verts g)) by (apply VV; auto). apply In_nth_error in J. destruct J as [v V].
      apply eq_true_iff_eq. specialize (KI v t s V). specialize (KJ v t s V). specialize (P v). tauto.
  - exfalso. destruct KJ as (Lt' & Ls' & KJ).
    assert (E1 : exists v, nth_error (sg_verts g) v = Some (t', s')).
    { assert (J : In (t', s') (sg_verts g)) by (apply VV; lia). apply In_nth_error in J. auto. }
    assert (E2 : exists v, nth_error (sg_verts g) v = Some (t' - 1, s')).
    { assert (J : In (t' - 1, s') (sg_verts g)) by (apply VV; lia). apply In_nth_error in J. auto. }
    destruct E1 as [v1 V1], E2 as [v2 V2].
    assert (I1 : In v1 (nth i (sg_ends g) [])) by (apply P, (KJ v1 _ _ V1); auto).
    assert (I2 : In v2 (nth i (sg_ends g) [])) by (apply P, (KJ v2 _ _ V2); split; auto; right; lia).
    apply (KI v1 _ _ V1) in I1. apply (KI v2 _ _ V2) in I2. lia.
Qed.

Hypothesis FIN : forall i, i < m -> is_inf (weight_of g i) = false.
Hypothesis SAME : forall i j, i < m -> j < m -> wlt (weight_of g i) (weight_of g j) = false.

(** An edge which is not active belongs to an error which can be mistaken for another one. *)
Lemma inactive_twin i t op q p : i < m -> kind_of g i = QubitError t op q p -> nth i (sg_on g) false = false -> has_twin n gens p q = true.
Proof.
  intros Li K A.
  assert (X : exists j, j < m /\ j <> i /\ parallel g i j).
  { destruct (nth i (sg_ends g) []) as [|a e] eqn:EI.
    - exfalso. assert (Y : active g i); [|unfold active in Y; congruence]. apply (C31_parallel _ _ _ _ _ U i Li). split; auto.
      intros j _ _ [Y _]. congruence.
    - destruct (C31_one _ _ _ _ _ U i Li) as (j & Lj & P & Aj & _); auto; [congruence| |].
      + intros k Lk _ Y. specialize (FIN k Lk). rewrite Y in FIN. discriminate.
      + exists j. split; auto. split; auto. intros ->. unfold active in Aj. congruence. }
  destruct X as (j & Lj & D & P). exact (parallel_twin i j t op q p Li Lj D P K).
Qed.

Definition kind_price (len : nat) er E F (k : ekind) : nat :=
  nb (rel_kind k) * match k with
  | QubitError t _ q p => price (2 * (len + 1)) len n gens er E p t q
  | StabError t s => nb (F t s) * (2 * (len + 1))
  end.

Lemma price_bound len er E F d : dc_graph d = g -> (forall s, s < length gens -> F 0 s = false) ->
  sum (cost d relevant len (fun i => happened E F (kind_of g i)) (marked g er)) (seq 0 m) <=
  total_price (2 * (len + 1)) len rounds n gens allow side er E F.
Proof.
  intros Ed F0. eapply Nat.le_trans; [apply (sum_le _ (fun i => kind_price len er E F (kind_of g i)))|].
  - intros i I. apply in_seq in I. assert (Li : i < m) by lia. unfold cost, kind_price, relevant, marked, act. rewrite Ed.
    pose proof (inactive_twin i) as T. destruct (weight_kind _ _ _ _ _ _ U Li) as [_ K].
    destruct (kind_of g i) as [t op q p|t s]; apply Nat.mul_le_mono_l.
    + cbn [happened]. unfold price, erased. specialize (T t op q p Li eq_refl).
      destruct K as (_ & _ & PP).
      assert (HP : match p with PX => fst (E t q) | PZ => snd (E t q) | _ => false end = error_part p (E t q)) by (destruct p; auto).
      rewrite HP. clear HP.
      destruct er as [e|]; [destruct (nth q (nth t e []) false)|]; cbn [andb].
      * destruct (nth i (sg_on g) false); cbn [andb negb nb]; [destruct (has_twin n gens p q), (error_part p (E t q)); cbn [nb andb]; lia|].
        rewrite T by auto. destruct (error_part p (E t q)); cbn [nb andb]; lia.
      * destruct (error_part p (E t q)); cbn [nb andb negb]; lia.
      * destruct (error_part p (E t q)); cbn [nb andb negb]; lia.
    + cbn [happened andb negb nb]. rewrite andb_true_r. lia.
  - rewrite (sum_kinds (kind_price len er E F)). unfold total_price, kind_price. cbn [rel_kind].
    apply Nat.add_le_mono.
    + assert (X : forall p, sum (fun t => sum (price (2 * (len + 1)) len n gens er E p t) (seq 0 n)) (seq 0 rounds) * nb (allow p) =
        sum (fun t => sum (fun q => nb (allow p) * price (2 * (len + 1)) len n gens er E p t q) (seq 0 n)) (seq 0 rounds)).
      { intros p. rewrite Nat.mul_comm, <- sum_mult. apply sum_ext. intros t _. rewrite sum_mult. auto. }
      rewrite (sum_ext _ (fun t => sum (fun q => nb (allow PX) * price (2 * (len + 1)) len n gens er E PX t q) (seq 0 n) +
        sum (fun q => nb (allow PZ) * price (2 * (len + 1)) len n gens er E PZ t q) (seq 0 n))) by (intros; apply sum_plus).
      rewrite sum_plus, <- !X. cbn [filter]. destruct (allow PX), (allow PZ); cbn [map nb]; rewrite ?sum_cons; cbn [list_sum fold_right map]; lia.
    + destruct rounds as [|k]; [cbn; lia|]. cbn [Nat.sub]. rewrite Nat.sub_0_r. cbn [seq]. rewrite sum_cons.
      eapply Nat.le_trans; [|apply Nat.le_add_l]. apply sum_le. intros t _. apply sum_le. intros s _.
      destruct (side s), (F t s); cbn [nb andb]; lia.
Qed.
End H.
