(** Properties C30, C31, C32 and C50: the syndrome graph. *)
Require Import List Bool Arith ZArith QArith Lia Relations.
From Verif Require Import Base BaseProofs QSpec PauliModel PauliAlg MeasureProofs GraphSpec GraphProofs
  LatticeSpec LatticeOps GeneratorSpec
  ErasureModel ErasureProofs SyngraphModel SyngraphBuild SyngraphDup SyngraphComp SyngraphObjs SyngraphProofs SyngraphErrors
  SyngraphOps SyngraphFinal.
Import ListNotations.
Open Scope nat_scope.
Local Arguments incident : simpl never.
Local Arguments upd : simpl never.

(** The kind of an edge. *)
Definition kind_of (g : sgraph) (i : nat) : ekind := nth i (sg_kind g) (StabError 0 0).
(** Weight of an edge. *)
Definition weight_of (g : sgraph) (i : nat) : weight := nth i (sg_wt g) NaN.
(** Active edges. *)
Definition active (g : sgraph) (i : nat) : Prop := nth i (sg_on g) false = true.
(** Two edges join the same vertices (or dangle from the same vertex). *)
Definition parallel (g : sgraph) (i j : nat) : Prop :=
  nth i (sg_ends g) [] <> [] /\ forall v, In v (nth i (sg_ends g) []) <-> In v (nth j (sg_ends g) []).

(** Generators, weights, number of rounds and a graph object made from them. *)
Definition uses (rounds n : nat) (gens : list row) (w : option warg) (g : sgraph) : Prop :=
  generators n gens /\ weights_fit n (length gens) w /\ 0 < rounds /\ syndrome_graph rounds gens w g.

Lemma uses_ready rounds n gens w g : uses rounds n gens w g -> exists s0 gens', gens = s0 :: gens' /\ n = length (ops s0) /\
  two_at_most n gens /\ ~ bad_pair (edges rounds s0 gens') (weights rounds s0 gens' w) /\
  exists vl K, ready rounds s0 gens' w vl K g /\ results_fit g.
Proof.
  intros ((NE & Hn & Hg) & Hw & Hr & S). destruct gens as [|s0 gens']; [congruence|].
  assert (n = length (ops s0)) by (symmetry; apply Hg; left; auto). subst n.
  exists s0, gens'. split; [auto|]. split; [auto|]. eapply syndrome_graph_ready; eauto.
Qed.

(** * C30 Edges are exactly the detectable errors *)

(** The vertices are the pairs of a round and a generator, each one once.  Every X or Z error on
    a qubit in a round and every measurement error between two rounds has exactly one edge, and
    there are no other edges.  The edge of a qubit error ends at the generators of its round
    which anticommute with it; the one of a measurement error joins two consecutive rounds. *)
Theorem C30_edges : forall rounds n gens w g, uses rounds n gens w g ->
  (NoDup (sg_verts g) /\ forall t s, In (t, s) (sg_verts g) <-> t < rounds /\ s < length gens) /\
  length (sg_kind g) = length (sg_ends g) /\
  (forall t q p, t < rounds -> q < n -> p = PX \/ p = PZ -> exists i, i < length (sg_ends g) /\
     (exists op, kind_of g i = QubitError t op q p) /\
     forall j op', j < length (sg_ends g) -> kind_of g j = QubitError t op' q p -> j = i) /\
  (forall t s, 0 < t < rounds -> s < length gens -> exists i, i < length (sg_ends g) /\
     kind_of g i = StabError t s /\ forall j, j < length (sg_ends g) -> kind_of g j = StabError t s -> j = i) /\
  forall i, i < length (sg_ends g) -> NoDup (nth i (sg_ends g) []) /\
    (forall v, In v (nth i (sg_ends g) []) -> v < length (sg_verts g)) /\
    match kind_of g i with
    | QubitError t op q p => t < rounds /\ q < n /\ (p = PX \/ p = PZ) /\
        forall v t' s, nth_error (sg_verts g) v = Some (t', s) ->
          (In v (nth i (sg_ends g) []) <-> t' = t /\ clashes p (fac (nth s gens row0) q) = true)
    | StabError t s => 0 < t < rounds /\ s < length gens /\
        forall v t' s', nth_error (sg_verts g) v = Some (t', s') ->
          (In v (nth i (sg_ends g) []) <-> s' = s /\ (t' = t \/ S t' = t))
    end.
Proof.
  intros rounds n gens w g U. pose proof U as (G & _). destruct (uses_ready _ _ _ _ _ U) as (s0 & gens' & -> & -> & T & _ & vl & K & R & _).
  set (gens := s0 :: gens') in *. set (n := length (ops s0)) in *. pose proof (Hm n gens G) as Hm.
  pose proof (rd_verts _ _ _ _ _ _ _ R) as EV. pose proof (rd_ends _ _ _ _ _ _ _ R) as EE. pose proof (rd_kind _ _ _ _ _ _ _ R) as EK.
  fold gens in EV. unfold edges in EE. unfold kinds in EK. fold gens n in EE, EK.
  assert (LE : length (sg_ends g) = length (the_edges rounds n gens)) by (rewrite EE; apply map_length).
  assert (KQ : forall t k, t < rounds -> k < 2 * n -> kind_of g (qi n t k) = snd (qubit_edge n gens t k) /\
    nth (qi n t k) (sg_ends g) [] = fst (qubit_edge n gens t k) /\ qi n t k < length (sg_ends g)).
  { intros t k Lt Lk. pose proof (qi_lt rounds n gens Hm t k Lt Lk) as B. pose proof (length_the_edges rounds n gens) as LL.
    unfold kind_of. rewrite EK, EE.
    rewrite (nth_indep _ _ (snd (@nil nat, StabError 0 0))) by (rewrite map_length; lia).
    rewrite (nth_indep _ [] (fst (@nil nat, StabError 0 0))) by (rewrite map_length; lia).
    rewrite !map_nth, map_length, nth_qi by auto. split; [auto|]. split; [auto|]. lia. }
  assert (KS : forall t s, 0 < t < rounds -> s < length gens -> kind_of g (si rounds n gens t s) = snd (stab_edge gens t s) /\
    nth (si rounds n gens t s) (sg_ends g) [] = fst (stab_edge gens t s) /\ si rounds n gens t s < length (sg_ends g)).
  { intros t s Lt Ls. pose proof (length_the_edges rounds n gens) as LL.
    assert (B : si rounds n gens t s < length (the_edges rounds n gens)).
    { rewrite LL. unfold si. destruct t as [|t]; [lia|]. replace (S t - 1) with t by lia.
      assert (S t * length gens <= (rounds - 1) * length gens) by (apply Nat.mul_le_mono_r; lia). cbn [Nat.mul] in H. lia. }
    unfold kind_of. rewrite EK, EE.
    rewrite (nth_indep _ _ (snd (@nil nat, StabError 0 0))) by (rewrite map_length; lia).
    rewrite (nth_indep _ [] (fst (@nil nat, StabError 0 0))) by (rewrite map_length; lia).
    rewrite !map_nth, map_length, nth_si by auto. split; [auto|]. split; [auto|]. lia. }
  assert (CASES : forall i, i < length (sg_ends g) ->
    (exists t k, t < rounds /\ k < 2 * n /\ i = qi n t k) \/ (exists t s, 0 < t < rounds /\ s < length gens /\ i = si rounds n gens t s)).
  { intros i Li. apply index_cases; auto. lia. }
  assert (VS : forall v t s, nth_error (sg_verts g) v = Some (t, s) <-> t < rounds /\ s < length gens /\ v = t * length gens + s).
  { intros v t s. rewrite EV. apply vert_spec. }
  split; [|split; [|split; [|split]]].
  - rewrite EV. split; [apply the_verts_NoDup|]. apply the_verts_in.
  - rewrite EK, EE, !map_length; auto.
  - intros t q p Lt Lq Hp.
    assert (X : exists k, k < 2 * n /\ letter_of n k = (q, p) /\ forall k', k' < 2 * n -> letter_of n k' = (q, p) -> k' = k).
    { destruct Hp as [-> | ->]; [exists q|exists (n + q)]; (split; [lia|]); unfold letter_of.
      - rewrite (proj2 (Nat.ltb_lt q n)) by auto. split; auto. intros k' _. destruct (k' <? n); intros Y; congruence.
      - rewrite (proj2 (Nat.ltb_ge (n + q) n)) by lia. split; [f_equal; lia|]. intros k' _.
        destruct (Nat.ltb_spec k' n); intros Y; injection Y; intros; [discriminate|lia]. }
    destruct X as (k & Lk & Xk & Uk). exists (qi n t k). destruct (KQ t k Lt Lk) as (A & _ & B). split; [auto|]. split.
    + exists k. rewrite A. cbn [qubit_edge snd]. rewrite Xk. reflexivity.
    + intros j op' Lj Y. destruct (CASES j Lj) as [(t' & k' & Lt' & Lk' & ->)|(t' & s' & Lt' & Ls' & ->)].
      * destruct (KQ t' k' Lt' Lk') as (A' & _). rewrite A' in Y. cbn [qubit_edge snd] in Y. injection Y as -> -> Y1 Y2.
        f_equal. apply Uk; auto. destruct (letter_of n op'); cbn in *; congruence.
      * destruct (KS t' s' Lt' Ls') as (A' & _). rewrite A' in Y. discriminate.
  - intros t s Lt Ls. exists (si rounds n gens t s). destruct (KS t s Lt Ls) as (A & _ & B). split; [auto|]. split; [rewrite A; auto|].
    intros j Lj Y. destruct (CASES j Lj) as [(t' & k' & Lt' & Lk' & ->)|(t' & s' & Lt' & Ls' & ->)].
    + destruct (KQ t' k' Lt' Lk') as (A' & _). rewrite A' in Y. discriminate.
    + destruct (KS t' s' Lt' Ls') as (A' & _). rewrite A' in Y. cbn [stab_edge snd] in Y. injection Y as -> ->. auto.
  - intros i Li. pose proof (edges_ordered n gens G rounds T) as OE.
    assert (IE : In (nth i (sg_ends g) []) (map fst (the_edges rounds n gens))) by (rewrite <- EE; apply nth_In; auto).
    split.
    { specialize (OE _ IE). destruct (nth i (sg_ends g) []) as [|a [|b r]]; repeat constructor; auto.
      - destruct OE as [OE ->]. intros [|[]]. lia.
      - destruct OE as [OE ->]. intros [].
      - destruct OE as [OE ->]. constructor. }
    split.
    { intros v Iv. rewrite EV, length_the_verts. destruct G as (_ & Hn & Hg).
      apply (edges_lt rounds s0 gens' Hn Hg T _ v IE Iv). }
    destruct (CASES i Li) as [(t & k & Lt & Lk & ->)|(t & s & Lt & Ls & ->)].
    + destruct (KQ t k Lt Lk) as (A & B & _). rewrite A, B. cbn [qubit_edge fst snd]. split; [auto|].
      assert (LL : fst (letter_of n k) < n /\ (snd (letter_of n k) = PX \/ snd (letter_of n k) = PZ)).
      { unfold letter_of. destruct (Nat.ltb_spec k n); cbn; split; auto; lia. }
      split; [tauto|]. split; [tauto|]. intros v t' s X. apply VS in X. destruct X as (Lt' & Ls & ->).
      rewrite in_map_iff. split.
      * intros (s' & X & I). rewrite touched_mem in I by auto. destruct I as [Ls' I].
        apply vert_inj in X; auto. destruct X as [-> ->]. auto.
      * intros [-> C]. exists s. split; auto. apply touched_mem; auto.
    + destruct (KS t s Lt Ls) as (A & B & _). rewrite A, B. cbn [stab_edge fst snd]. split; [auto|]. split; [auto|].
      intros v t' s' X. apply VS in X. destruct X as (Lt' & Ls' & ->). cbn [In].
      rewrite !vert_inj by auto. split; [intros [[X ->]|[[X ->]|[]]]; split; auto; lia|].
      intros [-> [->| <-]]; [right; left; auto|left; split; auto; lia].
Qed.

(** The ends of the edges of an error pattern that are left over are its syndrome: errors [H t]
    on the qubits in round [t] and wrong measurements [F t] between rounds [t - 1] and [t]. *)
Theorem C30_history : forall rounds n gens w g, uses rounds n gens w g ->
  forall (H : nat -> nat -> bool * bool) (F : nat -> nat -> bool),
  (forall s, s < length gens -> F 0 s = false) -> (forall s, s < length gens -> F rounds s = false) ->
  forall v t s, nth_error (sg_verts g) v = Some (t, s) ->
    boundary (sg_ends g) (fun i => happened H F (kind_of g i)) v =
    xorb (anti (seq 0 n) (fac (nth s gens row0)) (H t)) (xorb (F t s) (F (S t) s)).
Proof.
  intros rounds n gens w g U H F F0 F1 v t s X. pose proof U as (G & _).
  destruct (uses_ready _ _ _ _ _ U) as (s0 & gens' & -> & -> & T & _ & vl & K & R & _).
  assert (Y : t < rounds /\ s < length (s0 :: gens') /\ v = t * length (s0 :: gens') + s).
  { rewrite (rd_verts _ _ _ _ _ _ _ R) in X. apply vert_spec; auto. }
  destruct Y as (Lt & Ls & ->). unfold kind_of. rewrite (rd_ends _ _ _ _ _ _ _ R), (rd_kind _ _ _ _ _ _ _ R).
  destruct G as (_ & _ & Hg).
  unfold edges, kinds. rewrite (pattern_boundary rounds (length (ops s0)) (s0 :: gens') Hg H F F0 F1 t s (StabError 0 0) Lt Ls).
  rewrite <- ?xorb_assoc. reflexivity.
Qed.

(** Which inputs are accepted: without missing weights (or without weights at all) exactly the
    codes of which each X or Z error anticommutes with two generators at most. *)
Definition some_missing (s : wspec) : Prop := match s with WNum x => x = NaN | WArr l => In NaN l end.
Theorem C30_total : forall rounds n gens w, generators n gens -> weights_fit n (length gens) w -> 0 < rounds ->
  match w with None => True | Some w => ~ some_missing (w_x w) /\ ~ some_missing (w_z w) /\ ~ some_missing (w_meas w) end ->
  (graph_like n gens -> exists g, new_sgraph rounds gens w = Ok g) /\
  (~ graph_like n gens -> new_sgraph rounds gens w = Err ValueError).
Proof.
  intros rounds n gens w G Hw Hr NM. pose proof (graph_like_two n gens G) as GT. destruct G as (NE & Hn & Hg).
  destruct gens as [|s0 gens']; [congruence|].
  assert (n = length (ops s0)) by (symmetry; apply Hg; left; auto). subst n. split; intros X.
  - apply GT in X. destruct (new_ok rounds s0 gens' Hn Hg w Hw X) as (vl & K & g & Y & _); eauto.
    intros (i & j & Li & Lj & _ & _ & N1 & N2).
    assert (C : forall k, is_nan (wof (weights rounds s0 gens' w) k) = true -> k < length (edges rounds s0 gens') -> w = None).
    { intros k N L. destruct w as [w0|]; auto. exfalso. unfold wof, weights in N.
      rewrite (nth_indep _ NaN (kind_weight (Some w0) (StabError 0 0))) in N by (rewrite map_length, length_kinds; auto).
      rewrite map_nth in N.
      assert (I : In (nth k (kinds rounds s0 gens') (StabError 0 0)) (kinds rounds s0 gens')) by (apply nth_In; rewrite length_kinds; auto).
      apply (kinds_in rounds s0 gens' Hn Hg) in I. destruct NM as (M1 & M2 & M3). destruct Hw as (F1 & F2 & F3).
      assert (WA : forall sp b q, q < b -> fits b sp -> ~ some_missing sp -> is_nan (weight_at sp q) = false).
      { intros sp b q Lq Fq Mq. destruct sp as [x|l]; cbn in Mq |- *; [destruct x; auto; congruence|].
        unfold weight_at. cbn in Fq.
        match goal with |- is_nan ?x = false => assert (IN : In x l); [|destruct x; auto; contradiction] end.
        destruct l as [|a [|b' l]]; cbn in *; [destruct Fq as [|[|[_ []]]]; [lia|lia|auto]|auto|]. destruct Fq as [Fq|[Fq|[Fq _]]]; [|lia|].
        - apply nth_In with (l := a :: b' :: l). cbn. lia.
        - apply nth_In with (l := a :: b' :: l). cbn. lia. }
      destruct (nth k (kinds rounds s0 gens') (StabError 0 0)) as [t op q p|t s].
      - destruct I as (_ & _ & _ & Lq & [-> | ->]); cbn [kind_weight] in N; rewrite (WA _ (length (ops s0))) in N; auto; discriminate.
      - destruct I as (_ & Ls). cbn [kind_weight] in N. rewrite (WA _ (length (s0 :: gens'))) in N; auto; discriminate. }
    pose proof (C i N1 Li). subst w. unfold wof, weights in N2.
    rewrite (nth_indep _ NaN (kind_weight None (StabError 0 0))), map_nth in N2 by (rewrite map_length, length_kinds; auto).
    discriminate.
  - apply new_three; auto. intros T. apply X, GT; auto.
Qed.

(** * C31 Parallel edges *)

(** An edge is active exactly if its weight is not infinite and each parallel edge is heavier,
    or not lighter and later in the list. *)
Theorem C31_parallel : forall rounds n gens w g, uses rounds n gens w g ->
  forall i, i < length (sg_ends g) ->
  (active g i <-> is_inf (weight_of g i) = false /\
     forall j, j < length (sg_ends g) -> j <> i -> parallel g i j ->
       wlt (weight_of g i) (weight_of g j) = true \/ (i < j /\ wlt (weight_of g j) (weight_of g i) = false)).
Proof.
  intros rounds n gens w g U i Li. pose proof U as (G & _).
  destruct (uses_ready _ _ _ _ _ U) as (s0 & gens' & -> & -> & T & _ & vl & K & R & _).
  pose proof (edges_ordered _ _ G rounds T) as OE. fold (edges rounds s0 gens') in OE.
  pose proof (rd_ends _ _ _ _ _ _ _ R) as EE. pose proof (rd_wt _ _ _ _ _ _ _ R) as EW.
  unfold active. rewrite EE in Li. change (nth i (sg_on g) false) with (enabled g i). rewrite (rd_on _ _ _ _ _ _ _ R) by auto.
  unfold weight_of. rewrite EW. rewrite andb_true_iff, !negb_true_iff. fold (wof (weights rounds s0 gens' w) i).
  apply and_iff_compat_l. unfold parallel. rewrite EE. unfold beaten.
  destruct (nth i (edges rounds s0 gens') []) as [|a r] eqn:EI.
  { split; auto. intros _ j _ _ [[] _]. auto. }
  rewrite <- EI. split.
  - intros X j Lj D [_ P]. fold (wof (weights rounds s0 gens' w) j).
    assert (EJ : nth j (edges rounds s0 gens') [] = nth i (edges rounds s0 gens') []).
    { apply ordered_ext; [apply OE, nth_In; auto..|]. intros v. symmetry. apply P. }
    assert (Z : preferred (weights rounds s0 gens' w) j i = false).
    { destruct (preferred (weights rounds s0 gens' w) j i) eqn:Z; auto. rewrite <- X. symmetry. apply existsb_exists.
      exists j. split; [apply in_seq; lia|]. rewrite EJ, Z, andb_true_r. destruct (eqb_key_spec (nth i (edges rounds s0 gens') []) (nth i (edges rounds s0 gens') [])); auto. }
    unfold preferred in Z. apply orb_false_iff in Z. destruct Z as [Z1 Z2].
    destruct (wlt (wof (weights rounds s0 gens' w) i) (wof (weights rounds s0 gens' w) j)) eqn:Z3; auto.
    right. cbn [negb] in Z2. rewrite andb_true_r in Z2. apply Nat.ltb_ge in Z2. split; auto. lia.
  - intros X. apply not_true_iff_false. intros Y. apply existsb_exists in Y. destruct Y as (j & Ij & Y).
    apply in_seq in Ij. apply andb_true_iff in Y. destruct Y as [Y1 Y2]. destruct (eqb_key_spec (nth j (edges rounds s0 gens') []) (nth i (edges rounds s0 gens') [])) as [Y1'|]; [|discriminate]. clear Y1. rename Y1' into Y1.
    assert (D : j <> i) by (intros ->; rewrite preferred_irrefl in Y2; discriminate).
    specialize (X j). fold (wof (weights rounds s0 gens' w) j) in X.
    destruct X as [X|[X1 X2]]; [lia|auto|split; [rewrite EI; discriminate|rewrite Y1; tauto]| |].
    + unfold preferred in Y2. apply orb_true_iff in Y2. rewrite X in Y2. cbn [negb] in Y2. rewrite andb_false_r in Y2.
      destruct Y2 as [Y2|]; [|discriminate]. pose proof (wlt_trans _ _ _ X Y2) as C. rewrite wlt_irrefl in C. discriminate.
    + unfold preferred in Y2. rewrite X2 in Y2. apply orb_true_iff in Y2. destruct Y2 as [|Y2]; [discriminate|].
      apply andb_true_iff in Y2. destruct Y2 as [Y2 _]. apply Nat.ltb_lt in Y2. lia.
Qed.

(** Two parallel edges, one of them without weight: [ValueError]. *)
Lemma no_mixed rounds n gens w g : uses rounds n gens w g -> forall i j, i < length (sg_ends g) -> j < length (sg_ends g) ->
  parallel g i j -> is_nan (weight_of g i) = is_nan (weight_of g j).
Proof.
  intros U i j Li Lj [NE P]. pose proof U as (G & _).
  destruct (uses_ready _ _ _ _ _ U) as (s0 & gens' & -> & -> & T & NB & vl & K & R & _).
  pose proof (edges_ordered _ _ G rounds T) as OE. fold (edges rounds s0 gens') in OE.
  pose proof (rd_ends _ _ _ _ _ _ _ R) as EE. pose proof (rd_wt _ _ _ _ _ _ _ R) as EW.
  rewrite EE in *. unfold weight_of. rewrite EW.
  assert (EJ : nth i (edges rounds s0 gens') [] = nth j (edges rounds s0 gens') []).
  { apply ordered_ext; auto; apply OE, nth_In; auto. }
  destruct (is_nan (nth i (weights rounds s0 gens' w) NaN)) eqn:A, (is_nan (nth j (weights rounds s0 gens' w) NaN)) eqn:B; auto; exfalso; apply NB.
  - exists i, j. repeat split; auto.
  - exists j, i. repeat split; auto. congruence.
Qed.

Lemma wlt_cotrans a b c : is_nan b = false -> wlt a c = true -> wlt a b = true \/ wlt b c = true.
Proof.
  destruct a as [|s|p], b as [|t|q], c as [|u|r]; cbn; intros N X; try discriminate; auto;
    try (destruct s); try (destruct t); try (destruct u); cbn in *; auto; try discriminate.
  apply negb_true_iff in X. destruct (Qle_bool q p) eqn:A; auto. right. apply negb_true_iff.
  apply not_true_iff_false. intros B. rewrite <- not_true_iff_false in X. apply X.
  apply Qle_bool_iff in A, B. apply Qle_bool_iff. eapply Qle_trans; eauto.
Qed.

(** Among parallel edges exactly one is active, if one of them has a weight other than infinity
    and none has the weight minus infinity.  None is lighter, and all before it are heavier. *)
Theorem C31_one : forall rounds n gens w g, uses rounds n gens w g ->
  forall i, i < length (sg_ends g) -> nth i (sg_ends g) [] <> [] -> is_inf (weight_of g i) = false ->
  (forall j, j < length (sg_ends g) -> parallel g i j -> weight_of g j <> Inf true) ->
  exists j, j < length (sg_ends g) /\ parallel g i j /\ active g j /\
    (forall k, k < length (sg_ends g) -> parallel g i k -> active g k -> k = j) /\
    (forall k, k < length (sg_ends g) -> parallel g i k -> wlt (weight_of g k) (weight_of g j) = false) /\
    (forall k, k < j -> parallel g i k -> is_nan (weight_of g j) = false -> wlt (weight_of g j) (weight_of g k) = true).
Proof.
  intros rounds n gens w g U i Li NE FI NI.
  pose proof (C31_parallel _ _ _ _ _ U) as A.
  set (better := fun a b => wlt (weight_of g a) (weight_of g b) = true \/ (a < b /\ wlt (weight_of g b) (weight_of g a) = false)).
  assert (PS : forall a b, parallel g i a -> parallel g i b -> parallel g a b).
  { intros a b [_ Pa] [_ Pb]. split; [|intros v; rewrite <- Pa; auto].
    destruct (nth i (sg_ends g) []) as [|v r]; [congruence|]. intros Z. destruct (Pa v) as [Q _]. rewrite Z in Q. apply Q. left; auto. }
  assert (MIN : forall l, l <> [] -> (forall a, In a l -> a < length (sg_ends g) /\ parallel g i a) ->
    exists j, In j l /\ forall k, In k l -> k <> j -> better j k).
  { induction l as [|a l IH]; [congruence|]. intros _ Hl. destruct l as [|b l].
    - exists a. split; [left; auto|]. intros k [<-|[]] D. congruence.
    - destruct IH as (j & Ij & Mj); [discriminate|intros; apply Hl; right; auto|].
      assert (NAN : forall x y, In x (a :: b :: l) -> In y (a :: b :: l) -> is_nan (weight_of g x) = is_nan (weight_of g y)).
      { intros x y Ix Iy. destruct (Hl x Ix), (Hl y Iy). eapply no_mixed; eauto. }
      assert (TR : forall x y z, In x (a :: b :: l) -> In y (a :: b :: l) -> In z (a :: b :: l) -> better x y -> better y z -> better x z).
      { intros x y z Ix Iy Iz Bxy Byz.
        destruct (is_nan (weight_of g x)) eqn:N.
        - assert (F : forall u v, In u (a :: b :: l) -> wlt (weight_of g u) (weight_of g v) = false).
          { intros u v Iu. rewrite (NAN x u Ix Iu) in N. destruct (weight_of g u); try discriminate; auto. }
          unfold better in *. rewrite !F in * by auto. right. split; auto.
          destruct Bxy as [|[? _]]; [discriminate|]. destruct Byz as [|[? _]]; [discriminate|]. lia.
        - pose proof N as Ny. rewrite (NAN x y Ix Iy) in Ny. pose proof N as Nz. rewrite (NAN x z Ix Iz) in Nz.
          destruct Bxy as [B1|[B1 B1']], Byz as [B2|[B2 B2']].
          + left. eapply wlt_trans; eauto.
          + destruct (wlt_cotrans _ _ _ Nz B1) as [|C]; [left; auto|congruence].
          + destruct (wlt_cotrans _ _ _ N B2) as [C|]; [congruence|left; auto].
          + right. split; [lia|]. apply not_true_iff_false. intros C. destruct (wlt_cotrans _ _ _ Ny C); congruence. }
      destruct (Nat.eq_dec a j) as [->|D].
      { exists j. split; [left; auto|]. intros k [<-|Ik] Dk; [congruence|auto]. }
      assert (TOT : better a j \/ better j a).
      { unfold better. destruct (wlt (weight_of g a) (weight_of g j)) eqn:X; auto.
        destruct (wlt (weight_of g j) (weight_of g a)) eqn:Y; auto.
        destruct (Nat.lt_trichotomy a j) as [|[|]]; auto; congruence. }
      destruct TOT as [B|B].
      + exists a. split; [left; auto|]. intros k [<-|Ik] Dk; [congruence|].
        destruct (Nat.eq_dec k j) as [->|]; auto.
        eapply (TR a j k); [left; auto|right; auto..|auto|auto].
      + exists j. split; [right; auto|]. intros k [<-|Ik] Dk; auto. }
  set (dec := fun j => forallb (fun v => existsb (Nat.eqb v) (nth j (sg_ends g) [])) (nth i (sg_ends g) []) &&
                       forallb (fun v => existsb (Nat.eqb v) (nth i (sg_ends g) [])) (nth j (sg_ends g) [])).
  assert (DEC : forall j, dec j = true <-> parallel g i j).
  { intros j. unfold dec. rewrite andb_true_iff, !forallb_forall. split.
    - intros [P Q]. split; auto. intros v. split; intros I; [apply mem_spec, P|apply mem_spec, Q]; auto.
    - intros [_ P]. split; intros v I; apply mem_spec, P; auto. }
  destruct (MIN (filter dec (seq 0 (length (sg_ends g))))) as (j & Ij & Mj).
  { intros Z. assert (I : In i (filter dec (seq 0 (length (sg_ends g))))).
    { apply filter_In. split; [apply in_seq; lia|]. apply DEC. split; auto. tauto. }
    rewrite Z in I. destruct I. }
  { intros a I. apply filter_In in I. destruct I as [I D]. apply in_seq in I. split; [lia|]. apply DEC; auto. }
  apply filter_In in Ij. destruct Ij as [Ij Pj]. apply in_seq in Ij. apply DEC in Pj.
  assert (M : forall k, k < length (sg_ends g) -> parallel g i k -> k <> j -> better j k).
  { intros k Lk Pk D. apply Mj; auto. apply filter_In. split; [apply in_seq; lia|]. apply DEC; auto. }
  assert (FJ : is_inf (weight_of g j) = false).
  { destruct (weight_of g j) as [|[]|] eqn:Wj; auto; [destruct (NI j); auto; lia|].
    assert (D : i <> j) by (intros ->; rewrite Wj in FI; discriminate).
    pose proof (no_mixed _ _ _ _ _ U i j Li ltac:(lia) Pj) as NM. rewrite Wj in NM.
    destruct (M i Li) as [Z|[_ Z]]; auto; [split; auto; tauto|..]; rewrite Wj in Z; destruct (weight_of g i); discriminate. }
  exists j. split; [lia|]. split; [auto|]. split; [|split; [|split]].
  - apply A; [lia|]. split; [exact FJ|]. intros k Lk D P. apply M; auto.
    destruct Pj as [_ Pj], P as [_ P]. split; auto. intros v. rewrite Pj. auto.
  - intros k Lk Pk Ak. destruct (Nat.eq_dec k j) as [|D]; auto. exfalso.
    apply A in Ak; auto. destruct Ak as [_ Ak].
    assert (P : parallel g k j) by (apply PS; auto).
    specialize (Ak j ltac:(lia) ltac:(auto) P). specialize (M k Lk Pk D).
    destruct M as [M|[M M']], Ak as [Z|[Z Z']]; try congruence; try lia.
    pose proof (wlt_trans _ _ _ M Z) as C. rewrite wlt_irrefl in C. discriminate.
  - intros k Lk Pk. destruct (Nat.eq_dec k j) as [->|D]; [apply wlt_irrefl|].
    destruct (M k Lk Pk D) as [Z|[_ Z]]; auto.
    apply not_true_iff_false. intros Y. pose proof (wlt_trans _ _ _ Z Y) as C. rewrite wlt_irrefl in C. discriminate.
  - intros k Lk Pk _. destruct (M k ltac:(lia) Pk ltac:(lia)) as [Z|[Z _]]; auto. lia.
Qed.

(** Two errors of a round which anticommute with the same generators (one at least), of which
    exactly one has a weight, are not accepted. *)
Theorem C31_mixed : forall rounds n gens w q p q' p', generators n gens -> weights_fit n (length gens) w -> 0 < rounds ->
  q < n -> q' < n -> p = PX \/ p = PZ -> p' = PX \/ p' = PZ ->
  (forall s, s < length gens -> clashes p (fac (nth s gens row0) q) = clashes p' (fac (nth s gens row0) q')) ->
  (exists s, s < length gens /\ clashes p (fac (nth s gens row0) q) = true) ->
  is_nan (kind_weight w (QubitError 0 0 q p)) = true -> is_nan (kind_weight w (QubitError 0 0 q' p')) = false ->
  new_sgraph rounds gens w = Err ValueError.
Proof.
  intros rounds n gens w q p q' p' G Hw Hr Lq Lq' Hp Hp' SAME (s & Ls & C) N1 N2.
  pose proof G as (NE & Hn & Hg). destruct gens as [|s0 gens']; [congruence|].
  assert (n = length (ops s0)) by (symmetry; apply Hg; left; auto). subst n.
  set (n := length (ops s0)) in *. set (gens := s0 :: gens') in *. pose proof (Hm n gens G) as Hm.
  destruct (two_dec n gens) as [T|T]; [|apply new_three; auto].
  apply (new_bad_pair rounds s0 gens' Hn Hg w Hw T).
  assert (ix : forall q p, q < n -> p = PX \/ p = PZ -> exists k, k < 2 * n /\ letter_of n k = (q, p)).
  { intros x y Lx [-> | ->]; [exists x|exists (n + x)]; (split; [lia|]); unfold letter_of.
    - rewrite (proj2 (Nat.ltb_lt x n)) by auto. auto.
    - rewrite (proj2 (Nat.ltb_ge (n + x) n)) by lia. f_equal; lia. }
  destruct (ix q p Lq Hp) as (k & Lk & Xk). destruct (ix q' p' Lq' Hp') as (k' & Lk' & Xk').
  assert (FACT : forall k q p, k < 2 * n -> letter_of n k = (q, p) -> qi n 0 k < length (edges rounds s0 gens') /\
    nth (qi n 0 k) (edges rounds s0 gens') [] = map (fun s => 0 * length gens + s) (touched gens (nth k (the_ops n) row0)) /\
    wof (weights rounds s0 gens' w) (qi n 0 k) = kind_weight w (QubitError 0 0 q p)).
  { intros a x y La Xa. pose proof (qi_lt rounds n gens Hm 0 a Hr La) as B. pose proof (length_the_edges rounds n gens) as LL.
    assert (LE : length (edges rounds s0 gens') = length (the_edges rounds n gens)) by apply map_length.
    split; [lia|]. unfold wof, weights, edges, kinds. fold n gens. rewrite map_map.
    rewrite (nth_indep _ [] (fst (@nil nat, StabError 0 0))) by (rewrite map_length; lia).
    rewrite (nth_indep _ NaN ((fun x => kind_weight w (snd x)) (@nil nat, StabError 0 0))) by (rewrite map_length; lia).
    rewrite (map_nth fst), (map_nth (fun x => kind_weight w (snd x))), nth_qi by auto. split; [reflexivity|].
    change (kind_weight w (QubitError 0 a (fst (letter_of n a)) (snd (letter_of n a))) = kind_weight w (QubitError 0 0 x y)).
    rewrite Xa. reflexivity. }
  destruct (FACT k q p Lk Xk) as (A1 & A2 & A3). destruct (FACT k' q' p' Lk' Xk') as (B1 & B2 & B3).
  exists (qi n 0 k), (qi n 0 k'). split; [auto|]. split; [auto|].
  assert (TT : touched gens (nth k (the_ops n) row0) = touched gens (nth k' (the_ops n) row0)).
  { unfold touched. f_equal. apply (list_ext _ _ false); [rewrite !map_length; auto|]. intros x Lx. rewrite map_length in Lx.
    rewrite (nth_indep _ false (commutator_sign (nth k (the_ops n) row0) row0)), map_nth by (rewrite map_length; auto).
    rewrite (nth_indep _ false (commutator_sign (nth k' (the_ops n) row0) row0)), map_nth by (rewrite map_length; auto).
    rewrite !(sign_letter n gens G) by (auto using nth_In). rewrite Xk, Xk'. apply SAME; auto. }
  rewrite A2, B2, A3, B3, TT. split; [auto|]. split; [|auto].
  rewrite <- TT. intros Z. apply map_eq_nil in Z.
  assert (I : In s (touched gens (nth k (the_ops n) row0))) by (apply touched_mem; auto; rewrite Xk; auto).
  rewrite Z in I. destruct I.
Qed.

(** * C50 Components *)

(** The components of the object are the connected components of the active edges.  A selection
    of active edges explains a syndrome exactly if it does so in each component. *)
Theorem C50_components : forall rounds n gens w g, uses rounds n gens w g ->
  (forall v, v < length (sg_verts g) -> exists c, c < length (sg_comps g) /\ forall d k, nth_error (sg_comps g) d = Some k ->
     (In v (k_vidx k) <-> d = c)) /\
  (forall k, In k (sg_comps g) -> k_vidx k <> [] /\ NoDup (k_vidx k) /\ NoDup (k_eidx k) /\
     (forall v, In v (k_vidx k) -> v < length (sg_verts g)) /\
     (forall u v, In u (k_vidx k) -> v < length (sg_verts g) -> (In v (k_vidx k) <-> connected (sg_ends g) (active g) u v)) /\
     (forall i, In i (k_eidx k) <-> active g i /\ exists v, In v (k_vidx k) /\ In v (nth i (sg_ends g) [])) /\
     k_n k = length (k_vidx k) /\ well_formed (k_n k) (k_edges k) /\
     length (k_edges k) = length (k_eidx k) /\
     (forall j, j < length (k_eidx k) -> map (fun p => nth p (k_vidx k) 0) (nth j (k_edges k) []) = nth (nth j (k_eidx k) 0) (sg_ends g) []) /\
     k_wt k = map (weight_of g) (k_eidx k)) /\
  (forall sel syn, (forall i, sel i = true -> active g i) ->
     (explains (length (sg_verts g)) (sg_ends g) sel syn <->
      forall k, In k (sg_comps g) ->
        explains (k_n k) (k_edges k) (fun j => sel (nth j (k_eidx k) 0)) (fun p => syn (nth p (k_vidx k) 0)))).
Proof.
  intros rounds n gens w g U. destruct (uses_ready _ _ _ _ _ U) as (s0 & gens' & -> & -> & T & _ & vl & K & R & _).
  pose proof (rd_lab _ _ _ _ _ _ _ R) as LB. pose proof (n_comps _ _ _ _ _ _ _ R) as NC.
  pose proof (comp_fields _ _ _ _ _ _ _ R) as CF. cbv zeta in CF.
  assert (NV : length (sg_verts g) = rounds * length (s0 :: gens')) by (rewrite (rd_verts _ _ _ _ _ _ _ R); apply length_the_verts).
  rewrite NV. pose proof (rd_ends _ _ _ _ _ _ _ R) as EE. rewrite EE.
  split; [|split].
  - intros v Lv. exists (vl v). rewrite NC. split; [apply (l_bound _ _ _ _ _ LB); auto|].
    intros d k X. assert (Ld : d < K) by (rewrite <- NC; apply nth_error_Some; rewrite X; discriminate).
    apply (nth_error_nth _ _ comp0) in X. subst k. destruct (CF d Ld) as (_ & _ & _ & -> & _). rewrite verts_of_in.
    split; [intros [_ <-]; auto|intros ->; auto].
  - intros k I. destruct (comp_in _ _ _ _ _ _ _ R k I) as (c & Lc & ->). destruct (CF c Lc) as (-> & -> & _ & -> & ->).
    rewrite (comp_wt _ _ _ _ _ _ _ R c Lc).
    assert (VI := fun v => verts_of_in (rounds * length (s0 :: gens')) vl c v).
    split.
    { destruct (l_used _ _ _ _ _ LB c Lc) as (v & Lv & Xv). intros Z. specialize (VI v). rewrite Z in VI. apply VI. auto. }
    split; [apply NoDup_filter, seq_NoDup|]. split; [apply edges_of_NoDup|].
    split; [intros v Iv; apply VI in Iv; tauto|]. split.
    { intros u v Iu Lv. apply VI in Iu. destruct Iu as [Lu Xu]. rewrite VI.
      change (active g) with (fun i => enabled g i = true). rewrite <- (l_conn _ _ _ _ _ LB) by auto. rewrite Xu.
      split; [intros [_ ->]; auto|auto]. }
    split.
    { intros i. rewrite (edges_of_in _ _ _ _ _ LB). split; intros (A & v & P & Q); (split; [exact A|]); exists v.
      - split; auto. apply VI. split; auto. apply (key_in _ _ _ _ _ LB i v P).
      - split; auto. apply VI in P. tauto. }
    split; [auto|]. split; [apply (local_well_formed _ _ _ _ _ LB)|]. split; [apply map_length|]. split.
    { intros j Lj. unfold local_edges. rewrite (nth_indep _ [] (map (pos (verts_of (rounds * length (s0 :: gens')) vl c)) (nth 0 (edges rounds s0 gens') []))) by (rewrite map_length; auto).
      rewrite (map_nth (fun i => map (pos (verts_of (rounds * length (s0 :: gens')) vl c)) (nth i (edges rounds s0 gens') []))).
      rewrite map_map. rewrite <- (map_id (nth (nth j (edges_of _ _ _ _) 0) (edges rounds s0 gens') [])) at 2.
      apply map_ext_in. intros v Iv. apply nth_pos.
      apply (edges_of_ends _ _ _ _ _ LB c (nth j (edges_of (edges rounds s0 gens') (enabled g) vl c) 0) v); auto. apply nth_In; auto. }
    unfold weight_of. rewrite (rd_wt _ _ _ _ _ _ _ R). reflexivity.
  - intros sel syn HS. rewrite (local_explains _ _ _ _ _ LB sel syn HS). split.
    + intros X k I. destruct (comp_in _ _ _ _ _ _ _ R k I) as (c & Lc & ->). destruct (CF c Lc) as (-> & -> & _ & -> & ->). auto.
    + intros X c Lc. specialize (X (nth c (sg_comps g) comp0)). destruct (CF c Lc) as (E1 & E2 & _ & E3 & E4).
      rewrite E1, E2, E3, E4 in X. apply X, nth_In. lia.
Qed.

(** The syndrome of a component consists of the bits of its vertices; [set_erasure] marks the
    edges of the erased qubits in the components which have edges.  Data of another shape is
    refused with [AssertionError]. *)
Theorem C50_inputs : forall rounds n gens w g, uses rounds n gens w g ->
  (forall syn, if has_shape syn rounds (length gens) then
     exists g', set_syndrome (Some syn) g = Ok g' /\ sg_ends g' = sg_ends g /\ sg_kind g' = sg_kind g /\
       sg_verts g' = sg_verts g /\ sg_result g' = sg_result g /\
       sg_comps g' = map (fun k => set_k_syn (map (fun v => let p := nth v (sg_verts g) (0, 0) in nth (snd p) (nth (fst p) syn []) false) (k_vidx k)) k)
                       (sg_comps g)
   else set_syndrome (Some syn) g = Err AssertionError) /\
  (forall er, if has_shape er rounds n then
     exists g', set_erasure (Some er) g = Ok g' /\ sg_ends g' = sg_ends g /\ sg_kind g' = sg_kind g /\
       sg_verts g' = sg_verts g /\ sg_result g' = sg_result g /\
       sg_comps g' = map (fun k => if length (k_edges k) =? 0 then k else
          set_k_erased (Some (map (fun i => match kind_of g i with QubitError t _ q _ => nth q (nth t er []) false | StabError _ _ => false end) (k_eidx k))) k)
                       (sg_comps g)
   else set_erasure (Some er) g = Err AssertionError).
Proof.
  intros rounds n gens w g U. pose proof U as (G & _). destruct G as (_ & Hn & Hg).
  destruct (uses_ready _ _ _ _ _ U) as (s0 & gens' & -> & -> & T & _ & vl & K & R & _).
  split; intros x; destruct (has_shape x _ _) eqn:S.
  - eexists. split; [apply (set_syndrome_ok rounds s0 gens' w Hn Hg vl K g R (Some x) S)|].
    repeat split; auto. cbn [sg_comps set_comps]. apply map_ext. intros k. unfold syn_comp, syndrome_at.
    rewrite (rd_verts _ _ _ _ _ _ _ R). reflexivity.
  - eapply set_syndrome_bad; eauto.
  - eexists. split; [apply (set_erasure_ok rounds s0 gens' w Hn Hg vl K g R (Some x) S)|].
    repeat split; auto. cbn [sg_comps set_comps]. apply map_ext. intros k. unfold erase_comp, has_edges, kind_of.
    rewrite (rd_kind _ _ _ _ _ _ _ R). destruct (length (k_edges k) =? 0); reflexivity.
  - eapply set_erasure_bad; eauto.
Qed.

(** [update_results] gives every edge the result of its component; other edges keep theirs. *)
Theorem C50_update : forall rounds n gens w g, uses rounds n gens w g ->
  exists g', update_results g = Ok g' /\ length (sg_result g') = length (sg_ends g) /\
    (forall k j, In k (sg_comps g) -> j < length (k_eidx k) -> nth (nth j (k_eidx k) 0) (sg_result g') false = nth j (k_result k) false) /\
    (forall i, (forall k, In k (sg_comps g) -> ~ In i (k_eidx k)) -> nth i (sg_result g') false = nth i (sg_result g) false) /\
    sg_ends g' = sg_ends g /\ sg_kind g' = sg_kind g /\ sg_verts g' = sg_verts g /\ sg_on g' = sg_on g.
Proof.
  intros rounds n gens w g U. pose proof U as (G & _). destruct G as (_ & Hn & Hg).
  destruct (uses_ready _ _ _ _ _ U) as (s0 & gens' & -> & -> & T & _ & vl & K & R & RF).
  destruct (update_results_ok rounds s0 gens' w Hn Hg vl K g R RF) as (r & (L & A & B) & X & _ & _).
  eexists. split; [exact X|]. cbn [sg_result set_comps set_result sg_ends sg_kind sg_verts sg_on].
  rewrite L, (rd_result _ _ _ _ _ _ _ R), (rd_ends _ _ _ _ _ _ _ R). repeat split; auto.
Qed.

(** * C32 The Pauli frame *)

(** Whether an edge stands for the error [p] on qubit [q] (in some round). *)
Definition error_on (q : nat) (p : pauli1) (k : ekind) : bool :=
  match k with
  | QubitError _ _ q' PX => match p with PX => q' =? q | _ => false end
  | QubitError _ _ q' PZ => match p with PZ => q' =? q | _ => false end
  | _ => false
  end.

Definition selected (g : sgraph) (q : nat) (p : pauli1) : list nat :=
  filter (fun i => nth i (sg_result g) false && error_on q p (kind_of g i)) (seq 0 (length (sg_ends g))).

Lemma parity_odd {A} (f : A -> bool) l : parity (map f l) = Nat.odd (length (filter f l)).
Proof.
  induction l as [|a l IH]; auto. change (parity (map f (a :: l))) with (xorb (f a) (parity (map f l))). rewrite IH. cbn [filter].
  destruct (f a); cbn [length]; [|apply xorb_false_l]. rewrite Nat.odd_succ, <- Nat.negb_odd. destruct (Nat.odd _); auto.
Qed.

Lemma result_errors_parity rounds n gens (Hm : 0 < length gens) res q (Lq : q < n) : length res = length (the_edges rounds n gens) ->
  (parity (map (fun t => fst (result_errors rounds n res t q)) (seq 0 rounds)) =
   parity (map (fun i => nth i res false && error_on q PX (nth i (map snd (the_edges rounds n gens)) (StabError 0 0))) (seq 0 (length (the_edges rounds n gens))))) /\
  (parity (map (fun t => snd (result_errors rounds n res t q)) (seq 0 rounds)) =
   parity (map (fun i => nth i res false && error_on q PZ (nth i (map snd (the_edges rounds n gens)) (StabError 0 0))) (seq 0 (length (the_edges rounds n gens))))).
Proof.
  intros LR.
  assert (A : forall j p, j < 2 * n -> (forall k, k < 2 * n -> error_on q p (QubitError 0 k (fst (letter_of n k)) (snd (letter_of n k))) = (k =? j)) ->
    parity (map (fun t => nth (qi n t j) res false) (seq 0 rounds)) =
    parity (map (fun i => nth i res false && error_on q p (nth i (map snd (the_edges rounds n gens)) (StabError 0 0))) (seq 0 (length (the_edges rounds n gens))))).
  { intros j p Lj HJ. rewrite <- (op_parity rounds n gens Hm res j Lj LR).
    set (D := (StabError 0 0, false)). set (l := combine (map snd (the_edges rounds n gens)) res).
    assert (Ll : length l = length (the_edges rounds n gens)) by (unfold l; rewrite combine_length, map_length; lia).
    assert (ID : map (fun i => nth i l D) (seq 0 (length l)) = l).
    { clear. induction l as [|x l IH]; auto. cbn [length seq map nth]. f_equal. rewrite <- seq_shift, map_map. exact IH. }
    rewrite <- Ll. rewrite <- ID at 1. rewrite map_map. apply parity_ext. intros i I. apply in_seq in I.
    unfold l, D. rewrite combine_nth by (rewrite map_length; auto). cbn [fst snd]. rewrite andb_comm. f_equal.
    rewrite (nth_indep _ _ (snd (@nil nat, StabError 0 0))) by (rewrite map_length; lia). rewrite map_nth.
    destruct (index_cases rounds n gens Hm i) as [(t & k & Lt & Lk & ->)|(t & s & Lt & Ls & ->)]; [lia| |].
    - rewrite nth_qi by auto. cbn [qubit_edge snd op_index]. rewrite <- (HJ k Lk). reflexivity.
    - rewrite nth_si by auto. reflexivity. }
  split.
  - rewrite <- (A q PX); [|lia|].
    + apply parity_ext. intros t I. apply in_seq in I. unfold result_errors. rewrite (proj2 (Nat.ltb_lt t rounds)) by lia. auto.
    + intros k Lk. unfold letter_of. destruct (Nat.ltb_spec k n); cbn; auto. symmetry. apply Nat.eqb_neq. lia.
  - rewrite <- (A (n + q) PZ); [|lia|].
    + apply parity_ext. intros t I. apply in_seq in I. unfold result_errors. rewrite (proj2 (Nat.ltb_lt t rounds)) by lia. auto.
    + intros k Lk. unfold letter_of. destruct (Nat.ltb_spec k n); cbn.
      * symmetry. apply Nat.eqb_neq. lia.
      * destruct (Nat.eqb_spec (k - n) q), (Nat.eqb_spec k (n + q)); auto; lia.
Qed.

(** The frame can be asked for after [update_results].  Its factor for a qubit has X if an odd
    number of selected edges are X errors on this qubit (in any round), and similarly for Z.  If
    the selected edges explain a syndrome, the frame anticommutes with a generator exactly if
    its syndrome bits in all rounds have odd parity. *)
Theorem C32_frame : forall rounds n gens w g g', uses rounds n gens w g -> update_results g = Ok g' ->
  exists fr, result_frame g' = Ok fr /\ length (ops fr) = n /\
    (forall q, q < n -> fac fr q = (Nat.odd (length (selected g' q PX)), Nat.odd (length (selected g' q PZ)))) /\
    forall syn : nat -> nat -> bool,
      explains (length (sg_verts g')) (sg_ends g') (bits (sg_result g'))
        (fun v => let p := nth v (sg_verts g') (0, 0) in syn (fst p) (snd p)) ->
      forall s, s < length gens ->
        anti (seq 0 n) (fac (nth s gens row0)) (fac fr) = Nat.odd (length (filter (fun t => syn t s) (seq 0 rounds))).
Proof.
  intros rounds n gens w g g' U X. pose proof U as (G & _). pose proof (Hm n gens G) as Hm. destruct G as (_ & Hn & Hg).
  destruct (uses_ready _ _ _ _ _ U) as (s0 & gens' & -> & -> & T & _ & vl & K & R & RF).
  destruct (update_results_ok rounds s0 gens' w Hn Hg vl K g R RF) as (r & _ & Y & R' & NN).
  rewrite X in Y. injection Y as Y. rewrite <- Y in R', NN. clear r Y.
  destruct (result_frame_ok rounds s0 gens' w Hn Hg vl K g' R' NN) as (fr & Z & L & A).
  exists fr. split; [auto|]. split; [auto|].
  pose proof (rd_result _ _ _ _ _ _ _ R') as LR. unfold edges in LR. rewrite map_length in LR.
  split.
  - intros q Lq. rewrite A by auto. unfold selected, kind_of. rewrite <- !parity_odd.
    rewrite (rd_kind _ _ _ _ _ _ _ R'), (rd_ends _ _ _ _ _ _ _ R'). unfold edges, kinds. rewrite map_length.
    destruct (result_errors_parity rounds _ _ Hm _ q Lq LR) as [-> ->]. reflexivity.
  - intros syn EX s Ls. rewrite <- parity_odd.
    rewrite (anti_ext _ _ _ (fac (nth s (s0 :: gens') row0)) (fun q => (parity (map (fun t => fst (result_errors rounds (length (ops s0)) (sg_result g') t q)) (seq 0 rounds)),
                parity (map (fun t => snd (result_errors rounds (length (ops s0)) (sg_result g') t q)) (seq 0 rounds))))).
    + apply frame_syndrome; auto. intros t Lt. rewrite (rd_ends _ _ _ _ _ _ _ R') in EX. unfold edges in EX.
      rewrite EX. 2: { rewrite (rd_verts _ _ _ _ _ _ _ R'), length_the_verts. apply vert_bound; auto. }
      rewrite (rd_verts _ _ _ _ _ _ _ R'). rewrite nth_the_verts by auto. reflexivity.
    + auto.
    + intros q I. apply in_seq in I. apply A. lia.
Qed.

(** The result of a decoder which has not been collected yet: [ValueError]. *)
Theorem C32_not_updated : forall rounds n gens w g c res g' , uses rounds n gens w g ->
  set_results c res g = Ok g' -> res <> [] -> result_frame g' = Err ValueError.
Proof.
  intros rounds n gens w g c res g' U X NE.
  destruct (uses_ready _ _ _ _ _ U) as (s0 & gens' & -> & -> & T & _ & vl & K & R & RF).
  assert (INV : c < K /\ length res = length (k_edges (nth c (sg_comps g) comp0)) /\
    g' = set_comps (upd c (set_k_result res true (nth c (sg_comps g) comp0)) (sg_comps g)) g).
  { destruct U as ((_ & Hn & Hg) & _ & Hr & _). eapply set_results_inv; eauto. }
  destruct INV as (Lc & LR & ->). apply result_frame_new. apply existsb_exists. exists (set_k_result res true (nth c (sg_comps g) comp0)). split; auto.
  apply filter_In. cbn [sg_comps set_comps]. split.
  - pose proof (n_comps _ _ _ _ _ _ _ R) as NC.
    rewrite <- (nth_upd_same c (set_k_result res true (nth c (sg_comps g) comp0)) (sg_comps g) comp0) at 1 by lia.
    apply nth_In. rewrite length_upd. lia.
  - unfold has_edges. cbn [k_edges set_k_result]. rewrite <- LR. destruct res; [congruence|auto].
Qed.

(** * Examples *)

(** Three qubits with the generators ZZI and IZZ, two rounds. *)
Definition rep3 : list row :=
  [mkRow [(false, true); (false, true); (false, false)] false;
   mkRow [(false, false); (false, true); (false, true)] false].
Definition rep3_graph : sgraph := match new_sgraph 2 rep3 None with Ok g => g | Err _ => built 0 0 0 [] [] [] [] end.
Lemma rep3_uses : uses 2 3 rep3 None rep3_graph.
Proof.
  split; [|split; [exact I|split; [lia|]]].
  - split; [discriminate|]. split; [lia|]. intros g [<-|[<-|[]]]; reflexivity.
  - apply sg_new. vm_compute. reflexivity.
Qed.

(** An X error on qubit 0 in round 0, one on qubit 1 in round 1 and a wrong measurement of the
    second generator between the rounds: the syndrome has the bits (0, 0), (0, 1) and (1, 0). *)
Definition an_error (t q : nat) : bool * bool := (((t =? 0) && (q =? 0)) || ((t =? 1) && (q =? 1)), false).
Definition a_flip (t s : nat) : bool := (t =? 1) && (s =? 1).
Example C30_example :
  sg_ends rep3_graph = [[0]; [0; 1]; [1]; []; []; []; [2]; [2; 3]; [3]; []; []; []; [0; 2]; [1; 3]] /\
  map (boundary (sg_ends rep3_graph) (fun i => happened an_error a_flip (kind_of rep3_graph i))) [0; 1; 2; 3] =
    [true; true; true; false].
Proof. split; vm_compute; reflexivity. Qed.
Example C30_example_history : forall v t s, nth_error (sg_verts rep3_graph) v = Some (t, s) ->
  boundary (sg_ends rep3_graph) (fun i => happened an_error a_flip (kind_of rep3_graph i)) v =
  xorb (anti (seq 0 3) (fac (nth s rep3 row0)) (an_error t)) (xorb (a_flip t s) (a_flip (S t) s)).
Proof. intros. eapply C30_history; [apply rep3_uses|..]; auto. Qed.

(** Three generators which anticommute with an X error on the first qubit. *)
Example C30_example_three : new_sgraph 1
  [mkRow [(false, true); (false, true); (false, false); (false, false)] false;
   mkRow [(false, true); (false, false); (false, true); (false, false)] false;
   mkRow [(false, true); (false, false); (false, false); (false, true)] false] None = Err ValueError.
Proof. reflexivity. Qed.

(** Two qubits with the generator ZZ: the X errors have parallel (dangling) edges. *)
Definition zz : list row := [mkRow [(false, true); (false, true)] false].
Definition zz_graph (x0 x1 : weight) : sgraph :=
  match new_sgraph 1 zz (Some (mkWarg (WArr [x0; x1]) (WNum (Fin 1)) (WNum (Fin 1)))) with Ok g => g | Err _ => built 0 0 0 [] [] [] [] end.
Lemma zz_uses x0 x1 : is_nan x0 = false -> is_nan x1 = false ->
  uses 1 2 zz (Some (mkWarg (WArr [x0; x1]) (WNum (Fin 1)) (WNum (Fin 1)))) (zz_graph x0 x1).
Proof.
  intros A B. assert (G : generators 2 zz).
  { split; [discriminate|]. split; [lia|]. intros g [<-|[]]; reflexivity. }
  assert (F : weights_fit 2 (length zz) (Some (mkWarg (WArr [x0; x1]) (WNum (Fin 1)) (WNum (Fin 1))))).
  { split; [left; reflexivity|]. split; exact I. }
  split; [auto|]. split; [auto|]. split; [lia|]. apply sg_new. unfold zz_graph.
  destruct (C30_total 1 2 zz _ G F) as [X _]; [lia| |].
  - split; [|split; discriminate]. intros [->|[->|[]]]; discriminate.
  - destruct X as [g ->]; auto. intros q L. destruct q as [|[|q]]; [cbn; lia|cbn; lia|lia].
Qed.

Example C31_example : sg_ends (zz_graph (Fin 2) (Fin 1)) = [[0]; [0]; []; []] /\
  sg_on (zz_graph (Fin 2) (Fin 1)) = [false; true; true; true] /\
  sg_on (zz_graph (Fin 1) (Fin 1)) = [true; false; true; true] /\
  sg_on (zz_graph (Fin 1) (Inf false)) = [true; false; true; true].
Proof. repeat split; reflexivity. Qed.
Example C31_example_mixed : new_sgraph 1 zz (Some (mkWarg (WArr [NaN; Fin 1]) (WNum (Fin 1)) (WNum (Fin 1)))) = Err ValueError.
Proof. reflexivity. Qed.

(** "Exactly one of the parallel edges stays active" is wrong if one of them has the weight
    minus infinity (an error with probability 1): this edge is disabled because its weight is
    infinite, and the other ones because they are heavier. *)
Theorem C31_one_refuted : exists rounds n gens w g i j, uses rounds n gens w g /\
  i < length (sg_ends g) /\ j < length (sg_ends g) /\ parallel g i j /\ is_inf (weight_of g j) = false /\
  forall k, k < length (sg_ends g) -> parallel g i k -> ~ active g k.
Proof.
  exists 1, 2, zz, (Some (mkWarg (WArr [Inf true; Fin 1]) (WNum (Fin 1)) (WNum (Fin 1)))), (zz_graph (Inf true) (Fin 1)), 0, 1.
  split; [apply zz_uses; reflexivity|].
  split; [apply Nat.ltb_lt; vm_compute; reflexivity|]. split; [apply Nat.ltb_lt; vm_compute; reflexivity|].
  split; [|split; [vm_compute; reflexivity|]].
  { assert (EE : sg_ends (zz_graph (Inf true) (Fin 1)) = [[0]; [0]; []; []]) by (vm_compute; reflexivity).
    unfold parallel. rewrite EE. split; [discriminate|]. intros v. cbn [nth]. tauto. }
  intros k Lk [_ P] A.
  assert (EE : sg_ends (zz_graph (Inf true) (Fin 1)) = [[0]; [0]; []; []]) by (vm_compute; reflexivity).
  assert (EO : sg_on (zz_graph (Inf true) (Fin 1)) = [false; false; true; true]) by (vm_compute; reflexivity).
  rewrite EE in Lk, P. unfold active in A. rewrite EO in A. cbn [length] in Lk. clear EE EO.
  destruct k as [|[|[|[|k]]]]; try discriminate; try lia; cbn [nth] in P; destruct (proj1 (P 0)); left; auto.
Qed.

(** Both rounds of [rep3] are one component; a decoder which selects the edges of the errors
    above gives the frame XXI. *)
Definition rep3_used : Res sgraph :=
  do g <- set_erasure None rep3_graph;
  do g <- set_syndrome (Some [[true; true]; [true; false]]) g;
  do g <- set_results 0 [true; false; false; false; true; false; false; true] g;
  update_results g.
Example C32_example : (do g <- rep3_used; do fr <- result_frame g; Ok (fr, sg_result g, length (sg_comps g))) =
  Ok (mkRow [(true, false); (true, false); (false, false)] false,
      [true; false; false; false; false; false; false; true; false; false; false; false; false; true], 1).
Proof. vm_compute. reflexivity. Qed.

Example C50_example : map (fun k => (k_vidx k, k_eidx k, k_edges k)) (sg_comps (match rep3_used with Ok g => g | Err _ => rep3_graph end)) =
  [([0; 1; 2; 3], [0; 1; 2; 6; 7; 8; 12; 13], [[0]; [0; 1]; [1]; [2]; [2; 3]; [3]; [0; 2]; [1; 3]])] /\
  (** separate rounds if measurements cannot be wrong *)
  (do g <- new_sgraph 2 rep3 (Some (mkWarg (WNum (Fin 1)) (WNum (Fin 1)) (WNum (Inf false))));
   Ok (map (fun k => (k_vidx k, k_eidx k, k_edges k)) (sg_comps g))) =
  Ok [([0; 1], [0; 1; 2], [[0]; [0; 1]; [1]]); ([2; 3], [6; 7; 8], [[0]; [0; 1]; [1]])].
Proof. split; vm_compute; reflexivity. Qed.

Print Assumptions C30_edges.
Print Assumptions C30_history.
Print Assumptions C30_total.
Print Assumptions C31_parallel.
Print Assumptions C31_one.
Print Assumptions C31_mixed.
Print Assumptions C31_one_refuted.
Print Assumptions C32_frame.
Print Assumptions C32_not_updated.
Print Assumptions C50_components.
Print Assumptions C50_inputs.
Print Assumptions C50_update.
