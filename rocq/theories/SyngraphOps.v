(** The methods of [SyndromeGraph] after [__init__]. *)
Require Import List Bool Arith ZArith QArith Lia Relations.
From Verif Require Import Base BaseProofs QSpec PauliModel PauliAlg MeasureProofs GraphSpec GraphProofs
  LatticeSpec GeneratorSpec
  ErasureModel ErasureProofs SyngraphModel SyngraphBuild SyngraphDup SyngraphComp SyngraphObjs SyngraphProofs SyngraphErrors.
Import ListNotations.
Open Scope nat_scope.
Local Arguments incident : simpl never.
Local Arguments upd : simpl never.

Definition comp0 : comp := mkComp 0 [] false [] None [] true [] [] [].

Section Ops.
Variables (rounds : nat) (s0 : row) (gens' : list row) (w : option warg).
Notation gens := (s0 :: gens').
Notation n := (length (ops s0)).
Hypothesis Hn : 0 < n.
Hypothesis Hg : forall g, In g gens -> length (ops g) = n.
Notation m := (length gens).
Notation E := (edges rounds s0 gens').
Notation W := (weights rounds s0 gens' w).
Notation kinds := (kinds rounds s0 gens').
Notation nv := (rounds * m).
Variables (vl : nat -> nat) (K : nat).
Notation ready := (ready rounds s0 gens' w vl K).

Lemma ready_set_comps cs g : ready g -> map shape_of cs = map shape_of (sg_comps g) ->
  map k_wt cs = map k_wt (sg_comps g) -> ready (set_comps cs g).
Proof.
  intros [] HS HW. split; auto.
  - change (enabled (set_comps cs g)) with (enabled g). cbn [sg_comps set_comps]. congruence.
  - change (enabled (set_comps cs g)) with (enabled g). cbn [sg_comps set_comps]. congruence.
Qed.

Lemma ready_set_result r g : ready g -> length r = length E -> ready (set_result r g).
Proof. intros [] HL. split; auto. Qed.

Section Comp.
Variable g : sgraph.
Hypothesis R : ready g.
Notation on := (enabled g).

Lemma n_comps : length (sg_comps g) = K.
Proof. rewrite <- (map_length shape_of), (rd_shape _ _ _ _ _ _ _ R), map_length, seq_length. auto. Qed.

Lemma comp_shape c : c < K -> shape_of (nth c (sg_comps g) comp0) = shape nv E on vl c.
Proof.
  intros L. rewrite <- (map_nth shape_of), (rd_shape _ _ _ _ _ _ _ R).
  rewrite nth_map_seq; auto.
Qed.

Lemma comp_fields c : c < K -> let k := nth c (sg_comps g) comp0 in
  k_n k = length (verts_of nv vl c) /\ k_edges k = local_edges nv E on vl c /\
  k_dang k = existsb (fun e => length e =? 1) (local_edges nv E on vl c) /\
  k_vidx k = verts_of nv vl c /\ k_eidx k = edges_of E on vl c.
Proof.
  intros L k. pose proof (comp_shape c L) as X. fold k in X. unfold shape_of, shape in X. injection X as A B C D F. auto.
Qed.

Lemma comp_wt c : c < K -> k_wt (nth c (sg_comps g) comp0) = map (wof W) (edges_of E on vl c).
Proof.
  intros L. change ([] : list weight) with (k_wt comp0). rewrite <- (map_nth k_wt), (rd_kwt _ _ _ _ _ _ _ R).
  rewrite nth_map_seq; auto.
Qed.

Lemma comp_in k : In k (sg_comps g) -> exists c, c < K /\ k = nth c (sg_comps g) comp0.
Proof. intros I. apply (In_nth _ _ comp0) in I. destruct I as (c & L & X). rewrite n_comps in L. eauto. Qed.

Lemma eidx_lt k i : In k (sg_comps g) -> In i (k_eidx k) -> i < length E.
Proof.
  intros I J. destruct (comp_in k I) as (c & L & ->). destruct (comp_fields c L) as (_ & _ & _ & _ & X).
  rewrite X in J. unfold edges_of in J. apply filter_In in J. destruct J as [J _]. apply in_seq in J. lia.
Qed.

Lemma vidx_lt k v : In k (sg_comps g) -> In v (k_vidx k) -> v < nv.
Proof.
  intros I J. destruct (comp_in k I) as (c & L & ->). destruct (comp_fields c L) as (_ & _ & _ & X & _).
  rewrite X in J. apply verts_of_in in J. tauto.
Qed.

Lemma eidx_len k : In k (sg_comps g) -> length (k_edges k) = length (k_eidx k).
Proof.
  intros I. destruct (comp_in k I) as (c & L & ->). destruct (comp_fields c L) as (_ & X & _ & _ & Y).
  rewrite X, Y. unfold local_edges. apply map_length.
Qed.

Lemma vidx_len k : In k (sg_comps g) -> k_n k = length (k_vidx k).
Proof.
  intros I. destruct (comp_in k I) as (c & L & ->). destruct (comp_fields c L) as (X & _ & _ & Y & _). congruence.
Qed.

(** * Erasure *)

Definition edge_erased (q : list (list bool)) (k : ekind) : bool :=
  match k with QubitError t _ i _ => nth i (nth t q []) false | StabError _ _ => false end.
Definition default {A} (d : A) (o : option A) : A := match o with Some a => a | None => d end.
Definition erase_comp (q : list (list bool)) (k : comp) : comp :=
  if has_edges k then set_k_erased (Some (map (fun i => edge_erased q (nth i kinds (StabError 0 0))) (k_eidx k))) k else k.

Lemma has_shape_spec {A} (x : list (list A)) a b : has_shape x a b = true <-> length x = a /\ forall r, In r x -> length r = b.
Proof.
  unfold has_shape. rewrite andb_true_iff, Nat.eqb_eq, forallb_forall. split; intros [X Y]; split; auto; intros r I.
  - apply Nat.eqb_eq; auto.
  - apply Nat.eqb_eq; auto.
Qed.

Lemma zeros_shape a b : has_shape (repeat (repeat false b) a) a b = true.
Proof.
  apply has_shape_spec. split; [apply repeat_length|]. intros r I. apply repeat_spec in I. subst. apply repeat_length.
Qed.

Lemma get2_ok {A} (x : list (list A)) a b i j d : has_shape x a b = true -> i < a -> j < b ->
  get2 x i j = Ok (nth j (nth i x []) d).
Proof.
  intros S Li Lj. apply has_shape_spec in S. destruct S as [L S]. unfold get2.
  rewrite (get_nth _ _ []) by lia. cbn [bindR]. rewrite (get_nth _ _ d); auto.
  rewrite S; auto. apply nth_In. lia.
Qed.

Lemma map_shape_if (f : comp -> bool) (h : comp -> comp) cs : (forall k, shape_of (h k) = shape_of k) ->
  map shape_of (map (fun k => if f k then h k else k) cs) = map shape_of cs.
Proof. intros H. rewrite map_map. apply map_ext. intros k. destruct (f k); auto. Qed.
Lemma map_kwt_if (f : comp -> bool) (h : comp -> comp) cs : (forall k, k_wt (h k) = k_wt k) ->
  map k_wt (map (fun k => if f k then h k else k) cs) = map k_wt cs.
Proof. intros H. rewrite map_map. apply map_ext. intros k. destruct (f k); auto. Qed.

Lemma set_erasure_ok qe : let q := default (repeat (repeat false n) rounds) qe in
  has_shape q rounds n = true ->
  set_erasure qe g = Ok (set_comps (map (erase_comp q) (sg_comps g)) g) /\
  ready (set_comps (map (erase_comp q) (sg_comps g)) g).
Proof.
  intros q S. split.
  - unfold set_erasure. rewrite (rd_n _ _ _ _ _ _ _ R), (rd_rounds _ _ _ _ _ _ _ R).
    change (match qe with Some x => x | None => _ end) with q. rewrite S. cbn [assertR bindR].
    rewrite (rd_kind _ _ _ _ _ _ _ R).
    rewrite (mapR_ok _ (edge_erased q)).
    2: { intros k I. apply (kinds_in rounds s0 gens' Hn Hg) in I. destruct k as [t op i p|t s]; auto.
         apply (get2_ok q rounds n); tauto. }
    cbn [bindR].
    rewrite (mapR_ok _ (erase_comp q)); [reflexivity|]. intros k I. unfold with_edges, erase_comp.
    destruct (has_edges k); auto. rewrite (take_ok _ _ false).
    2: { intros i J. rewrite map_length, length_kinds. eapply eidx_lt; eauto. }
    cbn [bindR]. unfold comp_set_erasure. rewrite map_length, <- eidx_len, Nat.eqb_refl by auto. cbn [assertR bindR].
    do 3 f_equal. apply map_ext_in. intros i J.
    rewrite (nth_indep _ false (edge_erased q (StabError 0 0))) by (rewrite map_length, length_kinds; eapply eidx_lt; eauto).
    apply map_nth.
  - apply ready_set_comps; auto; [apply map_shape_if|apply map_kwt_if]; auto.
Qed.

Lemma set_erasure_bad q : has_shape q rounds n = false -> set_erasure (Some q) g = Err AssertionError.
Proof.
  intros S. unfold set_erasure. rewrite (rd_n _ _ _ _ _ _ _ R), (rd_rounds _ _ _ _ _ _ _ R), S. reflexivity.
Qed.

(** * Syndrome *)

Definition syndrome_at (q : list (list bool)) (p : nat * nat) : bool := nth (snd p) (nth (fst p) q []) false.
Definition syn_comp (q : list (list bool)) (k : comp) : comp :=
  set_k_syn (map (fun v => syndrome_at q (nth v (the_verts rounds gens) (0, 0))) (k_vidx k)) k.

Lemma upd2_nth (x : list (list bool)) a b i j i' j' : has_shape x a b = true -> i < a -> j < b ->
  has_shape (upd i (upd j true (nth i x [])) x) a b = true /\
  nth j' (nth i' (upd i (upd j true (nth i x [])) x) []) false =
  ((i =? i') && (j =? j')) || nth j' (nth i' x []) false.
Proof.
  intros S Li Lj. apply has_shape_spec in S. destruct S as [L S]. split.
  - apply has_shape_spec. rewrite length_upd. split; auto. intros r I. apply (In_nth _ _ []) in I.
    destruct I as (k & Lk & <-). rewrite length_upd in Lk. rewrite nth_upd.
    destruct ((i =? k) && (i <? length x)) eqn:Z; [rewrite length_upd|]; apply S, nth_In; lia.
  - rewrite nth_upd. rewrite (proj2 (Nat.ltb_lt i (length x))) by lia. rewrite andb_true_r.
    destruct (Nat.eqb_spec i i') as [<-|D]; auto. cbn [andb]. rewrite nth_upd.
    rewrite (proj2 (Nat.ltb_lt j _)) by (rewrite S; auto; apply nth_In; lia). rewrite andb_true_r.
    destruct (j =? j'); auto.
Qed.

Lemma syndrome_loop q P : has_shape q rounds m = true -> NoDup P ->
  (forall p, In p P -> fst p < rounds /\ snd p < m) -> forall acc D, has_shape D rounds m = true ->
  (forall p, In p P -> nth (snd p) (nth (fst p) D []) false = false) ->
  exists D', foldR (fun (s : list bool * list (list bool)) (p : nat * nat) =>
            do d <- get2 (snd s) (fst p) (snd p);
            do _ <- assertR (negb d);
            do b <- get2 q (fst p) (snd p);
            do r <- get (snd s) (fst p);
            Ok (fst s ++ [b], upd (fst p) (upd (snd p) true r) (snd s))) P (acc, D) =
      Ok (acc ++ map (syndrome_at q) P, D') /\ has_shape D' rounds m = true /\
      (forall t s, nth s (nth t D' []) false = true <-> nth s (nth t D []) false = true \/ In (t, s) P).
Proof.
  intros Sq. induction P as [|[t s] P IH]; intros N B acc D SD HD; cbn [foldR].
  - exists D. rewrite app_nil_r. split; [auto|]. split; [auto|]. intros. cbn. tauto.
  - inversion N as [|? ? NI N']; subst. destruct (B (t, s)) as [Lt Ls]; [left; auto|]. cbn [fst snd] in *.
    rewrite (get2_ok D rounds m t s false) by auto. cbn [bindR].
    pose proof (HD (t, s) (or_introl eq_refl)) as HD0. cbn [fst snd] in HD0 |- *. rewrite HD0. cbn [negb assertR bindR].
    rewrite (get2_ok q rounds m t s false) by auto. cbn [bindR].
    rewrite (get_nth _ _ []).
    2: { apply has_shape_spec in SD. cbn [snd]. lia. }
    cbn [bindR].
    assert (U := fun i' j' => upd2_nth D rounds m t s i' j' SD Lt Ls).
    destruct (IH N') with (acc := acc ++ [nth s (nth t q []) false]) (D := upd t (upd s true (nth t D [])) D) as (D' & X & S' & Y).
    + intros p I. apply B. right; auto.
    + apply (U 0 0).
    + intros [t' s'] I. cbn [fst snd]. destruct (U t' s') as [_ ->]. pose proof (HD (t', s') (or_intror I)) as HD1. cbn [fst snd] in HD1. rewrite HD1.
      rewrite orb_false_r. destruct (Nat.eqb_spec t t') as [->|]; auto. destruct (Nat.eqb_spec s s') as [->|]; auto.
      contradiction.
    + exists D'. split; [|split; auto].
      * rewrite <- app_assoc in X. exact X.
      * intros t' s'. rewrite Y. destruct (U t' s') as [_ ->]. rewrite orb_true_iff, andb_true_iff, !Nat.eqb_eq.
        cbn [In]. split.
        -- intros [[[-> ->]|Z]|Z]; auto.
        -- intros [Z|[Z|Z]]; auto. injection Z as -> ->. auto.
Qed.

Lemma the_verts_in t s : In (t, s) (the_verts rounds gens) <-> t < rounds /\ s < m.
Proof.
  clear Hn Hg. unfold the_verts. rewrite in_flat_map. split.
  - intros (t' & I & J). apply in_seq in I. apply in_map_iff in J. destruct J as (s' & X & J). injection X as -> ->.
    apply in_seq in J. lia.
  - intros [A B]. exists t. split; [apply in_seq; lia|]. apply in_map, in_seq. lia.
Qed.

Lemma nth_the_verts t s : t < rounds -> s < m -> nth (t * m + s) (the_verts rounds gens) (0, 0) = (t, s).
Proof.
  intros A B. unfold the_verts. rewrite (nth_flat_map _ m _ (0, 0) 0); auto.
  - rewrite seq_nth by auto. cbn [plus]. rewrite nth_map_seq; auto.
  - intros; rewrite map_length, seq_length; auto.
  - rewrite seq_length; auto.
Qed.

Lemma the_verts_NoDup : NoDup (the_verts rounds gens).
Proof.
  clear Hn Hg.
  apply (NoDup_nth _ (0, 0)). rewrite length_the_verts. intros i j Li Lj X.
  assert (M : m <> 0) by (cbn; lia).
  assert (G : forall i, i < nv -> exists t s, t < rounds /\ s < m /\ i = t * m + s).
  { intros x Lx. exists (x / m), (x mod m). pose proof (Nat.div_mod x m M). pose proof (Nat.mod_upper_bound x m M).
    split; [|split; auto; lia]. apply Nat.div_lt_upper_bound; auto. lia. }
  destruct (G i Li) as (t & s & Lt & Ls & ->). destruct (G j Lj) as (t' & s' & Lt' & Ls' & ->).
  rewrite !nth_the_verts in X by auto. injection X as -> ->. auto.
Qed.

Lemma set_syndrome_ok sy : let q := default (repeat (repeat false m) rounds) sy in
  has_shape q rounds m = true ->
  set_syndrome sy g = Ok (set_comps (map (syn_comp q) (sg_comps g)) g) /\
  ready (set_comps (map (syn_comp q) (sg_comps g)) g).
Proof.
  intros q S. split.
  - unfold set_syndrome. rewrite (rd_m _ _ _ _ _ _ _ R), (rd_rounds _ _ _ _ _ _ _ R), (rd_verts _ _ _ _ _ _ _ R).
    change (match sy with Some x => x | None => _ end) with q. rewrite S. cbn [assertR bindR].
    destruct (syndrome_loop q (the_verts rounds gens) S the_verts_NoDup) with (acc := @nil bool) (D := repeat (repeat false m) rounds)
      as (D' & -> & S' & Y).
    + intros [t s] I. apply the_verts_in. auto.
    + apply zeros_shape.
    + intros [t s] I. apply the_verts_in in I. cbn [fst snd]. rewrite nth_repeat_lt by tauto. apply nth_repeat_lt. tauto.
    + cbn [bindR fst snd app].
      assert (forallb (forallb (fun b : bool => b)) D' = true) as ->.
      { apply forallb_forall. intros r I. apply forallb_forall. intros b J.
        apply (In_nth _ _ []) in I. destruct I as (t & Lt & <-). apply (In_nth _ _ false) in J. destruct J as (s & Ls & <-).
        apply has_shape_spec in S'. destruct S' as [L' S']. rewrite S' in Ls by (apply nth_In; auto).
        apply Y. right. apply the_verts_in. lia. }
      cbn [assertR bindR].
      rewrite (mapR_ok _ (syn_comp q)); [reflexivity|]. intros k I.
      rewrite (take_ok _ _ false).
      2: { intros v J. rewrite map_length, length_the_verts. eapply vidx_lt; eauto. }
      cbn [bindR]. unfold comp_set_syndrome. rewrite map_length, <- vidx_len, Nat.eqb_refl by auto. cbn [assertR bindR].
      unfold syn_comp. do 2 f_equal. apply map_ext_in. intros v J.
      rewrite (nth_indep _ false (syndrome_at q (0, 0))) by (rewrite map_length, length_the_verts; eapply vidx_lt; eauto).
      apply map_nth.
  - apply ready_set_comps; auto; rewrite map_map; apply map_ext; intros; reflexivity.
Qed.

Lemma set_syndrome_bad q : has_shape q rounds m = false -> set_syndrome (Some q) g = Err AssertionError.
Proof.
  intros S. unfold set_syndrome. rewrite (rd_m _ _ _ _ _ _ _ R), (rd_rounds _ _ _ _ _ _ _ R), S. reflexivity.
Qed.

(** * Results *)

Lemma set_results_ok c res : c < K -> length res = length (k_edges (nth c (sg_comps g) comp0)) ->
  let g' := set_comps (upd c (set_k_result res true (nth c (sg_comps g) comp0)) (sg_comps g)) g in
  set_results c res g = Ok g' /\ ready g'.
Proof.
  intros Lc LR g'. split.
  - unfold set_results. rewrite (get_nth _ _ comp0) by (rewrite n_comps; auto). cbn [bindR].
    unfold comp_set_results. rewrite LR, Nat.eqb_refl. cbn [assertR bindR].
    rewrite put_upd by (rewrite n_comps; auto). reflexivity.
  - apply ready_set_comps; auto.
    + rewrite map_upd. change (shape_of (set_k_result res true (nth c (sg_comps g) comp0))) with (shape_of (nth c (sg_comps g) comp0)).
      rewrite <- map_nth. apply upd_nth.
    + rewrite map_upd. change (k_wt (set_k_result res true (nth c (sg_comps g) comp0))) with (k_wt (nth c (sg_comps g) comp0)).
      rewrite <- map_nth. apply upd_nth.
Qed.

(** Entries written by a loop over indices and values. *)
Lemma put_loop es : forall vs r, NoDup es -> length vs = length es -> (forall i, In i es -> i < length r) ->
  exists r', foldR (fun r (eb : nat * bool) => put r (fst eb) (snd eb)) (combine es vs) r = Ok r' /\ length r' = length r /\
    (forall i, ~ In i es -> nth i r' false = nth i r false) /\
    (forall j, j < length es -> nth (nth j es 0) r' false = nth j vs false).
Proof.
  induction es as [|e es IH]; intros [|b vs] r N LV B; cbn in LV; try lia; cbn [combine foldR].
  - exists r. split; [auto|]. split; [auto|]. split; [auto|]. cbn; intros; lia.
  - inversion N as [|? ? NI N']; subst. cbn [fst snd]. rewrite put_upd by (apply B; left; auto). cbn [bindR].
    destruct (IH vs (upd e b r) N') as (r' & -> & L' & X & Y); [lia|intros; rewrite length_upd; apply B; right; auto|].
    exists r'. rewrite length_upd in L'. split; [auto|]. split; [auto|]. split.
    + intros i I. rewrite X by (intros J; apply I; right; auto). apply nth_upd_other. intros ->. apply I. left; auto.
    + intros [|j] Lj; cbn [nth].
      * rewrite X by auto. apply nth_upd_same. apply B; left; auto.
      * apply Y. cbn in Lj. lia.
Qed.

(** The result of an edge is the one of its component. *)
Definition gathered (cs : list comp) (r r' : list bool) : Prop :=
  length r' = length r /\
  (forall i, (forall k, In k cs -> ~ In i (k_eidx k)) -> nth i r' false = nth i r false) /\
  (forall k j, In k cs -> j < length (k_eidx k) -> nth (nth j (k_eidx k) 0) r' false = nth j (k_result k) false).

Lemma gather_loop cs : forall r,
  (forall k, In k cs -> length (k_result k) = length (k_eidx k) /\ NoDup (k_eidx k) /\ forall i, In i (k_eidx k) -> i < length r) ->
  ForallOrdPairs (fun k k' => forall i, In i (k_eidx k) -> ~ In i (k_eidx k')) cs ->
  (forall k, In k cs -> has_edges k = negb (length (k_eidx k) =? 0)) ->
  exists r', foldR (fun r k => if has_edges k then
                   foldR (fun r (eb : nat * bool) => put r (fst eb) (snd eb)) (combine (k_eidx k) (k_result k)) r
                 else Ok r) cs r = Ok r' /\ gathered cs r r'.
Proof.
  induction cs as [|k cs IH]; intros r H D HE; cbn [foldR].
  - exists r. split; auto. split; [auto|]. split; [auto|]. intros k j [].
  - inversion D as [|? ? F D']; subst. rewrite Forall_forall in F.
    destruct (H k) as (LR & N & B); [left; auto|].
    assert (S : exists r1, (if has_edges k then foldR (fun r (eb : nat * bool) => put r (fst eb) (snd eb)) (combine (k_eidx k) (k_result k)) r else Ok r) = Ok r1 /\
      length r1 = length r /\ (forall i, ~ In i (k_eidx k) -> nth i r1 false = nth i r false) /\
      (forall j, j < length (k_eidx k) -> nth (nth j (k_eidx k) 0) r1 false = nth j (k_result k) false)).
    { destruct (has_edges k) eqn:Z; [apply put_loop; auto|]. exists r. split; [auto|]. split; [auto|]. split; [auto|].
      rewrite (HE k) in Z by (left; auto). apply negb_false_iff, Nat.eqb_eq in Z. intros; lia. }
    destruct S as (r1 & -> & L1 & X1 & Y1). cbn [bindR].
    destruct (IH r1) as (r' & -> & L' & X' & Y').
    + intros k' I. rewrite L1. apply H. right; auto.
    + auto.
    + intros; apply HE; right; auto.
    + exists r'. split; auto. split; [congruence|]. split.
      * intros i I. rewrite X', X1; auto.
        -- apply I. left; auto.
        -- intros k' I'. apply I. right; auto.
      * intros k' j [<-|I] Lj; [|apply Y'; auto]. rewrite X', Y1; auto.
        intros k' I'. apply F; auto. apply nth_In; auto.
Qed.

Lemma eidx_disjoint : ForallOrdPairs (fun k k' => forall i, In i (k_eidx k) -> ~ In i (k_eidx k')) (sg_comps g).
Proof.
  assert (X : map k_eidx (sg_comps g) = map (edges_of E on vl) (seq 0 K)).
  { apply list_ext with (d := []); [rewrite !map_length, n_comps, seq_length; auto|]. intros c Lc.
    rewrite map_length, n_comps in Lc. rewrite nth_map_seq by auto.
    change (@nil nat) with (k_eidx comp0). rewrite map_nth. apply comp_fields; auto. }
  assert (G : forall cs a, map k_eidx cs = map (edges_of E on vl) (seq a (length cs)) ->
    ForallOrdPairs (fun k k' => forall i, In i (k_eidx k) -> ~ In i (k_eidx k')) cs).
  { induction cs as [|k cs IH]; intros a Y; [constructor|]. cbn in Y. injection Y as Y1 Y2. constructor; [|eapply IH; eauto].
    apply Forall_forall. intros k' I i J J'. apply (in_map k_eidx) in I. rewrite Y2 in I. apply in_map_iff in I.
    destruct I as (c & Z & I). apply in_seq in I. rewrite <- Z in J'. rewrite Y1 in J.
    apply (edges_of_in _ _ _ _ _ (rd_lab _ _ _ _ _ _ _ R)) in J, J'. destruct J as [A (u & Iu & Xu)], J' as [_ (v & Iv & Xv)].
    pose proof (same_label _ _ _ _ _ (rd_lab _ _ _ _ _ _ _ R) i u v A Iu Iv). lia. }
  apply (G _ 0). rewrite n_comps. auto.
Qed.

Definition results_fit : Prop := forall k, In k (sg_comps g) -> length (k_result k) = length (k_edges k).

Lemma update_results_ok : results_fit -> exists r, gathered (sg_comps g) (sg_result g) r /\
  let g' := set_comps (map (fun k => if has_edges k then set_k_result (k_result k) false k else k) (sg_comps g)) (set_result r g) in
  update_results g = Ok g' /\ ready g' /\ existsb k_new (filter has_edges (sg_comps g')) = false.
Proof.
  intros RF. destruct (gather_loop (sg_comps g) (sg_result g)) as (r & X & G).
  - intros k I. split; [rewrite RF by auto; apply eidx_len; auto|]. split.
    + destruct (comp_in k I) as (c & L & ->). destruct (comp_fields c L) as (_ & _ & _ & _ & ->). apply edges_of_NoDup.
    + intros i J. rewrite (rd_result _ _ _ _ _ _ _ R). eapply eidx_lt; eauto.
  - apply eidx_disjoint.
  - intros k I. unfold has_edges. rewrite eidx_len; auto.
  - exists r. split; auto. intros g'. split; [|split].
    + unfold update_results. rewrite X. reflexivity.
    + apply ready_set_comps.
      * apply ready_set_result; auto. destruct G as (L & _). rewrite L. apply (rd_result _ _ _ _ _ _ _ R).
      * apply (map_shape_if has_edges (fun k => set_k_result (k_result k) false k)). reflexivity.
      * apply (map_kwt_if has_edges (fun k => set_k_result (k_result k) false k)). reflexivity.
    + cbn [g' sg_comps set_comps set_result]. clear. induction (sg_comps g) as [|k cs IH]; cbn [map filter]; auto.
      destruct (has_edges k) eqn:Z; cbn [filter]; [change (has_edges (set_k_result (k_result k) false k)) with (has_edges k)|]; rewrite Z; auto.
Qed.

(** * The Pauli frame *)

Lemma result_selection_ok : existsb k_new (filter has_edges (sg_comps g)) = false ->
  exists sel, result_selection g = Ok sel /\ length sel = 2 * n /\
    forall j, j < 2 * n -> nth j sel false = parity (map (fun t => nth (qi n t j) (sg_result g) false) (seq 0 rounds)).
Proof.
  intros NN. unfold result_selection. rewrite NN, (rd_kind _ _ _ _ _ _ _ R), (rd_ops _ _ _ _ _ _ _ R), length_the_ops.
  destruct (selection_fold (combine kinds (sg_result g)) (repeat false (2 * n))) as (sel & -> & L & X).
  - intros t op q p b I. apply in_combine_l in I. apply (kinds_in rounds s0 gens' Hn Hg) in I. rewrite repeat_length. tauto.
  - exists sel. rewrite repeat_length in L. split; [auto|]. split; [auto|]. intros j Lj. rewrite X, nth_repeat_lt by auto.
    rewrite xorb_false_l. unfold SyngraphProofs.kinds. apply op_parity; auto; [cbn; lia|].
    rewrite (rd_result _ _ _ _ _ _ _ R). unfold edges. apply map_length.
Qed.

Lemma the_ops_length o : In o (the_ops n) -> length (ops o) = n.
Proof.
  unfold the_ops. intros I. apply in_app_or in I.
  destruct I as [I|I]; apply in_map_iff in I; destruct I as (q & <- & _); cbn; rewrite length_upd, repeat_length; auto.
Qed.

Lemma fac_unit k q p d : q < k ->
  fac (mkRow (upd q p (repeat (false, false) k)) false) d = if q =? d then p else (false, false).
Proof.
  intros L. unfold fac. cbn [ops]. rewrite nth_upd, repeat_length. rewrite (proj2 (Nat.ltb_lt q k)) by auto.
  rewrite andb_true_r. destruct (q =? d); auto. destruct (Nat.lt_ge_cases d k); [apply nth_repeat_lt; auto|].
  apply nth_overflow. rewrite repeat_length; auto.
Qed.

(** X and Z bits of the selected operators together. *)
Lemma selected_bits sel q : length sel = 2 * n -> q < n ->
  (parity (map (fun j => nth j sel false && fst (fac (nth j (the_ops n) row0) q)) (seq 0 (2 * n))),
   parity (map (fun j => nth j sel false && snd (fac (nth j (the_ops n) row0) q)) (seq 0 (2 * n)))) =
  (nth q sel false, nth (n + q) sel false).
Proof.
  intros L Lq. f_equal.
  - rewrite (parity_one _ q).
    + rewrite nth_the_ops by lia. rewrite (proj2 (Nat.ltb_lt q n)) by auto. unfold x_op. rewrite fac_unit by auto.
      rewrite Nat.eqb_refl. cbn. apply andb_true_r.
    + apply seq_NoDup.
    + apply in_seq. lia.
    + intros j I D. apply in_seq in I. rewrite nth_the_ops by lia. destruct (Nat.ltb_spec j n).
      * unfold x_op. rewrite fac_unit by auto. rewrite (proj2 (Nat.eqb_neq j q)) by auto. cbn. apply andb_false_r.
      * unfold z_op. rewrite fac_unit by lia. destruct (j - n =? q); cbn; apply andb_false_r.
  - rewrite (parity_one _ (n + q)).
    + rewrite nth_the_ops by lia. rewrite (proj2 (Nat.ltb_ge (n + q) n)) by lia. unfold z_op.
      replace (n + q - n) with q by lia. rewrite fac_unit by auto.
      rewrite Nat.eqb_refl. cbn. apply andb_true_r.
    + apply seq_NoDup.
    + apply in_seq. lia.
    + intros j I D. apply in_seq in I. rewrite nth_the_ops by lia. destruct (Nat.ltb_spec j n).
      * unfold x_op. rewrite fac_unit by auto. destruct (j =? q); cbn; apply andb_false_r.
      * unfold z_op. rewrite fac_unit by lia. rewrite (proj2 (Nat.eqb_neq (j - n) q)) by lia. cbn. apply andb_false_r.
Qed.

Theorem result_frame_ok : existsb k_new (filter has_edges (sg_comps g)) = false ->
  exists fr, result_frame g = Ok fr /\ length (ops fr) = n /\ forall q, q < n ->
    fac fr q = (parity (map (fun t => fst (result_errors rounds n (sg_result g) t q)) (seq 0 rounds)),
                parity (map (fun t => snd (result_errors rounds n (sg_result g) t q)) (seq 0 rounds))).
Proof.
  intros NN. unfold result_frame. destruct (result_selection_ok NN) as (sel & -> & L & X). cbn [bindR].
  rewrite (rd_ops _ _ _ _ _ _ _ R). rewrite (take_ok _ _ row0).
  2: { intros j I. apply nonzero_lt in I. rewrite length_the_ops. lia. }
  cbn [bindR].
  assert (Y : forall q, q < n -> (nth q sel false, nth (n + q) sel false) =
      (parity (map (fun t => fst (result_errors rounds n (sg_result g) t q)) (seq 0 rounds)),
       parity (map (fun t => snd (result_errors rounds n (sg_result g) t q)) (seq 0 rounds)))).
  { intros q Lq. rewrite !X by lia. f_equal; apply parity_ext; intros t I; apply in_seq in I;
      unfold result_errors; rewrite (proj2 (Nat.ltb_lt t rounds)) by lia; reflexivity. }
  set (os := map (fun i => nth i (the_ops n) row0) (nonzero sel)).
  assert (LO : forall o, In o os -> length (ops o) = n).
  { intros o I. apply in_map_iff in I. destruct I as (j & <- & I). apply the_ops_length, nth_In.
    apply nonzero_lt in I. rewrite length_the_ops. lia. }
  assert (Z : forall q, q < n -> nth q (xor_all n os) (false, false) = (nth q sel false, nth (n + q) sel false)).
  { intros q Lq. rewrite nth_xor_all by auto. unfold os. rewrite !map_map.
    rewrite (parity_nonzero (fun j => fst (fac (nth j (the_ops n) row0) q))),
            (parity_nonzero (fun j => snd (fac (nth j (the_ops n) row0) q))), L.
    apply selected_bits; auto. }
  destruct os as [|o os'] eqn:EO.
  - eexists. split; [rewrite (rd_n _ _ _ _ _ _ _ R); reflexivity|]. split; [apply repeat_length|].
    intros q Lq. rewrite <- Y, <- Z by auto. cbn. reflexivity.
  - destruct (multiply_any n (o :: os')) as (r & ph & -> & Ro); [discriminate|auto|]. cbn [bindR fst].
    exists r. split; [auto|]. split; [rewrite Ro; apply length_xor_all; auto|].
    intros q Lq. unfold fac. rewrite Ro, Z, Y by auto. reflexivity.
Qed.

Lemma result_frame_new : existsb k_new (filter has_edges (sg_comps g)) = true -> result_frame g = Err ValueError.
Proof. intros NN. unfold result_frame, result_selection. rewrite NN. reflexivity. Qed.
End Comp.
End Ops.
