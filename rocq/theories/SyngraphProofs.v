(** The constructor and the other methods of [SyndromeGraph]. *)
Require Import List Bool Arith ZArith QArith Lia Relations.
From Verif Require Import Base BaseProofs QSpec PauliModel PauliAlg MeasureProofs GraphSpec GraphProofs GraphComponents
  ErasureModel ErasureProofs SyngraphModel SyngraphBuild SyngraphDup SyngraphComp SyngraphObjs.
Import ListNotations.
Open Scope nat_scope.
Local Arguments incident : simpl never.
Local Arguments upd : simpl never.

(** * Weights *)

(** The weight which an argument gives for an index. *)
Definition weight_at (s : wspec) (i : nat) : weight :=
  match s with WNum w => w | WArr [w] => w | WArr l => nth i l NaN end.
(** The argument can be used for [k] objects. *)
Definition fits (k : nat) (s : wspec) : Prop :=
  match s with WNum _ => True | WArr l => length l = k \/ length l = 1 \/ (k = 1 /\ l <> []) end.
Definition fits_all (n m : nat) (w : warg) : Prop := fits n (w_x w) /\ fits n (w_z w) /\ fits m (w_meas w).
Definition kind_weight (w : option warg) (k : ekind) : weight :=
  match w with
  | None => NaN
  | Some w =>
      match k with
      | QubitError _ _ q PX => weight_at (w_x w) q
      | QubitError _ _ q PZ => weight_at (w_z w) q
      | QubitError _ _ _ _ => NaN
      | StabError _ s => weight_at (w_meas w) s
      end
  end.

Lemma broadcast_ok k s : fits k s -> exists l, broadcast k s = Ok l /\ forall i, i < k -> get l i = Ok (weight_at s i).
Proof.
  destruct s as [w|l]; cbn.
  - intros _. exists (repeat w k). split; auto. intros i L.
    rewrite (get_nth _ _ NaN) by (rewrite repeat_length; auto). rewrite nth_repeat_lt; auto.
  - intros F. destruct ((length l =? k) || (k =? 1)) eqn:X.
    + exists l. split; auto. intros i L. assert (Ll : i < length l).
      { apply orb_true_iff in X. destruct X as [X|X]; apply Nat.eqb_eq in X; [lia|].
        destruct F as [F|[F|[_ F]]]; try lia. destruct l; [congruence|cbn; lia]. }
      rewrite (get_nth _ _ NaN) by auto. f_equal. destruct l as [|w [|w' l]]; auto.
      destruct i; auto. cbn in Ll. lia.
    + apply orb_false_iff in X. destruct X as [X Y]. apply Nat.eqb_neq in X, Y.
      destruct F as [F|[F|[F _]]]; try congruence. destruct l as [|w [|w' l]]; cbn in F; try lia.
      exists (repeat w k). split; auto. intros i L.
      rewrite (get_nth _ _ NaN) by (rewrite repeat_length; auto). rewrite nth_repeat_lt; auto.
Qed.

Section New.
Variables (rounds : nat) (s0 : row) (gens' : list row).
Notation gens := (s0 :: gens').
Notation n := (length (ops s0)).
Notation m := (length gens).
Hypothesis Hn : 0 < n.
Hypothesis Hg : forall g, In g gens -> length (ops g) = n.
Variable w : option warg.
Hypothesis Hw : match w with None => True | Some w => fits_all n m w end.

Definition edges : list (list nat) := map fst (the_edges rounds n gens).
Definition kinds : list ekind := map snd (the_edges rounds n gens).
Definition weights : list weight := map (kind_weight w) kinds.
Notation nv := (rounds * m).
Notation E := edges.
Notation W := weights.
Notation bt := (built rounds n m (the_ops n) (the_verts rounds gens) (the_times rounds gens)).

Lemma kinds_in k : In k kinds -> match k with
  | QubitError t op q p => t < rounds /\ op < 2 * n /\ (q, p) = letter_of n op /\ q < n /\ (p = PX \/ p = PZ)
  | StabError t s => 0 < t < rounds /\ s < m end.
Proof.
  unfold kinds, the_edges. rewrite map_app. intros I. apply in_app_or in I. destruct I as [I|I].
  - apply in_map_iff in I. destruct I as (e & <- & I). apply in_flat_map in I. destruct I as (t & It & I).
    apply in_map_iff in I. destruct I as (op & <- & I). apply in_seq in It, I. cbn.
    unfold letter_of. destruct (Nat.ltb_spec op n); cbn; repeat split; auto; try lia.
  - apply in_map_iff in I. destruct I as (e & <- & I). apply in_flat_map in I. destruct I as (t & It & I).
    apply in_map_iff in I. destruct I as (s & <- & I). apply in_seq in It, I. cbn -[length]. lia.
Qed.

Lemma edges_small : two_at_most n gens -> small_edges nv E.
Proof.
  intros T e I. unfold edges, the_edges in I. rewrite map_app in I. apply in_app_or in I. destruct I as [I|I].
  - apply in_map_iff in I. destruct I as (e' & <- & I). apply in_flat_map in I. destruct I as (t & It & I).
    apply in_map_iff in I. destruct I as (k & <- & I). apply in_seq in It, I. cbn [fst qubit_edge].
    pose proof (T k ltac:(lia)) as L.
    assert (B : forall s, In s (touched gens (nth k (the_ops n) row0)) -> s < m) by (intros; eapply touched_lt; eauto).
    pose proof (nonzero_NoDup (map (commutator_sign (nth k (the_ops n) row0)) gens)) as N.
    unfold touched in *. destruct (nonzero _) as [|a [|b [|c l]]]; [left; auto| | |cbn in L; lia]; right; [left|right].
    + exists (t * m + a). split; [reflexivity|]. pose proof (B a (or_introl eq_refl)). nia.
    + exists (t * m + a), (t * m + b). split; [reflexivity|]. inversion N as [|? ? NI _]; subst.
      pose proof (B a (or_introl eq_refl)). pose proof (B b (or_intror (or_introl eq_refl))).
      split; [|split; nia]. intros X. apply NI. left. lia.
  - apply in_map_iff in I. destruct I as (e' & <- & I). apply in_flat_map in I. destruct I as (t & It & I).
    apply in_map_iff in I. destruct I as (s & <- & I). apply in_seq in It, I. cbn [fst stab_edge]. right. right.
    exists ((t - 1) * m + s), (t * m + s). split; [reflexivity|]. assert (0 < m) by (cbn; lia).
    destruct t as [|t]; [lia|]. replace (S t - 1) with t by lia. split; [|split]; nia.
Qed.

Lemma length_weights : length W = length E.
Proof. unfold weights, kinds, edges. rewrite !map_length. auto. Qed.
Lemma length_kinds : length kinds = length E.
Proof. unfold kinds, edges. rewrite !map_length. auto. Qed.

(** The object after [__init__]. *)
Record ready (vl : nat -> nat) (K : nat) (g : sgraph) : Prop := mkReady {
  rd_rounds : sg_rounds g = rounds;
  rd_n : sg_n g = n;
  rd_m : sg_m g = m;
  rd_ops : sg_ops g = the_ops n;
  rd_verts : sg_verts g = the_verts rounds gens;
  rd_ends : sg_ends g = E;
  rd_kind : sg_kind g = kinds;
  rd_wt : sg_wt g = W;
  rd_onlen : length (sg_on g) = length E;
  rd_on : forall i, i < length E -> enabled g i = negb (is_inf (wof W i)) && negb (beaten E W i);
  rd_result : length (sg_result g) = length E;
  rd_lab : labelling nv E (enabled g) vl K;
  rd_shape : map shape_of (sg_comps g) = map (shape nv E (enabled g) vl) (seq 0 K);
  rd_kwt : map k_wt (sg_comps g) = map (fun c => map (wof W) (edges_of E (enabled g) vl c)) (seq 0 K)
}.

Lemma set_weights_ok g0 : sg_n g0 = n -> sg_m g0 = m -> sg_kind g0 = kinds -> sg_wt g0 = repeat NaN (length E) ->
  match w with Some w => set_edge_weights w g0 | None => Ok g0 end = Ok (set_wt W g0).
Proof.
  intros En Em Ek Ew. unfold weights. destruct w as [a|].
  - unfold set_edge_weights. destruct Hw as (F1 & F2 & F3). rewrite En, Em, Ek.
    destruct (broadcast_ok n _ F1) as (px & -> & X1). cbn [bindR].
    destruct (broadcast_ok n _ F2) as (pz & -> & X2). cbn [bindR].
    destruct (broadcast_ok m _ F3) as (ms & -> & X3). cbn [bindR].
    rewrite (mapR_ok _ (kind_weight (Some a))); [reflexivity|].
    intros k I. apply kinds_in in I. destruct k as [t op q p|t s].
    + destruct I as (_ & _ & _ & L & [-> | ->]); cbn [edge_weight kind_weight]; auto.
    + cbn [edge_weight kind_weight]. apply X3. tauto.
  - f_equal. rewrite (map_ext_in _ (fun _ => NaN)) by (intros; auto).
    assert (X : map (fun _ : ekind => NaN) kinds = repeat NaN (length E)).
    { rewrite <- length_kinds. clear. induction kinds; cbn; congruence. }
    rewrite X, <- Ew. destruct g0; reflexivity.
Qed.

Definition g1 : sgraph := set_wt W (bt (the_edges rounds n gens)).
Definition g2 : sgraph := disable_inf g1.

Lemma g2_on i : nth i (sg_on g2) false = (i <? length E) && negb (is_inf (wof W i)).
Proof.
  unfold g2, disable_inf, g1. cbn [sg_on set_on set_wt sg_wt built].
  destruct (Nat.ltb_spec i (length E)) as [L|L].
  - set (f := fun ow : bool * weight => if is_inf (snd ow) then false else fst ow).
    assert (LL : length (combine (repeat true (length (the_edges rounds n gens))) W) = length E).
    { rewrite combine_length, repeat_length, length_weights. unfold edges. rewrite map_length. lia. }
    rewrite (nth_indep _ false (f (true, NaN))) by (rewrite map_length, LL; auto).
    rewrite map_nth, combine_nth by (rewrite repeat_length, length_weights; unfold edges; rewrite map_length; auto).
    unfold f. cbn [fst snd]. rewrite nth_repeat_lt by (unfold edges in L; rewrite map_length in L; auto).
    unfold wof. destruct (is_inf _); auto.
  - rewrite nth_overflow; auto. rewrite map_length, combine_length, repeat_length, length_weights.
    unfold edges in *. rewrite map_length in *. lia.
Qed.

Lemma g2_len : length (sg_on g2) = length E.
Proof.
  unfold g2, disable_inf, g1. cbn [sg_on set_on set_wt sg_wt built].
  rewrite map_length, combine_length, repeat_length, length_weights. unfold edges. rewrite map_length. lia.
Qed.

Lemma shape_comps vc g0 wt K : map shape_of (map (comp_of nv E g0 vc wt) (seq 0 K)) =
  map (shape nv E (enabled g0) (vl vc)) (seq 0 K).
Proof. rewrite map_map. apply map_ext. intros c. reflexivity. Qed.

Lemma new_prefix : two_at_most n gens ->
  new_sgraph rounds gens w = do g <- disable_duplicates g2;
      do gc <- find_components g; do g <- init_components (fst gc) (snd gc); weights_on_components g.
Proof.
  intros T. cbv beta iota zeta delta [new_sgraph]. rewrite error_ops_eq. cbn [bindR].
  rewrite (init_vertices_eq m rounds). cbn beta iota zeta.
  change (flat_map (fun t => map (pair t) (seq 0 m)) (seq 0 rounds)) with (the_verts rounds gens).
  change (map (fun t => seq (t * m) m) (seq 0 rounds)) with (the_times rounds gens).
  match goal with |- context [init_qubit_edges gens ?x] => replace x with (bt []) end.
  2: { unfold built. cbn [map length repeat]. f_equal; clear; generalize (length (the_verts rounds gens)); intros k.
       - generalize 0. induction k as [|k IH]; intros a; cbn; [auto|rewrite IH; auto].
       - generalize 0. induction k as [|k IH]; intros a; cbn; [auto|rewrite IH; auto]. }
  rewrite init_qubit_edges_ok by auto. cbn [bindR]. rewrite init_stab_edges_ok. cbn [bindR].
  change (_ ++ _) with (the_edges rounds n gens).
  rewrite set_weights_ok; [reflexivity|reflexivity..|].
  - cbn [sg_wt built]. unfold edges. rewrite map_length. auto.
  - exact Hn.
Qed.

Lemma edges_lt : two_at_most n gens -> forall e v, In e E -> In v e -> v < nv.
Proof.
  intros T e v Ie Iv. destruct (edges_small T e Ie) as [-> | [(x & -> & L)|(a & b & -> & _ & L1 & L2)]].
  - destruct Iv.
  - destruct Iv as [<-|[]]; auto.
  - destruct Iv as [<-|[<-|[]]]; auto.
Qed.

Theorem new_ok : two_at_most n gens -> ~ bad_pair E W ->
  exists vl K g, new_sgraph rounds gens w = Ok g /\ ready vl K g /\ sg_result g = repeat false (length E) /\
    (forall k, In k (sg_comps g) -> k_result k = repeat false (length (k_edges k)) /\ k_new k = true /\
       k_syn k = repeat false (k_n k) /\ k_erased k = None).
Proof.
  intros T B. rewrite new_prefix by auto.
  assert (NV : length (the_verts rounds gens) = nv) by apply length_the_verts.
  destruct (disable_duplicates_ok E W length_weights g2) with (nv := nv) as [[B' _]|(_ & on & -> & Lon & X)]; auto.
  { cbn [sg_vedges g2 disable_inf set_on g1 set_wt built]. rewrite NV. auto. }
  { apply edges_lt; auto. }
  { contradiction. }
  cbn [bindR]. rewrite g2_len in Lon. set (g3 := set_on on g2).
  destruct (find_components_ok nv E g3) as (vc & ec & K & -> & D & A).
  - exact NV.
  - reflexivity.
  - cbn [sg_vedges g3 g2 disable_inf set_on g1 set_wt built]. rewrite NV. auto.
  - cbn [sg_vneigh g3 g2 disable_inf set_on g1 set_wt built]. rewrite NV. auto.
  - apply edges_small; auto.
  - exact Lon.
  - cbn [sg_vcomp g3 g2 disable_inf set_on g1 set_wt built]. rewrite NV. auto.
  - cbn [sg_ecomp g3 g2 disable_inf set_on g1 set_wt built]. unfold edges. rewrite map_length. auto.
  - cbn [bindR fst snd].
    assert (SM : small_edges nv E) by (apply edges_small; auto).
    rewrite (init_components_ok nv E g3 eq_refl SM Lon K vc ec D A W length_weights eq_refl).
    exists (vl vc), K. eexists. split; [reflexivity|]. split; [|split].
    + split; auto.
      * intros i L. change (enabled _ i) with (nth i on false). rewrite X, g2_on by auto.
        apply Nat.ltb_lt in L. rewrite L. reflexivity.
      * cbn [sg_result set_comps mg set_ecomp set_vcomp g3 set_on g2 disable_inf g1 set_wt built].
        rewrite repeat_length. unfold edges. rewrite map_length. auto.
      * exact (the_labelling nv E g3 SM Lon K vc ec D A).
      * cbn [sg_comps set_comps]. change (enabled (set_comps _ _)) with (enabled g3). apply shape_comps.
      * change (enabled (set_comps _ _)) with (enabled g3). cbn [sg_comps set_comps]. rewrite map_map. apply map_ext. intros c. reflexivity.
    + cbn [sg_result set_comps mg set_ecomp set_vcomp g3 set_on g2 disable_inf g1 set_wt built].
      unfold edges. rewrite map_length. auto.
    + cbn [sg_comps set_comps]. intros k I. apply in_map_iff in I. destruct I as (c & <- & _).
      unfold comp_of. cbn [k_result k_edges k_new k_syn k_n k_erased]. unfold local_edges. rewrite map_length. auto.
Qed.

Theorem new_bad_pair : two_at_most n gens -> bad_pair E W -> new_sgraph rounds gens w = Err ValueError.
Proof.
  intros T B. rewrite new_prefix by auto.
  destruct (disable_duplicates_ok E W length_weights g2) with (nv := nv) as [[_ ->]|(B' & _)]; auto.
  - cbn [sg_vedges g2 disable_inf set_on g1 set_wt built]. rewrite length_the_verts. auto.
  - apply edges_lt; auto.
  - contradiction.
Qed.

Theorem new_three : 0 < rounds -> ~ two_at_most n gens -> new_sgraph rounds gens w = Err ValueError.
Proof.
  intros R T. cbv beta iota zeta delta [new_sgraph]. rewrite error_ops_eq. cbn [bindR].
  rewrite (init_vertices_eq m rounds). cbn beta iota zeta.
  change (flat_map (fun t => map (pair t) (seq 0 m)) (seq 0 rounds)) with (the_verts rounds gens).
  change (map (fun t => seq (t * m) m) (seq 0 rounds)) with (the_times rounds gens).
  match goal with |- context [init_qubit_edges gens ?x] => replace x with (bt []) end.
  2: { unfold built. cbn [map length repeat]. f_equal; clear; generalize (length (the_verts rounds gens)); intros k.
       - generalize 0. induction k as [|k IH]; intros a; cbn; [auto|rewrite IH; auto].
       - generalize 0. induction k as [|k IH]; intros a; cbn; [auto|rewrite IH; auto]. }
  rewrite init_qubit_edges_fail by auto. reflexivity.
Qed.
End New.
