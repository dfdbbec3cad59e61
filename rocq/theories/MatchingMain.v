(** Decoders which call PyMatching or Fusion Blossom: outcomes for error histories. *)
Require Import List Bool Arith ZArith QArith Qround Lqa Lia Relations.
From Verif Require Import Base BaseProofs QSpec PauliModel PauliAlg MeasureProofs GraphSpec GraphProofs
  LatticeSpec LatticeOps GeneratorSpec ErasureModel SyngraphModel SyngraphBuild SyngraphDup SyngraphProofs SyngraphErrors SyngraphFinal UnionFindMetric
  Props_Syngraph DecoderSpec DecoderModel DecoderProofs DecoderObjects DecoderHistory DecoderDistance FaultSpec DecoderFaults DecoderEven
  MatchingModel MatchingSpec MatchingComp MatchingProofs MatchingGraph MatchingDecode.
Import ListNotations.
Open Scope nat_scope.
Local Arguments incident : simpl never.

(** * The two libraries *)
Definition any_erased (er : list bool) : bool := existsb (fun b => b) er.
Definition none_refused (_ : list bool) : bool := false.

Lemma py_new_cases k : proper k -> (sane (k_wt k) /\ exists b, py_new k = Ok b) \/ (~ sane (k_wt k) /\ exists e, py_new k = Err e).
Proof. intros P. destruct (py_new_ok k P) as [(A & b & B & _)|(A & B)]; eauto. Qed.
Lemma py_new_same k k' : k_n k = k_n k' -> k_edges k = k_edges k' -> k_wt k = k_wt k' -> py_new k = py_new k'.
Proof.
  intros A B C.
  assert (X : forall b l s, foldR (py_edge k b) l s = foldR (py_edge k' b) l s).
  { intros b l. induction l as [|x l IH]; intros s; auto. cbn [foldR].
    assert (Y : py_edge k b s x = py_edge k' b s x) by (unfold py_edge; rewrite A, C; reflexivity). rewrite Y.
    destruct (py_edge k' b s x); auto. cbn [bindR]. apply IH. }
  unfold py_new. assert (W : is_weighted false k = is_weighted false k') by (unfold is_weighted; rewrite C; reflexivity).
  rewrite W, C, B, A. destruct (is_weighted false k') as [b|]; auto. cbn [bindR]. rewrite X. reflexivity.
Qed.
Lemma py_dec_cases solver : pm_contract solver -> forall k b er, proper k -> py_new k = Ok b -> length (k_syn k) = k_n k -> k_erased k = Some er ->
  length er = length (k_edges k) -> explainable (k_n k) (k_edges k) (fun _ => True) (bits (k_syn k)) ->
  if any_erased er then py_decode solver b k = Err ValueError else exists res, py_decode solver b k = Ok res /\ best k (py_cost (k_wt k)) res.
Proof.
  intros C k b er P N L E LE X. destruct (py_new_ok k P) as [(A & b' & B & G)|(A & B)]; rewrite N in B; [injection B as <-|discriminate].
  destruct (any_erased er) eqn:Q.
  - unfold py_decode. rewrite E. cbn [bindR]. unfold any_erased in Q. rewrite Q. reflexivity.
  - apply (py_decode_ok solver k b er); auto. apply (pr_weights _ P).
Qed.

Lemma fb_new_cases k : proper k -> (scalable (k_wt k) /\ exists b, fb_new k = Ok b) \/ (~ scalable (k_wt k) /\ exists e, fb_new k = Err e).
Proof. intros P. destruct (fb_new_ok k P) as [(A & b & B & _)|(A & e & B & _)]; eauto. Qed.
Lemma fb_new_same k k' : k_n k = k_n k' -> k_edges k = k_edges k' -> k_wt k = k_wt k' -> fb_new k = fb_new k'.
Proof. intros A B C. unfold fb_new, fb_weights, is_weighted. rewrite A, B, C. reflexivity. Qed.
Lemma fb_dec_cases solver : fb_contract solver -> forall k b er, proper k -> fb_new k = Ok b -> length (k_syn k) = k_n k -> k_erased k = Some er ->
  length er = length (k_edges k) -> explainable (k_n k) (k_edges k) (fun _ => True) (bits (k_syn k)) ->
  if none_refused er then fb_decode solver b k = Err ValueError else exists res, fb_decode solver b k = Ok res /\ best k (fb_cost er (k_wt k)) res.
Proof.
  intros C k b er P N L E LE X. destruct (fb_new_ok k P) as [(A & b' & B & G)|(A & e & B & _)]; rewrite N in B; [injection B as <-|discriminate].
  cbn. apply (fb_decode_ok solver k b er); auto. apply (pr_weights _ P).
Qed.

(** * Corrections and logical operators *)
Lemma frame_corrected rounds n gens w g g' fr syn E F l allow side D c :
  uses rounds n gens w g -> uses rounds n gens w g' -> sane_weights w n (length gens) ->
  sg_ends g' = sg_ends g -> sg_kind g' = sg_kind g ->
  (forall i, nth i (sg_result g') false = true -> active g i) ->
  explains (length (sg_verts g)) (sg_ends g) (bits (sg_result g')) (vertex_bit g syn) ->
  result_frame g' = Ok fr -> explained w rounds n gens syn E F -> detected_by n gens allow side l ->
  (forall sel, (forall i, i < length (sg_ends g) -> sel i = true -> is_inf (weight_of g i) = false) ->
    (forall v, v < length (sg_verts g) -> boundary (sg_ends g) sel v = false) ->
    parity (map (fun i => sel i && flip g l i) (seq 0 (length (sg_ends g)))) = true ->
    (D <= qsum (fun i => if sel i then c i else 0) (seq 0 (length (sg_ends g))))%Q) ->
  (qsum (fun i => if relevant g allow side i && xorb (nth i (sg_result g') false) (happened E F (kind_of g i)) then c i else 0)
    (seq 0 (length (sg_ends g))) < D)%Q ->
  anti (seq 0 n) l (fun q => pxor (fac fr q) (total rounds E q)) = false.
Proof.
  intros U U' SW EE EK AC XP FR EX DET DIST LT. rewrite anti_xor_r.
  rewrite (frame_flips _ _ _ _ _ _ l U' FR), <- (history_flips rounds n gens w g U l E F).
  assert (FL : forall i, flip g' l i = flip g l i) by (intros i; unfold flip, kind_of; rewrite EK; auto).
  rewrite EE. rewrite (parity_ext (fun i => nth i (sg_result g') false && flip g' l i)
    (fun i => nth i (sg_result g') false && flip g l i)) by (intros; rewrite FL; auto).
  apply xorb_eq_false.
  apply (same_flips g (relevant g allow side) (relevant_same rounds n gens w g U l allow side DET) (vertex_bit g syn)
    (fun i => nth i (sg_result g') false) (fun i => happened E F (kind_of g i))
    (history_finite rounds n gens w g U SW syn E F EX) (history_boundary rounds n gens w g U syn E F EX) (flip g l) D c); auto.
  - intros i. apply (flip_relevant rounds n gens w g U l allow side DET).
  - intros i Li R. apply AC in R. apply (C31_parallel _ _ _ _ _ U i Li) in R. tauto.
Qed.

(** The weight of the result as a history. *)
Lemma result_any v rounds n gens w g g' : uses rounds n gens w g -> uses rounds n gens w g' -> sg_ends g' = sg_ends g -> sg_kind g' = sg_kind g ->
  (qsum (fun i => if nth i (sg_result g') false then kind_cost v (kind_of g i) else 0) (seq 0 (length (sg_ends g))) ==
   history_weight v rounds n (length gens) (result_errors rounds n (sg_result g')) (result_flips rounds n gens (sg_result g')))%Q.
Proof.
  intros U U' EE EK.
  assert (X : forall i, i < length (sg_ends g') -> happened (result_errors rounds n (sg_result g')) (result_flips rounds n gens (sg_result g')) (kind_of g' i) = nth i (sg_result g') false).
  { intros i I. pose proof U' as (G & _). pose proof (Hm n gens G) as Hm.
    destruct (uses_ready _ _ _ _ _ U') as (s0 & gens' & -> & -> & _ & _ & vl & K & R & _).
    unfold kind_of. rewrite (rd_kind _ _ _ _ _ _ _ R). unfold kinds. apply result_happened; auto.
    rewrite (rd_ends _ _ _ _ _ _ _ R) in I. unfold edges in I. rewrite map_length in I. auto. }
  pose proof (history_any rounds n gens w g' U' v (fun _ => true) (fun _ => true) (result_errors rounds n (sg_result g')) (result_flips rounds n gens (sg_result g'))) as H.
  rewrite EE in H. unfold history_weight, those_errors, those_results in *. cbn [andb fst snd] in H. rewrite <- H.
  apply qsum_ext. intros i I. apply in_seq in I. rewrite X by (rewrite EE; lia).
  unfold relevant. assert (rel_kind (fun _ => true) (fun _ => true) (kind_of g' i) = true) as -> by (destruct (kind_of g' i); auto).
  unfold kind_of. rewrite EK. reflexivity.
Qed.
Lemma result_weight rounds n gens w g g' : uses rounds n gens w g -> uses rounds n gens w g' -> sg_ends g' = sg_ends g -> sg_kind g' = sg_kind g ->
  (qsum (fun i => if nth i (sg_result g') false then ecost w g i else 0) (seq 0 (length (sg_ends g))) ==
   history_weight w rounds n (length gens) (result_errors rounds n (sg_result g')) (result_flips rounds n gens (sg_result g')))%Q.
Proof. intros. apply (result_any w rounds n gens w); auto. Qed.

Lemma xor_cost (rel res E : nat -> bool) (c : nat -> Q) l : (forall i, In i l -> 0 <= c i)%Q ->
  (qsum (fun i => if rel i && xorb (res i) (E i) then c i else 0) l <=
   qsum (fun i => if rel i && res i then c i else 0) l + qsum (fun i => if rel i && E i then c i else 0) l)%Q.
Proof.
  intros P. rewrite <- qsum_plus. apply qsum_le. intros i I. specialize (P i I). destruct (rel i), (res i), (E i); cbn; lra.
Qed.

(** * PyMatching *)
Section Py.
Variables (rounds n : nat) (gens : list row) (w : option warg) (g : sgraph).
Hypothesis U : uses rounds n gens w g.
Hypothesis SW : sane_weights w n (length gens).
Notation m := (length (sg_ends g)).

Lemma comp_weight k j : In k (sg_comps g) -> j < length (k_eidx k) ->
  nth j (k_wt k) NaN = weight_of g (nth j (k_eidx k) 0) /\ nth j (k_eidx k) 0 < m /\
  nth (nth j (k_eidx k) 0) (sg_on g) false = true /\ is_inf (weight_of g (nth j (k_eidx k) 0)) = false.
Proof.
  intros Ik Lj. destruct (C50_components _ _ _ _ _ U) as (_ & CK & _). destruct (CK k Ik) as (_ & _ & _ & _ & _ & _ & _ & _ & _ & _ & WT).
  pose proof (nth_In (k_eidx k) 0 Lj) as I. destruct (comp_edge rounds n gens w g U k _ Ik I) as (Li & A & _).
  split; [|split; [auto|]; split; auto; apply (C31_parallel _ _ _ _ _ U _ Li) in A; tauto].
  rewrite WT, (nth_indep _ _ (weight_of g 0)) by (rewrite map_length; auto). apply (map_nth (weight_of g)).
Qed.

Lemma py_cost_edge k j : In k (sg_comps g) -> j < length (k_eidx k) -> py_cost (k_wt k) j = ecost w g (nth j (k_eidx k) 0).
Proof.
  intros Ik Lj. destruct (comp_weight k j Ik Lj) as (X & Li & A & N). unfold py_cost. rewrite X.
  pose proof (kind_sane rounds n gens w g U SW _ Li N) as K. destruct w; [destruct K as (q & -> & _ & ->)|destruct K as [-> ->]]; auto.
Qed.

Lemma sane_comps k : In k (sg_comps g) -> length (k_wt k) = length (k_eidx k) -> sane (k_wt k).
Proof.
  intros Ik L.
  assert (A : forall x, In x (k_wt k) -> match w with None => x = NaN | Some _ => exists q, x = Fin q /\ (0 <= q)%Q end).
  { intros x I. apply (In_nth _ _ NaN) in I. destruct I as (j & Lj & <-). destruct (comp_weight k j Ik ltac:(lia)) as (-> & Li & _ & N).
    pose proof (kind_sane rounds n gens w g U SW _ Li N) as K. destruct w; [destruct K as (q & -> & P & _); eauto|tauto]. }
  clear - A. destruct w; [right|left]; exact A.
Qed.

Lemma py_cheapest syn er result E F rel :
  (forall i, (forall k, In k (sg_comps g) -> ~ In i (k_eidx k)) -> nth i result false = false) ->
  cheapest (fun _ => py_cost) g er syn result ->
  (forall i j v, i < m -> j < m -> In v (nth i (sg_ends g) []) -> In v (nth j (sg_ends g) []) -> rel i = rel j) ->
  explained w rounds n gens syn E F ->
  (qsum (fun i => if rel i && nth i result false then ecost w g i else 0) (seq 0 m) <=
   qsum (fun i => if rel i && happened E F (kind_of g i) then ecost w g i else 0) (seq 0 m))%Q.
Proof.
  intros OUT CH REL EX. apply (result_cost rounds n gens w g U SW syn result OUT (ecost w g) (ecost w g)); auto.
  - intros k Ik sel XS. eapply Qle_trans; [|eapply Qle_trans; [apply (CH k Ik sel XS)|]]; apply Qle_lteq; right; apply qsum_ext; intros j J; apply in_seq in J;
      rewrite (py_cost_edge k j) by (auto; lia); reflexivity.
  - apply (ecost_pos rounds n gens w g U SW).
  - intros i j Li Lj A Nj _ W. apply (lighter rounds n gens w g U SW); auto. apply (C31_parallel _ _ _ _ _ U i Li) in A. tauto.
Qed.
End Py.

(** * Fusion Blossom *)
Definition kind_price2 (a b n : nat) (gens : list row) (allow : pauli1 -> bool) (side : nat -> bool) er E F (k : ekind) : nat :=
  nb (rel_kind allow side k) * match k with
  | QubitError t _ q p => price a b n gens er E p t q
  | StabError t s => nb (F t s) * a
  end.

Section Fb.
Variables (rounds n : nat) (gens : list row) (w : option warg) (g : sgraph).
Hypothesis U : uses rounds n gens w g.
Notation m := (length (sg_ends g)).
Notation on i := (nth i (sg_on g) false).

(** ** Prices *)
Lemma price_bound2 a b allow side er E F : b <= a -> (forall i, i < m -> is_inf (weight_of g i) = false) -> (forall s, s < length gens -> F 0 s = false) ->
  sum (fun i => nb (relevant g allow side i) * (if marked g er i && on i then b else nb (happened E F (kind_of g i)) * a)) (seq 0 m) <=
  total_price a b rounds n gens allow side er E F.
Proof.
  intros LE FIN F0. eapply Nat.le_trans; [apply (sum_le _ (fun i => kind_price2 a b n gens allow side er E F (kind_of g i)))|].
  - intros i I. apply in_seq in I. assert (Li : i < m) by lia. unfold kind_price2, relevant, marked.
    pose proof (inactive_twin rounds n gens w g U FIN i) as T. destruct (weight_kind _ _ _ _ _ _ U Li) as [_ K].
    destruct (kind_of g i) as [t op q p|t s]; apply Nat.mul_le_mono_l.
    + cbn [happened]. unfold price, erased. specialize (T t op q p Li eq_refl).
      destruct K as (_ & _ & PP).
      assert (HP : match p with PX => fst (E t q) | PZ => snd (E t q) | _ => false end = error_part p (E t q)) by (destruct p; auto).
      rewrite HP. clear HP.
      destruct er as [e|]; [destruct (nth q (nth t e []) false)|]; cbn [andb].
      * destruct (on i); cbn [andb negb nb]; [destruct (has_twin n gens p q); lia|].
        rewrite T by auto. destruct (error_part p (E t q)); cbn [nb andb]; lia.
      * destruct (error_part p (E t q)); cbn [nb andb negb]; lia.
      * destruct (error_part p (E t q)); cbn [nb andb negb]; lia.
    + cbn [happened andb negb nb]. lia.
  - rewrite (sum_kinds rounds n gens w g U (kind_price2 a b n gens allow side er E F)). unfold total_price, kind_price2. cbn [rel_kind].
    apply Nat.add_le_mono.
    + assert (X : forall p, sum (fun t => sum (price a b n gens er E p t) (seq 0 n)) (seq 0 rounds) * nb (allow p) =
        sum (fun t => sum (fun q => nb (allow p) * price a b n gens er E p t q) (seq 0 n)) (seq 0 rounds)).
      { intros p. rewrite Nat.mul_comm, <- sum_mult. apply sum_ext. intros t _. rewrite sum_mult. auto. }
      rewrite (sum_ext _ (fun t => sum (fun q => nb (allow PX) * price a b n gens er E PX t q) (seq 0 n) +
        sum (fun q => nb (allow PZ) * price a b n gens er E PZ t q) (seq 0 n))) by (intros; apply sum_plus).
      rewrite sum_plus, <- !X. cbn [filter]. destruct (allow PX), (allow PZ); cbn [map nb]; rewrite ?sum_cons; cbn [list_sum fold_right map]; lia.
    + destruct rounds as [|k]; [cbn; lia|]. cbn [Nat.sub]. rewrite Nat.sub_0_r. cbn [seq]. rewrite sum_cons.
      eapply Nat.le_trans; [|apply Nat.le_add_l]. apply sum_le. intros t _. apply sum_le. intros s _.
      destruct (side s), (F t s); cbn [nb andb]; lia.
Qed.

Lemma qsum_nat {A} (f : A -> nat) l : (qsum (fun x => inject_Z (Z.of_nat (f x))) l == inject_Z (Z.of_nat (sum f l)))%Q.
Proof.
  induction l as [|x l IH]; [reflexivity|]. rewrite qsum_cons, IH, sum_cons, Nat2Z.inj_add, inject_Z_plus. reflexivity.
Qed.

(** ** The same weight everywhere *)
Variable len : nat.
Hypothesis SAME : same_weights n (length gens) w len.

Lemma same_sane : sane_weights w n (length gens).
Proof.
  destruct w as [a|]; [|exact I]. destruct SAME as (_ & x & P & H1 & H2). split.
  - intros q L. destruct (H1 q L) as [-> ->]. cbn. split; lra.
  - intros s L. rewrite (H2 s L). cbn. lra.
Qed.

Lemma qmax_same x l : l <> [] -> (forall q, In q l -> q = x) -> qmax l = x.
Proof. intros N H. apply H, qmax_in; auto. Qed.

Lemma fb_uniform : exists K, (0 < K)%Q /\ forall k j, In k (sg_comps g) -> j < length (k_eidx k) -> length (k_wt k) = length (k_eidx k) ->
  (inject_Z (2 * fb_scaled (k_wt k) j) == K)%Q.
Proof.
  destruct (same_weight _ _ _ _ _ _ U SAME) as (y & Y & H). 
  assert (HW : forall k j, In k (sg_comps g) -> j < length (k_eidx k) -> nth j (k_wt k) NaN = y).
  { intros k j Ik Lj. destruct (comp_weight rounds n gens w g U k j Ik Lj) as (-> & Li & _). auto. }
  destruct Y as [[_ ->]|(_ & x & -> & P)].
  - exists 2%Q. split; [reflexivity|]. intros k j Ik Lj _. unfold fb_scaled. rewrite HW by auto. reflexivity.
  - exists 200%Q. split; [reflexivity|]. intros k j Ik Lj LW. unfold fb_scaled. rewrite HW by auto.
    rewrite (qmax_same x).
    + rewrite (Qfloor_comp _ 100%Q); [reflexivity|]. field. intros Z. rewrite Z in P. discriminate.
    + unfold fins. intros Z. apply map_eq_nil in Z. rewrite Z in LW. cbn in LW. lia.
    + intros q I. unfold fins in I. apply in_map_iff in I. destruct I as (v & <- & I). apply (In_nth _ _ NaN) in I. destruct I as (i & Li & <-).
      rewrite HW by (auto; lia). auto.
Qed.

Definition gcost er (i : nat) : Q := if marked g er i && on i then 0%Q else 1%Q.

Lemma fb_even_cost syn er result E F rel :
  (forall i, (forall k, In k (sg_comps g) -> ~ In i (k_eidx k)) -> nth i result false = false) ->
  cheapest fb_cost g er syn result ->
  (forall i j v, i < m -> j < m -> In v (nth i (sg_ends g) []) -> In v (nth j (sg_ends g) []) -> rel i = rel j) ->
  explained w rounds n gens syn E F ->
  (qsum (fun i => if rel i && nth i result false then gcost er i else 0) (seq 0 m) <=
   qsum (fun i => if rel i && happened E F (kind_of g i) then gcost er i else 0) (seq 0 m))%Q.
Proof.
  intros OUT CH REL EX. destruct (C50_components _ _ _ _ _ U) as (_ & CK & _).
  apply (result_cost rounds n gens w g U same_sane syn result OUT (gcost er) (gcost er)); auto.
  - intros k Ik sel XS. destruct fb_uniform as (K & PK & HK). specialize (CH k Ik sel XS).
    assert (LW : length (k_wt k) = length (k_eidx k)) by (destruct (CK k Ik) as (_ & _ & _ & _ & _ & _ & _ & _ & _ & _ & ->); apply map_length).
    assert (X : forall f : nat -> bool, (qsum (fun j => if f j then fb_cost (map (marked g er) (k_eidx k)) (k_wt k) j else 0) (seq 0 (length (k_eidx k))) ==
      K * qsum (fun j => if f j then gcost er (nth j (k_eidx k) 0%nat) else 0) (seq 0 (length (k_eidx k))))%Q).
    { intros f. rewrite <- qsum_times. apply qsum_ext. intros j J. apply in_seq in J. destruct (f j); [|ring]. unfold fb_cost, gcost.
      destruct (comp_weight rounds n gens w g U k j Ik ltac:(lia)) as (_ & _ & -> & _). rewrite andb_true_r.
      rewrite (nth_indep _ false (marked g er 0)) by (rewrite map_length; lia). rewrite map_nth.
      destruct (marked g er (nth j (k_eidx k) 0)); [ring|]. rewrite HK by (auto; lia). ring. }
    rewrite !X in CH. apply Qmult_lt_0_le_reg_r with K; auto. rewrite !(Qmult_comm _ K). exact CH.
  - intros i _. unfold gcost. destruct (_ && _); lra.
  - intros i j Li Lj A Nj Q _. unfold gcost. destruct (on j) eqn:AJ; [rewrite Q, AJ by auto; lra|]. rewrite andb_false_r. destruct (_ && _); lra.
Qed.

Lemma fb_even_bound syn er result E F rel :
  (forall i, (forall k, In k (sg_comps g) -> ~ In i (k_eidx k)) -> nth i result false = false) ->
  cheapest fb_cost g er syn result ->
  (forall i j v, i < m -> j < m -> In v (nth i (sg_ends g) []) -> In v (nth j (sg_ends g) []) -> rel i = rel j) ->
  explained w rounds n gens syn E F ->
  (qsum (fun i => if rel i && xorb (nth i result false) (happened E F (kind_of g i)) then 1 else 0) (seq 0 m) <=
   inject_Z (Z.of_nat (sum (fun i => nb (rel i) * (if marked g er i && on i then 1 else nb (happened E F (kind_of g i)) * 2))%nat (seq 0 m))))%Q.
Proof.
  intros OUT CH REL EX. pose proof (fb_even_cost syn er result E F rel OUT CH REL EX) as C. rewrite <- qsum_nat.
  apply Qle_trans with (qsum (fun i => (if rel i && (marked g er i && on i) then 1 else 0) + (if rel i && happened E F (kind_of g i) then gcost er i else 0) +
    (if rel i && nth i result false then gcost er i else 0))%Q (seq 0 m)).
  - apply qsum_le. intros i _. unfold gcost. destruct (rel i), (nth i result false), (happened E F (kind_of g i)), (marked g er i && on i); cbn; lra.
  - rewrite qsum_plus. eapply Qle_trans; [apply Qplus_le_compat; [apply Qle_refl|exact C]|]. rewrite <- qsum_plus.
    apply Qle_lteq. right. apply qsum_ext. intros i _. unfold gcost.
    destruct (rel i), (happened E F (kind_of g i)), (marked g er i && on i); reflexivity.
Qed.
End Fb.

(** ** Different weights *)
Section Fw.
Variables (rounds n : nat) (gens : list row) (w : warg) (g : sgraph).
Hypothesis U : uses rounds n gens (Some w) g.
Hypothesis SW : sane_weights (Some w) n (length gens).
Notation m := (length (sg_ends g)).
Variable M : Q.
Hypothesis MAX : forall i, i < m -> is_inf (weight_of g i) = false -> (ecost (Some w) g i <= M)%Q.
Hypothesis SC : forall k, In k (sg_comps g) -> k_edges k <> [] -> scalable (k_wt k).

Lemma fb_weighted syn er result E F rel : (forall i, marked g er i = false) ->
  (forall i, (forall k, In k (sg_comps g) -> ~ In i (k_eidx k)) -> nth i result false = false) ->
  cheapest fb_cost g er syn result ->
  (forall i j v, i < m -> j < m -> In v (nth i (sg_ends g) []) -> In v (nth j (sg_ends g) []) -> rel i = rel j) ->
  explained (Some w) rounds n gens syn E F ->
  (qsum (fun i => if rel i && nth i result false then ecost (Some w) g i - M / 100 else 0) (seq 0 m) <=
   qsum (fun i => if rel i && happened E F (kind_of g i) then ecost (Some w) g i else 0) (seq 0 m))%Q.
Proof.
  intros NM OUT CH REL EX. destruct (C50_components _ _ _ _ _ U) as (_ & CK & _).
  apply (result_cost rounds n gens (Some w) g U SW syn result OUT (fun i => ecost (Some w) g i - M / 100)%Q (ecost (Some w) g)); auto.
  - intros k Ik sel XS. specialize (CH k Ik sel XS).
    destruct (CK k Ik) as (_ & _ & _ & _ & _ & _ & _ & _ & LE & _ & WT).
    assert (LW : length (k_wt k) = length (k_eidx k)) by (rewrite WT; apply map_length).
    destruct (k_edges k) as [|e0 es] eqn:EE.
    { cbn in LE. rewrite <- LE. cbn. lra. }
    assert (NE : k_edges k <> []) by (rewrite EE; discriminate). pose proof (SC k Ik NE) as SK.
    assert (L0 : 0 < length (k_eidx k)) by (rewrite <- LE; cbn; lia).
    set (mx := qmax (fins (k_wt k))).
    assert (WF : forall j, j < length (k_eidx k) -> nth j (k_wt k) NaN = Fin (ecost (Some w) g (nth j (k_eidx k) 0)) /\ (ecost (Some w) g (nth j (k_eidx k) 0%nat) <= M)%Q).
    { intros j Lj. destruct (comp_weight rounds n gens _ g U k j Ik Lj) as (-> & Li & _ & N).
      pose proof (MAX _ Li N). destruct (kind_sane rounds n gens _ g U SW _ Li N) as (q & -> & _ & Eq). rewrite Eq in *. auto. }
    assert (FI : forall q, In q (fins (k_wt k)) <-> exists j, j < length (k_eidx k) /\ q = ecost (Some w) g (nth j (k_eidx k) 0)).
    { intros q. unfold fins. rewrite in_map_iff. split.
      - intros (v & <- & I). apply (In_nth _ _ NaN) in I. destruct I as (j & Lj & <-). exists j. split; [lia|]. rewrite (proj1 (WF j ltac:(lia))). auto.
      - intros (j & Lj & ->). exists (nth j (k_wt k) NaN). split; [rewrite (proj1 (WF j Lj)); auto|apply nth_In; lia]. }
    assert (MM : (mx <= M)%Q).
    { assert (I : In mx (fins (k_wt k))).
      { apply qmax_in. intros Z. assert (J : In (ecost (Some w) g (nth 0 (k_eidx k) 0)) (fins (k_wt k))) by (apply FI; eauto). rewrite Z in J. destruct J. }
      apply FI in I. destruct I as (j & Lj & ->). apply WF; auto. }
    assert (MP : (0 < mx)%Q).
    { destruct SK as [SK|(_ & q & I & P)].
      - exfalso. assert (I0 : In (nth 0 (k_wt k) NaN) (k_wt k)) by (apply nth_In; lia). specialize (SK _ I0). rewrite (proj1 (WF 0 L0)) in SK. discriminate.
      - eapply Qlt_le_trans; [exact P|]. apply qmax_ge. unfold fins. apply in_map_iff. exists (Fin q). auto. }
    assert (B : forall j, j < length (k_eidx k) -> fb_cost (map (marked g er) (k_eidx k)) (k_wt k) j = inject_Z (2 * Qfloor (100 * ecost (Some w) g (nth j (k_eidx k) 0%nat) / mx))).
    { intros j Lj. unfold fb_cost. rewrite (nth_indep _ false (marked g er 0)) by (rewrite map_length; lia). rewrite map_nth, NM.
      unfold fb_scaled. rewrite (proj1 (WF j Lj)). reflexivity. }
    assert (FL : forall x, (0 <= x -> inject_Z (2 * Qfloor (100 * x / mx)) * (mx / 200) <= x /\ x - mx / 100 <= inject_Z (2 * Qfloor (100 * x / mx)) * (mx / 200))%Q).
    { intros x Px. assert (N : ~ (mx == 0)%Q) by (intros Z; rewrite Z in MP; discriminate).
      pose proof (Qfloor_le (100 * x / mx)) as A1. pose proof (Qlt_floor (100 * x / mx)) as A2. rewrite inject_Z_plus in A2. rewrite inject_Z_mult.
      set (fl := inject_Z (Qfloor (100 * x / mx))) in *. change (inject_Z 1) with 1%Q in A2. change (inject_Z 2) with 2%Q.
      assert (Q1 : (fl * mx <= 100 * x)%Q).
      { setoid_replace (100 * x)%Q with ((100 * x / mx) * mx)%Q by (field; auto). apply Qmult_le_compat_r; auto. apply Qlt_le_weak; auto. }
      assert (Q2 : (100 * x <= (fl + 1) * mx)%Q).
      { setoid_replace (100 * x)%Q with ((100 * x / mx) * mx)%Q by (field; auto). apply Qmult_le_compat_r; apply Qlt_le_weak; auto. }
      setoid_replace (2 * fl * (mx / 200))%Q with (fl * mx / 100)%Q by (field). assert (Q3 : ((fl + 1) * mx == fl * mx + mx)%Q) by ring. rewrite Q3 in Q2.
      split; [apply Qle_shift_div_r; [reflexivity|]; lra|apply Qle_shift_div_l; [reflexivity|]].
      setoid_replace ((x - mx / 100) * 100)%Q with (100 * x - mx)%Q by field. lra. }
    assert (PE : forall j, j < length (k_eidx k) -> (0 <= ecost (Some w) g (nth j (k_eidx k) 0%nat))%Q).
    { intros j Lj. apply (ecost_pos rounds n gens _ g U SW). apply (comp_weight rounds n gens _ g U k j Ik Lj). }
    assert (HH : (0 <= mx / 200)%Q) by (apply Qle_shift_div_l; [reflexivity|]; rewrite Qmult_0_l; apply Qlt_le_weak; exact MP).
    apply Qle_trans with (qsum (fun j => (mx / 200) * (if nth (nth j (k_eidx k) 0%nat) result false then fb_cost (map (marked g er) (k_eidx k)) (k_wt k) j else 0))%Q (seq 0 (length (k_eidx k)))).
    + apply qsum_le. intros j J. apply in_seq in J. destruct (nth (nth j (k_eidx k) 0) result false); [|rewrite Qmult_0_r; apply Qle_refl]. rewrite B by lia.
      destruct (FL _ (PE j ltac:(lia))) as [_ F2]. assert (M1 : (mx / 100 <= M / 100)%Q) by (unfold Qdiv; apply Qmult_le_compat_r; [exact MM|discriminate]).
      rewrite (Qmult_comm (mx / 200)). eapply Qle_trans; [|exact F2]. apply Qplus_le_compat; [apply Qle_refl|apply Qopp_le_compat; exact M1].
    + rewrite qsum_times. eapply Qle_trans; [rewrite (Qmult_comm (mx / 200)); apply Qmult_le_compat_r; [exact CH|exact HH]|].
      rewrite (Qmult_comm _ (mx / 200)), <- qsum_times. apply qsum_le. intros j J. apply in_seq in J. destruct (sel j); [|rewrite Qmult_0_r; apply Qle_refl]. rewrite B by lia.
      destruct (FL _ (PE j ltac:(lia))) as [F1 _]. rewrite (Qmult_comm (mx / 200)). exact F1.
  - apply (ecost_pos rounds n gens _ g U SW).
  - intros i j Li Lj A Nj _ W. apply (lighter rounds n gens _ g U SW); auto. apply (C31_parallel _ _ _ _ _ U i Li) in A. tauto.
Qed.
End Fw.
