(** Property theorems C36 and C51-C54: decoders with the union-find algorithm. *)
Require Import List Bool Arith ZArith QArith Lia String Relations.
From Verif Require Import Base BaseProofs QSpec PauliModel PauliSem PauliAlg PauliProofs MeasureProofs GraphSpec GraphProofs CircuitModel SimModel LatticeModel LatticeSpec LatticeOps
  CodesModel CodesSpec CodesProofs GeneratorModel GeneratorSpec MemorySem
  ErasureModel ErasureProofs SyngraphModel SyngraphProofs SyngraphErrors SyngraphFinal Props_UnionFind Props_Syngraph Props_Circuit Props_Generator
  DecoderSpec DecoderModel DecoderProofs DecoderObjects DecoderHistory DecoderCheck GraphlikeCodes.
Import ListNotations.
Local Open Scope string_scope.
Local Open Scope nat_scope.
Local Open Scope list_scope.

(** * C36 Success check *)
(** Success means that the correction anticommutes with exactly the logical operators which have
    changed their values.  All logical operators are checked if none are given. *)
Theorem C36_success : forall n c correction toggle x is,
  (forall l, In l (c_logicals c) -> List.length (ops l) = n) -> n_data_qubits c = n ->
  match x with None => is = seq 0 (List.length (c_logicals c)) | Some x => logical_ops_to_indices c x = Ok is end -> is <> [] ->
  List.length toggle = List.length is -> List.length (ops correction) = n ->
  exists b, check_success c correction toggle x = Ok b /\
    (b = true <-> forall k i l, nth_error is k = Some i -> nth_error (c_logicals c) i = Some l ->
       if nth k toggle false then anticommute n (denote l) (denote correction) else commute n (denote l) (denote correction)).
Proof.
  intros n c correction toggle x is W N CH NE LT LC. pose proof (check_success_ok n c correction toggle x is W N CH NE) as H.
  rewrite LT, LC, !Nat.eqb_refl in H. cbn [andb] in H. destruct H as (b & E & B). exists b. split; auto. rewrite B. clear b E B.
  assert (S : forall l, In l (c_logicals c) -> symp (ops l) (ops correction) = anti (seq 0 n) (fac l) (fac correction)).
  { intros l I. rewrite (ops_map l n) by auto. rewrite (ops_map correction n) by auto. apply symp_anti. }
  destruct (chosen_ops c x is CH) as [_ B]. split.
  - intros H k i l X Y. assert (Lk : k < List.length is) by (apply nth_error_Some; congruence).
    specialize (H k Lk). rewrite (nth_error_nth is k 0 X), (nth_error_nth _ _ row0 Y) in H.
    pose proof (nth_error_In _ _ Y) as I. rewrite <- S in H by auto.
    destruct (nth k toggle false); [apply anticommute_iff|apply commute_iff]; auto.
  - intros H k Lk. assert (Li : nth k is 0 < List.length (c_logicals c)) by (apply B, nth_In; auto).
    specialize (H k (nth k is 0) (nth (nth k is 0) (c_logicals c) row0) (nth_error_nth' _ _ Lk) (nth_error_nth' _ _ Li)).
    assert (I : In (nth (nth k is 0) (c_logicals c) row0) (c_logicals c)) by (apply nth_In; auto).
    rewrite <- S by auto. destruct (nth k toggle false); symmetry; [apply anticommute_iff in H|apply commute_iff in H]; auto.
Qed.
Print Assumptions C36_success.

(** Wrong numbers of toggles or qubits: [AssertionError]. *)
Theorem C36_wrong_sizes : forall n c correction toggle x is,
  (forall l, In l (c_logicals c) -> List.length (ops l) = n) -> n_data_qubits c = n ->
  match x with None => is = seq 0 (List.length (c_logicals c)) | Some x => logical_ops_to_indices c x = Ok is end -> is <> [] ->
  List.length toggle <> List.length is \/ List.length (ops correction) <> n ->
  check_success c correction toggle x = Err AssertionError.
Proof.
  intros n c correction toggle x is W N CH NE H. pose proof (check_success_ok n c correction toggle x is W N CH NE) as Y.
  destruct H as [H|H]; rewrite (proj2 (Nat.eqb_neq _ _) H) in Y; rewrite ?andb_false_r in Y; auto.
Qed.
Print Assumptions C36_wrong_sizes.

(** Multiplication of the correction with generators of the code (in any order) changes
    nothing. *)
Theorem C36_stabilisers : forall n s k c correction gs1 gs2 toggle x r ph, valid_code n s k c -> n_data_qubits c = n -> 0 < k ->
  List.length (ops correction) = n -> (forall g, In g gs1 \/ In g gs2 -> In g (c_stabs c)) ->
  multiply (gs1 ++ correction :: gs2) = Ok (r, ph) ->
  check_success c r toggle x = check_success c correction toggle x.
Proof.
  intros n s k c correction gs1 gs2 toggle x r ph V N K LC GS M.
  assert (W : forall l, In l (gs1 ++ correction :: gs2) -> List.length (ops l) = n).
  { intros l I. apply in_app_iff in I. destruct I as [I|[<-|I]]; auto; apply (vc_width _ _ _ _ V); left; apply GS; auto. }
  destruct (multiply_any n (gs1 ++ correction :: gs2)) as (r' & ph' & M' & R); [destruct gs1; discriminate|auto|].
  rewrite M in M'. injection M' as <- <-. clear M.
  assert (LR : List.length (ops r) = n) by (rewrite R; apply length_xor_all; auto).
  assert (S : forall l, In l (c_logicals c) -> commutator_sign l r = commutator_sign l correction).
  { intros l I. assert (Ll : List.length (ops l) = n) by (apply (vc_width _ _ _ _ V); auto).
    rewrite !commutator_sign_symp, R by congruence.
    assert (Z : forall gs, (forall g, In g gs -> In g (c_stabs c)) -> symp (ops l) (xor_all n gs) = false).
    { induction gs as [|g gs IH]; intros H.
      - change (xor_all n []) with (repeat pid n). rewrite symp_comm. apply symp_id_l.
      - change (xor_all n (g :: gs)) with (xor_ops (ops g) (xor_all n gs)).
        assert (Lg : forall g', In g' (g :: gs) -> List.length (ops g') = n) by (intros g' I'; apply (vc_width _ _ _ _ V); auto).
        rewrite symp_xor_r.
        + rewrite IH by (intros; apply H; right; auto). rewrite symp_comm, (proj1 (commute_iff n g l (Lg g (or_introl eq_refl)) Ll)); auto.
          apply (vc_logical _ _ _ _ V); auto. apply H; left; auto.
        + rewrite (Lg g (or_introl eq_refl)); auto.
        + rewrite length_xor_all by (intros; apply Lg; right; auto). apply Lg; left; auto. }
    rewrite xor_all_app by auto. change (xor_all n (correction :: gs2)) with (xor_ops (ops correction) (xor_all n gs2)).
    assert (L1 : List.length (xor_all n gs1) = n) by (apply length_xor_all; intros; apply W, in_app_iff; auto).
    assert (L2 : List.length (xor_all n gs2) = n) by (apply length_xor_all; intros; apply W, in_app_iff; right; right; auto).
    rewrite symp_xor_r, symp_xor_r by (rewrite ?length_xor_ops; congruence).
    rewrite !Z by (intros; apply GS; auto). destruct (symp _ _); reflexivity. }
  unfold check_success. rewrite LR, LC.
  destruct (match x with None => _ | Some s => _ end) as [ls|] eqn:E; [|reflexivity]. cbn [bindR].
  destruct (assertR (List.length ls =? List.length toggle)); [|reflexivity]. cbn [bindR].
  destruct (assertR (n =? n_data_qubits c)); [|reflexivity]. cbn [bindR].
  assert (SUB : forall l, In l ls -> In l (c_logicals c)).
  { destruct x as [x|]; [|injection E as <-; auto].
    destruct (logical_ops_to_indices c x) as [is|] eqn:Ei; [|discriminate]. cbn [bindR] in E.
    destruct (indices_ok _ _ _ Ei) as [_ B]. rewrite (get_all _ row0) in E by auto. injection E as <-.
    intros l I. apply in_map_iff in I. destruct I as (i & <- & I). apply nth_In, B; auto. }
  rewrite (map_ext_in _ (fun l => commutator_sign l correction)) by (intros; apply S; auto).
  reflexivity.
Qed.
Print Assumptions C36_stabilisers.

(** In the repetition code (logical operators XXX and IIZ) an X error on qubit 2 is corrected by
    IIX.  The correction XXI has the right syndrome but is a failure. *)
Definition xrow (l : list bool) : row := mkRow (map (fun b => (b, false)) l) false.
Example C36_example : (do cd <- make_repetition 1 3;
   do a <- check_success (c_ops cd) (xrow [false; false; true]) [false; true] None;
   do b <- check_success (c_ops cd) (xrow [true; true; false]) [false; true] None;
   do d <- check_success (c_ops cd) (xrow [true; true; false]) [false] (Some (LogLetters "Z"));
   Ok (map ops (c_logicals (c_ops cd)), a, b, d)) =
  Ok ([[(true, false); (true, false); (true, false)]; [(false, false); (false, false); (false, true)]], true, false, true) /\
  (do cd <- make_repetition 1 3; check_success (c_ops cd) (xrow [true; false]) [false; true] None) = Err AssertionError.
Proof. split; vm_compute; reflexivity. Qed.

(** * C51 Decoding *)
(** For every object of the union-find interface: a correction is found exactly if the syndrome
    is caused by some errors with weights which are not infinite.  The correction is then the
    product of such errors.  The object can be used again.  In all other cases there is an
    exception.  [fuel] bounds the number of growth steps (C33). *)
Theorem C51_decode : forall cls rounds n gens w d, generators n gens -> weights_fit n (List.length gens) w -> 0 < rounds ->
  none_certain w n (List.length gens) -> uf_interface cls rounds gens w d ->
  exists bound, forall er syn fuel, bound <= fuel ->
    if match er with None => true | Some q => has_shape q rounds n end && has_shape syn rounds (List.length gens) then
      ((exists E F, explained w rounds n gens syn E F) /\
       exists d' fr, interface_decode fuel er syn d = Ok (d', fr) /\ uf_interface cls rounds gens w d' /\
         List.length (ops fr) = n /\
         exists E F, explained w rounds n gens syn E F /\ forall q, q < n -> fac fr q = total rounds E q) \/
      (~ (exists E F, explained w rounds n gens syn E F) /\ interface_decode fuel er syn d = Err ValueError)
    else interface_decode fuel er syn d = Err AssertionError.
Proof. exact decode_history. Qed.
Print Assumptions C51_decode.

(** The correction anticommutes with a generator exactly if the syndrome bits of the generator in
    all rounds have odd parity. *)
Theorem C51_signs : forall cls rounds n gens w d fuel er syn d' fr, generators n gens -> weights_fit n (List.length gens) w -> 0 < rounds ->
  none_certain w n (List.length gens) -> uf_interface cls rounds gens w d ->
  interface_decode fuel er syn d = Ok (d', fr) -> forall s, s < List.length gens ->
  commutator_sign (nth s gens row0) fr = Nat.odd (List.length (filter (fun t => nth s (nth t syn []) false) (seq 0 rounds))).
Proof.
  intros cls rounds n gens w d fuel er syn d' fr G Hw Hr NC UI X s Ls.
  destruct (decode_history _ _ _ _ _ _ G Hw Hr NC UI) as (b & HB). specialize (HB er syn (fuel + b) ltac:(lia)).
  rewrite (interface_decode_more _ _ _ _ _ b X) in HB. destruct (shaped rounds n er && _); [|discriminate].
  destruct HB as [(_ & d2 & fr2 & E & _ & L & H & F & EX & FT)|(_ & E)]; [|discriminate]. injection E as <- <-.
  pose proof G as (_ & _ & Hg). rewrite (sign_anti _ _ n) by (auto; apply Hg, nth_In; auto).
  rewrite (anti_ext _ _ _ (fac (nth s gens row0)) (total rounds H)); auto.
  2: { intros q I. apply in_seq in I. apply FT. lia. }
  rewrite anti_total, <- parity_odd.
  rewrite (parity_ext (fun t => nth s (nth t syn []) false) (fun t => xorb (anti (seq 0 n) (fac (nth s gens row0)) (H t)) (xorb (F t s) (F (S t) s)))).
  - rewrite parity_xor, (parity_telescope (fun t => F t s)). rewrite (ex_first _ _ _ _ _ _ _ EX), (ex_last _ _ _ _ _ _ _ EX) by auto.
    rewrite !xorb_false_r. reflexivity.
  - intros t I. apply in_seq in I. apply (ex_syndrome _ _ _ _ _ _ _ EX); lia.
Qed.
Print Assumptions C51_signs.

(** Two rounds of the repetition code.  The syndrome comes from X on qubit 0 in round 0, X on
    qubit 1 in round 1 and a wrong result of the second generator; the decoder finds X on qubit 2
    as another possible explanation.  The decoder object is used twice. *)
Definition rep3_decoder (cls : ufclass) (w : option warg) : Res decoder := do g <- new_sgraph 2 rep3 w; new_interface cls g.
Example C51_example :
  (do d <- rep3_decoder NoWeights None;
   do r <- interface_decode 10 None [[true; true]; [true; false]] d;
   do r' <- interface_decode 10 (Some [[false; false; true]; [false; true; false]]) [[false; true]; [false; false]] (fst r);
   Ok (ops (snd r), ops (snd r'))) =
  Ok ([(false, false); (false, false); (true, false)], [(false, false); (false, false); (true, false)]) /\
  (do d <- rep3_decoder NoWeights None; interface_decode 10 None [[true; true]] d) = Err AssertionError /\
  (** no error on qubits 0 and 2 and no wrong results: some syndromes are impossible *)
  (do d <- rep3_decoder Weights (Some (mkWarg (WArr [Inf false; Fin 1; Inf false]) (WNum (Fin 1)) (WNum (Inf false))));
   interface_decode 10 None [[true; false]; [false; false]] d) = Err ValueError.
Proof. repeat split; vm_compute; reflexivity. Qed.

(** * C52 Construction *)
(** Which weights of a component are accepted: none at all, or (by the class with weights only)
    finite and nonnegative ones which are not all zero. *)
Definition fine_weights (cls : ufclass) (ws : list weight) : Prop :=
  (forall x, In x ws -> x = NaN) \/
  (cls = Weights /\ (forall x, In x ws -> exists q, x = Fin q /\ (0 <= q)%Q) /\ exists q, In (Fin q) ws /\ (0 < q)%Q).
(** Which weights [check_weights_sane] refuses, and when it finds that the weights are as they should be. *)
Theorem C52_sane : forall ws,
  let refused x := x = NaN \/ x = Inf true \/ exists q, x = Fin q /\ (q < 0)%Q in
  let proper x := exists q, x = Fin q /\ (0 < q)%Q in
  ((exists x, In x ws /\ refused x) /\ check_weights_sane (Some ws) = Err ValueError) \/
  (~ (exists x, In x ws /\ refused x) /\ exists b, check_weights_sane (Some ws) = Ok b /\ (b = true <-> forall x, In x ws -> proper x)).
Proof.
  intros ws refused proper.
  assert (R : forall x, is_nan x || wlt x (Fin 0) = true <-> refused x).
  { intros [|[|]|q]; unfold refused; cbn; split; intros H; auto; try discriminate.
    - destruct H as [H|[H|(q & H & _)]]; discriminate.
    - right. right. exists q. split; auto. apply negb_true_iff in H. destruct (Qlt_le_dec q 0); auto. apply Qle_bool_iff in q0. congruence.
    - destruct H as [H|[H|(q' & H & L)]]; try discriminate. injection H as <-. apply negb_true_iff. destruct (Qle_bool 0 q) eqn:X; auto. apply Qle_bool_iff in X.
      exfalso. apply (Qlt_not_le _ _ L X). }
  assert (P : forall x, ~ refused x -> (negb (weqb x (Fin 0)) && negb (is_inf x) = true <-> proper x)).
  { intros x N. unfold proper. destruct x as [|[|]|q]; cbn.
    - destruct N. left. auto.
    - destruct N. right. left. auto.
    - split; [discriminate|]. intros (q & H & _). discriminate.
    - rewrite andb_true_r, negb_true_iff. split.
      + intros H. exists q. split; auto. destruct (Q_dec q 0) as [[L|L]|L]; auto; exfalso.
        * apply N. right. right. eauto.
        * apply Qeq_bool_iff in L. congruence.
      + intros (q' & H & L). injection H as <-. destruct (Qeq_bool q 0) eqn:X; auto. apply Qeq_bool_iff in X. rewrite X in L. destruct (Qlt_irrefl _ L). }
  unfold check_weights_sane.
  assert (D : forall f : weight -> bool, existsb f ws = false -> forall x, In x ws -> f x = false).
  { intros f H x I. destruct (f x) eqn:X; auto. rewrite <- H. symmetry. apply existsb_exists. eauto. }
  destruct (existsb is_nan ws) eqn:A; [|destruct (existsb (fun w => wlt w (Fin 0)) ws) eqn:B].
  - left. split; auto. apply existsb_exists in A. destruct A as (x & I & A). exists x. split; auto. apply R. rewrite A. auto.
  - left. split; auto. apply existsb_exists in B. destruct B as (x & I & B). exists x. split; auto. apply R. rewrite B. apply orb_true_r.
  - right. assert (N : forall x, In x ws -> ~ refused x).
    { intros x I H. apply R in H. rewrite (D _ A x I), (D _ B x I) in H. discriminate. }
    split; [intros (x & I & H); apply (N x I H)|]. eexists. split; [reflexivity|]. split.
    + intros H x I. apply andb_true_iff in H. destruct H as [H1 H2]. apply negb_true_iff in H1, H2. apply P; auto.
      rewrite (D _ H1 x I), (D _ H2 x I). reflexivity.
    + intros H. apply andb_true_iff. split; apply negb_true_iff.
      * destruct (existsb (fun w => weqb w (Fin 0)) ws) eqn:X; auto. apply existsb_exists in X. destruct X as (x & I & X). specialize (H x I). apply P in H; auto.
        rewrite X in H. discriminate.
      * destruct (existsb is_inf ws) eqn:X; auto. apply existsb_exists in X. destruct X as (x & I & X). specialize (H x I). apply P in H; auto.
        rewrite X, andb_comm in H. discriminate.
Qed.
Print Assumptions C52_sane.
Example C52_sane_example : map (fun ws => check_weights_sane (Some ws)) [[Fin 1; Inf false]; [Fin 0; Fin 2]; [Fin (1 # 2); Fin 2]; [Fin 1; Fin (-1)]; [NaN]] =
  [Ok false; Ok false; Ok true; Err ValueError; Err ValueError].
Proof. reflexivity. Qed.

(** The active edges which can be reached from a vertex. *)
Definition around (g : sgraph) (v i : nat) : Prop :=
  active g i /\ exists u, In u (nth i (sg_ends g) []) /\ connected (sg_ends g) (active g) v u.

Theorem C52_construct : forall cls rounds n gens w g, generators n gens -> weights_fit n (List.length gens) w -> 0 < rounds ->
  new_sgraph rounds gens w = Ok g ->
  ((forall v, v < List.length (sg_verts g) -> exists ws, (forall x, In x ws <-> exists i, around g v i /\ x = weight_of g i) /\
      (ws = [] \/ fine_weights cls ws)) /\ exists d, new_interface cls g = Ok d) \/
  ((exists v, v < List.length (sg_verts g) /\ exists ws, (forall x, In x ws <-> exists i, around g v i /\ x = weight_of g i) /\
      ws <> [] /\ ~ fine_weights cls ws) /\ new_interface cls g = Err ValueError).
Proof.
  intros cls rounds n gens w g G Hw Hr X.
  assert (U : uses rounds n gens w g) by (split; [auto|]; split; [auto|]; split; [auto|apply sg_new; auto]).
  destruct (C50_components _ _ _ _ _ U) as (CV & CK & _).
  assert (RW : forall k v, In k (sg_comps g) -> In v (k_vidx k) -> forall x, In x (k_wt k) <-> exists i, around g v i /\ x = weight_of g i).
  { intros k v Ik Iv x. destruct (CK k Ik) as (_ & _ & _ & B & CN & EI & _ & _ & _ & _ & EW). rewrite EW, in_map_iff. split.
    - intros (i & <- & I). exists i. split; auto. apply EI in I. destruct I as [A (u & Iu & I)]. split; auto. exists u. split; auto. apply (CN v u); auto.
    - intros (i & [A (u & Iu & C)] & ->). exists i. split; auto. apply EI. split; auto. exists u. split; auto. apply (CN v u); auto.
      destruct (C30_edges _ _ _ _ _ U) as (_ & _ & _ & _ & ED).
      assert (Li : i < List.length (sg_ends g)). { destruct (Nat.lt_ge_cases i (List.length (sg_ends g))); auto. rewrite nth_overflow in Iu by auto. destruct Iu. }
      apply (ED i Li). auto. }
  assert (EM : forall k, In k (sg_comps g) -> (k_wt k = [] <-> k_edges k = [])).
  { intros k Ik. destruct (CK k Ik) as (_ & _ & _ & _ & _ & _ & _ & _ & LE & _ & EW). rewrite EW.
    destruct (k_eidx k), (k_edges k); cbn in *; try discriminate; tauto || (split; discriminate). }
  destruct (new_interface_ok cls _ _ _ _ _ G Hw Hr X) as [(A & d & E & _)|((k & Ik & NE & NA) & E)].
  - left. split; [|eauto]. intros v Lv. destruct (CV v Lv) as (c & Lc & CC).
    destruct (nth_error (sg_comps g) c) as [k|] eqn:Ek; [|apply nth_error_None in Ek; lia].
    pose proof (nth_error_In _ _ Ek) as Ik. exists (k_wt k). split; [apply RW; auto; apply (CC c k Ek); auto|].
    destruct (k_edges k) as [|ed es] eqn:Ed; [left; apply EM; auto|right]. apply A; auto. congruence.
  - right. split; auto. destruct (CK k Ik) as (NV & _ & _ & B & _). destruct (k_vidx k) as [|v vs] eqn:Ev; [congruence|].
    exists v. split; [apply B; left; auto|]. exists (k_wt k). split; [apply RW; auto; rewrite Ev; left; auto|].
    split; auto. rewrite EM; auto.
Qed.
Print Assumptions C52_construct.

(** Both classes can be used without weights. *)
Theorem C52_unweighted : forall cls rounds n gens g, generators n gens -> 0 < rounds ->
  new_sgraph rounds gens None = Ok g -> exists d, new_interface cls g = Ok d.
Proof.
  intros cls rounds n gens g G Hr X. destruct (C52_construct cls rounds n gens None g G I Hr X) as [(_ & D)|((v & Lv & ws & W & NE & NF) & _)]; auto.
  exfalso. apply NF. left. intros x I. apply W in I. destruct I as (i & [A (u & Iu & _)] & ->).
  assert (U : uses rounds n gens None g) by (split; [auto|]; split; [exact Logic.I|]; split; [auto|apply sg_new; auto]).
  assert (Li : i < List.length (sg_ends g)). { destruct (Nat.lt_ge_cases i (List.length (sg_ends g))); auto. rewrite nth_overflow in Iu by auto. destruct Iu. }
  destruct (weight_kind _ _ _ _ _ _ U Li) as [-> _]. reflexivity.
Qed.
Print Assumptions C52_unweighted.

(** The class with weights can be used with positive weights; infinite ones are for errors which
    do not happen. *)
Definition positive (x : weight) : Prop := x = Inf false \/ exists q, x = Fin q /\ (0 < q)%Q.
Theorem C52_positive : forall rounds n gens a g, generators n gens -> weights_fit n (List.length gens) (Some a) -> 0 < rounds ->
  (forall q, q < n -> positive (weight_at (w_x a) q) /\ positive (weight_at (w_z a) q)) ->
  (forall s, s < List.length gens -> positive (weight_at (w_meas a) s)) ->
  new_sgraph rounds gens (Some a) = Ok g -> exists d, new_interface Weights g = Ok d.
Proof.
  intros rounds n gens a g G Hw Hr PQ PS X.
  destruct (C52_construct Weights rounds n gens (Some a) g G Hw Hr X) as [(_ & D)|((v & Lv & ws & W & NE & NF) & _)]; auto.
  exfalso. apply NF. right.
  assert (U : uses rounds n gens (Some a) g) by (split; [auto|]; split; [auto|]; split; [auto|apply sg_new; auto]).
  assert (P : forall x, In x ws -> exists q, x = Fin q /\ (0 < q)%Q).
  { intros x Ix. apply W in Ix. destruct Ix as (i & [A (u & Iu & _)] & ->).
    assert (Li : i < List.length (sg_ends g)). { destruct (Nat.lt_ge_cases i (List.length (sg_ends g))); auto. rewrite nth_overflow in Iu by auto. destruct Iu. }
    apply (proj1 (C31_parallel _ _ _ _ _ U i Li)) in A as [A _].
    destruct (weight_kind _ _ _ _ _ _ U Li) as [EW K]. rewrite EW in *. cbn [kind_weight] in *.
    assert (Q : forall y, positive y -> is_inf y = false -> exists q, y = Fin q /\ (0 < q)%Q) by (intros y [-> |Y] Z; [discriminate|auto]).
    destruct (kind_of g i) as [t op q p|t s].
    - destruct K as (_ & Lq & [-> | ->]); apply Q; auto; apply PQ; auto.
    - apply Q; auto. apply PS. tauto. }
  split; auto. split.
  - intros x Ix. destruct (P x Ix) as (q & -> & Hq). exists q. split; auto. apply Qlt_le_weak. auto.
  - destruct ws as [|x ws]; [congruence|]. destruct (P x (or_introl eq_refl)) as (q & -> & Hq). exists q. split; [left|]; auto.
Qed.
Print Assumptions C52_positive.

(** [UnionFindNoWeights] is documented to ignore weights ("completely disabled processing
    weights").  It refuses every weighted graph instead. *)
Theorem C52_noweights : forall rounds n gens a g i, generators n gens -> weights_fit n (List.length gens) (Some a) -> 0 < rounds ->
  (forall q, q < n -> weight_at (w_x a) q <> NaN /\ weight_at (w_z a) q <> NaN) ->
  (forall s, s < List.length gens -> weight_at (w_meas a) s <> NaN) ->
  new_sgraph rounds gens (Some a) = Ok g -> active g i -> nth i (sg_ends g) [] <> [] ->
  new_interface NoWeights g = Err ValueError.
Proof.
  intros rounds n gens a g i G Hw Hr PQ PS X A NE.
  assert (U : uses rounds n gens (Some a) g) by (split; [auto|]; split; [auto|]; split; [auto|apply sg_new; auto]).
  assert (Li : i < List.length (sg_ends g)). { destruct (Nat.lt_ge_cases i (List.length (sg_ends g))); auto. rewrite nth_overflow in NE by auto. congruence. }
  destruct (C52_construct NoWeights rounds n gens (Some a) g G Hw Hr X) as [(C & _)|(_ & E)]; auto. exfalso.
  destruct (nth i (sg_ends g) []) as [|v vs] eqn:Ei; [congruence|].
  assert (Lv : v < List.length (sg_verts g)).
  { destruct (C30_edges _ _ _ _ _ U) as (_ & _ & _ & _ & ED). apply (ED i Li). rewrite Ei. left; auto. }
  destruct (C v Lv) as (ws & W & FW).
  assert (I : In (weight_of g i) ws). { apply W. exists i. split; auto. split; auto. exists v. split; [rewrite Ei; left; auto|apply rt_refl]. }
  destruct FW as [-> |[FW|(D & _)]]; [destruct I| |discriminate]. apply FW in I.
  destruct (weight_kind _ _ _ _ _ _ U Li) as [EW K]. rewrite EW in I. cbn [kind_weight] in I.
  destruct (kind_of g i) as [t op q p|t s].
  - destruct K as (_ & Lq & [-> | ->]); apply PQ in Lq; tauto.
  - apply (PS s); tauto.
Qed.
Print Assumptions C52_noweights.
Definition weight_one : option warg := Some (mkWarg (WNum (Fin 1)) (WNum (Fin 1)) (WNum (Fin 1))).
Theorem C52_noweights_refuted : exists rounds n gens w g d, uses rounds n gens w g /\ new_interface Weights g = Ok d /\
  new_interface NoWeights g = Err ValueError.
Proof.
  assert (exists g, new_sgraph 2 rep3 weight_one = Ok g) as (g & E).
  { destruct (new_sgraph 2 rep3 weight_one) as [g|] eqn:X; [eauto|]. exfalso.
    assert (Y : match new_sgraph 2 rep3 weight_one with Ok _ => true | Err _ => false end = true) by (vm_compute; reflexivity). rewrite X in Y. discriminate. }
  assert (D : (do g <- new_sgraph 2 rep3 weight_one; do d <- new_interface Weights g; Ok (List.length (dc_decs d))) = Ok 1) by (vm_compute; reflexivity).
  assert (F : (do g <- new_sgraph 2 rep3 weight_one; new_interface NoWeights g) = Err ValueError) by (vm_compute; reflexivity).
  rewrite E in D, F. cbn [bindR] in D, F. destruct (new_interface Weights g) as [d|] eqn:Ed; [|discriminate].
  exists 2, 3, rep3, weight_one, g, d. split; [|auto]. destruct rep3_uses as (G & _).
  split; [auto|]. split; [repeat split|]. split; [lia|]. apply sg_new. auto.
Qed.
Print Assumptions C52_noweights_refuted.
(** All weights zero (all errors with probability 1/2): [ValueError] as well. *)
Example C52_example :
  (do g <- new_sgraph 2 rep3 (Some (mkWarg (WNum (Fin 0)) (WNum (Fin 0)) (WNum (Fin 0)))); new_interface Weights g) = Err ValueError /\
  (do g <- new_sgraph 2 rep3 (Some (mkWarg (WArr [Fin 0; Fin 1; Fin 0]) (WNum (Fin 0)) (WNum (Inf false)))); do d <- new_interface Weights g; Ok (map d_comp (dc_decs d))) = Ok [0; 1] /\
  (do g <- new_sgraph 2 rep3 (Some (mkWarg (WArr [Fin 0; Fin 1; Fin (-1)]) (WNum (Fin 0)) (WNum (Inf false)))); new_interface Weights g) = Err ValueError.
Proof. repeat split; vm_compute; reflexivity. Qed.

(** * C53 Memory experiments with a decoder *)
(** Errors which can happen have weights which are not infinite. *)
Definition weights_allow (e : errors) (w : option warg) (n m : nat) : Prop :=
  (forall q, q < n ->
     ((0 < pauli_prob e q PX \/ 0 < pauli_prob e q PY \/ 0 < erase_prob e q)%Q -> finite_error w w_x q) /\
     ((0 < pauli_prob e q PZ \/ 0 < pauli_prob e q PY \/ 0 < erase_prob e q)%Q -> finite_error w w_z q)) /\
  (forall s, s < m -> (0 < flip_prob e (n + s))%Q -> finite_error w w_meas s).

(** The decoder finds a correction for every sample of a memory experiment.  Errors and correction
    together commute with all generators, and the success check tells whether they commute with
    the logical operators. *)
Theorem C53_memory_decoded : forall cls cd e x is anc g s0 sm w d, experiment_code cd -> no_gate_errors e -> (1 <= c_rounds cd)%Z ->
  logical_ops_to_indices (c_ops cd) x = Ok is -> is <> [] -> anc = true \/ readable cd is ->
  (forall k, 0 <= d_unif (g k) /\ d_unif (g k) < 1)%Q -> memory_experiment g s0 cd e x anc = Ok sm ->
  let n := n_data_qubits (c_ops cd) in let gens := c_stabs (c_ops cd) in let rounds := Z.to_nat (c_rounds cd) in
  weights_fit n (List.length gens) w -> none_certain w n (List.length gens) -> weights_allow e w n (List.length gens) ->
  uf_interface cls rounds gens w d ->
  exists bound, forall fuel, bound <= fuel -> exists d' fr b,
    interface_decode fuel (sm_erased sm) (sm_syndrome sm) d = Ok (d', fr) /\ uf_interface cls rounds gens w d' /\
    check_success (c_ops cd) fr (sm_toggle sm) (Some x) = Ok b /\
    exists E K F, possible_history e n (List.length gens) rounds E K F /\ shows cd is rounds E K F sm /\
      let residual := fun q => pxor (fac fr q) (total rounds E q) in
      (forall s, s < List.length gens -> anti (seq 0 n) (fac (nth s gens row0)) residual = false) /\
      (b = true <-> forall i, In i is -> anti (seq 0 n) (fac (nth i (c_logicals (c_ops cd)) row0)) residual = false).
Proof.
  intros cls cd e x is anc g s0 sm w d XC NG HR EI NE RD Hg RUN n gens rounds Hw NC WA UI.
  destruct (C47_memory_history _ _ _ _ _ _ _ _ XC NG HR EI RD Hg RUN) as (E & K & F & PH & SH).
  pose proof (experiment_generators cd XC) as G. fold n gens in G. unfold n_stabgens in PH. fold n gens rounds in PH, SH.
  assert (Hr : 0 < rounds) by (unfold rounds; lia).
  assert (EX : explained w rounds n gens (sm_syndrome sm) E F).
  { destruct PH as [PD P0 P1 PF], SH as [_ _ SS _ _ _], WA as [WD WM]. split; auto.
    - intros t q Lt Lq. destruct (PD t q Lt Lq) as (P & R & Q & PP & PK). rewrite Q. destruct (WD q Lq) as [W1 W2].
      assert (KR : R = PI \/ (0 < erase_prob e q)%Q) by (destruct (K t q); tauto).
      destruct KR as [-> |KR].
      + split; intros Y; [apply W1|apply W2]; destruct P; cbn in Y; try discriminate; auto.
      + split; intros _; [apply W1|apply W2]; auto.
    - intros t s Lt Ls Y. apply WM; auto. specialize (PF t s Lt Ls). rewrite Y in PF. auto. }
  destruct (decode_history _ _ _ _ _ _ G Hw Hr NC UI) as (b & HB). exists b. intros fuel Lf.
  specialize (HB (sm_erased sm) (sm_syndrome sm) fuel Lf).
  assert (SE : shaped rounds n (sm_erased sm) = true).
  { destruct (sm_erased sm) as [m|] eqn:Em; [|reflexivity]. cbn [shaped]. rewrite (sh_erased _ _ _ _ _ _ _ SH m Em).
    unfold has_shape. rewrite map_length, seq_length, Nat.eqb_refl. cbn [andb]. apply forallb_forall. intros y I.
    apply in_map_iff in I. destruct I as (t & <- & _). rewrite map_length, seq_length. apply Nat.eqb_refl. }
  assert (SS : has_shape (sm_syndrome sm) rounds (List.length gens) = true).
  { unfold has_shape. rewrite (sh_rounds _ _ _ _ _ _ _ SH), Nat.eqb_refl. cbn [andb]. apply forallb_forall. intros y I.
    rewrite (sh_width _ _ _ _ _ _ _ SH y I). apply Nat.eqb_refl. }
  rewrite SE, SS in HB. cbn [andb] in HB.
  destruct HB as [(_ & d' & fr & R & UI' & LF & E' & F' & EX' & FT)|(NX & _)]; [|exfalso; apply NX; eauto].
  assert (W : forall l, In l (c_logicals (c_ops cd)) -> List.length (ops l) = n) by (intros l I; unfold n; rewrite xc_nd by auto; apply xc_width; auto).
  pose proof (check_success_ok n (c_ops cd) fr (sm_toggle sm) (Some x) is W eq_refl EI NE) as CS.
  rewrite (sh_logicals _ _ _ _ _ _ _ SH), LF, !Nat.eqb_refl in CS. cbn [andb] in CS. destruct CS as (ok & CS & OK).
  exists d', fr, ok. split; [auto|]. split; [auto|]. split; [auto|]. exists E, K, F. split; [auto|]. split; [auto|]. cbv zeta.
  assert (AR : forall f, anti (seq 0 n) f (fun q => pxor (fac fr q) (total rounds E q)) =
    xorb (anti (seq 0 n) f (fac fr)) (parity (map (fun t => anti (seq 0 n) f (E t)) (seq 0 rounds)))).
  { intros f. rewrite anti_xor_r, anti_total. auto. }
  split.
  - intros s Ls. rewrite AR.
    assert (Q : forall H F, explained w rounds n gens (sm_syndrome sm) H F ->
      parity (map (fun t => anti (seq 0 n) (fac (nth s gens row0)) (H t)) (seq 0 rounds)) = parity (map (fun t => nth s (nth t (sm_syndrome sm) []) false) (seq 0 rounds))).
    { intros H0 F0 Y. rewrite (parity_ext (fun t => nth s (nth t (sm_syndrome sm) []) false) (fun t => xorb (anti (seq 0 n) (fac (nth s gens row0)) (H0 t)) (xorb (F0 t s) (F0 (S t) s)))).
      - rewrite parity_xor, (parity_telescope (fun t => F0 t s)), (ex_first _ _ _ _ _ _ _ Y), (ex_last _ _ _ _ _ _ _ Y) by auto. rewrite !xorb_false_r. auto.
      - intros t I. apply in_seq in I. apply (ex_syndrome _ _ _ _ _ _ _ Y); auto; lia. }
    rewrite (anti_ext _ _ _ (fac (nth s gens row0)) (total rounds E')); auto.
    + rewrite anti_total, (Q _ _ EX), (Q _ _ EX'). apply xorb_nilpotent.
    + intros q I. apply in_seq in I. apply FT. lia.
  - rewrite OK. split.
    + intros H i I. destruct (In_nth _ _ 0 I) as (k & Lk & <-). rewrite AR, <- (H k Lk), (sh_toggle _ _ _ _ _ _ _ SH k Lk). apply xorb_nilpotent.
    + intros H k Lk. specialize (H (nth k is 0) (nth_In _ _ Lk)). rewrite AR in H. apply xorb_eq in H. rewrite H. apply (sh_toggle _ _ _ _ _ _ _ SH k Lk).
Qed.
Print Assumptions C53_memory_decoded.
(** The planar code of size 3: an X error on qubit 1 is corrected.  X errors on qubits 0 and 1 have
    the syndrome of X on qubit 2; the correction completes a logical operator and the check
    fails.  With an error on qubit 1 before each of two rounds and a wrong result of generator 1,
    the errors cancel. *)
Definition decoded_experiment (cls : ufclass) (w : option warg) (d rounds : Z) (e : errors) (letters : string) (anc : bool) : Res (list nat * list nat * bool) :=
  do cd <- make_planar rounds d;
  do sm <- memory_experiment g_half (sim_init [] 0) cd e (LogLetters letters) anc;
  do g <- new_sgraph (Z.to_nat rounds) (c_stabs (c_ops cd)) w;
  do d <- new_interface cls g;
  do r <- interface_decode 20 (sm_erased sm) (sm_syndrome sm) d;
  do b <- check_success (c_ops cd) (snd r) (sm_toggle sm) (Some (LogLetters letters));
  Ok (nonzero (map fst (ops (snd r))), nonzero (map snd (ops (snd r))), b).
Definition certain_x (qs rs : list Z) : errors := mkErrors (map (fun q => (q, [("x", 1%Q)])) qs) [] (map (fun q => (q, [("p", 1%Q)])) rs) [] [] [] [] [].
Example C53_example :
  decoded_experiment NoWeights None 3 1 (certain_x [1%Z] []) "Z" true = Ok ([1], [], true) /\
  decoded_experiment NoWeights None 3 1 (certain_x [0%Z; 1%Z] []) "Z" true = Ok ([2], [], false) /\
  decoded_experiment Weights weight_one 3 2 (certain_x [1%Z] [14%Z]) "Z" true = Ok ([], [], true).
Proof. repeat split; vm_compute; reflexivity. Qed.

(** * C54 The built-in codes can be decoded *)
(** Every single X or Z error is seen by at most two generators. *)
Theorem C54_graph_like : forall rounds cd,
  (exists d, (2 <= d)%Z /\ (make_planar rounds d = Ok cd \/ make_toric rounds d = Ok cd \/ exists xzzx, make_rotated_planar rounds d xzzx = Ok cd)) \/
  (exists d, (2 <= d)%Z /\ make_repetition rounds d = Ok cd) \/ make_five_qubit rounds = Ok cd \/ make_shor rounds = Ok cd ->
  graph_like (n_data_qubits (c_ops cd)) (c_stabs (c_ops cd)).
Proof.
  intros r cd H. pose proof (C49_builtin_codes r cd H) as [XC _]. pose proof (experiment_generators cd XC) as (NE & _ & W).
  assert (A : forall vs es, c_stabs (c_ops cd) = map (BuildProofs.brow vs es) (BuildProofs.stab_ids vs) ->
    graph_like (List.length (BuildProofs.dpos vs)) (c_stabs (c_ops cd)) -> graph_like (n_data_qubits (c_ops cd)) (c_stabs (c_ops cd))).
  { intros vs es E GL. replace (n_data_qubits (c_ops cd)) with (List.length (BuildProofs.dpos vs)); auto.
    destruct (c_stabs (c_ops cd)) as [|g l] eqn:EC; [congruence|]. rewrite <- (W g (or_introl eq_refl)).
    assert (I : In g (map (BuildProofs.brow vs es) (BuildProofs.stab_ids vs))) by (rewrite <- E; left; auto).
    apply in_map_iff in I. destruct I as (o & <- & _). cbn. symmetry. apply map_length. }
  destruct H as [(d & D & [H|[H|(z & H)]])|[(d & D & H)|[H|H]]].
  - destruct (PlanarProofs.planar_make d r D) as (l & _ & E). rewrite H in E. injection E as ->. cbn [c_ops] in *. eapply A; [reflexivity|]. apply planar_graph_like; auto.
  - destruct (ToricProofs.toric_make d r D) as (l & _ & E). rewrite H in E. injection E as ->. cbn [c_ops] in *. eapply A; [reflexivity|]. apply toric_graph_like; auto.
  - destruct (RotatedProofs.rotated_make d z r D) as (l & _ & E). rewrite H in E. injection E as ->. cbn [c_ops] in *. eapply A; [reflexivity|]. apply rotated_graph_like; auto.
  - assert (O : (d mod 2 = 1)%Z).
    { destruct (Z.eq_dec (d mod 2) 0) as [Q|Q]; [|pose proof (Z.mod_pos_bound d 2); lia]. unfold make_repetition, make_code, repetition_lattice in H. rewrite Q in H. discriminate. }
    destruct (RepetitionProofs.repetition_make d r D O) as (l & _ & E). rewrite H in E. injection E as ->. cbn [c_ops] in *. eapply A; [reflexivity|]. apply repetition_graph_like; auto.
  - apply graph_likeb_iff. assert (Q : (do cd <- make_five_qubit r; Ok (graph_likeb (n_data_qubits (c_ops cd)) (c_stabs (c_ops cd)))) = Ok true) by (vm_compute; reflexivity).
    rewrite H in Q. cbn [bindR] in Q. injection Q. auto.
  - apply graph_likeb_iff. assert (Q : (do cd <- make_shor r; Ok (graph_likeb (n_data_qubits (c_ops cd)) (c_stabs (c_ops cd)))) = Ok true) by (vm_compute; reflexivity).
    rewrite H in Q. cbn [bindR] in Q. injection Q. auto.
Qed.
Print Assumptions C54_graph_like.

(** So a decoder can be made for all of them, and it decodes every memory experiment. *)
Theorem C54_decoders : forall cls rounds cd e x is anc g s0 sm,
  (exists d, (2 <= d)%Z /\ (make_planar rounds d = Ok cd \/ make_toric rounds d = Ok cd \/ exists xzzx, make_rotated_planar rounds d xzzx = Ok cd)) \/
  (exists d, (2 <= d)%Z /\ make_repetition rounds d = Ok cd) \/ make_five_qubit rounds = Ok cd \/ make_shor rounds = Ok cd ->
  no_gate_errors e -> (1 <= rounds)%Z -> logical_ops_to_indices (c_ops cd) x = Ok is -> is <> [] -> anc = true \/ readable cd is ->
  (forall k, 0 <= d_unif (g k) /\ d_unif (g k) < 1)%Q -> memory_experiment g s0 cd e x anc = Ok sm ->
  exists sg d bound, new_sgraph (Z.to_nat rounds) (c_stabs (c_ops cd)) None = Ok sg /\ new_interface cls sg = Ok d /\
  forall fuel, bound <= fuel -> exists d' fr b,
    interface_decode fuel (sm_erased sm) (sm_syndrome sm) d = Ok (d', fr) /\
    check_success (c_ops cd) fr (sm_toggle sm) (Some x) = Ok b /\
    exists E K F, possible_history e (n_data_qubits (c_ops cd)) (n_stabgens (c_ops cd)) (Z.to_nat rounds) E K F /\
      shows cd is (Z.to_nat rounds) E K F sm /\
      let residual := fun q => pxor (fac fr q) (total (Z.to_nat rounds) E q) in
      (forall s, s < n_stabgens (c_ops cd) -> anti (seq 0 (n_data_qubits (c_ops cd))) (fac (nth s (c_stabs (c_ops cd)) row0)) residual = false) /\
      (b = true <-> forall i, In i is -> anti (seq 0 (n_data_qubits (c_ops cd))) (fac (nth i (c_logicals (c_ops cd)) row0)) residual = false).
Proof.
  intros cls rounds cd e x is anc g s0 sm H NG HR EI NE RD Hg RUN. pose proof (C49_builtin_codes rounds cd H) as [XC ER].
  pose proof (experiment_generators cd XC) as G. pose proof (C54_graph_like rounds cd H) as GL.
  destruct (C30_total (Z.to_nat rounds) _ _ None G I ltac:(lia) I) as [TG _]. destruct (TG GL) as (sg & ES).
  destruct (C52_unweighted cls (Z.to_nat rounds) _ _ sg G ltac:(lia) ES) as (d & ED).
  assert (UI : uf_interface cls (Z.to_nat rounds) (c_stabs (c_ops cd)) None d) by (eapply ui_new; eauto).
  assert (WA : weights_allow e None (n_data_qubits (c_ops cd)) (List.length (c_stabs (c_ops cd)))) by (repeat split).
  rewrite <- ER in *.
  destruct (C53_memory_decoded cls cd e x is anc g s0 sm None d XC NG HR EI NE RD Hg RUN I I WA UI) as (b & HB).
  exists sg, d, b. split; [auto|]. split; [auto|]. intros fuel LF.
  destruct (HB fuel LF) as (d' & fr & ok & R & _ & CS & Rest). exists d', fr, ok. auto.
Qed.
Print Assumptions C54_decoders.
(** The graph of the toric code of size 2 and a generator list which is not graph-like. *)
Example C54_example :
  (do cd <- make_toric 1 2; do g <- new_sgraph 1 (c_stabs (c_ops cd)) None; Ok (List.length (sg_verts g), List.length (sg_ends g), forallb (fun l => List.length l =? 2) (sg_ends g))) = Ok (8, 16, true) /\
  (do g <- new_sgraph 1 [mkRow [(true, false)] false; mkRow [(true, false)] false; mkRow [(true, false)] false] None; Ok tt) = Err ValueError.
Proof. split; vm_compute; reflexivity. Qed.
