(** Matching decoders: weights of error histories, and logical operators. *)
Require Import List Bool Arith ZArith QArith Qround Lqa Lia Relations.
From Verif Require Import Base BaseProofs QSpec PauliModel PauliAlg GraphSpec GraphProofs
  LatticeSpec LatticeOps GeneratorSpec ErasureModel SyngraphModel SyngraphBuild SyngraphDup SyngraphProofs SyngraphErrors SyngraphFinal UnionFindMetric
  Props_Syngraph DecoderSpec DecoderModel DecoderProofs DecoderObjects DecoderHistory DecoderDistance FaultSpec DecoderFaults DecoderEven
  MatchingModel MatchingSpec MatchingComp MatchingProofs MatchingGraph.
Import ListNotations.
Open Scope nat_scope.
Local Arguments incident : simpl never.

(** The weight of an error. *)
Definition kind_cost (w : option warg) (k : ekind) : Q :=
  match k with
  | QubitError _ _ q PX => fault_weight w w_x q
  | QubitError _ _ q _ => fault_weight w w_z q
  | StabError _ s => fault_weight w w_meas s
  end.
Section H.
Variables (rounds n : nat) (gens : list row) (w : option warg) (g : sgraph).
Hypothesis U : uses rounds n gens w g.
Notation m := (length (sg_ends g)).
Notation on i := (nth i (sg_on g) false).
Definition ecost (i : nat) : Q := kind_cost w (kind_of g i).

Lemma qsum_kinds (f : ekind -> Q) : (qsum (fun i => f (kind_of g i)) (seq 0 m) ==
  qsum (fun t => qsum (fun q => f (QubitError t q q PX) + f (QubitError t (n + q)%nat q PZ)) (seq 0 n)) (seq 0 rounds) +
  qsum (fun t => qsum (fun s => f (StabError t s)) (seq 0 (length gens))) (seq 1 (rounds - 1)))%Q.
Proof.
  rewrite <- (qsum_map f (kind_of g)), (kinds_list rounds n gens w g U), qsum_app, !qsum_flat_map.
  apply Qplus_comp; apply qsum_ext; intros t _; rewrite qsum_map; [|reflexivity].
  rewrite seq_twice, qsum_app, qsum_plus. apply Qplus_comp.
  - apply qsum_ext. intros q I. apply in_seq in I. rewrite letter_x by lia. reflexivity.
  - rewrite qsum_map. apply qsum_ext. intros q I. rewrite letter_z. reflexivity.
Qed.

Lemma history_any v allow side E F :
  (qsum (fun i => if relevant g allow side i && happened E F (kind_of g i) then kind_cost v (kind_of g i) else 0) (seq 0 m) ==
   history_weight v rounds n (length gens) (those_errors allow E) (those_results side F))%Q.
Proof.
  unfold relevant. rewrite (qsum_kinds (fun k => if rel_kind allow side k && happened E F k then kind_cost v k else 0%Q)).
  unfold history_weight, those_errors, those_results. cbn [rel_kind happened kind_cost fst snd]. reflexivity.
Qed.
Lemma history_cost allow side E F :
  (qsum (fun i => if relevant g allow side i && happened E F (kind_of g i) then ecost i else 0) (seq 0 m) ==
   history_weight w rounds n (length gens) (those_errors allow E) (those_results side F))%Q.
Proof. apply history_any. Qed.

(** ** Weights *)
Hypothesis SW : sane_weights w n (length gens).

Lemma kind_sane i : i < m -> is_inf (weight_of g i) = false ->
  match w with None => weight_of g i = NaN /\ ecost i = 1%Q | Some _ => exists q, weight_of g i = Fin q /\ (0 <= q)%Q /\ ecost i = q end.
Proof.
  intros Li N. destruct (weight_kind _ _ _ _ _ _ U Li) as [X K]. unfold ecost. rewrite X in *.
  destruct w as [a|]; cbn [kind_weight] in *.
  - destruct SW as [S1 S2]. destruct (kind_of g i) as [t op q p|t s]; cbn [kind_cost fault_weight].
    + destruct K as (_ & Lq & [-> | ->]); destruct (S1 q Lq) as [A B].
      * destruct (weight_at (w_x a) q); try discriminate; cbn in A; [destruct A|eexists; split; [reflexivity|split; [exact A|reflexivity]]].
      * destruct (weight_at (w_z a) q); try discriminate; cbn in B; [destruct B|eexists; split; [reflexivity|split; [exact B|reflexivity]]].
    + specialize (S2 s ltac:(tauto)). destruct (weight_at (w_meas a) s); try discriminate; cbn in S2; [destruct S2|eexists; split; [reflexivity|split; [exact S2|reflexivity]]].
  - split; auto. destruct (kind_of g i) as [t op q p|t s]; [destruct p|]; reflexivity.
Qed.

Lemma fault_pos sel i : (forall a, w = Some a -> not_negative (weight_at (sel a) i)) -> (0 <= fault_weight w sel i)%Q.
Proof.
  intros H. destruct w as [a|]; cbn [fault_weight]; [|lra]. specialize (H a eq_refl). destruct (weight_at (sel a) i); cbn in H; lra.
Qed.
Lemma fault_pos3 : (forall q, q < n -> (0 <= fault_weight w w_x q)%Q /\ (0 <= fault_weight w w_z q)%Q) /\
  (forall s, s < length gens -> (0 <= fault_weight w w_meas s)%Q).
Proof.
  split; intros q L; [split|]; apply fault_pos; intros a Ea; rewrite Ea in SW; destruct SW as [S1 S2]; [apply S1|apply S1|apply S2]; auto.
Qed.
Lemma ecost_pos i : i < m -> (0 <= ecost i)%Q.
Proof.
  intros Li. destruct (weight_kind _ _ _ _ _ _ U Li) as [_ K]. unfold ecost. destruct fault_pos3 as [P1 P2].
  destruct (kind_of g i) as [t op q p|t s]; cbn [kind_cost]; [|apply P2; tauto]. destruct K as (_ & Lq & [-> | ->]); apply P1; auto.
Qed.

Lemma sane_certain i : i < m -> weight_of g i <> Inf true.
Proof.
  intros Li E. destruct (weight_kind _ _ _ _ _ _ U Li) as [X K]. rewrite X in E. destruct w as [a|]; cbn [kind_weight] in E; [|discriminate].
  destruct SW as [S1 S2]. destruct (kind_of g i) as [t op q p|t s].
  - destruct K as (_ & Lq & [-> | ->]); destruct (S1 q Lq) as [A B]; [rewrite E in A; discriminate|rewrite E in B; discriminate].
  - specialize (S2 s ltac:(tauto)). rewrite E in S2. discriminate.
Qed.

Lemma sane_none_certain : none_certain w n (length gens).
Proof.
  destruct w as [a|]; [|exact I]. destruct SW as [S1 S2]. split.
  - intros q L. destruct (S1 q L) as [A B]. split; intros E; [rewrite E in A|rewrite E in B]; discriminate.
  - intros s L E. specialize (S2 s L). rewrite E in S2. discriminate.
Qed.

Lemma lighter i j : i < m -> j < m -> is_inf (weight_of g i) = false -> is_inf (weight_of g j) = false ->
  wlt (weight_of g j) (weight_of g i) = false -> (ecost i <= ecost j)%Q.
Proof.
  intros Li Lj Ni Nj W. pose proof (kind_sane i Li Ni) as A. pose proof (kind_sane j Lj Nj) as B. destruct w.
  - destruct A as (x & EA & PA & ->), B as (y & EB & PB & ->). rewrite EA, EB in W. cbn in W. apply negb_false_iff in W. apply Qle_bool_iff in W. auto.
  - destruct A as [_ ->], B as [_ ->]. lra.
Qed.

(** ** Histories and their edges *)
Variable (syn : list (list bool)).
Lemma history_finite E F : explained w rounds n gens syn E F -> forall i, i < m -> happened E F (kind_of g i) = true -> is_inf (weight_of g i) = false.
Proof.
  intros [_ _ ED ER _] i Li. destruct (weight_kind _ _ _ _ _ _ U Li) as [-> X].
  destruct w as [a|]; cbn [kind_weight]; [|auto]. destruct (kind_of g i) as [t op q p|t s].
  - destruct X as (Lt & Lq & [-> | ->]); cbn [happened]; apply (ED t q Lt Lq).
  - cbn [happened]. apply ER; tauto.
Qed.
Lemma history_boundary E F : explained w rounds n gens syn E F -> forall v, v < length (sg_verts g) ->
  boundary (sg_ends g) (fun i => happened E F (kind_of g i)) v = vertex_bit g syn v.
Proof.
  intros EX v Lv. destruct (vertex_at _ _ _ _ _ _ U Lv) as (t & s & X & Lt & Ls).
  rewrite (C30_history _ _ _ _ _ U E F (ex_first _ _ _ _ _ _ _ EX) (ex_last _ _ _ _ _ _ _ EX) v t s X).
  unfold vertex_bit. rewrite (nth_error_nth _ _ (0, 0) X). cbn [fst snd]. symmetry. apply (ex_syndrome _ _ _ _ _ _ _ EX); auto.
Qed.

(** ** The weight of a result *)
Variable (result : list bool).
Hypothesis OUTSIDE : forall i, (forall k, In k (sg_comps g) -> ~ In i (k_eidx k)) -> nth i result false = false.
Variables (a b : nat -> Q).
Hypothesis MIN : forall k, In k (sg_comps g) -> forall sel,
  explains (k_n k) (k_edges k) sel (fun p => vertex_bit g syn (nth p (k_vidx k) 0)) ->
  (qsum (fun j => if nth (nth j (k_eidx k) 0%nat) result false then a (nth j (k_eidx k) 0%nat) else 0) (seq 0 (length (k_eidx k))) <=
   qsum (fun j => if sel j then b (nth j (k_eidx k) 0%nat) else 0) (seq 0 (length (k_eidx k))))%Q.
Hypothesis BPOS : forall i, i < m -> (0 <= b i)%Q.
Hypothesis BL : forall i j, i < m -> j < m -> on i = true -> is_inf (weight_of g j) = false -> (on j = true -> i = j) ->
  wlt (weight_of g j) (weight_of g i) = false -> (b i <= b j)%Q.

Lemma outside_edges i : ~ In i (comp_edges g) -> nth i result false = false.
Proof. intros N. apply OUTSIDE. intros k I J. apply N. unfold comp_edges. apply in_flat_map. eauto. Qed.

Lemma result_cost rel E F : (forall i j v, i < m -> j < m -> In v (nth i (sg_ends g) []) -> In v (nth j (sg_ends g) []) -> rel i = rel j) ->
  explained w rounds n gens syn E F ->
  (qsum (fun i => if rel i && nth i result false then a i else 0) (seq 0 m) <=
   qsum (fun i => if rel i && happened E F (kind_of g i) then b i else 0) (seq 0 m))%Q.
Proof.
  intros REL EX. destruct (representative rounds n gens w g U sane_certain) as (r & HR).
  apply (cost_bound rounds n gens w g U rel REL (vertex_bit g syn) (fun i => nth i result false) a b outside_edges MIN BPOS sane_certain
    (fun i => happened E F (kind_of g i)) (history_finite E F EX) r HR).
  - intros j Lj Ej. pose proof (history_finite E F EX j Lj Ej) as Nj. destruct (HR j Lj Nj) as (Lr & Ar & Kr & _ & Wr). apply BL; auto.
  - apply history_boundary; auto.
Qed.
End H.

(** ** The distance in weights *)
Section D.
Variables (rounds n : nat) (gens : list row) (w : option warg) (g : sgraph).
Hypothesis U : uses rounds n gens w g.
Notation m := (length (sg_ends g)).
Hypothesis SW : sane_weights w n (length gens).
Variables (l : nat -> bool * bool) (D : Q).

Lemma parity_some {A} (f : A -> bool) k : parity (map f k) = true -> exists x, In x k /\ f x = true.
Proof.
  intros P. destruct (existsb f k) eqn:X; [apply existsb_exists in X; auto|]. rewrite parity_false in P; [discriminate|].
  intros x I. apply (existsb_false _ _ X x I).
Qed.
Lemma qsum_parity {A} (f : A -> bool) k c : (0 <= c)%Q -> ((if parity (map f k) then c else 0) <= qsum (fun x => if f x then c else 0) k)%Q.
Proof.
  intros P. induction k as [|x k IH]; [cbn; lra|]. rewrite qsum_cons. change (parity (map f (x :: k))) with (xorb (f x) (parity (map f k))).
  assert (0 <= qsum (fun x => if f x then c else 0) k)%Q by (apply qsum_nonneg; intros y _; destruct (f y); lra).
  destruct (f x), (parity (map f k)); cbn [xorb]; lra.
Qed.

Lemma graph_weight_distance : weight_distance w n gens l D ->
  forall sel, (forall i, i < m -> sel i = true -> is_inf (weight_of g i) = false) ->
  (forall v, v < length (sg_verts g) -> boundary (sg_ends g) sel v = false) ->
  parity (map (fun i => sel i && flip g l i) (seq 0 m)) = true ->
  (D <= qsum (fun i => if sel i then ecost w g i else 0) (seq 0 m))%Q.
Proof.
  intros WD sel FN B P. set (E := sel_errors rounds n g sel). set (F := sel_flips rounds n gens g sel).
  assert (HS : forall i, i < m -> happened E F (kind_of g i) = sel i) by (apply (sel_happened rounds n gens w g U)).
  destruct (fault_pos3 _ n gens w g U SW) as [P1 P2].
  assert (TF : forall t q p, t < rounds -> q < n -> p = PX \/ p = PZ -> error_part p (E t q) = true -> is_inf (kind_weight w (QubitError t 0 q p)) = false).
  { intros t q p Lt Lq PP X. destruct (C30_edges _ _ _ _ _ U) as (_ & _ & KQ & _). destruct (KQ t q p Lt Lq PP) as (i & Li & (op & Ki) & _).
    assert (Si : sel i = true) by (rewrite <- HS, Ki by auto; destruct PP as [-> | ->]; exact X).
    specialize (FN i Li Si). destruct (weight_kind _ _ _ _ _ _ U Li) as [W _]. rewrite W, Ki in FN. destruct PP as [-> | ->]; exact FN. }
  eapply Qle_trans; [apply (WD (total rounds E))|].
  - intros q Lq. unfold total. cbn [fst snd]. split; intros X; apply (parity_some (fun t => _ (E t q))) in X; destruct X as (t & I & X); apply in_seq in I.
    + specialize (TF t q PX ltac:(lia) Lq ltac:(auto) X). unfold finite_error. destruct w; auto.
    + specialize (TF t q PZ ltac:(lia) Lq ltac:(auto) X). unfold finite_error. destruct w; auto.
  - intros s Ls. apply (anti_generators rounds n gens w g U l E F); auto.
    + intros s' _. unfold F, sel_flips, result_flips. rewrite Nat.ltb_irrefl, andb_false_r. auto.
    + intros v Lv. rewrite <- (B v Lv). apply boundary_ext. auto.
  - rewrite <- (history_flips rounds n gens w g U l E F), <- P. apply parity_ext. intros i I. apply in_seq in I. rewrite HS; auto; lia.
  - apply Qle_trans with (qsum (fun i => (fun k => if happened E F k then kind_cost w k else 0%Q) (kind_of g i)) (seq 0 m)).
    2: { apply Qle_lteq. right. apply qsum_ext. intros i I. apply in_seq in I. cbn beta. rewrite HS by lia. reflexivity. }
    rewrite (qsum_kinds rounds n gens w g U (fun k => if happened E F k then kind_cost w k else 0%Q)).
    assert (Z : (0 <= qsum (fun t => qsum (fun s => if happened E F (StabError t s) then kind_cost w (StabError t s) else 0) (seq 0 (length gens))) (seq 1 (rounds - 1)))%Q).
    { apply qsum_nonneg. intros t _. apply qsum_nonneg. intros s I. apply in_seq in I. destruct (happened E F (StabError t s)); [apply P2; lia|lra]. }
    match goal with |- (_ <= ?x + ?y)%Q => apply Qle_trans with x; [|change (0 <= y)%Q in Z; lra] end.
    rewrite qsum_swap. unfold weight_of_operator. apply qsum_le. intros q I. apply in_seq in I. destruct (P1 q ltac:(lia)) as [Px Pz]. rewrite qsum_plus.
    cbn [happened kind_cost]. unfold total. cbn [fst snd]. apply Qplus_le_compat.
    + apply (qsum_parity (fun t => fst (E t q)) (seq 0 rounds)). auto.
    + apply (qsum_parity (fun t => snd (E t q)) (seq 0 rounds)). auto.
Qed.
End D.
