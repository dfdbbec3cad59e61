(** Error tables for lattices. *)
Require Import String List Bool Arith Ascii ZArith QArith Lia.
From Verif Require Import Base BaseProofs CircuitModel SimSpec LatticeModel LatticeSpec GeneratorModel GeneratorSpec MemoryTotal WeightsModel WeightsSpec TablesModel TablesSpec TablesProofs TablesQubits.
Import ListNotations.
Local Open Scope string_scope.
Local Open Scope nat_scope.
Local Open Scope list_scope.

(** * Changes of cells *)
Lemma set_cells_ok t : NoDup (map fst (qt_rows t)) -> forall ips vs, length vs = length (qt_rows t) -> (forall q p, In (q, p) ips -> In q (map fst (qt_rows t))) ->
  exists vs', foldR (set_cell t) ips vs = Ok vs' /\ length vs' = length (qt_rows t) /\
    forall i q ty v, nth_error (qt_rows t) i = Some (q, ty) ->
      (nth_error vs' i = Some v <-> last_with (fun ip => fst ip = q) ips (q, v) \/ (forall p, ~ In (q, p) ips) /\ nth_error vs i = Some v).
Proof.
  intros N ips. induction ips as [|[a p] ips IH] using rev_ind; intros vs L H.
  - exists vs. split; [auto|]. split; [auto|]. intros i q ty v E. split; [auto|]. intros [K|[_ K]]; auto. apply last_nil in K. contradiction.
  - destruct (IH vs L) as (vs' & E & L' & K); [intros q p' I; apply (H q p'); apply in_app_iff; auto|]. rewrite foldR_app, E. cbn [bindR foldR].
    assert (IA : In a (map fst (qt_rows t))) by (apply (H a p), in_app_iff; cbn; auto). apply in_map_iff in IA as ([a' ta] & EA & IA). cbn in EA. subst a'.
    apply In_nth_error in IA as (j & EJ). unfold set_cell. cbn [fst snd]. rewrite (position_ok t j a ta N EJ). cbn [bindR]. eexists. split; [reflexivity|].
    rewrite length_upd. split; auto. intros i q ty v EI. rewrite last_snoc. cbn [fst].
    assert (LI : i < length (qt_rows t)) by (apply nth_error_Some; congruence).
    assert (NE : forall k (l : list Q) x, k < length l -> (nth_error l k = Some x <-> nth k l 0%Q = x)).
    { intros k l x Lk. rewrite (nth_error_nth' l 0%Q Lk). split; congruence. }
    destruct (Z.eq_dec a q) as [->|D].
    + assert (i = j) by (assert (P := position_ok t j q ta N EJ); rewrite (position_ok t i q ty N EI) in P; congruence). subst j.
      rewrite NE by (rewrite length_upd; lia). rewrite nth_upd_same by lia. split; [intros ->; auto|].
      intros [[[_ [= ->]]|[C _]]|[C _]]; [auto|contradiction|]. exfalso. apply (C p), in_app_iff. cbn. auto.
    + assert (i <> j) by congruence. rewrite NE by (rewrite length_upd; lia). rewrite nth_upd_other by auto. rewrite <- NE by lia. rewrite (K i q ty v EI).
      assert (X : (forall p0, ~ In (q, p0) (ips ++ [(a, p)])) <-> forall p0, ~ In (q, p0) ips).
      { split; intros F p0 I; apply (F p0); [apply in_app_iff; auto|]. apply in_app_iff in I as [I|[[= -> ->]|[]]]; [auto|contradiction]. }
      rewrite X. split; [intros [A|A]; auto|]. intros [[[C _]|[_ A]]|A]; auto; contradiction.
Qed.
Lemma has_column_ok t n : has_column t n = true <-> In n ["qubit_id"; "qubit_type"] \/ In n (map fst (qt_cols t)).
Proof. unfold has_column. rewrite orb_true_iff, !mem_str_in. tauto. Qed.

(** * The rows of a lattice *)
Lemma filter_false {A} (f : A -> bool) l : (forall x, In x l -> f x = false) -> filter f l = [].
Proof. apply filter_none. Qed.
Lemma filter_true {A} (f : A -> bool) : forall l, (forall x, In x l -> f x = true) -> filter f l = l.
Proof. induction l as [|x l IH]; cbn; auto. intros H. rewrite H by auto. rewrite IH; auto. Qed.
Lemma lattice_rows_ok l : consistent l -> indexed l -> lattice_rows l = standard_rows (length (l_data l)) (length (l_stabs l)).
Proof.
  intros C X. pose proof X as (_ & _ & _ & EQ & NUM). unfold lattice_rows, standard_rows.
  assert (KD := fun i => proj1 (kind_of_list l i C)). assert (KS := fun i => proj1 (proj2 (kind_of_list l i C))). assert (KL := fun i => proj2 (proj2 (kind_of_list l i C))).
  assert (E : filter (fun i => negb (is_logical (l_heap l i))) (l_equbits l) = l_data l ++ l_stabs l).
  { rewrite EQ, !filter_app. rewrite (filter_true _ (l_data l)), (filter_true _ (l_stabs l)), (filter_false _ (l_logicals l)), app_nil_r; auto.
    - intros i I. apply KL in I. rewrite I. auto.
    - intros i I. apply KS in I. apply kinds_apart in I as [_ ->]. auto.
    - intros i I. apply KD in I. apply kinds_apart in I as [_ ->]. auto. }
  rewrite E, <- app_length. apply (list_ext _ _ (0%Z, "")); [rewrite !map_length, seq_length; auto|]. intros k Lk. rewrite map_length in Lk.
  set (f := fun i => _). rewrite (nth_indep _ _ (f 0)) by (rewrite map_length; auto). rewrite map_nth. unfold f.
  rewrite nth_map_seq by auto.
  assert (NK : nth_error (l_equbits l) k = Some (nth k (l_data l ++ l_stabs l) 0)).
  { rewrite EQ, app_assoc, nth_error_app1 by auto. apply nth_error_nth'. auto. }
  rewrite (NUM k _ NK). f_equal. unfold qubit_type. destruct (Nat.ltb_spec k (length (l_data l))) as [L|L].
  - rewrite app_nth1 by auto. assert (I := KD _ (nth_In (l_data l) 0 L)). unfold is_data in I. destruct (v_kind _); auto; discriminate.
  - rewrite app_length in Lk. rewrite app_nth2 by lia. assert (I := KS _ (nth_In (l_stabs l) 0 (ltac:(lia) : k - length (l_data l) < length (l_stabs l)))). unfold is_stab in I. destruct (v_kind _); auto; discriminate.
Qed.
Lemma standard_labels nd ns : map fst (standard_rows nd ns) = map Z.of_nat (seq 0 (nd + ns)).
Proof. unfold standard_rows. rewrite map_map. reflexivity. Qed.
Lemma standard_nodup nd ns : NoDup (map fst (standard_rows nd ns)).
Proof. rewrite standard_labels. apply FinFun.Injective_map_NoDup; [intros a b; apply Nat2Z.inj|apply seq_NoDup]. Qed.
Lemma standard_in nd ns q ty : In (q, ty) (standard_rows nd ns) <-> ty = "data" /\ data_number nd q \/ ty = "stab" /\ ancilla_number nd ns q.
Proof.
  unfold standard_rows, data_number, ancilla_number. rewrite in_map_iff. split.
  - intros (k & [= <- <-] & I). apply in_seq in I. destruct (Nat.ltb_spec k nd); [left|right]; split; auto; lia.
  - intros H. exists (Z.to_nat q). rewrite in_seq. destruct H as [[-> H]|[-> H]].
    + rewrite Z2Nat.id by lia. destruct (Nat.ltb_spec (Z.to_nat q) nd); [split; [auto|lia]|lia].
    + rewrite Z2Nat.id by lia. destruct (Nat.ltb_spec (Z.to_nat q) nd); [lia|]. split; [auto|lia].
Qed.
Lemma standard_typed t nd ns q : qt_rows t = standard_rows nd ns ->
  (typed t ["data"] q <-> data_number nd q) /\ (typed t ["stab"; "ancilla"] q <-> ancilla_number nd ns q).
Proof.
  intros E. unfold typed. rewrite E. split; split.
  - intros (ty & I & [<-|[]]). apply standard_in in I as [[_ H]|[H _]]; auto. discriminate.
  - intros H. exists "data". split; [apply standard_in; auto|cbn; auto].
  - intros (ty & I & J). apply standard_in in I as [[-> H]|[_ H]]; auto. destruct J as [J|[J|[]]]; discriminate.
  - intros H. exists "stab". split; [apply standard_in; auto|cbn; auto].
Qed.

(** * The dictionaries are valid *)
Lemma pget_in k v p : NoDup (map fst p) -> In (k, v) p -> pget k p = v.
Proof.
  unfold pget. induction p as [|[a b] p IH]; cbn; intros N I; [destruct I|]. inversion N as [|? ? NI N']; subst. destruct (String.eqb_spec a k) as [->|D].
  - destruct I as [[= ->]|I]; auto. apply (in_map fst) in I. contradiction.
  - destruct I as [[= -> ->]|I]; [contradiction|]. auto.
Qed.
Lemma pget_out k p : (forall v, ~ In (k, v) p) -> pget k p = 0%Q.
Proof.
  unfold pget. induction p as [|[a b] p IH]; cbn; intros H; auto. destruct (String.eqb_spec a k) as [->|D]; [exfalso; apply (H b); auto|]. apply IH. intros v I. apply (H v). auto.
Qed.
(** The parameter of a column. *)
Lemma column_value t on types keys d n k q p : columns_of t on types keys d -> well_formed t -> In (n, k) keys -> (forall n', In (n', k) keys -> n' = n) ->
  (In n on -> In n (map fst (qt_cols t))) -> In (q, p) d -> enabled_value t on n q (pget k p) /\ (In n on -> p <> []).
Proof.
  intros [A B C] W K U H I. destruct (C q p I) as [N P]. unfold enabled_value. destruct (in_dec string_dec n on) as [O|O].
  - destruct (holds_some t n q W (H O)) as (v & V); [apply (typed_row t types), B; eauto|]. assert (J : In (k, v) p) by (apply P; exists n; auto).
    rewrite (pget_in k v p N J). split; auto. intros _ ->. destruct J.
  - split; [|contradiction]. right. split; auto. apply pget_out. intros v J. apply P in J as (n' & K' & O' & _). apply U in K'. congruence.
Qed.
Lemma ev_range t on n q v : valid_table t on -> concerns t n q -> enabled_value t on n q v -> (0 <= v <= 1)%Q.
Proof. intros V C [[O H]|[_ ->]]; [eapply vt_range; eauto|]. split; discriminate. Qed.

Lemma qubits_valid t on nd ns e : well_formed t -> valid_table t on -> qt_rows t = standard_rows nd ns -> columns_done t on e -> named_errors nd ns e /\ probabilities e /\ distinct_keys e /\
  (er_erasure e = [] \/ erasure_everywhere nd e).
Proof.
  intros W V ER [P E M (G1 & G2 & G3 & G4 & G5)]. assert (ST := fun q => standard_typed t nd ns q ER).
  assert (PN : named (data_number nd) ["x"; "y"; "z"] (er_pauli e)).
  { intros q p I. split; [apply ST, (co_qubits _ _ _ _ _ P); eauto|]. intros k x J. apply (co_params _ _ _ _ _ P q p I) in J as (n & K & _). revert K. cbn. intuition congruence. }
  assert (EN : named (data_number nd) ["p"] (er_erasure e)).
  { intros q p I. split; [apply ST, (co_qubits _ _ _ _ _ E); eauto|]. intros k x J. apply (co_params _ _ _ _ _ E q p I) in J as (n & K & _). revert K. cbn. intuition congruence. }
  assert (MN : named (ancilla_number nd ns) ["p"] (er_measurement e)).
  { intros q p I. split; [apply ST, (co_qubits _ _ _ _ _ M); eauto|]. intros k x J. apply (co_params _ _ _ _ _ M q p I) in J as (n & K & _). revert K. cbn. intuition congruence. }
  split; [|split; [|split]].
  - split; auto; rewrite ?G1, ?G2, ?G3, ?G4, ?G5; intros ? ?; intros; contradiction.
  - assert (DC : forall n q, In n ["X"; "Y"; "Z"] -> typed t ["data"] q -> concerns t n q) by (intros n q I T; left; split; auto; revert I; cbn; tauto).
    split; rewrite ?G1, ?G2, ?G3, ?G4, ?G5; try (intros ? ? []).
    + intros q p I. assert (T : typed t ["data"] q) by (apply (co_qubits _ _ _ _ _ P); eauto).
      assert (EV : forall n k, In (n, k) pauli_columns -> enabled_value t on n q (pget k p)).
      { intros n k K. eapply (column_value t on ["data"] pauli_columns (er_pauli e) n k q p); eauto.
        - intros n' K'. revert K K'. keysolve.
        - intros O. apply (vt_columns _ _ V n q O). apply DC; auto. revert K. cbn. intuition congruence. }
      assert (X := EV "X" "x" ltac:(cbn; auto)). assert (Y := EV "Y" "y" ltac:(cbn; auto)). assert (Z := EV "Z" "z" ltac:(cbn; auto)). split.
      * intros k [<-|[<-|[<-|[]]]]; [eapply (ev_range t on "X" q)|eapply (ev_range t on "Y" q)|eapply (ev_range t on "Z" q)]; eauto; apply DC; cbn; auto.
      * cbn [map qsum fold_right]. rewrite Qplus_0_r, Qplus_assoc. eapply vt_sum; eauto.
    + intros q p I. assert (T : typed t ["stab"; "ancilla"] q) by (apply (co_qubits _ _ _ _ _ M); eauto). assert (C : concerns t "measurement" q) by (right; auto).
      eapply (ev_range t on "measurement" q); eauto. eapply (column_value t on ["stab"; "ancilla"] measurement_columns); eauto; [cbn; auto|keysolve|]. intros O. apply (vt_columns _ _ V "measurement" q O C).
  - split; [apply P|apply E|apply M].
  - destruct (in_dec string_dec "erasure" on) as [O|O].
    + right. intros q L. assert (T : typed t ["data"] (Z.of_nat q)) by (apply ST; unfold data_number; lia). destruct (proj2 (co_qubits _ _ _ _ _ E (Z.of_nat q))) as (p & I).
      { split; auto. exists "erasure", "p". cbn. auto. }
      exists p. split.
      * unfold get1. destruct (find _ (er_erasure e)) as [[z p']|] eqn:F.
        -- assert (IZ := find_some _ _ F). cbn in IZ. destruct IZ as [IZ EZ]. apply Z.eqb_eq in EZ. subst z. f_equal. cbn.
           assert (N := co_keys _ _ _ _ _ E). clear - N I IZ. induction (er_erasure e) as [|[a b] d IH]; [destruct I|]. cbn in *. inversion N as [|? ? NI N']; subst.
           destruct I as [EI|I], IZ as [EZ|IZ]; try congruence; auto; try (injection EI as -> ->); try (injection EZ as -> ->); exfalso; apply NI; [apply (in_map fst) in IZ|apply (in_map fst) in I]; auto.
        -- apply (find_none _ _ F) in I. cbn in I. rewrite Z.eqb_refl in I. discriminate.
      * eapply (column_value t on ["data"] erasure_columns (er_erasure e) "erasure" "p"); eauto; [cbn; auto|keysolve|]. intros _. apply (vt_columns _ _ V "erasure" (Z.of_nat q) O). left. split; auto. cbn; auto.
    + left. destruct (er_erasure e) as [|[q p] d] eqn:EE; auto. exfalso. destruct (proj1 (co_qubits _ _ _ _ _ E q)) as [_ (n & k & K & I)]; [exists p; cbn; auto|].
      revert K I. cbn. intros [[= <- <-]|[]]. auto.
Qed.
Lemma in_combine_names (r : gate_row) n v : In (n, v) (combine (g_errors r) (g_probs r)) -> In n (g_errors r).
Proof. apply in_combine_l. Qed.
Lemma gates_valid gon rows nd ns e : gates_done gon rows e -> (forall r, In r rows -> In (g_gate r) gon -> valid_row nd ns r) -> named_errors nd ns e /\ probabilities e.
Proof.
  intros [H M R X Z (Q1 & Q2 & Q3)] V.
  assert (V1 : forall g d, In g ["H"; "M"; "R"] -> last_rows (mentions gon g) rows d -> named (ancilla_number nd ns) ["x"; "y"; "z"] d /\ forall q p, In (q, p) d -> distribution ["x"; "y"; "z"] p).
  { intros g d G L. assert (F : forall q p, In (q, p) d -> ancilla_number nd ns q /\ (forall k x, In (k, x) p -> In k ["x"; "y"; "z"]) /\ distribution ["x"; "y"; "z"] p).
    { intros q p I. destruct (lr_sound _ _ _ L q p I) as (r & LR & CO). apply last_holds in LR as [(GO & GG & GQ) IR]. destruct (vr_one nd ns r (V r IR GO)) as (A & B & D); [rewrite GG; auto|].
      split; auto. split; auto. intros k x J. apply CO in J as (n & J). apply last_holds in J as [<- J]. cbn. apply B. eapply in_combine_l; eauto. }
    split; [intros q p I; destruct (F q p I) as (A & B & _); auto|]. intros q p I. apply (F q p I). }
  assert (V2 : forall g d, In g ["CX"; "CZ"] -> last_rows (mentions2 gon g) rows d -> named2 (fun a q => ancilla_number nd ns a /\ data_number nd q) two_qubit_paulis d /\ forall q p, In (q, p) d -> distribution two_qubit_paulis p).
  { intros g d G L. assert (F : forall ab p, In (ab, p) d -> (ancilla_number nd ns (fst ab) /\ data_number nd (snd ab)) /\ (forall k x, In (k, x) p -> In k two_qubit_paulis) /\ distribution two_qubit_paulis p).
    { intros q p I. destruct (lr_sound _ _ _ L q p I) as (r & LR & CO). apply last_holds in LR as [(GO & GG & GQ) IR]. destruct (vr_two nd ns r (V r IR GO)) as (_ & A & B & D); [rewrite GG; auto|].
      split; auto. split; auto. intros k x J. apply CO in J as (n & J). apply last_holds in J as [<- J]. cbn. apply B. eapply in_combine_l; eauto. }
    split; [intros a b p I; destruct (F (a, b) p I) as (A & B & _); auto|]. intros q p I. apply (F q p I). }
  destruct (V1 "H" _ ltac:(cbn; auto) H), (V1 "M" _ ltac:(cbn; auto) M), (V1 "R" _ ltac:(cbn; auto) R), (V2 "CX" _ ltac:(cbn; auto) X), (V2 "CZ" _ ltac:(cbn; auto) Z).
  split; split; rewrite ?Q1, ?Q2, ?Q3; auto; intros ? ? [].
Qed.
