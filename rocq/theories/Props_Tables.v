(** Properties of the error tables. *)
Require Import String List Bool Arith Ascii ZArith QArith Lia.
From Verif Require Import Base BaseProofs QSpec PauliModel CircuitModel SimSpec SimModel CodesSpec LatticeModel LatticeSpec CodesModel GeneratorModel GeneratorSpec MemorySem MemoryTotal Props_Generator WeightsModel TablesModel TablesSpec TablesProofs TablesQubits TablesLattice.
Import ListNotations.
Local Open Scope string_scope.
Local Open Scope nat_scope.
Local Open Scope list_scope.

(** * C38 Gate error rows: the last one wins *)
Lemma fine_dec gon r : fine_row gon r \/ two_row gon r /\ (bad_names r \/ ~ bad_names r /\ ~ Nat.Even (length (g_qubits r))).
Proof.
  unfold fine_row. assert (T : two_row gon r \/ ~ two_row gon r).
  { unfold two_row. destruct (in_dec string_dec (g_gate r) gon), (in_dec string_dec (g_gate r) ["CX"; "CZ"]); tauto. }
  assert (B : bad_names r \/ ~ bad_names r) by (rewrite <- bad_names_ok; destruct (existsb _ _); auto).
  assert (E : Nat.Even (length (g_qubits r)) \/ ~ Nat.Even (length (g_qubits r))) by (destruct (Nat.Even_or_Odd (length (g_qubits r))) as [E|O]; auto; right; intros E; eapply Nat.Even_Odd_False; eauto).
  tauto.
Qed.
Lemma first_bad gon : forall rows, (forall r, In r rows -> fine_row gon r) \/
  exists a r b, rows = a ++ r :: b /\ (forall x, In x a -> fine_row gon x) /\ two_row gon r /\ (bad_names r \/ ~ bad_names r /\ ~ Nat.Even (length (g_qubits r))).
Proof.
  induction rows as [|x rows IH]; [left; intros r []|]. destruct (fine_dec gon x) as [F|[T B]]; [|right; exists [], x, rows; split; auto; split; auto; intros ? []].
  destruct IH as [H|(a & r & b & -> & A & T & B)]; [left; intros r [<-|I]; auto|]. right. exists (x :: a), r, b. split; auto. split; auto. intros y [<-|I]; auto.
Qed.
(** The dictionary contains for each gate and qubit exactly the last enabled row. *)
Theorem C38_last_row : forall d e, gate_errors_dict d = Ok e ->
  last_rows (mentions (ed_gon d) "H") (ed_gates d) (er_H e) /\ last_rows (mentions (ed_gon d) "M") (ed_gates d) (er_M e) /\
  last_rows (mentions (ed_gon d) "R") (ed_gates d) (er_R e) /\ last_rows (mentions2 (ed_gon d) "CX") (ed_gates d) (er_CX e) /\
  last_rows (mentions2 (ed_gon d) "CZ") (ed_gates d) (er_CZ e) /\ er_pauli e = [] /\ er_erasure e = [] /\ er_measurement e = [].
Proof.
  intros d e E. unfold gate_errors_dict in E. destruct (add_rows_ok (ed_gon d) (ed_gates d) [] no_errors (gates_start _)) as [A B].
  destruct (first_bad (ed_gon d) (ed_gates d)) as [F|(a & r & b & ER & FA & T & BD)].
  - destruct (A F) as (e' & E' & [H M R X Z Q]). rewrite E' in E. injection E as <-. auto 10.
  - destruct (B a r b ER FA T) as [K I]. exfalso. destruct BD as [BD|[NB OD]]; [rewrite K in E by auto|rewrite I in E by auto]; discriminate.
Qed.
Print Assumptions C38_last_row.
(** It exists exactly if the rows of CX and CZ have pairs of qubits and no names X, Y, Z; the first
    other row tells the exception. *)
Theorem C38_total : forall d,
  ((forall r, In r (ed_gates d) -> fine_row (ed_gon d) r) -> exists e, gate_errors_dict d = Ok e) /\
  (forall a r b, ed_gates d = a ++ r :: b -> (forall x, In x a -> fine_row (ed_gon d) x) -> two_row (ed_gon d) r ->
     (bad_names r -> gate_errors_dict d = Err KeyError) /\ (~ bad_names r -> ~ Nat.Even (length (g_qubits r)) -> gate_errors_dict d = Err IndexError)).
Proof.
  intros d. unfold gate_errors_dict. destruct (add_rows_ok (ed_gon d) (ed_gates d) [] no_errors (gates_start _)) as [A B]. split; auto.
  intros F. destruct (A F) as (e & E & _). eauto.
Qed.
Print Assumptions C38_total.
Lemma get1_iff d q p : NoDup (map fst d) -> (get1 d (Some q) = Some p <-> In (Z.of_nat q, p) d).
Proof.
  unfold get1. induction d as [|[z r] d IH]; cbn; intros N; [split; [discriminate|intros []]|]. inversion N as [|? ? NI N']; subst. destruct (Z.eqb_spec z (Z.of_nat q)) as [->|D].
  - split; [intros [= ->]; auto|]. intros [[= ->]|I]; auto. apply (in_map fst) in I. contradiction.
  - rewrite IH by auto. split; auto. intros [[= -> ->]|I]; auto. contradiction.
Qed.
Lemma get2_iff d a b p : NoDup (map fst d) -> (get2 d (Some a) (Some b) = Some p <-> In ((Z.of_nat a, Z.of_nat b), p) d).
Proof.
  unfold get2. induction d as [|[[x y] r] d IH]; cbn; intros N; [split; [discriminate|intros []]|]. inversion N as [|? ? NI N']; subst. cbn in IH.
  destruct ((x =? Z.of_nat a) && (y =? Z.of_nat b))%Z eqn:E.
  - apply andb_true_iff in E as [E F]. apply Z.eqb_eq in E, F. subst. split; [intros [= ->]; auto|]. intros [[= ->]|I]; auto. apply (in_map fst) in I. contradiction.
  - rewrite IH by auto. split; auto. intros [[= -> -> ->]|I]; auto. rewrite !Z.eqb_refl in E. discriminate.
Qed.
Lemma looked_up {K} (men : K -> gate_row -> Prop) rows (d : list (K * params)) k o : last_rows men rows d -> (forall p, o = Some p <-> In (k, p) d) ->
  (forall r, last_with (men k) rows r -> exists p, o = Some p /\ contents r p) /\ ((forall r, In r rows -> ~ men k r) -> o = None).
Proof.
  intros [A B C] H. split.
  - intros r L. destruct (C k r L) as (p & I & P). exists p. split; auto. apply H. auto.
  - intros N. destruct o as [p|]; auto. destruct (B k p) as (r & L & _); [apply H; auto|]. apply last_holds in L as [M I]. destruct (N r I M).
Qed.
(** What the circuit generator finds for a gate. *)
Theorem C38_used : forall d e, gate_errors_dict d = Ok e ->
  (forall g a, In g ["H"; "M"; "R"] ->
     (forall r, last_with (mentions (ed_gon d) g (Z.of_nat a)) (ed_gates d) r -> exists p, get_gate_error e g (Some a) None = Some p /\ contents r p) /\
     ((forall r, In r (ed_gates d) -> ~ mentions (ed_gon d) g (Z.of_nat a) r) -> get_gate_error e g (Some a) None = None)) /\
  (forall g a b, In g ["CX"; "CZ"] ->
     (forall r, last_with (mentions2 (ed_gon d) g (Z.of_nat a, Z.of_nat b)) (ed_gates d) r -> exists p, get_gate_error e g (Some a) (Some (Some b)) = Some p /\ contents r p) /\
     ((forall r, In r (ed_gates d) -> ~ mentions2 (ed_gon d) g (Z.of_nat a, Z.of_nat b) r) -> get_gate_error e g (Some a) (Some (Some b)) = None)).
Proof.
  intros d e E. destruct (C38_last_row d e E) as (H & M & R & X & Z & _). split.
  - intros g a [<-|[<-|[<-|[]]]]; eapply looked_up; eauto; intros p; apply get1_iff; eapply lr_keys; eauto.
  - intros g a b [<-|[<-|[]]]; eapply looked_up; eauto; intros p; apply get2_iff; eapply lr_keys; eauto.
Qed.
Print Assumptions C38_used.
(** The new row of [add_gate_error] counts. *)
Theorem C38_add : forall d e r, gate_errors_dict (add_gate_error r d) = Ok e ->
  (forall a, In (g_gate r) ["H"; "M"; "R"] -> In (Z.of_nat a) (g_qubits r) -> exists p, get_gate_error e (g_gate r) (Some a) None = Some p /\ contents r p) /\
  (forall a b, In (g_gate r) ["CX"; "CZ"] -> is_pair (Z.of_nat a) (Z.of_nat b) (g_qubits r) -> exists p, get_gate_error e (g_gate r) (Some a) (Some (Some b)) = Some p /\ contents r p).
Proof.
  intros d e r E. destruct (C38_used _ e E) as [A B]. assert (I : In (g_gate r) (ed_gon (add_gate_error r d))).
  { cbn. destruct (mem_str (g_gate r) (ed_gon d)) eqn:M; [apply mem_str_in; auto|]. apply in_app_iff. cbn. auto. }
  split.
  - intros a G Q. apply (proj1 (A _ a G) r). cbn [ed_gates add_gate_error]. apply last_snoc. left. split; auto. split; auto.
  - intros a b G Q. apply (proj1 (B _ a b G) r). cbn [ed_gates add_gate_error]. apply last_snoc. left. split; auto. split; auto.
Qed.
Print Assumptions C38_add.
(** Three rows for H with a disabled gate; a row with two pairs; the exceptions. *)
Definition rows_H : list gate_row :=
  [mkGateRow "H" [5; 6]%Z ["X"; "Z"] [1 # 10; 1 # 5]; mkGateRow "M" [5%Z] ["X"] [1 # 2]; mkGateRow "H" [6%Z] ["Y"; "y"; "Z"] [1 # 3; 1 # 4]].
Definition with_gates (rows : list gate_row) (gon : list string) : error_data := mkErrorData (mkTable [] []) rows [] gon.
Example C38_example :
  (do e <- gate_errors_dict (with_gates rows_H ["H"]); Ok (er_H e, er_M e)) = Ok ([(5%Z, [("x", 1 # 10); ("z", 1 # 5)]); (6%Z, [("y", 1 # 4)])], []) /\
  (do e <- gate_errors_dict (add_gate_error (mkGateRow "CX" [5; 0; 6; 1]%Z ["XZ"] [1 # 7]) (with_gates rows_H [])); Ok (er_CX e, er_H e)) =
    Ok ([((5, 0)%Z, [("xz", 1 # 7)]); ((6, 1)%Z, [("xz", 1 # 7)])], []) /\
  gate_errors_dict (with_gates [mkGateRow "CZ" [5; 0; 6]%Z ["XZ"] [1 # 7]] ["CZ"]) = Err IndexError /\
  gate_errors_dict (with_gates [mkGateRow "CZ" [5; 0; 6]%Z ["XZ"; "X"] [1 # 7]] ["CZ"]) = Err KeyError /\
  map lower ["IX"; "IY"; "IZ"; "XI"; "XX"; "XY"; "XZ"; "YI"; "YX"; "YY"; "YZ"; "ZI"; "ZX"; "ZY"; "ZZ"] = two_qubit_paulis.
Proof. repeat split; vm_compute; reflexivity. Qed.

(** * C56 Tables of qubit errors *)
(** The dictionary contains exactly the enabled columns, Pauli errors and erasures for the data
    qubits and measurement errors for the ancillas. *)
Theorem C56_dictionary : forall d, well_formed (ed_qubits d) ->
  (forall n q, In n (ed_qon d) -> concerns (ed_qubits d) n q -> In n (map fst (qt_cols (ed_qubits d)))) ->
  exists e, qubit_errors_dict d = Ok e /\
    columns_of (ed_qubits d) (ed_qon d) ["data"] [("X", "x"); ("Y", "y"); ("Z", "z")] (er_pauli e) /\
    columns_of (ed_qubits d) (ed_qon d) ["data"] [("erasure", "p")] (er_erasure e) /\
    columns_of (ed_qubits d) (ed_qon d) ["stab"; "ancilla"] [("measurement", "p")] (er_measurement e) /\ no_gate_errors e.
Proof.
  intros d W C. unfold qubit_errors_dict. assert (WS := wf_some _ W). destruct (qt_rows (ed_qubits d)) eqn:E; [congruence|]. rewrite <- E in WS.
  destruct (enabled_errors_ok (ed_qubits d) W (ed_qon d) [] no_errors) as [A _]; [split; try apply columns_start; cbn; auto|].
  destruct (A C) as (e & -> & [P R M G]). exists e. exact (conj eq_refl (conj P (conj R (conj M G)))).
Qed.
Print Assumptions C56_dictionary.
(** An enabled error without a column raises KeyError. *)
Theorem C56_missing : forall d n q, well_formed (ed_qubits d) -> In n (ed_qon d) -> concerns (ed_qubits d) n q -> ~ In n (map fst (qt_cols (ed_qubits d))) ->
  qubit_errors_dict d = Err KeyError.
Proof.
  intros d n q W O C N. unfold qubit_errors_dict. assert (WS := wf_some _ W). destruct (qt_rows (ed_qubits d)) eqn:E; [congruence|].
  destruct (enabled_errors_ok (ed_qubits d) W (ed_qon d) [] no_errors) as [_ A]; [split; try apply columns_start; cbn; auto|]. apply (A n q); auto.
Qed.
Print Assumptions C56_missing.
(** The probabilities used in the circuits are those of the table. *)
Theorem C56_values : forall d e, well_formed (ed_qubits d) -> valid_table (ed_qubits d) (ed_qon d) -> qubit_errors_dict d = Ok e -> forall q,
  (typed (ed_qubits d) ["data"] (Z.of_nat q) ->
     enabled_value (ed_qubits d) (ed_qon d) "X" (Z.of_nat q) (pauli_prob e q PX) /\ enabled_value (ed_qubits d) (ed_qon d) "Y" (Z.of_nat q) (pauli_prob e q PY) /\
     enabled_value (ed_qubits d) (ed_qon d) "Z" (Z.of_nat q) (pauli_prob e q PZ) /\ enabled_value (ed_qubits d) (ed_qon d) "erasure" (Z.of_nat q) (erase_prob e q)) /\
  (typed (ed_qubits d) ["stab"; "ancilla"] (Z.of_nat q) -> enabled_value (ed_qubits d) (ed_qon d) "measurement" (Z.of_nat q) (flip_prob e q)).
Proof.
  intros d e W V E q. destruct (C56_dictionary d W (vt_columns _ _ V)) as (e' & E' & P & R & M & _). rewrite E in E'. injection E' as <-.
  assert (F : forall types keys dict n k, columns_of (ed_qubits d) (ed_qon d) types keys dict -> In (n, k) keys -> (forall n', In (n', k) keys -> n' = n) ->
    (typed (ed_qubits d) types (Z.of_nat q) -> concerns (ed_qubits d) n (Z.of_nat q)) -> typed (ed_qubits d) types (Z.of_nat q) ->
    enabled_value (ed_qubits d) (ed_qon d) n (Z.of_nat q) (match get1 dict (Some q) with Some p => pget k p | None => 0%Q end)).
  { intros types keys dict n k CO K U CC T. destruct (get1 dict (Some q)) as [p|] eqn:G.
    - apply get1_iff in G; [|apply CO]. eapply (column_value _ _ types keys dict n k); eauto. intros O. apply (vt_columns _ _ V n (Z.of_nat q)); auto.
    - right. split; auto. intros O. destruct (proj2 (co_qubits _ _ _ _ _ CO (Z.of_nat q))) as (p & I); [split; auto; exists n, k; auto|].
      apply get1_iff in I; [congruence|apply CO]. }
  assert (DC : forall n, In n ["X"; "Y"; "Z"; "erasure"] -> typed (ed_qubits d) ["data"] (Z.of_nat q) -> concerns (ed_qubits d) n (Z.of_nat q)) by (intros n I T; left; auto).
  assert (EP : forall P k, In (P, k) [(PX, "x"); (PY, "y"); (PZ, "z")] -> pauli_prob e q P = match get1 (er_pauli e) (Some q) with Some p => pget k p | None => 0%Q end).
  { intros P0 k [[= <- <-]|[[= <- <-]|[[= <- <-]|[]]]]; unfold pauli_prob; destruct (get1 _ _); auto. }
  split; intros T.
  - rewrite (EP PX "x"), (EP PY "y"), (EP PZ "z") by (cbn; auto). assert (EE : erase_prob e q = match get1 (er_erasure e) (Some q) with Some p => pget "p" p | None => 0%Q end) by (unfold erase_prob; destruct (get1 _ _); auto). rewrite EE.
    repeat split; (eapply F; [eauto|cbn; auto|keysolve|apply DC; cbn; auto 6|auto]).
  - assert (EM : flip_prob e q = match get1 (er_measurement e) (Some q) with Some p => pget "p" p | None => 0%Q end) by (unfold flip_prob; destruct (get1 _ _); auto). rewrite EM.
    eapply F; [eauto|cbn; auto|keysolve|intros; right; auto|auto].
Qed.
Print Assumptions C56_values.

(** Tables with one row for each qubit of the code and valid rows of gate errors pass the checks, so
    that every memory experiment with them works. *)
Theorem C56_valid : forall d nd ns, well_formed (ed_qubits d) -> valid_table (ed_qubits d) (ed_qon d) -> qt_rows (ed_qubits d) = standard_rows nd ns ->
  (forall r, In r (ed_gates d) -> In (g_gate r) (ed_gon d) -> valid_row nd ns r) ->
  exists e, error_data_dict d = Ok e /\ named_errors nd ns e /\ probabilities e /\ (er_erasure e = [] \/ erasure_everywhere nd e).
Proof.
  intros d nd ns W V ER VR. unfold error_data_dict.
  assert (G : exists g, match ed_gon d with [] => Ok no_errors | _ :: _ => gate_errors_dict d end = Ok g /\ named_errors nd ns g /\ probabilities g).
  { destruct (ed_gon d) as [|a gon] eqn:EG.
    - exists no_errors. split; auto. eapply (gates_valid [] []); [apply gates_start|intros ? []].
    - rewrite <- EG in *. unfold gate_errors_dict. destruct (add_rows_ok (ed_gon d) (ed_gates d) [] no_errors (gates_start _)) as [A _].
      destruct A as (g & E & GD). { intros r I [O T]. destruct (vr_two _ _ _ (VR r I O) T) as (EV & _ & NM & _). split; auto. intros (k & K & B). specialize (NM k K). revert B NM. cbn. intros [<-|[<-|[<-|[]]]] NM; repeat destruct NM as [NM|NM]; try discriminate; auto. }
      exists g. split; auto. apply (gates_valid (ed_gon d) (ed_gates d)); auto. }
  destruct G as (g & -> & GN & GP). cbn [bindR].
  assert (Q : exists q, match ed_qon d with [] => Ok no_errors | _ :: _ => qubit_errors_dict d end = Ok q /\ named_errors nd ns q /\ probabilities q /\ (er_erasure q = [] \/ erasure_everywhere nd q)).
  { destruct (ed_qon d) as [|a qon] eqn:EQ.
    - exists no_errors. split; auto. assert (H := gates_valid [] [] nd ns no_errors (gates_start _) (fun r (I : In r []) => False_ind _ I)). split; [apply H|]. split; [apply H|]. left. auto.
    - rewrite <- EQ in *. destruct (C56_dictionary d W (vt_columns _ _ V)) as (q & E & P & R & M & N). exists q. split; auto.
      destruct (qubits_valid (ed_qubits d) (ed_qon d) nd ns q W V ER) as (A & B & _ & D); [split; auto|]. auto. }
  destruct Q as (q & -> & QN & QP & QE). cbn [bindR]. eexists. split; [reflexivity|]. destruct GN, GP, QN, QP. split; [split; auto|]. split; [split; auto|auto].
Qed.
Print Assumptions C56_valid.
Theorem C56_memory : forall d cd x is anc g s0, experiment_code cd -> well_formed (ed_qubits d) -> valid_table (ed_qubits d) (ed_qon d) ->
  qt_rows (ed_qubits d) = lattice_rows (c_lattice cd) ->
  (forall r, In r (ed_gates d) -> In (g_gate r) (ed_gon d) -> valid_row (n_data_qubits (c_ops cd)) (n_stabgens (c_ops cd)) r) ->
  (1 <= c_rounds cd)%Z -> logical_ops_to_indices (c_ops cd) x = Ok is -> compatible is ->
  anc = true \/ (forall i, In i is -> weight (nth i (c_logicals (c_ops cd)) row0) = weight (nth 0 (c_logicals (c_ops cd)) row0)) ->
  (forall k, 0 <= d_unif (g k) /\ d_unif (g k) < 1)%Q ->
  exists e sm, error_data_dict d = Ok e /\ memory_experiment g s0 cd e x anc = Ok sm.
Proof.
  intros d cd x is anc g s0 XC W V ER VR HR EI CP WT Hg. rewrite lattice_rows_ok in ER; [|apply (xc_consistent _ XC)|apply (xc_indexed _ XC)].
  rewrite <- xc_nd, <- xc_ns in ER by auto. destruct (C56_valid d _ _ W V ER VR) as (e & E & N & P & R).
  destruct (C47_memory_total cd e x is anc g s0 XC N P R HR EI CP WT Hg) as (sm & M). exists e, sm. auto.
Qed.
Print Assumptions C56_memory.

(** ** Changes of the table *)
Theorem C56_add : forall ids name probs d, well_formed (ed_qubits d) ->
  (name = "fabrication" \/ In name ["qubit_id"; "qubit_type"] \/ In name (map fst (qt_cols (ed_qubits d))) -> add_qubit_error ids name probs d = Err ValueError) /\
  (name <> "fabrication" -> ~ In name ["qubit_id"; "qubit_type"] -> ~ In name (map fst (qt_cols (ed_qubits d))) ->
   (forall q, In q ids -> In q (map fst (qt_rows (ed_qubits d)))) ->
   exists d', add_qubit_error ids name probs d = Ok d' /\ well_formed (ed_qubits d') /\ qt_rows (ed_qubits d') = qt_rows (ed_qubits d) /\
     ed_gates d' = ed_gates d /\ ed_gon d' = ed_gon d /\ (forall n, In n (ed_qon d') <-> n = name \/ In n (ed_qon d)) /\
     (forall n q v, n <> name -> (holds (ed_qubits d') n q v <-> holds (ed_qubits d) n q v)) /\
     (forall q v, holds (ed_qubits d') name q v <-> In q (map fst (qt_rows (ed_qubits d))) /\
        (last_with (fun ip => fst ip = q) (combine ids probs) (q, v) \/ (forall p, ~ In (q, p) (combine ids probs)) /\ v = 0%Q))).
Proof.
  intros ids name probs d W. set (t := ed_qubits d) in *. unfold add_qubit_error. fold t. split.
  - intros H. destruct (String.eqb_spec name "fabrication"); auto. destruct (has_column t name) eqn:E; auto. assert (has_column t name = true); [|congruence]. apply has_column_ok. tauto.
  - intros NF NI NC HI. destruct (String.eqb_spec name "fabrication"); [contradiction|]. destruct (has_column t name) eqn:E; [apply has_column_ok in E; tauto|].
    destruct (set_cells_ok t (wf_labels _ W) (combine ids probs) (repeat 0%Q (length (qt_rows t)))) as (vs & -> & L & K); [apply repeat_length|intros q p I; apply HI; eapply in_combine_l; eauto|].
    cbn [bindR]. eexists. split; [reflexivity|]. cbn [ed_qubits ed_gates ed_qon ed_gon qt_rows]. split; [|split; [auto|split; [auto|split; [auto|split; [|split]]]]].
    + split; cbn [qt_rows qt_cols]; [apply W|apply W| |].
      * rewrite map_app. cbn. apply NoDup_Add with (a := name) (l := map fst (qt_cols t)); [rewrite <- (app_nil_r (map fst (qt_cols t))) at 1; apply Add_app|]. split; auto. apply W.
      * intros n0 vs0 I. apply in_app_iff in I as [I|[[= <- <-]|[]]]; auto. apply (wf_lengths _ W n0). auto.
    + intros n0. destruct (mem_str name (ed_qon d)) eqn:M; [apply mem_str_in in M; split; auto; intros [->|]; auto|]. rewrite in_app_iff. cbn. split; [intros [I|[->|[]]]; auto|intros [->|I]; auto].
    + intros n0 q v D. unfold holds. cbn [qt_rows qt_cols]. split; intros (i & ty & vs0 & A & B & C); exists i, ty, vs0; (split; [auto|split; [|auto]]); [|apply in_app_iff; auto].
      apply in_app_iff in B as [B|[[= <- <-]|[]]]; auto. contradiction.
    + intros q v. unfold holds. cbn [qt_rows qt_cols]. split.
      * intros (i & ty & vs0 & A & B & C). split; [change q with (fst (q, ty)); apply in_map; eapply nth_error_In; eauto|]. apply in_app_iff in B as [B|[[= <-]|[]]]; [apply (in_map fst) in B; contradiction|].
        apply (K i q ty v A) in C as [C|[C C']]; auto. right. split; auto. apply nth_error_In, repeat_spec in C'. auto.
      * intros [I H]. apply in_map_iff in I as ([q' ty] & EQ & I). cbn in EQ. subst q'. apply In_nth_error in I as (i & EI). exists i, ty, vs. split; auto. split; [apply in_app_iff; cbn; auto|].
        apply (K i q ty v EI). destruct H as [H|[H ->]]; auto. right. split; auto. assert (LI : i < length (qt_rows t)) by (apply nth_error_Some; congruence).
        rewrite (nth_error_nth' _ 0%Q) by (rewrite repeat_length; auto). rewrite nth_repeat_lt by auto. auto.
Qed.
Print Assumptions C56_add.
(** The pairs of arguments, and the exceptions for wrong ones. *)
Definition given (ids : one_or_many Z) (probs : one_or_many Q) : Res (list (Z * Q)) :=
  match ids, probs with
  | One i, One p => Ok [(i, p)]
  | Many l, Many ps => if length l =? length ps then Ok (combine l ps) else Err ValueError
  | _, _ => Err TypeError
  end.
Theorem C56_update : forall ids name probs d, well_formed (ed_qubits d) -> ~ In name ["qubit_id"; "qubit_type"] ->
  (name = "fabrication" \/ ~ In name (map fst (qt_cols (ed_qubits d))) -> update_qubit_error ids name probs d = Err ValueError) /\
  (name <> "fabrication" -> In name (map fst (qt_cols (ed_qubits d))) -> match given ids probs with
   | Err x => update_qubit_error ids name probs d = Err x
   | Ok ips => (forall q p, In (q, p) ips -> In q (map fst (qt_rows (ed_qubits d)))) ->
     exists d', update_qubit_error ids name probs d = Ok d' /\ well_formed (ed_qubits d') /\ qt_rows (ed_qubits d') = qt_rows (ed_qubits d) /\
       ed_gates d' = ed_gates d /\ ed_gon d' = ed_gon d /\ ed_qon d' = ed_qon d /\
       (forall n q v, n <> name -> (holds (ed_qubits d') n q v <-> holds (ed_qubits d) n q v)) /\
       (forall q v, holds (ed_qubits d') name q v <-> (In q (map fst (qt_rows (ed_qubits d))) /\ last_with (fun ip => fst ip = q) ips (q, v)) \/
          (forall p, ~ In (q, p) ips) /\ holds (ed_qubits d) name q v)
   end).
Proof.
  intros ids name probs d W NI. set (t := ed_qubits d) in *. unfold update_qubit_error. fold t. split.
  - intros H. destruct (String.eqb_spec name "fabrication"); auto. destruct (has_column t name) eqn:E; auto. apply has_column_ok in E. tauto.
  - intros NF C. destruct (String.eqb_spec name "fabrication"); [contradiction|]. rewrite (proj2 (has_column_ok t name)) by auto. cbn [negb].
    assert (G : match ids, probs with One i, One p => Ok [(i, p)] | Many l, Many ps => if negb (length ps =? length l) then Err ValueError else Ok (combine l ps) | _, _ => Err TypeError end = given ids probs).
    { destruct ids, probs; cbn; auto. rewrite Nat.eqb_sym. destruct (length l =? length l0); auto. }
    rewrite G. destruct (given ids probs) as [ips|x]; [|auto]. cbn [bindR]. intros HI. apply in_map_iff in C as ([n0 vs0] & EN & C). cbn in EN. subst n0.
    rewrite (proj2 (column_ok t name vs0 (wf_names _ W)) C).
    destruct (set_cells_ok t (wf_labels _ W) ips vs0 (wf_lengths _ W _ _ C) HI) as (vs & -> & L & K). cbn [bindR]. eexists. split; [reflexivity|]. cbn [ed_qubits ed_gates ed_qon ed_gon set_column qt_rows].
    assert (IN : forall n1 x, In (n1, x) (map (fun c : string * list Q => if String.eqb (fst c) name then (name, vs) else c) (qt_cols t)) <-> n1 = name /\ x = vs \/ n1 <> name /\ In (n1, x) (qt_cols t)).
    { intros n1 x. rewrite in_map_iff. split.
      - intros ([a b] & E & I). cbn in E. destruct (String.eqb_spec a name) as [->|D]; injection E as <- <-; auto.
      - intros [[-> ->]|[D I]]; [exists (name, vs0); cbn; rewrite String.eqb_refl; auto|]. exists (n1, x). cbn. destruct (String.eqb_spec n1 name); [contradiction|auto]. }
    split; [|split; [auto|split; [auto|split; [auto|split; [auto|split]]]]].
    + split; cbn [qt_rows qt_cols set_column]; [apply W|apply W| |].
      * rewrite map_map. replace (map _ (qt_cols t)) with (map fst (qt_cols t)); [apply W|]. apply map_ext. intros [a b]. cbn. destruct (String.eqb_spec a name); auto.
      * intros n1 x I. apply IN in I as [[-> ->]|[_ I]]; auto. apply (wf_lengths _ W n1). auto.
    + intros n1 q v D. unfold holds. cbn [qt_rows qt_cols set_column]. split; intros (i & ty & x & A & B & F); exists i, ty, x; (split; [auto|split; [|auto]]); [apply IN in B as [[-> _]|[_ B]]; [contradiction|auto]|apply IN; auto].
    + intros q v. unfold holds. cbn [qt_rows qt_cols set_column]. split.
      * intros (i & ty & x & A & B & F). apply IN in B as [[_ ->]|[B _]]; [|contradiction]. apply (K i q ty v A) in F as [F|[F F']].
        -- left. split; auto. change q with (fst (q, ty)). apply in_map. eapply nth_error_In; eauto.
        -- right. split; auto. exists i, ty, vs0. auto.
      * intros [[I H]|[H (i & ty & x & A & B & F)]].
        -- apply in_map_iff in I as ([q' ty] & EQ & I). cbn in EQ. subst q'. apply In_nth_error in I as (i & EI). exists i, ty, vs. split; auto. split; [apply IN; auto|]. apply (K i q ty v EI). auto.
        -- assert (x = vs0) by (apply (column_ok t name _ (wf_names _ W)) in B, C; congruence). subst x. exists i, ty, vs. split; auto. split; [apply IN; auto|]. apply (K i q ty v A). auto.
Qed.
Print Assumptions C56_update.

(** ** Tables made from a lattice *)
(** Without configurations all qubits have X, Y and Z errors with probability 0.1. *)
Lemma add_constant name p d : well_formed (ed_qubits d) -> name <> "fabrication" -> ~ In name ["qubit_id"; "qubit_type"] -> ~ In name (map fst (qt_cols (ed_qubits d))) ->
  exists d', add_qubit_error (map fst (qt_rows (ed_qubits d))) name (repeat p (length (qt_rows (ed_qubits d)))) d = Ok d' /\ well_formed (ed_qubits d') /\ qt_rows (ed_qubits d') = qt_rows (ed_qubits d) /\
    ed_gates d' = ed_gates d /\ ed_gon d' = ed_gon d /\ (forall n, In n (ed_qon d') <-> n = name \/ In n (ed_qon d)) /\
    (forall n q v, n <> name -> (holds (ed_qubits d') n q v <-> holds (ed_qubits d) n q v)) /\
    (forall q v, holds (ed_qubits d') name q v <-> In q (map fst (qt_rows (ed_qubits d))) /\ v = p).
Proof.
  intros W NF NI NC. set (rows := qt_rows (ed_qubits d)) in *.
  destruct (C56_add (map fst rows) name (repeat p (length rows)) d W) as [_ A]. destruct (A NF NI NC (fun q I => I)) as (d' & E & W' & R & G & GO & ON & O & H).
  exists d'. split; [auto|]. split; [auto|]. split; [auto|]. split; [auto|]. split; [auto|]. split; [auto|]. split; [auto|].
  assert (C : forall q v, In (q, v) (combine (map fst rows) (repeat p (length rows))) -> v = p) by (intros q v I; apply in_combine_r, repeat_spec in I; auto).
  assert (C' : forall q, In q (map fst rows) -> In (q, p) (combine (map fst rows) (repeat p (length rows)))).
  { clear. intros q. induction rows as [|[a t] rows IH]; cbn; [auto|]. intros [->|I]; auto. }
  intros q v. rewrite H. fold rows. split.
  - intros [I [L|[L ->]]]; [apply last_holds in L as [_ L]; apply C in L; auto|]. exfalso. apply (L p), C'. auto.
  - intros [I ->]. split; auto. left. destruct (last_exists (fun ip : Z * Q => fst ip = q) (fun x => match Z.eq_dec (fst x) q with left e => or_introl e | right n => or_intror n end) _ _ (C' q I) eq_refl) as ([q' v'] & L).
    pose proof L as L'. apply last_holds in L' as [E' I']. cbn in E'. subst q'. assert (v' = p) by (eapply C; eauto). subst v'. exact L.
Qed.
Theorem C56_from_lattice : forall l, consistent l -> indexed l -> l_stabs l <> [] ->
  exists d, from_lattice l = Ok d /\ well_formed (ed_qubits d) /\ qt_rows (ed_qubits d) = lattice_rows l /\
    qt_rows (ed_qubits d) = standard_rows (length (l_data l)) (length (l_stabs l)) /\ ed_gates d = [] /\ ed_gon d = [] /\
    (forall n, In n (ed_qon d) <-> In n ["X"; "Y"; "Z"]) /\
    (forall n q v, holds (ed_qubits d) n q v <-> In n ["X"; "Y"; "Z"] /\ In q (map fst (lattice_rows l)) /\ v = (1 # 10)%Q).
Proof.
  intros l C X N. assert (R := lattice_rows_ok l C X). set (rows := lattice_rows l) in *. set (d0 := mkErrorData (mkTable rows []) [] [] []).
  assert (EF : from_lattice l = foldR (fun d name => add_qubit_error (map fst rows) name (repeat (1 # 10)%Q (length rows)) d) ["X"; "Y"; "Z"] d0) by reflexivity. rewrite EF. clear EF.
  assert (W0 : well_formed (mkTable rows [])).
  { split; cbn; [|rewrite R; apply standard_nodup|constructor|intros ? ? []]. rewrite R. intros E. apply (f_equal (@length _)) in E. unfold standard_rows in E. rewrite map_length, seq_length in E. destruct (l_stabs l); [congruence|cbn in E; lia]. }
  change (mkTable rows []) with (ed_qubits d0) in W0.
  assert (H0 : forall n q v, ~ holds (ed_qubits d0) n q v) by (intros n q v (i & ty & vs & _ & [] & _)).
  assert (NC : forall n d, well_formed (ed_qubits d) -> (forall q v, ~ holds (ed_qubits d) n q v) -> ~ In n (map fst (qt_cols (ed_qubits d)))).
  { intros n d W H I. assert (WS := wf_some _ W). destruct (qt_rows (ed_qubits d)) as [|[q ty] r] eqn:E; [congruence|].
    destruct (holds_some _ n q W I) as (v & K); [rewrite E; cbn; auto|]. eapply H; eauto. }
  destruct (add_constant "X" (1 # 10) d0) as (d1 & E1 & W1 & R1 & G1 & GO1 & ON1 & O1 & H1); [auto|discriminate|intros [K|[K|[]]]; discriminate|apply NC; auto|].
  destruct (add_constant "Y" (1 # 10) d1) as (d2 & E2 & W2 & R2 & G2 & GO2 & ON2 & O2 & H2); [auto|discriminate|intros [K|[K|[]]]; discriminate|apply NC; auto; intros q v K; apply O1 in K; [eapply H0; eauto|discriminate]|].
  destruct (add_constant "Z" (1 # 10) d2) as (d3 & E3 & W3 & R3 & G3 & GO3 & ON3 & O3 & H3); [auto|discriminate|intros [K|[K|[]]]; discriminate|apply NC; auto; intros q v K; apply O2 in K; [apply O1 in K; [eapply H0; eauto|discriminate]|discriminate]|].
  change (qt_rows (ed_qubits d0)) with rows in *. rewrite R2, R1 in *. cbn [foldR]. rewrite E1. cbn [bindR]. rewrite E2. cbn [bindR]. rewrite E3. cbn [bindR].
  exists d3. split; [auto|]. split; [auto|]. split; [auto|]. split; [congruence|]. split; [rewrite G3, G2, G1; auto|]. split; [rewrite GO3, GO2, GO1; auto|]. split.
  - intros n. rewrite ON3, ON2, ON1. cbn. intuition auto.
  - intros n q v. destruct (string_dec n "Z") as [->|DZ]; [rewrite H3; cbn; intuition auto|]. rewrite O3 by auto. destruct (string_dec n "Y") as [->|DY]; [rewrite H2; cbn; intuition auto|]. rewrite O2 by auto.
    destruct (string_dec n "X") as [->|DX]; [rewrite H1; cbn; intuition auto|]. rewrite O1 by auto. split; [intros K; exfalso; eapply H0; eauto|]. cbn. intuition congruence.
Qed.
Print Assumptions C56_from_lattice.
(** So the default error data can be used with every code. *)
Theorem C56_default : forall cd, experiment_code cd -> exists d, from_lattice (c_lattice cd) = Ok d /\
  well_formed (ed_qubits d) /\ valid_table (ed_qubits d) (ed_qon d) /\ qt_rows (ed_qubits d) = lattice_rows (c_lattice cd) /\ ed_gates d = [].
Proof.
  intros cd XC. destruct (C56_from_lattice (c_lattice cd) (xc_consistent _ XC) (xc_indexed _ XC) (proj1 (proj2 (proj2 (xc_rows cd XC))))) as (d & E & W & R & _ & G & _ & ON & H).
  exists d. split; [auto|]. split; [auto|]. split; [|auto]. split.
  - intros n q I _. apply ON in I. assert (WS := wf_some _ W). destruct (qt_rows (ed_qubits d)) as [|[q0 ty] r] eqn:EQ; [congruence|].
    destruct (proj2 (H n q0 (1 # 10)%Q)) as (i & ty' & vs & _ & K & _); [split; auto; split; auto; rewrite <- R; cbn; auto|]. apply (in_map fst) in K. auto.
  - intros n q v _ _ K. apply H in K as (_ & _ & ->). split; unfold Qle; cbn; lia.
  - intros q x y z _ X Y Z. assert (V : forall n v, enabled_value (ed_qubits d) (ed_qon d) n q v -> In n ["X"; "Y"; "Z"] -> v = (1 # 10)%Q).
    { intros n v [[_ K]|[K _]] I; [apply H in K as (_ & _ & ->); auto|]. exfalso. apply K, ON. auto. }
    rewrite (V _ _ X), (V _ _ Y), (V _ _ Z) by (cbn; auto). unfold Qle. cbn. lia.
Qed.
Print Assumptions C56_default.
(** The documentation promises probability 0.01 (476), and the code uses 0.1 (518). *)
Theorem C56_default_refuted : ~ (forall rounds cd d n q v, make_five_qubit rounds = Ok cd -> from_lattice (c_lattice cd) = Ok d ->
  In n ["X"; "Y"; "Z"] -> holds (ed_qubits d) n q v -> (v == 1 # 100)%Q).
Proof.
  intros H. destruct (C49_builtin_codes_exist 1%Z 2%Z false) as (_ & _ & _ & _ & (cd & E) & _); [lia|].
  destruct (C49_builtin_codes 1%Z cd) as [X _]; [auto|].
  destruct (C56_from_lattice (c_lattice cd) (xc_consistent _ X) (xc_indexed _ X) (proj1 (proj2 (proj2 (xc_rows cd X))))) as (d & ED & W & R & _ & _ & _ & _ & K).
  assert (WS := wf_some _ W). destruct (qt_rows (ed_qubits d)) as [|[q ty] r]; [congruence|].
  specialize (H 1%Z cd d "X" q (1 # 10)%Q E ED). assert (B : (1 # 10 == 1 # 100)%Q); [|discriminate B]. apply H; [cbn; auto|]. apply K. split; [cbn; auto|]. split; auto. rewrite <- R. cbn. auto.
Qed.
Print Assumptions C56_default_refuted.
(** The five-qubit code with erasures of two qubits and different measurement errors; data qubits
    have no measurement errors and ancillas no Pauli errors. *)
Example C56_example :
  (do cd <- make_five_qubit 1; do d <- from_lattice (c_lattice cd);
   do d <- add_qubit_error [1; 3; 1]%Z "erasure" [1 # 2; 1 # 3; 1 # 4]%Q d;
   do d <- add_qubit_error [0; 5; 8]%Z "measurement" [1 # 7; 1 # 8; 1 # 9]%Q d;
   do d <- update_qubit_error (Many [0; 8]%Z) "X" (Many [0; 1]%Q) d;
   do d <- update_qubit_error (One 2%Z) "Z" (One (1 # 5)%Q) d;
   do e <- error_data_dict d; Ok (ed_qon d, map (fun q => map (pauli_prob e q) [PX; PY; PZ]) [0; 1; 2], map (erase_prob e) [0; 1; 2; 3], map (flip_prob e) [0; 5; 6; 8], map fst (er_measurement e))) =
  Ok (["X"; "Y"; "Z"; "erasure"; "measurement"], [[0; 1 # 10; 1 # 10]; [1 # 10; 1 # 10; 1 # 10]; [1 # 10; 1 # 10; 1 # 5]]%Q, [0; 1 # 4; 0; 1 # 3]%Q, [0; 1 # 8; 0; 1 # 9]%Q, [5; 6; 7; 8]%Z) /\
  (do cd <- make_five_qubit 1; do d <- from_lattice (c_lattice cd); add_qubit_error [1]%Z "X" [1 # 2]%Q d) = Err ValueError /\
  (do cd <- make_five_qubit 1; do d <- from_lattice (c_lattice cd); update_qubit_error (One 1%Z) "X" (Many [1 # 2]%Q) d) = Err TypeError /\
  (do cd <- make_five_qubit 1; do d <- from_lattice (c_lattice cd); qubit_errors_dict (mkErrorData (ed_qubits d) [] ["erasure"] [])) = Err KeyError.
Proof. repeat split; vm_compute; reflexivity. Qed.
