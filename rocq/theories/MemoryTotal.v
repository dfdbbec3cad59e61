(** Lemmas: error data checks, layout of the measurements, and memory experiments run to the end. *)
Require Import List Bool Arith ZArith QArith Lia String Permutation.
From Verif Require Import Base BaseProofs QSpec PauliModel PauliSem StateSpec CircuitModel SimSpec SimModel CircuitSpec LatticeModel LatticeSpec LatticeProofs LatticeOps LatticeRows
  CodesModel CodesSpec CodesProofs GeneratorModel StabTrack RoundProofs MemoryProofs GeneratorProofs GeneratorSpec GeneratorSem UnpackProofs MemorySem UnpackLayout Props_Circuit.
Import ListNotations.
Local Open Scope string_scope.
Local Open Scope nat_scope.
Local Open Scope list_scope.

(** * Checks of error data *)
Lemma fold_check {A} (f : A -> Res unit) (P : A -> Prop) xs : (forall x, In x xs -> (f x = Ok tt /\ P x) \/ (f x = Err ValueError /\ ~ P x)) ->
  (foldR (fun _ x => f x) xs tt = Ok tt /\ forall x, In x xs -> P x) \/ (foldR (fun _ x => f x) xs tt = Err ValueError /\ ~ forall x, In x xs -> P x).
Proof.
  induction xs as [|x xs IH]; intros H; [left; split; auto; intros x []|]. cbn [foldR]. destruct (H x (or_introl eq_refl)) as [[-> Px]|[-> N]]; cbn [bindR].
  - destruct IH as [[-> J]|[-> J]]; [intros; apply H; right; auto| |].
    + left. split; auto. intros y [<-|I]; auto.
    + right. split; auto. intros B. apply J. intros y I. apply B. right; auto.
  - right. split; auto. intros B. apply N, B. left; auto.
Qed.
Lemma keys_iff names p : keys_in names p = true <-> forall k x, In (k, x) p -> In k names.
Proof.
  unfold keys_in. rewrite forallb_forall. split.
  - intros H k x I. specialize (H _ I). cbn in H. unfold mem_str in H. apply existsb_exists in H as (y & Iy & E). apply String.eqb_eq in E. subst. auto.
  - intros H [k x] I. cbn. unfold mem_str. apply existsb_exists. exists k. split; [eauto|apply String.eqb_refl].
Qed.
Definition decided (r : Res unit) (P : Prop) : Prop := (r = Ok tt /\ P) \/ (r = Err ValueError /\ ~ P).
Lemma decided_then a b P Q : decided a P -> decided b Q -> decided (do _ <- a; b) (P /\ Q).
Proof. intros [[-> p]|[-> p]] [[-> q]|[-> q]]; cbn [bindR]; [left|right|right|right]; split; auto; tauto. Qed.
Lemma decided_iff a (P Q : Prop) : (P <-> Q) -> decided a P -> decided a Q.
Proof. intros E [[-> p]|[-> p]]; [left|right]; split; auto; tauto. Qed.
Lemma decided_keys names p : decided (if keys_in names p then Ok tt else Err ValueError) (forall k x, In (k, x) p -> In k names).
Proof. destruct (keys_in names p) eqn:E; [left; split; auto; apply keys_iff; auto|right; split; auto]. rewrite <- keys_iff. congruence. Qed.
Lemma nth_parts l z : indexed l -> (0 <= z < Z.of_nat (List.length (l_equbits l)))%Z ->
  In (nth (Z.to_nat z) (l_equbits l) 0) (l_data l) /\ (z < Z.of_nat (List.length (l_data l)))%Z \/
  In (nth (Z.to_nat z) (l_equbits l) 0) (l_stabs l) /\ (Z.of_nat (List.length (l_data l)) <= z < Z.of_nat (List.length (l_data l) + List.length (l_stabs l)))%Z \/
  In (nth (Z.to_nat z) (l_equbits l) 0) (l_logicals l) /\ (Z.of_nat (List.length (l_data l) + List.length (l_stabs l)) <= z)%Z.
Proof.
  intros (_ & _ & _ & -> & _) H. rewrite !app_length in H. destruct (Z_lt_le_dec z (Z.of_nat (List.length (l_data l)))).
  - left. split; auto. rewrite app_nth1 by lia. apply nth_In. lia.
  - right. rewrite app_nth2 by lia. destruct (Z_lt_le_dec z (Z.of_nat (List.length (l_data l) + List.length (l_stabs l)))).
    + left. split; [|lia]. rewrite app_nth1 by lia. apply nth_In. lia.
    + right. split; auto. rewrite app_nth2 by lia. apply nth_In. lia.
Qed.
Lemma kind_of_list l i : consistent l -> (In i (l_data l) -> is_data (l_heap l i) = true) /\ (In i (l_stabs l) -> is_stab (l_heap l i) = true) /\ (In i (l_logicals l) -> is_logical (l_heap l i) = true).
Proof. intros C. rewrite (cons_data _ C), (cons_stabs _ C), (cons_logicals _ C). conjs; intros H; apply filter_In in H; tauto. Qed.
Lemma kinds_apart v : (is_data v = true -> is_stab v = false /\ is_logical v = false) /\ (is_stab v = true -> is_data v = false /\ is_logical v = false) /\ (is_logical v = true -> is_data v = false /\ is_stab v = false).
Proof. unfold is_data, is_stab, is_logical. destruct (v_kind v); conjs; intros; auto; discriminate. Qed.
Lemma equbits_len l : indexed l -> List.length (l_equbits l) = List.length (l_data l) + List.length (l_stabs l) + List.length (l_logicals l).
Proof. intros (_ & _ & _ & -> & _). rewrite !app_length. lia. Qed.
Lemma decided_equbit l z : consistent l -> indexed l ->
  decided (check_equbit_is_data z l) (data_number (List.length (l_data l)) z) /\
  decided (check_equbit_is_stabgen z l) (ancilla_number (List.length (l_data l)) (List.length (l_stabs l)) z).
Proof.
  intros C X. unfold check_equbit_is_data, check_equbit_is_stabgen, check_equbit, data_number, ancilla_number. assert (L := equbits_len l X).
  destruct (Z.ltb_spec z 0); cbn [orb]; [split; right; split; auto; lia|].
  destruct (Z.leb_spec (Z.of_nat (List.length (l_equbits l))) z); [split; right; split; auto; lia|].
  set (i := nth (Z.to_nat z) (l_equbits l) 0). destruct (kind_of_list l i C) as (KD & KS & KL). destruct (kinds_apart (l_heap l i)) as (AD & AS & AL).
  destruct (nth_parts l z X ltac:(lia)) as [[I B]|[[I B]|[I B]]]; fold i in I.
  - rewrite (KD I). destruct (AD (KD I)) as [-> _]. split; [left|right]; split; auto; lia.
  - rewrite (KS I). destruct (AS (KS I)) as [-> _]. split; [right|left]; split; auto; lia.
  - destruct (AL (KL I)) as [-> ->]. split; right; split; auto; lia.
Qed.
Lemma decided_dict (chk : Z -> Res unit) dom names (d : dict1) : (forall z, decided (chk z) (dom z)) ->
  decided (foldR (fun _ kv => do _ <- chk (fst kv); if keys_in names (snd kv) then Ok tt else Err ValueError) d tt) (named dom names d).
Proof.
  intros H. eapply decided_iff; [|apply (fold_check (fun kv => do _ <- chk (fst kv); if keys_in names (snd kv) then Ok tt else Err ValueError)
    (fun kv => dom (fst kv) /\ forall k x, In (k, x) (snd kv) -> In k names))].
  - unfold named. split; [intros G q p I; apply (G (q, p) I)|intros G [q p] I; apply G; auto].
  - intros [q p] _. apply decided_then; [apply H|apply decided_keys].
Qed.
Lemma decided_dict2 (chk1 chk2 : Z -> Res unit) dom1 dom2 names (d : dict2) : (forall z, decided (chk1 z) (dom1 z)) -> (forall z, decided (chk2 z) (dom2 z)) ->
  decided (foldR (fun _ kv => do _ <- chk1 (fst (fst kv)); do _ <- chk2 (snd (fst kv)); if keys_in names (snd kv) then Ok tt else Err ValueError) d tt) (named2 (fun a b => dom1 a /\ dom2 b) names d).
Proof.
  intros H1 H2. eapply decided_iff; [|apply (fold_check (fun kv => do _ <- chk1 (fst (fst kv)); do _ <- chk2 (snd (fst kv)); if keys_in names (snd kv) then Ok tt else Err ValueError)
    (fun kv => (dom1 (fst (fst kv)) /\ dom2 (snd (fst kv))) /\ forall k x, In (k, x) (snd kv) -> In k names))].
  - unfold named2. split; [intros G a b p I; apply (G ((a, b), p) I)|intros G [[a b] p] I; apply G; auto].
  - intros [[a b] p] _. eapply decided_iff; [|apply decided_then; [apply H1|apply decided_then; [apply H2|apply decided_keys]]]. cbn. tauto.
Qed.
Lemma decided_errors l e : consistent l -> indexed l -> decided (check_against_code l e) (named_errors (List.length (l_data l)) (List.length (l_stabs l)) e).
Proof.
  intros C X. assert (D := fun z => proj1 (decided_equbit l z C X)). assert (S := fun z => proj2 (decided_equbit l z C X)).
  eapply decided_iff; [|unfold check_against_code; repeat apply decided_then; first [apply (decided_dict (fun z => check_equbit_is_data z l)); exact D | apply (decided_dict (fun z => check_equbit_is_stabgen z l)); exact S | apply (decided_dict2 (fun z => check_equbit_is_stabgen z l) (fun z => check_equbit_is_data z l)); [exact S|exact D]]].
  split.
  - intros (A & B & E & F & G & H & I & J). split; auto.
  - intros [A B E F G H I J]. conjs; auto.
Qed.

(** * The generator succeeds *)
Lemma circuit_gspec cd e anc is : let l := c_lattice cd in
  gspec (measure_logical_ops l e anc is ;> measure_stabgens l e false ;> forG (fun _ => noisy_round l e) (seq 0 (Z.to_nat (c_rounds cd - 1))) ;>
     apply_dataqubit_errors l e ;> measure_stabgens l e false ;> measure_logical_ops l e anc is)
    (logicals_ok l e anc is /\ stabs_ok l e false /\ stabs_ok l e true) (memory_ins cd e anc is).
Proof.
  intros l. eapply gspec_imp;
    [apply gspec_seq; [apply measure_logical_ops_spec|]; apply gspec_seq; [apply measure_stabgens_spec|]; apply gspec_seq;
     [apply gspec_for; intros; apply gspec_seq; [apply apply_dataqubit_errors_spec|apply measure_stabgens_spec]|];
     apply gspec_seq; [apply apply_dataqubit_errors_spec|]; apply gspec_seq; [apply measure_stabgens_spec|apply measure_logical_ops_spec]|tauto|].
  unfold memory_ins. cbv zeta. fold l. f_equal. f_equal.
  rewrite flat_map_app, flat_map_const'. rewrite (flat_map_const _ (seq 0 _)), seq_length. cbn [flat_map]. rewrite List.app_nil_r, <- !app_assoc. auto.
Qed.
Lemma find_in {A} (f : A -> bool) l x : find f l = Some x -> In x l.
Proof. intros H. apply find_some in H. tauto. Qed.
Lemma get1_in d q p : get1 d q = Some p -> exists z, In (z, p) d.
Proof. destruct q; cbn; [|discriminate]. destruct (find _ _) as [[z p']|] eqn:F; [|discriminate]. intros [= <-]. exists z. apply find_in in F. auto. Qed.
Lemma get2_in d a b p : get2 d a b = Some p -> exists z, In (z, p) d.
Proof. destruct a, b; cbn; try discriminate. destruct (find _ _) as [[z p']|] eqn:F; [|discriminate]. intros [= <-]. exists z. apply find_in in F. auto. Qed.
Lemma meas_valid_all e nd ns q : named_errors nd ns e -> probabilities e -> meas_valid e q.
Proof.
  intros N P. unfold meas_valid. destruct (get1 (er_measurement e) q) as [[|[k x] p]|] eqn:G; auto. apply get1_in in G as (z & I).
  destruct (ne_measurement _ _ _ N z _ I) as [_ K]. assert (B := pr_measurement _ P z _ I). unfold pget in B.
  destruct (K k x (or_introl eq_refl)) as [<-|[]]. cbn [find fst] in *. rewrite String.eqb_refl in *. cbn in *. auto.
Qed.
Lemma op_fine l e we o nd ns : consistent l -> indexed l -> (forall ed, In ed (l_edges l) -> e_factor ed <> FY) -> named_errors nd ns e -> probabilities e ->
  In o (l_operators l) -> op_ok l e we o.
Proof.
  intros C X NY N P I. unfold op_ok. conjs.
  - intros E. destruct (eqn_vert l o X (in_equbits l o X (or_intror I))). congruence.
  - intros ed J. rewrite op_edges in J by auto. apply filter_In in J as [J _]. split; [auto|]. destruct (edge_equbits l ed C X J) as [A B].
    apply (eqn_vert l _ X) in A, B. destruct A, B. unfold is_idx. split; congruence.
  - intros _. eapply meas_valid_all; eauto.
Qed.
Lemma edge_fine l ed : consistent l -> indexed l -> (forall ed, In ed (l_edges l) -> e_factor ed <> FY) -> In ed (l_edges l) -> edge_ok l ed.
Proof.
  intros C X NY J. split; [auto|]. destruct (edge_equbits l ed C X J) as [A B]. apply (eqn_vert l _ X) in A, B. destruct A, B. unfold is_idx. split; congruence.
Qed.
Lemma stabs_fine l e we nd ns : consistent l -> indexed l -> (forall ed, In ed (l_edges l) -> e_factor ed <> FY) -> named_errors nd ns e -> probabilities e -> stabs_ok l e we.
Proof.
  intros. split; intros.
  - eapply op_fine; eauto using stab_op.
  - apply edge_fine; auto.
Qed.
Lemma logicals_fine l e anc is nd ns : consistent l -> indexed l -> (forall ed, In ed (l_edges l) -> e_factor ed <> FY) -> named_errors nd ns e -> probabilities e ->
  (forall i, In i is -> i < List.length (l_logicals l)) -> logicals_ok l e anc is.
Proof.
  intros C X NY N P H i Ii. destruct (lidx_vert l i X (H i Ii)) as (o & E & Io & _). exists o. split; auto. unfold logical_ok. destruct anc.
  - eapply op_fine; eauto using logical_op.
  - intros ed J. assert (K := logical_op l o Io). rewrite op_edges in J by auto. apply filter_In in J as [J _].
    destruct (edge_fine l ed C X NY J) as (A & _ & B). split; auto.
Qed.
Lemma generate_ok cd e x is anc : experiment_code cd -> named_errors (n_data_qubits (c_ops cd)) (n_stabgens (c_ops cd)) e -> probabilities e ->
  logical_ops_to_indices (c_ops cd) x = Ok is ->
  (forall i j, In i is -> In j is -> commutator_sign (nth i (c_logicals (c_ops cd)) row0) (nth j (c_logicals (c_ops cd)) row0) = false) ->
  generate_qec_circuit cd e x anc = Ok (map ins_gate (memory_ins cd e anc is)).
Proof.
  intros XC N P EI CO. assert (C := xc_consistent _ XC). assert (X := xc_indexed _ XC).
  rewrite xc_nd in N by auto. unfold n_stabgens in N. rewrite xc_ns in N by auto. unfold generate_qec_circuit.
  destruct (decided_errors (c_lattice cd) e C X) as [[-> _]|[_ Q]]; [|tauto]. cbn [bindR]. unfold get_circuit. rewrite EI. cbn [bindR].
  destruct (indices_ok _ _ _ EI) as [LI HI].
  assert (M : mapR (fun i => match nth_error (c_logicals (c_ops cd)) i with Some r => Ok r | None => Err IndexError end) is = Ok (map (fun i => nth i (c_logicals (c_ops cd)) row0) is)).
  { clear - HI. induction is as [|i is IH]; auto. cbn [mapR map]. assert (L : i < List.length (c_logicals (c_ops cd))) by (apply HI; left; auto).
    rewrite (nth_error_nth' _ row0 L). cbn [bindR]. rewrite IH by (intros; apply HI; right; auto). auto. }
  rewrite M. cbn [bindR].
  assert (AC : all_commute (map (fun i => nth i (c_logicals (c_ops cd)) row0) is) (map (fun i => nth i (c_logicals (c_ops cd)) row0) is) = true).
  { unfold all_commute. rewrite forallb_forall. intros r Ir. rewrite forallb_forall. intros r' Ir'. apply in_map_iff in Ir as (i & <- & Ii). apply in_map_iff in Ir' as (j & <- & Ij). rewrite CO by auto. auto. }
  rewrite AC. cbn [negb]. cbv zeta. destruct (circuit_gspec cd e anc is) as [_ G]. cbv zeta in G. rewrite G; auto.
  assert (NY := xc_no_Y _ XC). conjs.
  - eapply logicals_fine; eauto. intros i Ii. specialize (HI i Ii). destruct (xc_rows cd XC) as (_ & E & _). rewrite E, map_length in HI. auto.
  - eapply stabs_fine; eauto.
  - eapply stabs_fine; eauto.
Qed.

(** * The circuit is valid *)
Definition ins_valid (i : ins) : Prop :=
  match i with
  | IC _ a d => a <> d
  | IPauli x y z _ => (0 <= x /\ 0 <= y /\ 0 <= z /\ x + (y + (z + 0)) <= 1)%Q
  | IPauli2 ps _ _ => List.length ps = 15 /\ Forall (fun p => 0 <= p)%Q ps /\ (qsum ps <= 1)%Q
  | _ => True
  end.
Lemma prob_args ps : Forall2 prob_arg (map AFlt ps) ps.
Proof. induction ps; constructor; auto. constructor. Qed.
Lemma ins_valid_circuit is : Forall ins_valid is -> forall b, valid_circuit b (map ins_gate is).
Proof.
  induction 1 as [|i is V _ IH]; intros b; cbn [map]; [constructor|].
  destruct i; cbn [ins_gate ins_valid] in *; lazymatch goal with |- valid_circuit _ (("ERROR", _) :: _) => idtac | _ => apply vc_gate; [|apply IH] end.
  - apply (vg_plain "R" [q]). cbn. tauto.
  - apply (vg_plain "H" [q]). cbn. tauto.
  - apply (vg_pairs _ [(a, d)]); [destruct p; cbn; tauto|repeat constructor; auto].
  - apply (vg_plain "M" [q]). cbn. tauto.
  - destruct V as (A & B & C & D). apply (vg_pauli [AFlt x; AFlt y; AFlt z] [x; y; z]); auto. repeat constructor.
  - apply (vg_erase (AFlt p) p). constructor.
  - apply vc_error; [|apply IH]. apply (vg_plain "X" [q]). cbn. tauto.
  - destruct V as (A & B & C). apply (vg_pauli2 (map AFlt ps) ps); auto. apply prob_args.
Qed.
Lemma pauli_valid (d : dict1) q p : (forall q p, In (q, p) d -> distribution ["x"; "y"; "z"] p) -> get1 d q = Some p -> ins_valid (IPauli (pget "x" p) (pget "y" p) (pget "z" p) (qn q)).
Proof.
  intros H G. apply get1_in in G as (z & I). destruct (H z p I) as [A B]. cbn [ins_valid]. conjs; try (apply A; cbn; tauto). exact B.
Qed.
Lemma gate_pauli_valid d we q : (forall q p, In (q, p) d -> distribution ["x"; "y"; "z"] p) -> Forall ins_valid (gate_pauli d we q).
Proof. intros H. unfold gate_pauli. destruct we; auto. destruct (get1 d q) eqn:G; auto. constructor; auto. eapply pauli_valid; eauto. Qed.
Lemma pauli2_order_names : pauli2_order = two_qubit_paulis.
Proof. reflexivity. Qed.
Lemma gate_pauli2_valid d we a q : (forall q p, In (q, p) d -> distribution two_qubit_paulis p) -> Forall ins_valid (gate_pauli2 d we a q).
Proof.
  intros H. unfold gate_pauli2. destruct we; auto. destruct (get2 d a q) as [p|] eqn:G; auto. constructor; auto. apply get2_in in G as (z & I). destruct (H z p I) as [A B].
  cbn [ins_valid]. rewrite pauli2_order_names. conjs; auto. apply Forall_map, Forall_forall. auto.
Qed.
Section valid.
Context (e : errors) (P : probabilities e).
Lemma noise_valid l : Forall ins_valid (noise_round l e).
Proof.
  apply forall_flat_map. intros v _. unfold noise_at. apply Forall_app. split.
  - unfold data_pauli. destruct (get1 (er_pauli e) (eq_of l v)) as [[|kv p]|] eqn:G; constructor; auto. eapply pauli_valid; eauto. apply (pr_pauli _ P).
  - destruct (data_erase e (eq_of l v)); repeat constructor.
Qed.
Lemma edge_valid l we ed : consistent l -> indexed l -> In ed (l_edges l) -> Forall ins_valid (edge_ins l e we ed).
Proof.
  intros C X I. unfold edge_ins. destruct (cons_ends _ C ed I) as [D O]. assert (A := eqn_data_lt l _ X D). assert (B := eqn_op_ge l _ X O). constructor.
  - cbn. unfold eqn in *. lia.
  - apply gate_pauli2_valid. destruct (e_factor ed); cbn; apply (pr_CX _ P) || apply (pr_CZ _ P).
Qed.
Lemma prep_valid we q : Forall ins_valid (prep_ins e we q).
Proof. unfold prep_ins. apply Forall_app. split; constructor; cbn; auto; apply gate_pauli_valid; apply (pr_R _ P) || apply (pr_H _ P). Qed.
Lemma read_valid we q : Forall ins_valid (read_ins e we q).
Proof.
  unfold read_ins. apply Forall_app. split; [constructor; cbn; auto; apply gate_pauli_valid, (pr_H _ P)|]. apply Forall_app. split; [|constructor; cbn; auto; apply gate_pauli_valid, (pr_M _ P)].
  destruct (meas_flip e we q); cbn; repeat constructor.
Qed.
Lemma op_valid l we o : consistent l -> indexed l -> In o (l_operators l) -> Forall ins_valid (op_ins l e we o).
Proof.
  intros C X I. unfold op_ins. apply Forall_app. split; [apply prep_valid|]. apply Forall_app. split; [|apply read_valid].
  apply forall_flat_map. intros ed He. apply edge_valid; auto. rewrite op_edges in He by auto. apply filter_In in He. tauto.
Qed.
Lemma stabs_valid l we : consistent l -> indexed l -> Forall ins_valid (stabs_ins l e we).
Proof.
  intros C X. unfold stabs_ins. destruct (l_steps l).
  - apply Forall_app. split; [apply forall_flat_map; intros; apply prep_valid|]. apply Forall_app. split; [|apply forall_flat_map; intros; apply read_valid].
    apply forall_flat_map. intros t _. apply forall_flat_map. intros ed He. apply edge_valid; auto. apply in_edges_at in He. tauto.
  - apply forall_flat_map. intros o Io. apply op_valid; auto using stab_op.
Qed.
Lemma logicals_valid l anc is : consistent l -> indexed l -> Forall ins_valid (logicals_ins l e anc is).
Proof.
  intros C X. apply forall_flat_map. intros i _. destruct (nth_error (l_logicals l) i) as [o|] eqn:E; auto. apply nth_error_In in E. unfold logical_ins. destruct anc.
  - apply op_valid; auto using logical_op.
  - apply forall_flat_map. intros ed He. unfold data_ins. destruct (e_factor ed); repeat constructor; cbn; auto.
Qed.
Lemma memory_valid cd anc is : consistent (c_lattice cd) -> indexed (c_lattice cd) -> Forall ins_valid (memory_ins cd e anc is).
Proof.
  intros C X. unfold memory_ins. cbv zeta. apply Forall_app. split; [apply logicals_valid; auto|]. apply Forall_app. split; [apply stabs_valid; auto|].
  apply Forall_app. split; [|apply logicals_valid; auto]. apply forall_flat_map. intros b _. apply Forall_app. split; [apply noise_valid|apply stabs_valid; auto].
Qed.
End valid.

(** * Layout *)
Definition im (i : ins) : list nat := match i with IM q => [q] | _ => [] end.
Lemma measured_ins is : measured (map ins_gate is) = map qa (flat_map im is).
Proof.
  unfold measured. induction is as [|i is IH]; auto. cbn [map flat_map]. rewrite IH, map_app. f_equal. destruct i; auto. destruct p; auto.
Qed.
Lemma im_pauli d we q : flat_map im (gate_pauli d we q) = [].
Proof. unfold gate_pauli. destruct we; auto. destruct (get1 d q); auto. Qed.
Lemma im_pauli2 d we a q : flat_map im (gate_pauli2 d we a q) = [].
Proof. unfold gate_pauli2. destruct we; auto. destruct (get2 d a q); auto. Qed.
Lemma im_prep e we q : flat_map im (prep_ins e we q) = [].
Proof. unfold prep_ins. rewrite flat_map_app. cbn [flat_map im]. rewrite !im_pauli. auto. Qed.
Lemma im_read e we q : flat_map im (read_ins e we q) = [qn q].
Proof. unfold read_ins. rewrite !flat_map_app. cbn [flat_map im]. rewrite !im_pauli. destruct (meas_flip e we q); auto. Qed.
Lemma im_edge l e we ed : flat_map im (edge_ins l e we ed) = [].
Proof. unfold edge_ins. cbn [flat_map im]. apply im_pauli2. Qed.
Lemma im_flat {A} (f : A -> list ins) xs : flat_map im (flat_map f xs) = flat_map (fun x => flat_map im (f x)) xs.
Proof. induction xs; auto. cbn [flat_map]. rewrite flat_map_app. congruence. Qed.
Lemma flat_nil {A B} (f : A -> list B) xs : (forall x, In x xs -> f x = []) -> flat_map f xs = [].
Proof. induction xs as [|x xs IH]; intros H; auto. cbn. rewrite (H x (or_introl eq_refl)), IH; auto. intros; apply H; right; auto. Qed.
Lemma flat_one {A B} (f : A -> list B) g xs : (forall x, f x = [g x]) -> flat_map f xs = map g xs.
Proof. intros H. induction xs as [|x xs IH]; auto. cbn. rewrite H, IH. auto. Qed.
Lemma im_op l e we o : flat_map im (op_ins l e we o) = [qn (eq_of l o)].
Proof. unfold op_ins. rewrite !flat_map_app, im_prep, im_read, im_flat, flat_nil; auto. intros; apply im_edge. Qed.
Lemma im_stabs l e we : indexed l -> flat_map im (stabs_ins l e we) = seq (List.length (l_data l)) (List.length (l_stabs l)).
Proof.
  intros X. rewrite <- map_eqn_stabs by auto. unfold stabs_ins. destruct (l_steps l).
  - rewrite !flat_map_app, !im_flat. rewrite flat_nil by (intros; apply im_prep). rewrite flat_nil by (intros; rewrite im_flat; apply flat_nil; intros; apply im_edge).
    cbn [app]. apply flat_one. intros o. apply im_read.
  - rewrite im_flat. apply flat_one. intros o. apply im_op.
Qed.
Lemma im_noise l e : flat_map im (noise_round l e) = [].
Proof.
  unfold noise_round. rewrite im_flat. apply flat_nil. intros v _. unfold noise_at. rewrite flat_map_app.
  destruct (data_pauli e (eq_of l v)) as [[[? ?] ?]|], (data_erase e (eq_of l v)); auto.
Qed.
Lemma flat_repeat {A B} (f : A -> list B) a n : flat_map f (repeat a n) = List.concat (repeat (f a) n).
Proof. induction n; cbn; congruence. Qed.
Lemma im_memory cd e anc is : experiment_code cd -> (1 <= c_rounds cd)%Z ->
  flat_map im (memory_ins cd e anc is) = flat_map im (logicals_ins (c_lattice cd) e anc is) ++ stab_layout cd (Z.to_nat (c_rounds cd + 1)) ++ flat_map im (logicals_ins (c_lattice cd) e anc is).
Proof.
  intros XC HR. unfold memory_ins. cbv zeta. rewrite !flat_map_app, im_stabs by apply XC. f_equal. rewrite app_assoc. f_equal.
  rewrite im_flat. rewrite flat_repeat. cbn [flat_map]. rewrite !flat_map_app, im_noise, !im_stabs by apply XC. cbn [app]. rewrite List.app_nil_r. unfold stab_layout.
  rewrite xc_nd, xc_ns by auto. set (X := seq _ _). replace (Z.to_nat (c_rounds cd + 1)) with (S (S (Z.to_nat (c_rounds cd - 1)))) by lia.
  cbn [repeat List.concat]. f_equal. generalize (Z.to_nat (c_rounds cd - 1)) as m. induction m as [|m IH]; [cbn; rewrite List.app_nil_r; auto|]. cbn [repeat List.concat]. rewrite <- app_assoc, IH. auto.
Qed.
Lemma im_logicals cd e anc is : experiment_code cd -> (forall i, In i is -> i < List.length (l_logicals (c_lattice cd))) ->
  logical_layout cd anc is (flat_map im (logicals_ins (c_lattice cd) e anc is)) /\
  (anc = false -> exists sup, flat_map im (logicals_ins (c_lattice cd) e anc is) = flat_map sup is /\ forall i, In i is -> List.length (sup i) = weight (nth i (c_logicals (c_ops cd)) row0)).
Proof.
  intros XC H. assert (C := xc_consistent _ XC). assert (X := xc_indexed _ XC). set (l := c_lattice cd) in *. rewrite logicals_ins_vert by auto. rewrite flat_map_map, im_flat.
  destruct (xc_rows cd XC) as (_ & RW & _). fold l in RW.
  destruct anc; cbn [logical_layout].
  - split; [|discriminate]. rewrite xc_nd, xc_ns by auto. fold l. rewrite <- (flat_one (fun i => [List.length (l_data l) + List.length (l_stabs l) + i]) _ is) by auto.
    apply flat_map_ext_in'. intros i Ii. unfold logical_ins. rewrite im_op. destruct (lidx_vert l i X (H i Ii)) as (o & _ & Io & E & ->). unfold lidx in E. rewrite <- E. auto.
  - set (sup := fun i => map (fun ed => eqn l (e_data ed)) (v_edges (l_heap l (vert l (lidx l i))))).
    assert (ES : flat_map (fun i => flat_map im (logical_ins l e false (vert l (lidx l i)))) is = flat_map sup is).
    { apply flat_map_ext_in'. intros i Ii. unfold logical_ins, sup. rewrite im_flat. apply flat_one. intros ed. unfold data_ins, eqn. destruct (e_factor ed); auto. }
    rewrite ES. split.
    + exists sup. split; auto. intros i Ii. destruct (lidx_vert l i X (H i Ii)) as (o & Eo & Io & E & V). unfold sup, support_of. rewrite V.
      assert (OP := logical_op l o Io). rewrite (fac_logical cd) by auto. fold l. rewrite <- E, tfun_bits by auto. split.
      * assert (ND := nodup_v_edges l o C). rewrite op_edges in * by auto. set (es := filter _ (l_edges l)) in *.
        assert (IE : forall ed, In ed es -> In ed (l_edges l) /\ e_op ed = o) by (intros ed J; apply filter_In in J as [J1 J2]; split; auto; apply Nat.eqb_eq; auto).
        clearbody es. induction ND as [|ed es Nin ND IH]; cbn [map]; constructor; [|apply IH; intros; apply IE; right; auto].
        intros J. apply in_map_iff in J as (ed' & Q & J). destruct (IE ed (or_introl eq_refl)) as [I1 O1]. destruct (IE ed' (or_intror J)) as [I2 O2].
        apply Nin. replace ed with ed'; auto. apply (edge_unique l); auto. unfold ends. f_equal; [congruence|].
        apply (eqn_inj l); auto; apply in_equbits; auto; left; apply (cons_ends _ C); auto.
      * intros q. rewrite in_map_iff. split.
        -- intros (ed & <- & J). rewrite op_edges in J by auto. apply filter_In in J as [J1 J2]. apply Nat.eqb_eq in J2.
           rewrite nth_pw by (auto; apply (cons_ends _ C ed J1)). rewrite <- J2, pw_edge by auto. destruct (e_factor ed); discriminate.
        -- intros NE. destruct (nth_error (l_data l) q) as [d|] eqn:Ed.
           ++ assert (Id := nth_error_In _ _ Ed). assert (Eq : eqn l d = q) by (unfold eqn; rewrite (eq_data l q d X Ed); auto). rewrite <- Eq in NE.
              rewrite nth_pw in NE by auto. destruct (pw_cases l o d C) as [[P _]|(ed & Ie & En & _)]; [rewrite P in NE; elim NE; auto|].
              exists ed. injection En as E1 E2. rewrite E2. split; auto. rewrite op_edges by auto. apply filter_In. split; auto. apply Nat.eqb_eq; auto.
           ++ elim NE. apply nth_error_None in Ed. apply nth_overflow. unfold op_bits. rewrite map_length. auto.
    + intros _. exists sup. split; auto. intros i Ii. destruct (lidx_vert l i X (H i Ii)) as (o & Eo & Io & E & V). unfold sup. rewrite map_length, V.
      assert (N : nth_error (c_logicals (c_ops cd)) i = Some (op_row l o)) by (rewrite RW, nth_error_map, Eo; auto).
      rewrite (nth_error_nth _ _ row0 N). symmetry. apply weight_edges; auto using logical_op.
Qed.

(** * Runs *)
Definition ie (i : ins) : nat := match i with IErase _ _ => 1 | _ => 0 end.
Lemma irun_len n is : forall v ms es v', irun n is v ms es v' -> List.length ms = List.length (flat_map im is) /\ List.length es = list_sum (map ie is).
Proof.
  induction is as [|i is IH]; intros v ms es v' H.
  - apply irun_nil in H. destruct H as (-> & -> & _). auto.
  - apply irun_inv in H. destruct H as (m1 & e1 & v1 & m2 & e2 & S & H & -> & ->). apply IH in H. destruct H as [A B]. cbn [flat_map map list_sum fold_right]. rewrite !app_length, A, B.
    cut (List.length m1 = List.length (im i) /\ List.length e1 = ie i); [intros [-> ->]; auto|]. 
    clear A B IH. destruct i; cbn [istep im ie] in *; repeat match goal with H : _ /\ _ |- _ => destruct H | H : exists _, _ |- _ => destruct H end; subst; auto.
Qed.
Lemma sum_flat {A B} (f : B -> nat) (g : A -> list B) xs : list_sum (map f (flat_map g xs)) = list_sum (map (fun x => list_sum (map f (g x))) xs).
Proof. induction xs as [|x xs IH]; auto. cbn [flat_map map]. rewrite map_app, list_sum_app, IH. auto. Qed.
Lemma sum_zero {A} (f : A -> nat) xs : (forall x, In x xs -> f x = 0) -> list_sum (map f xs) = 0.
Proof. induction xs as [|x xs IH]; intros H; auto. cbn [map list_sum fold_right]. rewrite (H x (or_introl eq_refl)), Nat.add_0_l. apply IH. intros; apply H; right; auto. Qed.
Lemma sum_const {A} (f : A -> nat) c xs : (forall x, In x xs -> f x = c) -> list_sum (map f xs) = List.length xs * c.
Proof.
  induction xs as [|x xs IH]; intros H; auto. cbn [map]. change (list_sum (f x :: map f xs)) with (f x + list_sum (map f xs)). rewrite (H x (or_introl eq_refl)), IH by (intros; apply H; right; auto). cbn. lia.
Qed.
Lemma ie_prep e we q : list_sum (map ie (prep_ins e we q)) = 0.
Proof. unfold prep_ins. rewrite map_app, list_sum_app. unfold gate_pauli. destruct we; auto. destruct (get1 _ q), (get1 _ q); auto. Qed.
Lemma ie_read e we q : list_sum (map ie (read_ins e we q)) = 0.
Proof. unfold read_ins. rewrite !map_app, !list_sum_app. unfold gate_pauli. destruct (meas_flip e we q), we; auto; destruct (get1 (er_H e) q), (get1 (er_M e) q); auto. Qed.
Lemma ie_edge l e we ed : list_sum (map ie (edge_ins l e we ed)) = 0.
Proof. unfold edge_ins, gate_pauli2. destruct we; auto. destruct (get2 _ _ _); auto. Qed.
Lemma ie_op l e we o : list_sum (map ie (op_ins l e we o)) = 0.
Proof. unfold op_ins. rewrite !map_app, !list_sum_app, ie_prep, ie_read, sum_flat, sum_zero; auto. intros; apply ie_edge. Qed.
Lemma ie_stabs l e we : list_sum (map ie (stabs_ins l e we)) = 0.
Proof.
  unfold stabs_ins. destruct (l_steps l).
  - rewrite !map_app, !list_sum_app, !sum_flat. rewrite !sum_zero; auto; intros; auto using ie_prep, ie_read. rewrite sum_flat. apply sum_zero. intros; apply ie_edge.
  - rewrite sum_flat. apply sum_zero. intros; apply ie_op.
Qed.
Lemma ie_logicals l e anc is : list_sum (map ie (logicals_ins l e anc is)) = 0.
Proof.
  unfold logicals_ins. rewrite sum_flat. apply sum_zero. intros i _. destruct (nth_error _ i) as [o|]; auto. unfold logical_ins. destruct anc; [apply ie_op|].
  rewrite sum_flat. apply sum_zero. intros ed _. unfold data_ins. destruct (e_factor ed); auto.
Qed.
Lemma ie_noise l e : indexed l -> erasure_everywhere (List.length (l_data l)) e -> list_sum (map ie (noise_round l e)) = List.length (l_data l).
Proof.
  intros X EV. unfold noise_round. rewrite sum_flat. rewrite (sum_const _ 1); [lia|]. intros v I. assert (L := eqn_data_lt l v X I).
  destruct (EV _ L) as (p & G & N). destruct (eqn_vert l v X (in_equbits l v X (or_introl I))) as [E _]. unfold noise_at. rewrite E. rewrite map_app, list_sum_app.
  unfold data_erase. rewrite G. destruct p; [congruence|]. cbn [erase_ins map ie]. destruct (data_pauli e (Some (eqn l v))) as [[[? ?] ?]|]; auto.
Qed.
Lemma ie_memory cd e anc is : experiment_code cd -> (1 <= c_rounds cd)%Z -> erasure_everywhere (n_data_qubits (c_ops cd)) e ->
  list_sum (map ie (memory_ins cd e anc is)) = Z.to_nat (c_rounds cd) * n_data_qubits (c_ops cd).
Proof.
  intros XC HR EV. rewrite xc_nd in * by auto. unfold memory_ins. cbv zeta. rewrite !map_app, !list_sum_app, ie_stabs, !ie_logicals, sum_flat.
  rewrite (sum_const _ (List.length (l_data (c_lattice cd)))).
  - rewrite app_length, repeat_length. cbn [List.length]. nia.
  - intros b _. rewrite map_app, list_sum_app, ie_stabs, ie_noise; auto. apply XC.
Qed.
Lemma concat_repeat_len {A} (x : list A) n : List.length (List.concat (repeat x n)) = n * List.length x.
Proof. induction n; cbn; auto. rewrite app_length. lia. Qed.
Lemma flat_len_const {A B} (f : A -> list B) c xs : (forall x, In x xs -> List.length (f x) = c) -> List.length (flat_map f xs) = List.length xs * c.
Proof. induction xs as [|x xs IH]; intros H; auto. cbn [flat_map List.length]. rewrite app_length, (H x (or_introl eq_refl)), IH; [lia|]. intros; apply H; right; auto. Qed.
(** Numbers of results and of erasure flags of a run. *)
Lemma run_lengths cd e x is anc c g s0 s : experiment_code cd -> (1 <= c_rounds cd)%Z ->
  generate_qec_circuit cd e x anc = Ok c -> logical_ops_to_indices (c_ops cd) x = Ok is ->
  (forall k, 0 <= d_unif (g k) /\ d_unif (g k) < 1)%Q -> sim_run g c true s0 = Ok s ->
  (anc = true \/ forall i, In i is -> weight (nth i (c_logicals (c_ops cd)) row0) = weight (nth 0 (c_logicals (c_ops cd)) row0)) ->
  List.length (s_meas s) = 2 * (n_logical_qubits (c_ops cd) * block_width cd anc) + (Z.to_nat (c_rounds cd) + 1) * n_stabgens (c_ops cd) /\
  (erasure_everywhere (n_data_qubits (c_ops cd)) e -> List.length (s_eras s) = Z.to_nat (c_rounds cd) * n_data_qubits (c_ops cd)).
Proof.
  intros XC HR G EI Hg RUN W. destruct (memory_run cd e anc x c g s0 s XC G Hg RUN) as (is' & v & EI' & _ & IR & _).
  assert (is' = is) by congruence. subst is'. apply irun_len in IR as [A B]. destruct (indices_ok _ _ _ EI) as [LI HI].
  assert (HI' : forall i, In i is -> i < List.length (l_logicals (c_lattice cd))).
  { intros i I. specialize (HI i I). destruct (xc_rows cd XC) as (_ & E & _). rewrite E, map_length in HI. auto. }
  destruct (im_logicals cd e anc is XC HI') as [LL LD]. split.
  - rewrite A, im_memory by auto. rewrite !app_length.
    assert (Q : List.length (flat_map im (logicals_ins (c_lattice cd) e anc is)) = n_logical_qubits (c_ops cd) * block_width cd anc).
    { rewrite <- LI. unfold block_width. destruct anc.
      - cbn [logical_layout] in LL. rewrite LL, map_length. lia.
      - destruct (LD eq_refl) as (sup & -> & Hs). apply flat_len_const. intros i Ii. rewrite Hs by auto. destruct W as [W|W]; [discriminate|auto]. }
    rewrite Q. unfold stab_layout. rewrite concat_repeat_len, seq_length. unfold n_stabgens. lia.
  - intros EV. rewrite B. apply ie_memory; auto.
Qed.
Lemma xc_positive cd : experiment_code cd -> 0 < n_logical_qubits (c_ops cd) /\ 0 < n_stabgens (c_ops cd) /\ forall anc, 0 < block_width cd anc.
Proof.
  intros XC. destruct (xc_rows cd XC) as (ES & EL & NS & NL & EV). conjs.
  - unfold n_logical_qubits. rewrite EL, map_length. destruct (l_logicals (c_lattice cd)) as [|a [|b r]]; [congruence|discriminate|]. cbn [List.length]. apply Nat.div_str_pos. lia.
  - unfold n_stabgens. rewrite ES, map_length. destruct (l_stabs (c_lattice cd)); [congruence|cbn; lia].
  - intros []; cbn [block_width]; [lia|]. unfold block_width. rewrite EL. assert (OP := xc_operators _ XC). set (l := c_lattice cd) in *. destruct (l_logicals l) as [|o os] eqn:EO; [congruence|]. cbn [map nth].
    assert (Io : In o (l_operators l)) by (apply logical_op; rewrite EO; left; auto). rewrite weight_edges by (auto; apply XC).
    unfold from_codelattice in OP. destruct (stabilisers l); [|discriminate]. cbn [bindR] in OP. unfold logical_operators, vertices_to_operators in OP. rewrite EO in OP. cbn [mapR] in OP.
    destruct (v_edges (l_heap l o)) eqn:EV2; [|cbn; lia]. rewrite vertex_operator_empty in OP by auto. discriminate.
Qed.
