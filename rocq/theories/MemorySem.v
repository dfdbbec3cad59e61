(** Lemmas: the error history behind the results of a memory experiment. *)
Require Import List Bool Arith ZArith QArith Lia String Permutation.
From Verif Require Import Base BaseProofs QSpec PauliModel PauliSem PauliProofs PauliAlg GateProofs CircuitModel CircuitSpec CircuitProofs SimSpec SimModel RunProofs Props_Circuit
  LatticeModel LatticeSpec LatticeProofs LatticeEdit LatticeOps LatticeRows
  CodesModel CodesSpec CodesProofs GeneratorModel GeneratorSpec StabTrack RoundProofs MemoryProofs GeneratorProofs GeneratorSem UnpackProofs.
Import ListNotations.
Local Open Scope string_scope.
Local Open Scope nat_scope.
Local Open Scope list_scope.

(** * Facts about the code *)
Lemma xc_rows cd : experiment_code cd -> let l := c_lattice cd in
  c_stabs (c_ops cd) = map (op_row l) (l_stabs l) /\ c_logicals (c_ops cd) = map (op_row l) (l_logicals l) /\
  l_stabs l <> [] /\ l_logicals l <> [] /\ List.length (l_logicals l) mod 2 = 0.
Proof.
  intros [C X OP _ _ _]. cbv zeta. unfold from_codelattice in OP.
  destruct (stabilisers (c_lattice cd)) as [ss|] eqn:Es; [|discriminate]. cbn [bindR] in OP.
  destruct (logical_operators (c_lattice cd)) as [gs|] eqn:Eg; [|discriminate]. cbn [bindR] in OP.
  apply operators_rows in Es, Eg; auto; try (intros; unfold l_operators; apply in_app_iff; auto).
  unfold make_stabcode in OP. destruct ss as [|s ss]; [discriminate|]. destruct (negb _) eqn:M in OP; [discriminate|]. destruct gs as [|g gs]; [discriminate|].
  destruct (_ =? _) in OP; [|discriminate]. injection OP as <-. cbn [c_stabs c_logicals]. conjs; auto.
  - intros H. rewrite H in Es. discriminate.
  - intros H. rewrite H in Eg. discriminate.
  - apply negb_false_iff, Nat.eqb_eq in M. rewrite Eg, map_length in M. auto.
Qed.
Lemma xc_nd cd : experiment_code cd -> n_data_qubits (c_ops cd) = List.length (l_data (c_lattice cd)).
Proof.
  intros X. destruct (xc_rows cd X) as (S & _ & N & _). unfold n_data_qubits. rewrite S. destruct (l_stabs _); [congruence|]. cbn. unfold op_bits. apply map_length.
Qed.
Lemma xc_ns cd : experiment_code cd -> List.length (c_stabs (c_ops cd)) = List.length (l_stabs (c_lattice cd)).
Proof. intros X. destruct (xc_rows cd X) as (-> & _). apply map_length. Qed.
Lemma xc_width cd r : experiment_code cd -> In r (c_stabs (c_ops cd)) \/ In r (c_logicals (c_ops cd)) -> List.length (ops r) = List.length (l_data (c_lattice cd)).
Proof.
  intros X. destruct (xc_rows cd X) as (-> & -> & _). intros [H|H]; apply in_map_iff in H as (o & <- & _); cbn; unfold op_bits; apply map_length.
Qed.
Lemma xc_commute cd o p : experiment_code cd -> let l := c_lattice cd in In o (l_stabs l) -> In p (l_operators l) -> anti (l_data l) (pw l o) (pw l p) = false.
Proof.
  intros X l Io Ip. destruct (xc_rows cd X) as (S & G & _).
  destruct (check_iff (List.length (l_data l)) (c_ops cd)) as [[_ (R1 & R2 & _)]|[E _]].
  - intros r Hr. apply xc_width; auto.
  - apply row_commute. unfold l_operators in Ip. apply in_app_iff in Ip. destruct Ip as [Ip|Ip].
    + apply R1; rewrite S; apply in_map; auto.
    + apply R2; [rewrite S|rewrite G]; apply in_map; auto.
  - rewrite (xc_check _ X) in E. discriminate.
Qed.
Lemma anti_sym D f g : anti D f g = anti D g f.
Proof. unfold anti. f_equal. apply map_ext. intros d. unfold sp. destruct (f d) as [[] []], (g d) as [[] []]; auto. Qed.
Lemma tfun_bits l o : indexed l -> In o (l_operators l) -> tfun l (eqn l o) = fun q => nth q (op_bits l o) pid.
Proof. intros X I. unfold tfun. destruct (eqn_vert l o X (in_equbits l o X (or_intror I))) as [_ ->]. auto. Qed.
Lemma tfun_anti l o p : indexed l -> In o (l_operators l) -> In p (l_operators l) -> anti (dn l) (tfun l (eqn l o)) (tfun l (eqn l p)) = anti (l_data l) (pw l o) (pw l p).
Proof. intros X I J. rewrite !tfun_bits by auto. apply anti_bits; auto. Qed.

(** * The logical operators *)
Definition lidx (l : lattice) (i : nat) : nat := List.length (l_data l) + List.length (l_stabs l) + i.
Lemma lidx_vert l i : indexed l -> i < List.length (l_logicals l) -> exists o, nth_error (l_logicals l) i = Some o /\ In o (l_logicals l) /\ eqn l o = lidx l i /\ vert l (lidx l i) = o.
Proof.
  intros X L. destruct (nth_error (l_logicals l) i) as [o|] eqn:E; [|apply nth_error_None in E; lia]. exists o.
  assert (I : In o (l_logicals l)) by (eapply nth_error_In; eauto).
  assert (Q := eq_logical l i o X E). assert (En : eqn l o = lidx l i) by (unfold eqn; rewrite Q; auto). conjs; auto.
  rewrite <- En. apply eqn_vert; auto. apply in_equbits; auto. right. apply logical_op; auto.
Qed.
Lemma logicals_ins_vert l e anc is : indexed l -> (forall i, In i is -> i < List.length (l_logicals l)) ->
  logicals_ins l e anc is = flat_map (fun a => logical_ins l e anc (vert l a)) (map (lidx l) is).
Proof.
  intros X H. unfold logicals_ins. rewrite flat_map_map. apply flat_map_ext_in'. intros i Hi. destruct (lidx_vert l i X (H i Hi)) as (o & -> & _ & _ & ->). auto.
Qed.
Lemma logicals_read_ancilla n l e is : consistent l -> indexed l -> no_gate_errors e -> (forall ed, In ed (l_edges l) -> e_factor ed <> FY) ->
  (forall i, In i is -> i < List.length (l_logicals l)) -> (forall i, In i is -> lidx l i < n) ->
  (forall i j, In i is -> In j is -> anti (dn l) (tfun l (lidx l i)) (tfun l (lidx l j)) = false) ->
  reads n (map (lidx l) is) (tfun l) (fun _ => 1) (logicals_ins l e true is).
Proof.
  intros C X NG NY H Hn CO. rewrite logicals_ins_vert by auto.
  assert (CO' : forall a b, In a (map (lidx l) is) -> In b (map (lidx l) is) -> anti (dn l) (tfun l a) (tfun l b) = false).
  { intros a b Ha Hb. apply in_map_iff in Ha as (i & <- & Hi), Hb as (j & <- & Hj). auto. }
  apply (reads_measures n (dn l)); auto.
  - intros a _. apply tfun_data_only.
  - apply measures_seq; auto.
    + intros a Ha. apply in_map_iff in Ha as (i & <- & Hi). destruct (lidx_vert l i X (H i Hi)) as (o & _ & Io & En & ->). rewrite <- En. unfold logical_ins.
      assert (M := op_measures n l e false o C X (logical_op _ _ Io) NG NY). rewrite En in *. specialize (M (Hn i Hi)). exact M.
    + intros a _. apply tfun_data_only.
Qed.
Lemma logicals_read_data n l e is : consistent l -> indexed l ->
  (forall i, In i is -> i < List.length (l_logicals l)) ->
  (forall i o ed, In i is -> nth_error (l_logicals l) i = Some o -> In ed (l_edges l) -> e_op ed = o -> e_factor ed = FZ) ->
  reads n (map (lidx l) is) (tfun l) (fun a => List.length (v_edges (l_heap l (vert l a)))) (logicals_ins l e false is).
Proof.
  intros C X H FZs. rewrite logicals_ins_vert by auto.
  assert (FE : forall i o, In i is -> nth_error (l_logicals l) i = Some o -> forall ed, In ed (v_edges (l_heap l o)) -> e_factor ed = FZ).
  { intros i o Hi E ed He. rewrite op_edges in He; auto. 2: apply logical_op; eapply nth_error_In; eauto. apply filter_In in He as [He Ho]. apply Nat.eqb_eq in Ho. eapply FZs; eauto. }
  replace (flat_map (fun a => logical_ins l e false (vert l a)) (map (lidx l) is))
    with (flat_map (fun a => map IM (map (fun ed => eqn l (e_data ed)) (v_edges (l_heap l (vert l a))))) (map (lidx l) is)).
  - assert (RZ := reads_zmeasure n (map (lidx l) is) (tfun l) (fun a => map (fun ed => eqn l (e_data ed)) (v_edges (l_heap l (vert l a))))).
    cbv beta in RZ. unfold reads in *. intros v ms es v' N R. destruct RZ with (v := v) (ms := ms) (es := es) (v' := v') as (A & B & (Bs & D & F) & G); auto.
    + intros a Ha. apply in_map_iff in Ha as (i & <- & Hi). destruct (lidx_vert l i X (H i Hi)) as (o & _ & Io & _ & ->).
      assert (ND := nodup_op_data l o C (logical_op _ _ Io)).
      assert (ID : forall ed, In ed (v_edges (l_heap l o)) -> In (e_data ed) (l_equbits l)).
      { intros ed He. rewrite op_edges in He; auto using logical_op. apply filter_In in He as [He _]. apply (edge_equbits l ed C X He). }
      clear - ND ID X. induction (v_edges (l_heap l o)) as [|ed es IH]; cbn in *; constructor; inversion ND; subst; auto.
      intros I. apply in_map_iff in I as (ed' & E & I). apply eqn_inj in E; auto. apply H1. rewrite <- E. apply in_map; auto.
    + intros a q Ha Hq. apply in_map_iff in Ha as (i & <- & Hi). destruct (lidx_vert l i X (H i Hi)) as (o & Eo & Io & En & V). rewrite V.
      rewrite <- En. rewrite <- (sfun_tfun l (v_edges (l_heap l o))); auto using nodup_v_edges, logical_op.
      * assert (FE' := FE i o Hi Eo). assert (OE : forall ed, In ed (v_edges (l_heap l o)) -> e_op ed = o).
        { intros ed He. rewrite op_edges in He; auto using logical_op. apply filter_In in He as [_ Ho]. apply Nat.eqb_eq; auto. }
        clear - FE' OE. induction (v_edges (l_heap l o)) as [|ed es IH]; auto.
        cbn [map]. rewrite sfun_cons. cbn [gate_of fst snd zfun map fold_right]. fold (zfun (map (fun ed => eqn l (e_data ed)) es) q).
        rewrite IH by (intros; apply FE' + apply OE; right; auto). rewrite (FE' ed (or_introl eq_refl)), (OE ed (or_introl eq_refl)), Nat.eqb_refl. reflexivity.
      * intros ed He. rewrite op_edges in He; auto using logical_op. apply filter_In in He. tauto.
      * intros ed He Ho. rewrite op_edges; auto using logical_op. apply filter_In. rewrite Ho, Nat.eqb_refl. auto.
    + conjs; auto. exists Bs. split; auto. eapply Forall2_impl_in; [exact F|]. intros a blk _ [L S]. rewrite map_length in L. auto.
  - apply flat_map_ext_in'. intros a Ha. apply in_map_iff in Ha as (i & <- & Hi). destruct (lidx_vert l i X (H i Hi)) as (o & Eo & Io & En & V). rewrite V.
    unfold logical_ins. assert (FE' := FE i o Hi Eo). clear - FE'. induction (v_edges (l_heap l o)) as [|ed es IH]; auto. cbn [map flat_map].
    rewrite IH by (intros; apply FE'; right; auto). unfold data_ins. rewrite (FE' ed (or_introl eq_refl)). reflexivity.
Qed.

(** * Generated instructions are stored instructions *)
Definition keeps_stored (g : gen) : Prop := forall c c', Forall stored c -> g c = Ok c' -> Forall stored c'.
Lemma ks_skip : keeps_stored skipG.
Proof. intros c c' H E. injection E as <-. auto. Qed.
Lemma ks_fail e : keeps_stored (fun _ => Err e).
Proof. intros c c' H E. discriminate. Qed.
Lemma ks_seq a b : keeps_stored a -> keeps_stored b -> keeps_stored (a ;> b).
Proof. intros A B c c' H E. unfold seqG in E. destruct (a c) as [c1|] eqn:E1; [|discriminate]. eapply B; [|exact E]. eapply A; eauto. Qed.
Lemma ks_for {A} (f : A -> gen) xs : (forall x, keeps_stored (f x)) -> keeps_stored (forG f xs).
Proof.
  intros F. induction xs as [|x xs IH]; [apply ks_skip|]. intros c c' H E. unfold forG in E. cbn [foldR] in E. destruct (f x c) as [c1|] eqn:E1; [|discriminate].
  eapply IH; [|exact E]. eapply F; eauto.
Qed.
Lemma ks_emit name ps qs : keeps_stored (emit name ps qs).
Proof.
  intros c c' H E. unfold emit in E. destruct (mapR qarg qs) as [a|]; [|discriminate]. cbn [bindR] in E.
  apply (append_stored (fun _ => None) [(name, ps ++ a)] c c' H). cbn [foldR fst snd]. rewrite E. auto.
Qed.
Lemma ks_gate e name a d we : keeps_stored (apply_gate_and_error e name a d we).
Proof.
  apply ks_seq; [apply ks_emit|]. destruct we; [|apply ks_skip]. unfold apply_gate_error. destruct (get_gate_error _ _ _ _); [|apply ks_skip].
  destruct (mem_str _ _); [apply ks_emit|]. destruct (mem_str _ _); [apply ks_emit|apply ks_fail].
Qed.
Lemma ks_op l e o we : keeps_stored (measure_op l e o we).
Proof.
  apply ks_seq; [apply ks_seq; apply ks_gate|]. apply ks_seq; [apply ks_for; intros ed; unfold edge_gate; destruct (e_factor ed); try apply ks_gate; apply ks_fail|].
  apply ks_seq; [apply ks_gate|]. apply ks_seq; [|apply ks_gate]. destruct we; [|apply ks_skip]. unfold apply_measurement_error.
  destruct (get1 _ _) as [[|]|]; try apply ks_skip. destruct (find _ _); [apply ks_emit|apply ks_fail].
Qed.
Lemma ks_logical l e anc is : keeps_stored (measure_logical_ops l e anc is).
Proof.
  apply ks_for. intros i. unfold measure_logical. destruct (nth_error _ _); [|apply ks_fail]. destruct anc; [apply ks_op|]. apply ks_for. intros ed. unfold measure_data.
  destruct (e_factor ed); [apply ks_seq; apply ks_gate|apply ks_fail|apply ks_gate].
Qed.
Lemma ks_stabs l e we : keeps_stored (measure_stabgens l e we).
Proof.
  unfold measure_stabgens. destruct (l_steps l).
  - apply ks_seq; [apply ks_for; intros; apply ks_seq; apply ks_gate|]. apply ks_seq.
    + apply ks_for; intros; apply ks_for; intros ed. unfold edge_gate; destruct (e_factor ed); try apply ks_gate; apply ks_fail.
    + apply ks_for; intros. apply ks_seq; [apply ks_gate|]. apply ks_seq; [|apply ks_gate]. destruct we; [|apply ks_skip]. unfold apply_measurement_error.
      destruct (get1 _ _) as [[|]|]; try apply ks_skip. destruct (find _ _); [apply ks_emit|apply ks_fail].
  - apply ks_for; intros; apply ks_op.
Qed.
Lemma ks_noise l e : keeps_stored (apply_dataqubit_errors l e).
Proof.
  apply ks_for; intros v. apply ks_seq.
  - destruct (get1 _ _) as [[|]|]; try apply ks_skip. apply ks_emit.
  - destruct (get1 _ _) as [[|]|]; try apply ks_skip. apply ks_emit.
Qed.
Lemma ks_circuit cd e anc x : keeps_stored (get_circuit cd e anc x).
Proof.
  intros c c' H E. unfold get_circuit in E. destruct (logical_ops_to_indices _ _) as [is|]; [|discriminate]. cbn [bindR] in E.
  destruct (mapR _ _); [|discriminate]. cbn [bindR] in E. destruct (negb _); [discriminate|]. revert E. cbv zeta. apply ks_seq; auto; [apply ks_logical|].
  apply ks_seq; [apply ks_stabs|]. apply ks_seq; [apply ks_for; intros; apply ks_seq; [apply ks_noise|apply ks_stabs]|].
  apply ks_seq; [apply ks_noise|]. apply ks_seq; [apply ks_stabs|apply ks_logical].
Qed.

(** * The instructions *)
Definition ins_distinct (i : ins) : Prop := match i with IC _ a d => a <> d | _ => True end.
Lemma distinct_ins i : ins_distinct i -> distinct_ct (ins_gate i).
Proof.
  intros H. destruct i; cbn [ins_gate ins_distinct] in *; split; cbn [fst snd qa]; try (intros [E|E]; discriminate); auto.
  - intros _. cbn. split; auto. unfold qa. intros E. injection E as E. lia.
  - destruct ps as [|p ps]; cbn [map app]; auto. destruct ps as [|p2 ps]; cbn [map app]; auto.
Qed.
Lemma noise_distinct l e : Forall ins_distinct (noise_round l e).
Proof.
  unfold noise_round. apply Forall_forall. intros i Hi. apply in_flat_map in Hi as (v & _ & Hi). unfold noise_at in Hi. apply in_app_iff in Hi.
  destruct Hi as [Hi|Hi]; [destruct (data_pauli _ _) as [[[? ?] ?]|]|destruct (data_erase _ _)]; cbn in Hi; try tauto; destruct Hi as [<-|[]]; cbn; auto.
Qed.
Lemma edge_distinct l e we ed : consistent l -> indexed l -> In ed (l_edges l) -> Forall ins_distinct (edge_ins l e we ed).
Proof.
  intros C X I. unfold edge_ins. destruct (cons_ends _ C ed I) as [D O]. assert (A := eqn_data_lt l _ X D). assert (B := eqn_op_ge l _ X O). constructor.
  - cbn. unfold eqn in *. lia.
  - unfold gate_pauli2. destruct we; auto. destruct (get2 _ _ _); auto. constructor; cbn; auto.
Qed.
Lemma gp_distinct d we q : Forall ins_distinct (gate_pauli d we q).
Proof. unfold gate_pauli. destruct we; auto. destruct (get1 d q); auto. constructor; cbn; auto. Qed.
Lemma prep_distinct e we q : Forall ins_distinct (prep_ins e we q).
Proof. unfold prep_ins. apply Forall_app. split; constructor; cbn; auto using gp_distinct. Qed.
Lemma read_distinct e we q : Forall ins_distinct (read_ins e we q).
Proof.
  unfold read_ins. apply Forall_app. split; [constructor; cbn; auto using gp_distinct|]. apply Forall_app. split; [|constructor; cbn; auto using gp_distinct].
  destruct (meas_flip e we q); cbn; auto. constructor; cbn; auto.
Qed.
Lemma forall_flat_map {A B} (P : B -> Prop) (f : A -> list B) l : (forall x, In x l -> Forall P (f x)) -> Forall P (flat_map f l).
Proof. intros H. apply Forall_forall. intros b I. apply in_flat_map in I as (a & Ia & Ib). specialize (H a Ia). rewrite Forall_forall in H. auto. Qed.
Lemma op_distinct l e we o : consistent l -> indexed l -> In o (l_operators l) -> Forall ins_distinct (op_ins l e we o).
Proof.
  intros C X I. unfold op_ins. apply Forall_app. split; [apply prep_distinct|]. apply Forall_app. split; [|apply read_distinct].
  apply forall_flat_map. intros ed He. apply edge_distinct; auto. rewrite op_edges in He by auto. apply filter_In in He. tauto.
Qed.
Lemma stabs_distinct l e we : consistent l -> indexed l -> Forall ins_distinct (stabs_ins l e we).
Proof.
  intros C X. unfold stabs_ins. destruct (l_steps l).
  - apply Forall_app. split; [apply forall_flat_map; intros; apply prep_distinct|]. apply Forall_app. split; [|apply forall_flat_map; intros; apply read_distinct].
    apply forall_flat_map. intros t _. apply forall_flat_map. intros ed He. apply edge_distinct; auto. apply in_edges_at in He. tauto.
  - apply forall_flat_map. intros o Io. apply op_distinct; auto using stab_op.
Qed.
Lemma logicals_distinct l e anc is : consistent l -> indexed l -> Forall ins_distinct (logicals_ins l e anc is).
Proof.
  intros C X. apply forall_flat_map. intros i _. destruct (nth_error (l_logicals l) i) as [o|] eqn:E; auto. apply nth_error_In in E. unfold logical_ins. destruct anc.
  - apply op_distinct; auto using logical_op.
  - apply forall_flat_map. intros ed He. unfold data_ins. destruct (e_factor ed); repeat constructor; cbn; auto.
Qed.
Lemma memory_distinct cd e anc is : consistent (c_lattice cd) -> indexed (c_lattice cd) -> Forall ins_distinct (memory_ins cd e anc is).
Proof.
  intros C X. unfold memory_ins. cbv zeta. apply Forall_app. split; [apply logicals_distinct; auto|]. apply Forall_app. split; [apply stabs_distinct; auto|].
  apply Forall_app. split; [|apply logicals_distinct; auto]. apply forall_flat_map. intros b _. apply Forall_app. split; [apply noise_distinct|apply stabs_distinct; auto].
Qed.
(** Every ancilla occurs in the circuit. *)
Lemma read_in e we q : In (IM (qn q)) (read_ins e we q).
Proof. unfold read_ins. apply in_app_iff. right. apply in_app_iff. right. left. auto. Qed.
Lemma stab_in l e we o : In o (l_stabs l) -> In (IM (eqn l o)) (stabs_ins l e we).
Proof.
  intros I. unfold stabs_ins, eqn. destruct (l_steps l).
  - apply in_app_iff. right. apply in_app_iff. right. apply in_flat_map. exists o. split; auto. apply read_in.
  - apply in_flat_map. exists o. split; auto. unfold op_ins. apply in_app_iff. right. apply in_app_iff. right. apply read_in.
Qed.
Lemma logical_in l e i is o : In i is -> nth_error (l_logicals l) i = Some o -> In (IM (eqn l o)) (logicals_ins l e true is).
Proof.
  intros I E. unfold logicals_ins. apply in_flat_map. exists i. split; auto. rewrite E. unfold logical_ins, op_ins. apply in_app_iff. right. apply in_app_iff. right. apply read_in.
Qed.
Lemma ins_bound is q : In (IM q) is -> q < number_of_qubits (map ins_gate is).
Proof. intros I. apply (nq_bound _ ("M", [qa q])); [|left; auto]. apply (in_map ins_gate) in I. exact I. Qed.

(** * Indices of logical operators *)
Lemma indices_ok c x is : logical_ops_to_indices c x = Ok is -> List.length is = n_logical_qubits c /\ forall i, In i is -> i < List.length (c_logicals c).
Proof.
  unfold logical_ops_to_indices. destruct (match x with LogLetters s => _ | LogIndices l => _ end) as [idx|]; [|discriminate]. cbn [bindR].
  destruct (Nat.eqb_spec (List.length idx) (n_logical_qubits c)) as [L|]; [|discriminate]. cbn [negb].
  destruct (existsb _ idx) eqn:E; [discriminate|]. intros [= <-]. split; [rewrite map_length; auto|].
  intros i I. apply in_map_iff in I as (z & <- & Iz).
  assert (N : (z <? 0)%Z || (Z.of_nat (n_logical_ops c) <=? z)%Z = false).
  { destruct ((z <? 0)%Z || (Z.of_nat (n_logical_ops c) <=? z)%Z) eqn:B; auto. rewrite <- E. symmetry. apply existsb_exists. eauto. }
  apply orb_false_iff in N as [N1 N2]. apply Z.ltb_ge in N1. apply Z.leb_gt in N2. unfold n_logical_ops in N2. lia.
Qed.
Lemma get_circuit_commute cd e anc x is c c' : get_circuit cd e anc x c = Ok c' -> logical_ops_to_indices (c_ops cd) x = Ok is ->
  forall i j, In i is -> In j is -> commutator_sign (nth i (c_logicals (c_ops cd)) row0) (nth j (c_logicals (c_ops cd)) row0) = false.
Proof.
  unfold get_circuit. intros H E. rewrite E in H. cbn [bindR] in H. destruct (mapR _ is) as [lops|] eqn:M in H; [|discriminate]. cbn [bindR] in H.
  destruct (all_commute lops lops) eqn:AC; [|discriminate]. clear H.
  assert (IN : forall i, In i is -> In (nth i (c_logicals (c_ops cd)) row0) lops).
  { intros i I. apply In_nth_error in I as [k K]. destruct (LatticeRows.mapR_ok _ _ _ M) as [_ Q]. destruct (Q k i K) as (y & Y & F).
    destruct (nth_error (c_logicals (c_ops cd)) i) as [r|] eqn:R; [|discriminate]. injection F as ->. rewrite (nth_error_nth _ _ row0 R). eapply nth_error_In; eauto. }
  intros i j I J. unfold all_commute in AC. rewrite forallb_forall in AC. specialize (AC _ (IN i I)). rewrite forallb_forall in AC. specialize (AC _ (IN j J)).
  destruct (commutator_sign _ _); auto; discriminate.
Qed.
Lemma fac_op l o : fac (op_row l o) = fun q => nth q (op_bits l o) pid.
Proof. reflexivity. Qed.
Lemma fac_logical cd i : experiment_code cd -> i < List.length (l_logicals (c_lattice cd)) ->
  fac (nth i (c_logicals (c_ops cd)) row0) = tfun (c_lattice cd) (lidx (c_lattice cd) i).
Proof.
  intros X L. destruct (xc_rows cd X) as (_ & -> & _). destruct (lidx_vert _ i (xc_indexed _ X) L) as (o & E & _ & _ & V).
  assert (N : nth_error (map (op_row (c_lattice cd)) (l_logicals (c_lattice cd))) i = Some (op_row (c_lattice cd) o)) by (rewrite nth_error_map, E; auto).
  rewrite (nth_error_nth _ _ row0 N). unfold tfun. rewrite V. reflexivity.
Qed.
Lemma fac_stab cd s : experiment_code cd -> s < List.length (l_stabs (c_lattice cd)) ->
  fac (nth s (c_stabs (c_ops cd)) row0) = tfun (c_lattice cd) (List.length (l_data (c_lattice cd)) + s).
Proof.
  intros X L. destruct (xc_rows cd X) as (-> & _). set (l := c_lattice cd) in *. destruct (nth_error (l_stabs l) s) as [o|] eqn:E; [|apply nth_error_None in E; lia].
  assert (N : nth_error (map (op_row l) (l_stabs l)) s = Some (op_row l o)) by (rewrite nth_error_map, E; auto).
  rewrite (nth_error_nth _ _ row0 N). assert (En := eq_stab l s o (xc_indexed _ X) E). rewrite fac_op, <- tfun_bits.
  - unfold eqn. rewrite En. auto.
  - apply X.
  - apply stab_op. eapply nth_error_In; eauto.
Qed.
Lemma dn_nd cd : experiment_code cd -> seq 0 (n_data_qubits (c_ops cd)) = dn (c_lattice cd).
Proof. intros X. rewrite xc_nd by auto. auto. Qed.
Lemma commutator_tfun cd i j : experiment_code cd -> i < List.length (l_logicals (c_lattice cd)) -> j < List.length (l_logicals (c_lattice cd)) ->
  commutator_sign (nth i (c_logicals (c_ops cd)) row0) (nth j (c_logicals (c_ops cd)) row0) =
  anti (dn (c_lattice cd)) (tfun (c_lattice cd) (lidx (c_lattice cd) i)) (tfun (c_lattice cd) (lidx (c_lattice cd) j)).
Proof.
  intros X Li Lj. assert (XI := xc_indexed _ X). set (l := c_lattice cd) in *. destruct (lidx_vert l i XI Li) as (o & E & Io & Eo & _). destruct (lidx_vert l j XI Lj) as (p & F & Ip & Ep & _).
  rewrite <- Eo, <- Ep, tfun_anti by auto using logical_op. destruct (xc_rows cd X) as (_ & G & _). fold l in G. rewrite G.
  assert (N : nth_error (map (op_row l) (l_logicals l)) i = Some (op_row l o)) by (rewrite nth_error_map, E; auto).
  assert (M : nth_error (map (op_row l) (l_logicals l)) j = Some (op_row l p)) by (rewrite nth_error_map, F; auto).
  rewrite (nth_error_nth _ _ row0 N), (nth_error_nth _ _ row0 M).
  assert (W : forall q, List.length (ops (op_row l q)) = List.length (l_data l)) by (intros; cbn; unfold op_bits; apply map_length).
  assert (Q := row_commute l o p). rewrite <- commutator_commute in Q by auto.
  destruct (commutator_sign _ _), (anti _ _ _); auto; destruct Q as [Q1 Q2]; [discriminate (Q2 eq_refl)|discriminate (Q1 eq_refl)].
Qed.

(** * The run as a sequence of instructions *)
Lemma memory_run cd e anc x c g s0 s : experiment_code cd -> generate_qec_circuit cd e x anc = Ok c ->
  (forall k, 0 <= d_unif (g k) /\ d_unif (g k) < 1)%Q -> sim_run g c true s0 = Ok s ->
  exists is v, logical_ops_to_indices (c_ops cd) x = Ok is /\ c = map ins_gate (memory_ins cd e anc is) /\
    irun (number_of_qubits c) (memory_ins cd e anc is) ket0 (s_meas s) (s_eras s) v /\
    (forall i j, In i is -> In j is -> commutator_sign (nth i (c_logicals (c_ops cd)) row0) (nth j (c_logicals (c_ops cd)) row0) = false).
Proof.
  intros X G Hg R. unfold generate_qec_circuit in G. destruct (check_against_code _ _); [|discriminate]. cbn [bindR] in G.
  assert (ST := ks_circuit _ _ _ _ [] c (Forall_nil _) G). destruct (get_circuit_spec _ _ _ _ _ _ G) as (is & E & Ec). cbn [app] in Ec.
  exists is. assert (GC := get_circuit_commute _ _ _ _ is _ _ G E).
  destruct (C09_run_refines_born g c s0 s Hg ST) as (v & Q & _); auto.
  - rewrite Ec. apply Forall_map. eapply Forall_impl; [|apply memory_distinct; apply X]. apply distinct_ins.
  - exists v. conjs; auto. rewrite Ec in Q at 2. apply qcirc_ins; auto.
Qed.

(** * Weights *)
Lemma weight_edges l o : consistent l -> In o (l_operators l) -> weight (op_row l o) = List.length (v_edges (l_heap l o)).
Proof.
  intros C I. unfold weight, op_row, op_bits. cbn [ops].
  assert (FM : forall D, List.length (filter (fun p : bool * bool => fst p || snd p) (map (pw l o) D)) = List.length (filter (fun d => fst (pw l o d) || snd (pw l o d)) D)).
  { induction D as [|d D IH]; cbn; auto. destruct (fst (pw l o d) || snd (pw l o d)); cbn; auto. }
  rewrite FM, <- (map_length e_data). apply Permutation_length. apply NoDup_Permutation.
  - apply NoDup_filter, nodup_data; auto.
  - apply nodup_op_data; auto.
  - intros d. rewrite filter_In, in_map_iff. split.
    + intros [Id N]. destruct (pw_cases l o d C) as [[E _]|(e & Ie & En & _)]; [rewrite E in N; discriminate|]. injection En as Eo Ed. exists e. split; auto.
      rewrite op_edges by auto. apply filter_In. rewrite Eo, Nat.eqb_refl. auto.
    + intros (e & <- & Ie). rewrite op_edges in Ie by auto. apply filter_In in Ie as [Ie Eo]. apply Nat.eqb_eq in Eo. split; [apply (cons_ends _ C e Ie)|].
      rewrite <- Eo, pw_edge by auto. destruct (e_factor e); auto.
Qed.
Lemma xz_pbits P : xz P = pbits P.
Proof. destruct P; auto. Qed.

(** * The history *)
Lemma noise_history e q E fl : noise_ok (data_pauli e (Some q)) (data_erase e (Some q)) E fl ->
  exists P R, E = pxor (xz P) (xz R) /\ (0 < pauli_prob e q P)%Q /\ (if hd false fl then (0 < erase_prob e q)%Q else (erase_prob e q < 1)%Q /\ R = PI).
Proof.
  intros (P & R & -> & HP & HE). exists P, R. conjs; auto.
  - unfold pauli_prob, data_pauli in *. destruct (get1 (er_pauli e) (Some q)) as [[|kv p]|].
    + subst P. reflexivity.
    + destruct P; unfold prob_k in HP; cbn [SimSpec.code nth] in HP; auto. unfold qsum in HP. cbn [fold_right] in HP.
      setoid_replace (1 - (pget "x" (kv :: p) + pget "y" (kv :: p) + pget "z" (kv :: p)))%Q with (1 - (pget "x" (kv :: p) + (pget "y" (kv :: p) + (pget "z" (kv :: p) + 0))))%Q by ring. auto.
    + subst P. reflexivity.
  - unfold erase_prob, data_erase in *. destruct (get1 (er_erasure e) (Some q)) as [[|kv p]|].
    + destruct HE as [-> ->]. cbn. split; auto. reflexivity.
    + destruct HE as (b & -> & HE). cbn [hd]. destruct b; auto.
    + destruct HE as [-> ->]. cbn. split; auto. reflexivity.
Qed.
Lemma flip_history e a b : flip_ok (meas_entry e (Some a)) b -> if b then (0 < flip_prob e a)%Q else (flip_prob e a < 1)%Q.
Proof.
  unfold flip_ok, meas_entry, flip_prob. destruct (get1 (er_measurement e) (Some a)) as [[|kv p]|].
  - intros ->. reflexivity.
  - unfold pget. destruct (find _ (kv :: p)) as [kv'|]; auto. intros ->. reflexivity.
  - intros ->. reflexivity.
Qed.
Lemma steps_nth D T L : forall X Es x0, steps D T L x0 X Es -> forall t s, t < List.length X -> s < List.length L ->
  val (nth s (nth (S t) (x0 :: X) []) bb0) = xorb (val (nth s (nth t (x0 :: X) []) bb0)) (anti D (T (nth s L 0)) (nth t Es (fun _ => pid))).
Proof.
  induction X as [|x X IH]; intros [|E Es] x0 H t s Ht Hs; cbn [steps] in H; try tauto; try (cbn in Ht; lia).
  destruct H as [H1 H2]. destruct t as [|t]; [cbn [nth]; auto|]. cbn [nth]. apply (IH Es x H2); auto. cbn in Ht. lia.
Qed.
Lemma nth_xor_vec a b k : List.length a = List.length b -> nth k (xor_vec a b) false = xorb (nth k a false) (nth k b false).
Proof.
  intros L. unfold xor_vec. revert b k L. induction a as [|x a IH]; intros [|y b] k L; try discriminate; [destruct k; auto|]. destruct k; cbn; auto.
Qed.
Lemma xor_vec_len a b : List.length a = List.length b -> List.length (xor_vec a b) = List.length a.
Proof. intros L. unfold xor_vec. rewrite map_length, combine_length. lia. Qed.
Lemma syndrome_nth : forall (S : list (list bool)) t, t + 1 < List.length S ->
  nth t (map (fun p : list bool * list bool => xor_vec (fst p) (snd p)) (combine (tl S) (removelast S))) [] = xor_vec (nth (t + 1) S []) (nth t S []).
Proof.
  induction S as [|x S IH]; intros t H; [cbn in H; lia|]. cbn [tl]. destruct S as [|y S]; [cbn in H; lia|].
  change (removelast (x :: y :: S)) with (x :: removelast (y :: S)). cbn [combine map fst snd]. destruct t as [|t]; [reflexivity|].
  apply (IH t). cbn in *. lia.
Qed.
Lemma removelast_len {A} (l : list A) : List.length (removelast l) = List.length l - 1.
Proof. induction l as [|a [|b l] IH]; auto. cbn [removelast List.length] in *. lia. Qed.
Lemma syndrome_len (S : list (list bool)) : List.length (map (fun p : list bool * list bool => xor_vec (fst p) (snd p)) (combine (tl S) (removelast S))) = List.length S - 1.
Proof. rewrite map_length, combine_length, removelast_len. destruct S; cbn [tl List.length]; lia. Qed.
Lemma flags_all (D : list nat) (p : nat -> bool) : forall flss : list (nat -> list bool),
  (forall fls q, In fls flss -> In q D -> List.length (fls q) = if p q then 1 else 0) ->
  List.length (flat_map (fun fls => flat_map fls D) flss) = List.length flss * List.length D ->
  flss <> [] -> forall q, In q D -> p q = true.
Proof.
  assert (ROW : forall (fls : nat -> list bool) D, (forall q, In q D -> List.length (fls q) = if p q then 1 else 0) -> List.length (flat_map fls D) = List.length (filter p D)).
  { intros fls D'. induction D' as [|q D' IH]; cbn; auto. intros H. rewrite app_length, IH, H by auto. destruct (p q); auto. }
  intros flss H L N.
  assert (A : List.length (flat_map (fun fls => flat_map fls D) flss) = List.length flss * List.length (filter p D)).
  { clear L N. induction flss as [|f flss IH]; cbn; auto. rewrite app_length, IH by (intros; apply H; auto; right; auto). rewrite ROW; auto. intros; apply H; auto. left; auto. }
  assert (E : List.length (filter p D) = List.length D) by (destruct flss; [congruence|]; cbn [List.length] in *; nia).
  clear - E. induction D as [|d D IH]; cbn in *; [tauto|]. assert (FL : List.length (filter p D) <= List.length D).
  { clear. induction D; cbn; auto. destruct (p a); cbn; lia. }
  intros q [<-|I]; destruct (p d) eqn:P; cbn in E; auto; try lia.
Qed.

Lemma nth_map_lidx l is k : k < List.length is -> nth k (map (lidx l) is) 0 = lidx l (nth k is 0).
Proof. intros H. rewrite (nth_indep _ 0 (lidx l 0)) by (rewrite map_length; auto). apply map_nth. Qed.
Lemma noise_len pp pe E fl : noise_ok pp pe E fl -> List.length fl = match pe with Some _ => 1 | None => 0 end.
Proof. intros (P & R & _ & _ & H). destruct pe; [destruct H as (b & -> & _)|destruct H as [_ ->]]; auto. Qed.
Lemma concat_flat {A B} (f : A -> list B) l : List.concat (map f l) = flat_map f l.
Proof. symmetry. apply flat_map_concat_map. Qed.

Lemma history_shows cd e (anc : bool) is R d B0 BF x0 X Es flss er sm :
  experiment_code cd -> c_rounds cd = Z.of_nat (S R) -> List.length is = n_logical_qubits (c_ops cd) ->
  (forall i, In i is -> i < List.length (l_logicals (c_lattice cd))) ->
  d = (if anc then 1 else match c_logicals (c_ops cd) with r :: _ => weight r | [] => 0 end) -> 0 < d ->
  let l := c_lattice cd in let D := dn l in let L := seq (List.length (l_data l)) (List.length (l_stabs l)) in let Ls := map (lidx l) is in
  List.length X = S R -> List.length Es = S R -> List.length flss = S R ->
  Forall2 (fun (_ : nat) (blk : list bool) => List.length blk = d) Ls B0 -> Forall2 (fun (_ : nat) (blk : list bool) => List.length blk = d) Ls BF ->
  Forall2 (fun E fls => data_only D E /\ forall q, In q D -> noise_ok (data_pauli e (Some q)) (data_erase e (Some q)) (E q) (fls q)) Es flss ->
  Forall2 (fun (b : bool) x => Forall2 (fun a y => flip_ok (if b then meas_entry e (Some a) else None) (snd y)) L x) (false :: repeat true R ++ [false]) (x0 :: X) ->
  steps D (tfun l) L x0 X Es ->
  (forall k, k < List.length Ls -> xorb (par_bits (nth k B0 [])) (par_bits (nth k BF [])) = total D (tfun l (nth k Ls 0)) Es) ->
  from_code_and_raw_results cd (List.concat B0 ++ flat_map (map fst) (x0 :: X) ++ List.concat BF) er anc = Ok sm ->
  er = None \/ er = Some (flat_map (fun fls => flat_map fls D) flss) ->
  exists E K F, possible_history e (List.length (l_data l)) (List.length (l_stabs l)) (S R) E K F /\ shows cd is (S R) E K F sm.
Proof.
  intros XC HR LI HI Hd D0 l D L Ls LX LE LF F0 FF FN FL ST TG UN HE.
  assert (NK : n_logical_qubits (c_ops cd) = List.length is) by auto.
  assert (K0 : 0 < List.length is).
  { rewrite LI. unfold n_logical_qubits. destruct (xc_rows cd XC) as (_ & G & _ & N & M). rewrite G, map_length. fold l. destruct (l_logicals l) as [|a [|b r]] eqn:EL; fold l in M; rewrite EL in M.
    - fold l in N. congruence. - discriminate. - cbn [List.length]. apply Nat.div_str_pos. lia. }
  assert (NS : n_stabgens (c_ops cd) = List.length (l_stabs l)) by (apply xc_ns; auto).
  assert (ND : n_data_qubits (c_ops cd) = List.length (l_data l)) by (apply xc_nd; auto).
  assert (LB0 := Forall2_len' _ _ _ F0). assert (LBF := Forall2_len' _ _ _ FF). unfold Ls in LB0, LBF. rewrite map_length in LB0, LBF.
  assert (W0 : forall x, In x B0 -> List.length x = d) by (intros x I; clear - F0 I; induction F0; destruct I; subst; auto).
  assert (WF : forall x, In x BF -> List.length x = d) by (intros x I; clear - FF I; induction FF; destruct I; subst; auto).
  set (SS := map (map fst) (x0 :: X)) in *.
  assert (WS : forall x, In x (x0 :: X) -> List.length x = List.length (l_stabs l)).
  { intros x I. assert (Z : forall bs Y, Forall2 (fun (b : bool) x => Forall2 (fun a (y : bool * bool) => flip_ok (if b then meas_entry e (Some a) else None) (snd y)) L x) bs Y -> In x Y -> List.length x = List.length (l_stabs l)).
    { intros bs Y FY. induction FY as [|b y bs Y Fy FY IH]; [intros []|intros [<-|I']; auto]. apply Forall2_len' in Fy. unfold L in Fy. rewrite seq_length in Fy. auto. }
    eapply Z; eauto. }
  assert (LSS : List.length SS = S R + 1) by (unfold SS; rewrite map_length; cbn [List.length]; lia).
  assert (WSS : forall x, In x SS -> List.length x = n_stabgens (c_ops cd)).
  { intros x I. unfold SS in I. apply in_map_iff in I as (y & <- & I). rewrite map_length, NS. auto. }
  assert (UNP : from_code_and_raw_results cd (List.concat B0 ++ List.concat SS ++ List.concat BF) er anc = unpack_rest cd (map parity B0) (map parity BF) SS er).
  { destruct anc.
    - subst d. assert (P1 : forall B : list (list bool), (forall x, In x B -> List.length x = 1) -> List.concat B = map parity B).
      { induction B as [|b B IH]; intros H; auto. cbn [List.concat map]. rewrite IH by (intros; apply H; right; auto). specialize (H b (or_introl eq_refl)).
        destruct b as [|b0 [|]]; try discriminate. cbn. rewrite xorb_false_r. auto. }
      rewrite (P1 B0), (P1 BF) by auto. apply (unpack_ancilla cd (S R) (List.length is)); auto; rewrite map_length; auto.
    - apply (unpack_data cd (S R) (List.length is) d); auto. }
  unfold SS in UNP at 1. rewrite concat_flat in UNP. rewrite UNP in UN. clear UNP. unfold unpack_rest in UN.
  set (Ef := fun t => nth t Es (fun _ : nat => pid)). set (Kf := fun t q => hd false (nth t flss (fun _ => []) q)). set (Ff := fun t s => snd (nth s (nth t (x0 :: X) []) bb0)).
  exists Ef, Kf, Ff.
  assert (NZ : forall t, t < S R -> (forall q, In q D -> noise_ok (data_pauli e (Some q)) (data_erase e (Some q)) (Ef t q) (nth t flss (fun _ => []) q))).
  { intros t Ht q Hq. assert (Ht' : t < List.length Es) by lia. assert (H := Forall2_nth_in _ _ _ (fun _ => pid) (fun _ => []) t FN Ht'). cbn beta in H. destruct H as [_ H]. apply H; auto. }
  assert (FT : forall t s, t < S R + 1 -> s < List.length (l_stabs l) -> flip_ok (if nth t (false :: repeat true R ++ [false]) false then meas_entry e (Some (List.length (l_data l) + s)) else None) (Ff t s)).
  { intros t s Ht Hs. assert (Ht' : t < List.length (false :: repeat true R ++ [false])) by (cbn [List.length]; rewrite app_length, repeat_length; cbn; lia). assert (H := Forall2_nth_in _ _ _ false [] t FL Ht'). cbn beta in H.
    assert (Hs' : s < List.length L) by (unfold L; rewrite seq_length; auto). assert (H' := Forall2_nth_in _ _ _ 0 bb0 s H Hs'). cbn beta in H'. unfold L in H'. rewrite seq_nth in H' by auto. exact H'. }
  split.
  - constructor.
    + intros t q Ht Hq. apply noise_history. apply NZ; auto. apply in_seq. lia.
    + intros s Hs. assert (H := FT 0 s ltac:(lia) Hs). exact H.
    + intros s Hs. assert (H := FT (S R) s ltac:(lia) Hs). cbn [nth] in H. rewrite app_nth2 in H by (rewrite repeat_length; lia). rewrite repeat_length, Nat.sub_diag in H. exact H.
    + intros t s [H1 H2] Hs. assert (H := FT t s ltac:(lia) Hs). destruct t as [|t]; [lia|]. cbn [nth] in H. rewrite app_nth1 in H by (rewrite repeat_length; lia).
      rewrite nth_repeat_lt in H by lia. apply flip_history; auto.
  - assert (SM : exists m, sm = mkSample (map parity B0) (map parity BF) (xor_vec (map parity B0) (map parity BF)) SS (map (fun p => xor_vec (fst p) (snd p)) (combine (tl SS) (removelast SS))) m /\
        forall M, m = Some M -> M = map (fun t => map (Kf t) (seq 0 (n_data_qubits (c_ops cd)))) (seq 0 (S R))).
    { destruct er as [f|]; cbn [bindR] in UN.
      - destruct HE as [HE|HE]; [discriminate|]. injection HE as ->.
        destruct (Z.eqb_spec (Z.of_nat (List.length (flat_map (fun fls => flat_map fls D) flss))) (c_rounds cd * Z.of_nat (n_data_qubits (c_ops cd)))) as [EL|]; [|discriminate].
        cbn [bindR] in UN.
        assert (ROWS : flat_map (fun fls => flat_map fls D) flss = List.concat (map (fun t => map (Kf t) (seq 0 (n_data_qubits (c_ops cd)))) (seq 0 (S R)))).
        { assert (ALL := flags_all D (fun q => match data_erase e (Some q) with Some _ => true | None => false end) flss).
          assert (Hq : forall q, In q D -> match data_erase e (Some q) with Some _ => true | None => false end = true).
          { apply ALL.
            - intros fls q If Iq. apply In_nth_error in If as [t Et]. assert (Ht : t < S R) by (rewrite <- LF; apply nth_error_Some; congruence).
              assert (H := NZ t Ht q Iq). rewrite (nth_error_nth _ _ _ Et) in H. apply noise_len in H. rewrite H. destruct (data_erase e (Some q)); auto.
            - unfold D, dn. rewrite seq_length, LF. rewrite HR, ND in EL. fold D. fold (dn l) in D. unfold D, dn in EL. lia.
            - intros ->. discriminate. }
          rewrite ND. fold (dn l). fold D. rewrite <- LF. rewrite concat_flat. rewrite <- (concat_flat (fun fls => flat_map fls D)), <- (map_nth_seq (fun fls => flat_map fls D) (fun _ => []) flss), concat_flat.
          apply flat_map_ext_in'. intros t Ht. apply in_seq in Ht. rewrite <- concat_flat. 
          assert (SG : forall q, In q D -> nth t flss (fun _ => []) q = [Kf t q]).
          { intros q Iq. assert (H := NZ t ltac:(lia) q Iq). apply noise_len in H. specialize (Hq q Iq). destruct (data_erase e (Some q)); [|discriminate].
            unfold Kf. destruct (nth t flss (fun _ => []) q) as [|b [|]]; try discriminate. auto. }
          clear - SG. induction D as [|q D' IH]; auto. cbn [map List.concat]. rewrite SG by (left; auto). rewrite IH by (intros; apply SG; right; auto). auto. }
        rewrite ROWS, HR, reshape_concat in UN.
        + cbn [bindR] in UN. injection UN as <-. eexists. split; [reflexivity|]. intros M [= <-]. auto.
        + rewrite map_length, seq_length. auto.
        + intros x I. apply in_map_iff in I as (t & <- & _). rewrite map_length, seq_length. auto.
      - injection UN as <-. eexists. split; [reflexivity|]. discriminate. }
    destruct SM as (m & -> & HM). clear UN.
    assert (NSS : forall t, nth t SS [] = map fst (nth t (x0 :: X) [])) by (intros t; unfold SS; apply (map_nth (map fst) (x0 :: X) [])).
    assert (WN : forall t, t < S R + 1 -> List.length (nth t SS []) = List.length (l_stabs l)) by (intros t Ht; rewrite <- NS; apply WSS; apply nth_In; lia).
    constructor; cbn [sm_syndrome sm_toggle sm_erased].
    + rewrite syndrome_len, LSS. lia.
    + intros x I. apply (In_nth _ _ []) in I as (t & Ht & <-). rewrite syndrome_len in Ht. rewrite syndrome_nth by lia. rewrite xor_vec_len by (rewrite !WN by lia; auto). rewrite WN by lia. symmetry. apply xc_ns; auto.
    + intros t s Ht Hs. rewrite xc_ns in Hs by auto. fold l in Hs. rewrite syndrome_nth by lia. rewrite nth_xor_vec by (rewrite !WN by lia; auto). rewrite !NSS.
      change false with (fst bb0) at 1. rewrite map_nth. change false with (fst bb0) at 1. rewrite map_nth.
      assert (H := steps_nth D (tfun l) L X Es x0 ST t s ltac:(lia) ltac:(unfold L; rewrite seq_length; auto)). unfold L in H. rewrite seq_nth in H by auto.
      rewrite fac_stab by auto. rewrite dn_nd by auto. fold l D. unfold Ef, Ff. replace (t + 1) with (S t) by lia. revert H. unfold val.
      destruct (nth s (nth (S t) (x0 :: X) []) bb0) as [a1 b1], (nth s (nth t (x0 :: X) []) bb0) as [a2 b2]. cbn [fst snd].
      destruct (anti D _ _), a1, b1, a2, b2; cbn; intros; auto; discriminate.
    + rewrite xor_vec_len; rewrite !map_length; lia.
    + intros k Hk. rewrite nth_xor_vec by (rewrite !map_length; lia). change false with (parity []) at 1. rewrite map_nth. change false with (parity []) at 1. rewrite map_nth.
      assert (H := TG k ltac:(unfold Ls; rewrite map_length; auto)). unfold Ls in H. rewrite nth_map_lidx in H by auto.
      change parity with par_bits. rewrite H. rewrite fac_logical by (auto; apply HI, nth_In; auto). rewrite dn_nd by auto. fold l D. unfold total, Ef.
      assert (M : forall n, n = List.length Es -> map (fun t => anti D (tfun l (lidx l (nth k is 0))) (nth t Es (fun _ => pid))) (seq 0 n) = map (anti D (tfun l (lidx l (nth k is 0)))) Es).
      { intros n ->. apply (map_nth_seq (anti D (tfun l (lidx l (nth k is 0)))) (fun _ => pid) Es). }
      rewrite <- (M (S R) (eq_sym LE)). reflexivity.
    + auto.
Qed.

(** * The experiment *)
Lemma noise_round_ins l e : indexed l -> noise_round l e = noise_ins (fun q => data_pauli e (Some q)) (fun q => data_erase e (Some q)) (dn l).
Proof.
  intros X. unfold noise_round, noise_ins, dn. rewrite <- map_eqn_data by auto. rewrite flat_map_map. apply flat_map_ext_in'. intros v I.
  destruct (eqn_vert l v X (in_equbits l v X (or_introl I))) as [E _]. unfold noise_at. rewrite E. reflexivity.
Qed.
Lemma measures_err n D err err' L T is : (forall a, err a = err' a) -> MemoryProofs.measures n D err L T is -> MemoryProofs.measures n D err' L T is.
Proof.
  intros E H v ms es v' N R. destruct (H v ms es v' N R) as (A & B & (xs & C & F) & K). conjs; auto. exists xs. split; auto.
  eapply Forall2_impl_in; [exact F|]. intros a x _ [H1 H2]. split; auto. rewrite <- E. auto.
Qed.
Theorem memory_history cd e anc x c g s0 s er sm : experiment_code cd -> no_gate_errors e -> (1 <= c_rounds cd)%Z ->
  generate_qec_circuit cd e x anc = Ok c ->
  (forall is, logical_ops_to_indices (c_ops cd) x = Ok is -> anc = true \/ readable cd is) ->
  (forall k, 0 <= d_unif (g k) /\ d_unif (g k) < 1)%Q -> sim_run g c true s0 = Ok s ->
  er = None \/ er = Some (s_eras s) -> from_code_and_raw_results cd (s_meas s) er anc = Ok sm ->
  exists is E K F, logical_ops_to_indices (c_ops cd) x = Ok is /\
    possible_history e (n_data_qubits (c_ops cd)) (n_stabgens (c_ops cd)) (Z.to_nat (c_rounds cd)) E K F /\ shows cd is (Z.to_nat (c_rounds cd)) E K F sm.
Proof.
  intros XC NG HR G RD Hg RUN HE UN. destruct (memory_run cd e anc x c g s0 s XC G Hg RUN) as (is & v & EI & Ec & IR & CO).
  specialize (RD is EI). destruct (indices_ok _ _ _ EI) as [LI HI]. set (n := number_of_qubits c) in *.
  assert (XC' := XC). destruct XC' as [C XI OP NY CK SC]. set (l := c_lattice cd) in *.
  assert (HI' : forall i, In i is -> i < List.length (l_logicals l)).
  { intros i I. specialize (HI i I). destruct (xc_rows cd XC) as (_ & E & _). rewrite E, map_length in HI. auto. }
  set (R := Z.to_nat (c_rounds cd - 1)). assert (ER : Z.to_nat (c_rounds cd) = S R) by (unfold R; lia).
  assert (BS : forall o, In o (l_stabs l) -> eqn l o < n).
  { intros o I. unfold n. rewrite Ec. apply ins_bound. unfold memory_ins. cbv zeta. apply in_app_iff. right. apply in_app_iff. left. apply stab_in; auto. }
  assert (BD : forall q, In q (dn l) -> q < n).
  { intros q I. apply in_seq in I. destruct (xc_rows cd XC) as (_ & _ & N & _). fold l in N. destruct (l_stabs l) as [|o os] eqn:EO; [congruence|].
    assert (Io : In o (l_stabs l)) by (rewrite EO; left; auto). assert (A := BS o (or_introl eq_refl)). assert (B := eqn_op_ge l o XI (stab_op l o Io)). lia. }
  set (L := seq (List.length (l_data l)) (List.length (l_stabs l))). set (Ls := map (lidx l) is).
  assert (OPS : forall a, In a L -> exists o, In o (l_stabs l) /\ eqn l o = a) by (intros a I; apply in_stab_indices; auto).
  assert (CT : forall a b, In a L -> In b L -> anti (dn l) (tfun l a) (tfun l b) = false).
  { intros a b Ia Ib. destruct (OPS a Ia) as (o & Io & <-), (OPS b Ib) as (p & Ip & <-). rewrite tfun_anti by auto using stab_op. apply (xc_commute cd); auto using stab_op. }
  assert (CTL : forall a b, In a Ls -> In b L -> anti (dn l) (tfun l a) (tfun l b) = false).
  { intros a b Ia Ib. apply in_map_iff in Ia as (i & <- & Ii). destruct (lidx_vert l i XI (HI' i Ii)) as (o & _ & Io & <- & _). destruct (OPS b Ib) as (p & Ip & <-).
    rewrite anti_sym, tfun_anti by auto using stab_op, logical_op. apply (xc_commute cd); auto using logical_op. }
  set (d := if anc then 1 else match c_logicals (c_ops cd) with r :: _ => weight r | [] => 0 end).
  assert (D0 : 0 < d).
  { unfold d. destruct anc; auto. destruct (xc_rows cd XC) as (_ & E & _ & N & _). rewrite E. fold l in N |- *. destruct (l_logicals l) as [|o os] eqn:EO; [congruence|]. cbn [map].
    assert (Io : In o (l_operators l)) by (apply logical_op; rewrite EO; left; auto). rewrite weight_edges by auto.
    unfold from_codelattice in OP. destruct (stabilisers l); [|discriminate]. cbn [bindR] in OP. unfold logical_operators, vertices_to_operators in OP. rewrite EO in OP. cbn [mapR] in OP.
    destruct (v_edges (l_heap l o)) eqn:EV; [|cbn; lia]. rewrite vertex_operator_empty in OP by auto. discriminate. }
  assert (RL : exists w, reads n Ls (tfun l) w (logicals_ins l e anc is) /\ forall a, In a Ls -> w a = d).
  { unfold d. destruct anc.
    - exists (fun _ => 1). split; auto. apply logicals_read_ancilla; auto.
      + intros i Ii. destruct (lidx_vert l i XI (HI' i Ii)) as (o & Eo & Io & <- & _). unfold n. rewrite Ec. apply ins_bound. unfold memory_ins. cbv zeta. apply in_app_iff. left. eapply logical_in; eauto.
      + intros i j Ii Ij. rewrite <- (commutator_tfun cd) by auto. auto.
    - destruct RD as [RD|RD]; [discriminate|]. exists (fun a => List.length (v_edges (l_heap l (vert l a)))). split.
      + apply logicals_read_data; auto. intros i o ed Ii Eo Ie Eop. destruct (RD i Ii) as [RZ _].
        assert (FB := RZ (eqn l (e_data ed))). rewrite (fac_logical cd) in FB by auto. fold l in FB. destruct (lidx_vert l i XI (HI' i Ii)) as (o' & Eo' & Io & En & _).
        assert (o' = o) by congruence. subst o'. rewrite <- En, tfun_bits, nth_pw in FB by (auto using logical_op; apply (cons_ends _ C ed Ie)).
        rewrite <- Eop, pw_edge in FB by auto. assert (Y := NY ed Ie). destruct (e_factor ed); auto; discriminate.
      + intros a Ia. apply in_map_iff in Ia as (i & <- & Ii). destruct (RD i Ii) as [_ W]. destruct (lidx_vert l i XI (HI' i Ii)) as (o & Eo & Io & En & ->).
        destruct (xc_rows cd XC) as (_ & E & _). fold l in E. assert (N : nth_error (c_logicals (c_ops cd)) i = Some (op_row l o)) by (rewrite E, nth_error_map, Eo; auto).
        rewrite (nth_error_nth _ _ row0 N) in W. rewrite <- weight_edges by auto using logical_op. rewrite W. destruct (c_logicals (c_ops cd)); auto. }
  destruct RL as (w & RL & Hw).
  assert (IR2 := IR). unfold memory_ins in IR2. cbv zeta in IR2. fold l in IR2. fold R in IR2. rewrite noise_round_ins in IR2 by auto.
  destruct (memory_lemma n (dn l) (fun q => data_pauli e (Some q)) (fun q => data_erase e (Some q)) (fun a => meas_entry e (Some a)) L (tfun l) Ls (tfun l) w (stabs_ins l e) (logicals_ins l e anc is) R)
    with (v := ket0) (ms := s_meas s) (es := s_eras s) (v' := v) as (B0 & BF & x0 & X & Es & flss & EM & LX & LE & LF & EE & F0 & FF & FN & FL & ST & TG); auto.
  - apply seq_NoDup.
  - intros b. apply (measures_err n (dn l) (errf e b)).
    + intros a. unfold errf, meas_flip. destruct b; auto.
    + apply stabs_measures; auto.
  - intros a _. apply tfun_data_only.
  - intros a _. apply tfun_data_only.
  - apply SimProofs.nz_ket0.
  - rewrite EM in UN. rewrite EE in HE.
    destruct (history_shows cd e anc is R d B0 BF x0 X Es flss er sm) as (E & K & F & PH & SH); auto.
    + lia.
    + eapply Forall2_impl_in; [exact F0|]. intros a blk Ia Hl. cbn beta in Hl. rewrite Hl. apply Hw; auto.
    + eapply Forall2_impl_in; [exact FF|]. intros a blk Ia Hl. cbn beta in Hl. rewrite Hl. apply Hw; auto.
    + exists is, E, K, F. rewrite ER. conjs; auto. unfold n_stabgens. rewrite xc_nd, xc_ns by auto. auto.
Qed.
