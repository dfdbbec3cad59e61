(** Lemmas: the errors of memory experiments as Pauli frames. *)
Require Import String List Bool Arith ZArith QArith Qfield Lia Lqa.
From Verif Require Import Base BaseProofs QSpec PauliModel PauliSem PauliProofs PauliAlg StateSpec GateProofs CircuitModel SimSpec SimModel SimProofs RunProofs
  LatticeModel LatticeSpec LatticeProofs LatticeOps LatticeRows CodesModel CodesSpec GeneratorModel GeneratorSpec StabTrack RoundProofs MemoryProofs GeneratorProofs GeneratorSem
  UnpackProofs UnpackLayout MemorySem MemoryTotal ExperimentProofs DistSpec DistMean DistSim HistorySpec HistoryPaths HistorySums HistoryChain HistoryExp HistoryShow FrameSpec FrameProofs Props_Generator.
Import ListNotations.
Local Open Scope string_scope.
Local Open Scope nat_scope.
Local Open Scope list_scope.

(** * The circuit without errors *)
Definition ins_clean (i : ins) : bool := match i with IR _ | IHd _ | IC _ _ _ | IM _ => true | _ => false end.
Definition cl (is : list ins) : list ins := filter ins_clean is.
Lemma noiseless_items is : noiseless (map item_of is) = map item_of (cl is).
Proof. unfold noiseless, cl. induction is as [|i is IH]; auto. cbn [map filter]. rewrite IH. destruct i; auto. destruct p; auto. Qed.
Lemma cl_app a b : cl (a ++ b) = cl a ++ cl b. Proof. apply filter_app. Qed.
Lemma cl_flat {A} (f g : A -> list ins) xs : (forall x, In x xs -> cl (f x) = g x) -> cl (flat_map f xs) = flat_map g xs.
Proof. induction xs as [|x xs IH]; intros H; auto. cbn [flat_map]. rewrite cl_app, IH, H by (auto using in_eq; intros; apply H; right; auto). auto. Qed.
Lemma cl_pauli d we q : cl (gate_pauli d we q) = []. Proof. unfold gate_pauli. destruct we; auto. destruct (get1 d q); auto. Qed.
Lemma cl_pauli2 d we a q : cl (gate_pauli2 d we a q) = []. Proof. unfold gate_pauli2. destruct we; auto. destruct (get2 d a q); auto. Qed.
Lemma gp_nil we q : gate_pauli [] we q = []. Proof. unfold gate_pauli. destruct we; auto. destruct q; auto. Qed.
Lemma gp2_nil we a q : gate_pauli2 [] we a q = []. Proof. unfold gate_pauli2. destruct we; auto. destruct a, q; auto. Qed.
Lemma cl_prep e we q : cl (prep_ins e we q) = prep_ins no_errors we q.
Proof. unfold prep_ins. rewrite cl_app. cbn [cl filter ins_clean]. fold (cl (gate_pauli (er_R e) we q)) (cl (gate_pauli (er_H e) we q)). rewrite !cl_pauli. cbn [er_R er_H no_errors]. rewrite !gp_nil. auto. Qed.
Lemma cl_read e we q : cl (read_ins e we q) = read_ins no_errors we q.
Proof.
  unfold read_ins. rewrite !cl_app. cbn [cl filter ins_clean]. fold (cl (gate_pauli (er_H e) we q)) (cl (gate_pauli (er_M e) we q)). rewrite !cl_pauli. cbn [er_M er_H no_errors]. rewrite !gp_nil.
  replace (meas_flip no_errors we q) with (@None Q) by (unfold meas_flip, meas_entry; destruct we; auto; destruct q; auto). destruct (meas_flip e we q); auto.
Qed.
Lemma cl_edge l e we ed : cl (edge_ins l e we ed) = edge_ins l no_errors we ed.
Proof. unfold edge_ins. cbn [cl filter ins_clean]. fold (cl (gate_pauli2 (two_dict e (e_factor ed)) we (eq_of l (e_op ed)) (eq_of l (e_data ed)))). rewrite cl_pauli2. replace (two_dict no_errors (e_factor ed)) with (@nil (Z * Z * list (string * Q))) by (destruct (e_factor ed); auto). rewrite gp2_nil. auto. Qed.
Lemma cl_op l e we o : cl (op_ins l e we o) = op_ins l no_errors we o.
Proof. unfold op_ins. rewrite !cl_app, cl_prep, cl_read. f_equal. f_equal. apply cl_flat. intros. apply cl_edge. Qed.
Lemma cl_stabs l e we : cl (stabs_ins l e we) = stabs_ins l no_errors we.
Proof.
  unfold stabs_ins. destruct (l_steps l).
  - rewrite !cl_app. f_equal; [apply cl_flat; intros; apply cl_prep|]. f_equal; [|apply cl_flat; intros; apply cl_read]. apply cl_flat. intros. apply cl_flat. intros. apply cl_edge.
  - apply cl_flat. intros. apply cl_op.
Qed.
Lemma cl_noise l e : cl (noise_round l e) = noise_round l no_errors.
Proof.
  unfold noise_round. apply cl_flat. intros v _. unfold noise_at. rewrite cl_app. replace (data_pauli no_errors (eq_of l v)) with (@None (Q * Q * Q)) by (destruct (eq_of l v); auto).
  replace (data_erase no_errors (eq_of l v)) with (@None Q) by (destruct (eq_of l v); auto). destruct (data_pauli e _) as [[[? ?] ?]|], (data_erase e _); auto.
Qed.
Lemma cl_logicals l e anc is : cl (logicals_ins l e anc is) = logicals_ins l no_errors anc is.
Proof.
  unfold logicals_ins. apply cl_flat. intros i _. destruct (nth_error _ i); auto. unfold logical_ins. destruct anc; [apply cl_op|]. apply cl_flat. intros ed _. unfold data_ins. destruct (e_factor ed); auto.
Qed.
Lemma cl_memory cd e anc is : cl (memory_ins cd e anc is) = memory_ins cd no_errors anc is.
Proof.
  unfold memory_ins. cbv zeta. rewrite !cl_app, !cl_logicals, cl_stabs. f_equal. f_equal. f_equal. apply cl_flat. intros b _. rewrite cl_app, cl_noise, cl_stabs. auto.
Qed.

(** * It has the same number of qubits *)
Definition acts (i : ins) (q : nat) : Prop := In (qa q) (snd (ins_gate i)).
Definition covered (is : list ins) : Prop := forall i q, In i is -> acts i q -> exists j, In j (cl is) /\ acts j q.
Lemma covered_app a b : covered a -> covered b -> covered (a ++ b).
Proof.
  intros A B i q I Q. rewrite cl_app. apply in_app_iff in I as [I|I]; [destruct (A i q I Q) as (j & J & K)|destruct (B i q I Q) as (j & J & K)]; exists j; split; auto; apply in_app_iff; auto.
Qed.
Lemma covered_flat {A} (f : A -> list ins) xs : (forall x, In x xs -> covered (f x)) -> covered (flat_map f xs).
Proof. induction xs as [|x xs IH]; intros H; [intros i q []|]. cbn [flat_map]. apply covered_app; auto using in_eq. apply IH. intros. apply H. right; auto. Qed.
Lemma qa_inj a b : qa a = qa b -> a = b. Proof. unfold qa. intros H. injection H as H. lia. Qed.
Lemma flt_acts ps q (l : list nat) : In (qa q) (map AFlt ps ++ map qa l) -> In q l.
Proof.
  intros I. apply in_app_iff in I as [I|I]; apply in_map_iff in I as (x & E & J); [discriminate|]. apply qa_inj in E. subst. auto.
Qed.
Lemma covered_one i q0 d we q : ins_clean i = true -> snd (ins_gate i) = [qa q0] -> q0 = qn q -> covered (i :: gate_pauli d we q).
Proof.
  intros C E -> j q' I Q. exists i. cbn [cl filter]. rewrite C. split; [left; auto|]. unfold acts. rewrite E. destruct I as [<-|I]; [unfold acts in Q; rewrite E in Q; auto|].
  unfold gate_pauli in I. destruct we; [|destruct I]. destruct (get1 d q); [|destruct I]. destruct I as [<-|[]]. apply (flt_acts [_; _; _] q' [qn q]) in Q. destruct Q as [<-|[]]. left; auto.
Qed.
Lemma covered_prep e we q : covered (prep_ins e we q).
Proof. unfold prep_ins. apply covered_app; eapply covered_one; reflexivity. Qed.
Lemma covered_read e we q : covered (read_ins e we q).
Proof.
  unfold read_ins. assert (H : covered (flip_ins (meas_flip e we q) (qn q) ++ (IM (qn q) :: gate_pauli (er_M e) we q))).
  { assert (B : covered (IM (qn q) :: gate_pauli (er_M e) we q)) by (eapply covered_one; reflexivity). destruct (meas_flip e we q) as [p|]; auto. cbn [flip_ins app].
    intros j q' I Q. destruct I as [<-|I]; [|apply (B j q' I Q)]. exists (IM (qn q)). split; [left; auto|]. unfold acts in *. cbn [ins_gate snd] in *. destruct Q as [Q|[Q|Q]]; try discriminate. auto. }
  apply covered_app; auto. eapply covered_one; reflexivity.
Qed.
Lemma covered_edge l e we ed : covered (edge_ins l e we ed).
Proof.
  intros i q I Q. unfold edge_ins in *. exists (IC (e_factor ed) (qn (eq_of l (e_op ed))) (qn (eq_of l (e_data ed)))). split; [left; auto|]. destruct I as [<-|I]; auto.
  unfold gate_pauli2 in I. destruct we; [|destruct I]. destruct (get2 _ _ _); [|destruct I]. destruct I as [<-|[]]. unfold acts in *.
  apply (flt_acts _ q [qn (eq_of l (e_op ed)); qn (eq_of l (e_data ed))]) in Q. cbn [ins_gate snd]. destruct Q as [<-|[<-|[]]]; cbn; auto.
Qed.
Lemma covered_op l e we o : covered (op_ins l e we o).
Proof. unfold op_ins. apply covered_app; [apply covered_prep|]. apply covered_app; [|apply covered_read]. apply covered_flat. intros. apply covered_edge. Qed.
Lemma covered_stabs l e we : covered (stabs_ins l e we).
Proof.
  unfold stabs_ins. destruct (l_steps l).
  - apply covered_app; [apply covered_flat; intros; apply covered_prep|]. apply covered_app; [|apply covered_flat; intros; apply covered_read]. apply covered_flat. intros. apply covered_flat. intros. apply covered_edge.
  - apply covered_flat. intros. apply covered_op.
Qed.
Lemma covered_logicals l e anc is : covered (logicals_ins l e anc is).
Proof.
  unfold logicals_ins. apply covered_flat. intros i _. destruct (nth_error _ i); [|intros j q []]. unfold logical_ins. destruct anc; [apply covered_op|]. apply covered_flat. intros ed _ j q I Q.
  exists j. split; auto. unfold data_ins in *. destruct (e_factor ed); cbn in *; tauto.
Qed.
Lemma same_qubits cd e anc is : experiment_code cd ->
  number_of_qubits (map ins_gate (memory_ins cd e anc is)) = number_of_qubits (map ins_gate (memory_ins cd no_errors anc is)).
Proof.
  intros XC. set (A := number_of_qubits (map ins_gate (memory_ins cd e anc is))). set (B := number_of_qubits (map ins_gate (memory_ins cd no_errors anc is))).
  assert (XC' := XC). destruct XC' as [C XI OP NY CK SC]. set (l := c_lattice cd) in *.
  assert (P : forall c, 1 <= number_of_qubits c).
  { intros c. destruct (nq_ge c 0%Z) as [X _]. unfold number_of_qubits. match type of X with (0 <= ?e)%Z => change (1 <= Z.to_nat (e + 1)); generalize dependent e end. intros. lia. }
  assert (IN : forall i q, In i (memory_ins cd no_errors anc is) -> acts i q -> q < B).
  { intros i q I Q. unfold B. apply (nq_bound _ (ins_gate i)); auto. apply in_map; auto. }
  assert (BD : forall q, q < List.length (l_data l) -> q < B).
  { intros q I. destruct (xc_rows cd XC) as (_ & _ & N & _). fold l in N. destruct (l_stabs l) as [|o os] eqn:EO; [congruence|].
    assert (Io : In o (l_stabs l)) by (rewrite EO; left; auto). assert (Y := eqn_op_ge l o XI (stab_op l o Io)).
    assert (Z : eqn l o < B); [|lia]. apply (IN (IM (eqn l o))); [|left; auto]. unfold memory_ins. cbv zeta. apply in_app_iff. right. apply in_app_iff. left. apply stab_in; auto. }
  assert (ALL : forall i q, In i (memory_ins cd e anc is) -> acts i q -> q < B).
  { intros i q I Q. assert (CV : forall is', covered is' -> In i is' -> (forall j, In j (cl is') -> In j (memory_ins cd no_errors anc is)) -> q < B).
    { intros is' CV J SUB. destruct (CV i q J Q) as (j & K & M). apply (IN j); auto. }
    unfold memory_ins in I. cbv zeta in I. fold l in I.
    assert (SUB : forall is', (forall j, In j is' -> In j (memory_ins cd e anc is)) -> forall j, In j (cl is') -> In j (memory_ins cd no_errors anc is)).
    { intros is' S j J. rewrite <- cl_memory with (e := e). unfold cl in *. apply filter_In in J as [J K]. apply filter_In. split; auto. }
    apply in_app_iff in I as [I|I]; [apply (CV _ (covered_logicals l e anc is) I), SUB; intros j J; unfold memory_ins; cbv zeta; rewrite !in_app_iff; auto|].
    apply in_app_iff in I as [I|I]; [apply (CV _ (covered_stabs l e false) I), SUB; intros j J; unfold memory_ins; cbv zeta; rewrite !in_app_iff; auto|].
    apply in_app_iff in I as [I|I]; [|apply (CV _ (covered_logicals l e anc is) I), SUB; intros j J; unfold memory_ins; cbv zeta; rewrite !in_app_iff; auto].
    apply in_flat_map in I as (b & Ib & I). apply in_app_iff in I as [I|I].
    - apply in_flat_map in I as (v & Iv & I). apply BD. replace q with (eqn l v) by
        (unfold noise_at in I; apply in_app_iff in I as [I|I];
         [destruct (data_pauli e (eq_of l v)) as [[[x y] z]|]; [|destruct I]; destruct I as [<-|[]]; apply (flt_acts [_; _; _] q [_]) in Q; destruct Q as [<-|[]]; auto
         |destruct (data_erase e (eq_of l v)) as [p|]; [|destruct I]; destruct I as [<-|[]]; apply (flt_acts [_] q [_]) in Q; destruct Q as [<-|[]]; auto]). apply eqn_data_lt; auto.
    - apply (CV _ (covered_stabs l e b) I), SUB. intros j J. unfold memory_ins. cbv zeta. rewrite !in_app_iff. right. right. left. apply in_flat_map. exists b. split; auto. apply in_app_iff; auto. }
  assert (LE : A <= B).
  { destruct (le_lt_dec A 1) as [H|H]; [specialize (P (map ins_gate (memory_ins cd no_errors anc is))); fold B in P; lia|]. apply nq_least in H as (gt & H1 & H2). fold A in H2.
    apply in_map_iff in H1 as (i & <- & I). specialize (ALL i _ I H2). lia. }
  assert (GE : B <= A).
  { destruct (le_lt_dec B 1) as [H|H]; [specialize (P (map ins_gate (memory_ins cd e anc is))); fold A in P; lia|]. apply nq_least in H as (gt & H1 & H2). fold B in H2.
    apply in_map_iff in H1 as (i & <- & I). assert (I' : In i (memory_ins cd e anc is)) by (rewrite <- cl_memory with (e := e) in I; apply filter_In in I; tauto).
    assert (X : B - 1 < A) by (unfold A; apply (nq_bound _ (ins_gate i)); auto; apply in_map; auto). lia. }
  lia.
Qed.

(** * Flipped results *)
Lemma flipped_len fl : forall ms, List.length (flipped ms fl) = List.length fl.
Proof. induction fl as [|f fl IH]; intros ms; auto. cbn. rewrite IH. auto. Qed.
Lemma flipped_nth : forall fl ms i, List.length ms = List.length fl -> nth i (flipped ms fl) false = xorb (nth i ms false) (nth i fl false).
Proof.
  induction fl as [|f fl IH]; intros [|m ms] i L; try discriminate L; [destruct i; auto|]. injection L as L. cbn [flipped hd tl]. destruct i; auto. cbn [nth]. auto.
Qed.
Lemma fold_xor_pair {A} (f g : A -> bool) w : fold_right xorb false (map (fun j => xorb (f j) (g j)) w) = xorb (fold_right xorb false (map f w)) (fold_right xorb false (map g w)).
Proof. induction w as [|x w IH]; auto. cbn [map fold_right]. rewrite IH. destruct (f x), (g x), (fold_right xorb false (map f w)), (fold_right xorb false (map g w)); auto. Qed.
Lemma flipped_parity ms fl a w : List.length ms = List.length fl -> block_parity (flipped ms fl) a w = xorb (block_parity ms a w) (block_parity fl a w).
Proof. intros L. unfold block_parity. rewrite <- fold_xor_pair. f_equal. apply map_ext. intros. apply flipped_nth; auto. Qed.
Definition xor_rows (a b : list (list bool)) : list (list bool) := map (fun p => xor_vec (fst p) (snd p)) (combine a b).
Lemma xor_rows_map {A} (f g : A -> list bool) l : xor_rows (map f l) (map g l) = map (fun x => xor_vec (f x) (g x)) l.
Proof. unfold xor_rows. induction l as [|a l IH]; auto. cbn [map combine fst snd]. rewrite IH. auto. Qed.
Lemma xor4 a b c d : xorb (xorb a b) (xorb c d) = xorb (xorb a c) (xorb b d). Proof. destruct a, b, c, d; auto. Qed.
Lemma flipped_unpacked k w ns R ms fl sm sf s : List.length ms = List.length fl -> unpacked k w ns R ms sm -> unpacked k w ns R fl sf -> unpacked k w ns R (flipped ms fl) s ->
  sm_syndrome s = xor_rows (sm_syndrome sm) (sm_syndrome sf) /\ sm_toggle s = xor_vec (sm_toggle sm) (sm_toggle sf).
Proof.
  intros L [_ _ T1 _ S1] [_ _ T2 _ S2] [_ _ T3 _ S3]. rewrite T1, T2, T3, S1, S2, S3. split.
  - rewrite xor_rows_map. apply map_ext. intros t. rewrite xor_vec_map. apply map_ext. intros j. rewrite !flipped_nth by auto. apply xor4.
  - rewrite xor_vec_map. apply map_ext. intros i. rewrite !flipped_parity by auto. apply xor4.
Qed.
Lemma xor_zero : forall l, xor_vec (repeat false (List.length l)) l = l.
Proof. induction l as [|b l IH]; auto. unfold xor_vec in *. cbn [List.length repeat combine map fst snd]. rewrite IH. destruct b; auto. Qed.
Lemma xor_rows_zero ns : forall l, (forall r, In r l -> List.length r = ns) -> xor_rows (repeat (repeat false ns) (List.length l)) l = l.
Proof.
  induction l as [|r l IH]; intros H; auto. unfold xor_rows in *. cbn [List.length repeat combine map fst snd]. rewrite IH by (intros; apply H; right; auto). f_equal. rewrite <- (H r) by (left; auto). apply xor_zero.
Qed.
Definition read_off (cd : CodesModel.code) (anc : bool) (G : list (list bool) -> list bool -> option (list (list bool)) -> Q) (ms es : list bool) : Q :=
  match from_code_and_raw_results cd ms (match es with [] => None | fs => Some fs end) anc with Ok sm => G (sm_syndrome sm) (sm_toggle sm) (sm_erased sm) | Err _ => 0%Q end.
Definition shifted cd anc G fl es (syn : list (list bool)) (tog : list bool) (_ : option (list (list bool))) : Q :=
  read_off cd anc (fun s t er => G (xor_rows syn s) (xor_vec tog t) er) fl es.

(** * Numbers of results *)
Lemma exp_lengths n es is : forall k f f', forallb ins_clean is = true ->
  (forall v ms, List.length ms = k + List.length (flat_map im is) -> (f v ms es == f' v ms es)%Q) ->
  forall v ms, List.length ms = k -> (expected n (map item_of is) f v ms es == expected n (map item_of is) f' v ms es)%Q.
Proof.
  induction is as [|i is IH]; intros k f f' C H v ms L.
  - cbn. apply H. cbn. lia.
  - cbn [forallb] in C. apply andb_true_iff in C as [C CS]. destruct i; try discriminate C; cbn [map item_of expected].
    + rewrite !exp_IR. cbv beta. apply sum_ext. intros m _. apply Qmult_comp; [reflexivity|]. apply (IH k); auto.
    + rewrite !exp_IHd. cbv beta. apply (IH k); auto.
    + rewrite !exp_IC. cbv beta. apply (IH k); auto.
    + rewrite !exp_IM. cbv beta. cbn [flat_map im app List.length] in H.
      apply sum_ext. intros m _. apply Qmult_comp; [reflexivity|]. apply (IH (S k)); auto; [intros; apply H; lia|]. rewrite app_length; cbn; lia.
Qed.
Lemma stream_unif N m ds k : In ds (sequences N m) -> forall j, (0 <= d_unif (stream k ds j) /\ d_unif (stream k ds j) < 1)%Q.
Proof.
  intros H j. unfold stream. assert (A : forall d, In d ds -> (0 <= d_unif d /\ d_unif d < 1)%Q).
  { revert ds H. induction m as [|m IH]; intros ds H; cbn [sequences] in H; [destruct H as [<-|[]]; intros d []|].
    apply in_flat_map in H as (d0 & I0 & H). apply in_map_iff in H as (ds' & <- & H). intros d [<-|I]; [|apply (IH ds' H d I)].
    unfold draws in I0. apply in_flat_map in I0 as (b & _ & I0). apply in_flat_map in I0 as (z & _ & I0). apply in_map_iff in I0 as (i & <- & I0). apply in_seq in I0. cbn [d_unif].
    unfold Qle, Qlt. cbn. lia. }
  destruct (nth_in_or_default (j - k) ds (mkDraw false 0 0)) as [I| ->]; auto. cbn. split; [apply Qle_refl|reflexivity].
Qed.

Lemma lengths_ok cd anc ms er sm R : c_rounds cd = Z.of_nat R -> 0 < n_logical_qubits (c_ops cd) -> 0 < block_width cd anc -> 0 < n_stabgens (c_ops cd) ->
  from_code_and_raw_results cd ms er anc = Ok sm ->
  List.length ms = 2 * (n_logical_qubits (c_ops cd) * block_width cd anc) + (R + 1) * n_stabgens (c_ops cd) /\
  unpacked (n_logical_qubits (c_ops cd)) (block_width cd anc) (n_stabgens (c_ops cd)) R ms sm.
Proof.
  intros HR K W N H. assert (L : List.length ms = 2 * (n_logical_qubits (c_ops cd) * block_width cd anc) + (R + 1) * n_stabgens (c_ops cd) /\ match er with Some f => List.length f = R * n_data_qubits (c_ops cd) | None => True end).
  { assert (B := unpack_bad cd R er anc ms HR K W N). cbv zeta in B. split.
    - destruct (Nat.eq_dec (List.length ms) (2 * (n_logical_qubits (c_ops cd) * block_width cd anc) + (R + 1) * n_stabgens (c_ops cd))) as [E|E]; auto. rewrite B in H by auto. discriminate.
    - destruct er as [f|]; auto. destruct (Nat.eq_dec (List.length f) (R * n_data_qubits (c_ops cd))) as [E|E]; auto. rewrite B in H by eauto. discriminate. }
  destruct L as [L LE]. split; auto. destruct (unpack_ok cd R er anc ms HR K W L LE) as (sm' & E & U & _). rewrite E in H. injection H as <-. exact U.
Qed.
Lemma shift_ok cd anc G ms fl es R : c_rounds cd = Z.of_nat R -> 0 < n_logical_qubits (c_ops cd) -> 0 < block_width cd anc -> 0 < n_stabgens (c_ops cd) ->
  List.length ms = 2 * (n_logical_qubits (c_ops cd) * block_width cd anc) + (R + 1) * n_stabgens (c_ops cd) ->
  (read_off cd anc G (flipped ms fl) es == read_off cd anc (shifted cd anc G fl es) ms [])%Q.
Proof.
  intros HR K W N L. unfold read_off at 2. destruct (unpack_ok cd R None anc ms HR K W L I) as (sm & EM & UM & _). rewrite EM. unfold shifted, read_off.
  set (er := match es with [] => None | _ => Some es end). assert (Eer : forall (X : option (list bool) -> Q), X (match es with [] => None | _ :: _ => Some es end) = X er) by auto.
  destruct (from_code_and_raw_results cd fl er anc) as [sf|x] eqn:EF.
  - destruct (lengths_ok cd anc fl er sf R HR K W N EF) as [LF UF].
    assert (LE : match er with Some f => List.length f = R * n_data_qubits (c_ops cd) | None => True end).
    { destruct er as [f|]; auto. assert (B := unpack_bad cd R (Some f) anc fl HR K W N). cbv zeta in B. destruct (Nat.eq_dec (List.length f) (R * n_data_qubits (c_ops cd))) as [E|E]; auto. rewrite B in EF by eauto. discriminate. }
    assert (LX : List.length (flipped ms fl) = 2 * (n_logical_qubits (c_ops cd) * block_width cd anc) + (R + 1) * n_stabgens (c_ops cd)) by (rewrite flipped_len; auto).
    destruct (unpack_ok cd R er anc (flipped ms fl) HR K W LX LE) as (s & ES & US & XE). rewrite ES.
    destruct (unpack_ok cd R er anc fl HR K W LF LE) as (sf' & EF' & _ & XE'). rewrite EF in EF'. injection EF' as <-. rewrite XE, XE'.
    assert (LL : List.length ms = List.length fl) by congruence.
    destruct (flipped_unpacked _ _ _ _ _ _ _ _ _ LL UM UF US) as [-> ->]. reflexivity.
  - destruct (from_code_and_raw_results cd (flipped ms fl) er anc) as [s|x'] eqn:ES; [|reflexivity]. exfalso.
    destruct (lengths_ok cd anc _ er s R HR K W N ES) as [LX _]. rewrite flipped_len in LX.
    assert (LE : match er with Some f => List.length f = R * n_data_qubits (c_ops cd) | None => True end).
    { destruct er as [f|]; auto. assert (B := unpack_bad cd R (Some f) anc (flipped ms fl) HR K W N). cbv zeta in B. destruct (Nat.eq_dec (List.length f) (R * n_data_qubits (c_ops cd))) as [E|E]; auto. rewrite B in ES by eauto. discriminate. }
    destruct (unpack_ok cd R er anc fl HR K W LX LE) as (sf & EF' & _). congruence.
Qed.
Lemma shift_none cd anc G fl es R k : c_rounds cd = Z.of_nat R -> k = n_logical_qubits (c_ops cd) -> 0 < n_logical_qubits (c_ops cd) -> 0 < block_width cd anc -> 0 < n_stabgens (c_ops cd) ->
  (shifted cd anc G fl es (repeat (repeat false (n_stabgens (c_ops cd))) R) (repeat false k) None == read_off cd anc G fl es)%Q.
Proof.
  intros HR -> K W N. unfold shifted, read_off. destruct (from_code_and_raw_results cd fl _ anc) as [sf|x] eqn:EF; [|reflexivity].
  destruct (lengths_ok cd anc fl _ sf R HR K W N EF) as [LF [_ _ T1 _ S1]].
  assert (LS : List.length (sm_syndrome sf) = R) by (rewrite S1, map_length, seq_length; auto).
  assert (LT : List.length (sm_toggle sf) = n_logical_qubits (c_ops cd)) by (rewrite T1, map_length, seq_length; auto).
  rewrite <- LS at 1. rewrite xor_rows_zero by (intros r I; rewrite S1 in I; apply in_map_iff in I as (t & <- & _); rewrite map_length, seq_length; auto).
  rewrite <- LT. rewrite xor_zero. reflexivity.
Qed.

(** * Experiments *)
Lemma silent_shift cd x is anc G fl es : experiment_code cd -> (1 <= c_rounds cd)%Z ->
  logical_ops_to_indices (c_ops cd) x = Ok is -> compatible is -> anc = true \/ readable cd is ->
  (expected (number_of_qubits (map ins_gate (memory_ins cd no_errors anc is))) (map item_of (memory_ins cd no_errors anc is))
     (fun _ ms _ => read_off cd anc G (flipped ms fl) es) ket0 [] [] == read_off cd anc G fl es)%Q.
Proof.
  intros XC HR EI CP RD. set (n := number_of_qubits _).
  assert (NE : named_errors (n_data_qubits (c_ops cd)) (n_stabgens (c_ops cd)) no_errors) by (split; intros ? * []).
  assert (PR : probabilities no_errors) by (split; intros ? * []).
  assert (NG : no_gate_errors no_errors) by (repeat split).
  assert (GE : on_grid_errors 1 no_errors) by (split; [|split]; intros q p k y []).
  destruct (C28_widths cd XC) as (K & N & W). specialize (W anc). set (R := Z.to_nat (c_rounds cd)). assert (ER : c_rounds cd = Z.of_nat R) by (unfold R; lia).
  destruct (indices_ok _ _ _ EI) as [LI HI].
  assert (HI' : forall i, In i is -> i < List.length (l_logicals (c_lattice cd))).
  { intros i I. specialize (HI i I). destruct (xc_rows cd XC) as (_ & E & _). rewrite E, map_length in HI. auto. }
  assert (CO := compatible_commute cd is XC HI CP). assert (GEN := exp_generate cd no_errors x is anc XC NE PR EI CP).
  assert (LM : List.length (flat_map im (memory_ins cd no_errors anc is)) = 2 * (n_logical_qubits (c_ops cd) * block_width cd anc) + (R + 1) * n_stabgens (c_ops cd)).
  { destruct (C29_noise_free cd x is anc g0 (sim_init [] 0) XC HR EI CP RD) as (sm & H & _); [exact g0_unif|].
    unfold memory_experiment in H. rewrite GEN in H. cbn [bindR] in H. destruct (sim_run g0 _ true _) as [s|] eqn:RUN; [|discriminate]. cbn [bindR] in H.
    apply (lengths_ok cd anc _ _ sm R ER K W N) in H as [H _]. rewrite <- H.
    destruct (memory_run cd no_errors anc x _ g0 (sim_init [] 0) s XC GEN) as (is' & v & EI' & _ & IR & _); auto; [exact g0_unif|].
    assert (is' = is) by congruence. subst is'. apply irun_len in IR as [L _]. auto. }
  rewrite (exp_lengths n [] _ 0 _ (fun _ ms es' => read_off cd anc (shifted cd anc G fl es) ms es')); auto.
  - assert (M := memory_expected cd no_errors anc is (shifted cd anc G fl es) XC NG HR LI HI' CO RD (or_introl eq_refl)). cbv zeta in M. fold n in M. unfold read_off at 1. rewrite M. clear M.
    rewrite <- (memory_distribution 1 cd no_errors x is anc (sim_init [] 0) (calls (map ins_gate (memory_ins cd no_errors anc is))) (shifted cd anc G fl es)); auto.
    + rewrite (mean_ext _ _ (fun _ => read_off cd anc G fl es)); [apply mean_const, sequences_nonempty|]. intros ds I.
      destruct (C29_noise_free cd x is anc (stream (s_k (sim_init [] 0)) ds) (sim_init [] 0) XC HR EI CP RD) as (sm & -> & -> & -> & ->); [apply (stream_unif _ _ _ _ I)|].
      apply shift_none; auto.
    + intros c' H. rewrite GEN in H. injection H as <-. auto.
  - rewrite <- (cl_memory cd no_errors). unfold cl. apply forallb_forall. intros i I. apply filter_In in I. tauto.
  - intros v ms L. apply (shift_ok cd anc G ms fl es R); auto. rewrite L, LM. auto.
Qed.
Lemma usable_ins N i : ins_valid i -> Forall (on_grid N) (instruction_chances (ins_gate i)) -> usable N [item_of i].
Proof.
  intros V GI. unfold usable. constructor; [|constructor]. destruct i; cbn [item_of ins_gate ins_valid] in *.
  - split; [apply (vg_plain "R" [q]); cbn; tauto|constructor].
  - split; [apply (vg_plain "H" [q]); cbn; tauto|constructor].
  - split; [apply (vg_pairs _ [(a, d)]); [destruct p; cbn; tauto|repeat constructor; auto]|destruct p; constructor].
  - split; [apply (vg_plain "M" [q]); cbn; tauto|constructor].
  - destruct V as (A & B & C' & D'). split.
    + apply (vg_pauli [AFlt x; AFlt y; AFlt z] [x; y; z]); auto. apply (prob_args [x; y; z]).
    + exact GI.
  - split; [apply (vg_erase (AFlt p) p); constructor|]. exact GI.
  - cbn in GI. inversion GI; subst. constructor; [|constructor]. split; [auto|]. constructor; [|constructor]. split; [apply (vg_plain "X" [q]); cbn; tauto|constructor].
  - destruct V as (A & B & C'). assert (VG : valid_gate "E_PAULI2" (map AFlt ps ++ [qa a; qa d])) by (apply (vg_pauli2 (map AFlt ps) ps); auto; apply prob_args). split; [exact VG|].
    rewrite <- (valid_chances _ _ VG). exact GI.
Qed.
Theorem memory_frames N cd e x is anc s0 m (G : list (list bool) -> list bool -> option (list (list bool)) -> Q) :
  experiment_code cd -> named_errors (n_data_qubits (c_ops cd)) (n_stabgens (c_ops cd)) e -> probabilities e ->
  (1 <= c_rounds cd)%Z -> logical_ops_to_indices (c_ops cd) x = Ok is -> compatible is -> anc = true \/ readable cd is ->
  (forall c, generate_qec_circuit cd e x anc = Ok c -> calls c <= m /\ Forall (fun gt => Forall (on_grid N) (instruction_chances gt)) c) ->
  let items := map item_of (memory_ins cd e anc is) in
  generate_qec_circuit cd e x anc = Ok (text items) /\ generate_qec_circuit cd no_errors x anc = Ok (text (noiseless items)) /\ usable N items /\ only_errors items /\
  (mean (sequences N m) (fun ds =>
     match memory_experiment (stream (s_k s0) ds) s0 cd e x anc with Ok sm => G (sm_syndrome sm) (sm_toggle sm) (sm_erased sm) | Err _ => 0 end) ==
   framed items (fun _ fl es => read_off cd anc G fl es) (no_frame (number_of_qubits (text items))) [] [])%Q.
Proof.
  intros XC NE PR HR EI CP RD LM items. assert (GEN := exp_generate cd e x is anc XC NE PR EI CP). destruct (LM _ GEN) as [LC GR].
  assert (NE0 : named_errors (n_data_qubits (c_ops cd)) (n_stabgens (c_ops cd)) no_errors) by (split; intros ? * []).
  assert (PR0 : probabilities no_errors) by (split; intros ? * []).
  assert (GEN0 := exp_generate cd no_errors x is anc XC NE0 PR0 EI CP).
  assert (XC' := XC). destruct XC' as [C XI _ _ _ _].
  assert (V := memory_valid e PR cd anc is C XI).
  assert (U : usable N items).
  { unfold items. unfold usable. apply Forall_map, Forall_forall. intros i I. rewrite Forall_forall in V, GR. specialize (V i I). specialize (GR _ (in_map ins_gate _ _ I)).
    assert (X := usable_ins N i V GR). unfold usable in X. inversion X; subst. auto. }
  assert (ON : only_errors items).
  { unfold items, only_errors. apply Forall_map, Forall_forall. intros i _. destruct i; cbn [item_of]; auto. constructor; [|constructor]. constructor; [|constructor]. cbn. auto. }
  split; [unfold items; rewrite text_items; auto|]. split; [unfold items; rewrite noiseless_items, cl_memory, text_items; auto|]. split; [auto|]. split; [auto|].
  assert (LC' : calls (text items) <= m) by (unfold items; rewrite text_items; auto).
  transitivity (mean (sequences N m) (fun l => match sim_run (stream (s_k s0) l) (text items) true s0 with Ok s => read_off cd anc G (s_meas s) (s_eras s) | Err _ => 0 end)%Q).
  { apply mean_ext. intros ds _. unfold memory_experiment. rewrite GEN. cbn [bindR]. unfold items. rewrite text_items.
    destruct (sim_run _ _ true s0) as [s|]; [|reflexivity]. cbn [bindR]. unfold process_results, read_off. cbn [fst snd]. destruct (s_eras s); reflexivity. }
  assert (DI := distribution N items m (read_off cd anc G) s0 U LC'). cbv zeta in DI. rewrite DI. clear DI.
  set (n := number_of_qubits (text items)).
  assert (VI : Forall valid_item items).
  { unfold usable in U. rewrite Forall_forall in U |- *. intros it I. specialize (U it I). destruct it as [gt|b bs]; cbn [valid_item] in *; [apply U|]. rewrite Forall_forall in *. intros b' Ib. destruct (U b' Ib) as [_ Z]. rewrite Forall_forall in *. intros gt Ig. apply (Z gt Ig). }
  assert (RI : Forall (item_range n) items) by (apply range_items; auto).
  rewrite (frames n (read_off cd anc G) items ket0 VI ON RI).
  apply (framed_good n items VI ON RI). intros fl es.
  unfold items. rewrite noiseless_items, cl_memory.
  replace n with (number_of_qubits (map ins_gate (memory_ins cd no_errors anc is))) by (unfold n, items; rewrite text_items; symmetry; apply same_qubits; auto).
  apply (silent_shift cd x); auto.
Qed.
