(** Lemmas: the text the generator writes. *)
Require Import List Bool Arith ZArith QArith Lia String Ascii.
From Verif Require Import Base BaseProofs QSpec PauliModel CircuitModel SimSpec LatticeModel LatticeSpec CodesModel GeneratorModel StabTrack RoundProofs MemoryProofs.
Import ListNotations.
Local Open Scope string_scope.
Local Open Scope nat_scope.
Local Open Scope list_scope.

(** The method appends exactly the instructions [is]; it raises no exception if [ok]. *)
Definition gspec (g : gen) (ok : Prop) (is : list ins) : Prop :=
  (forall c c', g c = Ok c' -> c' = c ++ map ins_gate is) /\ (ok -> forall c, g c = Ok (c ++ map ins_gate is)).
Lemma gspec_imp g (ok ok' : Prop) is is' : gspec g ok is -> (ok' -> ok) -> is = is' -> gspec g ok' is'.
Proof. intros [A B] H <-. split; auto. Qed.
Lemma gspec_skip : gspec skipG True [].
Proof. split; intros; unfold skipG in *; cbn [map]; rewrite List.app_nil_r. { injection H as <-; auto. } auto. Qed.
Lemma gspec_seq a b oka okb ia ib : gspec a oka ia -> gspec b okb ib -> gspec (a ;> b) (oka /\ okb) (ia ++ ib).
Proof.
  intros [A1 A2] [B1 B2]. split; unfold seqG.
  - intros c c' E. destruct (a c) as [c1|] eqn:Ea; cbn in E; [|discriminate]. apply A1 in Ea. apply B1 in E. subst. rewrite map_app, app_assoc. auto.
  - intros [Oa Ob] c. rewrite A2 by auto. cbn. rewrite B2 by auto. rewrite map_app, app_assoc. auto.
Qed.
Lemma gspec_for {A} (f : A -> gen) ok is xs : (forall x, In x xs -> gspec (f x) (ok x) (is x)) -> gspec (forG f xs) (forall x, In x xs -> ok x) (flat_map is xs).
Proof.
  induction xs as [|x xs IH]; intros H.
  - exact (gspec_imp _ _ _ _ _ gspec_skip (fun _ => I) eq_refl).
  - assert (S : gspec (f x ;> forG f xs) (ok x /\ (forall y, In y xs -> ok y)) (is x ++ flat_map is xs)).
    { apply gspec_seq. apply H; left; auto. apply IH. intros; apply H; right; auto. }
    destruct S as [S1 S2]. split.
    + exact S1.
    + intros O. apply S2. split; [apply O; left; auto|intros; apply O; right; auto].
Qed.
Lemma gspec_fail e is : gspec (fun _ => Err e) False is.
Proof. split; [discriminate|tauto]. Qed.

Definition qn (q : option nat) : nat := match q with Some q => q | None => 0 end.
Definition is_idx (q : option nat) : Prop := q <> None.

Lemma emit_spec name ps qs args : 
  (forall zs, make_gate (fun _ => None) name (ps ++ map RInt zs) = Ok (name, args (map AInt zs))) ->
  forall c, (forall c', emit name ps qs c = Ok c' -> c' = c ++ [(name, args (map (fun q => qa (qn q)) qs))]) /\
            (Forall is_idx qs -> emit name ps qs c = Ok (c ++ [(name, args (map (fun q => qa (qn q)) qs))])).
Proof.
  intros H c. unfold emit, append.
  assert (M : forall rs, mapR qarg qs = Ok rs -> rs = map RInt (map (fun q => Z.of_nat (qn q)) qs) /\ Forall is_idx qs).
  { induction qs as [|q qs IH]; cbn; intros rs E; [injection E as <-; auto|]. destruct q as [q|]; cbn in E; [|discriminate].
    destruct (mapR qarg qs) as [rs'|]; cbn in E; [|discriminate]. injection E as <-. destruct (IH rs' eq_refl) as [-> F].
    split; auto. constructor; auto. discriminate. }
  assert (M2 : Forall is_idx qs -> mapR qarg qs = Ok (map RInt (map (fun q => Z.of_nat (qn q)) qs))).
  { induction 1 as [|q qs Hq F IH]; cbn; auto. destruct q as [q|]; [|elim Hq; auto]. cbn. rewrite IH; auto.
    intros rs E. clear - E. revert rs E. induction qs as [|q' qs IHq]; cbn; intros rs E; [injection E as <-; auto|]. destruct q' as [q'|]; cbn in E; [|discriminate].
    destruct (mapR qarg qs) as [rs'|]; cbn in E; [|discriminate]. injection E as <-. destruct (IHq rs' eq_refl) as [-> F']. split; auto. constructor; auto. discriminate. }
  assert (MA : map AInt (map (fun q => Z.of_nat (qn q)) qs) = map (fun q => qa (qn q)) qs) by (rewrite map_map; auto).
  split.
  - intros c' E. destruct (mapR qarg qs) as [rs|] eqn:Q; cbn in E; [|discriminate]. destruct (M rs eq_refl) as [-> _]. rewrite H in E. cbn in E. rewrite MA in E. injection E as <-; auto.
  - intros F. rewrite M2 by auto. cbn. rewrite H. cbn. rewrite MA. auto.
Qed.
Lemma map_to_int zs : mapR to_int (map RInt zs) = Ok zs.
Proof. induction zs as [|z zs IH]; cbn; auto. rewrite IH. auto. Qed.

(** * Parts of the circuit *)
Definition gate_pauli (d : dict1) (with_errors : bool) (q : option nat) : list ins :=
  if with_errors then match get1 d q with Some p => [IPauli (pget "x" p) (pget "y" p) (pget "z" p) (qn q)] | None => [] end else [].
Definition gate_pauli2 (d : dict2) (with_errors : bool) (a q : option nat) : list ins :=
  if with_errors then match get2 d a q with Some p => [IPauli2 (map (fun k => pget k p) pauli2_order) (qn a) (qn q)] | None => [] end else [].
Definition data_pauli (e : errors) (q : option nat) : option (Q * Q * Q) :=
  match get1 (er_pauli e) q with Some ((_ :: _) as p) => Some (pget "x" p, pget "y" p, pget "z" p) | _ => None end.
Definition data_erase (e : errors) (q : option nat) : option Q :=
  match get1 (er_erasure e) q with Some ((_ :: _) as p) => Some (pget "p" p) | _ => None end.
Definition meas_entry (e : errors) (q : option nat) : option Q :=
  match get1 (er_measurement e) q with
  | Some ((_ :: _) as p) => match find (fun kv => String.eqb (fst kv) "p") p with Some kv => Some (snd kv) | None => None end
  | _ => None
  end.
(** The measurement error probabilities are probabilities. *)
Definition meas_valid (e : errors) (q : option nat) : Prop :=
  match get1 (er_measurement e) q with
  | Some ((_ :: _) as p) => match find (fun kv => String.eqb (fst kv) "p") p with Some kv => (0 <= snd kv <= 1)%Q | None => False end
  | _ => True
  end.

Lemma one_gate name q i : mem_str name ["R"; "H"; "M"] = true -> ins_gate i = (name, [qa (qn q)]) -> gspec (emit name [] [q]) (is_idx q) [i].
Proof.
  intros Hn Hi.
  assert (E : forall zs, make_gate (fun _ => None) name ([] ++ map RInt zs) = Ok (name, map AInt zs)).
  { intros zs. cbn [app]. cbn in Hn. destruct (String.eqb_spec name "R"), (String.eqb_spec name "H"), (String.eqb_spec name "M"); subst; try discriminate;
      unfold make_gate; cbn [String.eqb Ascii.eqb Bool.eqb orb mem_str deterministic_gates existsb]; rewrite map_to_int; auto. }
  split.
  - intros c c' H. apply (emit_spec name [] [q] (fun x => x) E) in H. cbn [map] in *. rewrite Hi. auto.
  - intros O c. cbn [map]. rewrite Hi. apply (emit_spec name [] [q] (fun x => x) E). repeat constructor. auto.
Qed.
Lemma two_gate p a q : gspec (emit (match p with FX => "CX" | _ => "CZ" end) [] [a; q]) (is_idx a /\ is_idx q) [IC p (qn a) (qn q)].
Proof.
  assert (E : forall zs, make_gate (fun _ => None) (match p with FX => "CX" | _ => "CZ" end) ([] ++ map RInt zs) = Ok (match p with FX => "CX" | _ => "CZ" end, map AInt zs)).
  { intros zs. cbn [app]. destruct p; unfold make_gate; cbn [String.eqb Ascii.eqb Bool.eqb orb mem_str deterministic_gates existsb]; rewrite map_to_int; auto. }
  split.
  - intros c c' H. apply (emit_spec _ [] [a; q] (fun x => x) E) in H. exact H.
  - intros [O1 O2] c. apply (emit_spec _ [] [a; q] (fun x => x) E). repeat constructor; auto.
Qed.
Lemma pauli_emit x y z q : gspec (emit "E_PAULI" [RFlt x; RFlt y; RFlt z] [q]) (is_idx q) [IPauli x y z (qn q)].
Proof.
  split; [intros c c' H|intros O c]; unfold emit, append in *; destruct q as [q|]; cbn in *; try discriminate.
  - injection H as <-. auto.
  - auto.
  - elim O; auto.
Qed.
Lemma erase_emit p q : gspec (emit "E_ERASE" [RFlt p] [q]) (is_idx q) [IErase p (qn q)].
Proof.
  split; [intros c c' H|intros O c]; unfold emit, append in *; destruct q as [q|]; cbn in *; try discriminate.
  - injection H as <-. auto.
  - auto.
  - elim O; auto.
Qed.
Lemma flip_emit p q : gspec (emit "ERROR" [RFlt p; RStr "X"] [q]) (is_idx q /\ (0 <= p <= 1)%Q) [IFlip p (qn q)].
Proof.
  split; [intros c c' H|intros [O [P1 P2]] c]; unfold emit, append in *; destruct q as [q|]; cbn [mapR qarg bindR app] in *; try discriminate.
  - unfold make_gate in H. cbn [String.eqb Ascii.eqb Bool.eqb orb to_float bindR] in H. destruct (negb _); cbn in H; [discriminate|]. injection H as <-. auto.
  - unfold make_gate. cbn [String.eqb Ascii.eqb Bool.eqb orb to_float bindR]. apply Qle_bool_iff in P1, P2. rewrite P1, P2. cbn. auto.
  - elim O; auto.
Qed.
Lemma pauli2_emit (f : string -> Q) a q : gspec (emit "E_PAULI2" (map (fun k => RFlt (f k)) pauli2_order) [a; q]) (is_idx a /\ is_idx q) [IPauli2 (map f pauli2_order) (qn a) (qn q)].
Proof.
  split; [intros c c' H|intros [O1 O2] c]; unfold emit, append in *; destruct a as [a|], q as [q|]; cbn in *; try discriminate.
  - injection H as <-. auto.
  - auto.
  - elim O2; auto.
  - elim O1; auto.
  - elim O1; auto.
Qed.

Definition op_of (l : lattice) (o : nat) : option nat := eq_of l o.
(** The instructions of one data qubit, of one gate, of the ancillas. *)
Definition noise_at (e : errors) (q : option nat) : list ins := pauli_ins (data_pauli e q) (qn q) ++ erase_ins (data_erase e q) (qn q).
Lemma get1_idx d q p : get1 d q = Some p -> is_idx q.
Proof. destruct q; cbn; [intros _ X; discriminate|discriminate]. Qed.
Lemma dataqubit_error_spec l e v : gspec (dataqubit_error l e v) True (noise_at e (eq_of l v)).
Proof.
  unfold dataqubit_error, noise_at. eapply gspec_imp with (ok := True /\ True); [apply gspec_seq|tauto|reflexivity].
  - unfold data_pauli. destruct (get1 (er_pauli e) (eq_of l v)) as [[|kv p]|] eqn:E; try apply gspec_skip. cbn [pauli_ins].
    eapply gspec_imp; [apply pauli_emit| |reflexivity]. intros _. eapply get1_idx; eauto.
  - unfold data_erase. destruct (get1 (er_erasure e) (eq_of l v)) as [[|kv p]|] eqn:E; try apply gspec_skip. cbn [erase_ins].
    eapply gspec_imp; [apply erase_emit| |reflexivity]. intros _. eapply get1_idx; eauto.
Qed.
Lemma apply_dataqubit_errors_spec l e : gspec (apply_dataqubit_errors l e) True (flat_map (fun v => noise_at e (eq_of l v)) (l_data l)).
Proof.
  eapply gspec_imp; [apply gspec_for; intros; apply dataqubit_error_spec|auto|auto].
Qed.
Lemma apply_measurement_error_spec l e o : gspec (apply_measurement_error l e o) (meas_valid e (eq_of l o)) (flip_ins (meas_entry e (eq_of l o)) (qn (eq_of l o))).
Proof.
  unfold apply_measurement_error, meas_entry, meas_valid. destruct (get1 (er_measurement e) (eq_of l o)) as [[|kv p]|] eqn:E; try (eapply gspec_imp; [apply gspec_skip|auto|auto]).
  destruct (find _ _) as [kv'|].
  - cbn [flip_ins]. eapply gspec_imp; [apply flip_emit| |reflexivity]. intros H. split; auto. eapply get1_idx; eauto.
  - eapply gspec_imp; [apply gspec_fail|auto|reflexivity].
Qed.
Lemma gate1_spec e name d i q we : mem_str name ["R"; "H"; "M"] = true -> ins_gate i = (name, [qa (qn q)]) ->
  get_gate_error e name q None = get1 d q ->
  gspec (apply_gate_and_error e name q None we) (is_idx q) (i :: gate_pauli d we q).
Proof.
  intros Hn Hi Hd. unfold apply_gate_and_error. change (i :: gate_pauli d we q) with ([i] ++ gate_pauli d we q).
  eapply gspec_imp with (ok := is_idx q /\ is_idx q); [apply gspec_seq; [apply (one_gate name q i Hn Hi)|]|tauto|reflexivity].
  destruct we; [|eapply gspec_imp; [apply gspec_skip|auto|reflexivity]].
  unfold apply_gate_error, gate_pauli. rewrite Hd. destruct (get1 d q) as [p|]; [|eapply gspec_imp; [apply gspec_skip|auto|reflexivity]].
  assert (M : mem_str name ["H"; "R"; "M"] = true).
  { cbn in *. destruct (String.eqb name "H"), (String.eqb name "R"), (String.eqb name "M"); auto. }
  rewrite M. apply pauli_emit.
Qed.
Lemma gR e q we : gspec (apply_gate_and_error e "R" q None we) (is_idx q) (IR (qn q) :: gate_pauli (er_R e) we q).
Proof. apply gate1_spec; reflexivity. Qed.
Lemma gH e q we : gspec (apply_gate_and_error e "H" q None we) (is_idx q) (IHd (qn q) :: gate_pauli (er_H e) we q).
Proof. apply gate1_spec; reflexivity. Qed.
Lemma gM e q we : gspec (apply_gate_and_error e "M" q None we) (is_idx q) (IM (qn q) :: gate_pauli (er_M e) we q).
Proof. apply gate1_spec; reflexivity. Qed.
Definition two_dict (e : errors) (p : factor) : dict2 := match p with FX => er_CX e | _ => er_CZ e end.
Lemma gate2_spec e p a q we :
  gspec (apply_gate_and_error e (match p with FX => "CX" | _ => "CZ" end) a (Some q) we) (is_idx a /\ is_idx q)
        (IC p (qn a) (qn q) :: gate_pauli2 (two_dict e p) we a q).
Proof.
  unfold apply_gate_and_error. change (IC p (qn a) (qn q) :: gate_pauli2 (two_dict e p) we a q) with ([IC p (qn a) (qn q)] ++ gate_pauli2 (two_dict e p) we a q).
  eapply gspec_imp with (ok := (is_idx a /\ is_idx q) /\ (is_idx a /\ is_idx q)); [apply gspec_seq; [apply two_gate|]|tauto|reflexivity].
  destruct we; [|eapply gspec_imp; [apply gspec_skip|auto|reflexivity]].
  unfold apply_gate_error, gate_pauli2.
  replace (get_gate_error e (match p with FX => "CX" | _ => "CZ" end) a (Some q)) with (get2 (two_dict e p) a q) by (destruct p; reflexivity).
  destruct (get2 (two_dict e p) a q) as [ps|]; [|eapply gspec_imp; [apply gspec_skip|auto|reflexivity]].
  replace (mem_str _ ["H"; "R"; "M"]) with false by (destruct p; reflexivity). replace (mem_str _ ["CZ"; "CX"]) with true by (destruct p; reflexivity).
  apply pauli2_emit.
Qed.
Definition edge_ins (l : lattice) (e : errors) (we : bool) (ed : edge) : list ins :=
  IC (e_factor ed) (qn (eq_of l (e_op ed))) (qn (eq_of l (e_data ed))) :: gate_pauli2 (two_dict e (e_factor ed)) we (eq_of l (e_op ed)) (eq_of l (e_data ed)).
Definition edge_ok (l : lattice) (ed : edge) : Prop := e_factor ed <> FY /\ is_idx (eq_of l (e_op ed)) /\ is_idx (eq_of l (e_data ed)).
Lemma edge_gate_spec l e y we ed : gspec (edge_gate l e y we ed) (edge_ok l ed) (edge_ins l e we ed).
Proof.
  unfold edge_gate, edge_ins, edge_ok. destruct (e_factor ed) eqn:F.
  - eapply gspec_imp; [apply (gate2_spec e FX)|tauto|reflexivity].
  - eapply gspec_imp; [apply gspec_fail|tauto|reflexivity].
  - eapply gspec_imp; [apply (gate2_spec e FZ)|tauto|reflexivity].
Qed.
Definition prep_ins (e : errors) (we : bool) (q : option nat) : list ins :=
  (IR (qn q) :: gate_pauli (er_R e) we q) ++ (IHd (qn q) :: gate_pauli (er_H e) we q).
Definition meas_flip (e : errors) (we : bool) (q : option nat) : option Q := if we then meas_entry e q else None.
Definition read_ins (e : errors) (we : bool) (q : option nat) : list ins :=
  (IHd (qn q) :: gate_pauli (er_H e) we q) ++ flip_ins (meas_flip e we q) (qn q) ++ (IM (qn q) :: gate_pauli (er_M e) we q).
Lemma prepare_ancilla_spec l e we o : gspec (prepare_ancilla l e we o) (is_idx (eq_of l o)) (prep_ins e we (eq_of l o)).
Proof.
  unfold prepare_ancilla, prep_ins. eapply gspec_imp; [apply gspec_seq; [apply gR|apply gH]|tauto|reflexivity].
Qed.
Lemma read_ancilla_spec l e we o : gspec (read_ancilla l e we o) (is_idx (eq_of l o) /\ (we = true -> meas_valid e (eq_of l o))) (read_ins e we (eq_of l o)).
Proof.
  unfold read_ancilla, read_ins. eapply gspec_imp with (ok := is_idx (eq_of l o) /\ (we = true -> meas_valid e (eq_of l o)) /\ is_idx (eq_of l o));
    [apply gspec_seq; [apply gH|apply gspec_seq; [|apply gM]]|tauto|reflexivity].
  destruct we; cbn [meas_flip].
  - eapply gspec_imp; [apply apply_measurement_error_spec|auto|reflexivity].
  - eapply gspec_imp; [apply gspec_skip|auto|reflexivity].
Qed.
Definition op_ins (l : lattice) (e : errors) (we : bool) (o : nat) : list ins :=
  prep_ins e we (eq_of l o) ++ flat_map (edge_ins l e we) (v_edges (l_heap l o)) ++ read_ins e we (eq_of l o).
Definition op_ok (l : lattice) (e : errors) (we : bool) (o : nat) : Prop :=
  is_idx (eq_of l o) /\ (forall ed, In ed (v_edges (l_heap l o)) -> edge_ok l ed) /\ (we = true -> meas_valid e (eq_of l o)).
Lemma measure_op_spec l e we o : gspec (measure_op l e o we) (op_ok l e we o) (op_ins l e we o).
Proof.
  unfold measure_op, op_ins, op_ok. eapply gspec_imp;
    [apply gspec_seq; [apply prepare_ancilla_spec|apply gspec_seq; [apply gspec_for; intros; apply edge_gate_spec|apply read_ancilla_spec]]|tauto|reflexivity].
Qed.
(** A logical operator read on the data qubits. *)
Definition data_ins (l : lattice) (ed : edge) : list ins :=
  let q := qn (eq_of l (e_data ed)) in match e_factor ed with FX => [IHd q; IM q] | _ => [IM q] end.
Definition data_ok (l : lattice) (ed : edge) : Prop := e_factor ed <> FY /\ is_idx (eq_of l (e_data ed)).
Lemma measure_data_spec l e ed : gspec (measure_data l e ed) (data_ok l ed) (data_ins l ed).
Proof.
  unfold measure_data, data_ins, data_ok. destruct (e_factor ed); cbv zeta.
  - change [IHd (qn (eq_of l (e_data ed))); IM (qn (eq_of l (e_data ed)))] with ([IHd (qn (eq_of l (e_data ed)))] ++ [IM (qn (eq_of l (e_data ed)))]).
    eapply gspec_imp; [apply gspec_seq; [exact (gH e (eq_of l (e_data ed)) false)|exact (gM e (eq_of l (e_data ed)) false)]|tauto|reflexivity].
  - eapply gspec_imp; [apply gspec_fail|tauto|reflexivity].
  - eapply gspec_imp; [exact (gM e (eq_of l (e_data ed)) false)|tauto|reflexivity].
Qed.
Definition logical_ins (l : lattice) (e : errors) (anc : bool) (o : nat) : list ins :=
  if anc then op_ins l e false o else flat_map (data_ins l) (v_edges (l_heap l o)).
Definition logical_ok (l : lattice) (e : errors) (anc : bool) (o : nat) : Prop :=
  if anc then op_ok l e false o else forall ed, In ed (v_edges (l_heap l o)) -> data_ok l ed.
Lemma measure_logical_spec l e anc i : gspec (measure_logical l e anc i) (exists o, nth_error (l_logicals l) i = Some o /\ logical_ok l e anc o)
  (match nth_error (l_logicals l) i with Some o => logical_ins l e anc o | None => [] end).
Proof.
  unfold measure_logical, logical_ok, logical_ins. destruct (nth_error _ i) as [o|].
  - destruct anc; (eapply gspec_imp; [|intros (o' & [= <-] & H); exact H|reflexivity]).
    + apply measure_op_spec.
    + apply gspec_for. intros. apply measure_data_spec.
  - eapply gspec_imp; [apply gspec_fail|intros (o & H & _); discriminate|reflexivity].
Qed.
Definition logicals_ins (l : lattice) (e : errors) (anc : bool) (is : list nat) : list ins :=
  flat_map (fun i => match nth_error (l_logicals l) i with Some o => logical_ins l e anc o | None => [] end) is.
Definition logicals_ok (l : lattice) (e : errors) (anc : bool) (is : list nat) : Prop :=
  forall i, In i is -> exists o, nth_error (l_logicals l) i = Some o /\ logical_ok l e anc o.
Lemma measure_logical_ops_spec l e anc is : gspec (measure_logical_ops l e anc is) (logicals_ok l e anc is) (logicals_ins l e anc is).
Proof. unfold measure_logical_ops, logicals_ins, logicals_ok. apply gspec_for. intros. apply measure_logical_spec. Qed.

Definition stabs_ins (l : lattice) (e : errors) (we : bool) : list ins :=
  match l_steps l with
  | Some n => flat_map (fun o => prep_ins e we (eq_of l o)) (l_stabs l) ++
              flat_map (fun t => flat_map (edge_ins l e we) (edges_at l t)) (seq 0 n) ++
              flat_map (fun o => read_ins e we (eq_of l o)) (l_stabs l)
  | None => flat_map (op_ins l e we) (l_stabs l)
  end.
Definition stabs_ok (l : lattice) (e : errors) (we : bool) : Prop :=
  (forall o, In o (l_stabs l) -> op_ok l e we o) /\ (forall ed, In ed (l_edges l) -> edge_ok l ed).
Lemma measure_stabgens_spec l e we : gspec (measure_stabgens l e we) (stabs_ok l e we) (stabs_ins l e we).
Proof.
  unfold measure_stabgens, stabs_ins, stabs_ok. destruct (l_steps l) as [n|].
  - unfold measure_stabgens_pl. eapply gspec_imp;
      [apply gspec_seq; [apply gspec_for; intros; apply prepare_ancilla_spec|
       apply gspec_seq; [apply gspec_for; intros; apply gspec_for; intros; apply edge_gate_spec|apply gspec_for; intros; apply read_ancilla_spec]]| |reflexivity].
    intros [H1 H2]. conjs.
    + intros o Ho. apply H1; auto.
    + intros t _ ed Hed. apply H2. unfold edges_at in Hed. apply filter_In in Hed. tauto.
    + intros o Ho. destruct (H1 o Ho) as (A & _ & B). auto.
  - eapply gspec_imp; [apply gspec_for; intros; apply measure_op_spec|tauto|reflexivity].
Qed.
Definition noise_round (l : lattice) (e : errors) : list ins := flat_map (fun v => noise_at e (eq_of l v)) (l_data l).
(** The whole circuit. *)
Definition memory_ins (cd : CodesModel.code) (e : errors) (anc : bool) (is : list nat) : list ins :=
  let l := c_lattice cd in
  logicals_ins l e anc is ++ stabs_ins l e false ++
  flat_map (fun b => noise_round l e ++ stabs_ins l e b) (repeat true (Z.to_nat (c_rounds cd - 1)) ++ [false]) ++
  logicals_ins l e anc is.
Lemma flat_map_const {A B} (x : list B) (l : list A) : flat_map (fun _ => x) l = flat_map (fun _ => x) (repeat true (List.length l)).
Proof. induction l; cbn; congruence. Qed.
Lemma flat_map_const' {A B} (f : A -> list B) a n : flat_map f (repeat a n) = flat_map (fun _ => f a) (repeat true n).
Proof. induction n; cbn; congruence. Qed.
Lemma get_circuit_spec cd e anc x c c' : get_circuit cd e anc x c = Ok c' ->
  exists is, logical_ops_to_indices (c_ops cd) x = Ok is /\ c' = c ++ map ins_gate (memory_ins cd e anc is).
Proof.
  unfold get_circuit. destruct (logical_ops_to_indices _ _) as [is|]; cbn [bindR]; [|discriminate]. destruct (mapR _ _) as [lops|]; cbn [bindR]; [|discriminate].
  destruct (negb _); [discriminate|]. intros H. exists is. split; auto.
  assert (S : gspec (measure_logical_ops (c_lattice cd) e anc is ;> measure_stabgens (c_lattice cd) e false ;>
     forG (fun _ => noisy_round (c_lattice cd) e) (seq 0 (Z.to_nat (c_rounds cd - 1))) ;>
     apply_dataqubit_errors (c_lattice cd) e ;> measure_stabgens (c_lattice cd) e false ;> measure_logical_ops (c_lattice cd) e anc is)
     (logicals_ok (c_lattice cd) e anc is /\ stabs_ok (c_lattice cd) e false /\ (forall i, In i (seq 0 (Z.to_nat (c_rounds cd - 1))) -> True /\ stabs_ok (c_lattice cd) e true) /\
      True /\ stabs_ok (c_lattice cd) e false /\ logicals_ok (c_lattice cd) e anc is)
     (logicals_ins (c_lattice cd) e anc is ++ stabs_ins (c_lattice cd) e false ++ flat_map (fun _ => noise_round (c_lattice cd) e ++ stabs_ins (c_lattice cd) e true) (seq 0 (Z.to_nat (c_rounds cd - 1))) ++
      noise_round (c_lattice cd) e ++ stabs_ins (c_lattice cd) e false ++ logicals_ins (c_lattice cd) e anc is)).
  { apply gspec_seq; [apply measure_logical_ops_spec|]. apply gspec_seq; [apply measure_stabgens_spec|]. apply gspec_seq.
    { apply gspec_for. intros. apply gspec_seq; [apply apply_dataqubit_errors_spec|apply measure_stabgens_spec]. }
    apply gspec_seq; [apply apply_dataqubit_errors_spec|]. apply gspec_seq; [apply measure_stabgens_spec|apply measure_logical_ops_spec]. }
  apply S in H. rewrite H. f_equal. f_equal. unfold memory_ins. cbv zeta. f_equal. f_equal.
  rewrite flat_map_app, flat_map_const'. rewrite (flat_map_const _ (seq 0 _)), seq_length. cbn [flat_map]. rewrite List.app_nil_r, <- !app_assoc. auto.
Qed.
