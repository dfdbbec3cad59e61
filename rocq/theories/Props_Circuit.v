(** Property theorems C09, C13-C16: circuits, their text, the Clifford simulator and the
    OpenQASM export.  Vocabulary: QSpec, StateSpec, CircuitSpec, SimSpec, QasmSpec. *)
Require Import List Bool Arith ZArith QArith Lia String Ascii.
From Verif Require Import Base BaseProofs QSpec PauliModel PauliSem TableauProofs StateSpec StateProofs CircuitModel CircuitSpec
  CircuitProofs SimModel SimSpec SimProofs RunProofs CountProofs QasmModel QasmSpec QasmProofs.
Import ListNotations.
Local Open Scope string_scope.
Local Open Scope nat_scope.
Local Open Scope list_scope.

(** * Concrete float text used in the examples: "num/den". *)
Definition sf0 (q : Q) : string := (show_int (Qnum q) ++ "/" ++ show_int (Zpos (Qden q)))%string.
Definition rf0 (s : string) : option Q :=
  match split_on "/"%char s with
  | [a; b] => match py_int a, py_int b with Some n, Some (Zpos d) => Some (n # d) | _, _ => None end
  | _ => None
  end.
Definition g_half : rng := fun k => mkDraw (Nat.odd k) (1 # 2) k.
Lemma g_half_unif : unif g_half.
Proof. intros k. cbn. split; [discriminate|reflexivity]. Qed.

(** * C09 *)
(** A finished run after reset: its results are a possible history of the circuit on the
    state vector |0...0>, and the tableau describes the final vector. *)
Theorem C09_run_refines_born (g : rng) (c : circuit) (s0 s : sim) :
  (forall k, 0 <= d_unif (g k) /\ d_unif (g k) < 1)%Q ->
  Forall stored c -> Forall distinct_ct c ->
  sim_run g c true s0 = Ok s ->
  exists v, qcirc (number_of_qubits c) c ket0 (s_meas s) (s_eras s) v /\
    valid (number_of_qubits c) (s_st s) /\ describes (number_of_qubits c) (s_st s) v /\
    norm2 (number_of_qubits c) v <> 0%Z.
Proof.
  intros Hg HS HD E. unfold sim_run in E.
  assert (I : Inv (number_of_qubits c) (sim_reset c s0) ket0).
  { split; [apply zero_state_wf|split; [apply zero_state_describes|apply nz_ket0]]. }
  assert (F : Forall good_gate c).
  { clear -HS HD. induction c; auto. inversion HS; inversion HD; subst. constructor; auto. split; auto. }
  destruct (run_sem g Hg (number_of_qubits c) (number_of_qubits_pos c) c _ _ _ I F E) as (ms & es & v & Q & (W & D & N) & (E1 & E2)).
  exists v. cbn in E1, E2. rewrite E1, E2. split; [exact Q|]. split; [apply valid_wf; exact W|]. split; auto.
Qed.
Print Assumptions C09_run_refines_born.

(** Valid circuits run to completion, whatever the random stream. *)
Theorem C09_run_total (g : rng) (c : circuit) (s0 : sim) :
  (forall k, 0 <= d_unif (g k) /\ d_unif (g k) < 1)%Q ->
  valid_circuit false c -> exists s, sim_run g c true s0 = Ok s.
Proof.
  intros Hg HV. unfold sim_run.
  apply (run_total g (number_of_qubits c) (number_of_qubits_pos c) Hg c false _ ket0); auto.
  - split; [apply zero_state_wf|split; [apply zero_state_describes|apply nz_ket0]].
  - discriminate.
  - intros gt q A B. eapply nq_bound; eauto.
Qed.
Print Assumptions C09_run_total.

Definition ex_circuit : circuit :=
  [("H", [qa 0]); ("CX", [qa 0; qa 1]); ("ERROR", [AFlt (3 # 4); AStr "X"; qa 1]);
   ("ERROR_CONTINUE", [AStr "Z"; qa 0]); ("ERROR_ELSE", [AFlt (1 # 8); AStr "M"; qa 0]);
   ("E_ERASE", [AFlt (1 # 4); qa 1]); ("M", [qa 0; qa 1])].
(** Non-vacuity: a Bell pair with an error block; the two results differ because of the X. *)
Example C09_example :
  (forall k, 0 <= d_unif (g_half k) /\ d_unif (g_half k) < 1)%Q /\
  Forall stored ex_circuit /\ Forall distinct_ct ex_circuit /\ valid_circuit false ex_circuit /\
  exists s, sim_run g_half ex_circuit true (sim_init ex_circuit 0) = Ok s /\ s_meas s = [false; true] /\ s_eras s = [false].
Proof.
  split; [apply g_half_unif|]. split; [|split; [|split]].
  - unfold ex_circuit, qa. apply Forall_forall. intros gt H. cbn [In] in H.
    destruct H as [<-|[<-|[<-|[<-|[<-|[<-|[<-|[]]]]]]]].
    + apply (st_plain "H" [0%Z]); cbn; auto 12.
    + apply (st_plain "CX" [0%Z; 1%Z]); cbn; auto 12.
    + apply (st_error "ERROR" (3 # 4) "X" [1%Z]); cbn; auto 12; discriminate.
    + apply (st_continue "Z" [0%Z]); cbn; auto 12.
    + apply (st_error "ERROR_ELSE" (1 # 8) "M" [0%Z]); cbn; auto 12; discriminate.
    + apply st_erase.
    + apply (st_plain "M" [0%Z; 1%Z]); cbn; auto 12.
  - unfold ex_circuit. apply Forall_forall. intros gt H. cbn [In] in H.
    destruct H as [<-|[<-|[<-|[<-|[<-|[<-|[<-|[]]]]]]]]; unfold distinct_ct, distinct_gate; cbn [fst snd qa distinct_pairs];
    (split; [|try exact I]); try (intros [?|?]; discriminate); intros _; (split; [discriminate|exact I]).
  - unfold ex_circuit.
    apply vc_gate. apply (vg_plain "H" [0]); simpl; auto 6.
    apply vc_gate. apply (vg_pairs "CX" [(0, 1)]); simpl; auto. repeat constructor. discriminate.
    apply vc_error. apply (vg_plain "X" [1]); simpl; auto 6.
    apply vc_continue. apply (vg_plain "Z" [0]); simpl; auto 6.
    apply vc_else. apply (vg_plain "M" [0]); simpl; auto 8.
    apply vc_gate. apply (vg_erase _ (1 # 4)). constructor.
    apply vc_gate. apply (vg_plain "M" [0; 1]); simpl; auto 8. constructor.
  - eexists. split; [vm_compute; reflexivity|]. split; vm_compute; reflexivity.
Qed.

(** * C13 *)
Section C13.
Variable read_float : string -> option Q.
Variable show_float : Q -> string.

(** Python's float/str round trip and the shape of a float's text (no space, no '#'). *)
Definition float_text_ok : Prop :=
  (forall p, read_float (show_float p) = Some p) /\ (forall p, is_word (show_float p)).

Theorem C13_text_round_trip (calls : list (string * list rarg)) (c : circuit) :
  float_text_ok ->
  foldR (fun c0 call => append read_float c0 (fst call) (snd call)) calls [] = Ok c ->
  from_str read_float (show_circuit show_float c) = Ok c.
Proof. intros [H1 H2] E. apply from_str_show; auto. eapply append_stored; [|apply E]. constructor. Qed.

(** A text of lines of words is accepted or refused exactly as the calls of append. *)
Theorem C13_text_is_append_calls (lines : list (string * list string)) :
  Forall (fun l => is_word (fst l) /\ Forall is_word (snd l)) lines ->
  from_str read_float (join (String newline "") (map (fun l => join " " (fst l :: snd l)) lines)) =
  foldR (fun c0 l => append read_float c0 (fst l) (map RStr (snd l))) lines [].
Proof.
  intros H. unfold from_str.
  replace (map (fun l => join " " (fst l :: snd l)) lines) with (map (join " ") (map (fun l => fst l :: snd l) lines)) by (rewrite map_map; auto).
  rewrite text_calls.
  - generalize (@nil gate). clear H. induction lines as [|l ls IH]; intros c; auto. cbn [map foldR].
    unfold append_words at 1. cbn [hd tl]. destruct (append _ _ _ _); cbn [bindR]; auto.
  - rewrite Forall_map. eapply Forall_impl; [|apply H]. cbn. intros l [A B]. split; [discriminate|]. constructor; auto.
Qed.
End C13.
Print Assumptions C13_text_round_trip.
Print Assumptions C13_text_is_append_calls.

(** Integers in the text of a circuit: spaces around them, a sign, and single underscores between digits. *)
Example C13_int_example :
  map py_int ["12"; " 7 "; "+3"; "-4"; "1_000"; "1_0_2"; "007"] = map Some [12; 7; 3; -4; 1000; 102; 7]%Z /\
  map py_int [""; "_1"; "1_"; "1__0"; "+_1"; "-_1"; "1 2"; "--1"; "+-1"; "1.0"; "x"; "_"] = repeat None 12.
Proof. vm_compute. split; reflexivity. Qed.
Example C13_example :
  let calls := [("H", [RInt 0; RInt 12]); ("ERROR", [RFlt (1 # 3); RStr "CX"; RInt 0; RStr "1_0"]);
                ("E_PAULI", [RFlt 0; RInt 0; RFlt (1 # 2); RInt 7])] in
  exists c, foldR (fun c0 call => append rf0 c0 (fst call) (snd call)) calls [] = Ok c /\ c <> [] /\
    show_circuit sf0 c = ("H 0 12" ++ String newline "ERROR 1/3 CX 0 10" ++ String newline "E_PAULI 0/1 0/1 1/2 7")%string /\
    from_str rf0 (show_circuit sf0 c) = Ok c /\
    from_str rf0 ("H 0" ++ String newline "FOO 1")%string = Err ValueError.
Proof.
  cbv zeta. eexists. split; [vm_compute; reflexivity|]. split; [discriminate|].
  split; [vm_compute; reflexivity|split; vm_compute; reflexivity].
Qed.

(** * C14 *)
(** Every qubit an instruction acts on is below number_of_qubits, and the largest index is
    attained by some integer argument. *)
Theorem C14_number_of_qubits (c : circuit) :
  1 <= number_of_qubits c /\
  (forall gt q, In gt c -> instr_qubit gt q -> q < number_of_qubits c) /\
  (1 < number_of_qubits c -> exists gt, In gt c /\ In (qa (number_of_qubits c - 1)) (snd gt)).
Proof.
  split; [apply number_of_qubits_pos|]. split.
  - intros gt q H1 H2. eapply nq_bound; eauto using instr_qubit_arg.
  - apply nq_least.
Qed.
Print Assumptions C14_number_of_qubits.

(** Without probabilistic gates inside error instructions number_of_qubits is the least
    bound. *)
Theorem C14_number_of_qubits_least (c : circuit) (n : nat) :
  Forall stored c ->
  (forall gt nm, In gt c -> inner_name gt = Some nm -> In nm ["X"; "Y"; "Z"; "H"; "CX"; "CZ"; "M"; "R"; "DEPOLARIZE"]) ->
  1 <= n -> (forall gt q, In gt c -> instr_qubit gt q -> q < n) -> number_of_qubits c <= n.
Proof.
  intros HS HI Hn Hb. destruct (le_lt_dec (number_of_qubits c) 1) as [|L]; [lia|].
  destruct (nq_least c L) as (gt & G1 & G2).
  assert (instr_qubit gt (number_of_qubits c - 1)); [|specialize (Hb gt _ G1 H); lia].
  rewrite Forall_forall in HS. pose proof (HS gt G1) as S. specialize (HI gt). unfold inner_name in HI.
  inversion S; subst; cbn [snd] in G2, HI.
  - apply iq_error; auto. constructor. apply (HI inner); auto. simpl in G2. destruct G2 as [?|[?|?]]; try discriminate; auto.
  - apply iq_continue. constructor. apply (HI inner); auto. simpl in G2. destruct G2 as [?|?]; try discriminate; auto.
  - simpl in G2. destruct G2 as [?|[G2|[]]]; try discriminate. rewrite G2. apply iq_gate, gq_erase.
  - simpl in G2. destruct G2 as [?|[?|[?|[G2|[]]]]]; try discriminate. rewrite G2. apply iq_gate. apply gq_pauli.
  - apply in_app_or in G2. destruct G2 as [G2|G2].
    { apply in_map_iff in G2. destruct G2 as (? & ? & _); discriminate. }
    simpl in G2. apply iq_gate. apply gq_pauli2; [rewrite map_length; auto|]. destruct G2 as [G2|[G2|[]]]; auto.
  - apply iq_gate. constructor; auto.
Qed.
Print Assumptions C14_number_of_qubits_least.

(** A finished run has as many results as the executed instructions measure qubits; every
    instruction outside of error blocks is executed.  Same for erasure flags. *)
Theorem C14_result_count (g : rng) (c : circuit) (s0 s : sim) :
  Forall stored c -> sim_run g c true s0 = Ok s ->
  exists ex, List.length ex = List.length c /\
    Forall2 (fun gt e => String.prefix "ERROR" (fst gt) = false -> e = true) c ex /\
    List.length (s_meas s) = executed_sum measures c ex /\
    List.length (s_eras s) = executed_sum erases c ex.
Proof.
  intros HS E. destruct (run_exact g c _ s HS E) as (ex & L & F & [A B]). exists ex. auto.
Qed.
Print Assumptions C14_result_count.

(** Without error blocks this is number_measured_qubits. *)
Theorem C14_number_measured (g : rng) (c : circuit) (s0 s : sim) :
  Forall stored c -> (forall gt, In gt c -> nested_measured gt = 0) -> sim_run g c true s0 = Ok s ->
  List.length (s_meas s) = number_measured_qubits c.
Proof.
  intros HS HN E. destruct (run_len g c _ s HS E) as (a & b & [A _] & L & _). rewrite A, number_measured_total.
  assert (total nested_measured c = 0).
  { clear -HN. induction c as [|gt c IH]; auto. cbn [total fold_right]. fold (total nested_measured c).
    rewrite IH, HN; auto. left; auto. intros; apply HN; right; auto. }
  cbn. lia.
Qed.
Print Assumptions C14_number_measured.

(** number_of_qubits reads the probability of a nested E_ERASE as a qubit: the circuit only
    uses qubit 0 and is given two qubits. *)
Theorem C14_least_nested_refuted :
  exists c, valid_circuit false c /\ Forall stored c /\
    (forall gt q, In gt c -> instr_qubit gt q -> q < 1) /\ number_of_qubits c = 2.
Proof.
  exists [("ERROR", [AFlt (1 # 2); AStr "E_ERASE"; AInt 1; AInt 0])]. split; [|split; [|split]].
  - apply vc_error; [|constructor]. apply (vg_erase (AInt 1) (inject_Z 1) 0). constructor.
  - constructor; [|constructor]. apply (st_error "ERROR" (1 # 2) "E_ERASE" [1%Z; 0%Z]); cbn; auto 20; discriminate.
  - intros gt q [<-|[]] H. inversion H as [nm l q' G|nm p inner l q' N G|]; subst.
    + inversion G; subst; cbn in *; intuition discriminate.
    + inversion G as [? ? ? I|a q' E| |]; subst.
      * cbn in I; intuition discriminate.
      * destruct q; [lia|discriminate].
  - reflexivity.
Qed.
Print Assumptions C14_least_nested_refuted.

Example C14_example :
  number_of_qubits ex_circuit = 2 /\ number_measured_qubits ex_circuit = 2 /\
  instr_qubit ("ERROR", [AFlt (3 # 4); AStr "X"; qa 1]) 1 /\
  executed_sum measures ex_circuit [true; true; true; true; false; true; true] = 2.
Proof. split; [reflexivity|split; [reflexivity|split; [|reflexivity]]]. apply iq_error; auto. constructor; cbn; auto. Qed.

(** * C15 *)
(** What a run is about: state, results, flags of erasure, draws consumed (or exception). *)
Definition observe (r : Res sim) : Res (tableau * list bool * list bool * nat) :=
  do s <- r; Ok (s_st s, s_meas s, s_eras s, s_k s).
(** The same simulator, [i] random draws later. *)
Definition later (i : nat) (s : sim) : sim :=
  mkSim (s_st s) (s_meas s) (s_eras s) (s_in s) (s_any s) (s_branch s) (s_k s + i).

Lemma plain_observe g gs : forall s i a b, Forall (fun gt : gate => String.prefix "ERROR" (fst gt) = false) gs ->
  observe (run_plain g gs (set_flags s i a b)) = observe (foldR (run_gate g) gs s).
Proof.
  induction gs as [|gt gs IH]; intros s i a b F; auto. inversion F; subst. unfold run_plain. cbn [foldR].
  unfold run_gate at 1. rewrite H1. rewrite !handle_gate_fl.
  destruct (handle_gate g s (fst gt) (snd gt)) as [s1|]; cbn [fl bindR]; auto.
  fold (run_plain g gs (set_flags s1 i a b)). rewrite IH by auto.
  rewrite <- (IH _ false (s_any s) (s_branch s)) by auto. rewrite <- (IH _ false (s_any s) (s_branch s)) by auto. reflexivity.
Qed.

(** A block behaves as the gates of the first branch whose draw is below its probability,
    written as ordinary instructions, after the draws of the branches tried; without such
    a branch it does nothing. *)
Theorem C15_one_branch (g : rng) (b : branch) (bs : list branch) (s : sim) :
  Forall (fun b' => Forall (fun gt : gate => String.prefix "ERROR" (fst gt) = false) (br_gates b')) (b :: bs) ->
  observe (foldR (run_gate g) (block_text b bs) s) =
  observe match first_hit (fun i => d_unif (g (s_k s + i))) (b :: bs) with
          | Some (i, b') => foldR (run_gate g) (br_gates b') (later (S i) s)
          | None => Ok (later (List.length (b :: bs)) s)
          end.
Proof.
  intros F. rewrite block_run.
  destruct (first_hit _ (b :: bs)) as [[i b']|] eqn:E; [|reflexivity].
  assert (IN : In b' (b :: bs)).
  { revert E. generalize (fun i => d_unif (g (s_k s + i))). generalize (b :: bs) i. clear.
    induction l as [|x l IH]; intros i u; cbn [first_hit]; [discriminate|].
    destruct (Qle_bool _ _).
    - destruct (first_hit _ l) as [[j y]|] eqn:E; [|discriminate]. intros [= <- <-]. right. eapply IH; eauto.
    - intros [= <- <-]. left; auto. }
  rewrite Forall_forall in F. specialize (F b' IN).
  rewrite <- (plain_observe g (br_gates b') (later (S i) s) true true true F).
  change (skip (S i) s) with (later (S i) s).
  destruct (run_plain _ _ _); reflexivity.
Qed.
Print Assumptions C15_one_branch.

(** ERROR_ELSE / ERROR_CONTINUE at the start or after an ordinary instruction. *)
Theorem C15_outside_rejected (g : rng) (c1 c2 : circuit) (gt : gate) (reset : bool) (k : nat) :
  ((exists p inner l, gt = ("ERROR_ELSE", AFlt p :: AStr inner :: l)) \/
   (exists inner l, gt = ("ERROR_CONTINUE", AStr inner :: l))) ->
  (c1 = [] \/ exists c0 plain, c1 = c0 ++ [plain] /\ String.prefix "ERROR" (fst plain) = false) ->
  let c := c1 ++ gt :: c2 in
  (exists e, sim_run g c false (sim_init c k) = Err e) /\
  (forall s1, foldR (run_gate g) c1 (sim_init c k) = Ok s1 -> sim_run g c false (sim_init c k) = Err ValueError).
Proof.
  intros HB HC c.
  assert (X : forall s1, foldR (run_gate g) c1 (sim_init c k) = Ok s1 -> sim_run g c false (sim_init c k) = Err ValueError).
  { intros s1 E. unfold sim_run, c. fold c. unfold c at 1. rewrite foldR_app, E. cbn [bindR foldR].
    rewrite outside_rejected; auto.
    destruct HC as [->|(c0 & pl & -> & HP)].
    - cbn [foldR] in E. injection E as <-. reflexivity.
    - rewrite foldR_app in E. destruct (foldR (run_gate g) c0 (sim_init c k)) as [s0|]; [|discriminate]. cbn [bindR foldR] in E.
      destruct (run_gate g s0 pl) as [s2|] eqn:E2; [|discriminate]. injection E as <-. eapply plain_clears; eauto. }
  split; auto. destruct (foldR (run_gate g) c1 (sim_init c k)) as [s1|e] eqn:E.
  - eexists. eapply X; eauto.
  - exists e. unfold sim_run, c. fold c. unfold c at 1. rewrite foldR_app, E. reflexivity.
Qed.
Print Assumptions C15_outside_rejected.

Example C15_example :
  let b1 := mkBranch (1 # 4) ("X", [qa 0]) [("Y", [qa 1])] in
  let b2 := mkBranch (3 # 4) ("H", [qa 0]) [("M", [qa 1]); ("Z", [qa 0])] in
  let b3 := mkBranch 1 ("Z", [qa 0]) [] in
  block_text b1 [b2; b3] =
    [("ERROR", [AFlt (1 # 4); AStr "X"; qa 0]); ("ERROR_CONTINUE", [AStr "Y"; qa 1]);
     ("ERROR_ELSE", [AFlt (3 # 4); AStr "H"; qa 0]); ("ERROR_CONTINUE", [AStr "M"; qa 1]); ("ERROR_CONTINUE", [AStr "Z"; qa 0]);
     ("ERROR_ELSE", [AFlt 1; AStr "Z"; qa 0])] /\
  first_hit (fun i => d_unif (g_half (0 + i))) [b1; b2; b3] = Some (1, b2) /\
  exists s, foldR (run_gate g_half) (block_text b1 [b2; b3]) (mkSim (zero_state 2) [] [] false false false 0) = Ok s /\
    s_meas s = [false] /\ s_st s <> zero_state 2.
Proof.
  cbv zeta. split; [reflexivity|]. split; [vm_compute; reflexivity|].
  eexists. split; [vm_compute; reflexivity|]. split; [reflexivity|]. vm_compute. discriminate.
Qed.

(** * C16 *)
(** The export of a circuit of exportable gates is a list of statements with the meaning
    of the circuit: executing them on any vector, the classical register ends with the
    measurement results in order. *)
Theorem C16_export_meaning (show_float : Q -> string) (c : circuit) (ig : bool) :
  Forall exportable c ->
  exists prog,
    convert_to_openqasm (show_arg show_float) c ig =
      Ok (join (String newline "")
           (["OPENQASM 2.0;"; "include " ++ String """" ("qelib1.inc" ++ String """" ";");
             "qreg q[" ++ dec (number_of_qubits c) ++ "];";
             "creg c[" ++ dec (number_measured_qubits c) ++ "];"]%string ++ map print prog)) /\
    forall n v v' creg,
      qprog n prog (v, repeat false (number_measured_qubits c)) (v', creg) <-> qcirc n c v creg [] v'.
Proof.
  intros F. exists (stmts c 0). split.
  - unfold convert_to_openqasm. rewrite circuit_text by auto. cbn [bindR fst]. unfold qasm_header. rewrite !show_int_dec. reflexivity.
  - intros n v v' creg. rewrite (circuit_prog n c [] v v' creg F). split.
    + intros (ms & -> & Q). exact Q.
    + intros Q. exists creg. auto.
Qed.
Print Assumptions C16_export_meaning.

(** Gates outside of the mapping are refused unless ignored. *)
Theorem C16_unsupported_refused (show : arg -> string) (c : circuit) :
  (exists gt, In gt c /\ ~ In (fst gt) ["R"; "H"; "X"; "Y"; "Z"; "CX"; "CZ"; "M"]) ->
  exists e, convert_to_openqasm show c false = Err e.
Proof.
  intros (gt & HI & HN). unfold convert_to_openqasm. generalize (qasm_header c, 0) as st.
  assert (X : forall st, exists e, foldR (qasm_gate show false) c st = Err e).
  { induction c as [|g0 c IH]; [destruct HI|]. intros st. cbn [foldR].
    destruct (qasm_gate show false st g0) as [st'|e] eqn:E; [|exists e; auto]. cbn [bindR].
    destruct HI as [->|HI]; [|apply IH; auto]. exfalso.
    destruct gt as [nm l]. unfold qasm_gate in E. cbn [fst] in HN. cbn [In] in HN. unfold gate_mapping in E.
    repeat match type of E with context [String.eqb nm ?k] =>
      destruct (String.eqb_spec nm k) as [->|]; [exfalso; apply HN; auto 12|] end. discriminate. }
  intros st. destruct (X st) as (e & ->). exists e. reflexivity.
Qed.
Print Assumptions C16_unsupported_refused.

(** Resets are dropped: two circuits with the same text and different results. *)
Theorem C16_reset_dropped_refuted (show : arg -> string) (g : rng) (k : nat) :
  let c1 := [("X", [qa 0]); ("R", [qa 0]); ("M", [qa 0])] in
  let c2 := [("X", [qa 0]); ("M", [qa 0])] in
  convert_to_openqasm show c1 false = convert_to_openqasm show c2 false /\
  (exists s, sim_run g c1 true (sim_init c1 k) = Ok s /\ s_meas s = [false]) /\
  (exists s, sim_run g c2 true (sim_init c2 k) = Ok s /\ s_meas s = [true]).
Proof.
  cbv zeta. split; [reflexivity|].
  split; eexists; (split; [vm_compute; reflexivity|reflexivity]).
Qed.
Print Assumptions C16_reset_dropped_refuted.

Example C16_example :
  let c := [("H", [qa 0]); ("CX", [qa 0; qa 1; qa 0; qa 12]); ("M", [qa 12]); ("M", [qa 0; qa 1])] in
  Forall exportable c /\
  exists txt, convert_to_openqasm (show_arg sf0) c false = Ok txt /\
  split_on newline txt =
    ["OPENQASM 2.0;"; "include " ++ String """" ("qelib1.inc" ++ String """" ";"); "qreg q[13];"; "creg c[3];";
     "h q[0];"; "cx q[0],q[1];"; "cx q[0],q[12];"; "measure q[12] -> c[0];"; "measure q[0] -> c[1];"; "measure q[1] -> c[2];"]%string.
Proof.
  cbv zeta. split.
  - constructor; [apply (ex1 "H" [0]); cbn; auto|]. constructor; [apply (ex2 "CX" [(0,1);(0,12)]); cbn; auto|].
    constructor; [apply (ex1 "M" [12]); cbn; auto 8|]. constructor; [apply (ex1 "M" [0;1]); cbn; auto 8|]. constructor.
  - eexists. split; vm_compute; reflexivity.
Qed.
