(** Lemmas: the circuits of memory experiments. *)
Require Import String List Bool Arith ZArith QArith Qfield Lia Lqa.
From Verif Require Import Base BaseProofs QSpec PauliModel PauliSem PauliProofs PauliAlg StateSpec GateProofs CircuitModel SimSpec SimModel SimProofs
  LatticeModel LatticeSpec LatticeProofs LatticeOps LatticeRows CodesModel CodesSpec GeneratorModel GeneratorSpec StabTrack RoundProofs MemoryProofs GeneratorProofs GeneratorSem
  UnpackProofs MemorySem DistSpec DistMean DistSim HistorySpec HistoryPaths HistorySums HistoryChain.
Import ListNotations.
Local Open Scope string_scope.
Local Open Scope nat_scope.
Local Open Scope list_scope.

(** * Flips in a round *)
Definition fl (i : ins) : list nat := match i with IFlip _ q => [q] | _ => [] end.
Lemma flips_fl a is : flips a is = List.length (filter (fun q => q =? a) (flat_map fl is)).
Proof.
  unfold flips. induction is as [|i is IH]; auto. cbn [filter flat_map]. rewrite filter_app, app_length, <- IH. destruct i; cbn [is_flip fl filter List.length Nat.add]; auto. destruct (q =? a); auto.
Qed.
Lemma fl_flat {A} (f : A -> list ins) xs : flat_map fl (flat_map f xs) = flat_map (fun x => flat_map fl (f x)) xs.
Proof. induction xs; auto. cbn [flat_map]. rewrite flat_map_app. congruence. Qed.
Lemma flat_nil' {A B} (f : A -> list B) xs : (forall x, In x xs -> f x = []) -> flat_map f xs = [].
Proof. induction xs as [|x xs IH]; intros H; auto. cbn [flat_map]. rewrite (H x (or_introl eq_refl)), IH; auto. intros y Hy; apply H; right; auto. Qed.
Lemma count_nodup a l : NoDup l -> List.length (filter (fun q => q =? a) l) <= 1.
Proof.
  induction 1 as [|x l NI ND IH]; auto. cbn [filter]. destruct (Nat.eqb_spec x a); auto. subst. cbn [List.length].
  assert (E : filter (fun q => q =? a) l = []); [|rewrite E; auto]. clear - NI. induction l as [|y l IH]; auto. cbn [filter]. destruct (Nat.eqb_spec y a); [subst; exfalso; apply NI; left; auto|]. apply IH. intros I; apply NI; right; auto.
Qed.

Section Rounds.
Context (l : lattice) (C : consistent l) (X : indexed l) (NY : forall ed, In ed (l_edges l) -> e_factor ed <> FY).
Lemma stab_eq o : In o (l_stabs l) -> eq_of l o = Some (eqn l o).
Proof. intros I. apply (proj1 (eqn_vert l o X (in_equbits l o X (or_intror (stab_op l o I))))). Qed.
Definition L := seq (List.length (l_data l)) (List.length (l_stabs l)).
Lemma stab_L o : In o (l_stabs l) -> In (eqn l o) L.
Proof. intros I. unfold L. rewrite <- map_eqn_stabs by auto. apply in_map. auto. Qed.

Section One.
Context (e : errors) (NG : no_gate_errors e).
Definition entry (b : bool) (a : nat) : bool := match meas_flip e b (Some a) with Some _ => true | None => false end.
Lemma fl_stabs b : flat_map fl (stabs_ins l e b) = filter (entry b) L.
Proof.
  assert (RD : forall o, In o (l_stabs l) -> flat_map fl (read_ins e b (eq_of l o)) = if entry b (eqn l o) then [eqn l o] else []).
  { intros o I. rewrite stab_eq by auto. rewrite read_ins_clean by auto. cbn [qn]. rewrite !flat_map_app. cbn [flat_map fl app]. unfold entry. destruct (meas_flip e b (Some (eqn l o))); auto. }
  assert (PR : forall o, flat_map fl (prep_ins e b (eq_of l o)) = []) by (intros o; rewrite prep_ins_clean by auto; auto).
  assert (ED : forall ed, flat_map fl (edge_ins l e b ed) = []) by (intros ed; rewrite edge_ins_clean by auto; auto).
  assert (R : forall os, incl os (l_stabs l) -> flat_map (fun o => flat_map fl (read_ins e b (eq_of l o))) os = filter (entry b) (map (eqn l) os)).
  { induction os as [|o os IH]; intros I; auto. cbn [flat_map map filter]. rewrite RD by (apply I; left; auto). rewrite IH by (intros x Hx; apply I; right; auto). destruct (entry b (eqn l o)); auto. }
  unfold L. rewrite <- map_eqn_stabs by auto. unfold stabs_ins. destruct (l_steps l) as [st|].
  - rewrite !flat_map_app, !fl_flat. rewrite (flat_nil' (fun o => flat_map fl (prep_ins e b (eq_of l o)))) by auto.
    rewrite (flat_nil' (fun t => flat_map fl (flat_map (edge_ins l e b) (edges_at l t)))) by (intros t _; rewrite fl_flat; apply flat_nil'; auto). cbn [app]. apply R. intros x; auto.
  - rewrite fl_flat. rewrite <- R by (intros x; auto). apply flat_map_ext_in'. intros o I. unfold op_ins. rewrite !flat_map_app, PR, fl_flat, flat_nil' by auto. auto.
Qed.
Lemma flips_le b a : flips a (stabs_ins l e b) <= 1.
Proof. rewrite flips_fl, fl_stabs. apply count_nodup, NoDup_filter, seq_NoDup. Qed.

(** All instructions of a round. *)
Lemma stabs_all (P : ins -> Prop) b : (forall o, In o (l_stabs l) -> Forall P [IR (eqn l o); IHd (eqn l o)]) ->
  (forall ed, In ed (l_edges l) -> In (e_op ed) (l_stabs l) \/ l_steps l <> None /\ e_time ed <> None -> P (IC (e_factor ed) (eqn l (e_op ed)) (eqn l (e_data ed)))) ->
  (forall o, In o (l_stabs l) -> Forall P ([IHd (eqn l o)] ++ flip_ins (meas_flip e b (Some (eqn l o))) (eqn l o) ++ [IM (eqn l o)])) -> Forall P (stabs_ins l e b).
Proof.
  intros H1 H2 H3.
  assert (PR : forall o, In o (l_stabs l) -> Forall P (prep_ins e b (eq_of l o))) by (intros o I; rewrite stab_eq, prep_ins_clean by auto; apply H1; auto).
  assert (RD : forall o, In o (l_stabs l) -> Forall P (read_ins e b (eq_of l o))) by (intros o I; rewrite stab_eq, read_ins_clean by auto; apply H3; auto).
  assert (ED : forall ed, In ed (l_edges l) -> In (e_op ed) (l_stabs l) \/ l_steps l <> None /\ e_time ed <> None -> Forall P (edge_ins l e b ed)) by (intros ed I K; rewrite edge_ins_clean by auto; constructor; auto).
  unfold stabs_ins. destruct (l_steps l) eqn:LS.
  - apply Forall_app. split; [apply Forall_flat_map, Forall_forall; auto|]. apply Forall_app. split; [|apply Forall_flat_map, Forall_forall; auto].
    apply Forall_flat_map, Forall_forall. intros t _. apply Forall_flat_map, Forall_forall. intros ed I. apply in_edges_at in I as [I T]. apply ED; auto. right. split; congruence.
  - apply Forall_flat_map, Forall_forall. intros o I. unfold op_ins. apply Forall_app. split; [auto|]. apply Forall_app. split; [|auto].
    apply Forall_flat_map, Forall_forall. intros ed Ie. rewrite op_edges in Ie by auto using stab_op. apply filter_In in Ie as [Ie Eo]. apply ED; auto. left. apply Nat.eqb_eq in Eo. rewrite Eo. auto.
Qed.
Lemma stabs_flip b a p : In (IFlip p a) (stabs_ins l e b) -> meas_flip e b (Some a) = Some p.
Proof.
  intros I. assert (F : Forall (fun i => match i with IFlip p a => meas_flip e b (Some a) = Some p | _ => True end) (stabs_ins l e b)).
  { apply stabs_all; intros; repeat (constructor; auto). destruct (meas_flip e b (Some (eqn l o))) eqn:E; cbn [flip_ins app]; repeat (constructor; auto). }
  rewrite Forall_forall in F. apply (F _ I).
Qed.
Lemma stabs_single b : Forall single_noise (stabs_ins l e b).
Proof. apply stabs_all; intros; repeat (constructor; auto). destruct (meas_flip e b (Some (eqn l o))); cbn [flip_ins app]; repeat (constructor; auto). Qed.
End One.
End Rounds.

(** * Rounds with known flips *)
Lemma setall_app ab : forall x y, setall ab (x ++ y) = setall ab x ++ setall ab y.
Proof. induction ab as [|[a b] ab IH]; intros x y; cbn [setall]; auto. rewrite map_app. apply IH. Qed.
Lemma setall_nil ab : setall ab [] = [].
Proof. induction ab as [|[a b] ab IH]; cbn [setall map]; auto. Qed.
Lemma setall_flat {A} ab (f : A -> list ins) xs : setall ab (flat_map f xs) = flat_map (fun x => setall ab (f x)) xs.
Proof. induction xs as [|x xs IH]; cbn [flat_map]; [apply setall_nil|]. rewrite setall_app, IH. auto. Qed.
Lemma setall_none ab : forall is, flat_map fl is = [] -> setall ab is = is.
Proof.
  induction ab as [|[a b] ab IH]; intros is H; cbn [setall]; auto.
  assert (E : map (set1 a b) is = is); [|rewrite E; auto].
  clear IH. induction is as [|i is IH]; auto. cbn [flat_map map] in *. apply app_eq_nil in H as [H1 H2]. rewrite IH by auto. destruct i; auto. discriminate.
Qed.
Lemma setall_other ab : forall p a, ~ In a (map fst ab) -> setall ab [IFlip p a] = [IFlip p a].
Proof.
  induction ab as [|[a' b] ab IH]; intros p a H; cbn [setall map set1]; auto. cbn [map fst] in H.
  destruct (Nat.eqb_spec a a'); [exfalso; apply H; left; auto|]. apply IH. intros I; apply H; right; auto.
Qed.
Lemma setall_flip ab : forall p a b, NoDup (map fst ab) -> In (a, b) ab -> setall ab [IFlip p a] = [IFlip (sure b) a].
Proof.
  induction ab as [|[a' b'] ab IH]; intros p a b N I; [destruct I|]. cbn [map fst] in N. inversion N as [|? ? NI N']; subst. cbn [setall map set1].
  destruct I as [E|I].
  - injection E as -> ->. rewrite Nat.eqb_refl. apply setall_other. auto.
  - destruct (Nat.eqb_spec a a'); [subst; exfalso; apply NI; apply (in_map fst) in I; auto|]. apply IH; auto.
Qed.

Definition known (e : errors) (ab : list (nat * bool)) : errors :=
  mkErrors (er_pauli e) (er_erasure e)
    (flat_map (fun x => match meas_entry e (Some (fst x)) with Some _ => [(Z.of_nat (fst x), [("p", sure (snd x))])] | None => [] end) ab)
    (er_CX e) (er_CZ e) (er_H e) (er_M e) (er_R e).
Lemma known_other e a : forall ab, ~ In a (map fst ab) -> meas_entry (known e ab) (Some a) = None.
Proof.
  intros ab. unfold meas_entry at 1, get1, known. cbn [er_measurement]. induction ab as [|[a' b] ab IH]; intros H; auto. cbn [flat_map fst snd]. cbn [map fst] in H.
  assert (IH' := IH (fun I => H (or_intror I))). destruct (meas_entry e (Some a')); cbn [app]; auto. cbn [find fst].
  destruct (Z.eqb_spec (Z.of_nat a') (Z.of_nat a)); [exfalso; apply H; left; lia|]. exact IH'.
Qed.
Lemma known_entry e a b : forall ab, NoDup (map fst ab) -> In (a, b) ab ->
  meas_entry (known e ab) (Some a) = match meas_entry e (Some a) with Some _ => Some (sure b) | None => None end.
Proof.
  intros ab. unfold meas_entry at 1, get1, known. cbn [er_measurement]. induction ab as [|[a' b'] ab IH]; intros N I; [destruct I|].
  cbn [map fst] in N. inversion N as [|? ? NI N']; subst. destruct I as [E|I].
  - injection E as -> ->. cbn [flat_map fst snd]. destruct (meas_entry e (Some a)); cbn [app].
    + cbn [find fst]. rewrite Z.eqb_refl. cbn. auto.
    + assert (K := known_other e a ab NI). unfold meas_entry at 1, get1, known in K. cbn [er_measurement] in K. exact K.
  - assert (a' <> a) by (intros ->; apply NI; apply (in_map fst) in I; auto). cbn [flat_map fst snd]. destruct (meas_entry e (Some a')); cbn [app]; auto.
    cbn [find fst]. destruct (Z.eqb_spec (Z.of_nat a') (Z.of_nat a)); [lia|]. auto.
Qed.
Lemma known_clean e ab : no_gate_errors e -> no_gate_errors (known e ab). Proof. auto. Qed.

Lemma keys_combine {A B} : forall (K : list A) (F : list B), List.length K = List.length F -> map fst (combine K F) = K.
Proof. induction K as [|k K IH]; intros [|y F] H; try discriminate; auto. cbn [combine map fst]. rewrite IH; auto. Qed.
Lemma stabs_known l e b F : consistent l -> indexed l -> no_gate_errors e -> List.length F = List.length (L l) ->
  setall (combine (L l) F) (stabs_ins l e b) = stabs_ins l (known e (combine (L l) F)) b.
Proof.
  intros C X NG LF. assert (KEY := keys_combine (L l) F (eq_sym LF)). set (ab := combine (L l) F) in *. set (e' := known e ab).
  assert (NDk : NoDup (map fst ab)) by (rewrite KEY; apply seq_NoDup).
  assert (NG' : no_gate_errors e') by exact NG.
  assert (PR : forall o, setall ab (prep_ins e b (eq_of l o)) = prep_ins e' b (eq_of l o)) by (intros o; rewrite !prep_ins_clean by auto; apply setall_none; auto).
  assert (ED : forall ed, setall ab (edge_ins l e b ed) = edge_ins l e' b ed) by (intros ed; rewrite !edge_ins_clean by auto; apply setall_none; auto).
  assert (RD : forall o, In o (l_stabs l) -> setall ab (read_ins e b (eq_of l o)) = read_ins e' b (eq_of l o)).
  { intros o I. rewrite stab_eq by auto. rewrite !read_ins_clean by auto. cbn [qn]. rewrite !setall_app. f_equal; [apply setall_none; auto|]. f_equal; [|apply setall_none; auto].
    assert (IK : In (eqn l o) (map fst ab)) by (rewrite KEY; apply stab_L; auto). apply in_map_iff in IK as ([a x] & Ea & IK). cbn [fst] in Ea. subst a.
    unfold meas_flip. destruct b; [|apply setall_nil]. unfold e'. rewrite (known_entry e (eqn l o) x ab NDk IK). destruct (meas_entry e (Some (eqn l o))); cbn [flip_ins]; [|apply setall_nil]. apply setall_flip; auto. }
  unfold stabs_ins. destruct (l_steps l).
  - rewrite !setall_app, !setall_flat. f_equal; [apply flat_map_ext; auto|]. f_equal; [|apply flat_map_ext_in'; auto].
    apply flat_map_ext. intros t. rewrite setall_flat. apply flat_map_ext; auto.
  - rewrite setall_flat. apply flat_map_ext_in'. intros o I. unfold op_ins. rewrite !setall_app, setall_flat, PR, RD by auto. f_equal. f_equal. apply flat_map_ext; auto.
Qed.
Lemma known_flip e ab a p : NoDup (map fst ab) -> meas_entry (known e ab) (Some a) = Some p -> (0 <= p <= 1)%Q.
Proof.
  intros N H. destruct (in_dec Nat.eq_dec a (map fst ab)) as [I|I]; [|rewrite known_other in H by auto; discriminate].
  apply in_map_iff in I as ([a' x] & E & I). cbn [fst] in E. subst a'. rewrite (known_entry e a x ab N I) in H. destruct (meas_entry e (Some a)); [|discriminate].
  injection H as <-. destruct x; cbn [sure]; split; discriminate.
Qed.
Lemma stabs_calm n l e b : consistent l -> indexed l -> no_gate_errors e -> (forall o, In o (l_stabs l) -> eqn l o < n) ->
  (forall q, In q (dn l) -> q < n) -> 
  (l_steps l = None \/ (forall ed, In ed (l_edges l) -> e_time ed <> None -> In (e_op ed) (l_stabs l))) ->
  (b = true -> forall a p, meas_entry e (Some a) = Some p -> (0 <= p <= 1)%Q) -> Forall (calm n) (stabs_ins l e b).
Proof.
  intros C X NG BS BD BE PR. apply stabs_all; auto.
  - intros o I. repeat constructor; cbn [calm]; auto.
  - intros ed I K. assert (BO : In (e_op ed) (l_stabs l)) by (destruct BE, K as [|[? ?]]; auto; congruence). destruct (cons_ends _ C ed I) as [Dd O]. assert (A := eqn_data_lt l _ X Dd). assert (B := eqn_op_ge l _ X O). cbn [calm]. conjs; [auto|apply BD, in_seq; lia|lia].
  - intros o I. unfold meas_flip. destruct b; [destruct (meas_entry e (Some (eqn l o))) eqn:E|]; cbn [flip_ins app]; repeat constructor; cbn [calm]; auto; apply (PR eq_refl _ _ E).
Qed.
Lemma logicals_calm n l e anc is : consistent l -> indexed l -> no_gate_errors e -> (forall ed, In ed (l_edges l) -> e_factor ed <> FY) ->
  (forall i, In i is -> i < List.length (l_logicals l)) -> (forall q, In q (dn l) -> q < n) -> (anc = true -> forall o, In o (l_logicals l) -> (exists i, In i is /\ nth_error (l_logicals l) i = Some o) -> eqn l o < n) ->
  Forall (calm n) (logicals_ins l e anc is).
Proof.
  intros C X NG NY HI BD BL. unfold logicals_ins. apply Forall_flat_map, Forall_forall. intros i I. destruct (nth_error (l_logicals l) i) as [o|] eqn:E; [|constructor].
  assert (Io : In o (l_logicals l)) by (eapply nth_error_In; eauto). assert (Op := logical_op _ _ Io). unfold logical_ins. destruct anc.
  - assert (B : eqn l o < n) by (apply BL; eauto). assert (EQ : eq_of l o = Some (eqn l o)) by (apply (proj1 (eqn_vert l o X (in_equbits l o X (or_intror Op))))).
    unfold op_ins. rewrite EQ, prep_ins_clean, read_ins_clean by auto. cbn [meas_flip flip_ins qn app].
    constructor; [exact B|]. constructor; [exact B|]. apply Forall_app. split; [|repeat constructor; exact B].
    apply Forall_flat_map, Forall_forall. intros ed Ie. rewrite op_edges in Ie by auto. apply filter_In in Ie as [Ie Eo]. apply Nat.eqb_eq in Eo. rewrite edge_ins_clean by auto. constructor; [|constructor].
    destruct (cons_ends _ C ed Ie) as [Dd _]. assert (A := eqn_data_lt l _ X Dd). assert (G := eqn_op_ge l _ X Op). rewrite Eo. cbn [calm]. conjs; [auto|apply BD, in_seq; lia|lia].
  - apply Forall_flat_map, Forall_forall. intros ed Ie. rewrite op_edges in Ie by auto. apply filter_In in Ie as [Ie Eo].
    destruct (cons_ends _ C ed Ie) as [Dd _]. assert (A := eqn_data_lt l _ X Dd). assert (B : eqn l (e_data ed) < n) by (apply BD, in_seq; lia).
    unfold data_ins. fold (eqn l (e_data ed)). destruct (e_factor ed); repeat constructor; exact B.
Qed.
