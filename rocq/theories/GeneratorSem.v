(** Lemmas: the gates of a round of measurements in terms of the lattice. *)
Require Import List Bool Arith ZArith QArith Lia String Permutation.
From Verif Require Import Base BaseProofs QSpec PauliModel PauliSem PauliProofs CircuitModel SimSpec LatticeModel LatticeSpec LatticeProofs LatticeEdit LatticeOps LatticeRows
  CodesModel CodesSpec GeneratorModel GeneratorSpec StabTrack RoundProofs MemoryProofs GeneratorProofs.
Import ListNotations.
Local Open Scope string_scope.
Local Open Scope nat_scope.
Local Open Scope list_scope.

(** * Indices *)
Definition eqn (l : lattice) (i : nat) : nat := qn (eq_of l i).
Definition vert (l : lattice) (a : nat) : nat := nth a (l_equbits l) 0.
Lemma eq_nth l k i : indexed l -> nth_error (l_equbits l) k = Some i -> eq_of l i = Some k.
Proof. intros (_ & _ & _ & _ & H). apply H. Qed.
Lemma eq_data l k i : indexed l -> nth_error (l_data l) k = Some i -> eq_of l i = Some k.
Proof.
  intros X H. apply eq_nth; auto. destruct X as (_ & _ & _ & -> & _). rewrite nth_error_app1; auto. apply nth_error_Some. congruence.
Qed.
Lemma eq_stab l k i : indexed l -> nth_error (l_stabs l) k = Some i -> eq_of l i = Some (List.length (l_data l) + k).
Proof.
  intros X H. apply eq_nth; auto. destruct X as (_ & _ & _ & -> & _). rewrite nth_error_app2 by lia. rewrite nth_error_app1.
  rewrite <- H; f_equal; lia. replace (List.length (l_data l) + k - List.length (l_data l)) with k by lia. apply nth_error_Some. congruence.
Qed.
Lemma eq_logical l k i : indexed l -> nth_error (l_logicals l) k = Some i -> eq_of l i = Some (List.length (l_data l) + List.length (l_stabs l) + k).
Proof.
  intros X H. apply eq_nth; auto. destruct X as (_ & _ & _ & -> & _). rewrite nth_error_app2 by lia. rewrite nth_error_app2 by lia.
  rewrite <- H; f_equal; lia.
Qed.
Lemma in_equbits l i : indexed l -> In i (l_data l) \/ In i (l_operators l) -> In i (l_equbits l).
Proof. intros (_ & _ & _ & -> & _) H. unfold l_operators in H. rewrite !in_app_iff in *. tauto. Qed.
Lemma eqn_vert l i : indexed l -> In i (l_equbits l) -> eq_of l i = Some (eqn l i) /\ vert l (eqn l i) = i.
Proof.
  intros X I. apply In_nth_error in I as [k E]. assert (A := eq_nth l k i X E). unfold eqn. rewrite A. split; auto. cbn. apply nth_error_nth; auto.
Qed.
Lemma eqn_inj l i j : indexed l -> In i (l_equbits l) -> In j (l_equbits l) -> eqn l i = eqn l j -> i = j.
Proof. intros X A B E. apply eqn_vert in A, B; auto. destruct A as [_ <-], B as [_ <-]. congruence. Qed.
Lemma map_seq_nth {A} (f : A -> nat) m : forall l, (forall k i, nth_error l k = Some i -> f i = m + k) -> map f l = seq m (List.length l).
Proof.
  intros l. revert m. induction l as [|a l IH]; intros m H; cbn; auto. f_equal.
  - rewrite (H 0 a); auto.
  - apply IH. intros k i E. rewrite (H (S k) i); auto. lia.
Qed.
Lemma map_eqn_data l : indexed l -> map (eqn l) (l_data l) = seq 0 (List.length (l_data l)).
Proof. intros X. apply map_seq_nth. intros k i E. unfold eqn. rewrite (eq_data l k i X E). auto. Qed.
Lemma map_eqn_stabs l : indexed l -> map (eqn l) (l_stabs l) = seq (List.length (l_data l)) (List.length (l_stabs l)).
Proof. intros X. apply map_seq_nth. intros k i E. unfold eqn. rewrite (eq_stab l k i X E). auto. Qed.
Lemma eqn_data_lt l d : indexed l -> In d (l_data l) -> eqn l d < List.length (l_data l).
Proof. intros X I. apply (in_map (eqn l)) in I. rewrite map_eqn_data in I by auto. apply in_seq in I. lia. Qed.
Lemma eqn_op_ge l o : indexed l -> In o (l_operators l) -> List.length (l_data l) <= eqn l o.
Proof.
  intros X I. unfold l_operators in I. apply in_app_iff in I. destruct I as [I|I]; apply In_nth_error in I as [k E].
  - unfold eqn. rewrite (eq_stab l k o X E). cbn. lia.
  - unfold eqn. rewrite (eq_logical l k o X E). cbn. lia.
Qed.
Lemma flat_map_map {A B C} (f : A -> B) (g : B -> list C) l : flat_map g (map f l) = flat_map (fun x => g (f x)) l.
Proof. induction l; cbn; congruence. Qed.
Lemma flat_map_ext_in' {A B} (f g : A -> list B) l : (forall x, In x l -> f x = g x) -> flat_map f l = flat_map g l.
Proof. induction l; cbn; intros H; auto. rewrite H, IHl; auto. Qed.

(** * The operator measured on an ancilla *)
Definition tfun (l : lattice) (a : nat) : pfun := fun q => nth q (op_bits l (vert l a)) pid.
Lemma tfun_out l a q : List.length (l_data l) <= q -> tfun l a q = pid.
Proof. intros H. unfold tfun, op_bits. apply nth_overflow. rewrite map_length. auto. Qed.
Lemma tfun_in l a q d : nth_error (l_data l) q = Some d -> tfun l a q = pw l (vert l a) d.
Proof. intros H. unfold tfun, op_bits. apply nth_error_nth. rewrite nth_error_map, H. auto. Qed.
Lemma tfun_data_only l a : data_only (seq 0 (List.length (l_data l))) (tfun l a).
Proof. intros q H. apply tfun_out. rewrite in_seq in H. lia. Qed.
Lemma anti_map (h : nat -> nat) D f g : anti (map h D) f g = anti D (fun d => f (h d)) (fun d => g (h d)).
Proof. unfold anti. rewrite map_map. auto. Qed.
Lemma nth_pw l o d : indexed l -> In d (l_data l) -> nth (eqn l d) (op_bits l o) pid = pw l o d.
Proof.
  intros X I. apply In_nth_error in I as [k E]. unfold eqn. rewrite (eq_data l k d X E). cbn. unfold op_bits. apply nth_error_nth. rewrite nth_error_map, E. auto.
Qed.
Lemma anti_ext_in D f f' g g' : (forall d, In d D -> f d = f' d) -> (forall d, In d D -> g d = g' d) -> anti D f g = anti D f' g'.
Proof. intros H1 H2. unfold anti. f_equal. apply map_ext_in. intros d I. rewrite H1, H2; auto. Qed.
Lemma anti_bits l o p : indexed l ->
  anti (seq 0 (List.length (l_data l))) (fun q => nth q (op_bits l o) pid) (fun q => nth q (op_bits l p) pid) = anti (l_data l) (pw l o) (pw l p).
Proof.
  intros X. rewrite <- map_eqn_data by auto. rewrite anti_map. apply anti_ext_in; intros d I; apply nth_pw; auto.
Qed.

(** * Gates of a list of edges *)
Definition gate_of (l : lattice) (ed : edge) : nat * nat * factor := (eqn l (e_op ed), eqn l (e_data ed), e_factor ed).
Lemma edge_equbits l e : consistent l -> indexed l -> In e (l_edges l) -> In (e_op e) (l_equbits l) /\ In (e_data e) (l_equbits l).
Proof. intros C X I. apply (cons_ends _ C) in I as [A B]. split; apply in_equbits; auto. Qed.
Lemma gate_of_fst l e e' : consistent l -> indexed l -> In e (l_edges l) -> In e' (l_edges l) -> fst (gate_of l e) = fst (gate_of l e') -> e = e'.
Proof.
  intros C X I J E. injection E as A B. destruct (edge_equbits l e C X I), (edge_equbits l e' C X J).
  apply eqn_inj in A, B; auto. apply (edge_unique l); auto. unfold ends. congruence.
Qed.
Lemma nodup_gates l E : consistent l -> indexed l -> NoDup E -> incl E (l_edges l) -> NoDup (map fst (map (gate_of l) E)).
Proof.
  intros C X ND I. rewrite map_map. induction ND as [|e E N ND IH]; cbn; constructor.
  - intros H. apply in_map_iff in H as (e' & A & B). apply N. rewrite <- (gate_of_fst l e' e); auto. apply I; right; auto. apply I; left; auto.
  - apply IH. intros x H; apply I; right; auto.
Qed.
Lemma sfun_unique G a q p : NoDup (map fst G) -> In (a, q, p) G -> sfun G a q = fbits p.
Proof.
  induction G as [|[[c d] r] G IH]; cbn [map fst]; intros ND I; [destruct I|]. inversion ND; subst. rewrite sfun_cons. cbn [fst snd]. destruct I as [E|I].
  - injection E as -> -> ->. rewrite !Nat.eqb_refl. cbn [andb]. rewrite sfun_none, pxor_pid_r; auto. intros p' J. apply H1. apply (in_map fst) in J. auto.
  - rewrite IH by auto. destruct (Nat.eqb_spec c a), (Nat.eqb_spec d q); cbn [andb]; try apply pxor_pid_l. subst. exfalso. apply H1. apply (in_map fst) in I. auto.
Qed.
Lemma in_gates l E a q p : In (a, q, p) (map (gate_of l) E) -> exists e, In e E /\ eqn l (e_op e) = a /\ eqn l (e_data e) = q /\ e_factor e = p.
Proof. intros H. apply in_map_iff in H as (e & A & B). injection A as <- <- <-. eauto. Qed.
Lemma gates_in l E e : In e E -> In (eqn l (e_op e), eqn l (e_data e), e_factor e) (map (gate_of l) E).
Proof. intros H. apply in_map_iff. exists e. auto. Qed.
(** The operator measured by a list of edges, at the index of a data qubit. *)
Lemma sfun_edge l E e : consistent l -> indexed l -> NoDup E -> incl E (l_edges l) -> In e E ->
  sfun (map (gate_of l) E) (eqn l (e_op e)) (eqn l (e_data e)) = fbits (e_factor e).
Proof. intros C X ND I H. apply sfun_unique. apply nodup_gates; auto. apply gates_in; auto. Qed.
Lemma sfun_no_edge l E o d : consistent l -> indexed l -> incl E (l_edges l) -> In o (l_equbits l) -> In d (l_equbits l) ->
  (forall e, In e E -> ends e <> (o, d)) -> sfun (map (gate_of l) E) (eqn l o) (eqn l d) = pid.
Proof.
  intros C X I Io Id H. apply sfun_none. intros p J. apply in_gates in J as (e & Ie & A & B & _). apply (H e Ie).
  destruct (edge_equbits l e C X (I _ Ie)). apply eqn_inj in A, B; auto. unfold ends. congruence.
Qed.
Lemma sfun_tfun l E o q : consistent l -> indexed l -> NoDup E -> incl E (l_edges l) -> In o (l_operators l) ->
  (forall e, In e (l_edges l) -> e_op e = o -> In e E) -> sfun (map (gate_of l) E) (eqn l o) q = tfun l (eqn l o) q.
Proof.
  intros C X ND I Io H. assert (Q : In o (l_equbits l)) by (apply in_equbits; auto).
  destruct (le_lt_dec (List.length (l_data l)) q) as [L|L].
  - rewrite tfun_out by auto. apply sfun_none. intros p J. apply in_gates in J as (e & Ie & A & B & _).
    destruct (cons_ends _ C e (I _ Ie)) as [D _]. apply eqn_data_lt in D; auto. lia.
  - destruct (nth_error (l_data l) q) as [d|] eqn:E0; [|apply nth_error_None in E0; lia].
    assert (Id : In d (l_data l)) by (eapply nth_error_In; eauto).
    rewrite (tfun_in l _ q d E0). destruct (eqn_vert l o X Q) as [_ ->].
    replace q with (eqn l d) by (unfold eqn; rewrite (eq_data l q d X E0); auto).
    destruct (pw_cases l o d C) as [[-> N]|(e & Ie & En & ->)].
    + apply sfun_no_edge; auto. apply in_equbits; auto.
    + injection En as <- <-. apply sfun_edge; auto.
Qed.

(** * Interleaved gates *)
Definition parf (A : Type) (f : A -> bool) (l : list A) : bool := fold_right xorb false (map f l).
Arguments parf {A}.
Lemma parf_count {A} (f : A -> bool) l : parf f l = Nat.odd (List.length (filter f l)).
Proof.
  induction l as [|a l IH]; [reflexivity|]. cbn [parf map fold_right filter]. fold (parf f l). rewrite IH.
  destruct (f a); [|rewrite xorb_false_l; auto]. cbn [List.length]. rewrite Nat.odd_succ, <- Nat.negb_odd. destruct (Nat.odd _); auto.
Qed.
Lemma parf_same {A} (f : A -> bool) l m : NoDup l -> NoDup m -> (forall x, f x = true -> In x l <-> In x m) -> parf f l = parf f m.
Proof.
  intros N1 N2 H. rewrite !parf_count. f_equal. apply Permutation_length. apply NoDup_Permutation; try apply NoDup_filter; auto.
  intros x. rewrite !filter_In. specialize (H x). tauto.
Qed.
Lemma nodup_app_l {A} (l m : list A) : NoDup (l ++ m) -> NoDup l.
Proof. induction l; cbn; intros H; [constructor|]. inversion H; subst. constructor; auto. rewrite in_app_iff in *. tauto. Qed.
(** Time steps in ascending order. *)
Fixpoint ascending (E : list edge) : Prop :=
  match E with
  | [] => True
  | e :: E' => (forall e', In e' E' -> match e_time e, e_time e' with Some t, Some t' => t <= t' | _, _ => False end) /\ ascending E'
  end.
Definition crossed (l : lattice) (o0 : nat) (e : edge) : bool :=
  sp (pw l o0 (e_data e)) (fbits (e_factor e)) && before (gate_time l o0 (e_data e)) (e_time e).
Lemma gate_time_edge l e : consistent l -> In e (l_edges l) -> gate_time l (e_op e) (e_data e) = e_time e.
Proof.
  intros C I. unfold gate_time. destruct (find _ (l_edges l)) as [e'|] eqn:F.
  - apply find_some in F as [I' J]. rewrite (edge_unique l e' e); auto. apply joins_ends in J. auto.
  - exfalso. apply (find_none _ _ F) in I. rewrite !Nat.eqb_refl in I. discriminate.
Qed.
Lemma cross_crossed l o0 o : consistent l -> indexed l -> In o0 (l_operators l) -> In o (l_operators l) -> o <> o0 ->
  forall E seen, ascending E -> (forall e e', In e seen -> In e' E -> match e_time e, e_time e' with Some t, Some t' => t <= t' | _, _ => False end) ->
  NoDup (seen ++ E) -> incl (seen ++ E) (l_edges l) -> (forall e, In e (l_edges l) -> e_time e <> None -> In e (seen ++ E)) ->
  (forall e e', In e (seen ++ E) -> In e' (seen ++ E) -> e_time e = e_time e' -> e_data e = e_data e' -> e = e') ->
  (forall e, In e E -> e_time e <> None) ->
  cross (eqn l o0) (eqn l o) (map (gate_of l) seen) (map (gate_of l) E) = parf (crossed l o0) (filter (fun e => e_op e =? o) E).
Proof.
  intros C X Io0 Io NO. induction E as [|e E IH]; intros seen AS SE ND IN AL CF TM; [reflexivity|].
  cbn [map cross filter]. destruct AS as [A1 A2].
  assert (Ie : In e (l_edges l)) by (apply IN, in_app_iff; right; left; auto).
  assert (P : Permutation ((e :: seen) ++ E) (seen ++ e :: E)) by apply Permutation_middle.
  change (gate_of l e :: map (gate_of l) seen) with (map (gate_of l) (e :: seen)). rewrite (IH (e :: seen)); auto.
  - change (fst (fst (gate_of l e))) with (eqn l (e_op e)). change (snd (fst (gate_of l e))) with (eqn l (e_data e)). change (snd (gate_of l e)) with (e_factor e).
    destruct (Nat.eqb_spec (e_op e) o) as [Eo|No].
    + rewrite Eo, Nat.eqb_refl. cbn [parf map fold_right]. f_equal. unfold crossed.
      assert (Id : In (e_data e) (l_data l)) by (apply (cons_ends _ C e Ie)).
      destruct (e_time e) as [t|] eqn:Et; [|elim (TM e); [left; auto|auto]].
      destruct (pw_cases l o0 (e_data e) C) as [[-> N]|(e0 & Ie0 & En & PW)].
      * rewrite sfun_no_edge; auto; try (apply in_equbits; auto).
        { intros x Ix. apply IN, in_app_iff. auto. }
        intros e' Ie'. apply N, IN, in_app_iff. auto.
      * injection En as En1 En2.
        assert (GT : gate_time l o0 (e_data e) = e_time e0) by (rewrite <- En1, <- En2; apply gate_time_edge; auto).
        rewrite GT, PW. destruct (in_dec (fun x y : edge => ltac:(repeat decide equality) : {x = y} + {x <> y}) e0 seen) as [S0|S0].
        -- assert (I0 : incl seen (l_edges l)) by (intros x Ix; apply IN, in_app_iff; auto).
           assert (N0 : NoDup seen) by (apply nodup_app_l in ND; auto).
           assert (SF := sfun_edge l seen e0 C X N0 I0 S0). rewrite En1, En2 in SF. rewrite SF.
           assert (T0 := SE e0 e S0 (or_introl eq_refl)). rewrite Et in T0. destruct (e_time e0) as [t0|] eqn:Et0; [|tauto]. cbn [before].
           destruct (Nat.ltb_spec t0 t); [rewrite andb_true_r; auto|]. exfalso. assert (t0 = t) by lia. subst t0.
           assert (e0 = e). { apply CF; [apply in_app_iff; auto|apply in_app_iff; right; left; auto|congruence|auto]. }
           congruence.
        -- rewrite sfun_no_edge; auto; try (apply in_equbits; auto).
           ++ rewrite sp_pid_l. symmetry. apply andb_false_iff. right. destruct (e_time e0) as [t0|] eqn:Et0; [|reflexivity]. cbn [before].
              apply Nat.ltb_ge. assert (J : In e0 (seen ++ e :: E)) by (apply AL; congruence).
              apply in_app_iff in J. destruct J as [J|[->|J]]; [tauto| |].
              ** assert (t0 = t) by congruence. lia.
              ** specialize (A1 e0 J). rewrite Et0 in A1. auto.
           ++ intros x Ix. apply IN, in_app_iff. auto.
           ++ intros e' Ie' En'. apply S0. replace e0 with e'; auto. apply (edge_unique l); auto. apply IN, in_app_iff; auto. unfold ends in *. congruence.
    + destruct (Nat.eqb_spec (eqn l (e_op e)) (eqn l o)) as [Q|_]; [|apply xorb_false_l].
      exfalso. apply No. apply (eqn_inj l); auto. apply (edge_equbits l e C X Ie). apply in_equbits; auto.
  - intros x y [<-|Ix] Iy; [apply A1; auto|apply SE; auto; right; auto].
  - eapply Permutation_NoDup; [symmetry; exact P|auto].
  - intros x Ix. apply IN. eapply Permutation_in; [exact P|auto].
  - intros x Ix T. eapply Permutation_in; [symmetry; exact P|auto].
  - intros x y Ix Iy. apply CF; eapply Permutation_in; try exact P; auto.
  - intros x Ix. apply TM. right; auto.
Qed.

(** The gates of the parallel schedule. *)
Definition timed_edges (l : lattice) (n : nat) : list edge := flat_map (edges_at l) (seq 0 n).
Lemma in_edges_at l t e : In e (edges_at l t) <-> In e (l_edges l) /\ e_time e = Some t.
Proof.
  unfold edges_at. rewrite filter_In. unfold time_eqb. destruct (e_time e) as [x|]; [|split; intros [? ?]; discriminate].
  rewrite Nat.eqb_eq. split; intros [? H]; split; auto; congruence.
Qed.
Lemma in_timed l n e : In e (timed_edges l n) <-> In e (l_edges l) /\ exists t, e_time e = Some t /\ t < n.
Proof.
  unfold timed_edges. rewrite in_flat_map. split.
  - intros (t & Ht & H). apply in_edges_at in H as [A B]. apply in_seq in Ht. split; auto. exists t. split; auto. lia.
  - intros (A & t & B & Ht). exists t. split; [apply in_seq; lia|]. apply in_edges_at. auto.
Qed.
Lemma nodup_timed l n : consistent l -> NoDup (timed_edges l n).
Proof.
  intros C. unfold timed_edges. generalize 0. induction n as [|n IH]; intros m; cbn; [constructor|]. apply NoDup_app3; auto.
  - unfold edges_at. apply NoDup_filter, nodup_edges; auto.
  - intros e A B. apply in_edges_at in A as [_ A]. apply in_flat_map in B as (t & Ht & B). apply in_edges_at in B as [_ B]. apply in_seq in Ht.
    assert (m = t) by congruence. lia.
Qed.
Lemma ascending_same t E : (forall e, In e E -> e_time e = Some t) -> forall F, ascending F -> (forall e, In e F -> exists t', e_time e = Some t' /\ t <= t') -> ascending (E ++ F).
Proof.
  induction E as [|e E IH]; intros HE F AF HF; auto. cbn [app ascending]. split.
  - intros e' I. rewrite (HE e (or_introl eq_refl)). apply in_app_iff in I. destruct I as [I|I].
    + rewrite (HE e' (or_intror I)). auto.
    + destruct (HF e' I) as (t' & -> & L). auto.
  - apply IH; auto. intros; apply HE; right; auto.
Qed.
Lemma ascending_timed l n : ascending (timed_edges l n).
Proof.
  unfold timed_edges. generalize 0. induction n as [|n IH]; intros m; cbn; auto. apply (ascending_same m).
  - intros e H. apply in_edges_at in H. tauto.
  - apply IH.
  - intros e B. apply in_flat_map in B as (t & Ht & B). apply in_edges_at in B as [_ B]. apply in_seq in Ht. exists t. split; auto. lia.
Qed.
Lemma cross_timed l n s0 s : consistent l -> indexed l -> l_steps l = Some n -> conflict_free l -> interleaves l ->
  (forall e, In e (l_edges l) -> e_time e <> None -> In (e_op e) (l_stabs l)) ->
  In s0 (l_stabs l) -> In s (l_stabs l) -> s <> s0 -> cross (eqn l s0) (eqn l s) [] (map (gate_of l) (timed_edges l n)) = false.
Proof.
  intros C X LS [CF1 CF2] IL TM I0 I1 N.
  assert (AL : forall e, In e (l_edges l) -> e_time e <> None -> In e (timed_edges l n)).
  { intros e Ie T. apply in_timed. split; auto. destruct (CF1 e Ie (TM e Ie T)) as (t & n' & A & B & L). exists t. split; auto. congruence. }
  change (@nil (nat * nat * factor)) with (map (gate_of l) []). rewrite cross_crossed; auto.
  - transitivity (parf (fun d => sp (pw l s0 d) (pw l s d) && before (gate_time l s0 d) (gate_time l s d)) (map e_data (filter (fun e => e_op e =? s) (timed_edges l n)))).
    { unfold parf. rewrite map_map. f_equal. apply map_ext_in. intros e Ie. apply filter_In in Ie as [Ie Eo]. apply Nat.eqb_eq in Eo. apply in_timed in Ie as [Ie _].
      unfold crossed. rewrite <- Eo, pw_edge, gate_time_edge by auto. auto. }
    rewrite (parf_same _ _ (l_data l)).
    + rewrite parf_count. specialize (IL s0 s I0 I1). unfold crossings in IL. rewrite <- Nat.negb_even, IL. auto.
    + assert (ND := nodup_timed l n C). assert (IN : incl (timed_edges l n) (l_edges l)) by (intros x Ix; apply in_timed in Ix; tauto).
      clear - ND IN C. induction ND as [|e E Ne ND IH]; cbn; [constructor|]. assert (IN' : incl E (l_edges l)) by (intros x Ix; apply IN; right; auto).
      destruct (Nat.eqb_spec (e_op e) s); auto. cbn. constructor; auto. intros I. apply in_map_iff in I as (x & Ex & Ix). apply filter_In in Ix as [Ix Ox].
      apply Nat.eqb_eq in Ox. apply Ne. rewrite <- (edge_unique l x e); auto. apply IN; left; auto. unfold ends. congruence.
    + apply nodup_data; auto.
    + intros d Hd. apply andb_true_iff in Hd as [Hs Hb]. split.
      * intros I. apply in_map_iff in I as (x & <- & Ix). apply filter_In in Ix as [Ix _]. apply in_timed in Ix as [Ix _]. apply (cons_ends _ C x Ix).
      * intros _. destruct (pw_cases l s d C) as [[E _]|(e & Ie & En & _)]; [rewrite E, sp_pid_r in Hs; discriminate|].
        injection En as <- <-. apply in_map_iff. exists e. split; auto. apply filter_In. rewrite Nat.eqb_refl. split; auto. apply AL; auto.
        destruct (CF1 e Ie I1) as (t & _ & T & _). congruence.
  - unfold l_operators. apply in_app_iff; auto.
  - unfold l_operators. apply in_app_iff; auto.
  - apply ascending_timed.
  - intros e e' [].
  - cbn [app]. apply nodup_timed; auto.
  - intros x Ix. apply in_timed in Ix. tauto.
  - intros e e' Ie Ie' T D. cbn [app] in *. apply in_timed in Ie as [Ie (t & Te & _)], Ie' as [Ie' (t' & Te' & _)].
    apply CF2; auto; apply TM; auto; congruence.
  - intros e Ie. apply in_timed in Ie as [_ (t & -> & _)]. discriminate.
Qed.

(** * A round of measurements of the generators *)
Lemma gp_nil d we q : d = [] -> gate_pauli d we q = [].
Proof. intros ->. unfold gate_pauli. destruct we, q; auto. Qed.
Lemma gp2_nil d we a q : d = [] -> gate_pauli2 d we a q = [].
Proof. intros ->. unfold gate_pauli2. destruct we, a, q; auto. Qed.
Lemma prep_ins_clean e we q : no_gate_errors e -> prep_ins e we q = [IR (qn q); IHd (qn q)].
Proof. intros (_ & _ & H & _ & R). unfold prep_ins. rewrite !gp_nil by auto. auto. Qed.
Lemma read_ins_clean e we q : no_gate_errors e -> read_ins e we q = [IHd (qn q)] ++ flip_ins (meas_flip e we q) (qn q) ++ [IM (qn q)].
Proof. intros (_ & _ & H & M & _). unfold read_ins. rewrite !gp_nil by auto. auto. Qed.
Lemma edge_ins_clean l e we ed : no_gate_errors e -> edge_ins l e we ed = [IC (e_factor ed) (eqn l (e_op ed)) (eqn l (e_data ed))].
Proof. intros (A & B & _). unfold edge_ins. rewrite gp2_nil; auto. unfold two_dict. destruct (e_factor ed); auto. Qed.
Definition errf (e : errors) (we : bool) (a : nat) : option Q := meas_flip e we (Some a).
Lemma gates_of_map l e we E : no_gate_errors e -> flat_map (edge_ins l e we) E = gates_of (map (gate_of l) E).
Proof.
  intros NG. induction E as [|ed E IH]; auto. cbn [flat_map map]. rewrite edge_ins_clean, IH by auto. reflexivity.
Qed.
Lemma op_ins_clean l e we o : indexed l -> In o (l_operators l) -> no_gate_errors e ->
  op_ins l e we o = round_ins (errf e we) [eqn l o] (map (gate_of l) (v_edges (l_heap l o))).
Proof.
  intros X Io NG. unfold op_ins, round_ins, errf. rewrite prep_ins_clean, read_ins_clean, (gates_of_map l e we) by auto.
  destruct (eqn_vert l o X) as [E _]; [apply in_equbits; auto|]. rewrite E. cbn [flat_map qn]. rewrite !List.app_nil_r. auto.
Qed.
Definition dn (l : lattice) : list nat := seq 0 (List.length (l_data l)).
Lemma op_measures n l e we o : consistent l -> indexed l -> In o (l_operators l) -> no_gate_errors e ->
  (forall ed, In ed (l_edges l) -> e_factor ed <> FY) -> eqn l o < n ->
  measures n (dn l) (errf e we) [eqn l o] (tfun l) (op_ins l e we o).
Proof.
  intros C X Io NG NY Hn. assert (Q := in_equbits l o X (or_intror Io)). assert (GE := eqn_op_ge l o X Io).
  rewrite op_ins_clean by auto.
  assert (IN : incl (v_edges (l_heap l o)) (l_edges l)).
  { rewrite op_edges by auto. intros x Hx. apply filter_In in Hx. tauto. }
  assert (ND : NoDup (v_edges (l_heap l o))) by (apply nodup_v_edges; auto).
  assert (HG : forall a d p, In (a, d, p) (map (gate_of l) (v_edges (l_heap l o))) -> a = eqn l o /\ d < List.length (l_data l) /\ p <> FY).
  { intros a d p H. apply in_gates in H as (x & Ix & <- & <- & <-). assert (Ix' := IN _ Ix). conjs; auto.
    - rewrite op_edges in Ix by auto. apply filter_In in Ix as [_ Ox]. apply Nat.eqb_eq in Ox. congruence.
    - apply eqn_data_lt; auto. apply (cons_ends _ C x Ix'). }
  eapply measures_ext; [| |apply (measures_round n (dn l) (errf e we) [eqn l o])].
  - intros a q [<-|[]] _. apply sfun_tfun; auto. intros x Ix Ox. rewrite op_edges by auto. apply filter_In. rewrite Ox, Nat.eqb_refl. auto.
  - intros a [<-|[]] q _. apply sfun_tfun; auto. intros x Ix Ox. rewrite op_edges by auto. apply filter_In. rewrite Ox, Nat.eqb_refl. auto.
  - apply seq_NoDup.
  - repeat constructor. intros [].
  - intros a d p H. destruct (HG _ _ _ H) as (-> & Hd & Hp). conjs; auto.
    + left; auto.
    + intros [E|[]]. lia.
    + lia.
  - intros a d p H. destruct (HG _ _ _ H) as (-> & Hd & Hp). apply in_seq. lia.
  - intros a [<-|[]] H. apply in_seq in H. lia.
  - apply nodup_gates; auto.
  - intros a0 a [<-|[]] [<-|[]] H. tauto.
Qed.
Lemma in_stab_indices l a : indexed l -> In a (seq (List.length (l_data l)) (List.length (l_stabs l))) -> exists o, In o (l_stabs l) /\ eqn l o = a.
Proof. intros X H. rewrite <- map_eqn_stabs in H by auto. apply in_map_iff in H as (o & E & I). eauto. Qed.
Lemma stab_op l o : In o (l_stabs l) -> In o (l_operators l).
Proof. intros H. unfold l_operators. apply in_app_iff; auto. Qed.
Lemma logical_op l o : In o (l_logicals l) -> In o (l_operators l).
Proof. intros H. unfold l_operators. apply in_app_iff; auto. Qed.
Lemma stabs_measures n l e we : consistent l -> indexed l -> no_gate_errors e -> (forall ed, In ed (l_edges l) -> e_factor ed <> FY) ->
  (forall o, In o (l_stabs l) -> eqn l o < n) ->
  (l_steps l = None \/ conflict_free l /\ interleaves l /\ (forall ed, In ed (l_edges l) -> e_time ed <> None -> In (e_op ed) (l_stabs l))) ->
  (forall a b, In a (seq (List.length (l_data l)) (List.length (l_stabs l))) -> In b (seq (List.length (l_data l)) (List.length (l_stabs l))) -> anti (dn l) (tfun l a) (tfun l b) = false) ->
  measures n (dn l) (errf e we) (seq (List.length (l_data l)) (List.length (l_stabs l))) (tfun l) (stabs_ins l e we).
Proof.
  intros C X NG NY Hn SC CO. unfold stabs_ins. destruct (l_steps l) as [st|] eqn:LS.
  - destruct SC as [SC|(CF & IL & TM)]; [discriminate|].
    assert (IN : incl (timed_edges l st) (l_edges l)) by (intros x Hx; apply in_timed in Hx; tauto).
    assert (ND := nodup_timed l st C).
    assert (OPS : forall x, In x (timed_edges l st) -> In (e_op x) (l_stabs l)).
    { intros x Ix. apply in_timed in Ix as [Ix (t & T & _)]. apply TM; auto. congruence. }
    assert (SF : forall a q, In a (seq (List.length (l_data l)) (List.length (l_stabs l))) -> sfun (map (gate_of l) (timed_edges l st)) a q = tfun l a q).
    { intros a q Ia. destruct (in_stab_indices l a X Ia) as (o & Io & <-). apply sfun_tfun; auto using stab_op.
      intros x Ix Ox. apply in_timed. split; auto. destruct CF as [CF1 _]. subst o. destruct (CF1 x Ix Io) as (t & n' & A & B & L). exists t. split; auto. congruence. }
    replace (flat_map (fun o => prep_ins e we (eq_of l o)) (l_stabs l) ++ flat_map (fun t => flat_map (edge_ins l e we) (edges_at l t)) (seq 0 st) ++ flat_map (fun o => read_ins e we (eq_of l o)) (l_stabs l))
      with (round_ins (errf e we) (seq (List.length (l_data l)) (List.length (l_stabs l))) (map (gate_of l) (timed_edges l st))).
    + eapply measures_ext; [| |apply (measures_round n (dn l) (errf e we) (seq (List.length (l_data l)) (List.length (l_stabs l))) (map (gate_of l) (timed_edges l st)))].
      * intros a q Ia _. auto.
      * intros a Ia q _. auto.
      * apply seq_NoDup.
      * apply seq_NoDup.
      * intros a d p H. apply in_gates in H as (x & Ix & <- & <- & <-). assert (Ox := OPS x Ix). assert (Ix' := IN x Ix).
        assert (Dx := proj1 (cons_ends _ C x Ix')). assert (Dl := eqn_data_lt l _ X Dx). assert (Ge := eqn_op_ge l _ X (stab_op l _ Ox)). assert (Hx := Hn _ Ox). conjs; auto.
        -- rewrite <- map_eqn_stabs by auto. apply in_map; auto.
        -- intros H. apply in_seq in H. lia.
        -- lia.
      * intros a d p H. apply in_gates in H as (x & Ix & <- & <- & <-). apply in_seq. assert (Dl := eqn_data_lt l _ X (proj1 (cons_ends _ C x (IN x Ix)))). lia.
      * intros a Ia Da. apply in_seq in Ia, Da. lia.
      * apply nodup_gates; auto.
      * intros a0 a I0 I1 N. destruct (in_stab_indices l a0 X I0) as (s0 & J0 & <-). destruct (in_stab_indices l a X I1) as (s1 & J1 & <-).
        apply cross_timed; auto; congruence.
    + unfold round_ins. rewrite <- map_eqn_stabs by auto. rewrite !flat_map_map. f_equal; [|f_equal].
      * apply flat_map_ext_in'. intros o Io. rewrite prep_ins_clean by auto. reflexivity.
      * rewrite <- (gates_of_map l e we) by auto. unfold timed_edges. clear. induction (seq 0 st) as [|t ts IH]; cbn [flat_map]; auto. rewrite flat_map_app, IH. auto.
      * apply flat_map_ext_in'. intros o Io. rewrite read_ins_clean by auto. unfold errf.
        destruct (eqn_vert l o X (in_equbits l o X (or_intror (stab_op l o Io)))) as [-> _]. reflexivity.
  - replace (flat_map (op_ins l e we) (l_stabs l)) with (flat_map (fun a => op_ins l e we (vert l a)) (seq (List.length (l_data l)) (List.length (l_stabs l)))).
    + apply measures_seq; auto.
      * intros a Ia. destruct (in_stab_indices l a X Ia) as (o & Io & <-). destruct (eqn_vert l o X (in_equbits l o X (or_intror (stab_op l o Io)))) as [_ ->].
        apply op_measures; auto using stab_op.
      * intros a _. apply tfun_data_only.
    + rewrite <- map_eqn_stabs by auto. rewrite flat_map_map. apply flat_map_ext_in'. intros o Io.
      destruct (eqn_vert l o X (in_equbits l o X (or_intror (stab_op l o Io)))) as [_ ->]. auto.
Qed.
