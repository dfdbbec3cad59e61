(** Removal of vertices, numbering, time steps, and the compound operations. *)
Require Import List Bool Arith ZArith Lia String Permutation.
From Verif Require Import Base BaseProofs LatticeModel LatticeSpec LatticeProofs.
Import ListNotations.
Local Open Scope nat_scope.
Local Open Scope list_scope.

(** * remove_vertex *)
Definition without (i : nat) (l : list nat) : list nat := filter (fun j => negb (i =? j)) l.
Lemma in_without i j l : In j (without i l) <-> In j l /\ j <> i.
Proof.
  unfold without. rewrite filter_In. destruct (Nat.eqb_spec i j); cbn; split; intros []; split; auto; congruence.
Qed.
Lemma without_absent i l : ~ In i l -> without i l = l.
Proof. intros N. apply filter_id. intros a I. destruct (Nat.eqb_spec i a); auto. subst; contradiction. Qed.

(** The lattice without the vertex [i]. *)
Record dropped (i : nat) (l l' : lattice) : Prop := mkDropped {
  dr_shape : l_shape l' = l_shape l;
  dr_heap : l_heap l' = l_heap l;
  dr_next : l_next l' = l_next l;
  dr_edges : l_edges l' = l_edges l;
  dr_steps : l_steps l' = l_steps l;
  dr_gauge : l_gauge l' = l_gauge l;
  dr_join : l_join l' = l_join l;
  dr_vertices : l_vertices l' = without i (l_vertices l);
  dr_data : l_data l' = without i (l_data l);
  dr_stabs : l_stabs l' = without i (l_stabs l);
  dr_logicals : l_logicals l' = without i (l_logicals l);
  dr_equbits : l_equbits l' = without i (l_equbits l);
  dr_cells : forall c, l_cells l' c = match l_cells l c with Some j => if i =? j then None else Some j | None => None end }.

Lemma remove_vertex_spec l i : consistent l ->
  if memb i (l_vertices l) then
    match v_edges (l_heap l i) with
    | [] => exists l', remove_vertex i l = (l', None) /\ consistent l' /\ dropped i l l'
    | _ => remove_vertex i l = (l, Some ValueError)
    end
  else remove_vertex i l = (l, Some AssertionError).
Proof.
  intros C. destruct (memb i (l_vertices l)) eqn:M.
  2:{ unfold remove_vertex, seqE at 1, assertE. rewrite M. auto. }
  assert (I : In i (l_vertices l)) by (apply memb_In; auto).
  destruct (cons_valid _ C i I) as [c Hc].
  assert (Hi : l_cells l c = Some i) by (apply C; auto).
  pose proof (lookup_ok _ _ _ Hc) as HL. rewrite Hi in HL.
  assert (LN : (List.length (v_neighbours (l_heap l i)) =? List.length (v_edges (l_heap l i))) = true).
  { rewrite (cons_neighbours _ C), map_length. apply Nat.eqb_refl. }
  unfold remove_vertex. rewrite seq_assert by auto.
  rewrite (seq_step _ _ _ l) by (cbn beta; rewrite HL, Nat.eqb_refl; auto). rewrite seq_assert by auto.
  destruct (v_edges (l_heap l i)) as [|e0 es] eqn:VE.
  2:{ apply seq_fail. rewrite VE. auto. }
  rewrite (seq_step _ _ _ l) by (rewrite VE; auto).
  assert (NDd : NoDup (l_data l)) by (rewrite (cons_data _ C); apply NoDup_filter, C).
  assert (NDs : NoDup (l_stabs l)) by (rewrite (cons_stabs _ C); apply NoDup_filter, C).
  assert (NDl : NoDup (l_logicals l)) by (rewrite (cons_logicals _ C); apply NoDup_filter, C).
  (* the class list *)
  set (k := v_kind (l_heap l i)) in *.
  set (l1 := match k with KData => set_data (without i (l_data l)) l | KStab _ => set_stabs (without i (l_stabs l)) l
             | KLogical _ => set_logicals (without i (l_logicals l)) l end).
  rewrite (seq_step _ _ _ l1).
  2:{ unfold l1. fold k. destruct k eqn:K; apply del_filter; auto using Nat.eqb_eq.
      - apply in_data; auto. split; auto. unfold is_data. fold k. rewrite K. auto.
      - apply in_stabs; auto. split; auto. unfold is_stab. fold k. rewrite K. auto.
      - apply in_logicals; auto. split; auto. unfold is_logical. fold k. rewrite K. auto. }
  assert (H1 : l_heap l1 = l_heap l) by (unfold l1; destruct k; reflexivity).
  assert (V1 : l_vertices l1 = l_vertices l) by (unfold l1; destruct k; reflexivity).
  assert (Q1 : l_equbits l1 = l_equbits l) by (unfold l1; destruct k; reflexivity).
  set (l2 := match v_equbit (l_heap l i) with Some _ => set_equbits (without i (l_equbits l)) l1 | None => l1 end).
  rewrite (seq_step _ _ _ l2).
  2:{ unfold l2. rewrite H1. destruct (v_equbit (l_heap l i)) eqn:EQ; auto. rewrite <- Q1. apply del_filter; auto using Nat.eqb_eq.
      - rewrite Q1. apply C.
      - rewrite Q1. apply C. split; auto. congruence. }
  assert (V2 : l_vertices l2 = l_vertices l) by (unfold l2; destruct (v_equbit (l_heap l i)); auto).
  assert (H2 : l_heap l2 = l_heap l) by (unfold l2; destruct (v_equbit (l_heap l i)); auto).
  rewrite seq_del by (rewrite ?V2; auto using Nat.eqb_eq; apply C). rewrite V2.
  unfold modify. eexists. split; [reflexivity|].
  match goal with |- consistent ?L /\ _ => set (l' := L) end.
  fold (without i (l_vertices l)) in l'.
  assert (HC : cell_of (l_shape l2) (v_pos (l_heap l i)) = Some c).
  { unfold l2, l1. destruct (v_equbit (l_heap l i)), k; exact Hc. }
  assert (D : dropped i l l').
  { unfold l', assign_cell. cbn [l_heap set_vertices l_shape]. rewrite H2, HC.
    assert (Nk : forall f, (forall j, In j (f l) -> In j (l_vertices l) /\ v_kind (l_heap l j) <> k) -> without i (f l) = f l).
    { intros f Hf. apply without_absent. intros J. apply Hf in J. unfold k in J. tauto. }
    assert (Wd : k <> KData -> without i (l_data l) = l_data l).
    { intros K. apply (Nk l_data). intros j J. apply in_data in J as [J1 J2]; auto. split; auto. unfold is_data in J2. destruct (v_kind (l_heap l j)); congruence. }
    assert (Ws : (forall g, k <> KStab g) -> without i (l_stabs l) = l_stabs l).
    { intros K. apply (Nk l_stabs). intros j J. apply in_stabs in J as [J1 J2]; auto. split; auto. unfold is_stab in J2. destruct (v_kind (l_heap l j)); congruence. }
    assert (Wl : (forall n, k <> KLogical n) -> without i (l_logicals l) = l_logicals l).
    { intros K. apply (Nk l_logicals). intros j J. apply in_logicals in J as [J1 J2]; auto. split; auto. unfold is_logical in J2. destruct (v_kind (l_heap l j)); congruence. }
    assert (We : v_equbit (l_heap l i) = None -> without i (l_equbits l) = l_equbits l).
    { intros K. apply without_absent. intros J. apply C in J. tauto. }
    constructor; cbn [l_shape l_heap l_next l_edges l_steps l_gauge l_join l_vertices l_data l_stabs l_logicals l_equbits l_cells set_cells set_vertices];
      try (unfold l2, l1; destruct (v_equbit (l_heap l i)), k; reflexivity); auto.
    - unfold l2, l1. destruct (v_equbit (l_heap l i)), k; cbn; auto; symmetry; apply Wd; congruence.
    - unfold l2, l1. destruct (v_equbit (l_heap l i)), k; cbn; auto; symmetry; apply Ws; congruence.
    - unfold l2, l1. destruct (v_equbit (l_heap l i)), k; cbn; auto; symmetry; apply Wl; congruence.
    - unfold l2, l1. destruct (v_equbit (l_heap l i)) eqn:EQ, k; cbn; auto; symmetry; apply We; auto.
    - intros c'.
      replace (l_cells l2) with (l_cells l) by (unfold l2, l1; destruct (v_equbit (l_heap l i)), k; reflexivity).
      destruct (pos_eqb c c') eqn:Ec.
      + apply pos_eqb_eq in Ec. subst c'. rewrite Hi, Nat.eqb_refl. auto.
      + destruct (l_cells l c') as [j|] eqn:Ej; auto. destruct (Nat.eqb_spec i j); auto. subst j.
        apply C in Ej as [_ Ej]. rewrite Hc in Ej. injection Ej as <-. rewrite pos_eqb_refl in Ec. discriminate. }
  split; auto.
  clearbody l'. clear l1 l2 H1 V1 Q1 V2 H2 HC. destruct D.
  assert (WF : forall f : nat -> bool, without i (filter f (l_vertices l)) = filter f (without i (l_vertices l))).
  { intros f. apply filter_comm. }
  constructor.
  - intros x. rewrite dr_vertices0, dr_next0, in_without. intros [X _]. apply C; auto.
  - rewrite dr_vertices0. apply NoDup_filter, C.
  - rewrite dr_data0, dr_vertices0, dr_heap0, (cons_data _ C). apply WF.
  - rewrite dr_stabs0, dr_vertices0, dr_heap0, (cons_stabs _ C). apply WF.
  - rewrite dr_logicals0, dr_vertices0, dr_heap0, (cons_logicals _ C). apply WF.
  - intros x. rewrite dr_heap0, dr_edges0. apply C.
  - intros x. rewrite dr_heap0. apply C.
  - intros e. rewrite dr_edges0. intros J. destruct (cons_ends _ C e J) as [A B].
    assert (T : touches i e = false).
    { destruct (touches i e) eqn:T; auto. exfalso.
      assert (In e (v_edges (l_heap l i))) by (rewrite (cons_edges _ C); apply filter_In; auto). rewrite VE in H. destruct H. }
    unfold touches in T. apply orb_false_iff in T as [T1 T2]. apply Nat.eqb_neq in T1, T2.
    unfold l_operators in *. rewrite dr_data0, dr_stabs0, dr_logicals0, in_app_iff, !in_without. rewrite in_app_iff in B. tauto.
  - rewrite dr_edges0. apply C.
  - intros x. rewrite dr_vertices0, dr_shape0, dr_heap0, in_without. intros [X _]. apply C; auto.
  - intros c' x. rewrite dr_cells0, dr_vertices0, dr_shape0, dr_heap0, in_without. split.
    + destruct (l_cells l c') as [j|] eqn:Ej; [|discriminate]. destruct (Nat.eqb_spec i j); [discriminate|].
      intros E. injection E as <-. apply C in Ej. intuition congruence.
    + intros [[X1 X2] X3]. assert (E : l_cells l c' = Some x) by (apply C; auto). rewrite E.
      destruct (Nat.eqb_spec i x); congruence.
  - rewrite dr_equbits0. apply NoDup_filter, C.
  - intros x. rewrite dr_equbits0, dr_vertices0, dr_heap0, !in_without, (cons_equbits _ C). tauto.
Qed.

(** * assign_indices *)
(** Renumbering changes only the named attribute. *)
Lemma number_fields put is : forall n l,
  let l' := number_from n put is l in
  l_shape l' = l_shape l /\ l_cells l' = l_cells l /\ l_next l' = l_next l /\ l_vertices l' = l_vertices l /\
  l_data l' = l_data l /\ l_stabs l' = l_stabs l /\ l_logicals l' = l_logicals l /\ l_equbits l' = l_equbits l /\
  l_edges l' = l_edges l /\ l_steps l' = l_steps l /\ l_gauge l' = l_gauge l /\ l_join l' = l_join l.
Proof. induction is; intros n l; cbn. repeat split. destruct (IHis (S n) (change a (put (Some n)) l)) as (? & ? & ? & ? & ? & ? & ? & ? & ? & ? & ? & ?).
  repeat split; auto. Qed.
Lemma number_absent put is : forall n l i, ~ In i is -> l_heap (number_from n put is l) i = l_heap l i.
Proof.
  induction is; intros n l i N; cbn; auto. rewrite IHis by (intros I; apply N; right; auto).
  apply change_other. intros ->; apply N; left; auto.
Qed.
Lemma number_nth put is : forall n l k i, NoDup is -> nth_error is k = Some i ->
  l_heap (number_from n put is l) i = put (Some (n + k)) (l_heap l i).
Proof.
  induction is; intros n l k i ND E; [destruct k; discriminate|]. inversion ND; subst. destruct k; cbn in *.
  - injection E as ->. rewrite number_absent by auto. rewrite change_same. rewrite Nat.add_0_r. auto.
  - rewrite (IHis (S n) _ k i); auto. rewrite change_other; [f_equal; f_equal; lia|].
    intros ->. apply H1. eapply nth_error_In; eauto.
Qed.
Lemma number_heap put is n l i : NoDup is ->
  l_heap (number_from n put is l) i = l_heap l i \/ exists k, nth_error is k = Some i /\ l_heap (number_from n put is l) i = put (Some (n + k)) (l_heap l i).
Proof.
  intros ND. destruct (in_dec Nat.eq_dec i is) as [I|N].
  - right. apply In_nth_error in I as [k E]. exists k. split; auto. apply number_nth; auto.
  - left. apply number_absent; auto.
Qed.

Lemma nodup_data l : consistent l -> NoDup (l_data l).
Proof. intros C. rewrite (cons_data _ C). apply NoDup_filter, C. Qed.
Lemma nodup_stabs l : consistent l -> NoDup (l_stabs l).
Proof. intros C. rewrite (cons_stabs _ C). apply NoDup_filter, C. Qed.
Lemma nodup_logicals l : consistent l -> NoDup (l_logicals l).
Proof. intros C. rewrite (cons_logicals _ C). apply NoDup_filter, C. Qed.
Lemma NoDup_app3 {A} (a b : list A) : NoDup a -> NoDup b -> (forall x, In x a -> In x b -> False) -> NoDup (a ++ b).
Proof.
  induction a; simpl; intros; auto. inversion H; subst. constructor.
  - rewrite in_app_iff. intros [I|I]; auto. eapply H1; eauto.
  - apply IHa; auto. intros; eapply H1; eauto.
Qed.
Lemma NoDup_app_inv {A} (a b : list A) : NoDup (a ++ b) -> NoDup a /\ NoDup b /\ forall x, In x a -> In x b -> False.
Proof.
  induction a; simpl; intros H. repeat split; auto. constructor.
  inversion H; subst. destruct (IHa H3) as (A1 & A2 & A3). rewrite in_app_iff in H2. repeat split; auto.
  constructor; tauto. intros x [->|I] J; eauto.
Qed.
Lemma nodup_operators l : consistent l -> NoDup (l_operators l).
Proof.
  intros C. apply NoDup_app3. apply nodup_stabs; auto. apply nodup_logicals; auto.
  intros x A B. apply in_stabs in A; auto. apply in_logicals in B; auto. unfold is_stab, is_logical in *. destruct A as [_ A], B as [_ B].
  destruct (v_kind (l_heap l x)); congruence.
Qed.
Lemma nodup_all l : consistent l -> NoDup (l_data l ++ l_stabs l ++ l_logicals l).
Proof.
  intros C. apply NoDup_app3. apply nodup_data; auto. apply nodup_operators; auto. intros; eapply data_not_op; eauto.
Qed.
Lemma in_all l i : consistent l -> In i (l_data l ++ l_stabs l ++ l_logicals l) <-> In i (l_vertices l).
Proof.
  intros C. rewrite !in_app_iff, in_data, in_stabs, in_logicals by auto. unfold is_data, is_stab, is_logical.
  destruct (v_kind (l_heap l i)); intuition congruence.
Qed.

(** Only the indices of vertices and the list of extended qubits change. *)
Record renumbered (l l' : lattice) : Prop := mkRenumbered {
  rn_shape : l_shape l' = l_shape l;
  rn_cells : l_cells l' = l_cells l;
  rn_next : l_next l' = l_next l;
  rn_vertices : l_vertices l' = l_vertices l;
  rn_data : l_data l' = l_data l;
  rn_stabs : l_stabs l' = l_stabs l;
  rn_logicals : l_logicals l' = l_logicals l;
  rn_edges : l_edges l' = l_edges l;
  rn_steps : l_steps l' = l_steps l;
  rn_gauge : l_gauge l' = l_gauge l;
  rn_join : l_join l' = l_join l;
  rn_kind : forall i, v_kind (l_heap l' i) = v_kind (l_heap l i);
  rn_pos : forall i, v_pos (l_heap l' i) = v_pos (l_heap l i);
  rn_v_edges : forall i, v_edges (l_heap l' i) = v_edges (l_heap l i);
  rn_neighbours : forall i, v_neighbours (l_heap l' i) = v_neighbours (l_heap l i) }.

Lemma assign_indices_spec l : consistent l ->
  consistent (assign_indices l) /\ renumbered l (assign_indices l) /\ indexed (assign_indices l).
Proof.
  intros C. unfold assign_indices.
  set (l1 := number_from 0 put_index (l_data l) l).
  pose proof (number_fields put_index (l_data l) 0 l) as F1. fold l1 in F1. cbv zeta in F1.
  set (l2 := number_from 0 put_index (l_stabs l1) l1).
  pose proof (number_fields put_index (l_stabs l1) 0 l1) as F2. fold l2 in F2. cbv zeta in F2.
  set (l3 := number_from 0 put_index (l_logicals l2) l2).
  pose proof (number_fields put_index (l_logicals l2) 0 l2) as F3. fold l3 in F3. cbv zeta in F3.
  set (all := l_data l3 ++ l_stabs l3 ++ l_logicals l3).
  set (l4 := number_from 0 put_equbit all l3).
  pose proof (number_fields put_equbit all 0 l3) as F4. fold l4 in F4. cbv zeta in F4.
  destruct F1 as (S1 & Ce1 & Nx1 & V1 & D1 & St1 & Lo1 & Q1 & Ed1 & Ts1 & G1 & J1).
  destruct F2 as (S2 & Ce2 & Nx2 & V2 & D2 & St2 & Lo2 & Q2 & Ed2 & Ts2 & G2 & J2).
  destruct F3 as (S3 & Ce3 & Nx3 & V3 & D3 & St3 & Lo3 & Q3 & Ed3 & Ts3 & G3 & J3).
  destruct F4 as (S4 & Ce4 & Nx4 & V4 & D4 & St4 & Lo4 & Q4 & Ed4 & Ts4 & G4 & J4).
  assert (Dl : l_data l3 = l_data l) by congruence.
  assert (Sl : l_stabs l3 = l_stabs l) by congruence.
  assert (Ll : l_logicals l3 = l_logicals l) by congruence.
  assert (Al : all = l_data l ++ l_stabs l ++ l_logicals l) by (unfold all; congruence).
  assert (NDs : NoDup (l_stabs l1)) by (rewrite St1; apply nodup_stabs; auto).
  assert (NDl : NoDup (l_logicals l2)) by (rewrite Lo2, Lo1; apply nodup_logicals; auto).
  assert (NDa : NoDup all) by (rewrite Al; apply nodup_all; auto).
  assert (H1 := fun i => number_heap put_index (l_data l) 0 l i (nodup_data l C)). fold l1 in H1.
  assert (H2 := fun i => number_heap put_index (l_stabs l1) 0 l1 i NDs). fold l2 in H2.
  assert (H3 := fun i => number_heap put_index (l_logicals l2) 0 l2 i NDl). fold l3 in H3.
  assert (H4 := fun i => number_heap put_equbit all 0 l3 i NDa). fold l4 in H4.
  assert (Same : forall i, v_kind (l_heap l4 i) = v_kind (l_heap l i) /\ v_pos (l_heap l4 i) = v_pos (l_heap l i) /\
    v_edges (l_heap l4 i) = v_edges (l_heap l i) /\ v_neighbours (l_heap l4 i) = v_neighbours (l_heap l i)).
  { intros i. destruct (H4 i) as [->|(k4 & _ & ->)]; cbn [v_kind v_pos v_edges v_neighbours put_equbit];
    destruct (H3 i) as [->|(k3 & _ & ->)]; cbn [v_kind v_pos v_edges v_neighbours put_index];
    destruct (H2 i) as [->|(k2 & _ & ->)]; cbn [v_kind v_pos v_edges v_neighbours put_index];
    destruct (H1 i) as [->|(k1 & _ & ->)]; cbn [v_kind v_pos v_edges v_neighbours put_index]; auto. }
  set (l' := set_equbits all l4).
  assert (R : renumbered l l').
  { unfold l'. constructor; cbn [l_shape l_cells l_next l_vertices l_data l_stabs l_logicals l_edges l_steps l_gauge l_join l_heap set_equbits]; try congruence; intros i; apply Same. }
  assert (Eq : forall k i, nth_error all k = Some i -> v_equbit (l_heap l' i) = Some k).
  { intros k i E. unfold l'. cbn [l_heap set_equbits]. unfold l4. rewrite (number_nth put_equbit all 0 l3 k i); auto. }
  assert (Eq0 : forall i, In i (l_vertices l) -> v_equbit (l_heap l' i) <> None).
  { intros i I. apply (in_all l i C) in I. rewrite <- Al in I. apply In_nth_error in I as [k E]. rewrite (Eq k i E). discriminate. }
  split; [|split; auto].
  - constructor.
    + rewrite (rn_vertices _ _ R), (rn_next _ _ R). apply C.
    + rewrite (rn_vertices _ _ R). apply C.
    + rewrite (rn_data _ _ R), (rn_vertices _ _ R), (cons_data _ C). apply filter_ext. intros i. unfold is_data. rewrite (rn_kind _ _ R). auto.
    + rewrite (rn_stabs _ _ R), (rn_vertices _ _ R), (cons_stabs _ C). apply filter_ext. intros i. unfold is_stab. rewrite (rn_kind _ _ R). auto.
    + rewrite (rn_logicals _ _ R), (rn_vertices _ _ R), (cons_logicals _ C). apply filter_ext. intros i. unfold is_logical. rewrite (rn_kind _ _ R). auto.
    + intros i. rewrite (rn_v_edges _ _ R), (rn_edges _ _ R). apply C.
    + intros i. rewrite (rn_neighbours _ _ R), (rn_v_edges _ _ R). apply C.
    + intros e. unfold l_operators. rewrite (rn_edges _ _ R), (rn_data _ _ R), (rn_stabs _ _ R), (rn_logicals _ _ R). apply C.
    + rewrite (rn_edges _ _ R). apply C.
    + intros i. rewrite (rn_vertices _ _ R), (rn_shape _ _ R), (rn_pos _ _ R). apply C.
    + intros c i. rewrite (rn_cells _ _ R), (rn_vertices _ _ R), (rn_shape _ _ R), (rn_pos _ _ R). apply C.
    + exact NDa.
    + intros i. change (l_equbits l') with all. rewrite Al, (in_all l i C), (rn_vertices _ _ R). split; [|tauto]. intros I; auto.
  - split; [|split; [|split; [|split]]].
    + intros k i E. rewrite (rn_data _ _ R) in E. unfold l'. cbn [l_heap set_equbits].
      assert (v_index (l_heap l3 i) = Some k) as <-.
      2:{ destruct (H4 i) as [->|(k4 & _ & ->)]; auto. }
      unfold l3. rewrite number_absent.
      2:{ rewrite Lo2, Lo1. intros I. apply nth_error_In in E. eapply (data_not_op l i C); auto. unfold l_operators. apply in_app_iff; auto. }
      unfold l2. rewrite number_absent.
      2:{ rewrite St1. intros I. apply nth_error_In in E. eapply (data_not_op l i C); auto. unfold l_operators. apply in_app_iff; auto. }
      unfold l1. rewrite (number_nth put_index (l_data l) 0 l k i); auto. apply nodup_data; auto.
    + intros k i E. rewrite (rn_stabs _ _ R) in E. unfold l'. cbn [l_heap set_equbits].
      assert (v_index (l_heap l3 i) = Some k) as <-.
      2:{ destruct (H4 i) as [->|(k4 & _ & ->)]; auto. }
      unfold l3. rewrite number_absent.
      2:{ rewrite Lo2, Lo1. intros I. apply nth_error_In in E. apply in_stabs in E; auto. apply in_logicals in I; auto.
          unfold is_stab, is_logical in *. destruct E, I. destruct (v_kind (l_heap l i)); congruence. }
      unfold l2. rewrite (number_nth put_index (l_stabs l1) 0 l1 k i); auto. rewrite St1; auto.
    + intros k i E. rewrite (rn_logicals _ _ R) in E. unfold l'. cbn [l_heap set_equbits].
      assert (v_index (l_heap l3 i) = Some k) as <-.
      2:{ destruct (H4 i) as [->|(k4 & _ & ->)]; auto. }
      unfold l3. rewrite (number_nth put_index (l_logicals l2) 0 l2 k i); auto. congruence.
    + rewrite (rn_data _ _ R), (rn_stabs _ _ R), (rn_logicals _ _ R). exact Al.
    + exact Eq.
Qed.

(** * Time steps *)
Lemma consistent_steps x l : consistent l -> consistent (set_steps x l).
Proof. intros []; constructor; auto. Qed.
Lemma consistent_gauge x l : consistent l -> consistent (set_gauge x l).
Proof. intros []; constructor; auto. Qed.
Lemma consistent_join x l : consistent l -> consistent (set_join x l).
Proof. intros []; constructor; auto. Qed.

Lemma retime_neq e t e' : e <> e' -> retime_in e t e' = e'.
Proof. intros N. unfold retime_in. apply edge_eqb_neq in N. rewrite N. auto. Qed.

(** A loop which may set the time of the current edge and may raise. *)
Definition timing (g : edge -> eff) : Prop := forall e l, exists x, g e l = (match fst x with Some t => set_time e t l | None => l end, snd x).
Lemma timing_loop g es : timing g -> forall l, consistent l -> NoDup es -> (forall e, In e es -> In e (l_edges l)) ->
  let r := forE g es l in consistent (fst r) /\ frame l (fst r).
Proof.
  intros T. induction es as [|e es IH]; intros l C ND I; cbv zeta.
  - cbn. split; auto. apply frame_refl.
  - cbn [forE]. unfold seqE. destruct (T e l) as [[t x] E]. cbn [fst snd] in E. rewrite E. inversion ND; subst.
    assert (A : consistent (match t with Some t => set_time e t l | None => l end) /\
                frame l (match t with Some t => set_time e t l | None => l end) /\
                forall e', In e' es -> In e' (l_edges (match t with Some t => set_time e t l | None => l end))).
    { destruct t as [t|].
      - destruct (set_time_spec l e t C (I e (or_introl eq_refl))) as (A1 & A2 & A3). split; [auto|split; [auto|]].
        intros e' Ie'. rewrite A3. rewrite <- (retime_neq e t e') by congruence. apply in_map. apply I; right; auto.
      - split; auto. split. apply frame_refl. intros; apply I; right; auto. }
    destruct A as (A1 & A2 & A3).
    destruct x as [x|]; cbn [fst]; auto.
    destruct (IH _ A1 H2 A3) as [B1 B2]. split; auto. eapply frame_trans; eauto.
Qed.
(** A loop which sets the times given by [F]. *)
Definition retimed (F : edge -> option nat) (e : edge) : edge := match F e with Some t => retime e t | None => e end.
Lemma timing_loop_exact g F l0 : forall todo l,
  (forall e l', In e todo -> frame l0 l' -> g e l' = (match F e with Some t => set_time e t l' | None => l' end, None)) ->
  consistent l -> frame l0 l ->
  forall done, l_edges l = done ++ todo ->
  exists l', forE g todo l = (l', None) /\ consistent l' /\ frame l0 l' /\ l_edges l' = done ++ map (retimed F) todo.
Proof.
  induction todo as [|e todo IH]; intros l G C Fr done E.
  - exists l. split; [auto|split; [auto|split; [auto|cbn; auto]]].
  - cbn [forE]. assert (I : In e (l_edges l)) by (rewrite E; apply in_app_iff; right; left; auto).
    rewrite (seq_step _ _ _ (match F e with Some t => set_time e t l | None => l end)) by (apply G; [left|]; auto).
    pose proof (nodup_edges l C) as ND. rewrite E in ND.
    assert (N1 : ~ In e done) by (apply NoDup_remove_2 in ND; rewrite in_app_iff in ND; tauto).
    assert (N2 : ~ In e todo) by (apply NoDup_remove_2 in ND; rewrite in_app_iff in ND; tauto).
    assert (exists l', (match F e with Some t => set_time e t l | None => l end) = l' /\ consistent l' /\ frame l0 l' /\
                       l_edges l' = (done ++ [retimed F e]) ++ todo) as (l' & -> & C' & F' & E').
    { unfold retimed. destruct (F e) as [t|].
      - destruct (set_time_spec l e t C I) as (A1 & A2 & A3). eexists; split; [reflexivity|]. split; auto. split. eapply frame_trans; eauto.
        rewrite A3, E, map_app. cbn [map]. rewrite !map_retime_absent by auto. unfold retime_in. rewrite edge_eqb_refl.
        rewrite <- app_assoc. auto.
      - exists l. split; auto. split; auto. split; auto. rewrite <- app_assoc. auto. }
    destruct (IH l') with (done := done ++ [retimed F e]) as (l'' & A & B & D & G'); auto.
    { intros; apply G; auto. right; auto. }
    exists l''. split; [auto|split; [auto|split; [auto|]]]. rewrite G', <- app_assoc. auto.
Qed.

Lemma order_timing order : timing (order_edge order).
Proof.
  intros e l. unfold order_edge. destruct (negb (is_stab (l_heap l (e_op e)))). exists (None, None); auto.
  cbv zeta. destruct (index_of _ order) as [t|]. exists (Some t, None); auto. exists (None, Some ValueError); auto.
Qed.
Lemma consistent_order order l : consistent l -> consistent (fst (assign_stab_edge_order order l)) /\
  frame (set_steps (Some (List.length order)) l) (fst (assign_stab_edge_order order l)).
Proof.
  intros C. unfold assign_stab_edge_order. apply timing_loop; auto using order_timing, consistent_steps.
  apply (nodup_edges l C).
Qed.

(** * Compound operations *)
(** Vertices outside of [gone] stay in the lattice; vertices keep their class. *)
Record keeps (gone : list nat) (l l' : lattice) : Prop := mkKeeps {
  kp_kind : forall i, v_kind (l_heap l' i) = v_kind (l_heap l i);
  kp_live : forall i, In i (l_vertices l) -> In i gone \/ In i (l_vertices l') }.
Lemma keeps_refl S l : keeps S l l.
Proof. constructor; auto. Qed.
Lemma keeps_trans S a b c : keeps S a b -> keeps S b c -> keeps S a c.
Proof.
  intros [A1 A2] [B1 B2]. constructor; intros. etransitivity; eauto. destruct (A2 i H); auto.
Qed.
Lemma keeps_weaken S S' l l' : (forall i, In i S -> In i S') -> keeps S l l' -> keeps S' l l'.
Proof. intros W [A B]. constructor; auto. intros i I. destruct (B i I); auto. Qed.
Lemma frame_keeps S l l' : frame l l' -> keeps S l l'.
Proof. intros F. constructor. apply F. intros i I. right. rewrite (fr_vertices _ _ F). auto. Qed.
Lemma dropped_keeps i l l' : dropped i l l' -> keeps [i] l l'.
Proof.
  intros D. constructor. intros; rewrite (dr_heap _ _ _ D); auto. intros j J. rewrite (dr_vertices _ _ _ D), in_without.
  destruct (Nat.eq_dec j i); [left; left; auto|auto].
Qed.
Lemma renumbered_keeps S l l' : renumbered l l' -> keeps S l l'.
Proof. intros D. constructor. apply D. intros i I. right. rewrite (rn_vertices _ _ D). auto. Qed.

Lemma keeps_data S l l' i : consistent l -> consistent l' -> keeps S l l' -> In i (l_data l) -> ~ In i S -> In i (l_data l').
Proof.
  intros C C' [K L] I N. apply in_data in I as [I1 I2]; auto. apply in_data; auto. destruct (L i I1); [contradiction|].
  split; auto. unfold is_data in *. rewrite K. auto.
Qed.
Lemma keeps_operators S l l' i : consistent l -> consistent l' -> keeps S l l' -> In i (l_operators l) -> ~ In i S -> In i (l_operators l').
Proof.
  intros C C' [K L] I N. apply in_operators in I as [I1 I2]; auto. apply in_operators; auto. destruct (L i I1); [contradiction|].
  split; auto. unfold is_data in *. rewrite K. auto.
Qed.

Definition safe (gone : list nat) (a : eff) (l : lattice) : Prop := consistent (fst (a l)) /\ keeps gone l (fst (a l)).
Lemma safe_seq S a b l : safe S a l -> (forall l', a l = (l', None) -> consistent l' -> keeps S l l' -> safe S b l') -> safe S (seqE a b) l.
Proof.
  intros [A1 A2] B. unfold safe, seqE. destruct (a l) as [l' [e|]] eqn:E; cbn [fst] in *; auto.
  destruct (B l' eq_refl A1 A2) as [B1 B2]. split; auto. eapply keeps_trans; eauto.
Qed.
Lemma safe_for {A} S (f : A -> eff) xs : forall l, consistent l ->
  (forall x l', In x xs -> consistent l' -> keeps S l l' -> safe S (f x) l') -> safe S (forE f xs) l.
Proof.
  induction xs as [|x xs IH]; intros l C H. split; auto. apply keeps_refl.
  cbn [forE]. apply safe_seq. apply H; auto. left; auto. apply keeps_refl.
  intros l' _ C' K. apply IH; auto. intros y l'' I C'' K''. apply H; auto. right; auto. eapply keeps_trans; eauto.
Qed.
Lemma safe_assert S c l : consistent l -> safe S (assertE c) l.
Proof. intros C. unfold safe, assertE. destruct (c l); split; auto using keeps_refl. Qed.
Lemma safe_raise S e l : consistent l -> safe S (raise e) l.
Proof. intros C. split; auto using keeps_refl. Qed.
Lemma safe_weaken S S' a l : (forall i, In i S -> In i S') -> safe S a l -> safe S' a l.
Proof. intros W [A B]. split; auto. eapply keeps_weaken; eauto. Qed.

Lemma safe_add_edge S d o f l : consistent l -> In d (l_data l) -> In o (l_operators l) -> safe S (add_edge d o f) l.
Proof.
  intros C D O. pose proof (add_edge_spec l d o f C D O) as H. destruct (existsb (joins o d) (l_edges l)).
  - unfold safe. rewrite H. split; auto using keeps_refl.
  - destruct H as (l' & E & C' & F & _). unfold safe. rewrite E. split; auto using frame_keeps.
Qed.
Lemma safe_remove_edge S e l : consistent l -> safe S (remove_edge e) l.
Proof.
  intros C. pose proof (remove_edge_spec l e C) as H. destruct (existsb (edge_eqb e) (l_edges l)).
  - destruct H as (l' & E & C' & F & _). unfold safe. rewrite E. split; auto using frame_keeps.
  - unfold safe. rewrite H. split; auto using keeps_refl.
Qed.
Lemma safe_remove_vertex i l : consistent l -> safe [i] (remove_vertex i) l.
Proof.
  intros C. pose proof (remove_vertex_spec l i C) as H. destruct (memb i (l_vertices l)).
  - destruct (v_edges (l_heap l i)).
    + destruct H as (l' & E & C' & F). unfold safe. rewrite E. split; auto using dropped_keeps.
    + unfold safe. rewrite H. split; auto using keeps_refl.
  - unfold safe. rewrite H. split; auto using keeps_refl.
Qed.
Lemma safe_toggle S o e l : consistent l -> In (e_data e) (l_data l) -> In o (l_operators l) -> safe S (toggle_edge o e) l.
Proof.
  intros C D O. unfold safe, toggle_edge. destruct (memb (e_data e) (v_neighbours (l_heap l o))).
  - destruct (edge_at _ _) as [e2|]; [destruct (factor_eqb _ _)|].
    + apply safe_remove_edge; auto.
    + split; auto using keeps_refl.
    + split; auto using keeps_refl.
  - apply safe_add_edge; auto.
Qed.
Lemma v_edges_in l i e : consistent l -> In e (v_edges (l_heap l i)) -> In e (l_edges l) /\ touches i e = true.
Proof. intros C I. rewrite (cons_edges _ C) in I. apply filter_In in I. auto. Qed.
Lemma v_edges_data l i e : consistent l -> In e (v_edges (l_heap l i)) -> In (e_data e) (l_data l).
Proof. intros C I. apply v_edges_in in I as [I _]; auto. apply C; auto. Qed.
Lemma v_edges_op l i e : consistent l -> In e (v_edges (l_heap l i)) -> In (e_op e) (l_operators l).
Proof. intros C I. apply v_edges_in in I as [I _]; auto. apply C; auto. Qed.
Lemma assert_same c l l' : assertE c l = (l', None) -> l' = l /\ c l = true.
Proof. unfold assertE. destruct (c l); intros E; inversion E; auto. Qed.
Lemma safe_superstab k r l : consistent l -> In k (l_operators l) -> safe [r] (create_superstab k r) l.
Proof.
  intros C K. unfold create_superstab.
  apply safe_seq. apply safe_assert; auto. intros l1 E _ _. apply assert_same in E as [-> _].
  apply safe_seq. apply safe_assert; auto. intros l1 E _ _. apply assert_same in E as [-> _].
  apply safe_seq.
  - apply (safe_weaken []); [intros ? []|]. unfold safe. cbn beta. apply (safe_for []); auto.
    intros e l1 I C1 K1. apply safe_seq. apply safe_remove_edge; auto. intros l2 _ C2 K2. apply safe_toggle; auto.
    + eapply keeps_data with (S := []) (l := l); auto. eapply keeps_trans; eauto. eapply v_edges_data; eauto.
    + eapply keeps_operators with (S := []) (l := l); auto. eapply keeps_trans; eauto.
  - intros l1 _ C1 _. apply safe_remove_vertex; auto.
Qed.
Lemma safe_multiply g s l : consistent l -> In g (l_operators l) -> safe [] (multiply_logical_with_stab g s) l.
Proof.
  intros C K. unfold safe, multiply_logical_with_stab. apply (safe_for []); auto. intros e l1 I C1 K1. apply safe_toggle; auto.
  - eapply keeps_data with (S := []) (l := l); auto. eapply v_edges_data; eauto.
  - eapply keeps_operators with (S := []) (l := l); auto.
Qed.
Lemma safe_remove_stabilizer s l : consistent l -> safe [s] (remove_stabilizer s) l.
Proof.
  intros C. unfold safe, remove_stabilizer. apply (safe_seq [s]).
  - apply safe_for; auto. intros; apply safe_remove_edge; auto.
  - intros; apply safe_remove_vertex; auto.
Qed.

(** ** Groups of edges of a data qubit *)
Lemma group_add_in e gs g : In g (map snd (group_add e gs)) -> forall x, In x g -> x = e \/ exists g', In g' (map snd gs) /\ In x g'.
Proof.
  induction gs as [|[f es] gs IH]; cbn.
  - intros [<-|[]] x [<-|[]]; auto.
  - destruct (factor_eqb f (e_factor e)); cbn.
    + intros [<-|I] x Ix. apply in_app_iff in Ix as [Ix|[<-|[]]]; auto. right. exists es; auto. right; exists g; auto.
    + intros [<-|I] x Ix. right; exists es; auto. destruct (IH I x Ix) as [->|(g' & A & B)]; auto. right; exists g'; auto.
Qed.
Lemma group_add_concat e gs : forall x, In x (List.concat (map snd (group_add e gs))) <-> x = e \/ In x (List.concat (map snd gs)).
Proof.
  induction gs as [|[f es] gs IH]; cbn.
  - intros x; intuition.
  - intros x. destruct (factor_eqb f (e_factor e)); cbn; rewrite ?in_app_iff, ?IH; cbn; intuition.
Qed.
Lemma group_add_nodup e gs : ~ In (e_op e) (map e_op (List.concat (map snd gs))) -> NoDup (map e_op (List.concat (map snd gs))) ->
  NoDup (map e_op (List.concat (map snd (group_add e gs)))).
Proof.
  intros N ND.
  assert (P : Permutation (e :: List.concat (map snd gs)) (List.concat (map snd (group_add e gs)))).
  { clear. induction gs as [|[f es] gs IH]; cbn. auto. destruct (factor_eqb f (e_factor e)); cbn.
    - rewrite <- app_assoc. 
      change (e :: es ++ List.concat (map snd gs)) with ([e] ++ es ++ List.concat (map snd gs)).
      rewrite app_assoc. rewrite app_assoc. apply Permutation_app_tail. apply Permutation_app_comm.
    - rewrite <- IH. apply Permutation_middle. }
  eapply Permutation_NoDup. apply Permutation_map. exact P. cbn. constructor; auto.
Qed.
Lemma stab_groups_facts l es : NoDup (map e_op es) ->
  NoDup (map e_op (List.concat (map snd (stab_groups l es)))) /\
  forall x, In x (List.concat (map snd (stab_groups l es))) <-> In x es /\ is_stab (l_heap l (e_op x)) = true.
Proof.
  intros ND. unfold stab_groups.
  assert (G : forall es gs, NoDup (map e_op (List.concat (map snd gs)) ++ map e_op es) ->
    NoDup (map e_op (List.concat (map snd (fold_left (fun gs e => group_add e gs) es gs)))) /\
    forall x, In x (List.concat (map snd (fold_left (fun gs e => group_add e gs) es gs))) <-> In x es \/ In x (List.concat (map snd gs))).
  { induction es0 as [|e es0 IH]; intros gs H; cbn.
    - rewrite app_nil_r in H. split; auto. tauto.
    - cbn in H. destruct (IH (group_add e gs)) as [A B].
      + pose proof (NoDup_remove_2 _ _ _ H) as N. pose proof (NoDup_remove_1 _ _ _ H) as ND'.
        apply NoDup_app3.
        * apply group_add_nodup. rewrite in_app_iff in N; tauto. apply NoDup_app_inv in ND'; tauto.
        * apply NoDup_app_inv in ND'; tauto.
        * intros x Hx Hy. apply in_map_iff in Hx as (a & <- & Ia). apply group_add_concat in Ia as [->|Ia].
          -- rewrite in_app_iff in N; tauto.
          -- apply NoDup_app_inv in ND' as (_ & _ & D). eapply D; eauto. apply in_map; auto.
      + split; auto. intros x. rewrite B, group_add_concat. intuition. }
  destruct (G (filter (fun e => is_stab (l_heap l (e_op e))) es) []) as [A B].
  - cbn. apply NoDup_map_filter; auto.
  - split; auto. intros x. rewrite B, filter_In. cbn. tauto.
Qed.

Lemma nodup_data_ops l q : consistent l -> In q (l_data l) -> NoDup (map e_op (v_edges (l_heap l q))).
Proof.
  intros C Q. rewrite data_edges by auto.
  assert (ND := cons_simple _ C). induction (l_edges l) as [|e es IH]; cbn in *; [constructor|]. inversion ND; subst.
  destruct (Nat.eqb_spec (e_data e) q); cbn; auto. constructor; auto. intros I. apply H1.
  apply in_map_iff in I as (x & E & I). apply filter_In in I as [I T]. apply Nat.eqb_eq in T.
  apply in_map_iff. exists x. unfold ends. split; auto. congruence.
Qed.

Lemma in_concat_cons {A} (x : A) g gs : In x (List.concat (g :: gs)) <-> In x g \/ In x (List.concat gs).
Proof. cbn. apply in_app_iff. Qed.

(** Processing groups one after the other: every group removes operators of its own only. *)
Lemma safe_groups (f : list edge -> eff) gs : forall l,
  consistent l -> NoDup (map e_op (List.concat gs)) -> (forall e, In e (List.concat gs) -> In (e_op e) (l_operators l)) ->
  (forall g l', In g gs -> consistent l' -> (forall e, In e g -> In (e_op e) (l_operators l')) -> safe (map e_op g) (f g) l') ->
  safe (map e_op (List.concat gs)) (forE f gs) l.
Proof.
  induction gs as [|g gs IH]; intros l C ND L H; cbn [forE].
  - split; auto. apply keeps_refl.
  - assert (S1 : safe (map e_op g) (f g) l).
    { apply H; auto. left; auto. intros e I. apply L. apply in_concat_cons; auto. }
    apply safe_seq.
    + eapply safe_weaken; [|exact S1]. intros i I. cbn. rewrite map_app, in_app_iff. auto.
    + intros l' E C' _. assert (K : keeps (map e_op g) l l') by (destruct S1 as [_ K]; rewrite E in K; auto).
      cbn in ND. rewrite map_app in ND.
      assert (D : forall y, In y (map e_op g) -> In y (map e_op (List.concat gs)) -> False).
      { apply NoDup_app_inv in ND; tauto. }
      apply (safe_weaken (map e_op (List.concat gs))); [intros i I; cbn; rewrite map_app, in_app_iff; auto|].
      apply IH; auto.
      * apply NoDup_app_inv in ND; tauto.
      * intros e I. apply (keeps_operators (map e_op g) l l'); auto. apply L. apply in_concat_cons; auto. intros J. eapply D; eauto. apply in_map; auto.
      * intros g' l'' I. apply H. right; auto.
Qed.
Lemma safe_superstab_edges g l : consistent l -> (forall e, In e g -> In (e_op e) (l_operators l)) ->
  safe (map e_op g) (create_superstab_from_edges g) l.
Proof.
  intros C L. unfold create_superstab_from_edges. destruct g as [|e1 [|e2 [|]]]; try (apply safe_raise; auto).
  apply safe_seq. apply safe_assert; auto. intros l1 E _ _. apply assert_same in E as [-> _].
  apply safe_seq. apply safe_assert; auto. intros l1 E _ _. apply assert_same in E as [-> _].
  apply (safe_weaken [e_op e2]). intros i [<-|[]]; cbn; auto. apply safe_superstab; auto. apply L; left; auto.
Qed.
Lemma safe_remove_two S g l : consistent l -> safe S (remove_two g) l.
Proof.
  intros C. unfold remove_two. destruct g as [|e1 [|e2 ]]; try (apply safe_raise; auto).
  apply safe_seq. apply safe_remove_edge; auto. intros; apply safe_remove_edge; auto.
Qed.
Lemma safe_edgegroups gs l : consistent l -> NoDup (map e_op (List.concat gs)) -> (forall e, In e (List.concat gs) -> In (e_op e) (l_operators l)) ->
  safe (map e_op (List.concat gs)) (handle_edgegroups gs) l.
Proof.
  intros C ND L. unfold handle_edgegroups. unfold safe.
  destruct (forallb _ gs); [destruct (String.eqb (l_gauge l) "none"); [|destruct (String.eqb (l_gauge l) "half"); [|destruct (String.eqb (l_gauge l) "all")]]|destruct (l_join l)].
  - apply (safe_groups create_superstab_from_edges); auto. intros; apply safe_superstab_edges; auto.
  - destruct gs as [|g gs]; [split; auto using keeps_refl|].
    apply (safe_seq (map e_op (List.concat (g :: gs)))).
    + eapply safe_weaken; [|apply safe_superstab_edges; auto]. cbn. intros i I; rewrite map_app, in_app_iff; auto.
      intros e I. apply L. apply in_concat_cons; auto.
    + intros l' _ C' _. apply safe_for; auto. intros; apply safe_remove_two; auto.
  - apply (safe_for (map e_op (List.concat gs))); auto. intros; apply safe_remove_two; auto.
  - split; auto using keeps_refl.
  - apply (safe_groups boundary_join); auto. intros g l' I C' L'. unfold boundary_join.
    destruct g as [|e1 [|e2 [|]]]; try (apply safe_raise; auto). apply safe_remove_edge; auto. apply safe_superstab_edges; auto.
  - apply (safe_groups boundary_remove); auto. intros g l' I C' L'. unfold boundary_remove.
    destruct g as [|e1 [|e2 [|]]]; try (apply safe_raise; auto).
    + apply (safe_weaken [e_op e1]); [cbn; auto|]. apply safe_remove_stabilizer; auto.
    + apply safe_seq. apply safe_remove_edge; auto. intros; apply safe_remove_edge; auto.
Qed.

Lemma safe_remove_dataqubit q l : consistent l -> In q (l_data l) ->
  safe (q :: map e_op (v_edges (l_heap l q))) (remove_dataqubit q) l.
Proof.
  intros C Q. unfold safe, remove_dataqubit. cbv zeta.
  set (es := v_edges (l_heap l q)). destruct (existsb _ es); [split; auto using keeps_refl|].
  pose proof (nodup_data_ops l q C Q) as ND. fold es in ND.
  destruct (stab_groups_facts l es ND) as [G1 G2].
  assert (OP : forall e, In e es -> In (e_op e) (l_operators l)) by (intros e I; eapply v_edges_op; eauto).
  set (gs := stab_groups l es) in *.
  set (S := q :: map e_op es).
  apply (safe_seq S).
  - apply (safe_weaken []); [intros ? []|]. apply safe_for; auto. intros e l1 I C1 K1.
    unfold update_logical. destruct (group_get (e_factor e) gs) as [[|s ss]|]; try (apply safe_raise; auto).
    apply safe_multiply; auto. apply filter_In in I as [I _]. apply (keeps_operators [] l l1); auto.
  - intros l1 E1 C1 _.
    assert (K1 : keeps [] l l1).
    { assert (X : safe [] (forE (update_logical gs) (filter (fun e => is_logical (l_heap l (e_op e))) es)) l).
      { apply safe_for; auto. intros e l2 I C2 K2. unfold update_logical. destruct (group_get (e_factor e) gs) as [[|s ss]|]; try (apply safe_raise; auto).
        apply safe_multiply; auto. apply filter_In in I as [I _]. apply (keeps_operators [] l l2); auto. }
      destruct X as [_ X]. rewrite E1 in X. auto. }
    apply (safe_seq S).
    + apply (safe_weaken (map e_op (List.concat (map snd gs)))).
      { intros i I. apply in_map_iff in I as (x & <- & I). apply G2 in I as [I _]. right. apply in_map; auto. }
      apply safe_edgegroups; auto. intros e I. apply G2 in I as [I _]. apply (keeps_operators [] l l1); auto.
    + intros l2 _ C2 _. apply (safe_weaken [q]). intros i [<-|[]]; left; auto. apply safe_remove_vertex; auto.
Qed.

(** The removed vertices of the data class: only the qubit itself. *)
Lemma remove_dataqubit_keeps q q' l : consistent l -> In q (l_data l) -> In q' (l_data l) -> q' <> q ->
  In q' (l_data (fst (remove_dataqubit q l))).
Proof.
  intros C Q Q' N. destruct (safe_remove_dataqubit q l C Q) as [A B]. apply (keeps_data _ l _ q' C A B); auto.
  cbn [In]. intros [E|I]; [congruence|]. apply in_map_iff in I as (e & <- & I). apply (data_not_op l (e_op e) C); auto. eapply v_edges_op; eauto.
Qed.
Lemma safe_many qs : forall l, consistent l -> NoDup (map snd qs) -> (forall x : pos * nat, In x qs -> In (snd x) (l_data l)) ->
  consistent (fst (forE (fun pq => assertE (fun l => is_data (l_heap l (snd pq))) ;; remove_dataqubit (snd pq)) qs l)).
Proof.
  induction qs as [|q qs IH]; intros l C ND H; cbn [forE]; auto.
  assert (Q : In (snd q) (l_data l)) by (apply H; left; auto).
  inversion ND; subst.
  unfold seqE at 1.
  assert (D : is_data (l_heap l (snd q)) = true) by (apply in_data in Q; tauto).
  rewrite seq_assert by auto.
  destruct (safe_remove_dataqubit (snd q) l C Q) as [A _].
  assert (K : forall x : pos * nat, In x qs -> In (snd x) (l_data (fst (remove_dataqubit (snd q) l)))).
  { intros x I. apply remove_dataqubit_keeps; auto. apply H; right; auto. intros E. apply H2. rewrite <- E. apply in_map; auto. }
  destruct (remove_dataqubit (snd q) l) as [l' [e|]]; cbn [fst] in *; auto.
Qed.

(** ** The qubits to be removed *)
Definition qd_ok (l : lattice) (d : list (pos * nat)) : Prop :=
  NoDup (map fst d) /\ forall x, In x d -> In (snd x) (l_data l) /\ fst x = v_pos (l_heap l (snd x)).
Lemma qdict_set_ok l d q : qd_ok l d -> In q (l_data l) -> qd_ok l (qdict_set d (v_pos (l_heap l q)) q).
Proof.
  intros [ND H] Q.
  assert (K : forall d, (forall p, In p (map fst (qdict_set d (v_pos (l_heap l q)) q)) <-> p = v_pos (l_heap l q) \/ In p (map fst d)) /\
              (NoDup (map fst d) -> NoDup (map fst (qdict_set d (v_pos (l_heap l q)) q))) /\
              (forall x, In x (qdict_set d (v_pos (l_heap l q)) q) -> x = (v_pos (l_heap l q), q) \/ In x d)).
  { clear. induction d as [|[p' q'] d (A & B & D)]; cbn.
    - split; [|split]; intros. intuition. repeat constructor; auto. intuition.
    - destruct (pos_eqb p' (v_pos (l_heap l q))) eqn:E; cbn.
      + apply pos_eqb_eq in E. subst p'. split; [|split]; intros; auto; intuition.
      + repeat split; intros.
        * rewrite A in H. tauto.
        * rewrite A. tauto.
        * inversion H; subst. constructor; auto. rewrite A. intros [->|I]; auto. rewrite pos_eqb_refl in E. discriminate.
        * destruct H as [<-|H]; auto. apply D in H. tauto. }
  destruct (K d) as (A & B & D). split; auto. intros x I. apply D in I as [->|I]; auto.
Qed.
Lemma located_live is l x q : consistent l -> located is l x = Ok q -> In q (l_vertices l) /\ is (l_heap l q) = true.
Proof.
  intros C. unfold located, locate. destruct x as [p|z].
  - unfold lookup. destruct (cell_of (l_shape l) p) as [c|]; cbn; [|discriminate].
    destruct (l_cells l c) as [i|] eqn:E; [|discriminate]. destruct (is (l_heap l i)) eqn:D; [|discriminate].
    intros H. injection H as <-. apply C in E. tauto.
  - destruct (wrap _ z) as [k|] eqn:W; cbn; [|discriminate].
    set (i := nth (Z.to_nat k) (l_equbits l) 0). destruct (is (l_heap l i)) eqn:D; [|discriminate].
    intros H. injection H as <-. split; auto. apply (cons_equbits _ C i). apply nth_In.
    unfold wrap in W. destruct ((0 <=? z) && (z <? Z.of_nat (List.length (l_equbits l))))%Z eqn:B1.
    + injection W as <-. lia.
    + destruct ((- Z.of_nat (List.length (l_equbits l)) <=? z) && (z <? 0))%Z eqn:B2; [|discriminate]. injection W as <-. lia.
Qed.
Lemma foldR_inv {A S} (P : S -> Prop) (f : S -> A -> Res S) xs : forall s s',
  P s -> (forall s a s', P s -> f s a = Ok s' -> P s') -> foldR f xs s = Ok s' -> P s'.
Proof.
  induction xs; cbn; intros s s' H F E. injection E as <-; auto.
  destruct (f s a) as [s1|] eqn:Fa; cbn in E; [|discriminate]. apply (IHxs s1 s'); auto. eapply F; eauto.
Qed.
Lemma get_remove_qubits_ok l qubits gates stabs d : consistent l -> get_remove_qubits l qubits gates stabs = Ok d -> qd_ok l d.
Proof.
  intros C H. unfold get_remove_qubits in H.
  apply bindR_Ok in H as (d1 & E1 & H). apply bindR_Ok in H as (d2 & E2 & H).
  assert (D1 : qd_ok l d1).
  { eapply (foldR_inv (qd_ok l)); [| |exact E1]. split. constructor. intros ? []. intros s a s' Hs E. unfold faulty_qubit_step in E.
    apply bindR_Ok in E as (q & Eq & E). injection E as <-. apply qdict_set_ok; auto. apply in_data; auto. eapply located_live; eauto. }
  assert (D2 : qd_ok l d2).
  { eapply (foldR_inv (qd_ok l)); [exact D1| |exact E2]. intros s a s' Hs E. unfold faulty_gate_step in E.
    apply bindR_Ok in E as (? & _ & E). apply bindR_Ok in E as (? & _ & E). apply bindR_Ok in E as (? & _ & E). apply bindR_Ok in E as (q & Eq & E).
    destruct (memb _ _); [|discriminate]. injection E as <-. apply qdict_set_ok; auto. apply in_data; auto. eapply located_live; eauto. }
  eapply (foldR_inv (qd_ok l)); [exact D2| |exact H]. intros s a s' Hs E. unfold faulty_stab_step in E.
  apply bindR_Ok in E as (q & Eq & E). injection E as <-.
  assert (I : forall e, In e (v_edges (l_heap l q)) -> In (e_data e) (l_data l)) by (intros; eapply v_edges_data; eauto).
  revert s Hs I. generalize (v_edges (l_heap l q)). induction l0; cbn; intros; auto. apply IHl0; auto. apply qdict_set_ok; auto.
Qed.
Lemma insert_pos_perm x d : Permutation (x :: d) (insert_pos x d).
Proof.
  induction d; cbn; auto. destruct (pos_leb _ _); auto. rewrite <- IHd. apply perm_swap.
Qed.
Lemma sort_pos_perm d : Permutation d (sort_pos d).
Proof. induction d; cbn; auto. rewrite <- insert_pos_perm. auto. Qed.
Lemma qd_ok_nodup l d : consistent l -> qd_ok l d -> NoDup (map snd d).
Proof.
  intros C [ND H]. induction d as [|[p q] d IH]; cbn in *; [constructor|]. inversion ND; subst. constructor; auto.
  intros I. apply in_map_iff in I as ([p' q'] & E & I). cbn in E. subst q'. apply H2.
  destruct (H (p, q)) as [_ A]; auto. destruct (H (p', q)) as [_ B]; auto. cbn in A, B. rewrite A, <- B. apply (in_map fst) in I. auto.
Qed.
Lemma consistent_fabrication q g s k j l : consistent l -> consistent (fst (apply_fabrication_errors q g s k j l)).
Proof.
  intros C. unfold apply_fabrication_errors. unfold seqE at 1, modify at 1. unfold seqE at 1, modify at 1.
  set (l1 := match k with Some g => set_gauge g l | None => l end).
  assert (C1 : consistent l1) by (unfold l1; destruct k; auto using consistent_gauge).
  set (l2 := match j with Some b => set_join b l1 | None => l1 end).
  assert (C2 : consistent l2) by (unfold l2; destruct j; auto using consistent_join).
  unfold seqE. destruct (get_remove_qubits l2 q g s) as [d|] eqn:E; cbn [fst]; auto.
  pose proof (get_remove_qubits_ok _ _ _ _ _ C2 E) as Q.
  assert (X := safe_many (sort_pos d) l2 C2).
  destruct (forE _ (sort_pos d) l2) as [l3 [e|]] eqn:L; cbn [fst] in *.
  - apply X. eapply Permutation_NoDup. apply Permutation_map, sort_pos_perm. eapply qd_ok_nodup; eauto.
    intros x I. apply Q. eapply Permutation_in; [symmetry; apply sort_pos_perm|auto].
  - unfold modify. cbn [fst]. apply assign_indices_spec. apply X.
    eapply Permutation_NoDup. apply Permutation_map, sort_pos_perm. eapply qd_ok_nodup; eauto.
    intros x I. apply Q. eapply Permutation_in; [symmetry; apply sort_pos_perm|auto].
Qed.

Lemma consistent_empty shape l : empty_lattice shape = Ok l -> consistent l.
Proof.
  unfold empty_lattice. destruct (_ || _)%Z; [discriminate|]. intros E; injection E as <-.
  constructor; cbn; intros; try tauto; try constructor; try discriminate; intuition.
Qed.
Lemma consistent_add k p l : consistent l -> consistent (fst (add_vertex k p l)).
Proof.
  intros C. destruct (cell_of (l_shape l) p) as [c|] eqn:E.
  - pose proof (add_vertex_spec l k p c C E) as H. destruct (l_cells l c).
    + rewrite H; auto.
    + destruct H as (l' & -> & C' & _); auto.
  - rewrite add_vertex_bad by auto; auto.
Qed.
Lemma consistent_op o l : consistent l -> typed l o -> consistent (fst (run_op o l)).
Proof.
  intros C T. destruct o; cbn [run_op typed] in *.
  1-3: unfold add_data, add_stabgen, add_logical; apply consistent_add; auto.
  - apply (safe_add_edge []); tauto.
  - apply (safe_remove_edge []); auto.
  - apply safe_remove_vertex; auto.
  - apply assign_indices_spec; auto.
  - apply consistent_order; auto.
  - apply safe_superstab; auto. unfold l_operators. apply in_app_iff; tauto.
  - apply safe_multiply; auto. unfold l_operators. apply in_app_iff; tauto.
  - apply safe_remove_stabilizer; auto.
  - apply safe_remove_dataqubit; auto.
  - apply consistent_fabrication; auto.
Qed.
Lemma reachable_consistent l : reachable l -> consistent l.
Proof. induction 1. eapply consistent_empty; eauto. apply consistent_op; auto. Qed.
