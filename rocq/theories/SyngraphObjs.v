(** The component objects made by [SyndromeGraph._init_components_objects]. *)
Require Import List Bool Arith ZArith QArith Lia Relations.
From Verif Require Import Base BaseProofs QSpec PauliModel MeasureProofs GraphSpec GraphProofs GraphComponents
  ErasureModel ErasureProofs SyngraphModel SyngraphBuild SyngraphComp.
Import ListNotations.
Open Scope nat_scope.
Local Arguments incident : simpl never.
Local Arguments upd : simpl never.

(** Position of the first occurrence. *)
Fixpoint pos (l : list nat) (v : nat) : nat :=
  match l with [] => 0 | x :: l' => if x =? v then 0 else S (pos l' v) end.

Lemma pos_lt l v : In v l -> pos l v < length l.
Proof.
  induction l as [|x l IH]; cbn; [intros []|]. intros [->|I]; [rewrite Nat.eqb_refl; lia|].
  destruct (x =? v); [lia|]. apply IH in I. lia.
Qed.

Lemma nth_pos l v d : In v l -> nth (pos l v) l d = v.
Proof.
  induction l as [|x l IH]; cbn; [intros []|]. intros I. destruct (Nat.eqb_spec x v); auto.
  destruct I as [->|I]; [congruence|auto].
Qed.

Lemma pos_nth l i d : NoDup l -> i < length l -> pos l (nth i l d) = i.
Proof.
  revert i. induction l as [|x l IH]; intros i N L; [cbn in L; lia|]. inversion N as [|? ? NI N']; subst.
  destruct i as [|i]; cbn; [rewrite Nat.eqb_refl; auto|]. cbn in L.
  destruct (Nat.eqb_spec x (nth i l d)) as [X|]; [|f_equal; apply IH; auto; lia].
  exfalso. apply NI. rewrite X. apply nth_In. lia.
Qed.

Lemma rev_index l : forall a r, NoDup l -> (forall v, In v l -> v < length r) ->
  forall v, nth v (fold_left (fun r (vi : nat * nat) => upd (fst vi) (Some (snd vi)) r) (combine l (seq a (length l))) r) None =
    if existsb (Nat.eqb v) l then Some (a + pos l v) else nth v r None.
Proof.
  induction l as [|x l IH]; intros a r N B v; cbn [length seq combine fold_left existsb pos]; auto.
  inversion N as [|? ? NI N']; subst. rewrite IH; auto.
  - cbn [fst snd]. rewrite nth_upd. rewrite (Nat.eqb_sym v x). destruct (Nat.eqb_spec x v) as [->|D].
    + cbn [orb andb]. assert (existsb (Nat.eqb v) l = false) as ->.
      { destruct (existsb (Nat.eqb v) l) eqn:X; auto. apply existsb_exists in X. destruct X as (y & I & X).
        apply Nat.eqb_eq in X. subst y. contradiction. }
      assert (X : v < length r) by (apply B; left; auto). apply Nat.ltb_lt in X. rewrite X, Nat.add_0_r. auto.
    + cbn [orb andb]. destruct (existsb (Nat.eqb v) l); auto. f_equal. lia.
  - intros w I. rewrite length_upd. apply B. right; auto.
Qed.

Lemma length_rev_index (l : list (nat * nat)) : forall r,
  length (fold_left (fun r (vi : nat * nat) => upd (fst vi) (Some (snd vi)) r) l r) = length r.
Proof. induction l as [|x l IH]; intros r; cbn; auto. rewrite IH, length_upd. auto. Qed.

Lemma list_max_ge l v : In v l -> v <= list_max l.
Proof. intros I. pose proof (proj1 (list_max_le l (list_max l)) (Nat.le_refl _)) as F. rewrite Forall_forall in F. auto. Qed.

Lemma new_component_ok V Es ends ws : V <> [] -> NoDup V -> length ws = length ends ->
  (forall e v, In e ends -> In v e -> In v V) ->
  new_component V Es ends ws = Ok (mkComp (length V) (map (map (pos V)) ends)
     (existsb (fun e => length e =? 1) ends) ws None (repeat false (length ends)) true
     (repeat false (length V)) V Es).
Proof.
  intros NE N LW B. unfold new_component. destruct V as [|v0 V0] eqn:EV; [congruence|]. rewrite <- EV in *. clear EV v0 V0.
  set (R := fold_left _ _ _).
  assert (LR : length R = S (list_max V)) by (unfold R; rewrite length_rev_index, repeat_length; auto).
  assert (RV : forall v, In v V -> get R v = Ok (Some (pos V v))).
  { intros v I. rewrite (get_nth _ _ None) by (apply list_max_ge in I; lia). f_equal. unfold R.
    rewrite rev_index; auto.
    - assert (existsb (Nat.eqb v) V = true) as ->; auto. apply existsb_exists. exists v. split; auto. apply Nat.eqb_refl.
    - intros w Iw. rewrite repeat_length. apply list_max_ge in Iw. lia. }
  rewrite (mapR_ok _ (map (fun v => Some (pos V v)))).
  2: { intros e I. apply mapR_ok. intros v Iv. apply RV. eauto. }
  cbn [bindR]. rewrite (mapR_ok _ (map (fun o => match o with Some x => x | None => 0 end))).
  2: { intros e I. apply mapR_ok. intros o Io. apply in_map_iff in I. destruct I as (e' & <- & I).
       apply in_map_iff in Io. destruct Io as (v & <- & Iv). reflexivity. }
  cbn [bindR]. rewrite map_map.
  rewrite (map_ext _ (map (pos V))) by (intros; rewrite map_map; auto).
  rewrite map_length, <- LW, Nat.eqb_refl. cbn [assertR bindR]. do 2 f_equal.
  clear. induction ends as [|e ends IH]; cbn; auto. rewrite map_length, IH. auto.
Qed.

(** * Partition of the graph *)

Section Parts.
Variables (nv : nat) (E : list (list nat)) (on : nat -> bool) (vl : nat -> nat).

(** Vertices and edges of the component with label [c]. *)
Definition verts_of (c : nat) : list nat := filter (fun v => vl v =? c) (seq 0 nv).
Definition edges_of (c : nat) : list nat :=
  filter (fun i => on i && existsb (fun v => vl v =? c) (nth i E [])) (seq 0 (length E)).
Definition local_edges (c : nat) : list (list nat) := map (fun i => map (pos (verts_of c)) (nth i E [])) (edges_of c).
Definition shape (c : nat) := (length (verts_of c), local_edges c, existsb (fun e => length e =? 1) (local_edges c), verts_of c, edges_of c).

(** [vl] labels connected components, the labels are the numbers below [K]. *)
Record labelling (K : nat) : Prop := mkLabelling {
  l_small : small_edges nv E;
  l_on : forall i, on i = true -> i < length E;
  l_bound : forall v, v < nv -> vl v < K;
  l_used : forall c, c < K -> exists v, v < nv /\ vl v = c;
  l_conn : forall u v, u < nv -> v < nv -> (vl u = vl v <-> connected E (fun i => on i = true) u v)
}.

Variable K : nat.
Hypothesis HL : labelling K.

Lemma key_in i v : In v (nth i E []) -> v < nv.
Proof.
  intros I. destruct (Nat.lt_ge_cases i (length E)) as [L|L]; [|rewrite nth_overflow in I; [destruct I|auto]].
  destruct (l_small _ HL (nth i E [])) as [Y|[(w & Y & Z)|(a & b & Y & _ & Z1 & Z2)]]; [apply nth_In; auto|..]; rewrite Y in I; cbn in I.
  - destruct I.
  - destruct I as [<-|[]]; auto.
  - destruct I as [<-|[<-|[]]]; auto.
Qed.

Lemma same_label i u v : on i = true -> In u (nth i E []) -> In v (nth i E []) -> vl u = vl v.
Proof.
  intros A I J. pose proof (key_in i u I) as Lu. pose proof (key_in i v J) as Lv.
  destruct (Nat.eq_dec u v) as [->|D]; auto. apply (l_conn _ HL); auto. apply rt_step. exists i. split; auto.
  pose proof (l_on _ HL i A) as L. rewrite (nth_error_nth' _ [] L).
  destruct (l_small _ HL (nth i E [])) as [Y|[(w & Y & Z)|(a & b & Y & _ & Z1 & Z2)]]; [apply nth_In; auto|..];
    rewrite Y in *; cbn in I, J.
  - destruct I.
  - destruct I as [<-|[]], J as [<-|[]]; congruence.
  - destruct I as [<-|[<-|[]]], J as [<-|[<-|[]]]; auto; congruence.
Qed.

Lemma verts_of_in c v : In v (verts_of c) <-> v < nv /\ vl v = c.
Proof.
  unfold verts_of. rewrite filter_In, in_seq, Nat.eqb_eq. split; intros [A B]; split; auto; lia.
Qed.

Lemma verts_of_NoDup c : NoDup (verts_of c).
Proof. apply NoDup_filter, seq_NoDup. Qed.

Lemma edges_of_in c i : In i (edges_of c) <-> on i = true /\ exists v, In v (nth i E []) /\ vl v = c.
Proof.
  unfold edges_of. rewrite filter_In, in_seq, andb_true_iff, existsb_exists. split.
  - intros [_ [A (v & I & X)]]. apply Nat.eqb_eq in X. split; auto. exists v. auto.
  - intros [A (v & I & X)]. pose proof (l_on _ HL i A). split; [lia|]. split; auto. exists v. split; auto.
    apply Nat.eqb_eq; auto.
Qed.

Lemma edges_of_NoDup c : NoDup (edges_of c).
Proof. apply NoDup_filter, seq_NoDup. Qed.

Lemma edges_of_ends c i v : In i (edges_of c) -> In v (nth i E []) -> In v (verts_of c).
Proof.
  intros I J. apply edges_of_in in I. destruct I as [A (w & I & X)]. apply verts_of_in.
  split; [eapply key_in; eauto|]. rewrite <- X. eapply same_label; eauto.
Qed.

Lemma local_well_formed c : well_formed (length (verts_of c)) (local_edges c).
Proof.
  intros e I. apply in_map_iff in I. destruct I as (i & <- & I).
  assert (B : forall v, In v (nth i E []) -> pos (verts_of c) v < length (verts_of c)).
  { intros v J. apply pos_lt. eapply edges_of_ends; eauto. }
  pose proof I as I'. apply edges_of_in in I'. destruct I' as [A (w & J & X)].
  destruct (l_small _ HL (nth i E [])) as [Y|[(x & Y & Z)|(a & b & Y & D & Z1 & Z2)]].
  - apply nth_In. apply (l_on _ HL); auto.
  - rewrite Y in J. destruct J.
  - left. exists (pos (verts_of c) x). rewrite Y in *. split; auto. apply B. left; auto.
  - right. exists (pos (verts_of c) a), (pos (verts_of c) b). split; [rewrite Y; auto|].
    assert (Ia : In a (verts_of c)) by (eapply edges_of_ends; eauto; rewrite Y; cbn; auto).
    assert (Ib : In b (verts_of c)) by (eapply edges_of_ends; eauto; rewrite Y; cbn; auto).
    split; [|split; apply pos_lt; auto]. intros P. apply D.
    rewrite <- (nth_pos _ a 0 Ia), <- (nth_pos _ b 0 Ib), P. auto.
Qed.

Lemma parity_filter {A} (f : A -> bool) (p : A -> bool) l : (forall a, In a l -> f a = true -> p a = true) ->
  parity (map f l) = parity (map f (filter p l)).
Proof.
  unfold parity. induction l as [|a l IH]; intros H; cbn; auto. rewrite IH by (intros; apply H; auto; right; auto).
  destruct (p a) eqn:X; cbn; auto. destruct (f a) eqn:Y; [|apply xorb_false_l].
  rewrite H in X; auto; [discriminate|left; auto].
Qed.

Lemma existsb_pos c v l : In v (verts_of c) -> (forall w, In w l -> In w (verts_of c)) ->
  existsb (Nat.eqb (pos (verts_of c) v)) (map (pos (verts_of c)) l) = existsb (Nat.eqb v) l.
Proof.
  intros I B. induction l as [|w l IH]; cbn; auto. rewrite IH by (intros; apply B; right; auto). f_equal.
  destruct (Nat.eqb_spec v w) as [->|D]; [apply Nat.eqb_refl|]. apply Nat.eqb_neq. intros P. apply D.
  rewrite <- (nth_pos _ v 0 I), P. apply nth_pos. apply B. left; auto.
Qed.

Lemma nth_local_edges c j : j < length (edges_of c) ->
  nth j (local_edges c) [] = map (pos (verts_of c)) (nth (nth j (edges_of c) 0) E []).
Proof.
  intros L. unfold local_edges.
  rewrite (nth_indep _ [] (map (pos (verts_of c)) (nth 0 E []))) by (rewrite map_length; auto).
  rewrite (map_nth (fun i => map (pos (verts_of c)) (nth i E []))). auto.
Qed.

Lemma local_incident c j p : j < length (edges_of c) -> p < length (verts_of c) ->
  incident (local_edges c) j p = incident E (nth j (edges_of c) 0) (nth p (verts_of c) 0).
Proof.
  intros Lj Lp. unfold incident. rewrite nth_local_edges by auto.
  rewrite <- (existsb_pos c (nth p (verts_of c) 0)).
  - rewrite pos_nth; auto. apply verts_of_NoDup.
  - apply nth_In; auto.
  - intros w I. eapply edges_of_ends; eauto. apply nth_In; auto.
Qed.

Lemma map_nth_seq {A} (f : nat -> A) l : map (fun j => f (nth j l 0)) (seq 0 (length l)) = map f l.
Proof.
  rewrite <- (map_map (fun j => nth j l 0) f). f_equal. clear.
  induction l as [|x l IH]; cbn; auto. f_equal. rewrite <- seq_shift, map_map. auto.
Qed.

(** Errors on the edges of one component, seen in the component and in the whole graph. *)
Lemma local_boundary c sel p : p < length (verts_of c) -> (forall i, sel i = true -> on i = true) ->
  boundary (local_edges c) (fun j => sel (nth j (edges_of c) 0)) p = boundary E sel (nth p (verts_of c) 0).
Proof.
  intros Lp S. set (v := nth p (verts_of c) 0).
  assert (Iv : In v (verts_of c)) by (apply nth_In; auto).
  unfold boundary. unfold local_edges at 2. rewrite map_length.
  rewrite (parity_ext _ (fun j => (fun i => sel i && incident E i v) (nth j (edges_of c) 0))).
  2: { intros j I. apply in_seq in I. rewrite local_incident by (auto; lia). auto. }
  rewrite (map_nth_seq (fun i => sel i && incident E i v)).
  unfold edges_of. symmetry. apply parity_filter. intros i I X. apply andb_true_iff in X. destruct X as [X Y].
  rewrite (S i X). cbn. apply existsb_exists. exists v. apply verts_of_in in Iv. split; [|apply Nat.eqb_eq; tauto].
  unfold incident in Y. apply existsb_exists in Y. destruct Y as (w & J & Y). apply Nat.eqb_eq in Y. subst w. auto.
Qed.

Lemma vertex_cover v : v < nv -> vl v < K /\ In v (verts_of (vl v)).
Proof. intros L. split; [apply (l_bound _ HL); auto|]. apply verts_of_in. auto. Qed.

(** A selection of active edges explains a syndrome exactly if each component does. *)
Lemma local_explains sel syn : (forall i, sel i = true -> on i = true) ->
  (explains nv E sel syn <-> forall c, c < K ->
     explains (length (verts_of c)) (local_edges c) (fun j => sel (nth j (edges_of c) 0))
              (fun p => syn (nth p (verts_of c) 0))).
Proof.
  intros S. split.
  - intros X c Lc p Lp. rewrite local_boundary by auto. apply X.
    assert (I : In (nth p (verts_of c) 0) (verts_of c)) by (apply nth_In; auto). apply verts_of_in in I. tauto.
  - intros X v Lv. destruct (vertex_cover v Lv) as [Lc I]. pose proof (pos_lt _ _ I) as Lp.
    specialize (X (vl v) Lc (pos (verts_of (vl v)) v) Lp). rewrite local_boundary in X by auto.
    rewrite !nth_pos in X by auto. auto.
Qed.
End Parts.

(** * The constructor *)

Definition shape_of (k : comp) := (k_n k, k_edges k, k_dang k, k_vidx k, k_eidx k).

Section Objs.
Variables (nv : nat) (E : list (list nat)) (g0 : sgraph).
Hypothesis HE : sg_ends g0 = E.
Hypothesis Hsm : small_edges nv E.
Hypothesis Hon : length (sg_on g0) = length E.
Variables (K : nat) (vc ec : list (option nat)).
Hypothesis HD : done nv E g0 K vc ec.
Hypothesis HA : forall v, v < nv -> nth v vc None <> None.

Definition vl (v : nat) : nat := match nth v vc None with Some c => c | None => 0 end.

Lemma vc_vl v : v < nv -> nth v vc None = Some (vl v).
Proof. intros L. unfold vl. destruct (nth v vc None) eqn:X; auto. elim (HA v L X). Qed.

Lemma the_labelling : labelling nv E (enabled g0) vl K.
Proof.
  pose proof HD as [VL EL IE IC ICo IB IU]. split; auto.
  - intros i A. apply (on_lt E g0 Hon); auto.
  - intros v L. apply (IB v). apply vc_vl; auto.
  - intros c L. destruct (IU c L) as (v & X). exists v.
    assert (Lv : v < nv).
    { rewrite <- VL. destruct (Nat.lt_ge_cases v (length vc)); auto. rewrite nth_overflow in X; [discriminate|auto]. }
    split; auto. unfold vl. rewrite X. auto.
  - intros u v Lu Lv. rewrite <- (done_labels nv E g0 K vc ec HD HA u v Lu Lv).
    rewrite !vc_vl by auto. split; congruence.
Qed.

Lemma members_verts c : members c vc = verts_of nv vl c.
Proof.
  unfold members, verts_of. rewrite (i_vlen _ _ _ _ _ _ _ _ HD). apply filter_ext_in. intros v I. apply in_seq in I.
  rewrite vc_vl by lia. reflexivity.
Qed.

Lemma members_edges c : members c ec = edges_of E (enabled g0) vl c.
Proof.
  unfold members, edges_of. rewrite (i_elen _ _ _ _ _ _ _ _ HD). apply filter_ext_in. intros i I. apply in_seq in I.
  apply eq_true_iff_eq. rewrite andb_true_iff, existsb_exists.
  assert (X : eqb_opt (nth i ec None) c = true <-> nth i ec None = Some c).
  { destruct (nth i ec None) as [x|]; cbn; [rewrite Nat.eqb_eq; split; congruence|split; discriminate]. }
  rewrite X, (i_edge _ _ _ _ _ _ _ _ HD). split; intros [A (v & J & Y)]; split; auto; exists v; split; auto.
  - unfold vl. rewrite Y. apply Nat.eqb_refl.
  - apply Nat.eqb_eq in Y. rewrite vc_vl, Y; auto. eapply key_in; eauto. apply the_labelling.
Qed.

(** A new component object with given weights. *)
Definition comp_of (wt : list weight) (c : nat) : comp :=
  let V := verts_of nv vl c in let Es := edges_of E (enabled g0) vl c in
  mkComp (length V) (local_edges nv E (enabled g0) vl c)
    (existsb (fun e => length e =? 1) (local_edges nv E (enabled g0) vl c))
    (map (fun i => nth i wt NaN) Es) None (repeat false (length Es)) true (repeat false (length V)) V Es.

Lemma init_components_ok wt : length wt = length E -> sg_wt g0 = wt ->
  (do g <- init_components (mg g0 vc ec) K; weights_on_components g) =
  Ok (set_comps (map (comp_of wt) (seq 0 K)) (mg g0 vc ec)).
Proof.
  intros LW HW. pose proof the_labelling as LB. unfold init_components. cbn [mg set_ecomp set_vcomp sg_vcomp sg_ecomp sg_ends].
  rewrite (mapR_ok _ (fun o => match o with Some x => x | None => 0 end)).
  2: { intros o I. apply (In_nth _ _ None) in I. destruct I as (v & L & <-).
       rewrite (i_vlen _ _ _ _ _ _ _ _ HD) in L. rewrite vc_vl by auto. reflexivity. }
  cbn [bindR]. rewrite HE.
  assert (LT : forall c i, In i (edges_of E (enabled g0) vl c) -> i < length E).
  { intros c i I. unfold edges_of in I. apply filter_In in I. destruct I as [I _]. apply in_seq in I. lia. }
  rewrite (mapR_ok _ (comp_of (repeat NaN (length E)))).
  - cbn [bindR]. unfold weights_on_components. cbn [mg set_comps sg_comps sg_wt set_ecomp set_vcomp]. rewrite HW.
    rewrite (mapR_ok _ (fun k => set_k_wt (map (fun i => nth i wt NaN) (k_eidx k)) k)).
    + cbn [bindR]. rewrite map_map. reflexivity.
    + intros k I. apply in_map_iff in I. destruct I as (c & <- & I). unfold with_edges.
      destruct (has_edges _) eqn:Z.
      * rewrite (take_ok _ _ NaN).
        2: { intros i J. cbn [k_eidx comp_of] in J. rewrite LW. eauto. }
        cbn [bindR]. unfold comp_set_weights. cbn [k_eidx k_edges comp_of]. unfold local_edges.
        rewrite !map_length, Nat.eqb_refl. reflexivity.
      * unfold has_edges in Z. cbn [k_edges comp_of] in Z. unfold local_edges in Z. rewrite map_length in Z.
        apply negb_false_iff, Nat.eqb_eq in Z. apply length_zero_iff_nil in Z. unfold set_k_wt, comp_of. cbn. rewrite Z. reflexivity.
  - intros c I. apply in_seq in I. rewrite members_verts, members_edges.
    rewrite (take_ok _ _ []) by eauto. cbn [bindR].
    rewrite new_component_ok.
    + unfold comp_of. f_equal. f_equal.
      * unfold local_edges. rewrite map_map. auto.
      * unfold local_edges. clear. induction (edges_of E (enabled g0) vl c) as [|i l IH]; cbn [map existsb]; auto.
        rewrite map_length, IH. auto.
      * clear -LT. assert (B : forall i, In i (edges_of E (enabled g0) vl c) -> i < length E) by eauto.
        induction (edges_of E (enabled g0) vl c) as [|i l IH]; cbn [length repeat map]; auto.
        rewrite IH by (intros; apply B; right; auto). rewrite nth_repeat_lt; auto. apply B; left; auto.
      * rewrite map_length. auto.
    + destruct (l_used _ _ _ _ _ LB c) as (v & Lv & X); [lia|]. intros Z.
      assert (J : In v (verts_of nv vl c)) by (apply verts_of_in; auto). rewrite Z in J. destruct J.
    + apply verts_of_NoDup.
    + rewrite repeat_length, map_length. auto.
    + intros e v Ie Iv. apply in_map_iff in Ie. destruct Ie as (i & <- & Ie). eapply edges_of_ends; eauto.
Qed.
End Objs.
