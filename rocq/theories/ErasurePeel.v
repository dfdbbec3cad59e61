(** Peeling a spanning forest. *)
Require Import List Bool Arith Lia.
From Verif Require Import Base BaseProofs ErasureModel GraphSpec GraphProofs ErasureProofs.
Import ListNotations.

Section P.
Variables (n : nat) (edges : list (list nat)).
Hypothesis WF : well_formed n edges.

Notation link := (link edges).
Notation m := (length edges).

(** The syndrome, the labelled forest and the erased edges. *)
Variables (syn0 : list bool) (lab : nat -> nat) (V0 E0 : list nat) (er : nat -> Prop).
Hypothesis erased : forall i, In i E0 -> er i.
Hypothesis closed : forall i v o, er i -> link i v o ->
  In v V0 /\ match o with None => lab v = 0 | Some w => lab w = lab v end.

(** State of peeling: [V], [E] and [R] are what is left of the forest. *)
Record peeling (p : peel) (V E R : list nat) (nb : list (list entry)) (lf : list nat) : Prop := {
  pe_n : eg_n (p_forest p) = n;
  pe_edges : eg_edges (p_forest p) = edges;
  pe_lv : length (eg_ven (p_forest p)) = n;
  pe_le : length (eg_een (p_forest p)) = m;
  pe_forest : forest n edges lab V E R;
  pe_V : forall x, In x V -> In x V0;
  pe_E : forall x, In x E -> In x E0;
  pe_ven : forall x, bits (eg_ven (p_forest p)) x = true <-> In x V;
  pe_een : forall x, bits (eg_een (p_forest p)) x = true <-> In x E;
  pe_nb : eg_nbr (p_forest p) = Some nb;
  pe_nbr : nbr_ok n edges (bits (eg_een (p_forest p))) nb;
  pe_lf : eg_leaf (p_forest p) = Some lf;
  pe_lfn : NoDup lf;
  pe_leaf : forall v, In v lf <-> In v V /\ length (nth v nb []) <= 1;
  pe_lend : length (p_end p) = n;
  pe_end : forall v, bits (p_end p) v = true <-> In v V /\ length (nth v nb []) = 0;
  pe_lcorr : length (p_corr p) = m;
  pe_corr : forall i, bits (p_corr p) i = true -> In i E0 /\ ~ In i E;
  pe_lsyn : length (p_syn p) = n;
  pe_bound : forall v, v < n ->
    xorb (boundary edges (bits (p_corr p)) v) (bits (p_syn p) v) = bits syn0 v;
  pe_done : even_components n edges er (bits syn0) ->
    forall v, In v V0 -> ~ In v V -> bits (p_syn p) v = false
}.

Lemma entry_touches p V E R nb lf v e :
  peeling p V E R nb lf -> v < n ->
  (touches edges E v e <-> exists o, In (e, o) (nth v nb [])).
Proof.
  intros P L. destruct (pe_nbr _ _ _ _ _ _ P) as [_ K]. destruct (K v L) as [_ M].
  unfold touches. split.
  - intros [I (o & H)]. exists o. apply M. split; auto. apply (pe_een _ _ _ _ _ _ P); auto.
  - intros (o & H). apply M in H. destruct H as [A B]. split; eauto.
    apply (pe_een _ _ _ _ _ _ P); auto.
Qed.

(** The set of all vertices with the label of a vertex with label other than 0 is isolated. *)
Lemma label_isolated w : lab w <> 0 ->
  isolated edges er (fun x => existsb (Nat.eqb x) V0 && (lab x =? lab w)).
Proof.
  intros L0 i Hi. destruct (Nat.lt_ge_cases i m) as [L|L].
  2: { rewrite nth_overflow by auto. exact I. }
  assert (MEM : forall x, In x V0 -> existsb (Nat.eqb x) V0 = true).
  { intros x Hx. apply existsb_exists. exists x. split; auto. apply Nat.eqb_refl. }
  destruct (edge_cases n edges WF i L) as [(a & E & La)|(a & b & E & D & La & Lb)];
    rewrite (nth_error_nth _ _ _ E).
  - destruct (closed i a None Hi) as [_ X]; [left; auto|].
    rewrite X. assert (0 =? lab w = false) as -> by (apply Nat.eqb_neq; auto).
    apply andb_false_r.
  - destruct (closed i a (Some b) Hi) as [Ia X]; [right; eauto|].
    destruct (closed i b (Some a) Hi) as [Ib _]; [right; eauto|].
    rewrite (MEM a), (MEM b), X by auto. reflexivity.
Qed.

(** The last vertex of a tree without dangling edge has no syndrome left. *)
Lemma last_vertex p V E R nb lf w :
  peeling p V E R nb lf -> even_components n edges er (bits syn0) ->
  In w V -> lab w <> 0 -> (forall x, In x V -> lab x = lab w -> x = w) ->
  bits (p_syn p) w = false.
Proof.
  intros P EV Iw L0 U.
  set (S := fun x => existsb (Nat.eqb x) V0 && (lab x =? lab w)).
  pose proof (label_isolated w L0 : isolated edges er S) as IS.
  pose proof (EV S IS) as Z.
  assert (Lw : w < n) by (eapply forest_lt; [apply (pe_forest _ _ _ _ _ _ P)|auto]).
  rewrite (parity_on_ext n _ (fun v => xorb (boundary edges (bits (p_corr p)) v)
    (bits (p_syn p) v))) in Z.
  2: { intros v Lv _. symmetry. apply (pe_bound _ _ _ _ _ _ P); auto. }
  rewrite parity_on_xor in Z.
  rewrite (isolated_boundary n edges WF er S) in Z; auto.
  2: { intros i _ H. apply erased. apply (pe_corr _ _ _ _ _ _ P); auto. }
  rewrite xorb_false_l in Z. unfold parity_on in Z.
  rewrite (parity_one _ w) in Z.
  - rewrite <- Z. unfold S. rewrite Nat.eqb_refl, andb_true_r.
    assert (existsb (Nat.eqb w) V0 = true) as ->; [|reflexivity].
    apply existsb_exists. exists w. split; [|apply Nat.eqb_refl].
    apply (pe_V _ _ _ _ _ _ P); auto.
  - apply seq_NoDup.
  - apply in_seq. lia.
  - intros x _ D. destruct (S x) eqn:Sx; auto. cbn.
    unfold S in Sx. apply andb_true_iff in Sx. destruct Sx as [A B].
    apply existsb_exists in A. destruct A as (y & Iy & Ey). apply Nat.eqb_eq in Ey. subst y.
    apply Nat.eqb_eq in B.
    apply (pe_done _ _ _ _ _ _ P); auto.
Qed.

Lemma one_entry {A} (l : list A) : length l <= 1 -> l = [] \/ exists a, l = [a].
Proof. destruct l as [|a [|b l]]; cbn; intros; [auto|eauto|lia]. Qed.

(** Removing a vertex without edges. *)
Lemma pop_end p V E R nb lf leaf rest :
  peeling p V E R nb lf -> rev lf = leaf :: rest -> nth leaf nb [] = [] ->
  exists p' V' R' nb' lf',
    (do r <- pop_leaf (p_forest p) (rev rest) leaf;
     let '(f, (e, other)) := r in
     peel_body (mkPeel f (p_end p) (p_corr p) (p_syn p)) leaf e other) = Ok p' /\
    peeling p' V' E R' nb' lf' /\ length V = S (length V').
Proof.
  intros P RL NE.
  assert (LF : lf = rev rest ++ [leaf]).
  { rewrite <- (rev_involutive lf), RL. reflexivity. }
  assert (IL : In leaf V).
  { apply (pe_leaf _ _ _ _ _ _ P). rewrite LF. apply in_or_app. right; left; auto. }
  assert (LL : leaf < n) by (eapply forest_lt; [apply (pe_forest _ _ _ _ _ _ P)|auto]).
  pose proof (pe_lv _ _ _ _ _ _ P) as LV. pose proof (pe_lend _ _ _ _ _ _ P) as LD.
  pose proof (pe_nbr _ _ _ _ _ _ P) as [NL _].
  assert (NT : forall e, ~ touches edges E leaf e).
  { intros e T. apply (entry_touches _ _ _ _ _ _ _ _ P LL) in T. destruct T as (o & T).
    rewrite NE in T. destruct T. }
  destruct (forest_remove_isolated n edges WF lab V E R leaf (pe_forest _ _ _ _ _ _ P) IL NT)
    as (IR & U & V' & R' & F' & HV & HR & HL).
  assert (EX : pop_leaf (p_forest p) (rev rest) leaf =
    Ok (set_ven (upd leaf false (eg_ven (p_forest p))) (set_leaf (Some (rev rest)) (p_forest p)),
        (None, None))).
  { unfold pop_leaf. cbn [set_leaf eg_ven eg_nbr].
    rewrite (get_nth _ leaf false) by lia. cbn [bindR]. fold (bits (eg_ven (p_forest p)) leaf).
    rewrite (proj2 (pe_ven _ _ _ _ _ _ P leaf) IL). cbn [assertR bindR].
    rewrite (pe_nb _ _ _ _ _ _ P). rewrite (get_nth nb leaf []) by lia. cbn [bindR].
    rewrite NE. unfold enable_vertex. cbn [set_leaf eg_nbr eg_ven].
    rewrite (pe_nb _ _ _ _ _ _ P). rewrite (get_nth nb leaf []) by lia. cbn [bindR].
    rewrite NE. cbn [length Nat.eqb assertR bindR]. rewrite put_upd by lia. reflexivity. }
  rewrite EX. cbn [bindR]. unfold peel_body. cbn [p_end p_forest p_corr p_syn].
  rewrite (get_nth _ leaf false) by lia. cbn [bindR]. fold (bits (p_end p) leaf).
  rewrite (proj2 (pe_end _ _ _ _ _ _ P leaf)) by (rewrite NE; auto).
  eexists _, V', R', nb, (rev rest). split; [reflexivity|]. split; [|auto].
  assert (NR : NoDup (rev rest ++ [leaf])) by (rewrite <- LF; apply (pe_lfn _ _ _ _ _ _ P)).
  assert (NI : ~ In leaf (rev rest)).
  { apply NoDup_remove_2 in NR. rewrite app_nil_r in NR. auto. }
  constructor; cbn [p_forest p_end p_corr p_syn set_ven set_leaf eg_n eg_edges eg_ven eg_een
    eg_nbr eg_leaf].
  - apply (pe_n _ _ _ _ _ _ P).
  - apply (pe_edges _ _ _ _ _ _ P).
  - rewrite length_upd. auto.
  - apply (pe_le _ _ _ _ _ _ P).
  - exact F'.
  - intros x Ix. apply HV in Ix. apply (pe_V _ _ _ _ _ _ P); tauto.
  - apply (pe_E _ _ _ _ _ _ P).
  - intros x. rewrite bits_upd, LV. assert (leaf <? n = true) as -> by (apply Nat.ltb_lt; auto).
    rewrite andb_true_r, HV. destruct (Nat.eqb_spec leaf x) as [<-|D].
    + split; [discriminate|tauto].
    + rewrite (pe_ven _ _ _ _ _ _ P). split; [auto|tauto].
  - apply (pe_een _ _ _ _ _ _ P).
  - apply (pe_nb _ _ _ _ _ _ P).
  - apply (pe_nbr _ _ _ _ _ _ P).
  - reflexivity.
  - apply NoDup_remove_1 in NR. rewrite app_nil_r in NR. auto.
  - intros v. rewrite HV. pose proof (pe_leaf _ _ _ _ _ _ P v) as H. rewrite LF in H.
    rewrite in_app_iff in H. cbn in H. split.
    + intros I. assert (v <> leaf) by congruence. tauto.
    + intros [[A B] C]. destruct (proj2 H) as [?|[?|[]]]; auto. congruence.
  - rewrite length_upd. auto.
  - intros v. rewrite bits_upd, LD. assert (leaf <? n = true) as -> by (apply Nat.ltb_lt; auto).
    rewrite andb_true_r, HV. destruct (Nat.eqb_spec leaf v) as [<-|D].
    + split; [discriminate|tauto].
    + rewrite (pe_end _ _ _ _ _ _ P). split; [intros [? ?]; auto|tauto].
  - apply (pe_lcorr _ _ _ _ _ _ P).
  - apply (pe_corr _ _ _ _ _ _ P).
  - apply (pe_lsyn _ _ _ _ _ _ P).
  - apply (pe_bound _ _ _ _ _ _ P).
  - intros EV v I0 Nv. destruct (Nat.eq_dec v leaf) as [->|D].
    + destruct (forest_roots _ _ _ _ _ _ _ (pe_forest _ _ _ _ _ _ P) IR).
      eapply last_vertex; eauto.
    + apply (pe_done _ _ _ _ _ _ P); auto. intros I. apply Nv. apply HV. auto.
Qed.

(** Effect of selecting an edge on the correction and on the syndrome. *)
Lemma select_edge corr syn e leaf other :
  link e leaf other -> length corr = m -> length syn = n -> bits corr e = false ->
  bits syn leaf = true ->
  exists syn',
    match other with
    | None => Ok (upd leaf false syn)
    | Some o => do b <- get (upd leaf false syn) o; put (upd leaf false syn) o (negb b)
    end = Ok syn' /\
    length syn' = n /\
    (forall v, bits syn' v = xorb (bits syn v) (incident edges e v)) /\
    (forall v, boundary edges (bits (upd e true corr)) v =
       xorb (boundary edges (bits corr) v) (incident edges e v)).
Proof.
  intros K LC LS CF ST. destruct (link_lt n edges WF e leaf other K) as [Le Ll].
  assert (BD : forall v, boundary edges (bits (upd e true corr)) v =
       xorb (boundary edges (bits corr) v) (incident edges e v)).
  { intros v. rewrite <- (boundary_single edges e v) by auto. rewrite <- boundary_xor.
    apply boundary_ext. intros i Li. rewrite bits_upd, LC.
    assert (e <? m = true) as -> by (apply Nat.ltb_lt; auto). rewrite andb_true_r, Nat.eqb_sym.
    destruct (Nat.eqb_spec i e) as [->|]; [rewrite CF; auto|rewrite xorb_false_r; auto]. }
  destruct other as [o|].
  - destruct (link_other n edges WF e leaf o K) as (Lo & D & K').
    rewrite (get_nth _ o false) by (rewrite length_upd; lia). cbn [bindR].
    rewrite put_upd by (rewrite length_upd; lia).
    eexists. split; [reflexivity|]. split; [rewrite !length_upd; auto|]. split; [|auto].
    intros v. rewrite bits_upd, length_upd, LS.
    assert (o <? n = true) as -> by (apply Nat.ltb_lt; auto). rewrite andb_true_r.
    assert (IC : incident edges e v = (o =? v) || (leaf =? v)).
    { destruct (Nat.eqb_spec o v) as [<-|Do].
      - apply (link_incident n edges WF). eauto.
      - destruct (Nat.eqb_spec leaf v) as [<-|Dl].
        + apply (link_incident n edges WF). eauto.
        + apply (incident_false n edges WF). intros (o' & Ko).
          destruct (link_ends n edges WF e leaf o v o' K Ko) as [[X _]|[X _]]; congruence. }
    rewrite IC. clear IC. destruct (Nat.eqb_spec o v) as [<-|Do]; cbn [orb].
    + rewrite nth_upd_other by auto. destruct (nth o syn false) eqn:E; unfold bits; rewrite E;
        reflexivity.
    + rewrite bits_upd, LS. assert (leaf <? n = true) as -> by (apply Nat.ltb_lt; auto).
      rewrite andb_true_r. destruct (Nat.eqb_spec leaf v) as [<-|Dl].
      * rewrite ST. reflexivity.
      * rewrite xorb_false_r. reflexivity.
  - eexists. split; [reflexivity|]. split; [rewrite !length_upd; auto|]. split; [|auto].
    intros v. rewrite bits_upd, LS. assert (leaf <? n = true) as -> by (apply Nat.ltb_lt; auto).
    rewrite andb_true_r. destruct (Nat.eqb_spec leaf v) as [<-|D].
    + rewrite ST. assert (incident edges e leaf = true) as ->; [|reflexivity].
      apply (link_incident n edges WF). eauto.
    + rewrite (incident_false n edges WF), xorb_false_r; auto.
      intros (o & Ko). destruct (link_dangling edges e leaf v o K Ko). congruence.
Qed.

(** Removing a vertex with one edge. *)
Lemma pop_edge p V E R nb lf leaf rest e other :
  peeling p V E R nb lf -> rev lf = leaf :: rest -> nth leaf nb [] = [(e, other)] ->
  exists p' V' E' R' nb' lf',
    (do r <- pop_leaf (p_forest p) (rev rest) leaf;
     let '(f, (e, other)) := r in
     peel_body (mkPeel f (p_end p) (p_corr p) (p_syn p)) leaf e other) = Ok p' /\
    peeling p' V' E' R' nb' lf' /\ length V = S (length V').
Proof.
  intros P RL NE.
  assert (LF : lf = rev rest ++ [leaf]).
  { rewrite <- (rev_involutive lf), RL. reflexivity. }
  assert (NR : NoDup (rev rest ++ [leaf])) by (rewrite <- LF; apply (pe_lfn _ _ _ _ _ _ P)).
  assert (NI : ~ In leaf (rev rest)).
  { apply NoDup_remove_2 in NR. rewrite app_nil_r in NR. auto. }
  assert (NRR : NoDup (rev rest)).
  { apply NoDup_remove_1 in NR. rewrite app_nil_r in NR. auto. }
  assert (IL : In leaf V).
  { apply (pe_leaf _ _ _ _ _ _ P). rewrite LF. apply in_or_app. right; left; auto. }
  pose proof (pe_forest _ _ _ _ _ _ P) as FO.
  assert (LL : leaf < n) by (eapply forest_lt; eauto).
  pose proof (pe_lv _ _ _ _ _ _ P) as LV. pose proof (pe_lend _ _ _ _ _ _ P) as LD.
  pose proof (pe_nbr _ _ _ _ _ _ P) as NB. pose proof NB as [NL NM].
  assert (K : bits (eg_een (p_forest p)) e = true /\ link e leaf other).
  { destruct (NM leaf LL) as [_ M]. apply M. rewrite NE. left; auto. }
  destruct K as [Be K].
  assert (Ie : In e E) by (apply (pe_een _ _ _ _ _ _ P); auto).
  destruct (link_lt n edges WF e leaf other K) as [Le _].
  destruct (forest_remove_leaf n edges WF lab V E R leaf e FO IL)
    as (V' & E' & R' & F' & HV & HE & HR & HL).
  { split; eauto. }
  { intros e' T. apply (entry_touches _ _ _ _ _ _ _ _ P LL) in T. destruct T as (o & T).
    rewrite NE in T. destruct T as [T|[]]. congruence. }
  set (g0 := set_leaf (Some (rev rest)) (p_forest p)).
  destruct (enable_edge_off n edges WF g0 nb e) as (nb' & NB' & LEN & EO); auto.
  { apply (pe_edges _ _ _ _ _ _ P). }
  { apply (pe_le _ _ _ _ _ _ P). }
  { apply (pe_nb _ _ _ _ _ _ P). }
  { intros v o Kv. apply (pe_ven _ _ _ _ _ _ P).
    exact (proj1 (forest_edge n edges WF _ _ _ _ _ _ _ FO Ie Kv)). }
  cbn [g0 set_leaf eg_leaf eg_ven eg_n eg_een] in EO.
  pose proof NB' as [NL' NM'].
  assert (ZL : length (nth leaf nb' []) = 0).
  { specialize (LEN leaf LL). rewrite NE in LEN. cbn in LEN.
    assert (incident edges e leaf = true) as X by (apply (link_incident n edges WF); eauto).
    rewrite X in LEN. lia. }
  match type of EO with _ = Ok (mkEgraph _ _ _ _ _ (Some ?l)) => set (lf' := l) in * end.
  set (f' := mkEgraph (eg_n (p_forest p)) edges (upd leaf false (eg_ven (p_forest p)))
    (upd e false (eg_een (p_forest p))) (Some nb') (Some lf')).
  assert (EX : pop_leaf (p_forest p) (rev rest) leaf = Ok (f', (Some e, other))).
  { unfold pop_leaf. fold g0. cbn [g0 set_leaf eg_ven eg_nbr].
    rewrite (get_nth _ leaf false) by lia. cbn [bindR]. fold (bits (eg_ven (p_forest p)) leaf).
    rewrite (proj2 (pe_ven _ _ _ _ _ _ P leaf) IL). cbn [assertR bindR].
    rewrite (pe_nb _ _ _ _ _ _ P). rewrite (get_nth nb leaf []) by lia. cbn [bindR].
    rewrite NE. fold g0. rewrite EO. cbn [bindR]. unfold enable_vertex. cbn [eg_nbr eg_ven].
    rewrite (get_nth nb' leaf []) by lia. cbn [bindR].
    rewrite ZL. cbn [Nat.eqb assertR bindR]. rewrite put_upd by lia. reflexivity. }
  rewrite EX. cbn [bindR]. unfold peel_body. cbn [p_end p_forest p_corr p_syn].
  rewrite (get_nth _ leaf false) by lia. cbn [bindR]. fold (bits (p_end p) leaf).
  assert (bits (p_end p) leaf = false) as ->.
  { destruct (bits (p_end p) leaf) eqn:B; auto. apply (pe_end _ _ _ _ _ _ P) in B.
    rewrite NE in B. cbn in B. lia. }
  assert (OTHER : forall o, other = Some o -> o < n /\ o <> leaf /\ In o V /\ In o V' /\
    1 <= length (nth o nb []) /\ length (nth o nb []) = S (length (nth o nb' []))).
  { intros o ->. destruct (link_other n edges WF e leaf o K) as (Lo & D & K').
    assert (IO : In o V) by (exact (proj1 (forest_edge n edges WF _ _ _ _ _ _ _ FO Ie K'))).
    assert (IC : incident edges e o = true) by (apply (link_incident n edges WF); eauto).
    specialize (LEN o Lo). rewrite IC in LEN.
    repeat split; auto; try lia. apply HV. auto. }
  assert (SAME : forall v, v < n -> v <> leaf -> other <> Some v ->
    length (nth v nb' []) = length (nth v nb [])).
  { intros v Lv Dv Do. rewrite (LEN v Lv).
    rewrite (incident_false n edges WF); auto. intros (o' & Ko).
    destruct other as [o|].
    - destruct (link_ends n edges WF e leaf o v o' K Ko) as [[-> _]|[-> _]]; congruence.
    - destruct (link_dangling edges e leaf v o' K Ko). congruence. }
  (* the list of vertices without edges *)
  assert (END : exists end',
    (match other with
     | None => Ok (p_end p)
     | Some o => do l <- get_neighbours f' o;
                 if length l =? 0 then put (p_end p) o true else Ok (p_end p)
     end) = Ok end' /\ length end' = n /\
    forall v, bits end' v = true <-> In v V' /\ length (nth v nb' []) = 0).
  { assert (OLD : forall v, other <> Some v ->
      (bits (p_end p) v = true <-> In v V' /\ length (nth v nb' []) = 0)).
    { intros v Do. destruct (Nat.eq_dec v leaf) as [->|Dv].
      - rewrite (pe_end _ _ _ _ _ _ P), NE, HV. cbn. split; [lia|tauto].
      - rewrite (pe_end _ _ _ _ _ _ P), HV. split.
        + intros [A B]. assert (Lv : v < n) by (exact (forest_lt n edges _ _ _ _ _ FO A)).
          rewrite SAME; auto.
        + intros [[A _] B]. assert (Lv : v < n) by (exact (forest_lt n edges _ _ _ _ _ FO A)).
          rewrite SAME in B; auto. }
    destruct other as [o|].
    - destruct (OTHER o eq_refl) as (Lo & Do & IO & IO' & L1 & L2).
      unfold get_neighbours. cbn [f' eg_ven eg_nbr].
      rewrite (get_nth _ o false) by (rewrite length_upd; lia). cbn [bindR].
      rewrite nth_upd_other by auto. fold (bits (eg_ven (p_forest p)) o).
      rewrite (proj2 (pe_ven _ _ _ _ _ _ P o) IO). cbn [assertR bindR].
      rewrite (get_nth nb' o []) by lia. cbn [bindR].
      destruct (Nat.eqb_spec (length (nth o nb' [])) 0) as [Z|Z].
      + rewrite put_upd by lia. eexists. split; [reflexivity|].
        split; [rewrite length_upd; auto|]. intros v. rewrite bits_upd, LD.
        assert (o <? n = true) as -> by (apply Nat.ltb_lt; auto). rewrite andb_true_r.
        destruct (Nat.eqb_spec o v) as [<-|D]; [tauto|]. apply OLD. congruence.
      + eexists. split; [reflexivity|]. split; auto. intros v.
        destruct (Nat.eq_dec v o) as [->|D]; [|apply OLD; congruence].
        rewrite (pe_end _ _ _ _ _ _ P). lia.
    - eexists. split; [reflexivity|]. split; auto. intros v. apply OLD. discriminate. }
  destruct END as (end' & EE & LE' & HEnd). rewrite EE. cbn [bindR].
  (* leaves *)
  assert (LEAF : NoDup lf' /\ forall v, In v lf' <-> In v V' /\ length (nth v nb' []) <= 1).
  { assert (APP : forall v, In v (filter (fun v => (length (nth v nb' []) <=? 1) &&
               negb (length (nth v nb []) <=? 1)) (nth e edges [])) <->
               other = Some v /\ length (nth v nb' []) <= 1 /\ ~ length (nth v nb []) <= 1).
    { intros v. rewrite filter_In, andb_true_iff, negb_true_iff, Nat.leb_le, Nat.leb_gt.
      split.
      - intros (I & A & B). split; [|split; [auto|lia]].
        assert (IC : incident edges e v = true).
        { unfold incident. apply existsb_exists. exists v. split; auto. apply Nat.eqb_refl. }
        apply (link_incident n edges WF) in IC. destruct IC as (o' & Ko).
        destruct other as [o|].
        + destruct (link_ends n edges WF e leaf o v o' K Ko) as [[-> _]|[-> _]]; auto.
          rewrite NE in B. cbn in B. lia.
        + destruct (link_dangling edges e leaf v o' K Ko) as [-> _].
          rewrite NE in B. cbn in B. lia.
      - intros (-> & A & B). split; [|split; [auto|lia]].
        destruct (link_other n edges WF e leaf v K) as (_ & _ & K').
        assert (IC : incident edges e v = true) by (apply (link_incident n edges WF); eauto).
        unfold incident in IC. apply existsb_exists in IC. destruct IC as (y & Iy & Ey).
        apply Nat.eqb_eq in Ey. subst y. auto. }
    assert (REST : forall v, In v (rev rest) <-> In v V' /\ length (nth v nb []) <= 1).
    { intros v. pose proof (pe_leaf _ _ _ _ _ _ P v) as H. rewrite LF, in_app_iff in H.
      cbn in H. rewrite HV. split.
      - intros I. assert (v <> leaf) by congruence. tauto.
      - intros [[A B] C]. destruct (proj2 H) as [?|[?|[]]]; auto. congruence. }
    split.
    - unfold lf'.
      assert (ND : NoDup (filter (fun v => (length (nth v nb' []) <=? 1) &&
               negb (length (nth v nb []) <=? 1)) (nth e edges []))).
      { apply NoDup_filter.
        destruct (edge_cases n edges WF e Le) as [(a & X & _)|(a & b & X & D & _)];
          rewrite (nth_error_nth _ _ _ X).
        - repeat constructor; auto.
        - repeat constructor; cbn; intuition congruence. }
      revert ND APP. generalize (filter (fun v => (length (nth v nb' []) <=? 1) &&
               negb (length (nth v nb []) <=? 1)) (nth e edges [])). intros l ND APP.
      assert (DIS : forall v, In v (rev rest) -> ~ In v l).
      { intros v I J. apply APP in J. apply REST in I. tauto. }
      clear -NRR ND DIS. induction (rev rest) as [|a r IH]; cbn; auto.
      inversion NRR; subst. constructor.
      + rewrite in_app_iff. intros [?|J]; [auto|]. apply (DIS a); cbn; auto.
      + apply IH; auto. intros v I. apply DIS. cbn; auto.
    - intros v. unfold lf'. rewrite in_app_iff, APP, REST. split.
      + intros [[A B]|(-> & A & B)].
        * split; auto. pose proof (proj1 (HV v) A) as [A1 A2].
          assert (Lv : v < n) by (eapply forest_lt; eauto). specialize (LEN v Lv). lia.
        * split; auto. apply (OTHER v eq_refl).
      + intros [A B]. pose proof (proj1 (HV v) A) as [A1 A2].
        assert (Lv : v < n) by (eapply forest_lt; eauto).
        destruct (Nat.le_gt_cases (length (nth v nb [])) 1) as [C|C]; [left; auto|].
        right. split; [|split; [auto|lia]].
        destruct other as [o|].
        * destruct (Nat.eq_dec v o) as [->|D]; auto.
          rewrite SAME in B; auto; [lia|congruence].
        * rewrite SAME in B; auto; [lia|congruence]. }
  destruct LEAF as [LND LEAF].
  assert (CF : bits (p_corr p) e = false).
  { destruct (bits (p_corr p) e) eqn:B; auto. apply (pe_corr _ _ _ _ _ _ P) in B. tauto. }
  pose proof (pe_lsyn _ _ _ _ _ _ P) as LS. pose proof (pe_lcorr _ _ _ _ _ _ P) as LC.
  (* the remaining state *)
  assert (FIN : forall corr' syn', length corr' = m -> length syn' = n ->
    (forall i, bits corr' i = true -> i = e \/ bits (p_corr p) i = true) ->
    (forall v, v < n -> xorb (boundary edges (bits corr') v) (bits syn' v) = bits syn0 v) ->
    bits syn' leaf = false ->
    (forall v, incident edges e v = false -> bits syn' v = bits (p_syn p) v) ->
    peeling (mkPeel f' end' corr' syn') V' E' R' nb' lf').
  { intros corr' syn' LC' LS' HC HB HL0 HS.
    constructor; cbn [p_forest p_end p_corr p_syn f' eg_n eg_edges eg_ven eg_een
      eg_nbr eg_leaf]; auto.
    - apply (pe_n _ _ _ _ _ _ P).
    - rewrite length_upd. auto.
    - rewrite length_upd. apply (pe_le _ _ _ _ _ _ P).
    - intros x Ix. apply HV in Ix. apply (pe_V _ _ _ _ _ _ P); tauto.
    - intros x Ix. apply HE in Ix. apply (pe_E _ _ _ _ _ _ P); tauto.
    - intros x. rewrite bits_upd, LV.
      assert (leaf <? n = true) as -> by (apply Nat.ltb_lt; auto).
      rewrite andb_true_r, HV. destruct (Nat.eqb_spec leaf x) as [<-|D].
      + split; [discriminate|tauto].
      + rewrite (pe_ven _ _ _ _ _ _ P). split; [auto|tauto].
    - intros x. rewrite bits_upd, (pe_le _ _ _ _ _ _ P).
      assert (e <? m = true) as -> by (apply Nat.ltb_lt; auto).
      rewrite andb_true_r, HE. destruct (Nat.eqb_spec e x) as [<-|D].
      + split; [discriminate|tauto].
      + rewrite (pe_een _ _ _ _ _ _ P). split; [auto|tauto].
    - eapply nbr_is_ext; [exact NB'|]. intros v i o Lv. cbn beta.
      cbn [g0 set_leaf eg_een]. rewrite bits_upd, (pe_le _ _ _ _ _ _ P).
      assert (e <? m = true) as -> by (apply Nat.ltb_lt; auto).
      rewrite andb_true_r. rewrite (Nat.eqb_sym i e).
      destruct (Nat.eqb_spec e i); cbn [negb]; rewrite ?andb_false_r, ?andb_true_r; tauto.
    - intros i Bi. destruct (HC i Bi) as [->|Bi'].
      + split; [apply (pe_E _ _ _ _ _ _ P); auto|]. rewrite HE. tauto.
      + destruct (pe_corr _ _ _ _ _ _ P i Bi') as [A B]. split; auto. rewrite HE. tauto.
    - intros EV v I0 Nv. destruct (Nat.eq_dec v leaf) as [->|D]; auto.
      assert (NV : ~ In v V) by (intros I; apply Nv; apply HV; auto).
      rewrite HS; [apply (pe_done _ _ _ _ _ _ P); auto|].
      apply (incident_false n edges WF). intros (o' & Ko). apply NV.
      exact (proj1 (forest_edge n edges WF _ _ _ _ _ _ _ FO Ie Ko)). }
  rewrite (get_nth _ leaf false) by lia. cbn [bindR]. fold (bits (p_syn p) leaf).
  destruct (bits (p_syn p) leaf) eqn:SL.
  - rewrite (get_nth _ e false) by lia. cbn [bindR]. fold (bits (p_corr p) e).
    rewrite CF. cbn [negb assertR bindR].
    destruct (select_edge (p_corr p) (p_syn p) e leaf other K LC LS CF SL)
      as (syn' & ES & LS' & HS & HB).
    rewrite ES. cbn [bindR].
    eexists _, V', E', R', nb', lf'. split; [reflexivity|]. split; [|auto].
    apply FIN; auto.
    + rewrite length_upd. auto.
    + intros i. rewrite bits_upd, LC. destruct ((e =? i) && (e <? m)) eqn:X; auto.
      apply andb_true_iff in X. destruct X as [X _]. apply Nat.eqb_eq in X. auto.
    + intros v Lv. rewrite HB, HS, <- (pe_bound _ _ _ _ _ _ P v Lv).
      destruct (boundary edges (bits (p_corr p)) v), (bits (p_syn p) v), (incident edges e v);
        reflexivity.
    + rewrite HS, SL. assert (incident edges e leaf = true) as ->; [|reflexivity].
      apply (link_incident n edges WF). eauto.
    + intros v IC. rewrite HS, IC. apply xorb_false_r.
  - eexists _, V', E', R', nb', lf'. split; [reflexivity|]. split; [|auto].
    apply FIN; auto. apply (pe_bound _ _ _ _ _ _ P).
Qed.

(** The complete loop. *)
Lemma peel_loop_ok fuel : forall p V E R nb lf,
  peeling p V E R nb lf -> length V <= fuel ->
  exists p' R' nb', peel_loop fuel p = Ok p' /\ peeling p' [] [] R' nb' [].
Proof.
  induction fuel as [|fuel IH]; intros p V E R nb lf P L.
  - destruct V; [|cbn in L; lia].
    assert (lf = []) as ->.
    { destruct lf as [|v lf]; auto.
      destruct (proj1 (pe_leaf _ _ _ _ _ _ P v)) as [[] _]. left; auto. }
    assert (E = []) as -> by (pose proof (pe_forest _ _ _ _ _ _ P) as F; inversion F; auto).
    cbn. rewrite (pe_lf _ _ _ _ _ _ P). cbn. eauto.
  - cbn [peel_loop]. rewrite (pe_lf _ _ _ _ _ _ P).
    destruct (rev lf) as [|leaf rest] eqn:RL.
    + assert (lf = []) as -> by (rewrite <- (rev_involutive lf), RL; auto).
      destruct V as [|v V].
      { assert (E = []) as -> by (pose proof (pe_forest _ _ _ _ _ _ P) as F; inversion F; auto).
        eauto. }
      exfalso. pose proof (pe_forest _ _ _ _ _ _ P) as F.
      assert (Lv : v < n) by (eapply forest_lt; [eauto|left; auto]).
      assert (In v []); [|auto].
      apply (pe_leaf _ _ _ _ _ _ P). split; [left; auto|].
      destruct (pe_nbr _ _ _ _ _ _ P) as [_ K]. destruct (K v Lv) as [N M].
      pose proof (forest_last n edges WF _ _ _ _ _ F) as U.
      destruct (nth v nb []) as [|[e1 o1] [|[e2 o2] l]] eqn:X; cbn; try lia. exfalso.
      assert (T1 : touches edges E v e1).
      { apply (entry_touches _ _ _ _ _ _ _ _ P Lv). exists o1. rewrite X. left; auto. }
      assert (T2 : touches edges E v e2).
      { apply (entry_touches _ _ _ _ _ _ _ _ P Lv). exists o2. rewrite X. right; left; auto. }
      specialize (U e1 e2 T1 T2). subst e2.
      destruct (proj1 (M e1 o1)) as [_ K1]; [left; auto|].
      destruct (proj1 (M e1 o2)) as [_ K2]; [right; left; auto|].
      rewrite (link_fun n edges WF _ _ _ _ K1 K2) in N. inversion N; subst. cbn in *. tauto.
    + assert (LF : In leaf lf).
      { apply in_rev. rewrite RL. left; auto. }
      destruct (proj1 (pe_leaf _ _ _ _ _ _ P leaf) LF) as [IL DL].
      assert (STEP : exists p' V' E' R' nb' lf',
        (do r <- pop_leaf (p_forest p) (rev rest) leaf;
         let '(f, (e, other)) := r in
         peel_body (mkPeel f (p_end p) (p_corr p) (p_syn p)) leaf e other) = Ok p' /\
        peeling p' V' E' R' nb' lf' /\ length V = S (length V')).
      { destruct (one_entry _ DL) as [X|([e o] & X)].
        - destruct (pop_end _ _ _ _ _ _ _ _ P RL X) as (p' & V' & R' & nb' & lf' & H).
          exists p', V', E, R', nb', lf'. auto.
        - eapply pop_edge; eauto. }
      destruct STEP as (p' & V' & E' & R' & nb' & lf' & EX & P' & LV).
      destruct (pop_leaf (p_forest p) (rev rest) leaf) as [[f [e o]]|]; [|discriminate].
      cbn [bindR] in EX |- *. rewrite EX. cbn [bindR]. eapply IH; eauto. lia.
Qed.

(** Outcome of peeling a spanning forest. *)
Theorem peel_forest_ok f R :
  eg_n f = n -> eg_edges f = edges -> length (eg_ven f) = n -> length (eg_een f) = m ->
  length syn0 = n ->
  (forall x, bits (eg_ven f) x = true <-> In x V0) ->
  (forall x, bits (eg_een f) x = true <-> In x E0) ->
  forest n edges lab V0 E0 R ->
  (forall v, In v V0 -> exists e, touches edges E0 v e) ->
  exists corr, peel_forest f syn0 = Ok corr /\ length corr = m /\
    (forall i, bits corr i = true -> In i E0) /\
    (even_components n edges er (bits syn0) -> explains n edges (bits corr) (bits syn0)).
Proof.
  intros En Ee LV LE LS HV HE FO DEG.
  destruct (update_neighbours_ok n edges WF f En Ee LV LE) as (nb & EU & NB).
  { intros i Bi v o K. apply HV. apply HE in Bi.
    exact (proj1 (forest_edge n edges WF _ _ _ _ _ _ _ FO Bi K)). }
  unfold peel_forest. rewrite EU. cbn [bindR]. pose proof NB as [NL NM].
  set (lf := filter (fun v => bits (eg_ven f) v && (length (nth v nb []) <=? 1)) (seq 0 n)).
  assert (EL : update_leaves (set_nbr (Some nb) f) = Ok (set_leaf (Some lf) (set_nbr (Some nb) f))).
  { unfold update_leaves. cbn [set_nbr eg_nbr eg_ven].
    match goal with |- context [foldR ?b _ _] => set (body := b) end.
    assert (IND : forall k, k <= n -> foldR body (seq 0 k) [] =
      Ok (filter (fun v => bits (eg_ven f) v && (length (nth v nb []) <=? 1)) (seq 0 k))).
    { induction k as [|k IH]; intros Lk; auto.
      rewrite seq_S, foldR_app, IH by lia. cbn [bindR foldR]. unfold body at 1. cbn [plus].
      rewrite (get_nth _ k false) by lia. cbn [bindR]. fold (bits (eg_ven f) k).
      rewrite filter_app. cbn [filter]. destruct (bits (eg_ven f) k); cbn [andb].
      - rewrite (get_nth nb k []) by lia. cbn [bindR].
        destruct (length (nth k nb []) <=? 1); rewrite ?app_nil_r; reflexivity.
      - cbn. rewrite app_nil_r. reflexivity. }
    rewrite LV, IND by lia. reflexivity. }
  rewrite EL. cbn [bindR].
  match goal with |- context [peel_loop _ ?q] => set (p := q) end.
  assert (VN : forall v, In v V0 -> v < n) by (intros v; apply (forest_lt n edges _ _ _ _ _ FO)).
  assert (P : peeling p V0 E0 R nb lf).
  { constructor; cbn [p p_forest p_end p_corr p_syn set_nbr set_leaf eg_n eg_edges eg_ven
      eg_een eg_nbr eg_leaf]; auto.
    - apply NoDup_filter, seq_NoDup.
    - intros v. unfold lf. rewrite filter_In, andb_true_iff, Nat.leb_le, HV, in_seq.
      split; [tauto|]. intros [A B]. specialize (VN v A). repeat split; auto; lia.
    - rewrite repeat_length. auto.
    - intros v. rewrite bits_repeat. split; [discriminate|]. intros [A B]. exfalso.
      destruct (DEG v A) as (e & Ie & o & K). destruct (NM v (VN v A)) as [_ M].
      assert (In (e, o) (nth v nb [])) as X by (apply M; split; auto; apply HE; auto).
      destruct (nth v nb []); [destruct X|discriminate].
    - rewrite repeat_length. congruence.
    - intros i. rewrite bits_repeat. discriminate.
    - intros v Lv. rewrite boundary_none; [apply xorb_false_l|].
      intros i. rewrite bits_repeat. discriminate.
    - intros _ v I NI. tauto. }
  assert (LEN : length V0 <= n).
  { rewrite <- (seq_length n 0). apply NoDup_incl_length.
    - eapply forest_nodup; eauto.
    - intros v I. apply in_seq. specialize (VN v I). lia. }
  destruct (peel_loop_ok (S (eg_n f)) p V0 E0 R nb lf P) as (p' & R' & nb' & EP & P').
  { lia. }
  rewrite EP. cbn [bindR].
  assert (forallb negb (p_end p') = true) as ->.
  { apply forallb_forall. intros b Ib. destruct b; auto. exfalso.
    apply In_nth with (d := false) in Ib. destruct Ib as (v & _ & B).
    apply (pe_end _ _ _ _ _ _ P') in B. destruct B as [[] _]. }
  cbn [assertR bindR]. exists (p_corr p'). split; auto. split; [apply (pe_lcorr _ _ _ _ _ _ P')|].
  split.
  - intros i B. apply (pe_corr _ _ _ _ _ _ P'); auto.
  - intros EV v Lv. pose proof (pe_bound _ _ _ _ _ _ P' v Lv) as B.
    destruct (in_dec Nat.eq_dec v V0) as [I|NI].
    + rewrite (pe_done _ _ _ _ _ _ P' EV v I) in B by auto. rewrite xorb_false_r in B. auto.
    + assert (Z : forall i, er i -> incident edges i v = false).
      { intros i Hi. apply (incident_false n edges WF). intros (o & K).
        destruct (closed i v o Hi K). tauto. }
      rewrite boundary_none.
      2: { intros i Bi. apply Z. apply erased. apply (pe_corr _ _ _ _ _ _ P'); auto. }
      symmetry. pose proof (EV (Nat.eqb v)) as EV'. unfold parity_on in EV'.
      rewrite (parity_one _ v) in EV'.
      * rewrite Nat.eqb_refl in EV'. apply EV'. intros i Hi.
        destruct (Nat.lt_ge_cases i m) as [L|L].
        2: { rewrite nth_overflow by auto. exact I. }
        assert (ZZ : forall x o, link i x o -> (v =? x) = false).
        { intros x o K. apply Nat.eqb_neq. intros <-. specialize (Z i Hi).
          assert (incident edges i v = true) by (apply (link_incident n edges WF); eauto).
          congruence. }
        destruct (edge_cases n edges WF i L) as [(a & E & La)|(a & b & E & D & La & Lb)];
          rewrite (nth_error_nth _ _ _ E).
        -- apply (ZZ a None). left; auto.
        -- rewrite (ZZ a (Some b)), (ZZ b (Some a)); auto; right; eauto.
      * apply seq_NoDup.
      * apply in_seq. lia.
      * intros x _ D. assert (v =? x = false) as -> by (apply Nat.eqb_neq; auto). reflexivity.
Qed.

End P.
