(** Construction of the spanning forest and the complete erasure decoder. *)
Require Import List Bool Arith Lia.
From Verif Require Import Base BaseProofs ErasureModel GraphSpec GraphProofs ErasureProofs
  ErasurePeel.
Import ListNotations.

Local Arguments bits : simpl never.
Local Arguments upd : simpl never.

Section F.
Variables (n : nat) (edges : list (list nat)).
Hypothesis WF : well_formed n edges.

Notation link := (link edges).
Notation m := (length edges).

(** ** Switching vertices and edges on *)

Lemma enable_vertex_on v g : length (eg_ven g) = n -> v < n ->
  enable_vertex v true g = Ok (set_ven (upd v true (eg_ven g)) g).
Proof. intros L Lv. unfold enable_vertex. cbn [bindR]. rewrite put_upd by lia. reflexivity. Qed.

Lemma enable_edge_on e g : eg_edges g = edges -> eg_nbr g = None -> length (eg_ven g) = n ->
  length (eg_een g) = m -> e < m -> ends_on edges (eg_ven g) e ->
  enable_edge e true g = Ok (set_een (upd e true (eg_een g)) g).
Proof.
  intros Ee En LV LE Le X. unfold enable_edge. rewrite Ee, (get_nth edges e []) by auto.
  cbn [bindR]. rewrite (assert_ends n edges WF) by auto. cbn [bindR].
  rewrite (get_nth _ e false) by lia. cbn [bindR]. rewrite En. reflexivity.
Qed.

Lemma bits_on k l x : length l = n -> k < n ->
  (bits (upd k true l) x = true <-> bits l x = true \/ x = k).
Proof.
  intros L Lk. rewrite bits_upd, L. apply Nat.ltb_lt in Lk. rewrite Lk, andb_true_r.
  destruct (Nat.eqb_spec k x); [subst; tauto|]. intuition congruence.
Qed.

Lemma bits_on_m k l x : length l = m -> k < m ->
  (bits (upd k true l) x = true <-> bits l x = true \/ x = k).
Proof.
  intros L Lk. rewrite bits_upd, L. apply Nat.ltb_lt in Lk. rewrite Lk, andb_true_r.
  destruct (Nat.eqb_spec k x); [subst; tauto|]. intuition congruence.
Qed.

Lemma enable_ends e g : length (eg_ven g) = n -> e < m ->
  exists ven, foldR (fun g v => enable_vertex v true g) (nth e edges []) g = Ok (set_ven ven g) /\
    length ven = n /\
    forall v, bits ven v = true <-> bits (eg_ven g) v = true \/ incident edges e v = true.
Proof.
  intros LV Le. unfold incident.
  destruct (edge_cases n edges WF e Le) as [(a & E & La)|(a & b & E & D & La & Lb)];
    rewrite (nth_error_nth _ _ _ E); cbn [foldR existsb].
  - rewrite enable_vertex_on by auto. cbn [bindR].
    eexists. split; [reflexivity|]. split; [rewrite length_upd; auto|].
    intros v. rewrite bits_on, orb_false_r, Nat.eqb_eq by auto. tauto.
  - rewrite enable_vertex_on by auto. cbn [bindR].
    rewrite enable_vertex_on by (cbn; rewrite ?length_upd; auto). cbn [bindR].
    exists (upd b true (upd a true (eg_ven g))). split; [reflexivity|].
    split; [rewrite !length_upd; auto|].
    intros v. rewrite bits_on by (rewrite ?length_upd; auto). rewrite bits_on by auto.
    rewrite orb_false_r, orb_true_iff, !Nat.eqb_eq. tauto.
Qed.

Lemma enable_edges_ok idxs : forall g,
  eg_edges g = edges -> eg_nbr g = None -> length (eg_ven g) = n -> length (eg_een g) = m ->
  (forall i, In i idxs -> i < m) ->
  exists ven een, enable_edges idxs g = Ok (set_een een (set_ven ven g)) /\
    length ven = n /\ length een = m /\
    (forall v, bits ven v = true <-> bits (eg_ven g) v = true \/
       exists i, In i idxs /\ incident edges i v = true) /\
    (forall i, bits een i = true <-> bits (eg_een g) i = true \/ In i idxs).
Proof.
  induction idxs as [|e idxs IH]; intros g Ee En LV LE LI.
  - exists (eg_ven g), (eg_een g). split; [destruct g; reflexivity|]. repeat split; auto.
    + intros [?|(i & [] & _)]; auto.
    + intros [?|[]]; auto.
  - assert (Le : e < m) by (apply LI; left; auto).
    assert (STEP : forall g', (do edge <- get (eg_edges g) e;
        do g' <- foldR (fun g v => enable_vertex v true g) edge g; enable_edge e true g') = Ok g' ->
        enable_edges (e :: idxs) g = enable_edges idxs g').
    { intros g' X. unfold enable_edges. cbn [foldR]. rewrite X. reflexivity. }
    rewrite Ee, (get_nth edges e []) in STEP by auto. cbn [bindR] in STEP.
    destruct (enable_ends e g LV Le) as (ven & EV & LV' & HV). rewrite EV in STEP.
    cbn [bindR] in STEP. rewrite enable_edge_on in STEP; auto.
    2: { intros v o K. cbn. apply HV. right. apply (link_incident n edges WF). eauto. }
    rewrite (STEP _ eq_refl). change (eg_een (set_ven ven g)) with (eg_een g).
    destruct (IH (set_een (upd e true (eg_een g)) (set_ven ven g))) as (ven2 & een2 & E2 & L1 & L2 & H1 & H2);
      cbn; auto.
    { rewrite length_upd. auto. }
    { intros i I. apply LI. right; auto. }
    rewrite E2. exists ven2, een2. split; [reflexivity|].
    repeat split; auto.
    + intros B. apply H1 in B. cbn in B. destruct B as [B|(i & I & B)].
      * apply HV in B. destruct B as [B|B]; auto. right. exists e. split; [left|]; auto.
      * right. exists i. split; [right|]; auto.
    + intros B. apply H1. cbn. destruct B as [B|(i & [<-|I] & B)].
      * left. apply HV. auto.
      * left. apply HV. auto.
      * right. eauto.
    + intros B. apply H2 in B. cbn in B. destruct B as [B|B]; [|right; right; auto].
      apply bits_on_m in B; auto. destruct B as [B|B]; [auto|]. right; left; auto.
    + intros B. apply H2. cbn [eg_een set_een]. rewrite bits_on_m by auto. destruct B as [B|[<-|B]]; auto.
Qed.

(** ** The forest *)

(** The selected subgraph: enabled vertices and edges. *)
Variables (ven0 een0 : list bool).
Hypothesis LV0 : length ven0 = n.
Hypothesis LE0 : length een0 = m.
Hypothesis ends0 : forall i, bits een0 i = true -> ends_on edges ven0 i.

(** The list of edges of a graph object without neighbour lists. *)
Record plain (f : egraph) (V E : list nat) : Prop := {
  pl_n : eg_n f = n;
  pl_edges : eg_edges f = edges;
  pl_nbr : eg_nbr f = None;
  pl_lv : length (eg_ven f) = n;
  pl_le : length (eg_een f) = m;
  pl_ven : forall x, bits (eg_ven f) x = true <-> In x V;
  pl_een : forall x, bits (eg_een f) x = true <-> In x E
}.

Lemma plain_vertex f V E v : plain f V E -> v < n ->
  exists f', enable_vertex v true f = Ok f' /\ plain f' (v :: V) E.
Proof.
  intros P L. destruct P. rewrite enable_vertex_on by auto. eexists. split; [reflexivity|].
  constructor; cbn; auto.
  - rewrite length_upd. auto.
  - intros x. change (bits (upd v true (eg_ven f)) x = true <-> v = x \/ In x V).
    rewrite bits_on, pl_ven0 by auto. intuition.
Qed.

Lemma plain_edge f V E e : plain f V E -> e < m ->
  (forall v o, link e v o -> In v V) ->
  exists f', enable_edge e true f = Ok f' /\ plain f' V (e :: E).
Proof.
  intros P L X. destruct P. rewrite enable_edge_on; auto.
  2: { intros v o K. apply pl_ven0. eauto. }
  eexists. split; [reflexivity|]. constructor; cbn; auto.
  - rewrite length_upd. auto.
  - intros x. change (bits (upd e true (eg_een f)) x = true <-> e = x \/ In x E).
    rewrite bits_on_m, pl_een0 by auto. intuition.
Qed.

(** The graph while dangling edges are switched off. *)
Record source (g : egraph) (nb : list (list entry)) : Prop := {
  so_n : eg_n g = n;
  so_edges : eg_edges g = edges;
  so_ven : eg_ven g = ven0;
  so_le : length (eg_een g) = m;
  so_sub : forall i, bits (eg_een g) i = true -> bits een0 i = true;
  so_two : forall i v w, bits een0 i = true -> link i v (Some w) -> bits (eg_een g) i = true;
  so_nb : eg_nbr g = Some nb;
  so_nbr : nbr_ok n edges (bits (eg_een g)) nb;
  so_leaf : eg_leaf g = None
}.

(** Dangling edges selected for the forest. *)
Lemma dangling_ok g0 nb0 f0 : source g0 nb0 -> eg_een g0 = een0 -> plain f0 [] [] ->
  exists g nb f V E new,
    foldR dangling_step (seq 0 m) (g0, f0, []) = Ok (g, f, new) /\
    source g nb /\ plain f V E /\ forest n edges (fun _ => 0) V E [] /\
    (forall x, In x new <-> In x V) /\ NoDup new /\ length new = length V /\
    (forall i, In i E -> bits een0 i = true) /\
    (forall v, In v V -> bits ven0 v = true) /\
    (forall i v, bits een0 i = true -> link i v None -> In v V) /\
    (forall i v, bits (eg_een g) i = true -> link i v None -> In i E).
Proof.
  intros S0 G0 P0.
  assert (IND : forall k, k <= m -> exists g nb f V E new,
    foldR dangling_step (seq 0 k) (g0, f0, []) = Ok (g, f, new) /\
    source g nb /\ plain f V E /\ forest n edges (fun _ => 0) V E [] /\
    (forall x, In x new <-> In x V) /\ NoDup new /\ length new = length V /\
    (forall i, In i E -> bits een0 i = true) /\
    (forall i, In i E -> i < k) /\
    (forall v, In v V -> bits ven0 v = true) /\
    (forall i v, i < k -> bits een0 i = true -> link i v None -> In v V) /\
    (forall i, k <= i -> bits een0 i = true -> bits (eg_een g) i = true) /\
    (forall i v, i < k -> bits (eg_een g) i = true -> link i v None -> In i E)).
  2: { destruct (IND m (le_n _)) as (g & nb & f & V & E & new & H).
    destruct H as (H1 & H2 & H3 & H4 & H5 & H6 & H7 & H8 & H9 & H10 & H11 & H12 & H13).
    exists g, nb, f, V, E, new. repeat (split; [assumption|]). split.
    - intros i v B K. apply H11 with i; auto. apply (link_lt n edges WF _ _ _ K).
    - intros i v B K. apply H13 with v; auto. apply (link_lt n edges WF _ _ _ K). }
  induction k as [|k IH]; intros Lk.
  - exists g0, nb0, f0, [], [], []. split; [reflexivity|]. split; [auto|]. split; [auto|].
    split; [constructor|]. split; [intros; tauto|]. split; [constructor|]. split; [auto|].
    split; [intros i []|]. split; [intros i []|]. split; [intros i []|].
    split; [intros; lia|]. split; [rewrite G0; auto|intros; lia].
  - destruct IH as (g & nb & f & V & E & new & EF & SO & PL & FO & HN & ND & LN & HE & HEk & HV &
      HD & HR & HG); [lia|].
    rewrite seq_S, foldR_app, EF. cbn [bindR foldR plus]. unfold dangling_step at 1.
    rewrite (get_nth _ k false) by (rewrite (so_le _ _ SO); lia). cbn [bindR].
    fold (bits (eg_een g) k).
    assert (SAMEE : forall i, In i E -> i < S k) by (intros i I; specialize (HEk i I); lia).
    assert (SAMER : forall i, S k <= i -> bits een0 i = true -> bits (eg_een g) i = true)
      by (intros; apply HR; auto; lia).
    destruct (bits (eg_een g) k) eqn:Bk.
    2: { cbn [bindR]. exists g, nb, f, V, E, new. split; [reflexivity|]. repeat (split; [assumption|]). split; [|split; [auto|]].
      - intros i v Li B K. destruct (Nat.eq_dec i k) as [->|]; [|apply HD with i; auto; lia].
        rewrite HR in Bk by auto. discriminate.
      - intros i v Li B K. destruct (Nat.eq_dec i k) as [->|]; [congruence|].
        apply HG with v; auto; lia. }
    assert (B0 : bits een0 k = true) by (apply (so_sub _ _ SO); auto).
    assert (Lk' : k < m) by lia.
    rewrite (so_edges _ _ SO), (get_nth edges k []) by auto. cbn [bindR].
    destruct (edge_cases n edges WF k Lk') as [(a & EK & La)|(a & b & EK & D & La & Lb)];
      rewrite (nth_error_nth _ _ _ EK).
    + assert (Ka : link k a None) by (left; auto).
      rewrite (get_nth _ a false) by (rewrite (pl_lv _ _ _ PL); lia). cbn [bindR].
      fold (bits (eg_ven f) a). destruct (bits (eg_ven f) a) eqn:Ba.
      * destruct (enable_edge_off n edges WF g nb k) as (nb' & NB' & _ & EO); auto.
        { apply SO. } { rewrite (so_ven _ _ SO). auto. } { apply SO. } { apply SO. } { apply SO. }
        { rewrite (so_ven _ _ SO). auto. }
        rewrite EO, (so_leaf _ _ SO). cbn [bindR].
        eexists _, nb', f, V, E, new. split; [reflexivity|].
        assert (BU : forall i, bits (upd k false (eg_een g)) i = bits (eg_een g) i && negb (i =? k)).
        { intros i. rewrite bits_upd, (so_le _ _ SO).
          assert (k <? m = true) as -> by (apply Nat.ltb_lt; auto).
          rewrite andb_true_r, (Nat.eqb_sym i k).
          destruct (k =? i); cbn; rewrite ?andb_false_r, ?andb_true_r; auto. }
        split.
        { constructor; cbn; auto; try apply SO.
          - rewrite length_upd. apply SO.
          - intros i B. rewrite BU in B. apply andb_true_iff in B. apply SO. tauto.
          - intros i v w B K. rewrite BU. rewrite (so_two _ _ SO i v w) by auto. cbn.
            apply negb_true_iff, Nat.eqb_neq. intros ->.
            destruct (link_dangling edges k a v (Some w) Ka K). discriminate.
          - eapply nbr_is_ext; [exact NB'|]. intros v i o _. cbn beta. rewrite BU. tauto. }
        repeat (split; [assumption|]). cbn [eg_een]. split; [|split].
        -- intros i v Li B K. destruct (Nat.eq_dec i k) as [->|]; [|apply HD with i; auto; lia].
           destruct (link_dangling edges k a v None Ka K) as [-> _].
           apply (pl_ven _ _ _ PL); auto.
        -- intros i Li B. rewrite BU, SAMER by auto. cbn. apply negb_true_iff, Nat.eqb_neq. lia.
        -- intros i v Li B K. rewrite BU in B. apply andb_true_iff in B. destruct B as [B N].
           apply negb_true_iff, Nat.eqb_neq in N. apply HG with v; auto; lia.
      * assert (NV : ~ In a V) by (intros I; apply (pl_ven _ _ _ PL) in I; congruence).
        destruct (plain_vertex _ _ _ a PL La) as (f1 & E1 & P1). rewrite E1. cbn [bindR].
        destruct (plain_edge _ _ _ k P1 Lk') as (f2 & E2 & P2).
        { intros v o K. destruct (link_dangling edges k a v o Ka K) as [-> _]. left; auto. }
        rewrite E2. cbn [bindR].
        exists g, nb, f2, (a :: V), (k :: E), (new ++ [a]). split; [reflexivity|].
        split; [auto|]. split; [auto|]. split.
        { apply fo_dangling; auto. intros I. specialize (HEk k I). lia. }
        split; [intros x; rewrite in_app_iff, HN; cbn; tauto|].
        split.
        { apply NoDup_Add with (a := a) (l := new).
          - replace new with (new ++ []) at 1 by apply app_nil_r. apply Add_app.
          - split; auto. rewrite HN. auto. }
        split; [rewrite app_length; cbn; lia|].
        split; [intros i [<-|I]; auto|]. split; [intros i [<-|I]; auto; lia|].
        split; [intros v [<-|I]; auto; apply (ends0 k B0 a None Ka)|].
        split; [|split; [auto|]].
        -- intros i v Li B K. destruct (Nat.eq_dec i k) as [->|].
           ++ destruct (link_dangling edges k a v None Ka K) as [-> _]. left; auto.
           ++ right. apply HD with i; auto; lia.
        -- intros i v Li B K. destruct (Nat.eq_dec i k) as [->|]; [left; auto|].
           right. apply HG with v; auto; lia.
    + cbn [bindR]. exists g, nb, f, V, E, new. split; [reflexivity|]. repeat (split; [assumption|]).
      assert (NK : forall v, ~ link k v None).
      { intros v [[K _]|(w & K & _)]; [congruence|discriminate]. }
      split; [|split; [auto|]].
      * intros i v Li B K. destruct (Nat.eq_dec i k) as [->|]; [|apply HD with i; auto; lia].
        destruct (NK v K).
      * intros i v Li B K. destruct (Nat.eq_dec i k) as [->|]; [destruct (NK v K)|].
        apply HG with v; auto; lia.
Qed.

(** ** The main loop *)

(** [closed_at]: all neighbours of a vertex are in the forest, with the same label. *)
Definition closed_at (lab : nat -> nat) (V : list nat) (v : nat) : Prop :=
  forall i w, bits een0 i = true -> link i v (Some w) -> In w V /\ lab w = lab v.

(** State of the main loop, apart from the vertices to visit. *)
Record growing (f : egraph) (lab : nat -> nat) (V E R : list nat) : Prop := {
  gr_plain : plain f V E;
  gr_forest : forest n edges lab V E R;
  gr_E : forall i, In i E -> bits een0 i = true;
  gr_V : forall v, In v V -> bits ven0 v = true;
  gr_lab : forall v, In v V -> lab v <> 0 -> exists u, In u V /\ lab v = S u;
  gr_dang : forall i v, bits een0 i = true -> link i v None -> In v V /\ lab v = 0
}.

Definition relabel (lab : nat -> nat) (v l : nat) : nat -> nat :=
  fun x => if x =? v then l else lab x.

Lemma relabel_same lab v l : relabel lab v l v = l.
Proof. unfold relabel. rewrite Nat.eqb_refl. reflexivity. Qed.

Lemma relabel_other lab v l x : x <> v -> relabel lab v l x = lab x.
Proof. intros D. unfold relabel. apply Nat.eqb_neq in D. rewrite D. reflexivity. Qed.

(** Looking at the neighbours of [cur]. *)
Lemma visit_ok g nb cur : source g nb ->
  (forall l f lab V E R new,
    (forall i v, bits (eg_een g) i = true -> link i v None -> In i E) ->
    (forall i o, In (i, o) l -> bits (eg_een g) i = true /\ link i cur o) ->
    growing f lab V E R -> In cur V -> ~ In cur new -> NoDup new ->
    (forall x, In x new -> In x V /\ lab x = lab cur) ->
    (forall v, In v V -> ~ In v new -> v <> cur -> closed_at lab V v) ->
    exists f' lab' V' E' R' new',
      foldR visit_neighbour l (f, new) = Ok (f', new') /\
      growing f' lab' V' E' R' /\ incl V V' /\ incl E E' /\
      (forall v, In v V -> lab' v = lab v) /\
      ~ In cur new' /\ NoDup new' /\
      (forall x, In x new' -> In x V' /\ lab' x = lab' cur) /\
      (forall v, In v V' -> ~ In v new' -> v <> cur -> closed_at lab' V' v) /\
      (forall i w, In (i, Some w) l -> In w V' /\ lab' w = lab' cur) /\
      length V' + length new = length V + length new').
Proof.
  intros SO l. induction l as [|[i o] l IH]; intros f lab V E R new GD HL GR IC NC ND HN HC.
  - exists f, lab, V, E, R, new. cbn. split; [reflexivity|]. split; [auto|].
    split; [apply incl_refl|]. split; [apply incl_refl|]. split; [auto|].
    repeat (split; [assumption|]). split; [intros i w []|lia].
  - destruct (HL i o) as [Bi K]; [left; auto|].
    assert (HL' : forall j p, In (j, p) l -> bits (eg_een g) j = true /\ link j cur p)
      by (intros; apply HL; right; auto).
    pose proof (gr_plain _ _ _ _ _ GR) as PL. pose proof (gr_forest _ _ _ _ _ GR) as FO.
    destruct (link_lt n edges WF i cur o K) as [Li Lc].
    assert (B0 : bits een0 i = true) by (apply (so_sub _ _ SO); auto).
    cbn [foldR]. unfold visit_neighbour at 1.
    rewrite (get_nth _ i false) by (rewrite (pl_le _ _ _ PL); auto). cbn [bindR].
    fold (bits (eg_een f) i).
    assert (GO : (forall w, o = Some w -> In w V /\ lab w = lab cur) ->
      exists f' lab' V' E' R' new',
      foldR visit_neighbour l (f, new) = Ok (f', new') /\
      growing f' lab' V' E' R' /\ incl V V' /\ incl E E' /\
      (forall v, In v V -> lab' v = lab v) /\
      ~ In cur new' /\ NoDup new' /\
      (forall x, In x new' -> In x V' /\ lab' x = lab' cur) /\
      (forall v, In v V' -> ~ In v new' -> v <> cur -> closed_at lab' V' v) /\
      (forall i0 w, In (i0, Some w) ((i, o) :: l) -> In w V' /\ lab' w = lab' cur) /\
      length V' + length new = length V + length new').
    { intros HO. destruct (IH f lab V E R new GD HL' GR IC NC ND HN HC)
        as (f' & lab' & V' & E' & R' & new' & H1 & H2 & H3 & H3' & H4 & H5 & H6 & H7 & H8 & H9 & H10).
      exists f', lab', V', E', R', new'. repeat (split; [assumption|]). split; [|auto].
      intros i0 w [X|X]; [|eauto]. injection X as -> ->. destruct (HO w eq_refl) as [A B].
      split; auto. rewrite !H4; auto. }
    destruct (bits (eg_een f) i) eqn:Bf.
    + cbn [bindR]. apply GO. intros w ->.
      apply (pl_een _ _ _ PL) in Bf.
      destruct (forest_edge n edges WF _ _ _ _ _ _ _ FO Bf K) as (_ & X & _). auto.
    + destruct o as [w|].
      2: { exfalso. rewrite (proj2 (pl_een _ _ _ PL i)) in Bf; [discriminate|]. eauto. }
      destruct (link_other n edges WF i cur w K) as (Lw & Dw & Kw).
      rewrite (get_nth _ w false) by (rewrite (pl_lv _ _ _ PL); auto). cbn [bindR].
      fold (bits (eg_ven f) w). destruct (bits (eg_ven f) w) eqn:Bw.
      * cbn [bindR]. apply (pl_ven _ _ _ PL) in Bw. apply GO. intros w' X. injection X as <-.
        split; auto. destruct (in_dec Nat.eq_dec w new) as [I|NI]; [apply HN; auto|].
        symmetry. apply (HC w Bw NI (not_eq_sym Dw) i cur B0 Kw).
      * assert (NV : ~ In w V) by (intros I; apply (pl_ven _ _ _ PL) in I; congruence).
        assert (NE : ~ In i E) by (intros I; apply (pl_een _ _ _ PL) in I; congruence).
        destruct (plain_vertex _ _ _ w PL Lw) as (f1 & E1 & P1). rewrite E1. cbn [bindR].
        destruct (plain_edge _ _ _ i P1 Li) as (f2 & E2 & P2).
        { intros v o Kv. destruct (link_ends n edges WF i cur w v o K Kv) as [[-> _]|[-> _]];
            [right|left]; auto. }
        rewrite E2. cbn [bindR].
        set (lab1 := relabel lab w (lab cur)).
        assert (LS : forall v, In v V -> lab1 v = lab v).
        { intros v I. apply relabel_other. congruence. }
        assert (LW : lab1 w = lab cur) by apply relabel_same.
        destruct (IH f2 lab1 (w :: V) (i :: E) R (new ++ [w]))
          as (f' & lab' & V' & E' & R' & new' & H1 & H2 & H3 & H3' & H4 & H5 & H6 & H7 & H8 & H9 & H10).
        -- intros j v Bj Kj. right. eauto.
        -- auto.
        -- constructor; auto.
           ++ apply fo_grow with cur; auto.
              ** eapply forest_ext; [exact FO|]. intros v I. symmetry. auto.
              ** rewrite LW, LS; auto.
           ++ intros j [<-|I]; auto. apply (gr_E _ _ _ _ _ GR); auto.
           ++ intros v [<-|I]; [|apply (gr_V _ _ _ _ _ GR); auto].
              apply (ends0 i B0 w (Some cur) Kw).
           ++ intros v [<-|I] X.
              ** rewrite LW in *. destruct (gr_lab _ _ _ _ _ GR cur IC X) as (u & Iu & Eu).
                 exists u. split; [right|]; auto.
              ** rewrite LS in * by auto. destruct (gr_lab _ _ _ _ _ GR v I X) as (u & Iu & Eu).
                 exists u. split; [right|]; auto.
           ++ intros j v Bj Kj. destruct (gr_dang _ _ _ _ _ GR j v Bj Kj) as [A B].
              split; [right; auto|]. rewrite LS; auto.
        -- right; auto.
        -- rewrite in_app_iff. cbn. intros [?|[?|[]]]; congruence.
        -- apply NoDup_Add with (a := w) (l := new).
           ++ replace new with (new ++ []) at 1 by apply app_nil_r. apply Add_app.
           ++ split; auto. intros I. apply NV. apply HN; auto.
        -- intros x Ix. rewrite (LS cur) by auto. apply in_app_iff in Ix.
           destruct Ix as [Ix|[<-|[]]].
           ++ destruct (HN x Ix) as [A B]. split; [right; auto|]. rewrite LS; auto.
           ++ split; [left; auto|]. auto.
        -- intros v Iv Nv Dv. rewrite in_app_iff in Nv. cbn in Nv.
           destruct Iv as [<-|Iv]; [tauto|].
           intros j x Bj Kj. destruct (HC v Iv) with (i := j) (w := x) as [A B]; auto.
           split; [right; auto|]. rewrite !LS; auto.
        -- exists f', lab', V', E', R', new'. split; [auto|]. split; [auto|].
           split; [intros x Ix; apply H3; right; auto|].
           split; [intros x Ix; apply H3'; right; auto|].
           split; [intros v Iv; rewrite H4 by (right; auto); auto|].
           repeat (split; [assumption|]). split.
           ++ intros i0 w0 [X|X]; [|eauto]. injection X as -> ->.
              split; [apply H3; left; auto|].
              rewrite H4 by (left; auto). rewrite H4 by (right; auto).
              rewrite LW, LS; auto.
           ++ rewrite app_length in H10. cbn in H10. lia.
Qed.

(** Looking for a vertex that is not yet in the forest. *)
Lemma start_ok rem : forall f lab V E R,
  growing f lab V E R -> (forall v, In v rem -> bits ven0 v = true) ->
  (start_component rem f = Ok ([], f, []) /\ incl rem V) \/
  (exists rem' f' c, start_component rem f = Ok (rem', f', [c]) /\ ~ In c V /\ c < n /\
     growing f' (relabel lab c (S c)) (c :: V) E (c :: R) /\
     (forall v, In v rem -> v = c \/ In v V \/ In v rem') /\ incl rem' rem).
Proof.
  induction rem as [|c rem IH]; intros f lab V E R GR HR.
  - left. split; auto. intros x [].
  - pose proof (gr_plain _ _ _ _ _ GR) as PL.
    assert (Bc : bits ven0 c = true) by (apply HR; left; auto).
    assert (Lc : c < n) by (apply bits_lt in Bc; lia).
    cbn [start_component]. rewrite (get_nth _ c false) by (rewrite (pl_lv _ _ _ PL); auto).
    cbn [bindR]. fold (bits (eg_ven f) c). destruct (bits (eg_ven f) c) eqn:Bf.
    + apply (pl_ven _ _ _ PL) in Bf.
      destruct (IH f lab V E R GR) as [[A B]|(rem' & f' & c' & A & B & C & D & F & G)].
      * intros v I. apply HR. right; auto.
      * left. split; auto. intros x [<-|I]; auto.
      * right. exists rem', f', c'. split; [auto|]. split; [auto|]. split; [auto|].
        split; [auto|]. split.
        -- intros v [<-|I]; auto.
        -- intros x I. right; auto.
    + right. assert (NV : ~ In c V) by (intros I; apply (pl_ven _ _ _ PL) in I; congruence).
      destruct (plain_vertex _ _ _ c PL Lc) as (f1 & E1 & P1). rewrite E1. cbn [bindR].
      exists rem, f1, c. split; [auto|]. split; [auto|]. split; [auto|]. split.
      * assert (LS : forall v, In v V -> relabel lab c (S c) v = lab v).
        { intros v I. apply relabel_other. congruence. }
        constructor; auto.
        -- apply fo_root; auto.
           ++ eapply forest_ext; [apply (gr_forest _ _ _ _ _ GR)|]. intros v I. symmetry; auto.
           ++ rewrite relabel_same. discriminate.
           ++ intros r Ir. destruct (forest_roots _ _ _ _ _ _ _ (gr_forest _ _ _ _ _ GR) Ir) as [IV L0].
              rewrite relabel_same, LS by auto.
              destruct (gr_lab _ _ _ _ _ GR r IV L0) as (u & Iu & ->). congruence.
        -- apply (gr_E _ _ _ _ _ GR).
        -- intros v [<-|I]; auto. apply (gr_V _ _ _ _ _ GR); auto.
        -- intros v [<-|I] X.
           ++ exists c. split; [left; auto|]. apply relabel_same.
           ++ rewrite LS in * by auto. destruct (gr_lab _ _ _ _ _ GR v I X) as (u & Iu & Eu).
              exists u. split; [right; auto|]. auto.
        -- intros i v B K. destruct (gr_dang _ _ _ _ _ GR i v B K) as [A C].
           split; [right; auto|]. rewrite LS; auto.
      * split; [|intros x I; right; auto]. intros v [<-|I]; auto.
Qed.

Lemma forest_loop_ok g nb : source g nb -> forall fuel rem new f lab V E R,
  (forall i v, bits (eg_een g) i = true -> link i v None -> In i E) ->
  growing f lab V E R -> NoDup new ->
  (forall x, In x new -> In x V) ->
  (forall x y, In x new -> In y new -> lab x = lab y) ->
  (forall v, In v V -> ~ In v new -> closed_at lab V v) ->
  (forall v, In v rem -> bits ven0 v = true) ->
  (forall v, bits ven0 v = true -> In v V \/ In v rem) ->
  S n - length V + length new <= fuel ->
  exists f' lab' V' E' R', forest_loop fuel g rem new f = Ok f' /\
    growing f' lab' V' E' R' /\
    (forall v, In v V' -> closed_at lab' V' v) /\
    (forall v, bits ven0 v = true -> In v V').
Proof.
  intros SO. induction fuel as [|fuel IH]; intros rem new f lab V E R GD GR ND HN HS HC HR HV LF.
  - exfalso. assert (length V <= n).
    { rewrite <- (seq_length n 0). apply NoDup_incl_length.
      - eapply forest_nodup. apply (gr_forest _ _ _ _ _ GR).
      - intros v I. apply in_seq.
        pose proof (forest_lt n edges _ _ _ _ _ (gr_forest _ _ _ _ _ GR) I). lia. }
    lia.
  - cbn [forest_loop].
    (* the vertex to visit *)
    assert (NEXT : (match new with [] => start_component rem f | _ :: _ => Ok (rem, f, new) end
                    = Ok ([], f, []) /\ new = [] /\ incl rem V) \/
      (exists rem1 f1 cur new2 lab1 V1 E1 R1,
        match new with [] => start_component rem f | _ :: _ => Ok (rem, f, new) end =
          Ok (rem1, f1, cur :: new2) /\
        growing f1 lab1 V1 E1 R1 /\ In cur V1 /\ NoDup (cur :: new2) /\
        (forall i v, bits (eg_een g) i = true -> link i v None -> In i E1) /\
        (forall x, In x new2 -> In x V1 /\ lab1 x = lab1 cur) /\
        (forall v, In v V1 -> ~ In v new2 -> v <> cur -> closed_at lab1 V1 v) /\
        (forall v, In v rem1 -> bits ven0 v = true) /\
        (forall v, bits ven0 v = true -> In v V1 \/ In v rem1) /\
        S n - length V1 + length new2 <= fuel /\ length V1 <= n)).
    { assert (LV : forall f lab V E R, growing f lab V E R -> length V <= n).
      { clear -LV0. intros f lab V E R GR. rewrite <- (seq_length n 0). apply NoDup_incl_length.
        - eapply forest_nodup. apply (gr_forest _ _ _ _ _ GR).
        - intros v I. apply in_seq.
          pose proof (forest_lt n edges _ _ _ _ _ (gr_forest _ _ _ _ _ GR) I). lia. }
      destruct new as [|cur new2].
      - destruct (start_ok rem f lab V E R GR HR) as [[A B]|(rem' & f' & c & A & B & C & D & F & G)].
        + left. auto.
        + right. exists rem', f', c, [], (relabel lab c (S c)), (c :: V), E, (c :: R).
          split; [auto|]. split; [auto|]. split; [left; auto|]. split; [repeat constructor; auto|].
          split; [auto|]. split; [intros x []|]. split.
          { intros v Iv _ Dv. destruct Iv as [<-|Iv]; [congruence|].
            intros i w Bi K. destruct (HC v Iv) with (i := i) (w := w) as [X Y]; auto.
            split; [right; auto|]. rewrite !relabel_other by congruence. auto. }
          split; [intros v I; apply HR; auto|]. split.
          { intros v Bv. destruct (HV v Bv) as [I|I]; [left; right; auto|].
            destruct (F v I) as [->|[?|?]]; [left; left|left; right|right]; auto. }
          pose proof (LV _ _ _ _ _ D). cbn [length] in *. lia.
      - right. exists rem, f, cur, new2, lab, V, E, R. inversion ND; subst.
        split; [auto|]. split; [auto|]. split; [apply HN; left; auto|]. split; [auto|].
        split; [auto|]. split; [intros x I; split; [apply HN|apply HS]; cbn; auto|].
        split; [intros v Iv Nv Dv; apply HC; cbn; auto; intuition|].
        split; [auto|]. split; [auto|]. pose proof (LV _ _ _ _ _ GR). cbn [length] in *. lia. }
    destruct NEXT as [(A & -> & B)|(rem1 & f1 & cur & new2 & lab1 & V1 & E1 & R1 & A & GR1 & IC &
      ND1 & GD1 & HN1 & HC1 & HR1 & HV1 & LF1 & LV1)].
    + cbn [bindR] in A |- *. rewrite A. cbn [bindR]. exists f, lab, V, E, R.
      split; [auto|]. split; [auto|]. split; [intros v I; apply HC; auto|].
      intros v Bv. destruct (HV v Bv) as [I|I]; auto.
    + rewrite A. cbn [bindR].
      assert (Lc : cur < n).
      { exact (forest_lt n edges _ _ _ _ _ (gr_forest _ _ _ _ _ GR1) IC). }
      pose proof (so_nbr _ _ SO) as [NL NM]. destruct (NM cur Lc) as [_ M].
      assert (GN : get_neighbours g cur = Ok (nth cur nb [])).
      { unfold get_neighbours. rewrite (so_ven _ _ SO), (get_nth _ cur false) by lia.
        cbn [bindR]. fold (bits ven0 cur). rewrite (gr_V _ _ _ _ _ GR1 cur IC).
        cbn [assertR bindR]. rewrite (so_nb _ _ SO). apply get_nth. lia. }
      rewrite GN. cbn [bindR]. inversion ND1; subst.
      destruct (visit_ok g nb cur SO (nth cur nb []) f1 lab1 V1 E1 R1 new2)
        as (f' & lab' & V' & E' & R' & new' & H1' & H2' & H3' & H3'' & H4' & H5' & H6' & H7' & H8' & H9' & H10');
        auto.
      { intros i o I. apply M; auto. }
      rewrite H1'. cbn [bindR fst snd].
      assert (NDV : length V' <= n).
      { rewrite <- (seq_length n 0). apply NoDup_incl_length.
        - eapply forest_nodup. apply (gr_forest _ _ _ _ _ H2').
        - intros v I. apply in_seq.
          pose proof (forest_lt n edges _ _ _ _ _ (gr_forest _ _ _ _ _ H2') I). lia. }
      apply (IH rem1 new' f' lab' V' E' R'); auto.
      * intros i v B K. apply H3''. eauto.
      * intros x I. apply H7'; auto.
      * intros x y I J. destruct (H7' x I) as [_ ->]. destruct (H7' y J) as [_ ->]. auto.
      * intros v Iv Nv. destruct (Nat.eq_dec v cur) as [->|D]; [|auto].
        intros i w Bi K. apply (H9' i w). apply M. split; auto. eapply (so_two _ _ SO); eauto.
      * intros v B. destruct (HV1 v B) as [I|I]; auto.
      * lia.
Qed.

End F.

(** ** The decoder *)

Theorem erasure_decode_ok n edges sel syn :
  well_formed n edges -> (forall i, In i sel -> i < length edges) -> length syn = n ->
  exists corr, erasure_decode n edges sel syn = Ok corr /\ length corr = length edges /\
    (forall i, bits corr i = true -> In i sel) /\
    (even_components n edges (fun i => In i sel) (bits syn) ->
     explains n edges (bits corr) (bits syn)).
Proof.
  intros WF HS LS. unfold erasure_decode.
  set (g := reset_subgraph (set_nbr None (new_graph n edges))).
  destruct (enable_edges_ok n edges WF sel g) as (ven & een & E1 & LV & LE & HV & HE); auto.
  { cbn. apply repeat_length. } { cbn. apply repeat_length. }
  rewrite E1. cbn [bindR].
  assert (HV' : forall v, bits ven v = true <-> exists i, In i sel /\ incident edges i v = true).
  { intros v. rewrite HV. cbn. rewrite bits_repeat. intuition discriminate. }
  assert (HE' : forall i, bits een i = true <-> In i sel).
  { intros v. rewrite HE. cbn. rewrite bits_repeat. intuition discriminate. }
  assert (ENDS : forall i, bits een i = true -> ends_on edges ven i).
  { intros i B v o K. apply HV'. exists i. split; [apply HE'; auto|].
    apply (link_incident n edges WF). eauto. }
  destruct (update_neighbours_ok n edges WF (set_een een (set_ven ven g))) as (nb & EU & NB); auto.
  rewrite EU. cbn [bindR]. unfold construct_forest.
  set (g2 := set_nbr (Some nb) (set_een een (set_ven ven g))).
  change (eg_n g2) with n. change (eg_edges g2) with edges.
  set (f0 := reset_subgraph (new_graph n edges)).
  assert (SO : source n edges ven een g2 nb).
  { constructor; auto. }
  assert (PL : plain n edges f0 [] []).
  { constructor; cbn; auto; try apply repeat_length;
      intros x; rewrite bits_repeat; intuition discriminate. }
  destruct (dangling_ok n edges WF ven een LV LE ENDS g2 nb f0 SO eq_refl PL)
    as (g3 & nb3 & f3 & V & E & new & EF & SO3 & PL3 & FO3 & HN & ND & LN & HE3 & HV3 & HD & HG).
  rewrite EF. cbn [bindR].
  assert (GR : growing n edges ven een f3 (fun _ => 0) V E []).
  { constructor; auto; try congruence. intros i v B K. split; auto. eapply HD; eauto. }
  assert (REM : forall v, In v (rev (iter_vertices g2)) <-> bits ven v = true).
  { intros v. rewrite <- in_rev. unfold iter_vertices. rewrite filter_In, in_seq.
    change (eg_ven g2) with ven. split; [tauto|]. intros B. split; auto.
    apply bits_lt in B. lia. }
  destruct (forest_loop_ok n edges WF ven een LV LE ENDS g3 nb3 SO3 (S n) (rev (iter_vertices g2)) new f3
    (fun _ => 0) V E []) as (f & lab & V' & E' & R' & EL & GR' & CL & FULL); auto.
  { intros x I. apply HN; auto. }
  { intros v I Nv. exfalso. apply Nv. apply HN; auto. }
  { intros v I. apply REM; auto. }
  { intros v B. right. apply REM; auto. }
  { assert (length V <= n).
    { rewrite <- (seq_length n 0). apply NoDup_incl_length.
      - eapply forest_nodup; eauto.
      - intros v I. apply in_seq. pose proof (forest_lt n edges _ _ _ _ _ FO3 I). lia. }
    lia. }
  rewrite EL. cbn [bindR].
  destruct GR' as [P' FO' HE2 HV2 _ HD2].
  destruct (peel_forest_ok n edges WF syn lab V' E' (fun i => In i sel)) with (f := f) (R := R')
    as (corr & EP & LC & HC & EX); auto.
  - intros i I. apply HE'. auto.
  - intros i v o I K. apply HE' in I. destruct o as [w|].
    + assert (IV : In v V') by (apply FULL; apply (ENDS i I v _ K)).
      split; auto. apply (CL v IV i w I K).
    + apply HD2 with i; auto.
  - apply P'.
  - apply P'.
  - apply P'.
  - apply P'.
  - apply P'.
  - apply P'.
  - (* every vertex of the forest has an edge *)
    intros v Iv.
    destruct (existsb (fun e => incident edges e v) E') eqn:B.
    + apply existsb_exists in B. destruct B as (e & Ie & B). exists e. split; auto.
      apply (link_incident n edges WF). auto.
    + exfalso. assert (NT : forall e, ~ touches edges E' v e).
      { intros e [Ie X]. apply (link_incident n edges WF) in X.
        assert (existsb (fun e => incident edges e v) E' = true); [|congruence].
        apply existsb_exists. eauto. }
      destruct (forest_remove_isolated n edges WF lab V' E' R' v FO' Iv NT) as (IR & U & _).
      destruct (forest_roots n edges _ _ _ _ _ FO' IR) as [_ L0].
      pose proof (HV2 v Iv) as Bv. apply HV' in Bv. destruct Bv as (i & Is & Ii).
      apply (link_incident n edges WF) in Ii. destruct Ii as (o & K).
      apply HE' in Is. destruct o as [w|].
      * destruct (CL v Iv i w Is K) as [Iw Lw].
        destruct (link_other n edges WF i v w K) as (_ & D & _).
        apply D. symmetry. apply U; auto.
      * apply L0. apply (HD2 i v Is K).
  - exists corr. split; auto. split; auto. split; auto.
    intros i B. apply HE'. apply HE2. auto.
Qed.
