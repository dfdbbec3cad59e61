(** The erasure decoder finds a selection of erased edges with the given syndrome. *)
Require Import List Bool Arith Lia.
From Verif Require Import Base BaseProofs ErasureModel GraphSpec GraphProofs.
Import ListNotations.

(** ** Lists *)

Lemma get_nth {A} (l : list A) i d : i < length l -> get l i = Ok (nth i l d).
Proof.
  intros L. unfold get. destruct (nth_error l i) as [a|] eqn:E.
  - rewrite (nth_error_nth _ _ d E). reflexivity.
  - apply nth_error_None in E. lia.
Qed.

Lemma put_upd {A} (l : list A) i a : i < length l -> put l i a = Ok (upd i a l).
Proof. intros L. unfold put. apply Nat.ltb_lt in L. rewrite L. reflexivity. Qed.

Lemma bits_upd i b l j : bits (upd i b l) j = if (i =? j) && (i <? length l) then b else bits l j.
Proof. apply nth_upd. Qed.

Lemma bits_lt l i : bits l i = true -> i < length l.
Proof.
  intros H. destruct (Nat.lt_ge_cases i (length l)); auto.
  unfold bits in H. rewrite nth_overflow in H by auto. discriminate.
Qed.

Lemma bits_repeat k i : bits (repeat false k) i = false.
Proof.
  unfold bits. destruct (Nat.lt_ge_cases i k).
  - apply nth_repeat_lt; auto.
  - apply nth_overflow. rewrite repeat_length. auto.
Qed.

Lemma eqb_entry_spec a b : reflect (a = b) (eqb_entry a b).
Proof.
  destruct a as [i o], b as [j p]. unfold eqb_entry; cbn.
  destruct (Nat.eqb_spec i j) as [->|]; cbn.
  - destruct o, p; cbn; try (constructor; congruence).
    destruct (Nat.eqb_spec n n0); constructor; congruence.
  - constructor. congruence.
Qed.

Lemma existsb_entry x l : existsb (eqb_entry x) l = true <-> In x l.
Proof.
  rewrite existsb_exists. split.
  - intros (y & I & E). destruct (eqb_entry_spec x y); [subst; auto|discriminate].
  - intros I. exists x. split; auto. destruct (eqb_entry_spec x x); auto.
Qed.

Lemma removeR_spec x l : NoDup l -> In x l ->
  exists l', removeR x l = Ok l' /\ NoDup l' /\ (forall y, In y l' <-> In y l /\ y <> x) /\
    length l = S (length l').
Proof.
  induction l as [|a l IH]; cbn; intros N I; [destruct I|]. inversion N; subst.
  destruct (eqb_entry_spec x a) as [->|D].
  - exists l. split; [auto|]. split; [auto|]. split; [|auto]. intros y. split.
    + intros Iy. split; auto. congruence.
    + intros [[->|Iy] ?]; congruence.
  - destruct I as [->|I]; [congruence|].
    destruct (IH H2 I) as (l' & E & N' & M & L). rewrite E. cbn.
    exists (a :: l'). split; [auto|]. split; [|split; [|cbn; congruence]].
    + constructor; auto. rewrite M. tauto.
    + intros y. cbn. rewrite M. intuition congruence.
Qed.

Section D.
Variables (n : nat) (edges : list (list nat)).
Hypothesis WF : well_formed n edges.

Notation link := (link edges).
Notation m := (length edges).

(** ** Neighbour lists *)

(** The neighbour lists contain exactly the entries of a relation. *)
Definition nbr_is (rel : nat -> nat -> option nat -> Prop) (nb : list (list entry)) : Prop :=
  length nb = n /\
  forall v, v < n -> NoDup (nth v nb []) /\
    forall i o, In (i, o) (nth v nb []) <-> rel v i o.

(** They list the edges of a set. *)
Definition nbr_ok (on : nat -> bool) (nb : list (list entry)) : Prop :=
  nbr_is (fun v i o => on i = true /\ link i v o) nb.

Lemma nbr_is_ext r r' nb : nbr_is r nb ->
  (forall v i o, v < n -> (r v i o <-> r' v i o)) -> nbr_is r' nb.
Proof.
  intros [L H] X. split; auto. intros v Lv. destruct (H v Lv) as [N M]. split; auto.
  intros i o. rewrite M. apply X; auto.
Qed.

Lemma nbr_push r nb v i o : nbr_is r nb -> v < n -> ~ r v i o ->
  existsb (eqb_entry (i, o)) (nth v nb []) = false /\
  nbr_is (fun v' i' o' => r v' i' o' \/ (v' = v /\ i' = i /\ o' = o))
    (upd v (nth v nb [] ++ [(i, o)]) nb).
Proof.
  intros [L H] Lv X. destruct (H v Lv) as [N M]. split.
  - destruct (existsb _ _) eqn:E; auto. apply existsb_entry in E. apply M in E. tauto.
  - split; [rewrite length_upd; auto|]. intros v' Lv'.
    rewrite nth_upd, L. apply Nat.ltb_lt in Lv. rewrite Lv, andb_true_r.
    destruct (Nat.eqb_spec v v') as [<-|D].
    + split.
      * apply NoDup_rev in N. rewrite <- (rev_involutive (nth v nb [] ++ [(i, o)])).
        apply NoDup_rev. rewrite rev_app_distr. cbn. constructor; auto.
        rewrite <- in_rev, M. auto.
      * intros i' o'. rewrite in_app_iff, M. cbn. intuition congruence.
    + destruct (H v' Lv') as [N' M']. split; auto. intros i' o'. rewrite M'.
      intuition congruence.
Qed.

Lemma nbr_drop r nb v i o : nbr_is r nb -> v < n -> r v i o ->
  exists l, removeR (i, o) (nth v nb []) = Ok l /\
    length (nth v nb []) = S (length l) /\
    nbr_is (fun v' i' o' => r v' i' o' /\ ~ (v' = v /\ i' = i /\ o' = o)) (upd v l nb).
Proof.
  intros [L H] Lv X. destruct (H v Lv) as [N M].
  destruct (removeR_spec (i, o) (nth v nb []) N) as (l & E & N' & M' & LL).
  { apply M; auto. }
  exists l. split; auto. split; auto. split; [rewrite length_upd; auto|]. intros v' Lv'.
  rewrite nth_upd, L. pose proof Lv as Lv2. apply Nat.ltb_lt in Lv2. rewrite Lv2, andb_true_r.
  destruct (Nat.eqb_spec v v') as [<-|D].
  - split; auto. intros i' o'. rewrite M', M. split; intros [A B]; split; auto.
    + intros (_ & -> & ->). auto.
    + intros Y. injection Y as -> ->. apply B. auto.
  - destruct (H v' Lv') as [N2 M2]. split; auto. intros i' o'. rewrite M2.
    split; [intros A; split; auto; intros (-> & _); auto|tauto].
Qed.

Lemma add_neighbours_ok on nb i : nbr_ok on nb -> i < m -> on i = false ->
  exists nb', add_neighbours i (nth i edges []) nb = Ok nb' /\
    nbr_ok (fun j => (j =? i) || on j) nb'.
Proof.
  intros K L F. pose proof K as [KL _].
  destruct (edge_cases n edges WF i L) as [(a & E & La)|(a & b & E & D & La & Lb)];
    unfold add_neighbours; rewrite (nth_error_nth _ _ _ E); cbn.
  - rewrite (get_nth nb a []) by lia. cbn.
    destruct (nbr_push _ _ a i None K La) as [X P]; [intros [? _]; congruence|].
    rewrite X. cbn. eexists. split; [reflexivity|].
    eapply nbr_is_ext; [exact P|]. intros v j o Lv. cbn.
    destruct (Nat.eqb_spec j i) as [->|Dj]; cbn.
    + rewrite F. split.
      * intros [[? _]|(-> & _ & ->)]; [discriminate|]. split; auto. left. auto.
      * intros [_ K']. right.
        destruct (link_dangling edges i a v o) as [-> ->]; auto. left; auto.
    + split; [intros [?|?]; [auto|lia]|auto].
  - rewrite (get_nth nb a []) by lia. cbn.
    destruct (nbr_push _ _ a i (Some b) K La) as [X P]; [intros [? _]; congruence|].
    rewrite X. cbn. pose proof P as [PL _].
    rewrite (get_nth _ b []) by (rewrite length_upd; lia). cbn.
    destruct (nbr_push _ _ b i (Some a) P Lb) as [X2 P2].
    { intros [[? _]|(? & _)]; congruence. }
    rewrite X2. cbn. eexists. split; [reflexivity|].
    eapply nbr_is_ext; [exact P2|]. intros v j o Lv. cbn.
    assert (K1 : link i a (Some b)) by (right; eauto).
    destruct (Nat.eqb_spec j i) as [->|Dj]; cbn.
    + rewrite F. split.
      * intros [[[? _]|(-> & _ & ->)]|(-> & _ & ->)]; [discriminate| |]; split; auto.
        right; eauto.
      * intros [_ K'].
        destruct (link_ends n edges WF i a b v o K1 K') as [[-> ->]|[-> ->]]; auto.
    + split; [intros [[?|?]|?]; [auto|lia|lia]|auto].
Qed.

(** All ends of an edge are enabled. *)
Definition ends_on (ven : list bool) (i : nat) : Prop :=
  forall v o, link i v o -> bits ven v = true.

Lemma assert_ends ven i : i < m -> length ven = n -> ends_on ven i ->
  foldR (fun _ v => do b <- get ven v; assertR b) (nth i edges []) tt = Ok tt.
Proof.
  intros L LV X.
  destruct (edge_cases n edges WF i L) as [(a & E & La)|(a & b & E & D & La & Lb)];
    rewrite (nth_error_nth _ _ _ E); cbn.
  - rewrite (get_nth ven a false) by lia. cbn. fold (bits ven a).
    rewrite (X a None); [reflexivity|]. left; auto.
  - rewrite (get_nth ven a false) by lia. cbn. fold (bits ven a).
    rewrite (X a (Some b)); [cbn|right; eauto].
    rewrite (get_nth ven b false) by lia. cbn. fold (bits ven b).
    rewrite (X b (Some a)); [reflexivity|right; eauto].
Qed.

Lemma update_neighbours_ok g :
  eg_n g = n -> eg_edges g = edges -> length (eg_ven g) = n -> length (eg_een g) = m ->
  (forall i, bits (eg_een g) i = true -> ends_on (eg_ven g) i) ->
  exists nb, update_neighbours g = Ok (set_nbr (Some nb) g) /\ nbr_ok (bits (eg_een g)) nb.
Proof.
  intros En Ee LV LE X. unfold update_neighbours. rewrite En, Ee.
  match goal with |- context [foldR ?f _ _] => set (body := f) end.
  assert (IND : forall k, k <= m -> exists nb mi,
    foldR body (seq 0 k) (repeat [] n, repeat [] n) = Ok (nb, mi) /\
    nbr_ok (fun i => (i <? k) && bits (eg_een g) i) nb /\
    nbr_ok (fun i => (i <? k) && negb (bits (eg_een g) i)) mi).
  { induction k as [|k IH]; intros Lk.
    - exists (repeat [] n), (repeat [] n). cbn. split; auto.
      assert (Z : forall f, nbr_ok (fun i => (i <? 0) && f i) (repeat [] n)).
      { intros f. split; [apply repeat_length|]. intros v Lv. rewrite nth_repeat_lt by auto.
        split; [constructor|]. intros i o. cbn. intuition discriminate. }
      split; [exact (Z (bits (eg_een g)))|exact (Z (fun i => negb (bits (eg_een g) i)))].
    - destruct IH as (nb & mi & E & K1 & K2); [lia|].
      rewrite seq_S, foldR_app, E. cbn [bindR plus]. unfold body at 1. cbn [foldR].
      rewrite (get_nth _ k []) by lia. cbn.
      rewrite (get_nth (eg_een g) k false) by lia. cbn. fold (bits (eg_een g) k).
      assert (EXT : forall (f : nat -> bool) nb', f k = true ->
        nbr_ok (fun j => (j =? k) || ((j <? k) && f j)) nb' ->
        nbr_ok (fun j => (j <? S k) && f j) nb').
      { intros f nb' Fk H. eapply nbr_is_ext; [exact H|]. intros v j o _. cbn beta.
        destruct (Nat.eqb_spec j k) as [->|D]; cbn [orb].
        - assert (k <? S k = true) as -> by (apply Nat.ltb_lt; lia). rewrite Fk. tauto.
        - assert ((j <? S k) = (j <? k)) as ->; [|tauto].
          destruct (Nat.ltb_spec j k), (Nat.ltb_spec j (S k)); auto; lia. }
      assert (EXT0 : forall (f : nat -> bool) nb', f k = false ->
        nbr_ok (fun j => (j <? k) && f j) nb' ->
        nbr_ok (fun j => (j <? S k) && f j) nb').
      { intros f nb' Fk H. eapply nbr_is_ext; [exact H|]. intros v j o _. cbn beta.
        destruct (Nat.eqb_spec j k) as [->|D]; cbn [orb].
        - rewrite Fk, !andb_false_r. tauto.
        - assert ((j <? S k) = (j <? k)) as ->; [|tauto].
          destruct (Nat.ltb_spec j k), (Nat.ltb_spec j (S k)); auto; lia. }
      destruct (bits (eg_een g) k) eqn:B.
      + rewrite assert_ends; auto. cbn.
        destruct (add_neighbours_ok _ nb k K1) as (nb' & E' & K'); [lia| |].
        { rewrite Nat.ltb_irrefl. reflexivity. }
        rewrite E'. cbn. exists nb', mi. split; auto. split.
        * apply (EXT (bits (eg_een g))); auto.
        * apply (EXT0 (fun j => negb (bits (eg_een g) j))); auto. rewrite B. reflexivity.
      + destruct (add_neighbours_ok _ mi k K2) as (mi' & E' & K'); [lia| |].
        { rewrite Nat.ltb_irrefl. reflexivity. }
        rewrite E'. cbn. exists nb, mi'. split; auto. split.
        * apply (EXT0 (bits (eg_een g))); auto.
        * apply (EXT (fun j => negb (bits (eg_een g) j))); auto. rewrite B. reflexivity. }
  destruct (IND m (le_n _)) as (nb & mi & E & K & _).
  rewrite E. cbn. exists nb. split; auto.
  eapply nbr_is_ext; [exact K|]. intros v i o Lv. cbn beta.
  split; intros [A B]; split; auto.
  - apply andb_true_iff in A. tauto.
  - apply link_lt with (n := n) in B; auto. destruct B as [B _]. apply Nat.ltb_lt in B.
    rewrite B. auto.
Qed.

(** ** Switching an edge off *)

Lemma enable_edge_off g nb e :
  eg_edges g = edges -> length (eg_ven g) = n -> length (eg_een g) = m ->
  eg_nbr g = Some nb -> nbr_ok (bits (eg_een g)) nb ->
  bits (eg_een g) e = true -> ends_on (eg_ven g) e ->
  exists nb', nbr_ok (fun j => bits (eg_een g) j && negb (j =? e)) nb' /\
    (forall v, v < n ->
       length (nth v nb []) = (if incident edges e v then 1 else 0) + length (nth v nb' [])) /\
    enable_edge e false g = Ok (mkEgraph (eg_n g) edges (eg_ven g)
      (upd e false (eg_een g)) (Some nb')
      (match eg_leaf g with
       | None => None
       | Some lf => Some (lf ++ filter (fun v => (length (nth v nb' []) <=? 1) &&
                                 negb (length (nth v nb []) <=? 1)) (nth e edges []))
       end)).
Proof.
  intros Ee LV LE En K B X.
  assert (L : e < m) by (apply bits_lt in B; lia).
  unfold enable_edge. rewrite Ee, (get_nth edges e []) by auto. cbn [bindR].
  rewrite assert_ends by auto. cbn [bindR].
  rewrite (get_nth (eg_een g) e false) by lia. cbn [bindR]. fold (bits (eg_een g) e).
  rewrite B, En. cbn [eqb].
  pose proof K as [KL _].
  assert (REL : forall v j o, v < n ->
    (bits (eg_een g) j && negb (j =? e) = true /\ link j v o <->
     (bits (eg_een g) j = true /\ link j v o) /\ j <> e)).
  { intros v j o _. rewrite andb_true_iff, negb_true_iff, Nat.eqb_neq. tauto. }
  destruct (edge_cases n edges WF e L) as [(a & E & La)|(a & b & E & D & La & Lb)];
    rewrite (nth_error_nth _ _ _ E).
  - assert (K1 : link e a None) by (left; auto).
    destruct (nbr_drop _ nb a e None K La) as (l & E1 & L1 & P1); [auto|].
    exists (upd a l nb). split; [|split].
    + eapply nbr_is_ext; [exact P1|]. intros v j o Lv. cbn. rewrite REL by auto.
      split; intros [[A C] F].
      * split; auto. intros ->. apply F. destruct (link_dangling edges e a v o K1 C). auto.
      * split; auto. intros (-> & -> & ->). auto.
    + intros v Lv. rewrite nth_upd, KL.
      assert (a <? n = true) as -> by (apply Nat.ltb_lt; auto). rewrite andb_true_r.
      unfold incident. rewrite (nth_error_nth _ _ _ E). cbn. rewrite orb_false_r, Nat.eqb_sym.
      destruct (Nat.eqb_spec a v) as [<-|]; cbn; lia.
    + cbn [ends bindR foldR]. unfold enable_end. cbn [set_een eg_nbr eg_leaf]. rewrite En.
      rewrite (get_nth nb a []) by lia. cbn [bindR]. rewrite E1. cbn [bindR].
      cbn [filter]. rewrite nth_upd_same by lia.
      destruct (eg_leaf g) as [lf|] eqn:EL; cbn.
      * destruct ((length l <=? 1) && negb (length (nth a nb []) <=? 1)); cbn;
          unfold set_leaf, set_nbr, set_een; cbn; rewrite ?Ee, ?EL, ?app_nil_r; reflexivity.
      * unfold set_nbr, set_een; cbn. rewrite Ee, EL. reflexivity.
  - assert (K1 : link e a (Some b)) by (right; eauto).
    assert (K2 : link e b (Some a)) by (right; eauto).
    destruct (nbr_drop _ nb a e (Some b) K La) as (l & E1 & L1 & P1); [auto|].
    pose proof P1 as [PL _].
    destruct (nbr_drop _ (upd a l nb) b e (Some a) P1 Lb) as (l2 & E2 & L2 & P2).
    { split; auto. intros (? & _). congruence. }
    assert (NB : nth b (upd a l nb) [] = nth b nb []) by (apply nth_upd_other; auto).
    rewrite NB in E2, L2.
    assert (NA : nth a (upd b l2 (upd a l nb)) [] = l).
    { rewrite nth_upd_other by auto. apply nth_upd_same. lia. }
    assert (NB2 : nth b (upd b l2 (upd a l nb)) [] = l2).
    { apply nth_upd_same. rewrite length_upd. lia. }
    exists (upd b l2 (upd a l nb)). split; [|split].
    + eapply nbr_is_ext; [exact P2|]. intros v j o Lv. cbn. rewrite REL by auto.
      split.
      * intros [[[A C] F] F2]. split; auto. intros ->.
        destruct (link_ends n edges WF e a b v o K1 C) as [[-> ->]|[-> ->]]; tauto.
      * intros [[A C] F]. split; [split; auto|]; intros (-> & -> & ->); auto.
    + intros v Lv.
      destruct (Nat.eq_dec v a) as [->|Da]; [|destruct (Nat.eq_dec v b) as [->|Db]].
      * rewrite NA. unfold incident. rewrite (nth_error_nth _ _ _ E). cbn.
        rewrite Nat.eqb_refl. cbn. lia.
      * rewrite NB2. unfold incident. rewrite (nth_error_nth _ _ _ E). cbn.
        rewrite Nat.eqb_refl. rewrite orb_true_r. cbn. lia.
      * rewrite !nth_upd_other by auto. unfold incident. rewrite (nth_error_nth _ _ _ E). cbn.
        apply Nat.eqb_neq in Da, Db. rewrite Da, Db. reflexivity.
    + cbn [ends bindR foldR]. unfold enable_end. cbn [set_een eg_nbr eg_leaf]. rewrite En.
      rewrite (get_nth nb a []) by lia. cbn [bindR]. rewrite E1. cbn [bindR].
      cbn [filter]. rewrite NA, NB2.
      destruct (eg_leaf g) as [lf|] eqn:EL; cbn [assertR negb bindR].
      * destruct ((length l <=? 1) && negb (length (nth a nb []) <=? 1));
          cbn [set_leaf set_nbr set_een eg_nbr eg_leaf eg_n eg_edges eg_ven eg_een];
          rewrite ?EL;
          rewrite (get_nth (upd a l nb) b []) by (rewrite length_upd; lia);
          cbn [bindR]; rewrite NB, E2; cbn [bindR assertR negb];
          destruct ((length l2 <=? 1) && negb (length (nth b nb []) <=? 1)); cbn;
          unfold set_leaf, set_nbr, set_een; cbn; rewrite ?Ee, ?EL, ?app_nil_r, <- ?app_assoc;
          reflexivity.
      * cbn [set_leaf set_nbr set_een eg_nbr eg_leaf eg_n eg_edges eg_ven eg_een].
        rewrite ?EL, (get_nth (upd a l nb) b []) by (rewrite length_upd; lia).
        cbn [bindR]. rewrite NB, E2. cbn. unfold set_nbr, set_een; cbn. rewrite Ee, EL. reflexivity.
Qed.

End D.
