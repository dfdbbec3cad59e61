(** The decoders which call PyMatching and Fusion Blossom: single components. *)
Require Import List Bool Arith ZArith QArith Qround Lia.
From Verif Require Import Base BaseProofs QSpec PauliModel MeasureProofs GraphSpec GraphProofs ErasureModel ErasureProofs UnionFindModel
  SyngraphModel SyngraphProofs DecoderModel DecoderProofs DecoderObjects MatchingModel MatchingSpec.
Import ListNotations.
Open Scope nat_scope.
Local Arguments incident : simpl never.
Local Arguments upd : simpl never.

(** * Loops over the edges *)
Lemma foldR_app {A B} (f : A -> B -> Res A) l l' a : foldR f (l ++ l') a = bindR (foldR f l a) (foldR f l').
Proof. revert a. induction l as [|b l IH]; intros a; cbn [app foldR]; auto. destruct (f a b); cbn [bindR]; auto. Qed.

Lemma foldR_enum {A B} (f : A -> nat * B -> Res A) (P : nat -> A -> Prop) (d : B) l s0 : P 0 s0 ->
  (forall i s, i < length l -> P i s -> exists s', f s (i, nth i l d) = Ok s' /\ P (S i) s') ->
  exists s', foldR f (combine (seq 0 (length l)) l) s0 = Ok s' /\ P (length l) s'.
Proof.
  intros P0 ST. assert (X : forall j, j <= length l -> exists s', foldR f (map (fun i => (i, nth i l d)) (seq 0 j)) s0 = Ok s' /\ P j s').
  { induction j as [|j IH]; intros L; [exists s0; auto|]. destruct IH as (s & E & Ps); [lia|]. destruct (ST j s ltac:(lia) Ps) as (s' & E' & Ps').
    exists s'. split; auto. rewrite seq_S, map_app, foldR_app, E. cbn [plus map foldR bindR]. rewrite E'. reflexivity. }
  destruct (X (length l)) as (s' & E & Ps); auto. exists s'. split; auto. rewrite <- E. f_equal.
  apply list_ext with (d := (0, d)); [rewrite combine_length, map_length, !seq_length; lia|].
  intros i Li. rewrite combine_length, seq_length in Li. rewrite combine_nth by apply seq_length. rewrite seq_nth by lia.
  symmetry. apply (nth_map_seq (fun i => (i, nth i l d))). lia.
Qed.

(** * Components *)

(** Components of syndrome graphs: edges with one or two ends, no two of them parallel. *)
Record proper (k : comp) : Prop := {
  pr_edges : well_formed (k_n k) (k_edges k);
  pr_weights : length (k_wt k) = length (k_edges k);
  pr_some : k_edges k <> [];
  pr_finite : forall x, In x (k_wt k) -> is_inf x = false;
  pr_single : forall i j, i < length (k_edges k) -> j < length (k_edges k) ->
    (forall v, In v (nth i (k_edges k) []) <-> In v (nth j (k_edges k) [])) -> i = j }.

(** Weights which are accepted: none at all, or finite ones which are not negative. *)
Definition sane (ws : list weight) : Prop :=
  (forall x, In x ws -> x = NaN) \/ forall x, In x ws -> exists q, x = Fin q /\ (0 <= q)%Q.

Definition weights_check (k : comp) : Res bool :=
  do weighted <- is_weighted false k;
  do _ <- (if weighted then check_weights_sane (Some (k_wt k)) else Ok true);
  Ok weighted.

Lemma weights_check_ok k : proper k ->
  (sane (k_wt k) /\ exists b, weights_check k = Ok b /\
     if b then (forall x, In x (k_wt k) -> exists q, x = Fin q /\ (0 <= q)%Q) else forall x, In x (k_wt k) -> x = NaN) \/
  (~ sane (k_wt k) /\ weights_check k = Err ValueError).
Proof.
  intros [_ LW NE FI _]. unfold weights_check, is_weighted.
  assert (W0 : exists x, In x (k_wt k)).
  { destruct (k_wt k) as [|x l] eqn:E; [|exists x; left; auto]. destruct (k_edges k); [congruence|discriminate]. }
  destruct (forallb is_nan (k_wt k)) eqn:N; cbn [bindR].
  { left. assert (A : forall x, In x (k_wt k) -> x = NaN).
    { intros x I. rewrite forallb_forall in N. apply N in I. destruct x; auto; discriminate. }
    split; [left; auto|]. exists false. auto. }
  assert (N' : ~ forall x, In x (k_wt k) -> x = NaN).
  { apply forallb_false in N. destruct N as (x & I & X). intros H. rewrite (H x I) in X. discriminate. }
  destruct (existsb is_nan (k_wt k)) eqn:M; cbn [negb andb bindR].
  { right. split; auto. apply existsb_exists in M. destruct M as (x & I & X). intros [|H]; auto. destruct (H x I) as (q & -> & _). discriminate. }
  unfold check_weights_sane. rewrite M.
  destruct (existsb (fun x => wlt x (Fin 0)) (k_wt k)) eqn:L; cbn [bindR].
  { right. split; auto. apply existsb_exists in L. destruct L as (x & I & X). intros [|H]; auto. destruct (H x I) as (q & -> & Q).
    cbn in X. apply Qle_bool_iff in Q. rewrite Q in X. discriminate. }
  left. assert (P : forall x, In x (k_wt k) -> exists q, x = Fin q /\ (0 <= q)%Q).
  { intros x I. pose proof (existsb_false _ _ M x I) as A. pose proof (existsb_false _ _ L x I) as B. pose proof (FI x I) as C.
    destruct x as [|s|q]; try discriminate. exists q. split; auto. cbn in B. apply negb_false_iff, Qle_bool_iff in B. auto. }
  split; [right; auto|]. exists true. auto.
Qed.

(** * PyMatching *)
Definition py_cost (ws : list weight) (j : nat) : Q := match nth j ws NaN with Fin q => q | _ => 1%Q end.

Lemma edge_cases k i : proper k -> i < length (k_edges k) ->
  (exists v, nth i (k_edges k) [] = [v] /\ v < k_n k) \/ exists u v, nth i (k_edges k) [] = [u; v] /\ u <> v /\ u < k_n k /\ v < k_n k.
Proof. intros [WF _ _ _ _] L. apply WF, nth_In; auto. Qed.

Definition py_inv (k : comp) (i : nat) (s : pm_graph * list nat) : Prop :=
  length (pm_edges (fst s)) = i /\ length (snd s) = k_n k /\ pm_bound (fst s) = [] /\
  forall j, j < i -> pe_fault (pm_nth (fst s) j) = j /\ pe_weight (pm_nth (fst s) j) = py_cost (k_wt k) j /\
    ((exists a b, nth j (k_edges k) [] = [a; b] /\ pe_a (pm_nth (fst s) j) = a /\ pe_b (pm_nth (fst s) j) = b) \/
     (exists a c, nth j (k_edges k) [] = [a] /\ pe_a (pm_nth (fst s) j) = a /\ pe_b (pm_nth (fst s) j) = k_n k + c /\ c < nth a (snd s) 0)).

Lemma pm_nth_app g x j B : pm_nth (mkPmGraph (pm_edges g ++ [x]) B) j = if j =? length (pm_edges g) then x else pm_nth g j.
Proof.
  unfold pm_nth. cbn [pm_edges]. destruct (Nat.eqb_spec j (length (pm_edges g))) as [->|D].
  - rewrite app_nth2, Nat.sub_diag by lia. reflexivity.
  - destruct (Nat.lt_ge_cases j (length (pm_edges g))); [apply app_nth1; auto|]. rewrite !nth_overflow; auto; rewrite app_length; cbn; lia.
Qed.

Lemma pm_existsb g p : (forall j, j < length (pm_edges g) -> p (pm_nth g j) = false) -> existsb p (pm_edges g) = false.
Proof.
  intros H. apply not_true_iff_false. intros X. apply existsb_exists in X. destruct X as (e & I & X).
  apply (In_nth _ _ (mkPmEdge 0 0 0 0)) in I. destruct I as (j & L & <-). change (nth j (pm_edges g) _) with (pm_nth g j) in X. rewrite H in X; auto. discriminate.
Qed.

Lemma py_loop k (b : bool) : proper k ->
  (if b then (forall x, In x (k_wt k) -> exists q, x = Fin q /\ (0 <= q)%Q) else forall x, In x (k_wt k) -> x = NaN) ->
  exists s, foldR (py_edge k b) (combine (seq 0 (length (k_edges k))) (k_edges k)) (mkPmGraph [] [], repeat 0 (k_n k)) = Ok s /\
    py_inv k (length (k_edges k)) s.
Proof.
  intros PK WS. apply (foldR_enum (py_edge k b) (py_inv k) []).
  - split; [reflexivity|]. split; [apply repeat_length|]. split; [reflexivity|]. intros j L. lia.
  - intros i [g bc] Li (LG & LB & BD & INV). cbn [fst snd] in *. unfold py_edge. cbn [fst snd].
    assert (W : (if b then do x <- get (k_wt k) i; finite x else Ok 1%Q) = Ok (py_cost (k_wt k) i)).
    { unfold py_cost. assert (I : In (nth i (k_wt k) NaN) (k_wt k)) by (apply nth_In; rewrite (pr_weights _ PK); auto).
      destruct b.
      - rewrite (get_nth _ _ NaN) by (rewrite (pr_weights _ PK); auto). cbn [bindR]. destruct (WS _ I) as (q & -> & _). reflexivity.
      - rewrite (WS _ I). reflexivity. }
    rewrite W. cbn [bindR]. destruct (edge_cases k i PK Li) as [(a & E & La)|(a & c & E & D & La & Lc)]; rewrite E.
    + rewrite (get_nth _ _ 0) by lia. cbn [bindR]. set (c := nth a bc 0).
      assert (X : existsb (pm_joins a (k_n k + c)) (pm_edges g) = false).
      { apply pm_existsb. intros j Lj. rewrite LG in Lj. unfold pm_joins. destruct (INV j Lj) as (_ & _ & [(a' & b' & E' & -> & ->)|(a' & c' & E' & -> & -> & Lc')]).
        - destruct (edge_cases k j PK ltac:(lia)) as [(? & E2 & _)|(? & ? & E2 & _ & L1 & L2)]; rewrite E2 in E'; [discriminate|]. injection E' as -> ->.
          apply orb_false_iff. split; apply andb_false_iff; [right|left]; apply Nat.eqb_neq; lia.
        - destruct (edge_cases k j PK ltac:(lia)) as [(? & E2 & L1)|(? & ? & E2 & _)]; rewrite E2 in E'; [|discriminate]. injection E' as ->.
          apply orb_false_iff. split; apply andb_false_iff.
          + destruct (Nat.eqb_spec a' a) as [->|]; auto. right. apply Nat.eqb_neq. unfold c. lia.
          + left. apply Nat.eqb_neq. lia. }
      unfold pm_add_edge. rewrite X. cbn [bindR]. eexists. split; [reflexivity|].
      split; [cbn; rewrite app_length; cbn; lia|]. split; [cbn; rewrite length_upd; auto|]. split; [exact BD|].
      intros j Lj. cbn [fst snd]. rewrite pm_nth_app, LG. destruct (Nat.eqb_spec j i) as [->|Dj].
      * cbn. split; auto. split; auto. right. exists a, c. rewrite nth_upd_same by lia. auto.
      * destruct (INV j ltac:(lia)) as (A1 & A2 & A3). split; auto. split; auto. destruct A3 as [A3|(a' & c' & E' & A3 & A4 & Lc')]; auto.
        right. exists a', c'. split; auto. split; auto. split; auto. destruct (Nat.eq_dec a' a) as [->|]; [rewrite nth_upd_same by lia; unfold c in *; lia|].
        rewrite nth_upd_other by auto. auto.
    + assert (X : existsb (pm_joins a c) (pm_edges g) = false).
      { apply pm_existsb. intros j Lj. rewrite LG in Lj. unfold pm_joins. destruct (INV j Lj) as (_ & _ & [(a' & b' & E' & -> & ->)|(a' & c' & E' & -> & -> & Lc')]).
        - apply not_true_iff_false. intros Y.
          assert (Z : j = i); [|lia]. apply (pr_single _ PK); [lia|auto|]. rewrite E, E'. apply orb_true_iff in Y.
          destruct Y as [Y|Y]; apply andb_true_iff in Y; destruct Y as [Y1 Y2]; apply Nat.eqb_eq in Y1, Y2; subst; cbn; tauto.
        - apply orb_false_iff. split; apply andb_false_iff; right; apply Nat.eqb_neq; lia. }
      unfold pm_add_edge. rewrite X. cbn [bindR]. eexists. split; [reflexivity|].
      split; [cbn; rewrite app_length; cbn; lia|]. split; [cbn; auto|]. split; [exact BD|].
      intros j Lj. cbn [fst snd]. rewrite pm_nth_app, LG. destruct (Nat.eqb_spec j i) as [->|Dj].
      * cbn. split; auto. split; auto. left. exists a, c. auto.
      * apply INV. lia.
Qed.

Lemma list_max_nth l i : nth i l 0 <= list_max l.
Proof.
  destruct (Nat.lt_ge_cases i (length l)) as [L|L]; [|rewrite nth_overflow; lia].
  pose proof (proj1 (list_max_le l (list_max l)) (le_n _)) as F. rewrite Forall_forall in F. apply F, nth_In; auto.
Qed.

(** The graph given to PyMatching. *)
Record py_graph (k : comp) (g : pm_graph) : Prop := {
  pg_length : length (pm_edges g) = length (k_edges k);
  pg_fault : forall i, i < length (k_edges k) -> pe_fault (pm_nth g i) = i;
  pg_weight : forall i, i < length (k_edges k) -> pe_weight (pm_nth g i) = py_cost (k_wt k) i;
  pg_inner : forall i v, i < length (k_edges k) -> v < k_n k -> pm_end (pm_nth g i) v = incident (k_edges k) i v;
  pg_outer : forall i v, i < length (k_edges k) -> k_n k <= v -> ~ In v (pm_bound g) -> pm_end (pm_nth g i) v = false;
  pg_bound : forall v, In v (pm_bound g) -> k_n k <= v }.

Lemma existsb_in v l : existsb (Nat.eqb v) l = true <-> In v l.
Proof. rewrite existsb_exists. split; [intros (x & I & E); apply Nat.eqb_eq in E; subst; auto|]. intros I. exists v. rewrite Nat.eqb_refl. auto. Qed.
Lemma incident_in es i v : incident es i v = true <-> In v (nth i es []).
Proof. unfold incident. apply existsb_in. Qed.

Lemma py_new_ok k : proper k ->
  (sane (k_wt k) /\ exists g, py_new k = Ok g /\ py_graph k g) \/ (~ sane (k_wt k) /\ py_new k = Err ValueError).
Proof.
  intros PK. destruct (weights_check_ok k PK) as [(S & b & C & WS)|(S & C)].
  - left. split; auto. destruct (py_loop k b PK WS) as (s & L & LG & LB & BD & INV).
    unfold weights_check in C. unfold py_new. destruct (is_weighted false k) as [b'|]; [|discriminate]. cbn [bindR] in *.
    destruct (if b' then _ else _) as [ok|] in C |- *; [|discriminate]. cbn [bindR] in *. injection C as ->. rewrite L. cbn [bindR].
    eexists. split; [reflexivity|].
    set (g := if 0 <? list_max (snd s) then _ else _).
    assert (GE : pm_edges g = pm_edges (fst s)) by (unfold g; destruct (0 <? list_max (snd s)); reflexivity).
    assert (GN : forall i, pm_nth g i = pm_nth (fst s) i) by (intros i; unfold pm_nth; rewrite GE; auto).
    assert (GB : forall v, In v (pm_bound g) <-> exists c, v = k_n k + c /\ c < list_max (snd s)).
    { intros v. unfold g. destruct (Nat.ltb_spec 0 (list_max (snd s))) as [H|H]; cbn [pm_bound].
      - rewrite in_map_iff. split; intros (c & X & Y).
        + exists c. apply in_seq in Y. split; [auto|lia].
        + exists c. split; [auto|]. apply in_seq. lia.
      - rewrite BD. split; [intros []|]. intros (c & _ & Lc). lia. }
    split.
    + rewrite GE. auto.
    + intros i Li. rewrite GN. apply INV; auto.
    + intros i Li. rewrite GN. apply INV; auto.
    + intros i v Li Lv. rewrite GN. destruct (INV i Li) as (_ & _ & X). unfold pm_end. apply eq_true_iff_eq. rewrite incident_in.
      destruct (edge_cases k i PK Li) as [(a & E & La)|(a & c & E & D & La & Lc)]; rewrite E in X |- *.
      * destruct X as [(? & ? & X & _)|(a' & c' & X & -> & -> & _)]; [discriminate|]. injection X as <-.
        rewrite (proj2 (Nat.eqb_neq (k_n k + c') v)) by lia. rewrite xorb_false_r, Nat.eqb_eq. cbn. intuition.
      * destruct X as [(a' & c' & X & -> & ->)|(? & ? & X & _)]; [|discriminate]. injection X as <- <-. cbn.
        destruct (Nat.eqb_spec a v), (Nat.eqb_spec c v); cbn; split; intuition; try congruence.
    + intros i v Li Lv NB. rewrite GN. destruct (INV i Li) as (_ & _ & X). unfold pm_end.
      destruct (edge_cases k i PK Li) as [(a & E & La)|(a & c & E & D & La & Lc)]; rewrite E in X.
      * destruct X as [(? & ? & X & _)|(a' & c' & X & -> & -> & Lc')]; [discriminate|]. injection X as <-.
        rewrite (proj2 (Nat.eqb_neq a v)) by lia. rewrite xorb_false_l. apply Nat.eqb_neq. intros <-. apply NB, GB. exists c'. split; auto.
        pose proof (list_max_nth (snd s) a). lia.
      * destruct X as [(a' & c' & X & -> & ->)|(? & ? & X & _)]; [|discriminate]. injection X as <- <-.
        rewrite (proj2 (Nat.eqb_neq a v)), (proj2 (Nat.eqb_neq c v)) by lia. reflexivity.
    + intros v I. apply GB in I. destruct I as (c & -> & _). lia.
  - right. split; auto. unfold weights_check in C. unfold py_new. destruct (is_weighted false k) as [b'|e]; cbn [bindR] in *; [|congruence].
    destruct (if b' then _ else _) in C |- *; cbn [bindR] in *; congruence.
Qed.

(** The decoding result of a component: it explains the syndrome, with minimum cost. *)
Definition best (k : comp) (cost : nat -> Q) (res : list bool) : Prop :=
  length res = length (k_edges k) /\ explains (k_n k) (k_edges k) (bits res) (bits (k_syn k)) /\
  forall sel, explains (k_n k) (k_edges k) sel (bits (k_syn k)) ->
    (qsum (fun i => if bits res i then cost i else 0) (seq 0 (length (k_edges k))) <=
     qsum (fun i => if sel i then cost i else 0) (seq 0 (length (k_edges k))))%Q.

Lemma qsum_ext {A} (f g : A -> Q) l : (forall a, In a l -> f a == g a)%Q -> (qsum f l == qsum g l)%Q.
Proof. induction l as [|a l IH]; intros H; cbn; [reflexivity|]. rewrite H by (left; auto). rewrite IH by (intros; apply H; right; auto). reflexivity. Qed.

Lemma py_solves k g sel : py_graph k g -> length (k_syn k) = k_n k ->
  (pm_solves g (k_syn k) sel <-> explains (k_n k) (k_edges k) sel (bits (k_syn k))).
Proof.
  intros PG LS. unfold pm_solves, explains, boundary. rewrite (pg_length _ _ PG). split.
  - intros H v Lv. unfold bits. rewrite <- (H v).
    + apply parity_ext. intros i I. apply in_seq in I. rewrite (pg_inner _ _ PG) by lia. auto.
    + intros B. apply (pg_bound _ _ PG) in B. lia.
  - intros H v NB. destruct (Nat.lt_ge_cases v (k_n k)) as [Lv|Lv].
    + specialize (H v Lv). unfold bits in H. rewrite <- H. apply parity_ext. intros i I. apply in_seq in I. rewrite (pg_inner _ _ PG) by lia. auto.
    + rewrite nth_overflow by lia. apply parity_false. intros i I. apply in_seq in I. rewrite (pg_outer _ _ PG) by (auto; lia). apply andb_false_r.
Qed.

Lemma list_max_S n : list_max (map S (seq 0 n)) = n.
Proof.
  apply Nat.le_antisymm.
  - apply list_max_le, Forall_forall. intros x I. apply in_map_iff in I. destruct I as (y & <- & I). apply in_seq in I. lia.
  - destruct n as [|n]; [lia|]. pose proof (list_max_nth (map S (seq 0 (S n))) n) as H.
    rewrite (nth_indep _ 0 (S 0)) in H by (rewrite map_length, seq_length; lia). rewrite map_nth, seq_nth in H by lia. lia.
Qed.

Lemma py_decode_ok solver k g er : pm_contract solver -> py_graph k g -> sane (k_wt k) -> length (k_wt k) = length (k_edges k) ->
  length (k_syn k) = k_n k -> k_erased k = Some er -> existsb (fun b => b) er = false ->
  explainable (k_n k) (k_edges k) (fun _ => True) (bits (k_syn k)) ->
  exists res, py_decode solver g k = Ok res /\ best k (py_cost (k_wt k)) res.
Proof.
  intros CT PG SN LW LS EE NE (sel0 & _ & EX). unfold py_decode. rewrite EE. cbn [bindR]. rewrite NE.
  destruct (CT g (k_syn k)) as (sel & SV & MIN & R).
  { intros e I. apply (In_nth _ _ (mkPmEdge 0 0 0 0)) in I. destruct I as (i & Li & <-). rewrite (pg_length _ _ PG) in Li.
    change (nth i (pm_edges g) _) with (pm_nth g i). rewrite (pg_weight _ _ PG) by auto. unfold py_cost.
    assert (J : In (nth i (k_wt k) NaN) (k_wt k)) by (apply nth_In; lia).
    destruct SN as [H|H]; [rewrite (H _ J); discriminate|]. destruct (H _ J) as (q & -> & Q). auto. }
  { exists sel0. apply py_solves; auto. }
  rewrite R. eexists. split; [reflexivity|].
  assert (NF : pm_faults g = length (k_edges k)).
  { unfold pm_faults. rewrite <- (list_max_S (length (k_edges k))). f_equal. rewrite <- (pg_length _ _ PG).
    apply list_ext with (d := 0); [rewrite !map_length, seq_length; auto|]. intros i Li. rewrite map_length in Li.
    rewrite (nth_indep _ 0 (S (pe_fault (mkPmEdge 0 0 0 0)))) by (rewrite map_length; auto). rewrite (map_nth (fun e => S (pe_fault e))).
    change (nth i (pm_edges g) _) with (pm_nth g i). rewrite (pg_fault _ _ PG) by (rewrite <- (pg_length _ _ PG); auto).
    rewrite (nth_map_seq S) by auto. auto. }
  assert (BI : forall f, f < length (k_edges k) -> bits (map (fun f => parity (map (fun i => sel i && (pe_fault (pm_nth g i) =? f)) (seq 0 (length (pm_edges g)))))
    (seq 0 (pm_faults g))) f = sel f).
  { intros f Lf. unfold bits. rewrite NF, nth_map_seq by auto. rewrite (pg_length _ _ PG). rewrite (parity_one _ f).
    - rewrite (pg_fault _ _ PG), Nat.eqb_refl, andb_true_r; auto.
    - apply seq_NoDup.
    - apply in_seq. lia.
    - intros i I D. apply in_seq in I. rewrite (pg_fault _ _ PG) by lia. rewrite (proj2 (Nat.eqb_neq i f)); auto. apply andb_false_r. }
  split; [rewrite map_length, seq_length; auto|]. split.
  - intros v Lv. rewrite <- (proj1 (py_solves k g sel PG LS) SV v Lv). unfold boundary. apply parity_ext. intros i I. apply in_seq in I. rewrite BI by lia. auto.
  - intros sel' EX'. apply (proj2 (py_solves k g sel' PG LS)) in EX'. specialize (MIN sel' EX'). unfold pm_total in MIN. rewrite (pg_length _ _ PG) in MIN.
    rewrite (qsum_ext _ (fun i => if sel i then pe_weight (pm_nth g i) else 0%Q)).
    + eapply Qle_trans; [exact MIN|]. apply Qle_lteq. right. apply qsum_ext. intros i I. apply in_seq in I. rewrite (pg_weight _ _ PG) by lia. reflexivity.
    + intros i I. apply in_seq in I. rewrite BI, (pg_weight _ _ PG) by lia. reflexivity.
Qed.

(** * Fusion Blossom *)
Definition fins (ws : list weight) : list Q := map (fun x => match x with Fin q => q | _ => 0%Q end) ws.
(** The weights which are used for the edges of a component. *)
Definition fb_scaled (ws : list weight) (j : nat) : Z :=
  match nth j ws NaN with Fin q => Qfloor (100 * q / qmax (fins ws)) | _ => 1%Z end.
Definition fb_cost (er : list bool) (ws : list weight) (j : nat) : Q :=
  if nth j er false then 0%Q else inject_Z (2 * fb_scaled ws j).
(** Weights which the Fusion Blossom decoder accepts: not all of them are zero. *)
Definition scalable (ws : list weight) : Prop :=
  (forall x, In x ws -> x = NaN) \/
  ((forall x, In x ws -> exists q, x = Fin q /\ (0 <= q)%Q) /\ exists q, In (Fin q) ws /\ (0 < q)%Q).

Lemma qmax_ge l : forall x, In x l -> (x <= qmax l)%Q.
Proof.
  assert (X : forall l a, (a <= fold_left (fun a b => if Qle_bool a b then b else a) l a)%Q /\
    forall x, In x l -> (x <= fold_left (fun a b => if Qle_bool a b then b else a) l a)%Q).
  { clear l. induction l as [|b l IH]; intros a; cbn [fold_left]; [split; [apply Qle_refl|intros x []]|].
    destruct (Qle_bool a b) eqn:Q.
    - apply Qle_bool_iff in Q. destruct (IH b) as [A B]. split; [eapply Qle_trans; eauto|]. intros x [<-|I]; auto.
    - assert (Q' : (b <= a)%Q). { apply Qlt_le_weak, Qnot_le_lt. intros Y. apply Qle_bool_iff in Y. congruence. }
      destruct (IH a) as [A B]. split; auto. intros x [<-|I]; auto. eapply Qle_trans; eauto. }
  destruct l as [|a l]; intros x; [intros []|]. unfold qmax. cbn [hd tl]. destruct (X l a) as [A B]. intros [<-|I]; auto.
Qed.
Lemma qmax_in l : l <> [] -> In (qmax l) l.
Proof.
  assert (X : forall l a, In (fold_left (fun a b => if Qle_bool a b then b else a) l a) (a :: l)).
  { clear l. induction l as [|b l IH]; intros a; cbn [fold_left]; [left; auto|]. destruct (Qle_bool a b).
    - destruct (IH b) as [<-|I]; [right; left; auto|right; right; auto].
    - destruct (IH a) as [<-|I]; [left; auto|right; right; auto]. }
  destruct l as [|a l]; [congruence|]. intros _. apply (X l a).
Qed.

Lemma fb_weights_ok k : proper k ->
  (scalable (k_wt k) /\ exists ws, fb_weights k = Ok ws /\ length ws = length (k_edges k) /\
     forall i, i < length (k_edges k) -> nth i ws 0%Z = fb_scaled (k_wt k) i) \/
  (~ scalable (k_wt k) /\ exists e, fb_weights k = Err e /\ (e = Unmodelled <-> sane (k_wt k))).
Proof.
  intros PK. pose proof (pr_weights _ PK) as LW. destruct (weights_check_ok k PK) as [(S & b & C & WS)|(S & C)].
  - unfold weights_check in C. unfold fb_weights. destruct (is_weighted false k) as [b'|]; [|discriminate]. cbn [bindR] in *.
    destruct b'.
    + destruct (check_weights_sane (Some (k_wt k))); [|discriminate]. cbn [bindR] in *. injection C as <-.
      destruct (finite_all (k_wt k)) as (qs & Eq & EQ). { intros x I. destruct (WS x I) as (q & -> & _). eauto. }
      rewrite Eq. cbn [bindR].
      assert (FQ : fins (k_wt k) = qs) by (rewrite EQ; unfold fins; rewrite map_map; apply map_id).
      assert (PQ : forall q, In q qs -> (0 <= q)%Q).
      { intros q I. destruct (WS (Fin q)) as (q' & X & Y); [rewrite EQ; apply in_map; auto|]. injection X as <-. auto. }
      assert (LQ : length qs = length (k_wt k)) by (rewrite EQ, map_length; auto).
      assert (QN : qs <> []). { intros Z. apply (pr_some _ PK). rewrite Z in LQ. destruct (k_edges k); auto. cbn in *. lia. }
      destruct (Qeq_bool (qmax qs) 0) eqn:Z.
      * right. apply Qeq_bool_iff in Z. split.
        -- intros [H|(_ & q & I & P)].
           ++ destruct qs as [|q l]; [congruence|]. assert (X : Fin q = NaN) by (apply H; rewrite EQ; left; auto). discriminate.
           ++ rewrite EQ in I. apply in_map_iff in I. destruct I as (q' & X & I). injection X as ->. apply qmax_ge in I. rewrite Z in I.
              apply Qle_not_lt in I. contradiction.
        -- eexists. split; [reflexivity|]. tauto.
      * left. split.
        -- right. split; auto. exists (qmax qs). split; [rewrite EQ; apply in_map, qmax_in; auto|].
           pose proof (PQ _ (qmax_in qs QN)) as P. apply Qle_lteq in P. destruct P as [|P]; auto. symmetry in P. apply Qeq_bool_iff in P. congruence.
        -- eexists. split; [reflexivity|]. split; [rewrite map_length; lia|]. intros i Li. unfold fb_scaled. rewrite FQ.
           rewrite (nth_indep _ 0%Z (Qfloor (100 * 0 / qmax qs))) by (rewrite map_length; lia). rewrite (map_nth (fun q => Qfloor (100 * q / qmax qs))).
           rewrite EQ. rewrite (nth_indep _ NaN (Fin 0)) by (rewrite map_length; lia). rewrite map_nth. reflexivity.
    + cbn [bindR] in C. injection C as <-. left. split; [left; auto|]. eexists. split; [reflexivity|]. split; [apply map_length|].
      intros i Li. unfold fb_scaled. rewrite (WS (nth i (k_wt k) NaN)) by (apply nth_In; lia).
      rewrite (nth_indep _ 0%Z 1%Z) by (rewrite map_length; auto). apply (map_nth (fun _ => 1%Z) (k_edges k) []).
  - right. split.
    + intros [H|(H & _)]; apply S; [left|right]; auto.
    + unfold weights_check in C. unfold fb_weights. destruct (is_weighted false k) as [b'|e]; cbn [bindR] in *.
      * destruct b'; cbn [bindR] in *; [|discriminate]. destruct (check_weights_sane (Some (k_wt k))); cbn [bindR] in *; [discriminate|].
        injection C as ->. eexists. split; [reflexivity|]. split; [discriminate|contradiction].
      * injection C as ->. eexists. split; [reflexivity|]. split; [discriminate|contradiction].
Qed.

Lemma floor_scaled ws i : (forall x, In x ws -> exists q, x = Fin q /\ (0 <= q)%Q) -> i < length ws -> (0 <= fb_scaled ws i)%Z.
Proof.
  intros H L. unfold fb_scaled. destruct (H (nth i ws NaN)) as (q & -> & Q); [apply nth_In; auto|].
  change 0%Z with (Qfloor 0). apply Qfloor_resp_le. unfold Qdiv. apply Qmult_le_0_compat; [apply Qmult_le_0_compat; auto; discriminate|].
  apply Qinv_le_0_compat. destruct ws as [|x ws]; [cbn in L; lia|].
  assert (N : fins (x :: ws) <> []) by (cbn; congruence). pose proof (qmax_in _ N) as I. unfold fins in I. apply in_map_iff in I.
  destruct I as (y & E & I). fold (fins (x :: ws)) in E. rewrite <- E. destruct (H y I) as (q' & -> & Q'). auto.
Qed.

Lemma scaled_nonneg ws i : scalable ws -> i < length ws -> (0 <= fb_scaled ws i)%Z.
Proof.
  intros [H|(H & _)] L; [|apply floor_scaled; auto]. unfold fb_scaled. rewrite (H (nth i ws NaN)) by (apply nth_In; auto). lia.
Qed.

Record fb_good (k : comp) (g : fb_graph) : Prop := {
  fg_length : length (fb_edges g) = length (k_edges k);
  fg_weight : forall i, i < length (k_edges k) -> snd (fb_nth g i) = (2 * fb_scaled (k_wt k) i)%Z;
  fg_inner : forall i v, i < length (k_edges k) -> v < k_n k -> fb_end (fb_nth g i) v = incident (k_edges k) i v;
  fg_outer : forall i v, i < length (k_edges k) -> k_n k <= v -> ~ In v (fb_virtual g) -> fb_end (fb_nth g i) v = false;
  fg_virtual : forall v, In v (fb_virtual g) -> k_n k <= v < fb_n g }.

Definition fb_inv (k : comp) (i : nat) (s : list (nat * nat * Z) * list nat) : Prop :=
  length (fst s) = i /\ snd s = map (Nat.add (k_n k)) (seq 0 (length (snd s))) /\
  forall j, j < i -> snd (nth j (fst s) (0, 0, 0%Z)) = (2 * fb_scaled (k_wt k) j)%Z /\
    ((exists a b, nth j (k_edges k) [] = [a; b] /\ fst (nth j (fst s) (0, 0, 0%Z)) = (a, b)) \/
     (exists a o, nth j (k_edges k) [] = [a] /\ fst (nth j (fst s) (0, 0, 0%Z)) = (a, o) /\ In o (snd s))).

Lemma fb_new_ok k : proper k ->
  (scalable (k_wt k) /\ exists g, fb_new k = Ok g /\ fb_good k g) \/
  (~ scalable (k_wt k) /\ exists e, fb_new k = Err e /\ (e = Unmodelled <-> sane (k_wt k))).
Proof.
  intros PK. destruct (fb_weights_ok k PK) as [(SC & ws & C & LW & WS)|(SC & e & C & X)].
  2: { right. split; auto. exists e. unfold fb_new. rewrite C. auto. }
  left. split; auto. unfold fb_new. rewrite C. cbn [bindR].
  destruct (foldR_enum (fb_edge (k_n k) ws) (fb_inv k) [] (k_edges k) ([], [])) as (s & L & LG & SV & INV).
  - split; [reflexivity|]. split; [reflexivity|]. intros j L. lia.
  - intros i [es os] Li (LE & SV & INV). cbn [fst snd] in *. unfold fb_edge. cbn [fst snd]. rewrite (get_nth _ _ 0%Z) by lia. cbn [bindR].
    assert (OLD : forall x j, j < S i -> nth j (es ++ [x]) (0, 0, 0%Z) = if j =? i then x else nth j es (0, 0, 0%Z)).
    { intros x j Lj. destruct (Nat.eqb_spec j i) as [->|]; [rewrite app_nth2, LE, Nat.sub_diag by lia; auto|apply app_nth1; lia]. }
    destruct (edge_cases k i PK Li) as [(a & E & La)|(a & c & E & D & La & Lc)]; rewrite E; eexists; (split; [reflexivity|]).
    + split; [cbn; rewrite app_length; cbn; lia|]. cbn [fst snd]. split.
      { rewrite app_length. cbn [length]. rewrite Nat.add_1_r, seq_S, map_app, <- SV. reflexivity. }
      intros j Lj. rewrite OLD by auto. destruct (Nat.eqb_spec j i) as [->|Dj].
      * cbn. split; [rewrite WS by auto; destruct (fb_scaled (k_wt k) i); reflexivity|]. right. exists a, (k_n k + length os). split; [auto|]. split; [auto|]. apply in_or_app. right. left. auto.
      * destruct (INV j ltac:(lia)) as (A & [B|(a' & o & B1 & B2 & B3)]); split; auto. right. exists a', o. split; auto. split; auto. apply in_or_app. auto.
    + split; [cbn; rewrite app_length; cbn; lia|]. cbn [fst snd]. split; auto.
      intros j Lj. rewrite OLD by auto. destruct (Nat.eqb_spec j i) as [->|Dj].
      * cbn. split; [rewrite WS by auto; destruct (fb_scaled (k_wt k) i); reflexivity|]. left. exists a, c. auto.
      * apply INV. lia.
  - rewrite L. cbn [bindR]. eexists. split; [reflexivity|].
    assert (VB : forall v, In v (snd s) -> k_n k <= v < k_n k + length (snd s)).
    { intros v I. rewrite SV in I. apply in_map_iff in I. destruct I as (c & <- & I). apply in_seq in I. lia. }
    split; unfold fb_nth; cbn [fb_edges fb_virtual fb_n].
    + auto.
    + intros i Li. apply INV; auto.
    + intros i v Li Lv. destruct (INV i Li) as (_ & X). unfold fb_end. apply eq_true_iff_eq. rewrite incident_in.
      destruct (edge_cases k i PK Li) as [(a & E & La)|(a & c & E & D & La & Lc)]; rewrite E in X |- *.
      * destruct X as [(? & ? & X & _)|(a' & o & X & Y & I)]; [discriminate|]. injection X as <-. rewrite Y. cbn [fst snd]. apply VB in I.
        rewrite (proj2 (Nat.eqb_neq o v)) by lia. rewrite xorb_false_r, Nat.eqb_eq. cbn. intuition.
      * destruct X as [(a' & c' & X & Y)|(? & ? & X & _)]; [|discriminate]. injection X as <- <-. rewrite Y. cbn.
        destruct (Nat.eqb_spec a v), (Nat.eqb_spec c v); cbn; split; intuition; try congruence.
    + intros i v Li Lv NB. destruct (INV i Li) as (_ & X). unfold fb_end.
      destruct (edge_cases k i PK Li) as [(a & E & La)|(a & c & E & D & La & Lc)]; rewrite E in X.
      * destruct X as [(? & ? & X & _)|(a' & o & X & Y & I)]; [discriminate|]. injection X as <-. rewrite Y. cbn [fst snd].
        rewrite (proj2 (Nat.eqb_neq a v)) by lia. rewrite xorb_false_l. apply Nat.eqb_neq. intros <-. auto.
      * destruct X as [(a' & c' & X & Y)|(? & ? & X & _)]; [|discriminate]. injection X as <- <-. rewrite Y. cbn [fst snd].
        rewrite (proj2 (Nat.eqb_neq a v)), (proj2 (Nat.eqb_neq c v)) by lia. reflexivity.
    + exact VB.
Qed.

Lemma fb_solves_iff k g sel : fb_good k g -> length (k_syn k) = k_n k ->
  (fb_solves g (nonzero (k_syn k)) sel <-> explains (k_n k) (k_edges k) sel (bits (k_syn k))).
Proof.
  intros PG LS.
  assert (SB : forall v, existsb (Nat.eqb v) (nonzero (k_syn k)) = bits (k_syn k) v).
  { intros v. apply eq_true_iff_eq. rewrite existsb_in, nonzero_in. unfold bits. split; [tauto|]. intros H. split; auto.
    destruct (Nat.lt_ge_cases v (length (k_syn k))); auto. rewrite nth_overflow in H by auto. discriminate. }
  unfold fb_solves, explains, boundary. rewrite (fg_length _ _ PG). split.
  - intros H v Lv. rewrite <- SB, <- (H v).
    + apply parity_ext. intros i I. apply in_seq in I. rewrite (fg_inner _ _ PG) by lia. auto.
    + intros B. apply (fg_virtual _ _ PG) in B. lia.
  - intros H v NB. rewrite SB. destruct (Nat.lt_ge_cases v (k_n k)) as [Lv|Lv].
    + rewrite <- (H v Lv). apply parity_ext. intros i I. apply in_seq in I. rewrite (fg_inner _ _ PG) by lia. auto.
    + unfold bits. rewrite nth_overflow by lia. apply parity_false. intros i I. apply in_seq in I. rewrite (fg_outer _ _ PG) by (auto; lia). apply andb_false_r.
Qed.

Lemma fb_decode_ok solver k g er : fb_contract solver -> fb_good k g -> scalable (k_wt k) -> length (k_wt k) = length (k_edges k) ->
  length (k_syn k) = k_n k -> k_erased k = Some er -> length er = length (k_edges k) ->
  explainable (k_n k) (k_edges k) (fun _ => True) (bits (k_syn k)) ->
  exists res, fb_decode solver g k = Ok res /\ best k (fb_cost er (k_wt k)) res.
Proof.
  intros CT PG SN LW LS EE LE (sel0 & _ & EX). unfold fb_decode. rewrite EE. cbn [bindR].
  destruct (CT g (nonzero (k_syn k)) (nonzero er)) as (r & R & SV & MIN).
  { intros e I. apply (In_nth _ _ (0, 0, 0%Z)) in I. destruct I as (i & Li & <-). rewrite (fg_length _ _ PG) in Li.
    change (nth i (fb_edges g) _) with (fb_nth g i). rewrite (fg_weight _ _ PG) by auto. split; [|rewrite Z.even_mul; reflexivity].
    pose proof (scaled_nonneg (k_wt k) i SN ltac:(lia)). lia. }
  { exists sel0. apply fb_solves_iff; auto. }
  rewrite R. cbn [bindR]. eexists. split; [reflexivity|].
  set (sel := fun i => existsb (Nat.eqb i) r) in *. change (fun i => existsb (Nat.eqb i) r) with sel.
  assert (BI : forall f, f < length (k_edges k) -> bits (map sel (seq 0 (length (k_edges k)))) f = sel f).
  { intros f Lf. unfold bits. apply nth_map_seq. auto. }
  assert (TT : forall s : nat -> bool, (qsum (fun i => if s i then fb_cost er (k_wt k) i else 0) (seq 0 (length (k_edges k))) == fb_total g (nonzero er) s)%Q).
  { intros s. unfold fb_total. rewrite (fg_length _ _ PG). apply qsum_ext. intros i I. apply in_seq in I. rewrite (fg_weight _ _ PG) by lia.
    unfold fb_cost. assert (X : existsb (Nat.eqb i) (nonzero er) = nth i er false).
    { apply eq_true_iff_eq. rewrite existsb_in, nonzero_in. split; [tauto|]. intros H. split; auto. lia. }
    rewrite X. destruct (s i), (nth i er false); reflexivity. }
  split; [rewrite map_length, seq_length; auto|]. split.
  - intros v Lv. rewrite <- (proj1 (fb_solves_iff k g sel PG LS) SV v Lv). unfold boundary. apply parity_ext. intros i I. apply in_seq in I. rewrite BI by lia. auto.
  - intros sel' EX'. apply Qle_trans with (fb_total g (nonzero er) sel).
    + rewrite <- (TT sel). apply Qle_lteq. right. apply qsum_ext. intros i I. apply in_seq in I. rewrite BI by lia. reflexivity.
    + rewrite (TT sel'). apply MIN. apply fb_solves_iff; auto.
Qed.
