(** Property C58: errors of low weight are corrected by the union-find decoder. *)
Require Import List Bool Arith Lia QArith Qround Lqa.
From Verif Require Import Base BaseProofs GraphSpec GraphProofs ErasureModel UnionFindModel UnionFindInit UnionFindStep
  UnionFindFinal UnionFindMetric UnionFindGrowth UnionFindDistance Props_UnionFind GraphCuts PauliModel.
Import ListNotations.
Open Scope nat_scope.

(** * Vocabulary *)

(** The selected edges, in a graph with [m] edges. *)
Definition chosen_edges (m : nat) (sel : nat -> bool) : list nat := filter sel (seq 0 m).

(** Whether a selection of edges crosses a logical operator, given by its edges, an odd number
    of times: whether it changes the logical value. *)
Definition flips_logical (m : nat) (logical sel : nat -> bool) : bool :=
  parity (map logical (chosen_edges m sel)).

(** Total length of a list of edges. *)
Definition total_length (len : nat -> nat) (l : list nat) : nat := list_sum (map len l).

(** Each selection of edges which causes no syndrome but changes the logical value has at least
    the length [d]. *)
Definition distance_at_least (n : nat) (edges : list (list nat)) (logical : nat -> bool) (len : nat -> nat) (d : nat) : Prop :=
  forall sel, explains n edges sel (fun _ => false) -> flips_logical (length edges) logical sel = true ->
  d <= total_length len (chosen_edges (length edges) sel).

(** Errors outside of the erased edges, and erased edges. *)
Definition unseen (erased : list nat) (E : nat -> bool) (i : nat) : bool := E i && negb (existsb (Nat.eqb i) erased).

(** An object which has been used to decode some syndromes since it was in the state [u]. *)
Inductive reused (n : nat) (edges : list (list nat)) (u : ugraph) : ugraph -> Prop :=
| reused_not : reused n edges u u
| reused_again fuel erased syndrome u1 u2 corr : reused n edges u u1 ->
    (forall i, In i erased -> i < length edges) -> length syndrome = n ->
    uf_decode fuel erased syndrome u1 = Ok (u2, corr) -> reused n edges u u2.

(** The number of half steps after which an edge with weight [x] has grown completely if the
    lowest weight is [lo] and the normalisation coefficient is [c]. *)
Definition growth_length (c lo x : Q) : nat :=
  if Qeq_bool (c * x / lo) 0 then 1 else Z.to_nat (Qceiling (2 * (c * x / lo))).

(** * Auxiliary lemmas *)
Lemma parity_chosen m w sel : flips_logical m w sel = parity (map (fun i => sel i && w i) (seq 0 m)).
Proof.
  unfold flips_logical, chosen_edges. induction (seq 0 m) as [|i l IH]; auto. cbn [filter map].
  change (parity ((sel i && w i) :: map (fun i => sel i && w i) l)) with
    (xorb (sel i && w i) (parity (map (fun i => sel i && w i) l))). rewrite <- IH.
  destruct (sel i); cbn [map andb]; auto. rewrite xorb_false_l. auto.
Qed.

Lemma distance_short n edges w len d : distance_at_least n edges w len d -> no_short n edges w len d.
Proof.
  intros D sel EX L. rewrite <- parity_chosen. destruct (flips_logical (length edges) w sel) eqn:F; auto.
  apply D in F; auto. unfold total_length, chosen_edges in F. rewrite sum_filter in F. lia.
Qed.

Lemma budget_sum m mw E er :
  sum (budget mw E (fun i => existsb (Nat.eqb i) er)) (seq 0 m) =
  total_length mw (chosen_edges m (fun i => existsb (Nat.eqb i) er)) +
  total_length (fun i => 2 * (mw i + 1)) (chosen_edges m (unseen er E)).
Proof. unfold total_length, chosen_edges. rewrite !sum_filter, <- sum_plus. apply sum_ext. auto. Qed.

Lemma reused_ready n edges u u' : well_formed n edges -> uready n edges u -> reused n edges u u' ->
  uready n edges u' /\ fresh (u_grow u') = fresh (u_grow u).
Proof.
  intros WF R. induction 1 as [|fuel er syn u1 u2 corr _ [IH F] LE LS X]; auto.
  split; [|rewrite <- F; eapply uf_decode_fresh; eauto].
  set (N := S (total (fresh (u_grow u1)))).
  destruct (uf_decode_ok n edges WF er syn u1 (fuel + N) IH LS LE) as
    [[Y _]|(u3 & c1 & Y & R3 & _)]; [unfold N; lia| |];
    rewrite (uf_decode_more _ _ _ _ _ N X) in Y; [discriminate|congruence].
Qed.

(** Decoding with an object whose edges have the lengths [len]. *)
Lemma limit n edges u u1 len logical d E er syn fuel : well_formed n edges -> uready n edges u ->
  (forall i, i < length edges -> needs (fresh (u_grow u)) i = len i /\ 1 <= len i) -> reused n edges u u1 ->
  distance_at_least n edges logical len d ->
  (forall i, In i er -> i < length edges) -> length syn = n -> explains n edges E (bits syn) ->
  total_length len (chosen_edges (length edges) (fun i => existsb (Nat.eqb i) er)) +
  total_length (fun i => 2 * (len i + 1)) (chosen_edges (length edges) (unseen er E)) < d ->
  total (fresh (u_grow u)) < fuel ->
  exists u2 corr, uf_decode fuel er syn u1 = Ok (u2, corr) /\ length corr = length edges /\
    explains n edges (bits corr) (bits syn) /\
    flips_logical (length edges) logical (bits corr) = flips_logical (length edges) logical E.
Proof.
  intros WF R N RU D LE LS EX B F.
  destruct (reused_ready n edges u u1 WF R RU) as [R1 F1].
  assert (EXT : forall l, (forall i, In i l -> i < length edges) -> forall g : nat -> nat,
     total_length (fun i => g (needs (fresh (u_grow u)) i)) l = total_length (fun i => g (len i)) l).
  { intros l IL g. apply sum_ext. intros i I. rewrite (proj1 (N i (IL i I))). auto. }
  assert (CL : forall sel i, In i (chosen_edges (length edges) sel) -> i < length edges).
  { intros sel i I. apply filter_In in I. destruct I as [I _]. apply in_seq in I. lia. }
  destruct (uf_decode_ok n edges WF er syn u1 fuel R1 LS LE) as [[Y NE]|(u2 & corr & Y & _ & _ & _)].
  { rewrite F1. auto. }
  { exfalso. apply NE. apply (even_all n edges WF syn LS). exists E. auto. }
  exists u2, corr. split; auto.
  destruct (uf_decode_limit n edges logical d E fuel er syn u1 u2 corr) as (LC & CX & P); auto.
  - rewrite F1. apply distance_short. intros sel Z FL. rewrite (EXT _ (CL sel) (fun x => x) : total_length (needs (fresh (u_grow u))) _ = _). apply D; auto.
  - rewrite F1. intros i L. rewrite (proj1 (N i L)). apply N. auto.
  - rewrite budget_sum, F1, (EXT _ (CL _) (fun x => x) : total_length (needs (fresh (u_grow u))) _ = _), (EXT _ (CL _) (fun x => 2 * (x + 1))). auto.
  - split; auto. split; auto. rewrite !parity_chosen. auto.
Qed.

Lemma total_needs gs len : (forall i, i < length gs -> needs gs i = len i) -> total gs = total_length len (seq 0 (length gs)).
Proof.
  revert len. induction gs as [|g gs IH]; intros len N; auto.
  cbn [length seq]. unfold total_length. rewrite <- seq_shift, map_cons, map_map.
  change (total (g :: gs)) with (need g + total gs).
  rewrite (IH (fun i => len (S i))).
  - pose proof (N 0 (Nat.lt_0_succ _)) as N0. cbn in N0. rewrite N0. reflexivity.
  - intros i L. apply (N (S i)). cbn. lia.
Qed.

Lemma min_nonzero_pos ws lo : (forall x, In x ws -> 0 <= x)%Q -> min_nonzero ws = Ok lo -> (0 < lo)%Q.
Proof.
  intros P. unfold min_nonzero. destruct (filter _ ws) as [|w0 l] eqn:F; [discriminate|]. intros X. injection X as <-.
  assert (PF : forall x, In x (w0 :: l) -> (0 < x)%Q).
  { intros x I. rewrite <- F in I. apply filter_In in I. destruct I as [I B]. apply P in I.
    apply negb_true_iff in B. apply Qle_lteq in I. destruct I as [I|I]; auto.
    rewrite (proj2 (Qeq_bool_iff x 0)) in B; [discriminate|]. rewrite I. reflexivity. }
  apply min_fold; [apply PF; left; auto|]. intros x I. apply PF. right; auto.
Qed.

Lemma weights_needs n edges c ws lo u u' : uready n edges u -> (0 <= c)%Q -> (forall x, In x ws -> 0 <= x)%Q ->
  min_nonzero ws = Ok lo -> set_weights c ws u = Ok u' ->
  length ws = length edges /\
  forall i, i < length edges -> needs (fresh (u_grow u')) i = growth_length c lo (nth i ws 0%Q) /\
    1 <= growth_length c lo (nth i ws 0%Q).
Proof.
  intros [UO LV] Pc PW MN X. pose proof (min_nonzero_pos ws lo PW MN) as PL. unfold set_weights in X. rewrite MN in X. cbn [bindR] in X.
  destruct (length ws =? length (u_grow u)) eqn:LW; [|discriminate]. cbn [assertR bindR] in X.
  apply Nat.eqb_eq in LW. rewrite (uo_grow n edges u UO) in LW. split; auto.
  apply (f_equal (fun r => match r with Ok x => x | Err _ => u end)) in X. cbv beta iota in X. intros i L.
  assert (PP : (0 <= c * nth i ws 0%Q / lo)%Q).
  { apply Qle_shift_div_l; auto. rewrite Qmult_0_l. apply Qmult_le_0_compat; auto. apply PW, nth_In. lia. }
  assert (GE : needs (fresh (u_grow u')) i =
     need (mkGrowth (Some 0%Q) 1%Q (if Qeq_bool (c * nth i ws 0 / lo)%Q 0 then None else Some (1 / (2 * (c * nth i ws 0 / lo)))%Q))).
  { rewrite <- X. cbn [u_grow set_grow]. unfold fresh. rewrite map_map. unfold needs. cbn [g_inc g_max].
    rewrite nth_error_map.
    assert (LG : i < length (u_grow u)) by (rewrite (uo_grow n edges u UO); auto).
    destruct (nth_error (combine (u_grow u) ws) i) as [p|] eqn:Q.
    - cbn [option_map]. apply (nth_error_nth _ _ (new_growth, 0%Q)) in Q.
      rewrite combine_nth in Q by (rewrite (uo_grow n edges u UO); auto). subst p. reflexivity.
    - apply nth_error_None in Q. rewrite combine_length in Q. lia. }
  rewrite GE. clear GE. unfold growth_length, need, complete. cbn [g_cur g_max g_inc].
  change (Qle_bool 1 0) with false. cbv iota. destruct (Qeq_bool (c * nth i ws 0 / lo)%Q 0) eqn:Z; auto.
  assert (NZ : ~ (c * nth i ws 0 / lo == 0)%Q).
  { intros Y. apply Qeq_bool_iff in Y. congruence. }
  set (y := (c * nth i ws 0 / lo)%Q) in *.
  assert (PY : (0 < y)%Q).
  { apply Qle_lteq in PP. destruct PP as [P1|Y]; auto. destruct NZ. symmetry. auto. }
  assert (QE : ((1 - 0) / (1 / (2 * y)) == 2 * y)%Q) by (field; auto).
  rewrite (Qceiling_comp _ _ QE). split; auto.
  assert (0 < Qceiling (2 * y))%Z; [|lia].
  rewrite Zlt_Qlt. change (inject_Z 0) with 0%Q. apply Qlt_le_trans with (2 * y)%Q; [lra|apply Qle_ceiling].
Qed.

(** * C58 Errors of low weight are corrected *)

(** Without weights, for a new object or one whose weights have been removed, which may have
    been used before.  Let each selection of edges without syndrome which changes the logical
    value have at least [d] edges.  If an error on the erased edges and [t] others causes the
    syndrome, and 3 t plus the number of erased edges is less than [d], then the correction
    changes the logical value in the same way as the error: together they are no logical
    error. *)
Theorem C58_few_errors : forall n edges u0 u logical d erased E syndrome,
  well_formed n edges ->
  new_ugraph n edges = Ok u0 \/ (exists u1, uf_object n edges u1 /\ u0 = unset_weights true u1) ->
  reused n edges u0 u ->
  distance_at_least n edges logical (fun _ => 1) d ->
  (forall i, In i erased -> i < length edges) -> length syndrome = n ->
  explains n edges E (bits syndrome) ->
  3 * length (chosen_edges (length edges) (unseen erased E)) + length (nodup Nat.eq_dec erased) < d ->
  exists u' corr, uf_decode (2 * length edges + 1) erased syndrome u = Ok (u', corr) /\
    length corr = length edges /\ explains n edges (bits corr) (bits syndrome) /\
    flips_logical (length edges) logical (bits corr) = flips_logical (length edges) logical E.
Proof.
  intros n edges u0 u logical d er E syn WF O RU D LE LS EX B.
  assert (R0 : uready n edges u0 /\ forall i, i < length edges -> needs (fresh (u_grow u0)) i = 2).
  { destruct O as [O|(u1 & O & ->)].
    - destruct (new_ugraph_ready n edges WF) as (u' & E' & R & G). rewrite E' in O. injection O as ->. split; auto.
      intros i L. unfold needs, fresh. rewrite G, nth_error_map, nth_error_repeat; auto.
    - apply (uf_object_ready n edges u1 WF) in O. split; [apply unset_weights_ready; auto|].
      intros i L. unfold needs, fresh. cbn [unset_weights u_grow set_grow]. rewrite map_map, nth_error_map.
      destruct (nth_error (u_grow u1) i) eqn:Q; [reflexivity|]. apply nth_error_None in Q.
      rewrite (uo_grow n edges u1 (proj1 O)) in Q. lia. }
  destruct R0 as [R0 N0].
  assert (T2 : forall c l, total_length (fun _ => c) l = c * length l).
  { intros c l. unfold total_length. induction l as [|x l IH]; [cbn; lia|]. rewrite sum_cons, IH. cbn [length]. lia. }
  apply (limit n edges u0 u (fun _ => 2) logical (2 * d) E er syn (2 * length edges + 1)); auto.
  - intros sel Z F. specialize (D sel Z F). rewrite T2 in *. lia.
  - rewrite !T2.
    enough (length (chosen_edges (length edges) (fun i => existsb (Nat.eqb i) er)) <= length (nodup Nat.eq_dec er)) by lia.
    apply NoDup_incl_length; [apply NoDup_filter, seq_NoDup|]. intros i I. apply filter_In in I. destruct I as [_ I].
    apply nodup_In, existsb_in. auto.
  - assert (LF : length (fresh (u_grow u0)) = length edges).
    { unfold fresh. rewrite map_length. apply (uo_grow n edges u0 (proj1 R0)). }
    rewrite (total_needs _ (fun _ => 2)); [|rewrite LF; auto]. rewrite LF, T2, seq_length. lia.
Qed.
Print Assumptions C58_few_errors.

(** With weights: the length of an edge is the number of half steps it needs, and an error
    outside of the erased edges costs two more than twice its length. *)
Theorem C58_weighted : forall n edges c ws lo u0 u1 u logical d erased E syndrome fuel,
  well_formed n edges -> uf_object n edges u0 -> (0 <= c)%Q -> (forall x, In x ws -> 0 <= x)%Q ->
  set_weights c ws u0 = Ok u1 -> min_nonzero ws = Ok lo -> reused n edges u1 u ->
  let len := fun i => growth_length c lo (nth i ws 0%Q) in
  distance_at_least n edges logical len d ->
  (forall i, In i erased -> i < length edges) -> length syndrome = n ->
  explains n edges E (bits syndrome) ->
  total_length len (nodup Nat.eq_dec erased) +
  total_length (fun i => 2 * (len i + 1)) (chosen_edges (length edges) (unseen erased E)) < d ->
  total_length len (seq 0 (length edges)) < fuel ->
  exists u' corr, uf_decode fuel erased syndrome u = Ok (u', corr) /\
    length corr = length edges /\ explains n edges (bits corr) (bits syndrome) /\
    flips_logical (length edges) logical (bits corr) = flips_logical (length edges) logical E.
Proof.
  intros n edges c ws lo u0 u1 u logical d er E syn fuel WF O Pc PW SW MN RU len D LE LS EX B F.
  apply (uf_object_ready n edges u0 WF) in O.
  destruct (weights_needs n edges c ws lo u0 u1 O Pc PW MN SW) as [LW N].
  assert (R1 : uready n edges u1) by (eapply set_weights_ready; eauto).
  assert (LF : length (fresh (u_grow u1)) = length edges).
  { unfold fresh. rewrite map_length. apply (uo_grow n edges u1 (proj1 R1)). }
  apply (limit n edges u1 u len logical d E er syn fuel); auto.
  - assert (X : total_length len (chosen_edges (length edges) (fun i => existsb (Nat.eqb i) er)) <=
       total_length len (nodup Nat.eq_dec er)); [|lia].
    assert (G : forall l l', NoDup l -> incl l l' -> total_length len l <= total_length len l').
    { induction l as [|a l IH]; intros l' ND I; [cbn; lia|]. inversion ND as [|? ? NI ND']; subst.
      destruct (in_split a l') as (l1 & l2 & ->); [apply I; left; auto|].
      unfold total_length in *. rewrite sum_app, !sum_cons. specialize (IH (l1 ++ l2) ND').
      rewrite sum_app in IH. assert (incl l (l1 ++ l2)); [|specialize (IH H); lia].
      intros x J. assert (x <> a) by congruence. specialize (I x (or_intror J)). apply in_app_iff in I.
      apply in_app_iff. cbn in I. intuition congruence. }
    apply G; [apply NoDup_filter, seq_NoDup|]. intros i I. apply filter_In in I. destruct I as [_ I].
    apply nodup_In, existsb_in. auto.
  - rewrite (total_needs _ len); rewrite LF; auto. intros i L. apply N. auto.
Qed.
Print Assumptions C58_weighted.

(** A line with dangling edges at both ends, as for the repetition code and perfect
    measurements: its [n + 1] edges are the qubits, and the logical operator acts on the first
    qubit. *)
Definition line (n : nat) : list (list nat) := [0] :: map (fun i => [i; S i]) (seq 0 (n - 1)) ++ [[n - 1]].
Definition first_edge (i : nat) : bool := i =? 0.

Lemma line_edge n i : 1 <= n -> i < S n -> nth i (line n) [] =
  if i =? 0 then [0] else if i =? n then [n - 1] else [i - 1; i].
Proof.
  intros N L. unfold line. destruct i as [|i]; auto. cbn [nth]. change (S i =? 0) with false. cbv iota.
  replace (S i - 1) with i by lia. destruct (Nat.eqb_spec (S i) n) as [E|E].
  - rewrite app_nth2; rewrite map_length, seq_length; [|lia]. replace (i - (n - 1)) with 0 by lia. auto.
  - rewrite app_nth1 by (rewrite map_length, seq_length; lia).
    rewrite (nth_map_seq (fun i => [i; S i])) by lia. auto.
Qed.

Lemma line_length n : 1 <= n -> length (line n) = S n.
Proof. intros N. cbn. rewrite app_length, map_length, seq_length. cbn. lia. Qed.

Lemma line_formed n : 1 <= n -> well_formed n (line n).
Proof.
  intros N e [<-|I]; [left; exists 0; auto|]. apply in_app_iff in I. destruct I as [I|[<-|[]]].
  - apply in_map_iff in I. destruct I as (i & <- & I). apply in_seq in I. right. exists i, (S i). split; auto. lia.
  - left. exists (n - 1). split; auto. lia.
Qed.

Lemma line_distance n : 1 <= n -> distance_at_least n (line n) first_edge (fun _ => 1) (S n).
Proof.
  intros N sel EX F. unfold total_length.
  assert (L1 : forall l, list_sum (map (fun _ : nat => 1) l) = length l).
  { induction l as [|a l IH]; auto. rewrite sum_cons, IH. auto. }
  rewrite L1. apply (disjoint_count (fun k i => i =? k)).
  - intros i k k' _ _ _ A B. apply Nat.eqb_eq in A, B. congruence.
  - intros k Lk. rewrite parity_chosen in F. rewrite <- F.
    pose proof (closed_cut n (line n) (fun v => v <? k) sel (line_formed n N) EX) as C.
    enough (X : xorb (parity (map (fun i => sel i && (i =? k)) (seq 0 (length (line n)))))
      (parity (map (fun i => sel i && first_edge i) (seq 0 (length (line n))))) = false).
    { apply xorb_eq. auto. }
    rewrite <- C, <- parity_xor. apply parity_ext. intros i I. apply in_seq in I. rewrite line_length in I by auto.
    unfold ends_parity, first_edge. rewrite line_edge by lia.
    destruct (sel i); cbn [andb]; auto.
    destruct (Nat.eqb_spec i 0) as [->|D0].
    + destruct k; cbn; auto.
    + destruct (Nat.eqb_spec i n) as [->|Dn].
      * destruct (Nat.eqb_spec n k), (Nat.ltb_spec (n - 1) k); cbn; lia || auto.
      * destruct (Nat.eqb_spec i k), (Nat.ltb_spec (i - 1) k), (Nat.ltb_spec i k); cbn; lia || auto.
Qed.

(** So each error on fewer than a third of the qubits is corrected. *)
Theorem C58_line : forall n E syndrome, 1 <= n -> length syndrome = n ->
  explains n (line n) E (bits syndrome) -> 3 * length (chosen_edges (S n) E) < S n ->
  exists u u' corr, new_ugraph n (line n) = Ok u /\
    uf_decode (2 * S n + 1) [] syndrome u = Ok (u', corr) /\ explains n (line n) (bits corr) (bits syndrome) /\
    forall i, i < S n -> bits corr i = E i.
Proof.
  intros n E syn N LS EX B.
  destruct (new_ugraph_ready n (line n) (line_formed n N)) as (u & O & _).
  destruct (C58_few_errors n (line n) u u first_edge (S n) [] E syn) as (u' & corr & X & LC & CX & F); auto.
  - apply line_formed; auto.
  - constructor.
  - apply line_distance; auto.
  - intros i [].
  - rewrite line_length by auto.
    replace (chosen_edges (S n) (unseen [] E)) with (chosen_edges (S n) E); [cbn [nodup length]; lia|].
    unfold chosen_edges. apply filter_ext. intros i. unfold unseen. cbn. rewrite andb_true_r. auto.
  - exists u, u', corr. rewrite line_length in * by auto. split; auto. split; auto. split; auto.
    (* the bits of the edges agree from the first one on *)
    rewrite !parity_chosen in F.
    assert (P0 : forall sel, parity (map (fun i => sel i && first_edge i) (seq 0 (S n))) = sel 0).
    { intros sel. rewrite (parity_one _ 0); [cbn; apply andb_true_r|apply seq_NoDup|apply in_seq; lia|].
      intros i _ D. unfold first_edge. apply Nat.eqb_neq in D. rewrite D. apply andb_false_r. }
    rewrite !P0 in F. intros i. induction i as [|i IH]; intros L; auto.
    assert (BV : forall sel, boundary (line n) sel i = xorb (sel i) (sel (S i))).
    { intros sel. unfold boundary. rewrite line_length by auto. 
      rewrite (parity_two _ i (S i)); [|apply seq_NoDup|apply in_seq; lia|apply in_seq; lia|lia|].
      - assert (IN : forall j, j = i \/ j = S i -> incident (line n) j i = true).
        { intros j J. unfold incident. rewrite line_edge by lia. apply existsb_exists. exists i. rewrite Nat.eqb_refl. split; auto.
          destruct (Nat.eqb_spec j 0); [left; lia|]. destruct (Nat.eqb_spec j n); [left; lia|].
          destruct J; [right; left|left]; lia. }
        rewrite !IN, !andb_true_r by auto. auto.
      - intros j J D1 D2. apply in_seq in J. replace (incident (line n) j i) with false; [apply andb_false_r|].
        symmetry. unfold incident. rewrite line_edge by lia.
        destruct (Nat.eqb_spec j 0); [cbn; destruct i; [lia|auto]|].
        destruct (Nat.eqb_spec j n); cbn [existsb]; rewrite ?orb_false_r.
        + apply Nat.eqb_neq. lia.
        + apply orb_false_iff. split; apply Nat.eqb_neq; lia. }
    specialize (EX i). specialize (CX i). rewrite BV in EX, CX. 
    assert (Y : xorb (bits corr i) (bits corr (S i)) = xorb (E i) (E (S i))) by (rewrite EX, CX by lia; auto).
    rewrite IH in Y by lia. destruct (E i), (bits corr (S i)), (E (S i)); auto; discriminate.
Qed.
Print Assumptions C58_line.

(** Half of the distance is not enough: seven errors on fifteen qubits are decoded to the wrong
    correction, with eight edges, although the distance is fifteen. *)
Definition seven_errors (i : nat) : bool := existsb (Nat.eqb i) [1; 3; 4; 7; 10; 11; 13].
Theorem C58_half_distance_refuted : exists n edges logical d E syndrome u u' corr,
  well_formed n edges /\ distance_at_least n edges logical (fun _ => 1) d /\
  explains n edges E (bits syndrome) /\ 2 * length (chosen_edges (length edges) E) < d /\
  new_ugraph n edges = Ok u /\ length syndrome = n /\
  uf_decode (2 * length edges + 1) [] syndrome u = Ok (u', corr) /\
  flips_logical (length edges) logical (bits corr) <> flips_logical (length edges) logical E.
Proof.
  exists 14, (line 14), first_edge, 15, seven_errors, (map (boundary (line 14) seven_errors) (seq 0 14)).
  eexists. eexists. eexists.
  split; [apply line_formed; lia|]. split; [apply line_distance; lia|].
  split. { intros v L. unfold bits. do 14 (destruct v as [|v]; [vm_compute; reflexivity|]). lia. }
  split; [vm_compute; lia|]. split; [vm_compute; reflexivity|]. split; [vm_compute; reflexivity|].
  split; [vm_compute; reflexivity|]. vm_compute. discriminate.
Qed.
Print Assumptions C58_half_distance_refuted.

(** Four errors on thirteen qubits; and two errors with two erased edges, for the second call of
    an object. *)
Definition four_errors (i : nat) : bool := existsb (Nat.eqb i) [0; 3; 4; 9].
Example C58_example : (do u <- new_ugraph 12 (line 12);
  do r <- uf_decode 27 [] (map (boundary (line 12) four_errors) (seq 0 12)) u; Ok (nonzero (snd r))) = Ok [0; 3; 4; 9].
Proof. vm_compute. reflexivity. Qed.
Example C58_example_reused : (do u <- new_ugraph 12 (line 12);
  do r <- uf_decode 27 [] (map (boundary (line 12) seven_errors) (seq 0 12)) u;
  do r <- uf_decode 27 [2; 3; 4] (map (boundary (line 12) four_errors) (seq 0 12)) (fst r); Ok (nonzero (snd r))) = Ok [0; 3; 4; 9].
Proof. vm_compute. reflexivity. Qed.
(** Edges with weights. *)
Example C58_example_weights : growth_length 2 (1#2) (3#4) = 6 /\ growth_length 2 (1#2) 0 = 1 /\ growth_length 2 1 1 = 4 /\
  (do u <- new_ugraph 12 (line 12);
   do u <- set_weights 2 (repeat 1%Q 13) u;
   do r <- uf_decode 100 [] (map (boundary (line 12) four_errors) (seq 0 12)) u; Ok (nonzero (snd r))) = Ok [0; 3; 4; 9].
Proof. vm_compute. auto. Qed.
