(** Results of minimum cost in each component: their cost in the whole syndrome graph, and their
    effect on logical operators. *)
Require Import List Bool Arith ZArith QArith Lqa Lia Relations Permutation.
From Verif Require Import Base BaseProofs QSpec PauliModel PauliAlg GraphSpec GraphProofs
  LatticeSpec GeneratorSpec SyngraphModel SyngraphBuild SyngraphProofs SyngraphErrors SyngraphFinal UnionFindMetric
  Props_Syngraph DecoderSpec DecoderModel DecoderProofs DecoderHistory DecoderDistance FaultSpec DecoderFaults
  MatchingModel MatchingSpec MatchingComp.
Import ListNotations.
Open Scope nat_scope.
Local Arguments incident : simpl never.

(** * Sums *)
Section Sums.
Context {A : Type}.
Implicit Types (f g : A -> Q) (l : list A).

Lemma qsum_cons f a l : qsum f (a :: l) = (f a + qsum f l)%Q.
Proof. reflexivity. Qed.
Lemma qsum_app f l l' : (qsum f (l ++ l') == qsum f l + qsum f l')%Q.
Proof. induction l as [|a l IH]; cbn [app]; rewrite ?qsum_cons; [cbn [qsum fold_right]; lra|]. rewrite IH. lra. Qed.
Lemma qsum_perm f l l' : Permutation l l' -> (qsum f l == qsum f l')%Q.
Proof. induction 1; rewrite ?qsum_cons; try lra. Qed.
Lemma qsum_plus f g l : (qsum (fun a => f a + g a) l == qsum f l + qsum g l)%Q.
Proof. induction l as [|a l IH]; rewrite ?qsum_cons; [cbn [qsum fold_right]; lra|]. rewrite IH. lra. Qed.
Lemma qsum_times c f l : (qsum (fun a => c * f a) l == c * qsum f l)%Q.
Proof. induction l as [|a l IH]; rewrite ?qsum_cons; [cbn [qsum fold_right]; lra|]. rewrite IH. lra. Qed.
Lemma qsum_le f g l : (forall a, In a l -> f a <= g a)%Q -> (qsum f l <= qsum g l)%Q.
Proof.
  induction l as [|a l IH]; intros H; rewrite ?qsum_cons; [cbn; lra|]. pose proof (H a (or_introl eq_refl)).
  assert (qsum f l <= qsum g l)%Q by (apply IH; intros; apply H; right; auto). lra.
Qed.
Lemma qsum_zero f l : (forall a, In a l -> f a == 0)%Q -> (qsum f l == 0)%Q.
Proof. intros H. induction l as [|a l IH]; rewrite ?qsum_cons; [cbn; lra|]. rewrite H by (left; auto). rewrite IH by (intros; apply H; right; auto). lra. Qed.
Lemma qsum_nonneg f l : (forall a, In a l -> 0 <= f a)%Q -> (0 <= qsum f l)%Q.
Proof. intros H. rewrite <- (qsum_zero (fun _ => 0%Q) l) by reflexivity. apply qsum_le. auto. Qed.
Lemma qsum_filter f (p : A -> bool) l : (qsum f (filter p l) == qsum (fun a => if p a then f a else 0) l)%Q.
Proof. induction l as [|a l IH]; rewrite ?qsum_cons; [reflexivity|]. cbn [filter]. destruct (p a); rewrite ?qsum_cons, IH; lra. Qed.
End Sums.
Lemma qsum_map {A B} (f : B -> Q) (h : A -> B) l : qsum f (map h l) = qsum (fun a => f (h a)) l.
Proof. induction l as [|a l IH]; auto. cbn [map]. rewrite !qsum_cons, IH. auto. Qed.
Lemma qsum_flat_map {A B} (f : B -> Q) (h : A -> list B) l : (qsum f (flat_map h l) == qsum (fun a => qsum f (h a)) l)%Q.
Proof. induction l as [|a l IH]; [reflexivity|]. cbn [flat_map]. rewrite qsum_app, qsum_cons, IH. reflexivity. Qed.
Lemma qsum_swap {A B} (f : A -> B -> Q) l l' : (qsum (fun a => qsum (f a) l') l == qsum (fun b => qsum (fun a => f a b) l) l')%Q.
Proof.
  induction l as [|a l IH]; rewrite ?qsum_cons; [symmetry; apply qsum_zero; reflexivity|]. rewrite IH, <- qsum_plus. reflexivity.
Qed.

Lemma qsum_part (f : nat -> Q) l m : NoDup l -> (forall i, In i l -> i < m) -> (forall i, i < m -> (0 <= f i)%Q) -> (qsum f l <= qsum f (seq 0 m))%Q.
Proof.
  intros ND B P. rewrite <- (qsum_perm f _ _ (part_perm l m ND B)), qsum_filter. apply qsum_le. intros i I. apply in_seq in I.
  destruct (existsb (Nat.eqb i) l); [lra|]. apply P. lia.
Qed.
Lemma qsum_sub (f : nat -> Q) l m : NoDup l -> (forall i, In i l -> i < m) -> (forall i, i < m -> ~ In i l -> (f i == 0)%Q) ->
  (qsum f (seq 0 m) == qsum f l)%Q.
Proof.
  intros ND B Z. rewrite <- (qsum_perm f _ _ (part_perm l m ND B)), qsum_filter. apply qsum_ext. intros i I. apply in_seq in I.
  destruct (existsb (Nat.eqb i) l) eqn:X; [reflexivity|]. apply Z; [lia|]. intros J. apply existsb_in in J. congruence.
Qed.
Lemma qsum_nth {A} (f : A -> Q) l d : qsum f l = qsum (fun j => f (nth j l d)) (seq 0 (length l)).
Proof. rewrite <- (qsum_map f (fun j => nth j l d)), <- (map_nth_seq (fun x => x) l d), map_id. auto. Qed.

Lemma nodup_flat {A B} (h : A -> list B) l : (forall a, In a l -> NoDup (h a)) ->
  (forall i j a b x, nth_error l i = Some a -> nth_error l j = Some b -> In x (h a) -> In x (h b) -> i = j) -> NoDup (flat_map h l).
Proof.
  induction l as [|a l IH]; intros N D; cbn [flat_map]; [constructor|].
  assert (NL : NoDup (flat_map h l)).
  { apply IH; [intros; apply N; right; auto|]. intros i j b c x X Y I J. assert (Q : S i = S j) by (apply (D (S i) (S j) b c x); auto). lia. }
  assert (NA : NoDup (h a)) by (apply N; left; auto).
  assert (DD : forall x, In x (h a) -> ~ In x (flat_map h l)).
  { intros x I J. apply in_flat_map in J. destruct J as (b & Ib & Jb). apply In_nth_error in Ib. destruct Ib as (j & Ej).
    assert (Q : 0 = S j) by (apply (D 0 (S j) a b x); auto). discriminate. }
  revert NA DD. induction (h a) as [|x r IHr]; intros NA DD; auto. cbn [app]. inversion NA; subst. constructor.
  - intros J. apply in_app_or in J. destruct J as [J|J]; auto. apply (DD x); auto. left; auto.
  - apply IHr; auto. intros y I. apply DD. right; auto.
Qed.

(** * One graph *)
Section G.
Variables (rounds n : nat) (gens : list row) (w : option warg) (g : sgraph).
Hypothesis U : uses rounds n gens w g.
Notation m := (length (sg_ends g)).
Notation on i := (nth i (sg_on g) false).

Lemma comp_edge k i : In k (sg_comps g) -> In i (k_eidx k) ->
  i < m /\ on i = true /\ exists v, In v (k_vidx k) /\ v < length (sg_verts g) /\ In v (nth i (sg_ends g) []).
Proof.
  intros I J. destruct (C50_components _ _ _ _ _ U) as (_ & CK & _).
  destruct (CK k I) as (_ & _ & _ & VB & _ & EI & _). apply EI in J. destruct J as (A & v & Iv & Ie). split; [|split; eauto].
  destruct (Nat.lt_ge_cases i m); auto. rewrite nth_overflow in Ie by auto. destruct Ie.
Qed.

Lemma comp_same c c' k k' i : nth_error (sg_comps g) c = Some k -> nth_error (sg_comps g) c' = Some k' ->
  In i (k_eidx k) -> In i (k_eidx k') -> c = c'.
Proof.
  intros C C' I I'. destruct (C50_components _ _ _ _ _ U) as (CV & CK & _).
  pose proof (nth_error_In _ _ C) as Ik. pose proof (nth_error_In _ _ C') as Ik'.
  assert (X : forall k, In k (sg_comps g) -> In i (k_eidx k) -> forall v, In v (nth i (sg_ends g) []) -> In v (k_vidx k)).
  { intros k0 J0 J1 v Iv. destruct (CK k0 J0) as (_ & _ & _ & _ & _ & _ & EN0 & WF0 & LE0 & EE0 & _).
    apply (In_nth _ _ 0) in J1. destruct J1 as (j & Lj & <-). rewrite <- EE0 in Iv by auto. apply in_map_iff in Iv.
    destruct Iv as (p & <- & Ip). apply nth_In. rewrite <- EN0.
    destruct (WF0 (nth j (k_edges k0) [])) as [(a & Ea & La)|(a & b & Ea & _ & La & Lb)]; [apply nth_In; lia| |];
      rewrite Ea in Ip; cbn in Ip; intuition (subst; auto). }
  destruct (comp_edge k i Ik I) as (_ & _ & v & Iv & Lv & Ie). destruct (CV v Lv) as (c0 & _ & Q).
  assert (c = c0) by (apply (Q c k C); auto). assert (c' = c0) by (apply (Q c' k' C'); eauto). congruence.
Qed.

Definition comp_edges : list nat := flat_map k_eidx (sg_comps g).
Lemma comp_edges_nodup : NoDup comp_edges.
Proof.
  destruct (C50_components _ _ _ _ _ U) as (_ & CK & _). apply nodup_flat.
  - intros k I. apply (CK k I).
  - intros i j a b x X Y I J. eapply comp_same; eauto.
Qed.
Lemma comp_edges_lt i : In i comp_edges -> i < m.
Proof. intros I. apply in_flat_map in I. destruct I as (k & Ik & J). apply (comp_edge k i Ik J). Qed.

(** ** The part of the graph which matters *)
Variable rel : nat -> bool.
Hypothesis REL : forall i j v, i < m -> j < m -> In v (nth i (sg_ends g) []) -> In v (nth j (sg_ends g) []) -> rel i = rel j.

Lemma comp_rel k i j : In k (sg_comps g) -> In i (k_eidx k) -> In j (k_eidx k) -> rel i = rel j.
Proof.
  intros Ik I J. destruct (comp_edge k i Ik I) as (Li & Ai & u & Iu & Lu & Eu). destruct (comp_edge k j Ik J) as (Lj & Aj & v & Iv & Lv & Ev).
  destruct (C50_components _ _ _ _ _ U) as (_ & CK & _).
  destruct (CK k Ik) as (_ & _ & _ & _ & CO & _).
  assert (X : forall a b, connected (sg_ends g) (active g) a b -> (exists e, e < m /\ In a (nth e (sg_ends g) []) /\ rel e = rel i) ->
    exists e, e < m /\ In b (nth e (sg_ends g) []) /\ rel e = rel i).
  { induction 1 as [a b (e & Ae & EE)|a|a b c _ IH1 _ IH2]; auto. intros (e' & Le' & Ie' & Re').
    assert (Le : e < m) by (destruct EE as [EE|EE]; apply nth_error_Some; congruence).
    assert (In a (nth e (sg_ends g) []) /\ In b (nth e (sg_ends g) [])) as [Ia Ib].
    { destruct EE as [EE|EE]; rewrite (nth_error_nth _ _ _ EE); cbn; auto. }
    exists e. split; auto. split; auto. rewrite <- Re'. apply (REL e e' a); auto. }
  destruct (X u v) as (e & Le & Ie & Re); [apply CO; auto|exists i; auto|]. rewrite <- Re. symmetry. apply (REL j e v); auto.
Qed.

(** ** Minimum cost in each component *)
Variables (syn : nat -> bool) (res : nat -> bool) (a b : nat -> Q).
Hypothesis OUTSIDE : forall i, ~ In i comp_edges -> res i = false.
Hypothesis MIN : forall k, In k (sg_comps g) -> forall sel,
  explains (k_n k) (k_edges k) sel (fun p => syn (nth p (k_vidx k) 0)) ->
  (qsum (fun j => if res (nth j (k_eidx k) 0%nat) then a (nth j (k_eidx k) 0%nat) else 0) (seq 0 (length (k_eidx k))) <=
   qsum (fun j => if sel j then b (nth j (k_eidx k) 0%nat) else 0) (seq 0 (length (k_eidx k))))%Q.
Hypothesis POS : forall i, i < m -> (0 <= b i)%Q.

Lemma cost_active sel : (forall i, sel i = true -> active g i) -> explains (length (sg_verts g)) (sg_ends g) sel syn ->
  (qsum (fun i => if rel i && res i then a i else 0) (seq 0 m) <= qsum (fun i => if rel i && sel i then b i else 0) (seq 0 m))%Q.
Proof.
  intros AC EX. destruct (C50_components _ _ _ _ _ U) as (_ & CK & CE). pose proof (proj1 (CE sel syn AC) EX) as LOC.
  rewrite (qsum_sub _ comp_edges m comp_edges_nodup comp_edges_lt).
  - eapply Qle_trans; [|apply (qsum_part _ comp_edges m comp_edges_nodup comp_edges_lt)].
    + unfold comp_edges. rewrite !qsum_flat_map. apply qsum_le. intros k Ik. specialize (MIN k Ik _ (LOC k Ik)).
      rewrite (qsum_nth (fun i => if rel i && res i then a i else 0%Q) (k_eidx k) 0), (qsum_nth (fun i => if rel i && sel i then b i else 0%Q) (k_eidx k) 0).
      destruct (k_eidx k) as [|e0 r] eqn:EE; [apply Qle_refl|]. rewrite <- EE in *.
      assert (I0 : In e0 (k_eidx k)) by (rewrite EE; left; auto).
      assert (RR : forall j, In j (seq 0 (length (k_eidx k))) -> rel (nth j (k_eidx k) 0) = rel e0).
      { intros j J. apply in_seq in J. apply (comp_rel k); auto. apply nth_In. lia. }
      destruct (rel e0) eqn:R0.
      * eapply Qle_trans; [|eapply Qle_trans; [exact MIN|]]; apply Qle_lteq; right; apply qsum_ext; intros j J; rewrite RR by auto; reflexivity.
      * rewrite (qsum_zero (fun j => if rel (nth j (k_eidx k) 0) && res _ then _ else _)) by (intros j J; rewrite RR by auto; reflexivity).
        apply qsum_nonneg. intros j J. rewrite RR by auto. cbn. lra.
    + intros i L. destruct (rel i && sel i); [auto|lra].
  - intros i L NI. rewrite OUTSIDE by auto. rewrite andb_false_r. reflexivity.
Qed.

(** ** Other errors with the same syndrome *)
Hypothesis NI : forall i, i < m -> weight_of g i <> Inf true.

Lemma representative : exists r : nat -> nat, forall j, j < m -> is_inf (weight_of g j) = false ->
  r j < m /\ on (r j) = true /\ (on j = true -> r j = j) /\
  (forall v, In v (nth j (sg_ends g) []) <-> In v (nth (r j) (sg_ends g) [])) /\ wlt (weight_of g j) (weight_of g (r j)) = false.
Proof.
  apply (finite_choice (fun j i => is_inf (weight_of g j) = false -> i < m /\ on i = true /\ (on j = true -> i = j) /\
    (forall v, In v (nth j (sg_ends g) []) <-> In v (nth i (sg_ends g) [])) /\ wlt (weight_of g j) (weight_of g i) = false)). intros j Lj.
  destruct (is_inf (weight_of g j)) eqn:FJ; [exists 0; discriminate|].
  destruct (nth j (sg_ends g) []) as [|x e] eqn:EJ.
  - exists j. intros _. split; auto. split; [|split; [auto|]; split; [rewrite EJ; tauto|apply SyngraphDup.wlt_irrefl]].
    apply (C31_parallel _ _ _ _ _ U j Lj). split; auto. intros i _ _ [X _]. congruence.
  - assert (PJ : parallel g j j) by (split; [rewrite EJ; discriminate|tauto]).
    destruct (C31_one _ _ _ _ _ U j) as (i & Li & [P1 P2] & A & Q & L & _); auto; [congruence|].
    exists i. intros _. split; auto. split; auto. rewrite <- EJ. split; [|split; auto].
    intros X. symmetry. apply Q; auto.
Qed.

Variable E : nat -> bool.
Hypothesis EF : forall i, i < m -> E i = true -> is_inf (weight_of g i) = false.
Variable r : nat -> nat.
Hypothesis REPR : forall j, j < m -> is_inf (weight_of g j) = false ->
  r j < m /\ on (r j) = true /\ (on j = true -> r j = j) /\
  (forall v, In v (nth j (sg_ends g) []) <-> In v (nth (r j) (sg_ends g) [])) /\ wlt (weight_of g j) (weight_of g (r j)) = false.

Definition shifted (i : nat) : bool := parity (map (fun j => E j && (r j =? i)) (seq 0 m)).

Lemma shifted_sum (h : nat -> bool) : parity (map (fun i => shifted i && h i) (seq 0 m)) = parity (map (fun j => E j && h (r j)) (seq 0 m)).
Proof.
  unfold shifted. rewrite (parity_ext _ (fun i => parity (map (fun j => h i && (E j && (r j =? i))) (seq 0 m)))).
  - rewrite parity_swap. apply parity_ext. intros j I. apply in_seq in I. destruct (E j) eqn:Ej.
    + destruct (REPR j ltac:(lia) (EF j ltac:(lia) Ej)) as (L & _). rewrite (parity_one _ (r j)).
      * rewrite Nat.eqb_refl, andb_true_r. auto.
      * apply seq_NoDup.
      * apply in_seq. lia.
      * intros i _ D. rewrite (proj2 (Nat.eqb_neq (r j) i)) by auto. rewrite !andb_false_r. auto.
    + apply parity_false. intros i _. apply andb_false_r.
  - intros i _. rewrite parity_and. apply andb_comm.
Qed.

Lemma shifted_boundary v : boundary (sg_ends g) shifted v = boundary (sg_ends g) E v.
Proof.
  unfold boundary. rewrite (shifted_sum (fun i => incident (sg_ends g) i v)). apply parity_ext. intros j I. apply in_seq in I.
  destruct (E j) eqn:Ej; auto. cbn [andb]. apply eq_true_iff_eq. rewrite !incident_in. symmetry. apply REPR; [lia|apply EF; auto; lia].
Qed.

Lemma shifted_active i : shifted i = true -> active g i.
Proof.
  intros X. destruct (on i) eqn:A; auto. exfalso. assert (F : true = false); [|discriminate]. rewrite <- X. apply parity_false. intros j I. apply in_seq in I.
  destruct (E j) eqn:Ej; auto. destruct (Nat.eqb_spec (r j) i) as [<-|]; auto. destruct (REPR j ltac:(lia) (EF j ltac:(lia) Ej)) as (_ & B & _). congruence.
Qed.

Lemma shifted_cost (h : nat -> Q) : (forall i, i < m -> (0 <= h i)%Q) ->
  (qsum (fun i => if shifted i then h i else 0) (seq 0 m) <= qsum (fun j => if E j then h (r j) else 0) (seq 0 m))%Q.
Proof.
  intros P. unfold shifted.
  assert (X : forall l, (forall j, In j l -> j < m) ->
    (qsum (fun i => if parity (map (fun j => E j && (r j =? i)) l) then h i else 0) (seq 0 m) <= qsum (fun j => if E j then h (r j) else 0) l)%Q).
  { induction l as [|j l IH]; intros B; [rewrite qsum_zero by reflexivity; cbn; lra|].
    rewrite qsum_cons. assert (IH' := IH ltac:(intros; apply B; right; auto)). clear IH.
    apply Qle_trans with (qsum (fun i => (if E j && (r j =? i) then h i else 0) + (if parity (map (fun j => E j && (r j =? i)) l) then h i else 0)) (seq 0 m))%Q.
    - apply qsum_le. intros i I. apply in_seq in I. pose proof (P i ltac:(lia)).
      change (parity (map (fun j => E j && (r j =? i)) (j :: l))) with (xorb (E j && (r j =? i)) (parity (map (fun j => E j && (r j =? i)) l))).
      destruct (E j && (r j =? i)), (parity _); cbn [xorb]; lra.
    - rewrite qsum_plus. apply Qplus_le_compat; auto. destruct (E j) eqn:Ej.
      + destruct (REPR j ltac:(apply B; left; auto) (EF j ltac:(apply B; left; auto) Ej)) as (L & _).
        rewrite (qsum_sub _ [r j]).
        * rewrite qsum_cons. cbn [andb]. rewrite Nat.eqb_refl. cbn. lra.
        * constructor; [intros []|constructor].
        * intros i [<-|[]]. auto.
        * intros i _ N. cbn [andb]. rewrite (proj2 (Nat.eqb_neq (r j) i)) by (intros Z; apply N; left; auto). reflexivity.
      + rewrite qsum_zero; [lra|]. intros i _. reflexivity. }
  apply X. intros j I. apply in_seq in I. lia.
Qed.

Hypothesis BR : forall j, j < m -> E j = true -> (b (r j) <= b j)%Q.
Hypothesis EX : forall v, v < length (sg_verts g) -> boundary (sg_ends g) E v = syn v.

Lemma rel_r j : j < m -> is_inf (weight_of g j) = false -> rel (r j) = rel j.
Proof.
  intros L F. destruct (REPR j L F) as (Lr & _ & K & V & _). destruct (nth j (sg_ends g) []) as [|x e] eqn:EJ.
  - rewrite K; auto. apply (C31_parallel _ _ _ _ _ U j L). split; auto. intros i _ _ [X _]. congruence.
  - apply (REL (r j) j x); auto; [apply V|rewrite EJ]; left; auto.
Qed.

Theorem cost_bound :
  (qsum (fun i => if rel i && res i then a i else 0) (seq 0 m) <= qsum (fun i => if rel i && E i then b i else 0) (seq 0 m))%Q.
Proof.
  eapply Qle_trans; [apply (cost_active shifted)|].
  - apply shifted_active.
  - intros v Lv. rewrite shifted_boundary. auto.
  - apply Qle_trans with (qsum (fun i => if shifted i then (if rel i then b i else 0) else 0)%Q (seq 0 m)).
    + apply qsum_le. intros i _. destruct (rel i), (shifted i); cbn; lra.
    + eapply Qle_trans; [apply (shifted_cost (fun i => if rel i then b i else 0%Q))|].
      * intros i L. destruct (rel i); [auto|lra].
      * apply qsum_le. intros j I. apply in_seq in I. destruct (E j) eqn:Ej; [|rewrite andb_false_r; lra].
        rewrite rel_r by (auto; try lia; apply EF; auto; lia). destruct (rel j); cbn [andb]; [apply BR; auto; lia|lra].
Qed.

End G.

(** ** Logical operators *)
Section F.
Variables (g : sgraph) (rel : nat -> bool).
Notation m := (length (sg_ends g)).
Hypothesis REL : forall i j v, i < m -> j < m -> In v (nth i (sg_ends g) []) -> In v (nth j (sg_ends g) []) -> rel i = rel j.
Variables (syn res E : nat -> bool).
Hypothesis EF : forall i, i < m -> E i = true -> is_inf (weight_of g i) = false.
Hypothesis EX : forall v, v < length (sg_verts g) -> boundary (sg_ends g) E v = syn v.
Variables (flips : nat -> bool) (D : Q) (c : nat -> Q).
Hypothesis FREL : forall i, i < m -> flips i = true -> rel i = true.
Hypothesis RF : forall i, i < m -> res i = true -> is_inf (weight_of g i) = false.
Hypothesis DIST : forall sel, (forall i, i < m -> sel i = true -> is_inf (weight_of g i) = false) ->
  (forall v, v < length (sg_verts g) -> boundary (sg_ends g) sel v = false) ->
  parity (map (fun i => sel i && flips i) (seq 0 m)) = true -> (D <= qsum (fun i => if sel i then c i else 0) (seq 0 m))%Q.
Hypothesis RX : forall v, v < length (sg_verts g) -> boundary (sg_ends g) res v = syn v.

Theorem same_flips : (qsum (fun i => if rel i && xorb (res i) (E i) then c i else 0) (seq 0 m) < D)%Q ->
  parity (map (fun i => res i && flips i) (seq 0 m)) = parity (map (fun i => E i && flips i) (seq 0 m)).
Proof.
  intros LT. set (x := fun i => rel i && xorb (res i) (E i)) in *.
  destruct (Bool.bool_dec (parity (map (fun i => res i && flips i) (seq 0 m))) (parity (map (fun i => E i && flips i) (seq 0 m)))) as [|N]; auto. exfalso.
  apply Qlt_not_le in LT. apply LT. apply (DIST x).
  - intros i Li X. unfold x in X. apply andb_true_iff in X. destruct X as [_ X]. destruct (res i) eqn:R; [apply RF; auto|]. rewrite xorb_false_l in X. apply EF; auto.
  - intros v Lv. unfold boundary.
    assert (X : xorb (boundary (sg_ends g) res v) (boundary (sg_ends g) E v) = false) by (rewrite RX, EX by auto; apply xorb_nilpotent).
    unfold boundary in X. rewrite <- parity_xor in X.
    (* all edges of the vertex are relevant, or none *)
    destruct (existsb (fun i => incident (sg_ends g) i v && rel i) (seq 0 m)) eqn:R.
    + apply existsb_exists in R. destruct R as (i0 & I0 & R0). apply in_seq in I0. apply andb_true_iff in R0. destruct R0 as [R0 R1]. apply incident_in in R0.
      rewrite <- X. apply parity_ext. intros i I. apply in_seq in I. unfold x.
      destruct (incident (sg_ends g) i v) eqn:IC; [|rewrite !andb_false_r; auto].
      rewrite (REL i i0 v), R1; [|lia|lia|apply incident_in; auto|auto]. cbn [andb]. destruct (res i), (E i); auto.
    + apply parity_false. intros i I. pose proof (DecoderObjects.existsb_false _ _ R i I) as Z. unfold x. cbn beta in Z.
      destruct (incident (sg_ends g) i v); [|apply andb_false_r]. cbn [andb] in Z. rewrite Z. auto.
  - rewrite (parity_ext _ (fun i => xorb (res i && flips i) (E i && flips i))).
    + rewrite parity_xor. destruct (parity _), (parity _); auto; congruence.
    + intros i I. apply in_seq in I. unfold x. destruct (flips i) eqn:F; [|rewrite !andb_false_r; auto].
      rewrite (FREL i ltac:(lia) F). cbn [andb]. rewrite !andb_true_r. auto.
Qed.
End F.
