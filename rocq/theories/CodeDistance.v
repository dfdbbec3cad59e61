(** Disjoint representatives of the logical operators of the built-in codes. *)
Require Import List Bool Arith ZArith Lia String.
From Verif Require Import Base BaseProofs QSpec PauliModel PauliAlg LatticeModel CodesModel CodesSpec LatticeSpec LatticeOps BuildProofs CodesProofs
  PlanarProofs RotatedProofs ToricProofs RepetitionProofs GraphSpec GraphProofs UnionFindMetric GraphCuts SyngraphFinal GraphlikeCodes FaultSpec.
From Verif Require GeneratorSpec.
Import ListNotations.
Local Open Scope nat_scope.
Local Open Scope list_scope.
Ltac Zify.zify_post_hook ::= Z.to_euclidean_division_equations.

(** * Distances *)
Lemma sp_xor_l a b c : sp (pxor a b) c = xorb (sp a c) (sp b c).
Proof. destruct a as [[] []], b as [[] []], c as [[] []]; reflexivity. Qed.

Lemma anti_parity_l D (h : nat -> nat -> bool * bool) (c : nat -> bool) P l :
  anti D (fun q => (parity (map (fun s => c s && fst (h s q)) l), parity (map (fun s => c s && snd (h s q)) l))) P =
  parity (map (fun s => c s && anti D (h s) P) l).
Proof.
  induction l as [|s l IH].
  - apply anti_zero. intros q _. reflexivity.
  - cbn [map parity fold_right]. change (fold_right xorb false (map (fun s => c s && anti D (h s) P) l)) with (parity (map (fun s => c s && anti D (h s) P) l)).
    rewrite <- IH. rewrite <- (LatticeOps.anti_ext D (fun q => pxor (c s && fst (h s q), c s && snd (h s q))
      (parity (map (fun s => c s && fst (h s q)) l), parity (map (fun s => c s && snd (h s q)) l))) P _ P); [|reflexivity|reflexivity].
    rewrite anti_xor_l. f_equal. destruct (c s); [apply LatticeOps.anti_ext; auto; intros q _; cbn; destruct (h s q); auto|].
    apply anti_zero. intros q _. reflexivity.
Qed.

Lemma representatives_distance n gens l d k0 (rep : nat -> nat -> bool * bool) (ch : nat -> nat -> bool) :
  k0 < d -> (forall q, q < n -> rep k0 q = l q) ->
  (forall k q, S k < d -> q < n -> pxor (rep k q) (rep (S k) q) =
    (parity (map (fun s => ch k s && fst (GeneratorSpec.fac (nth s gens row0) q)) (seq 0 (List.length gens))),
     parity (map (fun s => ch k s && snd (GeneratorSpec.fac (nth s gens row0) q)) (seq 0 (List.length gens))))) ->
  (forall k k' q, k < d -> k' < d -> q < n -> rep k q <> (false, false) -> rep k' q <> (false, false) -> k = k') ->
  logical_distance n gens l d.
Proof.
  intros L0 R0 ST DJ P CP AP.
  assert (STEP : forall k, S k < d -> anti (seq 0 n) (rep k) P = anti (seq 0 n) (rep (S k)) P).
  { intros k Lk. apply xorb_eq. rewrite <- anti_xor_l.
    rewrite (LatticeOps.anti_ext _ _ P (fun q => (parity (map (fun s => ch k s && fst (GeneratorSpec.fac (nth s gens row0) q)) (seq 0 (List.length gens))),
     parity (map (fun s => ch k s && snd (GeneratorSpec.fac (nth s gens row0) q)) (seq 0 (List.length gens))))) P); auto.
    - rewrite (anti_parity_l _ (fun s => GeneratorSpec.fac (nth s gens row0))). apply parity_false. intros s I. apply in_seq in I.
      rewrite CP by lia. apply andb_false_r.
    - intros q I. apply in_seq in I. apply ST; auto. lia. }
  assert (ALL : forall k, k < d -> anti (seq 0 n) (rep k) P = anti (seq 0 n) (rep 0) P).
  { induction k as [|k IH]; auto. intros Lk. rewrite <- STEP by auto. apply IH. lia. }
  assert (TR : forall k, k < d -> anti (seq 0 n) (rep k) P = true).
  { intros k Lk. rewrite ALL, <- (ALL k0) by auto. rewrite <- AP. apply LatticeOps.anti_ext; auto. intros q I. apply in_seq in I. apply R0. lia. }
  unfold operator_weight. apply (disjoint_count (fun k q => sp (rep k q) (P q))).
  - intros q k k' Lq Lk Lk' A B. apply (DJ k k' q); auto; intros Z; rewrite Z in *; cbn in *; discriminate.
  - intros k Lk. rewrite <- (TR k Lk). unfold anti. apply parity_ext. intros q _.
    destruct (P q) as [[] []], (rep k q) as [[] []]; reflexivity.
Qed.

(** * Positions *)
Lemma brow_fac vs es o q : q < List.length (dpos vs) -> GeneratorSpec.fac (brow vs es o) q = fac es o (nth q (dpos vs) (0, 0)%Z).
Proof. intros L. unfold GeneratorSpec.fac. cbn [brow ops]. rewrite (nth_indep _ _ (fac es o (0, 0)%Z)) by (rewrite map_length; auto). apply map_nth. Qed.

Definition at_pos (vs : list (kind * pos)) (o : nat) : pos := snd (nth o vs (KData, (0, 0)%Z)).

Lemma parity_at_most {A} (f : A -> bool) l e : NoDup l -> (forall x y, In x l -> In y l -> f x = true -> f y = true -> x = y) ->
  (e = true <-> exists x, In x l /\ f x = true) -> parity (map f l) = e.
Proof.
  intros N U [E1 E2]. destruct e.
  - destruct (E1 eq_refl) as (x & I & F). rewrite <- F. apply parity_one; auto. intros y J D. destruct (f y) eqn:G; auto. exfalso. apply D. apply U; auto.
  - apply parity_false. intros x I. destruct (f x) eqn:F; auto. symmetry. apply E2. eauto.
Qed.

Lemma positions_two vs (f : nat -> bool) p1 p2 e1 e2 : NoDup (map snd vs) -> p1 <> p2 ->
  (forall o g q, nth_error vs o = Some (KStab g, q) -> f o = true -> q = p1 \/ q = p2) ->
  (e1 = true <-> exists o g, nth_error vs o = Some (KStab g, p1) /\ f o = true) ->
  (e2 = true <-> exists o g, nth_error vs o = Some (KStab g, p2) /\ f o = true) ->
  parity (map f (stab_ids vs)) = xorb e1 e2.
Proof.
  intros N NE H H1 H2.
  assert (AT : forall o g q, nth_error vs o = Some (KStab g, q) -> at_pos vs o = q) by (intros o g q Q; unfold at_pos; rewrite (nth_error_nth _ _ _ Q); auto).
  rewrite (parity_ext _ (fun o => xorb (f o && pos_eqb (at_pos vs o) p1) (f o && pos_eqb (at_pos vs o) p2))).
  2: { intros o I. apply in_stab_ids in I. destruct I as (g & q & Q). destruct (f o) eqn:F; auto. cbn [andb]. rewrite (AT _ _ _ Q).
       destruct (H o g q Q F) as [-> | ->].
       - rewrite (proj2 (pos_eqb_eq p1 p1) eq_refl). destruct (pos_eqb p1 p2) eqn:X; auto. apply pos_eqb_eq in X. congruence.
       - rewrite (proj2 (pos_eqb_eq p2 p2) eq_refl). destruct (pos_eqb p2 p1) eqn:X; auto. apply pos_eqb_eq in X. congruence. }
  rewrite parity_xor.
  assert (ONE : forall p e, (e = true <-> exists o g, nth_error vs o = Some (KStab g, p) /\ f o = true) ->
    parity (map (fun o => f o && pos_eqb (at_pos vs o) p) (stab_ids vs)) = e).
  { intros p e E. apply parity_at_most.
    - apply NoDup_stab_ids.
    - intros x y I J A B. apply andb_true_iff in A, B. destruct A as [_ A], B as [_ B]. apply pos_eqb_eq in A, B.
      apply in_stab_ids in I, J. destruct I as (g & q & Q), J as (g' & q' & Q'). rewrite (AT _ _ _ Q) in A. rewrite (AT _ _ _ Q') in B. subst q q'.
      assert (Lx : x < List.length (map snd vs)) by (rewrite map_length; apply nth_error_Some; congruence).
      assert (Ly : y < List.length (map snd vs)) by (rewrite map_length; apply nth_error_Some; congruence).
      apply (proj1 (NoDup_nth (map snd vs) p) N); auto.
      rewrite (nth_error_nth (map snd vs) x p (x := p)) by (rewrite nth_error_map, Q; auto).
      rewrite (nth_error_nth (map snd vs) y p (x := p)) by (rewrite nth_error_map, Q'; auto). auto.
    - rewrite E. split.
      + intros (o & g & Q & F). exists o. split; [apply in_stab_ids; eauto|]. rewrite F, (AT _ _ _ Q), (proj2 (pos_eqb_eq p p) eq_refl). auto.
      + intros (o & I & F). apply andb_true_iff in F. destruct F as [F B]. apply pos_eqb_eq in B. apply in_stab_ids in I. destruct I as (g & q & Q).
        rewrite (AT _ _ _ Q) in B. subst q. eauto. }
  rewrite (ONE p1 e1 H1), (ONE p2 e2 H2). auto.
Qed.

(** Representatives given by positions of data qubits and chosen positions of generators. *)
Lemma position_distance vs es o d k0 (rep : nat -> pos -> bool * bool) (ch : nat -> pos -> bool) :
  k0 < d -> (forall p, In p (dpos vs) -> rep k0 p = fac es o p) ->
  (forall k p, S k < d -> In p (dpos vs) -> pxor (rep k p) (rep (S k) p) =
    (parity (map (fun s => ch k (at_pos vs s) && fst (fac es s p)) (stab_ids vs)),
     parity (map (fun s => ch k (at_pos vs s) && snd (fac es s p)) (stab_ids vs)))) ->
  (forall k k' p, k < d -> k' < d -> In p (dpos vs) -> rep k p <> (false, false) -> rep k' p <> (false, false) -> k = k') ->
  logical_distance (List.length (dpos vs)) (map (brow vs es) (stab_ids vs)) (GeneratorSpec.fac (brow vs es o)) d.
Proof.
  intros L0 R0 ST DJ.
  apply (representatives_distance _ _ _ d k0 (fun k q => rep k (nth q (dpos vs) (0, 0)%Z)) (fun k s => ch k (at_pos vs (nth s (stab_ids vs) 0)))); auto.
  - intros q Lq. rewrite brow_fac by auto. apply R0, nth_In; auto.
  - intros k q Lk Lq. rewrite ST by (auto; apply nth_In; auto). rewrite map_length.
    assert (MAP : forall (F : nat -> bool) (G : nat -> bool), (forall s, s < List.length (stab_ids vs) -> G s = F (nth s (stab_ids vs) 0)) ->
      parity (map F (stab_ids vs)) = parity (map G (seq 0 (List.length (stab_ids vs))))).
    { intros F G E. f_equal. apply (list_ext _ _ false); [rewrite !map_length, seq_length; auto|]. intros s L. rewrite map_length in L.
      rewrite (nth_map_seq G) by auto. rewrite E by auto. rewrite (nth_indep _ _ (F 0)) by (rewrite map_length; auto). apply map_nth. }
    assert (NT : forall s, s < List.length (stab_ids vs) -> nth s (map (brow vs es) (stab_ids vs)) row0 = brow vs es (nth s (stab_ids vs) 0)).
    { intros s L. rewrite (nth_indep _ _ (brow vs es 0)) by (rewrite map_length; auto). apply map_nth. }
    f_equal; apply MAP; intros s L; cbv beta; rewrite (NT s L), brow_fac by auto; auto.
  - intros k k' q Lk Lk' Lq. apply DJ; auto. apply nth_In; auto.
Qed.

Lemma brow_symp vs es a b : symp (ops (brow vs es a)) (ops (brow vs es b)) =
  anti (seq 0 (List.length (dpos vs))) (GeneratorSpec.fac (brow vs es a)) (GeneratorSpec.fac (brow vs es b)).
Proof.
  assert (M : forall o, ops (brow vs es o) = map (GeneratorSpec.fac (brow vs es o)) (seq 0 (List.length (dpos vs)))).
  { intros o. apply (list_ext _ _ (false, false)); [cbn; rewrite !map_length, seq_length; auto|]. intros q L. cbn [brow ops] in L. rewrite map_length in L.
    rewrite (nth_map_seq (GeneratorSpec.fac (brow vs es o))) by auto. reflexivity. }
  rewrite (M a), (M b). apply symp_anti.
Qed.

Lemma exact_positions vs es o o' d Ls : NoDup (map snd vs) ->
  logical_distance (List.length (dpos vs)) (map (brow vs es) (stab_ids vs)) (GeneratorSpec.fac (brow vs es o)) d ->
  (forall a, In a (stab_ids vs) -> symp (ops (brow vs es a)) (ops (brow vs es o')) = false) ->
  symp (ops (brow vs es o)) (ops (brow vs es o')) = true ->
  (forall p, In p (dpos vs) -> fac es o' p <> (false, false) -> In p Ls) -> List.length Ls <= d ->
  exact_distance (List.length (dpos vs)) (map (brow vs es) (stab_ids vs)) (GeneratorSpec.fac (brow vs es o)) d.
Proof.
  intros N LD CS CL SUP LL. split; auto. exists (GeneratorSpec.fac (brow vs es o')).
  assert (C : forall s, s < List.length (map (brow vs es) (stab_ids vs)) ->
    anti (seq 0 (List.length (dpos vs))) (GeneratorSpec.fac (nth s (map (brow vs es) (stab_ids vs)) row0)) (GeneratorSpec.fac (brow vs es o')) = false).
  { intros s L. rewrite map_length in L. rewrite (nth_indep _ _ (brow vs es 0)) by (rewrite map_length; auto). rewrite map_nth, <- brow_symp. apply CS, nth_In; auto. }
  assert (A : anti (seq 0 (List.length (dpos vs))) (GeneratorSpec.fac (brow vs es o)) (GeneratorSpec.fac (brow vs es o')) = true) by (rewrite <- brow_symp; auto).
  split; [auto|]. split; [auto|]. apply Nat.le_antisymm; [|apply LD; auto].
  transitivity (List.length Ls); auto. unfold operator_weight.
  set (l := filter _ _).
  rewrite <- (map_length (fun q => nth q (dpos vs) (0, 0)%Z) l). apply NoDup_incl_length.
  - assert (ND : NoDup (dpos vs)) by (apply nodup_dpos; auto).
    assert (NL : NoDup l) by (apply NoDup_filter, seq_NoDup). assert (IN : forall q, In q l -> q < List.length (dpos vs)) by (intros q I; apply filter_In in I; destruct I as [I _]; apply in_seq in I; lia).
    clearbody l. induction l as [|q l IH]; cbn [map]; [constructor|]. inversion NL as [|? ? NI NL']; subst. constructor.
    + intros I. apply in_map_iff in I. destruct I as (q' & E & I). apply NI. assert (q' = q) by (apply (proj1 (NoDup_nth _ (0, 0)%Z) ND) with (1 := IN q' (or_intror I)) (2 := IN q (or_introl eq_refl)); auto). subst. auto.
    + apply IH; auto. intros q' I. apply IN. right; auto.
  - intros p I. apply in_map_iff in I. destruct I as (q & <- & I). apply filter_In in I. destruct I as [I F]. apply in_seq in I.
    assert (Lq : q < List.length (dpos vs)) by lia. rewrite brow_fac in F by auto. apply SUP; [apply nth_In; auto|]. intros Z. rewrite Z in F. discriminate.
Qed.

(** The same with the generators and their letters given by positions. *)
Lemma chosen_two vs es (stab : group -> pos -> Prop) (letters : group -> pos -> bool * bool) (c : bool * bool -> bool) (ch : pos -> bool) p p1 p2 e1 e2 :
  NoDup (map snd vs) -> p1 <> p2 ->
  (forall g q, (exists o, nth_error vs o = Some (KStab g, q)) <-> stab g q) ->
  (forall o g q, nth_error vs o = Some (KStab g, q) -> fac es o p = letters g q) ->
  (forall g q, stab g q -> ch q = true -> c (letters g q) = true -> q = p1 \/ q = p2) ->
  (e1 = true <-> exists g, stab g p1 /\ ch p1 = true /\ c (letters g p1) = true) ->
  (e2 = true <-> exists g, stab g p2 /\ ch p2 = true /\ c (letters g p2) = true) ->
  parity (map (fun s => ch (at_pos vs s) && c (fac es s p)) (stab_ids vs)) = xorb e1 e2.
Proof.
  intros N NE ST FA TWO E1 E2.
  assert (AT : forall o g q, nth_error vs o = Some (KStab g, q) -> at_pos vs o = q) by (intros o g q Q; unfold at_pos; rewrite (nth_error_nth _ _ _ Q); auto).
  assert (CV : forall r e, (e = true <-> exists g, stab g r /\ ch r = true /\ c (letters g r) = true) ->
    (e = true <-> exists o g, nth_error vs o = Some (KStab g, r) /\ (ch (at_pos vs o) && c (fac es o p)) = true)).
  { intros r e E. rewrite E. split.
    - intros (g & SG & C1 & C2). apply ST in SG. destruct SG as (o & Q). exists o, g. split; auto. rewrite (AT _ _ _ Q), C1, (FA _ _ _ Q), C2. auto.
    - intros (o & g & Q & F). apply andb_true_iff in F. rewrite (AT _ _ _ Q), (FA _ _ _ Q) in F. exists g. split; [apply ST; eauto|tauto]. }
  apply (positions_two vs _ p1 p2); auto. intros o g q Q F. apply andb_true_iff in F. rewrite (AT _ _ _ Q), (FA _ _ _ Q) in F. apply (TWO g q); [apply ST; eauto|tauto|tauto].
Qed.
Lemma chosen_none vs es (c : bool * bool -> bool) (ch : pos -> bool) p : (forall o g q, nth_error vs o = Some (KStab g, q) -> ch q = true -> c (fac es o p) = false) ->
  parity (map (fun s => ch (at_pos vs s) && c (fac es s p)) (stab_ids vs)) = false.
Proof.
  intros H. apply parity_false. intros o I. apply in_stab_ids in I. destruct I as (g & q & Q). unfold at_pos. rewrite (nth_error_nth _ _ _ Q). cbn [snd].
  destruct (ch q) eqn:C; auto. cbn [andb]. eauto.
Qed.
Lemma stab_exists (vs : list (kind * pos)) g q : (exists o, nth_error vs o = Some (KStab g, q)) <-> In (KStab g, q) vs.
Proof. split; [intros (o & Q); eapply nth_error_In; eauto|apply In_nth_error]. Qed.

(** * The repetition code *)
Notation zn := Z.of_nat.
Lemma in_cstab d g i j : In (KStab g, (i, j)) (cvs d) <-> (g = GA /\ j = 0 /\ 1 <= i < 2 * d - 2 /\ i mod 2 = 1)%Z.
Proof.
  unfold cvs. rewrite in_app_iff, in_cgrid. unfold clog. cbn [In]. split.
  - intros [(-> & B & [[X _]|(X & M & L)])|[X|[X|[]]]]; try discriminate. injection X as ->. split; auto. split; auto. lia.
  - intros (-> & -> & B & M). left. split; auto. split; [lia|]. right. split; auto. lia.
Qed.
Theorem repetition_distance d : (2 <= d)%Z ->
  exact_distance (List.length (dpos (cvs d))) (c_stabs (repetition_code d)) (GeneratorSpec.fac (brow (cvs d) (ces d) (S (cn d)))) (Z.to_nat d).
Proof.
  intros D. apply (exact_positions _ _ _ (cn d) _ (map (fun i => (2 * zn i, 0)%Z : pos) (seq 0 (Z.to_nat d)))); try (rewrite map_length, seq_length; auto).
  - apply nodup_cvs; auto.
  - apply (position_distance _ _ _ _ (Z.to_nat d - 1) (fun k p => if (fst p =? 2 * zn k)%Z then (false, true) else (false, false)) (fun k q => (fst q =? 2 * zn k + 1)%Z)).
    + lia.
    + intros p P. rewrite cfac_z by auto. replace (2 * zn (Z.to_nat d - 1))%Z with (2 * d - 2)%Z by lia. auto.
    + intros k [i j] Lk P. pose proof P as P'. apply in_dpos, in_cdata in P'. destruct P' as (-> & B & M). cbn [fst].
      rewrite (chosen_none (cvs d) (ces d) fst (fun q => (fst q =? 2 * zn k + 1)%Z) (i, 0)%Z).
      * rewrite (chosen_two (cvs d) (ces d) (fun g q => g = GA /\ snd q = 0 /\ 1 <= fst q < 2 * d - 2 /\ fst q mod 2 = 1)%Z
          (fun g q => if (Z.abs (i - fst q) =? 1)%Z then (false, true) else (false, false)) snd (fun q => (fst q =? 2 * zn k + 1)%Z)
          (i, 0)%Z (i + 1, 0)%Z (i - 1, 0)%Z (i =? 2 * zn k)%Z (i =? 2 * zn (S k))%Z); [|apply nodup_cvs; auto|intros X; injection X; lia|..].
        -- destruct (i =? 2 * zn k)%Z, (i =? 2 * zn (S k))%Z; reflexivity.
        -- intros g [a b]. rewrite stab_exists, in_cstab. reflexivity.
        -- intros o g q Q. apply (cfac_stab d o g q _ Q P).
        -- intros g [a b] (_ & S2 & _) _ C. cbn [fst snd] in *. destruct (Z.eqb_spec (Z.abs (i - a)) 1); [|discriminate].
           subst b. assert (a = i + 1 \/ a = i - 1)%Z as [-> | ->] by lia; auto.
        -- cbn [fst snd]. replace (Z.abs (i - (i + 1)) =? 1)%Z with true by lia. rewrite !Z.eqb_eq. split; [intros ->; exists GA; repeat split; lia|intros (g & _ & X & _); lia].
        -- cbn [fst snd]. replace (Z.abs (i - (i - 1)) =? 1)%Z with true by lia. rewrite !Z.eqb_eq. split; [intros ->; exists GA; repeat split; lia|intros (g & _ & X & _); lia].
      * intros o g q Q _. rewrite (cfac_stab d o g q _ Q P). destruct (_ =? 1)%Z; auto.
    + intros k k' p Lk Lk' P. destruct (Z.eqb_spec (fst p) (2 * zn k)), (Z.eqb_spec (fst p) (2 * zn k')); try congruence. intros _ _. lia.
  - intros a I. apply rep_stab_x; auto.
  - rewrite symp_comm. apply rep_x_z; auto.
  - intros [i j] P _. apply in_dpos, in_cdata in P. destruct P as (-> & B & M). apply in_map_iff. exists (Z.to_nat (i / 2)). split; [f_equal; lia|apply in_seq; lia].
Qed.

(** * The planar code *)
Definition pstab (d : Z) (g : group) (q : pos) : Prop :=
  (pbox d q /\ fst q mod 2 <> snd q mod 2 /\ (g = GA /\ snd q mod 2 = 0 \/ g = GB /\ snd q mod 2 = 1))%Z.
Lemma in_pstab d g q : In (KStab g, q) (pvs d) <-> pstab d g q.
Proof.
  destruct q as [a b]. unfold pstab. cbn [fst snd]. split.
  - intros I. apply In_nth_error in I. destruct I as (o & Q). apply (pstab_pos d o g a b Q).
  - intros (B & M & G). unfold pvs. apply in_app_iff. left. apply in_pgrid. unfold pbox in B. cbn [fst snd] in B. split; [lia|].
    unfold pkind. destruct (Z.eqb_spec (a mod 2) (b mod 2)); [contradiction|]. destruct G as [[-> G]|[-> G]]; rewrite G; reflexivity.
Qed.
Lemma cadjb_true q p : cadjb q p = true <-> (Z.abs (fst p - fst q) + Z.abs (snd p - snd q) = 1)%Z.
Proof. apply Z.eqb_eq. Qed.

Lemma pstab_group d g q : pstab d g q -> g <> GU.
Proof. intros (_ & _ & [[-> _]|[-> _]]); discriminate. Qed.
Lemma planar_letter d (c : bool * bool -> bool) (ch : pos -> bool) p p1 p2 e1 e2 G : (2 <= d)%Z -> In p (dpos (pvs d)) -> p1 <> p2 ->
  (c (false, false) = false) -> c (fbits (group_factor G)) = true -> (forall g, g <> GU -> c (fbits (group_factor g)) = true -> g = G) ->
  (forall q, pstab d G q -> ch q = true -> cadjb q p = true -> q = p1 \/ q = p2) ->
  (e1 = true <-> pstab d G p1 /\ ch p1 = true /\ cadjb p1 p = true) ->
  (e2 = true <-> pstab d G p2 /\ ch p2 = true /\ cadjb p2 p = true) ->
  parity (map (fun s => ch (at_pos (pvs d) s) && c (fac (pes d) s p)) (stab_ids (pvs d))) = xorb e1 e2.
Proof.
  intros D P NE C0 C1 C2 TWO E1 E2.
  assert (CC : forall g q, g <> GU -> (c (if cadjb q p then fbits (group_factor g) else (false, false)) = true <-> cadjb q p = true /\ g = G)).
  { intros g q U. destruct (cadjb q p); [|rewrite C0; split; [discriminate|intros [X _]; discriminate]]. split; [intros X; split; auto|intros [_ ->]; auto]. }
  assert (EE : forall r e, (e = true <-> pstab d G r /\ ch r = true /\ cadjb r p = true) ->
    (e = true <-> exists g, pstab d g r /\ ch r = true /\ c (if cadjb r p then fbits (group_factor g) else (false, false)) = true)).
  { intros r e E. rewrite E. split; [intros (A & B & F); exists G; rewrite CC by (apply (pstab_group d _ r A)); auto|intros (g & A & B & F)].
    apply CC in F; [|apply (pstab_group d _ r A)]. destruct F as [F ->]; auto. }
  apply (chosen_two (pvs d) (pes d) (pstab d) (fun g q => if cadjb q p then fbits (group_factor g) else (false, false)) c ch p p1 p2); auto.
  - apply nodup_pvs; auto.
  - intros g q. rewrite stab_exists. apply in_pstab.
  - intros o g q Q. apply pfac_stab; auto.
  - intros g q S1 S2 S3. apply CC in S3; [|apply (pstab_group d _ q S1)]. destruct S3 as [S3 ->]. auto.
Qed.
Lemma planar_letter0 d (c : bool * bool -> bool) (ch : pos -> bool) p G : In p (dpos (pvs d)) ->
  (c (false, false) = false) -> (forall g, g <> GU -> c (fbits (group_factor g)) = true -> g = G) -> (forall q, pstab d G q -> ch q = false) ->
  parity (map (fun s => ch (at_pos (pvs d) s) && c (fac (pes d) s p)) (stab_ids (pvs d))) = false.
Proof.
  intros P C0 C2 N. apply chosen_none. intros o g q Q C. rewrite (pfac_stab d o g q p Q P). destruct (cadjb q p); auto.
  assert (S1 : pstab d g q) by (apply in_pstab; eapply nth_error_In; eauto). destruct (c (fbits (group_factor g))) eqn:X; auto.
  rewrite (N q) in C; [discriminate|]. rewrite <- (C2 g (pstab_group _ _ _ S1) X). auto.
Qed.

Lemma pair_is {A B} (x : A * B) a b e f : a = e -> b = f -> x = (e, f) -> x = (a, b).
Proof. intros -> -> ->. reflexivity. Qed.
Lemma pstab_a d (q : pos) : pstab d GA q <-> (0 <= fst q <= 2 * d - 2 /\ 0 <= snd q <= 2 * d - 2 /\ fst q mod 2 = 1 /\ snd q mod 2 = 0)%Z.
Proof. unfold pstab, pbox. split; [intros (X & Y & [[_ Z]|[Z _]]); [lia|discriminate]|intros X; split; [lia|split; [lia|left; split; auto; lia]]]. Qed.
Lemma pstab_b d (q : pos) : pstab d GB q <-> (0 <= fst q <= 2 * d - 2 /\ 0 <= snd q <= 2 * d - 2 /\ fst q mod 2 = 0 /\ snd q mod 2 = 1)%Z.
Proof. unfold pstab, pbox. split; [intros (X & Y & [[Z _]|[_ Z]]); [discriminate|lia]|intros X; split; [lia|split; [lia|right; split; auto; lia]]]. Qed.

Theorem planar_x_distance d : (2 <= d)%Z ->
  exact_distance (List.length (dpos (pvs d))) (c_stabs (planar_code d)) (GeneratorSpec.fac (brow (pvs d) (pes d) (List.length (pgrid d)))) (Z.to_nat d).
Proof.
  intros D. apply (exact_positions _ _ _ (S (List.length (pgrid d))) _ (map (fun i => (2 * zn i, 2 * d - 2)%Z : pos) (seq 0 (Z.to_nat d)))); try (rewrite map_length, seq_length; auto).
  - apply nodup_pvs; auto.
  - apply (position_distance _ _ _ _ (Z.to_nat d - 1) (fun k p => if (fst p =? 2 * zn k)%Z then (true, false) else (false, false)) (fun k q => (fst q =? 2 * zn k + 1)%Z)).
    + lia.
    + intros p P. rewrite pfac_x by auto. replace (2 * zn (Z.to_nat d - 1))%Z with (2 * d - 2)%Z by lia. auto.
    + intros k [i j] Lk P. pose proof P as P'. apply in_dpos, in_pdata in P'. destruct P' as (B & M). unfold pbox in B. cbn [fst snd] in B.
      destruct (Z.eq_dec (i mod 2) 0) as [I0|I0]; (eapply pair_is; [|apply (planar_letter0 d snd (fun q => (fst q =? 2 * zn k + 1)%Z) (i, j) GB P eq_refl);
          [intros [] U; cbn; congruence|intros q; rewrite pstab_b; lia]|]).
      * apply (planar_letter d fst (fun q => (fst q =? 2 * zn k + 1)%Z) (i, j) (i + 1, j)%Z (i - 1, j)%Z (i =? 2 * zn k)%Z (i =? 2 * zn (S k))%Z GA D P); auto.
        -- intros X; injection X; lia.
        -- intros [] U; cbn; congruence.
        -- intros [a b]. rewrite pstab_a, cadjb_true. cbn [fst snd]. intros X1 X2 X3. assert (b = j /\ (a = i + 1 \/ a = i - 1))%Z as [-> [-> | ->]] by lia; auto.
        -- rewrite pstab_a, cadjb_true. cbn [fst snd]. lia.
        -- rewrite pstab_a, cadjb_true. cbn [fst snd]. lia.
      * cbn [fst]. destruct (i =? 2 * zn k)%Z, (i =? 2 * zn (S k))%Z; reflexivity.
      * apply (planar_letter d fst (fun q => (fst q =? 2 * zn k + 1)%Z) (i, j) (i, j + 1)%Z (i, j - 1)%Z (i =? 2 * zn k + 1)%Z (i =? 2 * zn k + 1)%Z GA D P); auto.
        -- intros X; injection X; lia.
        -- intros [] U; cbn; congruence.
        -- intros [a b]. rewrite pstab_a, cadjb_true. cbn [fst snd]. intros X1 X2 X3. assert (a = i /\ (b = j + 1 \/ b = j - 1))%Z as [-> [-> | ->]] by lia; auto.
        -- rewrite pstab_a, cadjb_true. cbn [fst snd]. lia.
        -- rewrite pstab_a, cadjb_true. cbn [fst snd]. lia.
      * cbn [fst]. rewrite xorb_nilpotent. destruct (Z.eqb_spec i (2 * zn k)); [lia|]. destruct (Z.eqb_spec i (2 * zn (S k))); [lia|]. reflexivity.
    + intros k k' p Lk Lk' P. destruct (Z.eqb_spec (fst p) (2 * zn k)), (Z.eqb_spec (fst p) (2 * zn k')); try congruence. intros _ _. lia.
  - intros a I. apply planar_stab_z; auto.
  - apply planar_x_z; auto.
  - intros [i j] P F. rewrite pfac_z in F by auto. cbn [snd] in F. destruct (Z.eqb_spec j (2 * d - 2)) as [-> |]; [|congruence].
    apply in_dpos, in_pdata in P. destruct P as (B & M). unfold pbox in B. cbn [fst snd] in B. apply in_map_iff. exists (Z.to_nat (i / 2)). split; [f_equal; lia|apply in_seq; lia].
Qed.

Theorem planar_z_distance d : (2 <= d)%Z ->
  exact_distance (List.length (dpos (pvs d))) (c_stabs (planar_code d)) (GeneratorSpec.fac (brow (pvs d) (pes d) (S (List.length (pgrid d))))) (Z.to_nat d).
Proof.
  intros D. apply (exact_positions _ _ _ (List.length (pgrid d)) _ (map (fun i => (2 * d - 2, 2 * zn i)%Z : pos) (seq 0 (Z.to_nat d)))); try (rewrite map_length, seq_length; auto).
  - apply nodup_pvs; auto.
  - apply (position_distance _ _ _ _ (Z.to_nat d - 1) (fun k p => if (snd p =? 2 * zn k)%Z then (false, true) else (false, false)) (fun k q => (snd q =? 2 * zn k + 1)%Z)).
    + lia.
    + intros p P. rewrite pfac_z by auto. replace (2 * zn (Z.to_nat d - 1))%Z with (2 * d - 2)%Z by lia. auto.
    + intros k [i j] Lk P. pose proof P as P'. apply in_dpos, in_pdata in P'. destruct P' as (B & M). unfold pbox in B. cbn [fst snd] in B.
      destruct (Z.eq_dec (j mod 2) 0) as [I0|I0]; (eapply pair_is; [apply (planar_letter0 d fst (fun q => (snd q =? 2 * zn k + 1)%Z) (i, j) GA P eq_refl);
          [intros [] U; cbn; congruence|intros q; rewrite pstab_a; lia]| |]).
      * apply (planar_letter d snd (fun q => (snd q =? 2 * zn k + 1)%Z) (i, j) (i, j + 1)%Z (i, j - 1)%Z (j =? 2 * zn k)%Z (j =? 2 * zn (S k))%Z GB D P); auto.
        -- intros X; injection X; lia.
        -- intros [] U; cbn; congruence.
        -- intros [a b]. rewrite pstab_b, cadjb_true. cbn [fst snd]. intros X1 X2 X3. assert (a = i /\ (b = j + 1 \/ b = j - 1))%Z as [-> [-> | ->]] by lia; auto.
        -- rewrite pstab_b, cadjb_true. cbn [fst snd]. lia.
        -- rewrite pstab_b, cadjb_true. cbn [fst snd]. lia.
      * cbn [snd]. destruct (j =? 2 * zn k)%Z, (j =? 2 * zn (S k))%Z; reflexivity.
      * apply (planar_letter d snd (fun q => (snd q =? 2 * zn k + 1)%Z) (i, j) (i + 1, j)%Z (i - 1, j)%Z (j =? 2 * zn k + 1)%Z (j =? 2 * zn k + 1)%Z GB D P); auto.
        -- intros X; injection X; lia.
        -- intros [] U; cbn; congruence.
        -- intros [a b]. rewrite pstab_b, cadjb_true. cbn [fst snd]. intros X1 X2 X3. assert (b = j /\ (a = i + 1 \/ a = i - 1))%Z as [-> [-> | ->]] by lia; auto.
        -- rewrite pstab_b, cadjb_true. cbn [fst snd]. lia.
        -- rewrite pstab_b, cadjb_true. cbn [fst snd]. lia.
      * cbn [snd]. rewrite xorb_nilpotent. destruct (Z.eqb_spec j (2 * zn k)); [lia|]. destruct (Z.eqb_spec j (2 * zn (S k))); [lia|]. reflexivity.
    + intros k k' p Lk Lk' P. destruct (Z.eqb_spec (snd p) (2 * zn k)), (Z.eqb_spec (snd p) (2 * zn k')); try congruence. intros _ _. lia.
  - intros a I. apply planar_stab_x; auto.
  - rewrite symp_comm. apply planar_x_z; auto.
  - intros [i j] P F. rewrite pfac_x in F by auto. cbn [fst] in F. destruct (Z.eqb_spec i (2 * d - 2)) as [-> |]; [|congruence].
    apply in_dpos, in_pdata in P. destruct P as (B & M). unfold pbox in B. cbn [fst snd] in B. apply in_map_iff. exists (Z.to_nat (j / 2)). split; [f_equal; lia|apply in_seq; lia].
Qed.
