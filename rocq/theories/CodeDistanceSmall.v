(** Distances of small codes by inspection of the operators on two qubits; codes with operators of
    one letter. *)
Require Import List Bool Arith ZArith Lia String.
From Verif Require Import Base BaseProofs QSpec PauliModel PauliAlg LatticeModel CodesModel CodesSpec LatticeSpec LatticeOps BuildProofs CodesProofs
  PlanarProofs RotatedProofs ToricProofs RepetitionProofs GraphSpec GraphProofs SyngraphModel SyngraphFinal FaultSpec CodeDistance.
From Verif Require GeneratorSpec.
Import ListNotations.
Local Open Scope nat_scope.
Local Open Scope list_scope.

Lemma distance_one n gens l : logical_distance n gens l 1.
Proof.
  intros P _ A. unfold operator_weight. destruct (filter _ _) as [|q r] eqn:E; [|cbn; lia]. exfalso. rewrite LatticeOps.anti_zero in A; [discriminate|].
  intros q I. destruct (P q) as [x z] eqn:X. assert (N : ~ In q []) by (cbn; tauto). rewrite <- E, filter_In, X in N. destruct x, z; [exfalso; apply N; auto..|apply LatticeOps.sp_zero_r].
Qed.

Theorem repetition_x_distance d : (2 <= d)%Z ->
  exact_distance (List.length (dpos (cvs d))) (c_stabs (repetition_code d)) (GeneratorSpec.fac (brow (cvs d) (ces d) (cn d))) 1.
Proof.
  intros D. apply (exact_positions _ _ _ (S (cn d)) _ [(2 * d - 2, 0)%Z]); auto.
  - apply nodup_cvs; auto.
  - apply distance_one.
  - intros a I. apply rep_stab_z; auto.
  - apply rep_x_z; auto.
  - intros [i j] P F. rewrite cfac_z in F by auto. apply in_dpos, in_cdata in P. destruct P as (-> & _). cbn [fst] in F. destruct (Z.eqb_spec i (2 * d - 2)) as [E|E]; [left; rewrite E; auto|congruence].
Qed.

(** * Operators on at most two qubits *)
Definition on_two (q1 q2 : nat) (a b : bool * bool) (q : nat) : bool * bool := if q =? q1 then a else if q =? q2 then b else (false, false).
Lemma low_weight n P : 0 < n -> operator_weight n P <= 2 -> exists q1 q2, q1 < n /\ q2 < n /\ forall q, q < n -> P q = on_two q1 q2 (P q1) (P q2) q.
Proof.
  intros Hn W. unfold operator_weight in W.
  assert (IN : forall q, q < n -> P q <> (false, false) -> In q (filter (fun q => fst (P q) || snd (P q)) (seq 0 n))).
  { intros q L N. apply filter_In. split; [apply in_seq; lia|]. destruct (P q) as [[] []]; auto. }
  assert (LT : forall q, In q (filter (fun q => fst (P q) || snd (P q)) (seq 0 n)) -> q < n) by (intros q I; apply filter_In in I; destruct I as [I _]; apply in_seq in I; lia).
  assert (Z : forall q, q < n -> ~ In q (filter (fun q => fst (P q) || snd (P q)) (seq 0 n)) -> P q = (false, false)).
  { intros q L N. destruct (P q) as [[] []] eqn:X; auto; exfalso; apply N, IN; auto; rewrite X; discriminate. }
  destruct (filter _ _) as [|q1 [|q2 [|]]]; [| | |cbn in W; lia].
  - exists 0, 0. split; [auto|]. split; [auto|]. intros q L. unfold on_two. rewrite (Z q L (fun x => x)). rewrite (Z 0 Hn (fun x => x)). destruct (q =? 0); auto.
  - assert (L1 : q1 < n) by (apply LT; left; auto). exists q1, q1. split; [auto|]. split; [auto|]. intros q L. unfold on_two. destruct (Nat.eqb_spec q q1); [subst; auto|]. apply Z; auto. intros [E|[]]; auto.
  - exists q1, q2. split; [apply LT; left; auto|]. split; [apply LT; right; left; auto|]. intros q L. unfold on_two.
    destruct (Nat.eqb_spec q q1); [subst; auto|]. destruct (Nat.eqb_spec q q2); [subst; auto|]. apply Z; auto. intros [E|[E|[]]]; auto.
Qed.

Definition letters4 : list (bool * bool) := [(false, false); (true, false); (false, true); (true, true)].
Definition distance3b (n : nat) (gens : list row) (l : nat -> bool * bool) : bool :=
  forallb (fun q1 => forallb (fun q2 => forallb (fun a => forallb (fun b =>
    let P := on_two q1 q2 a b in
    negb (forallb (fun g => negb (anti (seq 0 n) (GeneratorSpec.fac g) P)) gens && anti (seq 0 n) l P)) letters4) letters4) (seq 0 n)) (seq 0 n).
Lemma distance3_ok n gens l : 0 < n -> distance3b n gens l = true -> logical_distance n gens l 3.
Proof.
  intros Hn H P C A. destruct (le_lt_dec 3 (operator_weight n P)); auto. exfalso.
  destruct (low_weight n P Hn ltac:(lia)) as (q1 & q2 & L1 & L2 & E).
  assert (IL : forall a, In a letters4) by (intros [[] []]; cbn; tauto).
  unfold distance3b in H. rewrite forallb_forall in H. specialize (H q1 ltac:(apply in_seq; lia)). rewrite forallb_forall in H. specialize (H q2 ltac:(apply in_seq; lia)).
  rewrite forallb_forall in H. specialize (H (P q1) (IL _)). rewrite forallb_forall in H. specialize (H (P q2) (IL _)). cbv zeta in H. apply negb_true_iff in H.
  assert (AE : forall f, anti (seq 0 n) f (on_two q1 q2 (P q1) (P q2)) = anti (seq 0 n) f P) by (intros f; apply LatticeOps.anti_ext; auto; intros q I; apply in_seq in I; symmetry; apply E; lia).
  rewrite AE, A, andb_true_r in H. enough (X : forallb (fun g => negb (anti (seq 0 n) (GeneratorSpec.fac g) (on_two q1 q2 (P q1) (P q2)))) gens = true) by congruence.
  apply forallb_forall. intros g I. rewrite AE. destruct (In_nth _ _ row0 I) as (s & L & <-). rewrite C; auto.
Qed.

Definition exact3b (n : nat) (gens : list row) (l : nat -> bool * bool) (P : nat -> bool * bool) : bool :=
  (0 <? n) && distance3b n gens l && forallb (fun g => negb (anti (seq 0 n) (GeneratorSpec.fac g) P)) gens && anti (seq 0 n) l P && (operator_weight n P =? 3).
Lemma exact3_ok n gens l P : exact3b n gens l P = true -> exact_distance n gens l 3.
Proof.
  intros H. unfold exact3b in H. rewrite !andb_true_iff, Nat.ltb_lt, Nat.eqb_eq in H. destruct H as ((((Hn & D) & C) & A) & W). split; [apply distance3_ok; auto|].
  exists P. split; [|auto]. intros s L. rewrite forallb_forall in C. apply negb_true_iff. apply C, nth_In; auto.
Qed.

(** * Codes with operators of one letter *)
Lemma detected_all n gens l : detected_by n gens (fun _ => true) (fun _ => true) l.
Proof. split; auto. Qed.
Lemma no_side (f : bool * bool -> bool) g : f (false, false) = false -> (forall q, f (GeneratorSpec.fac g q) = false) -> existsb f (ops g) = false.
Proof.
  intros F H. apply not_true_iff_false. intros X. apply existsb_exists in X. destruct X as (a & I & E). destruct (In_nth _ _ (false, false) I) as (q & _ & N).
  specialize (H q). unfold GeneratorSpec.fac in H. rewrite N in H. congruence.
Qed.
Lemma some_side (f : bool * bool -> bool) g q : f (false, false) = false -> f (GeneratorSpec.fac g q) = true -> existsb f (ops g) = true.
Proof.
  intros F H. apply existsb_exists. exists (GeneratorSpec.fac g q). split; auto. unfold GeneratorSpec.fac in *. apply nth_In.
  destruct (le_lt_dec (List.length (ops g)) q); auto. rewrite nth_overflow in H by auto. congruence.
Qed.
Lemma detected_x n gens l : (forall g, In g gens -> letters_x g \/ letters_z g) -> (forall q, fst (l q) = false) -> detected_by n gens is_x (z_side gens) l.
Proof.
  intros H L. split.
  - intros p q s [-> | ->] Lq Ls C; unfold z_side; cbn [is_x clashes] in *; symmetry.
    + apply (some_side snd _ q); auto.
    + apply (no_side snd); auto. destruct (H _ (nth_In gens row0 Ls)) as [X|X]; auto. rewrite X in C. discriminate.
  - intros p q [-> | ->] Lq C; auto. cbn [clashes] in C. rewrite L in C. discriminate.
Qed.
Lemma detected_z n gens l : (forall g, In g gens -> letters_x g \/ letters_z g) -> (forall q, snd (l q) = false) -> detected_by n gens is_z (x_side gens) l.
Proof.
  intros H L. split.
  - intros p q s [-> | ->] Lq Ls C; unfold x_side; cbn [is_z clashes] in *; symmetry.
    + apply (no_side fst); auto. destruct (H _ (nth_In gens row0 Ls)) as [X|X]; auto. rewrite X in C. discriminate.
    + apply (some_side fst _ q); auto.
  - intros p q [-> | ->] Lq C; auto. cbn [clashes] in C. rewrite L in C. discriminate.
Qed.

Lemma brow_letters vs es o (b : bool * bool) : (b = (true, false) \/ b = (false, true)) -> (forall p, In p (dpos vs) -> fac es o p = b \/ fac es o p = (false, false)) ->
  letters_x (brow vs es o) \/ letters_z (brow vs es o).
Proof.
  intros B H.
  assert (F : forall q, GeneratorSpec.fac (brow vs es o) q = b \/ GeneratorSpec.fac (brow vs es o) q = (false, false)).
  { intros q. destruct (le_lt_dec (List.length (dpos vs)) q) as [L|L].
    - right. unfold GeneratorSpec.fac. apply nth_overflow. cbn [brow ops]. rewrite map_length. auto.
    - rewrite brow_fac by auto. apply H, nth_In; auto. }
  destruct B as [-> | ->]; [left|right]; intros q; destruct (F q) as [-> | ->]; reflexivity.
Qed.
Lemma group_bits g : fbits (group_factor g) = (true, false) \/ fbits (group_factor g) = (false, true).
Proof. destruct g; auto. Qed.

Lemma planar_letters d g : In g (c_stabs (planar_code d) ++ c_logicals (planar_code d)) -> letters_x g \/ letters_z g.
Proof.
  intros I. apply in_app_iff in I. cbn [planar_code c_stabs c_logicals] in I. destruct I as [I|I]; apply in_map_iff in I; destruct I as (o & <- & I).
  - apply in_stab_ids in I. destruct I as (g & q & Q). apply (brow_letters _ _ _ _ (group_bits g)). intros p P. rewrite (pfac_stab d o g q p Q P). destruct (cadjb q p); auto.
  - rewrite plog_ids in I. destruct I as [<-|[<-|[]]].
    + apply (brow_letters _ _ _ (true, false)); auto. intros p P. rewrite pfac_x by auto. destruct (_ =? _)%Z; auto.
    + apply (brow_letters _ _ _ (false, true)); auto. intros p P. rewrite pfac_z by auto. destruct (_ =? _)%Z; auto.
Qed.
Lemma rotated_letters d g : In g (c_stabs (rotated_code d false) ++ c_logicals (rotated_code d false)) -> letters_x g \/ letters_z g.
Proof.
  intros I. apply in_app_iff in I. cbn [rotated_code c_stabs c_logicals] in I. destruct I as [I|I]; apply in_map_iff in I; destruct I as (o & <- & I).
  - apply in_stab_ids in I. destruct I as (g & q & Q). apply (brow_letters _ _ _ _ (group_bits g)). intros p P. rewrite (rfac_stab d false o g q p Q P). destruct (radjb q p); auto.
  - rewrite rlog_ids in I. destruct I as [<-|[<-|[]]].
    + apply (brow_letters _ _ _ (true, false)); auto. intros p P. rewrite rfac_x by auto. destruct (_ =? _)%Z; auto.
    + apply (brow_letters _ _ _ (false, true)); auto. intros p P. rewrite rfac_z by auto. destruct (_ =? _)%Z; auto.
Qed.
Lemma toric_letters d g : (2 <= d)%Z -> In g (c_stabs (toric_code d) ++ c_logicals (toric_code d)) -> letters_x g \/ letters_z g.
Proof.
  intros D I. apply in_app_iff in I. cbn [toric_code c_stabs c_logicals] in I. destruct I as [I|I]; apply in_map_iff in I; destruct I as (o & <- & I).
  - apply in_stab_ids in I. destruct I as (g & q & Q). apply (brow_letters _ _ _ _ (group_bits g)). intros p P. destruct (tfac_stab d o g q p D Q) as [[_ ->]|[_ ->]]; auto.
  - rewrite tlog_ids in I. assert (exists k, k < 4 /\ o = k + tn d) as (k & K & ->).
    { destruct I as [<-|[<-|[<-|[<-|[]]]]]; [exists 0|exists 1|exists 2|exists 3]; (split; [lia|reflexivity]). }
    apply (brow_letters _ _ _ (tbits k)); [destruct k as [|[|[|]]]; cbn; auto|]. intros p P. rewrite tfac_log by auto. destruct (tsup d k p); auto.
Qed.
Lemma repetition_letters d g : In g (c_stabs (repetition_code d) ++ c_logicals (repetition_code d)) -> letters_x g \/ letters_z g.
Proof.
  intros I. apply in_app_iff in I. cbn [repetition_code c_stabs c_logicals] in I. destruct I as [I|I]; apply in_map_iff in I; destruct I as (o & <- & I).
  - apply in_stab_ids in I. destruct I as (g & q & Q). apply (brow_letters _ _ _ (false, true)); auto. intros p P. rewrite (cfac_stab d o g q p Q P). destruct (_ =? _)%Z; auto.
  - rewrite clog_ids in I. destruct I as [<-|[<-|[]]].
    + apply (brow_letters _ _ _ (true, false)); auto. intros p P. rewrite cfac_x by auto. auto.
    + apply (brow_letters _ _ _ (false, true)); auto. intros p P. rewrite cfac_z by auto. destruct (_ =? _)%Z; auto.
Qed.
