(** Proofs about effective probabilities, weights and [from_code]. *)
Require Import String List Bool Arith ZArith QArith Lia Permutation Lqa.
From Verif Require Import Base BaseProofs QSpec PauliModel SimSpec LatticeModel LatticeSpec CodesModel GeneratorModel GeneratorSpec MemorySem MemoryTotal ErasureModel ErasureProofs
  SyngraphModel SyngraphProofs SyngraphFinal DecoderModel DecoderSpec WeightsModel WeightsSpec.
Import ListNotations.
Local Open Scope string_scope.
Local Open Scope nat_scope.
Local Open Scope list_scope.

(** * The probability of an odd number *)
Lemma qsum_app a b : (qsum (a ++ b) == qsum a + qsum b)%Q.
Proof. induction a as [|x a IH]; cbn [app qsum fold_right]; [unfold qsum; cbn; ring|]. fold (qsum (a ++ b)) (qsum a). rewrite IH. ring. Qed.
Lemma qsum_scale c (f : list bool -> Q) l : (qsum (map (fun x => c * f x)%Q l) == c * qsum (map f l))%Q.
Proof. induction l as [|x l IH]; cbn [map qsum fold_right]; [ring|]. fold (qsum (map (fun x => c * f x)%Q l)) (qsum (map f l)). rewrite IH. ring. Qed.
Definition even_prob (ps : list Q) : Q :=
  qsum (map (outcome_prob ps) (filter (fun bs => negb (fold_right xorb false bs)) (outcomes (length ps)))).
Lemma filter_map_cons (P : list bool -> bool) b L : filter P (map (cons b) L) = map (cons b) (filter (fun x => P (b :: x)) L).
Proof. induction L as [|x L IH]; auto. cbn [map filter]. destruct (P (b :: x)); cbn; rewrite IH; auto. Qed.
Lemma odd_even_cons p ps : (odd_prob (p :: ps) == (1 - p) * odd_prob ps + p * even_prob ps)%Q /\ (even_prob (p :: ps) == (1 - p) * even_prob ps + p * odd_prob ps)%Q.
Proof.
  unfold odd_prob, even_prob. cbn [length outcomes]. rewrite !filter_app, !map_app, !filter_map_cons, !map_map, !qsum_app. cbn [fold_right outcome_prob].
  rewrite !qsum_scale.
  assert (A : forall L, filter (fun x => xorb false (fold_right xorb false x)) L = filter (fun x => fold_right xorb false x) L) by (intros; apply filter_ext; intros; destruct (fold_right _ _ _); auto).
  assert (B : forall L, filter (fun x => xorb true (fold_right xorb false x)) L = filter (fun x => negb (fold_right xorb false x)) L) by (intros; apply filter_ext; intros; destruct (fold_right _ _ _); auto).
  assert (C : forall L, filter (fun x => negb (xorb false (fold_right xorb false x))) L = filter (fun x => negb (fold_right xorb false x)) L) by (intros; apply filter_ext; intros; destruct (fold_right _ _ _); auto).
  assert (D : forall L, filter (fun x => negb (xorb true (fold_right xorb false x))) L = filter (fun x => fold_right xorb false x) L) by (intros; apply filter_ext; intros; destruct (fold_right _ _ _); auto).
  rewrite A, B, C, D. split; reflexivity.
Qed.
Lemma odd_even_sum ps : (odd_prob ps + even_prob ps == 1)%Q.
Proof.
  induction ps as [|p ps IH]; [reflexivity|]. destruct (odd_even_cons p ps) as [-> ->].
  setoid_replace ((1 - p) * odd_prob ps + p * even_prob ps + ((1 - p) * even_prob ps + p * odd_prob ps))%Q with (odd_prob ps + even_prob ps)%Q by ring. auto.
Qed.
Lemma odd_cons p ps : (odd_prob (p :: ps) == update_p p (odd_prob ps))%Q.
Proof.
  destruct (odd_even_cons p ps) as [-> _]. assert (E : (even_prob ps == 1 - odd_prob ps)%Q) by (rewrite <- (odd_even_sum ps); ring).
  rewrite E. unfold update_p. ring.
Qed.
Add Morphism update_p with signature Qeq ==> Qeq ==> Qeq as update_p_morph.
Proof. intros a b H c d K. unfold update_p. rewrite H, K. reflexivity. Qed.
Lemma fold_update ps : forall a, (fold_left (fun p q => update_p q p) ps a == update_p (odd_prob ps) a)%Q.
Proof.
  induction ps as [|p ps IH]; intros a; cbn [fold_left].
  - unfold update_p, odd_prob. cbn. ring.
  - rewrite IH, odd_cons. unfold update_p. ring.
Qed.
Lemma odd_perm ps qs : Permutation ps qs -> (odd_prob ps == odd_prob qs)%Q.
Proof.
  induction 1 as [|p ps qs _ IH|p q ps|ps qs rs _ IH1 _ IH2]; [reflexivity| | |].
  - rewrite !odd_cons, IH. reflexivity.
  - rewrite !odd_cons. unfold update_p. ring.
  - rewrite IH1. auto.
Qed.
Lemma update_bounds p q : (0 <= p <= 1)%Q -> (0 <= q <= 1)%Q -> (0 <= update_p p q <= 1)%Q.
Proof. intros [A B] [C D]. unfold update_p. split; nra. Qed.
Lemma update_half p q : (0 <= p <= 1 # 2)%Q -> (0 <= q <= 1 # 2)%Q -> (0 <= update_p p q <= 1 # 2)%Q.
Proof. intros [A B] [C D]. unfold update_p. split; nra. Qed.

(** * Arrays *)
Lemma equbit_data l z : consistent l -> indexed l -> data_number (length (l_data l)) z -> exists v, equbit l z = Ok v /\ is_data v = true /\ v_index v = Some (Z.to_nat z).
Proof.
  intros C X D. unfold data_number in D. unfold equbit. destruct (Z.ltb_spec z 0); [lia|]. assert (L := equbits_len l X).
  rewrite (get_nth _ _ 0) by lia. cbn [bindR]. eexists. split; [reflexivity|].
  assert (E : nth_error (l_data l) (Z.to_nat z) = Some (nth (Z.to_nat z) (l_equbits l) 0)).
  { destruct X as (_ & _ & _ & -> & _). rewrite app_nth1 by lia. apply nth_error_nth'. lia. }
  split; [apply (kind_of_list l _ C); eapply nth_error_In; eauto|]. apply (proj1 X). auto.
Qed.
Lemma equbit_stab l z : consistent l -> indexed l -> ancilla_number (length (l_data l)) (length (l_stabs l)) z ->
  exists v, equbit l z = Ok v /\ is_stab v = true /\ v_index v = Some (Z.to_nat z - length (l_data l)).
Proof.
  intros C X D. unfold ancilla_number in D. unfold equbit. destruct (Z.ltb_spec z 0); [lia|]. assert (L := equbits_len l X).
  rewrite (get_nth _ _ 0) by lia. cbn [bindR]. eexists. split; [reflexivity|].
  assert (E : nth_error (l_stabs l) (Z.to_nat z - length (l_data l)) = Some (nth (Z.to_nat z) (l_equbits l) 0)).
  { destruct X as (_ & _ & _ & -> & _). rewrite app_nth2, app_nth1 by lia. apply nth_error_nth'. lia. }
  split; [apply (kind_of_list l _ C); eapply nth_error_In; eauto|]. apply (proj1 (proj2 X)). auto.
Qed.
(** The value of an array after the loop. *)
Definition looked_up (d : dict1) (f : params -> Q) (q : nat) (a : Q) : Q := match get1 d (Some q) with Some p => f p | None => a end.
Lemma looked_up_cons z p d f q a : ~ In z (map fst d) -> looked_up ((z, p) :: d) f q a = looked_up d f q (if (z =? Z.of_nat q)%Z then f p else a).
Proof.
  intros NI. unfold looked_up, get1. cbn [find fst]. destruct (Z.eqb_spec z (Z.of_nat q)) as [->|N]; auto. cbn [snd].
  destruct (find _ d) as [[z' p']|] eqn:E; auto. exfalso. apply find_some in E as [I Q]. cbn in Q. apply Z.eqb_eq in Q. subst. apply NI. apply (in_map fst) in I. auto.
Qed.
Lemma q_arrays_ok l fx fz d : consistent l -> indexed l -> (forall z p, In (z, p) d -> data_number (length (l_data l)) z) -> NoDup (map fst d) ->
  exists x z, q_arrays l fx fz d (length (l_data l)) = Ok (x, z) /\ length x = length (l_data l) /\ length z = length (l_data l) /\
    forall q, q < length (l_data l) -> nth q x 0%Q = looked_up d fx q 0 /\ nth q z 0%Q = looked_up d fz q 0.
Proof.
  intros C X D ND. unfold q_arrays. set (n := length (l_data l)) in *.
  assert (G : forall d, (forall z p, In (z, p) d -> data_number n z) -> NoDup (map fst d) -> forall a b, length a = n -> length b = n -> exists x z,
    foldR (fun (a : list Q * list Q) (kv : Z * params) => do v <- equbit l (fst kv); do _ <- assertR (is_data v); do x <- put_at v (fx (snd kv)) (fst a); do z <- put_at v (fz (snd kv)) (snd a); Ok (x, z)) d (a, b) = Ok (x, z) /\
    length x = n /\ length z = n /\ forall q, q < n -> nth q x 0%Q = looked_up d fx q (nth q a 0%Q) /\ nth q z 0%Q = looked_up d fz q (nth q b 0%Q)).
  { clear d D ND. induction d as [|[z p] d IH]; intros D ND a b La Lb; cbn [foldR].
    - exists a, b. auto.
    - inversion ND as [|? ? NI ND']; subst. assert (Dz := D z p (or_introl eq_refl)). cbn [fst snd]. destruct (equbit_data l z C X Dz) as (v & -> & K & I).
      cbn [bindR]. rewrite K. cbn [assertR bindR]. unfold put_at. rewrite I. unfold data_number in Dz. rewrite !put_upd by lia. cbn [bindR].
      destruct (IH (fun z' p' H => D z' p' (or_intror H)) ND' (upd (Z.to_nat z) (fx p) a) (upd (Z.to_nat z) (fz p) b)) as (x & y & E & Lx & Ly & H); try (rewrite length_upd; auto).
      exists x, y. split; [exact E|]. split; [auto|]. split; [auto|]. intros q Lq. destruct (H q Lq) as [-> ->]. rewrite !looked_up_cons by auto.
      destruct (Z.eqb_spec z (Z.of_nat q)) as [->|N].
      + rewrite Nat2Z.id, !nth_upd_same by lia. auto.
      + rewrite !nth_upd_other by lia. auto. }
  destruct (G d D ND (repeat 0%Q n) (repeat 0%Q n)) as (x & z & E & Lx & Lz & H); try apply repeat_length.
  exists x, z. split; [auto|]. split; [auto|]. split; [auto|]. intros q Lq. destruct (H q Lq) as [-> ->]. rewrite nth_repeat_lt by auto. auto.
Qed.
Lemma p_meas_ok l d a : consistent l -> indexed l -> (forall z p, In (z, p) d -> ancilla_number (length (l_data l)) (length (l_stabs l)) z) -> NoDup (map fst d) ->
  length a = length (l_stabs l) ->
  exists m, p_meas l d a = Ok m /\ length m = length (l_stabs l) /\
    forall s, s < length (l_stabs l) -> nth s m 0%Q = looked_up d (pget "p") (length (l_data l) + s) (nth s a 0%Q).
Proof.
  intros C X. unfold p_meas. set (n := length (l_data l)) in *. set (k := length (l_stabs l)) in *. revert a.
  induction d as [|[z p] d IH]; intros a D ND La; cbn [foldR].
  - exists a. auto.
  - inversion ND as [|? ? NI ND']; subst. assert (Dz := D z p (or_introl eq_refl)). cbn [fst snd]. destruct (equbit_stab l z C X Dz) as (v & -> & K & I).
    cbn [bindR]. rewrite K. cbn [assertR bindR]. unfold put_at. rewrite I. fold n. unfold ancilla_number in Dz. rewrite !put_upd by lia. cbn [bindR].
    destruct (IH (upd (Z.to_nat z - n) (pget "p" p) a)) as (m & E & Lm & H); auto; [intros z' p' J; apply (D z' p'); right; auto|rewrite length_upd; auto|].
    exists m. split; [exact E|]. split; [auto|]. intros s Ls. rewrite (H s Ls), looked_up_cons by auto.
    destruct (Z.eqb_spec z (Z.of_nat (n + s))) as [->|N].
    + rewrite Nat2Z.id. replace (n + s - n) with s by lia. rewrite nth_upd_same by lia. auto.
    + rewrite nth_upd_other by lia. auto.
Qed.

Lemma nth_update a b q : length a = length b -> q < length a -> nth q (update_p_eff a b) 0%Q = update_p (nth q a 0%Q) (nth q b 0%Q).
Proof.
  intros L Lq. unfold update_p_eff. set (f := fun qp : Q * Q => update_p (fst qp) (snd qp)). rewrite (nth_indep _ 0%Q (f (0%Q, 0%Q))) by (rewrite map_length, combine_length; lia).
  rewrite map_nth, combine_nth by auto. auto.
Qed.
Lemma length_update a b : length a = length b -> length (update_p_eff a b) = length b.
Proof. intros L. unfold update_p_eff. rewrite map_length, combine_length. lia. Qed.
Lemma source_ok l d fx fz p : consistent l -> indexed l -> (forall z r, In (z, r) d -> data_number (length (l_data l)) z) -> NoDup (map fst d) ->
  length (p_x_eff p) = length (l_data l) -> length (p_z_eff p) = length (l_data l) ->
  exists p', match d with [] => Ok p | _ => do q <- q_arrays l fx fz d (length (p_x_eff p));
      Ok (mkProbabs (update_p_eff (fst q) (p_x_eff p)) (update_p_eff (snd q) (p_z_eff p)) (p_measured p)) end = Ok p' /\
    length (p_x_eff p') = length (l_data l) /\ length (p_z_eff p') = length (l_data l) /\ p_measured p' = p_measured p /\
    forall q, q < length (l_data l) -> (nth q (p_x_eff p') 0 == update_p (looked_up d fx q 0) (nth q (p_x_eff p) 0))%Q /\
      (nth q (p_z_eff p') 0 == update_p (looked_up d fz q 0) (nth q (p_z_eff p) 0))%Q.
Proof.
  intros C X D ND Lx Lz. destruct d as [|kv d'] eqn:Ed.
  - exists p. do 4 (split; auto). intros q Lq. unfold looked_up, get1, update_p. cbn [find]. split; ring.
  - rewrite <- Ed in *. clear Ed. rewrite Lx. destruct (q_arrays_ok l fx fz d C X D ND) as (x & z & -> & Ax & Az & H). cbn [bindR fst snd].
    eexists. split; [reflexivity|]. cbn [p_x_eff p_z_eff p_measured]. rewrite !length_update by lia. do 3 (split; auto).
    intros q Lq. destruct (H q Lq) as [<- <-]. rewrite !nth_update by lia. split; reflexivity.
Qed.
Lemma odd_one p : (odd_prob [p] == p)%Q.
Proof. rewrite odd_cons. unfold update_p, odd_prob. cbn. ring. Qed.
Lemma odd_two p q : (odd_prob [p; q] == update_p p q)%Q.
Proof. rewrite odd_cons, odd_one. reflexivity. Qed.
Lemma looked_pauli e q : (looked_up (er_pauli e) (fun r => pget "x" r + pget "y" r) q 0 == pauli_prob e q PX + pauli_prob e q PY)%Q /\
  (looked_up (er_pauli e) (fun r => pget "y" r + pget "z" r) q 0 == pauli_prob e q PY + pauli_prob e q PZ)%Q.
Proof. unfold looked_up, pauli_prob. destruct (get1 _ _); split; ring. Qed.
Lemma looked_erasure e q : (looked_up (er_erasure e) (fun r => pget "p" r / 2) q 0 == erase_prob e q / 2)%Q.
Proof. unfold looked_up, erase_prob. destruct (get1 _ _); field. Qed.

Lemma computed ew cd e : experiment_code cd -> named_errors (n_data_qubits (c_ops cd)) (n_stabgens (c_ops cd)) e -> no_gate_errors e -> distinct_keys e ->
  exists p, weight_computation ew cd e = Ok p /\ length (p_x_eff p) = n_data_qubits (c_ops cd) /\ length (p_z_eff p) = n_data_qubits (c_ops cd) /\
    length (p_measured p) = n_stabgens (c_ops cd) /\
    (forall q, q < n_data_qubits (c_ops cd) ->
       (nth q (p_x_eff p) 0 == odd_prob ((pauli_prob e q PX + pauli_prob e q PY) :: if ew then [erase_prob e q / 2] else []))%Q /\
       (nth q (p_z_eff p) 0 == odd_prob ((pauli_prob e q PY + pauli_prob e q PZ) :: if ew then [erase_prob e q / 2] else []))%Q) /\
    (forall s, s < n_stabgens (c_ops cd) -> nth s (p_measured p) 0%Q = flip_prob e (n_data_qubits (c_ops cd) + s)).
Proof.
  intros XC NE (G1 & G2 & G3 & G4 & G5) [D1 D2 D3]. unfold weight_computation. unfold n_stabgens in *. rewrite xc_nd, xc_ns in * by auto.
  assert (C := xc_consistent _ XC). assert (X := xc_indexed _ XC). set (l := c_lattice cd) in *.
  destruct (decided_errors l e C X) as [[-> _]|[_ N]]; [|tauto]. cbn [bindR]. rewrite G1, G2, G3, G4, G5. unfold compute_probabs. cbv zeta.
  set (n := length (l_data l)) in *. set (m := length (l_stabs l)) in *. destruct NE as [N1 N2 N3 _ _ _ _ _].
  set (p0 := mkProbabs (repeat 0%Q n) (repeat 0%Q n) (repeat 0%Q m)).
  destruct (source_ok l (er_pauli e) (fun r => pget "x" r + pget "y" r)%Q (fun r => pget "y" r + pget "z" r)%Q p0 C X (fun z r I => proj1 (N1 z r I)) D1 (repeat_length _ _) (repeat_length _ _))
    as (p1 & E1 & Lx1 & Lz1 & M1 & H1).
  assert (E1' : (match er_pauli e with [] => Ok p0 | d => p_eff_pauli_1 l d p0 end) = Ok p1) by (rewrite <- E1; destruct (er_pauli e); reflexivity).
  rewrite E1'. cbn [bindR]. clear E1 E1'.
  assert (exists p2, (if ew then match er_erasure e with [] => Ok p1 | d => p_eff_erasure l d p1 end else Ok p1) = Ok p2 /\ length (p_x_eff p2) = n /\ length (p_z_eff p2) = n /\
    p_measured p2 = p_measured p1 /\ forall q, q < n ->
       (nth q (p_x_eff p2) 0 == odd_prob ((pauli_prob e q PX + pauli_prob e q PY) :: if ew then [erase_prob e q / 2] else []))%Q /\
       (nth q (p_z_eff p2) 0 == odd_prob ((pauli_prob e q PY + pauli_prob e q PZ) :: if ew then [erase_prob e q / 2] else []))%Q) as (p2 & E2 & Lx2 & Lz2 & M2 & H2).
  { assert (Z : forall q, q < n -> nth q (repeat 0%Q n) 0%Q = 0%Q) by (intros; apply nth_repeat_lt; auto). destruct ew.
    - destruct (source_ok l (er_erasure e) (fun r => pget "p" r / 2)%Q (fun r => pget "p" r / 2)%Q p1 C X (fun z r I => proj1 (N2 z r I)) D2 Lx1 Lz1) as (p2 & E2 & Lx2 & Lz2 & M2 & H2).
      exists p2. split; [rewrite <- E2; destruct (er_erasure e); reflexivity|]. do 3 (split; auto). intros q Lq. destruct (H2 q Lq) as [-> ->]. destruct (H1 q Lq) as [-> ->].
      cbn [p0 p_x_eff p_z_eff]. rewrite Z, !odd_two by auto. destruct (looked_pauli e q) as [-> ->]. rewrite looked_erasure. unfold update_p. split; ring.
    - exists p1. do 4 (split; auto). intros q Lq. destruct (H1 q Lq) as [-> ->]. cbn [p0 p_x_eff p_z_eff]. rewrite Z, !odd_one by auto. destruct (looked_pauli e q) as [-> ->].
      unfold update_p. split; ring. }
  rewrite E2. cbn [bindR]. clear E2.
  destruct (p_meas_ok l (er_measurement e) (p_measured p2) C X (fun z r I => proj1 (N3 z r I)) D3) as (mm & E3 & L3 & H3).
  { rewrite M2, M1. cbn. apply repeat_length. }
  destruct (er_measurement e) as [|kv d'] eqn:Em.
  - exists p2. do 3 (split; auto). split; [rewrite M2, M1; apply repeat_length|]. split; auto.
    intros s Ls. rewrite M2, M1. cbn. rewrite nth_repeat_lt by auto. unfold flip_prob. rewrite Em. reflexivity.
  - rewrite E3. cbn [bindR]. eexists. split; [reflexivity|]. cbn [p_x_eff p_z_eff p_measured]. do 4 (split; auto).
    intros s Ls. rewrite (H3 s Ls), M2, M1. cbn [p0 p_measured]. rewrite nth_repeat_lt by auto. unfold flip_prob, looked_up. rewrite Em. auto.
Qed.

(** * Default values *)
Lemma pget_pset k v k' p : pget k' (pset k v p) = if String.eqb k k' then v else pget k' p.
Proof.
  unfold pset, pget. destruct (existsb _ p) eqn:E.
  - induction p as [|[a x] p IH]; [discriminate|]. cbn [map find existsb fst] in *. destruct (String.eqb_spec a k) as [->|N].
    + cbn [fst]. destruct (String.eqb_spec k k') as [->|N']; auto.
      clear - N'. induction p as [|[a x] p IH]; auto. cbn [map find fst]. destruct (String.eqb_spec a k) as [->|]; cbn [fst].
      * destruct (String.eqb_spec k k'); [congruence|auto].
      * destruct (String.eqb a k'); auto.
    + cbn [fst orb] in *. destruct (String.eqb_spec a k') as [->|N']; cbn [snd]; [|auto]. destruct (String.eqb_spec k k'); [congruence|auto].
  - induction p as [|[a x] p IH]; cbn [app find existsb fst] in *.
    + destruct (String.eqb k k'); auto.
    + apply orb_false_iff in E as [E1 E2]. destruct (String.eqb_spec a k') as [->|]; auto. rewrite String.eqb_sym, E1. auto.
Qed.
Lemma in_pset k v p a x : In (a, x) (pset k v p) -> a = k \/ In (a, x) p.
Proof.
  unfold pset. destruct (existsb _ p).
  - intros I. apply in_map_iff in I as ([b y] & E & I). cbn in E. destruct (String.eqb b k); injection E as -> ->; auto.
  - intros I. apply in_app_iff in I as [I|[E|[]]]; auto. injection E as -> ->. auto.
Qed.
Lemma get1_dset q v d q' : get1 (dset q v d) (Some q') = if q =? q' then Some v else get1 d (Some q').
Proof.
  unfold dset, get1. destruct (existsb _ d) eqn:E.
  - induction d as [|[a x] d IH]; [discriminate|]. cbn [map find existsb fst] in *. destruct (Z.eqb_spec a (Z.of_nat q)) as [->|N].
    + cbn [fst]. destruct (Nat.eqb_spec q q') as [->|N']; [rewrite Z.eqb_refl; auto|]. rewrite !(proj2 (Z.eqb_neq (Z.of_nat q) (Z.of_nat q'))) by lia.
      clear E IH. induction d as [|[a x'] d IH]; auto. cbn [map find fst]. destruct (Z.eqb_spec a (Z.of_nat q)) as [->|]; cbn [fst].
      * rewrite !(proj2 (Z.eqb_neq (Z.of_nat q) (Z.of_nat q'))) by lia. auto.
      * destruct (Z.eqb a (Z.of_nat q')); auto.
    + cbn [fst orb] in *. destruct (Z.eqb_spec a (Z.of_nat q')) as [->|N']; cbn [snd]; [|auto]. destruct (Nat.eqb_spec q q'); [subst; congruence|auto].
  - induction d as [|[a x] d IH]; cbn [app find existsb fst] in *.
    + destruct (Nat.eqb_spec q q') as [->|]; [rewrite Z.eqb_refl; auto|]. rewrite (proj2 (Z.eqb_neq _ _)) by lia. auto.
    + apply orb_false_iff in E as [E1 E2]. apply Z.eqb_neq in E1. destruct (Z.eqb_spec a (Z.of_nat q')) as [->|]; auto. destruct (Nat.eqb_spec q q'); [subst; congruence|auto].
Qed.
Lemma in_dset q v d a x : In (a, x) (dset q v d) -> (a = Z.of_nat q /\ x = v) \/ In (a, x) d.
Proof.
  unfold dset. destruct (existsb _ d).
  - intros I. apply in_map_iff in I as ([b y] & E & I). cbn in E. destruct (Z.eqb b (Z.of_nat q)); injection E as -> ->; auto.
  - intros I. apply in_app_iff in I as [I|[E|[]]]; auto. injection E as -> ->. auto.
Qed.
Lemma NoDup_dset q v d : NoDup (map fst d) -> NoDup (map fst (dset q v d)).
Proof.
  intros N. unfold dset. destruct (existsb _ d) eqn:E.
  - rewrite map_map. erewrite map_ext; [exact N|]. intros [a x]. cbn. destruct (Z.eqb_spec a (Z.of_nat q)); auto.
  - rewrite map_app. cbn. rewrite <- (rev_involutive (map fst d ++ [Z.of_nat q])). apply NoDup_rev. rewrite rev_app_distr. cbn. constructor; [|apply NoDup_rev; auto].
    rewrite <- in_rev, in_map_iff. intros ([a x] & Ea & I). cbn in Ea. subst. assert (F : existsb (fun kv : Z * params => (fst kv =? Z.of_nat q)%Z) d = true).
    { apply existsb_exists. exists (Z.of_nat q, x). split; auto. apply Z.eqb_refl. } congruence.
Qed.
Lemma fill_params_get p : pget "x" (fill_params p) = filled (pget "x" p) /\ pget "y" (fill_params p) = filled (pget "y" p) /\ pget "z" (fill_params p) = filled (pget "z" p).
Proof.
  unfold fill_params. cbn [fold_left].
  set (p1 := if Qeq_bool (pget "x" p) 0 then pset "x" tiny p else p).
  assert (A : pget "x" p1 = filled (pget "x" p) /\ pget "y" p1 = pget "y" p /\ pget "z" p1 = pget "z" p).
  { unfold p1, filled. destruct (Qeq_bool (pget "x" p) 0); rewrite ?pget_pset; auto. }
  destruct A as (A1 & A2 & A3). clearbody p1.
  set (p2 := if Qeq_bool (pget "y" p1) 0 then pset "y" tiny p1 else p1).
  assert (B : pget "x" p2 = pget "x" p1 /\ pget "y" p2 = filled (pget "y" p1) /\ pget "z" p2 = pget "z" p1).
  { unfold p2, filled. destruct (Qeq_bool (pget "y" p1) 0); rewrite ?pget_pset; auto. }
  destruct B as (B1 & B2 & B3). clearbody p2. rewrite A2 in B2. rewrite A3 in B3. rewrite A1 in B1.
  unfold filled at 3. destruct (Qeq_bool (pget "z" p2) 0) eqn:E; rewrite B3 in E; rewrite E, ?pget_pset; auto.
Qed.
Lemma in_fill_params p k x : In (k, x) (fill_params p) -> In k ["x"; "y"; "z"] \/ exists y, In (k, y) p.
Proof.
  unfold fill_params. cbn [fold_left]. intros I.
  assert (S : forall c k0 p0, In k0 ["x"; "y"; "z"] -> In (k, x) (if c : bool then pset k0 tiny p0 else p0) -> In k ["x"; "y"; "z"] \/ In (k, x) p0).
  { intros [] k0 p0 I0 H; auto. apply in_pset in H as [-> |H]; auto. }
  apply S in I as [I|I]; [auto| |cbn; auto]. apply S in I as [I|I]; [auto| |cbn; auto]. apply S in I as [I|I]; [auto|eauto|cbn; auto].
Qed.

(** What a change of the error data keeps. *)
Record fills (n m : nat) (on : nat -> bool) (e e' : errors) : Prop := {
  fi_pauli : forall q P, P <> PI -> pauli_prob e' q P = if on q then filled (pauli_prob e q P) else pauli_prob e q P;
  fi_erase : forall q, erase_prob e' q = erase_prob e q;
  fi_measurement : er_measurement e' = er_measurement e;
  fi_gates : no_gate_errors e -> no_gate_errors e';
  fi_named : named_errors n m e -> named_errors n m e';
  fi_distinct : distinct_keys e -> distinct_keys e' }.
Lemma named_default : forall k x, In (k, x) default_pauli -> In k ["x"; "y"; "z"].
Proof. intros k x [E|[E|[E|[]]]]; injection E as <- _; cbn; auto. Qed.
Lemma named_dset (dom : Z -> Prop) names q v d : dom (Z.of_nat q) -> (forall k x, In (k, x) v -> In k names) -> named dom names d -> named dom names (dset q v d).
Proof. intros D V N z p I. apply in_dset in I as [[-> ->]|I]; auto. Qed.
Lemma fill_qubit_ok n m b e q : q < n -> fills n m (fun q' => q =? q') e (fill_qubit b e q).
Proof.
  intros Lq. unfold fill_qubit.
  set (v := match get1 (er_pauli e) (Some q) with None | Some [] => default_pauli | Some p => fill_params p end).
  assert (E : (match get1 (er_pauli e) (Some q) with None | Some [] => set_pauli (dset q default_pauli (er_pauli e)) e | Some p => set_pauli (dset q (fill_params p) (er_pauli e)) e end) =
    set_pauli (dset q v (er_pauli e)) e) by (unfold v; destruct (get1 (er_pauli e) (Some q)) as [[|]|]; auto).
  rewrite E. clear E. cbv zeta.
  assert (V : forall P, P <> PI -> match P with PI => 0%Q | PX => pget "x" v | PY => pget "y" v | PZ => pget "z" v end = filled (pauli_prob e q P)).
  { intros P NP. unfold v, pauli_prob. destruct (get1 (er_pauli e) (Some q)) as [[|kv p]|].
    - destruct P; try congruence; reflexivity.
    - destruct (fill_params_get (kv :: p)) as (A & B & C). destruct P; try congruence; auto.
    - destruct P; try congruence; reflexivity. }
  assert (NV : named_errors n m e -> forall k x, In (k, x) v -> In k ["x"; "y"; "z"]).
  { intros [N _ _ _ _ _ _ _] k x I. unfold v in I. destruct (get1 (er_pauli e) (Some q)) as [[|kv p]|] eqn:G; try (eapply named_default; eauto; fail).
    apply in_fill_params in I as [I|(y & I)]; auto. unfold get1 in G. destruct (find _ _) as [[z r]|] eqn:F; [|discriminate]. injection G as ->. apply find_some in F as [F _].
    exact (proj2 (N _ _ F) _ _ I). }
  assert (S : fills n m (fun q' => q =? q') e (set_pauli (dset q v (er_pauli e)) e)).
  { split; cbn [set_pauli].
    - intros q' P NP. specialize (V P NP). unfold pauli_prob at 1. cbn [set_pauli er_pauli]. rewrite get1_dset. destruct (Nat.eqb_spec q q') as [->|].
      + destruct P; auto. congruence.
      + reflexivity.
    - auto.
    - auto.
    - intros (G1 & G2 & G3 & G4 & G5). repeat split; auto.
    - intros N. specialize (NV N). destruct N. split; auto. cbn [er_pauli]. apply named_dset; auto. unfold data_number. lia.
    - intros [D1 D2 D3]. split; cbn; auto. apply NoDup_dset; auto. }
  set (e1 := set_pauli _ e) in *. clearbody e1. clear V NV v.
  assert (S2 : (match get1 (er_erasure e1) (Some q) with None | Some [] => True | _ => False end) -> fills n m (fun q' => q =? q') e (set_er_erasure (dset q [("p", 0%Q)] (er_erasure e1)) e1)).
  { intros G. destruct S as [A B C D F H]. split; auto.
    - intros q'. rewrite <- B. unfold erase_prob. cbn [set_er_erasure er_erasure]. rewrite get1_dset. destruct (Nat.eqb_spec q q') as [->|]; auto.
      destruct (get1 (er_erasure e1) (Some q')) as [[|]|]; try tauto; reflexivity.
    - intros N. apply F in N. destruct N. split; auto. cbn [er_erasure set_er_erasure]. apply named_dset; auto; [unfold data_number; lia|].
      intros k x [E|[]]. injection E as <- _. cbn. auto.
    - intros N. apply H in N. destruct N. split; auto. cbn [er_erasure set_er_erasure]. apply NoDup_dset; auto. }
  destruct b; auto. destruct (get1 (er_erasure e1) (Some q)) as [[|]|]; auto.
Qed.
Lemma fills_trans n m on1 on2 e e1 e2 : (forall q, on1 q = true -> on2 q = false) -> fills n m on1 e e1 -> fills n m on2 e1 e2 -> fills n m (fun q => on1 q || on2 q) e e2.
Proof.
  intros D [A1 B1 C1 D1 F1 H1] [A2 B2 C2 D2 F2 H2]. split; auto; try congruence.
  intros q P NP. rewrite A2, A1 by auto. specialize (D q). destruct (on1 q); [rewrite D by auto|]; auto.
Qed.
Lemma fills_ext n m on on' e e' : (forall q, on q = on' q) -> fills n m on e e' -> fills n m on' e e'.
Proof. intros E [A B C D F H]. split; auto. intros q P NP. rewrite <- E. auto. Qed.
Lemma fill_loop n m b L : forall e, NoDup L -> (forall q, In q L -> q < n) -> fills n m (fun q => existsb (Nat.eqb q) L) e (fold_left (fill_qubit b) L e).
Proof.
  induction L as [|q L IH]; intros e ND I; cbn [fold_left].
  - split; auto.
  - inversion ND as [|? ? NI ND']; subst.
    eapply fills_ext; [|eapply fills_trans; [|apply (fill_qubit_ok n m b e q); apply I; left; auto|apply IH; auto]].
    + intros q'. cbn [existsb]. cbv beta. rewrite (Nat.eqb_sym q q'). reflexivity.
    + intros q' E. apply Nat.eqb_eq in E. subst. destruct (existsb (Nat.eqb q') L) eqn:X; auto. apply existsb_exists in X as (y & Iy & Ey). apply Nat.eqb_eq in Ey. subst. tauto.
    + intros y Iy. apply I. right; auto.
Qed.
Lemma get1_defaults n q : get1 (map (fun q => (Z.of_nat q, default_pauli)) (seq 0 n)) (Some q) = if q <? n then Some default_pauli else None.
Proof.
  unfold get1. assert (G : forall k s, find (fun kv : Z * params => (fst kv =? Z.of_nat q)%Z) (map (fun q => (Z.of_nat q, default_pauli)) (seq s k)) =
    if (s <=? q) && (q <? s + k) then Some (Z.of_nat q, default_pauli) else None).
  { induction k as [|k IH]; intros s; cbn [seq map find fst].
    - destruct (Nat.leb_spec s q), (Nat.ltb_spec q (s + 0)); auto; lia.
    - destruct (Z.eqb_spec (Z.of_nat s) (Z.of_nat q)) as [E|N].
      + apply Nat2Z.inj in E. subst. rewrite (proj2 (Nat.leb_le q q)), (proj2 (Nat.ltb_lt q (q + S k))) by lia. auto.
      + rewrite IH. destruct (Nat.leb_spec (S s) q), (Nat.leb_spec s q), (Nat.ltb_spec q (S s + k)), (Nat.ltb_spec q (s + S k)); auto; lia. }
  rewrite G. change ((0 <=? q) && (q <? 0 + n)) with (q <? n). destruct (q <? n); auto.
Qed.
Lemma defaults_ok n m e : er_pauli e = [] -> fills n m (fun q => q <? n) e (set_pauli (map (fun q => (Z.of_nat q, default_pauli)) (seq 0 n)) e).
Proof.
  intros E. split; auto.
  - intros q P NP. unfold pauli_prob. cbn [er_pauli set_pauli]. rewrite get1_defaults, E. cbn [get1 find]. destruct (q <? n); destruct P; auto; congruence.
  - intros N. destruct N. split; auto. cbn [er_pauli set_pauli]. intros z p I. apply in_map_iff in I as (q & Eq & I). apply in_seq in I. injection Eq as <- <-.
    split; [unfold data_number; lia|apply named_default].
  - intros [D1 D2 D3]. split; auto. cbn [er_pauli set_pauli]. rewrite map_map. cbn. apply FinFun.Injective_map_NoDup; [intros a b H; lia|apply seq_NoDup].
Qed.
Lemma existsb_seq q n : existsb (Nat.eqb q) (seq 0 n) = (q <? n).
Proof.
  destruct (Nat.ltb_spec q n).
  - apply existsb_exists. exists q. rewrite in_seq, Nat.eqb_refl. split; auto; lia.
  - destruct (existsb _ _) eqn:E; auto. apply existsb_exists in E as (y & I & Q). apply Nat.eqb_eq in Q. apply in_seq in I. lia.
Qed.
Lemma fill_errors_ok n m e : fills n m (fun q => q <? n) e (fill_errors n e).
Proof.
  unfold fill_errors. destruct (er_pauli e) as [|kv d] eqn:E; [apply defaults_ok; auto|].
  eapply fills_ext; [|apply fill_loop; [apply seq_NoDup|intros q I; apply in_seq in I; lia]]. intros q. apply existsb_seq.
Qed.
