(** Property theorem C59: union-find decoders correct few faults. *)
Require Import List Bool Arith ZArith QArith Lia String Relations.
From Verif Require Import Base BaseProofs QSpec PauliModel PauliAlg MeasureProofs GraphSpec GraphProofs LatticeSpec LatticeOps
  CodesModel CodesSpec GeneratorModel GeneratorSpec MemorySem ErasureModel SyngraphModel SyngraphFinal UnionFindMetric
  SyngraphProofs SyngraphErrors Props_Syngraph DecoderSpec DecoderModel DecoderProofs DecoderObjects DecoderHistory DecoderCheck Props_Decoder
  DecoderDistance FaultSpec DecoderFaults DecoderEven.
Import ListNotations.
Local Open Scope string_scope.
Local Open Scope nat_scope.
Local Open Scope list_scope.
Notation total := DecoderSpec.total.

(** * Prices *)
Lemma price_times c a b n gens er E p t q : price (c * a) (c * b) n gens er E p t q = c * price a b n gens er E p t q.
Proof. unfold price. destruct (erased er t q), (has_twin n gens p q), (error_part p (E t q)); lia. Qed.
Lemma total_times c a b rounds n gens allow side er E F :
  total_price (c * a) (c * b) rounds n gens allow side er E F = c * total_price a b rounds n gens allow side er E F.
Proof.
  assert (S : forall {A} (f g : A -> nat) l, (forall x, f x = c * g x) -> sum f l = c * sum g l).
  { intros A f g l H. induction l as [|x l IH]; [cbn; lia|]. rewrite !sum_cons, IH, H. lia. }
  unfold total_price. rewrite Nat.mul_add_distr_l. f_equal.
  - apply S. intros p. apply S. intros t. apply S. intros q. apply price_times.
  - apply S. intros t. apply S. intros s. destruct (side s && F t s); lia.
Qed.

(** The number of errors (Y counts as X and Z) and wrong results. *)
Definition fault_count (rounds n : nat) (gens : list row) (allow : pauli1 -> bool) (side : nat -> bool)
  (E : nat -> nat -> bool * bool) (F : nat -> nat -> bool) : nat :=
  List.length (filter (fun x => error_part (fst (fst x)) (E (snd (fst x)) (snd x)))
    (list_prod (list_prod (filter allow [PX; PZ]) (seq 0 rounds)) (seq 0 n))) +
  List.length (filter (fun x => side (snd x) && F (fst x) (snd x)) (list_prod (seq 0 rounds) (seq 0 (List.length gens)))).

Lemma sum_prod {A B} (f : A * B -> nat) l l' : sum f (list_prod l l') = sum (fun a => sum (fun b => f (a, b)) l') l.
Proof.
  induction l as [|a l IH]; auto. cbn [list_prod]. rewrite sum_app, IH, sum_cons. f_equal. apply sum_map.
Qed.
Lemma count_sum {A} (f : A -> bool) l : List.length (filter f l) = sum (fun a => if f a then 1 else 0) l.
Proof. induction l as [|a l IH]; auto. rewrite sum_cons, <- IH. cbn [filter]. destruct (f a); cbn [List.length]; lia. Qed.

Lemma fault_price rounds n gens allow side E F a b :
  total_price a b rounds n gens allow side None E F = a * fault_count rounds n gens allow side E F.
Proof.
  unfold fault_count, total_price. rewrite !count_sum, !sum_prod. cbn [fst snd].
  assert (S : forall {A} (f g : A -> nat) l, (forall x, f x = a * g x) -> sum f l = a * sum g l).
  { intros A f g l H. induction l as [|x l IH]; [cbn; lia|]. rewrite !sum_cons, IH, H. lia. }
  rewrite Nat.mul_add_distr_l. f_equal.
  - apply S. intros p. apply S. intros t. apply S. intros q. unfold price, erased. destruct (error_part p (E t q)); lia.
  - apply S. intros t. apply S. intros s. destruct (side s && F t s); lia.
Qed.

(** * C59 Few faults are corrected *)
(** Decoders without weights.  Errors and wrong results which have not been announced cost 3,
    erased qubits cost 1.  If the total price of those faults which can change the value of the
    logical operator [l] is less than the distance of the code with respect to [l], errors and
    correction together commute with [l].  The errors of the letters [allow] and the generators
    [side] which detect them can be all of them, or for CSS codes (for [l] with letters Z only)
    the X errors and the Z generators. *)
Theorem C59_few_faults : forall cls rounds n gens d, generators n gens -> 0 < rounds -> uf_interface cls rounds gens None d ->
  exists bound, forall fuel er syn E F, bound <= fuel ->
    match er with None => true | Some q => has_shape q rounds n end = true -> has_shape syn rounds (List.length gens) = true ->
    explained None rounds n gens syn E F ->
    exists d' fr, interface_decode fuel er syn d = Ok (d', fr) /\ uf_interface cls rounds gens None d' /\ List.length (ops fr) = n /\
      forall l dist allow side, logical_distance n gens l dist -> detected_by n gens allow side l ->
        total_price 3 1 rounds n gens allow side er E F < dist ->
        anti (seq 0 n) l (fun q => pxor (fac fr q) (total rounds E q)) = false.
Proof.
  intros cls rounds n gens d G Hr UI. destruct (faults_corrected cls rounds n gens None d 2 G I Hr eq_refl UI) as (b & H). exists b.
  intros fuel er syn E F Lf SE SS EX. destruct (H fuel er syn E F Lf SE SS EX) as (d' & fr & R & UI' & LF & C). exists d', fr. repeat (split; auto).
  intros l dist allow side LD DB TP. apply (C l dist allow side LD DB).
  pose proof (total_times 2 3 1 rounds n gens allow side er E F) as T. change (2 * (2 + 1)) with (2 * 3). change (total_price (2 * 3) 2) with (total_price (2 * 3) (2 * 1)). rewrite T. lia.
Qed.
Print Assumptions C59_few_faults.

(** The same weight for all errors: unannounced faults cost 5/2. *)
Theorem C59_same_weights : forall cls rounds n gens w x d, generators n gens -> 0 < rounds ->
  weights_fit n (List.length gens) (Some w) -> (0 < x)%Q ->
  (forall q, q < n -> weight_at (w_x w) q = Fin x /\ weight_at (w_z w) q = Fin x) ->
  (forall s, s < List.length gens -> weight_at (w_meas w) s = Fin x) ->
  uf_interface cls rounds gens (Some w) d ->
  exists bound, forall fuel er syn E F, bound <= fuel ->
    match er with None => true | Some q => has_shape q rounds n end = true -> has_shape syn rounds (List.length gens) = true ->
    explained (Some w) rounds n gens syn E F ->
    exists d' fr, interface_decode fuel er syn d = Ok (d', fr) /\ uf_interface cls rounds gens (Some w) d' /\ List.length (ops fr) = n /\
      forall l dist allow side, logical_distance n gens l dist -> detected_by n gens allow side l ->
        total_price 5 2 rounds n gens allow side er E F < 2 * dist ->
        anti (seq 0 n) l (fun q => pxor (fac fr q) (total rounds E q)) = false.
Proof.
  intros cls rounds n gens w x d G Hr Hw Px W1 W2 UI.
  assert (SW : same_weights n (List.length gens) (Some w) 4) by (split; [auto|]; exists x; auto).
  destruct (faults_corrected cls rounds n gens (Some w) d 4 G Hw Hr SW UI) as (b & H). exists b.
  intros fuel er syn E F Lf SE SS EX. destruct (H fuel er syn E F Lf SE SS EX) as (d' & fr & R & UI' & LF & C). exists d', fr. repeat (split; auto).
  intros l dist allow side LD DB TP. apply (C l dist allow side LD DB).
  pose proof (total_times 2 5 2 rounds n gens allow side er E F) as T. change (2 * (4 + 1)) with (2 * 5). change (total_price (2 * 5) 4) with (total_price (2 * 5) (2 * 2)). rewrite T. lia.
Qed.
Print Assumptions C59_same_weights.

(** Without erasures: less than a third of the distance. *)
Theorem C59_third : forall cls rounds n gens d, generators n gens -> 0 < rounds -> uf_interface cls rounds gens None d ->
  exists bound, forall fuel syn E F, bound <= fuel -> has_shape syn rounds (List.length gens) = true ->
    explained None rounds n gens syn E F ->
    exists d' fr, interface_decode fuel None syn d = Ok (d', fr) /\
      forall l dist allow side, logical_distance n gens l dist -> detected_by n gens allow side l ->
        3 * fault_count rounds n gens allow side E F < dist ->
        anti (seq 0 n) l (fun q => pxor (fac fr q) (total rounds E q)) = false.
Proof.
  intros cls rounds n gens d G Hr UI. destruct (C59_few_faults cls rounds n gens d G Hr UI) as (b & H). exists b.
  intros fuel syn E F Lf SS EX. destruct (H fuel None syn E F Lf eq_refl SS EX) as (d' & fr & R & _ & _ & C). exists d', fr. split; auto.
  intros l dist allow side LD DB TP. apply (C l dist allow side LD DB). rewrite fault_price. auto.
Qed.
Print Assumptions C59_third.

(** Memory experiments: if some error history with few faults shows the sample, decoding it
    succeeds. *)
Theorem C59_memory : forall cls cd x is d, experiment_code cd -> (1 <= c_rounds cd)%Z ->
  logical_ops_to_indices (c_ops cd) x = Ok is -> is <> [] ->
  let n := n_data_qubits (c_ops cd) in let gens := c_stabs (c_ops cd) in let rounds := Z.to_nat (c_rounds cd) in
  uf_interface cls rounds gens None d ->
  exists bound, forall fuel sm E K F, bound <= fuel ->
    shows cd is rounds E K F sm -> (forall s, s < List.length gens -> F 0 s = false /\ F rounds s = false) ->
    (forall i, In i is -> exists dist allow side, logical_distance n gens (fac (nth i (c_logicals (c_ops cd)) row0)) dist /\
      detected_by n gens allow side (fac (nth i (c_logicals (c_ops cd)) row0)) /\
      total_price 3 1 rounds n gens allow side (sm_erased sm) E F < dist) ->
    exists d' fr, interface_decode fuel (sm_erased sm) (sm_syndrome sm) d = Ok (d', fr) /\
      check_success (c_ops cd) fr (sm_toggle sm) (Some x) = Ok true.
Proof.
  intros cls cd x is d XC HR EI NE n gens rounds UI. pose proof (experiment_generators cd XC) as G. fold n gens in G.
  assert (Hr : 0 < rounds) by (unfold rounds; lia).
  destruct (C59_few_faults cls rounds n gens d G Hr UI) as (b & H). exists b. intros fuel sm E K F Lf SH FF FEW.
  assert (SE : shaped rounds n (sm_erased sm) = true).
  { destruct (sm_erased sm) as [m|] eqn:Em; [|reflexivity]. cbn [shaped]. rewrite (sh_erased _ _ _ _ _ _ _ SH m Em).
    unfold has_shape. rewrite map_length, seq_length, Nat.eqb_refl. cbn [andb]. apply forallb_forall. intros y I.
    apply in_map_iff in I. destruct I as (t & <- & _). rewrite map_length, seq_length. apply Nat.eqb_refl. }
  assert (SS : has_shape (sm_syndrome sm) rounds (List.length gens) = true).
  { unfold has_shape. rewrite (sh_rounds _ _ _ _ _ _ _ SH), Nat.eqb_refl. cbn [andb]. apply forallb_forall. intros y I.
    rewrite (sh_width _ _ _ _ _ _ _ SH y I). apply Nat.eqb_refl. }
  assert (EX : explained None rounds n gens (sm_syndrome sm) E F).
  { split; try (intros; exact I); [intros s Ls; apply FF; auto|intros s Ls; apply FF; auto|split; intros; exact I|].
    intros t s Lt Ls. apply (sh_syndrome _ _ _ _ _ _ _ SH); auto. }
  destruct (H fuel _ _ E F Lf SE SS EX) as (d' & fr & R & _ & LF & C). exists d', fr. split; auto.
  assert (W : forall l, In l (c_logicals (c_ops cd)) -> List.length (ops l) = n) by (intros l I; unfold n; rewrite xc_nd by auto; apply xc_width; auto).
  pose proof (check_success_ok n (c_ops cd) fr (sm_toggle sm) (Some x) is W eq_refl EI NE) as CS.
  rewrite (sh_logicals _ _ _ _ _ _ _ SH), LF, !Nat.eqb_refl in CS. cbn [andb] in CS. destruct CS as (ok & CS & OK).
  rewrite CS. f_equal. apply OK. intros k Lk. destruct (FEW (nth k is 0) (nth_In _ _ Lk)) as (dist & allow & side & LD & DB & TP).
  specialize (C _ _ _ _ LD DB TP). rewrite anti_xor_r, anti_total in C. apply xorb_eq in C. rewrite C. apply (sh_toggle _ _ _ _ _ _ _ SH k Lk).
Qed.
Print Assumptions C59_memory.

(** The repetition code with 7 qubits and 3 rounds: an error on qubit 1 and a wrong result of
    generator 4, and six erased qubits of which five have errors.  Three errors can be
    corrected as well here; four adjacent ones are not. *)
Definition rep7_decode (er : option (list (list bool))) (xs fs : list (nat * nat)) : Res (nat * list nat) :=
  do cd <- make_repetition 3 7;
  let gens := c_stabs (c_ops cd) in
  let E := fun t q => (existsb (fun y => (fst y =? t) && (snd y =? q)) xs, false) in
  let F := fun t s => existsb (fun y => (fst y =? t) && (snd y =? s)) fs in
  do g <- new_sgraph 3 gens None;
  do d <- new_interface NoWeights g;
  do r <- interface_decode 40 er (map (fun t => map (fun s => xorb (anti (seq 0 7) (fac (nth s gens row0)) (E t)) (xorb (F t s) (F (S t) s))) (seq 0 6)) (seq 0 3)) d;
  Ok (total_price 3 1 3 7 gens is_x (fun _ => true) er E F, nonzero (map fst (ops (snd r)))).
Example C59_example :
  rep7_decode None [(0, 1)] [(1, 4)] = Ok (6, [1]) /\
  rep7_decode (Some [[true; true; true; true; false; false; false]; [false; false; false; false; false; true; false]; [false; false; false; false; true; false; false]])
    [(0, 0); (0, 2); (0, 3); (1, 5); (2, 4)] [] = Ok (6, [0; 2; 3; 4; 5]) /\
  rep7_decode None [(0, 1); (1, 3); (2, 5)] [] = Ok (9, [1; 3; 5]) /\
  rep7_decode None [(0, 0); (0, 1); (0, 2); (0, 3)] [] = Ok (12, [4; 5; 6]).
Proof. repeat split; vm_compute; reflexivity. Qed.
