(** Lemmas: the number of results, and parities of results which are certain without errors. *)
Require Import String List Bool Arith ZArith QArith Qfield Lia Lqa.
From Verif Require Import Base BaseProofs QSpec PauliModel PauliSem PauliAlg StateSpec CircuitModel SimSpec SimModel DistSpec DistMean DistSim FrameSpec FrameProofs FrameMemory.
Import ListNotations.
Local Open Scope string_scope.
Local Open Scope nat_scope.
Local Open Scope list_scope.

Definition gate_width (gt : gate) : nat := if String.eqb (fst gt) "M" then List.length (qubits (snd gt)) else 0.
Definition width (l : list item) : nat := fold_right (fun it k => match it with Plain gt => gate_width gt | Block _ _ => 0 end + k) 0 l.
Lemma depolarize_len qs G G' fl : (forall f es, (G f fl es == G' f fl es)%Q) -> forall f es, (hits_depolarize qs G f fl es == hits_depolarize qs G' f fl es)%Q.
Proof. intros H. induction qs as [|q qs IH]; intros f es; [apply H|]. cbn [hits_depolarize]. apply sum_ext. intros P _. apply Qmult_comp; [reflexivity|]. apply IH. Qed.
Lemma error_gate_len gt G G' fl : (forall f es, (G f fl es == G' f fl es)%Q) -> forall f es, (error_gate gt G f fl es == error_gate gt G' f fl es)%Q.
Proof.
  intros H f es. destruct gt as [name args]. unfold error_gate. cbv zeta.
  destruct (String.eqb name "X"); [apply H|]. destruct (String.eqb name "Y"); [apply H|]. destruct (String.eqb name "Z"); [apply H|].
  destruct (String.eqb name "DEPOLARIZE"); [apply depolarize_len; auto|]. destruct (String.eqb name "E_ERASE").
  { apply Qplus_comp; (apply Qmult_comp; [reflexivity|]); [|apply H]. apply sum_ext. intros P _. apply Qmult_comp; [reflexivity|apply H]. }
  destruct (String.eqb name "E_PAULI"); [apply sum_ext; intros P _; apply Qmult_comp; [reflexivity|apply H]|]. destruct (String.eqb name "E_PAULI2"); [|reflexivity].
  apply sum_ext. intros P _. apply sum_ext. intros P' _. apply Qmult_comp; [reflexivity|apply H].
Qed.
Lemma error_gates_len gs G G' fl : (forall f es, (G f fl es == G' f fl es)%Q) -> forall f es, (error_gates gs G f fl es == error_gates gs G' f fl es)%Q.
Proof. intros H. induction gs as [|gt gs IH]; intros f es; [apply H|]. cbn [error_gates]. apply error_gate_len. auto. Qed.
Lemma error_block_len bs G G' fl : (forall f es, (G f fl es == G' f fl es)%Q) -> forall f es, (error_block bs G f fl es == error_block bs G' f fl es)%Q.
Proof.
  intros H. induction bs as [|b bs IH]; intros f es; [apply H|]. cbn [error_block]. apply Qplus_comp; (apply Qmult_comp; [reflexivity|]); [apply error_gates_len; auto|apply IH].
Qed.
Lemma framed_len l : forall k G G', (forall f fl es, List.length fl = k + width l -> (G f fl es == G' f fl es)%Q) ->
  forall f fl es, List.length fl = k -> (framed l G f fl es == framed l G' f fl es)%Q.
Proof.
  induction l as [|it l IH]; intros k G G' H f fl es L.
  - cbn. apply H. cbn. lia.
  - destruct it as [gt|b bs]; cbn [framed].
    + assert (W : width (Plain gt :: l) = gate_width gt + width l) by reflexivity. rewrite W in H. clear W.
      destruct gt as [name args]. unfold frame_gate. unfold gate_width in H. cbn [fst snd] in H.
      destruct (String.eqb_spec name "M") as [->|NM].
      * cbn [String.eqb Ascii.eqb Bool.eqb orb]. apply (IH (k + List.length (qubits args))); [intros; apply H; lia|]. rewrite app_length, map_length. lia.
      * assert (IH' : forall f es, (framed l G f fl es == framed l G' f fl es)%Q) by (intros; apply (IH k); auto).
        destruct (_ || _); [apply IH'|]. destruct (String.eqb name "H"); [apply IH'|]. destruct (String.eqb name "CX"); [apply IH'|]. destruct (String.eqb name "CZ"); [apply IH'|].
        destruct (String.eqb name "R"); [apply IH'|]. apply error_gate_len. auto.
    + apply error_block_len. intros. apply (IH k); auto.
Qed.

Lemma measure_len n qs f f' es : forall k, (forall v ms, List.length ms = k + List.length qs -> (f v ms es == f' v ms es)%Q) ->
  forall v ms, List.length ms = k -> (mean_measure n qs f v ms es == mean_measure n qs f' v ms es)%Q.
Proof.
  induction qs as [|q qs IH]; intros k H v ms L; [apply H; cbn; lia|]. cbn [mean_measure]. apply sum_ext. intros m _. apply Qmult_comp; [reflexivity|].
  apply (IH (S k)); [intros; apply H; cbn; lia|]. rewrite app_length. cbn. lia.
Qed.
Lemma reset_len n qs f f' ms es : (forall v, (f v ms es == f' v ms es)%Q) -> forall v, (mean_reset n qs f v ms es == mean_reset n qs f' v ms es)%Q.
Proof. intros H. induction qs as [|q qs IH]; intros v; [apply H|]. cbn [mean_reset]. apply sum_ext. intros m _. apply Qmult_comp; [reflexivity|]. apply IH. Qed.
Lemma expected_len n es l : forallb is_clean l = true -> forall k f f', (forall v ms, List.length ms = k + width l -> (f v ms es == f' v ms es)%Q) ->
  forall v ms, List.length ms = k -> (expected n l f v ms es == expected n l f' v ms es)%Q.
Proof.
  induction l as [|it l IH]; intros C k f f' H v ms L.
  - cbn. apply H. cbn. lia.
  - cbn [forallb] in C. apply andb_true_iff in C as [C CS]. specialize (IH CS). destruct it as [[name args]|]; [|discriminate C]. cbn [expected].
    assert (W : width (Plain (name, args) :: l) = gate_width (name, args) + width l) by reflexivity. rewrite W in H. clear W. unfold gate_width in H. cbn [fst snd] in H.
    unfold mean_gate. destruct (String.eqb_spec name "M") as [->|NM].
    + cbn [String.eqb Ascii.eqb Bool.eqb]. apply (measure_len n _ _ _ es k); auto. intros v' ms' L'. apply (IH (k + List.length (qubits args))); auto. intros; apply H; lia.
    + assert (IH' : forall v, (expected n l f v ms es == expected n l f' v ms es)%Q) by (intros; apply (IH k); auto).
      cbn [is_clean fst] in C. unfold clean_names in C. cbn [existsb] in C.
      destruct (String.eqb name "X"); [apply IH'|]. destruct (String.eqb name "Y"); [apply IH'|]. destruct (String.eqb name "Z"); [apply IH'|]. destruct (String.eqb name "H"); [apply IH'|].
      destruct (String.eqb name "CX"); [apply IH'|]. destruct (String.eqb name "CZ"); [apply IH'|]. destruct (String.eqb name "R"); [apply reset_len; auto|].
      destruct (String.eqb_spec name "M"); [contradiction|discriminate].
Qed.
Lemma noiseless_clean l : forallb is_clean (noiseless l) = true.
Proof. apply forallb_forall. intros it I. apply filter_In in I. tauto. Qed.
Lemma noiseless_width l : Forall valid_item l -> width (noiseless l) = width l.
Proof.
  induction 1 as [|it l V _ IH]; auto. unfold noiseless in *. cbn [filter]. destruct (is_clean it) eqn:E.
  - cbn [width fold_right]. fold (width (filter is_clean l)) (width l). rewrite IH. auto.
  - rewrite IH. cbn [width fold_right]. fold (width l). destruct it as [gt|]; auto. unfold gate_width. cbn [is_clean] in E. destruct (String.eqb_spec (fst gt) "M") as [X|]; auto. rewrite X in E. discriminate.
Qed.
Lemma noiseless_usable N l : usable N l -> usable N (noiseless l).
Proof. unfold usable. intros H. apply Forall_forall. intros it I. apply filter_In in I as [I _]. apply (proj1 (Forall_forall _ _) H it I). Qed.
Lemma noiseless_calls l : calls (text (noiseless l)) <= calls (text l).
Proof.
  induction l as [|it l IH]; auto. unfold noiseless in *. cbn [filter]. destruct (is_clean it).
  - unfold text in *. cbn [flat_map]. rewrite !calls_app. lia.
  - unfold text in *. cbn [flat_map]. rewrite calls_app. lia.
Qed.
Lemma usable_valid N l : usable N l -> Forall valid_item l.
Proof.
  unfold usable. intros U. apply Forall_forall. intros it I. apply (proj1 (Forall_forall _ _)) with (x := it) in U; auto. destruct it as [gt|b bs]; cbn [valid_item] in *; [apply U|].
  rewrite Forall_forall in *. intros b' Ib. destruct (U b' Ib) as [_ Z]. rewrite Forall_forall in *. intros gt Ig. apply (Z gt Ig).
Qed.
Lemma parity_flipped ms fl D : List.length ms = List.length fl -> parity_of (flipped ms fl) D = xorb (parity_of ms D) (parity_of fl D).
Proof. intros L. unfold parity_of. rewrite <- fold_xor_pair. f_equal. apply map_ext. intros. apply flipped_nth; auto. Qed.
Theorem detectors N items m s0 (Ds : list (list nat)) (c : list bool) (F : list bool -> list bool -> Q) :
  usable N items -> only_errors items -> calls (text items) <= m -> number_of_qubits (text (noiseless items)) = number_of_qubits (text items) ->
  (forall g, (forall k, 0 <= d_unif (g k) /\ d_unif (g k) < 1)%Q -> exists s, sim_run g (text (noiseless items)) true s0 = Ok s /\ map (parity_of (s_meas s)) Ds = c) ->
  (mean (sequences N m) (fun l => match sim_run (stream (s_k s0) l) (text items) true s0 with Ok s => F (map (parity_of (s_meas s)) Ds) (s_eras s) | Err _ => 0 end) ==
   framed items (fun _ fl es => F (flipped c (map (parity_of fl) Ds)) es) (no_frame (number_of_qubits (text items))) [] [])%Q.
Proof.
  intros U ON LM NQ CE. assert (VI := usable_valid N items U). set (n := number_of_qubits (text items)) in *.
  assert (RI : Forall (item_range n) items) by (apply range_items; auto).
  assert (DI := distribution N items m (fun ms es => F (map (parity_of ms) Ds) es) s0 U LM). cbv zeta in DI. rewrite DI. clear DI. fold n.
  rewrite (frames n (fun ms es => F (map (parity_of ms) Ds) es) items ket0 VI ON RI).
  apply (framed_len items 0); auto. intros _ fl es L. cbn [plus] in L.
  assert (E : forall ms, List.length ms = width (noiseless items) -> map (parity_of (flipped ms fl)) Ds = flipped (map (parity_of ms) Ds) (map (parity_of fl) Ds)).
  { intros ms L'. rewrite noiseless_width in L' by auto. clear - L L'. induction Ds as [|D Ds IH]; auto. cbn [map flipped hd tl]. rewrite IH. f_equal. apply parity_flipped. congruence. }
  rewrite (expected_len n [] (noiseless items) (noiseless_clean items) 0 _ (fun _ ms _ => F (flipped (map (parity_of ms) Ds) (map (parity_of fl) Ds)) es)); auto.
  - assert (LC : calls (text (noiseless items)) <= m) by (pose proof (noiseless_calls items); lia).
    assert (DI := distribution N (noiseless items) m (fun ms _ => F (flipped (map (parity_of ms) Ds) (map (parity_of fl) Ds)) es) s0 (noiseless_usable N items U) LC). cbv zeta in DI.
    rewrite NQ in DI. rewrite <- DI. rewrite (mean_ext _ _ (fun _ => F (flipped c (map (parity_of fl) Ds)) es)); [apply mean_const, sequences_nonempty|].
    intros ds I. destruct (CE (stream (s_k s0) ds)) as (s & -> & ->); [apply (stream_unif _ _ _ _ I)|]. reflexivity.
  - intros v ms L'. rewrite E by auto. reflexivity.
Qed.
