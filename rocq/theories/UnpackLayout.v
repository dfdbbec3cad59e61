(** Lemmas: unpacking arbitrary results by position. *)
Require Import List Bool Arith ZArith QArith Lia String.
From Verif Require Import Base BaseProofs QSpec PauliModel CircuitModel LatticeModel CodesModel GeneratorModel GeneratorSpec UnpackProofs MemorySem.
Import ListNotations.
Local Open Scope nat_scope.
Local Open Scope list_scope.

Lemma slice_map {A} (d : A) : forall c a (l : list A), a + c <= List.length l -> firstn c (skipn a l) = map (fun j => nth (a + j) l d) (seq 0 c).
Proof.
  intros c a l H. assert (L : List.length (firstn c (skipn a l)) = c) by (rewrite firstn_length, skipn_length; lia).
  apply (nth_ext _ _ d d); [rewrite map_length, seq_length; auto|]. rewrite L. intros j Hj.
  rewrite (nth_indep (map _ _) d (nth (a + 0) l d)) by (rewrite map_length, seq_length; auto).
  rewrite (map_nth (fun j => nth (a + j) l d)), seq_nth by auto. cbn [plus].
  rewrite <- (firstn_skipn a l) at 2. rewrite app_nth2; rewrite firstn_length; [|lia]. replace (a + j - Nat.min a (List.length l)) with j by lia.
  rewrite <- (firstn_skipn c (skipn a l)) at 2. rewrite app_nth1; auto. lia.
Qed.
Definition grid (raw : list bool) (a c r : nat) : list (list bool) := map (fun t => map (fun j => nth (a + t * c + j) raw false) (seq 0 c)) (seq 0 r).
Lemma concat_grid {A} (f : nat -> A) c r : List.concat (map (fun t => map (fun j => f (t * c + j)) (seq 0 c)) (seq 0 r)) = map f (seq 0 (r * c)).
Proof.
  induction r as [|r IH]; auto. rewrite seq_S, map_app, concat_app, IH. cbn [map List.concat plus]. rewrite List.app_nil_r.
  replace (S r * c) with (r * c + c) by lia. rewrite seq_app, map_app. f_equal. cbn [plus].
  generalize (r * c) as m. intros m. clear. replace (seq m c) with (seq (m + 0) c) by (rewrite Nat.add_0_r; auto). generalize 0 as z. induction c as [|c IH]; intros z; auto. cbn [seq map]. f_equal. rewrite <- Nat.add_succ_r. auto.
Qed.
Lemma grid_concat raw a c r : a + r * c <= List.length raw -> List.concat (grid raw a c r) = firstn (r * c) (skipn a raw).
Proof.
  intros H. rewrite (slice_map false) by lia. rewrite <- concat_grid. unfold grid. f_equal. apply map_ext. intros t. apply map_ext. intros j. f_equal. lia.
Qed.
Lemma grid_len raw a c r : List.length (grid raw a c r) = r.
Proof. unfold grid. rewrite map_length, seq_length. auto. Qed.
Lemma grid_width raw a c r x : In x (grid raw a c r) -> List.length x = c.
Proof. unfold grid. intros H. apply in_map_iff in H as (t & <- & _). rewrite map_length, seq_length. auto. Qed.
Lemma raw_split k w ns m raw : List.length raw = 2 * (k * w) + m * ns ->
  raw = List.concat (grid raw 0 w k) ++ List.concat (grid raw (k * w) ns m) ++ List.concat (grid raw (k * w + m * ns) w k).
Proof.
  intros L. rewrite !grid_concat by lia. cbn [skipn]. rewrite <- (firstn_skipn (k * w) raw) at 1. f_equal.
  rewrite <- (firstn_skipn (m * ns) (skipn (k * w) raw)) at 1. f_equal.
  replace (skipn (m * ns) (skipn (k * w) raw)) with (skipn (k * w + m * ns) raw).
  - rewrite firstn_all2; auto. rewrite skipn_length. lia.
  - generalize (k * w) as a, (m * ns) as b, raw. clear. induction a as [|a IH]; intros b l; auto. destruct l; [cbn; rewrite skipn_nil; auto|]. cbn. auto.
Qed.
Lemma xor_vec_map {A} (f g : A -> bool) l : xor_vec (map f l) (map g l) = map (fun x => xorb (f x) (g x)) l.
Proof. unfold xor_vec. induction l; cbn; congruence. Qed.
Lemma parity_grid raw a w k : map parity (grid raw a w k) = map (fun i => block_parity raw (a + i * w) w) (seq 0 k).
Proof. unfold grid. rewrite map_map. apply map_ext. intros i. reflexivity. Qed.
Lemma grid_one raw a k : List.concat (grid raw a 1 k) = map (fun i => block_parity raw (a + i * 1) 1) (seq 0 k).
Proof.
  unfold grid. rewrite <- flat_map_concat_map. induction (seq 0 k) as [|i l IH]; auto. cbn [flat_map map]. rewrite IH. cbn [seq map app].
  unfold block_parity. cbn [seq map fold_right]. rewrite xorb_false_r. auto.
Qed.
Lemma combine_tl {A B} (f : nat -> A) (g : A -> A -> B) R :
  map (fun p => g (fst p) (snd p)) (combine (tl (map f (seq 0 (R + 1)))) (removelast (map f (seq 0 (R + 1))))) = map (fun t => g (f (t + 1)) (f t)) (seq 0 R).
Proof.
  assert (T : tl (map f (seq 0 (R + 1))) = map (fun t => f (t + 1)) (seq 0 R)).
  { replace (R + 1) with (S R) by lia. cbn [seq map tl]. rewrite <- seq_shift, map_map. apply map_ext. intros t. f_equal. lia. }
  assert (U : removelast (map f (seq 0 (R + 1))) = map f (seq 0 R)).
  { replace (R + 1) with (S R) by lia. rewrite seq_S, map_app. apply removelast_last. }
  rewrite T, U. clear T U. induction (seq 0 R) as [|t l IH]; auto. cbn [map combine fst snd]. rewrite IH. auto.
Qed.
Lemma rest_ok cd raw k w R er sm : c_rounds cd = Z.of_nat R ->
  unpack_rest cd (map (fun i => block_parity raw (i * w) w) (seq 0 k)) (map (fun i => block_parity raw (k * w + (R + 1) * n_stabgens (c_ops cd) + i * w) w) (seq 0 k))
    (grid raw (k * w) (n_stabgens (c_ops cd)) (R + 1)) er = Ok sm -> unpacked k w (n_stabgens (c_ops cd)) R raw sm.
Proof.
  intros HR H. unfold unpack_rest in H. destruct (match er with Some f => _ | None => _ end) as [er'|]; [|discriminate]. cbn [bindR] in H. injection H as <-.
  split; cbn [sm_initial sm_final sm_toggle sm_stab sm_syndrome]; auto.
  - apply xor_vec_map.
  - unfold grid. rewrite (combine_tl (fun t => map (fun j => nth (k * w + t * n_stabgens (c_ops cd) + j) raw false) (seq 0 (n_stabgens (c_ops cd)))) xor_vec).
    apply map_ext. intros t. apply xor_vec_map.
Qed.
Lemma unpack_grid cd R er anc raw : c_rounds cd = Z.of_nat R -> 0 < n_logical_qubits (c_ops cd) -> 0 < block_width cd anc ->
  let k := n_logical_qubits (c_ops cd) in let w := block_width cd anc in let ns := n_stabgens (c_ops cd) in
  List.length raw = 2 * (k * w) + (R + 1) * ns ->
  from_code_and_raw_results cd raw er anc =
  unpack_rest cd (map (fun i => block_parity raw (i * w) w) (seq 0 k)) (map (fun i => block_parity raw (k * w + (R + 1) * ns + i * w) w) (seq 0 k)) (grid raw (k * w) ns (R + 1)) er.
Proof.
  intros HR K W k w ns L. assert (E := raw_split k w ns (R + 1) raw L). rewrite E at 1. unfold w, block_width in *. destruct anc.
  - rewrite !grid_one. rewrite (unpack_ancilla cd R k HR eq_refl K); auto using grid_len; try (rewrite map_length, seq_length; auto).
    intros x. apply grid_width.
  - assert (HD : match c_logicals (c_ops cd) with r :: _ => weight r | [] => 0 end = weight (nth 0 (c_logicals (c_ops cd)) row0)) by (destruct (c_logicals (c_ops cd)); auto).
    rewrite (unpack_data cd R k _ HR eq_refl K HD W); try apply grid_len; try (intros x; apply grid_width).
    rewrite !parity_grid. auto.
Qed.

Lemma chunks_grid {A} (d : A) c r (l : list A) : List.length l = r * c -> chunks r c l = map (fun t => map (fun j => nth (t * c + j) l d) (seq 0 c)) (seq 0 r).
Proof.
  intros L. assert (E : l = List.concat (map (fun t => map (fun j => nth (t * c + j) l d) (seq 0 c)) (seq 0 r))).
  { rewrite (concat_grid (fun i => nth i l d)). rewrite <- L. rewrite (map_nth_seq (fun x => x) d). symmetry. apply map_id. }
  set (S := map (fun t => map (fun j => nth (t * c + j) l d) (seq 0 c)) (seq 0 r)) in *. rewrite E.
  replace r with (List.length S) by (unfold S; rewrite map_length, seq_length; auto). apply chunks_concat.
  unfold S. intros x H. apply in_map_iff in H as (t & <- & _). rewrite map_length, seq_length. auto.
Qed.
(** Any results of the right length are unpacked by position. *)
Lemma unpack_ok cd R er anc raw : c_rounds cd = Z.of_nat R -> 0 < n_logical_qubits (c_ops cd) -> 0 < block_width cd anc ->
  let k := n_logical_qubits (c_ops cd) in let w := block_width cd anc in let ns := n_stabgens (c_ops cd) in let nd := n_data_qubits (c_ops cd) in
  List.length raw = 2 * (k * w) + (R + 1) * ns -> match er with Some f => List.length f = R * nd | None => True end ->
  exists sm, from_code_and_raw_results cd raw er anc = Ok sm /\ unpacked k w ns R raw sm /\
    sm_erased sm = match er with Some f => Some (matrix f R nd) | None => None end.
Proof.
  intros HR K W k w ns nd L LE. assert (E := unpack_grid cd R er anc raw HR K W L). cbv zeta in E. rewrite E.
  assert (exists sm, unpack_rest cd (map (fun i => block_parity raw (i * block_width cd anc) (block_width cd anc)) (seq 0 (n_logical_qubits (c_ops cd))))
    (map (fun i => block_parity raw (n_logical_qubits (c_ops cd) * block_width cd anc + (R + 1) * n_stabgens (c_ops cd) + i * block_width cd anc) (block_width cd anc)) (seq 0 (n_logical_qubits (c_ops cd))))
    (grid raw (n_logical_qubits (c_ops cd) * block_width cd anc) (n_stabgens (c_ops cd)) (R + 1)) er = Ok sm /\
    sm_erased sm = match er with Some f => Some (matrix f R nd) | None => None end) as (sm & U & HE).
  { unfold unpack_rest. destruct er as [f|].
    - fold nd. rewrite LE, HR. destruct (Z.eqb_spec (Z.of_nat (R * nd)) (Z.of_nat R * Z.of_nat nd)); [|lia].
      unfold reshape. destruct (Z.ltb_spec (Z.of_nat R) 0); [lia|]. rewrite Nat2Z.id, LE, Nat.eqb_refl. cbn [bindR]. eexists. split; [reflexivity|].
      cbn [sm_erased]. unfold matrix. rewrite (chunks_grid false) by auto. auto.
    - cbn [bindR]. eexists. split; reflexivity. }
  exists sm. split; [auto|]. split; auto. apply (rest_ok cd raw k w R er sm HR U).
Qed.
(** Any other length is rejected. *)
Lemma py_bound_le n z : py_bound n z <= n \/ (z < 0)%Z.
Proof. unfold py_bound. destruct (Z.ltb_spec z 0); [right; auto|left; lia]. Qed.
Lemma py_slice_len {A} (l : list A) i j : List.length (py_slice (Some i) (Some j) l) = Nat.min (py_bound (List.length l) j - py_bound (List.length l) i) (List.length l - py_bound (List.length l) i).
Proof. unfold py_slice. rewrite firstn_length, skipn_length. auto. Qed.
Lemma split_len cd anc raw : 0 < n_logical_qubits (c_ops cd) -> 0 < block_width cd anc ->
  let '(i, f, m) := if anc then split_ancilla cd raw else split_data cd raw in
  List.length i = List.length f /\ List.length m = List.length raw - 2 * (n_logical_qubits (c_ops cd) * block_width cd anc).
Proof.
  intros K W. set (k := n_logical_qubits (c_ops cd)) in *. destruct anc.
  - unfold split_ancilla. fold k. cbn [block_width]. split.
    + unfold py_slice. rewrite !firstn_length, !skipn_length. cbn [skipn]. rewrite py_bound_neg by auto. unfold py_bound. destruct (Z.ltb_spec (Z.of_nat k) 0); [lia|]. rewrite Nat2Z.id. lia.
    + rewrite py_slice_len. rewrite py_bound_neg by auto. unfold py_bound. destruct (Z.ltb_spec (Z.of_nat k) 0); [lia|]. rewrite Nat2Z.id. lia.
  - unfold split_data. fold k. cbv zeta. split.
    + rewrite rev_length, !map_length. auto.
    + rewrite py_slice_len. unfold block_width in *. set (d := weight (nth 0 (c_logicals (c_ops cd)) row0)) in *.
      replace (match c_logicals (c_ops cd) with [] => 0%Z | r :: _ => Z.of_nat (weight r) end) with (Z.of_nat d) by (unfold d; destruct (c_logicals (c_ops cd)); auto).
      replace (- Z.of_nat k * Z.of_nat d)%Z with (- Z.of_nat (k * d))%Z by lia. rewrite py_bound_neg by nia.
      replace (Z.of_nat k * Z.of_nat d)%Z with (Z.of_nat (k * d)) by lia. unfold py_bound. destruct (Z.ltb_spec (Z.of_nat (k * d)) 0); [lia|]. rewrite Nat2Z.id. lia.
Qed.
Lemma unpack_bad cd R er anc raw : c_rounds cd = Z.of_nat R -> 0 < n_logical_qubits (c_ops cd) -> 0 < block_width cd anc -> 0 < n_stabgens (c_ops cd) ->
  let k := n_logical_qubits (c_ops cd) in let w := block_width cd anc in let ns := n_stabgens (c_ops cd) in let nd := n_data_qubits (c_ops cd) in
  List.length raw <> 2 * (k * w) + (R + 1) * ns \/ (exists f, er = Some f /\ List.length f <> R * nd) ->
  from_code_and_raw_results cd raw er anc = Err ValueError.
Proof.
  intros HR K W N k w ns nd H. destruct (Nat.eq_dec (List.length raw) (2 * (k * w) + (R + 1) * ns)) as [L|L].
  - destruct H as [H|(f & -> & H)]; [contradiction|]. assert (E := unpack_grid cd R (Some f) anc raw HR K W L). cbv zeta in E. rewrite E. unfold unpack_rest. rewrite HR.
    fold nd. destruct (Z.eqb_spec (Z.of_nat (List.length f)) (Z.of_nat R * Z.of_nat nd)); [lia|]. reflexivity.
  - unfold from_code_and_raw_results. assert (SL := split_len cd anc raw K W). destruct (if anc then split_ancilla cd raw else split_data cd raw) as [[i f] m].
    destruct SL as [-> LM]. rewrite Nat.eqb_refl. cbn [negb]. unfold reshape. rewrite HR. destruct (Z.ltb_spec (Z.of_nat R + 1) 0); [lia|].
    fold ns. fold k w in LM. replace (Z.to_nat (Z.of_nat R + 1)) with (R + 1) by lia. rewrite LM. destruct (Nat.eqb_spec (List.length raw - 2 * (k * w)) ((R + 1) * ns)) as [E|_]; [|reflexivity].
    exfalso. fold ns in N. assert (0 < (R + 1) * ns) by nia. lia.
Qed.
