(** Lemmas: unpacking a sequence of measurement results. *)
Require Import List Bool Arith ZArith QArith Lia String.
From Verif Require Import Base BaseProofs QSpec PauliModel CircuitModel LatticeModel CodesModel GeneratorModel.
Import ListNotations.
Local Open Scope nat_scope.
Local Open Scope list_scope.

Lemma concat_len {A} d (B : list (list A)) : (forall x, In x B -> List.length x = d) -> List.length (List.concat B) = List.length B * d.
Proof. induction B as [|b B IH]; cbn; intros H; auto. rewrite app_length, IH, (H b) by auto. auto. Qed.
Lemma chunks_concat {A} c : forall (S : list (list A)), (forall x, In x S -> List.length x = c) -> chunks (List.length S) c (List.concat S) = S.
Proof.
  induction S as [|x S IH]; cbn; intros H; auto. assert (L := H x (or_introl eq_refl)). rewrite firstn_app, skipn_app, L, Nat.sub_diag. cbn.
  rewrite firstn_all2, skipn_all2, List.app_nil_r by lia. cbn. rewrite IH; auto.
Qed.
Lemma concat_chunks {A} c : forall r (l : list A), List.length l = r * c -> List.concat (chunks r c l) = l.
Proof.
  induction r as [|r IH]; cbn; intros l L; [destruct l; auto; discriminate|]. rewrite IH; [apply firstn_skipn|]. rewrite skipn_length. lia.
Qed.
Lemma chunks_len {A} c : forall r (l : list A), List.length (chunks r c l) = r.
Proof. induction r; cbn; auto. Qed.
Lemma chunks_width {A} c : forall r (l : list A), List.length l = r * c -> forall x, In x (chunks r c l) -> List.length x = c.
Proof.
  induction r as [|r IH]; cbn; intros l L x I; [tauto|]. destruct I as [<-|I]. rewrite firstn_length; lia. apply (IH (skipn c l)); auto. rewrite skipn_length; lia.
Qed.
Lemma slice_nth {A} d : forall (B : list (list A)) r i, (forall x, In x B -> List.length x = d) -> i < List.length B ->
  firstn d (skipn (i * d) (List.concat B ++ r)) = nth i B [].
Proof.
  induction B as [|b B IH]; intros r i H L; [cbn in L; lia|]. assert (Lb := H b (or_introl eq_refl)). destruct i as [|i]; cbn [nth List.concat].
  - cbn [Nat.mul skipn]. rewrite <- app_assoc, firstn_app, Lb, Nat.sub_diag. cbn. rewrite List.app_nil_r. apply firstn_all2. lia.
  - rewrite <- app_assoc, skipn_app, skipn_all2 by lia. replace (S i * d - List.length b) with (i * d) by lia. cbn [app].
    apply IH; [intros; apply H; right; auto|cbn in L; lia].
Qed.
Lemma py_bound_pos n k : k <= n -> py_bound n (Z.of_nat k) = k.
Proof. intros H. unfold py_bound. destruct (Z.ltb_spec (Z.of_nat k) 0); [lia|]. rewrite Nat2Z.id. lia. Qed.
Lemma py_bound_neg n k : 0 < k -> py_bound n (- Z.of_nat k) = n - k.
Proof. intros H. unfold py_bound. destruct (Z.ltb_spec (- Z.of_nat k) 0); lia. Qed.
Lemma py_bound_eq n z m : (z = Z.of_nat m)%Z -> m <= n -> py_bound n z = m.
Proof. intros -> H. apply py_bound_pos; auto. Qed.
Lemma mid {A} (a b c : list A) : firstn (List.length b) (skipn (List.length a) (a ++ b ++ c)) = b.
Proof. rewrite skipn_app, skipn_all, Nat.sub_diag. cbn. rewrite firstn_app, Nat.sub_diag, firstn_all. cbn. apply List.app_nil_r. Qed.

Definition unpack_rest (cd : CodesModel.code) (I F : list bool) (S : list (list bool)) (erasure : option (list bool)) : Res sample :=
  do er <- match erasure with
           | None => Ok None
           | Some f => if (Z.of_nat (List.length f) =? c_rounds cd * Z.of_nat (n_data_qubits (c_ops cd)))%Z
                       then do m <- reshape (c_rounds cd) (n_data_qubits (c_ops cd)) f; Ok (Some m)
                       else Err ValueError
           end;
  Ok (mkSample I F (xor_vec I F) S (map (fun p => xor_vec (fst p) (snd p)) (combine (tl S) (removelast S))) er).

Lemma reshape_concat {A} r c (S : list (list A)) : List.length S = r -> (forall x, In x S -> List.length x = c) -> reshape (Z.of_nat r) c (List.concat S) = Ok S.
Proof.
  intros L H. unfold reshape. destruct (Z.ltb_spec (Z.of_nat r) 0); [lia|]. rewrite Nat2Z.id, (concat_len c), L, Nat.eqb_refl by auto. rewrite <- L, chunks_concat; auto.
Qed.

Section unpack.
Context (cd : CodesModel.code) (R k d : nat).
Context (HR : c_rounds cd = Z.of_nat R) (HK : n_logical_qubits (c_ops cd) = k) (K0 : 0 < k).

Lemma split_ancilla_ok I M F : List.length I = k -> List.length F = k -> split_ancilla cd (I ++ M ++ F) = (I, F, M).
Proof.
  intros LI LF. unfold split_ancilla. rewrite HK. unfold py_slice.
  assert (L : List.length (I ++ M ++ F) = k + List.length M + k) by (rewrite !app_length; lia).
  rewrite L, py_bound_pos by lia. rewrite py_bound_neg by lia. cbn [skipn]. f_equal; [f_equal|].
  - rewrite Nat.sub_0_r, <- LI. apply (mid [] I).
  - replace (k + List.length M + k - (k + List.length M + k - k)) with (List.length F) by lia.
    replace (k + List.length M + k - k) with (List.length (I ++ M)) by (rewrite app_length; lia).
    replace (I ++ M ++ F) with ((I ++ M) ++ F ++ []) by (rewrite List.app_nil_r, app_assoc; auto). apply mid.
  - replace (k + List.length M + k - k - k) with (List.length M) by lia. rewrite <- LI. apply mid.
Qed.
Lemma unpack_ancilla I S F er : List.length I = k -> List.length F = k -> List.length S = R + 1 -> (forall x, In x S -> List.length x = n_stabgens (c_ops cd)) ->
  from_code_and_raw_results cd (I ++ List.concat S ++ F) er true = unpack_rest cd I F S er.
Proof.
  intros LI LF LS WS. unfold from_code_and_raw_results. rewrite split_ancilla_ok by auto. rewrite LI, LF, Nat.eqb_refl. cbn [negb].
  replace (c_rounds cd + 1)%Z with (Z.of_nat (R + 1)) by (rewrite HR; lia). rewrite reshape_concat by auto. reflexivity.
Qed.

Context (HD : match c_logicals (c_ops cd) with r :: _ => weight r | [] => 0 end = d) (D0 : 0 < d).
Lemma map_nth_seq {A B} (f : A -> B) (a : A) l : map (fun i => f (nth i l a)) (seq 0 (List.length l)) = map f l.
Proof.
  induction l as [|x l IH]; auto. cbn [List.length seq map nth]. f_equal. rewrite <- seq_shift, map_map. exact IH.
Qed.
Lemma rev_map_seq {B} (f : nat -> B) n : rev (map f (seq 0 n)) = map (fun i => f (n - 1 - i)) (seq 0 n).
Proof.
  rewrite <- map_rev. replace (map (fun i => f (n - 1 - i)) (seq 0 n)) with (map f (map (fun i => n - 1 - i) (seq 0 n))) by apply map_map.
  f_equal. induction n as [|n IH]; auto. rewrite seq_S at 1. cbn [plus]. rewrite rev_app_distr. cbn [rev app seq map]. f_equal; [lia|].
  rewrite IH. rewrite <- seq_shift, map_map. apply map_ext. intros; lia.
Qed.
Lemma split_data_ok B0 M BF : List.length B0 = k -> List.length BF = k -> (forall x, In x B0 -> List.length x = d) -> (forall x, In x BF -> List.length x = d) ->
  split_data cd (List.concat B0 ++ M ++ List.concat BF) = (map parity B0, map parity BF, M).
Proof.
  intros L0 LF W0 WF. unfold split_data. rewrite HK.
  replace (match c_logicals (c_ops cd) with r :: _ => Z.of_nat (weight r) | [] => 0%Z end) with (Z.of_nat d) by (rewrite <- HD; destruct (c_logicals (c_ops cd)); auto).
  assert (C0 := concat_len d B0 W0). assert (CF := concat_len d BF WF). rewrite L0 in C0. rewrite LF in CF.
  assert (L : List.length (List.concat B0 ++ M ++ List.concat BF) = k * d + List.length M + k * d) by (rewrite !app_length; lia).
  rewrite L. cbv zeta. f_equal; [f_equal|].
  - rewrite map_map. rewrite <- (map_nth_seq parity []), L0. apply map_ext_in. intros i Hi. apply in_seq in Hi. f_equal. unfold py_slice. rewrite L.
    assert (B : (i + 1) * d <= k * d) by (apply Nat.mul_le_mono_r; lia).
    rewrite (py_bound_eq _ (Z.of_nat i * Z.of_nat d) (i * d)) by lia. rewrite (py_bound_eq _ ((Z.of_nat i + 1) * Z.of_nat d) ((i + 1) * d)) by lia. replace ((i + 1) * d - i * d) with d by nia.
    apply slice_nth; auto. lia.
  - rewrite map_map, rev_map_seq. rewrite <- (map_nth_seq parity []), LF. apply map_ext_in. intros i Hi. apply in_seq in Hi. f_equal. unfold py_slice. rewrite L.
    assert (B : k * d = i * d + (k - 1 - i) * d + d) by (replace k with (i + (k - 1 - i) + 1) at 1 by lia; lia). set (j := k - 1 - i) in *.
    rewrite (py_bound_eq _ (_ - _ - _) (k * d + List.length M + i * d)) by lia. rewrite (py_bound_eq _ (_ - _) (k * d + List.length M + i * d + d)) by lia.
    replace (k * d + List.length M + i * d + d - (k * d + List.length M + i * d)) with d by lia.
    replace (k * d + List.length M + i * d) with (List.length (List.concat B0 ++ M) + i * d) by (rewrite app_length, C0; lia).
    rewrite app_assoc. replace (skipn (List.length (List.concat B0 ++ M) + i * d) ((List.concat B0 ++ M) ++ List.concat BF)) with (skipn (i * d) (List.concat BF ++ [])).
    + apply slice_nth; auto. lia.
    + rewrite List.app_nil_r. rewrite (skipn_app (List.length (List.concat B0 ++ M) + i * d)). rewrite (@skipn_all2 _ _ (List.concat B0 ++ M)) by lia. cbn [app]. f_equal. lia.
  - unfold py_slice. rewrite L. rewrite (py_bound_eq _ (Z.of_nat k * Z.of_nat d) (k * d)) by lia. replace (- Z.of_nat k * Z.of_nat d)%Z with (- Z.of_nat (k * d))%Z by lia.
    rewrite py_bound_neg by nia. replace (k * d + List.length M + k * d - k * d - k * d) with (List.length M) by lia. rewrite <- C0. apply mid.
Qed.
Lemma unpack_data B0 S BF er : List.length B0 = k -> List.length BF = k -> (forall x, In x B0 -> List.length x = d) -> (forall x, In x BF -> List.length x = d) ->
  List.length S = R + 1 -> (forall x, In x S -> List.length x = n_stabgens (c_ops cd)) ->
  from_code_and_raw_results cd (List.concat B0 ++ List.concat S ++ List.concat BF) er false = unpack_rest cd (map parity B0) (map parity BF) S er.
Proof.
  intros L0 LF W0 WF LS WS. unfold from_code_and_raw_results. rewrite split_data_ok by auto. rewrite !map_length, L0, LF, Nat.eqb_refl. cbn [negb].
  replace (c_rounds cd + 1)%Z with (Z.of_nat (R + 1)) by (rewrite HR; lia). rewrite reshape_concat by auto. reflexivity.
Qed.
End unpack.
