(** Tensor products of operators and states. *)
Require Import List Bool Arith ZArith Lia Ring.
From Verif Require Import Base BaseProofs QSpec PauliModel PauliSem PauliProofs PauliAlg TableauProofs PauliTextModel PauliTextSpec.
Import ListNotations.

Add Ring ZiR : Zi_ring.

Lemma ptensor_ext_all ps : forall v w, (forall a, v a = w a) -> forall a, ptensor ps v a = ptensor ps w a.
Proof.
  induction ps as [|p ps IH]; intros v w H a; cbn [ptensor]; auto. destruct a as [|x a]; auto.
  rewrite (IH (fun l => v (false :: l)) (fun l => w (false :: l))) by auto.
  rewrite (IH (fun l => v (true :: l)) (fun l => w (true :: l))) by auto. auto.
Qed.
Lemma ptensor_scale_l ps : forall c w a, ptensor ps (fun l => zimul c (w l)) a = zimul c (ptensor ps w a).
Proof.
  induction ps as [|p ps IH]; intros c w a; cbn [ptensor]; auto. destruct a as [|x a]; [ring|].
  rewrite !(IH c). ring.
Qed.
Lemma ptensor_zero ps : forall a, ptensor ps (fun _ => zi0) a = zi0.
Proof.
  induction ps as [|p ps IH]; intros a; cbn [ptensor]; auto. destruct a as [|x a]; auto. rewrite !IH. ring.
Qed.
Lemma ptensor_app ps : forall n v qs w a, length ps = n ->
  ptensor (ps ++ qs) (vtensor n v w) a = if n <=? length a then zimul (ptensor ps v (firstn n a)) (ptensor qs w (skipn n a)) else ptensor (ps ++ qs) (vtensor n v w) a.
Proof.
  intros n v qs w a L. destruct (Nat.leb_spec n (length a)) as [Ha|]; auto. revert n v w a L Ha.
  induction ps as [|p ps IH]; intros n v w a L Ha; cbn [length] in L; subst n.
  - cbn [app ptensor]. unfold vtensor. cbn [firstn skipn]. apply ptensor_scale_l.
  - destruct a as [|x a]; [cbn in Ha; lia|]. cbn [app ptensor firstn skipn].
    change (fun l => vtensor (S (length ps)) v w (false :: l)) with (vtensor (length ps) (fun l => v (false :: l)) w).
    change (fun l => vtensor (S (length ps)) v w (true :: l)) with (vtensor (length ps) (fun l => v (true :: l)) w).
    cbn in Ha. rewrite !IH by (auto; lia). ring.
Qed.

Lemma tensor_row_apply na nb a b v w : length (ops a) = na -> length (ops b) = nb ->
  veq (na + nb) (papply (denote (tensor_row a b)) (vtensor na v w))
    (vtensor na (papply (denote a) v) (papply (denote b) w)).
Proof.
  intros La Lb x Lx. unfold papply, vscale, denote. cbn [fst snd tensor_row ops neg]. rewrite map_app.
  rewrite ptensor_app by (rewrite map_length; auto). destruct (Nat.leb_spec na (length x)); [|lia].
  unfold vtensor. rewrite <- sgn_mul. ring.
Qed.

Lemma pad_right_tensor m r : pad_right m r = tensor_row r (mkRow (repeat (false, false) m) false).
Proof. unfold pad_right, tensor_row. cbn. rewrite xorb_false_r. auto. Qed.
Lemma pad_left_tensor m r : pad_left m r = tensor_row (mkRow (repeat (false, false) m) false) r.
Proof. unfold pad_left, tensor_row. cbn [ops neg]. rewrite xorb_false_l. auto. Qed.

Lemma vtensor_ext na nb v v' w w' : veq na v v' -> veq nb w w' -> veq (na + nb) (vtensor na v w) (vtensor na v' w').
Proof.
  intros A B x L. unfold vtensor. rewrite A, B; auto.
  rewrite skipn_length. lia. rewrite firstn_length_le; lia.
Qed.
Lemma papply_idrow n v : veq n (papply (denote (mkRow (repeat (false, false) n) false)) v) v.
Proof.
  eapply veq_trans. apply papply_id. intros a _. unfold vscale. cbn. ring.
Qed.
Lemma pad_right_stab na nb r v w : length (ops r) = na -> stabilises na (denote r) v ->
  stabilises (na + nb) (denote (pad_right nb r)) (vtensor na v w).
Proof.
  intros L H. unfold stabilises in *. rewrite pad_right_tensor. eapply veq_trans.
  apply (tensor_row_apply na nb); auto. apply repeat_length. apply vtensor_ext; auto. apply papply_idrow.
Qed.
Lemma pad_left_stab na nb r v w : length (ops r) = nb -> stabilises nb (denote r) w ->
  stabilises (na + nb) (denote (pad_left na r)) (vtensor na v w).
Proof.
  intros L H. unfold stabilises in *. rewrite pad_left_tensor. eapply veq_trans.
  apply (tensor_row_apply na nb); auto. apply repeat_length. apply vtensor_ext; auto. apply papply_idrow.
Qed.

Lemma symp_app a : forall c b d, length a = length c -> symp (a ++ b) (c ++ d) = xorb (symp a c) (symp b d).
Proof.
  induction a as [|[x z] a IH]; intros [|[x' z'] c] b d L; try discriminate; cbn [app symp].
  - destruct (symp b d); auto.
  - rewrite IH by (cbn in L; lia). rewrite !xorb_assoc. auto.
Qed.
Lemma symp_id_r n b : symp b (repeat (false, false) n) = false.
Proof. rewrite symp_comm. apply symp_id_l. Qed.

Lemma firstn_map_nth na (f : row -> row) t i : i < na -> na <= length t -> nth i (map f (firstn na t)) row0 = f (t@@i).
Proof.
  intros Hi Ht. rewrite (nth_indep _ row0 (f row0)) by (rewrite map_length, firstn_length_le; auto).
  rewrite map_nth. f_equal. rewrite <- (firstn_skipn na t) at 2. rewrite app_nth1; auto. rewrite firstn_length_le; auto.
Qed.
Lemma skipn_map_nth na (f : row -> row) t i : na + i < length t -> nth i (map f (skipn na t)) row0 = f (t@@(na + i)).
Proof.
  intros Hi. rewrite (nth_indep _ row0 (f row0)) by (rewrite map_length, skipn_length; lia).
  rewrite map_nth. f_equal. rewrite <- (firstn_skipn na t) at 2. rewrite app_nth2; rewrite firstn_length_le by lia. f_equal; lia. lia.
Qed.

Definition tens (na nb : nat) (a b : tableau) : tableau :=
  map (pad_right nb) (firstn na a) ++ map (pad_left na) (firstn nb b) ++
  map (pad_right nb) (skipn na a) ++ map (pad_left na) (skipn nb b).

Lemma tens_nth na nb a b i : length a = 2 * na -> length b = 2 * nb -> i < 2 * (na + nb) ->
  (tens na nb a b)@@i =
  if i <? na then pad_right nb (a@@i) else if i <? na + nb then pad_left na (b@@(i - na))
  else if i <? na + nb + na then pad_right nb (a@@(i - nb)) else pad_left na (b@@(i - 2 * na)).
Proof.
  intros La Lb Hi. unfold tens.
  destruct (Nat.ltb_spec i na).
  { rewrite app_nth1 by (rewrite map_length, firstn_length_le; lia). apply firstn_map_nth; lia. }
  rewrite app_nth2 by (rewrite map_length, firstn_length_le; lia). rewrite map_length, firstn_length_le by lia.
  destruct (Nat.ltb_spec i (na + nb)).
  { rewrite app_nth1 by (rewrite map_length, firstn_length_le; lia). apply firstn_map_nth; lia. }
  rewrite app_nth2 by (rewrite map_length, firstn_length_le; lia). rewrite map_length, firstn_length_le by lia.
  destruct (Nat.ltb_spec i (na + nb + na)).
  { rewrite app_nth1 by (rewrite map_length, skipn_length; lia). rewrite skipn_map_nth by lia. do 2 f_equal; lia. }
  rewrite app_nth2 by (rewrite map_length, skipn_length; lia). rewrite map_length, skipn_length by lia.
  rewrite skipn_map_nth by lia. do 2 f_equal; lia.
Qed.

Ltac bcase := repeat match goal with |- context [?a <? ?b] => destruct (Nat.ltb_spec a b) end;
  repeat match goal with |- context [?a =? ?b] => destruct (Nat.eqb_spec a b) end; auto; try lia.

Lemma tens_wf na nb a b : wf na a -> wf nb b -> wf (na + nb) (tens na nb a b).
Proof.
  intros (La & Fa & Ca) (Lb & Fb & Cb). split; [|split].
  - unfold tens. rewrite !app_length, !map_length, !firstn_length_le, !skipn_length by lia. lia.
  - intros i Hi. rewrite tens_nth by auto.
    destruct (Nat.ltb_spec i na); [|destruct (Nat.ltb_spec i (na + nb)); [|destruct (Nat.ltb_spec i (na + nb + na))]];
      cbn [pad_right pad_left ops]; rewrite app_length, repeat_length; rewrite ?Fa, ?Fb by lia; lia.
  - intros i j Hi Hj. rewrite !tens_nth by auto.
    assert (RR : forall k l, k < 2 * na -> l < 2 * na ->
       symp (ops (pad_right nb (a@@k))) (ops (pad_right nb (a@@l))) = conj_rows na k l).
    { intros k l Hk Hl. cbn [pad_right ops]. rewrite symp_app by (rewrite !Fa; auto). rewrite symp_id_l, Ca by auto. apply xorb_false_r. }
    assert (LL : forall k l, k < 2 * nb -> l < 2 * nb ->
       symp (ops (pad_left na (b@@k))) (ops (pad_left na (b@@l))) = conj_rows nb k l).
    { intros k l Hk Hl. cbn [pad_left ops]. rewrite symp_app by auto. rewrite symp_id_l, Cb by auto. apply xorb_false_l. }
    assert (RL : forall k l, k < 2 * na -> l < 2 * nb ->
       symp (ops (pad_right nb (a@@k))) (ops (pad_left na (b@@l))) = false).
    { intros k l Hk Hl. cbn [pad_right pad_left ops]. rewrite symp_app by (rewrite repeat_length, Fa; auto).
      rewrite symp_id_r, symp_id_l. auto. }
    assert (LR : forall k l, k < 2 * nb -> l < 2 * na ->
       symp (ops (pad_left na (b@@k))) (ops (pad_right nb (a@@l))) = false).
    { intros k l Hk Hl. rewrite symp_comm. auto. }
    destruct (Nat.ltb_spec i na); [|destruct (Nat.ltb_spec i (na + nb)); [|destruct (Nat.ltb_spec i (na + nb + na))]];
    (destruct (Nat.ltb_spec j na); [|destruct (Nat.ltb_spec j (na + nb)); [|destruct (Nat.ltb_spec j (na + nb + na))]]);
      rewrite ?RR, ?LL, ?RL, ?LR by lia; unfold conj_rows; bcase.
Qed.

Lemma tens_stabs na nb a b : length a = 2 * na -> length b = 2 * nb ->
  stab_rows (na + nb) (tens na nb a b) = map (pad_right nb) (stab_rows na a) ++ map (pad_left na) (stab_rows nb b).
Proof.
  intros La Lb. unfold stab_rows, tens. rewrite app_assoc, skipn_app.
  rewrite skipn_all2 by (rewrite app_length, !map_length, !firstn_length_le; lia). cbn [app].
  rewrite app_length, !map_length, !firstn_length_le by lia. rewrite Nat.sub_diag. auto.
Qed.
Lemma tens_describes na nb a b v w : wf na a -> wf nb b -> describes na a v -> describes nb b w ->
  describes (na + nb) (tens na nb a b) (vtensor na v w).
Proof.
  intros (La & Fa & _) (Lb & Fb & _) Da Db. unfold describes in *. rewrite tens_stabs by auto.
  assert (FA : Forall (fun r => length (ops r) = na) (stab_rows na a)).
  { apply Forall_forall. intros r Hr. unfold stab_rows in Hr.
    assert (In r a) by (rewrite <- (firstn_skipn na a); apply in_or_app; auto).
    apply (In_nth _ _ row0) in H. destruct H as (i & Hi & <-). apply Fa. lia. }
  assert (FB : Forall (fun r => length (ops r) = nb) (stab_rows nb b)).
  { apply Forall_forall. intros r Hr. unfold stab_rows in Hr.
    assert (In r b) by (rewrite <- (firstn_skipn nb b); apply in_or_app; auto).
    apply (In_nth _ _ row0) in H. destruct H as (i & Hi & <-). apply Fb. lia. }
  apply Forall_app. split; apply Forall_map.
  - rewrite Forall_forall in *. intros r Hr. apply pad_right_stab; auto.
  - rewrite Forall_forall in *. intros r Hr. apply pad_left_stab; auto.
Qed.

Lemma tensor_state_tens na nb a b : wf na a -> wf nb b -> 0 < na -> 0 < nb ->
  tensor_state a b = Ok (tens na nb a b).
Proof.
  intros Wa Wb Ha Hb. unfold tensor_state. rewrite (wf_nqubits na a), (wf_nqubits nb b) by auto.
  destruct Wa as (La & _), Wb as (Lb & _). rewrite La, Lb, !Nat.eqb_refl. reflexivity.
Qed.

(** * Norm *)
Lemma norm2_S n v : (norm2 (S n) v = norm2 n (fun l => v (false :: l)) + norm2 n (fun l => v (true :: l)))%Z.
Proof. unfold norm2. cbn [labels]. rewrite map_app, zsum_app, !map_map. auto. Qed.
Lemma norm2_0 v : norm2 0 v = ziabs2 (v []).
Proof. unfold norm2. cbn. lia. Qed.
Lemma norm2_scale n c v : (norm2 n (fun l => zimul c (v l)) = ziabs2 c * norm2 n v)%Z.
Proof.
  revert v. induction n; intros v. rewrite !norm2_0. apply ziabs2_mul. rewrite !norm2_S, !IHn. lia.
Qed.
Lemma norm2_vtensor na : forall nb v w, (norm2 (na + nb) (vtensor na v w) = norm2 na v * norm2 nb w)%Z.
Proof.
  induction na; intros nb v w.
  - cbn [Nat.add]. rewrite norm2_0. apply (norm2_scale nb (v []) w).
  - cbn [Nat.add]. rewrite !norm2_S.
    change (fun l => vtensor (S na) v w (false :: l)) with (vtensor na (fun l => v (false :: l)) w).
    change (fun l => vtensor (S na) v w (true :: l)) with (vtensor na (fun l => v (true :: l)) w).
    rewrite !IHna. lia.
Qed.

(** * Associativity *)
Lemma pad_right_right n m r : pad_right n (pad_right m r) = pad_right (m + n) r.
Proof. unfold pad_right. cbn. rewrite <- app_assoc, repeat_app. auto. Qed.
Lemma pad_left_left n m r : pad_left n (pad_left m r) = pad_left (n + m) r.
Proof. unfold pad_left. cbn. rewrite app_assoc, <- repeat_app. auto. Qed.
Lemma pad_left_right n m r : pad_left n (pad_right m r) = pad_right m (pad_left n r).
Proof. unfold pad_left, pad_right. cbn. rewrite app_assoc. auto. Qed.

Lemma firstn_tens na nb a b : length a = 2 * na -> length b = 2 * nb ->
  firstn (na + nb) (tens na nb a b) = map (pad_right nb) (firstn na a) ++ map (pad_left na) (firstn nb b).
Proof.
  intros La Lb. unfold tens. rewrite app_assoc, firstn_app.
  rewrite firstn_all2 by (rewrite app_length, !map_length, !firstn_length_le; lia).
  rewrite app_length, !map_length, !firstn_length_le by lia. rewrite Nat.sub_diag. cbn. rewrite app_nil_r. auto.
Qed.
Lemma tens_length na nb a b : length a = 2 * na -> length b = 2 * nb -> length (tens na nb a b) = 2 * (na + nb).
Proof. intros La Lb. unfold tens. rewrite !app_length, !map_length, !firstn_length_le, !skipn_length by lia. lia. Qed.
Lemma tens_assoc na nb nc a b c : length a = 2 * na -> length b = 2 * nb -> length c = 2 * nc ->
  tens (na + nb) nc (tens na nb a b) c = tens na (nb + nc) a (tens nb nc b c).
Proof.
  intros La Lb Lc. unfold tens at 1 3.
  rewrite !firstn_tens by auto.
  pose proof (tens_stabs na nb a b La Lb) as S1. pose proof (tens_stabs nb nc b c Lb Lc) as S2. unfold stab_rows in S1, S2.
  rewrite S1, S2. rewrite !map_app, !map_map, <- !app_assoc.
  repeat (f_equal; try (apply map_ext; intros r; rewrite ?pad_right_right, ?pad_left_left, ?pad_left_right; auto)).
Qed.

(** * Lists of states *)
Definition tri := (nat * tableau * vec)%type.
Definition t_n (x : tri) := fst (fst x).
Definition t_t (x : tri) := snd (fst x).
Definition t_v (x : tri) := snd x.
Definition good (x : tri) : Prop := 0 < t_n x /\ wf (t_n x) (t_t x) /\ describes (t_n x) (t_t x) (t_v x).

Lemma chain_ok rest : forall n t w, Forall good rest -> 0 < n -> wf n t -> describes n t w ->
  exists t', tensor_chain (St t) (map (fun x => St (t_t x)) rest) = Ok (St t') /\
    wf (fold_left (fun n x => t_n x + n) rest n) t' /\
    describes (fold_left (fun n x => t_n x + n) rest n) t' (fold_left (fun w x => vtensor (t_n x) (t_v x) w) rest w).
Proof.
  induction rest as [|x rest IH]; intros n t w F Hn W D; cbn [map tensor_chain fold_left].
  - exists t. auto.
  - inversion F as [|? ? (A & B & C) F']; subst. cbn [tensor2].
    rewrite (tensor_state_tens (t_n x) n) by auto. cbn [bindR].
    apply IH; auto. lia. apply tens_wf; auto. apply tens_describes; auto.
Qed.
Lemma describes_veq n t v w : wf n t -> veq n v w -> describes n t v -> describes n t w.
Proof.
  intros (L & F & _) E D. unfold describes in *. rewrite Forall_forall in *. intros r Hr. specialize (D r Hr).
  assert (Lr : length (ops r) = n).
  { assert (In r t) by (rewrite <- (firstn_skipn n t); apply in_or_app; auto).
    apply (In_nth _ _ row0) in H. destruct H as (i & Hi & <-). apply F. lia. }
  unfold stabilises in *. intros a La. rewrite <- (E a La), <- (D a La). symmetry. apply (papply_ext n r v w); auto.
Qed.
Lemma fold_sum l : forall n, fold_left (fun n x => t_n x + n) l n = list_sum (map t_n l) + n.
Proof.
  induction l as [|x l IH]; intros n; cbn [fold_left map]; auto.
  rewrite IH. change (list_sum (t_n x :: map t_n l)) with (t_n x + list_sum (map t_n l)). lia.
Qed.
Lemma list_sum_rev l : list_sum (rev l) = list_sum l.
Proof. induction l; cbn [rev]; auto. rewrite list_sum_app, IHl. unfold list_sum. cbn [fold_right]. lia. Qed.

Lemma vtensor_one n v : veq n (vtensor n v (fun _ => zi1)) v.
Proof. intros a L. unfold vtensor. rewrite firstn_all2 by lia. ring. Qed.

Lemma fold_vec_veq rest : forall n v w, veq n v w ->
  veq (fold_left (fun n x => t_n x + n) rest n)
    (fold_left (fun w x => vtensor (t_n x) (t_v x) w) rest v)
    (fold_left (fun w x => vtensor (t_n x) (t_v x) w) rest w).
Proof.
  induction rest as [|x rest IH]; intros n v w E; cbn [fold_left]; auto.
  apply IH. apply vtensor_ext; auto. intros a _; auto.
Qed.
Lemma vtensors_fold l : vtensors (map (fun x => (t_n x, t_v x)) l) =
  fold_left (fun w x => vtensor (t_n x) (t_v x) w) (rev l) (fun _ => zi1).
Proof.
  rewrite <- fold_left_rev_right, rev_involutive. unfold vtensors. induction l; cbn; auto. rewrite IHl. auto.
Qed.

Lemma tensors_ok l : l <> [] -> Forall good l ->
  exists t, tensor_product (map (fun x => St (t_t x)) l) = Ok (St t) /\
    wf (list_sum (map t_n l)) t /\
    describes (list_sum (map t_n l)) t (vtensors (map (fun x => (t_n x, t_v x)) l)).
Proof.
  intros NE F. unfold tensor_product. rewrite <- map_rev. rewrite vtensors_fold.
  assert (F' : Forall good (rev l)) by (apply Forall_rev; auto).
  assert (S : list_sum (map t_n l) = list_sum (map t_n (rev l))) by (rewrite map_rev, list_sum_rev; auto).
  rewrite S. clear S. destruct (rev l) as [|x rest] eqn:E.
  { apply (f_equal (@rev _)) in E. rewrite rev_involutive in E. cbn in E. congruence. }
  cbn [map]. inversion F' as [|? ? (A & B & C) F'']; subst.
  destruct (chain_ok rest (t_n x) (t_t x) (t_v x) F'' A B C) as (t & Et & W & D). exists t. split; auto.
  assert (Q : fold_left (fun n x => t_n x + n) rest (t_n x) = list_sum (t_n x :: map t_n rest)).
  { rewrite fold_sum. change (list_sum (t_n x :: map t_n rest)) with (t_n x + list_sum (map t_n rest)). lia. }
  rewrite <- Q. split; auto. cbn [fold_left]. eapply describes_veq; [exact W| |exact D].
  apply fold_vec_veq. intros a La. symmetry. apply vtensor_one; auto.
Qed.

(** * Lists of operators *)
Lemma chain_ops rest : forall r, tensor_chain (Op r) (map Op rest) =
  Ok (Op (mkRow (concat (map ops (rev rest)) ++ ops r) (fold_right xorb (neg r) (map neg rest)))).
Proof.
  induction rest as [|a rest IH]; intros r; cbn [map tensor_chain tensor2 bindR].
  - cbn. destruct r; auto.
  - rewrite IH. do 3 f_equal.
    + cbn [rev tensor_row ops]. rewrite map_app, concat_app. cbn. rewrite app_nil_r, <- app_assoc. auto.
    + cbn [tensor_row neg fold_right]. clear. induction rest; cbn; auto. rewrite IHrest.
      rewrite <- !xorb_assoc. f_equal. apply xorb_comm.
Qed.
Lemma xor_fold_rev l : fold_right xorb false (rev l) = fold_right xorb false l.
Proof.
  induction l as [|a l IH]; cbn [rev fold_right]; auto. rewrite fold_right_app. cbn [fold_right].
  rewrite xorb_false_r, <- IH. generalize (rev l). intros m. clear. induction m; cbn.
  - rewrite xorb_false_r; auto.
  - rewrite IHm. rewrite <- !xorb_assoc. f_equal. apply xorb_comm.
Qed.
Lemma tensor_ops l : l <> [] ->
  tensor_product (map Op l) = Ok (Op (mkRow (concat (map ops l)) (fold_right xorb false (map neg l)))).
Proof.
  intros NE. unfold tensor_product. rewrite <- map_rev. rewrite <- (xor_fold_rev (map neg l)), <- map_rev.
  destruct (rev l) as [|r rest] eqn:E.
  { apply (f_equal (@rev _)) in E. rewrite rev_involutive in E. cbn in E. congruence. }
  cbn [map]. rewrite chain_ops. do 3 f_equal.
  - assert (l = rev rest ++ [r]) by (rewrite <- (rev_involutive l), E; auto). subst l.
    rewrite map_app, concat_app. cbn. rewrite app_nil_r. auto.
  - cbn [fold_right map]. clear. induction (map neg rest); cbn. rewrite xorb_false_r; auto.
    rewrite IHl. rewrite <- !xorb_assoc. f_equal. apply xorb_comm.
Qed.
