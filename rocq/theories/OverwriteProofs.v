(** Errors of a table which has been overwritten. *)
Require Import String List Bool Arith ZArith QArith Lia.
From Verif Require Import Base BaseProofs PauliModel CircuitModel LatticeModel GeneratorModel WeightsModel TablesModel TablesSpec TablesProofs TablesQubits OverwriteModel.
Import ListNotations.
Local Open Scope string_scope.
Local Open Scope nat_scope.
Local Open Scope list_scope.

Lemma mapR_same {A B} (f g : A -> Res B) l : (forall x, f x = g x) -> mapR f l = mapR g l.
Proof. intros H. induction l as [|x l IH]; cbn [mapR]; [auto|]. rewrite H, IH. auto. Qed.
Lemma foldR_same {S A} (f g : S -> A -> Res S) l : (forall s x, f s x = g s x) -> forall s, foldR f l s = foldR g l s.
Proof. intros H. induction l as [|x l IH]; intros s; cbn [foldR]; [auto|]. rewrite H. destruct (g s x); cbn [bindR]; auto. Qed.

(** Errors depend on the rows which the labels give. *)
Lemma by_position d : qubit_errors_by (position (ed_qubits d)) d = qubit_errors_dict d.
Proof. reflexivity. Qed.
Lemma by_same f g d : (forall q, f q = g q) -> qubit_errors_by f d = qubit_errors_by g d.
Proof.
  intros H. unfold qubit_errors_by. destruct (qt_rows (ed_qubits d)); [auto|]. apply foldR_same. intros e name.
  assert (C : forall t n q, cell_by f t n q = cell_by g t n q) by (intros; unfold cell_by; rewrite H; auto).
  assert (E : forall t types n k d0, enabled_column_by f t types n k d0 = enabled_column_by g t types n k d0).
  { intros. unfold enabled_column_by, qubits_by, set_param_by. rewrite (mapR_same _ (fun r : Z * string => do i <- g (fst r); Ok (fst r, snd (nth i (qt_rows t) (0%Z, "")))) (qt_rows t)) by (intros; rewrite H; auto).
    destruct (match d0 with [] => _ | _ => _ end); cbn [bindR]; [|auto]. apply mapR_same. intros kv. rewrite C. auto. }
  unfold enabled_error_by. rewrite !E. auto.
Qed.
(** In a table whose qubits are numbered from zero in order, the two kinds of labels agree. *)
Lemma seq_filter q a n : filter (fun i => Z.of_nat i =? q)%Z (seq a n) = if ((Z.of_nat a <=? q) && (q <? Z.of_nat (a + n)))%Z then [Z.to_nat q] else [].
Proof.
  revert a. induction n as [|n IH]; intros a; cbn [seq filter].
  - destruct (Z.leb_spec (Z.of_nat a) q), (Z.ltb_spec q (Z.of_nat (a + 0))); cbn; auto; lia.
  - rewrite IH. destruct (Z.eqb_spec (Z.of_nat a) q), (Z.leb_spec (Z.of_nat a) q), (Z.leb_spec (Z.of_nat (S a)) q), (Z.ltb_spec q (Z.of_nat (S a + n))), (Z.ltb_spec q (Z.of_nat (a + S n))); cbn [andb]; try lia; auto. f_equal. lia.
Qed.
Lemma numbered_position t q : map fst (qt_rows t) = map Z.of_nat (seq 0 (length (qt_rows t))) -> row_number t q = position t q.
Proof.
  intros H. unfold row_number, position.
  assert (F : filter (fun i => (fst (nth i (qt_rows t) (0%Z, "")) =? q)%Z) (seq 0 (length (qt_rows t))) = filter (fun i => Z.of_nat i =? q)%Z (seq 0 (length (qt_rows t)))).
  { apply filter_ext_in. intros i I. apply in_seq in I. f_equal. change 0%Z with (fst (0%Z, "")) at 1. rewrite <- (map_nth fst), H. cbn [fst]. change 0%Z with (Z.of_nat 0). rewrite map_nth, seq_nth by lia. auto. }
  rewrite F, seq_filter. cbn [plus]. change (Z.of_nat 0) with 0%Z. destruct ((0 <=? q) && (q <? Z.of_nat (length (qt_rows t))))%Z; auto.
Qed.
(** A qubit whose number is not the number of a row. *)
Definition known (name : string) : bool := mem_str name ["X"; "Y"; "Z"; "erasure"; "measurement"].
Lemma missing_row t types q : In q (map fst (qt_rows t)) -> (q < 0 \/ Z.of_nat (length (qt_rows t)) <= q)%Z -> qubits_by (row_number t) t types = Err KeyError.
Proof.
  intros I H. unfold qubits_by.
  assert (M : forall f l, (forall r : Z * string, (exists y : Z * string, f r = Ok y) \/ f r = Err KeyError) -> (exists r, In r l /\ f r = Err KeyError) -> mapR f l = Err KeyError).
  { intros f l A. induction l as [|r l IH]; intros (x & X & E); [destruct X|]. cbn [mapR]. destruct (A r) as [[y Y]|Y]; rewrite Y; cbn [bindR]; [|auto].
    destruct X as [->|X]; [congruence|]. rewrite IH by (exists x; auto). reflexivity. }
  rewrite M; [reflexivity| |].
  - intros r. unfold row_number. destruct (_ && _)%bool; cbn [bindR]; eauto.
  - apply in_map_iff in I as ([q' ty] & E & I). cbn in E. subst q'. exists (q, ty). split; [auto|]. unfold row_number. cbn [fst]. destruct (Z.leb_spec 0 q), (Z.ltb_spec q (Z.of_nat (length (qt_rows t)))); cbn [andb bindR]; auto; lia.
Qed.
Lemma missing_fails t q on : In q (map fst (qt_rows t)) -> (q < 0 \/ Z.of_nat (length (qt_rows t)) <= q)%Z -> (exists n, In n on /\ known n = true) ->
  foldR (enabled_error_by (row_number t) t) on no_errors = Err KeyError.
Proof.
  intros I H. pose proof (fun types => missing_row t types q I H) as M. induction on as [|n on IH]; intros (x & X & K); [destruct X|]. cbn [foldR].
  unfold enabled_error_by at 1. unfold enabled_column_by. cbn [no_errors er_pauli er_erasure er_measurement]. rewrite !M. cbn [bindR].
  destruct (mem_str n ["X"; "Y"; "Z"]) eqn:E1; [reflexivity|]. destruct (String.eqb n "erasure") eqn:E2; [reflexivity|]. destruct (String.eqb n "measurement") eqn:E3; [reflexivity|]. cbn [bindR]. apply IH. exists x. split; [|auto].
  destruct X as [->|X]; [|auto]. exfalso. apply mem_str_in in K. cbn [In] in K. apply mem_str_out in E1. cbn [In] in E1. apply String.eqb_neq in E2, E3. intuition.
Qed.
