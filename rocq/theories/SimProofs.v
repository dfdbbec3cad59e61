(** The simulator refines the vector semantics of circuits. *)
Require Import List Bool Arith ZArith QArith Lia String Lqa.
From Verif Require Import Base BaseProofs QSpec PauliModel PauliSem PauliProofs PauliAlg TableauProofs
  MeasureProofs StateProofs StateSpec GateProofs CircuitModel CircuitSpec SimModel SimSpec.
Import ListNotations.
Local Open Scope string_scope.
Local Open Scope nat_scope.
Local Open Scope list_scope.

(** * Invertibility of the gates *)
Lemma apply1_zero n m q v : veq n v (fun _ => zi0) -> veq n (apply1 m q v) (fun _ => zi0).
Proof.
  intros H a Ha. unfold apply1. rewrite !H by (rewrite length_upd; auto). ring.
Qed.
Lemma apply2_zero n m c t v : veq n v (fun _ => zi0) -> veq n (apply2 m c t v) (fun _ => zi0).
Proof.
  intros H a Ha. unfold apply2. rewrite !H by (rewrite !length_upd; auto). ring.
Qed.

Lemma upd_self {A} q (a : list A) d b : nth q a d = b -> upd q b a = a.
Proof. intros <-. apply upd_nth. Qed.

Lemma apply1_twice n m q v c : q < n ->
  (forall x y, ziadd (zimul (m x false) (m false y)) (zimul (m x true) (m true y)) = if Bool.eqb x y then c else zi0) ->
  veq n (apply1 m q (apply1 m q v)) (vscale c v).
Proof.
  intros Hq Hm a Ha. unfold apply1, vscale. cbv zeta.
  rewrite !nth_upd_same by lia. rewrite !upd_upd_same.
  set (x := nth q a false).
  transitivity (ziadd (zimul (ziadd (zimul (m x false) (m false false)) (zimul (m x true) (m true false))) (v (upd q false a)))
                      (zimul (ziadd (zimul (m x false) (m false true)) (zimul (m x true) (m true true))) (v (upd q true a)))).
  ring. rewrite !Hm. destruct x eqn:E; cbn [Bool.eqb]; [rewrite (upd_self q a false true) by auto|rewrite (upd_self q a false false) by auto]; ring.
Qed.

Lemma apply2_twice n m c t v : c < n -> t < n -> c <> t ->
  (forall x y x' y',
     ziadd (ziadd (zimul (m x y false false) (m false false x' y')) (zimul (m x y false true) (m false true x' y')))
           (ziadd (zimul (m x y true false) (m true false x' y')) (zimul (m x y true true) (m true true x' y')))
     = if Bool.eqb x x' && Bool.eqb y y' then zi1 else zi0) ->
  veq n (apply2 m c t (apply2 m c t v)) v.
Proof.
  intros Hc Ht Hct Hm a Ha. unfold apply2. cbv zeta.
  assert (N1 : forall i j, nth c (upd t j (upd c i a)) false = i).
  { intros. rewrite nth_upd_other by auto. apply nth_upd_same. lia. }
  assert (N2 : forall i j, nth t (upd t j (upd c i a)) false = j).
  { intros. apply nth_upd_same. rewrite length_upd. lia. }
  assert (U : forall i j i' j', upd t j' (upd c i' (upd t j (upd c i a))) = upd t j' (upd c i' a)).
  { intros. rewrite (upd_upd_comm c t) by auto. rewrite upd_upd_same. rewrite upd_upd_same. auto. }
  rewrite !N1, !N2, !U.
  set (x := nth c a false). set (y := nth t a false).
  set (w00 := v (upd t false (upd c false a))). set (w01 := v (upd t true (upd c false a))).
  set (w10 := v (upd t false (upd c true a))). set (w11 := v (upd t true (upd c true a))).
  transitivity (ziadd (ziadd
     (zimul (ziadd (ziadd (zimul (m x y false false) (m false false false false)) (zimul (m x y false true) (m false true false false)))
                   (ziadd (zimul (m x y true false) (m true false false false)) (zimul (m x y true true) (m true true false false)))) w00)
     (zimul (ziadd (ziadd (zimul (m x y false false) (m false false false true)) (zimul (m x y false true) (m false true false true)))
                   (ziadd (zimul (m x y true false) (m true false false true)) (zimul (m x y true true) (m true true false true)))) w01))
    (ziadd
     (zimul (ziadd (ziadd (zimul (m x y false false) (m false false true false)) (zimul (m x y false true) (m false true true false)))
                   (ziadd (zimul (m x y true false) (m true false true false)) (zimul (m x y true true) (m true true true false)))) w10)
     (zimul (ziadd (ziadd (zimul (m x y false false) (m false false true true)) (zimul (m x y false true) (m false true true true)))
                   (ziadd (zimul (m x y true false) (m true false true true)) (zimul (m x y true true) (m true true true true)))) w11))).
  ring. rewrite !Hm.
  assert (E : v (upd t y (upd c x a)) = v a).
  { f_equal. rewrite (upd_self c a false) by auto. apply (upd_self t a false); auto. }
  destruct x, y; cbn [Bool.eqb andb]; subst w00 w01 w10 w11; rewrite E; ring.
Qed.

Definition nz (n : nat) (v : vec) := norm2 n v <> 0%Z.

Lemma nz_apply1 n m q v c : q < n -> ziabs2 c <> 0%Z ->
  (forall x y, ziadd (zimul (m x false) (m false y)) (zimul (m x true) (m true y)) = if Bool.eqb x y then c else zi0) ->
  nz n v -> nz n (apply1 m q v).
Proof.
  intros Hq Hc Hm Hv E. apply Hv. apply norm2_zero in E. apply (apply1_zero n m q) in E.
  assert (E2 : norm2 n (vscale c v) = 0%Z).
  { apply norm2_zero. eapply veq_trans. apply veq_sym, (apply1_twice n m q v c); auto. auto. }
  rewrite norm2_scale in E2. nia.
Qed.
Lemma nz_apply2 n m c t v : c < n -> t < n -> c <> t ->
  (forall x y x' y',
     ziadd (ziadd (zimul (m x y false false) (m false false x' y')) (zimul (m x y false true) (m false true x' y')))
           (ziadd (zimul (m x y true false) (m true false x' y')) (zimul (m x y true true) (m true true x' y')))
     = if Bool.eqb x x' && Bool.eqb y y' then zi1 else zi0) ->
  nz n v -> nz n (apply2 m c t v).
Proof.
  intros Hc Ht Hct Hm Hv E. apply Hv. apply norm2_zero in E. apply (apply2_zero n m c t) in E.
  apply norm2_zero. eapply veq_trans. apply veq_sym, (apply2_twice n m c t v); auto. auto.
Qed.

Lemma nz_pauli n p q v : q < n -> nz n v -> nz n (apply1 (mP p) q v).
Proof. intros Hq Hv. unfold nz. rewrite apply1_pauli_norm; auto. Qed.
Lemma nz_h n q v : q < n -> nz n v -> nz n (apply1 mH q v).
Proof.
  intros Hq. apply (nz_apply1 n mH q v (mkZi 2 0)); auto. discriminate.
  intros [] []; reflexivity.
Qed.
Lemma nz_cx n c t v : c < n -> t < n -> c <> t -> nz n v -> nz n (apply2 mCX c t v).
Proof. intros. apply nz_apply2; auto. intros [] [] [] []; reflexivity. Qed.
Lemma nz_cz n c t v : c < n -> t < n -> c <> t -> nz n v -> nz n (apply2 mCZ c t v).
Proof. intros. apply nz_apply2; auto. intros [] [] [] []; reflexivity. Qed.

Lemma nz_all1 n m qs : (forall q v, q < n -> nz n v -> nz n (apply1 m q v)) -> Forall (fun q => q < n) qs ->
  forall v, nz n v -> nz n (all1 m qs v).
Proof. intros Hm. unfold all1. induction 1; intros v Hv; simpl; auto. Qed.
Lemma nz_all2 n m cts : (forall c t v, c < n -> t < n -> c <> t -> nz n v -> nz n (apply2 m c t v)) ->
  Forall (fun ct => fst ct < n /\ snd ct < n /\ fst ct <> snd ct) cts ->
  forall v, nz n v -> nz n (all2 m cts v).
Proof. intros Hm. unfold all2. induction 1; intros v Hv; simpl; auto. apply IHForall. apply Hm; tauto. Qed.

(** * Success implies arguments in range *)
Lemma foldR_gate1_range n f : (forall q, ops_len_preserving (f q)) -> forall qs t t', rows n t ->
  foldR (gate1_step f) qs t = Ok t' -> Forall (fun q => q < n) qs.
Proof.
  intros HL. induction qs as [|q qs IH]; intros t t' R E; auto. cbn [foldR] in E.
  unfold gate1_step at 1 in E. rewrite (rows_nqubits n) in E by auto.
  destruct (Nat.ltb_spec q n); [|discriminate]. cbn [bindR] in E.
  constructor; auto. eapply IH; [|apply E]. apply rows_map; auto.
Qed.
Lemma gate_checked_range n f t qs t' : rows n t -> gate_checked f t qs = Ok t' -> Forall (fun q => q < n) qs.
Proof.
  intros R. unfold gate_checked. rewrite (rows_nqubits n) by auto.
  destruct (existsb _ qs) eqn:E; [discriminate|]. intros _. apply Forall_forall. intros q Hq.
  destruct (Nat.lt_ge_cases q n); auto. exfalso.
  assert (existsb (fun q => n <=? q) qs = true); [|congruence]. apply existsb_exists. exists q. split; auto.
  apply Nat.leb_le; auto.
Qed.
Lemma foldR_gate2_range n f : (forall c t, ops_len_preserving (f c t)) -> forall cts t t', rows n t ->
  foldR (gate2_step f) cts t = Ok t' -> Forall (fun ct => fst ct < n /\ snd ct < n) cts.
Proof.
  intros HL. induction cts as [|[c q] cts IH]; intros t t' R E; auto. cbn [foldR] in E.
  unfold gate2_step at 1 in E. rewrite (rows_nqubits n) in E by auto. cbn [fst snd] in E.
  destruct (Nat.ltb_spec c n), (Nat.ltb_spec q n); cbn [andb bindR] in E; try discriminate.
  constructor; auto. eapply IH; [|apply E]. apply rows_map; auto.
Qed.

(** * Arguments *)
Lemma qubit_of_ok a q : qubit_of a = Ok q -> a = qa q.
Proof.
  destruct a; simpl; try discriminate. destruct (Z.ltb_spec z 0); try discriminate. intros [= <-].
  unfold qa. rewrite Z2Nat.id by auto. auto.
Qed.
Lemma mapR_qubits args : forall qs, mapR qubit_of args = Ok qs -> args = map qa qs.
Proof.
  induction args as [|a args IH]; intros qs E; cbn [mapR] in E.
  - injection E as <-. auto.
  - destruct (qubit_of a) eqn:Ea; try discriminate. cbn [bindR] in E.
    destruct (mapR qubit_of args) eqn:Er; try discriminate. cbn [bindR] in E. injection E as <-.
    cbn [map]. f_equal; auto. apply qubit_of_ok; auto.
Qed.
Lemma prob_of_ok a p : prob_of a = Ok p -> prob_arg a p.
Proof. destruct a; simpl; intros [= <-]; constructor. Qed.
Lemma mapR_probs args : forall ps, mapR prob_of args = Ok ps -> Forall2 prob_arg args ps.
Proof.
  induction args as [|a args IH]; intros ps E; cbn [mapR] in E.
  - injection E as <-. constructor.
  - destruct (prob_of a) eqn:Ea; try discriminate. cbn [bindR] in E.
    destruct (mapR prob_of args) eqn:Er; try discriminate. cbn [bindR] in E. injection E as <-.
    constructor; auto. apply prob_of_ok; auto.
Qed.

Lemma Forall2_len {A B} (R : A -> B -> Prop) l l' : Forall2 R l l' -> List.length l = List.length l'.
Proof. induction 1; simpl; auto. Qed.

Lemma qa_inj a b : qa a = qa b -> a = b.
Proof. unfold qa. intros [= H]. lia. Qed.

Lemma odds_cons2 {A} (a b : A) l : odds (a :: b :: l) = b :: odds l.
Proof. destruct l; reflexivity. Qed.
Lemma pair_up {A} (l : list A) : List.length (odds l) = List.length (evens l) ->
  l = flat_map (fun ct => [fst ct; snd ct]) (combine (evens l) (odds l)).
Proof.
  remember (List.length l) as k eqn:Hk. revert l Hk.
  induction k as [k IH] using (well_founded_induction lt_wf). intros [|a [|b l]] Hk HL; auto.
  - discriminate.
  - rewrite odds_cons2 in *. cbn [evens combine flat_map fst snd app List.length] in *.
    do 2 f_equal. apply (IH (List.length l)); auto; lia.
Qed.

Lemma pairs_map qs cts : qs = flat_map (fun ct : nat * nat => [fst ct; snd ct]) cts ->
  map qa qs = flat_map (fun ct => [qa (fst ct); qa (snd ct)]) cts.
Proof. intros ->. induction cts; simpl; auto. rewrite IHcts. auto. Qed.

Lemma distinct_flat cts : distinct_pairs (flat_map (fun ct => [qa (fst ct); qa (snd ct)]) cts) ->
  Forall (fun ct => fst ct <> snd ct) cts.
Proof.
  induction cts as [|[c t] cts IH]; simpl; intros H; constructor; try tauto.
  simpl. destruct H as [H _]. congruence.
Qed.

(** * choice *)
Lemma Qltb_lt a b : Qltb a b = true <-> (a < b)%Q.
Proof.
  unfold Qltb. rewrite negb_true_iff. split.
  - intros H. apply Qnot_le_lt. intros L. apply Qle_bool_iff in L. congruence.
  - intros H. destruct (Qle_bool b a) eqn:E; auto. apply Qle_bool_iff in E. lra.
Qed.
Lemma Qltb_ge a b : Qltb a b = false <-> (b <= a)%Q.
Proof.
  unfold Qltb. rewrite negb_false_iff. apply Qle_bool_iff.
Qed.

Lemma pick_spec u : forall ps acc i, (acc <= u)%Q -> (u < acc + qsum ps)%Q ->
  exists d, pick u acc ps i = (i + d) /\ d < List.length ps /\ (0 < nth d ps 0)%Q.
Proof.
  induction ps as [|p ps IH]; intros acc i H1 H2; cbn [qsum fold_right pick] in *.
  - exfalso. lra.
  - destruct (Qltb u (acc + p)) eqn:E.
    + apply Qltb_lt in E. exists 0. split. lia. split. simpl; lia. simpl. lra.
    + apply Qltb_ge in E. destruct (IH (acc + p)%Q (S i)) as (d & Hd & Hl & Hp).
      * lra.
      * fold (qsum ps) in H2. lra.
      * exists (S d). rewrite Hd. split. lia. split. simpl; lia. simpl. auto.
Qed.

Lemma Qsum_qsum l : (Qsum l == qsum l)%Q.
Proof.
  unfold Qsum. assert (H : forall l a, (fold_left Qplus l a == a + qsum l)%Q).
  { clear. induction l; intros x; cbn [fold_left qsum fold_right]. lra. rewrite IHl. fold (qsum l). lra. }
  rewrite H. lra.
Qed.

Definition unif (g : rng) := forall k, (0 <= d_unif (g k) /\ d_unif (g k) < 1)%Q.

Lemma choice_spec u ps sample : (0 <= u /\ u < 1)%Q -> choice u ((1 - Qsum ps)%Q :: ps) = Ok sample ->
  sample < S (List.length ps) /\ (0 < prob_k ps sample)%Q.
Proof.
  intros Hu. unfold choice. destruct (existsb _ _); [discriminate|]. intros E.
  destruct (pick_spec u ((1 - Qsum ps)%Q :: ps) 0%Q 0) as (d & Hd & Hl & Hp).
  - apply Hu.
  - cbn [qsum fold_right]. fold (qsum ps). pose proof (Qsum_qsum ps). destruct Hu as [_ Hu]. lra.
  - rewrite Hd in E. assert (sample = d) by (injection E; auto). subst sample. clear E Hd.
    simpl in Hl. split; auto. unfold prob_k. destruct d; cbn [nth] in *; auto.
    rewrite <- Qsum_qsum. auto.
Qed.

(** * Simulation invariant *)
Definition Inv (n : nat) (s : sim) (v : vec) : Prop :=
  wf n (s_st s) /\ describes n (s_st s) v /\ nz n v.
Definition same_flags (s s' : sim) : Prop := s_in s' = s_in s /\ s_any s' = s_any s /\ s_branch s' = s_branch s.
Definition emits (s s' : sim) (ms es : list bool) : Prop :=
  s_meas s' = s_meas s ++ ms /\ s_eras s' = s_eras s ++ es /\ same_flags s s'.

Ltac em := unfold emits, same_flags; cbn; rewrite ?app_nil_r; repeat split; auto.

Lemma apply1_mI n q v : veq n (apply1 mI q v) v.
Proof.
  intros a Ha. unfold apply1. cbv zeta. destruct (nth q a false) eqn:E; unfold mI; cbn [Bool.eqb].
  - rewrite (upd_self q a false true) by auto. ring.
  - rewrite (upd_self q a false false) by auto. ring.
Qed.

Lemma apply_pauli_sem n s q P s' v : 0 < n -> Inv n s v ->
  apply_pauli_from_int s q (code P) = Ok s' -> Inv n s' (apply1 (mP P) q v) /\ emits s s' [] [] /\ s_k s' = s_k s.
Proof.
  intros Hn (W & D & N) E. assert (R : rows n (s_st s)) by (apply wf_rows; auto).
  destruct P; cbn [code apply_pauli_from_int] in E.
  - injection E as <-. split; [|em].
    pose proof W as (L & F & _). split; [exact W|]. split.
    + apply (describes_ext n _ v); [intros; apply F; lia|exact L|apply veq_sym, apply1_mI|exact D].
    + unfold nz. change (mP PI) with mI. rewrite (norm2_ext n _ _ (apply1_mI n q v)). auto.
  - destruct (gate_x (s_st s) [q]) eqn:G; [|discriminate]. injection E as <-.
    pose proof (gate_checked_range n _ _ _ _ R G) as HF. rewrite (gate_x_ok n) in G by auto. injection G as <-.
    inversion HF; subst. split; [|em].
    split; [|split]; cbn [s_st set_st].
    + apply gate_wf; auto. apply x_len. apply x_symp.
    + apply (gate_describes n _ _ (apply1 mX q)); auto. intros; apply apply1_ext; auto. intros; apply x_conj; auto.
    + apply nz_pauli; auto.
  - destruct (gate_y (s_st s) [q]) eqn:G; [|discriminate]. injection E as <-.
    assert (HF : Forall (fun q => q < n) [q]).
    { unfold gate_y in G. destruct (gate_x (s_st s) [q]) eqn:G2; [|discriminate].
      apply (gate_checked_range n _ _ _ _ R G2). }
    rewrite (gate_y_ok n) in G by auto. injection G as <-.
    inversion HF; subst. split; [|em].
    split; [|split]; cbn [s_st set_st].
    + apply gate_wf; auto. apply y_len. apply y_symp.
    + apply (gate_describes n _ _ (apply1 mY q)); auto. intros; apply apply1_ext; auto. intros; apply y_conj; auto.
    + apply nz_pauli; auto.
  - destruct (gate_z (s_st s) [q]) eqn:G; [|discriminate]. injection E as <-.
    pose proof (gate_checked_range n _ _ _ _ R G) as HF. rewrite (gate_z_ok n) in G by auto. injection G as <-.
    inversion HF; subst. split; [|em].
    split; [|split]; cbn [s_st set_st].
    + apply gate_wf; auto. apply z_len. apply z_symp.
    + apply (gate_describes n _ _ (apply1 mZ q)); auto. intros; apply apply1_ext; auto. intros; apply z_conj; auto.
    + apply nz_pauli; auto.
Qed.

Lemma code_surj k : k < 4 -> exists P, code P = k.
Proof. intros H. destruct k as [|[|[|[|]]]]; [exists PI|exists PX|exists PY|exists PZ|lia]; auto. Qed.

Lemma emits_nil s s' ms es : emits s s' ms es -> forall s'' ms' es', emits s' s'' ms' es' ->
  emits s s'' (ms ++ ms') (es ++ es').
Proof.
  intros (A & B & C1 & C2 & C3) s'' ms' es' (A' & B' & D1 & D2 & D3). unfold emits, same_flags.
  rewrite A', A, B', B, !app_assoc. repeat split; congruence.
Qed.

Lemma stored_error name a inner rest : stored (name, a :: AStr inner :: rest) ->
  name = "ERROR" \/ name = "ERROR_ELSE" -> exists p zs, a = AFlt p /\ rest = map AInt zs.
Proof.
  intros H HN. inversion H; subst; try (destruct HN; discriminate); eauto.
  destruct zs as [|z [|]]; discriminate.
Qed.

Section Run.
Variable g : rng.
Hypothesis Hg : unif g.
Variable n : nat.
Hypothesis Hn : 0 < n.

Lemma good_none : good_forced None. Proof. intros f; discriminate. Qed.

Lemma measure_qubits_sem : forall qs s s' v, Inv n s v -> foldR (measure_qubit g) qs s = Ok s' ->
  exists ms v', qmeasure n qs v ms v' /\ Inv n s' v' /\ emits s s' ms [].
Proof.
  induction qs as [|q qs IH]; intros s s' v (W & D & N) E.
  - injection E as <-. exists [], v. split. constructor. split. split; auto.
    unfold emits, same_flags. rewrite !app_nil_r; auto.
  - cbn [foldR] in E. unfold measure_qubit at 1 in E. rewrite (wf_nqubits n) in E by auto.
    destruct (single_qubit_pauli_operator false PZ q n) as [op|] eqn:Eop; [|discriminate].
    assert (Hq : q < n).
    { unfold single_qubit_pauli_operator in Eop. destruct (n <? 1); [discriminate|].
      destruct (Nat.leb_spec n q); [discriminate|]. auto. }
    rewrite sqpo_ok in Eop by (auto; discriminate). assert (Eo := f_equal (fun r => match r with Ok x => x | Err _ => op end) Eop).
    cbn beta iota in Eo. clear Eop. cbn [bindR] in E.
    destruct (measure g (s_k s) (s_st s) op None) as [[[t m] k]|] eqn:EM; [|discriminate].
    cbn [bindR] in E.
    assert (Hop : List.length (ops op) = n) by (subst op; apply single_len).
    assert (Hid : ops op <> repeat pid n) by (subst op; exact (single_nonid n PZ q Hq ltac:(discriminate))).
    destruct (measure_sem n g _ _ op None t m k v W Hn Hop Hid good_none EM D) as (W1 & D1 & HN).
    assert (Ed : denote op = single n false PZ q) by (subst op; apply denote_single). rewrite Ed in *.
    assert (N1 : nz n (project (single n false PZ q) m v)).
    { unfold nz in *. destruct HN as [(H & _)|(H & _)]; rewrite H; lia. }
    destruct (fun I => IH _ s' (project (single n false PZ q) m v) I E) as (ms & v' & Q & I & Em).
    { split; auto. }
    exists (m :: ms), v'. split; [|split; auto].
    + constructor; auto. split; auto. destruct HN as [(H & _)|(H & _)]; [left; auto|right; intros; rewrite H; ring].
    + destruct Em as (A & B & C1 & C2 & C3). cbn in *. unfold emits, same_flags.
      rewrite A, <- app_assoc. auto.
Qed.

Lemma reset_sem : forall qs st k st' k' v, wf n st -> describes n st v -> nz n v ->
  reset_qubits g k st false PZ qs = Ok (st', k') ->
  exists v', qreset n qs v v' /\ wf n st' /\ describes n st' v' /\ nz n v'.
Proof.
  induction qs as [|q qs IH]; intros st k st' k' v W D N E.
  - injection E as <- <-. exists v. split. constructor. auto.
  - unfold reset_qubits in *. cbn [foldR] in E.
    destruct (reset_step g false PZ (st, k) q) as [[st1 k1]|] eqn:ES; [|discriminate].
    assert (Hq : q < n).
    { unfold reset_step in ES. rewrite (wf_nqubits n) in ES by auto.
      unfold single_qubit_pauli_operator in ES. destruct (n <? 1); [discriminate|].
      destruct (Nat.leb_spec n q); [discriminate|]. auto. }
    destruct (reset_step_ok n g false PZ st k q v W Hq ltac:(right; auto) D)
      as (st2 & k2 & m & E2 & W1 & D1 & _ & N1 & N2 & _).
    rewrite ES in E2. injection E2 as <- <-. cbn [bindR] in E.
    destruct (IH st1 k1 st' k' (reset_vec n false PZ q m v) W1 D1) as (v' & Q & R).
    + unfold nz in *. lia.
    + auto.
    + exists v'. split; auto. apply (qr_cons n q qs m); auto.
      split. * unfold nz in N. destruct N2 as [H|H]; rewrite H; lia.
      * destruct N2 as [H|H]; [left; auto|right; intros; rewrite H; ring].
Qed.

Lemma depol_sem : forall qs s s' v, Inv n s v -> foldR (depolarize_qubit g) qs s = Ok s' ->
  exists l, map snd l = qs /\ Forall (fun pq => fst pq <> PI) l /\ Inv n s' (paulis l v) /\ emits s s' [] [].
Proof.
  induction qs as [|q qs IH]; intros s s' v I E.
  - injection E as <-. exists []. repeat split; auto; cbn; try rewrite app_nil_r; auto; apply I.
  - cbn [foldR] in E. destruct (depolarize_qubit g s q) as [s1|] eqn:E1; [|discriminate]. cbn [bindR] in E.
    unfold depolarize_qubit in E1. remember (1 + d_int (g (s_k s)) mod 3) as k.
    assert (Hk : 1 <= k < 4).
    { subst. pose proof (Nat.mod_upper_bound (d_int (g (s_k s))) 3 ltac:(lia)). lia. }
    destruct (code_surj k) as (P & HP). lia. rewrite <- HP in E1.
    destruct (apply_pauli_sem n (tick s) q P s1 v Hn I E1) as (I1 & Em1 & _).
    destruct (IH s1 s' _ I1 E) as (l & Hl & HF & I2 & Em2).
    exists ((P, q) :: l). split. { cbn. f_equal; auto. } split.
    { constructor; auto. cbn. intros ->. cbn in HP. lia. }
    split. auto. exact (emits_nil _ _ _ _ Em1 _ _ _ Em2).
Qed.

Lemma distinct_combine cs ts : Forall (fun ct => fst ct < n /\ snd ct < n) (combine cs ts) ->
  Forall (fun ct => fst ct <> snd ct) (combine cs ts) ->
  Forall (fun ct => fst ct < n /\ snd ct < n /\ fst ct <> snd ct) (combine cs ts).
Proof.
  intros H1 H2. rewrite Forall_forall in *. intros x Hx. specialize (H1 x Hx). specialize (H2 x Hx). tauto.
Qed.

Ltac name_case E nm := destruct (String.eqb_spec nm _) as [->|_] in E.

Lemma handle_gate_sem s name args s' v :
  Inv n s v -> distinct_gate name args -> handle_gate g s name args = Ok s' ->
  exists ms es v', qgate n name args v ms es v' /\ Inv n s' v' /\ emits s s' ms es.
Proof.
  intros (W & D & N) HDist E. assert (R : rows n (s_st s)) by (apply wf_rows; auto).
  assert (EmT : forall t, emits s (set_st s t) [] []).
  { intros t. unfold emits, same_flags. cbn. rewrite !app_nil_r. auto. }
  unfold handle_gate in E.
  destruct (String.eqb_spec name "X") as [->|_].
  { destruct (mapR qubit_of args) as [qs|] eqn:Ea; [|discriminate]. cbn [bindR] in E.
    apply mapR_qubits in Ea. subst args.
    destruct (gate_x (s_st s) qs) as [t|] eqn:G; [|discriminate]. injection E as <-.
    pose proof (gate_checked_range n _ _ _ _ R G) as HF. rewrite (gate_x_ok n) in G by auto. injection G as <-.
    eexists _, _, _. split. apply QX. split; auto. split; [|split]; cbn [s_st set_st].
    - apply gate_wf; auto. apply rowfold_len, x_len. apply symp1; auto. apply x_len. intros; apply x_symp; auto.
    - apply gate_describes; auto. apply all1_ext. intros. apply x_all; auto.
    - apply nz_all1; auto. intros. apply (nz_pauli n PX); auto. }
  destruct (String.eqb_spec name "Y") as [->|_].
  { destruct (mapR qubit_of args) as [qs|] eqn:Ea; [|discriminate]. cbn [bindR] in E.
    apply mapR_qubits in Ea. subst args.
    destruct (gate_y (s_st s) qs) as [t|] eqn:G; [|discriminate]. injection E as <-.
    assert (HF : Forall (fun q => q < n) qs).
    { unfold gate_y in G. destruct (gate_x (s_st s) qs) eqn:G2; [|discriminate].
      apply (gate_checked_range n _ _ _ _ R G2). }
    rewrite (gate_y_ok n) in G by auto. injection G as <-.
    eexists _, _, _. split. apply QY. split; auto. split; [|split]; cbn [s_st set_st].
    - apply gate_wf; auto. apply rowfold_len, y_len. apply symp1; auto. apply y_len. intros; apply y_symp; auto.
    - apply gate_describes; auto. apply all1_ext. intros. apply y_all; auto.
    - apply nz_all1; auto. intros. apply (nz_pauli n PY); auto. }
  destruct (String.eqb_spec name "Z") as [->|_].
  { destruct (mapR qubit_of args) as [qs|] eqn:Ea; [|discriminate]. cbn [bindR] in E.
    apply mapR_qubits in Ea. subst args.
    destruct (gate_z (s_st s) qs) as [t|] eqn:G; [|discriminate]. injection E as <-.
    pose proof (gate_checked_range n _ _ _ _ R G) as HF. rewrite (gate_z_ok n) in G by auto. injection G as <-.
    eexists _, _, _. split. apply QZ. split; auto. split; [|split]; cbn [s_st set_st].
    - apply gate_wf; auto. apply rowfold_len, z_len. apply symp1; auto. apply z_len. intros; apply z_symp; auto.
    - apply gate_describes; auto. apply all1_ext. intros. apply z_all; auto.
    - apply nz_all1; auto. intros. apply (nz_pauli n PZ); auto. }
  destruct (String.eqb_spec name "H") as [->|_].
  { destruct (mapR qubit_of args) as [qs|] eqn:Ea; [|discriminate]. cbn [bindR] in E.
    apply mapR_qubits in Ea. subst args.
    destruct (hadamard (s_st s) qs) as [t|] eqn:G; [|discriminate]. injection E as <-.
    assert (HF : Forall (fun q => q < n) qs).
    { eapply foldR_gate1_range; [apply h_len|apply R|apply G]. }
    rewrite (hadamard_ok n) in G by auto. injection G as <-.
    eexists _, _, _. split. apply QH. split; auto. split; [|split]; cbn [s_st set_st].
    - apply gate_wf; auto. apply rowfold_len, h_len. apply symp1; auto. apply h_len. intros; apply h_symp; auto.
    - apply gate_describes; auto. apply all1_ext. intros. apply h_all; auto.
    - apply nz_all1; auto. intros. apply nz_h; auto. }
  destruct (String.eqb_spec name "CX") as [->|_].
  { destruct (mapR qubit_of args) as [qs|] eqn:Ea; [|discriminate]. cbn [bindR] in E.
    apply mapR_qubits in Ea. subst args.
    destruct (control_not_gate (s_st s) (evens qs) (odds qs)) as [t|] eqn:G; [|discriminate]. injection E as <-.
    unfold control_not_gate in G.
    destruct (Nat.eqb_spec (List.length (odds qs)) (List.length (evens qs))) as [EL|]; [|discriminate].
    cbn [negb] in G. pose proof (pair_up qs EL) as EQ.
    specialize (HDist (or_introl eq_refl)). rewrite (pairs_map _ _ EQ) in *.
    apply distinct_flat in HDist.
    assert (HR : Forall (fun ct => fst ct < n /\ snd ct < n) (combine (evens qs) (odds qs))).
    { eapply foldR_gate2_range; [apply cx_len|apply R|apply G]. }
    assert (HP : pairs_ok n (evens qs) (odds qs)).
    { split; auto. apply distinct_combine; auto. }
    destruct HP as [HP1 HP2].
    rewrite (fold_gate2 n) in G; auto. 2: intros; apply cx_len. injection G as <-.
    eexists _, _, _. split. apply QCX. split; auto. split; [|split]; cbn [s_st set_st].
    - apply gate_wf; auto. apply rowfold_len. intros; apply cx_len. apply rowfold_symp. intros; apply cx_len.
      intros q Hq. rewrite Forall_forall in HP2. specialize (HP2 _ Hq). apply cx_symp; tauto.
    - apply gate_describes; auto. apply all2_ext. intros. apply (cx_all n (evens qs) (odds qs)); auto. split; auto.
    - apply nz_all2; auto. intros. apply nz_cx; auto. }
  destruct (String.eqb_spec name "CZ") as [->|_].
  { destruct (mapR qubit_of args) as [qs|] eqn:Ea; [|discriminate]. cbn [bindR] in E.
    apply mapR_qubits in Ea. subst args.
    destruct (control_phase_gate (s_st s) (evens qs) (odds qs)) as [t|] eqn:G; [|discriminate]. injection E as <-.
    unfold control_phase_gate in G.
    destruct (Nat.eqb_spec (List.length (odds qs)) (List.length (evens qs))) as [EL|]; [|discriminate].
    cbn [negb] in G. pose proof (pair_up qs EL) as EQ.
    specialize (HDist (or_intror eq_refl)). rewrite (pairs_map _ _ EQ) in *.
    apply distinct_flat in HDist.
    assert (HR : Forall (fun ct => fst ct < n /\ snd ct < n) (combine (evens qs) (odds qs))).
    { eapply foldR_gate2_range; [apply cz_len|apply R|apply G]. }
    assert (HP : pairs_ok n (evens qs) (odds qs)).
    { split; auto. apply distinct_combine; auto. }
    destruct HP as [HP1 HP2].
    rewrite (fold_gate2 n) in G; auto. 2: intros; apply cz_len. injection G as <-.
    eexists _, _, _. split. apply QCZ. split; auto. split; [|split]; cbn [s_st set_st].
    - apply gate_wf; auto. apply rowfold_len. intros; apply cz_len. apply rowfold_symp. intros; apply cz_len.
      intros q Hq. rewrite Forall_forall in HP2. specialize (HP2 _ Hq). apply cz_symp; tauto.
    - apply gate_describes; auto. apply all2_ext. intros. apply (cz_all n (evens qs) (odds qs)); auto. split; auto.
    - apply nz_all2; auto. intros. apply nz_cz; auto. }
  destruct (String.eqb_spec name "M") as [->|_].
  { destruct (mapR qubit_of args) as [qs|] eqn:Ea; [|discriminate]. cbn [bindR] in E.
    apply mapR_qubits in Ea. subst args.
    destruct (measure_qubits_sem qs s s' v) as (ms & v' & Q & I & Em); auto. split; auto.
    exists ms, [], v'. split; auto. apply QM; auto. }
  destruct (String.eqb_spec name "R") as [->|_].
  { destruct (mapR qubit_of args) as [qs|] eqn:Ea; [|discriminate]. cbn [bindR] in E.
    apply mapR_qubits in Ea. subst args.
    destruct (reset_qubits g (s_k s) (s_st s) false PZ qs) as [[t k]|] eqn:G; [|discriminate].
    injection E as <-. destruct (reset_sem qs _ _ t k v W D N G) as (v' & Q & W' & D' & N').
    exists [], [], v'. split. apply QR; auto. split. split; auto.
    unfold emits, same_flags. cbn. rewrite !app_nil_r. auto. }
  destruct (String.eqb_spec name "DEPOLARIZE") as [->|_].
  { destruct (mapR qubit_of args) as [qs|] eqn:Ea; [|discriminate]. cbn [bindR] in E.
    apply mapR_qubits in Ea. subst args.
    destruct (depol_sem qs s s' v) as (l & Hl & HF & I & Em); auto. split; auto.
    exists [], [], (paulis l v). split; auto. subst qs. rewrite map_map. apply QDepol; auto. }
  destruct (String.eqb_spec name "E_ERASE") as [->|_].
  { destruct args as [|a [|b [|]]]; try discriminate.
    destruct (prob_of a) as [p|] eqn:Ep; [|discriminate]. apply prob_of_ok in Ep.
    destruct (qubit_of b) as [q|] eqn:Eq; [|discriminate]. apply qubit_of_ok in Eq. subst b.
    cbn [bindR] in E. cbv zeta in E. destruct (Hg (s_k s)) as [U1 U2].
    destruct (Qltb (d_unif (g (s_k s))) p) eqn:EU.
    - apply Qltb_lt in EU.
      set (s1 := mkSim (s_st s) (s_meas s) (s_eras s ++ [true]) (s_in s) (s_any s) (s_branch s) (S (s_k s))) in *.
      remember (d_int (g (s_k s1)) mod 4) as k.
      destruct (code_surj k) as (P & HP). { subst. apply Nat.mod_upper_bound. lia. }
      rewrite <- HP in E.
      destruct (apply_pauli_sem n (tick s1) q P s' v Hn) as (I1 & Em1 & _); auto. split; auto.
      exists [], [true], (apply1 (mP P) q v). split. apply (QErase n a p); auto. lra. split; auto.
      destruct Em1 as (A & B & C1 & C2 & C3). cbn in *. unfold emits, same_flags.
      rewrite A, B, !app_nil_r. auto.
    - apply Qltb_ge in EU. injection E as <-. exists [], [false], v. split. apply (QNoErase n a p); auto. lra.
      split. split; auto. unfold emits, same_flags. cbn. rewrite app_nil_r. auto. }
  destruct (String.eqb_spec name "E_PAULI") as [->|_].
  { destruct args as [|a1 [|a2 [|a3 [|b rest]]]]; try discriminate.
    destruct (mapR prob_of [a1; a2; a3]) as [ps|] eqn:Ep; [|discriminate]. apply mapR_probs in Ep.
    cbn [bindR] in E.
    destruct (qubit_of b) as [q|] eqn:Eq; [|discriminate]. apply qubit_of_ok in Eq. subst b.
    cbn [bindR] in E.
    destruct (choice _ _) as [sample|] eqn:EC; [|discriminate]. cbn [bindR] in E.
    apply choice_spec in EC; [|apply Hg]. destruct EC as [HS HP].
    assert (Hl : List.length ps = 3) by (symmetry; exact (Forall2_len _ _ _ Ep)).
    destruct ps as [|p1 [|p2 [|p3 [|]]]]; try discriminate.
    destruct (code_surj sample) as (P & <-). { simpl in HS. lia. }
    destruct (apply_pauli_sem n (tick s) q P s' v Hn) as (I1 & Em1 & _); auto. split; auto.
    exists [], [], (apply1 (mP P) q v). split; [|split; auto].
    eapply QPauli; eauto. }
  destruct (String.eqb_spec name "E_PAULI2") as [->|_]; [|discriminate].
  destruct (mapR prob_of (firstn 15 args)) as [ps|] eqn:Ep; [|discriminate]. apply mapR_probs in Ep.
  cbn [bindR] in E. destruct (Nat.eqb_spec (List.length ps) 15) as [Hl|]; [|discriminate]. cbn [negb] in E.
  destruct (choice _ _) as [sample|] eqn:EC; [|discriminate]. cbn [bindR] in E.
  apply choice_spec in EC; [|apply Hg]. destruct EC as [HS HP]. rewrite Hl in HS.
  destruct (skipn 15 args) as [|a [|b rest]] eqn:ES; try discriminate.
  destruct (qubit_of a) as [q1|] eqn:Eq1; [|discriminate]. apply qubit_of_ok in Eq1. subst a. cbn [bindR] in E.
  destruct (qubit_of b) as [q2|] eqn:Eq2; [|discriminate]. apply qubit_of_ok in Eq2. subst b. cbn [bindR] in E.
  destruct (code_surj (sample / 4)) as (P1 & HP1). { apply Nat.div_lt_upper_bound; lia. }
  destruct (code_surj (sample mod 4)) as (P2 & HP2). { apply Nat.mod_upper_bound; lia. }
  rewrite <- HP1, <- HP2 in E.
  destruct (apply_pauli_from_int (tick s) q1 (code P1)) as [s1|] eqn:E1; [|discriminate]. cbn [bindR] in E.
  destruct (apply_pauli_sem n (tick s) q1 P1 s1 v Hn) as (I1 & Em1 & _); auto. split; auto.
  destruct (apply_pauli_sem n s1 q2 P2 s' _ Hn I1 E) as (I2 & Em2 & _).
  exists [], [], (apply1 (mP P2) q2 (apply1 (mP P1) q1 v)). split; [|split; auto].
  - rewrite <- (firstn_skipn 15 args), ES. apply QPauli2 with (ps := ps); auto.
    rewrite HP1, HP2. rewrite <- Nat.div_mod by lia. auto.
  - exact (emits_nil _ _ _ _ Em1 _ _ _ Em2).
Qed.

Definition good_gate (gt : gate) : Prop := stored gt /\ distinct_ct gt.

Definition emits' (s s' : sim) (ms es : list bool) : Prop :=
  s_meas s' = s_meas s ++ ms /\ s_eras s' = s_eras s ++ es.

Lemma run_sem : forall c s s' v, Inv n s v -> Forall good_gate c -> foldR (run_gate g) c s = Ok s' ->
  exists ms es v', qcirc n c v ms es v' /\ Inv n s' v' /\ emits' s s' ms es.
Proof.
  induction c as [|[name args] c IH]; intros s s' v I HG E.
  - injection E as <-. exists [], [], v. split. constructor. split; auto. split; rewrite app_nil_r; auto.
  - inversion HG as [|? ? [HS HD] HG']; subst. cbn [foldR] in E.
    destruct (run_gate g s (name, args)) as [s1|] eqn:E1; [|discriminate]. cbn [bindR] in E.
    assert (Step : forall ms es v1 (Q : forall ms' es' v', qcirc n c v1 ms' es' v' ->
                     qcirc n ((name, args) :: c) v (ms ++ ms') (es ++ es') v'),
              Inv n s1 v1 -> emits' s s1 ms es ->
              exists ms es v', qcirc n ((name, args) :: c) v ms es v' /\ Inv n s' v' /\ emits' s s' ms es).
    { intros ms es v1 Q I1 (A & B). destruct (IH s1 s' v1 I1 HG' E) as (ms' & es' & v' & Q' & I' & A' & B').
      exists (ms ++ ms'), (es ++ es'), v'. split. apply Q; auto. split; auto.
      split. rewrite A', A, app_assoc; auto. rewrite B', B, app_assoc; auto. }
    unfold run_gate in E1. cbn [fst snd] in E1.
    destruct (String.prefix "ERROR" name) eqn:EP.
    + unfold handle_error in E1.
      destruct (String.eqb_spec name "ERROR") as [->|N1].
      { destruct args as [|a [|[| |inner] rest]]; try discriminate.
        destruct (stored_error _ _ _ _ HS) as (p & zs & -> & ->); auto.
        cbn [prob_of bindR] in E1.
        destruct (Hg (s_k s)) as [U1 U2].
        destruct (Qltb (d_unif (g (s_k s))) p) eqn:EU.
        - apply Qltb_lt in EU. destruct HD as [_ HD]. cbn [snd] in HD.
          destruct (handle_gate_sem (tick (set_flags s true true true)) inner (map AInt zs) s1 v I HD E1)
            as (ms & es & v1 & Q & I1 & A & B & _).
          apply (Step ms es v1); auto. 2: split; auto.
          intros. apply qc_error with (v1 := v1); auto. lra.
        - apply Qltb_ge in EU. injection E1 as <-.
          apply (Step [] [] v); auto. 2: split; rewrite app_nil_r; auto.
          intros. apply qc_noerror; auto. left. split; auto. lra. }
      destruct (String.eqb_spec name "ERROR_CONTINUE") as [->|N2].
      { destruct args as [|[| |inner] rest]; try discriminate.
        destruct (s_in s); cbn [negb] in E1; [|discriminate].
        destruct (s_branch s).
        - destruct HD as [_ HD]. cbn [snd] in HD.
          destruct (handle_gate_sem s inner rest s1 v I HD E1) as (ms & es & v1 & Q & I1 & A & B & _).
          apply (Step ms es v1); auto. 2: split; auto.
          intros. apply qc_continue with (v1 := v1); auto.
        - injection E1 as <-. apply (Step [] [] v); auto. 2: split; rewrite app_nil_r; auto.
          intros. apply qc_nocontinue; auto. }
      destruct (String.eqb_spec name "ERROR_ELSE") as [->|N3]; [|discriminate].
      destruct args as [|a [|[| |inner] rest]]; try discriminate.
      destruct (stored_error _ _ _ _ HS) as (p & zs & -> & ->); auto.
      cbn [prob_of bindR] in E1.
      destruct (s_in s) eqn:Ein; cbn [negb] in E1; [|discriminate].
      destruct (s_any s).
      { injection E1 as <-. apply (Step [] [] v); auto. 2: split; rewrite app_nil_r; auto.
        intros. apply qc_noerror; auto. }
      destruct (Hg (s_k s)) as [U1 U2].
      destruct (Qltb (d_unif (g (s_k s))) p) eqn:EU.
      * apply Qltb_lt in EU. destruct HD as [_ HD]. cbn [snd] in HD.
        destruct (handle_gate_sem (tick (set_flags s true true true)) inner (map AInt zs) s1 v I HD E1)
            as (ms & es & v1 & Q & I1 & A & B & _).
        apply (Step ms es v1); auto. 2: split; auto.
        intros. apply qc_error with (v1 := v1); auto. lra.
      * injection E1 as <-.
        apply (Step [] [] v); auto. 2: split; rewrite app_nil_r; auto.
        intros. apply qc_noerror; auto.
    + destruct HD as [HD _]. cbn [fst snd] in HD.
      destruct (handle_gate_sem (set_flags s false (s_any s) (s_branch s)) name args s1 v I HD E1)
        as (ms & es & v1 & Q & I1 & A & B & _).
      apply (Step ms es v1); auto. 2: split; auto.
      intros. apply qc_gate with (v1 := v1); auto.
Qed.
End Run.

Lemma nz_ket0 n : nz n ket0.
Proof.
  intros E. rewrite norm2_zero in E. specialize (E (repeat false n) (repeat_length _ _)). unfold ket0 in E.
  replace (forallb negb (repeat false n)) with true in E. discriminate.
  clear. induction n; simpl; auto.
Qed.

Lemma number_of_qubits_pos c : 0 < number_of_qubits c.
Proof.
  unfold number_of_qubits.
  assert (H : forall l n, (0 <= n)%Z -> (0 <= fold_left max_arg l n)%Z).
  { induction l as [|a l IH]; intros n Hn; cbn [fold_left]; auto. apply IH. unfold max_arg.
    destruct a; auto. destruct (Z.ltb_spec n z); lia. }
  assert (H2 : forall (c : circuit) n, (0 <= n)%Z -> (0 <= fold_left (fun n g => fold_left max_arg (snd g) n) c n)%Z).
  { induction c0 as [|a l IH]; intros n Hn; cbn [fold_left]; auto. }
  specialize (H2 c 0%Z ltac:(lia)). match type of H2 with (0 <= ?e)%Z => change (0 < Z.to_nat (e + 1)) end. lia.
Qed.
