(** The OpenQASM export. *)
Require Import List Bool Arith ZArith QArith Lia String Ascii DecimalString.
From Verif Require Import Base BaseProofs QSpec PauliModel StateSpec CircuitModel CircuitSpec CircuitProofs SimModel
  SimSpec SimProofs RunProofs CountProofs QasmModel QasmSpec.
Import ListNotations.
Local Open Scope string_scope.
Local Open Scope nat_scope.
Local Open Scope list_scope.

Lemma show_int_dec n : show_int (Z.of_nat n) = dec n.
Proof. destruct n; reflexivity. Qed.

Ltac txt := cbn [print]; unfold reg; repeat (first [rewrite sapp_assoc | progress cbn [String.append]]); reflexivity.

(** The statements of a circuit, measurement counter starting at k. *)
Fixpoint meas_stmts (qs : list nat) (k : nat) : list qstmt :=
  match qs with [] => [] | q :: qs' => SMeas q k :: meas_stmts qs' (S k) end.
Definition unqa (a : arg) : nat := match a with AInt z => Z.to_nat z | _ => 0 end.
Fixpoint pair_stmts (f : nat -> nat -> qstmt) (l : list arg) : list qstmt :=
  match l with a :: b :: l' => f (unqa a) (unqa b) :: pair_stmts f l' | _ => [] end.
Definition gate_stmts (gt : gate) (k : nat) : list qstmt :=
  let '(name, args) := gt in
  if String.eqb name "X" then map (fun a => SX (unqa a)) args
  else if String.eqb name "Y" then map (fun a => SY (unqa a)) args
  else if String.eqb name "Z" then map (fun a => SZ (unqa a)) args
  else if String.eqb name "H" then map (fun a => SH (unqa a)) args
  else if String.eqb name "M" then meas_stmts (map unqa args) k
  else if String.eqb name "CX" then pair_stmts SCX args
  else if String.eqb name "CZ" then pair_stmts SCZ args
  else [].
Fixpoint stmts (c : circuit) (k : nat) : list qstmt :=
  match c with [] => [] | gt :: c' => gate_stmts gt k ++ stmts c' (k + plain_measured gt) end.

Lemma unqa_qa q : unqa (qa q) = q. Proof. apply Nat2Z.id. Qed.
Lemma map_unqa qs : map unqa (map qa qs) = qs.
Proof. induction qs; cbn [map]; auto. rewrite IHqs, unqa_qa. auto. Qed.
Lemma pair_stmts_flat f cts : pair_stmts f (flat_map (fun ct : nat * nat => [qa (fst ct); qa (snd ct)]) cts) =
  map (fun ct => f (fst ct) (snd ct)) cts.
Proof. induction cts; auto. cbn [flat_map app pair_stmts map]. rewrite IHcts, !unqa_qa. auto. Qed.
Lemma map_unqa_f {A} (f : nat -> A) qs : map (fun a => f (unqa a)) (map qa qs) = map f qs.
Proof. induction qs; cbn [map]; auto. rewrite IHqs, unqa_qa. auto. Qed.

Section Text.
Variable sf : Q -> string.
Let show := show_arg sf.

Lemma show_qa q : show (qa q) = dec q.
Proof. unfold show, qa. cbn [show_arg]. apply show_int_dec. Qed.

Lemma meas_text qs : forall l k, fold_left (qasm_measure show) (map qa qs) (l, k) =
  (l ++ map print (meas_stmts qs k), k + List.length qs).
Proof.
  induction qs as [|q qs IH]; intros l k; cbn [map fold_left meas_stmts List.length].
  - rewrite app_nil_r, Nat.add_0_r. auto.
  - unfold qasm_measure at 2. cbn [fst snd]. rewrite IH, show_qa, show_int_dec.
    rewrite <- app_assoc. cbn [List.app]. f_equal.
    + do 2 f_equal. txt.
    + lia.
Qed.

Lemma pairs_text g f cts : (forall c t, (g ++ " q[" ++ dec c ++ "],q[" ++ dec t ++ "];")%string = print (f c t)) ->
  qasm_pairs show g (flat_map (fun ct : nat * nat => [qa (fst ct); qa (snd ct)]) cts) =
  Ok (map print (map (fun ct => f (fst ct) (snd ct)) cts)).
Proof.
  intros H. induction cts as [|[c t] cts IH]; auto. cbn [flat_map app qasm_pairs map fst snd].
  rewrite IH. cbn [bindR]. rewrite !show_qa, H. auto.
Qed.

Lemma gate_text ig gt l k : exportable gt -> qasm_gate show ig (l, k) gt =
  Ok (l ++ map print (gate_stmts gt k), k + plain_measured gt).
Proof.
  assert (P1 : forall g f qs l, (forall q, (g ++ " q[" ++ dec q ++ "];")%string = print (f q)) ->
     l ++ map (fun q => (g ++ " q[" ++ show q ++ "];")%string) (map qa qs) = l ++ map print (map f qs)).
  { intros g f qs l0 H. f_equal. rewrite !map_map. apply map_ext. intros q. rewrite show_qa. auto. }
  intros H. inversion H as [name qs Hin|name cts Hin]; subst; simpl in Hin.
  - destruct Hin as [<-|[<-|[<-|[<-|[<-|[]]]]]]; unfold qasm_gate, gate_stmts; cbn [gate_mapping String.eqb Ascii.eqb Bool.eqb mem_str existsb orb fst snd];
      unfold plain_measured, mcount; cbn [fst snd String.eqb Ascii.eqb Bool.eqb]; rewrite ?Nat.add_0_r, ?map_unqa_f.
    + rewrite (P1 "x" SX); auto.  intros q. txt.
    + rewrite (P1 "y" SY); auto.  intros q. txt.
    + rewrite (P1 "z" SZ); auto.  intros q. txt.
    + rewrite (P1 "h" SH); auto.  intros q. txt.
    + rewrite meas_text, map_unqa, map_length. auto.
  - destruct Hin as [<-|[<-|[]]]; unfold qasm_gate, gate_stmts; cbn [gate_mapping String.eqb Ascii.eqb Bool.eqb mem_str existsb orb fst snd];
      unfold plain_measured, mcount; cbn [fst snd String.eqb Ascii.eqb Bool.eqb]; rewrite ?Nat.add_0_r, ?pair_stmts_flat.
    + rewrite (pairs_text "cx" SCX); auto. intros c t. txt.
    + rewrite (pairs_text "cz" SCZ); auto. intros c t. txt.
Qed.

Lemma circuit_text ig : forall c l k, Forall exportable c -> foldR (qasm_gate show ig) c (l, k) =
  Ok (l ++ map print (stmts c k), k + number_measured_qubits c).
Proof.
  induction c as [|gt c IH]; intros l k F; cbn [foldR stmts].
  - rewrite app_nil_r, Nat.add_0_r. auto.
  - inversion F; subst. rewrite gate_text by auto. cbn [bindR]. rewrite IH by auto.
    rewrite map_app, app_assoc. rewrite !number_measured_total. cbn [total fold_right]. fold (total plain_measured c).
    do 2 f_equal. lia.
Qed.
End Text.

(** * Meaning *)
Lemma qprog_app n l1 l2 x z : qprog n (l1 ++ l2) x z <-> exists y, qprog n l1 x y /\ qprog n l2 y z.
Proof.
  revert x. induction l1 as [|s l1 IH]; intros x; cbn [app]; split.
  - intros H. exists x. split; auto. constructor.
  - intros (y & H1 & H2). inversion H1; subst; auto.
  - intros H. inversion H as [|? ? ? w ? Hs Hr]; subst. apply IH in Hr. destruct Hr as (y & A & B).
    exists y. split; auto. econstructor; eauto.
  - intros (y & H1 & H2). inversion H1 as [|? ? ? w ? Hs Hr]; subst. econstructor; eauto. apply IH. eauto.
Qed.

(** Statements that act as a function on the vector. *)
Lemma qprog_unitary {A} n (f : A -> qstmt) (u : A -> vec -> vec) :
  (forall a v c y, qstep n (f a) (v, c) y <-> y = (u a v, c)) ->
  forall l v c y, qprog n (map f l) (v, c) y <-> y = (fold_left (fun w a => u a w) l v, c).
Proof.
  intros H. induction l as [|a l IH]; intros v c y; cbn [map fold_left]; split.
  - intros E. inversion E; auto.
  - intros ->. constructor.
  - intros E. inversion E as [|? ? ? w ? Hs Hr]; subst. apply H in Hs. subst. apply IH; auto.
  - intros ->. econstructor. apply H. reflexivity. apply IH. auto.
Qed.

Lemma upd_mid {A} (pre : list A) x y post : upd (List.length pre) y (pre ++ x :: post) = pre ++ y :: post.
Proof. induction pre; simpl; auto. rewrite IHpre; auto. Qed.

Lemma qprog_meas n qs : forall v v' pre post creg,
  qprog n (meas_stmts qs (List.length pre)) (v, pre ++ repeat false (List.length qs) ++ post) (v', creg) <->
  exists ms, creg = pre ++ ms ++ post /\ qmeasure n qs v ms v'.
Proof.
  induction qs as [|q qs IH]; intros v v' pre post creg; cbn [meas_stmts List.length repeat app]; split.
  - intros E. inversion E; subst. exists []. split; auto. constructor.
  - intros (ms & -> & Q). inversion Q; subst. constructor.
  - intros E. inversion E as [|? ? ? w ? Hs Hr]; subst. inversion Hs; subst. rewrite upd_mid in Hr.
    replace (S (List.length pre)) with (List.length (pre ++ [m])) in Hr by (rewrite app_length; cbn; lia).
    replace (pre ++ m :: repeat false (List.length qs) ++ post) with ((pre ++ [m]) ++ repeat false (List.length qs) ++ post) in Hr
      by (rewrite <- app_assoc; auto).
    apply IH in Hr. destruct Hr as (ms & -> & Q). exists (m :: ms). split. rewrite <- app_assoc; auto. constructor; auto.
  - intros (ms & -> & Q). inversion Q as [|? ? m ms' ? ? Hq Ho Hr]; subst. econstructor.
    + apply qs_m with (m := m); auto. rewrite app_length. cbn. lia.
    + rewrite upd_mid.
      replace (S (List.length pre)) with (List.length (pre ++ [m])) by (rewrite app_length; cbn; lia).
      replace (pre ++ m :: repeat false (List.length qs) ++ post) with ((pre ++ [m]) ++ repeat false (List.length qs) ++ post)
        by (rewrite <- app_assoc; auto).
      apply IH. exists ms'. split; auto. rewrite <- app_assoc; auto.
Qed.

Lemma map_qa_inj a : forall b, map qa a = map qa b -> a = b.
Proof.
  induction a as [|x a IH]; intros [|y b] E; try discriminate; auto. cbn [map] in E.
  assert (E1 : qa x = qa y) by congruence. assert (E2 : map qa a = map qa b) by congruence.
  f_equal; auto. apply qa_inj; auto.
Qed.
Lemma flat_qa_inj a : forall b, flat_map (fun ct : nat * nat => [qa (fst ct); qa (snd ct)]) a =
  flat_map (fun ct : nat * nat => [qa (fst ct); qa (snd ct)]) b -> a = b.
Proof.
  induction a as [|[x y] a IH]; intros [|[x' y'] b] E; try discriminate; auto. cbn [flat_map app fst snd] in E.
  assert (E1 : qa x = qa x') by congruence. assert (E2 : qa y = qa y') by congruence.
  apply qa_inj in E1, E2. subst. f_equal. apply IH. congruence.
Qed.

(** Outcomes of one exportable gate. *)
Lemma gate_prog n gt pre post v v' creg : exportable gt ->
  qprog n (gate_stmts gt (List.length pre)) (v, pre ++ repeat false (plain_measured gt) ++ post) (v', creg) <->
  exists ms, creg = pre ++ ms ++ post /\ List.length ms = plain_measured gt /\ qgate n (fst gt) (snd gt) v ms [] v'.
Proof.
  assert (ML : forall qs ms v v', qmeasure n qs v ms v' -> List.length ms = List.length qs).
  { induction 1; simpl; auto. }
  assert (U1 : forall nm (f : nat -> qstmt) m qs,
    plain_measured (nm, map qa qs) = 0 ->
    (forall a v c y, qstep n (f a) (v, c) y <-> y = (apply1 m a v, c)) ->
    (forall v ms v', qgate n nm (map qa qs) v ms [] v' <-> ms = [] /\ v' = all1 m qs v) ->
    qprog n (map f qs) (v, pre ++ repeat false (plain_measured (nm, map qa qs)) ++ post) (v', creg) <->
    exists ms, creg = pre ++ ms ++ post /\ List.length ms = plain_measured (nm, map qa qs) /\ qgate n nm (map qa qs) v ms [] v').
  { intros nm f m qs E0 Hs Hq. rewrite E0. cbn [repeat List.app]. rewrite (qprog_unitary n f (fun q => apply1 m q) Hs).
    split.
    - intros [= -> ->]. exists []. split; auto. split; auto. apply Hq. auto.
    - intros (ms & -> & _ & Q). apply Hq in Q. destruct Q as [-> ->]. reflexivity. }
  assert (U2 : forall nm (f : nat -> nat -> qstmt) m cts,
    plain_measured (nm, flat_map (fun ct : nat * nat => [qa (fst ct); qa (snd ct)]) cts) = 0 ->
    (forall a v c y, qstep n (f (fst a) (snd a)) (v, c) y <-> y = (apply2 m (fst a) (snd a) v, c)) ->
    (forall v ms v', qgate n nm (flat_map (fun ct : nat * nat => [qa (fst ct); qa (snd ct)]) cts) v ms [] v' <-> ms = [] /\ v' = all2 m cts v) ->
    qprog n (map (fun ct => f (fst ct) (snd ct)) cts) (v, pre ++ repeat false (plain_measured (nm, flat_map (fun ct : nat * nat => [qa (fst ct); qa (snd ct)]) cts)) ++ post) (v', creg) <->
    exists ms, creg = pre ++ ms ++ post /\ List.length ms = plain_measured (nm, flat_map (fun ct : nat * nat => [qa (fst ct); qa (snd ct)]) cts) /\
      qgate n nm (flat_map (fun ct : nat * nat => [qa (fst ct); qa (snd ct)]) cts) v ms [] v').
  { intros nm f m cts E0 Hs Hq. rewrite E0. cbn [repeat List.app].
    rewrite (qprog_unitary n (fun ct => f (fst ct) (snd ct)) (fun ct => apply2 m (fst ct) (snd ct)) Hs).
    split.
    - intros [= -> ->]. exists []. split; auto. split; auto. apply Hq. auto.
    - intros (ms & -> & _ & Q). apply Hq in Q. destruct Q as [-> ->]. reflexivity. }
  assert (QG : forall nm f m qs, (forall v, qgate n nm (map qa qs) v [] [] (f v)) -> In nm ["X"; "Y"; "Z"; "H"] ->
     (nm = "X" -> m = mX) -> (nm = "Y" -> m = mY) -> (nm = "Z" -> m = mZ) -> (nm = "H" -> m = mH) -> f = all1 m qs ->
     forall v ms v', qgate n nm (map qa qs) v ms [] v' <-> ms = [] /\ v' = all1 m qs v).
  { intros nm f m qs Hf Hin H1 H2 H3 H4 -> w ms w'. split.
    - intros Q. inversion Q; subst; try (simpl in Hin; intuition discriminate).
      all: match goal with H : map qa _ = map qa _ |- _ => apply map_qa_inj in H; subst end.
      rewrite H1; auto. rewrite H2; auto. rewrite H3; auto. rewrite H4; auto.
    - intros [-> ->]. auto. }
  assert (QG2 : forall nm m cts, (forall v, qgate n nm (flat_map (fun ct : nat * nat => [qa (fst ct); qa (snd ct)]) cts) v [] [] (all2 m cts v)) ->
     In nm ["CX"; "CZ"] -> (nm = "CX" -> m = mCX) -> (nm = "CZ" -> m = mCZ) ->
     forall v ms v', qgate n nm (flat_map (fun ct : nat * nat => [qa (fst ct); qa (snd ct)]) cts) v ms [] v' <-> ms = [] /\ v' = all2 m cts v).
  { intros nm m cts Hf Hin H1 H2 w ms w'. split.
    - intros Q. inversion Q; subst; try (simpl in Hin; intuition discriminate).
      all: match goal with H : flat_map _ _ = flat_map _ _ |- _ => apply flat_qa_inj in H; subst end.
      rewrite H1; auto. rewrite H2; auto.
    - intros [-> ->]. auto. }
  intros H. inversion H as [name qs Hin|name cts Hin]; subst; simpl in Hin.
  - destruct Hin as [<-|[<-|[<-|[<-|[<-|[]]]]]]; unfold gate_stmts; cbn [String.eqb Ascii.eqb Bool.eqb fst snd]; rewrite ?map_unqa_f.
    + apply (U1 "X" SX mX); auto.
      * intros a w c y; split; [intros E; inversion E; auto|intros ->; constructor].
      * apply (QG "X" (all1 mX qs)); simpl; auto; try discriminate. intros; constructor.
    + apply (U1 "Y" SY mY); auto.
      * intros a w c y; split; [intros E; inversion E; auto|intros ->; constructor].
      * apply (QG "Y" (all1 mY qs)); simpl; auto; try discriminate. intros; constructor.
    + apply (U1 "Z" SZ mZ); auto.
      * intros a w c y; split; [intros E; inversion E; auto|intros ->; constructor].
      * apply (QG "Z" (all1 mZ qs)); simpl; auto; try discriminate. intros; constructor.
    + apply (U1 "H" SH mH); auto.
      * intros a w c y; split; [intros E; inversion E; auto|intros ->; constructor].
      * apply (QG "H" (all1 mH qs)); simpl; auto 6; try discriminate. intros; constructor.
    + unfold plain_measured, mcount. cbn [fst snd String.eqb Ascii.eqb Bool.eqb]. rewrite map_unqa, map_length.
      rewrite qprog_meas. split; intros (ms & A & B).
      * exists ms. split; auto. split. eapply ML; eauto. constructor; auto.
      * exists ms. split; auto. destruct B as [_ Q]. inversion Q; subst.
        match goal with H : map qa _ = map qa _ |- _ => apply map_qa_inj in H; subst end. auto.
  - destruct Hin as [<-|[<-|[]]]; unfold gate_stmts; cbn [String.eqb Ascii.eqb Bool.eqb fst snd]; rewrite ?pair_stmts_flat.
    + apply (U2 "CX" SCX mCX); auto.
      * intros [a b] w c y; split; [intros E; inversion E; auto|intros ->; constructor].
      * apply (QG2 "CX" mCX); simpl; auto; try discriminate. intros; constructor.
    + apply (U2 "CZ" SCZ mCZ); auto.
      * intros [a b] w c y; split; [intros E; inversion E; auto|intros ->; constructor].
      * apply (QG2 "CZ" mCZ); simpl; auto; try discriminate. intros; constructor.
Qed.

Lemma qgate_noerase n name args v ms es v' : qgate n name args v ms es v' -> name <> "E_ERASE" -> es = [].
Proof. intros Q. inversion Q; subst; auto; congruence. Qed.

Lemma circuit_prog n : forall c pre v v' creg, Forall exportable c ->
  qprog n (stmts c (List.length pre)) (v, pre ++ repeat false (number_measured_qubits c)) (v', creg) <->
  exists ms, creg = pre ++ ms /\ qcirc n c v ms [] v'.
Proof.
  induction c as [|gt c IH]; intros pre v v' creg F.
  - cbn [stmts]. change (number_measured_qubits []) with 0. cbn [repeat]. rewrite app_nil_r. split.
    + intros E. inversion E; subst. exists []. rewrite app_nil_r. split; auto. constructor.
    + intros (ms & -> & Q). inversion Q; subst. rewrite app_nil_r. constructor.
  - inversion F as [|? ? Hg HF]; subst. cbn [stmts]. rewrite number_measured_total. cbn [total fold_right].
    fold (total plain_measured c). rewrite <- number_measured_total, repeat_app.
    rewrite qprog_app. split.
    + intros ([v1 c1] & A & B). apply gate_prog in A; auto. destruct A as (ms & -> & L & Q).
      rewrite app_assoc in B. replace (List.length pre + plain_measured gt) with (List.length (pre ++ ms)) in B by (rewrite app_length; lia).
      apply IH in B; auto. destruct B as (ms' & -> & Q'). exists (ms ++ ms'). split. rewrite app_assoc; auto.
      destruct gt as [nm args]. apply (qc_gate n nm args c v ms [] v1 ms' [] v'); auto.
    + intros (ms & -> & Q).
      assert (X : exists ms1 ms2 v1, ms = ms1 ++ ms2 /\ qgate n (fst gt) (snd gt) v ms1 [] v1 /\ qcirc n c v1 ms2 [] v').
      { inversion Q as [|name args c0 v0 ms0 es0 v1 ms1 es1 v2 G R|nm p inner args c0 v0 ms0 es0 v1 ms1 es1 v2 Hn|nm p inner args c0 v0 ms1 es1 v2 Hn|inner args c0 v0 ms0 es0 v1 ms1 es1 v2|inner args c0 v0 ms1 es1 v2]; subst.
        - assert (es0 = [] /\ es1 = []) as [-> ->] by (apply app_eq_nil; auto).
          exists ms0, ms1, v1. auto.
        - exfalso. inversion Hg; subst; simpl in *; intuition (subst; discriminate).
        - exfalso. inversion Hg; subst; simpl in *; intuition (subst; discriminate).
        - exfalso. inversion Hg; subst; simpl in *; intuition (subst; discriminate).
        - exfalso. inversion Hg; subst; simpl in *; intuition (subst; discriminate). }
      destruct X as (ms1 & ms2 & v1 & -> & G & R).
      assert (L : List.length ms1 = plain_measured gt).
      { clear -Hg G. destruct gt as [nm ag]. cbn [fst snd] in G. unfold plain_measured, mcount. cbn [fst snd].
        inversion G; subst; try reflexivity; try (inversion Hg; simpl in *; intuition (subst; discriminate)).
        cbn [String.eqb Ascii.eqb Bool.eqb]. rewrite map_length.
        match goal with H : qmeasure _ _ _ _ _ |- _ => clear -H; induction H; simpl; auto end. }
      exists (v1, pre ++ ms1 ++ repeat false (number_measured_qubits c)). split.
      * apply gate_prog; auto. exists ms1. auto.
      * rewrite app_assoc. replace (List.length pre + plain_measured gt) with (List.length (pre ++ ms1)) by (rewrite app_length; lia).
        apply IH; auto. exists ms2. rewrite app_assoc. auto.
Qed.
