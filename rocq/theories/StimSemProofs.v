(** Lemmas on the meaning of converted circuits. *)
Require Import List Bool Arith ZArith QArith Lqa Lia Ring Field String.
From Verif Require Import Base BaseProofs QSpec StateSpec PauliModel PauliSem PauliProofs PauliAlg TableauProofs StateProofs GateProofs
  CircuitModel SimModel SimSpec SimProofs RunProofs PauliTextSpec TensorProofs StimModel StimSpec StimSem.
Import ListNotations.
Local Open Scope string_scope.
Local Open Scope nat_scope.
Local Open Scope list_scope.
Add Ring ZiR2 : Zi_ring.

(** * Distributions *)
Lemma deq_refl d : deq d d.
Proof. induction d; constructor; auto. split; reflexivity. Qed.
Lemma deq_trans a b c : deq a b -> deq b c -> deq a c.
Proof.
  intros H. revert c. induction H as [|x y a b (E1 & E2) H IH]; intros c K; inversion K as [|? z ? c' (F1 & F2) K' ]; subst; constructor; auto.
  split; [eapply Qeq_trans; eauto|congruence]. apply IH; auto.
Qed.
Lemma deq_sym a b : deq a b -> deq b a.
Proof. induction 1 as [|x y a b (E1 & E2) H IH]; constructor; auto. split; auto. symmetry; auto. Qed.
Lemma deq_app a b c d : deq a b -> deq c d -> deq (a ++ c) (b ++ d).
Proof. apply Forall2_app. Qed.
Lemma deq_scale w w' o a b : (w == w')%Q -> deq a b -> deq (scale w o a) (scale w' o b).
Proof. intros W. induction 1 as [|x y a b (E1 & E2) H IH]; constructor; auto. cbn [fst snd]. split; [rewrite W, E1; reflexivity|congruence]. Qed.
Lemma deq_dseq a a' b b' : deq a a' -> deq b b' -> deq (dseq a b) (dseq a' b').
Proof.
  intros H K. induction H as [|x y a a' (E1 & E2) H IH]; cbn [dseq flat_map]; [constructor|].
  apply deq_app; auto. rewrite E2. apply deq_scale; auto.
Qed.
Lemma scale_scale w o w' o' d : deq (scale w o (scale w' o' d)) (scale (w * w')%Q (o ++ o') d).
Proof.
  induction d; cbn [scale map]; constructor; auto. cbn [fst snd]. split; [rewrite Qmult_assoc; reflexivity|]. rewrite app_assoc; auto.
Qed.
Lemma scale_app w o a b : scale w o (a ++ b) = scale w o a ++ scale w o b.
Proof. apply map_app. Qed.
Lemma dseq_app a b c : dseq (a ++ b) c = dseq a c ++ dseq b c.
Proof. apply flat_map_app. Qed.
Lemma dseq_scale w o a b : deq (dseq (scale w o a) b) (scale w o (dseq a b)).
Proof.
  induction a as [|x a IH]; [constructor|].
  change (dseq (scale w o (x :: a)) b) with (scale (w * fst x)%Q (o ++ snd x) b ++ dseq (scale w o a) b).
  change (dseq (x :: a) b) with (scale (fst x) (snd x) b ++ dseq a b).
  rewrite scale_app. apply deq_app; auto. apply deq_sym, scale_scale.
Qed.
Lemma dseq_assoc a b c : deq (dseq (dseq a b) c) (dseq a (dseq b c)).
Proof.
  induction a as [|x a IH]; [constructor|].
  change (dseq (x :: a) b) with (scale (fst x) (snd x) b ++ dseq a b). rewrite dseq_app.
  change (dseq (x :: a) (dseq b c)) with (scale (fst x) (snd x) (dseq b c) ++ dseq a (dseq b c)). apply deq_app; auto.
  apply dseq_scale.
Qed.
Lemma dseq_done_l d : deq (dseq done d) d.
Proof.
  unfold done, dseq. cbn [flat_map]. rewrite List.app_nil_r. cbn [fst snd]. induction d as [|x d IH]; cbn [scale map]; constructor; auto.
  cbn [fst snd]. split; [apply Qmult_1_l|auto].
Qed.
Lemma dseq_done_r d : deq (dseq d done) d.
Proof.
  induction d as [|x d IH]; cbn [dseq flat_map]; [constructor|]. unfold scale, done. cbn [map app fst snd].
  constructor; auto. cbn [fst snd]. rewrite List.app_nil_r. split; [apply Qmult_1_r|auto].
Qed.

(** No open chain before [l]. *)
Definition fresh (l : list sinstr) : Prop := match l with [] => True | a :: _ => i_name a <> "ELSE_CORRELATED_ERROR" end.
Lemma fresh_hit l : fresh l -> forall h, stim_dist h l = stim_dist false l.
Proof.
  destruct l as [|a l]; auto. cbn [fresh]. intros F h. cbn [stim_dist]. cbv zeta.
  destruct (String.eqb (i_name a) "CORRELATED_ERROR"); auto.
  destruct (String.eqb (i_name a) "ELSE_CORRELATED_ERROR") eqn:E; auto. apply String.eqb_eq in E. contradiction.
Qed.
Lemma stim_dist_app l2 : fresh l2 -> forall l1 h, deq (stim_dist h (l1 ++ l2)) (dseq (stim_dist h l1) (stim_dist false l2)).
Proof.
  intros F l1. induction l1 as [|a l1 IH]; intros h.
  - cbn [app stim_dist]. rewrite fresh_hit by auto. apply deq_sym, dseq_done_l.
  - cbn [app stim_dist]. cbv zeta.
    assert (X : deq (scale (prob_arg1 a) [EPauli (map target_pauli (i_targets a))] (stim_dist true (l1 ++ l2)) ++
                     scale (1 - prob_arg1 a) [] (stim_dist false (l1 ++ l2)))
                    (dseq (scale (prob_arg1 a) [EPauli (map target_pauli (i_targets a))] (stim_dist true l1) ++
                     scale (1 - prob_arg1 a) [] (stim_dist false l1)) (stim_dist false l2))).
    { rewrite dseq_app. apply deq_app; (eapply deq_trans; [apply deq_scale; [reflexivity|apply IH]|]); apply deq_sym, dseq_scale. }
    destruct (String.eqb (i_name a) "CORRELATED_ERROR"); auto.
    destruct (String.eqb (i_name a) "ELSE_CORRELATED_ERROR"); [destruct h; auto|].
    eapply deq_trans; [apply deq_dseq; [apply deq_refl|apply IH]|]. apply deq_sym, dseq_assoc.
Qed.

Lemma edist_scale anc w o d : edist anc (scale w o d) = scale w (flat_map (embed anc) o) (edist anc d).
Proof. unfold edist, scale. rewrite !map_map. apply map_ext. intros x. cbn [fst snd]. rewrite flat_map_app. auto. Qed.
Lemma edist_dseq anc a b : edist anc (dseq a b) = dseq (edist anc a) (edist anc b).
Proof.
  induction a as [|x a IH]; auto.
  change (dseq (x :: a) b) with (scale (fst x) (snd x) b ++ dseq a b). unfold edist at 1. rewrite map_app.
  fold (edist anc (scale (fst x) (snd x) b)) (edist anc (dseq a b)). rewrite edist_scale, IH. auto.
Qed.

Lemma mem_basic name : In name basic -> mem_str name basic = true.
Proof. intros H. unfold mem_str. apply existsb_exists. exists name. split; auto. apply String.eqb_refl. Qed.

Lemma stim_one a : i_name a <> "CORRELATED_ERROR" -> i_name a <> "ELSE_CORRELATED_ERROR" ->
  deq (stim_dist false [a]) (stim_simple a).
Proof.
  intros H K. cbn [stim_dist]. cbv zeta. apply String.eqb_neq in H, K. rewrite H, K. apply dseq_done_r.
Qed.

(** What a gate with distribution [d] is converted to. *)
Lemma gate_conv anc gt d : pl_gate gt d -> exists l marks, gate_to_stim anc gt = Ok (l, marks) /\ fresh l /\ l <> [] /\
  deq (stim_dist false l) (edist anc d) /\ Forall (fun x => flat_map emarks (snd x) = marks) d.
Proof.
  intros H. destruct H as [name qs HI|ars ps q HP HL|ars ps q1 q2 HP HL|a p q HA H0 H1|p name P q HI].
  - (* basic *)
    assert (X : forall marks, gate_to_stim anc (name, map qa qs) = Ok ([mkS name (map SQ qs) []], marks) ->
       flat_map emarks [EGate name qs] = marks ->
       exists l marks, gate_to_stim anc (name, map qa qs) = Ok (l, marks) /\ fresh l /\ l <> [] /\
         deq (stim_dist false l) (edist anc [(1%Q, [EGate name qs])]) /\
         Forall (fun x => flat_map emarks (snd x) = marks) [(1%Q, [EGate name qs])]).
    { intros marks E M. eexists _, marks. split; [exact E|].
      assert (N1 : name <> "ELSE_CORRELATED_ERROR") by (intros ->; cbn in HI; intuition; discriminate).
      assert (N2 : name <> "CORRELATED_ERROR") by (intros ->; cbn in HI; intuition; discriminate).
      split; [exact N1|]. split; [discriminate|]. split; [|constructor; auto].
      eapply deq_trans; [apply stim_one; auto|]. unfold stim_simple. cbn [i_name i_targets]. rewrite mem_basic by auto.
      rewrite map_map. cbn [target_qubit]. rewrite map_id. apply deq_refl. }
    cbn in HI. destruct HI as [<-|[<-|[<-|[<-|[<-|[<-|[<-|[<-|[]]]]]]]]]; unfold gate_to_stim in *;
      cbn [mem_str existsb String.eqb Ascii.eqb Bool.eqb orb] in *; rewrite mapR_qa in *; cbn [bindR] in *;
      (eapply X; [reflexivity|]); cbn [flat_map emarks String.eqb Ascii.eqb Bool.eqb]; rewrite ?List.app_nil_r, ?map_length; auto.
  - (* E_PAULI *)
    pose proof (Forall2_len _ _ _ HP) as L. rewrite HL in L.
    eexists _, _. split.
    { unfold gate_to_stim. cbn [mem_str existsb String.eqb Ascii.eqb Bool.eqb orb].
      rewrite app_length, L. cbn [List.length Nat.add Nat.eqb negb].
      rewrite firstn_app, L, firstn_all2, skipn_app, skipn_all2, L by lia. cbn [Nat.sub firstn skipn app].
      rewrite List.app_nil_r, (mapR_prob _ _ HP). cbn [bindR mapR]. rewrite qubit_of_qa. cbn [bindR map]. reflexivity. }
    split; [discriminate|]. split; [discriminate|]. split.
    + eapply deq_trans; [apply stim_one; discriminate|]. unfold stim_simple.
      cbn [i_name i_targets i_args mem_str existsb basic String.eqb Ascii.eqb Bool.eqb orb map target_qubit fold_right].
      eapply deq_trans; [apply dseq_done_r|]. apply deq_refl.
    + repeat constructor.
  - (* E_PAULI2 *)
    pose proof (Forall2_len _ _ _ HP) as L. rewrite HL in L.
    eexists _, _. split.
    { unfold gate_to_stim. cbn [mem_str existsb String.eqb Ascii.eqb Bool.eqb orb].
      rewrite app_length, L. cbn [List.length Nat.add Nat.eqb negb].
      rewrite firstn_app, L, firstn_all2, skipn_app, skipn_all2, L by lia. cbn [Nat.sub firstn skipn app].
      rewrite List.app_nil_r, (mapR_prob _ _ HP). cbn [bindR mapR]. rewrite !qubit_of_qa. cbn [bindR map]. reflexivity. }
    split; [discriminate|]. split; [discriminate|]. split.
    + eapply deq_trans; [apply stim_one; discriminate|]. unfold stim_simple.
      cbn [i_name i_targets i_args mem_str existsb basic String.eqb Ascii.eqb Bool.eqb orb map target_qubit fold_right pairs_of fst snd].
      eapply deq_trans; [apply dseq_done_r|]. apply deq_refl.
    + repeat constructor.
  - (* E_ERASE *)
    assert (D : forall i : Z, (i <= 3)%Z -> Qeq_bool (1 - inject_Z i * (p / 4)) 0 = false).
    { intros i Hi. destruct (Qeq_bool _ 0) eqn:E; auto. apply Qeq_bool_iff in E. exfalso.
      assert (I3 : (inject_Z i <= 3)%Q) by (change 3%Q with (inject_Z 3); rewrite <- Zle_Qle; auto).
      assert (X : (inject_Z i * (p / 4) <= 3 * (p / 4))%Q) by (apply Qmult_le_compat_r; auto; unfold Qdiv; apply Qmult_le_0_compat; auto; discriminate).
      assert (Y : (3 * (p / 4) == p * (3 # 4))%Q) by (field). rewrite Y in X. lra. }
    eexists _, _. split.
    { unfold gate_to_stim. cbn [mem_str existsb String.eqb Ascii.eqb Bool.eqb orb].
      rewrite (prob_of_arg _ _ HA), qubit_of_qa. cbn [bindR]. unfold append_equiprobable. cbn [append_equiprobable_from]. cbv zeta.
      rewrite !D by (cbn; lia). cbn [bindR Nat.ltb Nat.leb app]. reflexivity. }
    split; [discriminate|]. split; [discriminate|]. split; [|repeat constructor].
    cbn [stim_dist i_name String.eqb Ascii.eqb Bool.eqb prob_arg1 i_args nth i_targets map target_pauli]. cbv zeta.
    unfold stim_simple. cbn [i_name i_targets mem_str existsb basic String.eqb Ascii.eqb Bool.eqb orb map target_qubit].
    unfold dseq, scale, done, edist, prob_arg1. cbn [flat_map map app fst snd i_args nth embed].
    assert (ND : forall i : Z, (i <= 3)%Z -> ~ (1 - inject_Z i * (p / 4) == 0)%Q).
    { intros i Hi E. apply Qeq_bool_iff in E. rewrite D in E by auto. discriminate. }
    pose proof (ND 0%Z ltac:(lia)) as N0. pose proof (ND 1%Z ltac:(lia)) as N1. pose proof (ND 2%Z ltac:(lia)) as N2. pose proof (ND 3%Z ltac:(lia)) as N3.
    change (inject_Z 0) with 0%Q in N0. change (inject_Z 1) with 1%Q in N1.
    change (inject_Z (Z.of_nat 0)) with 0%Q. change (inject_Z (Z.of_nat 1)) with 1%Q. 
    change (inject_Z (Z.of_nat 2)) with 2%Q. change (inject_Z (Z.of_nat 3)) with 3%Q.
    change (inject_Z 2) with 2%Q in N2. change (inject_Z 3) with 3%Q in N3.
    assert (M1 : ~ (4 - p == 0)%Q) by lra. assert (M2 : ~ (4 - 2 * p == 0)%Q) by lra. assert (M3 : ~ (4 - 3 * p == 0)%Q) by lra.
    repeat constructor; cbn [fst snd]; field; repeat split; auto; lra.
  - (* ERROR *)
    assert (G : gate_to_stim anc ("ERROR", [AFlt p; AStr name; qa q]) = Ok ([mkS (name ++ "_ERROR")%string [SQ q] [p]], [])).
    { cbn in HI. destruct HI as [HI|[HI|[HI|[]]]]; injection HI as <- <-;
      unfold gate_to_stim; cbn [mem_str existsb String.eqb Ascii.eqb Bool.eqb orb prob_of bindR List.length Nat.eqb negb mapR];
      rewrite qubit_of_qa; reflexivity. }
    rewrite G. eexists _, _. split; [reflexivity|].
    cbn in HI. destruct HI as [HI|[HI|[HI|[]]]]; injection HI as <- <-; (split; [discriminate|]); (split; [discriminate|]);
      (split; [|repeat constructor]); (eapply deq_trans; [apply stim_one; discriminate|]);
      unfold stim_simple; cbn [i_name i_targets append mem_str existsb basic String.eqb Ascii.eqb Bool.eqb orb map target_qubit];
      unfold flip_dist, prob_arg1; cbn [fold_right i_args nth]; (eapply deq_trans; [apply dseq_done_r|]); apply deq_refl.
Qed.

Lemma marks_dseq a b m1 m2 : Forall (fun x : Q * list elem => flat_map emarks (snd x) = m1) a ->
  Forall (fun x : Q * list elem => flat_map emarks (snd x) = m2) b -> Forall (fun x : Q * list elem => flat_map emarks (snd x) = m1 ++ m2) (dseq a b).
Proof.
  intros A B. rewrite Forall_forall in *. intros x Hx. unfold dseq in Hx. apply in_flat_map in Hx. destruct Hx as (y & Hy & Hx).
  unfold scale in Hx. apply in_map_iff in Hx. destruct Hx as (z & <- & Hz). cbn [snd]. rewrite flat_map_app, A, B; auto.
Qed.

Lemma circ_conv anc c d : pl_circ c d -> forall acc, exists l marks,
  foldR (stim_step anc) c acc = Ok (fst acc ++ l, snd acc ++ marks) /\ fresh l /\
  deq (stim_dist false l) (edist anc d) /\ Forall (fun x => flat_map emarks (snd x) = marks) d.
Proof.
  induction 1 as [|gt c d1 d2 G C IH]; intros acc.
  - exists [], []. cbn [foldR]. rewrite !List.app_nil_r. split; [destruct acc; auto|]. split; [exact I|].
    split; [apply deq_refl|repeat constructor].
  - destruct (gate_conv anc gt d1 G) as (l1 & m1 & E1 & F1 & N1 & D1 & M1).
    cbn [foldR]. unfold stim_step at 1. rewrite E1. cbn [bindR fst snd].
    destruct (IH (fst acc ++ l1, snd acc ++ m1)) as (l2 & m2 & E2 & F2 & D2 & M2). rewrite E2. cbn [fst snd].
    exists (l1 ++ l2), (m1 ++ m2). rewrite !app_assoc. split; auto. split; [destruct l1; [contradiction|exact F1]|].
    split; [|apply marks_dseq; auto].
    eapply deq_trans; [apply stim_dist_app; auto|]. rewrite edist_dseq. apply deq_dseq; auto.
Qed.

(** * State vectors: an ancilla in a basis state *)
Lemma firstn_upd {A} n q (x : A) a : firstn n (upd q x a) = upd q x (firstn n a).
Proof. revert q n. induction a as [|y a IH]; intros [|q] [|n]; cbn; auto. rewrite IH. auto. Qed.
Lemma skipn_upd_low {A} n q (x : A) a : q < n -> skipn n (upd q x a) = skipn n a.
Proof. revert q n. induction a as [|y a IH]; intros [|q] [|n] H; cbn; auto; try lia. apply IH. lia. Qed.
Lemma skipn_upd_high {A} n (x : A) a : skipn n (upd n x a) = upd 0 x (skipn n a).
Proof. revert n. induction a as [|y a IH]; intros [|n]; auto. cbn [skipn]. rewrite <- IH. auto. Qed.
Lemma firstn_upd_high {A} n (x : A) a : firstn n (upd n x a) = firstn n a.
Proof. revert n. induction a as [|y a IH]; intros [|n]; cbn; auto. rewrite IH. auto. Qed.
Lemma nth_firstn_low {A} n q (a : list A) d : q < n -> nth q (firstn n a) d = nth q a d.
Proof. revert q n. induction a as [|y a IH]; intros [|q] [|n] H; cbn; auto; try lia. apply IH. lia. Qed.
Lemma nth_skipn0 {A} n (a : list A) d : nth 0 (skipn n a) d = nth n a d.
Proof. revert n. induction a as [|y a IH]; intros [|n]; cbn [skipn]; auto. destruct n; auto. apply IH. Qed.

Lemma apply1_low n m q v w a : q < n -> apply1 m q (vtensor n v w) a = vtensor n (apply1 m q v) w a.
Proof. intros H. unfold apply1, vtensor. rewrite !firstn_upd, !skipn_upd_low, nth_firstn_low by auto. ring. Qed.
Lemma apply2_low n m c t v w a : c < n -> t < n -> apply2 m c t (vtensor n v w) a = vtensor n (apply2 m c t v) w a.
Proof.
  intros H K. unfold apply2, vtensor. rewrite !firstn_upd, !skipn_upd_low, !nth_firstn_low by auto. ring.
Qed.
Lemma apply1_high n m v w a : apply1 m n (vtensor n v w) a = vtensor n v (apply1 m 0 w) a.
Proof. unfold apply1, vtensor. rewrite !firstn_upd_high, !skipn_upd_high, nth_skipn0. ring. Qed.
Lemma apply1_scale m q c v a : apply1 m q (vscale c v) a = vscale c (apply1 m q v) a.
Proof. unfold apply1, vscale. ring. Qed.
Lemma apply2_scale m q t c v a : apply2 m q t (vscale c v) a = vscale c (apply2 m q t v) a.
Proof. unfold apply2, vscale. ring. Qed.

(** Projection on an outcome of Z, as a matrix. *)
Definition pj (q : nat) (m : bool) (v : vec) : vec := vadd v (vscale (sgn m) (apply1 mZ q v)).
Lemma pj_project n q m v : q < n -> veq n (project (single n false PZ q) m v) (pj q m v).
Proof. intros H a L. unfold project, pj, vadd, vscale. rewrite <- (apply1_pauli n PZ q v H a L). auto. Qed.
Lemma pj_ext n q m v w : veq n v w -> veq n (pj q m v) (pj q m w).
Proof. intros H a L. unfold pj, vadd, vscale. rewrite (apply1_ext n mZ q v w H a L), (H a L). auto. Qed.
Lemma pj_scale q m c v a : pj q m (vscale c v) a = vscale c (pj q m v) a.
Proof. unfold pj, vadd. unfold vscale at 2. rewrite apply1_scale. unfold vscale. ring. Qed.
Lemma pj_low n q m v w a : q < n -> pj q m (vtensor n v w) a = vtensor n (pj q m v) w a.
Proof. intros H. unfold pj, vadd, vscale. rewrite apply1_low by auto. unfold vtensor. ring. Qed.
Lemma pj_ket n m b v : veq (n + 1) (pj n m (vtensor n v (ketb b)))
  (vscale (if Bool.eqb m b then mkZi 2 0 else zi0) (vtensor n v (ketb b))).
Proof.
  intros a L. unfold pj, vadd, vscale. rewrite apply1_high. unfold vtensor.
  set (x := v (firstn n a)). destruct (skipn n a) as [|y l] eqn:E.
  { exfalso. apply (f_equal (@List.length bool)) in E. rewrite skipn_length in E. cbn in E. lia. }
  clearbody x. destruct x as [xr xi]. unfold apply1, ketb. cbn [nth upd hd]. destruct m, b, y; cbn -[Z.mul Z.add Z.opp]; apply Zi_eq; unfold zimul, ziadd, ziopp, zi1, zi0; cbn [re im]; ring.
Qed.
Lemma x_ket n b v : veq (n + 1) (apply1 mX n (vtensor n v (ketb b))) (vtensor n v (ketb (negb b))).
Proof.
  intros a L. rewrite apply1_high. unfold vtensor. f_equal. destruct (skipn n a) as [|y l] eqn:E.
  { exfalso. apply (f_equal (@List.length bool)) in E. rewrite skipn_length in E. cbn in E. lia. }
  unfold apply1, ketb. cbn [nth upd hd]. destruct b, y; cbn; auto.
Qed.

(** ** The relation [lifted] *)
Lemma norm2_ketb b : norm2 1 (ketb b) = 1%Z.
Proof. destruct b; reflexivity. Qed.
Lemma lifted_norm n v b w : lifted n v b w -> exists k, (k <> 0)%Z /\ norm2 (n + 1) w = (k * norm2 n v)%Z.
Proof.
  intros (c & C & E). exists (ziabs2 c). split; auto. rewrite (norm2_ext _ _ _ E), StateProofs.norm2_scale, norm2_vtensor, norm2_ketb. ring.
Qed.
Lemma lifted_linear n (f f' : vec -> vec) v b w :
  (forall u u', veq (n + 1) u u' -> veq (n + 1) (f u) (f u')) -> (forall c u a, f (vscale c u) a = vscale c (f u) a) ->
  (forall u u' a, f (vtensor n u u') a = vtensor n (f' u) u' a) -> lifted n v b w -> lifted n (f' v) b (f w).
Proof.
  intros E S T (c & C & H). exists c. split; auto. eapply veq_trans; [apply E; exact H|].
  intros a L. rewrite S. unfold vscale. rewrite T. auto.
Qed.
Lemma lifted_apply1 n m q v b w : q < n -> lifted n v b w -> lifted n (apply1 m q v) b (apply1 m q w).
Proof. intros H. apply lifted_linear. intros; apply apply1_ext; auto. intros; apply apply1_scale. intros; apply apply1_low; auto. Qed.
Lemma lifted_apply2 n m c t v b w : c < n -> t < n -> lifted n v b w -> lifted n (apply2 m c t v) b (apply2 m c t w).
Proof. intros H K. apply lifted_linear. intros; apply apply2_ext; auto. intros; apply apply2_scale. intros; apply apply2_low; auto. Qed.
Lemma lifted_pj n q m v b w : q < n -> lifted n v b w -> lifted n (pj q m v) b (pj q m w).
Proof. intros H. apply lifted_linear. intros; apply pj_ext; auto. intros; apply pj_scale. intros; apply pj_low; auto. Qed.
Lemma lifted_veq n v v' b w w' : veq n v v' -> veq (n + 1) w w' -> lifted n v b w -> lifted n v' b w'.
Proof.
  intros E F (c & C & H). exists c. split; auto. eapply veq_trans; [apply veq_sym; exact F|]. eapply veq_trans; [exact H|].
  apply vscale_ext. apply vtensor_ext; auto. apply veq_refl.
Qed.
Lemma lifted_project n q m v b w : q < n -> lifted n v b w ->
  lifted n (project (single n false PZ q) m v) b (project (single (n + 1) false PZ q) m w).
Proof.
  intros H L. eapply lifted_veq; [apply veq_sym, pj_project; auto|apply veq_sym, pj_project; lia|]. apply lifted_pj; auto.
Qed.
Lemma lifted_x n v b w : lifted n v b w -> lifted n v (negb b) (apply1 mX n w).
Proof.
  intros (c & C & H). exists c. split; auto. eapply veq_trans; [apply apply1_ext; exact H|].
  intros a L. rewrite apply1_scale. unfold vscale. rewrite x_ket; auto.
Qed.

(** Outcomes of the qubits below are the same; the ancilla has the outcome [b]. *)
Lemma outcome_low n q m v b w : q < n -> lifted n v b w ->
  (outcome n (single n false PZ q) m v <-> outcome (n + 1) (single (n + 1) false PZ q) m w).
Proof.
  intros H L. pose proof L as (c & C & E). unfold outcome.
  assert (N0 : norm2 (n + 1) w = (ziabs2 c * norm2 n v)%Z)
    by (rewrite (norm2_ext _ _ _ E), StateProofs.norm2_scale, norm2_vtensor, norm2_ketb; ring).
  assert (N1 : forall m, norm2 (n + 1) (project (single (n + 1) false PZ q) m w) = (ziabs2 c * norm2 n (project (single n false PZ q) m v))%Z).
  { intros m'. rewrite (norm2_ext _ _ _ (pj_project (n + 1) q m' w ltac:(lia))).
    rewrite (norm2_ext _ _ _ (pj_ext (n + 1) q m' _ _ E)).
    rewrite (norm2_ext (n + 1) _ (vscale c (vtensor n (pj q m' v) (ketb b)))).
    2:{ intros a La. rewrite pj_scale. unfold vscale. rewrite pj_low; auto. }
    rewrite StateProofs.norm2_scale, norm2_vtensor, norm2_ketb, (norm2_ext _ _ _ (pj_project n q m' v H)). ring. }
  rewrite N0, !N1. split.
  - intros (A & [B|B]); (split; [intros Z0; apply Z.eq_mul_0 in Z0; tauto|]). left; nia. right. intros m'. specialize (B m'). rewrite N1. nia.
  - intros (A & [B|B]); (split; [intros Z0; apply A; rewrite Z0; ring|]). left; nia. right. intros m'. specialize (B m'). rewrite N1 in B. nia.
Qed.
Lemma lifted_anc n v b w m : lifted n v b w -> nz n v -> (outcome (n + 1) (single (n + 1) false PZ n) m w <-> m = b) /\
  lifted n v b (project (single (n + 1) false PZ n) b w).
Proof.
  intros (c & C & E) NZ.
  assert (P : forall m, veq (n + 1) (project (single (n + 1) false PZ n) m w) (vscale (zimul c (if Bool.eqb m b then mkZi 2 0 else zi0)) (vtensor n v (ketb b)))).
  { intros m'. eapply veq_trans; [apply pj_project; lia|]. eapply veq_trans; [apply pj_ext; exact E|].
    intros a L. rewrite pj_scale. unfold vscale at 1. rewrite pj_ket by auto. unfold vscale. ring. }
  assert (N0 : norm2 (n + 1) w = (ziabs2 c * norm2 n v)%Z)
    by (rewrite (norm2_ext _ _ _ E), StateProofs.norm2_scale, norm2_vtensor, norm2_ketb; ring).
  assert (N1 : forall m, norm2 (n + 1) (project (single (n + 1) false PZ n) m w) = (if Bool.eqb m b then 4 * (ziabs2 c * norm2 n v) else 0)%Z).
  { intros m'. rewrite (norm2_ext _ _ _ (P m')), StateProofs.norm2_scale, ziabs2_mul, norm2_vtensor, norm2_ketb.
    destruct (Bool.eqb m' b); [change (ziabs2 (mkZi 2 0)) with 4%Z|change (ziabs2 zi0) with 0%Z]; ring. }
  split.
  - unfold outcome. rewrite N1, N0. split.
    + intros (A & _). destruct (Bool.eqb m b) eqn:EB; [apply eqb_prop in EB; auto|lia].
    + intros ->. rewrite eqb_reflx. split; [|left; auto]. unfold nz in NZ. nia.
  - exists (zimul c (mkZi 2 0)). split. rewrite ziabs2_mul. cbn. nia. specialize (P b). rewrite eqb_reflx in P. exact P.
Qed.

(** ** Runs *)
Lemma all1_lifted n m qs : Forall (fun q => q < n) qs -> forall v b w, lifted n v b w -> lifted n (all1 m qs v) b (all1 m qs w).
Proof. induction 1 as [|q qs H F IH]; intros v b w L; cbn; auto. apply IH. apply lifted_apply1; auto. Qed.
Lemma all2_lifted n m cts : Forall (fun ct => fst ct < n /\ snd ct < n) cts -> forall v b w, lifted n v b w -> lifted n (all2 m cts v) b (all2 m cts w).
Proof. induction 1 as [|q qs (H & K) F IH]; intros v b w L; cbn; auto. apply IH. apply lifted_apply2; auto. Qed.
Lemma paulis_lifted n l : Forall (fun pq : pauli1 * nat => snd pq < n) l -> forall v b w, lifted n v b w -> lifted n (paulis l v) b (paulis l w).
Proof. induction 1 as [|q qs H F IH]; intros v b w L; cbn; auto. apply IH. apply lifted_apply1; auto. Qed.

Lemma qmeasure_down n qs : Forall (fun q => q < n) qs -> forall w ms w', qmeasure (n + 1) qs w ms w' ->
  forall v b, lifted n v b w -> exists v', qmeasure n qs v ms v' /\ lifted n v' b w'.
Proof.
  induction 1 as [|q qs H F IH]; intros w ms w' M v b L; inversion M; subst.
  - exists v. split; [constructor|auto].
  - edestruct IH as (v' & A & B); [eassumption|apply lifted_project; eauto|].
    exists v'. split; auto. constructor; auto. eapply outcome_low; eauto.
Qed.
Lemma qmeasure_up n qs : forall v ms v', qmeasure n qs v ms v' ->
  forall w b, lifted n v b w -> exists w', qmeasure (n + 1) qs w ms w' /\ lifted n v' b w'.
Proof.
  induction 1 as [v|q qs m ms v v' H O M IH]; intros w b L.
  - exists w. split; [constructor|auto].
  - destruct (IH (project (single (n + 1) false PZ q) m w) b) as (w' & A & B); [apply lifted_project; auto|].
    exists w'. split; auto. constructor; auto. lia. apply (outcome_low n q m v b w H L); auto.
Qed.
Lemma qreset_down n qs : Forall (fun q => q < n) qs -> forall w w', qreset (n + 1) qs w w' ->
  forall v b, lifted n v b w -> exists v', qreset n qs v v' /\ lifted n v' b w'.
Proof.
  induction 1 as [|q qs H F IH]; intros w w' M v b L; inversion M as [|? ? m ? ? Hq O R]; subst.
  - exists v. split; [constructor|auto].
  - assert (L2 : lifted n (let u := project (single n false PZ q) m v in if m then apply1 mX q u else u) b
                         (let u := project (single (n + 1) false PZ q) m w in if m then apply1 mX q u else u)).
    { cbv zeta. destruct m; [apply lifted_apply1; auto|]; apply lifted_project; auto. }
    destruct (IH _ _ R _ _ L2) as (v' & A & B). exists v'. split; auto. apply (qr_cons n q qs m); auto. eapply outcome_low; eauto.
Qed.
Lemma qreset_up n qs : forall v v', qreset n qs v v' ->
  forall w b, lifted n v b w -> exists w', qreset (n + 1) qs w w' /\ lifted n v' b w'.
Proof.
  induction 1 as [v|q qs m v v' H O M IH]; intros w b L.
  - exists w. split; [constructor|auto].
  - assert (L2 : lifted n (let u := project (single n false PZ q) m v in if m then apply1 mX q u else u) b
                         (let u := project (single (n + 1) false PZ q) m w in if m then apply1 mX q u else u)).
    { cbv zeta. destruct m; [apply lifted_apply1; auto|]; apply lifted_project; auto. }
    destruct (IH _ _ L2) as (w' & A & B). exists w'. split; auto. apply (qr_cons (n + 1) q qs m); auto. lia. apply (outcome_low n q m v b w H L); auto.
Qed.

Lemma flat_in cts ct : In ct cts -> In (qa (fst ct)) (flat_map (fun ct : nat * nat => [qa (fst ct); qa (snd ct)]) cts) /\
  In (qa (snd ct)) (flat_map (fun ct : nat * nat => [qa (fst ct); qa (snd ct)]) cts).
Proof. intros H. split; apply in_flat_map; exists ct; cbn; auto. Qed.
Lemma in_map_qa q qs : In (qa q) (map qa qs) <-> In q qs.
Proof. rewrite in_map_iff. split. intros (x & E & H). apply qa_inj in E. subst; auto. intros H; exists q; auto. Qed.

Lemma qgate_down n name args w ms es w' : In name basic -> (forall q, In (qa q) args -> q < n) ->
  qgate (n + 1) name args w ms es w' -> forall v b, lifted n v b w -> es = [] /\ exists v', qgate n name args v ms es v' /\ lifted n v' b w'.
Proof.
  intros HB HQ G v b L.
  assert (A1 : forall qs, args = map qa qs -> Forall (fun q => q < n) qs).
  { intros qs ->. apply Forall_forall. intros q Hq. apply HQ. apply in_map_qa; auto. }
  assert (A2 : forall cts, args = flat_map (fun ct : nat * nat => [qa (fst ct); qa (snd ct)]) cts -> Forall (fun ct => fst ct < n /\ snd ct < n) cts).
  { intros cts ->. apply Forall_forall. intros ct Hc. destruct (flat_in _ _ Hc). split; apply HQ; auto. }
  destruct G; try (cbn in HB; intuition discriminate); (split; [reflexivity|]).
  1-4: eexists; split; [constructor|apply all1_lifted; auto].
  1-2: eexists; split; [constructor|apply all2_lifted; auto].
  - destruct (qmeasure_down n qs (A1 _ eq_refl) _ _ _ H v b L) as (v1 & X & Y). exists v1. split; auto. constructor; auto.
  - destruct (qreset_down n qs (A1 _ eq_refl) _ _ H v b L) as (v1 & X & Y). exists v1. split; auto. constructor; auto.
Qed.
Lemma qgate_up n name args v ms es v' : In name basic -> (forall q, In (qa q) args -> q < n) ->
  qgate n name args v ms es v' -> forall w b, lifted n v b w -> es = [] /\ exists w', qgate (n + 1) name args w ms es w' /\ lifted n v' b w'.
Proof.
  intros HB HQ G w b L.
  assert (A1 : forall qs, args = map qa qs -> Forall (fun q => q < n) qs).
  { intros qs ->. apply Forall_forall. intros q Hq. apply HQ. apply in_map_qa; auto. }
  assert (A2 : forall cts, args = flat_map (fun ct : nat * nat => [qa (fst ct); qa (snd ct)]) cts -> Forall (fun ct => fst ct < n /\ snd ct < n) cts).
  { intros cts ->. apply Forall_forall. intros ct Hc. destruct (flat_in _ _ Hc). split; apply HQ; auto. }
  destruct G; try (cbn in HB; intuition discriminate); (split; [reflexivity|]).
  1-4: eexists; split; [constructor|apply all1_lifted; auto].
  1-2: eexists; split; [constructor|apply all2_lifted; auto].
  - destruct (qmeasure_up n qs _ _ _ H w b L) as (v1 & X & Y). exists v1. split; auto. constructor; auto.
  - destruct (qreset_up n qs _ _ H w b L) as (v1 & X & Y). exists v1. split; auto. constructor; auto.
Qed.

(** Operations that make sense on [n] qubits. *)
Definition eok (n : nat) (e : elem) : Prop :=
  Forall (fun q => q < n) (equbits e) /\ match e with EGate name qs => distinct_gate name (map qa qs) | _ => True end.

Lemma qmeasure_nz n qs v ms v' : qmeasure n qs v ms v' -> nz n v -> nz n v' /\ List.length ms = List.length qs.
Proof.
  induction 1 as [v|q qs m ms v v' H O M IH]; intros N; auto. destruct IH as (A & B). apply O. cbn. auto.
Qed.
Lemma qreset_nz n qs v v' : qreset n qs v v' -> nz n v -> nz n v'.
Proof.
  induction 1 as [v|q qs m v v' H O M IH]; intros N; auto. apply IH. cbv zeta. destruct m; [apply (nz_pauli n PX); auto|]; apply O.
Qed.
Lemma qgate_nz n name args v ms es v' : In name basic -> (forall q, In (qa q) args -> q < n) -> distinct_gate name args ->
  qgate n name args v ms es v' -> nz n v -> nz n v'.
Proof.
  intros HB HQ HD G N.
  assert (A1 : forall qs, args = map qa qs -> Forall (fun q => q < n) qs).
  { intros qs ->. apply Forall_forall. intros q Hq. apply HQ. apply in_map_qa; auto. }
  assert (A2 : forall cts, args = flat_map (fun ct : nat * nat => [qa (fst ct); qa (snd ct)]) cts -> name = "CX" \/ name = "CZ" ->
     Forall (fun ct => fst ct < n /\ snd ct < n /\ fst ct <> snd ct) cts).
  { intros cts -> Hn. specialize (HD Hn). clear -HQ HD. induction cts as [|[c t] cts IH]; auto. cbn in HD. destruct HD as (D1 & D2).
    constructor. cbn. split; [|split]. apply HQ; cbn; auto. apply HQ; cbn; auto. intros ->; auto. apply IH; auto. intros; apply HQ; cbn; auto. }
  destruct G; try (cbn in HB; intuition discriminate).
  - apply nz_all1; auto. intros; apply (nz_pauli n PX); auto.
  - apply nz_all1; auto. intros; apply (nz_pauli n PY); auto.
  - apply nz_all1; auto. intros; apply (nz_pauli n PZ); auto.
  - apply nz_all1; auto. intros; apply nz_h; auto.
  - apply nz_all2; auto. intros; apply nz_cx; auto.
  - apply nz_all2; auto. intros; apply nz_cz; auto.
  - eapply qmeasure_nz; eauto.
  - eapply qreset_nz; eauto.
Qed.
Lemma paulis_nz n l : Forall (fun pq : pauli1 * nat => snd pq < n) l -> forall v, nz n v -> nz n (paulis l v).
Proof. induction 1 as [|q qs H F IH]; intros v L; cbn; auto. apply IH. apply nz_pauli; auto. Qed.
Lemma esem_nz n e v ms es v' : eok n e -> esem n e v ms es v' -> nz n v -> nz n v'.
Proof.
  intros (Q & D) E N. destruct E; auto.
  - eapply qgate_nz; eauto. intros q Hq. apply in_map_qa in Hq. cbn in Q. rewrite Forall_forall in Q. auto.
  - apply paulis_nz; auto. cbn in Q. rewrite Forall_map in Q. auto.
  - apply nz_pauli; auto. cbn in Q. inversion Q; auto.
Qed.

Lemma anc_reset n v b w w' : nz n v -> lifted n v b w -> qreset (n + 1) [n] w w' -> lifted n v false w'.
Proof.
  intros N L R. inversion R as [|? ? m ? ? Hq O R2]; subst. inversion R2; subst. clear R R2.
  destruct (lifted_anc n v b w m L N) as (A & B). apply A in O. subst m. cbv zeta. destruct b; auto. apply (lifted_x n v true). auto.
Qed.
Lemma anc_reset_ex n v b w : nz n v -> lifted n v b w -> exists w', qreset (n + 1) [n] w w' /\ lifted n v false w'.
Proof.
  intros N L. assert (R : qreset (n + 1) [n] w (let u := project (single (n + 1) false PZ n) b w in if b then apply1 mX n u else u)).
  { apply (qr_cons (n + 1) n [] b). lia. apply (lifted_anc n v b w b L N); auto. constructor. }
  eexists. split; [exact R|]. eapply anc_reset; eauto.
Qed.
Lemma anc_measure n v b w ms w' : nz n v -> lifted n v b w -> qmeasure (n + 1) [n] w ms w' -> ms = [b] /\ lifted n v b w'.
Proof.
  intros N L R. inversion R as [|? ? m ms2 ? ? Hq O R2]; subst. inversion R2; subst. clear R R2.
  destruct (lifted_anc n v b w m L N) as (A & B). apply A in O. subst m. auto.
Qed.
Lemma anc_measure_ex n v b w : nz n v -> lifted n v b w -> exists w', qmeasure (n + 1) [n] w [b] w' /\ lifted n v b w'.
Proof.
  intros N L. destruct (lifted_anc n v b w b L N) as (A & B). eexists. split; [|exact B].
  constructor. lia. apply A; auto. constructor.
Qed.
Lemma erase_paulis n P q v w : q < n -> lifted n v false w ->
  lifted n (apply1 (mP P) q v) true (paulis ((PX, n) :: match P with PI => [] | _ => [(P, q)] end) w).
Proof.
  intros H L. apply lifted_x in L. cbn [negb] in L. unfold paulis. cbn [fold_left fst snd mP].
  destruct P; cbn [fold_left fst snd]; try (apply lifted_apply1; auto).
  eapply lifted_veq; [apply veq_sym, apply1_mI|apply veq_refl|auto].
Qed.

Lemma rsem_app n a : forall b v ms es v', rsem n (a ++ b) v ms es v' ->
  exists ms1 es1 v1 ms2 es2, rsem n a v ms1 es1 v1 /\ rsem n b v1 ms2 es2 v' /\ ms = ms1 ++ ms2 /\ es = es1 ++ es2.
Proof.
  induction a as [|e a IH]; intros b v ms es v' H.
  - exists [], [], v, ms, es. repeat split; auto. constructor.
  - cbn [app] in H. inversion H as [|? ? ? ms3 es3 v3 ms4 es4 ? E3 R3]; subst.
    destruct (IH _ _ _ _ _ R3) as (ms1 & es1 & v2 & ms2 & es2 & A & B & -> & ->).
    exists (ms3 ++ ms1), (es3 ++ es1), v2, ms2, es2. rewrite !app_assoc. repeat split; auto. econstructor; eauto.
Qed.
Lemma rsem_app_intro n a b v ms1 es1 v1 ms2 es2 v' : rsem n a v ms1 es1 v1 -> rsem n b v1 ms2 es2 v' ->
  rsem n (a ++ b) v (ms1 ++ ms2) (es1 ++ es2) v'.
Proof. intros H K. induction H; cbn; auto. rewrite <- !app_assoc. econstructor; eauto. Qed.
Lemma select_app2 {A} (m1 m2 : list bool) : forall (l1 l2 : list A), List.length m1 = List.length l1 ->
  select (m1 ++ m2) (l1 ++ l2) = select m1 l1 ++ select m2 l2.
Proof.
  induction m1 as [|b m1 IH]; intros [|x l1] l2 L; cbn in *; try discriminate; auto. injection L as L. rewrite IH by auto. destruct b; auto.
Qed.
Lemma select_false {A} (l : list A) : select (repeat false (List.length l)) l = [] /\ select (map negb (repeat false (List.length l))) l = l.
Proof. induction l as [|x l (IH1 & IH2)]; cbn; auto. rewrite IH1, IH2. auto. Qed.

Lemma splits_app m1 r1 ms1 es1 m2 r2 ms2 es2 : splits m1 r1 ms1 es1 -> splits m2 r2 ms2 es2 ->
  splits (m1 ++ m2) (r1 ++ r2) (ms1 ++ ms2) (es1 ++ es2).
Proof.
  intros (A & B & C) (D & E & F). unfold splits. rewrite !app_length, map_app, !select_app2 by (rewrite ?map_length; auto).
  rewrite A, D, B, C, E, F. auto.
Qed.
Lemma gate_splits n name qs v ms es v' : In name basic -> qgate n name (map qa qs) v ms es v' ->
  splits (emarks (EGate name qs)) ms ms [].
Proof.
  intros HB G. cbn [emarks].
  inversion G; subst; try (cbn in HB; intuition discriminate); cbn [String.eqb Ascii.eqb Bool.eqb]; try (repeat split; reflexivity).
  assert (E : List.length ms = List.length qs).
  { match goal with E0 : map qa _ = map qa qs |- _ => apply (f_equal (@List.length arg)) in E0; rewrite !map_length in E0; rewrite <- E0 end.
    match goal with E0 : qmeasure _ _ _ _ _ |- _ => clear -E0; induction E0; cbn; auto end. }
  rewrite <- E. destruct (select_false ms) as (X & Y). unfold splits. rewrite repeat_length. auto.
Qed.

Lemma elem_down n e v b w record es0 w' : eok n e -> nz n v -> lifted n v b w -> rsem (n + 1) (embed n e) w record es0 w' ->
  es0 = [] /\ exists ms es v' b', esem n e v ms es v' /\ lifted n v' b' w' /\ splits (emarks e) record ms es.
Proof.
  intros OK N L R. pose proof OK as (Q & _).
  destruct e as [name qs|l|P q|q]; cbn [embed] in R; cbn [equbits] in Q.
  - inversion R as [|? ? ? ms1 es1 v1 ms2 es2 ? E1 R1]; subst. inversion R1; subst. rewrite !List.app_nil_r. inversion E1; subst.
    destruct (qgate_down n name (map qa qs) w ms1 es1 w' H1) with (v := v) (b := b) as (-> & v' & A & B); auto.
    { intros q Hq. apply in_map_qa in Hq. rewrite Forall_forall in Q; auto. }
    split; auto. exists ms1, [], v', b. split; [constructor; auto|]. split; auto. eapply gate_splits; eauto.
  - inversion R as [|? ? ? ms1 es1 v1 ms2 es2 ? E1 R1]; subst. inversion R1; subst. inversion E1; subst. split; auto.
    exists [], [], (paulis l v), b. split; [constructor|]. split; [apply paulis_lifted; auto; rewrite Forall_map in Q; auto|repeat split].
  - inversion Q as [|? ? Hq _]; subst.
    inversion R as [|? ? ? ms1 es1 v1 ms2 es2 ? E1 R1]; subst. inversion R1 as [|? ? ? ms3 es3 v3 ms4 es4 ? E3 R3]; subst.
    inversion R3 as [|? ? ? ms5 es5 v5 ms6 es6 ? E5 R5]; subst. inversion R5; subst. clear R R1 R3 R5.
    inversion E1; subst. inversion E3; subst. inversion E5; subst. clear E1 E3 E5.
    match goal with H : qgate _ "R" _ _ _ _ _ |- _ => inversion H; subst; clear H end.
    match goal with H : qgate _ "M" _ _ _ _ _ |- _ => inversion H; subst; clear H end.
    repeat match goal with H : map qa _ = [qa n] |- _ => apply (f_equal (map (fun a => match a with AInt z => Z.to_nat z | _ => 0 end))) in H;
      rewrite map_map in H; cbn [map qa] in H; rewrite Nat2Z.id in H; erewrite map_ext, map_id in H by (intros; apply Nat2Z.id); subst end.
    match goal with H : qreset _ _ _ _ |- _ => apply (anc_reset n v b) in H; auto; rename H into L1 end.
    apply (erase_paulis n P q) in L1; auto.
    match goal with H : qmeasure _ _ _ _ _ |- _ => eapply anc_measure in H; [|apply (nz_pauli n P q v Hq N)|exact L1]; destruct H as (-> & L2) end.
    split; auto. exists [], [true], (apply1 (mP P) q v), true. split; [constructor|]. split; auto. repeat split.
  - inversion R as [|? ? ? ms1 es1 v1 ms2 es2 ? E1 R1]; subst. inversion R1 as [|? ? ? ms3 es3 v3 ms4 es4 ? E3 R3]; subst.
    inversion R3; subst. clear R R1 R3.
    inversion E1; subst. inversion E3; subst. clear E1 E3.
    match goal with H : qgate _ "R" _ _ _ _ _ |- _ => inversion H; subst; clear H end.
    match goal with H : qgate _ "M" _ _ _ _ _ |- _ => inversion H; subst; clear H end.
    repeat match goal with H : map qa _ = [qa n] |- _ => apply (f_equal (map (fun a => match a with AInt z => Z.to_nat z | _ => 0 end))) in H;
      rewrite map_map in H; cbn [map qa] in H; rewrite Nat2Z.id in H; erewrite map_ext, map_id in H by (intros; apply Nat2Z.id); subst end.
    match goal with H : qreset _ _ _ _ |- _ => apply (anc_reset n v b) in H; auto; rename H into L1 end.
    match goal with H : qmeasure _ _ _ _ _ |- _ => eapply anc_measure in H; [|exact N|exact L1]; destruct H as (-> & L2) end.
    split; auto. exists [], [false], v, false. split; [constructor|]. split; auto. repeat split.
Qed.

Lemma elem_up n e v ms es v' b w : eok n e -> nz n v -> lifted n v b w -> esem n e v ms es v' ->
  exists record w' b', rsem (n + 1) (embed n e) w record [] w' /\ lifted n v' b' w' /\ splits (emarks e) record ms es.
Proof.
  intros OK N L E. pose proof OK as (Q & _).
  assert (ONE : forall e w record w', esem (n + 1) e w record [] w' -> rsem (n + 1) [e] w record [] w').
  { intros e0 w0 r0 w0' X. rewrite <- (List.app_nil_r r0). change (@nil bool) with (@nil bool ++ []) at 2. econstructor; [exact X|constructor]. }
  destruct E as [name qs v ms es v' HI G|l v|P q v|q v]; cbn [embed]; cbn [equbits] in Q.
  - destruct (qgate_up n name (map qa qs) v ms es v' HI) with (w := w) (b := b) as (-> & w' & A & B); auto.
    { intros q Hq. apply in_map_qa in Hq. rewrite Forall_forall in Q; auto. }
    exists ms, w', b. split; [|split; auto]. apply ONE. constructor; auto. eapply gate_splits; eauto.
  - exists [], (paulis l w), b. split; [apply ONE; constructor|]. split; [apply paulis_lifted; auto; rewrite Forall_map in Q; auto|repeat split].
  - inversion Q as [|? ? Hq _]; subst.
    destruct (anc_reset_ex n v b w N L) as (w1 & R1 & L1). apply (erase_paulis n P q) in L1; auto.
    destruct (anc_measure_ex n _ true _ (nz_pauli n P q v Hq N) L1) as (w3 & M3 & L3).
    exists [true], w3, true. split; [|split; [auto|repeat split]].
    apply (rs_cons (n + 1) _ _ w [] [] w1 [true] []); [apply es_gate; [cbn; auto 10|apply (QR (n + 1) [n]); auto]|].
    eapply (rs_cons (n + 1) _ _ w1 [] [] _ [true] []); [apply es_pauli|].
    apply ONE. apply es_gate; [cbn; auto 10|]. apply (QM (n + 1) [n]); auto.
  - destruct (anc_reset_ex n v b w N L) as (w1 & R1 & L1).
    destruct (anc_measure_ex n _ false _ N L1) as (w3 & M3 & L3).
    exists [false], w3, false. split; [|split; [auto|repeat split]].
    apply (rs_cons (n + 1) _ _ w [] [] w1 [false] []); [apply es_gate; [cbn; auto 10|apply (QR (n + 1) [n]); auto]|].
    apply ONE. apply es_gate; [cbn; auto 10|]. apply (QM (n + 1) [n]); auto.
Qed.

Lemma run_down n ops : Forall (eok n) ops -> forall v b w record es0 w', nz n v -> lifted n v b w ->
  rsem (n + 1) (flat_map (embed n) ops) w record es0 w' ->
  es0 = [] /\ exists ms es v' b', rsem n ops v ms es v' /\ lifted n v' b' w' /\ splits (flat_map emarks ops) record ms es.
Proof.
  induction 1 as [|e ops OK F IH]; intros v b w record es0 w' N L R.
  - cbn in R. inversion R; subst. split; auto. exists [], [], v, b. split; [constructor|]. split; auto. repeat split.
  - cbn [flat_map] in *. apply rsem_app in R. destruct R as (r1 & e1 & w1 & r2 & e2 & R1 & R2 & -> & ->).
    destruct (elem_down n e v b w r1 e1 w1 OK N L R1) as (-> & ms1 & es1 & v1 & b1 & E1 & L1 & S1).
    destruct (IH v1 b1 w1 r2 e2 w' (esem_nz _ _ _ _ _ _ OK E1 N) L1 R2) as (-> & ms2 & es2 & v2 & b2 & E2 & L2 & S2).
    split; auto. exists (ms1 ++ ms2), (es1 ++ es2), v2, b2. split; [econstructor; eauto|]. split; auto. apply splits_app; auto.
Qed.
Lemma run_up n ops : Forall (eok n) ops -> forall v b w ms es v', nz n v -> lifted n v b w -> rsem n ops v ms es v' ->
  exists record w' b', rsem (n + 1) (flat_map (embed n) ops) w record [] w' /\ lifted n v' b' w' /\ splits (flat_map emarks ops) record ms es.
Proof.
  induction 1 as [|e ops OK F IH]; intros v b w ms es v' N L R; inversion R as [|? ? ? ms1 es1 v1 ms2 es2 ? E1 R1]; subst.
  - exists [], w, b. split; [constructor|]. split; auto. repeat split.
  - destruct (elem_up n e v ms1 es1 v1 b w OK N L E1) as (r1 & w1 & b1 & A1 & L1 & S1).
    destruct (IH v1 b1 w1 ms2 es2 v' (esem_nz _ _ _ _ _ _ OK E1 N) L1 R1) as (r2 & w2 & b2 & A2 & L2 & S2).
    exists (r1 ++ r2), w2, b2. cbn [flat_map]. split; [|split; [auto|apply splits_app; auto]].
    change (@nil bool) with (@nil bool ++ []). eapply rsem_app_intro; eauto.
Qed.

Lemma ket0_lifted n : lifted n ket0 false ket0.
Proof.
  exists zi1. split; [discriminate|]. intros a L. unfold vscale, vtensor, ket0, ketb.
  rewrite <- (firstn_skipn n a) at 1. rewrite forallb_app.
  assert (LS : List.length (skipn n a) = 1) by (rewrite skipn_length; lia).
  destruct (skipn n a) as [|x [|? ?]]; try discriminate. cbn [forallb hd]. rewrite andb_true_r.
  destruct (forallb negb (firstn n a)), x; reflexivity.
Qed.

(** The operations of a distribution make sense. *)
Lemma gate_eok n gt d : pl_gate gt d -> distinct_gate (fst gt) (snd gt) -> (forall q, In (qa q) (snd gt) -> q < n) ->
  Forall (fun x => Forall (eok n) (snd x)) d.
Proof.
  intros H D B. destruct H as [name qs HI|ars ps q HP HL|ars ps q1 q2 HP HL|a p q HA H0 H1|p name P q HI]; cbn [fst snd] in *.
  - constructor; auto. constructor; auto. split; auto. cbn. apply Forall_forall. intros q Hq. apply B, in_map_qa; auto.
  - assert (q < n) by (apply B, in_or_app; cbn; auto). repeat constructor; auto.
  - assert (q1 < n /\ q2 < n) as (X & Y) by (split; apply B, in_or_app; cbn; auto). repeat constructor; auto.
  - assert (q < n) by (apply B; cbn; auto). repeat constructor; auto.
  - assert (q < n) by (apply B; cbn; auto). repeat constructor; auto.
Qed.
Lemma circ_eok n c d : pl_circ c d -> Forall distinct_ct c -> (forall gt q, In gt c -> In (qa q) (snd gt) -> q < n) ->
  Forall (fun x => Forall (eok n) (snd x)) d.
Proof.
  induction 1 as [|gt c d1 d2 G C IH]; intros D B; [repeat constructor|]. inversion D as [|? ? D1 D2]; subst.
  pose proof (gate_eok n gt d1 G (proj1 D1) (fun q => B gt q (or_introl eq_refl))) as F1.
  specialize (IH D2 (fun g q Hg => B g q (or_intror Hg))).
  rewrite Forall_forall in *. intros x Hx. unfold dseq in Hx. apply in_flat_map in Hx. destruct Hx as (y & Hy & Hx).
  unfold scale in Hx. apply in_map_iff in Hx. destruct Hx as (z & <- & Hz). cbn [snd]. apply Forall_app. split; auto.
Qed.

(** Positive branches are possible in the specification of the simulator. *)
Lemma gate_link n gt d x v ms es v1 c ms' es' v' : pl_gate gt d -> In x d -> (0 < fst x)%Q -> rsem n (snd x) v ms es v1 ->
  qcirc n c v1 ms' es' v' -> qcirc n (gt :: c) v (ms ++ ms') (es ++ es') v'.
Proof.
  intros G I W R K.
  assert (ONE : forall e, snd x = [e] -> esem n e v ms es v1).
  { intros e E. rewrite E in R. inversion R; subst. match goal with H : rsem _ [] _ _ _ _ |- _ => inversion H; subst end. rewrite !List.app_nil_r. auto. }
  destruct G as [name qs HI|ars ps q HP HL|ars ps q1 q2 HP HL|a p q HA H0 H1|p name P q HI].
  - destruct I as [<-|[]]. specialize (ONE _ eq_refl). inversion ONE; subst. econstructor; eauto.
  - apply in_map_iff in I. destruct I as (P & <- & _). specialize (ONE _ eq_refl). inversion ONE; subst. cbn [fst] in W.
    destruct ars as [|a1 [|a2 [|a3 [|? ?]]]]; try (apply Forall2_len in HP; rewrite HL in HP; discriminate).
    destruct ps as [|p1 [|p2 [|p3 [|? ?]]]]; try discriminate.
    econstructor; eauto. cbn [app]. unfold paulis. cbn [fold_left fst snd]. eapply QPauli; eauto.
  - apply in_flat_map in I. destruct I as (P1 & _ & I). apply in_map_iff in I. destruct I as (P2 & <- & _).
    specialize (ONE _ eq_refl). inversion ONE; subst. cbn [fst] in W. econstructor; eauto.
    unfold paulis. cbn [fold_left fst snd]. eapply QPauli2; eauto.
  - apply in_app_or in I. destruct I as [I|[<-|[]]].
    + apply in_map_iff in I. destruct I as (P & <- & _). specialize (ONE _ eq_refl). inversion ONE; subst. cbn [fst] in W.
      econstructor; eauto. eapply QErase; eauto. destruct (Qlt_le_dec 0 p) as [|NP]; auto. exfalso. apply (Qlt_not_le _ _ W).
      assert (p == 0)%Q by lra. rewrite H. discriminate.
    + specialize (ONE _ eq_refl). inversion ONE; subst. cbn [fst] in W. econstructor; eauto. eapply QNoErase; eauto. lra.
  - destruct I as [<-|[<-|[]]]; cbn [fst snd] in *.
    + specialize (ONE _ eq_refl). inversion ONE; subst. eapply qc_error; eauto.
      cbn in HI. destruct HI as [HI|[HI|[HI|[]]]]; injection HI as <- <-.
      apply (QX n [q] v). apply (QY n [q] v). apply (QZ n [q] v).
    + inversion R; subst. cbn [app]. apply qc_noerror; auto. left. split; auto. lra.
Qed.
Lemma circ_link n c d : pl_circ c d -> Forall (fun gt => forall d', pl_gate gt d' -> Forall (fun x => 0 <= fst x)%Q d') c ->
  Forall (fun x => 0 <= fst x)%Q d /\
  (forall x v ms es v', In x d -> (0 < fst x)%Q -> rsem n (snd x) v ms es v' -> qcirc n c v ms es v').
Proof.
  induction 1 as [|gt c d1 d2 G C IH]; intros F.
  - split; [repeat constructor; discriminate|]. intros x v ms es v' [<-|[]] _ R. inversion R; subst. constructor.
  - inversion F as [|? ? F1 F2]; subst. specialize (F1 d1 G). destruct (IH F2) as (N2 & L2). clear F F2 IH.
    assert (X : forall x, In x (dseq d1 d2) -> exists y z, In y d1 /\ In z d2 /\ x = ((fst y * fst z)%Q, snd y ++ snd z)).
    { intros x Hx. unfold dseq in Hx. apply in_flat_map in Hx. destruct Hx as (y & Hy & Hx).
      unfold scale in Hx. apply in_map_iff in Hx. destruct Hx as (z & <- & Hz). eauto. }
    rewrite Forall_forall in F1, N2. split.
    + apply Forall_forall. intros x Hx. destruct (X x Hx) as (y & z & Hy & Hz & ->). cbn [fst]. apply Qmult_le_0_compat; auto.
    + intros x v ms es v' Hx W R. destruct (X x Hx) as (y & z & Hy & Hz & ->). cbn [fst snd] in *.
      apply rsem_app in R. destruct R as (ms1 & es1 & v1 & ms2 & es2 & R1 & R2 & -> & ->).
      assert (P : (0 < fst y /\ 0 < fst z)%Q).
      { pose proof (F1 y Hy) as A. pose proof (N2 z Hz) as B. split.
        - destruct (Qlt_le_dec 0 (fst y)); auto. exfalso. assert (fst y == 0)%Q by lra. rewrite H in W. lra.
        - destruct (Qlt_le_dec 0 (fst z)); auto. exfalso. assert (fst z == 0)%Q by lra. rewrite H in W. lra. }
      eapply gate_link; eauto. tauto. eapply L2; eauto. tauto.
Qed.

(** Total probability. *)
Definition total (d : dist) : Q := qsum (map fst d).
Lemma total_app a b : (total (a ++ b) == total a + total b)%Q.
Proof.
  induction a as [|x a IH]. change (total (@nil (Q * list elem))) with 0%Q. cbn [app]. ring.
  change (total ((x :: a) ++ b)) with (fst x + total (a ++ b))%Q. change (total (x :: a)) with (fst x + total a)%Q. rewrite IH. ring.
Qed.
Lemma total_scale w o d : (total (scale w o d) == w * total d)%Q.
Proof.
  induction d as [|x d IH]. change (total (scale w o [])) with 0%Q. change (total (@nil (Q * list elem))) with 0%Q. ring.
  change (total (scale w o (x :: d))) with (w * fst x + total (scale w o d))%Q. change (total (x :: d)) with (fst x + total d)%Q. rewrite IH. ring.
Qed.
Lemma total_dseq a b : (total (dseq a b) == total a * total b)%Q.
Proof.
  induction a as [|x a IH]. change (total (dseq [] b)) with 0%Q. change (total (@nil (Q * list elem))) with 0%Q. ring.
  change (dseq (x :: a) b) with (scale (fst x) (snd x) b ++ dseq a b). rewrite total_app, total_scale, IH.
  change (total (x :: a)) with (fst x + total a)%Q. ring.
Qed.
Lemma total_gate gt d : pl_gate gt d -> (total d == 1)%Q.
Proof.
  destruct 1 as [name qs HI|ars ps q HP HL|ars ps q1 q2 HP HL|a p q HA H0 H1|p name P q HI].
  - reflexivity.
  - destruct ps as [|p1 [|p2 [|p3 [|? ?]]]]; try discriminate. unfold total, prob_k. cbn [map fst paulis4 code nth qsum fold_right]. ring.
  - do 15 (destruct ps as [|? ps]; try discriminate). destruct ps; try discriminate.
    unfold total, prob_k. cbn [map flat_map app fst paulis4 code nth qsum fold_right Nat.mul Nat.add]. ring.
  - unfold total. cbn [map fst app qsum fold_right]. field.
  - unfold total. cbn [map fst qsum fold_right]. ring.
Qed.
Lemma total_circ c d : pl_circ c d -> (total d == 1)%Q.
Proof. induction 1 as [|gt c d1 d2 G C IH]. reflexivity. rewrite total_dseq, IH, (total_gate _ _ G). ring. Qed.
