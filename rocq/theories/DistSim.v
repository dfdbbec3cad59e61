(** The distribution of the results of the simulator. *)
Require Import String List Bool Arith ZArith QArith Qfield Lia Lqa.
From Verif Require Import Base BaseProofs QSpec PauliModel PauliSem PauliProofs PauliAlg TableauProofs
  MeasureProofs StateProofs StateSpec GateProofs CircuitModel CircuitSpec CircuitProofs SimModel SimSpec SimProofs RunProofs DistSpec DistMean.
Import ListNotations.
Local Open Scope string_scope.
Local Open Scope nat_scope.
Local Open Scope list_scope.

Section Law.
Variable N : positive.
Variable n : nat.
Hypothesis Hn : 0 < n.

(** From call [k] on and with at least [B] calls, [F] has the mean [e]. *)
Definition good (k B : nat) (F : rng -> Q) (e : Q) : Prop := local k F /\ forall M, B <= M -> (Ex N M k F == e)%Q.
Definition cont (B : nat) (K : sim -> rng -> Q) (f : statistic) : Prop :=
  forall s v, Inv n s v -> good (s_k s) B (K s) (f v (s_meas s) (s_eras s)).

Lemma good_ext k B F G e e' : good k B F e -> (forall g, (G g == F g)%Q) -> (e == e')%Q -> good k B G e'.
Proof.
  intros (L & E) H He. split.
  - intros g g' A. rewrite !H. apply L; auto.
  - intros M LE. rewrite (Ex_ext N M k G F) by auto. rewrite <- He. auto.
Qed.
Lemma good_more k B B' F e : good k B F e -> B <= B' -> good k B' F e.
Proof. intros (L & E) H. split; auto. intros; apply E; lia. Qed.
Lemma good_draw k B F H e : (forall d, good (S k) B (H d) (e d)) -> (forall g, (F g == H (g k) g)%Q) -> good k (S B) F (mean (draws N) e).
Proof.
  intros G E. split.
  - intros g g' A. rewrite !E. rewrite (A k) by lia. apply (G (g' k)). intros; apply A; lia.
  - intros [|M] LE; [lia|]. rewrite (Ex_step N M k F H E) by (intros d; apply G). apply mean_ext. intros d _. apply (G d). lia.
Qed.
Lemma cont_more B B' K f : cont B K f -> B <= B' -> cont B' K f.
Proof. intros C H s v I. apply (good_more _ B); auto. Qed.

Definition andthen (r : Res sim) (K : sim -> rng -> Q) (g : rng) : Q := match r with Ok s => K s g | Err _ => 0%Q end.
Lemma andthen_bind (r : Res sim) f K g : andthen (do s <- r; f s) K g = andthen r (fun s g => andthen (f s) K g) g.
Proof. destruct r; auto. Qed.

(** A step which needs no random number. *)
Lemma good_det B K f s s' v' (r : rng -> Res sim) : cont B K f -> (forall g, r g = Ok s') -> Inv n s' v' -> s_k s' = s_k s ->
  good (s_k s) B (fun g => andthen (r g) K g) (f v' (s_meas s') (s_eras s')).
Proof. intros C E I EK. rewrite <- EK. apply (good_ext _ _ (K s') _ (f v' (s_meas s') (s_eras s'))); [apply C; auto| |reflexivity]. intros g. rewrite E. reflexivity. Qed.

(** * Measurements *)
Lemma measure_bit g g' k st op : d_bit (g k) = d_bit (g' k) -> measure g k st op None = measure g' k st op None.
Proof. intros E. unfold measure. rewrite E. reflexivity. Qed.

Lemma ratio_one a b : b <> 0%Z -> (a = 4 * b)%Z -> (inject_Z a / inject_Z (4 * b) == 1)%Q.
Proof. intros H ->. field. rewrite inject_Z_mult. intros E. apply Qmult_integral in E. destruct E as [E|E]; [discriminate|]. apply H. unfold Qeq in E. cbn in E. lia. Qed.
Lemma ratio_half a b : b <> 0%Z -> (a = 2 * b)%Z -> (inject_Z a / inject_Z (4 * b) == 1 # 2)%Q.
Proof.
  intros H ->. rewrite !inject_Z_mult. assert (~ (inject_Z b == 0)%Q) by (intros E; apply H; unfold Qeq in E; cbn in E; lia).
  change (inject_Z 2) with 2%Q. change (inject_Z 4) with 4%Q. field. auto.
Qed.

Definition zrow (q : nat) : row := mkRow (upd q (pbits PZ) (repeat pid n)) false.
Lemma measure_cases st v q k : wf n st -> describes n st v -> nz n v -> q < n ->
  (exists m, (forall g, measure g k st (zrow q) None = Ok (st, m, k)) /\
     (born n (single n false PZ q) m v == 1)%Q /\ (born n (single n false PZ q) (negb m) v == 0)%Q /\
     describes n st (project (single n false PZ q) m v) /\ nz n (project (single n false PZ q) m v)) \/
  (exists stf : bool -> tableau, (forall g, measure g k st (zrow q) None = Ok (stf (d_bit (g k)), d_bit (g k), S k)) /\
     forall m, (born n (single n false PZ q) m v == 1 # 2)%Q /\ wf n (stf m) /\ describes n (stf m) (project (single n false PZ q) m v) /\
               nz n (project (single n false PZ q) m v)).
Proof.
  intros W D Nv Hq. assert (Hop : List.length (ops (zrow q)) = n) by apply single_len.
  assert (Hid : ops (zrow q) <> repeat pid n) by exact (single_nonid n PZ q Hq ltac:(discriminate)).
  assert (Ed : denote (zrow q) = single n false PZ q) by apply denote_single.
  set (g0 := fun b (_ : nat) => mkDraw b 0 0).
  assert (T : forall g, exists st' m k', measure g k st (zrow q) None = Ok (st', m, k')).
  { intros g. destruct (measure_total n g k st (zrow q) W Hn Hop Hid None good_none) as (st1 & m1 & k1 & E & _). eauto. }
  destruct (T (g0 false)) as (st0 & m0 & k0 & E0).
  destruct (measure_sem n _ _ _ _ None st0 m0 k0 v W Hn Hop Hid good_none E0 D) as (W0 & D0 & [(N0 & -> & -> & Heig)|(N0 & _)]); rewrite Ed in *.
  - left. exists m0. split; [|split; [|split; [|split]]]; auto.
    + intros g. apply (measure_eigen n g k st (zrow q) None v m0); auto. apply good_none. rewrite Ed; auto.
    + apply ratio_one; auto.
    + unfold born. destruct (project_eigen n _ m0 v Heig) as (_ & Z). rewrite (proj2 (norm2_zero n _) Z). reflexivity.
    + unfold nz in *. rewrite N0. lia.
  - right. assert (X : forall g, exists st', measure g k st (zrow q) None = Ok (st', d_bit (g k), S k) /\ wf n st' /\ describes n st' (project (single n false PZ q) (d_bit (g k)) v)).
    { intros g. destruct (T g) as (st1 & m1 & k1 & E1). destruct (measure_sem n _ _ _ _ None st1 m1 k1 v W Hn Hop Hid good_none E1 D) as (W1 & D1 & [(N1 & _)|(_ & -> & ->)]); rewrite Ed in *.
      - exfalso. rewrite N0 in N1. unfold nz in Nv. lia.
      - exists st1. auto. }
    exists (fun b => match measure (g0 b) k st (zrow q) None with Ok (t, _, _) => t | Err _ => st end). split.
    + intros g. rewrite (measure_bit g (g0 (d_bit (g k)))) by reflexivity. destruct (X (g0 (d_bit (g k)))) as (st' & E & _). rewrite E. reflexivity.
    + intros m. destruct (X (g0 m)) as (st' & E & W' & D'). rewrite E. split; [|split; [|split]]; auto.
      * apply ratio_half; auto.
      * unfold nz in *. rewrite N0. lia.
Qed.

(** A measurement followed by something which depends on its outcome. *)
Lemma good_measure B K f s v q (next : tableau * bool * nat -> Res sim) (w : bool -> vec) (ms es : bool -> list bool) : Inv n s v -> q < n ->
  cont B K f ->
  (forall t m k, wf n t -> describes n t (project (single n false PZ q) m v) -> nz n (project (single n false PZ q) m v) ->
     exists s', next (t, m, k) = Ok s' /\ Inv n s' (w m) /\ s_k s' = k /\ s_meas s' = ms m /\ s_eras s' = es m) ->
  good (s_k s) (S B) (fun g => andthen (do op <- single_qubit_pauli_operator false PZ q (nqubits (s_st s)); do r <- measure g (s_k s) (s_st s) op None; next r) K g)
    (sum_over [false; true] (fun m => born n (single n false PZ q) m v * f (w m) (ms m) (es m)))%Q.
Proof.
  intros (W & D & Nv) Hq C X. rewrite (wf_nqubits n) by auto. rewrite sqpo_ok by (auto; discriminate). cbn [bindR]. fold (zrow q).
  destruct (measure_cases (s_st s) v q (s_k s) W D Nv Hq) as [(m & E & B1 & B0 & D1 & N1)|(stf & E & Y)].
  - destruct (X (s_st s) m (s_k s) W D1 N1) as (s' & E' & I' & K' & M' & S').
    apply (good_more _ B); [|lia]. apply (good_ext _ _ (fun g => andthen (Ok s') K g) _ (f (w m) (ms m) (es m))).
    + rewrite <- K', <- M', <- S'. apply C. auto.
    + intros g. rewrite E. cbn [bindR]. rewrite E'. reflexivity.
    + rewrite !sum_cons, sum_nil. destruct m; cbn [negb] in B0; rewrite B1, B0; ring.
  - apply (good_ext _ _ (fun g => andthen (next (stf (d_bit (g (s_k s))), d_bit (g (s_k s)), S (s_k s))) K g) _
             (mean (draws N) (fun d => f (w (d_bit d)) (ms (d_bit d)) (es (d_bit d))))).
    + apply (good_draw _ _ _ (fun d g => andthen (next (stf (d_bit d), d_bit d, S (s_k s))) K g)); [|reflexivity].
      intros d. destruct (Y (d_bit d)) as (_ & W1 & D1 & N1). destruct (X _ _ (S (s_k s)) W1 D1 N1) as (s' & E' & I' & K' & M' & S').
      rewrite E'. cbn [andthen]. rewrite <- K' at 1. rewrite <- M', <- S'. apply C. auto.
    + intros g. rewrite E. reflexivity.
    + rewrite (mean_bit N _ (fun b => f (w b) (ms b) (es b))) by reflexivity. rewrite !sum_cons, sum_nil.
      rewrite (proj1 (Y false)), (proj1 (Y true)). ring.
Qed.

Lemma good_M B K f qs : Forall (fun q => q < n) qs -> cont B K f -> cont (List.length qs + B) (fun s g => andthen (foldR (measure_qubit g) qs s) K g) (mean_measure n qs f).
Proof.
  intros F C. induction F as [|q qs Hq F IH]; intros s v I.
  - cbn [foldR andthen]. apply C. auto.
  - cbn [List.length Nat.add mean_measure foldR].
    apply (good_ext _ _ (fun g => andthen (measure_qubit g s q) (fun s' g => andthen (foldR (measure_qubit g) qs s') K g) g) _
            (sum_over [false; true] (fun m => born n (single n false PZ q) m v * mean_measure n qs f (project (single n false PZ q) m v) (s_meas s ++ [m]) (s_eras s)))%Q);
      [|intros g; rewrite andthen_bind; reflexivity|reflexivity].
    unfold measure_qubit at 1.
    apply (good_measure _ _ _ s v q (fun r => let '(t, m, k) := r in Ok (mkSim t (s_meas s ++ [m]) (s_eras s) (s_in s) (s_any s) (s_branch s) k))
             (fun m => project (single n false PZ q) m v) (fun m => s_meas s ++ [m]) (fun _ => s_eras s) I Hq IH).
    intros t m k W1 D1 N1. eexists. split; [reflexivity|]. split; [split; auto|]. auto.
Qed.

Definition reset_sim (g : rng) (s : sim) (q : nat) : Res sim :=
  do r <- reset_step g false PZ (s_st s, s_k s) q; Ok (mkSim (fst r) (s_meas s) (s_eras s) (s_in s) (s_any s) (s_branch s) (snd r)).
Lemma reset_fold g qs : forall s, (do r <- reset_qubits g (s_k s) (s_st s) false PZ qs; Ok (mkSim (fst r) (s_meas s) (s_eras s) (s_in s) (s_any s) (s_branch s) (snd r))) = foldR (reset_sim g) qs s.
Proof.
  induction qs as [|q qs IH]; intros s; [destruct s; reflexivity|]. unfold reset_qubits. cbn [foldR]. unfold reset_sim at 1.
  destruct (reset_step g false PZ (s_st s, s_k s) q) as [[st' k']|]; auto. cbn [bindR fst snd]. rewrite <- IH. reflexivity.
Qed.
Lemma good_R B K f qs : Forall (fun q => q < n) qs -> cont B K f -> cont (List.length qs + B) (fun s g => andthen (foldR (reset_sim g) qs s) K g) (mean_reset n qs f).
Proof.
  intros F C. induction F as [|q qs Hq F IH]; intros s v I.
  - cbn [foldR andthen]. apply C. auto.
  - cbn [List.length Nat.add mean_reset foldR].
    set (w := fun m : bool => let u := project (single n false PZ q) m v in if m then apply1 mX q u else u).
    set (next := fun r : tableau * bool * nat => let '(st', m, k') := r in
       do r' <- (if m then do st'' <- gate_x st' [q]; Ok (st'', k') else Ok (st', k'));
       Ok (mkSim (fst r') (s_meas s) (s_eras s) (s_in s) (s_any s) (s_branch s) (snd r'))).
    apply (good_ext _ _ (fun g => andthen (do op <- single_qubit_pauli_operator false PZ q (nqubits (s_st s)); do r <- measure g (s_k s) (s_st s) op None; next r)
             (fun s' g => andthen (foldR (reset_sim g) qs s') K g) g) _
            (sum_over [false; true] (fun m => born n (single n false PZ q) m v * mean_reset n qs f (w m) (s_meas s) (s_eras s)))%Q);
      [|intros g; rewrite andthen_bind|reflexivity].
    + apply (good_measure _ _ _ s v q next w (fun _ => s_meas s) (fun _ => s_eras s) I Hq IH).
      intros t m k W1 D1 N1. unfold next, w. destruct m.
      * assert (R1 : rows n t) by (apply wf_rows; auto). assert (HF : Forall (fun q => q < n) [q]) by auto.
        rewrite (gate_x_ok n) by auto. cbn [bindR fst snd]. eexists. split; [reflexivity|].
        split; [split; [|split]|]; cbn [s_st s_k s_meas s_eras]; auto.
        -- apply gate_wf; auto. apply x_len. apply x_symp.
        -- apply (gate_describes n _ _ (apply1 mX q)); auto. intros; apply apply1_ext; auto. intros; apply x_conj; auto.
        -- apply (nz_pauli n PX); auto.
      * cbn [bindR fst snd]. eexists. split; [reflexivity|]. split; [split; auto|]. auto.
    + unfold reset_sim at 1. unfold reset_step. destruct (single_qubit_pauli_operator false PZ q (nqubits (s_st s))); [|reflexivity]. cbn [bindR].
      destruct (measure g (s_k s) (s_st s) a None) as [[[t m] k]|]; [|reflexivity]. cbn [bindR]. unfold next.
      replace (if m then do st'' <- gate_x t [q]; Ok (st'', k) else Ok (t, k)) with (if m then do st'' <- gate_x t [q]; Ok (st'', k) else Ok (t, k) : Res (tableau * nat)) by reflexivity.
      destruct m; reflexivity.
Qed.

(** * Random Pauli operators *)
Definition letter (j : nat) : pauli1 := match j with 0 => PI | 1 => PX | 2 => PY | _ => PZ end.
Lemma letter_code j : j < 4 -> code (letter j) = j.
Proof. intros H. destruct j as [|[|[|[|]]]]; auto. lia. Qed.
Lemma letter_of P : letter (code P) = P. Proof. destruct P; auto. Qed.
Lemma api_run s q j v : Inv n s v -> q < n -> j < 4 -> exists s', apply_pauli_from_int s q j = Ok s' /\ Inv n s' (apply1 (mP (letter j)) q v) /\
  s_k s' = s_k s /\ s_meas s' = s_meas s /\ s_eras s' = s_eras s.
Proof.
  intros I Hq Hj. destruct (api_total n Hn s q j v I Hq Hj) as (s' & E). exists s'. split; auto. rewrite <- (letter_code j Hj) in E.
  destruct (apply_pauli_sem n s q (letter j) s' v Hn I E) as (I' & (A & A' & _) & EK). rewrite app_nil_r in *. auto.
Qed.
Lemma good_api B K f s q j v : Inv n s v -> q < n -> j < 4 -> cont B K f ->
  good (s_k s) B (fun g => andthen (apply_pauli_from_int s q j) K g) (f (apply1 (mP (letter j)) q v) (s_meas s) (s_eras s)).
Proof.
  intros I Hq Hj C. destruct (api_run s q j v I Hq Hj) as (s' & E & I' & K' & M' & S'). rewrite <- M', <- S'. apply (good_det _ _ _ s s'); auto.
Qed.
Lemma Inv_tick s v : Inv n s v -> Inv n (tick s) v. Proof. intros I. exact I. Qed.

Lemma good_D B K f qs : Forall (fun q => q < n) qs -> cont B K f -> cont (List.length qs + B) (fun s g => andthen (foldR (depolarize_qubit g) qs s) K g) (mean_depolarize qs f).
Proof.
  intros F C. induction F as [|q qs Hq F IH]; intros s v I.
  - cbn [foldR andthen]. apply C. auto.
  - cbn [List.length Nat.add mean_depolarize foldR].
    apply (good_ext _ _ (fun g => andthen (apply_pauli_from_int (tick s) q (1 + d_int (g (s_k s)) mod 3)) (fun s' g => andthen (foldR (depolarize_qubit g) qs s') K g) g) _
            (mean (draws N) (fun d => mean_depolarize qs f (apply1 (mP (letter (1 + d_int d mod 3))) q v) (s_meas s) (s_eras s))));
      [|intros g; rewrite andthen_bind; reflexivity|].
    + apply (good_draw _ _ _ (fun d g => andthen (apply_pauli_from_int (tick s) q (1 + d_int d mod 3)) (fun s' g => andthen (foldR (depolarize_qubit g) qs s') K g) g)); [|reflexivity].
      intros d. apply (good_api _ _ _ (tick s) q _ v); auto. pose proof (Nat.mod_upper_bound (d_int d) 3 ltac:(lia)). lia.
    + rewrite (mean_mod3 N _ (fun z => mean_depolarize qs f (apply1 (mP (letter (1 + z))) q v) (s_meas s) (s_eras s))) by reflexivity.
      cbn [seq]. rewrite !sum_cons, !sum_nil. cbn [Nat.add letter]. reflexivity.
Qed.

Lemma choice_pick u ps : Forall (fun p => 0 <= p)%Q ps -> (qsum ps <= 1)%Q -> choice u ((1 - Qsum ps)%Q :: ps) = Ok (pick u 0 ((1 - Qsum ps)%Q :: ps) 0).
Proof.
  intros F1 S1. destruct (choice_ok u ps F1 S1) as (k & E). rewrite E. unfold choice in E. destruct (existsb _ _); [discriminate|]. congruence.
Qed.
Lemma pick_bound u : forall ps acc i, pick u acc ps i <= i + List.length ps.
Proof. induction ps as [|p ps IH]; intros acc i; cbn [pick List.length]; [lia|]. destruct (Qltb _ _); [lia|]. specialize (IH (acc + p)%Q (S i)). lia. Qed.
Lemma good_zero k B : good k B (fun _ => 0%Q) 0%Q.
Proof. split; [intros g g' _; reflexivity|]. intros M _. apply Ex_const. Qed.

Lemma good_P1 B K f s q v ps : Inv n s v -> q < n -> Forall (fun p => 0 <= p)%Q ps -> (qsum ps <= 1)%Q -> List.length ps = 3 -> Forall (on_grid N) ps -> cont B K f ->
  good (s_k s) (S B) (fun g => andthen (do sample <- choice (d_unif (g (s_k s))) ((1 - Qsum ps)%Q :: ps); apply_pauli_from_int (tick s) q sample) K g)
    (sum_over letters (fun P => prob_k ps (code P) * f (apply1 (mP P) q v) (s_meas s) (s_eras s)))%Q.
Proof.
  intros I Hq F1 S1 L G C.
  set (h := fun j => if j <? 4 then f (apply1 (mP (letter j)) q v) (s_meas s) (s_eras s) else 0%Q).
  apply (good_ext _ _ (fun g => andthen (apply_pauli_from_int (tick s) q (pick (d_unif (g (s_k s))) 0 ((1 - Qsum ps)%Q :: ps) 0)) K g) _
           (mean (draws N) (fun d => h (pick (d_unif d) 0 ((1 - Qsum ps)%Q :: ps) 0)))).
  - apply (good_draw _ _ _ (fun d g => andthen (apply_pauli_from_int (tick s) q (pick (d_unif d) 0 ((1 - Qsum ps)%Q :: ps) 0)) K g)); [|reflexivity].
    intros d. unfold h. pose proof (pick_bound (d_unif d) ((1 - Qsum ps)%Q :: ps) 0 0) as PB. cbn [List.length] in PB. rewrite L in PB.
    set (j := pick (d_unif d) 0 ((1 - Qsum ps)%Q :: ps) 0) in *. destruct (Nat.ltb_spec j 4).
    + apply (good_api _ _ _ (tick s) q _ v); auto.
    + replace j with 4 by lia. cbn [apply_pauli_from_int andthen]. apply good_zero.
  - intros g. rewrite (choice_pick _ ps) by auto. reflexivity.
  - rewrite (mean_choice N _ h ps) by (auto; reflexivity). rewrite L. cbn [seq]. unfold letters. rewrite !sum_cons, !sum_nil. unfold h. cbn [Nat.ltb Nat.leb letter code]. reflexivity.
Qed.

Lemma sum_16 (F : nat -> Q) : (sum_over (seq 0 16) F == sum_over letters (fun P1 => sum_over letters (fun P2 => F (4 * code P1 + code P2)%nat)))%Q.
Proof. unfold letters. cbn [seq]. rewrite !sum_cons, !sum_nil. cbn [code Nat.mul Nat.add]. ring. Qed.
Lemma good_P2 B K f s q1 q2 v ps : Inv n s v -> q1 < n -> q2 < n -> Forall (fun p => 0 <= p)%Q ps -> (qsum ps <= 1)%Q -> List.length ps = 15 -> Forall (on_grid N) ps -> cont B K f ->
  good (s_k s) (S B) (fun g => andthen (do sample <- choice (d_unif (g (s_k s))) ((1 - Qsum ps)%Q :: ps);
      do s1 <- apply_pauli_from_int (tick s) q1 (sample / 4); apply_pauli_from_int s1 q2 (sample mod 4)) K g)
    (sum_over letters (fun P1 => sum_over letters (fun P2 => prob_k ps (4 * code P1 + code P2)%nat * f (apply1 (mP P2) q2 (apply1 (mP P1) q1 v)) (s_meas s) (s_eras s))))%Q.
Proof.
  intros I Hq1 Hq2 F1 S1 L G C.
  set (h := fun j => if j <? 16 then f (apply1 (mP (letter (j mod 4))) q2 (apply1 (mP (letter (j / 4))) q1 v)) (s_meas s) (s_eras s) else 0%Q).
  set (go := fun j => do s1 <- apply_pauli_from_int (tick s) q1 (j / 4); apply_pauli_from_int s1 q2 (j mod 4)).
  apply (good_ext _ _ (fun g => andthen (go (pick (d_unif (g (s_k s))) 0 ((1 - Qsum ps)%Q :: ps) 0)) K g) _
           (mean (draws N) (fun d => h (pick (d_unif d) 0 ((1 - Qsum ps)%Q :: ps) 0)))).
  - apply (good_draw _ _ _ (fun d g => andthen (go (pick (d_unif d) 0 ((1 - Qsum ps)%Q :: ps) 0)) K g)); [|reflexivity].
    intros d. unfold h. pose proof (pick_bound (d_unif d) ((1 - Qsum ps)%Q :: ps) 0 0) as PB. cbn [List.length] in PB. rewrite L in PB.
    set (j := pick (d_unif d) 0 ((1 - Qsum ps)%Q :: ps) 0) in *. unfold go. destruct (Nat.ltb_spec j 16).
    + assert (D4 : j / 4 < 4) by (apply Nat.div_lt_upper_bound; lia).
      destruct (api_run (tick s) q1 (j / 4) v I Hq1 D4) as (s1 & E1 & I1 & K1 & M1 & T1). rewrite E1. cbn [bindR].
      change (S (s_k s)) with (s_k (tick s)). change (s_meas s) with (s_meas (tick s)). change (s_eras s) with (s_eras (tick s)). rewrite <- K1, <- M1, <- T1.
      apply (good_api _ _ _ s1 q2 _ _ I1 Hq2); auto. apply Nat.mod_upper_bound. lia.
    + replace j with 16 by lia. change (16 / 4) with 4. cbn [apply_pauli_from_int andthen bindR]. apply good_zero.
  - intros g. rewrite (choice_pick _ ps) by auto. reflexivity.
  - rewrite (mean_choice N _ h ps) by (auto; reflexivity). rewrite L, sum_16. apply sum_ext. intros P1 _. apply sum_ext. intros P2 _.
    assert (E : h (4 * code P1 + code P2) = f (apply1 (mP P2) q2 (apply1 (mP P1) q1 v)) (s_meas s) (s_eras s)) by (destruct P1, P2; reflexivity).
    rewrite E. reflexivity.
Qed.

Lemma good_erase B K f s q v p : Inv n s v -> q < n -> on_grid N p -> cont B K f ->
  good (s_k s) (S (S B)) (fun g => andthen (let erase := Qltb (d_unif (g (s_k s))) p in
        let s1 := mkSim (s_st s) (s_meas s) (s_eras s ++ [erase]) (s_in s) (s_any s) (s_branch s) (S (s_k s)) in
        if erase then apply_pauli_from_int (tick s1) q (d_int (g (s_k s1)) mod 4) else Ok s1) K g)
   (p * sum_over letters (fun P => (1 # 4) * f (apply1 (mP P) q v) (s_meas s) (s_eras s ++ [true])) + (1 - p) * f v (s_meas s) (s_eras s ++ [false]))%Q.
Proof.
  intros I Hq G C.
  set (s1 := fun e => mkSim (s_st s) (s_meas s) (s_eras s ++ [e]) (s_in s) (s_any s) (s_branch s) (S (s_k s))).
  set (a := sum_over letters (fun P => (1 # 4) * f (apply1 (mP P) q v) (s_meas s) (s_eras s ++ [true]))%Q).
  set (b := f v (s_meas s) (s_eras s ++ [false])).
  eapply good_ext.
  - apply (good_draw _ _ (fun g => andthen (let erase := Qltb (d_unif (g (s_k s))) p in if erase then apply_pauli_from_int (tick (s1 erase)) q (d_int (g (S (s_k s))) mod 4) else Ok (s1 erase)) K g)
            (fun d g => if Qltb (d_unif d) p then andthen (apply_pauli_from_int (tick (s1 true)) q (d_int (g (S (s_k s))) mod 4)) K g else K (s1 false) g)
            (fun d => if Qltb (d_unif d) p then a else b)).
    + intros d. destruct (Qltb (d_unif d) p).
      * eapply good_ext; [apply (good_draw (S (s_k s)) B _ (fun d' g => andthen (apply_pauli_from_int (tick (s1 true)) q (d_int d' mod 4)) K g)
                                   (fun d' => f (apply1 (mP (letter (d_int d' mod 4))) q v) (s_meas s) (s_eras s ++ [true]))); [|reflexivity]|reflexivity|].
        -- intros d'. apply (good_api _ _ _ (tick (s1 true)) q _ v I Hq); auto. apply Nat.mod_upper_bound. lia.
        -- rewrite (mean_mod4 N _ (fun z => f (apply1 (mP (letter z)) q v) (s_meas s) (s_eras s ++ [true]))) by reflexivity. reflexivity.
      * apply (good_more _ B); [|lia]. apply (C (s1 false) v). exact I.
    + intros g. cbv zeta. destruct (Qltb (d_unif (g (s_k s))) p); reflexivity.
  - intros g. reflexivity.
  - apply mean_coin; auto. reflexivity.
Qed.

(** * Gates *)
Definition gate_cost (gt : gate) : nat := List.length (snd gt) + 2.
Definition in_range (gt : gate) : Prop := forall q, In (qa q) (snd gt) -> q < n.
Lemma qubits_qa qs : qubits (map qa qs) = qs.
Proof. induction qs as [|q qs IH]; auto. cbn [map qubits flat_map]. unfold qubits in IH. rewrite IH. unfold qa. rewrite Nat2Z.id. auto. Qed.
Lemma pairs_flat (cts : list (nat * nat)) : pairs (flat_map (fun ct => [fst ct; snd ct]) cts) = cts.
Proof. induction cts as [|[a b] l IH]; auto. cbn [flat_map app fst snd pairs]. rewrite IH. auto. Qed.
Lemma number_args ars ps : Forall2 prob_arg ars ps -> map number ars = ps.
Proof. induction 1 as [|a p ars ps H _ IH]; auto. cbn [map]. rewrite IH. destruct H; auto. Qed.

Definition g0 : rng := fun _ => mkDraw false 0 0.
Lemma g0_unif : unif g0. Proof. intros k. cbn. split; [apply Qle_refl|reflexivity]. Qed.

Lemma mapqa_inj : forall qs qs', map qa qs = map qa qs' -> qs = qs'.
Proof. induction qs as [|q qs IH]; intros [|q' qs'] E; try discriminate; auto. cbn [map] in E. injection E as E1 E2. f_equal; [lia|auto]. Qed.
Lemma flat_inj : forall (cts cts' : list (nat * nat)), flat_map (fun ct => [qa (fst ct); qa (snd ct)]) cts = flat_map (fun ct => [qa (fst ct); qa (snd ct)]) cts' -> cts = cts'.
Proof.
  intros cts cts' E. rewrite !flat_qa in E. apply mapqa_inj in E. apply (f_equal pairs) in E. rewrite !pairs_flat in E. auto.
Qed.
Lemma distinct_valid name args : valid_gate name args -> distinct_gate name args.
Proof.
  intros V H. inversion V as [nm qs Hin|nm cts Hin Hd|a p q Hp|ars ps q Hps Hl Hpos Hsum|ars ps q1 q2 Hps Hl Hpos Hsum]; subst; try (destruct H; discriminate).
  - exfalso. destruct H as [->| ->]; cbn in Hin; intuition discriminate.
  - clear H V Hin. induction Hd as [|[a b] cts Hab Hd IH]; cbn [flat_map app distinct_pairs fst snd] in *; auto. split; auto. intros E. apply qa_inj in E. auto.
Qed.

(** A gate without random numbers. *)
Lemma good_plain B K f s v name args w : Inv n s v -> cont B K f -> valid_gate name args -> (forall q, In (qa q) args -> q < n) ->
  In name ["X"; "Y"; "Z"; "H"; "CX"; "CZ"] ->
  (forall ms es v', qgate n name args v ms es v' -> ms = [] /\ es = [] /\ v' = w) ->
  good (s_k s) B (fun g => andthen (handle_gate g s name args) K g) (f w (s_meas s) (s_eras s)).
Proof.
  intros I C V R Hin Hq. destruct (handle_gate_total g0 n Hn g0_unif s v name args I V R) as (s' & E).
  destruct (handle_gate_sem g0 g0_unif n Hn s name args s' v I (distinct_valid _ _ V) E) as (ms & es & v' & Q & I' & (M' & S' & _)).
  destruct (Hq _ _ _ Q) as (-> & -> & ->). rewrite app_nil_r in M', S'. rewrite <- M', <- S'.
  assert (EK : s_k s' = s_k s).
  { unfold handle_gate in E. cbn [In] in Hin. destruct Hin as [<-|[<-|[<-|[<-|[<-|[<-|[]]]]]]]; cbn [String.eqb Ascii.eqb Bool.eqb] in E;
      (destruct (mapR qubit_of args) as [qs|]; [|discriminate]); cbn [bindR] in E;
      match type of E with (do t <- ?m; _) = _ => destruct m as [t|]; [|discriminate] end; injection E as <-; reflexivity. }
  apply (good_det B K f s s'); auto. intros g. rewrite <- E. unfold handle_gate. cbn [In] in Hin.
  destruct Hin as [<-|[<-|[<-|[<-|[<-|[<-|[]]]]]]]; reflexivity.
Qed.

Ltac qg := let Q := fresh in intros Q; inversion Q; subst;
  try match goal with H : map qa _ = map qa _ |- _ => apply mapqa_inj in H; subst end;
  try match goal with H : flat_map _ _ = flat_map _ _ |- _ => apply flat_inj in H; subst end; auto.
Lemma qg_X qs v ms es v' : qgate n "X" (map qa qs) v ms es v' -> ms = [] /\ es = [] /\ v' = all1 mX qs v. Proof. qg. Qed.
Lemma qg_Y qs v ms es v' : qgate n "Y" (map qa qs) v ms es v' -> ms = [] /\ es = [] /\ v' = all1 mY qs v. Proof. qg. Qed.
Lemma qg_Z qs v ms es v' : qgate n "Z" (map qa qs) v ms es v' -> ms = [] /\ es = [] /\ v' = all1 mZ qs v. Proof. qg. Qed.
Lemma qg_H qs v ms es v' : qgate n "H" (map qa qs) v ms es v' -> ms = [] /\ es = [] /\ v' = all1 mH qs v. Proof. qg. Qed.
Lemma qg_CX cts v ms es v' : qgate n "CX" (flat_map (fun ct => [qa (fst ct); qa (snd ct)]) cts) v ms es v' -> ms = [] /\ es = [] /\ v' = all2 mCX cts v. Proof. qg. Qed.
Lemma qg_CZ cts v ms es v' : qgate n "CZ" (flat_map (fun ct => [qa (fst ct); qa (snd ct)]) cts) v ms es v' -> ms = [] /\ es = [] /\ v' = all2 mCZ cts v. Proof. qg. Qed.

Lemma good_gate_law B K f gt : usable_gate N gt -> in_range gt -> cont B K f ->
  cont (gate_cost gt + B) (fun s g => andthen (handle_gate g s (fst gt) (snd gt)) K g) (mean_gate n gt f).
Proof.
  intros (V & G) R C s v I. destruct gt as [name args]. unfold in_range, gate_cost in *. cbn [fst snd] in *.
  inversion V as [nm qs Hin|nm cts Hin Hd|a p q Hp|ars ps q Hps Hl Hpos Hsum|ars ps q1 q2 Hps Hl Hpos Hsum]; subst.
  - assert (F : Forall (fun q => q < n) qs). { apply Forall_forall. intros q Hq. apply R. apply in_map; auto. }
    rewrite map_length.
    cbn [In] in Hin. destruct Hin as [<- | [<- | [<- | [<- | [<- | [<- | [<- | []]]]]]]]; cbn [mean_gate String.eqb Ascii.eqb Bool.eqb]; rewrite qubits_qa.
    + apply (good_more _ B); [|lia]. apply (good_plain B K f s v); auto; [cbn; tauto|]. apply qg_X.
    + apply (good_more _ B); [|lia]. apply (good_plain B K f s v); auto; [cbn; tauto|]. apply qg_Y.
    + apply (good_more _ B); [|lia]. apply (good_plain B K f s v); auto; [cbn; tauto|]. apply qg_Z.
    + apply (good_more _ B); [|lia]. apply (good_plain B K f s v); auto; [cbn; tauto|]. apply qg_H.
    + apply (good_more _ (List.length qs + B)); [|lia].
      eapply good_ext; [apply (good_M B K f qs F C s v I)| |reflexivity]. intros g. unfold handle_gate. cbn [String.eqb Ascii.eqb Bool.eqb]. rewrite mapR_qa. reflexivity.
    + apply (good_more _ (List.length qs + B)); [|lia].
      eapply good_ext; [apply (good_R B K f qs F C s v I)| |reflexivity]. intros g. unfold handle_gate. cbn [String.eqb Ascii.eqb Bool.eqb]. rewrite mapR_qa. cbn [bindR]. rewrite reset_fold. reflexivity.
    + apply (good_more _ (List.length qs + B)); [|lia].
      eapply good_ext; [apply (good_D B K f qs F C s v I)| |reflexivity]. intros g. unfold handle_gate. cbn [String.eqb Ascii.eqb Bool.eqb]. rewrite mapR_qa. reflexivity.
  - apply (good_more _ B); [|lia]. cbn [In] in Hin. destruct Hin as [<- | [<- | []]]; cbn [mean_gate String.eqb Ascii.eqb Bool.eqb]; (replace (pairs (qubits (flat_map (fun ct => [qa (fst ct); qa (snd ct)]) cts))) with cts by (rewrite flat_qa, qubits_qa, pairs_flat; auto));
      apply (good_plain B K f s v); auto; [cbn; tauto|apply qg_CX|cbn; tauto|apply qg_CZ].
  - cbn [mean_gate String.eqb Ascii.eqb Bool.eqb nth skipn List.length]. cbv zeta. change (qubits [qa q]) with (qubits (map qa [q])). rewrite qubits_qa. cbn [nth].
    assert (Ep : number a = p) by (destruct Hp; auto). rewrite Ep.
    assert (Hq : q < n) by (apply R; cbn; auto).
    assert (Gp : on_grid N p). { unfold chances in G. cbn [fst snd String.eqb Ascii.eqb Bool.eqb firstn map] in G. inversion G; subst; auto. }
    apply (good_more _ (S (S B))); [|lia]. eapply good_ext; [apply (good_erase B K f s q v p I Hq Gp C)| |reflexivity].
    intros g. unfold handle_gate. cbn [String.eqb Ascii.eqb Bool.eqb]. rewrite (prob_of_arg a p), qubit_of_qa by auto. reflexivity.
  - assert (La : List.length ars = 3) by (rewrite (Forall2_len _ _ _ Hps); auto).
    assert (Hq : q < n) by (apply R; apply in_or_app; cbn; auto).
    assert (Gp : Forall (on_grid N) ps). { unfold chances in G. cbn [fst snd String.eqb Ascii.eqb Bool.eqb] in G. rewrite <- La in G. rewrite firstn_app, Nat.sub_diag, firstn_all in G. cbn [firstn] in G. rewrite app_nil_r, (number_args ars ps Hps) in G. auto. }
    cbn [mean_gate String.eqb Ascii.eqb Bool.eqb]. cbv zeta.
    assert (E1 : firstn 3 (ars ++ [qa q]) = ars) by (rewrite <- La, firstn_app, Nat.sub_diag, firstn_all; cbn [firstn]; apply app_nil_r).
    assert (E2 : skipn 3 (ars ++ [qa q]) = [qa q]) by (rewrite <- La, skipn_app, Nat.sub_diag, skipn_all; reflexivity).
    rewrite E1, E2, (number_args ars ps Hps).
    change (qubits [qa q]) with (qubits (map qa [q])). rewrite qubits_qa. cbn [nth].
    apply (good_more _ (S B)); [|lia]. eapply good_ext; [apply (good_P1 B K f s q v ps I Hq Hpos Hsum Hl Gp C)| |reflexivity].
    intros g. destruct ars as [|a1 [|a2 [|a3 [|]]]]; try discriminate. unfold handle_gate. cbn [String.eqb Ascii.eqb Bool.eqb app]. rewrite (mapR_prob _ ps) by auto. cbn [bindR].
    rewrite qubit_of_qa. reflexivity.
  - assert (La : List.length ars = 15) by (rewrite (Forall2_len _ _ _ Hps); auto).
    assert (Hq1 : q1 < n) by (apply R; apply in_or_app; cbn; auto).
    assert (Hq2 : q2 < n) by (apply R; apply in_or_app; cbn; auto).
    assert (Gp : Forall (on_grid N) ps). { unfold chances in G. cbn [fst snd String.eqb Ascii.eqb Bool.eqb] in G. rewrite <- La in G. rewrite firstn_app, Nat.sub_diag, firstn_all in G. cbn [firstn] in G. rewrite app_nil_r, (number_args ars ps Hps) in G. auto. }
    cbn [mean_gate String.eqb Ascii.eqb Bool.eqb]. cbv zeta.
    assert (E1 : firstn 15 (ars ++ [qa q1; qa q2]) = ars) by (rewrite <- La, firstn_app, Nat.sub_diag, firstn_all; cbn [firstn]; apply app_nil_r).
    assert (E2 : skipn 15 (ars ++ [qa q1; qa q2]) = [qa q1; qa q2]) by (rewrite <- La, skipn_app, Nat.sub_diag, skipn_all; reflexivity).
    rewrite E1, E2, (number_args ars ps Hps). change (qubits [qa q1; qa q2]) with (qubits (map qa [q1; q2])). rewrite qubits_qa. cbn [nth].
    apply (good_more _ (S B)); [|lia]. eapply good_ext; [apply (good_P2 B K f s q1 q2 v ps I Hq1 Hq2 Hpos Hsum Hl Gp C)| |reflexivity].
    intros g. unfold handle_gate. cbn [String.eqb Ascii.eqb Bool.eqb]. rewrite E1, E2, (mapR_prob _ ps) by auto. cbn [bindR]. rewrite Hl. cbn [Nat.eqb negb].
    rewrite !qubit_of_qa. cbn [bindR]. reflexivity.
Qed.

(** * Lists of gates, blocks and circuits *)
Definition gates_cost (gs : list gate) : nat := fold_right (fun gt k => gate_cost gt + k) 0 gs.
Lemma good_gates B K f gs : Forall (usable_gate N) gs -> Forall in_range gs -> cont B K f ->
  cont (gates_cost gs + B) (fun s g => andthen (run_plain g gs s) K g) (mean_gates n gs f).
Proof.
  intros U R C. induction U as [|gt gs U1 U IH]; [exact C|]. inversion R; subst. specialize (IH ltac:(auto)).
  intros s v I. eapply good_ext; [|intros g; unfold run_plain; cbn [foldR]; rewrite andthen_bind; reflexivity|reflexivity].
  cbn [gates_cost fold_right mean_gates]. rewrite <- Nat.add_assoc. apply (good_gate_law _ _ _ gt U1 H1 IH s v I).
Qed.

Definition block_cost (bs : list branch) : nat := fold_right (fun b k => 1 + gates_cost (br_gates b) + k) 0 bs.
Lemma first_hit_ext bs : forall u u', (forall i, u i = u' i) -> first_hit u bs = first_hit u' bs.
Proof. induction bs as [|b bs IH]; intros u u' H; auto. cbn [first_hit]. rewrite H. destruct (Qle_bool _ _); auto. rewrite (IH (fun i => u (S i)) (fun i => u' (S i))); auto. Qed.
Lemma good_branches f B bs : Forall (fun b => usable_branch N b /\ Forall in_range (br_gates b)) bs ->
  forall s v Ks K0, Inv n s v -> (forall i, cont B (Ks i) f) -> cont B K0 f ->
  good (s_k s) (block_cost bs + B) (fun g =>
    match first_hit (fun i => d_unif (g (s_k s + i))) bs with
    | Some (i, b) => andthen (run_plain g (br_gates b) (set_flags (skip (S i) s) true true true)) (Ks i) g
    | None => K0 (skip (List.length bs) s) g
    end) (mean_block n bs f v (s_meas s) (s_eras s)).
Proof.
  induction 1 as [|b bs ((P & G) & R) U IH]; intros s v Ks K0 I CK C0.
  - cbn [first_hit List.length block_cost fold_right Nat.add mean_block]. assert (E : skip 0 s = s) by (unfold skip; rewrite Nat.add_0_r; destruct s; auto). rewrite E. apply C0. auto.
  - cbn [block_cost fold_right mean_block].
    set (H := fun (d : draw) (g : rng) => if Qltb (d_unif d) (br_p b) then andthen (run_plain g (br_gates b) (set_flags (tick s) true true true)) (Ks 0) g
       else match first_hit (fun i => d_unif (g (s_k (tick s) + i))) bs with
            | Some (i, b) => andthen (run_plain g (br_gates b) (set_flags (skip (S i) (tick s)) true true true)) (Ks (S i)) g
            | None => K0 (skip (List.length bs) (tick s)) g
            end).
    eapply good_ext; [apply (good_more _ (S (gates_cost (br_gates b) + block_cost bs + B))); [apply (good_draw _ _ _ H (fun d => if Qltb (d_unif d) (br_p b) then mean_gates n (br_gates b) f v (s_meas s) (s_eras s) else mean_block n bs f v (s_meas s) (s_eras s))); [|reflexivity]|fold (block_cost bs); lia]| |].
    + intros d. unfold H. destruct (Qltb (d_unif d) (br_p b)).
      * apply (good_more _ (gates_cost (br_gates b) + B)); [|lia]. apply (good_gates B (Ks 0) f (br_gates b) G R (CK 0) (set_flags (tick s) true true true) v). exact I.
      * apply (good_more _ (block_cost bs + B)); [|lia]. apply (IH (tick s) v (fun i => Ks (S i)) K0); auto.
    + intros g. unfold H. cbn [first_hit]. rewrite Nat.add_0_r. unfold Qltb. destruct (Qle_bool (br_p b) (d_unif (g (s_k s)))); cbn [negb].
      * rewrite (first_hit_ext bs (fun i => d_unif (g (s_k s + S i))) (fun i => d_unif (g (s_k (tick s) + i)))) by (intros i; cbn [tick s_k]; do 2 f_equal; lia).
        destruct (first_hit _ bs) as [[i b']|].
        -- assert (E : skip (S (S i)) s = skip (S i) (tick s)) by (unfold skip, tick; cbn; f_equal; lia). rewrite E. reflexivity.
        -- cbn [List.length]. assert (E : skip (S (List.length bs)) s = skip (List.length bs) (tick s)) by (unfold skip, tick; cbn; f_equal; lia). rewrite E. reflexivity.
      * assert (E : skip 1 s = tick s) by (unfold skip, tick; cbn; f_equal; lia). rewrite E. reflexivity.
    + apply mean_coin; auto. reflexivity.
Qed.

Lemma good_block f B b bs K : Forall (fun b => usable_branch N b /\ Forall in_range (br_gates b)) (b :: bs) -> cont B K f ->
  cont (block_cost (b :: bs) + B) (fun s g => andthen (foldR (run_gate g) (block_text b bs) s) K g) (mean_block n (b :: bs) f).
Proof.
  intros U C s v I.
  eapply good_ext; [apply (good_branches f B (b :: bs) U s v (fun i s1 g => K (set_flags s1 true true (i =? List.length bs)) g) (fun s g => K (set_flags s true false false) g) I)| |reflexivity].
  - intros i s1 v1 I1. exact (C (set_flags s1 true true (i =? List.length bs)) v1 I1).
  - intros s1 v1 I1. exact (C (set_flags s1 true false false) v1 I1).
  - intros g. rewrite block_run. destruct (first_hit _ (b :: bs)) as [[i b']|]; [|reflexivity]. rewrite andthen_bind. reflexivity.
Qed.

Definition item_range (it : item) : Prop := match it with Plain gt => in_range gt | Block b bs => Forall (fun b => Forall in_range (br_gates b)) (b :: bs) end.
Definition item_cost (it : item) : nat := match it with Plain gt => gate_cost gt | Block b bs => block_cost (b :: bs) end.
Definition items_cost (l : list item) : nat := fold_right (fun it k => item_cost it + k) 0 l.
Lemma good_items f B K l : usable N l -> Forall item_range l -> cont B K f ->
  cont (items_cost l + B) (fun s g => andthen (foldR (run_gate g) (text l) s) K g) (expected n l f).
Proof.
  intros U R C. induction U as [|it l U1 U IH]; [exact C|]. inversion R as [|it' l' R1 R2]; subst. specialize (IH R2).
  cbn [items_cost fold_right]. fold (items_cost l). rewrite <- Nat.add_assoc. intros s v I.
  destruct it as [gt|b bs]; cbn [text flat_map expected item_cost item_range] in *.
  - eapply good_ext; [apply (good_gate_law _ _ _ gt U1 R1 IH (set_flags s false (s_any s) (s_branch s)) v I)| |reflexivity].
    intros g. cbn [app foldR]. rewrite andthen_bind. unfold run_gate at 1. destruct U1 as (V & _). rewrite (valid_name_plain _ _ V). reflexivity.
  - eapply good_ext; [apply (good_block _ _ b bs _) with (2 := IH) (3 := I)| |reflexivity].
    + apply Forall_forall. intros x Hx. rewrite Forall_forall in U1, R1. split; auto.
    + intros g. rewrite foldR_app, andthen_bind. reflexivity.
Qed.
End Law.

(** * The number of calls *)
Lemma calls_app c c' : calls (c ++ c') = calls c + calls c'.
Proof. induction c as [|gt c IH]; auto. cbn [app calls fold_right]. fold (calls (c ++ c')). fold (calls c). rewrite IH. lia. Qed.
Lemma calls_conts gs : gates_cost gs <= calls (conts gs).
Proof. induction gs as [|gt gs IH]; auto. cbn [gates_cost fold_right conts map calls snd List.length]. fold (gates_cost gs). fold (conts gs). fold (calls (conts gs)). unfold gate_cost. lia. Qed.
Lemma calls_branch kw b : 1 + gates_cost (br_gates b) <= calls (branch_text kw b).
Proof.
  unfold branch_text, br_gates. cbn [gates_cost fold_right calls snd List.length]. fold (conts (br_rest b)). fold (calls (conts (br_rest b))). fold (gates_cost (br_rest b)).
  pose proof (calls_conts (br_rest b)). unfold gate_cost. lia.
Qed.
Lemma calls_elses bs : block_cost bs <= calls (flat_map (branch_text "ERROR_ELSE") bs).
Proof.
  induction bs as [|b bs IH]; auto. cbn [block_cost fold_right flat_map]. fold (block_cost bs). rewrite calls_app. pose proof (calls_branch "ERROR_ELSE" b). lia.
Qed.
Lemma calls_items l : items_cost l <= calls (text l).
Proof.
  induction l as [|it l IH]; auto. cbn [items_cost fold_right text flat_map]. fold (items_cost l). fold (text l). rewrite calls_app.
  destruct it as [gt|b bs]; cbn [item_cost].
  - cbn [calls fold_right]. unfold gate_cost. lia.
  - unfold block_text. rewrite calls_app. cbn [block_cost fold_right]. fold (block_cost bs). pose proof (calls_branch "ERROR" b). pose proof (calls_elses bs). lia.
Qed.

(** * Qubits *)
Lemma conts_in gs gt : In gt gs -> In ("ERROR_CONTINUE", AStr (fst gt) :: snd gt) (conts gs).
Proof. intros H. apply (in_map (fun gt : gate => ("ERROR_CONTINUE", AStr (fst gt) :: snd gt)) gs gt H). Qed.
Lemma branch_range kw b gt q : In gt (br_gates b) -> In (qa q) (snd gt) -> exists gt', In gt' (branch_text kw b) /\ In (qa q) (snd gt').
Proof.
  intros [<-|H] Hq; unfold branch_text.
  - eexists. split; [left; reflexivity|]. cbn [snd]. right. right. auto.
  - eexists. split; [right; apply conts_in; exact H|]. cbn [snd]. right. auto.
Qed.
Lemma range_items c l : c = text l -> Forall (item_range (number_of_qubits c)) l.
Proof.
  intros E. apply Forall_forall. intros it Hit.
  assert (S : forall gt, In gt (match it with Plain gt => [gt] | Block b bs => block_text b bs end) -> In gt c).
  { intros gt Hgt. rewrite E. unfold text. apply in_flat_map. exists it. auto. }
  destruct it as [gt|b bs]; cbn [item_range].
  - intros q Hq. apply (nq_bound c gt q); auto. apply S. left; auto.
  - apply Forall_forall. intros b' Hb. apply Forall_forall. intros gt Hgt q Hq.
    destruct Hb as [<-|Hb].
    + destruct (branch_range "ERROR" b gt q Hgt Hq) as (gt' & H1 & H2). apply (nq_bound c gt' q); auto. apply S. apply in_or_app. auto.
    + destruct (branch_range "ERROR_ELSE" b' gt q Hgt Hq) as (gt' & H1 & H2). apply (nq_bound c gt' q); auto. apply S. apply in_or_app. right. apply in_flat_map. eauto.
Qed.

(** * Circuits *)
Theorem distribution N items m F s0 : usable N items -> calls (text items) <= m ->
  let c := text items in
  (mean (sequences N m) (fun l => match sim_run (stream (s_k s0) l) c true s0 with Ok s => F (s_meas s) (s_eras s) | Err _ => 0 end) ==
   expected (number_of_qubits c) items (fun _ ms es => F ms es) ket0 [] [])%Q.
Proof.
  intros U L c. set (n := number_of_qubits c). assert (Hn : 0 < n) by apply number_of_qubits_pos.
  assert (C : cont N n 0 (fun s _ => F (s_meas s) (s_eras s)) (fun _ ms es => F ms es)).
  { intros s v _. split; [intros g g' _; reflexivity|]. intros M _. apply Ex_const. }
  destruct (good_items N n Hn _ _ _ items U (range_items c items eq_refl) C (sim_reset c s0) ket0) as (_ & E).
  - split; [|split].
    + apply zero_state_wf.
    + apply zero_state_describes.
    + apply nz_ket0.
  - specialize (E m). rewrite Nat.add_0_r in E. rewrite <- (E (Nat.le_trans _ _ _ (calls_items items) L)). unfold Ex. apply mean_ext. intros l _.
    unfold sim_run, andthen. reflexivity.
Qed.

(** * Every valid circuit is a sequence of gates and blocks *)
Lemma no_text name args s : valid_gate name args -> ~ In (AStr s) args.
Proof.
  assert (NP : forall ars ps, Forall2 prob_arg ars ps -> ~ In (AStr s) ars).
  { induction 1 as [|a p ars ps H _ IH]; [auto|]. intros [E|E]; auto. subst. inversion H. }
  intros V H. inversion V as [nm qs Hin|nm cts Hin Hd|a p q Hp|ars ps q Hps Hl Hpos Hsum|ars ps q1 q2 Hps Hl Hpos Hsum]; subst.
  - apply in_map_iff in H. destruct H as (q & E & _). discriminate.
  - apply in_flat_map in H. destruct H as (ct & _ & [E|[E|[]]]); discriminate.
  - destruct H as [E|[E|[]]]; [subst; inversion Hp|discriminate].
  - apply in_app_or in H. destruct H as [H|[E|[]]]; [apply (NP _ _ Hps H)|discriminate].
  - apply in_app_or in H. destruct H as [H|[E|[E|[]]]]; [apply (NP _ _ Hps H)|discriminate|discriminate].
Qed.
Lemma valid_chances name args : valid_gate name args -> instruction_chances (name, args) = chances (name, args).
Proof.
  intros V. unfold instruction_chances. cbn [snd]. pose proof (no_text name args) as X.
  destruct args as [|[z|q|s] [|[z'|q'|s'] args]]; auto; exfalso.
  - apply (X s' V). cbn. auto.
  - apply (X s V). cbn. auto.
  - apply (X s V). cbn. auto.
  - apply (X s V). cbn. auto.
  - apply (X s V). cbn. auto.
Qed.
Lemma structure N c b : valid_circuit b c -> Forall (fun gt => Forall (on_grid N) (instruction_chances gt)) c ->
  exists gs bs items, c = conts gs ++ flat_map (branch_text "ERROR_ELSE") bs ++ text items /\
    Forall (usable_gate N) gs /\ Forall (usable_branch N) bs /\ usable N items /\ (b = false -> gs = [] /\ bs = []).
Proof.
  induction 1 as [b|b name args c V H IH|b p inner args c V H IH|p inner args c V H IH|inner args c V H IH]; intros G; [|inversion G as [|gt c' G1 G2]; subst; destruct (IH G2) as (gs & bs & items & E & Ug & Ub & Ui & HB)..].
  - exists [], [], []. repeat split; auto; constructor.
  - destruct (HB eq_refl) as (-> & ->). exists [], [], (Plain (name, args) :: items). cbn [conts map flat_map app text] in *. subst c.
    repeat split; auto. constructor; auto. split; auto. rewrite <- valid_chances; auto.
  - unfold instruction_chances in G1. cbn [snd] in G1. inversion G1 as [|p' l' Gp Gl]; subst.
    exists [], [], (Block (mkBranch p (inner, args) gs) bs :: items). split; [|split; [constructor|split; [constructor|split; [|auto]]]].
    + cbn [conts map flat_map app text]. unfold block_text, branch_text at 2. cbn [br_p br_first br_rest fst snd app]. fold (conts gs). fold (text items). rewrite <- app_assoc. reflexivity.
    + constructor; auto. constructor; auto. split; auto. constructor; auto. split; auto.
  - unfold instruction_chances in G1. cbn [snd] in G1. inversion G1 as [|p' l' Gp Gl]; subst.
    exists [], (mkBranch p (inner, args) gs :: bs), items. split; [|split; [constructor|split; [|split; [auto|discriminate]]]].
    + cbn [conts map flat_map app]. unfold branch_text at 2. cbn [br_p br_first br_rest fst snd app]. fold (conts gs). rewrite <- app_assoc. reflexivity.
    + constructor; auto. split; auto. constructor; auto. split; auto.
  - unfold instruction_chances in G1. cbn [snd] in G1.
    exists ((inner, args) :: gs), bs, items. split; [|split; [|split; [auto|split; [auto|discriminate]]]].
    + cbn [conts map app fst snd]. subst c. reflexivity.
    + constructor; auto. split; auto.
Qed.

(** Finitely many rational numbers have a common denominator. *)
Lemma grid_multiple N M p : on_grid N p -> on_grid (M * N) p.
Proof.
  intros (R & a & E). split; auto. exists (Pos.to_nat M * a). rewrite E. unfold Qeq. cbn [Qnum Qden]. rewrite Nat2Z.inj_mul, positive_nat_Z, Pos2Z.inj_mul. ring.
Qed.
Lemma common_grid (l : list Q) : Forall (fun p => 0 <= p <= 1)%Q l -> exists N, Forall (on_grid N) l.
Proof.
  induction 1 as [|p l R _ (N & IH)]; [exists 1%positive; constructor|]. exists (Qden p * N)%positive. constructor.
  - rewrite Pos.mul_comm. apply grid_multiple. split; auto. exists (Z.to_nat (Qnum p)). destruct p as [a b]. cbn [Qnum Qden].
    assert (0 <= a)%Z by (destruct R as (R & _); unfold Qle in R; cbn in R; lia). rewrite Z2Nat.id by auto. reflexivity.
  - eapply Forall_impl; [|exact IH]. intros; apply grid_multiple; auto.
Qed.
