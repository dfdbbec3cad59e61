(** Lemmas: instructions of the circuits made by the generator, and rounds of parity measurements
    on state vectors. *)
Require Import List Bool Arith ZArith QArith Lia String.
From Verif Require Import Base BaseProofs QSpec PauliModel PauliSem PauliProofs PauliAlg TableauProofs MeasureProofs StateSpec GateProofs
  CircuitModel SimSpec SimProofs StateProofs LatticeModel LatticeSpec StabTrack.
Import ListNotations.
Local Open Scope string_scope.
Local Open Scope nat_scope.
Local Open Scope list_scope.

(** The instructions the generator writes. *)
Inductive ins :=
| IR (q : nat) | IHd (q : nat) | IC (p : factor) (a d : nat) | IM (q : nat)
| IPauli (x y z : Q) (q : nat) | IErase (p : Q) (q : nat) | IFlip (p : Q) (q : nat) | IPauli2 (ps : list Q) (a d : nat).
Definition ins_gate (i : ins) : gate :=
  match i with
  | IR q => ("R", [qa q]) | IHd q => ("H", [qa q])
  | IC p a d => (match p with FX => "CX" | _ => "CZ" end, [qa a; qa d])
  | IM q => ("M", [qa q])
  | IPauli x y z q => ("E_PAULI", [AFlt x; AFlt y; AFlt z; qa q])
  | IErase p q => ("E_ERASE", [AFlt p; qa q])
  | IFlip p q => ("ERROR", [AFlt p; AStr "X"; qa q])
  | IPauli2 ps a d => ("E_PAULI2", map AFlt ps ++ [qa a; qa d])
  end.

(** What an instruction may do to a state vector (nothing is said here about two-qubit noise). *)
Definition istep (n : nat) (i : ins) (v : vec) (ms es : list bool) (v' : vec) : Prop :=
  match i with
  | IR q => ms = [] /\ es = [] /\ q < n /\ exists m : bool, outcome n (single n false PZ q) m v /\
      v' = (if m then apply1 mX q (project (single n false PZ q) m v) else project (single n false PZ q) m v)
  | IHd q => ms = [] /\ es = [] /\ v' = apply1 mH q v
  | IC p a d => ms = [] /\ es = [] /\ v' = apply2 (cgate p) a d v
  | IM q => es = [] /\ q < n /\ exists m : bool, ms = [m] /\ outcome n (single n false PZ q) m v /\ v' = project (single n false PZ q) m v
  | IPauli x y z q => ms = [] /\ es = [] /\ exists P, (0 < prob_k [x; y; z] (code P))%Q /\ v' = apply1 (mP P) q v
  | IErase p q => ms = [] /\ exists b : bool, es = [b] /\
      (if b then (0 < p)%Q /\ exists P, v' = apply1 (mP P) q v else (p < 1)%Q /\ v' = v)
  | IFlip p q => ms = [] /\ es = [] /\ ((0 < p)%Q /\ v' = apply1 mX q v \/ (p < 1)%Q /\ v' = v)
  | IPauli2 ps a d => ms = [] /\ es = []
  end.
Inductive irun (n : nat) : list ins -> vec -> list bool -> list bool -> vec -> Prop :=
| ir_nil v : irun n [] v [] [] v
| ir_cons i is v ms es v1 ms' es' v' : istep n i v ms es v1 -> irun n is v1 ms' es' v' -> irun n (i :: is) v (ms ++ ms') (es ++ es') v'.

Lemma irun_inv n i is v ms es v' : irun n (i :: is) v ms es v' ->
  exists m1 e1 v1 m2 e2, istep n i v m1 e1 v1 /\ irun n is v1 m2 e2 v' /\ ms = m1 ++ m2 /\ es = e1 ++ e2.
Proof. intros H. inversion H; subst. repeat eexists; eauto. Qed.
Lemma irun_app n a : forall b v ms es v', irun n (a ++ b) v ms es v' ->
  exists ms1 es1 v1 ms2 es2, irun n a v ms1 es1 v1 /\ irun n b v1 ms2 es2 v' /\ ms = ms1 ++ ms2 /\ es = es1 ++ es2.
Proof.
  induction a as [|i a IH]; intros b v ms es v' H.
  - exists [], [], v, ms, es. repeat split; auto. constructor.
  - cbn in H. apply irun_inv in H. destruct H as (m0 & e0 & v0 & m' & e' & S & H & -> & ->).
    destruct (IH _ _ _ _ _ H) as (m1 & e1 & v2 & m2 & e2 & A & B & -> & ->).
    exists (m0 ++ m1), (e0 ++ e1), v2, m2, e2. rewrite !app_assoc. repeat split; auto. econstructor; eauto.
Qed.
Lemma irun_nil n v ms es v' : irun n [] v ms es v' -> ms = [] /\ es = [] /\ v' = v.
Proof. intros H. inversion H; auto. Qed.
Lemma irun_one n i v ms es v' : irun n [i] v ms es v' -> istep n i v ms es v'.
Proof.
  intros H. apply irun_inv in H. destruct H as (m0 & e0 & v0 & m' & e' & S & H & -> & ->). apply irun_nil in H. destruct H as (-> & -> & ->).
  rewrite !app_nil_r. auto.
Qed.

Lemma qas_inj l l' : map qa l = map qa l' -> l = l'.
Proof.
  revert l'. induction l as [|a l IH]; intros [|b l'] H; try discriminate; auto. injection H as H1 H2.
  apply Nat2Z.inj in H1. f_equal; auto.
Qed.
Lemma qa_one l q : map qa l = [qa q] -> l = [q].
Proof. intros H. apply (qas_inj l [q]). exact H. Qed.
Lemma pairs_one cts a d : flat_map (fun ct => [qa (fst ct); qa (snd ct)]) cts = [qa a; qa d] -> cts = [(a, d)].
Proof.
  destruct cts as [|[x y] [|[x' y'] l]]; try discriminate. cbn. intros H. injection H as H1 H2.
  apply Nat2Z.inj in H1, H2. subst. auto.
Qed.
Lemma prob_flt x p : prob_arg (AFlt x) p -> p = x.
Proof. intros H. inversion H; auto. Qed.

Ltac qfacts := repeat match goal with
  | X : map qa _ = [qa _] |- _ => apply qa_one in X; subst
  | X : [qa _] = map qa _ |- _ => symmetry in X
  | X : flat_map _ _ = [qa _; qa _] |- _ => apply pairs_one in X; subst
  | X : Forall2 prob_arg _ _ |- _ => inversion X; subst; clear X
  | X : prob_arg (AFlt _) _ |- _ => apply prob_flt in X; subst
  | X : qa _ = qa _ |- _ => apply qa_inj in X; subst
  | X : AInt (Z.of_nat _) = AInt (Z.of_nat _) |- _ => apply qa_inj in X; subst
  | X : Z.of_nat _ = Z.of_nat _ |- _ => apply Nat2Z.inj in X; subst
  | X : qmeasure _ (_ :: _) _ _ _ |- _ => inversion X; subst; clear X
  | X : qmeasure _ [] _ _ _ |- _ => inversion X; subst; clear X
  | X : qreset _ (_ :: _) _ _ |- _ => inversion X; subst; clear X
  | X : qreset _ [] _ _ |- _ => inversion X; subst; clear X
  end.
Lemma qgate_name n name args v ms es v' : qgate n name args v ms es v' ->
  In name ["X"; "Y"; "Z"; "H"; "CX"; "CZ"; "M"; "R"; "DEPOLARIZE"; "E_ERASE"; "E_PAULI"; "E_PAULI2"].
Proof. intros H. destruct H; cbn; auto 20. Qed.
Lemma qgate_ins n i v ms es v' : qgate n (fst (ins_gate i)) (snd (ins_gate i)) v ms es v' -> istep n i v ms es v'.
Proof.
  destruct i; intros H; cbn [ins_gate fst snd] in H.
  - inversion H; subst; qfacts. cbn. repeat split; auto. eexists. split; eauto.
  - inversion H; subst; qfacts. cbn. auto.
  - destruct p; inversion H; subst; qfacts; cbn; auto.
  - inversion H; subst; qfacts. cbn. repeat split; auto. eexists. split; eauto.
  - inversion H; subst; qfacts. cbn [istep]. repeat split; auto. exists P. split; auto.
  - inversion H; subst; qfacts; cbn; repeat split; auto; eexists; (split; [reflexivity|]); cbn; eauto.
  - apply qgate_name in H. cbn in H. exfalso. intuition discriminate.
  - inversion H; subst; cbn; auto.
Qed.
Lemma qcirc_cons_inv n name args c v ms es v' : qcirc n ((name, args) :: c) v ms es v' ->
  (exists m1 e1 v1 m2 e2, qgate n name args v m1 e1 v1 /\ qcirc n c v1 m2 e2 v' /\ ms = m1 ++ m2 /\ es = e1 ++ e2) \/
  (exists p inner ar m1 e1 v1 m2 e2, (name = "ERROR" \/ name = "ERROR_ELSE") /\ args = AFlt p :: AStr inner :: ar /\ (0 < p)%Q /\
     qgate n inner ar v m1 e1 v1 /\ qcirc n c v1 m2 e2 v' /\ ms = m1 ++ m2 /\ es = e1 ++ e2) \/
  (exists p inner ar, (name = "ERROR" /\ (p < 1)%Q \/ name = "ERROR_ELSE") /\ args = AFlt p :: AStr inner :: ar /\ qcirc n c v ms es v') \/
  name = "ERROR_CONTINUE".
Proof.
  intros H. inversion H; subst; auto.
  - left. repeat eexists; eauto.
  - right; left. repeat eexists; eauto.
  - right; right; left. repeat eexists; eauto.
Qed.
Lemma ins_name i : fst (ins_gate i) <> "ERROR_CONTINUE" /\ fst (ins_gate i) <> "ERROR_ELSE".
Proof. destruct i; cbn; try (split; discriminate). destruct p; split; discriminate. Qed.
Lemma ins_error i : fst (ins_gate i) = "ERROR" -> exists p q, i = IFlip p q.
Proof. destruct i; cbn; try discriminate; eauto. destruct p; discriminate. Qed.
Lemma qcirc_ins n : forall is v ms es v', qcirc n (map ins_gate is) v ms es v' -> irun n is v ms es v'.
Proof.
  induction is as [|i is IH]; intros v ms es v' H.
  - inversion H; subst. constructor.
  - cbn [map] in H. rewrite (surjective_pairing (ins_gate i)) in H. destruct (ins_name i) as [N1 N2].
    apply qcirc_cons_inv in H. destruct H as [H|[H|[H|H]]]; [| | |tauto].
    + destruct H as (m1 & e1 & v1 & m2 & e2 & A & B & -> & ->). econstructor; eauto using qgate_ins.
    + destruct H as (p & inner & ar & m1 & e1 & v1 & m2 & e2 & E & EA & Hp & A & B & -> & ->).
      destruct E as [E|E]; [|tauto]. destruct (ins_error i E) as (p' & q & ->). cbn in EA. injection EA as <- <- <-.
      econstructor; eauto. inversion A; subst; qfacts. cbn. auto.
    + destruct H as (p & inner & ar & E & EA & B).
      destruct E as [[E Hp]|E]; [|tauto]. destruct (ins_error i E) as (p' & q & ->). cbn in EA. injection EA as <- <- <-.
      change ms with ([] ++ ms). change es with ([] ++ es). econstructor; [|apply IH; eauto]. cbn. auto.
Qed.

(** * One ancilla *)
Ltac conjs := repeat match goal with |- _ /\ _ => split end.
Definition xq : bool * bool := (true, false).
Lemma stab_same_at n f q s v p : f q = p -> stab n f s v -> stab n (fset f q p) s v.
Proof. intros E. apply stab_ext. intros i _. unfold fset. destruct (Nat.eqb_spec i q); subst; auto. Qed.
Lemma fset_fone q p r : forall i, fset (fone q p) q r i = fone q r i.
Proof. intros i. unfold fone, fset. destruct (i =? q); auto. Qed.
Lemma fone_at q p : fone q p q = p.
Proof. unfold fone, fset. rewrite Nat.eqb_refl. auto. Qed.
Lemma fone_off q p i : i <> q -> fone q p i = pid.
Proof. intros H. unfold fone, fset. destruct (Nat.eqb_spec i q); tauto. Qed.

Lemma prep_one n b v ms es v' : nz n v -> irun n [IR b; IHd b] v ms es v' ->
  ms = [] /\ es = [] /\ b < n /\ nz n v' /\ stab n (fone b xq) false v' /\
  (forall f s, f b = pid -> stab n f s v -> stab n f s v').
Proof.
  intros N H. apply irun_inv in H. destruct H as (m1 & e1 & v1 & m2 & e2 & A & B & -> & ->).
  apply irun_one in B. cbn in A, B. destruct A as (-> & -> & Hb & m & Ho & E). destruct B as (-> & -> & ->).
  assert (N1 : nz n v1). { rewrite E. destruct m; [apply (nz_pauli n PX); auto|]; apply Ho. }
  assert (K : forall f s, f b = pid -> stab n f s v -> stab n f s v1).
  { intros f s Hf Hs. apply (stab_measure_keep n f s b m v Hb) in Hs; [|rewrite Hf; auto]. rewrite E. destruct m; auto.
    apply (stab_pauli n f s b PX) in Hs; auto. rewrite Hf in Hs. cbn in Hs. rewrite xorb_false_r in Hs. exact Hs. }
  assert (Z1 : stab n (fone b zq) false v1).
  { assert (Z := stab_measure_new n b m v Hb). rewrite E. destruct m; auto.
    apply (stab_pauli n _ _ b PX) in Z; auto. rewrite fone_at in Z. exact Z. }
  conjs; auto.
  - apply nz_h; auto.
  - apply (stab_h n _ _ b) in Z1; auto. rewrite fone_at in Z1. cbn in Z1. eapply stab_ext; [|exact Z1]. intros i _. apply fset_fone.
  - intros f s Hf Hs. specialize (K f s Hf Hs). apply (stab_h n _ _ b) in K; auto. rewrite Hf in K. cbn in K. rewrite xorb_false_r in K.
    eapply stab_ext; [|exact K]. intros i _. unfold fset. destruct (Nat.eqb_spec i b); subst; auto.
Qed.

(** A measurement error of an ancilla: the instruction, and when it may act. *)
Definition flip_ins (err : option Q) (a : nat) : list ins := match err with Some p => [IFlip p a] | None => [] end.
Definition flip_ok (err : option Q) (b : bool) : Prop :=
  match err with Some p => if b then (0 < p)%Q else (p < 1)%Q | None => b = false end.

Lemma read_one n b err v ms es v' : b < n -> nz n v -> irun n ([IHd b] ++ flip_ins err b ++ [IM b]) v ms es v' ->
  exists m fl, ms = [m] /\ es = [] /\ nz n v' /\ flip_ok err fl /\
    (forall f s, f b = pid -> stab n f s v -> stab n f s v') /\
    (forall f s, f b = xq -> stab n f s v -> stab n (fset f b pid) (xorb s (xorb fl m)) v').
Proof.
  intros Hb N H. cbn [app] in H. apply irun_inv in H. destruct H as (m1 & e1 & v1 & m2 & e2 & A & B & -> & ->).
  apply irun_app in B. destruct B as (m3 & e3 & v2 & m4 & e4 & F & B & -> & ->). apply irun_one in B.
  cbn in A. destruct A as (-> & -> & ->). cbn in B. destruct B as (-> & _ & m & -> & Ho & ->).
  assert (FL : exists fl, m3 = [] /\ e3 = [] /\ flip_ok err fl /\ v2 = if fl then apply1 (mP PX) b (apply1 mH b v) else apply1 mH b v).
  { destruct err as [p|]; cbn [flip_ins] in F.
    - apply irun_one in F. cbn in F. destruct F as (-> & -> & [[Hp ->]|[Hp ->]]); [exists true|exists false]; cbn; auto.
    - apply irun_nil in F. destruct F as (-> & -> & ->). exists false. cbn. auto. }
  destruct FL as (fl & -> & -> & Hfl & E).
  assert (K : forall f s, fst (f b) && snd (f b) = false -> stab n f s v -> stab n (fset f b (snd (f b), fst (f b))) (xorb s (fl && fst (f b))) v2).
  { intros f s Hf Hs. apply (stab_h n f s b) in Hs; auto. rewrite Hf, xorb_false_r in Hs. rewrite E. destruct fl; cbn [andb]; [|rewrite xorb_false_r; auto].
    apply (stab_pauli n _ _ b PX) in Hs; auto. replace (sp _ _) with (fst (f b)) in Hs; auto.
    unfold fset. rewrite Nat.eqb_refl. unfold sp. cbn. destruct (fst (f b)), (snd (f b)); auto. }
  exists m, fl. conjs; auto.
  - apply Ho.
  - intros f s Hf Hs. apply K in Hs; [|rewrite Hf; auto]. rewrite Hf in Hs. cbn in Hs. rewrite andb_false_r, xorb_false_r in Hs.
    apply (stab_measure_keep n _ _ b m) in Hs; auto; [|unfold fset; rewrite Nat.eqb_refl; auto].
    eapply stab_ext; [|exact Hs]. intros i _. unfold fset. destruct (Nat.eqb_spec i b); subst; auto.
  - intros f s Hf Hs. apply K in Hs; [|rewrite Hf; auto]. rewrite Hf in Hs. cbn in Hs. rewrite andb_true_r in Hs.
    apply (stab_measure_keep n _ _ b m) in Hs; auto; [|unfold fset; rewrite Nat.eqb_refl; auto].
    assert (Z := stab_measure_new n b m v2 Hb).
    assert (P := stab_mul n (fset f b zq) (fone b zq) _ _ _ ltac:(intros q _; unfold fone, fset; destruct (q =? b); auto) Hs Z).
    rewrite <- xorb_assoc. eapply stab_ext; [|exact P]. intros i _. cbn beta. unfold fone, fset. destruct (i =? b); auto. apply pxor_pid_r.
Qed.

(** * A round *)
Definition gates_of (G : cgates) : list ins := map (fun g => IC (snd g) (fst (fst g)) (snd (fst g))) G.
Lemma irun_gates n L : forall G v ms es v', good n L G -> nz n v -> irun n (gates_of G) v ms es v' ->
  ms = [] /\ es = [] /\ nz n v' /\ v' = fold_left (fun w g => apply2 (cgate (snd g)) (fst (fst g)) (snd (fst g)) w) G v.
Proof.
  induction G as [|[[c d] p] G IH]; intros v ms es v' HG N H.
  - apply irun_nil in H. destruct H as (-> & -> & ->). auto.
  - cbn in H. apply irun_inv in H. destruct H as (m1 & e1 & v1 & m2 & e2 & A & B & -> & ->). cbn in A. destruct A as (-> & -> & ->).
    destruct (HG c d p (or_introl eq_refl)) as (Hc & Hd & Lc & Ld & Hp).
    assert (Hcd : c <> d) by (intros ->; tauto).
    apply IH in B; [|intros a' d' p' H'; apply HG; right; auto|destruct p; cbn; auto using nz_cx, nz_cz]. destruct B as (-> & -> & N' & ->). auto.
Qed.
Lemma prep_all n : forall L v ms es v', NoDup L -> nz n v -> irun n (flat_map (fun a => [IR a; IHd a]) L) v ms es v' ->
  ms = [] /\ es = [] /\ nz n v' /\ (forall a, In a L -> a < n /\ stab n (fone a xq) false v') /\
  (forall f s, (forall a, In a L -> f a = pid) -> stab n f s v -> stab n f s v').
Proof.
  induction L as [|b L IH]; intros v ms es v' ND N H.
  - apply irun_nil in H. destruct H as (-> & -> & ->). conjs; auto. intros a [].
  - inversion ND; subst. change (flat_map (fun a => [IR a; IHd a]) (b :: L)) with ([IR b; IHd b] ++ flat_map (fun a => [IR a; IHd a]) L) in H.
    apply irun_app in H. destruct H as (m1 & e1 & v1 & m2 & e2 & A & B & -> & ->).
    apply prep_one in A; auto. destruct A as (-> & -> & Hb & N1 & X & K).
    apply IH in B; auto. destruct B as (-> & -> & N2 & X2 & K2). conjs; auto.
    + intros a [<-|Ha]; [|apply X2; auto]. split; auto. apply K2; auto. intros a Ha. apply fone_off. intros ->; tauto.
    + intros f s Hf Hs. apply K2; [intros; apply Hf; right; auto|]. apply K; auto. apply Hf; left; auto.
Qed.

(** The measured value and the flip of each ancilla. *)
Definition read_ok (n : nat) (T : nat -> pfun) (err : nat -> option Q) (v' : vec) (a : nat) (x : bool * bool) : Prop :=
  flip_ok (err a) (snd x) /\ stab n (T a) (xorb (fst x) (snd x)) v'.
Lemma read_all n err T : forall L v ms es v', NoDup L -> (forall a, In a L -> a < n) -> nz n v ->
  (forall a b, In a L -> In b L -> T a b = pid) ->
  (forall a, In a L -> stab n (fset (T a) a xq) false v) ->
  irun n (flat_map (fun a => [IHd a] ++ flip_ins (err a) a ++ [IM a]) L) v ms es v' ->
  es = [] /\ nz n v' /\ (exists xs, ms = map fst xs /\ Forall2 (read_ok n T err v') L xs) /\
  (forall f s, (forall a, In a L -> f a = pid) -> stab n f s v -> stab n f s v').
Proof.
  induction L as [|b L IH]; intros v ms es v' ND HL N HT X H.
  - apply irun_nil in H. destruct H as (-> & -> & ->). conjs; auto. exists []. split; auto.
  - inversion ND; subst. cbn [flat_map] in H. apply irun_app in H. destruct H as (m1 & e1 & v1 & m2 & e2 & A & B & -> & ->).
    apply read_one in A; [|apply HL; left; auto|auto]. destruct A as (m & fl & -> & -> & N1 & Hfl & K & R).
    apply IH in B; auto.
    + destruct B as (-> & N2 & (xs & -> & FX) & K2). conjs; auto.
      * exists ((m, fl) :: xs). split; auto. constructor; auto. split; auto. cbn [fst snd].
        assert (Y := R (fset (T b) b xq) false ltac:(unfold fset; rewrite Nat.eqb_refl; auto) (X b (or_introl eq_refl))).
        rewrite xorb_false_l, xorb_comm in Y. apply K2; [intros a Ha; apply HT; [left|right]; auto|].
        eapply stab_ext; [|exact Y]. intros i _. unfold fset. destruct (Nat.eqb_spec i b); auto. subst. symmetry. apply HT; left; auto.
      * intros f s Hf Hs. apply K2; [intros; apply Hf; right; auto|]. apply K; auto. apply Hf; left; auto.
    + intros; apply HL; right; auto.
    + intros; apply HT; right; auto.
    + intros a Ha. apply K; [|apply X; right; auto]. unfold fset. destruct (Nat.eqb_spec b a); [subst; tauto|]. apply HT; [right|left]; auto.
Qed.

Definition round_ins (err : nat -> option Q) (L : list nat) (G : cgates) : list ins :=
  flat_map (fun a => [IR a; IHd a]) L ++ gates_of G ++ flat_map (fun a => [IHd a] ++ flip_ins (err a) a ++ [IM a]) L.
Lemma sfun_good n L G a b : good n L G -> In b L -> sfun G a b = pid.
Proof. intros HG Hb. apply sfun_none. intros p Hp. apply HG in Hp. tauto. Qed.
Lemma round_lemma n err L G v ms es v' : NoDup L -> good n L G -> NoDup (map fst G) ->
  (forall a0 a, In a0 L -> In a L -> a <> a0 -> cross a0 a [] G = false) -> nz n v ->
  irun n (round_ins err L G) v ms es v' ->
  es = [] /\ nz n v' /\ (exists xs, ms = map fst xs /\ Forall2 (read_ok n (sfun G) err v') L xs) /\
  (forall f s, (forall a, In a L -> f a = pid) -> (forall a, In a L -> par G a f = false) -> stab n f s v -> stab n f s v').
Proof.
  intros ND HG NG HC N H. unfold round_ins in H. apply irun_app in H. destruct H as (m1 & e1 & v1 & m2 & e2 & A & B & -> & ->).
  apply irun_app in B. destruct B as (m3 & e3 & v2 & m4 & e4 & C & B & -> & ->).
  apply prep_all in A; auto. destruct A as (-> & -> & N1 & X1 & K1).
  apply (irun_gates n L) in C; auto. destruct C as (-> & -> & N2 & E).
  apply (read_all n err (sfun G)) in B; auto.
  - destruct B as (-> & N3 & XS & K3). conjs; auto.
    intros f s Hf Hp Hs. apply K3; auto. destruct (evol_data n L G HG f) as (D1 & D2 & D3). { intros a Ha; rewrite Hf; auto. }
    rewrite E. eapply stab_ext; [|apply D3, K1, Hs; auto]. intros q _. destruct (in_dec Nat.eq_dec q L) as [I|I].
    + rewrite D2, Hp, Hf by auto. auto.
    + apply D1; auto.
  - intros a Ha. apply X1; auto.
  - intros a b _ Hb. eapply sfun_good; eauto.
  - intros a Ha. destruct (X1 a Ha) as [La Xa]. destruct (evol_anc n L a Ha G [] (fone a xq) HG) as (D1 & D2 & D3); auto.
    + rewrite fone_at; auto.
    + intros b _ Hb. rewrite fone_off by auto. auto.
    + intros d Hd. apply fone_off. intros ->; tauto.
    + rewrite E. eapply stab_ext; [|apply D3, Xa]. intros q _. unfold fset. destruct (in_dec Nat.eq_dec q L) as [I|I].
      * rewrite D1 by auto. destruct (Nat.eqb_spec q a); [subst; apply fone_at|]. rewrite fone_off by auto. rewrite HC by auto.
        symmetry. eapply sfun_good; eauto.
      * rewrite D2 by auto. destruct (Nat.eqb_spec q a); [subst; tauto|]. apply pxor_pid_r.
Qed.
