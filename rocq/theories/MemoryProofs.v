(** Lemmas: rounds of parity measurements and noise, one after another. *)
Require Import List Bool Arith ZArith QArith Lia String.
From Verif Require Import Base BaseProofs QSpec PauliModel PauliSem PauliProofs PauliAlg TableauProofs MeasureProofs StateSpec GateProofs
  CircuitModel SimSpec SimProofs StateProofs LatticeModel LatticeSpec StabTrack RoundProofs.
Import ListNotations.
Local Open Scope nat_scope.
Local Open Scope list_scope.

(** * Commutation on the data qubits *)
Lemma anti_cons d D f g : anti (d :: D) f g = xorb (sp (f d) (g d)) (anti D f g).
Proof. reflexivity. Qed.
Lemma sp_xor_r p q r : sp p (pxor q r) = xorb (sp p q) (sp p r).
Proof. destruct p as [[] []], q as [[] []], r as [[] []]; reflexivity. Qed.
Lemma sp_comm p q : sp p q = sp q p.
Proof. destruct p as [[] []], q as [[] []]; reflexivity. Qed.
Lemma anti_comm D f g : anti D f g = anti D g f.
Proof. induction D as [|d D IH]; auto. rewrite !anti_cons, IH, sp_comm. auto. Qed.
Lemma anti_ext D f f' g g' : (forall d, In d D -> f d = f' d) -> (forall d, In d D -> g d = g' d) -> anti D f g = anti D f' g'.
Proof.
  intros F G. induction D as [|d D IH]; auto. rewrite !anti_cons. rewrite F, G by (left; auto). f_equal. apply IH; intros; [apply F|apply G]; right; auto.
Qed.
Lemma anti_xor_r D f g h : anti D f (fun q => pxor (g q) (h q)) = xorb (anti D f g) (anti D f h).
Proof.
  induction D as [|d D IH]; auto. rewrite !anti_cons, IH, sp_xor_r.
  destruct (sp (f d) (g d)), (sp (f d) (h d)), (anti D f g), (anti D f h); auto.
Qed.
Lemma anti_pid D f : anti D f (fun _ => pid) = false.
Proof. induction D as [|d D IH]; auto. rewrite anti_cons, IH, sp_pid_r. auto. Qed.
Lemma anti_one D f d p : NoDup D -> In d D -> anti D f (fun q => if d =? q then p else pid) = sp (f d) p.
Proof.
  induction 1 as [|x D HN ND IH]; intros H; [destruct H|]. rewrite anti_cons. destruct (Nat.eqb_spec d x) as [->|N].
  - assert (E : anti D f (fun q => if x =? q then p else pid) = anti D f (fun _ => pid)).
    { apply anti_ext; auto. intros q Hq. destruct (Nat.eqb_spec x q); auto. subst; tauto. }
    rewrite E, anti_pid, xorb_false_r. auto.
  - destruct H as [H|H]; [congruence|]. rewrite sp_pid_r, (IH H), xorb_false_l. auto.
Qed.
Lemma par_anti D G a f : NoDup D -> (forall c d p, In (c, d, p) G -> In d D) -> par G a f = anti D f (sfun G a).
Proof.
  intros ND. induction G as [|[[c d] p] G IH]; intros HG.
  - cbn [par map fold_right]. symmetry. apply anti_pid.
  - cbn [par map fold_right fst snd]. fold (par G a f). rewrite IH by (intros; eapply HG; right; eauto).
    transitivity (xorb (anti D f (fun q => if (c =? a) && (d =? q) then fbits p else pid)) (anti D f (sfun G a))); [|symmetry; apply anti_xor_r].
    f_equal. destruct (c =? a); cbn [andb]; [symmetry; apply anti_one; auto; eapply HG; left; eauto|symmetry; apply anti_pid].
Qed.

(** * Blocks of instructions which measure operators on the data qubits [D] *)
Definition data_only (D : list nat) (f : pfun) : Prop := forall q, ~ In q D -> f q = pid.
Definition measures (n : nat) (D : list nat) (err : nat -> option Q) (L : list nat) (T : nat -> pfun) (is : list ins) : Prop :=
  forall v ms es v', nz n v -> irun n is v ms es v' ->
  es = [] /\ nz n v' /\ (exists xs, ms = map fst xs /\ Forall2 (read_ok n T err v') L xs) /\
  (forall f s, data_only D f -> (forall a, In a L -> anti D f (T a) = false) -> stab n f s v -> stab n f s v').

Lemma measures_round n D err L G : NoDup D -> NoDup L -> good n L G -> (forall c d p, In (c, d, p) G -> In d D) ->
  (forall a, In a L -> ~ In a D) -> NoDup (map fst G) ->
  (forall a0 a, In a0 L -> In a L -> a <> a0 -> cross a0 a [] G = false) ->
  measures n D err L (sfun G) (round_ins err L G).
Proof.
  intros ND NL HG HD HL NG HC v ms es v' N H.
  destruct (round_lemma n err L G v ms es v' NL HG NG HC N H) as (-> & N' & X & K). conjs; auto.
  intros f s Hf Ha. apply K; [intros a I; apply Hf; auto|]. intros a I. rewrite (par_anti D); auto.
Qed.
Lemma measures_ext n D err L T T' is : (forall a q, In a L -> q < n -> T a q = T' a q) -> (forall a, In a L -> forall q, In q D -> T a q = T' a q) ->
  measures n D err L T is -> measures n D err L T' is.
Proof.
  intros E E' H v ms es v' N R. destruct (H v ms es v' N R) as (-> & N' & (xs & -> & X) & K). conjs; auto.
  - exists xs. split; auto.
    assert (E2 : forall a, In a L -> forall q, q < n -> T a q = T' a q) by (intros; apply E; auto).
    clear - X E2. induction X as [|a x L xs [Hf Hs] X IH]; constructor.
    + split; auto. eapply stab_ext; [|exact Hs]. intros q Hq. apply E2; [left|]; auto.
    + apply IH. intros; apply E2; [right|]; auto.
  - intros f s Hf Ha. apply K; auto. intros a I. rewrite <- (Ha a I). apply anti_ext; auto.
Qed.
Lemma measures_seq n D err T blk : forall L, (forall a, In a L -> measures n D err [a] T (blk a)) ->
  (forall a, In a L -> data_only D (T a)) -> (forall a b, In a L -> In b L -> anti D (T a) (T b) = false) ->
  measures n D err L T (flat_map blk L).
Proof.
  induction L as [|b L IH]; intros HB HT HC v ms es v' N H.
  - apply irun_nil in H. destruct H as (-> & -> & ->). conjs; auto. exists []. split; auto.
  - cbn [flat_map] in H. apply irun_app in H. destruct H as (m1 & e1 & v1 & m2 & e2 & A & B & -> & ->).
    apply (HB b (or_introl eq_refl)) in A; auto. destruct A as (-> & N1 & (x1 & -> & X1) & K1).
    apply IH in B; auto; try (intros; apply HB + apply HT + apply HC; try (right; auto); auto).
    destruct B as (-> & N2 & (x2 & -> & X2) & K2). conjs; auto.
    + exists (x1 ++ x2). rewrite map_app. split; auto.
      inversion X1 as [|? y ? ? Y X0]; subst. inversion X0; subst. cbn [app]. constructor; auto. destruct Y as [Y1 Y2]. split; auto.
      apply K2; auto; [apply HT; left; auto|]. intros a Ha. apply HC; [left|right]; auto.
    + intros f s Hf Ha Hs. apply K2; auto. { intros a I. apply Ha. right; auto. } apply K1; auto.
      intros a [<-|[]]. apply Ha. left; auto.
Qed.

Lemma flat_map_ext_in' {A B} (f g : A -> list B) l : (forall x, In x l -> f x = g x) -> flat_map f l = flat_map g l.
Proof. intros H. induction l as [|x l IH]; cbn; auto. rewrite H by (left; auto). f_equal. apply IH. intros; apply H; right; auto. Qed.
(** * Noise on the data qubits *)
Definition pauli_ins (pp : option (Q * Q * Q)) (q : nat) : list ins := match pp with Some (x, y, z) => [IPauli x y z q] | None => [] end.
Definition erase_ins (pe : option Q) (q : nat) : list ins := match pe with Some p => [IErase p q] | None => [] end.
(** The factor [E] and the erasure flags that may result on one qubit. *)
Definition noise_ok (pp : option (Q * Q * Q)) (pe : option Q) (E : bool * bool) (fl : list bool) : Prop :=
  exists P R, E = pxor (pbits P) (pbits R) /\
    match pp with Some (x, y, z) => (0 < prob_k [x; y; z] (code P))%Q | None => P = PI end /\
    match pe with Some p => exists b : bool, fl = [b] /\ (if b then (0 < p)%Q else (p < 1)%Q /\ R = PI) | None => R = PI /\ fl = [] end.
Lemma stab_pauli' n f s q P v : q < n -> nz n v -> stab n f s v -> stab n f (xorb s (sp (f q) (pbits P))) (apply1 (mP P) q v).
Proof. intros. apply stab_pauli; auto. Qed.
Lemma noise_one n pp pe q v ms es v' : q < n -> nz n v -> irun n (pauli_ins pp q ++ erase_ins pe q) v ms es v' ->
  exists E, ms = [] /\ nz n v' /\ noise_ok pp pe E es /\ (forall f s, stab n f s v -> stab n f (xorb s (sp (f q) E)) v').
Proof.
  intros Hq N H. apply irun_app in H. destruct H as (m1 & e1 & v1 & m2 & e2 & A & B & -> & ->).
  assert (P1 : exists P, m1 = [] /\ e1 = [] /\ nz n v1 /\ match pp with Some (x, y, z) => (0 < prob_k [x; y; z] (code P))%Q | None => P = PI end /\
             (forall f s, stab n f s v -> stab n f (xorb s (sp (f q) (pbits P))) v1)).
  { destruct pp as [[[x y] z]|]; cbn [pauli_ins] in A.
    - apply irun_one in A. cbn [istep] in A. destruct A as (-> & -> & P & Hp & ->). exists P. conjs; auto using nz_pauli, stab_pauli.
    - apply irun_nil in A. destruct A as (-> & -> & ->). exists PI. conjs; auto. intros f s Hs. cbn [pbits].
      change (pbits PI) with pid. rewrite sp_pid_r, xorb_false_r. auto. }
  destruct P1 as (P & -> & -> & N1 & HP & K1).
  assert (P2 : exists R, m2 = [] /\ nz n v' /\ match pe with Some p => exists b : bool, e2 = [b] /\ (if b then (0 < p)%Q else (p < 1)%Q /\ R = PI) | None => R = PI /\ e2 = [] end /\
             (forall f s, stab n f s v1 -> stab n f (xorb s (sp (f q) (pbits R))) v')).
  { destruct pe as [p|]; cbn [erase_ins] in B.
    - apply irun_one in B. cbn [istep] in B. destruct B as (-> & b & -> & X). destruct b.
      + destruct X as (Hp & R & ->). exists R. conjs; auto using nz_pauli, stab_pauli. exists true. auto.
      + destruct X as (Hp & ->). exists PI. conjs; auto. exists false. auto. intros f s Hs. change (pbits PI) with pid. rewrite sp_pid_r, xorb_false_r. auto.
    - apply irun_nil in B. destruct B as (-> & -> & ->). exists PI. conjs; auto. intros f s Hs. change (pbits PI) with pid. rewrite sp_pid_r, xorb_false_r. auto. }
  destruct P2 as (R & -> & N2 & HR & K2).
  exists (pxor (pbits P) (pbits R)). conjs; auto.
  - exists P, R. cbn [app]. auto.
  - intros f s Hs. apply K1, K2 in Hs. rewrite sp_xor_r, <- xorb_assoc. auto.
Qed.
Definition noise_ins (pp : nat -> option (Q * Q * Q)) (pe : nat -> option Q) (D : list nat) : list ins :=
  flat_map (fun q => pauli_ins (pp q) q ++ erase_ins (pe q) q) D.
Lemma noise_all n pp pe : forall D v ms es v', NoDup D -> (forall q, In q D -> q < n) -> nz n v -> irun n (noise_ins pp pe D) v ms es v' ->
  exists E fls, ms = [] /\ nz n v' /\ data_only D E /\ es = flat_map fls D /\ (forall q, In q D -> noise_ok (pp q) (pe q) (E q) (fls q)) /\
    (forall f s, stab n f s v -> stab n f (xorb s (anti D f E)) v').
Proof.
  induction D as [|d D IH]; intros v ms es v' ND HD N H.
  - apply irun_nil in H. destruct H as (-> & -> & ->). exists (fun _ => pid), (fun _ => []). conjs; auto.
    + intros q _. auto.
    + intros q [].
    + intros f s Hs. rewrite anti_pid, xorb_false_r. auto.
  - inversion ND; subst. cbn [noise_ins flat_map] in H. fold (noise_ins pp pe D) in H.
    apply irun_app in H. destruct H as (m1 & e1 & v1 & m2 & e2 & A & B & -> & ->).
    apply noise_one in A; auto; [|apply HD; left; auto]. destruct A as (Ed & -> & N1 & OK & K1).
    apply IH in B; auto; [|intros; apply HD; right; auto]. destruct B as (E & fls & -> & N2 & DO & -> & OKs & K2).
    exists (fset E d Ed), (fun q => if q =? d then e1 else fls q). conjs; auto.
    + intros q Hq. unfold fset. destruct (Nat.eqb_spec q d); [subst; exfalso; apply Hq; left; auto|]. apply DO. intros I; apply Hq; right; auto.
    + cbn [flat_map]. rewrite Nat.eqb_refl. f_equal. apply flat_map_ext_in'. intros q Hq. destruct (Nat.eqb_spec q d); auto. subst; tauto.
    + intros q [<-|Hq]; unfold fset; [rewrite Nat.eqb_refl; auto|]. destruct (Nat.eqb_spec q d); [subst; tauto|]. auto.
    + intros f s Hs. apply K1, K2 in Hs. rewrite anti_cons. unfold fset at 1. rewrite Nat.eqb_refl.
      rewrite (anti_ext D f f (fset E d Ed) E); auto. { rewrite <- xorb_assoc. auto. }
      intros q Hq. unfold fset. destruct (Nat.eqb_spec q d); auto. subst; tauto.
Qed.

(** * Rounds one after another *)
Definition val (x : bool * bool) : bool := xorb (fst x) (snd x).
Definition bb0 : bool * bool := (false, false).
(** The values and flips of consecutive rounds, with the data errors between them. *)
Fixpoint steps (D : list nat) (T : nat -> pfun) (L : list nat) (x0 : list (bool * bool)) (X : list (list (bool * bool))) (Es : list pfun) : Prop :=
  match X, Es with
  | x :: X', E :: Es' => (forall s, s < List.length L -> val (nth s x bb0) = xorb (val (nth s x0 bb0)) (anti D (T (nth s L 0)) E)) /\ steps D T L x X' Es'
  | [], [] => True
  | _, _ => False
  end.
Definition total (D : list nat) (f : pfun) (Es : list pfun) : bool := fold_right xorb false (map (anti D f) Es).
Definition none : nat -> option Q := fun _ => None.

Lemma Forall2_len' {A B} (P : A -> B -> Prop) l m : Forall2 P l m -> List.length l = List.length m.
Proof. induction 1; cbn; auto. Qed.
Lemma Forall2_nth_in {A B} (P : A -> B -> Prop) l m a b k : Forall2 P l m -> k < List.length l -> P (nth k l a) (nth k m b).
Proof. intros H. revert k. induction H; intros [|k] Hk; cbn in *; try lia; auto. apply IHForall2. lia. Qed.
Lemma Forall2_nth_intro {A B} (P : A -> B -> Prop) (a : A) (b : B) : forall l m, List.length l = List.length m ->
  (forall k, k < List.length l -> P (nth k l a) (nth k m b)) -> Forall2 P l m.
Proof.
  induction l as [|x l IH]; intros [|y m] E H; try discriminate; constructor.
  - apply (H 0). cbn. lia.
  - apply IH. cbn in E. lia. intros k Hk. apply (H (S k)). cbn. lia.
Qed.
Lemma Forall2_impl_in {A B} (P Q : A -> B -> Prop) l m : Forall2 P l m -> (forall a b, In a l -> P a b -> Q a b) -> Forall2 Q l m.
Proof. induction 1; intros I; constructor. apply I; auto; left; auto. apply IHForall2. intros; apply I; auto; right; auto. Qed.

Lemma rounds_chain n D pp pe err L (T : nat -> pfun) Ls (TL : nat -> pfun) M : NoDup D -> (forall q, In q D -> q < n) ->
  (forall b : bool, measures n D (if b then err else none) L T (M b)) ->
  (forall a, In a L -> data_only D (T a)) -> (forall a, In a Ls -> data_only D (TL a)) ->
  (forall a b, In a L -> In b L -> anti D (T a) (T b) = false) -> (forall a b, In a Ls -> In b L -> anti D (TL a) (T b) = false) ->
  forall bs v ms es v' x0 mL, nz n v ->
  Forall2 (fun a x => stab n (T a) (val x) v) L x0 -> Forall2 (fun a m => stab n (TL a) m v) Ls mL ->
  irun n (flat_map (fun b => noise_ins pp pe D ++ M b) bs) v ms es v' ->
  exists X Es flss,
    ms = flat_map (map fst) X /\ List.length X = List.length bs /\ List.length Es = List.length bs /\ List.length flss = List.length bs /\
    es = flat_map (fun fls => flat_map fls D) flss /\
    Forall2 (fun E fls => data_only D E /\ forall q, In q D -> noise_ok (pp q) (pe q) (E q) (fls q)) Es flss /\
    Forall2 (fun (b : bool) x => Forall2 (fun a y => flip_ok (if b then err a else None) (snd y)) L x) bs X /\
    steps D T L x0 X Es /\ nz n v' /\
    Forall2 (fun a x => stab n (T a) (val x) v') L (last X x0) /\
    Forall2 (fun a m => stab n (TL a) (xorb m (total D (TL a) Es)) v') Ls mL.
Proof.
  intros ND HD HM DT DTL CT CTL. induction bs as [|b bs IH]; intros v ms es v' x0 mL N F0 FL H.
  - apply irun_nil in H. destruct H as (-> & -> & ->). exists [], [], []. cbn. conjs; auto.
    eapply Forall2_impl_in; [apply FL|]. intros a m _ Hs. cbn beta. rewrite xorb_false_r. auto.
  - cbn [flat_map] in H. apply irun_app in H. destruct H as (m1 & e1 & v1 & m2 & e2 & A & B & -> & ->).
    apply irun_app in A. destruct A as (m3 & e3 & v2 & m4 & e4 & A & C & -> & ->).
    apply noise_all in A; auto. destruct A as (E & fls & -> & N2 & DO & -> & OK & K).
    apply (HM b) in C; auto. destruct C as (-> & N1 & (x & -> & FX) & K2).
    assert (FX' : Forall2 (fun a y => stab n (T a) (val y) v1) L x) by (eapply Forall2_impl_in; [apply FX|]; intros a y _ [_ Hs]; exact Hs).
    assert (FL' : Forall2 (fun a m => stab n (TL a) m v1) Ls (map (fun am => xorb (snd am) (anti D (TL (fst am)) E)) (combine Ls mL))).
    { clear - FL K K2 DTL CTL DO. 
      assert (K' : forall a s, In a Ls -> stab n (TL a) s v -> stab n (TL a) (xorb s (anti D (TL a) E)) v1) by (intros; apply K2; auto).
      clear - FL K'. induction FL as [|a m Ls mL Hs FL IH]; cbn; constructor; [apply K'; [left|]; auto|]. apply IH. intros; apply K'; auto. right; auto. }
    apply (IH _ _ _ _ x _ N1 FX' FL') in B.
    destruct B as (X & Es & flss & -> & LX & LE & LF & -> & FN & FF & ST & N' & FT & FLL).
    exists (x :: X), (E :: Es), (fls :: flss). cbn [flat_map List.length]. rewrite LX, LE, LF. cbn [app]. rewrite app_nil_r.
    conjs; auto.
    + constructor; auto. eapply Forall2_impl_in; [apply FX|]. intros a y _ [Hf _]. destruct b; exact Hf.
    + cbn [steps]. split; auto. intros s Hs.
      assert (S0 := Forall2_nth_in _ _ _ 0 bb0 s F0 Hs). assert (S1 := Forall2_nth_in _ _ _ 0 bb0 s FX' Hs). cbn beta in S0, S1.
      assert (I : In (nth s L 0) L) by (apply nth_In; auto).
      apply (stab_unique n (T (nth s L 0)) _ _ v1); auto.
    + destruct X as [|x' X]; cbn [last] in *; auto. cbn [last] in FT. destruct X; auto. 
      replace (last (l :: X) x0) with (last (l :: X) x); auto. clear. revert l. induction X; intros; auto. cbn [last]. apply IHX.
    + assert (LL := Forall2_len' _ _ _ FL). clear - FLL LL. revert mL FLL LL. induction Ls as [|a Ls IHL]; intros [|m mL] F LL; try discriminate; cbn in F; inversion F; subst; constructor; auto.
      cbn [fst snd] in *. cbn [total map fold_right]. fold (total D (TL a) Es). rewrite <- xorb_assoc. auto.
Qed.

(** * The whole experiment *)
Definition par_bits (l : list bool) : bool := fold_right xorb false l.
(** A block of instructions which reads the operators [Ls], the value of an operator being the
    parity of a number of measured bits. *)
Definition reads (n : nat) (Ls : list nat) (TL : nat -> pfun) (w : nat -> nat) (is : list ins) : Prop :=
  forall v ms es v', nz n v -> irun n is v ms es v' ->
  es = [] /\ nz n v' /\
  (exists B, ms = List.concat B /\ Forall2 (fun a blk => List.length blk = w a /\ stab n (TL a) (par_bits blk) v') Ls B) /\
  (forall a m, In a Ls -> stab n (TL a) m v -> stab n (TL a) m v').
Lemma reads_measures n D Ls TL is : (forall a, In a Ls -> data_only D (TL a)) -> (forall a b, In a Ls -> In b Ls -> anti D (TL a) (TL b) = false) ->
  measures n D none Ls TL is -> reads n Ls TL (fun _ => 1) is.
Proof.
  intros DO CO H v ms es v' N R. destruct (H v ms es v' N R) as (-> & N' & (xs & -> & F) & K). conjs; auto.
  exists (map (fun x => [fst x]) xs). split.
  - clear. induction xs; cbn; congruence.
  - clear - F. induction F as [|a x L xs [Hf Hs] F IH]; cbn; constructor; auto. split; auto. cbn. rewrite xorb_false_r.
    cbn in Hf. rewrite Hf, xorb_false_r in Hs. auto.
Qed.
(** Operators with factors I and Z only, measured on their qubits. *)
Definition zfun (l : list nat) : pfun := fun q => fold_right pxor pid (map (fun d => if d =? q then zq else pid) l).
Lemma zfun_fst l q : fst (zfun l q) = false.
Proof. induction l as [|d l IH]; auto. cbn [zfun map fold_right pxor fst]. fold (zfun l q). unfold pxor. cbn [fst]. rewrite IH. destruct (d =? q); auto. Qed.
Lemma zfun_none l q : ~ In q l -> zfun l q = pid.
Proof.
  induction l as [|d l IH]; intros H; auto. cbn [zfun map fold_right]. fold (zfun l q). rewrite IH by (intros I; apply H; right; auto).
  destruct (Nat.eqb_spec d q); auto. subst. exfalso. apply H. left; auto.
Qed.
Lemma zmeasure n : forall l v ms es v', NoDup l -> nz n v -> irun n (map IM l) v ms es v' ->
  es = [] /\ nz n v' /\ List.length ms = List.length l /\ stab n (zfun l) (par_bits ms) v' /\
  (forall f s, (forall q, fst (f q) = false) -> stab n f s v -> stab n f s v').
Proof.
  induction l as [|d l IH]; intros v ms es v' ND N H.
  - apply irun_nil in H. destruct H as (-> & -> & ->). conjs; auto.
    unfold stab, stabilises, prow. replace (map (zfun []) (seq 0 n)) with (repeat pid n).
    + eapply veq_trans; [apply papply_id|]. intros b Hb. unfold vscale. cbn. ring.
    + clear. generalize 0. induction n as [|k IHk]; intros x; cbn; auto. f_equal. apply IHk.
  - inversion ND; subst. cbn [map] in H. apply irun_inv in H. destruct H as (m1 & e1 & v1 & m2 & e2 & A & B & -> & ->).
    cbn in A. destruct A as (-> & Hd & m & -> & Ho & ->).
    apply IH in B; auto; [|apply Ho]. destruct B as (-> & N2 & LM & Z & K). conjs; auto.
    + cbn. rewrite LM. auto.
    + assert (Z0 := stab_measure_new n d m v Hd). apply K in Z0; [|intros q; unfold fone, fset; destruct (q =? d); auto].
      assert (P := stab_mul n (fone d zq) (zfun l) _ _ _ ltac:(intros q _; unfold fone, fset; destruct (Nat.eqb_spec q d); subst; auto using zfun_none) Z0 Z).
      cbn [app par_bits fold_right]. eapply stab_ext; [|exact P]. intros q _. cbn [zfun map fold_right]. fold (zfun l q).
      unfold fone, fset. rewrite (Nat.eqb_sym d q). auto.
    + intros f s Hf Hs. apply K; auto. apply stab_measure_keep; auto.
Qed.
Lemma reads_zmeasure n Ls TL (sup : nat -> list nat) : (forall a, In a Ls -> NoDup (sup a)) -> (forall a q, In a Ls -> q < n -> TL a q = zfun (sup a) q) ->
  reads n Ls TL (fun a => List.length (sup a)) (flat_map (fun a => map IM (sup a)) Ls).
Proof.
  intros ND HT.
  assert (H : forall Ks, (forall a, In a Ks -> In a Ls) -> forall v ms es v', nz n v -> irun n (flat_map (fun a => map IM (sup a)) Ks) v ms es v' ->
     es = [] /\ nz n v' /\ (exists B, ms = List.concat B /\ Forall2 (fun a blk => List.length blk = List.length (sup a) /\ stab n (zfun (sup a)) (par_bits blk) v') Ks B) /\
     (forall f s, (forall q, fst (f q) = false) -> stab n f s v -> stab n f s v')).
  { induction Ks as [|a Ks IH]; intros HK v ms es v' N R.
    - apply irun_nil in R. destruct R as (-> & -> & ->). conjs; auto. exists []. split; auto.
    - cbn [flat_map] in R. apply irun_app in R. destruct R as (m1 & e1 & v1 & m2 & e2 & A & B & -> & ->).
      apply zmeasure in A; auto; [|apply ND, HK; left; auto]. destruct A as (-> & N1 & L1 & Z1 & K1).
      apply IH in B; auto; [|intros; apply HK; right; auto]. destruct B as (-> & N2 & (B & -> & F) & K2). conjs; auto.
      exists (m1 :: B). split; auto. constructor; auto. split; auto. apply K2; auto using zfun_fst. }
  intros v ms es v' N R. destruct (H Ls (fun _ x => x) v ms es v' N R) as (-> & N' & (B & -> & F) & K). conjs; auto.
  - exists B. split; auto. eapply Forall2_impl_in; [apply F|]. intros a blk Ha [Hl Hs]. split; auto. eapply stab_ext; [|exact Hs]. intros q Hq. symmetry. auto.
  - intros a m Ha Hs. eapply stab_ext; [|apply (K (zfun (sup a)) m)]; [intros q Hq; symmetry; auto|apply zfun_fst|].
    eapply stab_ext; [|exact Hs]. intros q Hq. auto.
Qed.

Lemma memory_lemma n D pp pe err L (T : nat -> pfun) Ls (TL : nat -> pfun) w M ML r : NoDup D -> (forall q, In q D -> q < n) ->
  (forall b : bool, measures n D (if b then err else none) L T (M b)) -> reads n Ls TL w ML ->
  (forall a, In a L -> data_only D (T a)) -> (forall a, In a Ls -> data_only D (TL a)) ->
  (forall a b, In a L -> In b L -> anti D (T a) (T b) = false) -> (forall a b, In a Ls -> In b L -> anti D (TL a) (T b) = false) ->
  forall v ms es v', nz n v ->
  irun n (ML ++ M false ++ flat_map (fun b => noise_ins pp pe D ++ M b) (repeat true r ++ [false]) ++ ML) v ms es v' ->
  exists B0 BF x0 X Es flss,
    ms = List.concat B0 ++ flat_map (map fst) (x0 :: X) ++ List.concat BF /\
    List.length X = S r /\ List.length Es = S r /\ List.length flss = S r /\
    es = flat_map (fun fls => flat_map fls D) flss /\
    Forall2 (fun a blk => List.length blk = w a) Ls B0 /\ Forall2 (fun a blk => List.length blk = w a) Ls BF /\
    Forall2 (fun E fls => data_only D E /\ forall q, In q D -> noise_ok (pp q) (pe q) (E q) (fls q)) Es flss /\
    Forall2 (fun (b : bool) x => Forall2 (fun a y => flip_ok (if b then err a else None) (snd y)) L x) (false :: repeat true r ++ [false]) (x0 :: X) /\
    steps D T L x0 X Es /\
    (forall k, k < List.length Ls -> xorb (par_bits (nth k B0 [])) (par_bits (nth k BF [])) = total D (TL (nth k Ls 0)) Es).
Proof.
  intros ND HD HM HL DT DTL CT CTL v ms es v' N H.
  apply irun_app in H. destruct H as (m1 & e1 & v1 & m2 & e2 & A & H & -> & ->).
  apply irun_app in H. destruct H as (m3 & e3 & v3 & m4 & e4 & B & H & -> & ->).
  apply irun_app in H. destruct H as (m5 & e5 & v5 & m6 & e6 & C & H & -> & ->).
  apply HL in A; auto. destruct A as (-> & N1 & (B0 & -> & F0) & _).
  apply (HM false) in B; auto. destruct B as (-> & N3 & (x0 & -> & FX) & K3).
  apply (rounds_chain n D pp pe err L T Ls TL M ND HD HM DT DTL CT CTL _ _ _ _ _ x0 (map par_bits B0)) in C; auto.
  - destruct C as (X & Es & flss & -> & LX & LE & LF & -> & FN & FF & ST & N5 & FT & FLL).
    apply HL in H; auto. destruct H as (-> & N6 & (BF & -> & F6) & K6).
    rewrite app_length, repeat_length in LX, LE, LF. cbn [List.length] in LX, LE, LF.
    exists B0, BF, x0, X, Es, flss. cbn [app flat_map]. rewrite app_nil_r, <- !app_assoc.
    assert (L0 := Forall2_len' _ _ _ F0).
    conjs; auto; try lia.
    + eapply Forall2_impl_in; [apply F0|]. intros a blk _ [E _]. auto.
    + eapply Forall2_impl_in; [apply F6|]. intros a blk _ [E _]. auto.
    + constructor; auto. eapply Forall2_impl_in; [apply FX|]. intros a y _ [E _]. auto.
    + intros k Hk. assert (I : In (nth k Ls 0) Ls) by (apply nth_In; auto).
      assert (S0 := Forall2_nth_in _ _ _ 0 false k FLL Hk). cbn beta in S0. apply K6 in S0; auto.
      assert (S6 := Forall2_nth_in _ _ _ 0 [] k F6 Hk). cbn beta in S6. destruct S6 as [_ S6].
      assert (E := stab_unique n _ _ _ v' N6 S0 S6). rewrite <- E.
      change false with (par_bits []) at 1. rewrite map_nth. destruct (par_bits (nth k B0 [])), (total D (TL (nth k Ls 0)) Es); auto.
  - eapply Forall2_impl_in; [apply FX|]. intros a y _ [_ E]. exact E.
  - clear - F0 K3 CTL DTL. assert (K : forall a m, In a Ls -> stab n (TL a) m v1 -> stab n (TL a) m v3) by (intros; apply K3; auto).
    clear - F0 K. induction F0 as [|a blk Ls B [_ Hs] F IH]; cbn; constructor; [apply K; auto; left; auto|]. apply IH. intros; apply K; auto; right; auto.
Qed.
