(** Lemmas: the expected value of a function of the results of a memory experiment is a sum over
    error histories. *)
Require Import String List Bool Arith ZArith QArith Qfield Lia Lqa.
From Verif Require Import Base BaseProofs QSpec PauliModel PauliSem PauliProofs PauliAlg TableauProofs MeasureProofs StateSpec GateProofs
  StateProofs CircuitModel SimSpec SimModel SimProofs LatticeModel LatticeSpec GeneratorModel GeneratorSpec StabTrack RoundProofs MemoryProofs GeneratorProofs DistSpec DistMean DistSim HistorySpec HistoryPaths HistorySums.
Import ListNotations.
Local Open Scope string_scope.
Local Open Scope nat_scope.
Local Open Scope list_scope.

Lemma words_len {A} (l : list A) : forall n x, In x (words l n) -> List.length x = n.
Proof.
  induction n as [|n IH]; intros x H; cbn [words] in H.
  - destruct H as [<-|[]]. auto.
  - apply in_flat_map in H as (a & _ & H). apply in_map_iff in H as (y & <- & H). cbn. rewrite (IH y); auto.
Qed.
Lemma sum_prod {A B} (l : list A) (m : list B) (F : A * B -> Q) : (sum_over (list_prod l m) F == sum_over l (fun a => sum_over m (fun b => F (a, b))))%Q.
Proof. induction l as [|a l IH]; [reflexivity|]. cbn [list_prod]. rewrite sum_app, sum_map, IH, sum_cons. reflexivity. Qed.

Section Chain.
Variables (n : nat) (e : errors) (D L Ls : list nat) (T TL : nat -> pfun) (M : bool -> list ins) (ML : list ins) (w : nat -> nat).
Variables (pr : bool -> nat -> Q) (has : bool -> nat -> bool).
Hypothesis (ND : NoDup D) (NL : NoDup L) (HD : forall q, In q D -> q < n).
Hypothesis (DT : forall a, In a L -> data_only D (T a)) (DTL : forall a, In a Ls -> data_only D (TL a)).
Hypothesis (CT : forall a b, In a L -> In b L -> anti D (T a) (T b) = false) (CTL : forall a b, In a Ls -> In b L -> anti D (TL a) (T b) = false).
Definition possible (b : bool) (F : list bool) : Prop := Forall (fun ab => snd ab = true -> has b (fst ab) = true) (combine L F).
Definition keeps (v v' : vec) : Prop := forall f s, data_only D f -> (forall a, In a L -> anti D f (T a) = false) -> stab n f s v -> stab n f s v'.
Definition reads_T (v : vec) (xs : list (bool * bool)) : Prop := Forall2 (fun a x => stab n (T a) (val x) v) L xs.
Hypothesis SET : forall b F, List.length F = List.length L -> Forall (calm n) (setall (combine L F) (M b)) /\
  forall v ms es v', nz n v -> irun n (setall (combine L F) (M b)) v ms es v' ->
  exists xs, ms = map fst xs /\ reads_T v' xs /\ (possible b F -> map snd xs = F) /\ keeps v v'.
Hypothesis (SN : forall b, Forall single_noise (M b)) (FP : forall b a p, In a L -> In (IFlip p a) (M b) -> (p == pr b a)%Q)
  (F1 : forall b a, In a L -> flips a (M b) <= 1) (NH : forall b a, has b a = false -> (pr b a == 0)%Q).
Hypothesis (CF : Forall (calm n) (M false)) (MF : measures n D none L T (M false)).
Hypothesis (CL : Forall (calm n) ML) (RL : reads n Ls TL w ML).

Lemma possible_cases b : forall F, possible b F \/ (flips_chance (pr b) (combine L F) == 0)%Q.
Proof.
  intros F. unfold possible, flips_chance, product. generalize (combine L F) as ab. induction ab as [|[a x] ab [IH|IH]]; cbn [map fold_right fst snd]; [left; constructor| |].
  - destruct x; [destruct (has b a) eqn:E|].
    + left. constructor; auto.
    + right. cbn [flip_chance]. rewrite (NH b a E). ring.
    + left. constructor; auto. cbn. discriminate.
  - right. rewrite IH. ring.
Qed.
Lemma exp_block b f phi v ms es : state_ok n v ->
  (forall F xs v', List.length F = List.length L -> possible b F -> map snd xs = F -> state_ok n v' -> reads_T v' xs -> keeps v v' -> (f v' (ms ++ map fst xs) es == phi F)%Q) ->
  (expected n (map item_of (M b)) f v ms es == sum_over (words [false; true] (List.length L)) (fun F => flips_chance (pr b) (combine L F) * phi F))%Q.
Proof.
  intros S H.
  assert (SA : (expected n (map item_of (M b)) f v ms es == sum_over (words [false; true] (List.length L)) (fun F => flips_chance (pr b) (combine L F) * expected n (map item_of (setall (combine L F) (M b))) f v ms es))%Q)
    by (apply split_all; auto).
  rewrite SA. apply sum_ext. intros F I. apply words_len in I. destruct (possible_cases b F) as [P|P]; [|rewrite P; ring].
  destruct (SET b F I) as [CA SM].
  assert (E : (expected n (map item_of (setall (combine L F) (M b))) f v ms es == phi F)%Q); [|rewrite E; reflexivity].
  apply expected_calm; auto. intros ms' v' R S'. destruct (SM v ms' [] v' (state_ok_nz _ _ S) R) as (xs & -> & RT & EF & K). apply (H F xs v'); auto.
Qed.

Definition round_ok (b : bool) (r : round_error) : Prop :=
  List.length (fst r) = List.length D /\ List.length (snd r) = List.length L /\ Forall (fun qx => can e (fst qx) (snd qx)) (combine D (fst r)) /\ possible b (snd r).
Definition chance1 (b : bool) (r : round_error) : Q := (noise_chance e (combine D (fst r)) * flips_chance (pr b) (combine L (snd r)))%Q.
Fixpoint chances (bs : list bool) (h : history) : Q :=
  match bs, h with b :: bs', r :: h' => (chance1 b r * chances bs' h')%Q | _, _ => 1%Q end.
Definition round_list := list_prod (words qubit_errors (List.length D)) (words [false; true] (List.length L)).
Definition errs_of (h : history) : list pfun := map (fun r : round_error => errors_at D (fst r)) h.
Definition flags_of (h : history) : list bool := flat_map (fun r : round_error => flags e D (fst r)) h.
Definition reads_TL (v : vec) (mL : list bool) (Es : list pfun) : Prop := Forall2 (fun a m => stab n (TL a) (xorb m (total D (TL a) Es)) v) Ls mL.
Definition noise := noise_ins (fun q => data_pauli e (Some q)) (fun q => data_erase e (Some q)) D.

Lemma exp_chain f : forall bs phi v ms es x0 mL, state_ok n v -> reads_T v x0 -> reads_TL v mL [] ->
  (forall h X v', Forall2 round_ok bs h -> Forall2 (fun (r : round_error) x => map snd x = snd r) h X -> state_ok n v' ->
     steps D T L x0 X (errs_of h) -> reads_TL v' mL (errs_of h) -> (f v' (ms ++ flat_map (map fst) X) (es ++ flags_of h) == phi h)%Q) ->
  (expected n (map item_of (flat_map (fun b => noise ++ M b) bs)) f v ms es == sum_over (words round_list (List.length bs)) (fun h => chances bs h * phi h))%Q.
Proof.
  induction bs as [|b bs IH]; intros phi v ms es x0 mL S RT RTL H.
  - cbn [flat_map map expected List.length words]. rewrite sum_cons, sum_nil. cbn [chances].
    rewrite <- (H [] [] v); auto; [|constructor]. cbn [flat_map errs_of flags_of]. rewrite !app_nil_r. ring.
  - cbn [flat_map List.length words]. rewrite <- app_assoc, map_app, expected_app. unfold noise at 1. rewrite exp_noise.
    rewrite sum_flat. unfold round_list at 1. rewrite sum_prod. apply sum_ext. intros c Ic. apply words_len in Ic.
    set (Sh := fun F => sum_over (words round_list (List.length bs)) (fun h => chances bs h * phi ((c, F) :: h))%Q).
    assert (RHS : (sum_over (words [false; true] (List.length L)) (fun F => sum_over (map (cons (c, F)) (words round_list (List.length bs))) (fun h => chances (b :: bs) h * phi h)) ==
                   noise_chance e (combine D c) * sum_over (words [false; true] (List.length L)) (fun F => flips_chance (pr b) (combine L F) * Sh F))%Q).
    { rewrite <- sum_scale. apply sum_ext. intros F _. rewrite sum_map. unfold Sh. rewrite <- sum_scale, <- sum_scale. apply sum_ext. intros h _. cbn [chances]. unfold chance1. cbn [fst snd]. ring. }
    rewrite RHS. destruct (noise_cases e (combine D c)) as [CAN|Z]; [|rewrite Z; ring].
    assert (BL : (expected n (map item_of (M b ++ flat_map (fun b => noise ++ M b) bs)) f (noisy e D c v) ms (es ++ flags e D c) ==
                  sum_over (words [false; true] (List.length L)) (fun F => flips_chance (pr b) (combine L F) * Sh F))%Q); [|rewrite BL; reflexivity].
    rewrite map_app, expected_app.
    assert (Sc : state_ok n (noisy e D c v)) by (apply state_noisy; auto).
    assert (NZ := state_ok_nz _ _ S).
    assert (KN : forall f s, stab n f s v -> stab n f (xorb s (anti D f (errors_at D c))) (noisy e D c v)) by (intros; apply stab_noisy; auto).
    apply exp_block; auto. intros F xs v1 LF PF EF S1 RT1 K1. unfold Sh.
    assert (TL1 : reads_TL v1 (map (fun am => xorb (snd am) (anti D (TL (fst am)) (errors_at D c))) (combine Ls mL)) []).
    { unfold reads_TL in *. assert (K' : forall a s, In a Ls -> stab n (TL a) s v -> stab n (TL a) (xorb s (anti D (TL a) (errors_at D c))) v1) by (intros; apply K1; auto).
      clear - RTL K'. induction RTL as [|a m Ls' mL' Hs FL IH]; cbn [combine map]; constructor.
      - cbn [total map fold_right fst snd] in *. rewrite xorb_false_r in *. apply K'; [left; auto|auto].
      - apply IH. intros; apply K'; auto. right; auto. }
    apply (IH (fun h => phi ((c, F) :: h)) v1 (ms ++ map fst xs) (es ++ flags e D c) xs _ S1 RT1 TL1).
    intros h X v' OK FX S' ST RL'. rewrite <- !app_assoc. apply (H ((c, F) :: h) (xs :: X) v'); auto.
    + constructor; auto. split; [|split; [|split]]; auto.
    + cbn [errs_of map steps fst]. split; [|exact ST]. intros s Hs.
      assert (A0 := Forall2_nth_in _ _ _ 0 bb0 s RT Hs). assert (A1 := Forall2_nth_in _ _ _ 0 bb0 s RT1 Hs). cbn beta in A0, A1.
      assert (I : In (nth s L 0) L) by (apply nth_In; auto).
      apply (stab_unique n (T (nth s L 0)) _ _ v1); auto using state_ok_nz. 
    + unfold reads_TL in *. assert (LL := Forall2_len' _ _ _ RTL). clear - RL' LL. cbn [errs_of map fst] in *. fold (errs_of h) in *. revert mL RL' LL.
      induction Ls as [|a Ls' IHL]; intros [|m mL] F' LL; try discriminate; cbn [combine map] in F'; inversion F'; subst; constructor; auto.
      cbn [fst snd] in *. cbn [total map fold_right]. fold (total D (TL a) (errs_of h)). rewrite <- xorb_assoc. auto.
Qed.

(** The whole experiment. *)
Lemma exp_memory f phi bs v : state_ok n v ->
  (forall h B0 BF x0 X v', Forall2 round_ok bs h ->
     Forall2 (fun a blk => List.length blk = w a) Ls B0 -> Forall2 (fun a blk => List.length blk = w a) Ls BF ->
     List.length x0 = List.length L -> Forall (fun x => snd x = false) x0 -> Forall2 (fun (r : round_error) x => map snd x = snd r) h X -> steps D T L x0 X (errs_of h) ->
     (forall k, k < List.length Ls -> xorb (par_bits (nth k B0 [])) (par_bits (nth k BF [])) = total D (TL (nth k Ls 0)) (errs_of h)) ->
     (f v' (List.concat B0 ++ flat_map (map fst) (x0 :: X) ++ List.concat BF) (flags_of h) == phi h)%Q) ->
  (expected n (map item_of (ML ++ M false ++ flat_map (fun b => noise ++ M b) bs ++ ML)) f v [] [] == sum_over (words round_list (List.length bs)) (fun h => chances bs h * phi h))%Q.
Proof.
  intros S H. rewrite map_app, expected_app. apply expected_calm; auto. intros ms1 v1 R1 S1. cbn [app].
  apply RL in R1; [|apply state_ok_nz; auto]. destruct R1 as (_ & N1 & (B0 & -> & F0) & _).
  rewrite map_app, expected_app. apply expected_calm; auto. intros ms2 v2 R2 S2.
  apply MF in R2; auto. destruct R2 as (_ & N2 & (x0 & -> & FX) & K2).
  rewrite map_app, expected_app.
  assert (RT0 : reads_T v2 x0) by (eapply Forall2_impl_in; [apply FX|]; intros a y _ [_ E]; exact E).
  assert (TL0 : reads_TL v2 (map par_bits B0) []).
  { assert (K : forall a m, In a Ls -> stab n (TL a) m v1 -> stab n (TL a) m v2) by (intros; apply K2; auto).
    clear - F0 K. unfold reads_TL. induction F0 as [|a blk Ls' B [_ Hs] F IH]; cbn [map]; constructor; [cbn [total map fold_right]; rewrite xorb_false_r; apply K; auto; left; auto|]. apply IH. intros; apply K; auto; right; auto. }
  apply (exp_chain _ bs phi v2 (List.concat B0 ++ map fst x0) [] x0 (map par_bits B0)); auto.
  intros h X v3 OK FH S3 ST RTL. apply expected_calm; auto. intros ms4 v4 R4 S4.
  apply RL in R4; [|apply state_ok_nz; auto]. destruct R4 as (_ & N4 & (BF & -> & F4) & K4).
  cbn [app]. rewrite <- !app_assoc. 
  replace (List.concat B0 ++ map fst x0 ++ flat_map (map fst) X ++ List.concat BF) with (List.concat B0 ++ flat_map (map fst) (x0 :: X) ++ List.concat BF) by (cbn [flat_map]; rewrite <- app_assoc; auto).
  apply H; auto.
  - eapply Forall2_impl_in; [apply F0|]. intros a blk _ [E _]. auto.
  - eapply Forall2_impl_in; [apply F4|]. intros a blk _ [E _]. auto.
  - symmetry. apply (Forall2_len' _ _ _ FX).
  - clear - FX. induction FX as [|a y L' x [E _] F IH]; constructor; auto.
  - intros k Hk. assert (I : In (nth k Ls 0) Ls) by (apply nth_In; auto).
    assert (A0 := Forall2_nth_in _ _ _ 0 false k RTL Hk). cbn beta in A0. apply K4 in A0; auto.
    assert (A6 := Forall2_nth_in _ _ _ 0 [] k F4 Hk). cbn beta in A6. destruct A6 as [_ A6].
    assert (E := stab_unique n _ _ _ v4 N4 A0 A6). rewrite <- E.
    change false with (par_bits []) at 1. rewrite map_nth. destruct (par_bits (nth k B0 [])), (total D (TL (nth k Ls 0)) (errs_of h)); auto.
Qed.
End Chain.
