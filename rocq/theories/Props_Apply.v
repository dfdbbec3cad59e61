(** Property theorems C72: apply_operator and pprint_state of pauli.py. *)
Require Import String List Bool Arith Ascii ZArith Lia DecimalString.
From Verif Require Import Base BaseProofs QSpec PauliModel PauliSem PauliProofs PauliAlg StateSpec TableauProofs StateProofs GateProofs Props_Pauli
  CircuitModel PauliTextModel StateTextProofs Props_PauliText CsvModel Props_Csv ApplyModel.
Import ListNotations.
Local Open Scope string_scope.
Local Open Scope nat_scope.
Local Open Scope list_scope.

(** apply_operator never returns: whatever the arguments are, an exception is raised, and for arguments as documented it is TypeError. *)
Theorem C72_apply_refuted : (forall op state, exists e, apply_operator op state = Err e) /\
  forall op t, op <> NotArray -> apply_operator op (Matrix t) = Err TypeError.
Proof.
  split.
  - intros op [|r|t|]; cbn; try (eexists; reflexivity). destruct op; cbn; eexists; reflexivity.
  - intros [|r|o|] t N; cbn; congruence.
Qed.
Print Assumptions C72_apply_refuted.

(** [r] is the product of [a] and [b] up to the factor i which anticommuting operators have. *)
Definition product_row (n : nat) (a b r : row) : Prop :=
  List.length (ops r) = n /\
  (commute n (denote a) (denote b) -> forall v, veq n (papply (denote a) (papply (denote b) v)) (papply (denote r) v)) /\
  (anticommute n (denote a) (denote b) -> forall v, veq n (papply (denote a) (papply (denote b) v)) (vscale zii (papply (denote r) v))).

Lemma product_mulrow n a b : List.length (ops a) = n -> List.length (ops b) = n -> product_row n a b (mulrow a b).
Proof.
  intros Ha Hb. split; [rewrite length_mulrow; lia|]. split; intros C v;
    destruct (C02_multiply n a b v Ha Hb) as (r & ph & E & _ & _ & P & Q); rewrite multiply_pair in E by lia; injection E as <- <-; auto.
Qed.
Lemma zip_one f st : st <> [] -> zip_longest f [f] st = map (fun y => (f, y)) st.
Proof. destruct st as [|y st]; [congruence|]. intros _. reflexivity. Qed.
Lemma zip_same f o : forall st, List.length o = List.length st -> zip_longest f o st = combine o st.
Proof. induction o as [|x o IH]; intros [|y st] L; cbn in *; try lia; auto. rewrite IH by lia. reflexivity. Qed.
Lemma nqubits_of n t : t <> [] -> Forall (fun r => List.length (ops r) = n) t -> nqubits t = n.
Proof. intros N F. destruct t; [congruence|]. inversion F; subst. reflexivity. Qed.
Lemma products_ok n (l : list (row * row)) : (forall a b, In (a, b) l -> List.length (ops a) = n /\ List.length (ops b) = n) ->
  mapR (fun p => do r <- multiply [fst p; snd p]; Ok (fst r)) l = Ok (map (fun p => mulrow (fst p) (snd p)) l).
Proof.
  induction l as [|[a b] l IH]; intros H; [reflexivity|]. cbn [mapR fst snd]. destruct (H a b (or_introl eq_refl)) as [Ha Hb].
  rewrite multiply_pair by lia. cbn [bindR fst]. rewrite IH by (intros; apply H; right; auto). reflexivity.
Qed.
Lemma nth_map_any {A B} (f : A -> B) (l : list A) i a b : i < List.length l -> nth i (map f l) b = f (nth i l a).
Proof. intros H. rewrite (nth_indep _ b (f a)) by (rewrite map_length; auto). apply map_nth. Qed.

(** Without the wrong check of the type, the function would multiply the rows of the state by the operator, or by one operator each. *)
Theorem C72_rest : forall n t, t <> [] -> Forall (fun r => List.length (ops r) = n) t ->
  (forall a, List.length (ops a) = n -> exists t', apply_rest (Vector a) t = Ok t' /\ List.length t' = List.length t /\
     forall i, i < List.length t -> product_row n a (nth i t row0) (nth i t' row0)) /\
  (forall o, List.length o = List.length t -> Forall (fun r => List.length (ops r) = n) o -> exists t', apply_rest (Matrix o) t = Ok t' /\
     List.length t' = List.length t /\ forall i, i < List.length t -> product_row n (nth i o row0) (nth i t row0) (nth i t' row0)) /\
  (forall o, List.length o <> List.length t -> apply_rest (Matrix o) t = Err ValueError) /\
  (forall a, List.length (ops a) <> n -> apply_rest (Vector a) t = Err ValueError).
Proof.
  intros n t N F. pose proof (nqubits_of n t N F) as Nt. rewrite Forall_forall in F.
  assert (Hn : forall i, i < List.length t -> List.length (ops (nth i t row0)) = n) by (intros; apply F, nth_In; auto).
  split; [|split; [|split]].
  - intros a Ha. cbn [apply_rest]. unfold apply_rows. destruct t as [|r0 t0] eqn:Et; [congruence|]. rewrite <- Et in *.
    rewrite Nt. cbn [nqubits]. rewrite Ha, Nat.eqb_refl. cbn [negb]. rewrite zip_one by auto.
    rewrite (products_ok n) by (intros x y I; apply in_map_iff in I; destruct I as (z & [= <- <-] & I); auto).
    eexists. split; [reflexivity|]. split; [rewrite !map_length; auto|]. intros i Hi. rewrite map_map. cbn [fst snd].
    rewrite (nth_map_any _ _ _ row0) by auto. apply product_mulrow; auto.
  - intros o L Fo. assert (No : o <> []) by (intros ->; destruct t; cbn in L; [congruence|lia]).
    pose proof (nqubits_of n o No Fo) as Nq. rewrite Forall_forall in Fo. cbn [apply_rest]. rewrite L, Nat.eqb_refl. cbn [negb].
    unfold apply_rows. destruct o as [|f o']; [congruence|]. destruct t as [|r0 t0] eqn:Et; [congruence|]. rewrite <- Et in *.
    rewrite Nt, Nq, Nat.eqb_refl. cbn [negb]. rewrite zip_same by auto.
    rewrite (products_ok n) by (intros x y I; split; [apply Fo; eapply in_combine_l; eauto | apply F; eapply in_combine_r; eauto]).
    assert (LC : List.length (combine (f :: o') t) = List.length t) by (rewrite combine_length; lia).
    eexists. split; [reflexivity|]. split; [rewrite map_length; auto|]. intros i Hi.
    rewrite (nth_map_any _ _ _ (row0, row0)) by (rewrite LC; auto). rewrite combine_nth by auto. cbn [fst snd].
    apply product_mulrow; auto. apply Fo, nth_In. lia.
  - intros o D. cbn [apply_rest]. apply Nat.eqb_neq in D. rewrite D. reflexivity.
  - intros a D. cbn [apply_rest]. unfold apply_rows. destruct t as [|r0 t0] eqn:Et; [congruence|]. rewrite <- Et in *.
    rewrite Nt. cbn [nqubits]. apply Nat.eqb_neq in D. rewrite D. reflexivity.
Qed.
Print Assumptions C72_rest.

(** Even so the result would not be the state after the operator was applied, nor any state: X on |0>. *)
Theorem C72_rest_refuted : exists n t op t', valid n t /\ apply_rest (Vector op) t = Ok t' /\ ~ valid n t'.
Proof.
  exists 1, (zero_state 1), (mkRow [(true, false)] false), [mkRow [(false, false)] false; mkRow [(true, true)] true].
  split; [apply valid_wf, zero_state_wf|]. split; [vm_compute; reflexivity|].
  rewrite valid_wf. intros (_ & _ & C). specialize (C 0 1 ltac:(lia) ltac:(lia)). vm_compute in C. discriminate.
Qed.
Print Assumptions C72_rest_refuted.
Example C72_example : apply_operator (Vector (mkRow [(true, false)] false)) (Matrix (zero_state 1)) = Err TypeError /\
  apply_rest (Matrix [mkRow [(false, true); (false, false)] true; mkRow [(true, false); (true, false)] false])
             [mkRow [(false, true); (false, true)] false; mkRow [(true, false); (true, true)] true] =
    Ok [mkRow [(false, false); (false, true)] true; mkRow [(false, false); (false, true)] true].
Proof. split; vm_compute; reflexivity. Qed.

(** * pprint_state *)
Lemma occurs_app a s t : occurs a (s ++ t)%string <-> occurs a s \/ occurs a t.
Proof. induction s; cbn; [tauto|]. rewrite IHs. tauto. Qed.
Lemma nat_no_newline u : ~ occurs newline (NilEmpty.string_of_uint u).
Proof. induction u; cbn; intros H; auto; destruct H as [H|H]; try discriminate; auto. Qed.
Lemma int_no_newline z : ~ occurs newline (show_int z).
Proof.
  unfold show_int, NilZero.string_of_int. destruct (Z.to_int z) as [u|u]; unfold NilZero.string_of_uint.
  - destruct u; try apply nat_no_newline. cbn. intros [H|[]]. discriminate.
  - cbn [occurs]. intros [H|H]; [discriminate|]. destruct u; try apply (nat_no_newline _ H). cbn in H. destruct H as [H|[]]. discriminate.
Qed.
Lemma letter_no_newline p : letter_arr p <> newline.
Proof. destruct p as [[|] [|]]; discriminate. Qed.
Lemma main_no_newline l : ~ occurs newline (string_of_list (map letter_arr l)).
Proof. induction l as [|p l IH]; cbn; [tauto|]. intros [H|H]; auto. apply letter_no_newline in H. auto. Qed.
Lemma short_no_newline l : forall q, ~ occurs newline (short_form q (map letter_arr l)).
Proof.
  induction l as [|p l IH]; intros q; cbn [map short_form]; [cbn; tauto|]. intros H. apply occurs_app in H. destruct H as [H|H]; [|apply (IH _ H)].
  destruct (Ascii.eqb _ _); [destruct H|]. cbn [append occurs] in H. destruct H as [H|[H|H]]; [discriminate|apply letter_no_newline in H; auto|apply int_no_newline in H; auto].
Qed.
Lemma operator_no_newline r b : ~ occurs newline (pauli_to_string r b).
Proof.
  unfold pauli_to_string. destruct b; intros H; apply occurs_app in H; destruct H as [H|H];
    try (destruct (neg r); cbn in H; destruct H as [H|[]]; discriminate).
  - apply main_no_newline in H; auto.
  - apply short_no_newline in H; auto.
Qed.
Lemma join_app sep l m : l <> [] -> m <> [] -> join sep (l ++ m) = (join sep l ++ sep ++ join sep m)%string.
Proof.
  intros NL NM. induction l as [|s l IH]; [congruence|]. destruct l as [|s' l].
  - destruct m; [congruence|]. reflexivity.
  - assert (E : forall (x y : string) z, ((x ++ y) ++ z)%string = (x ++ y ++ z)%string) by (induction x; cbn; intros; [auto|rewrite IHx; auto]).
    change (join sep ((s :: s' :: l) ++ m)) with (s ++ sep ++ join sep ((s' :: l) ++ m))%string.
    rewrite IH by congruence. change (join sep (s :: s' :: l)) with (s ++ sep ++ join sep (s' :: l))%string. rewrite !E. reflexivity.
Qed.

(** The lines of the printed text are the headings and one line for each generator, from which the state can be read again. *)
Theorem C72_pprint : forall n t b, 0 < n -> valid n t ->
  exists ds ss full short, pprint_state t b true = Ok full /\ pprint_state t b false = Ok short /\
    CsvModel.split_on newline full = ["Destabilisers:"] ++ ds ++ ["Stabilisers:"] ++ ss /\
    CsvModel.split_on newline short = ["Stabilisers:"] ++ ss /\
    List.length ds = n /\ List.length ss = n /\ string_to_state ss ds (Some n) = Ok t.
Proof.
  intros n t b Hn V. destruct (C41_state_round_trip n t b Hn V) as (ds & ss & E & Ld & Ls & R). exists ds, ss.
  assert (NN : forall s, In s ds \/ In s ss -> ~ occurs newline s).
  { unfold state_to_stabiliser_string in E. destruct (negb _); [discriminate|]. pose proof (f_equal (fun r => match r with Ok p => fst p | Err _ => [] end) E) as E1. pose proof (f_equal (fun r => match r with Ok p => snd p | Err _ => [] end) E) as E2.
    cbv beta iota in E1, E2. cbn [fst snd] in E1, E2. intros s I.
    assert (J : In s (map (fun r => pauli_to_string r b) t)).
    { rewrite <- (firstn_skipn (List.length (map (fun r => pauli_to_string r b) t) / 2)). rewrite E1, E2. apply in_or_app. auto. }
    apply in_map_iff in J. destruct J as (r & <- & _). apply operator_no_newline. }
  assert (Nd : ds <> []) by (intros ->; cbn in Ld; lia). assert (Ns : ss <> []) by (intros ->; cbn in Ls; lia).
  unfold pprint_state. rewrite E. cbn [bindR fst snd]. do 2 eexists. split; [reflexivity|]. split; [reflexivity|].
  assert (HD : ~ occurs newline "Destabilisers:") by (vm_compute; intuition discriminate).
  assert (HS : ~ occurs newline "Stabilisers:") by (vm_compute; intuition discriminate).
  split; [|split; [|split; [auto|split; auto]]]; symmetry; apply C71_split.
  - discriminate.
  - intros p I. repeat (apply in_app_or in I; destruct I as [I|I]); try (apply NN; auto; fail); destruct I as [<-|[]]; auto.
  - rewrite join_app by (auto; try discriminate; destruct ds; discriminate). rewrite join_app by (auto; discriminate).
    rewrite join_app by (auto; discriminate). reflexivity.
  - discriminate.
  - intros p I. apply in_app_or in I; destruct I as [I|I]; [destruct I as [<-|[]]; auto|]. apply NN; auto.
  - rewrite join_app by (auto; discriminate). reflexivity.
Qed.
Print Assumptions C72_pprint.
(** The example of the documentation. *)
Example C72_example_print : valid 2 (zero_state 2) /\
  option_map (CsvModel.split_on newline) (match pprint_state (zero_state 2) true true with Ok s => Some s | Err _ => None end) =
    Some ["Destabilisers:"; "+XI"; "+IX"; "Stabilisers:"; "+ZI"; "+IZ"].
Proof. split; [apply valid_wf, zero_state_wf|vm_compute; reflexivity]. Qed.
