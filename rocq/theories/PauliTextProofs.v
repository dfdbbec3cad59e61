(** Conversions of Pauli operators: dictionaries, strings, padding. *)
Require Import List Bool Arith ZArith Lia String Ascii DecimalString.
From Verif Require Import Base BaseProofs QSpec PauliModel PauliSem PauliProofs PauliAlg CircuitModel CircuitProofs PauliTextModel.
Import ListNotations.
Local Open Scope string_scope.
Local Open Scope nat_scope.
Local Open Scope list_scope.

Notation resize m o := (o ++ repeat (false, false) (m - List.length o)).

(** * Dictionaries *)
Lemma dict_step_length o kv : List.length (dict_step o kv) = List.length o.
Proof. unfold dict_step, setz, setx. rewrite !length_upd. auto. Qed.

Lemma dict_step_nth o k v q : k < List.length o ->
  nth q (dict_step o (k, v)) (false, false) = if q =? k then (in_XY v, in_ZY v) else nth q o (false, false).
Proof.
  intros H. unfold dict_step, setz, setx. cbn [fst snd]. destruct (Nat.eqb_spec q k) as [->|N].
  - rewrite nth_upd_same by (rewrite length_upd; auto). unfold getx. rewrite nth_upd_same by auto. auto.
  - rewrite !nth_upd_other by auto. auto.
Qed.

Lemma dict_get_none d k : ~ In k (map fst d) -> dict_get d k = None.
Proof.
  induction d as [|[k' v] d IH]; cbn [map fst In dict_get]; auto. intros H.
  destruct (Nat.eqb_spec k' k); [tauto|]. apply IH; tauto.
Qed.

Lemma dict_fold d : forall o, NoDup (map fst d) -> Forall (fun k => k < List.length o) (map fst d) ->
  List.length (fold_left dict_step d o) = List.length o /\
  forall q, nth q (fold_left dict_step d o) (false, false) =
    match dict_get d q with Some v => (in_XY v, in_ZY v) | None => nth q o (false, false) end.
Proof.
  induction d as [|[k v] d IH]; intros o ND F; cbn [fold_left map fst] in *.
  - auto.
  - inversion ND as [|? ? NI ND']; inversion F as [|? ? F1 F2]; subst.
    destruct (IH (dict_step o (k, v))) as [L E]; auto.
    { rewrite dict_step_length. auto. }
    split. rewrite L. apply dict_step_length. intros q. rewrite E. cbn [dict_get].
    destruct (Nat.eqb_spec k q) as [->|N].
    + rewrite dict_get_none by auto. rewrite dict_step_nth by auto. rewrite Nat.eqb_refl. auto.
    + destruct (dict_get d q); auto. rewrite dict_step_nth by auto.
      destruct (Nat.eqb_spec q k); [congruence|auto].
Qed.

Lemma fold_max_ge l : forall a, a <= fold_left max l a /\ Forall (fun k => k <= fold_left max l a) l.
Proof.
  induction l as [|x l IH]; intros a; cbn [fold_left]. auto.
  destruct (IH (max a x)) as [A B]. split. lia. constructor; [lia|auto].
Qed.
Lemma fold_max_in l : forall a, fold_left max l a = a \/ In (fold_left max l a) l.
Proof.
  induction l as [|x l IH]; intros a; cbn [fold_left]; auto. destruct (IH (max a x)) as [E|E]; [|right; right; auto].
  rewrite E. destruct (Nat.max_spec a x) as [[_ ->]|[_ ->]]; simpl; auto.
Qed.

Lemma dict_to_pauli_ok d n : d <> [] -> NoDup (map fst d) -> Forall (fun k => k < n) (map fst d) ->
  exists o, dict_to_pauli d (Some n) = Ok (mkRow o false) /\ List.length o = n /\
    forall q, nth q o (false, false) = match dict_get d q with Some v => (in_XY v, in_ZY v) | None => (false, false) end.
Proof.
  intros H ND F. unfold dict_to_pauli. destruct d as [|kv d]; [congruence|]. set (dd := kv :: d) in *.
  destruct (Nat.leb_spec n (fold_left max (map fst dd) 0)) as [L|L].
  - exfalso. destruct (fold_max_in (map fst dd) 0) as [E|E].
    + rewrite E in L. inversion F; subst. lia.
    + rewrite Forall_forall in F. apply F in E. lia.
  - destruct (dict_fold dd (repeat (false, false) n)) as [A B]; auto. { rewrite repeat_length; auto. }
    exists (fold_left dict_step dd (repeat (false, false) n)). split; auto. rewrite repeat_length in A. split; auto.
    intros q. rewrite B. destruct (dict_get dd q); auto. apply nth_repeat.
Qed.

Lemma dict_to_pauli_none d : d <> [] -> dict_to_pauli d None = dict_to_pauli d (Some (fold_left max (map fst d) 0 + 1)).
Proof. intros H. destruct d; [congruence|]. reflexivity. Qed.

(** ** pauli_to_dict *)
Definition nonid (p : bool * bool) : bool := fst p || snd p.
Lemma to_dict_keys o : forall q, NoDup (map fst (to_dict_from q o)) /\
  Forall (fun k => q <= k < q + List.length o) (map fst (to_dict_from q o)).
Proof.
  induction o as [|p o IH]; intros q; cbn [to_dict_from List.length]. split; constructor.
  destruct (IH (S q)) as [A B].
  assert (B' : Forall (fun k => q <= k < q + S (List.length o)) (map fst (to_dict_from (S q) o))).
  { eapply Forall_impl; [|apply B]. cbn. intros; lia. }
  destruct (fst p || snd p); auto. cbn [map fst]. split; [|constructor; auto; lia].
  constructor; auto. intros H. rewrite Forall_forall in B. apply B in H. lia.
Qed.

Lemma to_dict_get o : forall q k, dict_get (to_dict_from q o) k =
  if (q <=? k) && nonid (nth (k - q) o (false, false)) then Some (letter_xz (nth (k - q) o (false, false))) else None.
Proof.
  induction o as [|p o IH]; intros q k; cbn [to_dict_from].
  - cbn [dict_get]. destruct (k - q); rewrite andb_false_r; auto.
  - assert (E : dict_get (to_dict_from (S q) o) k = if (S q <=? k) && nonid (nth (k - S q) o (false, false))
       then Some (letter_xz (nth (k - S q) o (false, false))) else None) by apply IH.
    destruct (Nat.eq_dec k q) as [->|N].
    + rewrite Nat.leb_refl, Nat.sub_diag. cbn [nth andb]. unfold nonid at 1. destruct (fst p || snd p) eqn:Ep.
      * cbn [dict_get]. rewrite Nat.eqb_refl. auto.
      * rewrite E. destruct (Nat.leb_spec (S q) q); [lia|auto].
    + assert (X : dict_get (to_dict_from (S q) o) k = if (q <=? k) && nonid (nth (k - q) (p :: o) (false, false))
         then Some (letter_xz (nth (k - q) (p :: o) (false, false))) else None).
      { rewrite E. destruct (Nat.leb_spec (S q) k).
        - replace (k - q) with (S (k - S q)) by lia. cbn [nth]. destruct (Nat.leb_spec q k); [auto|lia].
        - destruct (Nat.leb_spec q k); [lia|auto]. }
      destruct (fst p || snd p); auto. cbn [dict_get]. destruct (Nat.eqb_spec q k); [congruence|auto].
Qed.

Lemma to_dict_nonempty o : forall q, existsb nonid o = true -> to_dict_from q o <> [].
Proof.
  induction o as [|p o IH]; intros q H; cbn [existsb to_dict_from] in *. discriminate.
  unfold nonid in H at 1. destruct (fst p || snd p). discriminate. apply IH; auto.
Qed.
Lemma to_dict_empty o : forall q, existsb nonid o = false -> to_dict_from q o = [].
Proof.
  induction o as [|p o IH]; intros q H; cbn [existsb to_dict_from] in *; auto.
  unfold nonid in H at 1. apply orb_false_iff in H. destruct H as [-> H]. auto.
Qed.

Lemma letter_bits p : nonid p = true -> (in_XY (letter_xz p), in_ZY (letter_xz p)) = p.
Proof. destruct p as [[] []]; auto; discriminate. Qed.

Lemma dict_round r m : existsb nonid (ops r) = true -> List.length (ops r) <= m ->
  dict_to_pauli (pauli_to_dict r) (Some m) = Ok (mkRow (resize m (ops r)) false).
Proof.
  intros H Hm. destruct (to_dict_keys (ops r) 0) as [A B].
  destruct (dict_to_pauli_ok (pauli_to_dict r) m) as (o & E & L & N).
  - apply to_dict_nonempty; auto.
  - auto.
  - eapply Forall_impl; [|apply B]. cbn. intros; lia.
  - rewrite E. do 2 f_equal. apply nth_ext with (d := (false, false)) (d' := (false, false)).
    + rewrite app_length, repeat_length. lia.
    + intros q _. rewrite N. unfold pauli_to_dict. rewrite to_dict_get. cbn [Nat.leb andb]. rewrite Nat.sub_0_r.
      destruct (le_lt_dec (List.length (ops r)) q).
      * rewrite (nth_overflow (ops r)) by auto. rewrite app_nth2, nth_repeat by auto. auto.
      * rewrite app_nth1 by auto. destruct (nonid (nth q (ops r) (false, false))) eqn:En.
        apply letter_bits; auto. unfold nonid in En. destruct (nth q (ops r) (false, false)) as [[] []]; auto; discriminate.
Qed.

(** Back from a dictionary. *)
Definition pauli_name (s : string) : Prop := In s ["I"; "X"; "Y"; "Z"].
Lemma dict_get_in d k v : dict_get d k = Some v -> In (k, v) d.
Proof.
  induction d as [|[k' v'] d IH]; cbn [dict_get]; [discriminate|]. destruct (Nat.eqb_spec k' k).
  - intros [= ->]. subst. left; auto.
  - right; auto.
Qed.
Lemma dict_back d m r : NoDup (map fst d) -> Forall (fun kv => pauli_name (snd kv)) d ->
  dict_to_pauli d m = Ok r -> forall k, dict_get (pauli_to_dict r) k =
    match dict_get d k with Some v => if String.eqb v "I" then None else Some v | None => None end.
Proof.
  intros ND F E k. assert (NE : d <> []) by (intros ->; discriminate).
  assert (X : exists n, dict_to_pauli d (Some n) = Ok r /\ fold_left max (map fst d) 0 < n).
  { destruct m as [n|].
    - exists n. split; auto. destruct d; [congruence|]. unfold dict_to_pauli in E.
      destruct (Nat.leb_spec n (fold_left max (map fst (p :: d)) 0)); [discriminate|auto].
    - exists (fold_left max (map fst d) 0 + 1). rewrite <- dict_to_pauli_none by auto. split; auto. lia. }
  destruct X as (n & E' & Hn).
  destruct (dict_to_pauli_ok d n) as (o & E2 & L & N); auto.
  { destruct (fold_max_ge (map fst d) 0) as [_ B]. eapply Forall_impl; [|apply B]. cbn. intros; lia. }
  rewrite E2 in E'. injection E' as <-. unfold pauli_to_dict. cbn [ops]. rewrite to_dict_get. cbn [Nat.leb andb].
  rewrite Nat.sub_0_r, N. destruct (dict_get d k) as [v|] eqn:EG; auto.
  apply dict_get_in in EG. rewrite Forall_forall in F. apply F in EG. cbn in EG.
  destruct EG as [<-|[<-|[<-|[<-|[]]]]]; reflexivity.
Qed.

(** * Padding *)
Lemma half_odd n : (n + (n + 1)) / 2 = n.
Proof. replace (n + (n + 1)) with (1 + n * 2) by lia. rewrite Nat.div_add by lia. reflexivity. Qed.
Lemma row_bits_length r : List.length (row_bits r) = List.length (ops r) + (List.length (ops r) + 1).
Proof. unfold row_bits. rewrite !app_length, !map_length. reflexivity. Qed.
Lemma firstn_app_len {A} (a b : list A) n : List.length a = n -> firstn n (a ++ b) = a.
Proof. intros <-. rewrite firstn_app, Nat.sub_diag, firstn_all. cbn. apply app_nil_r. Qed.
Lemma skipn_app_len {A} (a b : list A) n : List.length a = n -> skipn n (a ++ b) = b.
Proof. intros <-. rewrite skipn_app, Nat.sub_diag, skipn_all. auto. Qed.
Lemma combine_fst_snd {A B} (l : list (A * B)) : combine (map fst l) (map snd l) = l.
Proof. induction l as [|[]]; cbn; auto. rewrite IHl; auto. Qed.

Lemma of_bits_row r : of_bits (row_bits r) = r.
Proof.
  unfold of_bits. rewrite row_bits_length, half_odd. unfold row_bits.
  rewrite firstn_app_len by apply map_length. rewrite skipn_app_len by apply map_length.
  rewrite firstn_app_len by apply map_length. rewrite combine_fst_snd. rewrite app_assoc, app_nth2.
  - rewrite app_length, !map_length. replace (2 * _ - _) with 0 by lia. destruct r; auto.
  - rewrite app_length, !map_length. lia.
Qed.
Lemma map_rep {A B} (f : A -> B) a n : map f (repeat a n) = repeat (f a) n.
Proof. induction n; cbn; auto. rewrite IHn; auto. Qed.
Lemma pad_eq r m : pad_operator r m = mkRow (resize m (ops r)) (neg r).
Proof.
  unfold pad_operator, pad_bits. rewrite row_bits_length, half_odd.
  destruct (Nat.leb_spec m (List.length (ops r))) as [L|L].
  - rewrite of_bits_row. replace (m - _) with 0 by lia. cbn. rewrite app_nil_r. destruct r; auto.
  - set (n := List.length (ops r)) in *. set (z := repeat false (m - n)).
    rewrite <- (of_bits_row (mkRow (ops r ++ repeat (false, false) (m - n)) (neg r))). f_equal.
    unfold row_bits. cbn [ops neg]. rewrite !map_app, !map_rep. cbn [fst snd]. fold z.
    assert (S2 : skipn (2 * n) (map fst (ops r) ++ map snd (ops r) ++ [neg r]) = [neg r]).
    { rewrite app_assoc. apply skipn_app_len. rewrite app_length, !map_length. fold n. lia. }
    rewrite S2.
    rewrite firstn_app_len by apply map_length. rewrite skipn_app_len by apply map_length.
    rewrite firstn_app_len by apply map_length.
    rewrite <- !app_assoc. auto.
Qed.
Lemma to_dict_pad o : forall q m, to_dict_from q (o ++ repeat (false, false) m) = to_dict_from q o.
Proof.
  induction o as [|p o IH]; intros q m; cbn [app to_dict_from].
  - revert q. induction m; intros q; cbn; auto.
  - rewrite IH. auto.
Qed.

(** * Strings *)
Lemma remove_none c s : allc (fun a => negb (Ascii.eqb a c)) s = true -> remove_char c s = s.
Proof.
  induction s; cbn [allc remove_char]; auto. rewrite andb_true_iff, negb_true_iff. intros [-> B]. rewrite IHs; auto.
Qed.
Lemma remove_app c a b : remove_char c (a ++ b)%string = (remove_char c a ++ remove_char c b)%string.
Proof. induction a; cbn [String.append remove_char]; auto. destruct (Ascii.eqb a c); auto. rewrite IHa; auto. Qed.
Lemma any_digit_app a b : any_digit (a ++ b)%string = any_digit a || any_digit b.
Proof. induction a; cbn [String.append any_digit]; auto. rewrite IHa. apply orb_assoc. Qed.

Definition pletter (c : ascii) : bool := is_letter c.
Lemma letter_is_letter p : is_letter (letter_arr p) = true. Proof. destruct p as [[] []]; reflexivity. Qed.
Lemma letter_facts c : is_letter c = true -> Ascii.eqb c " " = false /\ Ascii.eqb c "_" = false /\ is_digit c = false /\ is_sign c = false.
Proof. destruct c as [[] [] [] [] [] [] [] []]; cbn; auto; discriminate. Qed.
Lemma digit_facts c : is_digit c = true -> Ascii.eqb c " " = false /\ Ascii.eqb c "_" = false.
Proof. destruct c as [[] [] [] [] [] [] [] []]; cbn; auto; discriminate. Qed.

Lemma sol_chars (P : ascii -> bool) o : (forall p, P (letter_arr p) = true) ->
  allc P (string_of_list (map letter_arr o)) = true.
Proof. intros H. induction o; cbn [map string_of_list allc]; auto. rewrite H, IHo. auto. Qed.
Lemma sol_length l : String.length (string_of_list l) = List.length l.
Proof. induction l; cbn; auto. Qed.
Lemma sol_nodigit o : any_digit (string_of_list (map letter_arr o)) = false.
Proof. induction o; cbn [map string_of_list any_digit]; auto. rewrite IHo. destruct a as [[] []]; reflexivity. Qed.
Lemma canon_dict_letters o : forall q, canon_dict q (string_of_list (map letter_arr o)) = to_dict_from q o.
Proof.
  induction o as [|p o IH]; intros q; cbn [map string_of_list canon_dict to_dict_from]; auto.
  rewrite IH. destruct p as [[] []]; reflexivity.
Qed.

Definition sign_str (b : bool) : string := if b then "-" else "+".

Lemma dict_err r m : existsb nonid (ops r) = false -> dict_to_pauli (pauli_to_dict r) m = Err ValueError.
Proof. intros H. unfold pauli_to_dict. rewrite to_dict_empty by auto. reflexivity. Qed.

Lemma canonical_round r m :
  string_to_pauli (pauli_to_string r true) m =
  if existsb nonid (ops r)
  then Ok (mkRow (resize (max (match m with Some n => n | None => 0 end) (List.length (ops r))) (ops r)) (neg r))
  else Err ValueError.
Proof.
  unfold pauli_to_string. cbv zeta. set (body := string_of_list (map letter_arr (ops r))).
  change (if neg r then "-" else "+") with (sign_str (neg r)).
  unfold string_to_pauli.
  assert (R1 : remove_char " " (sign_str (neg r) ++ body)%string = (sign_str (neg r) ++ body)%string).
  { rewrite remove_app. f_equal; [destruct (neg r); reflexivity|]. apply remove_none. apply sol_chars. intros p; destruct (letter_facts _ (letter_is_letter p)) as (-> & _); auto. }
  assert (R2 : remove_char "_" (sign_str (neg r) ++ body)%string = (sign_str (neg r) ++ body)%string).
  { rewrite remove_app. f_equal; [destruct (neg r); reflexivity|]. apply remove_none. apply sol_chars. intros p; destruct (letter_facts _ (letter_is_letter p)) as (_ & -> & _); auto. }
  cbv zeta. rewrite R1, R2, any_digit_app. unfold body at 1. rewrite sol_nodigit.
  replace (any_digit (sign_str (neg r)) || false) with false by (destruct (neg r); reflexivity).
  assert (E : canon_dict 0 body = pauli_to_dict r) by apply canon_dict_letters.
  assert (L : String.length body = List.length (ops r)) by (unfold body; rewrite sol_length, map_length; auto).
  destruct (existsb nonid (ops r)) eqn:NI.
  - pose proof (dict_round r (max (match m with Some n => n | None => 0 end) (List.length (ops r))) NI ltac:(lia)) as X.
    destruct (neg r); cbn [sign_str String.append is_sign]; unfold is_sign; cbn [Ascii.eqb Bool.eqb orb]; rewrite E, L, X; reflexivity.
  - destruct (neg r); cbn [sign_str String.append is_sign]; unfold is_sign; cbn [Ascii.eqb Bool.eqb orb]; rewrite E, dict_err by auto; reflexivity.
Qed.

(** ** Short form *)
Fixpoint comps (q : nat) (o : list (bool * bool)) : list (nat * ascii) :=
  match o with
  | [] => []
  | p :: o' => if nonid p then (q, letter_arr p) :: comps (S q) o' else comps (S q) o'
  end.
Fixpoint tight (l : list (nat * ascii)) : string :=
  match l with [] => "" | (q, a) :: l' => String a (show_int (Z.of_nat q) ++ tight l')%string end.

Lemma show_nat_digits n : allc is_digit (show_int (Z.of_nat n)) = true.
Proof. unfold show_int. destruct n; cbn -[NilZero.string_of_uint]; apply nz_uint_digits. Qed.
Lemma show_nat_nonempty n : show_int (Z.of_nat n) <> "".
Proof. destruct (show_int_word (Z.of_nat n)); auto. Qed.

Lemma short_remove c o : (c = " "%char \/ c = "_"%char) -> forall q,
  remove_char c (short_form q (map letter_arr o)) =
  if Ascii.eqb c " " then tight (comps q o) else short_form q (map letter_arr o).
Proof.
  intros Hc. induction o as [|p o IH]; intros q; cbn [map short_form comps].
  - destruct Hc as [->| ->]; auto.
  - rewrite remove_app, IH. assert (Lt := letter_facts _ (letter_is_letter p)). destruct Lt as (L1 & L2 & _).
    assert (ND : forall c, c = " "%char \/ c = "_"%char -> remove_char c (show_int (Z.of_nat q)) = show_int (Z.of_nat q)).
    { intros c' H. apply remove_none. eapply allc_weaken; [|apply show_nat_digits]. intros a Ha.
      destruct (digit_facts a Ha) as [D1 D2]. destruct H as [->| ->]; [rewrite D1|rewrite D2]; auto. }
    assert (NI : Ascii.eqb (letter_arr p) "I" = negb (nonid p)) by (destruct p as [[] []]; reflexivity). rewrite NI.
    destruct (nonid p); cbn [negb].
    + destruct Hc as [->| ->].
      * cbn [String.append remove_char Ascii.eqb Bool.eqb]. rewrite L1, ND by auto. cbn [tight String.append]. auto.
      * cbn [String.append remove_char Ascii.eqb Bool.eqb]. rewrite L2, ND by auto. auto.
    + destruct Hc as [->| ->]; reflexivity.
Qed.

Lemma take_digits_app d : forall r, allc is_digit d = true -> (match r with String a _ => is_digit a = false | _ => True end) ->
  take_digits (d ++ r)%string = (d, r).
Proof.
  induction d as [|a d IH]; intros r H Hr; cbn [String.append take_digits].
  - destruct r; auto. cbn [take_digits]. rewrite Hr. auto.
  - cbn [allc] in H. apply andb_true_iff in H. destruct H as [-> H]. rewrite IH; auto.
Qed.

Lemma tight_start l : Forall (fun c => is_letter (snd c) = true) l -> match tight l with String a _ => is_digit a = false | _ => True end.
Proof. intros F. destruct l as [|[q a] l]; cbn; auto. inversion F; subst. apply letter_facts; auto. Qed.

Lemma findall_tight l : forall f, Forall (fun c => is_letter (snd c) = true) l -> List.length l <= f ->
  findall f (tight l) = map (fun c => (false, snd c, show_int (Z.of_nat (fst c)))) l.
Proof.
  induction l as [|[q a] l IH]; intros f F L; cbn [tight map].
  - destruct f; auto.
  - destruct f as [|f]; [cbn in L; lia|]. inversion F as [|? ? F1 F2]; subst. cbn [snd] in F1.
    cbn [findall]. unfold match_here. destruct (letter_facts a F1) as (_ & _ & _ & ->). rewrite F1.
    rewrite take_digits_app; [|apply show_nat_digits|apply tight_start; auto].
    destruct (show_int (Z.of_nat q)) eqn:E. destruct (show_nat_nonempty q E). rewrite <- E. cbn [fst snd]. rewrite IH; auto.
    cbn in L. lia.
Qed.
Lemma findall_sign b q a l f : Forall (fun c => is_letter (snd c) = true) ((q, a) :: l) -> List.length l < f ->
  findall f (sign_str b ++ tight ((q, a) :: l))%string =
  (b, a, show_int (Z.of_nat q)) :: map (fun c => (false, snd c, show_int (Z.of_nat (fst c)))) l.
Proof.
  intros F L. destruct f as [|f]; [lia|]. inversion F as [|? ? F1 F2]; subst. cbn [snd] in F1.
  destruct b; cbn [sign_str String.append findall tight]; unfold match_here; cbn [is_sign]; unfold is_sign; cbn [Ascii.eqb Bool.eqb orb];
    rewrite F1; (rewrite take_digits_app; [|apply show_nat_digits|apply tight_start; auto]);
    destruct (show_int (Z.of_nat q)) eqn:E; try (destruct (show_nat_nonempty q E)); rewrite <- E; rewrite findall_tight; auto; lia.
Qed.

Lemma comps_letters o : forall q, Forall (fun c => is_letter (snd c) = true) (comps q o).
Proof.
  induction o as [|p o IH]; intros q; cbn [comps]. constructor. destruct (nonid p); auto.
  constructor; auto. apply letter_is_letter.
Qed.
Lemma comps_dict o : forall q, map (fun c => (fst c, String (snd c) "")) (comps q o) = to_dict_from q o.
Proof.
  induction o as [|p o IH]; intros q; cbn [comps to_dict_from]; auto.
  unfold nonid. destruct (fst p || snd p) eqn:E; auto. cbn [map fst snd]. rewrite IH. f_equal. f_equal.
  destruct p as [[] []]; auto.
Qed.
Lemma tight_length l : List.length l <= String.length (tight l).
Proof.
  assert (SL : forall a b, String.length (a ++ b)%string = String.length a + String.length b) by (induction a; cbn; intros; auto).
  induction l as [|[q a] l IH]; cbn [tight List.length String.length]; auto. rewrite SL. lia.
Qed.
Lemma dict_set_fresh d k v : ~ In k (map fst d) -> dict_set d k v = d ++ [(k, v)].
Proof.
  induction d as [|[k' v'] d IH]; cbn [map fst In dict_set app]; auto. intros H.
  destruct (Nat.eqb_spec k' k); [tauto|]. rewrite IH; tauto.
Qed.
Lemma comp_steps (l : list (nat * ascii)) : forall (acc : pdict) bs, map fst bs = map fst l -> NoDup (map fst acc ++ map fst l) ->
  foldR comp_step (map (fun bc : nat * (bool * ascii) => (fst (snd bc), snd (snd bc), show_int (Z.of_nat (fst bc)))) bs) acc =
  Ok (acc ++ map (fun bc : nat * (bool * ascii) => (fst bc, String (snd (snd bc)) "")) bs).
Proof.
  induction l as [|x l IH]; intros acc bs E ND.
  - destruct bs; [|discriminate]. cbn. rewrite app_nil_r. auto.
  - destruct bs as [|[k [b a]] bs]; [discriminate|]. cbn [map fst] in E. injection E as E1 E2. cbn [map foldR fst snd].
    unfold comp_step at 1. rewrite py_int_show. cbn [bindR]. rewrite Nat2Z.id.
    cbn [map] in ND. rewrite <- E1 in ND.
    assert (NI : ~ In k (map fst acc)).
    { apply NoDup_remove_2 in ND. intros H. apply ND. apply in_or_app. auto. }
    rewrite dict_set_fresh by auto. rewrite IH.
    + rewrite <- app_assoc. auto.
    + auto.
    + rewrite map_app. cbn [map fst]. rewrite <- app_assoc. auto.
Qed.

Lemma short_round r m :
  string_to_pauli (pauli_to_string r false) m =
  if existsb nonid (ops r)
  then do r' <- dict_to_pauli (pauli_to_dict r) m; Ok (mkRow (ops r') (neg r))
  else Err ValueError.
Proof.
  unfold pauli_to_string. cbv zeta. change (if neg r then "-" else "+") with (sign_str (neg r)).
  unfold string_to_pauli. cbv zeta. rewrite !remove_app.
  replace (remove_char " " (sign_str (neg r))) with (sign_str (neg r)) by (destruct (neg r); reflexivity).
  replace (remove_char "_" (sign_str (neg r))) with (sign_str (neg r)) by (destruct (neg r); reflexivity).
  rewrite (short_remove " " (ops r)) by auto. cbn [Ascii.eqb Bool.eqb].
  pose proof (comps_letters (ops r) 0) as CL. pose proof (comps_dict (ops r) 0) as CD. fold (pauli_to_dict r) in CD.
  assert (RT : remove_char "_" (tight (comps 0 (ops r))) = tight (comps 0 (ops r))).
  { apply remove_none. clear CD. induction (comps 0 (ops r)) as [|[q a] l IH]; cbn [tight allc]; auto.
    inversion CL as [|? ? F1 F2]; subst. destruct (letter_facts a F1) as (_ & -> & _). cbn [negb andb]. rewrite allc_app.
    rewrite IH by auto. rewrite andb_true_r. eapply allc_weaken; [|apply show_nat_digits]. intros c Hc. destruct (digit_facts c Hc) as [_ ->]. auto. }
  rewrite RT. destruct (existsb nonid (ops r)) eqn:NI.
  - destruct (comps 0 (ops r)) as [|[q a] l] eqn:EC.
    { exfalso. cbn in CD. apply (to_dict_nonempty (ops r) 0 NI). auto. }
    assert (AD : any_digit (sign_str (neg r) ++ tight ((q, a) :: l))%string = true).
    { rewrite any_digit_app. apply orb_true_iff. right. cbn [tight any_digit]. rewrite any_digit_app.
      pose proof (show_nat_digits q). destruct (show_int (Z.of_nat q)) eqn:E. destruct (show_nat_nonempty q E).
      cbn [allc] in H. apply andb_true_iff in H. destruct H as [H _]. cbn [any_digit]. rewrite H. cbn. apply orb_true_r. }
    rewrite AD. rewrite findall_sign; auto.
    2: { pose proof (tight_length ((q, a) :: l)). cbn [List.length] in H.
         destruct (neg r); cbn [sign_str String.append String.length]; lia. }
    assert (KS : NoDup (map fst ((q, a) :: l))).
    { destruct (to_dict_keys (ops r) 0) as [A _]. fold (pauli_to_dict r) in A. rewrite <- CD, map_map in A. exact A. }
    pose proof (comp_steps ((q, a) :: l) [] ((q, (neg r, a)) :: map (fun c => (fst c, (false, snd c))) l)) as CS.
    cbn [map fst snd app] in CS. rewrite !map_map in CS. cbn [fst snd] in CS.
    cbv beta iota. rewrite CS; auto. cbn [bindR fst]. cbn [map fst snd] in CD. rewrite CD. auto.
  - pose proof (to_dict_empty (ops r) 0 NI) as TE. fold (pauli_to_dict r) in TE. rewrite TE in CD.
    destruct (comps 0 (ops r)); [|discriminate]. destruct (neg r); reflexivity.
Qed.
