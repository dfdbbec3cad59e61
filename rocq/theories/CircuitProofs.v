(** Circuit construction, text format and counters. *)
Require Import List Bool Arith ZArith QArith Lia String Ascii.
Require Import DecimalString Decimal DecimalZ DecimalFacts.
From Verif Require Import Base BaseProofs CircuitModel CircuitSpec.
Import ListNotations.
Local Open Scope string_scope.
Local Open Scope nat_scope.
Local Open Scope list_scope.

(** * append stores exactly the shapes of [stored] *)
Lemma mem_str_In s l : mem_str s l = true <-> In s l.
Proof.
  unfold mem_str. rewrite existsb_exists. split.
  - intros (x & Hx & E). apply String.eqb_eq in E. subst; auto.
  - intros H. exists s. split; auto. apply String.eqb_refl.
Qed.

Lemma gate_names_allowed s : In s gate_names <-> In s allowed_gates.
Proof. unfold gate_names, allowed_gates, error_gates, deterministic_gates. simpl. tauto. Qed.

Lemma mapR_length {A B} (f : A -> Res B) l : forall l', mapR f l = Ok l' -> List.length l' = List.length l.
Proof.
  induction l as [|a l IH]; intros l' E; cbn [mapR] in E.
  - injection E as <-. auto.
  - destruct (f a); [|discriminate]. cbn [bindR] in E. destruct (mapR f l); [|discriminate]. cbn [bindR] in E.
    injection E as <-. simpl. rewrite (IH _ eq_refl). auto.
Qed.

Lemma gate_name_In a s : gate_name a = Ok s -> a = RStr s /\ In s gate_names.
Proof.
  destruct a; cbn [gate_name]; try discriminate. destruct (mem_str s0 allowed_gates) eqn:E; try discriminate.
  intros E2. injection E2 as E2. subst s0. split; auto. apply gate_names_allowed, mem_str_In; auto.
Qed.

Lemma make_gate_stored rf name args gt : make_gate rf name args = Ok gt -> stored gt.
Proof.
  unfold make_gate.
  destruct (String.eqb_spec name "ERROR") as [E1|N1], (String.eqb_spec name "ERROR_ELSE") as [E2|N2]; cbn [orb];
  try (destruct args as [|a args]; [discriminate|];
       destruct (to_float rf a) as [p|]; [|discriminate]; cbn [bindR];
       destruct (Qle_bool 0 p && Qle_bool p 1) eqn:EP; [|discriminate]; cbn [negb];
       apply andb_true_iff in EP; destruct EP as [P1 P2]; apply Qle_bool_iff in P1, P2;
       destruct args as [|a2 args]; [discriminate|];
       destruct (gate_name a2) as [nm|] eqn:EN; [|discriminate]; cbn [bindR]; apply gate_name_In in EN;
       destruct (mapR to_int args) as [zs|]; [|discriminate]; cbn [bindR]; intros [= <-];
       apply st_error; tauto).
  destruct (String.eqb_spec name "ERROR_CONTINUE") as [->|].
  { destruct args as [|a2 args]; [discriminate|].
    destruct (gate_name a2) as [nm|] eqn:EN; [|discriminate]; cbn [bindR]; apply gate_name_In in EN.
    destruct (mapR to_int args) as [zs|]; [|discriminate]; cbn [bindR]; intros [= <-].
    apply st_continue; tauto. }
  destruct (String.eqb_spec name "E_ERASE") as [->|].
  { destruct args as [|a [|b [|]]]; try discriminate.
    destruct (to_float rf a); [|discriminate]. destruct (to_int b); [|discriminate].
    intros [= <-]. constructor. }
  destruct (String.eqb_spec name "E_PAULI") as [->|].
  { destruct (Nat.eqb_spec (List.length args) 4) as [L|]; [|discriminate]. cbn [negb].
    destruct (mapR (to_float rf) (firstn 3 args)) as [ps|] eqn:EP; [|discriminate]. cbn [bindR].
    destruct (mapR to_int (skipn 3 args)) as [zs|] eqn:EZ; [|discriminate]. cbn [bindR].
    apply mapR_length in EP, EZ. rewrite firstn_length_le in EP by lia. rewrite skipn_length, L in EZ.
    destruct ps as [|p1 [|p2 [|p3 [|]]]]; try discriminate. destruct zs as [|z [|]]; try discriminate.
    intros [= <-]. constructor. }
  destruct (String.eqb_spec name "E_PAULI2") as [->|].
  { destruct (Nat.eqb_spec (List.length args) 17) as [L|]; [|discriminate]. cbn [negb].
    destruct (mapR (to_float rf) (firstn 15 args)) as [ps|] eqn:EP; [|discriminate]. cbn [bindR].
    destruct (mapR to_int (skipn 15 args)) as [zs|] eqn:EZ; [|discriminate]. cbn [bindR].
    apply mapR_length in EP, EZ. rewrite firstn_length_le in EP by lia. rewrite skipn_length, L in EZ.
    destruct zs as [|z [|z2 [|]]]; try discriminate.
    intros [= <-]. apply st_pauli2. auto. }
  destruct (mem_str name deterministic_gates) eqn:EM; [|discriminate].
  destruct (mapR to_int args) as [zs|[]]; try discriminate. intros [= <-].
  apply st_plain. apply mem_str_In in EM. auto.
Qed.

Lemma append_stored rf : forall calls c c', Forall stored c ->
  foldR (fun c call => append rf c (fst call) (snd call)) calls c = Ok c' -> Forall stored c'.
Proof.
  induction calls as [|[nm args] calls IH]; intros c c' H E; cbn [foldR] in E.
  - injection E as <-. auto.
  - cbn [fst snd] in E. destruct (append rf c nm args) as [c1|] eqn:E1; [|discriminate]. cbn [bindR] in E.
    unfold append in E1. destruct (make_gate rf nm args) as [gt|] eqn:E2; [|discriminate]. injection E1 as <-.
    eapply IH; [|apply E]. apply Forall_app. split; auto. constructor; auto. eapply make_gate_stored; eauto.
Qed.

(** * Characters *)
Fixpoint allc (p : ascii -> bool) (s : string) : bool :=
  match s with EmptyString => true | String a s' => p a && allc p s' end.

Lemma allc_app p a b : allc p (a ++ b)%string = allc p a && allc p b.
Proof. induction a; simpl; auto. rewrite IHa. apply andb_assoc. Qed.
Lemma allc_weaken p q s : (forall c, p c = true -> q c = true) -> allc p s = true -> allc q s = true.
Proof. intros H. induction s; simpl; auto. rewrite !andb_true_iff. intros [A B]. auto. Qed.

(** A word: not empty, no space, no '#'. *)
Definition word_char (c : ascii) : bool := negb (is_space c) && negb (Ascii.eqb c "#"%char).
Definition is_word (s : string) : Prop := s <> "" /\ allc word_char s = true.

Lemma lstrip_nospace s : allc (fun c => negb (is_space c)) s = true -> lstrip s = s.
Proof. destruct s; simpl; auto. destruct (is_space a); simpl; auto; discriminate. Qed.
Lemma rstrip_nospace s : allc (fun c => negb (is_space c)) s = true -> rstrip s = s.
Proof.
  induction s; simpl; auto. rewrite andb_true_iff, negb_true_iff. intros [A B]. rewrite IHs, A by auto.
  destruct s; auto.
Qed.
Lemma strip_nospace s : allc (fun c => negb (is_space c)) s = true -> strip s = s.
Proof. intros H. unfold strip. rewrite lstrip_nospace by auto. apply rstrip_nospace; auto. Qed.

(** * Integers *)
Definition num_char (c : ascii) : bool := is_digit c || Ascii.eqb c "-"%char.

Lemma uint_digits u : allc is_digit (NilEmpty.string_of_uint u) = true.
Proof. induction u; simpl; auto. Qed.
Lemma nz_uint_digits u : allc is_digit (NilZero.string_of_uint u) = true.
Proof. destruct u; simpl; auto; apply uint_digits. Qed.
Lemma show_int_chars z : allc num_char (show_int z) = true.
Proof.
  unfold show_int. destruct (Z.to_int z); simpl.
  - eapply allc_weaken; [|apply nz_uint_digits]. unfold num_char. intros c ->. auto.
  - eapply allc_weaken; [|apply nz_uint_digits]. unfold num_char. intros c ->. auto.
Qed.

Lemma num_char_facts c : num_char c = true ->
  is_space c = false /\ Ascii.eqb c "#"%char = false /\ Ascii.eqb c "_"%char = false /\ Ascii.eqb c "+"%char = false.
Proof.
  unfold num_char, is_digit, is_space. destruct c as [[] [] [] [] [] [] [] []]; cbn; auto; discriminate.
Qed.

Lemma drop_underscores_num : forall s b, allc num_char s = true -> drop_underscores b s = Some s.
Proof.
  induction s; intros b H; cbn [drop_underscores allc] in *; auto. apply andb_true_iff in H. destruct H as [A B].
  destruct (num_char_facts a A) as (_ & _ & -> & _). rewrite IHs; auto.
Qed.

Lemma to_int_nonnil z : Z.to_int z <> Pos Nil /\ Z.to_int z <> Neg Nil.
Proof.
  destruct z; simpl; split; try discriminate.
  - intros [= H]. pose proof (DecimalPos.Unsigned.to_uint_nonnil p). auto.
  - intros [= H]. pose proof (DecimalPos.Unsigned.to_uint_nonnil p). auto.
Qed.

Lemma py_int_show z : py_int (show_int z) = Some z.
Proof.
  pose proof (show_int_chars z) as H. unfold py_int. rewrite strip_nospace.
  2: { eapply allc_weaken; [|apply H]. intros c Hc. destruct (num_char_facts c Hc) as (-> & _). auto. }
  assert (E : forall t, t = show_int z -> match t with
           | String c (String d r) => if Ascii.eqb c "+"%char && is_digit d then String d r else t
           | _ => t
           end = t).
  { intros t ->. destruct (show_int z) as [|c [|d r]]; auto. cbn [allc] in H. apply andb_true_iff in H. destruct H as [A _].
    destruct (num_char_facts c A) as (_ & _ & _ & ->). auto. }
  cbv zeta. rewrite (E _ eq_refl).
  rewrite drop_underscores_num by auto. unfold show_int. destruct (to_int_nonnil z).
  rewrite NilZero.isi by auto. rewrite DecimalZ.of_to. auto.
Qed.

Lemma num_word_char c : num_char c = true -> word_char c = true.
Proof. intros H. destruct (num_char_facts c H) as (A & B & _). unfold word_char. rewrite A, B. auto. Qed.
Lemma show_int_word z : is_word (show_int z).
Proof.
  split.
  - unfold show_int. destruct (Z.to_int z) as [u|u]; simpl; [destruct u; discriminate|discriminate].
  - eapply allc_weaken; [|apply show_int_chars]. apply num_word_char.
Qed.

(** * Splitting into words *)
Definition words (l : string) : list string := split_ws (strip (before_hash l)).

Lemma split_ws_cons_space a s : is_space a = true -> split_ws (String a s) = split_ws s.
Proof.
  intros H. unfold split_ws. cbn [split_ws_aux]. destruct (split_ws_aux s) as [l w]. rewrite H. destruct w; auto.
Qed.
Lemma split_ws_lstrip s : split_ws (lstrip s) = split_ws s.
Proof.
  induction s; auto. cbn [lstrip]. destruct (is_space a) eqn:E; auto. rewrite split_ws_cons_space; auto.
Qed.
Lemma split_aux_rstrip s : split_ws_aux (rstrip s) = split_ws_aux s.
Proof.
  induction s; auto. cbn [rstrip split_ws_aux].
  assert (X : split_ws_aux (match rstrip s with "" => if is_space a then "" else String a "" | _ => String a (rstrip s) end)
    = split_ws_aux (String a (rstrip s)) \/ rstrip s = "" /\ is_space a = true).
  { destruct (rstrip s) eqn:E; auto. destruct (is_space a) eqn:E2; auto. }
  destruct X as [X | [X1 X2]].
  - destruct (rstrip s) eqn:E.
    + destruct (is_space a) eqn:E2.
      * rewrite <- IHs. auto.
      * rewrite <- IHs. cbn. rewrite E2. auto.
    + rewrite <- IHs. reflexivity.
  - rewrite X1, X2 in *. rewrite <- IHs. reflexivity.
Qed.
Lemma split_ws_strip s : split_ws (strip s) = split_ws s.
Proof. unfold strip, split_ws. rewrite split_aux_rstrip. apply split_ws_lstrip. Qed.

Lemma words_eq l : words l = split_ws (before_hash l).
Proof. apply split_ws_strip. Qed.

Definition nonblank (w : list string) : bool := match w with [] => false | _ => true end.
Definition wl (s : string) : list (list string) := filter nonblank (map words (split_on newline s)).

Lemma space_not_hash a : is_space a = true -> Ascii.eqb a "#"%char = false.
Proof. destruct a as [[] [] [] [] [] [] [] []]; cbn; auto; discriminate. Qed.
Lemma newline_space : is_space newline = true. Proof. reflexivity. Qed.

Lemma words_space a s : is_space a = true -> words (String a s) = words s.
Proof.
  intros H. rewrite !words_eq. cbn [before_hash]. rewrite space_not_hash by auto. apply split_ws_cons_space; auto.
Qed.

Lemma split_on_cons c s : exists h t, split_on c s = h :: t.
Proof. destruct s; cbn [split_on]; eauto. destruct (Ascii.eqb a c); eauto. destruct (split_on c s); eauto. Qed.

Lemma wl_newline s : wl (String newline s) = wl s.
Proof. unfold wl. cbn [split_on]. rewrite Ascii.eqb_refl. reflexivity. Qed.
Lemma wl_space a s : is_space a = true -> wl (String a s) = wl s.
Proof.
  intros H. destruct (Ascii.eqb a newline) eqn:E.
  - apply Ascii.eqb_eq in E. subst. apply wl_newline.
  - unfold wl. cbn [split_on]. rewrite E. destruct (split_on_cons newline s) as (h & t & ->).
    cbn [map]. rewrite words_space by auto. auto.
Qed.
Lemma wl_lstrip s : wl (lstrip s) = wl s.
Proof. induction s; auto. cbn [lstrip]. destruct (is_space a) eqn:E; auto. rewrite wl_space; auto. Qed.


Lemma split_aux_snoc a s : is_space a = true -> split_ws_aux (s ++ String a "") = split_ws_aux s.
Proof. intros H. induction s as [|b s IH]; cbn [String.append split_ws_aux]. rewrite H; auto. rewrite IH; auto. Qed.
Lemma words_snoc a s : is_space a = true -> words (s ++ String a "") = words s.
Proof.
  intros H. rewrite !words_eq.
  assert (X : before_hash (s ++ String a "") = before_hash s \/ before_hash (s ++ String a "") = (before_hash s ++ String a "")%string).
  { induction s as [|b s IH]; cbn [String.append before_hash]. rewrite space_not_hash by auto; auto.
    destruct (Ascii.eqb b "#"); auto. destruct IH as [-> | ->]; auto. }
  destruct X as [-> | ->]; auto. unfold split_ws. rewrite split_aux_snoc; auto.
Qed.
Lemma split_on_snoc_nl x : split_on newline (x ++ String newline "") = split_on newline x ++ [""].
Proof.
  induction x as [|b x IH]. reflexivity. cbn [String.append split_on]. rewrite IH.
  destruct (Ascii.eqb b newline); auto. destruct (split_on_cons newline x) as (h & t & ->). auto.
Qed.
Lemma split_on_snoc a x : Ascii.eqb a newline = false -> exists t l,
  split_on newline x = t ++ [l] /\ split_on newline (x ++ String a "") = t ++ [(l ++ String a "")%string].
Proof.
  intros H. induction x as [|b x (t & l & E1 & E2)].
  - exists [], "". cbn [String.append split_on]. split; auto. rewrite H. auto.
  - cbn [String.append split_on]. rewrite E1, E2. destruct (Ascii.eqb b newline).
    + exists ("" :: t), l. auto.
    + destruct t as [|h t]; cbn [app].
      * exists [], (String b l). auto.
      * exists (String b h :: t), l. auto.
Qed.
Lemma wl_snoc a x : is_space a = true -> wl (x ++ String a "") = wl x.
Proof.
  intros H. unfold wl. destruct (Ascii.eqb a newline) eqn:E.
  - apply Ascii.eqb_eq in E. subst. rewrite split_on_snoc_nl, map_app, filter_app. cbn. apply List.app_nil_r.
  - destruct (split_on_snoc a x E) as (t & l & -> & ->). rewrite !map_app. cbn [map]. rewrite words_snoc by auto. auto.
Qed.
Lemma sapp_assoc a b c : ((a ++ b) ++ c = a ++ (b ++ c))%string.
Proof. induction a; simpl; auto. rewrite IHa; auto. Qed.
Lemma sapp_nil a : (a ++ "" = a)%string.
Proof. induction a; simpl; auto. rewrite IHa; auto. Qed.
Lemma wl_blank s : forall x, allc is_space s = true -> wl (x ++ s) = wl x.
Proof.
  induction s; intros x H. rewrite sapp_nil; auto. cbn [allc] in H. apply andb_true_iff in H. destruct H as [A B].
  replace (x ++ String a s)%string with ((x ++ String a "") ++ s)%string by (rewrite sapp_assoc; auto).
  rewrite IHs by auto. apply wl_snoc; auto.
Qed.
Lemma rstrip_empty s : rstrip s = "" -> allc is_space s = true.
Proof.
  induction s; auto. cbn [rstrip allc]. destruct (rstrip s) eqn:E; [|discriminate].
  destruct (is_space a); [|discriminate]. auto.
Qed.
Lemma wl_rstrip_pre s : forall x, wl (x ++ rstrip s) = wl (x ++ s).
Proof.
  induction s; intros x; auto. cbn [rstrip].
  assert (EX : forall r, (x ++ String a r = (x ++ String a "") ++ r)%string) by (intros; rewrite sapp_assoc; auto).
  destruct (rstrip s) eqn:E.
  - apply rstrip_empty in E. rewrite (EX s), (wl_blank s) by auto. destruct (is_space a) eqn:E2; auto.
    rewrite sapp_nil, wl_snoc; auto.
  - rewrite EX, (EX s). apply IHs.
Qed.
Lemma wl_strip s : wl (strip s) = wl s.
Proof.
  unfold strip. etransitivity; [exact (wl_rstrip_pre (lstrip s) "")|]. apply wl_lstrip.
Qed.

(** Appending text = appending the words of its lines. *)
Definition append_words rf (c : circuit) (ws : list string) : Res circuit :=
  append rf c (hd "" ws) (map RStr (tl ws)).

Lemma append_from_str_words rf c s : append_from_str rf c s = foldR (append_words rf) (wl s) c.
Proof.
  unfold append_from_str. rewrite <- wl_strip. unfold wl. generalize (split_on newline (strip s)).
  intros ls. revert c. induction ls as [|l ls IH]; intros c; auto.
  cbn [foldR map filter]. unfold append_line at 1. fold (words l). destruct (words l) as [|w ws]; cbn [nonblank bindR].
  - apply IH.
  - cbn [foldR]. unfold append_words at 1. cbn [hd tl]. destruct (append rf c w (map RStr ws)); cbn [bindR]; auto.
Qed.

(** * Joining and splitting *)
Lemma word_no_space s : is_word s -> allc (fun c => negb (is_space c)) s = true.
Proof. intros [_ H]. eapply allc_weaken; [|apply H]. intros c. unfold word_char. rewrite andb_true_iff. tauto. Qed.

Lemma split_aux_word w s l : is_word w -> split_ws_aux s = (l, "") -> split_ws_aux (w ++ s) = (l, w).
Proof.
  intros H E. apply word_no_space in H. clear -H E. induction w; cbn [String.append split_ws_aux allc] in *; auto.
  apply andb_true_iff in H. destruct H as [A B]. apply negb_true_iff in A. rewrite IHw, A by auto. auto.
Qed.

Lemma split_join ws : Forall is_word ws -> ws <> [] -> split_ws_aux (join " " ws) = (tl ws, hd "" ws).
Proof.
  induction 1 as [|w ws Hw HF IH]; intros N. congruence.
  destruct ws as [|w2 ws].
  - cbn [join]. rewrite <- (sapp_nil w) at 1. apply split_aux_word; auto.
  - cbn [hd tl]. change (join " " (w :: w2 :: ws)) with (w ++ " " ++ join " " (w2 :: ws))%string.
    apply split_aux_word; auto. cbn [String.append split_ws_aux]. rewrite IH by discriminate. cbn [hd tl].
    inversion HF as [|? ? [N2 _]]; subst. destruct w2; [congruence|]. reflexivity.
Qed.

Lemma allc_join p sep ws : allc p sep = true -> Forall (fun w => allc p w = true) ws -> allc p (join sep ws) = true.
Proof.
  intros HS. induction 1 as [|w [|w2 ws] H H2 IH]; auto.
  change (join sep (w :: w2 :: ws)) with (w ++ sep ++ join sep (w2 :: ws))%string.
  rewrite !allc_app, H, HS, IH. auto.
Qed.

Lemma before_hash_none s : allc (fun c => negb (Ascii.eqb c "#"%char)) s = true -> before_hash s = s.
Proof.
  induction s; cbn [allc before_hash]; auto. rewrite andb_true_iff, negb_true_iff. intros [-> B]. rewrite IHs; auto.
Qed.
Lemma word_no_hash s : is_word s -> allc (fun c => negb (Ascii.eqb c "#"%char)) s = true.
Proof. intros [_ H]. eapply allc_weaken; [|apply H]. intros c. unfold word_char. rewrite andb_true_iff. tauto. Qed.
Lemma word_no_nl s : is_word s -> allc (fun c => negb (Ascii.eqb c newline)) s = true.
Proof.
  intros [_ H]. eapply allc_weaken; [|apply H]. intros c. unfold word_char. rewrite andb_true_iff.
  intros [A _]. destruct (Ascii.eqb_spec c newline); auto. subst. discriminate.
Qed.

Lemma words_join ws : Forall is_word ws -> words (join " " ws) = ws.
Proof.
  intros H. rewrite words_eq, before_hash_none.
  - unfold split_ws. destruct ws as [|w ws]; auto. rewrite split_join by (auto; discriminate). cbn [hd tl].
    inversion H as [|? ? [N _]]; subst. destruct w; [congruence|auto].
  - apply allc_join; auto. eapply Forall_impl; [|apply H]. apply word_no_hash.
Qed.

Lemma split_on_none c s : allc (fun a => negb (Ascii.eqb a c)) s = true -> split_on c s = [s].
Proof.
  induction s; cbn [allc split_on]; auto. rewrite andb_true_iff, negb_true_iff. intros [-> B]. rewrite IHs; auto.
Qed.
Lemma split_on_app c s r : allc (fun a => negb (Ascii.eqb a c)) s = true ->
  split_on c (s ++ String c r) = s :: split_on c r.
Proof.
  induction s; cbn [allc split_on String.append]. rewrite Ascii.eqb_refl; auto.
  rewrite andb_true_iff, negb_true_iff. intros [-> B]. rewrite IHs; auto.
Qed.
Lemma split_on_join c ls : ls <> [] -> Forall (fun s => allc (fun a => negb (Ascii.eqb a c)) s = true) ls ->
  split_on c (join (String c "") ls) = ls.
Proof.
  intros N H. induction H as [|l [|l2 ls] H H2 IH]; [congruence| |].
  - apply split_on_none; auto.
  - change (join (String c "") (l :: l2 :: ls)) with (l ++ String c (join (String c "") (l2 :: ls)))%string.
    rewrite split_on_app by auto. rewrite IH by discriminate. auto.
Qed.

(** Any list of lines, each a list of words: the text parses back to the append calls. *)
Lemma text_calls rf c (lines : list (list string)) :
  Forall (fun ws => ws <> [] /\ Forall is_word ws) lines ->
  append_from_str rf c (join (String newline "") (map (join " ") lines)) = foldR (append_words rf) lines c.
Proof.
  intros H. rewrite append_from_str_words. f_equal. unfold wl.
  destruct lines as [|l lines]; [reflexivity|].
  rewrite split_on_join.
  - assert (E : forall ls, Forall (fun ws => ws <> [] /\ Forall is_word ws) ls -> filter nonblank (map words (map (join " ") ls)) = ls).
    { induction 1 as [|ws ls [N F] _ IH]; auto. cbn [map filter]. rewrite words_join by auto.
      destruct ws; [congruence|]. cbn [nonblank]. rewrite IH; auto. }
    apply E; auto.
  - discriminate.
  - apply Forall_map. eapply Forall_impl; [|apply H]. intros ws [_ F]. apply allc_join; auto.
    eapply Forall_impl; [|apply F]. apply word_no_nl.
Qed.

(** * Round trip *)
Section RoundTrip.
Variable rf : string -> option Q.
Variable sf : Q -> string.
Hypothesis Hrt : forall p, rf (sf p) = Some p.
Hypothesis Hword : forall p, is_word (sf p).

Lemma mapR_ints zs : mapR to_int (map RStr (map show_int zs)) = Ok zs.
Proof. induction zs; simpl; auto. rewrite py_int_show. cbn [bindR]. rewrite IHzs. auto. Qed.
Lemma mapR_floats ps : mapR (to_float rf) (map RStr (map sf ps)) = Ok ps.
Proof. induction ps; simpl; auto. rewrite Hrt. cbn [bindR]. rewrite IHps. auto. Qed.
Lemma map_show_ints zs : map (show_arg sf) (map AInt zs) = map show_int zs.
Proof. rewrite map_map. auto. Qed.
Lemma map_show_floats zs : map (show_arg sf) (map AFlt zs) = map sf zs.
Proof. rewrite map_map. auto. Qed.

Lemma gate_name_ok s : In s gate_names -> gate_name (RStr s) = Ok s.
Proof.
  intros H. cbn [gate_name]. rewrite (proj2 (mem_str_In s allowed_gates)); auto. apply gate_names_allowed; auto.
Qed.

Lemma gate_name_word s : In s gate_names -> is_word s.
Proof.
  intros H. simpl in H. repeat (destruct H as [<- | H]; [split; [discriminate|reflexivity]|]). tauto.
Qed.

Lemma stored_words gt : stored gt -> is_word (fst gt) /\ Forall is_word (map (show_arg sf) (snd gt)).
Proof.
  assert (HI : forall zs, Forall is_word (map (show_arg sf) (map AInt zs))).
  { intros. rewrite map_show_ints. apply Forall_map, Forall_forall. intros. apply show_int_word. }
  assert (HF : forall ps, Forall is_word (map (show_arg sf) (map AFlt ps))).
  { intros. rewrite map_show_floats. apply Forall_map, Forall_forall. intros. apply Hword. }
  intros H. inversion H; subst; cbn [fst snd map show_arg].
  - split. { apply gate_name_word. simpl. intuition. } constructor; auto. constructor; auto. apply gate_name_word; auto.
  - split. { apply gate_name_word. simpl. intuition. } constructor; auto. apply gate_name_word; auto.
  - split. { apply gate_name_word. simpl. intuition. } repeat constructor; try apply Hword; apply show_int_word.
  - split. { apply gate_name_word. simpl. intuition. } repeat constructor; try apply Hword; apply show_int_word.
  - split. { apply gate_name_word. simpl. intuition. } rewrite map_app. apply Forall_app. split; auto.
    repeat constructor; apply show_int_word.
  - split; auto. apply gate_name_word. simpl in *. intuition.
Qed.

Lemma stored_remake gt : stored gt ->
  make_gate rf (fst gt) (map RStr (map (show_arg sf) (snd gt))) = Ok gt.
Proof.
  intros H. inversion H; subst; cbn [fst snd].
  - cbn [map show_arg]. rewrite map_show_ints. unfold make_gate.
    assert (E : String.eqb name "ERROR" || String.eqb name "ERROR_ELSE" = true) by (destruct H0 as [-> | ->]; auto).
    rewrite E. cbn [to_float]. rewrite Hrt. cbn [bindR].
    rewrite (proj2 (Qle_bool_iff 0 p)), (proj2 (Qle_bool_iff p 1)) by auto. cbn [andb negb].
    rewrite gate_name_ok by auto. cbn [bindR]. rewrite mapR_ints. auto.
  - cbn [map show_arg]. rewrite map_show_ints. unfold make_gate. cbn [String.eqb Ascii.eqb Bool.eqb orb].
    rewrite gate_name_ok by auto. cbn [bindR]. rewrite mapR_ints. auto.
  - unfold make_gate. cbn. rewrite Hrt, py_int_show. auto.
  - unfold make_gate. cbn. rewrite !Hrt, py_int_show. auto.
  - unfold make_gate. cbn [String.eqb Ascii.eqb Bool.eqb orb].
    rewrite !map_app, !app_length, !map_length, H0. cbn [map List.length Nat.add Nat.eqb negb show_arg].
    rewrite map_show_floats.
    rewrite firstn_app, skipn_app, !map_length, H0. cbn [Nat.sub].
    rewrite firstn_O, List.app_nil_r.
    rewrite firstn_all2, skipn_all2 by (rewrite !map_length; lia). rewrite skipn_O; cbn [List.app].
    rewrite mapR_floats. cbn [bindR]. pose proof (mapR_ints [z1; z2]) as E. cbn [map] in E. rewrite E. auto.
  - unfold make_gate. rewrite map_show_ints, mapR_ints.
    simpl in H0. repeat (destruct H0 as [<- | H0]; [reflexivity|]). tauto.
Qed.

Lemma join_space_cons n l : n <> "" -> join " " (n :: l) = match l with [] => n | _ => (n ++ " " ++ join " " l)%string end.
Proof. destruct l; auto. Qed.

Lemma words_show gt : stored gt -> words (show_gate sf gt) = fst gt :: map (show_arg sf) (snd gt).
Proof.
  intros H. destruct (stored_words gt H) as [W F]. unfold show_gate.
  destruct (map (show_arg sf) (snd gt)) as [|a l] eqn:E.
  - cbn [join]. cbn [String.append].
    change (fst gt ++ " ")%string with (fst gt ++ String " " "")%string. rewrite words_snoc by auto.
    apply (words_join [fst gt]); auto.
  - change (fst gt ++ " " ++ join " " (a :: l))%string with (join " " (fst gt :: a :: l)). apply words_join; auto.
Qed.

Lemma show_no_nl gt : stored gt -> allc (fun c => negb (Ascii.eqb c newline)) (show_gate sf gt) = true.
Proof.
  intros H. destruct (stored_words gt H) as [W F]. unfold show_gate. rewrite !allc_app.
  rewrite word_no_nl by auto. cbn [allc]. rewrite allc_join; auto.
  eapply Forall_impl; [|apply F]. apply word_no_nl.
Qed.

Lemma from_str_show c : Forall stored c -> from_str rf (show_circuit sf c) = Ok c.
Proof.
  intros H. unfold from_str. rewrite append_from_str_words.
  assert (E : wl (show_circuit sf c) = map (fun gt => fst gt :: map (show_arg sf) (snd gt)) c).
  { unfold wl, show_circuit. destruct c as [|gt c]; [reflexivity|].
    rewrite split_on_join.
    - rewrite map_map. revert H. generalize (gt :: c). clear gt c.
      induction 1 as [|gt c G _ IH]; auto. cbn [map filter]. rewrite words_show by auto. cbn [nonblank]. rewrite IH. auto.
    - discriminate.
    - apply Forall_map. eapply Forall_impl; [|apply H]. apply show_no_nl. }
  rewrite E. clear E.
  assert (X : forall l pre, Forall stored l ->
    foldR (append_words rf) (map (fun gt => fst gt :: map (show_arg sf) (snd gt)) l) pre = Ok (pre ++ l)).
  { induction l as [|gt l IH]; intros pre F; cbn [map foldR]. rewrite List.app_nil_r; auto.
    inversion F; subst. unfold append_words at 1. cbn [hd tl]. unfold append. rewrite stored_remake by auto.
    cbn [bindR]. rewrite IH by auto. rewrite <- List.app_assoc. auto. }
  apply (X c []); auto.
Qed.
End RoundTrip.
