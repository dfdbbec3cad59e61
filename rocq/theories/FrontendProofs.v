(** Proofs about the configuration objects. *)
Require Import String List Bool Arith ZArith QArith Lia Permutation.
From Verif Require Import Base FrontendModel FrontendSpec.
Import ListNotations.
Local Open Scope string_scope.
Local Open Scope nat_scope.
Local Open Scope list_scope.

(** * Dictionaries *)
Definition getd (k : string) (def : pyval) (d : pydict) : pyval :=
  match find (fun kv => String.eqb (fst kv) k) d with Some kv => snd kv | None => def end.
Lemma lookup_getd k d : lookup k d = getd k PNone d.
Proof. reflexivity. Qed.
Lemma has_key_spec k d : has_key k d = true <-> In k (map fst d).
Proof.
  unfold has_key. rewrite existsb_exists, in_map_iff. split; intros (x & H1 & H2).
  - apply String.eqb_eq in H2. eauto.
  - exists x. split; auto. subst. apply String.eqb_refl.
Qed.
Lemma bound_in k v d : bound k v d -> In k (map fst d).
Proof. induction 1; simpl; auto. Qed.
Lemma entry_getd d k def v : entry d k def v <-> v = getd k def d.
Proof.
  unfold entry, absent, getd. induction d as [|[k' w] d IH]; simpl.
  - split; [intros [H|[_ H]]; [inversion H|exact H]|intros ->; right; auto].
  - destruct (String.eqb_spec k' k) as [->|N]; simpl.
    + split.
      * intros [H|[H _]]; [inversion H; [reflexivity|congruence]|exfalso; apply H; auto].
      * intros ->. left. constructor.
    + rewrite <- IH. split; (intros [H|[H E]]; [left|right]).
      * inversion H; [congruence|assumption].
      * split; [tauto|exact E].
      * constructor; auto.
      * split; [intros [?|?]; tauto|exact E].
Qed.
Lemma bound_getd d k v : bound k v d -> forall def, v = getd k def d.
Proof. intros H def. apply entry_getd. left. exact H. Qed.
Lemma absent_getd d k : absent k d -> forall def, getd k def d = def.
Proof. intros H def. symmetry. apply entry_getd. right. auto. Qed.
Lemma absent_or d k : absent k d \/ exists v, bound k v d.
Proof.
  destruct (in_dec string_dec k (map fst d)) as [H|H]; [right|left; exact H].
  destruct (proj2 (entry_getd d k PNone _) eq_refl) as [B|[A _]]; [eauto|exfalso; apply A; exact H].
Qed.
Lemma getd_app k def d e : getd k def (d ++ e) = getd k (getd k def e) d.
Proof. unfold getd. induction d as [|[k' w] d IH]; simpl; [reflexivity|]. destruct (String.eqb k' k); [reflexivity|exact IH]. Qed.
Lemma getd_has k d : has_key k d = true -> forall x y, getd k x d = getd k y d.
Proof.
  intros H x y. apply has_key_spec in H.
  destruct (absent_or d k) as [A|[v B]]; [exfalso; apply A; exact H|]. rewrite <- (bound_getd _ _ _ B x). apply (bound_getd _ _ _ B).
Qed.
Lemma getd_not_has k d : has_key k d = false -> forall x, getd k x d = x.
Proof. intros H x. apply absent_getd. intros I. apply has_key_spec in I. congruence. Qed.
Lemma getd_setdefault k x k' v d : getd k x (setdefault k' v d) = if String.eqb k k' then getd k v d else getd k x d.
Proof.
  unfold setdefault. destruct (String.eqb_spec k k') as [->|N].
  - destruct (has_key k' d) eqn:E; [apply getd_has; exact E|].
    rewrite getd_app. unfold getd at 2. simpl. rewrite String.eqb_refl. reflexivity.
  - destruct (has_key k' d) eqn:E; [reflexivity|].
    rewrite getd_app. unfold getd at 2. simpl. destruct (String.eqb_spec k' k); [congruence|reflexivity].
Qed.
Lemma getd_store k x k' v d : getd k x (store k' v d) = if String.eqb k k' then v else getd k x d.
Proof.
  unfold store. destruct (has_key k' d) eqn:E.
  - destruct (String.eqb_spec k k') as [->|N].
    + apply has_key_spec in E. clear -E. unfold getd. induction d as [|[a b] d IH]; simpl in *; [contradiction|].
      destruct (String.eqb_spec a k') as [->|M]; simpl.
      * rewrite String.eqb_refl. reflexivity.
      * destruct (String.eqb_spec a k'); [congruence|]. apply IH. destruct E; [congruence|assumption].
    + unfold getd. clear E. induction d as [|[a b] d IH]; simpl; [reflexivity|].
      destruct (String.eqb_spec a k') as [->|M]; simpl.
      * destruct (String.eqb_spec k' k); [congruence|exact IH].
      * destruct (String.eqb_spec a k); [reflexivity|exact IH].
  - rewrite getd_app. unfold getd at 2. simpl. destruct (String.eqb_spec k' k) as [->|N].
    + rewrite String.eqb_refl. apply getd_not_has. exact E.
    + destruct (String.eqb_spec k k'); [congruence|reflexivity].
Qed.
Lemma fold_set {C} (set : C -> string * pyval -> C) (get : C -> pyval) (k : string) :
  (forall c kv, get (set c kv) = if String.eqb (fst kv) k then snd kv else get c) ->
  forall kw c, NoDup (map fst kw) -> entry kw k (get c) (get (fold_left set kw c)).
Proof.
  intros H kw. induction kw as [|[a v] kw IH]; intros c N; simpl; [right; split; [intros []|reflexivity]|].
  inversion N as [|? ? N1 N2]; subst. specialize (IH (set c (a, v)) N2). rewrite H in IH. simpl in IH.
  destruct (String.eqb_spec a k) as [->|M].
  - destruct IH as [B|[A E]]; [exfalso; apply N1; eapply bound_in; exact B|].
    rewrite E. left. constructor.
  - destruct IH as [B|[A E]]; [left; constructor; auto|right]. split; [intros [X|X]; [apply M; exact X|apply A; exact X]|exact E].
Qed.

(** * Values *)
Lemma is_str_spec v s : is_str v s = true <-> v = PStr s.
Proof. destruct v; simpl; try (split; [discriminate|discriminate]). rewrite String.eqb_eq. split; intros E; [rewrite E; reflexivity|injection E; auto]. Qed.
Lemma among_spec v l : among v l = true <-> exists s, In s l /\ v = PStr s.
Proof. unfold among. rewrite existsb_exists. split; intros (s & H & E); exists s; split; auto; apply is_str_spec; exact E. Qed.
Lemma whole_spec v : whole v <-> negative v = Ok false /\ is_int v = true.
Proof.
  unfold whole. destruct v as [|b|z|q|s|l|d|]; simpl;
    (split; [intros [(z' & E & Z)|(b' & E)]; try discriminate E | intros [H1 H2]; try discriminate]); auto.
  - right. eauto.
  - inversion E; subst. split; [f_equal; apply Z.ltb_ge; exact Z|reflexivity].
  - left. exists z. split; [reflexivity|]. inversion H1. apply Z.ltb_ge. assumption.
Qed.
Lemma positive_spec v : positive v <-> positive_int v = true.
Proof.
  unfold positive. destruct v as [|b|z|q|s|l|d|]; simpl;
    (split; [intros [(z' & E & Z)|E]; try discriminate E | intros H; try discriminate]).
  - congruence.
  - right. congruence.
  - inversion E; subst. apply Z.ltb_lt. exact Z.
  - left. exists z. split; [reflexivity|]. apply Z.ltb_lt. exact H.
Qed.
Lemma small_spec v : among v (skipn 4 valid_codes) = true <-> small_code v.
Proof.
  rewrite among_spec. unfold small_code. simpl. split.
  - intros (s & [<-|[<-|[]]] & ->); auto.
  - intros [->| ->]; eexists; split; try reflexivity; auto.
Qed.
Lemma sized_spec v : among v (firstn 4 valid_codes) = true <-> sized_code v.
Proof.
  rewrite among_spec. unfold sized_code. simpl. split.
  - intros (s & [<-|[<-|[<-|[<-|[]]]]] & ->); auto.
  - intros [->|[->|[->| ->]]]; eexists; split; try reflexivity; auto.
Qed.
Lemma valid_spec v : among v valid_codes = true <-> sized_code v \/ small_code v.
Proof.
  rewrite <- small_spec, <- sized_spec. rewrite !among_spec. split.
  - intros (s & I & E). replace valid_codes with (firstn 4 valid_codes ++ skipn 4 valid_codes) in I by reflexivity.
    apply in_app_iff in I. destruct I; eauto.
  - intros [(s & I & E)|(s & I & E)]; exists s; split; auto;
      replace valid_codes with (firstn 4 valid_codes ++ skipn 4 valid_codes) by reflexivity; apply in_app_iff; auto.
Qed.
Lemma sized_not_small v : sized_code v -> ~ small_code v.
Proof. unfold sized_code, small_code. intros [->|[->|[->| ->]]] [?|?]; discriminate. Qed.
Lemma small_dec v : small_code v \/ ~ small_code v.
Proof. rewrite <- small_spec. destruct (among v (skipn 4 valid_codes)); [left; reflexivity|right; discriminate]. Qed.

(** * Codes, devices, decoders and circuits *)
Lemma code_post_spec c c' : code_post c = Ok c' <->
  code_ok (cc_name c) (cc_rounds c) (cc_size c) /\ cc_name c' = cc_name c /\ cc_rounds c' = cc_rounds c /\
  (small_code (cc_name c) /\ cc_size c' = PInt (-1) \/ ~ small_code (cc_name c) /\ cc_size c' = cc_size c).
Proof.
  destruct c as [n r s], c' as [n' r' s']. unfold code_post, code_ok. cbn [cc_name cc_rounds cc_size].
  destruct (among n valid_codes) eqn:V; cbn [negb].
  2:{ split; [discriminate|]. intros [[S|[S _]] _]; exfalso;
      (enough (among n valid_codes = true) by congruence); apply valid_spec; auto. }
  destruct (among n (skipn 4 valid_codes)) eqn:A.
  - apply small_spec in A. split.
    + intros E. inversion E; subst. repeat split; auto.
    + intros (_ & -> & -> & [[_ ->]|[N _]]); [reflexivity|tauto].
  - assert (N : ~ small_code n) by (intros N; apply small_spec in N; congruence).
    assert (Z : sized_code n) by (apply valid_spec in V; tauto).
    pose proof (proj2 (sized_spec n) Z) as Z'. rewrite Z', andb_true_r.
    rewrite !whole_spec. split.
    + destruct (negative s) as [[]|] eqn:Hs; cbn [bindR]; try discriminate.
      destruct (negative r) as [[]|] eqn:Hr; cbn [bindR orb]; try discriminate.
      destruct (is_int s), (is_int r); cbn; try discriminate.
      intros E. inversion E; subst. repeat split; auto.
    + intros ([S|(_ & (-> & ->) & (-> & ->))] & -> & -> & [[S' _]|[_ ->]]); first [tauto|reflexivity].
Qed.
Lemma code_post_err c e : code_post c = Err e -> e = ValueError \/ e = TypeError.
Proof.
  unfold code_post. destruct (negb _); [intros E; inversion E; auto|].
  destruct (among _ _); [discriminate|].
  destruct (cc_size c); cbn; try (intros E; inversion E; auto; fail);
    repeat (match goal with |- context [if ?b then _ else _] => destruct b end; cbn);
    destruct (cc_rounds c); cbn; try (intros E; inversion E; auto; fail);
    repeat (match goal with |- context [if ?b then _ else _] => destruct b end; cbn); intros E; inversion E; auto.
Qed.
Lemma code_post_idem c c' : code_post c = Ok c' -> code_post c' = Ok c'.
Proof.
  intros H. apply code_post_spec in H. destruct H as (O & N & R & S). apply code_post_spec. rewrite N, R.
  split; [|repeat split; destruct S as [[S1 S2]|[S1 S2]]; auto].
  destruct S as [[S1 S2]|[S1 S2]]; [left; exact S1|]. rewrite S2. exact O.
Qed.
Lemma code_from_spec d c d' : code_from_dict d = Ok (c, d') <->
  exists size, entry d "name" PNone (cc_name c) /\ entry d "rounds" (PInt 1) (cc_rounds c) /\ entry d "size" (PInt (-1)) size /\
    code_ok (cc_name c) (cc_rounds c) size /\
    (small_code (cc_name c) /\ cc_size c = PInt (-1) \/ ~ small_code (cc_name c) /\ cc_size c = size) /\
    d' = setdefault "size" (PInt (-1)) (setdefault "rounds" (PInt 1) d).
Proof.
  unfold code_from_dict. cbv zeta. rewrite !lookup_getd, !getd_setdefault. cbn [String.eqb Ascii.eqb Bool.eqb].
  split.
  - destruct (code_post _) as [c0|] eqn:P; cbn [bindR]; [|discriminate]. intros E. inversion E; subst.
    apply code_post_spec in P. cbn [cc_name cc_rounds cc_size] in P. destruct P as (O & N & R & S).
    exists (getd "size" (PInt (-1)) d). rewrite !entry_getd. rewrite N, R. auto 8.
  - intros (size & N & R & S & O & P & ->). apply entry_getd in N, R, S.
    rewrite <- N, <- R, <- S.
    assert (H : code_post (mkCodeConf (cc_name c) (cc_rounds c) size) = Ok c)
      by (apply code_post_spec; cbn [cc_name cc_rounds cc_size]; auto).
    rewrite H. reflexivity.
Qed.
Lemma device_post_spec c c' : device_post c = Ok c' <-> device_ok (vc_name c) (vc_shots c) /\ c' = c.
Proof.
  unfold device_post, device_ok. rewrite positive_spec.
  assert (E : among (vc_name c) valid_devices = true <-> vc_name c = PStr "clifford" \/ vc_name c = PStr "stim").
  { rewrite among_spec. simpl. split; [intros (s & [<-|[<-|[]]] & ->); auto|intros [->| ->]; eexists; split; try reflexivity; auto]. }
  rewrite <- E. destruct (among _ _), (positive_int _); cbn [negb]; intuition congruence.
Qed.
Lemma decoder_post_spec c c' : decoder_post c = Ok c' <-> decoder_ok (kc_name c) /\ c' = c.
Proof.
  unfold decoder_post, decoder_ok.
  assert (E : among (kc_name c) valid_decoders = true <-> decoder_ok (kc_name c)).
  { unfold decoder_ok. rewrite among_spec. simpl.
    split; [intros (s & [<-|[<-|[<-|[<-|[]]]]] & ->); auto|intros [->|[->|[->| ->]]]; eexists; split; try reflexivity; auto]. }
  unfold decoder_ok in E. rewrite <- E. destruct (among _ _); cbn [negb]; intuition congruence.
Qed.
Lemma filepath_spec f path load : validate_filepath f path load = Ok tt <-> path_ok f path load.
Proof.
  unfold path_ok, validate_filepath. destruct path; try (split; [discriminate|intros (p & E & _); discriminate]).
  split.
  - destruct (parent_exists f s) eqn:P; cbn; [|discriminate].
    destruct (file_exists f s) eqn:F; cbn; [intros _; exists s; auto|].
    destruct (truthy load); [discriminate|]. intros _. exists s. repeat split; auto. discriminate.
  - intros (p & E & P & F). inversion E; subst p. rewrite P. cbn. destruct (truthy load); [rewrite F by reflexivity; reflexivity|].
    rewrite andb_false_r. reflexivity.
Qed.
Lemma device_from_spec d c d' : device_from_dict d = Ok (c, d') <->
  entry d "name" (PStr "clifford") (vc_name c) /\ entry d "shots" (PInt 1024) (vc_shots c) /\ device_ok (vc_name c) (vc_shots c) /\
  d' = setdefault "shots" (PInt 1024) (setdefault "name" (PStr "clifford") d).
Proof.
  unfold device_from_dict. cbv zeta. rewrite !lookup_getd, !getd_setdefault. cbn [String.eqb Ascii.eqb Bool.eqb].
  rewrite !entry_getd. split.
  - destruct (device_post _) as [c0|] eqn:P; cbn [bindR]; [|discriminate]. intros E. inversion E; subst.
    apply device_post_spec in P. destruct P as [P ->]. cbn in *. auto.
  - intros (N & S & O & ->).
    assert (H : device_post (mkDeviceConf (vc_name c) (vc_shots c)) = Ok c) by (apply device_post_spec; destruct c; auto).
    rewrite <- N, <- S, H. reflexivity.
Qed.
Lemma decoder_from_spec d c d' : decoder_from_dict d = Ok (c, d') <->
  entry d "name" (PStr "PyMatchingDecoder") (kc_name c) /\ entry d "weighted" (PBool false) (kc_weighted c) /\ decoder_ok (kc_name c) /\
  d' = setdefault "weighted" (PBool false) (setdefault "name" (PStr "PyMatchingDecoder") d).
Proof.
  unfold decoder_from_dict. cbv zeta. rewrite !lookup_getd, !getd_setdefault. cbn [String.eqb Ascii.eqb Bool.eqb].
  rewrite !entry_getd. split.
  - destruct (decoder_post _) as [c0|] eqn:P; cbn [bindR]; [|discriminate]. intros E. inversion E; subst.
    apply decoder_post_spec in P. destruct P as [P ->]. cbn in *. auto.
  - intros (N & S & O & ->).
    assert (H : decoder_post (mkDecoderConf (kc_name c) (kc_weighted c)) = Ok c) by (apply decoder_post_spec; destruct c; auto).
    rewrite <- N, <- S, H. reflexivity.
Qed.
Lemma circuit_from_spec f d c d' : circuit_from_dict f d = Ok (c, d') <->
  entry d "circuit_provided" (PBool false) (xc_provided c) /\ entry d "has_errors" (PBool false) (xc_errors c) /\
  entry d "circuit_path" (PStr "circuit.txt") (xc_path c) /\ path_ok f (xc_path c) (xc_provided c) /\
  d' = setdefault "circuit_path" (PStr "circuit.txt") (setdefault "has_errors" (PBool false) (setdefault "circuit_provided" (PBool false) d)).
Proof.
  unfold circuit_from_dict, circuit_post. cbv zeta. rewrite !lookup_getd, !getd_setdefault. cbn [String.eqb Ascii.eqb Bool.eqb xc_path xc_provided].
  rewrite !entry_getd. rewrite <- filepath_spec. split.
  - destruct (validate_filepath _ _ _) as [[]|] eqn:P; cbn [bindR]; [|discriminate]. intros E. inversion E; subst. cbn. auto.
  - intros (N & S & O & P & ->). rewrite <- N, <- O, P, <- S. cbn. destruct c; reflexivity.
Qed.

(** * Metadata *)
Lemma qubit_empty_spec m : qubit_empty m = true <-> qm_dist m = PStr "" /\ qm_params m = PList [].
Proof.
  unfold qubit_empty. rewrite andb_true_iff, is_str_spec. destruct (qm_params m) as [| | | | |[|]| |]; split; intros [? ?]; split; auto; discriminate.
Qed.
Lemma qubit_post_spec m m' : qubit_post m = Ok m' <->
  qubit_ok (qm_dist m) (qm_params m) /\ qm_dist m' = qm_dist m /\ qm_params m' = qm_params m /\
  (qm_dist m = PStr "" /\ qm_params m = PList [] /\ qm_enabled m' = PBool false \/
   ~ (qm_dist m = PStr "" /\ qm_params m = PList []) /\ qm_enabled m' = qm_enabled m).
Proof.
  assert (E : (do _ <- (if is_str (qm_dist m) "user" then (if truthy (qm_params m) then Err ValueError else Ok tt)
           else if is_str (qm_dist m) "constant" then
             do n <- pylen (qm_params m); if negb (n =? 1) then Err ValueError else Ok tt
           else if is_str (qm_dist m) "gaussian" then
             do n <- pylen (qm_params m); if negb (n =? 2) then Err ValueError else Ok tt
           else if is_str (qm_dist m) "" then Ok tt
           else Err ValueError); Ok tt) = Ok tt <-> qubit_ok (qm_dist m) (qm_params m)).
  { unfold qubit_ok. destruct (is_str (qm_dist m) "user") eqn:E1.
    { apply is_str_spec in E1. rewrite E1. destruct (truthy (qm_params m)); split; try discriminate; auto.
      intros [[_ H]|[[H _]|[[H _]|H]]]; discriminate. }
    destruct (is_str (qm_dist m) "constant") eqn:E2.
    { apply is_str_spec in E2. rewrite E2. destruct (pylen (qm_params m)) as [n|]; cbn [bindR].
      - destruct (Nat.eqb_spec n 1) as [->|N]; cbn; split; auto; try discriminate.
        intros [[H _]|[[_ H]|[[H _]|H]]]; try discriminate. congruence.
      - split; [discriminate|]. intros [[H _]|[[_ H]|[[H _]|H]]]; discriminate. }
    destruct (is_str (qm_dist m) "gaussian") eqn:E3.
    { apply is_str_spec in E3. rewrite E3. destruct (pylen (qm_params m)) as [n|]; cbn [bindR].
      - destruct (Nat.eqb_spec n 2) as [->|N]; cbn; split; auto; try discriminate.
        intros [[H _]|[[H _]|[[_ H]|H]]]; try discriminate. congruence.
      - split; [discriminate|]. intros [[H _]|[[H _]|[[_ H]|H]]]; discriminate. }
    destruct (is_str (qm_dist m) "") eqn:E4.
    { apply is_str_spec in E4. rewrite E4. cbn. split; auto. }
    split; [discriminate|].
    assert (Q : forall s, is_str (qm_dist m) s = false -> qm_dist m <> PStr s) by (intros s F G; apply is_str_spec in G; congruence).
    apply Q in E1, E2, E3, E4. tauto. }
  unfold qubit_post. destruct (if is_str (qm_dist m) "user" then _ else _) as [[]|] eqn:P; cbn [bindR] in *.
  - destruct (qubit_empty m) eqn:Q.
    + apply qubit_empty_spec in Q. destruct Q as [Q1 Q2]. destruct m, m'; cbn in *. subst. split.
      * intros H. inversion H; subst. repeat split; auto. apply E. reflexivity.
      * intros (_ & -> & -> & [(_ & _ & ->)|[N _]]); [reflexivity|exfalso; apply N; auto].
    + assert (N : ~ (qm_dist m = PStr "" /\ qm_params m = PList [])) by (intros N; apply qubit_empty_spec in N; congruence).
      split.
      * intros H. inversion H; subst. repeat split; auto. apply E. reflexivity.
      * intros (_ & H1 & H2 & [(H3 & H4 & _)|[_ H3]]); [tauto|]. destruct m, m'; cbn in *; congruence.
  - split; [discriminate|]. intros [H _]. apply E in H. discriminate H.
Qed.
Lemma qubit_from_spec e m : qubit_from_dict e = Ok m <->
  exists enabled, entry e "distribution" PNone (qm_dist m) /\ entry e "params" (PList []) (qm_params m) /\
    qubit_ok (qm_dist m) (qm_params m) /\ entry e "enabled" (PBool true) enabled /\
    (qm_dist m = PStr "" /\ qm_params m = PList [] /\ qm_enabled m = PBool false \/
     ~ (qm_dist m = PStr "" /\ qm_params m = PList []) /\ qm_enabled m = enabled).
Proof.
  unfold qubit_from_dict. cbv zeta. rewrite !lookup_getd, !getd_setdefault. cbn [String.eqb Ascii.eqb Bool.eqb].
  rewrite qubit_post_spec. cbn [qm_dist qm_params qm_enabled]. split.
  - intros (O & E1 & E2 & E3). exists (getd "enabled" (PBool true) e). rewrite !entry_getd. rewrite E1, E2. auto.
  - intros (en & E1 & E2 & O & E3 & E4). apply entry_getd in E1, E2, E3. rewrite <- E1, <- E2, <- E3. auto.
Qed.
Lemma channel_spec s : In s valid_induced <-> channel s.
Proof.
  unfold valid_induced, channel. rewrite in_app_iff, in_flat_map. split.
  - intros [(a & A & H)|H].
    + apply in_map_iff in H. destruct H as (b & <- & B). right. exists a, b. split; [reflexivity|].
      unfold pauli_or_identity, pauli_letter. simpl in A, B. intuition.
    + left. unfold pauli_letter. simpl in H. intuition.
  - intros [H|(a & b & -> & A & B)].
    + right. unfold pauli_letter in H. simpl. intuition.
    + left. exists a. unfold pauli_or_identity, pauli_letter in *. split; [simpl; intuition|]. apply in_map_iff. exists b.
      split; [reflexivity|]. simpl. intuition.
Qed.
Lemma in_set_spec v l : in_set v l = Ok true <-> exists s, v = PStr s /\ In s l.
Proof.
  destruct v; simpl; try (split; [discriminate|intros (? & E & _); discriminate]);
    try (split; [intros E; exfalso; inversion E as [E']; clear -E'; induction l; simpl in *; auto; discriminate|intros (? & E & _); discriminate]).
  split.
  - intros E. inversion E as [E']. apply among_spec in E'. destruct E' as (t & I & E'). exists t. split; auto.
  - intros (t & E & I). f_equal. apply among_spec. eauto.
Qed.
Lemma gate_check_spec m i x : gate_check m (i, x) = Ok tt <->
  exists s p, pyindex (gm_induced m) i = Ok (PStr s) /\ channel s /\ pyindex (gm_params m) i = Ok p /\ distributed x p.
Proof.
  unfold gate_check, distributed. cbn [fst snd].
  destruct (pyindex (gm_induced m) i) as [e|] eqn:E; cbn [bindR]; [|split; [discriminate|intros (? & ? & H & _); discriminate]].
  destruct (in_set e valid_induced) as [[]|] eqn:I; cbn [bindR negb].
  2:{ split; [discriminate|]. intros (s & p & H & C & _). inversion H; subst. apply channel_spec in C.
      assert (in_set (PStr s) valid_induced = Ok true) by (apply in_set_spec; eauto). congruence. }
  2:{ split; [discriminate|]. intros (s & p & H & C & _). inversion H; subst. apply channel_spec in C.
      assert (in_set (PStr s) valid_induced = Ok true) by (apply in_set_spec; eauto). congruence. }
  apply in_set_spec in I. destruct I as (s & -> & C). apply channel_spec in C.
  destruct (is_str x "constant") eqn:E1; [|destruct (is_str x "gaussian") eqn:E2].
  - apply is_str_spec in E1. subst x. destruct (pyindex (gm_params m) i) as [p|] eqn:P; cbn [bindR].
    2:{ split; [discriminate|]. intros (? & ? & _ & _ & H & _). discriminate. }
    split.
    + destruct (pylen p) as [n|] eqn:L; cbn [bindR]; [|discriminate]. destruct (Nat.eqb_spec n 1) as [->|]; cbn; [|discriminate].
      intros _. exists s, p. auto 10.
    + intros (s' & p' & _ & _ & P' & [[_ L]|[D _]]); [|discriminate]. inversion P'; subst. rewrite L. reflexivity.
  - apply is_str_spec in E2. subst x. destruct (pyindex (gm_params m) i) as [p|] eqn:P; cbn [bindR].
    2:{ split; [discriminate|]. intros (? & ? & _ & _ & H & _). discriminate. }
    split.
    + destruct (pylen p) as [n|] eqn:L; cbn [bindR]; [|discriminate]. destruct (Nat.eqb_spec n 2) as [->|]; cbn; [|discriminate].
      intros _. exists s, p. auto 10.
    + intros (s' & p' & _ & _ & P' & [[D _]|[_ L]]); [discriminate|]. inversion P'; subst. rewrite L. reflexivity.
  - split; [discriminate|]. intros (s' & p' & _ & _ & _ & [[D _]|[D _]]); subst x; discriminate.
Qed.
Lemma mapR_unit {A} (f : A -> Res unit) l : (exists r, mapR f l = Ok r) <-> forall a, In a l -> f a = Ok tt.
Proof.
  induction l as [|a l IH]; simpl.
  - split; [intros _ a []|eauto].
  - split.
    + intros (r & H). destruct (f a) as [[]|] eqn:F; cbn in H; [|discriminate].
      destruct (mapR f l) eqn:M; cbn in H; [|discriminate]. intros b [<-|I]; [exact F|]. apply IH; eauto.
    + intros H. rewrite (H a) by auto. cbn. destruct (proj2 IH) as (r & ->); [auto|]. cbn. eauto.
Qed.
Lemma in_enum {A} (l : list A) i x : In (i, x) (combine (seq 0 (List.length l)) l) <-> nth_error l i = Some x.
Proof.
  assert (G : forall s, In (i, x) (combine (seq s (List.length l)) l) <-> s <= i /\ nth_error l (i - s) = Some x).
  { induction l as [|a l IH]; intros s; simpl.
    - split; [intros []|intros [_ H]; destruct (i - s); discriminate].
    - rewrite IH. split.
      + intros [E|[H1 H2]]; [inversion E; subst; rewrite Nat.sub_diag; auto|]. replace (i - s) with (S (i - S s)) by lia. simpl. split; [lia|exact H2].
      + intros [H1 H2]. destruct (Nat.eq_dec s i) as [->|N]; [left; rewrite Nat.sub_diag in H2; simpl in H2; congruence|].
        right. replace (i - s) with (S (i - S s)) in H2 by lia. simpl in H2. split; [lia|exact H2]. }
  rewrite G, Nat.sub_0_r. split; [tauto|intros; split; [lia|assumption]].
Qed.
Lemma gate_post_spec m m' : gate_post m = Ok m' <-> gate_ok (gm_dist m) (gm_induced m) (gm_params m) /\ m' = m.
Proof.
  unfold gate_post, gate_ok. destruct (gm_dist m) as [|b|z|q|s|l|d|] eqn:D; cbn [bindR];
    try (split; [intros E; inversion E; auto|intros [_ ->]; reflexivity]).
  - destruct (pylen (gm_induced m)) as [a|] eqn:A; cbn [bindR].
    2:{ split; [discriminate|]. intros [[H|[[n H] _]] _]; discriminate. }
    destruct (Nat.eqb_spec a 0) as [->|N]; cbn [bindR].
    { split; [intros E; inversion E; auto|intros [_ ->]; reflexivity]. }
    destruct (pylen (gm_params m)) as [b|] eqn:B; cbn [bindR].
    2:{ split; [discriminate|]. intros [[H|[_ H]] _]; [congruence|discriminate]. }
    destruct (Nat.eqb_spec b 0) as [->|N']; cbn.
    { split; [intros E; inversion E; split; eauto|intros [_ ->]; reflexivity]. }
    split; [discriminate|]. intros [[H|[_ H]] _]; congruence.
  - destruct (pylen (gm_induced m)) as [a|] eqn:A; cbn [bindR].
    2:{ split; [discriminate|]. intros [[(n & H & _) _] _]; discriminate. }
    destruct (pylen (gm_params m)) as [b|] eqn:B; cbn [bindR].
    2:{ split; [discriminate|]. intros [[(n & _ & H) _] _]; discriminate. }
    destruct (Nat.eqb_spec a b) as [->|N]; cbn [negb bindR].
    2:{ split; [discriminate|]. intros [[(n & H & H') _] _]; congruence. }
    pose proof (mapR_unit (gate_check m) (combine (seq 0 (List.length l)) l)) as M.
    assert (Q : (forall a, In a (combine (seq 0 (List.length l)) l) -> gate_check m a = Ok tt) <->
                forall i x, nth_error l i = Some x -> exists s p, pyindex (gm_induced m) i = Ok (PStr s) /\ channel s /\
                  pyindex (gm_params m) i = Ok p /\ distributed x p).
    { split.
      - intros H i x E. apply gate_check_spec. apply H. apply in_enum. exact E.
      - intros H [i x] I. apply gate_check_spec. apply H. apply in_enum. exact I. }
    rewrite <- Q, <- M. destruct (mapR _ _) as [r|]; cbn [bindR].
    + split; [intros E; inversion E; subst; split; [split; eauto|reflexivity]|intros [_ ->]; reflexivity].
    + split; [discriminate|]. intros [[_ [r H]] _]. discriminate.
Qed.
Lemma gate_from_spec e m : gate_from_dict e = Ok m <->
  entry e "distribution" PNone (gm_dist m) /\ entry e "induced_errors" (PList []) (gm_induced m) /\
  entry e "params" (PList []) (gm_params m) /\ entry e "enabled" (PBool true) (gm_enabled m) /\
  gate_ok (gm_dist m) (gm_induced m) (gm_params m).
Proof.
  unfold gate_from_dict. cbv zeta. rewrite !lookup_getd, !getd_setdefault. cbn [String.eqb Ascii.eqb Bool.eqb].
  rewrite gate_post_spec. cbn [gm_dist gm_induced gm_params]. rewrite !entry_getd. split.
  - intros (O & ->). auto.
  - intros (E1 & E2 & E3 & E4 & O). rewrite <- E1, <- E2, <- E3, <- E4. destruct m; auto.
Qed.
