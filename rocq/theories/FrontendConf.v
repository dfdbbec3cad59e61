(** Proofs about the configuration of errors and of experiments. *)
Require Import String List Bool Arith ZArith QArith Lia Permutation.
From Verif Require Import Base FrontendModel FrontendSpec FrontendProofs.
Import ListNotations.
Local Open Scope string_scope.
Local Open Scope nat_scope.
Local Open Scope list_scope.

Lemma bindR_ok {A B} (r : Res A) (f : A -> Res B) b : bindR r f = Ok b <-> exists a, r = Ok a /\ f a = Ok b.
Proof. destruct r; cbn; split; [eauto|intros (a' & E & H); congruence|discriminate|intros (a' & E & H); discriminate]. Qed.

(** * Paths *)
Lemma path_defaults_other f def d d1 : path_defaults f def d = Ok d1 ->
  forall k x, k <> "data_path" -> k <> "load_file" -> getd k x d1 = getd k x d.
Proof.
  intros H k x N1 N2. apply String.eqb_neq in N1, N2.
  assert (S1 : forall v, getd k x (store "load_file" v d) = getd k x d) by (intros v; rewrite getd_store, N2; reflexivity).
  unfold path_defaults in H. destruct (lookup "data_path" d);
    try (injection H as <-; rewrite !getd_setdefault, N1, N2; reflexivity);
    destruct (lookup "load_file" d); apply bindR_ok in H; destruct H as ([] & _ & H); injection H as <-; auto.
Qed.
Lemma not_none_bound d k v : v <> PNone -> getd k PNone d = v -> bound k v d.
Proof. intros N E. symmetry in E. apply entry_getd in E. destruct E as [B|[_ E]]; [exact B|contradiction]. Qed.
Lemma path_spec f def d path load :
  (exists d1, path_defaults f def d = Ok d1 /\ getd "data_path" PNone d1 = path /\ getd "load_file" PNone d1 = load /\
     validate_filepath f path load = Ok tt) <-> paths f def d path load.
Proof.
  unfold path_defaults. rewrite !lookup_getd. split.
  - intros (d1 & H & E1 & E2 & V). apply filepath_spec in V.
    destruct (getd "data_path" PNone d) as [| | | | | | |] eqn:P.
    { injection H as <-. rewrite !getd_setdefault in E1, E2. cbn [String.eqb Ascii.eqb Bool.eqb] in E1, E2.
      destruct (absent_or d "data_path") as [A|[v B]].
      - rewrite (absent_getd _ _ A) in E1. subst path. apply paths_none; auto. apply entry_getd. congruence.
      - rewrite <- (bound_getd _ _ _ B) in E1. rewrite <- (bound_getd _ _ _ B) in P. subst.
        destruct V as (p & V & _). discriminate. }
    all: assert (B : bound "data_path" (getd "data_path" PNone d) d) by (apply not_none_bound; congruence);
      assert (N : getd "data_path" PNone d <> PNone) by congruence; rewrite <- P in H;
      destruct (getd "load_file" PNone d) as [| | | | | | |] eqn:L;
      apply bindR_ok in H; destruct H as ([] & W & H); apply filepath_spec in W; injection H as <-;
      rewrite ?getd_store in E1, E2; cbn [String.eqb Ascii.eqb Bool.eqb] in E1, E2;
      first [ subst load; subst path; apply paths_path; auto; apply entry_getd; congruence
            | subst path; subst load; rewrite L; rewrite <- L; apply paths_both; rewrite ?L; auto; try discriminate; try congruence;
              rewrite <- L; apply not_none_bound; congruence ].
  - intros H. destruct H as [path load B N B' N' V|path B N E V|load A E V]; apply filepath_spec in V.
    + pose proof (bound_getd _ _ _ B PNone) as P. pose proof (bound_getd _ _ _ B' PNone) as L. exists d.
      rewrite <- P, <- L. split; [|auto].
      destruct path; try contradiction; destruct load; try contradiction; rewrite V; reflexivity.
    + pose proof (bound_getd _ _ _ B PNone) as P. apply entry_getd in E. exists (store "load_file" (PBool true) d).
      rewrite !getd_store. cbn [String.eqb Ascii.eqb Bool.eqb]. rewrite <- P, <- E. split; [|auto].
      destruct path; try contradiction; rewrite V; reflexivity.
    + apply entry_getd in E. rewrite (absent_getd _ _ A). eexists. split; [reflexivity|].
      rewrite !getd_setdefault. cbn [String.eqb Ascii.eqb Bool.eqb]. rewrite (absent_getd _ _ A). auto.
Qed.

(** * The loop over the names *)
Section Keys.
Context {M : Type} (none : M) (from : pydict -> Res M).
Definition ent (d : pydict) (k : string) : Res M :=
  match getd k PNone d with PNone => Ok none | v => do e <- as_dictionary v; from e end.
Definition keyf (s : pydict * list (string * M)) (k : string) : Res (pydict * list (string * M)) :=
  do m <- match lookup k (fst s) with PNone => Ok none | v => do d <- as_dictionary v; from d end;
  Ok (store k PObj (fst s), (k, m) :: snd s).
Lemma mapR_ext {A B} (g h : A -> Res B) l : (forall a, In a l -> g a = h a) -> mapR g l = mapR h l.
Proof. induction l as [|a l IH]; intros H; simpl; [reflexivity|]. rewrite (H a) by (left; reflexivity). rewrite IH by (intros; apply H; right; assumption). reflexivity. Qed.
Lemma fold_keys keys : NoDup keys -> forall d acc,
  match mapR (ent d) keys with
  | Ok ms => exists d', foldR keyf keys (d, acc) = Ok (d', rev (combine keys ms) ++ acc) /\
      (forall k x, ~ In k keys -> getd k x d' = getd k x d) /\ forall k x, In k keys -> getd k x d' = PObj
  | Err e => foldR keyf keys (d, acc) = Err e
  end.
Proof.
  induction keys as [|k keys IH]; intros N d acc.
  - simpl. exists d. repeat split; auto. intros k x [].
  - inversion N as [|? ? N1 N2]; subst. specialize (IH N2).
    cbn [mapR foldR].
    replace (keyf (d, acc) k) with (do m <- ent d k; Ok (store k PObj d, (k, m) :: acc)) by reflexivity.
    destruct (ent d k) as [m|e] eqn:E; cbn [bindR]; [|reflexivity].
    specialize (IH (store k PObj d) ((k, m) :: acc)).
    rewrite (mapR_ext (ent (store k PObj d)) (ent d)) in IH.
    2:{ intros a I. unfold ent. rewrite getd_store. destruct (String.eqb_spec a k); [congruence|reflexivity]. }
    destruct (mapR (ent d) keys) as [ms|e] eqn:Ms; cbn [bindR]; [|exact IH].
    destruct IH as (d' & H1 & H2 & H3). exists d'. split; [|split].
    + rewrite H1. simpl. rewrite <- app_assoc. reflexivity.
    + intros a x I. rewrite H2 by (intros I'; apply I; right; exact I'). rewrite getd_store.
      destruct (String.eqb_spec a k) as [->|]; [exfalso; apply I; left; reflexivity|reflexivity].
    + intros a x [<-|I]; [|apply H3; exact I]. rewrite H2 by exact N1. rewrite getd_store, String.eqb_refl. reflexivity.
Qed.
Lemma meta_of_in k m (l : list (string * M)) : NoDup (map fst l) -> In (k, m) l -> meta_of none k l = m.
Proof.
  unfold meta_of. induction l as [|[a b] l IH]; intros N I; [contradiction|]. simpl in *. inversion N as [|? ? N1 N2]; subst.
  destruct I as [E|I].
  - inversion E; subst. rewrite String.eqb_refl. reflexivity.
  - destruct (String.eqb_spec a k) as [->|]; [|apply IH; assumption]. exfalso. apply N1. apply in_map_iff. exists (k, m). auto.
Qed.
Lemma mapR_combine {A B} (g : A -> Res B) l : forall r, mapR g l = Ok r -> forall a, In a l -> exists b, In (a, b) (combine l r) /\ g a = Ok b.
Proof.
  induction l as [|a l IH]; intros r H x I; [contradiction|]. simpl in H.
  destruct (g a) as [b|] eqn:E; cbn in H; [|discriminate]. destruct (mapR g l) as [r'|] eqn:E'; cbn in H; [|discriminate].
  injection H as <-. destruct I as [<-|I]; [exists b; simpl; auto|]. destruct (IH _ eq_refl x I) as (b' & I' & G). exists b'. simpl. auto.
Qed.
Lemma mapR_total {A B} (g : A -> Res B) l : (forall x, In x l -> exists y, g x = Ok y) -> exists r, mapR g l = Ok r.
Proof.
  induction l as [|a l IH]; intros H; simpl; [eauto|]. destruct (H a) as (y & ->); [left; reflexivity|].
  destruct IH as (r & ->); [intros; apply H; right; assumption|]. cbn. eauto.
Qed.
Lemma mapR_len {A B} (g : A -> Res B) l : forall r, mapR g l = Ok r -> List.length r = List.length l.
Proof.
  induction l as [|a l IH]; intros r H; simpl in H; [injection H as <-; reflexivity|].
  destruct (g a); cbn in H; [|discriminate]. destruct (mapR g l); cbn in H; [|discriminate]. injection H as <-. simpl. f_equal. auto.
Qed.
(** The common part of the two functions. *)
Lemma keys_spec keys d : NoDup keys -> forall r, foldR keyf keys (d, []) = Ok r ->
  (forall k, In k keys -> ent d k = Ok (meta_of none k (snd r))) /\
  (forall k x, ~ In k keys -> getd k x (fst r) = getd k x d) /\ forall k x, In k keys -> getd k x (fst r) = PObj.
Proof.
  intros N r H. pose proof (fold_keys keys N d []) as F. destruct (mapR (ent d) keys) as [ms|] eqn:Ms; [|congruence].
  destruct F as (d' & F & F2 & F3). rewrite F in H. injection H as <-. cbn [fst snd]. rewrite app_nil_r. repeat split; auto.
  intros k I. destruct (mapR_combine _ _ _ Ms k I) as (m & I' & ->). f_equal. symmetry. apply meta_of_in.
  - rewrite map_rev. apply NoDup_rev.
    assert (L : map fst (combine keys ms) = keys).
    { apply mapR_len in Ms. clear -Ms. revert ms Ms. induction keys as [|a keys IH]; intros [|m ms] L; simpl in *; try discriminate; [reflexivity|].
      f_equal. apply IH. lia. }
    rewrite L. exact N.
  - apply in_rev in I'. exact I'.
Qed.
Lemma keys_total keys d : NoDup keys -> (forall k, In k keys -> exists m, ent d k = Ok m) -> exists r, foldR keyf keys (d, []) = Ok r.
Proof.
  intros N H. pose proof (fold_keys keys N d []) as F. destruct (mapR_total _ _ H) as (ms & E). rewrite E in F.
  destruct F as (d' & F & _). eauto.
Qed.
Lemma same_list (l : list (string * M)) (g : string -> M) keys :
  map fst l = keys -> (forall k m, In (k, m) l -> m = g k) -> l = map (fun k => (k, g k)) keys.
Proof.
  intros <- H. induction l as [|[k m] l IH]; simpl; [reflexivity|]. rewrite <- IH by (intros; apply H; right; assumption).
  rewrite <- (H k m) by (left; reflexivity). reflexivity.
Qed.
End Keys.

Lemma ent_qubit d k m : ent qubit_none qubit_from_dict d k = Ok m <-> qubit_entry d k m.
Proof.
  unfold ent, qubit_entry. split.
  - intros H. exists (getd k PNone d). split; [apply entry_getd; reflexivity|].
    destruct (getd k PNone d); cbn in H; try discriminate; [left; injection H as <-; auto|right].
    apply qubit_from_spec in H. destruct H as (en & H). eauto.
  - intros (v & E & H). apply entry_getd in E. rewrite <- E. destruct H as [[-> ->]|(e & en & -> & H)]; [reflexivity|].
    cbn. apply qubit_from_spec. eauto.
Qed.
Lemma ent_gate d k m : ent gate_none gate_from_dict d k = Ok m <-> gate_entry d k m.
Proof.
  unfold ent, gate_entry. split.
  - intros H. exists (getd k PNone d). split; [apply entry_getd; reflexivity|].
    destruct (getd k PNone d); cbn in H; try discriminate; [left; injection H as <-; auto|right].
    apply gate_from_spec in H. eauto.
  - intros (v & E & H). apply entry_getd in E. rewrite <- E. destruct H as [[-> ->]|(e & -> & H)]; [reflexivity|].
    cbn. apply gate_from_spec. exact H.
Qed.
Lemma ent_getd {M} (none : M) from d d1 k : getd k PNone d1 = getd k PNone d -> ent none from d1 k = ent none from d k.
Proof. unfold ent. intros ->. reflexivity. Qed.
Lemma nodup_qubit_keys : NoDup qubit_keys.
Proof. repeat (constructor; [simpl; intuition discriminate|]). constructor. Qed.
Lemma nodup_gate_keys : NoDup gate_keys.
Proof. repeat (constructor; [simpl; intuition discriminate|]). constructor. Qed.
Lemma qubit_keys_other k : In k qubit_keys -> k <> "data_path" /\ k <> "load_file" /\ k <> "sample".
Proof. simpl. intuition (subst; discriminate). Qed.
Lemma gate_keys_other k : In k gate_keys -> k <> "data_path" /\ k <> "load_file" /\ k <> "sample".
Proof. simpl. intuition (subst; discriminate). Qed.

Section Errors.
Variables (f : files).

Lemma qubits_parts keys d c d' : Permutation qubit_keys keys -> qubits_from_dict f keys d = Ok (c, d') ->
  qubits_spec f d c /\ forall k x, In k qubit_keys -> getd k x d' = PObj.
Proof.
  intros P H. assert (N : NoDup keys) by (eapply Permutation_NoDup; [exact P|apply nodup_qubit_keys]).
  assert (IK : forall k, In k keys <-> In k qubit_keys) by (intros k; split; apply Permutation_in; [apply Permutation_sym|]; exact P).
  unfold qubits_from_dict in H. apply bindR_ok in H. destruct H as (d1 & H1 & H). cbv zeta in H.
  apply bindR_ok in H. destruct H as (r & H2 & H). apply bindR_ok in H. destruct H as ([] & H3 & H).
  injection H as <- <-. cbn [qc_path qc_load qc_sample qc_meta].
  change qubits_key with (keyf qubit_none qubit_from_dict) in H2.
  destruct (keys_spec _ _ _ _ N _ H2) as (K1 & K2 & K3).
  rewrite !lookup_getd in *.
  assert (O : forall k, ~ In k qubit_keys -> forall x, getd k x (fst r) = getd k x (setdefault "sample" (PBool true) d1))
    by (intros; apply K2; rewrite IK; assumption).
  rewrite !(O "data_path"), !(O "load_file"), !(O "sample") by (simpl; intuition discriminate).
  rewrite (O "data_path"), (O "load_file") in H3 by (simpl; intuition discriminate).
  rewrite !getd_setdefault in *. cbn [String.eqb Ascii.eqb Bool.eqb] in *.
  split; [|intros k x I; apply K3; apply IK; exact I]. split; [|split; [|split]].
  - apply path_spec. exists d1. auto.
  - apply entry_getd. cbn [qc_sample]. apply (path_defaults_other _ _ _ _ H1); discriminate.
  - reflexivity.
  - cbn [qc_meta]. intros k m I.
    change (In (k, m) (map (fun k => (k, meta_of qubit_none k (snd r))) qubit_keys)) in I. apply in_map_iff in I. destruct I as (k' & E & I). injection E as -> <-.
    apply ent_qubit. rewrite <- (K1 k) by (apply IK; exact I).
    destruct (qubit_keys_other k I) as (? & ? & ?). symmetry. apply ent_getd. rewrite getd_setdefault.
    destruct (String.eqb_spec k "sample"); [contradiction|]. apply (path_defaults_other _ _ _ _ H1); assumption.
Qed.
Lemma qubits_complete keys d c : Permutation qubit_keys keys -> qubits_spec f d c -> exists d', qubits_from_dict f keys d = Ok (c, d').
Proof.
  intros P (H1 & H2 & H3 & H4). assert (N : NoDup keys) by (eapply Permutation_NoDup; [exact P|apply nodup_qubit_keys]).
  assert (IK : forall k, In k keys <-> In k qubit_keys) by (intros k; split; apply Permutation_in; [apply Permutation_sym|]; exact P).
  apply path_spec in H1. destruct H1 as (d1 & D & E1 & E2 & V).
  unfold qubits_from_dict. rewrite D. cbn [bindR]. cbv zeta.
  change qubits_key with (keyf qubit_none qubit_from_dict).
  assert (G : forall k, In k qubit_keys -> ent qubit_none qubit_from_dict (setdefault "sample" (PBool true) d1) k = ent qubit_none qubit_from_dict d k).
  { intros k I. destruct (qubit_keys_other k I) as (? & ? & ?). apply ent_getd. rewrite getd_setdefault.
    destruct (String.eqb_spec k "sample"); [contradiction|]. apply (path_defaults_other _ _ _ _ D); assumption. }
  assert (X : forall k, In k qubit_keys -> exists m, In (k, m) (qc_meta c)).
  { intros k I. change qubit_keys with ["X"; "Y"; "Z"; "erasure"; "measurement"; "fabrication"] in I. rewrite <- H3 in I.
    apply in_map_iff in I. destruct I as ([k' m] & <- & I). eauto. }
  destruct (keys_total qubit_none qubit_from_dict keys (setdefault "sample" (PBool true) d1) N) as (r & F).
  { intros k I. apply IK in I. rewrite G by exact I. destruct (X k I) as (m & I'). exists m. apply ent_qubit. apply H4. exact I'. }
  rewrite F. cbn [bindR]. destruct (keys_spec _ _ _ _ N _ F) as (K1 & K2 & K3).
  assert (O : forall k, ~ In k qubit_keys -> forall x, getd k x (fst r) = getd k x (setdefault "sample" (PBool true) d1))
    by (intros; apply K2; rewrite IK; assumption).
  rewrite !lookup_getd, !(O "data_path"), !(O "load_file"), !(O "sample") by (simpl; intuition discriminate).
  rewrite !getd_setdefault. cbn [String.eqb Ascii.eqb Bool.eqb]. rewrite E1, E2, V. cbn [bindR].
  eexists. f_equal. f_equal. destruct c as [cp cs cl cm]. cbn [qc_path qc_load qc_sample qc_meta] in *. f_equal.
  - rewrite (path_defaults_other _ _ _ _ D) by discriminate. symmetry. apply entry_getd. exact H2.
  - symmetry. apply same_list; [exact H3|]. intros k m I.
    assert (Ik : In k qubit_keys) by (change qubit_keys with ["X"; "Y"; "Z"; "erasure"; "measurement"; "fabrication"]; rewrite <- H3; apply in_map_iff; exists (k, m); auto).
    pose proof (H4 k m I) as Q. apply ent_qubit in Q. rewrite <- G in Q by exact Ik. rewrite K1 in Q by (apply IK; exact Ik). congruence.
Qed.

Lemma gates_parts keys d c d' : Permutation gate_keys keys -> gates_from_dict f keys d = Ok (c, d') ->
  gates_spec f d c /\ forall k x, In k gate_keys -> getd k x d' = PObj.
Proof.
  intros P H. assert (N : NoDup keys) by (eapply Permutation_NoDup; [exact P|apply nodup_gate_keys]).
  assert (IK : forall k, In k keys <-> In k gate_keys) by (intros k; split; apply Permutation_in; [apply Permutation_sym|]; exact P).
  unfold gates_from_dict in H. apply bindR_ok in H. destruct H as (d1 & H1 & H). cbv zeta in H.
  apply bindR_ok in H. destruct H as (r & H2 & H). apply bindR_ok in H. destruct H as ([] & H3 & H).
  injection H as <- <-.
  change gates_key with (keyf gate_none gate_from_dict) in H2.
  destruct (keys_spec _ _ _ _ N _ H2) as (K1 & K2 & K3).
  rewrite !lookup_getd in *.
  assert (O : forall k, ~ In k gate_keys -> forall x, getd k x (fst r) = getd k x (setdefault "sample" (PBool false) d1))
    by (intros; apply K2; rewrite IK; assumption).
  rewrite !(O "data_path"), !(O "load_file"), !(O "sample") by (simpl; intuition discriminate).
  rewrite (O "data_path"), (O "load_file") in H3 by (simpl; intuition discriminate).
  rewrite !getd_setdefault in *. cbn [String.eqb Ascii.eqb Bool.eqb] in *.
  assert (Q : forall k, In k gate_keys -> gate_entry d k (meta_of gate_none k (snd r))).
  { intros k I. apply ent_gate. rewrite <- (K1 k) by (apply IK; exact I).
    destruct (gate_keys_other k I) as (? & ? & ?). symmetry. apply ent_getd. rewrite getd_setdefault.
    destruct (String.eqb_spec k "sample"); [contradiction|]. apply (path_defaults_other _ _ _ _ H1); assumption. }
  split; [|intros k x I; apply K3; apply IK; exact I]. split; [|split; [|split; [|split; [|split]]]].
  - apply path_spec. exists d1. auto.
  - apply entry_getd. cbn [gc_sample]. apply (path_defaults_other _ _ _ _ H1); discriminate.
  - reflexivity.
  - cbn [gc_meta]. intros k m I NF.
    change (In (k, m) (map (fun k => (k, if String.eqb k "fabrication" then gate_none else meta_of gate_none k (snd r))) gate_keys)) in I. apply in_map_iff in I. destruct I as (k' & E & I). injection E as -> <-.
    destruct (String.eqb_spec k "fabrication"); [contradiction|]. apply Q. exact I.
  - exists (meta_of gate_none "fabrication" (snd r)). apply Q. simpl. tauto.
  - cbn [gc_meta]. simpl. tauto.
Qed.
Lemma gates_complete keys d c : Permutation gate_keys keys -> gates_spec f d c -> exists d', gates_from_dict f keys d = Ok (c, d').
Proof.
  intros P (H1 & H2 & H3 & H4 & H5 & H6). assert (N : NoDup keys) by (eapply Permutation_NoDup; [exact P|apply nodup_gate_keys]).
  assert (IK : forall k, In k keys <-> In k gate_keys) by (intros k; split; apply Permutation_in; [apply Permutation_sym|]; exact P).
  apply path_spec in H1. destruct H1 as (d1 & D & E1 & E2 & V).
  unfold gates_from_dict. rewrite D. cbn [bindR]. cbv zeta.
  change gates_key with (keyf gate_none gate_from_dict).
  assert (G : forall k, In k gate_keys -> ent gate_none gate_from_dict (setdefault "sample" (PBool false) d1) k = ent gate_none gate_from_dict d k).
  { intros k I. destruct (gate_keys_other k I) as (? & ? & ?). apply ent_getd. rewrite getd_setdefault.
    destruct (String.eqb_spec k "sample"); [contradiction|]. apply (path_defaults_other _ _ _ _ D); assumption. }
  assert (X : forall k, In k gate_keys -> exists m, In (k, m) (gc_meta c)).
  { intros k I. change gate_keys with ["CZ"; "CX"; "H"; "R"; "M"; "fabrication"] in I. rewrite <- H3 in I.
    apply in_map_iff in I. destruct I as ([k' m] & <- & I). eauto. }
  destruct (keys_total gate_none gate_from_dict keys (setdefault "sample" (PBool false) d1) N) as (r & F).
  { intros k I. apply IK in I. rewrite G by exact I. destruct (string_dec k "fabrication") as [->|NF].
    - destruct H5 as (m & H5). exists m. apply ent_gate. exact H5.
    - destruct (X k I) as (m & I'). exists m. apply ent_gate. apply H4; assumption. }
  rewrite F. cbn [bindR]. destruct (keys_spec _ _ _ _ N _ F) as (K1 & K2 & K3).
  assert (O : forall k, ~ In k gate_keys -> forall x, getd k x (fst r) = getd k x (setdefault "sample" (PBool false) d1))
    by (intros; apply K2; rewrite IK; assumption).
  rewrite !lookup_getd, !(O "data_path"), !(O "load_file"), !(O "sample") by (simpl; intuition discriminate).
  rewrite !getd_setdefault. cbn [String.eqb Ascii.eqb Bool.eqb]. rewrite E1, E2, V. cbn [bindR].
  eexists. f_equal. f_equal. destruct c as [cp cs cl cm]. cbn [gc_path gc_load gc_sample gc_meta] in *. f_equal.
  - rewrite (path_defaults_other _ _ _ _ D) by discriminate. symmetry. apply entry_getd. exact H2.
  - symmetry. apply (same_list cm (fun k => if String.eqb k "fabrication" then gate_none else meta_of gate_none k (snd r)) gate_keys); [exact H3|]. intros k m I.
    assert (Nd : NoDup (map fst cm)) by (rewrite H3; apply nodup_gate_keys).
    destruct (String.eqb_spec k "fabrication") as [->|NF].
    + rewrite <- (meta_of_in gate_none _ _ _ Nd I). apply (meta_of_in gate_none _ _ _ Nd H6).
    + assert (Ik : In k gate_keys) by (change gate_keys with ["CZ"; "CX"; "H"; "R"; "M"; "fabrication"]; rewrite <- H3; apply in_map_iff; exists (k, m); auto).
      pose proof (H4 k m I NF) as Q. apply ent_gate in Q. rewrite <- G in Q by exact Ik. rewrite K1 in Q by (apply IK; exact Ik). congruence.
Qed.
End Errors.

Section Experiments.
Variables (f : files) (qkeys gkeys : list string).
Hypothesis HQ : Permutation qubit_keys qkeys.
Hypothesis HG : Permutation gate_keys gkeys.

Lemma truthy_pobj d k : getd k PNone d = PObj -> truthy (PDict d) = true.
Proof. destruct d; [discriminate|reflexivity]. Qed.
(** The parts of the dictionary of errors. *)
Lemma errors_parts d c d' : errors_from_dict f qkeys gkeys d = Ok (c, d') ->
  exists q g, part d "qubit_errors" q /\ qubits_spec f q (ec_qubits c) /\ part d "gate_errors" g /\ gates_spec f g (ec_gates c) /\
    (truthy (getd "qubit_errors" PNone d) = true -> exists q', getd "qubit_errors" PNone d' = PDict q' /\ forall k, In k qubit_keys -> getd k PNone q' = PObj) /\
    (truthy (getd "gate_errors" PNone d) = true -> exists g', getd "gate_errors" PNone d' = PDict g' /\ forall k, In k gate_keys -> getd k PNone g' = PObj).
Proof.
  unfold errors_from_dict. intros H. apply bindR_ok in H. destruct H as ([cq dq] & H1 & H). cbv zeta in H. cbn [fst snd] in H.
  apply bindR_ok in H. destruct H as ([cg dg] & H2 & H). injection H as <- <-. cbn [ec_qubits ec_gates fst snd].
  unfold section in *. rewrite !lookup_getd in *.
  assert (G : getd "gate_errors" PNone (if truthy (getd "qubit_errors" PNone d) then store "qubit_errors" (PDict dq) d else d) = getd "gate_errors" PNone d).
  { destruct (truthy (getd "qubit_errors" PNone d)); [rewrite getd_store|]; reflexivity. }
  rewrite G in *.
  assert (Q : exists q, part d "qubit_errors" q /\ qubits_from_dict f qkeys q = Ok (cq, dq)).
  { unfold part. destruct (truthy (getd "qubit_errors" PNone d)) eqn:T.
    - apply bindR_ok in H1. destruct H1 as (q & A & H1). exists q. split; [|exact H1]. exists (getd "qubit_errors" PNone d).
      split; [apply entry_getd; reflexivity|]. right. split; [exact T|]. destruct (getd "qubit_errors" PNone d); try discriminate. cbn in A. congruence.
    - exists []. split; [|exact H1]. exists (getd "qubit_errors" PNone d). split; [apply entry_getd; reflexivity|auto]. }
  assert (Gt : exists g, part d "gate_errors" g /\ gates_from_dict f gkeys g = Ok (cg, dg)).
  { unfold part. destruct (truthy (getd "gate_errors" PNone d)) eqn:T.
    - apply bindR_ok in H2. destruct H2 as (q & A & H2). exists q. split; [|exact H2]. exists (getd "gate_errors" PNone d).
      split; [apply entry_getd; reflexivity|]. right. split; [exact T|]. destruct (getd "gate_errors" PNone d); try discriminate. cbn in A. congruence.
    - exists []. split; [|exact H2]. exists (getd "gate_errors" PNone d). split; [apply entry_getd; reflexivity|auto]. }
  destruct Q as (q & Q1 & Q2). destruct Gt as (g & G1 & G2).
  destruct (qubits_parts _ _ _ _ _ HQ Q2) as [Q3 Q4]. destruct (gates_parts _ _ _ _ _ HG G2) as [G3 G4].
  exists q, g. split; [exact Q1|]. split; [exact Q3|]. split; [exact G1|]. split; [exact G3|]. split.
  - intros T. rewrite T. exists dq. split; [|auto].
    destruct (truthy (getd "gate_errors" PNone d)); rewrite !getd_store; reflexivity.
  - intros T. rewrite T. exists dg. split; [|auto]. rewrite getd_store. reflexivity.
Qed.
Lemma errors_complete d c q g : part d "qubit_errors" q -> qubits_spec f q (ec_qubits c) -> part d "gate_errors" g -> gates_spec f g (ec_gates c) ->
  exists d', errors_from_dict f qkeys gkeys d = Ok (c, d').
Proof.
  intros (v & E & H) Q (w & E' & H') G. apply entry_getd in E, E'.
  destruct (qubits_complete _ _ _ _ HQ Q) as (dq & Q'). destruct (gates_complete _ _ _ _ HG G) as (dg & G').
  unfold errors_from_dict. rewrite !lookup_getd. rewrite <- E.
  assert (X : (if truthy v then do x <- as_dictionary v; qubits_from_dict f qkeys x else qubits_from_dict f qkeys []) = Ok (ec_qubits c, dq)).
  { destruct H as [[-> ->]|[-> ->]]; exact Q'. }
  rewrite X. cbn [bindR]. cbv zeta. unfold section at 1 2. rewrite !lookup_getd, <- E. cbn [fst snd].
  assert (Y : getd "gate_errors" PNone (if truthy v then store "qubit_errors" (PDict dq) d else d) = w).
  { rewrite E'. destruct (truthy v); [rewrite getd_store|]; reflexivity. }
  rewrite Y.
  assert (Z : (if truthy w then do x <- as_dictionary w; gates_from_dict f gkeys x else gates_from_dict f gkeys []) = Ok (ec_gates c, dg)).
  { destruct H' as [[-> ->]|[-> ->]]; exact G'. }
  rewrite Z. cbn [bindR fst]. eexists. destruct c. reflexivity.
Qed.

Definition filled (d : pydict) : pydict :=
  setdefault "code" (PDict []) (setdefault "circuit" (PDict []) (setdefault "decoder" (PDict []) (setdefault "errors" (PDict []) (setdefault "device" (PDict []) d)))).
Lemma as_dictionary_ok v e : as_dictionary v = Ok e -> v = PDict e.
Proof. destruct v; cbn; congruence. Qed.
Lemma experiment_parts d x d' : experiment_from_dict f qkeys gkeys d = Ok (x, d') ->
  experiment_spec f d x /\
  exists e e', sect d "errors" e /\ getd "errors" PNone d' = PDict e' /\
    (truthy (getd "qubit_errors" PNone e) = true -> exists q', getd "qubit_errors" PNone e' = PDict q' /\ forall k, In k qubit_keys -> getd k PNone q' = PObj) /\
    (truthy (getd "gate_errors" PNone e) = true -> exists g', getd "gate_errors" PNone e' = PDict g' /\ forall k, In k gate_keys -> getd k PNone g' = PObj).
Proof.
  unfold experiment_from_dict. cbn [fold_left]. fold (filled d).
  assert (F : forall k, In k ["device"; "errors"; "decoder"; "circuit"; "code"] -> getd k PNone (filled d) = getd k (PDict []) d).
  { intros k I. unfold filled. rewrite !getd_setdefault. simpl in I. destruct I as [<-|[<-|[<-|[<-|[<-|[]]]]]]; reflexivity. }
  assert (F' : getd "general" PNone (filled d) = getd "general" PNone d) by (unfold filled; rewrite !getd_setdefault; reflexivity).
  cbv zeta. intros H.
  apply bindR_ok in H. destruct H as ([dv ddv] & H1 & H). apply bindR_ok in H1. destruct H1 as (e1 & A1 & H1). cbn [fst snd] in H.
  apply bindR_ok in H. destruct H as ([ci dci] & H2 & H). apply bindR_ok in H2. destruct H2 as (e2 & A2 & H2). cbn [fst snd] in H.
  apply bindR_ok in H. destruct H as ([cd dcd] & H3 & H). apply bindR_ok in H3. destruct H3 as (e3 & A3 & H3). cbn [fst snd] in H.
  apply bindR_ok in H. destruct H as ([er der] & H4 & H). apply bindR_ok in H4. destruct H4 as (e4 & A4 & H4). cbn [fst snd] in H.
  apply bindR_ok in H. destruct H as ([dc ddc] & H5 & H). apply bindR_ok in H5. destruct H5 as (e5 & A5 & H5). cbn [fst snd] in H.
  injection H as <- <-.
  Ltac section_of A F := rewrite lookup_getd in A; repeat rewrite getd_store in A; cbn [String.eqb Ascii.eqb Bool.eqb] in A;
    rewrite F in A by (simpl; tauto); apply as_dictionary_ok in A.
  section_of A1 F. section_of A2 F. section_of A3 F. section_of A4 F. section_of A5 F.
  apply device_from_spec in H1. apply circuit_from_spec in H2. apply code_from_spec in H3. apply decoder_from_spec in H5.
  apply errors_parts in H4. destruct H4 as (q & g & P1 & P2 & P3 & P4 & P5 & P6).
  split.
  - unfold experiment_spec. cbn [ex_general ex_device ex_circuit ex_code ex_errors ex_decoder].
    split; [|split; [|split; [|split; [|split]]]].
    + apply entry_getd. rewrite lookup_getd, !getd_store. cbn [String.eqb Ascii.eqb Bool.eqb]. exact F'.
    + exists e1. split; [apply entry_getd; congruence|]. tauto.
    + exists e2. split; [apply entry_getd; congruence|]. tauto.
    + destruct H3 as (size & H3). exists e3, size. split; [apply entry_getd; congruence|]. tauto.
    + exists e4, q, g. split; [apply entry_getd; congruence|]. auto.
    + exists e5. split; [apply entry_getd; congruence|]. tauto.
  - exists e4, der. split; [apply entry_getd; congruence|]. split; [|auto].
    rewrite !getd_store. reflexivity.
Qed.
Lemma experiment_complete d x : experiment_spec f d x -> exists d', experiment_from_dict f qkeys gkeys d = Ok (x, d').
Proof.
  intros (Hg & (e1 & A1 & H1) & (e2 & A2 & H2) & (e3 & size & A3 & H3) & (e4 & q & g & A4 & P1 & P2 & P3 & P4) & (e5 & A5 & H5)).
  assert (F : forall k, In k ["device"; "errors"; "decoder"; "circuit"; "code"] -> getd k PNone (filled d) = getd k (PDict []) d).
  { intros k I. unfold filled. rewrite !getd_setdefault. simpl in I. destruct I as [<-|[<-|[<-|[<-|[<-|[]]]]]]; reflexivity. }
  assert (F' : getd "general" PNone (filled d) = getd "general" PNone d) by (unfold filled; rewrite !getd_setdefault; reflexivity).
  apply entry_getd in Hg, A1, A2, A3, A4, A5.
  destruct (errors_complete e4 (ex_errors x) q g P1 P2 P3 P4) as (der & H4).
  unfold experiment_from_dict. cbn [fold_left]. fold (filled d). cbv zeta.
  rewrite !lookup_getd. rewrite (F "device") by (simpl; tauto). rewrite <- A1. cbn [as_dictionary bindR].
  assert (X1 : exists d', device_from_dict e1 = Ok (ex_device x, d')) by (eexists; apply device_from_spec; destruct H1 as (?&?&?); eauto).
  destruct X1 as (d1 & X1). rewrite X1. cbn [bindR fst snd].
  rewrite ?lookup_getd, !getd_store. cbn [String.eqb Ascii.eqb Bool.eqb]. rewrite (F "circuit") by (simpl; tauto). rewrite <- A2. cbn [as_dictionary bindR].
  assert (X2 : exists d', circuit_from_dict f e2 = Ok (ex_circuit x, d')) by (eexists; apply circuit_from_spec; destruct H2 as (?&?&?&?); eauto 8).
  destruct X2 as (d2 & X2). rewrite X2. cbn [bindR fst snd].
  rewrite ?lookup_getd, !getd_store. cbn [String.eqb Ascii.eqb Bool.eqb]. rewrite (F "code") by (simpl; tauto). rewrite <- A3. cbn [as_dictionary bindR].
  assert (X3 : exists d', code_from_dict e3 = Ok (ex_code x, d')).
  { eexists. apply code_from_spec. exists size. destruct H3 as (K1 & K2 & K3 & K4 & K5). eauto 10. }
  destruct X3 as (d3 & X3). rewrite X3. cbn [bindR fst snd].
  rewrite ?lookup_getd, !getd_store. cbn [String.eqb Ascii.eqb Bool.eqb]. rewrite (F "errors") by (simpl; tauto). rewrite <- A4. cbn [as_dictionary bindR].
  rewrite H4. cbn [bindR fst snd].
  rewrite ?lookup_getd, !getd_store. cbn [String.eqb Ascii.eqb Bool.eqb]. rewrite (F "decoder") by (simpl; tauto). rewrite <- A5. cbn [as_dictionary bindR].
  assert (X5 : exists d', decoder_from_dict e5 = Ok (ex_decoder x, d')) by (eexists; apply decoder_from_spec; destruct H5 as (?&?&?); eauto).
  destruct X5 as (d5 & X5). rewrite X5. cbn [bindR fst snd].
  rewrite ?lookup_getd, !getd_store. cbn [String.eqb Ascii.eqb Bool.eqb]. rewrite F', <- Hg. eexists. destruct x. reflexivity.
Qed.
End Experiments.
