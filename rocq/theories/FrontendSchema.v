(** Proofs about [simulated_errors], [as_dict] and the schema. *)
Require Import String List Bool Arith ZArith QArith Lia Permutation.
From Verif Require Import Base FrontendModel FrontendSpec FrontendProofs FrontendConf.
Import ListNotations.
Local Open Scope string_scope.
Local Open Scope nat_scope.
Local Open Scope list_scope.

(** * Simulated errors *)
Lemma foldR_flat {A B} (f : list B -> A -> Res (list B)) (g : A -> list B) l :
  (forall acc a, In a l -> f acc a = Ok (acc ++ g a)) -> forall acc, foldR f l acc = Ok (acc ++ flat_map g l).
Proof.
  induction l as [|a l IH]; intros H acc; simpl; [rewrite app_nil_r; reflexivity|].
  rewrite H by (left; reflexivity). cbn [bindR]. rewrite IH by (intros; apply H; right; assumption). rewrite app_assoc. reflexivity.
Qed.
Lemma nodup_flat {B} (g : string -> list (string * B)) l : NoDup l ->
  (forall a, In a l -> g a = [] \/ exists b, g a = [(a, b)]) -> NoDup (map fst (flat_map g l)).
Proof.
  intros N H. induction l as [|a l IH]; simpl; [constructor|]. inversion N as [|? ? N1 N2]; subst.
  rewrite map_app. assert (I : forall x, In x (map fst (flat_map g l)) -> In x l).
  { intros x I. apply in_map_iff in I. destruct I as ([k b] & <- & I). apply in_flat_map in I. destruct I as (y & Y & I).
    destruct (H y (or_intror Y)) as [E|[c E]]; rewrite E in I; [contradiction|]. destruct I as [E'|[]]. injection E' as -> _. exact Y. }
  destruct (H a (or_introl eq_refl)) as [->|[b ->]]; simpl; [|constructor; [intros X; apply N1, I, X|]]; apply IH; auto; intros; apply H; right; assumption.
Qed.
Definition plist (v : pyval) : list pyval := match v with PList l => l | _ => [] end.
Lemma meta_exists {M} (none : M) k keys l : map fst l = keys -> In k keys -> In (k, meta_of none k l) l.
Proof.
  intros <- I. unfold meta_of. induction l as [|[a m] l IH]; simpl in *; [contradiction|].
  destruct (String.eqb_spec a k) as [->|N]; simpl; [left; reflexivity|right]. apply IH. destruct I; [contradiction|assumption].
Qed.
Lemma sim_qubits_spec keys c : Permutation qubit_keys keys -> truthy (qc_sample c) = true ->
  map fst (qc_meta c) = qubit_keys ->
  (forall k m, In (k, m) (qc_meta c) -> qubit_ok (qm_dist m) (qm_params m) /\ exists l, qm_params m = PList l) ->
  exists l, sim_qubit_errors keys c = Ok (Some (l, qc_path c)) /\ NoDup (map fst l) /\
    forall k dist ps, In (k, (dist, ps)) l <-> exists m, In (k, m) (qc_meta c) /\ truthy (qm_enabled m) = true /\
      qm_dist m = dist /\ qm_params m = PList ps /\ ~ (dist = PStr "" /\ ps = []).
Proof.
  intros P T K V. assert (N : NoDup keys) by (eapply Permutation_NoDup; [exact P|apply nodup_qubit_keys]).
  assert (Nd : NoDup (map fst (qc_meta c))) by (rewrite K; apply nodup_qubit_keys).
  assert (IK : forall k, In k keys <-> In k qubit_keys) by (intros k; split; apply Permutation_in; [apply Permutation_sym|]; exact P).
  set (g := fun k => let m := meta_of qubit_none k (qc_meta c) in
    if truthy (qm_enabled m) && negb (qubit_empty m) then [(k, (qm_dist m, plist (qm_params m)))] else []).
  exists (flat_map g keys). split; [|split].
  - unfold sim_qubit_errors. rewrite T. cbn [negb]. rewrite (foldR_flat (sim_qubit c) g).
    + reflexivity.
    + intros acc k I. apply IK in I. pose proof (meta_exists qubit_none k _ _ K I) as J. apply V in J. destruct J as (O & ps & E).
      unfold sim_qubit, g. cbv zeta. rewrite E. destruct (_ && _); [|rewrite app_nil_r; reflexivity].
      destruct (is_str _ "user") eqn:U.
      * apply is_str_spec in U. rewrite U, E in O. destruct O as [[_ O]|[[O _]|[[O _]|O]]]; try discriminate.
        destruct ps; [|discriminate]. reflexivity.
      * cbn [unpack bindR plist]. reflexivity.
  - apply nodup_flat; [exact N|]. intros a I. unfold g. cbv zeta. destruct (_ && _); eauto.
  - intros k dist ps. rewrite in_flat_map. split.
    + intros (k' & I & J). unfold g in J. cbv zeta in J. apply IK in I. pose proof (meta_exists qubit_none k' _ _ K I) as M.
      destruct (V _ _ M) as (O & ps' & E). destruct (truthy _ && _) eqn:B; [|contradiction]. apply andb_true_iff in B. destruct B as [B1 B2].
      destruct J as [J|[]]. injection J as -> <- <-. exists (meta_of qubit_none k (qc_meta c)). rewrite E. cbn [plist].
      repeat split; auto. intros [E1 E2]. apply negb_true_iff in B2. subst ps'.
      assert (qubit_empty (meta_of qubit_none k (qc_meta c)) = true) by (apply qubit_empty_spec; auto). congruence.
    + intros (m & I & B & <- & E & Nn). assert (J : In k qubit_keys) by (rewrite <- K; apply in_map_iff; exists (k, m); auto).
      exists k. split; [apply IK; exact J|]. unfold g. cbv zeta. rewrite (meta_of_in qubit_none _ _ _ Nd I), B, E. cbn [plist].
      destruct (qubit_empty m) eqn:Q; cbn [negb andb]; [|left; reflexivity].
      apply qubit_empty_spec in Q. destruct Q as [Q1 Q2]. exfalso. apply Nn. split; [exact Q1|congruence].
Qed.

Definition gvalue (m : gate_meta) : sim_gate :=
  match gm_dist m with
  | PStr s => SimName s
  | v => SimChannels (combine (combine (plist v) (plist (gm_induced m))) (map plist (plist (gm_params m))))
  end.
Lemma chan_aux (m : gate_meta) : forall ds ss ps i, List.length ss = List.length ds -> List.length ps = List.length ds ->
  (forall j, j < List.length ds -> pyindex (gm_dist m) (i + j) = Ok (nth j ds PNone)) ->
  (forall j, j < List.length ds -> pyindex (gm_params m) (i + j) = Ok (PList (nth j ps []))) ->
  mapR (sim_channel m) (combine (seq i (List.length ss)) ss) = Ok (combine (combine ds ss) ps).
Proof.
  induction ds as [|x ds IH]; intros [|s ss] [|p ps] i L1 L2 H1 H2; simpl in *; try discriminate; [reflexivity|].
  unfold sim_channel at 1. cbn [fst snd]. pose proof (H1 0 ltac:(lia)) as A. pose proof (H2 0 ltac:(lia)) as B. rewrite Nat.add_0_r in A, B.
  rewrite A. cbn [bindR]. rewrite B. cbn [bindR unpack nth].
  rewrite (IH ss ps (S i)); [reflexivity|lia|lia| |];
    intros j J; rewrite Nat.add_succ_comm; [apply (H1 (S j))|apply (H2 (S j))]; lia.
Qed.
Lemma sim_gate_ok m : gate_documented (gm_dist m) (gm_induced m) (gm_params m) -> gate_empty m = false ->
  forall c acc k, meta_of gate_none k (gc_meta c) = m ->
  sim_gate_error c acc k = Ok (acc ++ if truthy (gm_enabled m) then [(k, gvalue m)] else []).
Proof.
  intros D E c acc k M. unfold sim_gate_error. cbv zeta. rewrite M, E. cbn [negb andb].
  destruct (truthy (gm_enabled m)); [|rewrite app_nil_r; reflexivity]. unfold gvalue.
  destruct D as [(D & _ & _)|(ds & ss & ps & D & I & P & L1 & L2 & _ & _)].
  - rewrite D. reflexivity.
  - rewrite D, I, P. cbn [unpack bindR plist].
    rewrite (chan_aux m ds (map PStr ss) ps 0); [|rewrite map_length; exact L1|exact L2| |].
    + cbn [bindR]. rewrite map_map. rewrite (map_ext (fun x => plist (PList x)) id) by reflexivity. rewrite map_id. reflexivity.
    + intros j J. rewrite D. cbn. rewrite (nth_error_nth' ds PNone J). reflexivity.
    + intros j J. rewrite P. cbn. rewrite nth_error_map. rewrite (nth_error_nth' ps [] (n := j)) by (rewrite L2; exact J). reflexivity.
Qed.
Lemma gate_empty_sim m : gate_empty m = true -> forall c acc k, meta_of gate_none k (gc_meta c) = m -> sim_gate_error c acc k = Ok acc.
Proof. intros E c acc k M. unfold sim_gate_error. cbv zeta. rewrite M, E. reflexivity. Qed.
Lemma sim_gates_spec keys c : Permutation gate_keys keys -> truthy (gc_sample c) = true ->
  map fst (gc_meta c) = gate_keys ->
  (forall k m, In (k, m) (gc_meta c) -> gate_documented (gm_dist m) (gm_induced m) (gm_params m) \/ gm_dist m = PStr "") ->
  exists l, sim_gate_errors keys c = Ok (Some (l, gc_path c)) /\ NoDup (map fst l) /\
    forall k v, In (k, v) l <-> exists m, In (k, m) (gc_meta c) /\ truthy (gm_enabled m) = true /\
      (gm_dist m = PStr "user" /\ v = SimName "user" \/
       exists ds ss ps, gm_dist m = PList ds /\ ds <> [] /\ gm_induced m = PList (map PStr ss) /\ gm_params m = PList (map PList ps) /\
         v = SimChannels (combine (combine ds (map PStr ss)) ps)).
Proof.
  intros P T K V. assert (N : NoDup keys) by (eapply Permutation_NoDup; [exact P|apply nodup_gate_keys]).
  assert (Nd : NoDup (map fst (gc_meta c))) by (rewrite K; apply nodup_gate_keys).
  assert (IK : forall k, In k keys <-> In k gate_keys) by (intros k; split; apply Permutation_in; [apply Permutation_sym|]; exact P).
  set (g := fun k => let m := meta_of gate_none k (gc_meta c) in
    if gate_empty m then [] else if truthy (gm_enabled m) then [(k, gvalue m)] else []).
  exists (flat_map g keys). split; [|split].
  - unfold sim_gate_errors. rewrite T. cbn [negb]. rewrite (foldR_flat (sim_gate_error c) g); [reflexivity|].
    intros acc k I. apply IK in I. pose proof (meta_exists gate_none k _ _ K I) as J. apply V in J.
    unfold g. cbv zeta. destruct (gate_empty (meta_of gate_none k (gc_meta c))) eqn:E.
    + rewrite app_nil_r. eapply gate_empty_sim; eauto.
    + apply sim_gate_ok; auto. destruct J as [J|J]; [exact J|]. unfold gate_empty in E. rewrite J in E. discriminate.
  - apply nodup_flat; [exact N|]. intros a I. unfold g. cbv zeta. destruct (gate_empty _); [left; reflexivity|]. destruct (truthy (gm_enabled _)); [right; eexists; reflexivity|left; reflexivity].
  - intros k v. rewrite in_flat_map. split.
    + intros (k' & I & J). unfold g in J. cbv zeta in J. apply IK in I. pose proof (meta_exists gate_none k' _ _ K I) as M.
      destruct (gate_empty _) eqn:E; [contradiction|]. destruct (truthy (gm_enabled _)) eqn:B; [|contradiction].
      destruct J as [J|[]]. injection J as -> <-. exists (meta_of gate_none k (gc_meta c)). split; [exact M|]. split; [exact B|].
      destruct (V _ _ M) as [[(D & _ & _)|(ds & ss & ps & D & Ii & Pp & _)]|D].
      * left. unfold gvalue. rewrite D. auto.
      * right. exists ds, ss, ps. unfold gvalue. rewrite D, Ii, Pp. cbn [plist].
        repeat split; auto.
        -- intros ->. unfold gate_empty in E. rewrite D in E. discriminate.
        -- rewrite map_map. rewrite (map_ext (fun x => plist (PList x)) id) by reflexivity. rewrite map_id. reflexivity.
      * unfold gate_empty in E. rewrite D in E. discriminate.
    + intros (m & I & B & H). assert (J : In k gate_keys) by (rewrite <- K; apply in_map_iff; exists (k, m); auto).
      exists k. split; [apply IK; exact J|]. unfold g. cbv zeta. rewrite (meta_of_in gate_none _ _ _ Nd I), B.
      destruct H as [[D ->]|(ds & ss & ps & D & Nn & Ii & Pp & ->)]; unfold gate_empty, gvalue; rewrite D.
      * left. reflexivity.
      * destruct ds; [contradiction|]. rewrite Ii, Pp. cbn [plist].
        rewrite map_map. rewrite (map_ext (fun x => plist (PList x)) id) by reflexivity. rewrite map_id. left. reflexivity.
Qed.

(** * Dictionaries of objects *)
Lemma entry_cases d k def v : entry d k def v -> bound k v d \/ v = def.
Proof. intros [H|[_ H]]; auto. Qed.
Lemma paths_ok f def d path load : paths f def d path load -> path_ok f path load.
Proof. intros []; assumption. Qed.
Lemma qubits_round f d c : qubits_spec f d c -> qc_load c <> PNone -> qubits_spec f (qubits_as_dict c) c.
Proof.
  intros (H1 & H2 & H3 & H4) L. apply paths_ok in H1.
  destruct c as [cp cs cl cm]. cbn [qc_path qc_load qc_sample qc_meta] in *.
  destruct cm as [|[k1 m1] [|[k2 m2] [|[k3 m3] [|[k4 m4] [|[k5 m5] [|[k6 m6] [|]]]]]]]; try discriminate H3.
  cbn [map fst] in H3. injection H3 as -> -> -> -> -> ->.
  assert (Q : forall k m, qubit_entry d k m ->
    qubit_ok (qm_dist m) (qm_params m) /\ (qm_dist m = PStr "" /\ qm_params m = PList [] /\ qm_enabled m = PBool false \/ ~ (qm_dist m = PStr "" /\ qm_params m = PList []))).
  { intros k m (v & _ & [[_ ->]|(e & en & _ & _ & _ & O & _ & S)]); [split; [right; right; right; reflexivity|left; auto]|]. split; [exact O|tauto]. }
  split; [|split; [|split]].
  - cbn [qc_path qc_load]. apply paths_both; auto; [|destruct H1 as (p & -> & _); discriminate|];
      unfold qubits_as_dict; cbn [qc_path qc_load qc_sample qc_meta]; repeat (first [apply bound_here|apply bound_there; [discriminate|]]).
  - apply entry_getd. reflexivity.
  - reflexivity.
  - cbn [qc_meta]. intros k m I. destruct (Q k m (H4 k m I)) as [O S].
    exists (PDict (qubit_as_dict m)). split.
    + apply entry_getd. simpl in I. destruct I as [E|[E|[E|[E|[E|[E|[]]]]]]]; injection E as <- <-; reflexivity.
    + right. exists (qubit_as_dict m), (qm_enabled m). split; [reflexivity|]. rewrite !entry_getd. unfold qubit_as_dict.
      split; [reflexivity|]. split; [reflexivity|]. split; [exact O|]. split; [reflexivity|].
      destruct S as [S|S]; [left; exact S|right; auto].
Qed.
Lemma gates_round f d c : gates_spec f d c -> gc_load c <> PNone -> gates_spec f (gates_as_dict c) c.
Proof.
  intros (H1 & H2 & H3 & H4 & H5 & H6) L. apply paths_ok in H1.
  destruct c as [cp cs cl cm]. cbn [gc_path gc_load gc_sample gc_meta] in *.
  assert (Nd : NoDup (map fst cm)) by (rewrite H3; apply nodup_gate_keys).
  assert (Q : forall k m, In (k, m) cm -> gate_ok (gm_dist m) (gm_induced m) (gm_params m)).
  { intros k m I. destruct (string_dec k "fabrication") as [->|NF].
    - rewrite <- (meta_of_in gate_none _ _ _ Nd I), (meta_of_in gate_none _ _ _ Nd H6). left. reflexivity.
    - destruct (H4 k m I NF) as (v & _ & [[_ ->]|(e & _ & _ & _ & _ & _ & O)]); [left; reflexivity|exact O]. }
  destruct cm as [|[k1 m1] [|[k2 m2] [|[k3 m3] [|[k4 m4] [|[k5 m5] [|[k6 m6] [|]]]]]]]; try discriminate H3.
  cbn [map fst] in H3. injection H3 as -> -> -> -> -> ->.
  assert (G : forall k m, In (k, m) [("CZ", m1); ("CX", m2); ("H", m3); ("R", m4); ("M", m5); ("fabrication", m6)] ->
    gate_entry (gates_as_dict (mkGatesConf cp cs cl [("CZ", m1); ("CX", m2); ("H", m3); ("R", m4); ("M", m5); ("fabrication", m6)])) k m).
  { intros k m I. exists (PDict (gate_as_dict m)). split.
    - apply entry_getd. simpl in I. destruct I as [E|[E|[E|[E|[E|[E|[]]]]]]]; injection E as <- <-; reflexivity.
    - right. exists (gate_as_dict m). split; [reflexivity|]. rewrite !entry_getd.
      split; [reflexivity|]. split; [reflexivity|]. split; [reflexivity|]. split; [reflexivity|]. eapply Q. exact I. }
  split; [|split; [|split; [|split; [|split]]]].
  - cbn [gc_path gc_load]. apply paths_both; auto; [|destruct H1 as (p & -> & _); discriminate|];
      unfold gates_as_dict; cbn [gc_path gc_load gc_sample gc_meta]; repeat (first [apply bound_here|apply bound_there; [discriminate|]]).
  - apply entry_getd. reflexivity.
  - reflexivity.
  - cbn [gc_meta]. intros k m I _. apply G. exact I.
  - exists m6. apply G. simpl. tauto.
  - cbn [gc_meta]. exact H6.
Qed.

(** * The schema *)
Lemma required_spec k d : has_key k d = true <-> required d k.
Proof.
  rewrite has_key_spec. split.
  - intros I. destruct (absent_or d k) as [A|[v B]]; [exfalso; apply A; exact I|exists v; exact B].
  - intros [v B]. eapply bound_in. exact B.
Qed.
Lemma bound_fun d k v w : bound k v d -> bound k w d -> v = w.
Proof. intros A B. rewrite (bound_getd _ _ _ A PNone), (bound_getd _ _ _ B PNone). reflexivity. Qed.
Lemma optional_spec k d (p : pyval -> bool) : (if has_key k d then p (lookup k d) else true) = true <-> optional d k (fun v => p v = true).
Proof.
  unfold optional. destruct (has_key k d) eqn:H.
  - apply required_spec in H. destruct H as [v B]. rewrite lookup_getd, <- (bound_getd _ _ _ B PNone). split.
    + intros P w B'. rewrite (bound_fun _ _ _ _ B' B). exact P.
    + auto.
  - split; [|reflexivity]. intros _ v B. apply bound_in, has_key_spec in B. congruence.
Qed.
Lemma accepts_object props req v : accepts (object props req) v = true <->
  exists d, v = PDict d /\ (forall k, In k req -> required d k) /\ forall k s, In (k, s) props -> optional d k (fun v => accepts s v = true).
Proof.
  unfold object. cbn [accepts]. destruct v as [| | | | | |d|]; cbn [has_type andb]; try (split; [discriminate|intros (? & ? & _); discriminate]).
  rewrite andb_true_iff, !forallb_forall. split.
  - intros [H1 H2]. exists d. split; [reflexivity|]. split.
    + intros k I. apply required_spec. apply H1. exact I.
    + intros k s I. apply optional_spec. apply (H2 (k, s)). exact I.
  - intros (d' & E & H1 & H2). injection E as <-. split.
    + intros k I. apply required_spec. apply H1. exact I.
    + intros [k s] I. apply (optional_spec k d (accepts s)). apply H2. exact I.
Qed.
Lemma accepts_one_of l v : accepts (one_of l) v = true <-> exists s, In s l /\ v = PStr s.
Proof.
  rewrite <- among_spec. unfold one_of. cbn [accepts]. destruct v; cbn [has_type andb]; rewrite ?andb_true_r; try reflexivity;
    (split; [discriminate|]); intros H; apply among_spec in H; destruct H as (? & _ & ?); discriminate.
Qed.
Lemma integral q : (Z.modulo (Qnum q) (Zpos (Qden q)) =? 0)%Z = true <-> exists z, (q == inject_Z z)%Q.
Proof.
  rewrite Z.eqb_eq. split.
  - intros H. apply Z_div_exact_full_2 in H; [|discriminate]. exists (Qnum q / Zpos (Qden q))%Z. unfold Qeq, inject_Z. cbn [Qnum Qden]. lia.
  - intros (z & E). unfold Qeq, inject_Z in E. cbn [Qnum Qden] in E. rewrite Z.mul_1_r in E. rewrite E. apply Z_mod_mult.
Qed.
Lemma accepts_integer mn mx v : accepts (integer mn mx) v = true <->
  exists z, whole_number v z /\ (forall a, mn = Some a -> (a <= z)%Z) /\ (forall b, mx = Some b -> (z <= b)%Z).
Proof.
  unfold integer. cbn [accepts]. unfold whole_number.
  destruct v as [|b|z|q|s|l|d|]; cbn [has_type andb]; try (split; [discriminate|intros (z & [E|(q & E & _)] & _); discriminate]).
  - rewrite !andb_true_r. split.
    + intros H. apply andb_true_iff in H. destruct H as [H1 H2]. exists z. split; [left; reflexivity|].
      split; [intros a ->; apply Z.leb_le; exact H1|intros b ->; apply Z.leb_le; exact H2].
    + intros (z' & [E|(q & E & _)] & H1 & H2); [|discriminate]. injection E as <-. apply andb_true_iff.
      split; [destruct mn as [a|]; [apply Z.leb_le; apply H1|]|destruct mx as [b|]; [apply Z.leb_le; apply H2|]]; reflexivity.
  - rewrite !andb_true_r. rewrite !andb_true_iff, integral. split.
    + intros [[(z & E) H1] H2]. exists z. split; [right; eauto|]. split.
      * intros a ->. cbn in H1. apply Qle_bool_iff in H1. rewrite E in H1. rewrite Zle_Qle. exact H1.
      * intros b ->. cbn in H2. apply Qle_bool_iff in H2. rewrite E in H2. rewrite Zle_Qle. exact H2.
    + intros (z & [E|(q' & E & Z)] & H1 & H2); [discriminate|]. injection E as <-. split; [split|].
      * eauto.
      * destruct mn as [a|]; [|reflexivity]. cbn. apply Qle_bool_iff. rewrite Z. rewrite <- Zle_Qle. apply H1. reflexivity.
      * destruct mx as [a|]; [|reflexivity]. cbn. apply Qle_bool_iff. rewrite Z. rewrite <- Zle_Qle. apply H2. reflexivity.
Qed.
Lemma optional_iff d k (P Q : pyval -> Prop) : (forall v, P v <-> Q v) -> optional d k P <-> optional d k Q.
Proof. intros H. unfold optional. split; intros G v B; apply H; apply G; exact B. Qed.
Lemma props_cons d k s l : (forall a b, In (a, b) ((k, s) :: l) -> optional d a (fun v => accepts b v = true)) <->
  optional d k (fun v => accepts s v = true) /\ forall a b, In (a, b) l -> optional d a (fun v => accepts b v = true).
Proof.
  split.
  - intros H. split; [apply H; left; reflexivity|intros; apply H; right; assumption].
  - intros [H1 H2] a b [E|I]; [injection E as <- <-; exact H1|apply H2; exact I].
Qed.
Lemma props_nil d : (forall a b, In (a, b) (@nil (string * schema)) -> optional d a (fun v => accepts b v = true)) <-> True.
Proof. split; [auto|intros _ a b []]. Qed.
Lemma req_cons d k l : (forall a, In a (k :: l) -> required d a) <-> required d k /\ forall a, In a l -> required d a.
Proof. split; [intros H; split; [apply H; left; reflexivity|intros; apply H; right; assumption]|intros [H1 H2] a [<-|I]; auto]. Qed.
Lemma req_nil d : (forall a, In a (@nil string) -> required d a) <-> True.
Proof. split; [auto|intros _ a []]. Qed.
Lemma accepts_flag v : accepts (plain JBoolean) v = true <-> is_flag v.
Proof. unfold is_flag. destruct v; cbn; split; try discriminate; try (intros (? & ?); discriminate); eauto. Qed.
Lemma accepts_text v : accepts (plain JString) v = true <-> is_text v.
Proof. unfold is_text. destruct v; cbn; split; try discriminate; try (intros (? & ?); discriminate); eauto. Qed.
Lemma accepts_items i v : accepts (with_items i) v = true <-> is_object v.
Proof. unfold is_object. destruct v; cbn; split; try discriminate; try (intros (? & ?); discriminate); eauto. Qed.
Lemma ex_iff {A} (P Q : A -> Prop) : (forall a, P a <-> Q a) -> (exists a, P a) <-> exists a, Q a.
Proof. intros H. split; intros (a & X); exists a; apply H; exact X. Qed.

Lemma schema_spec v : accepts exp_schema v = true <-> config_ok v.
Proof.
  unfold exp_schema, config_ok. rewrite accepts_object. apply ex_iff. intros d.
  rewrite !req_cons, req_nil, !props_cons, props_nil.
  assert (G1 : optional d "general" (fun v => accepts (object [("logical_op", one_of ["X"; "Z"]);
                         ("qec_property", Schema (Some JArray) None None None [] []
                            (Some (Schema None (Some ["logical_error_rate"; "threshold"]) None None [] [] None)));
                         ("seed", integer None None)] ["logical_op"; "qec_property"; "seed"]) v = true) <->
    optional d "general" (fun v => exists g, v = PDict g /\ required g "logical_op" /\ required g "qec_property" /\ required g "seed" /\
      optional g "logical_op" (fun v => v = PStr "X" \/ v = PStr "Z") /\
      optional g "qec_property" (fun v => exists l, v = PList l /\ forall x, In x l -> x = PStr "logical_error_rate" \/ x = PStr "threshold") /\
      optional g "seed" (fun v => exists z, whole_number v z))).
  { apply optional_iff. intros w. rewrite accepts_object. apply ex_iff. intros g. rewrite !req_cons, req_nil, !props_cons, props_nil.
    rewrite (optional_iff g "logical_op" _ (fun v => v = PStr "X" \/ v = PStr "Z")).
    2:{ intros x. rewrite accepts_one_of. simpl. split; [intros (s & [<-|[<-|[]]] & ->); auto|intros [->| ->]; eexists; split; try reflexivity; auto]. }
    rewrite (optional_iff g "qec_property" _ (fun v => exists l, v = PList l /\ forall x, In x l -> x = PStr "logical_error_rate" \/ x = PStr "threshold")).
    2:{ intros x. cbn [accepts]. destruct x as [| | | | |l| |]; cbn [has_type andb]; try (split; [discriminate|intros (? & ? & _); discriminate]).
        rewrite forallb_forall.
        assert (T : forall y, accepts (Schema None (Some ["logical_error_rate"; "threshold"]) None None [] [] None) y = true <-> y = PStr "logical_error_rate" \/ y = PStr "threshold").
        { intros y. cbn [accepts].
          replace (match y with PList l0 => true | PDict d0 => forallb (fun k => has_key k d0) [] && forallb (fun ks => if has_key (fst ks) d0 then accepts (snd ks) (lookup (fst ks) d0) else true) [] | _ => true end) with true by (destruct y; reflexivity).
          rewrite !andb_true_r. cbn [andb]. rewrite among_spec. simpl.
          split; [intros (s & [<-|[<-|[]]] & ->); auto|intros [->| ->]; eexists; split; try reflexivity; auto]. }
        split.
        - intros H. exists l. split; [reflexivity|]. intros y I. apply T. apply H. exact I.
        - intros (l' & E & H). injection E as <-. intros y I. apply T. apply H. exact I. }
    rewrite (optional_iff g "seed" _ (fun v => exists z, whole_number v z)).
    2:{ intros x. rewrite accepts_integer. split; intros (z & H); exists z; [tauto|]. repeat split; auto; intros; discriminate. }
    tauto. }
  rewrite G1. clear G1.
  assert (G2 : optional d "device" (fun v => accepts (object [("name", one_of ["stim"; "clifford"]); ("shots", integer (Some 1%Z) (Some 1000000%Z))] []) v = true) <->
    optional d "device" (fun v => exists g, v = PDict g /\
      optional g "name" (fun v => v = PStr "stim" \/ v = PStr "clifford") /\
      optional g "shots" (fun v => exists z, whole_number v z /\ (1 <= z <= 1000000)%Z))).
  { apply optional_iff. intros w. rewrite accepts_object. apply ex_iff. intros g. rewrite req_nil, !props_cons, props_nil.
    rewrite (optional_iff g "name" _ (fun v => v = PStr "stim" \/ v = PStr "clifford")).
    2:{ intros x. rewrite accepts_one_of. simpl. split; [intros (s & [<-|[<-|[]]] & ->); auto|intros [->| ->]; eexists; split; try reflexivity; auto]. }
    rewrite (optional_iff g "shots" _ (fun v => exists z, whole_number v z /\ (1 <= z <= 1000000)%Z)).
    2:{ intros x. rewrite accepts_integer. apply ex_iff. intros z. split.
        - intros (A & B & C). split; [exact A|]. split; [apply (B 1%Z)|apply (C 1000000%Z)]; reflexivity.
        - intros (A & B & C). split; [exact A|]. split; intros a E; injection E as <-; assumption. }
    tauto. }
  rewrite G2. clear G2.
  assert (L : forall v, accepts (integer (Some 1%Z) None) v = true <-> at_least_one v).
  { intros x. rewrite accepts_integer. apply ex_iff. intros z. split.
    - intros (A & B & C). split; [exact A|]. apply (B 1%Z); reflexivity.
    - intros (A & B). split; [exact A|]. split; intros a E; [injection E as <-; assumption|discriminate]. }
  assert (G3 : optional d "code" (fun v => accepts (object [("name", one_of ["RotatedPlanarCode"; "PlanarCode"; "ToricCode"; "RepetitionCode"; "ShorCode"; "FiveQubitCode"]);
                      ("size", integer (Some 1%Z) None); ("rounds", integer (Some 1%Z) None); ("circuit_provided", plain JBoolean)]
                ["name"; "rounds"]) v = true) <->
    optional d "code" (fun v => exists g, v = PDict g /\ required g "name" /\ required g "rounds" /\
      optional g "name" (fun v => small_code v \/ sized_code v) /\ optional g "size" at_least_one /\
      optional g "rounds" at_least_one /\ optional g "circuit_provided" is_flag)).
  { apply optional_iff. intros w. rewrite accepts_object. apply ex_iff. intros g. rewrite !req_cons, req_nil, !props_cons, props_nil.
    rewrite (optional_iff g "name" _ (fun v => small_code v \/ sized_code v)).
    2:{ intros x. rewrite accepts_one_of. unfold small_code, sized_code. simpl.
        split; [intros (s & [<-|[<-|[<-|[<-|[<-|[<-|[]]]]]]] & ->); tauto|intros [[->| ->]|[->|[->|[->| ->]]]]; eexists; split; try reflexivity; tauto]. }
    rewrite (optional_iff g "size" _ _ L), (optional_iff g "rounds" _ _ L), (optional_iff g "circuit_provided" _ _ accepts_flag). tauto. }
  rewrite G3. clear G3.
  assert (G4 : optional d "circuit" (fun v => accepts (object [("circuit_provided", plain JBoolean); ("has_errors", plain JBoolean); ("circuit_path", plain JString)] []) v = true) <->
    optional d "circuit" (fun v => exists g, v = PDict g /\
      optional g "circuit_provided" is_flag /\ optional g "has_errors" is_flag /\ optional g "circuit_path" is_text)).
  { apply optional_iff. intros w. rewrite accepts_object. apply ex_iff. intros g. rewrite req_nil, !props_cons, props_nil.
    rewrite (optional_iff g "circuit_provided" _ _ accepts_flag), (optional_iff g "has_errors" _ _ accepts_flag), (optional_iff g "circuit_path" _ _ accepts_text). tauto. }
  rewrite G4. clear G4.
  assert (G5 : optional d "errors" (fun v => accepts (object [("qubit_errors", with_items qubit_items); ("gate_errors", with_items gate_items)] []) v = true) <->
    optional d "errors" (fun v => exists g, v = PDict g /\ optional g "qubit_errors" is_object /\ optional g "gate_errors" is_object)).
  { apply optional_iff. intros w. rewrite accepts_object. apply ex_iff. intros g. rewrite req_nil, !props_cons, props_nil.
    rewrite (optional_iff g "qubit_errors" _ _ (accepts_items _)), (optional_iff g "gate_errors" _ _ (accepts_items _)). tauto. }
  rewrite G5. clear G5.
  assert (G6 : optional d "decoder" (fun v => accepts (object [("name", one_of ["PyMatchingDecoder"; "UnionFindDecoder"; "UnionFindNoWeights"; "FusionBlossomDecoder"]);
                         ("weighted", plain JBoolean)] []) v = true) <->
    optional d "decoder" (fun v => exists g, v = PDict g /\ optional g "name" decoder_ok /\ optional g "weighted" is_flag)).
  { apply optional_iff. intros w. rewrite accepts_object. apply ex_iff. intros g. rewrite req_nil, !props_cons, props_nil.
    rewrite (optional_iff g "weighted" _ _ accepts_flag).
    rewrite (optional_iff g "name" _ decoder_ok).
    2:{ intros x. rewrite accepts_one_of. unfold decoder_ok. simpl.
        split; [intros (s & [<-|[<-|[<-|[<-|[]]]]] & ->); tauto|intros [->|[->|[->| ->]]]; eexists; split; try reflexivity; tauto]. }
    tauto. }
  rewrite G6. clear G6. tauto.
Qed.
