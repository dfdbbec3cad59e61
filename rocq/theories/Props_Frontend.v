(** Property C63: configuration objects of experiments are what dictionaries and files say, invalid
    ones are refused, and where the documentation promises more than that. *)
Require Import String List Bool Arith ZArith QArith Lia Permutation.
From Verif Require Import Base FrontendModel FrontendSpec FrontendProofs FrontendConf FrontendSchema.
Import ListNotations.
Local Open Scope string_scope.
Local Open Scope nat_scope.
Local Open Scope list_scope.

(** * Codes *)
(** A dictionary is accepted if and only if its values are valid; the object has them. *)
Theorem C63_code : forall d name rounds size,
  entry d "name" PNone name -> entry d "rounds" (PInt 1) rounds -> entry d "size" (PInt (-1)) size ->
  ((exists r, code_from_dict d = Ok r) <-> code_ok name rounds size) /\
  (forall c d', code_from_dict d = Ok (c, d') -> cc_name c = name /\ cc_rounds c = rounds /\
     (small_code name -> cc_size c = PInt (-1)) /\ (sized_code name -> cc_size c = size)) /\
  forall e, code_from_dict d = Err e -> e = ValueError \/ e = TypeError.
Proof.
  intros d name rounds size N R S. split; [|split].
  - split.
    + intros ([c d'] & H). apply code_from_spec in H. destruct H as (s & N' & R' & S' & O & _).
      apply entry_getd in N, R, S, N', R', S'. congruence.
    + intros O. assert (X : exists c, cc_name c = name /\ cc_rounds c = rounds /\ (small_code name /\ cc_size c = PInt (-1) \/ ~ small_code name /\ cc_size c = size)).
      { destruct (small_dec name); [exists (mkCodeConf name rounds (PInt (-1)))|exists (mkCodeConf name rounds size)]; auto. }
      destruct X as (c & <- & <- & P). eexists (c, _). apply code_from_spec. exists size. eauto 10.
  - intros c d' H. apply code_from_spec in H. destruct H as (s & N' & R' & S' & O & P & _).
    apply entry_getd in N, R, S, N', R', S'. assert (E1 : cc_name c = name) by congruence. assert (E2 : s = size) by congruence.
    rewrite E1, E2 in P. repeat split; try congruence.
    + intros X. destruct P as [[_ P]|[P _]]; tauto.
    + intros X. apply sized_not_small in X. destruct P as [[P _]|[_ P]]; tauto.
  - intros e H. unfold code_from_dict in H. cbv zeta in H. destruct (code_post _) eqn:P; [discriminate|]. cbn in H. injection H as <-.
    eapply code_post_err. exact P.
Qed.
Print Assumptions C63_code.
Example C63_code_example :
  code_from_dict [("name", PStr "PlanarCode"); ("size", PInt 3); ("rounds", PInt 10)] =
    Ok (mkCodeConf (PStr "PlanarCode") (PInt 10) (PInt 3), [("name", PStr "PlanarCode"); ("size", PInt 3); ("rounds", PInt 10)]) /\
  code_from_dict [("size", PInt 3); ("name", PStr "ShorCode")] =
    Ok (mkCodeConf (PStr "ShorCode") (PInt 1) (PInt (-1)), [("size", PInt 3); ("name", PStr "ShorCode"); ("rounds", PInt 1)]) /\
  code_from_dict [("name", PStr "ToricCode")] = Err ValueError /\
  code_from_dict [("name", PStr "ToricCode"); ("size", PFloat (3 # 1))] = Err ValueError /\
  code_from_dict [("name", PStr "SurfaceCode"); ("size", PInt 3)] = Err ValueError.
Proof. repeat split. Qed.

(** The documentation: sizes and numbers of rounds are positive, and ValueError is raised otherwise.
    Zero is accepted, the small codes accept any number of rounds, and other types may give a TypeError. *)
Theorem C63_code_refuted :
  (exists d c d' name rounds size, code_from_dict d = Ok (c, d') /\ entry d "name" PNone name /\ entry d "rounds" (PInt 1) rounds /\
     entry d "size" (PInt (-1)) size /\ sized_code name /\ ~ code_documented name rounds size) /\
  (exists d c d' name rounds size, code_from_dict d = Ok (c, d') /\ entry d "name" PNone name /\ entry d "rounds" (PInt 1) rounds /\
     entry d "size" (PInt (-1)) size /\ small_code name /\ rounds = PInt (-5) /\ ~ code_documented name rounds size) /\
  exists d, code_from_dict d = Err TypeError.
Proof.
  split; [|split].
  - exists [("name", PStr "PlanarCode"); ("size", PInt 0)], (mkCodeConf (PStr "PlanarCode") (PInt 1) (PInt 0)),
      [("name", PStr "PlanarCode"); ("size", PInt 0); ("rounds", PInt 1)], (PStr "PlanarCode"), (PInt 1), (PInt 0).
    split; [reflexivity|]. rewrite !entry_getd. repeat split; try reflexivity; [right; left; reflexivity|].
    intros (_ & [[E|E]|[_ [(z & E & L)|E]]]); try discriminate. injection E as <-. lia.
  - exists [("name", PStr "FiveQubitCode"); ("rounds", PInt (-5))], (mkCodeConf (PStr "FiveQubitCode") (PInt (-5)) (PInt (-1))),
      [("name", PStr "FiveQubitCode"); ("rounds", PInt (-5)); ("size", PInt (-1))], (PStr "FiveQubitCode"), (PInt (-5)), (PInt (-1)).
    split; [reflexivity|]. rewrite !entry_getd. repeat split; try reflexivity; [left; reflexivity|].
    intros ([(z & E & L)|E] & _); [|discriminate]. injection E as <-. lia.
  - exists [("name", PStr "PlanarCode"); ("size", PStr "3")]. reflexivity.
Qed.
Print Assumptions C63_code_refuted.

(** [update] sets the attributes which are given, and then checks all of them. *)
Theorem C63_code_update : forall kw c name rounds size, NoDup (map fst kw) ->
  entry kw "name" (cc_name c) name -> entry kw "rounds" (cc_rounds c) rounds -> entry kw "size" (cc_size c) size ->
  let c' := fst (code_update kw c) in
  cc_name c' = name /\ cc_rounds c' = rounds /\
  (snd (code_update kw c) = None <-> code_ok name rounds size) /\
  (code_ok name rounds size /\ small_code name -> cc_size c' = PInt (-1)) /\
  (~ (code_ok name rounds size /\ small_code name) -> cc_size c' = size).
Proof.
  intros kw c name rounds size Nd N R S.
  assert (E1 : cc_name (fold_left code_set kw c) = name).
  { pose proof (fold_set code_set cc_name "name") as F. apply entry_getd in N. rewrite N. apply entry_getd. apply F; [|exact Nd].
    intros c0 [k v]. unfold code_set. cbn [fst snd]. destruct (String.eqb_spec k "name"); [subst; reflexivity|]. destruct (String.eqb_spec k "rounds"); [subst; reflexivity|]. destruct (String.eqb_spec k "size"); [subst; reflexivity|]. reflexivity. }
  assert (E2 : cc_rounds (fold_left code_set kw c) = rounds).
  { pose proof (fold_set code_set cc_rounds "rounds") as F. apply entry_getd in R. rewrite R. apply entry_getd. apply F; [|exact Nd].
    intros c0 [k v]. unfold code_set. cbn [fst snd]. destruct (String.eqb_spec k "name"); [subst; reflexivity|]. destruct (String.eqb_spec k "rounds"); [subst; reflexivity|]. destruct (String.eqb_spec k "size"); [subst; reflexivity|]. reflexivity. }
  assert (E3 : cc_size (fold_left code_set kw c) = size).
  { pose proof (fold_set code_set cc_size "size") as F. apply entry_getd in S. rewrite S. apply entry_getd. apply F; [|exact Nd].
    intros c0 [k v]. unfold code_set. cbn [fst snd]. destruct (String.eqb_spec k "name"); [subst; reflexivity|]. destruct (String.eqb_spec k "rounds"); [subst; reflexivity|]. destruct (String.eqb_spec k "size"); [subst; reflexivity|]. reflexivity. }
  unfold code_update. cbv zeta. destruct (code_post (fold_left code_set kw c)) as [c'|e] eqn:P; cbn [fst snd].
  - apply code_post_spec in P. rewrite E1, E2, E3 in P. destruct P as (O & P1 & P2 & P3).
    repeat split; auto; intros; destruct P3 as [[X Y]|[X Y]]; auto; tauto.
  - assert (NO : ~ code_ok name rounds size).
    { intros O. assert (X : exists c', code_post (fold_left code_set kw c) = Ok c').
      { destruct (small_dec name); [exists (mkCodeConf name rounds (PInt (-1)))|exists (mkCodeConf name rounds size)];
          apply code_post_spec; cbn [cc_name cc_rounds cc_size]; rewrite E1, E2, E3; auto 10. }
      destruct X as (c' & X). congruence. }
    repeat split; auto; try discriminate; tauto.
Qed.
Print Assumptions C63_code_update.
Example C63_code_update_example :
  code_update [("name", PStr "ShorCode"); ("rounds", PInt 2)] (mkCodeConf (PStr "FiveQubitCode") (PInt 1) (PInt (-1))) =
    (mkCodeConf (PStr "ShorCode") (PInt 2) (PInt (-1)), None) /\
  code_update [("name", PStr "PlanarCode")] (mkCodeConf (PStr "FiveQubitCode") (PInt 1) (PInt (-1))) =
    (mkCodeConf (PStr "PlanarCode") (PInt 1) (PInt (-1)), Some ValueError).
Proof. split; reflexivity. Qed.

(** The same for the other objects, whether the result is checked or not. *)
Ltac set_cases := repeat match goal with |- context [String.eqb ?k ?s] => destruct (String.eqb_spec k s); [subst; cbn; auto|] end; auto.
Theorem C63_updates : forall kw, NoDup (map fst kw) ->
  (forall c, entry kw "name" (vc_name c) (vc_name (device_update kw c)) /\ entry kw "shots" (vc_shots c) (vc_shots (device_update kw c))) /\
  (forall c, let r := decoder_update kw c in
     entry kw "name" (kc_name c) (kc_name (fst r)) /\ entry kw "weighted" (kc_weighted c) (kc_weighted (fst r)) /\ (snd r = None <-> decoder_ok (kc_name (fst r)))) /\
  (forall c, entry kw "circuit_provided" (xc_provided c) (xc_provided (circuit_update kw c)) /\
     entry kw "has_errors" (xc_errors c) (xc_errors (circuit_update kw c)) /\ entry kw "circuit_path" (xc_path c) (xc_path (circuit_update kw c))) /\
  (forall m, let r := qubit_update kw m in
     entry kw "distribution" (qm_dist m) (qm_dist (fst r)) /\ entry kw "params" (qm_params m) (qm_params (fst r)) /\
     (qm_enabled (fst r) = PBool false /\ qm_dist (fst r) = PStr "" /\ qm_params (fst r) = PList [] \/ entry kw "enabled" (qm_enabled m) (qm_enabled (fst r)))) /\
  (forall m, entry kw "distribution" (gm_dist m) (gm_dist (gate_update kw m)) /\ entry kw "induced_errors" (gm_induced m) (gm_induced (gate_update kw m)) /\
     entry kw "params" (gm_params m) (gm_params (gate_update kw m)) /\ entry kw "enabled" (gm_enabled m) (gm_enabled (gate_update kw m))).
Proof.
  intros kw N. split; [|split; [|split; [|split]]].
  - intros c. split; apply (fold_set device_set); auto; intros x [k v]; unfold device_set; cbn [fst snd]; set_cases.
  - intros c r.
    assert (E1 : entry kw "name" (kc_name c) (kc_name (fold_left decoder_set kw c))) by (apply (fold_set decoder_set); auto; intros x [k v]; unfold decoder_set; cbn [fst snd]; set_cases).
    assert (E2 : entry kw "weighted" (kc_weighted c) (kc_weighted (fold_left decoder_set kw c))) by (apply (fold_set decoder_set); auto; intros x [k v]; unfold decoder_set; cbn [fst snd]; set_cases).
    subst r. unfold decoder_update. cbv zeta. set (c' := fold_left decoder_set kw c) in *. pose proof (decoder_post_spec c' c') as P.
    destruct (decoder_post c') as [y|y] eqn:Q; cbn [fst snd].
    + assert (y = c') by (unfold decoder_post in Q; destruct (negb _); congruence). subst y. split; [exact E1|]. split; [exact E2|]. destruct P as [P _]. split; [intros _; apply P; reflexivity|auto].
    + split; [exact E1|]. split; [exact E2|]. split; [discriminate|]. intros O. exfalso. destruct P as [_ P]. specialize (P (conj O eq_refl)). congruence.
  - intros c. split; [|split]; apply (fold_set circuit_set); auto; intros x [k v]; unfold circuit_set; cbn [fst snd]; set_cases.
  - intros m r.
    assert (E1 : entry kw "distribution" (qm_dist m) (qm_dist (fold_left qubit_set kw m))) by (apply (fold_set qubit_set); auto; intros x [k v]; unfold qubit_set; cbn [fst snd]; set_cases).
    assert (E2 : entry kw "params" (qm_params m) (qm_params (fold_left qubit_set kw m))) by (apply (fold_set qubit_set); auto; intros x [k v]; unfold qubit_set; cbn [fst snd]; set_cases).
    assert (E3 : entry kw "enabled" (qm_enabled m) (qm_enabled (fold_left qubit_set kw m))) by (apply (fold_set qubit_set); auto; intros x [k v]; unfold qubit_set; cbn [fst snd]; set_cases).
    subst r. unfold qubit_update. cbv zeta. set (m' := fold_left qubit_set kw m) in *. destruct (qubit_post m') as [y|y] eqn:Q; cbn [fst snd]; [|auto].
    unfold qubit_post in Q. destruct (if is_str (qm_dist m') "user" then _ else _) as [[]|]; cbn [bindR] in Q; [|discriminate]. injection Q as <-.
    destruct (qubit_empty m') eqn:QE; cbn [qm_dist qm_params qm_enabled]; [|auto]. split; [auto|]. split; [auto|]. left. split; [reflexivity|].
    unfold qubit_empty in QE. apply andb_true_iff in QE as [A B]. split.
    + unfold is_str in A. destruct (qm_dist m'); try discriminate. apply String.eqb_eq in A. congruence.
    + destruct (qm_params m') as [| | | | |[|]| |]; try discriminate; auto.
  - intros m. split; [|split; [|split]]; apply (fold_set gate_set); auto; intros x [k v]; unfold gate_set; cbn [fst snd]; set_cases.
Qed.
Print Assumptions C63_updates.
Example C63_updates_example :
  gate_update [("enabled", PBool false); ("params", PList [PInt 1])] (mkGateMeta (PStr "user") (PList []) (PList []) (PBool true)) =
    mkGateMeta (PStr "user") (PList []) (PList [PInt 1]) (PBool false) /\
  qubit_update [("distribution", PStr "")] (mkQubitMeta (PStr "user") (PList []) (PBool true)) = (mkQubitMeta (PStr "") (PList []) (PBool false), None) /\
  device_update [("shots", PInt 7); ("other", PInt 8)] (mkDeviceConf (PStr "stim") (PInt 10)) = mkDeviceConf (PStr "stim") (PInt 7).
Proof. repeat split; reflexivity. Qed.

(** An update which is refused has changed the object nevertheless, and [DeviceConfig.update] and
    [CircuitConfig.update] refuse nothing. *)
Theorem C63_update_refuted :
  (exists kw c, code_post c = Ok c /\ snd (code_update kw c) <> None /\
     ~ code_ok (cc_name (fst (code_update kw c))) (cc_rounds (fst (code_update kw c))) (cc_size (fst (code_update kw c)))) /\
  (exists kw c, decoder_ok (kc_name c) /\ snd (decoder_update kw c) <> None /\ ~ decoder_ok (kc_name (fst (decoder_update kw c)))) /\
  (exists kw m, qubit_post m = Ok m /\ snd (qubit_update kw m) <> None /\ qubit_post (fst (qubit_update kw m)) = Err ValueError) /\
  (exists kw c, device_ok (vc_name c) (vc_shots c) /\ ~ device_ok (vc_name (device_update kw c)) (vc_shots (device_update kw c))) /\
  (exists f kw c, path_ok f (xc_path c) (xc_provided c) /\ ~ path_ok f (xc_path (circuit_update kw c)) (xc_provided (circuit_update kw c))) /\
  exists kw m, gate_post m = Ok m /\ gate_post (gate_update kw m) = Err ValueError.
Proof.
  split; [|split; [|split; [|split; [|split]]]].
  - exists [("name", PStr "PlanarCode")], (mkCodeConf (PStr "FiveQubitCode") (PInt 1) (PInt (-1))).
    split; [reflexivity|]. split; [discriminate|]. cbn. intros [[E|E]|(_ & [(z & E & L)|(b & E)] & _)]; try discriminate. injection E as <-. lia.
  - exists [("name", PStr "MWPM")], (mkDecoderConf (PStr "UnionFindDecoder") (PBool true)).
    split; [right; left; reflexivity|]. split; [discriminate|]. cbn. intros [E|[E|[E|E]]]; discriminate.
  - exists [("distribution", PStr "gaussian")], (mkQubitMeta (PStr "constant") (PList [PFloat (1 # 10)]) (PBool true)).
    split; [reflexivity|]. split; [discriminate|reflexivity].
  - exists [("shots", PInt (-1))], (mkDeviceConf (PStr "stim") (PInt 10)).
    split; [split; [right; reflexivity|left; exists 10%Z; split; [reflexivity|lia]]|].
    cbn. intros (_ & [(z & E & L)|E]); [injection E as <-; lia|discriminate].
  - exists (mkFiles (fun _ => true) (fun _ => false)), [("circuit_provided", PBool true)], (mkCircuitConf (PBool false) (PBool false) (PStr "circuit.txt")).
    split; [exists "circuit.txt"; repeat split; discriminate|]. cbn. intros (p & E & _ & F). specialize (F eq_refl). discriminate.
  - exists [("induced_errors", PList [PStr "X"])], (mkGateMeta (PList []) (PList []) (PList []) (PBool true)). split; reflexivity.
Qed.
Print Assumptions C63_update_refuted.

(** * Devices and decoders *)
Theorem C63_device : forall d name shots, entry d "name" (PStr "clifford") name -> entry d "shots" (PInt 1024) shots ->
  ((exists r, device_from_dict d = Ok r) <-> device_ok name shots) /\
  forall c d', device_from_dict d = Ok (c, d') -> c = mkDeviceConf name shots.
Proof.
  intros d name shots N S. assert (F : forall c d', device_from_dict d = Ok (c, d') -> c = mkDeviceConf name shots).
  { intros [n s] d' H. apply device_from_spec in H. destruct H as (N' & S' & _). apply entry_getd in N, S, N', S'. cbn in *. congruence. }
  split; [|exact F]. split.
  - intros ([c d'] & H). pose proof (F _ _ H) as E. apply device_from_spec in H. destruct H as (_ & _ & O & _). subst c. exact O.
  - intros O. eexists (mkDeviceConf name shots, _). apply device_from_spec. cbn. eauto.
Qed.
Theorem C63_decoder : forall d name weighted, entry d "name" (PStr "PyMatchingDecoder") name -> entry d "weighted" (PBool false) weighted ->
  ((exists r, decoder_from_dict d = Ok r) <-> decoder_ok name) /\
  forall c d', decoder_from_dict d = Ok (c, d') -> c = mkDecoderConf name weighted.
Proof.
  intros d name weighted N S. assert (F : forall c d', decoder_from_dict d = Ok (c, d') -> c = mkDecoderConf name weighted).
  { intros [n s] d' H. apply decoder_from_spec in H. destruct H as (N' & S' & _). apply entry_getd in N, S, N', S'. cbn in *. congruence. }
  split; [|exact F]. split.
  - intros ([c d'] & H). pose proof (F _ _ H) as E. apply decoder_from_spec in H. destruct H as (_ & _ & O & _). subst c. exact O.
  - intros O. eexists (mkDecoderConf name weighted, _). apply decoder_from_spec. cbn. eauto.
Qed.
Print Assumptions C63_device.
Print Assumptions C63_decoder.
Example C63_device_example :
  device_from_dict [("shots", PInt 10)] = Ok (mkDeviceConf (PStr "clifford") (PInt 10), [("shots", PInt 10); ("name", PStr "clifford")]) /\
  device_from_dict [("shots", PInt 0)] = Err ValueError /\ device_from_dict [("shots", PFloat (10 # 1))] = Err ValueError /\
  decoder_from_dict [] = Ok (mkDecoderConf (PStr "PyMatchingDecoder") (PBool false), [("name", PStr "PyMatchingDecoder"); ("weighted", PBool false)]) /\
  decoder_from_dict [("name", PStr "MWPM")] = Err ValueError.
Proof. repeat split. Qed.

(** * Errors *)
(** The configuration of qubit errors, for every order in which the names are read. *)
Theorem C63_qubits : forall f keys d c, Permutation qubit_keys keys ->
  (exists d', qubits_from_dict f keys d = Ok (c, d')) <-> qubits_spec f d c.
Proof. intros f keys d c P. split; [intros (d' & H); eapply qubits_parts; eauto|apply qubits_complete; exact P]. Qed.
Print Assumptions C63_qubits.
Theorem C63_gates : forall f keys d c, Permutation gate_keys keys ->
  (exists d', gates_from_dict f keys d = Ok (c, d')) <-> gates_spec f d c.
Proof. intros f keys d c P. split; [intros (d' & H); eapply gates_parts; eauto|apply gates_complete; exact P]. Qed.
Print Assumptions C63_gates.
Definition everything := mkFiles (fun _ => true) (fun _ => true).
Definition nothing := mkFiles (fun _ => true) (fun _ => false).
Definition tenth := PFloat (1 # 10).
Definition x_errors : pydict := [("X", PDict [("distribution", PStr "constant"); ("params", PList [tenth])])].
Example C63_qubits_example :
  match qubits_from_dict nothing qubit_keys x_errors with
  | Ok (c, d') => qc_path c = PStr "qubit_errors.csv" /\ qc_load c = PBool false /\ qc_sample c = PBool true /\
      In ("X", mkQubitMeta (PStr "constant") (PList [tenth]) (PBool true)) (qc_meta c) /\ In ("Z", qubit_none) (qc_meta c) /\ lookup "X" d' = PObj
  | Err _ => False
  end /\
  qubits_from_dict nothing qubit_keys (("data_path", PStr "a.csv") :: x_errors) = Err FileNotFoundError /\
  qubits_from_dict nothing qubit_keys [("X", PDict [("distribution", PStr "constant")])] = Err ValueError /\
  qubits_from_dict nothing qubit_keys [("X", PDict [])] = Err ValueError /\
  qubits_from_dict nothing qubit_keys [("X", PStr "user")] = Err AttributeError.
Proof. cbn. intuition. Qed.

(** [simulated_errors] has the errors which are enabled and not empty, and only these. *)
Theorem C63_simulated_qubits : forall keys c, Permutation qubit_keys keys -> truthy (qc_sample c) = true ->
  map fst (qc_meta c) = qubit_keys ->
  (forall k m, In (k, m) (qc_meta c) -> qubit_ok (qm_dist m) (qm_params m) /\ exists l, qm_params m = PList l) ->
  exists l, sim_qubit_errors keys c = Ok (Some (l, qc_path c)) /\ NoDup (map fst l) /\
    forall k dist ps, In (k, (dist, ps)) l <-> exists m, In (k, m) (qc_meta c) /\ truthy (qm_enabled m) = true /\
      qm_dist m = dist /\ qm_params m = PList ps /\ ~ (dist = PStr "" /\ ps = []).
Proof. exact sim_qubits_spec. Qed.
Theorem C63_simulated_gates : forall keys c, Permutation gate_keys keys -> truthy (gc_sample c) = true ->
  map fst (gc_meta c) = gate_keys ->
  (forall k m, In (k, m) (gc_meta c) -> gate_documented (gm_dist m) (gm_induced m) (gm_params m) \/ gm_dist m = PStr "") ->
  exists l, sim_gate_errors keys c = Ok (Some (l, gc_path c)) /\ NoDup (map fst l) /\
    forall k v, In (k, v) l <-> exists m, In (k, m) (gc_meta c) /\ truthy (gm_enabled m) = true /\
      (gm_dist m = PStr "user" /\ v = SimName "user" \/
       exists ds ss ps, gm_dist m = PList ds /\ ds <> [] /\ gm_induced m = PList (map PStr ss) /\ gm_params m = PList (map PList ps) /\
         v = SimChannels (combine (combine ds (map PStr ss)) ps)).
Proof. exact sim_gates_spec. Qed.
Print Assumptions C63_simulated_qubits.
Print Assumptions C63_simulated_gates.
(** The examples of the documentation (708-711, 1318-1321). *)
Example C63_simulated_example :
  (do r <- qubits_from_dict nothing qubit_keys
     [("X", PDict [("distribution", PStr "constant"); ("params", PList [tenth])]);
      ("Z", PDict [("distribution", PStr "gaussian"); ("params", PList [tenth; PFloat (2 # 100)])]);
      ("measurement", PDict [("distribution", PStr "constant"); ("params", PList [tenth])]);
      ("erasure", PDict [("distribution", PStr "constant"); ("params", PList [tenth]); ("enabled", PBool false)]);
      ("fabrication", PDict [("distribution", PStr "user")])];
   sim_qubit_errors qubit_keys (fst r)) =
  Ok (Some ([("X", (PStr "constant", [tenth])); ("Z", (PStr "gaussian", [tenth; PFloat (2 # 100)]));
             ("measurement", (PStr "constant", [tenth])); ("fabrication", (PStr "user", []))], PStr "qubit_errors.csv")) /\
  (do r <- gates_from_dict nothing gate_keys
     [("CZ", PDict [("distribution", PList [PStr "constant"; PStr "constant"]); ("induced_errors", PList [PStr "XX"; PStr "YY"]);
                    ("params", PList [PList [tenth]; PList [PFloat (13 # 100)]])]);
      ("M", PDict [("distribution", PStr "user")]); ("sample", PBool true)];
   sim_gate_errors gate_keys (fst r)) =
  Ok (Some ([("CZ", SimChannels [(PStr "constant", PStr "XX", [tenth]); (PStr "constant", PStr "YY", [PFloat (13 # 100)])]);
             ("M", SimName "user")], PStr "gate_errors.csv")).
Proof. split; reflexivity. Qed.

(** The documentation of gate errors: other distributions than user, constant and gaussian are
    refused, as are parameters of user, the channel II, and lists of different lengths.  None of
    this is the case, and the error may be an IndexError. *)
Theorem C63_gate_refuted :
  (exists d m, gate_from_dict d = Ok m /\ gm_dist m = PStr "binomial" /\ ~ gate_documented (gm_dist m) (gm_induced m) (gm_params m)) /\
  (exists d m, gate_from_dict d = Ok m /\ gm_dist m = PStr "user" /\ gm_params m <> PList []) /\
  (exists d m, gate_from_dict d = Ok m /\ gm_induced m = PList [PStr "II"] /\ ~ gate_documented (gm_dist m) (gm_induced m) (gm_params m)) /\
  (exists d m, gate_from_dict d = Ok m /\ gm_dist m = PNone) /\
  (exists d, gate_from_dict d = Err IndexError) /\
  (** Fewer distributions than channels: the object exists, but not its simulated errors. *)
  exists f d c d', gates_from_dict f gate_keys d = Ok (c, d') /\ sim_gate_errors gate_keys c = Err IndexError.
Proof.
  split; [|split; [|split; [|split; [|split]]]].
  - eexists [("distribution", PStr "binomial")], _. split; [reflexivity|]. split; [reflexivity|].
    intros [(E & _)|(ds & ss & ps & E & _)]; discriminate.
  - eexists [("distribution", PStr "user"); ("params", PList [PList [tenth]])], _. split; [reflexivity|]. split; [reflexivity|]. discriminate.
  - eexists [("distribution", PList [PStr "constant"]); ("induced_errors", PList [PStr "II"]); ("params", PList [PList [tenth]])], _.
    split; [reflexivity|]. split; [reflexivity|]. intros [(E & _)|(ds & ss & ps & _ & I & _ & _ & _ & F & _)]; [discriminate|].
    cbn in I. destruct ss as [|s [|]]; try discriminate. injection I as <-. inversion F as [|? ? [_ X] _]; subst. apply X. reflexivity.
  - eexists [], _. split; reflexivity.
  - exists [("distribution", PList [PStr "constant"])]. reflexivity.
  - eexists nothing, [("sample", PBool true); ("H", PDict [("distribution", PList [PStr "constant"]); ("induced_errors", PList [PStr "X"; PStr "Y"]);
      ("params", PList [PList [tenth]; PList [tenth]])])], _, _. split; reflexivity.
Qed.
Print Assumptions C63_gate_refuted.
(** A channel which is no name: a list cannot be looked up, a number is no valid name. *)
Example C63_channel_example :
  gate_from_dict [("distribution", PList [PStr "constant"]); ("induced_errors", PList [PList []]); ("params", PList [PList [tenth]])] = Err TypeError /\
  gate_from_dict [("distribution", PList [PStr "constant"]); ("induced_errors", PList [PInt 3]); ("params", PList [PList [tenth]])] = Err ValueError.
Proof. split; reflexivity. Qed.

(** The entry for fabrication of gates is dropped: whatever is configured, it is disabled. *)
Theorem C63_fabrication_refuted : forall f keys d c d', Permutation gate_keys keys -> gates_from_dict f keys d = Ok (c, d') ->
  exists m, In ("fabrication", m) (gc_meta c) /\ gm_enabled m = PBool false /\ gm_dist m = PStr "".
Proof.
  intros f keys d c d' P H. destruct (gates_parts _ _ _ _ _ P H) as [(_ & _ & _ & _ & _ & I) _]. eexists. split; [exact I|]. split; reflexivity.
Qed.
Print Assumptions C63_fabrication_refuted.
Example C63_fabrication_example :
  match gates_from_dict nothing gate_keys [("sample", PBool true); ("fabrication", PDict [("distribution", PStr "user"); ("enabled", PBool true)])] with
  | Ok (c, _) => sim_gate_errors gate_keys c = Ok (Some ([], PStr "gate_errors.csv"))
  | Err _ => False
  end.
Proof. reflexivity. Qed.

(** The documentation of the classes: decoders use weights and gate errors are simulated by default
    (1682, 1009).  A dictionary without these entries gives the opposite. *)
Theorem C63_defaults_refuted :
  (forall d c d', decoder_from_dict d = Ok (c, d') -> absent "weighted" d -> kc_weighted c = PBool false) /\
  (forall f keys d c d', Permutation gate_keys keys -> gates_from_dict f keys d = Ok (c, d') -> absent "sample" d ->
     gc_sample c = PBool false /\ sim_gate_errors keys c = Ok None).
Proof.
  split.
  - intros d c d' H A. apply decoder_from_spec in H. destruct H as (_ & W & _). apply entry_getd in W. rewrite absent_getd in W by exact A. exact W.
  - intros f keys d c d' P H A. destruct (gates_parts _ _ _ _ _ P H) as [(_ & W & _) _]. apply entry_getd in W. rewrite absent_getd in W by exact A.
    split; [exact W|]. unfold sim_gate_errors. rewrite W. reflexivity.
Qed.
Print Assumptions C63_defaults_refuted.
Example C63_defaults_example :
  match gates_from_dict nothing gate_keys [("H", PDict [("distribution", PStr "user")])] with
  | Ok (c, _) => sim_gate_errors gate_keys c = Ok None
  | Err _ => False
  end.
Proof. reflexivity. Qed.

(** * Dictionaries of objects *)
(** [from_dict] of [as_dict] gives the same object. *)
Theorem C63_round_trip :
  (forall c c', code_post c = Ok c' -> exists d', code_from_dict (code_as_dict c') = Ok (c', d')) /\
  (forall c c', device_post c = Ok c' -> exists d', device_from_dict (device_as_dict c') = Ok (c', d')) /\
  (forall c c', decoder_post c = Ok c' -> exists d', decoder_from_dict (decoder_as_dict c') = Ok (c', d')) /\
  (forall f c c', circuit_post f c = Ok c' -> exists d', circuit_from_dict f (circuit_as_dict c') = Ok (c', d')) /\
  (forall m m', qubit_post m = Ok m' -> qubit_from_dict (qubit_as_dict m') = Ok m') /\
  (forall m m', gate_post m = Ok m' -> gate_from_dict (gate_as_dict m') = Ok m') /\
  (forall f keys keys' d c d', Permutation qubit_keys keys -> Permutation qubit_keys keys' -> qubits_from_dict f keys d = Ok (c, d') ->
     qc_load c <> PNone -> exists d'', qubits_from_dict f keys' (qubits_as_dict c) = Ok (c, d'')) /\
  (forall f keys keys' d c d', Permutation gate_keys keys -> Permutation gate_keys keys' -> gates_from_dict f keys d = Ok (c, d') ->
     gc_load c <> PNone -> exists d'', gates_from_dict f keys' (gates_as_dict c) = Ok (c, d'')).
Proof.
  split; [|split; [|split; [|split; [|split; [|split; [|split]]]]]].
  - intros c c' H. apply code_post_idem in H. eexists. unfold code_from_dict. cbn. destruct c'. cbn in *. rewrite H. reflexivity.
  - intros c c' H. pose proof H as H'. apply device_post_spec in H. destruct H as [_ ->]. eexists. unfold device_from_dict. cbn. destruct c. cbn. rewrite H'. reflexivity.
  - intros c c' H. pose proof H as H'. apply decoder_post_spec in H. destruct H as [_ ->]. eexists. unfold decoder_from_dict. cbn. destruct c. cbn. rewrite H'. reflexivity.
  - intros f c c' H. assert (E : c' = c) by (unfold circuit_post in H; apply bindR_ok in H; destruct H as (? & _ & H); congruence). subst c'.
    eexists. unfold circuit_from_dict. cbn. destruct c. cbn. rewrite H. reflexivity.
  - intros m m' H. apply qubit_post_spec in H. destruct H as (O & E1 & E2 & E3). apply qubit_from_spec. exists (qm_enabled m').
    rewrite !entry_getd. rewrite E1, E2. split; [cbn; congruence|]. split; [cbn; congruence|]. split; [exact O|]. split; [reflexivity|].
    destruct E3 as [E3|[E3 _]]; auto.
  - intros m m' H. pose proof H as H'. apply gate_post_spec in H. destruct H as [O ->]. apply gate_from_spec. rewrite !entry_getd. auto.
  - intros f keys keys' d c d' P P' H L. apply qubits_complete; [exact P'|]. destruct (qubits_parts _ _ _ _ _ P H) as [X _]. exact (qubits_round _ _ _ X L).
  - intros f keys keys' d c d' P P' H L. apply gates_complete; [exact P'|]. destruct (gates_parts _ _ _ _ _ P H) as [X _]. exact (gates_round _ _ _ X L).
Qed.
Print Assumptions C63_round_trip.
Example C63_round_trip_example :
  match qubits_from_dict nothing qubit_keys x_errors with
  | Ok (c, _) => match qubits_from_dict nothing (rev qubit_keys) (qubits_as_dict c) with Ok (c', _) => c' = c | Err _ => False end
  | Err _ => False
  end.
Proof. vm_compute. reflexivity. Qed.

(** * Experiments *)
Theorem C63_experiment : forall f qkeys gkeys d x, Permutation qubit_keys qkeys -> Permutation gate_keys gkeys ->
  (exists d', experiment_from_dict f qkeys gkeys d = Ok (x, d')) <-> experiment_spec f d x.
Proof.
  intros f qkeys gkeys d x P Q. split; [intros (d' & H); eapply experiment_parts; eauto|apply experiment_complete; assumption].
Qed.
Print Assumptions C63_experiment.
Definition planar_config : pydict :=
  [("general", PDict [("logical_op", PStr "Z"); ("qec_property", PList [PStr "logical_error_rate"]); ("seed", PInt 123124)]);
   ("device", PDict [("name", PStr "stim"); ("shots", PInt 10000)]);
   ("code", PDict [("name", PStr "RotatedPlanarCode"); ("rounds", PInt 10); ("size", PInt 3)]);
   ("circuit", PDict []);
   ("errors", PDict [("qubit_errors", PDict x_errors)]);
   ("decoder", PDict [("name", PStr "UnionFindDecoder"); ("weighted", PBool false)])].
Example C63_experiment_example :
  match experiment_from_dict nothing qubit_keys gate_keys planar_config with
  | Ok (x, d') => ex_code x = mkCodeConf (PStr "RotatedPlanarCode") (PInt 10) (PInt 3) /\ ex_device x = mkDeviceConf (PStr "stim") (PInt 10000) /\
      ex_circuit x = mkCircuitConf (PBool false) (PBool false) (PStr "circuit.txt") /\
      ex_decoder x = mkDecoderConf (PStr "UnionFindDecoder") (PBool false) /\
      sim_qubit_errors qubit_keys (ec_qubits (ex_errors x)) = Ok (Some ([("X", (PStr "constant", [tenth]))], PStr "qubit_errors.csv")) /\
      sim_gate_errors gate_keys (ec_gates (ex_errors x)) = Ok None
  | Err _ => False
  end.
Proof. vm_compute. repeat split. Qed.

(** The dictionary of the caller is changed: an error section which is given is replaced by objects,
    so that no second experiment can be made from the same dictionary. *)
Theorem C63_twice_refuted : forall f qkeys gkeys d x d' e, Permutation qubit_keys qkeys -> Permutation gate_keys gkeys ->
  experiment_from_dict f qkeys gkeys d = Ok (x, d') -> bound "errors" (PDict e) d ->
  (exists v, (bound "qubit_errors" v e \/ bound "gate_errors" v e) /\ truthy v = true) ->
  exists err, experiment_from_dict f qkeys gkeys d' = Err err.
Proof.
  intros f qkeys gkeys d x d' e P Q H B (v & V & T).
  destruct (experiment_parts _ _ _ P Q _ _ _ H) as (_ & e0 & e' & E0 & E1 & Hq & Hg).
  assert (E : e0 = e). { apply entry_getd in E0. rewrite <- (bound_getd _ _ _ B) in E0. congruence. } subst e0.
  destruct (experiment_from_dict f qkeys gkeys d') as [[x2 d2]|err] eqn:H2; [|eauto]. exfalso.
  destruct (experiment_parts _ _ _ P Q _ _ _ H2) as ((_ & _ & _ & _ & (e2 & q & g & S & Pq & Sq & Pg & Sg) & _) & _).
  assert (E2 : e2 = e').
  { apply entry_getd in S. assert (B' : bound "errors" (PDict e') d') by (apply not_none_bound; [discriminate|exact E1]).
    rewrite <- (bound_getd _ _ _ B') in S. congruence. } subst e2.
  destruct V as [V|V].
  - rewrite <- (bound_getd _ _ _ V PNone) in Hq. destruct (Hq T) as (q' & G & K). destruct Pq as (w & W & X). apply entry_getd in W. rewrite G in W. subst w.
    destruct X as [[X _]|[_ X]].
    + rewrite (truthy_pobj q' "X") in X; [discriminate|apply K; simpl; tauto].
    + injection X as ->. destruct Sq as (_ & _ & M & Sq).
      assert (I : exists m, In ("X", m) (qc_meta (ec_qubits (ex_errors x2)))).
      { assert (I : In "X" (map fst (qc_meta (ec_qubits (ex_errors x2))))) by (rewrite M; left; reflexivity).
        apply in_map_iff in I. destruct I as ([k m] & <- & I). eauto. }
      destruct I as (m & I). destruct (Sq _ _ I) as (u & U & Y). apply entry_getd in U. rewrite K in U by (simpl; tauto). subst u.
      destruct Y as [[Y _]|(? & ? & Y & _)]; discriminate.
  - rewrite <- (bound_getd _ _ _ V PNone) in Hg. destruct (Hg T) as (q' & G & K). destruct Pg as (w & W & X). apply entry_getd in W. rewrite G in W. subst w.
    destruct X as [[X _]|[_ X]].
    + rewrite (truthy_pobj q' "CX") in X; [discriminate|apply K; simpl; tauto].
    + injection X as ->. destruct Sg as (_ & _ & _ & _ & (m & (u & U & Y)) & _). apply entry_getd in U. rewrite K in U by (simpl; tauto). subst u.
      destruct Y as [[Y _]|(? & Y & _)]; discriminate.
Qed.
Print Assumptions C63_twice_refuted.
Example C63_twice_example :
  match experiment_from_dict nothing qubit_keys gate_keys planar_config with
  | Ok (_, d') => experiment_from_dict nothing qubit_keys gate_keys d' = Err AttributeError
  | Err _ => False
  end.
Proof. vm_compute. reflexivity. Qed.

(** [as_dict] and [validate] of an experiment never return. *)
Theorem C63_as_dict_refuted : forall x, experiment_as_dict x = Err AttributeError /\ experiment_validate x = Err AttributeError.
Proof. intros x. split; reflexivity. Qed.
Print Assumptions C63_as_dict_refuted.

(** * The schema *)
(** What is accepted is what [config_ok] says. *)
Theorem C63_schema : forall v, validate_config v = Ok true <-> config_ok v.
Proof.
  intros v. rewrite <- schema_spec. unfold validate_config. destruct (accepts exp_schema v); split; congruence.
Qed.
Theorem C63_load : forall f qkeys gkeys d x, Permutation qubit_keys qkeys -> Permutation gate_keys gkeys ->
  load_config f qkeys gkeys d = Ok x <-> config_ok (PDict d) /\ experiment_spec f d x.
Proof.
  intros f qkeys gkeys d x P Q. rewrite <- C63_schema. unfold load_config. rewrite bindR_ok. split.
  - intros (b & V & H). apply bindR_ok in H. destruct H as ([x' d'] & H & E). cbn in E. injection E as ->. split.
    + unfold validate_config in *. destruct (accepts _ _); congruence.
    + apply (C63_experiment f qkeys gkeys); eauto.
  - intros (V & H). exists true. split; [exact V|]. apply (C63_experiment f qkeys gkeys) in H; auto. destruct H as (d' & ->). reflexivity.
Qed.
Print Assumptions C63_schema.
Print Assumptions C63_load.
Example C63_schema_example :
  validate_config (PDict planar_config) = Ok true /\ (exists x, load_config nothing qubit_keys gate_keys planar_config = Ok x) /\
  validate_config (PDict [("code", PDict [("name", PStr "ShorCode")]); ("errors", PDict [])]) = Err ValidationError /\
  validate_config (PDict [("code", PDict [("name", PStr "ShorCode"); ("rounds", PInt 0)]); ("errors", PDict [])]) = Err ValidationError /\
  validate_config (PDict [("code", PDict [("name", PStr "ShorCode"); ("rounds", PInt 1)])]) = Err ValidationError.
Proof. repeat split; try (vm_compute; reflexivity). eexists. vm_compute. reflexivity. Qed.

(** The schema says nothing about the contents of the two parts of the errors: they can be replaced
    by any dictionaries. *)
Theorem C63_schema_errors_refuted : forall d1 d2 e q g,
  validate_config (PDict (d1 ++ ("errors", e) :: d2)) = Ok true -> absent "errors" d1 ->
  validate_config (PDict (d1 ++ ("errors", PDict [("qubit_errors", PDict q); ("gate_errors", PDict g)]) :: d2)) = Ok true.
Proof.
  intros d1 d2 e q g H A. apply C63_schema in H. apply C63_schema. destruct H as (d & E & Hc & _ & H1 & H2 & H3 & H4 & _ & H6).
  injection E as <-. set (d' := d1 ++ ("errors", PDict [("qubit_errors", PDict q); ("gate_errors", PDict g)]) :: d2).
  assert (T : forall k v, k <> "errors" -> bound k v d' -> bound k v (d1 ++ ("errors", e) :: d2)).
  { intros k v N. unfold d'. clear -N. induction d1 as [|[a b] d1 IH]; simpl; intros B; inversion B; subst.
    - contradiction.
    - constructor; auto.
    - constructor.
    - constructor; auto. }
  assert (T' : forall k v, k <> "errors" -> bound k v (d1 ++ ("errors", e) :: d2) -> bound k v d').
  { intros k v N. unfold d'. clear -N. induction d1 as [|[a b] d1 IH]; simpl; intros B; inversion B; subst.
    - contradiction.
    - constructor; auto.
    - constructor.
    - constructor; auto. }
  assert (Be : bound "errors" (PDict [("qubit_errors", PDict q); ("gate_errors", PDict g)]) d').
  { unfold d'. unfold absent in A. clear -A. induction d1 as [|[a b] d1 IH]; simpl in *; [constructor|]. constructor; [intros X; apply A; left; exact X|].
    apply IH. intros X. apply A. right. exact X. }
  exists d'. split; [reflexivity|]. split; [destruct Hc as (v & Hc); exists v; apply T'; [discriminate|exact Hc]|].
  split; [eexists; exact Be|].
  split; [intros v B; apply H1; apply T; [discriminate|exact B]|]. split; [intros v B; apply H2; apply T; [discriminate|exact B]|].
  split; [intros v B; apply H3; apply T; [discriminate|exact B]|]. split; [intros v B; apply H4; apply T; [discriminate|exact B]|].
  split; [|intros v B; apply H6; apply T; [discriminate|exact B]].
  intros v B. rewrite (bound_fun _ _ _ _ B Be). eexists. split; [reflexivity|]. split; intros w W.
  - exists q. inversion W as [|? ? ? N W']; [congruence|contradiction].
  - exists g. inversion W as [|? ? ? N W']; subst. inversion W' as [|? ? ? N' W'']; [congruence|contradiction].
Qed.
Print Assumptions C63_schema_errors_refuted.

(** Configurations which the schema accepts and which cannot be loaded: without a size, with numbers
    like 3.0, and with errors which do not exist; and one which is refused although it can be used. *)
Theorem C63_schema_refuted :
  (exists d, validate_config (PDict d) = Ok true /\ load_config everything qubit_keys gate_keys d = Err ValueError /\
     exists c, bound "code" (PDict c) d /\ absent "size" c) /\
  (exists d c, validate_config (PDict d) = Ok true /\ load_config everything qubit_keys gate_keys d = Err ValueError /\
     bound "code" (PDict c) d /\ bound "size" (PFloat 3) c) /\
  (exists d, validate_config (PDict d) = Ok true /\ load_config everything qubit_keys gate_keys d = Err ValueError /\
     exists e, bound "errors" (PDict e) d /\ bound "qubit_errors" (PDict [("X", PDict [("distribution", PStr "binomial")])]) e) /\
  (exists d x, validate_config (PDict d) = Ok true /\ load_config everything qubit_keys gate_keys d = Ok x /\ ex_general x = PNone) /\
  exists d x, validate_config (PDict d) = Err ValidationError /\ experiment_spec everything d x.
Proof.
  split; [|split; [|split; [|split]]].
  - exists [("code", PDict [("name", PStr "PlanarCode"); ("rounds", PInt 1)]); ("errors", PDict [])].
    split; [(vm_compute; reflexivity)|]. split; [(vm_compute; reflexivity)|]. eexists. split; [constructor|]. intros [E|[E|[]]]; discriminate.
  - exists [("code", PDict [("size", PFloat 3); ("name", PStr "PlanarCode"); ("rounds", PInt 1)]); ("errors", PDict [])].
    eexists. split; [(vm_compute; reflexivity)|]. split; [(vm_compute; reflexivity)|]. split; constructor.
  - exists [("errors", PDict [("qubit_errors", PDict [("X", PDict [("distribution", PStr "binomial")])])]); ("code", PDict [("name", PStr "ShorCode"); ("rounds", PInt 1)])].
    split; [(vm_compute; reflexivity)|]. split; [(vm_compute; reflexivity)|]. eexists. split; constructor.
  - eexists [("errors", PDict []); ("code", PDict [("name", PStr "ShorCode"); ("rounds", PInt 1)])], _.
    split; [(vm_compute; reflexivity)|]. split; (vm_compute; reflexivity).
  - eexists [("code", PDict [("name", PStr "ShorCode")])], _. split; [(vm_compute; reflexivity)|].
    apply (C63_experiment everything qubit_keys gate_keys); [apply Permutation_refl|apply Permutation_refl|]. eexists. (vm_compute; reflexivity).
Qed.
Print Assumptions C63_schema_refuted.
