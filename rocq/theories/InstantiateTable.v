(** Proofs about the tables of qubit errors of a configuration. *)
Require Import String List Bool Arith ZArith QArith Lia Permutation.
From Verif Require Import Base BaseProofs PauliModel CircuitModel SimModel LatticeModel LatticeSpec CodesModel GeneratorModel GeneratorSpec
  TablesModel TablesSpec TablesProofs TablesQubits TablesLattice FrontendModel FrontendSpec FrontendProofs FrontendSchema InstantiateModel InstantiateSpec.
Import ListNotations.
Local Open Scope string_scope.
Local Open Scope nat_scope.
Local Open Scope list_scope.

Lemma number_ok v q : number v q <-> as_number v = Ok q.
Proof.
  split.
  - intros [->|(z & -> & ->)]; reflexivity.
  - destruct v; cbn; try discriminate; intros [= <-]; [right; eauto|left; auto].
Qed.
Lemma distinct_ids_ok l : distinct_ids l = true <-> NoDup l.
Proof.
  induction l as [|k l IH]; cbn; [split; auto; constructor|]. rewrite andb_true_iff, negb_true_iff, IH. split.
  - intros [A B]. constructor; auto. intros I. assert (X : existsb (Z.eqb k) l = true) by (apply existsb_exists; exists k; split; auto; apply Z.eqb_refl). congruence.
  - intros H. inversion H as [|? ? A B]; subst. split; auto. destruct (existsb (Z.eqb k) l) eqn:E; auto. apply existsb_exists in E. destruct E as (y & I & Q). apply Z.eqb_eq in Q. subst. contradiction.
Qed.
Lemma find_id_ok q ids vs v : NoDup ids -> List.length vs = List.length ids ->
  find_id q (combine ids vs) = Some v <-> exists i, nth_error ids i = Some q /\ nth_error vs i = Some (Some v).
Proof.
  revert vs. induction ids as [|k ids IH]; intros [|a vs] N L; cbn in L; try discriminate.
  - cbn. split; [discriminate|]. intros ([|i] & H & _); discriminate.
  - inversion N as [|? ? N1 N2]; subst. cbn [combine find_id]. destruct (Z.eqb_spec k q) as [->|D].
    + split; [intros ->; exists 0; auto|]. intros ([|i] & H & H'); cbn in H, H'; [congruence|]. exfalso. apply N1. eapply nth_error_In; eauto.
    + rewrite IH by (auto; lia). split.
      * intros (i & H). exists (S i). auto.
      * intros ([|i] & H & H'); cbn in H, H'; [congruence|eauto].
Qed.
Lemma fst_inj {A} (l : list (string * A)) n a b : NoDup (map fst l) -> In (n, a) l -> In (n, b) l -> a = b.
Proof.
  induction l as [|[k v] l IH]; cbn; intros N I J; [contradiction|]. inversion N as [|? ? N1 N2]; subst.
  destruct I as [I|I], J as [J|J].
  - congruence.
  - injection I as -> ->. exfalso. apply N1. apply (in_map fst) in J. auto.
  - injection J as -> ->. exfalso. apply N1. apply (in_map fst) in I. auto.
  - eauto.
Qed.
Lemma set_column_self name vs rows cols : NoDup (map fst cols) -> In (name, vs) cols -> set_column name vs (mkTable rows cols) = mkTable rows cols.
Proof.
  intros N I. unfold set_column. cbn [qt_rows qt_cols]. f_equal. rewrite <- (map_id cols) at 2. apply map_ext_in. intros [n ws] J. cbn [fst].
  destruct (String.eqb_spec n name) as [->|D]; auto. f_equal. eapply fst_inj; eauto.
Qed.

Section Column.
Variable (u : surroundings) (rows : list (Z * string)).

(** Entries of a configuration which give a column. *)
Definition entry_ok (kv : string * (pyval * list pyval)) : Prop :=
  let name := fst kv in let dist := fst (snd kv) in let ps := snd (snd kv) in
  dist = PStr "constant" /\ (exists p q, ps = [p] /\ number p q) \/
  dist = PStr "gaussian" /\ (exists m s a b, ps = [m; s] /\ number m a /\ number s b /\ (0 <= b)%Q) \/
  dist = PStr "user" /\ good_file (su_qubits u) name \/ dist = PStr "".
Definition column_values (kv : string * (pyval * list pyval)) (vs : list Q) : Prop :=
  List.length vs = List.length rows /\
  forall i q ty, nth_error rows i = Some (q, ty) -> forall v, nth_error vs i = Some v <-> distributed u (fst kv) (fst (snd kv)) (snd (snd kv)) i q v.

Lemma nth_repeat_in {A} (x : A) n i : i < n -> nth_error (repeat x n) i = Some x.
Proof. revert i. induction n as [|n IH]; intros [|i] L; cbn; try lia; auto. apply IH. lia. Qed.
Lemma row_bound i q ty : nth_error rows i = Some (q, ty) -> i < List.length rows.
Proof. intros H. apply nth_error_Some. congruence. Qed.

Lemma no_file_values name : csv_empty (su_qubits u) = true -> forall q v, ~ in_file (su_qubits u) name q v.
Proof.
  intros H q v (c & vs & i & E & I & J & _). rewrite E in H. cbn in H. destruct (cs_ids c), (cs_cols c); try contradiction; try discriminate. destruct i; discriminate.
Qed.

Lemma column_step cols kv : entry_ok kv -> NoDup (map fst cols) -> In (fst kv, repeat 0%Q (List.length rows)) cols ->
  exists vs, qubit_column (su_z u) (su_qubits u) (mkTable rows cols) kv = Ok (set_column (fst kv) vs (mkTable rows cols)) /\ column_values kv vs.
Proof.
  destruct kv as [name [dist ps]]. cbn [fst snd]. intros OK N I. unfold qubit_column. cbn [fst snd qt_rows].
  destruct OK as [(D & p & q & P & Q)|[(D & m & s & a & b & P & Q & Q' & B)|[(D & GF)|D]]]; cbn [fst snd] in *; subst dist; cbn [is_str String.eqb Ascii.eqb Bool.eqb].
  - subst ps. apply number_ok in Q. rewrite Q. cbn [bindR]. eexists. split; [reflexivity|]. split; [apply repeat_length|]. cbn [fst snd]. intros i q' ty E v.
    rewrite nth_repeat_in by (eapply row_bound; eauto). unfold distributed. split.
    + intros [= <-]. left. split; auto. exists p. split; auto. apply number_ok. auto.
    + intros [(_ & p' & [= <-] & V)|[(X & _)|[(X & _)|(X & _)]]]; try discriminate. apply number_ok in V. congruence.
  - subst ps. apply number_ok in Q, Q'. rewrite Q, Q'. cbn [bindR]. apply Qle_bool_iff in B. rewrite B. cbn [negb]. eexists. split; [reflexivity|].
    split; [rewrite map_length, seq_length; auto|]. cbn [fst snd]. intros i q' ty E v. pose proof (row_bound _ _ _ E) as L.
    assert (Z : nth_error (map (fun i => (a + b * su_z u name i)%Q) (seq 0 (List.length rows))) i = Some (a + b * su_z u name i)%Q).
    { rewrite (nth_error_nth' _ 0%Q) by (rewrite map_length, seq_length; auto). f_equal. rewrite (nth_indep _ 0%Q ((fun i => (a + b * su_z u name i)%Q) 0)) by (rewrite map_length, seq_length; auto).
      rewrite (map_nth (fun i => (a + b * su_z u name i)%Q)), seq_nth by auto. auto. }
    rewrite Z. unfold distributed. split.
    + intros [= <-]. right. left. split; auto. exists m, s, a, b. rewrite !number_ok. auto.
    + intros [(X & _)|[(_ & m' & s' & a' & b' & [= <- <-] & V & V' & ->)|[(X & _)|(X & _)]]]; try discriminate. apply number_ok in V, V'. congruence.
  - destruct (csv_empty (su_qubits u)) eqn:CE.
    + exists (repeat 0%Q (List.length rows)). rewrite set_column_self by auto. split; auto. split; [apply repeat_length|]. cbn [fst snd]. intros i q' ty E v.
      rewrite nth_repeat_in by (eapply row_bound; eauto). unfold distributed. split.
      * intros [= <-]. right. right. left. split; auto. right. split; auto. apply no_file_values; auto.
      * intros [(X & _)|[(X & _)|[(_ & [F|[_ ->]])|(X & _)]]]; try discriminate; auto. exfalso. eapply no_file_values; eauto.
    + unfold good_file in GF. destruct (su_qubits u) as [c|] eqn:EU; [|discriminate]. cbn in CE. destruct GF as [Z|[Z|(ND & NC & ws & J & L)]]; [rewrite Z in CE; discriminate|rewrite Z in CE; destruct (cs_ids c); discriminate|].
      assert (CO : column (mkTable rows cols) name = Some (repeat 0%Q (List.length rows))) by (apply column_ok; auto). rewrite CO.
      assert (FC : find (fun x => String.eqb (fst x) name) (cs_cols c) = Some (name, ws)).
      { assert (CF : column (mkTable [] (map (fun kv => (fst kv, [])) (cs_cols c))) name = Some []) by (apply column_ok; cbn; [rewrite map_map; auto|apply in_map_iff; exists (name, ws); auto]).
        clear - NC J. induction (cs_cols c) as [|[k x] l IH]; cbn in *; [contradiction|]. inversion NC as [|? ? N1 N2]; subst. destruct (String.eqb_spec k name) as [->|D].
        - destruct J as [[= ->]|J]; auto. exfalso. apply N1. apply (in_map fst) in J. auto.
        - destruct J as [[= -> _]|J]; [congruence|auto]. }
      rewrite FC. unfold update_column. assert (DI : distinct_ids (cs_ids c) = true) by (apply distinct_ids_ok; auto). rewrite DI. cbn [negb bindR fst snd]. eexists. split; [reflexivity|].
      split; [rewrite map_length, combine_length, repeat_length, Nat.min_id; auto|]. cbn [fst snd]. intros i q' ty E v.
      set (f := fun rv : Z * string * Q => match find_id (fst (fst rv)) (combine (cs_ids c) ws) with Some v => v | None => snd rv end).
      assert (NE : nth_error (map f (combine rows (repeat 0%Q (List.length rows)))) i = Some (f ((q', ty), 0%Q))).
      { apply map_nth_error. clear - E. revert i E. induction rows as [|r l IH]; intros [|i] E; cbn in *; try discriminate; [congruence|apply IH; auto]. }
      rewrite NE. unfold f. cbn [fst snd].
      assert (IF : forall x, in_file (Some c) name q' x <-> find_id q' (combine (cs_ids c) ws) = Some x).
      { intros x. rewrite find_id_ok by auto. split.
        - intros (c' & vs & k & [= <-] & I1 & I2 & I3). assert (vs = ws) by (eapply fst_inj; eauto). subst. eauto.
        - intros (k & K1 & K2). exists c, ws, k. auto. }
      unfold distributed. rewrite EU. split.
      * intros [= <-]. right. right. left. split; auto. destruct (find_id q' (combine (cs_ids c) ws)) as [x|] eqn:FI; [left; apply IF; auto|right]. split; auto. intros x X. apply IF in X. congruence.
      * intros [(X & _)|[(X & _)|[(_ & [F|[F ->]])|(X & _)]]]; try discriminate.
        -- apply IF in F. rewrite F. auto.
        -- destruct (find_id q' (combine (cs_ids c) ws)) as [x|] eqn:FI; auto. exfalso. apply (F x). apply IF. auto.
  - exists (repeat 0%Q (List.length rows)). rewrite set_column_self by auto. split; auto. split; [apply repeat_length|]. cbn [fst snd]. intros i q' ty E v.
    rewrite nth_repeat_in by (eapply row_bound; eauto). unfold distributed. split.
    + intros [= <-]. auto.
    + intros [(X & _)|[(X & _)|[(X & _)|(_ & ->)]]]; try discriminate; auto.
Qed.

Lemma set_middle name vs old rest zs : ~ In name (map fst old) -> ~ In name (map fst rest) ->
  set_column name vs (mkTable rows (old ++ (name, zs) :: rest)) = mkTable rows (old ++ (name, vs) :: rest).
Proof.
  intros A B. unfold set_column. cbn [qt_rows qt_cols]. f_equal. rewrite map_app. cbn [map fst]. rewrite String.eqb_refl.
  assert (ID : forall l : list (string * list Q), ~ In name (map fst l) -> map (fun c => if String.eqb (fst c) name then (name, vs) else c) l = l).
  { intros l H. rewrite <- (map_id l) at 2. apply map_ext_in. intros c I. destruct (String.eqb_spec (fst c) name) as [E|]; auto. exfalso. apply H. rewrite <- E. apply in_map. auto. }
  rewrite !ID by auto. auto.
Qed.

Lemma columns_fold todo : forall old, (forall kv, In kv todo -> entry_ok kv) -> NoDup (map fst old ++ map fst todo) ->
  exists new, foldR (qubit_column (su_z u) (su_qubits u)) todo (mkTable rows (old ++ map (fun kv => (fst kv, repeat 0%Q (List.length rows))) todo)) = Ok (mkTable rows (old ++ new)) /\
    Forall2 (fun kv nv => fst nv = fst kv /\ column_values kv (snd nv)) todo new.
Proof.
  induction todo as [|kv todo IH]; intros old OK N.
  - exists []. cbn. split; auto.
  - cbn [map foldR] in *. pose proof (NoDup_remove_2 _ _ _ N) as NI. rewrite in_app_iff in NI.
    assert (MF : map fst (map (fun kv => (fst kv, repeat 0%Q (List.length rows))) todo) = map fst todo) by (rewrite map_map; auto).
    destruct (column_step (old ++ (fst kv, repeat 0%Q (List.length rows)) :: map (fun kv => (fst kv, repeat 0%Q (List.length rows))) todo) kv) as (vs & E & V).
    { apply OK. left. auto. } { rewrite map_app. cbn [map fst]. rewrite MF. auto. } { apply in_or_app. right. left. auto. }
    rewrite E. cbn [bindR]. rewrite set_middle by (rewrite ?MF; tauto).
    destruct (IH (old ++ [(fst kv, vs)])) as (new & F & H).
    { intros k I. apply OK. right. auto. } { rewrite map_app. cbn [map fst]. rewrite <- app_assoc. auto. }
    rewrite <- app_assoc in F. cbn [app] in F. rewrite F. exists ((fst kv, vs) :: new). rewrite <- app_assoc. split; auto.
Qed.
End Column.

(** The rows for a lattice. *)
Lemma lattice_rows_some l : consistent l -> indexed l -> l_stabs l <> [] -> lattice_rows l <> [] /\ NoDup (map fst (lattice_rows l)).
Proof.
  intros C X N. rewrite (lattice_rows_ok l C X). split; [|apply standard_nodup]. intros E. apply (f_equal (@List.length _)) in E. unfold standard_rows in E. rewrite map_length, seq_length in E.
  destruct (l_stabs l); [congruence|cbn in E; lia].
Qed.
Lemma forall2_in {A B} (R : A -> B -> Prop) l l' : Forall2 R l l' -> (forall a, In a l -> exists b, In b l' /\ R a b) /\ (forall b, In b l' -> exists a, In a l /\ R a b).
Proof.
  induction 1 as [|a b l l' H F [A1 A2]]; split; [intros ? []|intros ? []| |].
  - intros x [<-|I]; [exists b; cbn; auto|]. destruct (A1 x I) as (y & J & K). exists y. cbn. auto.
  - intros x [<-|I]; [exists a; cbn; auto|]. destruct (A2 x I) as (y & J & K). exists y. cbn. auto.
Qed.
Lemma forall2_names {A} (R : string * A -> string * list Q -> Prop) l l' : Forall2 (fun kv nv => fst nv = fst kv /\ R kv nv) l l' -> map fst l' = map fst l.
Proof. induction 1 as [|a b l l' [E _] F IH]; cbn; [auto|]. f_equal; auto. Qed.

(** The table. *)
Theorem assimilated u conf l : consistent l -> indexed l -> l_stabs l <> [] -> NoDup (map fst conf) -> (forall k, In k (map fst conf) -> In k qubit_keys) ->
  (forall kv, In kv conf -> entry_ok u kv) ->
  exists t, assimilate_qubit_errors (su_z u) conf (su_qubits u) l = Ok t /\ well_formed t /\ qt_rows t = lattice_rows l /\ map fst (qt_cols t) = map fst conf /\
    forall n q v, holds t n q v <-> exists i ty dist ps, nth_error (lattice_rows l) i = Some (q, ty) /\ In (n, (dist, ps)) conf /\ distributed u n dist ps i q v.
Proof.
  intros C X N ND SUB OK. destruct (lattice_rows_some l C X N) as [RN RD]. unfold assimilate_qubit_errors, empty_qubit_errors.
  assert (FA : forallb (fun n => mem_str n ["X"; "Y"; "Z"; "erasure"; "measurement"; "fabrication"]) (map fst conf) = true).
  { apply forallb_forall. intros k I. apply SUB in I. cbn in I |- *. destruct I as [<-|[<-|[<-|[<-|[<-|[<-|[]]]]]]]; reflexivity. }
  rewrite FA. cbn [negb bindR]. rewrite map_map.
  destruct (columns_fold u (lattice_rows l) conf [] OK ltac:(exact ND)) as (new & F & H). cbn [app] in F. rewrite F. exists (mkTable (lattice_rows l) new). cbn [qt_rows qt_cols].
  pose proof (forall2_names (fun kv nv => column_values u (lattice_rows l) kv (snd nv)) _ _ H) as NM. destruct (forall2_in _ _ _ H) as [F1 F2].
  split; auto. split; [|split; [auto|split; [auto|]]].
  - split; cbn [qt_rows qt_cols]; auto; [rewrite NM; auto|]. intros n vs I. destruct (F2 _ I) as (kv & _ & _ & L & _). exact L.
  - intros n q v. unfold holds. cbn [qt_rows qt_cols]. split.
    + intros (i & ty & vs & E & I & V). destruct (F2 _ I) as ([k [dist ps]] & J & EN & _ & CV). cbn [fst snd] in *. subst k. exists i, ty, dist, ps. split; auto. split; auto. apply (CV i q ty E v). auto.
    + intros (i & ty & dist & ps & E & J & D). destruct (F1 _ J) as ([k vs] & I & EN & _ & CV). cbn [fst snd] in *. subst k. exists i, ty, vs. split; auto. split; auto. apply (CV i q ty E v). auto.
Qed.

(** The error data of a configuration without gate errors. *)
Theorem table_instantiated u qkeys gkeys c l : fair u -> Permutation qubit_keys qkeys -> usable u (ec_qubits c) -> truthy (gc_sample (ec_gates c)) = false ->
  consistent l -> indexed l -> l_stabs l <> [] ->
  exists d, instantiate_errors u qkeys gkeys c l = Ok d /\ well_formed (ed_qubits d) /\ qt_rows (ed_qubits d) = lattice_rows l /\ ed_gates d = [] /\ ed_gon d = [] /\
    (forall n, In n (ed_qon d) <-> exists m, switched_on (ec_qubits c) n m) /\ (forall n, In n (ed_qon d) <-> In n (map fst (qt_cols (ed_qubits d)))) /\
    forall n q v, holds (ed_qubits d) n q v <-> exists i ty, nth_error (lattice_rows l) i = Some (q, ty) /\ configured u (ec_qubits c) n i q v.
Proof.
  intros FU P US NG C X N. destruct c as [qc gc]. cbn [ec_qubits ec_gates] in *. destruct US as [SA KE FO UC UG UU].
  destruct (sim_qubits_spec qkeys qc P SA KE FO) as (conf & ES & ND & CI).
  assert (CI' : forall n dist ps, In (n, (dist, ps)) conf <-> exists m, switched_on qc n m /\ qm_dist m = dist /\ qm_params m = PList ps).
  { intros n dist ps. rewrite CI. unfold switched_on. split.
    - intros (m & A & B & D & E & F). exists m. rewrite E, D. split; [|auto]. split; [auto|]. split; [auto|]. intros [G H]. apply F. split; auto. congruence.
    - intros (m & (A & B & F) & D & E). exists m. split; [auto|]. split; [auto|]. split; [auto|]. split; [auto|]. intros [-> ->]. apply F. auto. }
  destruct (assimilated u conf l C X N ND) as (t & ET & W & R & NM & H).
  { intros k I. apply in_map_iff in I. destruct I as ([k' [dist ps]] & <- & I). cbn [fst]. apply CI in I. destruct I as (m & I & _). rewrite <- KE. apply in_map_iff. exists (k', m). auto. }
  { intros [n [dist ps]] I. apply CI' in I. destruct I as (m & SO & D & PS). unfold entry_ok. cbn [fst snd]. destruct (FO n m (proj1 SO)) as [Q _]. rewrite PS in Q. destruct Q as [[U _]|[[U L]|[[U L]|U]]].
    - right. right. left. split; [congruence|]. apply (UU n m SO U).
    - left. split; [congruence|]. destruct ps as [|p [|p' ps]]; cbn in L; try discriminate. destruct (UC n m p SO U PS) as (q & Q). eauto.
    - right. left. split; [congruence|]. destruct ps as [|p [|p' [|p'' ps]]]; cbn in L; try discriminate. destruct (UG n m p p' SO U PS) as ((a & A) & b & B & B'). exists p, p', a, b. auto.
    - right. right. right. congruence. }
  unfold instantiate_errors. cbn [ec_qubits ec_gates]. rewrite ES. cbn [bindR]. unfold sim_gate_errors. rewrite NG. cbn [negb bindR]. unfold from_lattice_config. rewrite ET. cbn [bindR].
  eexists. split; [reflexivity|]. cbn [ed_qubits ed_gates ed_gon ed_qon]. split; [auto|]. split; [auto|]. split; [auto|]. split; [auto|].
  assert (ON : forall n, In n (su_order u (map fst conf)) <-> In n (map fst conf)) by (intros n; split; apply Permutation_in; [apply Permutation_sym|]; apply FU).
  split; [|split].
  - intros n. rewrite ON, in_map_iff. split.
    + intros ([k [dist ps]] & <- & I). apply CI' in I. destruct I as (m & I & _). eauto.
    + intros (m & SO). destruct (FO n m (proj1 SO)) as [_ (ps & PS)]. exists (n, (qm_dist m, ps)). split; auto. apply CI'. eauto.
  - intros n. rewrite ON, NM. tauto.
  - intros n q v. rewrite H. unfold configured. split.
    + intros (i & ty & dist & ps & E & I & D). apply CI' in I. destruct I as (m & SO & <- & PS). exists i, ty. split; auto. exists m, ps. auto.
    + intros (i & ty & E & m & ps & SO & PS & D). exists i, ty, (qm_dist m), ps. split; auto. split; auto. apply CI'. eauto.
Qed.
