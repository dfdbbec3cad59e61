(** Proofs about the table of qubit errors. *)
Require Import String List Bool Arith Ascii ZArith QArith Lia.
From Verif Require Import Base BaseProofs CircuitModel GeneratorModel GeneratorSpec WeightsModel TablesModel TablesSpec TablesProofs.
Import ListNotations.
Local Open Scope string_scope.
Local Open Scope nat_scope.
Local Open Scope list_scope.

(** * Cells *)
Lemma filter_one {A} (f : A -> bool) : forall l x, NoDup l -> In x l -> f x = true -> (forall y, In y l -> f y = true -> y = x) -> filter f l = [x].
Proof.
  induction l as [|a l IH]; intros x N I F U; [destruct I|]. inversion N as [|? ? NI N']; subst. cbn. destruct I as [->|I].
  - rewrite F. f_equal. destruct (filter f l) as [|b r] eqn:E; auto. assert (B : In b (filter f l)) by (rewrite E; cbn; auto). apply filter_In in B as [B FB].
    rewrite (U b (or_intror B) FB) in B. contradiction.
  - destruct (f a) eqn:FA; [|apply IH; auto; intros y J; apply U; cbn; auto]. rewrite (U a (or_introl eq_refl) FA) in NI. contradiction.
Qed.
Lemma filter_none {A} (f : A -> bool) : forall l, (forall x, In x l -> f x = false) -> filter f l = [].
Proof. induction l as [|a l IH]; cbn; auto. intros H. rewrite H by auto. auto. Qed.
Lemma position_ok t i q ty : NoDup (map fst (qt_rows t)) -> nth_error (qt_rows t) i = Some (q, ty) -> position t q = Ok i.
Proof.
  intros N E. unfold position. assert (L : i < length (qt_rows t)) by (apply nth_error_Some; congruence). rewrite (filter_one _ _ i); auto.
  - apply seq_NoDup.
  - apply in_seq. lia.
  - rewrite (nth_error_nth _ _ (0%Z, "") E). apply Z.eqb_refl.
  - intros j J F. apply in_seq in J. apply Z.eqb_eq in F. rewrite NoDup_nth_error in N. apply N; [rewrite map_length; lia|].
    rewrite !nth_error_map, E. destruct (nth_error (qt_rows t) j) as [[a b]|] eqn:EJ; [|apply nth_error_None in EJ; lia]. rewrite (nth_error_nth _ _ (0%Z, "") EJ) in F. cbn in *. congruence.
Qed.
Lemma position_none t q : ~ In q (map fst (qt_rows t)) -> position t q = Err KeyError.
Proof.
  intros N. unfold position. rewrite filter_none; auto. intros i I. apply in_seq in I. apply Z.eqb_neq. intros E. apply N. rewrite <- E. apply in_map, nth_In. lia.
Qed.
Lemma column_ok t n vs : NoDup (map fst (qt_cols t)) -> (column t n = Some vs <-> In (n, vs) (qt_cols t)).
Proof.
  unfold column. induction (qt_cols t) as [|[a b] l IH]; cbn; intros N; [split; [discriminate|intros []]|]. inversion N as [|? ? NI N']; subst. destruct (String.eqb_spec a n) as [->|D].
  - split; [intros [= ->]; auto|]. intros [[= ->]|I]; auto. apply (in_map fst) in I. contradiction.
  - rewrite IH by auto. split; auto. intros [[= -> ->]|I]; auto. contradiction.
Qed.
Lemma column_none t n : column t n = None <-> ~ In n (map fst (qt_cols t)).
Proof.
  unfold column. induction (qt_cols t) as [|[a b] l IH]; cbn; [tauto|]. destruct (String.eqb_spec a n) as [->|D]; [split; [discriminate|tauto]|].
  rewrite IH. tauto.
Qed.
Lemma holds_fun t n q v v' : well_formed t -> holds t n q v -> holds t n q v' -> v = v'.
Proof.
  intros W (i & ty & vs & E & I & V) (j & ty' & vs' & E' & I' & V'). assert (P := position_ok _ _ _ _ (wf_labels _ W) E). rewrite (position_ok _ _ _ _ (wf_labels _ W) E') in P. injection P as ->.
  apply column_ok in I, I'; try apply (wf_names _ W). congruence.
Qed.
Lemma holds_some t n q : well_formed t -> In n (map fst (qt_cols t)) -> In q (map fst (qt_rows t)) -> exists v, holds t n q v.
Proof.
  intros W C R. apply in_map_iff in C as ([a vs] & <- & C). apply in_map_iff in R as ([q' ty] & <- & R). cbn. apply In_nth_error in R as (i & E).
  assert (L : i < length (qt_rows t)) by (apply nth_error_Some; congruence). rewrite <- (wf_lengths _ W _ _ C) in L. destruct (nth_error vs i) as [v|] eqn:V; [|apply nth_error_None in V; lia].
  exists v, i, ty, vs. auto.
Qed.
Lemma cell_ok t n q v : well_formed t -> holds t n q v -> cell t n q = Ok v.
Proof.
  intros W (i & ty & vs & E & I & V). unfold cell. apply column_ok in I; [|apply (wf_names _ W)]. rewrite I, (position_ok _ _ _ _ (wf_labels _ W) E). cbn [bindR]. rewrite V. auto.
Qed.
Lemma cell_missing t n q : ~ In n (map fst (qt_cols t)) -> cell t n q = Err KeyError.
Proof. intros N. apply column_none in N. unfold cell. rewrite N. auto. Qed.

(** * Dictionaries *)
Lemma mapR_map {A B} (f : A -> Res B) g l : (forall x, In x l -> f x = Ok (g x)) -> mapR f l = Ok (map g l).
Proof. induction l as [|x l IH]; cbn; intros H; auto. rewrite H, IH by auto. auto. Qed.
Lemma qubits_of_ok t types : well_formed t -> qubits_of t types = Ok (map (fun r : Z * string => (fst r, [])) (filter (fun r : Z * string => mem_str (snd r) types) (qt_rows t))).
Proof.
  intros W. unfold qubits_of. rewrite (mapR_map _ (fun r => r)), map_id; [reflexivity|]. intros [q ty] I. apply In_nth_error in I as (i & E). cbn.
  rewrite (position_ok _ _ _ _ (wf_labels _ W) E). cbn [bindR]. rewrite (nth_error_nth _ _ _ E). auto.
Qed.
Lemma qubits_of_in t types q p : In (q, p) (map (fun r : Z * string => (fst r, [] : params)) (filter (fun r : Z * string => mem_str (snd r) types) (qt_rows t))) <-> typed t types q /\ p = [].
Proof.
  rewrite in_map_iff. split.
  - intros ([a ty] & [= -> <-] & I). apply filter_In in I as [I M]. apply mem_str_in in M. split; auto. exists ty. auto.
  - intros [(ty & I & M) ->]. exists (q, ty). split; auto. apply filter_In. split; auto. apply mem_str_in. auto.
Qed.
Lemma set_param_ok t n key : well_formed t -> In n (map fst (qt_cols t)) -> forall d, (forall q p, In (q, p) d -> In q (map fst (qt_rows t))) ->
  exists d', set_param t n key d = Ok d' /\ map fst d' = map fst d /\ forall q p', In (q, p') d' <-> exists p v, In (q, p) d /\ holds t n q v /\ p' = pset key v p.
Proof.
  intros W C. unfold set_param. induction d as [|[q p] d IH]; intros H.
  - exists []. split; auto. split; auto. intros q p'. split; [intros []|]. intros (p & v & [] & _).
  - destruct IH as (d' & E & K & I); [intros; eapply H; cbn; eauto|]. destruct (holds_some t n q W C (H q p (or_introl eq_refl))) as (v & V).
    cbn [mapR fst snd]. rewrite (cell_ok _ _ _ _ W V). cbn [bindR]. rewrite E. cbn [bindR]. eexists. split; [reflexivity|]. cbn [map fst]. rewrite K. split; auto.
    intros q' p'. cbn. rewrite I. split.
    + intros [[= <- <-]|(p0 & v0 & I0 & V0 & ->)]; [exists p, v; auto|exists p0, v0; auto].
    + intros (p0 & v0 & [[= -> ->]|I0] & V0 & ->); [left; rewrite (holds_fun _ _ _ _ _ W V0 V); auto|right; exists p0, v0; auto].
Qed.
Lemma typed_row t types q : typed t types q -> In q (map fst (qt_rows t)).
Proof. intros (ty & I & _). apply (in_map fst) in I. auto. Qed.

(** One more column. *)
Section KIND.
  Variables (t : qubit_table) (types : list string) (keys : list (string * string)).
  Hypothesis W : well_formed t.
  Hypothesis keys_fun : forall n k k', In (n, k) keys -> In (n, k') keys -> k = k'.
  Hypothesis keys_inj : forall n n' k, In (n, k) keys -> In (n', k) keys -> n = n'.
  (** The dictionary before the parameters are written. *)
  Lemma enabled_start on d : columns_of t on types keys d -> exists d0, match d with [] => qubits_of t types | _ => Ok d end = Ok d0 /\
    NoDup (map fst d0) /\ (forall q, (exists p, In (q, p) d0) <-> typed t types q) /\
    (forall q p, In (q, p) d0 -> NoDup (map fst p) /\ forall k v, In (k, v) p <-> exists n, In (n, k) keys /\ In n on /\ holds t n q v).
  Proof.
    intros [A B C]. destruct d as [|[q0 p0] d].
    - rewrite qubits_of_ok by auto. eexists. split; [reflexivity|]. split; [|split].
      + rewrite map_map. cbn. pose proof (wf_labels _ W) as N. revert N. induction (qt_rows t) as [|[q ty] l IH]; cbn; intros N; [constructor|]. inversion N as [|? ? NI N']; subst.
        destruct (mem_str ty types); cbn; auto. constructor; auto. intros I. apply NI. apply in_map_iff in I as (r & E & I). apply filter_In in I as [I _]. rewrite <- E. apply in_map. auto.
      + intros q. split; [intros (p & I); apply qubits_of_in in I; tauto|]. intros T. exists []. apply qubits_of_in. auto.
      + intros q p I. apply qubits_of_in in I as [T ->]. split; [constructor|]. intros k v. split; [intros []|]. intros (n & K & O & _).
        destruct (proj2 (B q)) as (p & []). split; auto. exists n, k. auto.
    - eexists. split; [reflexivity|]. split; auto. split; auto. intros q. rewrite B. split; [tauto|]. intros T. split; auto.
      destruct (proj1 (B q0)) as [_ H]; auto. exists p0. cbn. auto.
  Qed.
  Lemma enabled_ok on n key d : In (n, key) keys -> In n (map fst (qt_cols t)) -> columns_of t on types keys d ->
    exists d', enabled_column t types n key d = Ok d' /\ columns_of t (on ++ [n]) types keys d'.
  Proof.
    intros NK C D. destruct (enabled_start on d D) as (d0 & E & N0 & Q0 & P0). unfold enabled_column. rewrite E. cbn [bindR].
    destruct (set_param_ok t n key W C d0) as (d' & E' & K' & I'); [intros q p I; apply (typed_row t types), Q0; eauto|]. exists d'. split; auto. split.
    - rewrite K'. auto.
    - intros q. split.
      + intros (p & I). apply I' in I as (p0 & v & I & V & _). split; [apply Q0; eauto|]. exists n, key. split; auto. apply in_app_iff. cbn. auto.
      + intros [T _]. apply Q0 in T as (p & I). destruct (holds_some t n q W C) as (v & V); [apply (typed_row t types), Q0; eauto|]. exists (pset key v p). apply I'. eauto.
    - intros q p I. apply I' in I as (p0 & v & I & V & ->). destruct (P0 q p0 I) as [N P]. rewrite pset_kset. split; [apply kset_keys; auto using String.eqb_eq|].
      intros k v'. rewrite kset_in by apply String.eqb_eq. rewrite P. split.
      + intros [[-> ->]|[D' (m & M & O & H)]]; [exists n; repeat split; auto; apply in_app_iff; cbn; auto|]. exists m. repeat split; auto. apply in_app_iff. auto.
      + intros (m & M & O & H). destruct (string_dec m n) as [->|D'].
        * left. split; [apply (keys_fun n); auto|]. apply (holds_fun t n q); auto.
        * right. apply in_app_iff in O as [O|[O|[]]]; [|congruence]. split; [|exists m; auto]. intros ->. apply D'. apply (keys_inj _ _ key); auto.
  Qed.
  Lemma enabled_missing on n key d q : typed t types q -> ~ In n (map fst (qt_cols t)) -> columns_of t on types keys d -> enabled_column t types n key d = Err KeyError.
  Proof.
    intros T C D. destruct (enabled_start on d D) as (d0 & E & N0 & Q0 & P0). unfold enabled_column. rewrite E. cbn [bindR].
    apply Q0 in T as (p & I). destruct d0 as [|[q0 p0] d0]; [destruct I|]. unfold set_param. cbn [mapR fst]. rewrite cell_missing by auto. auto.
  Qed.
  Lemma enabled_none on n key d : (forall q, ~ typed t types q) -> columns_of t on types keys d ->
    exists d', enabled_column t types n key d = Ok d' /\ columns_of t (on ++ [n]) types keys d'.
  Proof.
    intros T D. destruct (enabled_start on d D) as (d0 & E & N0 & Q0 & P0). unfold enabled_column. rewrite E. cbn [bindR].
    destruct d0 as [|[q0 p0] d0]; [|exfalso; apply (T q0), Q0; exists p0; cbn; auto]. exists []. split; auto. split; [constructor| |intros ? ? []].
    intros q. split; [intros (p & [])|]. intros [H _]. apply T in H. contradiction.
  Qed.
  Lemma columns_other on n d : (forall k, ~ In (n, k) keys) -> columns_of t on types keys d -> columns_of t (on ++ [n]) types keys d.
  Proof.
    intros H [A B C]. assert (O : forall m k, In (m, k) keys -> (In m (on ++ [n]) <-> In m on)).
    { intros m k M. rewrite in_app_iff. cbn. split; auto. intros [I|[->|[]]]; auto. apply H in M. contradiction. }
    split; auto.
    - intros q. rewrite B. split; intros [T (m & k & M & I)]; (split; [auto|]; exists m, k; split; auto; apply (O m k M); auto).
    - intros q p I. destruct (C q p I) as [N P]. split; auto. intros k v. rewrite P. split; intros (m & M & J & V); exists m; (split; [auto|]; split; [apply (O m k M); auto|auto]).
  Qed.
End KIND.

(** All columns. *)
Record columns_done (t : qubit_table) (on : list string) (e : errors) : Prop := {
  cd_pauli : columns_of t on ["data"] pauli_columns (er_pauli e);
  cd_erasure : columns_of t on ["data"] erasure_columns (er_erasure e);
  cd_measurement : columns_of t on ["stab"; "ancilla"] measurement_columns (er_measurement e);
  cd_gates : er_CX e = [] /\ er_CZ e = [] /\ er_H e = [] /\ er_M e = [] /\ er_R e = [] }.
Lemma columns_start t types keys : columns_of t [] types keys [].
Proof. split; [constructor| |intros ? ? []]. intros q. split; [intros (p & [])|]. intros [_ (n & k & _ & [])]. Qed.
Ltac keysolve := cbn; intros; repeat match goal with H : _ \/ _ |- _ => destruct H | H : False |- _ => destruct H | H : (_, _) = (_, _) |- _ => injection H as ? ?; subst end; try discriminate; auto; try congruence.
Lemma typed_dec t types : (exists q, typed t types q) \/ forall q, ~ typed t types q.
Proof.
  unfold typed. induction (qt_rows t) as [|[q ty] l [(q' & ty' & I & J)|IH]].
  - right. intros q (ty & [] & _).
  - left. exists q', ty'. cbn. auto.
  - destruct (in_dec string_dec ty types) as [J|J]; [left; exists q, ty; cbn; auto|]. right. intros q' (ty' & [[= <- <-]|I] & K); [auto|]. apply (IH q'). exists ty'. auto.
Qed.
Lemma enabled_error_ok t on e n : well_formed t -> columns_done t on e ->
  ((forall q, concerns t n q -> In n (map fst (qt_cols t))) -> exists e', enabled_error t e n = Ok e' /\ columns_done t (on ++ [n]) e') /\
  ((exists q, concerns t n q) -> ~ In n (map fst (qt_cols t)) -> enabled_error t e n = Err KeyError).
Proof.
  intros W [P E M G]. unfold enabled_error.
  assert (OP : forall n, ~ In n ["X"; "Y"; "Z"] -> columns_of t (on ++ [n]) ["data"] pauli_columns (er_pauli e)).
  { intros m O. apply columns_other; auto. intros k I. apply O. revert I. keysolve. }
  assert (OE : forall n, n <> "erasure" -> columns_of t (on ++ [n]) ["data"] erasure_columns (er_erasure e)).
  { intros m O. apply columns_other; auto. intros k I. apply O. revert I. keysolve. }
  assert (OM : forall n, n <> "measurement" -> columns_of t (on ++ [n]) ["stab"; "ancilla"] measurement_columns (er_measurement e)).
  { intros m O. apply columns_other; auto. intros k I. apply O. revert I. keysolve. }
  assert (ST : forall types keys key d, (forall n k k', In (n, k) keys -> In (n, k') keys -> k = k') -> (forall n n' k, In (n, k) keys -> In (n', k) keys -> n = n') ->
    In (n, key) keys -> columns_of t on types keys d -> ((forall q, typed t types q -> In n (map fst (qt_cols t))) -> exists d', enabled_column t types n key d = Ok d' /\ columns_of t (on ++ [n]) types keys d')).
  { intros types keys key d F1 F2 K D H. destruct (typed_dec t types) as [(q & T)|T]; [apply enabled_ok; eauto|apply enabled_none; auto]. }
  destruct (mem_str n ["X"; "Y"; "Z"]) eqn:EX; [|destruct (String.eqb_spec n "erasure") as [->|NE]; [|destruct (String.eqb_spec n "measurement") as [->|NM]]].
  - apply mem_str_in in EX. set (key := if String.eqb n "X" then "x" else _). assert (K : In (n, key) pauli_columns) by (unfold key; revert EX; keysolve; subst; cbn; auto).
    assert (NC : n <> "erasure" /\ n <> "measurement") by (split; intros ->; revert EX; keysolve).
    assert (CT : forall q, concerns t n q <-> typed t ["data"] q) by (intros q; unfold concerns; split; [intros [[_ T]|[-> _]]; auto; destruct NC; congruence|intros T; left; split; auto; revert EX; cbn; tauto]).
    split.
    + intros H. destruct (ST ["data"] pauli_columns key (er_pauli e)) as (d' & -> & D); auto; [keysolve|keysolve|intros q T; apply (H q), CT; auto|]. cbn [bindR]. eexists. split; [reflexivity|]. split; cbn; auto; [apply OE|apply OM]; tauto.
    + intros (q & T) C. apply CT in T. rewrite (enabled_missing t ["data"] pauli_columns W on n key _ q); auto.
  - assert (CT : forall q, concerns t "erasure" q <-> typed t ["data"] q) by (intros q; unfold concerns; split; [intros [[_ T]|[[=] _]]; auto|intros T; left; split; auto; cbn; tauto]).
    split.
    + intros H. destruct (ST ["data"] erasure_columns "p" (er_erasure e)) as (d' & -> & D); auto; [keysolve|keysolve|cbn; auto|intros q T; apply (H q), CT; auto|]. cbn [bindR]. eexists. split; [reflexivity|].
      split; cbn [er_pauli er_erasure er_measurement er_CX er_CZ er_H er_M er_R set_pauli set_er_erasure]; [apply OP; intros I; revert I; keysolve|auto|apply OM; discriminate|auto].
    + intros (q & T) C. apply CT in T. rewrite (enabled_missing t ["data"] erasure_columns W on _ "p" _ q); auto.
  - assert (CT : forall q, concerns t "measurement" q <-> typed t ["stab"; "ancilla"] q) by (intros q; unfold concerns; split; [intros [[I _]|[_ T]]; auto; revert I; keysolve|intros T; right; auto]).
    split.
    + intros H. destruct (ST ["stab"; "ancilla"] measurement_columns "p" (er_measurement e)) as (d' & -> & D); auto; [keysolve|keysolve|cbn; auto|intros q T; apply (H q), CT; auto|]. cbn [bindR]. eexists. split; [reflexivity|].
      split; cbn [er_pauli er_erasure er_measurement er_CX er_CZ er_H er_M er_R set_pauli set_er_erasure]; [apply OP; intros I; revert I; keysolve|apply OE; discriminate|auto|auto].
    + intros (q & T) C. apply CT in T. rewrite (enabled_missing t ["stab"; "ancilla"] measurement_columns W on _ "p" _ q); auto.
  - apply mem_str_out in EX. split; [intros _; eexists; split; [reflexivity|]; split; auto|]. intros (q & [[I _]|[-> _]]); [|congruence]. exfalso. apply EX. revert I. cbn. intuition congruence.
Qed.
Lemma enabled_errors_ok t : well_formed t -> forall suf pre e, columns_done t pre e ->
  ((forall n q, In n suf -> concerns t n q -> In n (map fst (qt_cols t))) -> exists e', foldR (enabled_error t) suf e = Ok e' /\ columns_done t (pre ++ suf) e') /\
  (forall n q, In n suf -> concerns t n q -> ~ In n (map fst (qt_cols t)) -> foldR (enabled_error t) suf e = Err KeyError).
Proof.
  intros W. induction suf as [|m suf IH]; intros pre e D; [split; [intros _; exists e; rewrite app_nil_r; auto|intros n q []]|].
  destruct (enabled_error_ok t pre e m W D) as [A B]. cbn [foldR].
  assert (S : (exists e', enabled_error t e m = Ok e' /\ columns_done t (pre ++ [m]) e') \/ enabled_error t e m = Err KeyError /\ ~ In m (map fst (qt_cols t)) /\ exists q, concerns t m q).
  { destruct (in_dec string_dec m (map fst (qt_cols t))) as [I|N]; [left; apply A; auto|].
    assert (CD : (exists q, concerns t m q) \/ forall q, ~ concerns t m q).
    { unfold concerns. destruct (in_dec string_dec m ["X"; "Y"; "Z"; "erasure"]) as [I|NI]; destruct (string_dec m "measurement") as [->|NM].
      - exfalso. revert I. keysolve.
      - destruct (typed_dec t ["data"]) as [(q & T)|T]; [left; exists q; auto|]. right. intros q [[_ H]|[H _]]; [apply (T q H)|contradiction].
      - destruct (typed_dec t ["stab"; "ancilla"]) as [(q & T)|T]; [left; exists q; auto|]. right. intros q [[H _]|[_ H]]; [contradiction|apply (T q H)].
      - right. intros q [[H _]|[H _]]; contradiction. }
    destruct CD as [C|C]; [right; auto|left; apply A; intros q Q; apply C in Q; contradiction]. }
  destruct S as [(e' & EE & D')|(EE & N & q0 & Q0)]; rewrite EE; cbn [bindR].
  - destruct (IH _ _ D') as [F G]. split.
    + intros H. destruct F as (e'' & -> & D''); [intros n q I; apply H; cbn; auto|]. exists e''. rewrite <- app_assoc in D''. auto.
    + intros n q [->|I] Q C; [|apply (G n q); auto]. assert (K := B (ex_intro _ q Q) C). congruence.
  - split; auto. intros H. exfalso. apply N, (H m q0); cbn; auto.
Qed.
