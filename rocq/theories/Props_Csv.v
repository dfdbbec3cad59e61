(** Property theorems C71: files with gate errors. *)
Require Import String List Bool Arith Ascii ZArith QArith Lia DecimalString.
From Verif Require Import Base BaseProofs CircuitModel CircuitProofs TablesModel CsvModel.
Import ListNotations.
Local Open Scope string_scope.
Local Open Scope nat_scope.
Local Open Scope list_scope.

(** * Specification *)
Fixpoint occurs (a : ascii) (s : string) : Prop := match s with EmptyString => False | String b s => b = a \/ occurs a s end.
Definition bar : string := "|".
(** The documented file for a table of gate errors: a column for each entry, lists separated by bars. *)
Definition gate_texts (show_float : Q -> string) (r : gate_row) : list string :=
  [g_gate r; join bar (map show_int (g_qubits r)); join bar (g_errors r); join bar (map show_float (g_probs r))].
Definition gate_file (show_float : Q -> string) (rows : list gate_row) : csv :=
  mkCsv ["gate"; "on_qubits"; "induced_errors"; "probs"] (map (gate_texts show_float) rows).
(** What is assumed of pandas and of Python's [float] for the texts in such a file: whole numbers and the probabilities look like numbers,
    texts with bars do not, and probabilities are read as they were written. *)
Definition readable (kind : string -> text_kind) (read_float : string -> option Q) (show_float : Q -> string) (rows : list gate_row) : Prop :=
  (forall s, occurs "|" s -> kind s = IsText) /\ (forall z, kind (show_int z) = IsNumber) /\
  forall r p, In r rows -> In p (g_probs r) -> kind (show_float p) = IsNumber /\ read_float (show_float p) = Some p /\ ~ occurs "|" (show_float p).
(** Rows as the documentation describes them: nothing is empty, gates and channels have names. *)
Definition documented_row (kind : string -> text_kind) (r : gate_row) : Prop :=
  kind (g_gate r) = IsText /\ g_qubits r <> [] /\ g_errors r <> [] /\ g_probs r <> [] /\ forall e, In e (g_errors r) -> ~ occurs "|" e /\ kind e = IsText.

(** * Splitting *)
Lemma split_none d s : ~ occurs d s -> split_on d s = [s].
Proof.
  induction s as [|a s IH]; intros H; cbn; auto. destruct (Ascii.eqb_spec a d) as [->|N]; [destruct H; left; auto|].
  rewrite IH; auto. intros X. apply H. right. auto.
Qed.
Lemma split_app d s t : ~ occurs d s -> split_on d (s ++ String d t)%string = s :: split_on d t.
Proof.
  induction s as [|a s IH]; intros H; cbn.
  - rewrite Ascii.eqb_refl. reflexivity.
  - destruct (Ascii.eqb_spec a d) as [->|N]; [destruct H; left; auto|]. rewrite IH; auto. intros X. apply H. right. auto.
Qed.
Lemma split_join d l : l <> [] -> (forall s, In s l -> ~ occurs d s) -> split_on d (join (String d EmptyString) l) = l.
Proof.
  intros NE H. destruct l as [|s l]; [congruence|]. clear NE. revert s H. induction l as [|t l IH]; intros s H.
  - apply split_none. apply H. left; auto.
  - change (join (String d "") (s :: t :: l)) with (s ++ String d (join (String d "") (t :: l)))%string.
    rewrite split_app by (apply H; left; auto). f_equal. apply IH. intros; apply H; right; auto.
Qed.
Lemma split_nonempty d s : split_on d s <> [].
Proof. destruct s as [|a s]; cbn; [discriminate|]. destruct (Ascii.eqb a d); [discriminate|]. destruct (split_on d s); discriminate. Qed.

(** Splitting is the inverse of joining: the parts have no delimiter and give the text again, and there is no other list of this kind. *)
Theorem C71_split : forall d s, join (String d EmptyString) (split_on d s) = s /\ (forall p, In p (split_on d s) -> ~ occurs d p) /\
  forall l, l <> [] -> (forall p, In p l -> ~ occurs d p) -> join (String d EmptyString) l = s -> l = split_on d s.
Proof.
  intros d s. split; [|split].
  - induction s as [|a s IH]; [reflexivity|]. cbn [split_on]. destruct (Ascii.eqb_spec a d) as [->|N].
    + pose proof (split_nonempty d s) as NE. destruct (split_on d s) as [|w l] eqn:E; [congruence|].
      change (join (String d "") ("" :: w :: l)) with (String d (join (String d "") (w :: l))). rewrite IH. reflexivity.
    + pose proof (split_nonempty d s) as NE. destruct (split_on d s) as [|w l] eqn:E; [congruence|].
      destruct l as [|x l]; [cbn in *; congruence|].
      change (join (String d "") (String a w :: x :: l)) with (String a (w ++ String d "" ++ join (String d "") (x :: l))).
      change (join (String d "") (w :: x :: l)) with (w ++ String d "" ++ join (String d "") (x :: l))%string in IH. rewrite IH. reflexivity.
  - induction s as [|a s IH]; cbn [split_on]; intros p I; [destruct I as [<-|[]]; intros []|]. destruct (Ascii.eqb_spec a d) as [->|N].
    + destruct I as [<-|I]; [intros []|auto].
    + destruct (split_on d s) as [|w l] eqn:E; [destruct I as [<-|[]]; intros [X|[]]; auto|].
      destruct I as [<-|I]; [|apply IH; right; auto]. intros [X|X]; [auto|]. apply (IH w); [left; auto|auto].
  - intros l NE H <-. symmetry. apply split_join; auto.
Qed.
Print Assumptions C71_split.

Lemma show_nat_no_bar u : ~ occurs "|" (NilEmpty.string_of_uint u).
Proof. induction u; cbn; intros H; auto; destruct H as [H|H]; try discriminate; auto. Qed.
Lemma show_int_no_bar z : ~ occurs "|" (show_int z).
Proof.
  unfold show_int, NilZero.string_of_int. destruct (Z.to_int z) as [u|u]; unfold NilZero.string_of_uint.
  - destruct u; try apply show_nat_no_bar. cbn. intros [H|[]]. discriminate.
  - cbn [occurs]. intros [H|H]; [discriminate|]. destruct u; try apply (show_nat_no_bar _ H). cbn in H. destruct H as [H|[]]. discriminate.
Qed.
Lemma occurs_join l : 2 <= List.length l -> occurs "|" (join bar l).
Proof.
  destruct l as [|s [|t l]]; cbn [List.length]; intros L; try lia.
  change (join bar (s :: t :: l)) with (s ++ String "|" (join bar (t :: l)))%string. clear L. induction s as [|a s IH]; cbn; auto.
Qed.

(** * Reading *)
Section Read.
Variables (kind : string -> text_kind) (read_float : string -> option Q) (show_float : Q -> string).

Lemma column_texts l : (exists s, In s l /\ kind s = IsText) -> (forall s, In s l -> kind s <> IsMissing) -> read_column kind l = map CText l.
Proof.
  intros (s & I & K) M. unfold read_column. assert (X : existsb (is_text kind) l = true) by (apply existsb_exists; exists s; unfold is_text; rewrite K; auto).
  rewrite X. apply map_ext_in. intros t J. specialize (M t J). destruct (kind t); congruence.
Qed.
Lemma column_numbers l : (forall s, In s l -> kind s = IsNumber) -> read_column kind l = map (fun _ => CNumber) l.
Proof.
  intros N. unfold read_column. destruct (existsb (is_text kind) l) eqn:X; auto. apply existsb_exists in X. destruct X as (s & I & X).
  unfold is_text in X. rewrite (N s I) in X. discriminate.
Qed.
(** A column of joined lists: texts if one of the lists has several entries. *)
Variables (A : Type) (show : A -> string).
Lemma joined_column (ls : list (list A)) : (forall s, occurs "|" s -> kind s = IsText) -> (forall l a, In l ls -> In a l -> kind (show a) = IsNumber) -> (forall l, In l ls -> l <> []) ->
  ((exists l, In l ls /\ 2 <= List.length l) -> read_column kind (map (fun l => join bar (map show l)) ls) = map CText (map (fun l => join bar (map show l)) ls)) /\
  (~ (exists l, In l ls /\ 2 <= List.length l) -> read_column kind (map (fun l => join bar (map show l)) ls) = map (fun _ => CNumber) (map (fun l => join bar (map show l)) ls)).
Proof.
  intros HB HN HE.
  assert (K : forall l, In l ls -> kind (join bar (map show l)) = if 2 <=? List.length l then IsText else IsNumber).
  { intros l I. destruct (Nat.leb_spec 2 (List.length l)) as [L|L]; [apply HB, occurs_join; rewrite map_length; auto|].
    specialize (HE l I). destruct l as [|a [|b l]]; cbn [List.length] in L; [congruence| |lia]. apply (HN [a]); auto. left; auto. }
  split; intros H.
  - apply column_texts.
    + destruct H as (l & I & L). exists (join bar (map show l)). split; [apply in_map_iff; eauto|]. rewrite (K l I), (proj2 (Nat.leb_le _ _) L). auto.
    + intros s I. apply in_map_iff in I. destruct I as (l & <- & I). rewrite (K l I). destruct (2 <=? _); discriminate.
  - apply column_numbers. intros s I. apply in_map_iff in I. destruct I as (l & <- & I). rewrite (K l I).
    destruct (Nat.leb_spec 2 (List.length l)); auto. destruct H. eauto.
Qed.
End Read.

Lemma mapR_ok_in {A B} (f : A -> Res B) (h : A -> B) l : (forall a, In a l -> f a = Ok (h a)) -> mapR f l = Ok (map h l).
Proof. induction l as [|a l IH]; intros H; cbn; auto. rewrite (H a) by (left; auto). cbn. rewrite IH; auto. intros; apply H; right; auto. Qed.
Lemma mapR_map {A B C} (f : B -> Res C) (h : A -> B) l : mapR f (map h l) = mapR (fun a => f (h a)) l.
Proof. induction l as [|a l IH]; cbn; auto. rewrite IH. auto. Qed.
Lemma zip_rows_map (rows : list gate_row) : zip_rows (map g_gate rows) (map g_qubits rows) (map g_errors rows) (map g_probs rows) = rows.
Proof. induction rows as [|[a b c d] l IH]; cbn; auto. rewrite IH. auto. Qed.

(** A documented file is read as the table which it describes, if some row has several qubits and some row has several probabilities.
    Otherwise pandas has made numbers of a column and there is an [AttributeError]. *)
Theorem C71_read : forall kind read_float show_float rows, readable kind read_float show_float rows -> (forall r, In r rows -> documented_row kind r) -> rows <> [] ->
  ((exists r, In r rows /\ 2 <= List.length (g_qubits r)) /\ (exists r, In r rows /\ 2 <= List.length (g_probs r)) ->
     read_gates kind read_float (gate_file show_float rows) = Ok rows) /\
  (~ ((exists r, In r rows /\ 2 <= List.length (g_qubits r)) /\ (exists r, In r rows /\ 2 <= List.length (g_probs r))) ->
     read_gates kind read_float (gate_file show_float rows) = Err AttributeError).
Proof.
  intros kind read_float show_float rows (HB & HI & HF) HD NE.
  assert (FC : file_columns kind (gate_file show_float rows) =
    [("gate", CRaw (read_column kind (map g_gate rows))); ("on_qubits", CRaw (read_column kind (map (fun l => join bar (map show_int l)) (map g_qubits rows))));
     ("induced_errors", CRaw (read_column kind (map (fun r => join bar (g_errors r)) rows))); ("probs", CRaw (read_column kind (map (fun l => join bar (map show_float l)) (map g_probs rows))))]).
  { unfold file_columns, gate_file. cbn [csv_names csv_rows List.length seq map nth]. rewrite !map_map. reflexivity. }
  assert (G : read_column kind (map g_gate rows) = map CText (map g_gate rows)).
  { apply column_texts.
    - destruct rows as [|r rows]; [congruence|]. exists (g_gate r). split; [left; auto|]. exact (proj1 (HD r (or_introl eq_refl))).
    - intros s I. apply in_map_iff in I. destruct I as (r & <- & I). rewrite (proj1 (HD r I)). discriminate. }
  assert (KE : forall r, In r rows -> kind (join bar (g_errors r)) = IsText).
  { intros r I. destruct (HD r I) as (_ & _ & N & _ & K). destruct (g_errors r) as [|e [|e' l]]; [congruence| |apply HB, occurs_join; cbn; lia].
    apply (K e). left; auto. }
  assert (E : read_column kind (map (fun r => join bar (g_errors r)) rows) = map CText (map (fun r => join bar (g_errors r)) rows)).
  { apply column_texts.
    - destruct rows as [|r rows]; [congruence|]. exists (join bar (g_errors r)). split; [left; reflexivity|]. apply (KE r). left; auto.
    - intros s I. apply in_map_iff in I. destruct I as (r & <- & I). rewrite (KE r I). discriminate. }
  destruct (joined_column kind Z show_int (map g_qubits rows) HB) as [Q1 Q2].
  { intros l a _ _. apply HI. } { intros l I. apply in_map_iff in I. destruct I as (r & <- & I). apply (HD r I). }
  destruct (joined_column kind Q show_float (map g_probs rows) HB) as [P1 P2].
  { intros l a I J. apply in_map_iff in I. destruct I as (r & <- & I). apply (HF r a I J). } { intros l I. apply in_map_iff in I. destruct I as (r & <- & I). apply (HD r I). }
  assert (SQ : (exists l, In l (map g_qubits rows) /\ 2 <= List.length l) <-> exists r, In r rows /\ 2 <= List.length (g_qubits r)).
  { split; [intros (l & I & L); apply in_map_iff in I; destruct I as (r & <- & I); eauto|intros (r & I & L); exists (g_qubits r); split; auto; apply in_map; auto]. }
  assert (SP : (exists l, In l (map g_probs rows) /\ 2 <= List.length l) <-> exists r, In r rows /\ 2 <= List.length (g_probs r)).
  { split; [intros (l & I & L); apply in_map_iff in I; destruct I as (r & <- & I); eauto|intros (r & I & L); exists (g_probs r); split; auto; apply in_map; auto]. }
  rewrite SQ in Q1, Q2. rewrite SP in P1, P2.
  assert (CQ : (exists r, In r rows /\ 2 <= List.length (g_qubits r)) ->
     to_series read_float "|" "int" (read_column kind (map (fun l => join bar (map show_int l)) (map g_qubits rows))) = Ok (CInts (map g_qubits rows))).
  { intros H. rewrite (Q1 H). unfold to_series. cbn [String.eqb Ascii.eqb Bool.eqb andb]. rewrite !mapR_map.
    rewrite (mapR_ok_in _ (fun r => g_qubits r)); [reflexivity|]. intros r I. cbn [cell_parts bindR].
    rewrite (split_join "|").
    2:{ destruct (HD r I) as (_ & N & _). destruct (g_qubits r); [congruence|discriminate]. }
    2:{ intros s J. apply in_map_iff in J. destruct J as (z & <- & _). apply show_int_no_bar. }
    rewrite mapR_map, (mapR_ok_in _ (fun z => z)), map_id; auto. intros z _. unfold text_int. rewrite py_int_show. auto. }
  assert (CP : (exists r, In r rows /\ 2 <= List.length (g_probs r)) ->
     to_series read_float "|" "float" (read_column kind (map (fun l => join bar (map show_float l)) (map g_probs rows))) = Ok (CFloats (map g_probs rows))).
  { intros H. rewrite (P1 H). unfold to_series. cbn [String.eqb Ascii.eqb Bool.eqb andb]. rewrite !mapR_map.
    rewrite (mapR_ok_in _ (fun r => g_probs r)); [reflexivity|]. intros r I. cbn [cell_parts bindR].
    rewrite (split_join "|").
    2:{ destruct (HD r I) as (_ & _ & _ & N & _). destruct (g_probs r); [congruence|discriminate]. }
    2:{ intros s J. apply in_map_iff in J. destruct J as (p & <- & J). apply (HF r p I J). }
    rewrite mapR_map, (mapR_ok_in _ (fun z => z)), map_id; auto. intros p J. unfold text_float. rewrite (proj1 (proj2 (HF r p I J))). auto. }
  assert (CE : to_series read_float "|" "str" (read_column kind (map (fun r => join bar (g_errors r)) rows)) = Ok (CStrs (map g_errors rows))).
  { rewrite E. unfold to_series. cbn [String.eqb Ascii.eqb Bool.eqb andb]. rewrite !mapR_map.
    rewrite (mapR_ok_in _ (fun r => g_errors r)); [reflexivity|]. intros r I. cbn [cell_parts]. destruct (HD r I) as (_ & _ & N & _ & K).
    rewrite (split_join "|"); auto. intros s J. apply (K s J). }
  assert (NQ : ~ (exists r, In r rows /\ 2 <= List.length (g_qubits r)) ->
     to_series read_float "|" "int" (read_column kind (map (fun l => join bar (map show_int l)) (map g_qubits rows))) = Err AttributeError).
  { intros H. rewrite (Q2 H). destruct rows as [|r rows]; [congruence|]. reflexivity. }
  assert (NP : ~ (exists r, In r rows /\ 2 <= List.length (g_probs r)) ->
     to_series read_float "|" "float" (read_column kind (map (fun l => join bar (map show_float l)) (map g_probs rows))) = Err AttributeError).
  { intros H. rewrite (P2 H). destruct rows as [|r rows]; [congruence|]. reflexivity. }
  assert (D : forall f : gate_row -> nat, (exists r, In r rows /\ 2 <= f r) \/ ~ (exists r, In r rows /\ 2 <= f r)).
  { intros f. destruct (existsb (fun r => 2 <=? f r) rows) eqn:X.
    - left. apply existsb_exists in X. destruct X as (r & I & L). apply Nat.leb_le in L. eauto.
    - right. intros (r & I & L). assert (existsb (fun r => 2 <=? f r) rows = true); [|congruence]. apply existsb_exists. exists r. split; auto. apply Nat.leb_le; auto. }
  unfold read_gates, read_gate_columns. rewrite FC. cbn [combine mapR skipn app].
  unfold convert_column. cbn [fst snd]. rewrite CE. split.
  - intros [H1 H2]. rewrite (CQ H1), (CP H2). cbn [bindR app]. unfold named. cbn [find fst snd String.eqb Ascii.eqb Bool.eqb andb].
    rewrite G. rewrite !mapR_map. cbn [cell_text]. rewrite (mapR_ok_in _ g_gate) by auto. cbn [bindR]. rewrite zip_rows_map. reflexivity.
  - intros H. destruct (D (fun r => List.length (g_qubits r))) as [H1|H1].
    + destruct (D (fun r => List.length (g_probs r))) as [H2|H2]; [destruct H; auto|]. rewrite (CQ H1), (NP H2). reflexivity.
    + rewrite (NQ H1). reflexivity.
Qed.
Print Assumptions C71_read.

(** [from_csv] and [update_from_csv] with a documented file: the rows of the file are the table, or are appended to it; all gates of the table are enabled. *)
Theorem C71_load : forall kind read_float show_float rows t d, readable kind read_float show_float rows -> (forall r, In r rows -> documented_row kind r) ->
  (exists r, In r rows /\ 2 <= List.length (g_qubits r)) -> (exists r, In r rows /\ 2 <= List.length (g_probs r)) ->
  let f := gate_file show_float rows in
  (exists d', from_csv kind read_float t (Some f) = Ok d' /\ ed_gates d' = rows /\ ed_qubits d' = t /\
     forall g, In g (ed_gon d') <-> exists r, In r rows /\ g_gate r = g) /\
  (exists d', update_gates_csv kind read_float f true d = Ok d' /\ ed_gates d' = rows /\ ed_qubits d' = ed_qubits d /\ ed_qon d' = ed_qon d /\
     forall g, In g (ed_gon d') <-> exists r, In r rows /\ g_gate r = g) /\
  (exists d', update_gates_csv kind read_float f false d = Ok d' /\ ed_gates d' = ed_gates d ++ rows /\ ed_qubits d' = ed_qubits d /\ ed_qon d' = ed_qon d /\
     forall g, In g (ed_gon d') <-> exists r, (In r (ed_gates d) \/ In r rows) /\ g_gate r = g).
Proof.
  intros kind read_float show_float rows t d R D H1 H2 f.
  assert (NE : rows <> []) by (destruct H1 as (r & I & _); intros ->; destruct I).
  destruct (C71_read _ _ _ _ R D NE) as [X _]. specialize (X (conj H1 H2)). fold f in X.
  assert (DD : forall l s, In s (dedup l) <-> In s l).
  { clear. induction l as [|x l IH]; intros s; [tauto|]. cbn [dedup]. destruct (mem_str x l) eqn:M; [|cbn; rewrite IH; tauto].
    rewrite IH. split; [right; auto|]. intros [->|I]; auto. unfold mem_str in M. apply existsb_exists in M. destruct M as (y & I & E). apply String.eqb_eq in E. subst; auto. }
  assert (DG : forall l g, In g (dedup (map g_gate l)) <-> exists r, In r l /\ g_gate r = g).
  { intros l g. rewrite DD, in_map_iff. split; intros (r & A & B); eauto. }
  unfold from_csv, update_gates_csv. rewrite X. cbn [bindR]. split; [|split]; eexists; (split; [reflexivity|]); cbn; repeat (split; [reflexivity|]).
  - intros g. apply DG.
  - intros g. apply DG.
  - intros g. rewrite DG. split; intros (r & I & E); exists r; split; auto; [apply in_app_or; auto|apply in_or_app; auto].
Qed.
Print Assumptions C71_load.

(** "Files with documented rows can be read": not if no row has several qubits, for instance if there is one row with one qubit. *)
Theorem C71_read_refuted : forall kind read_float show_float r q, readable kind read_float show_float [r] -> documented_row kind r -> g_qubits r = [q] ->
  forall t, from_csv kind read_float t (Some (gate_file show_float [r])) = Err AttributeError.
Proof.
  intros kind read_float show_float r q R D E t. unfold from_csv.
  destruct (C71_read kind read_float show_float [r] R) as [_ X]; [intros r' [<-|[]]; auto|discriminate|]. rewrite X; [reflexivity|].
  intros [(r' & [<-|[]] & L) _]. rewrite E in L. cbn in L. lia.
Qed.
Print Assumptions C71_read_refuted.

(** "What [save_to_csv] has written can be read": never, if there are gate errors.  The additional column shifts the other ones, so that the names of the
    gates are taken for numbers of qubits. *)
Theorem C71_saved_refuted : forall kind read_float show_float d t, ed_gates d <> [] -> (forall r, In r (ed_gates d) -> kind (g_gate r) = IsText /\ py_int (g_gate r) = None /\ ~ occurs "|" (g_gate r)) ->
  from_csv kind read_float t (Some (save_gates show_float (ed_gates d))) = Err ValueError.
Proof.
  intros kind read_float show_float d t NE H. unfold from_csv, read_gates, read_gate_columns.
  set (rows := ed_gates d) in *. set (f := save_gates show_float rows).
  assert (N : map (fun r => nth 1 r "") (csv_rows f) = map g_gate rows).
  { unfold f, save_gates. cbn [csv_rows]. rewrite map_map. cbn [nth].
    clear. generalize 0. induction rows as [|r rows IH]; intros k; [reflexivity|]. cbn [List.length seq combine map snd]. f_equal. apply IH. }
  assert (G : read_column kind (map g_gate rows) = map CText (map g_gate rows)).
  { apply column_texts.
    - destruct rows as [|r l]; [congruence|]. exists (g_gate r). split; [left; auto|]. exact (proj1 (H r (or_introl eq_refl))).
    - intros s I. apply in_map_iff in I. destruct I as (r & <- & I). rewrite (proj1 (H r I)). discriminate. }
  unfold file_columns. change (csv_names f) with ["Unnamed: 0"; "gate"; "on_qubits"; "induced_errors"; "probs"]. cbn [List.length seq map nth combine mapR].
  unfold convert_column at 1. cbn [fst snd]. rewrite N, G.
  destruct rows as [|r l]; [congruence|]. destruct (H r (or_introl eq_refl)) as (_ & P & O).
  unfold to_series. cbn [String.eqb Ascii.eqb Bool.eqb andb map mapR cell_parts bindR]. rewrite (split_none "|") by auto. cbn [mapR]. unfold text_int at 1. rewrite P. reflexivity.
Qed.
Print Assumptions C71_saved_refuted.

(** * Examples: the file of the tests, and how pandas reads its texts *)
Fixpoint has_bar (s : string) : bool := match s with EmptyString => false | String a s => Ascii.eqb a "|" || has_bar s end.
Definition tens (n d : nat) : string := if d =? 10 then ("0." ++ show_int (Z.of_nat n))%string else ("0.0" ++ show_int (Z.of_nat n))%string.
Definition ex_float (q : Q) : string := tens (Z.to_nat (Qnum q)) (Pos.to_nat (Qden q)).
Definition ex_read (s : string) : option Q := if String.eqb s "0.1" then Some (1 # 10) else if String.eqb s "0.2" then Some (2 # 10) else if String.eqb s "0.01" then Some (1 # 100) else None.
Definition ex_kind (s : string) : text_kind :=
  if has_bar s then IsText else match py_int s, ex_read s with None, None => if String.eqb s "" then IsMissing else IsText | _, _ => IsNumber end.
Definition test_rows : list gate_row :=
  [mkGateRow "CZ" [13; 1] ["XI"; "ZZ"] [1 # 10; 1 # 10]; mkGateRow "H" [13; 14; 15; 16] ["X"; "Y"; "Z"] [1 # 10; 2 # 10; 1 # 100];
   mkGateRow "CZ" [13; 2] ["ZI"; "XX"] [1 # 10; 2 # 10]; mkGateRow "CZ" [13; 1] ["YY"] [1 # 10]]%Z.
Lemma has_bar_occurs s : has_bar s = true <-> occurs "|" s.
Proof.
  induction s as [|a s IH]; cbn; [split; [discriminate|tauto]|]. rewrite orb_true_iff, IH. destruct (Ascii.eqb_spec a "|"); intuition congruence.
Qed.
Lemma ex_kind_facts : (forall s, occurs "|" s -> ex_kind s = IsText) /\ (forall z, ex_kind (show_int z) = IsNumber).
Proof.
  split; [intros s H; apply has_bar_occurs in H; unfold ex_kind; rewrite H; reflexivity|].
  intros z. unfold ex_kind. rewrite py_int_show. destruct (has_bar (show_int z)) eqn:X; auto. apply has_bar_occurs in X. destruct (show_int_no_bar z X).
Qed.
Lemma no_bar s : has_bar s = false -> ~ occurs "|" s.
Proof. intros H X. apply has_bar_occurs in X. congruence. Qed.
Lemma test_readable : readable ex_kind ex_read ex_float test_rows /\ forall r, In r test_rows -> documented_row ex_kind r.
Proof.
  split; [split; [apply ex_kind_facts|split; [apply ex_kind_facts|]]|].
  - intros r p I J. cbn [test_rows In] in I. repeat (destruct I as [<-|I]; [cbn [g_probs In] in J; repeat (destruct J as [<-|J]; [split; [reflexivity|split; [reflexivity|apply no_bar; reflexivity]]|]); destruct J|]). destruct I.
  - intros r I. cbn [test_rows In] in I. repeat (destruct I as [<-|I]; [split; [reflexivity|]; split; [discriminate|]; split; [discriminate|]; split; [discriminate|];
      intros e J; cbn [g_errors In] in J; repeat (destruct J as [<-|J]; [split; [apply no_bar; reflexivity|reflexivity]|]); destruct J|]). destruct I.
Qed.
Example C71_example : gate_file ex_float test_rows = mkCsv ["gate"; "on_qubits"; "induced_errors"; "probs"]
    [["CZ"; "13|1"; "XI|ZZ"; "0.1|0.1"]; ["H"; "13|14|15|16"; "X|Y|Z"; "0.1|0.2|0.01"]; ["CZ"; "13|2"; "ZI|XX"; "0.1|0.2"]; ["CZ"; "13|1"; "YY"; "0.1"]] /\
  read_gates ex_kind ex_read (gate_file ex_float test_rows) = Ok test_rows.
Proof.
  split; [reflexivity|]. destruct test_readable as [R D]. apply (C71_read _ _ _ _ R D); [discriminate|].
  split; eexists; (split; [left; reflexivity|cbn; lia]).
Qed.
(** Hadamard gates on one qubit; the saved file of a table; unknown types. *)
Example C71_example_one : forall t, from_csv ex_kind ex_read t (Some (mkCsv ["gate"; "on_qubits"; "induced_errors"; "probs"] [["H"; "13"; "X|Z"; "0.1|0.1"]])) = Err AttributeError.
Proof. reflexivity. Qed.
Example C71_example_saved : nth 0 (csv_rows (save_gates ex_float test_rows)) [] = ["0"; "CZ"; "[13, 1]"; "['XI', 'ZZ']"; "[0.1, 0.1]"] /\
  forall t, from_csv ex_kind ex_read t (Some (save_gates ex_float test_rows)) = Err ValueError.
Proof. split; [reflexivity|]. intros t. vm_compute. reflexivity. Qed.
Example C71_example_types : to_series ex_read "|" "bool" [CText "1|0"] = Err ValueError /\ to_series ex_read "|" "int" [CText "1|x"] = Err ValueError /\
  to_series ex_read "|" "str" [CText "XX|ZZ"; CText "ZZ|XX"] = Ok (CStrs [["XX"; "ZZ"]; ["ZZ"; "XX"]]).
Proof. repeat split. Qed.
