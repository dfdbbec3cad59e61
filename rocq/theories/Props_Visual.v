(** Property theorems C73: the figures of LatticeVisualizer. *)
Require Import String List Bool Arith Ascii ZArith QArith Lia Permutation DecimalString.
From Verif Require Import Base BaseProofs PauliModel CircuitModel LatticeModel LatticeSpec CodesModel GeneratorSpec Props_Generator QSpec SimSpec QasmModel QasmSpec QasmProofs Props_Circuit CsvModel Props_Csv ApplyModel Props_Apply VisualModel.
Import ListNotations.
Local Open Scope string_scope.
Local Open Scope nat_scope.
Local Open Scope list_scope.

(** * What one sees in a figure *)
Inductive mcolour := ByName (s : string) | ByProb (p : Q).
(** A marker: its name in the legend, its colour, its symbol, its place and the text which pops up. *)
Record marker := mkMarker { m_name : string; m_colour : mcolour; m_symbol : string; m_point : point; m_hover : string }.
(** A line: its name in the legend, its colour, and its ends. *)
Record segment := mkSegment { s_name : string; s_colour : string; s_dash : string; s_from : point; s_to : point }.
Definition trace_markers (t : trace) : list marker :=
  match t with
  | Lines _ _ => []
  | Marks s ps =>
      match mk_colour s with
      | Named c => map (fun p => mkMarker (mk_name s) (ByName c) (mk_symbol s) (fst p) (snd p)) ps
      | Scaled l => map (fun pc => mkMarker (mk_name s) (ByProb (snd pc)) (mk_symbol s) (fst (fst pc)) (snd (fst pc))) (combine ps l)
      end
  end.
(** Points are joined to the next one, if both are numbers. *)
Fixpoint joined (s : line_style) (ps : list (option point)) : list segment :=
  match ps with
  | Some p :: (Some q :: _) as ps' => mkSegment (ls_name s) (ls_colour s) (ls_dash s) p q :: joined s ps'
  | _ :: ps' => joined s ps'
  | [] => []
  end.
Definition trace_segments (t : trace) : list segment := match t with Lines s ps => joined s ps | Marks _ _ => [] end.
Definition trace_name (t : trace) : string := match t with Lines s _ => ls_name s | Marks s _ => mk_name s end.

(** * What one should see *)
Section Expected.
Variable show_float : Q -> string.
Variable l : lattice.
Variable probs : option (list Q).
Variable syndrome : option (list bool).
Variable only : option string.
Variable grey : bool.
Definition vert (i : nat) : vertex := l_heap l i.
Definition number (o : option nat) : nat := match o with Some k => k | None => 0 end.
Definition is_set (i : nat) : bool := match syndrome with Some s => nth (number (v_index (vert i))) s false | None => false end.
Definition unless_grey (g c : string) : mcolour := ByName (if grey then g else c).
Definition index_text (what : string) (i : nat) : string :=
  (what ++ show_int (Z.of_nat (number (v_index (vert i)))) ++ "<br />Ext. qubit " ++ show_int (Z.of_nat (number (v_equbit (vert i)))))%string.
Definition stab_marker (g : group) (set : bool) : string * mcolour * string :=
  match g, set with
  | GU, false => ("Stabilizer", unless_grey "darkgrey" "midnightblue", "x")
  | GA, false => ("A stabilizer", unless_grey "darkgrey" "midnightblue", "x")
  | GB, false => ("B stabilizer", unless_grey "darkgrey" "green", "cross")
  | GU, true => ("Toggled stabilizer", ByName "hotpink", "x")
  | GA, true => ("Toggled A stabilizer", ByName "deepskyblue", "x")
  | GB, true => ("Toggled B stabilizer", ByName "fuchsia", "cross")
  end.
Definition vertex_marker (i : nat) : marker :=
  let p := at_pos (v_pos (vert i)) in
  match v_kind (vert i) with
  | KData =>
      match probs with
      | Some ps => let q := nth (number (v_index (vert i))) ps 0%Q in
          mkMarker "Data qubit" (ByProb q) "circle" p (index_text "Data qubit " i ++ "<br />p = " ++ show_float q)
      | None => mkMarker "Data qubit" (unless_grey "lightgrey" "firebrick") "circle" p (index_text "Data qubit " i)
      end
  | KStab g => let '(n, c, s) := stab_marker g (is_set i) in
      mkMarker n c s p (index_text "Stabgen " i ++ (if is_set i then "<br /><b>Syndrome set</b>" else ""))
  | KLogical name => mkMarker "Logical operator" (unless_grey "lightgrey" "orange") "star" p (name ++ "<br />" ++ index_text "Logical " i)
  end%string.
(** Errors are drawn below, corrections above the qubit, X to the right and Z to the left. *)
Definition frame_marker (err : bool) (q : nat) (isx : bool) : marker :=
  let p := at_pos (v_pos (vert (nth q (l_data l) 0))) in
  let d := (15 # 100)%Q in
  mkMarker ((if isx then "X " else "Z ") ++ (if err then "error" else "correction")) (ByName (if err then "red" else "limegreen"))
    (if isx then "x" else "cross") ((fst p + (if isx then d else - d))%Q, (snd p + (if err then - d else d))%Q)
    ("Data qubit " ++ show_int (Z.of_nat q)).
(** The factors of the frame which are drawn. *)
Definition wanted (isx : bool) : bool := match only with None => true | Some s => String.eqb s (if isx then "X" else "Z") end.
Definition factors (n : nat) : list (nat * bool) := flat_map (fun q => [(q, true); (q, false)]) (seq 0 n).
Definition in_frame (r : row) (qx : nat * bool) : bool := (if snd qx then getx (fst qx) (ops r) else getz (fst qx) (ops r)) && wanted (snd qx).
Definition frame_markers (err : bool) (frame : option row) : list marker :=
  match frame with
  | None => []
  | Some r => map (fun qx => frame_marker err (fst qx) (snd qx)) (filter (in_frame r) (factors (List.length (ops r))))
  end.
Definition edge_segment (e : edge) : segment :=
  let x := factor_eqb (e_factor e) FX in
  mkSegment (if x then "Pauli X" else "Pauli Z") (if grey then "lightgrey" else if x then "cornflowerblue" else "yellowgreen")
    (if x then "solid" else "5px 5px") (at_pos (v_pos (vert (e_op e)))) (at_pos (v_pos (vert (e_data e)))).
End Expected.

(** * Grouping *)
Lemma filter_or {A} (p q : A -> bool) l : (forall x, In x l -> p x = true -> q x = true -> False) ->
  Permutation (filter p l ++ filter q l) (filter (fun x => p x || q x) l).
Proof.
  induction l as [|x l IH]; intros D; cbn; auto. assert (IH' := IH ltac:(intros; eapply D; eauto; right; auto)).
  destruct (p x) eqn:P, (q x) eqn:Q; cbn.
  - destruct (D x (or_introl eq_refl) P Q).
  - constructor; auto.
  - eapply perm_trans; [apply Permutation_sym, Permutation_middle|]. constructor; auto.
  - auto.
Qed.
Definition has_key (k : string) (ks : list string) : bool := existsb (String.eqb k) ks.
Lemma grouping {A} (key : A -> string) (ys : list A) ks : NoDup ks ->
  Permutation (flat_map (fun k => filter (fun y => String.eqb (key y) k) ys) ks) (filter (fun y => has_key (key y) ks) ys).
Proof.
  induction ks as [|k ks IH]; intros N.
  - cbn. replace (filter (fun _ : A => false) ys) with (@nil A); auto. induction ys; auto.
  - inversion N as [|? ? NI N']; subst. cbn [flat_map]. eapply perm_trans; [apply Permutation_app_head, IH; auto|].
    eapply perm_trans; [apply filter_or|].
    + intros x _ E1 E2. apply String.eqb_eq in E1. unfold has_key in E2. apply existsb_exists in E2. destruct E2 as (k' & I & E). apply String.eqb_eq in E.
      subst. auto.
    + cbn. apply Permutation_refl.
Qed.
Lemma insert_perm k ks : Permutation (insert_key k ks) (k :: ks).
Proof.
  induction ks as [|k' ks IH]; cbn; auto. destruct (String.leb k k'); auto. eapply perm_trans; [constructor; apply IH|]. constructor.
Qed.
Lemma group_keys_perm ks : Permutation (group_keys ks) (nodup string_dec ks).
Proof.
  unfold group_keys. induction (nodup string_dec ks) as [|k r IH]; cbn; auto. eapply perm_trans; [apply insert_perm|]. constructor; auto.
Qed.
Lemma group_keys_nodup ks : NoDup (group_keys ks).
Proof. eapply Permutation_NoDup; [apply Permutation_sym, group_keys_perm|apply NoDup_nodup]. Qed.
Lemma group_keys_in ks k : In k (group_keys ks) <-> In k ks.
Proof.
  split; intros H.
  - eapply Permutation_in in H; [|apply group_keys_perm]. apply nodup_In in H. auto.
  - eapply Permutation_in; [apply Permutation_sym, group_keys_perm|]. apply nodup_In. auto.
Qed.
Lemma grouped {A} (key : A -> string) (ys : list A) :
  Permutation (flat_map (fun k => filter (fun y => String.eqb (key y) k) ys) (group_keys (map key ys))) ys.
Proof.
  eapply perm_trans; [apply grouping, group_keys_nodup|]. replace (filter _ ys) with ys; auto.
  assert (H : forall zs, incl zs ys -> zs = filter (fun y => has_key (key y) (group_keys (map key ys))) zs); [|apply H, incl_refl].
  induction zs as [|z zs IH]; intros I; cbn; auto. replace (has_key _ _) with true.
  - f_equal. apply IH. intros a Ha. apply I. right; auto.
  - symmetry. apply existsb_exists. exists (key z). split; [|apply String.eqb_refl]. apply group_keys_in, in_map, I. left; auto.
Qed.
Lemma mapR_all {A B} (f : A -> Res B) (g : A -> B) xs : (forall x, In x xs -> f x = Ok (g x)) -> mapR f xs = Ok (map g xs).
Proof. induction xs as [|x xs IH]; intros H; cbn; auto. rewrite H by (left; auto). cbn. rewrite IH by (intros; apply H; right; auto). auto. Qed.
Lemma mapR_some {A B} (f : A -> Res B) xs : (forall x, In x xs -> exists y, f x = Ok y) -> exists ys, mapR f xs = Ok ys /\ Forall2 (fun x y => f x = Ok y) xs ys.
Proof.
  induction xs as [|x xs IH]; intros H; cbn; [eauto|]. destruct (H x (or_introl eq_refl)) as [y E]. rewrite E. cbn.
  destruct IH as (ys & -> & F); [intros; apply H; right; auto|]. cbn. eauto.
Qed.
Lemma flat_map_forall2 {A B C} (R : A -> B -> Prop) (f : B -> list C) (g : A -> list C) xs ys : Forall2 R xs ys -> (forall x y, In x xs -> R x y -> f y = g x) ->
  flat_map f ys = flat_map g xs.
Proof. induction 1; intros H'; cbn; auto. rewrite (H' x y) by (auto; left; auto). f_equal. apply IHForall2. intros. apply H'; auto. right; auto. Qed.
Lemma flat_map_map_filter {A C} (f : A -> C) (p : string -> A -> bool) ys ks : flat_map (fun k => map f (filter (p k) ys)) ks = map f (flat_map (fun k => filter (p k) ys) ks).
Proof. induction ks; cbn; auto. rewrite map_app, IHks. auto. Qed.
Lemma filter_map {A B} (f : A -> B) (p : B -> bool) xs : filter p (map f xs) = map f (filter (fun x => p (f x)) xs).
Proof. induction xs; cbn; auto. rewrite IHxs. destruct (p (f a)); auto. Qed.

(** * The tables *)
Section Tables.
Variable show_float : Q -> string.
Variable l : lattice.
Variable probs : option (list Q).
Variable syndrome : option (list bool).
Hypothesis C : consistent l.
Hypothesis I : indexed l.
Hypothesis Pr : match probs with Some ps => List.length ps = List.length (l_data l) | None => True end.
Hypothesis Sy : match syndrome with Some s => List.length s = List.length (l_stabs l) | None => True end.
Notation vert := (vert l). Notation is_set := (is_set l syndrome).
Definition stab_key (g : group) (set : bool) : string := ("stab_" ++ show_group g ++ (if set then "_toggled" else ""))%string.
Definition vertex_key (i : nat) : string := match v_kind (vert i) with KData => "data" | KStab g => stab_key g (is_set i) | KLogical _ => "log" end.
Definition vertex_type (i : nat) : string := match v_kind (vert i) with KData => "data" | KStab g => "stab" | KLogical _ => "log" end.
Definition the_item (i : nat) : item :=
  mkItem (at_pos (v_pos (vert i))) (vertex_type i) (vertex_key i) (m_hover (vertex_marker show_float l probs syndrome false i)).

Lemma in_equbits i : In i (l_vertices l) -> exists k, v_equbit (vert i) = Some k.
Proof.
  intros H. destruct I as (_ & _ & _ & E & J). assert (K : In i (l_equbits l)).
  { rewrite E. rewrite (cons_data _ C), (cons_stabs _ C), (cons_logicals _ C), !in_app_iff, !filter_In. unfold is_data, is_stab, is_logical.
    destruct (v_kind (l_heap l i)); auto. }
  apply In_nth_error in K. destruct K as [k K]. exists k. apply J in K. auto.
Qed.
Lemma stab_index i g : In i (l_vertices l) -> v_kind (vert i) = KStab g -> exists k, v_index (vert i) = Some k /\ k < List.length (l_stabs l).
Proof.
  intros H K. assert (J : In i (l_stabs l)) by (rewrite (cons_stabs _ C), filter_In; split; auto; unfold is_stab; fold (vert i); rewrite K; auto).
  apply In_nth_error in J. destruct J as [k J]. exists k. split; [apply I in J; auto|]. apply nth_error_Some. congruence.
Qed.
Lemma logical_index i n : In i (l_vertices l) -> v_kind (vert i) = KLogical n -> exists k, v_index (vert i) = Some k.
Proof.
  intros H K. assert (J : In i (l_logicals l)) by (rewrite (cons_logicals _ C), filter_In; split; auto; unfold is_logical; fold (vert i); rewrite K; auto).
  apply In_nth_error in J. destruct J as [k J]. exists k. apply I in J; auto.
Qed.
Lemma string_app_assoc (a b c : string) : ((a ++ b) ++ c)%string = (a ++ b ++ c)%string.
Proof. induction a; cbn; congruence. Qed.
Lemma string_app_nil (a : string) : (a ++ "")%string = a.
Proof. induction a; cbn; congruence. Qed.

Lemma items_ok : forall suf pre, l_vertices l = pre ++ suf ->
  vertex_items show_float probs syndrome (List.length (filter (fun i => is_data (l_heap l i)) pre)) (map (l_heap l) suf) = Ok (map the_item suf).
Proof.
  induction suf as [|i suf IH]; intros pre E; [reflexivity|]. cbn [map vertex_items].
  assert (H : In i (l_vertices l)) by (rewrite E; apply in_or_app; right; left; auto).
  specialize (IH (pre ++ [i]) ltac:(rewrite <- app_assoc; exact E)). rewrite filter_app, app_length in IH. cbn [filter] in IH.
  destruct (in_equbits i H) as [q Eq]. assert (V : forall d, vertex_item show_float probs syndrome d (vert i) = Ok (if is_data (vert i) then S d else d, the_item i) \/
    d <> List.length (filter (fun i => is_data (l_heap l i)) pre)).
  { intros d. destruct (Nat.eq_dec d (List.length (filter (fun i => is_data (l_heap l i)) pre))) as [Hd|]; [left|right; auto].
    assert (J : v_kind (vert i) = KData -> nth_error (l_data l) d = Some i).
    { intros K. rewrite (cons_data _ C), E, filter_app. rewrite nth_error_app2 by lia. rewrite <- Hd, Nat.sub_diag. cbn [filter].
      unfold is_data at 1. fold (vert i). rewrite K. reflexivity. }
    clear Hd. unfold vertex_item, the_item, vertex_type, vertex_key, vertex_marker, index_text, is_data. destruct (v_kind (vert i)) as [|g|name] eqn:K.
    - specialize (J eq_refl). pose proof J as J'. apply I in J'. fold (vert i) in J'. rewrite J', Eq. cbn [number show_index].
      destruct probs as [ps|]; [|reflexivity].
      assert (L : d < List.length ps) by (rewrite Pr; apply nth_error_Some; congruence).
      rewrite (nth_error_nth' ps 0%Q L). cbn [m_hover]. rewrite !string_app_assoc. reflexivity.
    - destruct (stab_index i g H K) as (k & Ek & Lk). unfold VisualModel.show_index. unfold Props_Visual.is_set. rewrite Ek, Eq. cbn [number]. destruct syndrome as [s|].
      + rewrite (nth_error_nth' s false) by lia. destruct (nth k s false), g; cbn [stab_marker m_hover stab_key show_group]; rewrite ?string_app_nil, ?string_app_assoc; reflexivity.
      + destruct g; cbn [stab_marker m_hover stab_key show_group]; rewrite ?string_app_nil, ?string_app_assoc; reflexivity.
    - destruct (logical_index i name H K) as (k & Ek). rewrite Ek, Eq. reflexivity. }
  fold (vert i). destruct (V (List.length (filter (fun i => is_data (l_heap l i)) pre))) as [->|N]; [|congruence]. cbn [bindR fst snd].
  replace (if is_data (vert i) then _ else _) with (List.length (filter (fun i => is_data (l_heap l i)) pre) + List.length (if is_data (l_heap l i) then [i] else [])).
  - rewrite IH. reflexivity.
  - unfold vert. destruct (is_data (l_heap l i)); cbn; lia.
Qed.
End Tables.

(** * Frames *)
Definition letter_of (isx : bool) : string := if isx then "X" else "Z".
Definition frame_kind (err : bool) : string := if err then "p_err" else "p_corr".
Definition frame_key (err isx : bool) : string := (frame_kind err ++ "_" ++ letter_of isx)%string.
Definition frame_item_of (l : lattice) (err : bool) (qx : nat * bool) : item :=
  mkItem (m_point (frame_marker l err (fst qx) (snd qx))) (frame_kind err) (frame_key err (snd qx)) (m_hover (frame_marker l err (fst qx) (snd qx))).
Lemma frame_ops_factors : forall o pre, frame_ops (List.length pre) o =
  map (fun qx : nat * bool => (fst qx, letter_of (snd qx))) (filter (fun qx : nat * bool => if snd qx then getx (fst qx) (pre ++ o) else getz (fst qx) (pre ++ o))
    (flat_map (fun q => [(q, true); (q, false)]) (seq (List.length pre) (List.length o)))).
Proof.
  induction o as [|[x z] o IH]; intros pre; [reflexivity|]. cbn [frame_ops List.length seq flat_map app filter fst snd].
  specialize (IH (pre ++ [(x, z)])). rewrite app_length, Nat.add_1_r in IH. rewrite <- app_assoc in IH. cbn [app] in IH. rewrite IH.
  replace (getx (List.length pre) (pre ++ (x, z) :: o)) with x by (unfold getx; rewrite app_nth2, Nat.sub_diag by lia; reflexivity).
  replace (getz (List.length pre) (pre ++ (x, z) :: o)) with z by (unfold getz; rewrite app_nth2, Nat.sub_diag by lia; reflexivity).
  destruct x, z; reflexivity.
Qed.
Lemma filter_filter {A} (p q : A -> bool) xs : filter p (filter q xs) = filter (fun x => q x && p x) xs.
Proof. induction xs as [|x xs IH]; cbn; auto. destruct (q x); cbn; [destruct (p x); rewrite IH; auto|auto]. Qed.
Lemma filter_same {A} (p q : A -> bool) xs : (forall x, In x xs -> p x = q x) -> filter p xs = filter q xs.
Proof. induction xs as [|x xs IH]; intros H; cbn; auto. rewrite H by (left; auto). rewrite IH by (intros; apply H; right; auto). auto. Qed.
Lemma frame_ok l only err (r : option row) : match r with Some r => List.length (ops r) <= List.length (l_data l) | None => True end ->
  frame_items l only (frame_kind err) r =
    Ok (match r with Some r => map (frame_item_of l err) (filter (in_frame only r) (factors (List.length (ops r)))) | None => [] end).
Proof.
  intros H. destruct r as [r|]; [|reflexivity]. unfold frame_items. change 0 with (List.length (@nil (bool * bool))). rewrite frame_ops_factors. cbn [List.length app].
  rewrite filter_map, filter_filter. fold (factors (List.length (ops r))).
  rewrite (filter_same _ (in_frame only r)).
  2:{ intros [q b] _. cbn [fst snd]. unfold in_frame, chosen, wanted, letter_of. cbn [fst snd]. f_equal. destruct only as [s|]; auto.
      rewrite String.eqb_sym. reflexivity. }
  assert (B : forall qx, In qx (filter (in_frame only r) (factors (List.length (ops r)))) -> fst qx < List.length (l_data l)).
  { intros [q b] J. apply filter_In in J. destruct J as [J _]. apply in_flat_map in J. destruct J as (q' & J & K). apply in_seq in J.
    destruct K as [K|[K|[]]]; injection K as <- <-; cbn; lia. }
  revert B. generalize (filter (in_frame only r) (factors (List.length (ops r)))). induction l0 as [|[q b] qs IH]; intros B; [reflexivity|].
  cbn [map mapR]. rewrite IH by (intros; apply B; right; auto). unfold frame_item. cbn [fst snd].
  specialize (B _ (or_introl eq_refl)). cbn [fst] in B. rewrite (nth_error_nth' _ 0 B). destruct err, b; reflexivity.
Qed.

(** * Drawing *)
Section Drawing.
Variable show_float : Q -> string.
Variable l : lattice.
Variable probs : option (list Q).
Variable syndrome : option (list bool).
Variable grey : bool.
Hypothesis C : consistent l.
Hypothesis I : indexed l.
Hypothesis Pr : match probs with Some ps => List.length ps = List.length (l_data l) | None => True end.
Inductive src := SV (i : nat) | SF (err : bool) (qx : nat * bool).
Definition src_item (s : src) : item := match s with SV i => the_item show_float l probs syndrome i | SF err qx => frame_item_of l err qx end.
Definition src_marker (s : src) : marker := match s with SV i => vertex_marker show_float l probs syndrome grey i | SF err qx => frame_marker l err (fst qx) (snd qx) end.
Definition marks_now : list (string * mark_style) := if grey then map grey_mark vertex_options else vertex_options.
Definition lines_now : list (string * line_style) := if grey then map grey_line edge_options else edge_options.

Definition scaled (s : src) : bool := match probs, s with Some _, SV i => is_data (l_heap l i) | _, _ => false end.
Lemma src_style s : scaled s = false -> exists st c, look (it_group (src_item s)) marks_now = Ok st /\ mk_colour st = Named c /\
  src_marker s = mkMarker (mk_name st) (ByName c) (mk_symbol st) (it_point (src_item s)) (it_hover (src_item s)).
Proof.
  unfold marks_now. destruct s as [i|err [q b]]; cbn [src_item src_marker scaled].
  - unfold scaled, the_item, vertex_key, vertex_marker, is_data, vert. destruct (v_kind (l_heap l i)) as [|g|name] eqn:K; cbn [it_group it_point it_hover].
    + destruct probs; [intros H; discriminate H|]. intros _. destruct grey; do 2 eexists; (split; [reflexivity|split; reflexivity]).
    + intros _. destruct grey, g, (is_set l syndrome i); do 2 eexists; (split; [reflexivity|split; reflexivity]).
    + intros _. destruct grey; do 2 eexists; (split; [reflexivity|split; reflexivity]).
  - intros _. destruct grey, err, b; do 2 eexists; (split; [reflexivity|split; reflexivity]).
Qed.
Lemma src_data s : it_group (src_item s) = "data" <-> exists i, s = SV i /\ is_data (l_heap l i) = true.
Proof.
  destruct s as [i|err [q b]]; cbn [src_item].
  - unfold the_item, vertex_key, is_data, vert. cbn [it_group]. destruct (v_kind (l_heap l i)) as [|g|name] eqn:K.
    + split; auto. intros _. exists i. rewrite K. auto.
    + split; [destruct g, (is_set l syndrome i); discriminate|]. intros (j & [= <-] & H). rewrite K in H. discriminate.
    + split; [discriminate|]. intros (j & [= <-] & H). rewrite K in H. discriminate.
  - split; [destruct err, b; discriminate|]. intros (i & H & _). discriminate.
Qed.

Variable ys : list src.
Hypothesis All : filter (fun s => String.eqb (it_group (src_item s)) "data") ys = map SV (l_data l).
Variable z : vis.
Hypothesis Zp : vz_probs z = probs.
Hypothesis Zm : vz_marks z = marks_now.
Hypothesis Zl : vz_lines z = lines_now.

Lemma combine_by_index (D : list nat) (ps : list Q) (f : nat -> point * string) k : List.length ps = k + List.length D ->
  (forall j i, nth_error D j = Some i -> v_index (l_heap l i) = Some (k + j)) ->
  combine (map f D) (skipn k ps) = map (fun i => (f i, nth (number (v_index (l_heap l i))) ps 0%Q)) D.
Proof.
  revert k. induction D as [|i D IH]; intros k L H; [reflexivity|]. cbn [map].
  pose proof (H 0 i eq_refl) as E. rewrite Nat.add_0_r in E. rewrite E. cbn [number]. cbn [List.length] in L.
  assert (S1 : skipn k ps = nth k ps 0%Q :: skipn (S k) ps).
  { clear - L. revert k L. induction ps as [|p ps IHp]; intros [|k] L; cbn in *; try lia; auto. }
  rewrite S1. cbn [combine]. f_equal. apply IH; [lia|]. intros j i' E'. rewrite (H (S j) i' E'). f_equal. lia.
Qed.

Lemma marks_of_key k : In k (map (fun s => it_group (src_item s)) ys) -> exists t, draw_marks z (map src_item ys) k = Ok t /\
  trace_markers t = map src_marker (filter (fun s => String.eqb (it_group (src_item s)) k) ys) /\ trace_segments t = [] /\
  exists st, look k vertex_options = Ok st /\ trace_name t = mk_name st.
Proof.
  intros J. apply in_map_iff in J. destruct J as (s0 & <- & J). unfold draw_marks. rewrite Zp, Zm. rewrite filter_map, map_map.
  set (k := it_group (src_item s0)).
  assert (N : exists st, look k vertex_options = Ok st /\ forall st', look k marks_now = Ok st' -> mk_name st' = mk_name st).
  { unfold k, marks_now. destruct s0 as [i|err [q b]]; cbn [src_item].
    - unfold the_item, vertex_key, vert. cbn [it_group]. destruct (v_kind (l_heap l i)) as [|g|name];
        [|destruct g, (is_set l syndrome i)|]; eexists; (split; [reflexivity|]); intros st'; destruct grey; intros [= <-]; reflexivity.
    - destruct err, b; eexists; (split; [reflexivity|]); intros st'; destruct grey; intros [= <-]; reflexivity. }
  assert (G : scaled s0 = false -> exists t, (do s <- look k marks_now; Ok (Marks s (map (fun x => (it_point (src_item x), it_hover (src_item x)))
      (filter (fun x => String.eqb (it_group (src_item x)) k) ys)))) = Ok t /\
      trace_markers t = map src_marker (filter (fun s => String.eqb (it_group (src_item s)) k) ys) /\ trace_segments t = [] /\
      exists st, look k vertex_options = Ok st /\ trace_name t = mk_name st).
  { intros S0. destruct (src_style s0 S0) as (st & c & E & Ec & _). fold k in E. rewrite E. cbn [bindR]. eexists. split; [reflexivity|].
    split; [|split; [reflexivity|]].
    - cbn [trace_markers]. rewrite Ec, map_map. apply map_ext_in. intros s Hs. apply filter_In in Hs. destruct Hs as [_ Hs]. apply String.eqb_eq in Hs.
      assert (S1 : scaled s = false).
      { unfold scaled in *. destruct probs; [|destruct s; auto]. destruct s as [i|err qx]; auto. destruct (is_data (l_heap l i)) eqn:D; auto.
        assert (H : k = "data") by (rewrite <- Hs; apply src_data; eauto). apply src_data in H. destruct H as (i0 & -> & H). congruence. }
      destruct (src_style s S1) as (st' & c' & E' & Ec' & ->). rewrite Hs, E in E'. injection E' as <-. rewrite Ec in Ec'. injection Ec' as <-. reflexivity.
    - destruct N as (st0 & N1 & N2). exists st0. split; auto. cbn [trace_name]. auto. }
  destruct probs as [ps|] eqn:EP.
  2:{ apply G. unfold scaled. rewrite EP. destruct s0; auto. }
  destruct (String.eqb_spec k "data") as [Ek|Nk].
  2:{ apply G. unfold scaled. rewrite EP. destruct s0 as [i|]; auto. destruct (is_data (l_heap l i)) eqn:D; auto. destruct Nk. apply src_data. eauto. }
  rewrite Ek, All, map_map. eexists. split; [reflexivity|]. split; [|split; [reflexivity|eexists; split; reflexivity]]. cbn [trace_markers mk_colour mk_name mk_symbol].
  pose proof (combine_by_index (l_data l) ps (fun x => (it_point (src_item (SV x)), it_hover (src_item (SV x)))) 0 Pr) as CI. cbn [skipn] in CI.
  rewrite CI by (intros j i Hj; apply I in Hj; auto). rewrite !map_map. apply map_ext_in. intros i Hi.
  rewrite (cons_data _ C) in Hi. apply filter_In in Hi. destruct Hi as [_ Hi]. unfold is_data in Hi. cbn [fst snd src_marker src_item].
  unfold the_item, vertex_marker, vert. rewrite EP. destruct (v_kind (l_heap l i)); try discriminate. reflexivity.
Qed.
End Drawing.

Lemma grouped_by {A} (key : A -> string) (ys : list A) ks : NoDup ks -> (forall y, In y ys -> In (key y) ks) ->
  Permutation (flat_map (fun k => filter (fun y => String.eqb (key y) k) ys) ks) ys.
Proof.
  intros N H. eapply perm_trans; [apply grouping; auto|]. replace (filter _ ys) with ys; auto.
  induction ys as [|y ys IH]; cbn; auto. replace (has_key _ _) with true.
  - f_equal. apply IH. intros a Ha. apply H. right; auto.
  - symmetry. apply existsb_exists. exists (key y). split; [|apply String.eqb_refl]. apply H. left; auto.
Qed.
Definition edge_key (e : edge) : string := String (factor_name (e_factor e)) "".
Lemma filter_lines l k es : filter (fun x => String.eqb (ln_op x) k) (flat_map (edge_lines l) es) = flat_map (edge_lines l) (filter (fun e => String.eqb (edge_key e) k) es).
Proof.
  induction es as [|e es IH]; [reflexivity|]. cbn [flat_map filter]. rewrite filter_app, IH. unfold edge_lines at 1. cbn [filter ln_op]. fold (edge_key e).
  destruct (String.eqb (edge_key e) k); reflexivity.
Qed.
Lemma joined_lines l s es : joined s (map ln_point (flat_map (edge_lines l) es)) =
  map (fun e => mkSegment (ls_name s) (ls_colour s) (ls_dash s) (at_pos (v_pos (l_heap l (e_op e)))) (at_pos (v_pos (l_heap l (e_data e))))) es.
Proof. induction es as [|e es IH]; [reflexivity|]. cbn [flat_map]. rewrite map_app. cbn [edge_lines map ln_point app joined]. rewrite IH. reflexivity. Qed.
Lemma lines_of_key l grey z es k : vz_lines z = lines_now grey -> (forall e, In e es -> e_factor e <> FY) -> In k (map ln_op (flat_map (edge_lines l) es)) ->
  exists t, draw_lines z (flat_map (edge_lines l) es) k = Ok t /\
    trace_segments t = map (edge_segment l grey) (filter (fun e => String.eqb (edge_key e) k) es) /\ trace_markers t = [] /\
    exists st, look k edge_options = Ok st /\ trace_name t = ls_name st.
Proof.
  intros Z Y J. apply in_map_iff in J. destruct J as (x & <- & J). apply in_flat_map in J. destruct J as (e & He & J).
  assert (E : ln_op x = edge_key e) by (destruct J as [<-|[<-|[<-|[]]]]; reflexivity). rewrite E. unfold draw_lines. rewrite Z.
  assert (S : exists st, look (edge_key e) (lines_now grey) = Ok st /\ (forall e', In e' es -> edge_key e' = edge_key e ->
    edge_segment l grey e' = mkSegment (ls_name st) (ls_colour st) (ls_dash st) (at_pos (v_pos (l_heap l (e_op e')))) (at_pos (v_pos (l_heap l (e_data e'))))) /\
    exists st', look (edge_key e) edge_options = Ok st' /\ ls_name st = ls_name st').
  { pose proof (Y e He) as Ye. unfold lines_now, edge_key, edge_segment. destruct (e_factor e) eqn:F; [|congruence|]; destruct grey; eexists; (split; [reflexivity|]);
      (split; [|eexists; split; reflexivity]); intros e' He' Ee'; pose proof (Y e' He') as Ye'; destruct (e_factor e'); try discriminate; try congruence; reflexivity. }
  destruct S as (st & -> & S & st' & L1 & L2). cbn [bindR]. eexists. split; [reflexivity|]. split; [|split; [reflexivity|exists st'; auto]].
  cbn [trace_segments]. rewrite filter_lines, joined_lines. apply map_ext_in. intros e' He'. apply filter_In in He'. destruct He' as [He' Ee'].
  apply String.eqb_eq in Ee'. symmetry. apply S; auto.
Qed.
Lemma look_in {A} k (d : list (string * A)) s : look k d = Ok s -> In (k, s) d.
Proof. induction d as [|[k' x] d IH]; cbn; [discriminate|]. destruct (String.eqb_spec k k') as [->|]; [intros [= ->]; auto|auto]. Qed.
Lemma mark_names k1 k2 s1 s2 : look k1 vertex_options = Ok s1 -> look k2 vertex_options = Ok s2 -> mk_name s1 = mk_name s2 -> k1 = k2.
Proof.
  intros H1 H2 E. apply look_in in H1, H2. cbn in H1, H2.
  repeat (destruct H1 as [H1|H1]; [injection H1 as <- <-; repeat (destruct H2 as [H2|H2]; [injection H2 as <- <-; try reflexivity; discriminate E|]); destruct H2|]).
  destruct H1.
Qed.
Lemma line_names k1 k2 s1 s2 : look k1 edge_options = Ok s1 -> look k2 edge_options = Ok s2 -> ls_name s1 = ls_name s2 -> k1 = k2.
Proof.
  intros H1 H2 E. apply look_in in H1, H2. cbn in H1, H2.
  repeat (destruct H1 as [H1|H1]; [injection H1 as <- <-; repeat (destruct H2 as [H2|H2]; [injection H2 as <- <-; try reflexivity; discriminate E|]); destruct H2|]).
  destruct H1.
Qed.
Lemma both_names k1 k2 s1 s2 : look k1 edge_options = Ok s1 -> look k2 vertex_options = Ok s2 -> ls_name s1 <> mk_name s2.
Proof.
  intros H1 H2 E. apply look_in in H1, H2. cbn in H1, H2.
  repeat (destruct H1 as [H1|H1]; [injection H1 as <- <-; repeat (destruct H2 as [H2|H2]; [injection H2 as <- <-; discriminate E|]); destruct H2|]).
  destruct H1.
Qed.
Lemma forall2_in_r {A B} (R : A -> B -> Prop) xs ys : Forall2 R xs ys -> forall y, In y ys -> exists x, In x xs /\ R x y.
Proof. induction 1; intros z J; [destruct J|]. destruct J as [<-|J]; [eexists; split; [left|]; eauto|]. destruct (IHForall2 z J) as (w & ? & ?). exists w. split; auto. right; auto. Qed.
Lemma names_nodup (R : string -> trace -> Prop) ks ts : NoDup ks -> Forall2 R ks ts -> (forall k1 k2 t1 t2, R k1 t1 -> R k2 t2 -> trace_name t1 = trace_name t2 -> k1 = k2) ->
  NoDup (map trace_name ts).
Proof.
  intros N F H. induction F as [|k t ks ts Rk F IH]; cbn; constructor; inversion N as [|? ? N1 N2]; subst; auto.
  intros J. apply in_map_iff in J. destruct J as (t' & E & J).
  pose proof (forall2_in_r _ _ _ F t' J) as J'.
  destruct J' as (k' & J1 & J2). rewrite (H k' k t' t J2 Rk E) in J1. auto.
Qed.

(** * C73 *)
Definition frame_fits (l : lattice) (a : option array) (r : option row) : Prop :=
  match a, r with
  | None, None => True
  | Some (Matrix t), Some r => t = [r] /\ List.length (ops r) <= List.length (l_data l)
  | _, _ => False
  end.
Lemma one_row_fits l a r : frame_fits l a r -> one_row a = Ok r /\ match r with Some r => List.length (ops r) <= List.length (l_data l) | None => True end.
Proof. destruct a as [[| |t|]|], r as [r|]; cbn; try tauto. intros [-> H]. auto. Qed.
Lemma flat_map_nil_all {A B} (f : A -> list B) xs : (forall x, In x xs -> f x = []) -> flat_map f xs = [].
Proof. induction xs as [|x xs IH]; intros H; cbn; auto. rewrite H by (left; auto). cbn. apply IH. intros; apply H; right; auto. Qed.
Section Main.
Variable show_float : Q -> string.
Variable l : lattice.
Variable probs : option (list Q).
Variable syndrome : option (list bool).
Variable grey : bool.
Hypothesis C : consistent l.
Hypothesis I : indexed l.
Hypothesis Pr : match probs with Some ps => List.length ps = List.length (l_data l) | None => True end.
Variable z : vis.
Hypothesis Zp : vz_probs z = probs.
Hypothesis Zm : vz_marks z = marks_now grey.
Hypothesis Zl : vz_lines z = lines_now grey.
Lemma draw_ok ys es : filter (fun s => String.eqb (it_group (src_item show_float l probs syndrome s)) "data") ys = map SV (l_data l) ->
  (forall e, In e es -> e_factor e <> FY) ->
  exists fig, draw z (map (src_item show_float l probs syndrome) ys) (flat_map (edge_lines l) es) = Ok fig /\
    Permutation (flat_map trace_markers fig) (map (src_marker show_float l probs syndrome grey) ys) /\
    Permutation (flat_map trace_segments fig) (map (edge_segment l grey) es) /\ NoDup (map trace_name fig).
Proof.
  intros All Y. unfold draw.
  set (edf := flat_map (edge_lines l) es). set (vdf := map (src_item show_float l probs syndrome) ys).
  assert (HE : forall k, In k (group_keys (map ln_op edf)) -> In k (map ln_op edf)) by (intros; apply group_keys_in; auto).
  assert (HV : forall k, In k (group_keys (map it_group vdf)) -> In k (map (fun s => it_group (src_item show_float l probs syndrome s)) ys)).
  { intros k J. apply (proj1 (group_keys_in _ _)) in J. unfold vdf in J. rewrite map_map in J. auto. }
  destruct (mapR_some (draw_lines z edf) (group_keys (map ln_op edf))) as (ta & Ea & Fa).
  { intros k J. destruct (lines_of_key l grey z es k Zl Y (HE k J)) as (t & E & _). eauto. }
  destruct (mapR_some (draw_marks z vdf) (group_keys (map it_group vdf))) as (tb & Eb & Fb).
  { intros k J. destruct (marks_of_key show_float l probs syndrome grey C I Pr ys All z Zp Zm k (HV k J)) as (t & E & _). eauto. }
  rewrite Ea, Eb. cbn [bindR]. eexists. split; [reflexivity|]. rewrite !flat_map_app.
  assert (PA : forall k t, In k (group_keys (map ln_op edf)) -> draw_lines z edf k = Ok t ->
    trace_segments t = map (edge_segment l grey) (filter (fun e => String.eqb (edge_key e) k) es) /\ trace_markers t = [] /\ exists st, look k edge_options = Ok st /\ trace_name t = ls_name st).
  { intros k t J E. destruct (lines_of_key l grey z es k Zl Y (HE k J)) as (t' & E' & H). fold edf in E'. rewrite E in E'. injection E' as <-. auto. }
  assert (PB : forall k t, In k (group_keys (map it_group vdf)) -> draw_marks z vdf k = Ok t ->
    trace_markers t = map (src_marker show_float l probs syndrome grey) (filter (fun s => String.eqb (it_group (src_item show_float l probs syndrome s)) k) ys) /\ trace_segments t = [] /\
    exists st, look k vertex_options = Ok st /\ trace_name t = mk_name st).
  { intros k t J E. destruct (marks_of_key show_float l probs syndrome grey C I Pr ys All z Zp Zm k (HV k J)) as (t' & E' & H). fold vdf in E'. rewrite E in E'. injection E' as <-. auto. }
  split; [|split].
  - rewrite (flat_map_forall2 _ trace_markers (fun _ => []) _ _ Fa) by (intros k t J E; apply (PA k t J E)). rewrite (flat_map_nil_all (fun _ => [])) by auto. cbn [app].
    rewrite (flat_map_forall2 _ trace_markers _ _ _ Fb (fun k t J E => proj1 (PB k t J E))).
    rewrite (flat_map_map_filter (src_marker show_float l probs syndrome grey) (fun k s => String.eqb (it_group (src_item show_float l probs syndrome s)) k)).
    apply Permutation_map. apply (grouped_by (fun s => it_group (src_item show_float l probs syndrome s))); [apply group_keys_nodup|].
    intros y J. apply group_keys_in. unfold vdf. rewrite map_map. apply (in_map (fun x => it_group (src_item show_float l probs syndrome x))). auto.
  - rewrite (flat_map_forall2 _ trace_segments (fun _ => []) _ _ Fb) by (intros k t J E; apply (PB k t J E)). rewrite (flat_map_nil_all (fun _ => [])) by auto. rewrite app_nil_r.
    rewrite (flat_map_forall2 _ trace_segments _ _ _ Fa (fun k t J E => proj1 (PA k t J E))).
    rewrite (flat_map_map_filter (edge_segment l grey) (fun k e => String.eqb (edge_key e) k)).
    apply Permutation_map. apply (grouped_by edge_key); [apply group_keys_nodup|].
    intros e J. apply group_keys_in. apply in_map_iff. eexists (mkLine (edge_key e) None). split; [reflexivity|]. apply in_flat_map. exists e. split; auto.
    right. right. left. reflexivity.
  - rewrite map_app.
    assert (Fa' : Forall2 (fun k t => exists st, look k edge_options = Ok st /\ trace_name t = ls_name st) (group_keys (map ln_op edf)) ta).
    { clear - Fa PA. revert PA. induction Fa; intros PA; constructor; [apply (PA x y); auto; left; auto|]. apply IHFa. intros; apply PA; auto. right; auto. }
    assert (Fb' : Forall2 (fun k t => exists st, look k vertex_options = Ok st /\ trace_name t = mk_name st) (group_keys (map it_group vdf)) tb).
    { clear - Fb PB. revert PB. induction Fb; intros PB; constructor; [apply (PB x y); auto; left; auto|]. apply IHFb. intros; apply PB; auto. right; auto. }
    assert (D : forall n, In n (map trace_name ta) -> In n (map trace_name tb) -> False).
    { intros n J1 J2. apply in_map_iff in J1, J2. destruct J1 as (t1 & <- & J1), J2 as (t2 & E & J2).
      destruct (forall2_in_r _ _ _ Fa' t1 J1) as (k1 & _ & s1 & L1 & N1). destruct (forall2_in_r _ _ _ Fb' t2 J2) as (k2 & _ & s2 & L2 & N2).
      apply (both_names k1 k2 s1 s2 L1 L2). congruence. }
    assert (Na : NoDup (map trace_name ta)).
    { eapply names_nodup; [apply group_keys_nodup|exact Fa'|]. intros k1 k2 t1 t2 (s1 & A1 & B1) (s2 & A2 & B2) E. eapply line_names; eauto. congruence. }
    assert (Nb : NoDup (map trace_name tb)).
    { eapply names_nodup; [apply group_keys_nodup|exact Fb'|]. intros k1 k2 t1 t2 (s1 & A1 & B1) (s2 & A2 & B2) E. eapply mark_names; eauto. congruence. }
    clear - Na Nb D. induction (map trace_name ta) as [|a r IH]; cbn; auto. inversion Na; subst. constructor.
    + intros J. apply in_app_or in J. destruct J as [J|J]; auto. apply (D a); auto. left; auto.
    + apply IH; auto. intros n J1 J2. apply (D n); auto. right; auto.
Qed.
End Main.

(** The figure which is drawn for consistent lattices with X and Z factors only: a marker for every vertex (for data qubits only, if stabilisers are not
    to be drawn), in the colour for its kind, its group and its syndrome bit; a marker for every wanted factor of the error and the correction; a line for every
    edge.  Every entry of the legend occurs once.  The object is the same afterwards. *)
Theorem C73_draw : forall show_float l probs z syndrome error correction re rc only grey draw_stabs draw_edges,
  consistent l -> indexed l -> new_vis l probs = Ok z -> (forall e, In e (l_edges l) -> e_factor e <> FY) -> l_vertices l <> [] ->
  match syndrome with Some s => List.length s = List.length (l_stabs l) | None => True end ->
  frame_fits l error re -> frame_fits l correction rc -> only = None \/ only = Some "X" \/ only = Some "Z" ->
  exists fig, draw_latticedata show_float z syndrome error correction only grey draw_stabs draw_edges = (z, Ok fig) /\
    Permutation (flat_map trace_markers fig)
      (map (vertex_marker show_float l probs syndrome grey) (if draw_stabs then l_vertices l else l_data l) ++ frame_markers l only true re ++ frame_markers l only false rc) /\
    Permutation (flat_map trace_segments fig) (map (edge_segment l grey) (if draw_edges then l_edges l else [])) /\
    NoDup (map trace_name fig).
Proof.
  intros show_float l probs z syndrome error correction re rc only grey draw_stabs draw_edges C I HZ Y NV Sy Fe Fc Ho.
  assert (Zeq : z = mkVis l probs vertex_options edge_options None None /\ match probs with Some ps => List.length ps = List.length (l_data l) | None => True end).
  { unfold new_vis in HZ. destruct probs as [ps|]; [|injection HZ as <-; auto]. destruct (Nat.eqb_spec (List.length ps) (List.length (l_data l))) as [E|]; [|discriminate].
    injection HZ as <-. auto. }
  destruct Zeq as [-> Pr]. clear HZ.
  destruct (one_row_fits l error re Fe) as [Oe Le]. destruct (one_row_fits l correction rc Fc) as [Oc Lc].
  set (fr := fun err (r : option row) => match r with Some r => map (SF err) (filter (in_frame only r) (factors (List.length (ops r)))) | None => [] end).
  set (vs := if draw_stabs then l_vertices l else l_data l).
  set (ys := map SV vs ++ fr true re ++ fr false rc).
  set (es := if draw_edges then l_edges l else []).
  assert (LD : latticedata show_float (mkVis l probs vertex_options edge_options None None) syndrome error correction only draw_stabs draw_edges =
    Ok (map (src_item show_float l probs syndrome) ys, flat_map (edge_lines l) es)).
  { unfold latticedata, mk_df. cbn [vz_code vz_probs].
    replace (match syndrome with Some s => if List.length s =? List.length (l_stabs l) then Ok tt else Err AssertionError | None => Ok tt end) with (@Ok unit tt)
      by (destruct syndrome; [rewrite Sy, Nat.eqb_refl|]; reflexivity). cbn [bindR].
    pose proof (items_ok show_float l probs syndrome C I Pr Sy (l_vertices l) [] eq_refl) as IO. cbn [filter List.length] in IO. rewrite IO. cbn [bindR fst snd].
    assert (V : (if draw_stabs then Ok (map (the_item show_float l probs syndrome) (l_vertices l))
       else match map (the_item show_float l probs syndrome) (l_vertices l) with [] => Err AttributeError
            | _ => Ok (filter (fun x => String.eqb (it_type x) "data") (map (the_item show_float l probs syndrome) (l_vertices l))) end) = Ok (map (the_item show_float l probs syndrome) vs)).
    { unfold vs. destruct draw_stabs; auto. rewrite filter_map, (cons_data _ C).
      rewrite (filter_same (fun x => String.eqb (it_type (the_item show_float l probs syndrome x)) "data") (fun i => is_data (l_heap l i))).
      - destruct (l_vertices l); [congruence|reflexivity].
      - intros i _. cbn [it_type the_item]. unfold vertex_type, is_data, vert. destruct (v_kind (l_heap l i)); reflexivity. }
    rewrite V. cbn [bindR]. unfold mk_pauliframe_df. rewrite Oe, Oc. cbn [bindR].
    replace (pauli_choice only) with (@Ok unit tt) by (destruct Ho as [->|[->| ->]]; reflexivity). cbn [bindR].
    change "p_err" with (frame_kind true). change "p_corr" with (frame_kind false). rewrite (frame_ok l only true re Le), (frame_ok l only false rc Lc). cbn [bindR].
    unfold ys. rewrite !map_app, map_map. f_equal. f_equal; [|unfold es; destruct draw_edges; reflexivity]. f_equal.
    unfold fr. f_equal; [destruct re|destruct rc]; rewrite ?map_map; reflexivity. }
  assert (All : filter (fun s => String.eqb (it_group (src_item show_float l probs syndrome s)) "data") ys = map SV (l_data l)).
  { unfold ys. rewrite !filter_app.
    assert (Fr : forall err r, filter (fun s => String.eqb (it_group (src_item show_float l probs syndrome s)) "data") (fr err r) = []).
    { intros err [r|]; [|reflexivity]. unfold fr. rewrite filter_map. replace (filter _ _) with (@nil (nat * bool)); auto.
      induction (filter (in_frame only r) (factors (List.length (ops r)))) as [|[q b] qs IH]; auto. cbn [filter]. rewrite <- IH. destruct err, b; reflexivity. }
    rewrite !Fr, !app_nil_r. rewrite filter_map. f_equal.
    assert (E : forall xs, filter (fun x => String.eqb (it_group (src_item show_float l probs syndrome (SV x))) "data") xs = filter (fun i => is_data (l_heap l i)) xs).
    { intros xs. apply filter_same. intros i _. cbn [src_item]. unfold the_item, vertex_key, is_data, vert. cbn [it_group].
      destruct (v_kind (l_heap l i)) as [|g|]; [reflexivity| |reflexivity]. destruct g, (is_set l syndrome i); reflexivity. }
    rewrite E. unfold vs. rewrite (cons_data _ C). destruct draw_stabs; auto. rewrite filter_filter. apply filter_same. intros i _. destruct (is_data (l_heap l i)); auto. }
  assert (Yes : forall e, In e es -> e_factor e <> FY) by (unfold es; destruct draw_edges; auto; intros e []).
  assert (X : map (src_marker show_float l probs syndrome grey) ys =
    map (vertex_marker show_float l probs syndrome grey) vs ++ frame_markers l only true re ++ frame_markers l only false rc).
  { unfold ys. rewrite !map_app, map_map. f_equal. unfold fr, frame_markers. f_equal; [destruct re|destruct rc]; rewrite ?map_map; reflexivity. }
  rewrite <- X. unfold draw_latticedata. rewrite LD. destruct grey.
  - destruct (draw_ok show_float l probs syndrome true C I Pr (mkVis l probs (map grey_mark vertex_options) (map grey_line edge_options) (Some vertex_options) (Some edge_options))
      eq_refl eq_refl eq_refl ys es All Yes) as (fig & E & R). exists fig. split; [|exact R]. cbn [set_grey vz_saved_marks vz_saved_lines vz_code vz_probs vz_marks vz_lines].
    rewrite E. reflexivity.
  - destruct (draw_ok show_float l probs syndrome false C I Pr (mkVis l probs vertex_options edge_options None None)
      eq_refl eq_refl eq_refl ys es All Yes) as (fig & E & R). exists fig. split; [|exact R]. rewrite E. reflexivity.
Qed.
Print Assumptions C73_draw.

(** draw_lattice draws the same as draw_latticedata without data and without grey. *)
Theorem C73_lattice : forall show_float z, snd (draw_latticedata show_float z None None None None false true true) = draw_lattice show_float z.
Proof.
  intros. unfold draw_latticedata, draw_lattice, latticedata, mk_pauliframe_df. destruct (mk_df show_float z None) as [[v e]|x]; [|reflexivity].
  cbn [bindR fst snd one_row pauli_choice frame_items app]. rewrite app_nil_r. reflexivity.
Qed.
Print Assumptions C73_lattice.

(** An exception leaves the object as it was, unless it comes from the drawing of a grey figure. *)
Theorem C73_refuses : forall show_float l probs z error correction only grey draw_stabs draw_edges, consistent l -> indexed l -> new_vis l probs = Ok z ->
  (forall s, List.length s <> List.length (l_stabs l) -> draw_latticedata show_float z (Some s) error correction only grey draw_stabs draw_edges = (z, Err AssertionError)) /\
  (forall r, l_vertices l <> [] -> ops r <> [] -> draw_latticedata show_float z None (Some (Vector r)) correction only grey draw_stabs draw_edges = (z, Err AssertionError)).
Proof.
  intros show_float l probs z error correction only grey draw_stabs draw_edges C I HZ.
  assert (Zeq : z = mkVis l probs vertex_options edge_options None None /\ match probs with Some ps => List.length ps = List.length (l_data l) | None => True end).
  { unfold new_vis in HZ. destruct probs as [ps|]; [|injection HZ as <-; auto]. destruct (Nat.eqb_spec (List.length ps) (List.length (l_data l))) as [E|]; [|discriminate].
    injection HZ as <-. auto. }
  destruct Zeq as [-> Pr]. clear HZ. split.
  - intros s N. unfold draw_latticedata, latticedata, mk_df. cbn [vz_code]. apply Nat.eqb_neq in N. rewrite N. reflexivity.
  - intros r NV N. unfold draw_latticedata, latticedata, mk_df. cbn [vz_code vz_probs bindR].
    pose proof (items_ok show_float l probs None C I Pr Logic.I (l_vertices l) [] eq_refl) as IO. cbn [filter List.length] in IO. rewrite IO. cbn [bindR fst snd].
    destruct (l_vertices l) as [|v0 vs]; [congruence|]. cbn [map]. destruct (ops r) as [|o os] eqn:Eo; [congruence|].
    destruct draw_stabs; cbn [bindR]; unfold mk_pauliframe_df, one_row; rewrite Eo; reflexivity.
Qed.
Print Assumptions C73_refuses.

Lemma mapR_fails {A B} (f : A -> Res B) e xs : (forall x, In x xs -> (exists y, f x = Ok y) \/ f x = Err e) -> (exists x, In x xs /\ f x = Err e) -> mapR f xs = Err e.
Proof.
  induction xs as [|x xs IH]; intros H (w & J & E); [destruct J|]. cbn. destruct (H x (or_introl eq_refl)) as [(y & Ey)|Ey]; rewrite Ey; [|reflexivity]. cbn.
  rewrite IH; auto; [intros; apply H; right; auto|]. destruct J as [->|J]; [congruence|eauto].
Qed.
(** A lattice with a Y factor cannot be drawn; after an attempt to draw it in grey, no grey figure can be drawn by the object. *)
Theorem C73_y : forall show_float l probs z syndrome error correction re rc only grey draw_stabs,
  consistent l -> indexed l -> new_vis l probs = Ok z -> (exists e, In e (l_edges l) /\ e_factor e = FY) ->
  match syndrome with Some s => List.length s = List.length (l_stabs l) | None => True end ->
  frame_fits l error re -> frame_fits l correction rc -> only = None \/ only = Some "X" \/ only = Some "Z" ->
  snd (draw_latticedata show_float z syndrome error correction only grey draw_stabs true) = Err KeyError /\
  (grey = true -> forall syndrome' error' correction' only' draw_stabs' draw_edges', exists e,
    snd (draw_latticedata show_float (fst (draw_latticedata show_float z syndrome error correction only grey draw_stabs true))
      syndrome' error' correction' only' true draw_stabs' draw_edges') = Err e).
Proof.
  intros show_float l probs z syndrome error correction re rc only grey draw_stabs C I HZ (e & He & HY) Sy Fe Fc Ho.
  assert (Zeq : z = mkVis l probs vertex_options edge_options None None /\ match probs with Some ps => List.length ps = List.length (l_data l) | None => True end).
  { unfold new_vis in HZ. destruct probs as [ps|]; [|injection HZ as <-; auto]. destruct (Nat.eqb_spec (List.length ps) (List.length (l_data l))) as [E|]; [|discriminate].
    injection HZ as <-. auto. }
  destruct Zeq as [-> Pr]. clear HZ. destruct (one_row_fits l error re Fe) as [Oe Le]. destruct (one_row_fits l correction rc Fc) as [Oc Lc].
  assert (NV : l_vertices l <> []).
  { destruct (cons_ends _ C e He) as [D _]. rewrite (cons_data _ C) in D. apply filter_In in D. destruct D as [D _]. intros E. rewrite E in D. destruct D. }
  assert (LD : exists v, latticedata show_float (mkVis l probs vertex_options edge_options None None) syndrome error correction only draw_stabs true = Ok (v, flat_map (edge_lines l) (l_edges l))).
  { unfold latticedata, mk_df. cbn [vz_code vz_probs].
    replace (match syndrome with Some s => if List.length s =? List.length (l_stabs l) then Ok tt else Err AssertionError | None => Ok tt end) with (@Ok unit tt)
      by (destruct syndrome; [rewrite Sy, Nat.eqb_refl|]; reflexivity). cbn [bindR].
    pose proof (items_ok show_float l probs syndrome C I Pr Sy (l_vertices l) [] eq_refl) as IO. cbn [filter List.length] in IO. rewrite IO. cbn [bindR fst snd].
    destruct (l_vertices l) as [|v0 vs]; [congruence|]. cbn [map]. unfold mk_pauliframe_df. rewrite Oe, Oc.
    replace (pauli_choice only) with (@Ok unit tt) by (destruct Ho as [->|[->| ->]]; reflexivity). change "p_err" with (frame_kind true). change "p_corr" with (frame_kind false).
    cbn [bindR]. rewrite (frame_ok l only true re Le), (frame_ok l only false rc Lc). destruct draw_stabs; cbn [bindR]; eexists; reflexivity. }
  destruct LD as (v & LD).
  assert (DK : forall z', (vz_lines z' = edge_options \/ vz_lines z' = map grey_line edge_options) -> draw z' v (flat_map (edge_lines l) (l_edges l)) = Err KeyError).
  { intros z' Hz. unfold draw. rewrite (mapR_fails _ KeyError); [reflexivity| |].
    - intros k J. apply (proj1 (group_keys_in _ _)) in J. apply in_map_iff in J. destruct J as (x & <- & J). apply in_flat_map in J. destruct J as (e' & _ & J).
      assert (E : ln_op x = edge_key e') by (destruct J as [<-|[<-|[<-|[]]]]; reflexivity). rewrite E. unfold draw_lines, edge_key.
      destruct Hz as [->| ->]; destruct (e_factor e'); ((left; eexists; reflexivity) || (right; reflexivity)).
    - exists "Y". split.
      + apply group_keys_in. apply in_map_iff. exists (mkLine (edge_key e) None). split; [unfold edge_key; cbn [ln_op]; rewrite HY; reflexivity|].
        apply in_flat_map. exists e. split; auto. right. right. left. reflexivity.
      + unfold draw_lines. destruct Hz as [->| ->]; reflexivity. }
  unfold draw_latticedata at 1. rewrite LD. split.
  - destruct grey; cbn [set_grey vz_saved_marks vz_saved_lines vz_marks vz_lines vz_code vz_probs snd]; rewrite DK by auto; reflexivity.
  - intros ->. intros. assert (EZ : fst (draw_latticedata show_float (mkVis l probs vertex_options edge_options None None) syndrome error correction only true draw_stabs true) =
      mkVis l probs (map grey_mark vertex_options) (map grey_line edge_options) (Some vertex_options) (Some edge_options)).
    { unfold draw_latticedata. rewrite LD. cbn [set_grey vz_saved_marks vz_saved_lines vz_marks vz_lines vz_code vz_probs]. rewrite DK by auto. reflexivity. }
    rewrite EZ. clear LD DK EZ. unfold draw_latticedata. destruct (latticedata _ _ _ _ _ _ _ _) as [[v' e']|x]; eexists; reflexivity.
Qed.
Print Assumptions C73_y.

(** The planar code of size 2: an X error at data qubit 2, the syndrome bits 1 and 2, a Y as correction of data qubit 0. *)
Definition one_error : row := mkRow [(false, false); (false, false); (true, false); (false, false); (false, false)] false.
Definition one_correction : row := mkRow [(true, true); (false, false); (false, false); (false, false); (false, false)] false.
Definition planar2 : CodesModel.code := match make_planar 1 2 with Ok c => c | Err _ => mkCode (mkStabcode [] []) (mkLattice (0, 0)%Z (fun _ => None) (fun _ => dead) 0 [] [] [] [] [] [] None "" false) 0 end.
Example C73_example : exists z fig, experiment_code planar2 /\ (new_vis (c_lattice planar2) None = Ok z) /\ l_vertices (c_lattice planar2) <> [] /\
  frame_fits (c_lattice planar2) (Some (Matrix [one_error])) (Some one_error) /\ frame_fits (c_lattice planar2) (Some (Matrix [one_correction])) (Some one_correction) /\
  draw_latticedata (fun _ => "") z (Some [false; true; true; false]) (Some (Matrix [one_error])) (Some (Matrix [one_correction])) None true true true = (z, Ok fig) /\
  map (fun t => (trace_name t, List.length (trace_markers t), List.length (trace_segments t))) fig =
    [("Pauli X", 0, 8); ("Pauli Z", 0, 8); ("Data qubit", 5, 0); ("Logical operator", 2, 0); ("X correction", 1, 0); ("Z correction", 1, 0); ("X error", 1, 0);
     ("Toggled A stabilizer", 2, 0); ("B stabilizer", 2, 0)].
Proof.
  do 2 eexists. split; [apply (C49_builtin_codes 1%Z); left; exists 2%Z; split; [lia|]; left; vm_compute; reflexivity|].
  split; [reflexivity|]. split; [vm_compute; discriminate|]. split; [split; [reflexivity|vm_compute; lia]|]. split; [split; [reflexivity|vm_compute; lia]|].
  split; [vm_compute; reflexivity|]. vm_compute. reflexivity.
Qed.

(** The code with the stabiliser YY. *)
Example C73_example_y : exists cd z, from_operators [mkRow [(true, true); (true, true)] false]
    [mkRow [(true, false); (true, false)] false; mkRow [(false, true); (true, false)] false] 1 = Ok cd /\
  new_vis (c_lattice cd) None = Ok z /\ draw_lattice (fun _ => "") z = Err KeyError /\
  (exists fig, snd (draw_latticedata (fun _ => "") z None None None None true true false) = Ok fig) /\
  snd (draw_latticedata (fun _ => "") (fst (draw_latticedata (fun _ => "") z None None None None true true true)) None None None None true true false) = Err AssertionError.
Proof. do 2 eexists. split; [vm_compute; reflexivity|]. split; [reflexivity|]. split; [vm_compute; reflexivity|]. split; [eexists; vm_compute; reflexivity|]. vm_compute. reflexivity. Qed.

(** * Circuits *)
Lemma dec_no_newline n : ~ occurs newline (dec n).
Proof. rewrite <- show_int_dec. apply int_no_newline. Qed.
Lemma print_no_newline st : ~ occurs newline (print st).
Proof.
  destruct st; cbn [print]; unfold reg; intros H; repeat (apply occurs_app in H; destruct H as [H|H]); try (apply dec_no_newline in H; exact H);
    cbn in H; intuition discriminate.
Qed.
(** The program given to Qiskit has the same statements as the exported one, with the header of version 3: it does what the circuit does.  Circuits with error
    instructions or other gates are refused. *)
Theorem C73_circuit : forall (show_float : Q -> string) (c : circuit), Forall exportable c ->
  exists prog,
    qiskit_text (show_arg show_float) c =
      Ok (join (String newline "")
           (["OPENQASM 3.0;"; "include " ++ String """" ("stdgates.inc" ++ String """" ";");
             "qreg q[" ++ dec (number_of_qubits c) ++ "];";
             "creg c[" ++ dec (number_measured_qubits c) ++ "];"]%string ++ map print prog)) /\
    forall n v v' creg,
      qprog n prog (v, repeat false (number_measured_qubits c)) (v', creg) <-> qcirc n c v creg [] v'.
Proof.
  intros show_float c F. destruct (C16_export_meaning show_float c false F) as (prog & E & M). exists prog. split; auto.
  unfold qiskit_text. rewrite E. cbn [bindR].
  erewrite <- (proj2 (proj2 (C71_split newline _))); [..|reflexivity].
  - reflexivity.
  - discriminate.
  - intros p J. apply in_app_or in J. destruct J as [J|J].
    + destruct J as [<-|[<-|[<-|[<-|[]]]]]; intros H; repeat (apply occurs_app in H; destruct H as [H|H]); try (apply dec_no_newline in H; exact H); cbn in H; intuition discriminate.
    + apply in_map_iff in J. destruct J as (st & <- & _). apply print_no_newline.
Qed.
Print Assumptions C73_circuit.
Theorem C73_circuit_refuses : forall (show : arg -> string) (c : circuit),
  (exists gt, In gt c /\ ~ In (fst gt) ["R"; "H"; "X"; "Y"; "Z"; "CX"; "CZ"; "M"]) -> exists e, qiskit_text show c = Err e.
Proof. intros show c H. destruct (C16_unsupported_refused show c H) as (e & E). exists e. unfold qiskit_text. rewrite E. reflexivity. Qed.
Print Assumptions C73_circuit_refuses.
Example C73_example_circuit : Forall exportable [("H", [qa 0]); ("CX", [qa 0; qa 1]); ("M", [qa 0; qa 1])] /\
  option_map (CsvModel.split_on newline) (match qiskit_text (show_arg (fun _ => "")) [("H", [qa 0]); ("CX", [qa 0; qa 1]); ("M", [qa 0; qa 1])] with Ok s => Some s | Err _ => None end) =
    Some ["OPENQASM 3.0;"; "include ""stdgates.inc"";"; "qreg q[2];"; "creg c[2];"; "h q[0];"; "cx q[0],q[1];"; "measure q[0] -> c[0];"; "measure q[1] -> c[1];"].
Proof.
  split; [|vm_compute; reflexivity]. constructor; [apply (ex1 "H" [0]); cbn; auto|]. constructor; [apply (ex2 "CX" [(0, 1)]); cbn; auto|].
  constructor; [apply (ex1 "M" [0; 1]); cbn; auto 6|constructor].
Qed.
