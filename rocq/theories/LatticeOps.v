(** The operators computed from a lattice. *)
Require Import List Bool Arith ZArith Lia String Ascii.
From Verif Require Import Base BaseProofs QSpec PauliModel PauliAlg CircuitModel PauliTextModel PauliTextProofs LatticeModel LatticeSpec LatticeProofs LatticeEdit.
Import ListNotations.
Local Open Scope string_scope.
Local Open Scope nat_scope.
Local Open Scope list_scope.

(** * sp and anti *)
Lemma sp_comm a b : sp a b = sp b a.
Proof. destruct a as [[] []], b as [[] []]; reflexivity. Qed.
Lemma sp_self a : sp a a = false.
Proof. destruct a as [[] []]; reflexivity. Qed.
Lemma sp_zero_l b : sp (false, false) b = false.
Proof. reflexivity. Qed.
Lemma sp_zero_r a : sp a (false, false) = false.
Proof. destruct a as [[] []]; reflexivity. Qed.
Lemma sp_xor_l a b c : sp (pxor a b) c = xorb (sp a c) (sp b c).
Proof. destruct a as [[] []], b as [[] []], c as [[] []]; reflexivity. Qed.
Lemma anti_comm D f g : anti D f g = anti D g f.
Proof. unfold anti. f_equal. apply map_ext. intros; apply sp_comm. Qed.
Lemma anti_ext D f g f' g' : (forall d, In d D -> f d = f' d) -> (forall d, In d D -> g d = g' d) -> anti D f g = anti D f' g'.
Proof. intros A B. unfold anti. f_equal. apply map_ext_in. intros d I. rewrite A, B; auto. Qed.
Lemma anti_self D f : anti D f f = false.
Proof. unfold anti. induction D; cbn; auto. rewrite IHD, sp_self. auto. Qed.
Lemma anti_xor_l D f g h : anti D (fun d => pxor (f d) (g d)) h = xorb (anti D f h) (anti D g h).
Proof.
  unfold anti. induction D; cbn; auto. rewrite IHD, sp_xor_l.
  set (A := fold_right _ _ _). set (B := fold_right _ _ _). clearbody A B. destruct (sp (f a) (h a)), (sp (g a) (h a)), A, B; auto.
Qed.
Lemma anti_xor_r D f g h : anti D h (fun d => pxor (f d) (g d)) = xorb (anti D h f) (anti D h g).
Proof. rewrite anti_comm, anti_xor_l, (anti_comm D f h), (anti_comm D g h). auto. Qed.
Lemma anti_terms D f g f' g' : (forall d, In d D -> sp (f d) (g d) = sp (f' d) (g' d)) -> anti D f g = anti D f' g'.
Proof. intros H. unfold anti. f_equal. apply map_ext_in. auto. Qed.
Lemma anti_zero D f g : (forall d, In d D -> sp (f d) (g d) = false) -> anti D f g = false.
Proof. intros H. unfold anti. induction D; cbn; auto. rewrite H, IHD; auto. intros; apply H; right; auto. left; auto. Qed.
Lemma symp_anti D f g : symp (map f D) (map g D) = anti D f g.
Proof.
  unfold anti. induction D; cbn; auto. rewrite IHD. unfold sp. destruct (f a), (g a); auto.
Qed.
Lemma anti_filter D p f g : (forall d, In d D -> p d = false -> sp (f d) (g d) = false) -> anti (filter p D) f g = anti D f g.
Proof.
  intros H. unfold anti. induction D as [|d D IH]; cbn; auto. destruct (p d) eqn:P; cbn; rewrite IH by (intros; apply H; auto; right; auto); auto.
  rewrite (H d (in_eq _ _) P), xorb_false_l. reflexivity.
Qed.

(** * pw *)
Lemma pw_edge l e : consistent l -> In e (l_edges l) -> pw l (e_op e) (e_data e) = fbits (e_factor e).
Proof.
  intros C I. unfold pw. destruct (find _ (l_edges l)) as [e'|] eqn:F.
  - apply find_some in F as [I' J]. rewrite (edge_unique l e' e); auto. apply joins_ends in J. rewrite J. auto.
  - exfalso. apply (find_none _ _ F) in I. rewrite !Nat.eqb_refl in I. discriminate.
Qed.
Lemma pw_none l o d : (forall e, In e (l_edges l) -> ends e <> (o, d)) -> pw l o d = (false, false).
Proof.
  intros H. unfold pw. destruct (find _ _) as [e|] eqn:F; auto. apply find_some in F as [I J]. exfalso. apply (H e I).
  apply joins_ends; auto.
Qed.
Lemma fbits_nonzero f : fbits f <> (false, false).
Proof. destruct f; discriminate. Qed.
Lemma pw_cases l o d : consistent l -> (pw l o d = (false, false) /\ forall e, In e (l_edges l) -> ends e <> (o, d)) \/
  exists e, In e (l_edges l) /\ ends e = (o, d) /\ pw l o d = fbits (e_factor e).
Proof.
  intros C. destruct (find (joins o d) (l_edges l)) as [e|] eqn:F.
  - right. pose proof (find_some _ _ F) as [I J]. apply joins_ends in J. exists e. repeat split; auto.
    rewrite <- (pw_edge l e) by auto. unfold ends in J. injection J as -> ->. auto.
  - left. assert (H : forall e, In e (l_edges l) -> ends e <> (o, d)).
    { intros e I E. apply (find_none _ _ F) in I. apply joins_ends in E. congruence. }
    split; auto. apply pw_none; auto.
Qed.
Lemma pw_nonzero l o d : consistent l -> pw l o d <> (false, false) -> exists e, In e (l_edges l) /\ ends e = (o, d) /\ pw l o d = fbits (e_factor e).
Proof. intros C N. destruct (pw_cases l o d C) as [[A _]|H]; auto. contradiction. Qed.

(** * Operator strings *)
Lemma letter_name f : letter_arr (fbits f) = factor_name f.
Proof. destruct f; reflexivity. Qed.
Lemma sol_app a b : string_of_list (a ++ b) = (string_of_list a ++ string_of_list b)%string.
Proof. induction a; cbn; auto. rewrite IHa. auto. Qed.
Lemma pad_I_list k : pad_I k = string_of_list (map letter_arr (repeat (false, false) k)).
Proof. induction k; cbn; auto. rewrite IHk. auto. Qed.
Lemma append_nil_r s : (s ++ "")%string = s.
Proof. induction s; cbn; auto. rewrite IHs. auto. Qed.

Lemma insert_nat_in x y l : In y (insert_nat x l) <-> y = x \/ In y l.
Proof. induction l; cbn. intuition. destruct (x <=? a); cbn; rewrite ?IHl; intuition. Qed.
Lemma sort_nat_in l y : In y (sort_nat l) <-> In y l.
Proof. induction l; cbn; [tauto|]. rewrite insert_nat_in. intuition. Qed.
Fixpoint increasing (b : nat) (l : list nat) : Prop := match l with [] => True | x :: l' => b <= x /\ increasing (S x) l' end.
Lemma increasing_weaken l : forall b b', b' <= b -> increasing b l -> increasing b' l.
Proof. destruct l; cbn; intros; auto. intuition lia. Qed.
Lemma insert_increasing x l : forall b, b <= x -> ~ In x l -> increasing b l -> increasing b (insert_nat x l).
Proof.
  induction l as [|y l IH]; intros b B N I; cbn in *. auto.
  destruct (Nat.leb_spec x y); cbn.
  - split; [auto|]. assert (x <> y) by auto. split; [lia|tauto].
  - split; [tauto|]. apply IH; try lia; tauto.
Qed.
Lemma sort_increasing l : NoDup l -> increasing 0 (sort_nat l).
Proof.
  induction 1; cbn; auto. apply insert_increasing; auto; try lia. rewrite sort_nat_in. auto.
Qed.

(** The bits of one dictionary entry. *)
Definition dbits (d : pdict) (q : nat) : bool * bool := match dict_get d q with Some v => (in_XY v, in_ZY v) | None => (false, false) end.
Lemma op_string_from d ks : (forall q, In q ks -> exists f, dict_get d q = Some (String (factor_name f) "")) ->
  forall o, increasing (List.length o) ks ->
  exists o', fold_left (op_string_step d) ks (string_of_list (map letter_arr o)) = string_of_list (map letter_arr o') /\
    (forall q, nth q o' (false, false) = if q <? List.length o then nth q o (false, false) else if memb q ks then dbits d q else (false, false)) /\
    List.length o' = fold_left (fun _ k => S k) ks (List.length o).
Proof.
  induction ks as [|k ks IH]; intros H o I; cbn [fold_left].
  - exists o. split; auto. split; auto. intros q. destruct (Nat.ltb_spec q (List.length o)); auto. apply nth_overflow; auto.
  - cbn in I. destruct I as [I1 I2].
    destruct (H k (or_introl eq_refl)) as [f Ef].
    assert (S1 : op_string_step d (string_of_list (map letter_arr o)) k =
                 string_of_list (map letter_arr (o ++ repeat (false, false) (k - List.length o) ++ [fbits f]))).
    { unfold op_string_step. cbv zeta. rewrite sol_length, map_length, Ef. rewrite Nat.min_l by auto.
      rewrite !map_app, !sol_app. f_equal. rewrite pad_I_list. f_equal. cbn. rewrite letter_name. auto. }
    rewrite S1. set (o1 := o ++ repeat (false, false) (k - List.length o) ++ [fbits f]).
    assert (L1 : List.length o1 = S k) by (unfold o1; rewrite !app_length, repeat_length; cbn; lia).
    destruct (IH ltac:(intros; apply H; right; auto) o1) as (o' & E1 & E2 & E3).
    { rewrite L1. auto. }
    exists o'. split; auto. rewrite L1 in *. split; [|auto].
    intros q. rewrite E2. cbn [memb existsb]. fold (memb q ks).
    destruct (Nat.ltb_spec q (S k)) as [Lq|Lq]; destruct (Nat.ltb_spec q (List.length o)) as [Lo|Lo]; try lia.
    + unfold o1. rewrite app_nth1 by auto. auto.
    + unfold o1. rewrite app_nth2 by auto. destruct (Nat.eqb_spec q k) as [->|Nq].
      * cbn [orb]. rewrite app_nth2; rewrite repeat_length; [|lia]. rewrite Nat.sub_diag. cbn. unfold dbits. rewrite Ef. destruct f; reflexivity.
      * rewrite app_nth1 by (rewrite repeat_length; lia). rewrite nth_repeat.
        cbn [orb]. assert (~ In q ks).
        { intros J. assert (X : forall l b, increasing b l -> In q l -> b <= q) by (induction l; cbn; [tauto|]; intros b [? ?] [->|?]; auto; apply IHl in H1; auto; lia).
          apply (X _ _ I2) in J. lia. }
        apply memb_notIn in H0. rewrite H0. auto.
    + destruct (Nat.eqb_spec q k); [lia|]. auto.
Qed.
Lemma fold_last_bound ks : forall n b, increasing b ks -> (forall k, In k ks -> k < n) -> b <= n -> fold_left (fun _ k => S k) ks b <= n.
Proof.
  induction ks; cbn; intros; auto. apply IHks. tauto. intros; apply H0; auto. apply H0; auto.
Qed.
Lemma string_to_pauli_letters o m : o <> [] ->
  string_to_pauli (string_of_list (map letter_arr o)) m =
  if existsb nonid o
  then Ok (mkRow (resize (max (match m with Some n => n | None => 0 end) (List.length o)) o) false)
  else Err ValueError.
Proof.
  intros NE. set (body := string_of_list (map letter_arr o)). unfold string_to_pauli.
  assert (R1 : remove_char " " body = body).
  { apply remove_none. apply sol_chars. intros p; destruct (letter_facts _ (letter_is_letter p)) as (-> & _); auto. }
  assert (R2 : remove_char "_" body = body).
  { apply remove_none. apply sol_chars. intros p; destruct (letter_facts _ (letter_is_letter p)) as (_ & -> & _); auto. }
  cbv zeta. rewrite R1, R2. unfold body at 1. rewrite sol_nodigit.
  assert (E : canon_dict 0 body = pauli_to_dict (mkRow o false)) by apply canon_dict_letters.
  assert (L : String.length body = List.length o) by (unfold body; rewrite sol_length, map_length; auto).
  assert (exists a s, body = String a s /\ is_sign a = false) as (a & s & B & Sa).
  { destruct o as [|p o]; [congruence|]. eexists _, _. split; [reflexivity|]. apply letter_facts, letter_is_letter. }
  rewrite B, Sa, <- B, E, L.
  destruct (existsb nonid o) eqn:NI.
  - rewrite (dict_round (mkRow o false)); auto. apply Nat.le_max_r.
  - rewrite dict_err; auto.
Qed.

(** * The operator of a vertex *)
Definition op_bits (l : lattice) (o : nat) : list (bool * bool) := map (pw l o) (l_data l).
Definition op_row (l : lattice) (o : nat) : row := mkRow (op_bits l o) false.

Lemma op_dict_fold l es : forall d,
  (forall e, In e es -> exists q, v_index (l_heap l (e_data e)) = Some q) ->
  NoDup (map fst d ++ map (fun e => match v_index (l_heap l (e_data e)) with Some q => q | None => 0 end) es) ->
  foldR (op_dict_step l) es d = Ok (d ++ map (fun e => (match v_index (l_heap l (e_data e)) with Some q => q | None => 0 end, String (factor_name (e_factor e)) "")) es).
Proof.
  induction es as [|e es IH]; intros d H ND; cbn [foldR map].
  - rewrite app_nil_r. auto.
  - unfold op_dict_step at 1. destruct (H e (or_introl eq_refl)) as [q E]. rewrite E. cbn [bindR].
    cbn [map] in ND. rewrite E in ND.
    rewrite dict_set_fresh.
    + rewrite IH. rewrite <- app_assoc. auto. intros; apply H; right; auto.
      rewrite map_app. cbn [map fst]. rewrite <- app_assoc. auto.
    + apply NoDup_remove_2 in ND. rewrite in_app_iff in ND. tauto.
Qed.
Lemma dict_get_unique d q v : NoDup (map fst d) -> In (q, v) d -> dict_get d q = Some v.
Proof.
  induction d as [|[k w] d IH]; cbn; [tauto|]. intros ND. inversion ND; subst. intros [E|I].
  - injection E as -> ->. rewrite Nat.eqb_refl. auto.
  - destruct (Nat.eqb_spec k q); auto. subst. exfalso. apply H1. apply (in_map fst) in I. auto.
Qed.
Lemma nodup_op_data l i : consistent l -> In i (l_operators l) -> NoDup (map e_data (v_edges (l_heap l i))).
Proof.
  intros C Q. rewrite op_edges by auto.
  assert (ND := cons_simple _ C). induction (l_edges l) as [|e es IH]; cbn in *; [constructor|]. inversion ND; subst.
  destruct (Nat.eqb_spec (e_op e) i); cbn; auto. constructor; auto. intros I. apply H1.
  apply in_map_iff in I as (x & E & I). apply filter_In in I as [I T]. apply Nat.eqb_eq in T.
  apply in_map_iff. exists x. unfold ends. split; auto. congruence.
Qed.
Lemma data_index l d : consistent l -> indexed l -> In d (l_data l) ->
  exists k, v_index (l_heap l d) = Some k /\ nth_error (l_data l) k = Some d /\ k < List.length (l_data l).
Proof.
  intros C X I. apply In_nth_error in I as [k E]. exists k. destruct X as [X _]. repeat split; auto. apply nth_error_Some. congruence.
Qed.

Lemma vertex_operator_ok l i : consistent l -> indexed l -> In i (l_operators l) -> v_edges (l_heap l i) <> [] ->
  vertex_operator l (List.length (l_data l)) i = Ok (op_row l i).
Proof.
  intros C X O NE. unfold vertex_operator.
  set (es := v_edges (l_heap l i)) in *. set (ix := fun e => match v_index (l_heap l (e_data e)) with Some q => q | None => 0 end).
  assert (HD : forall e, In e es -> In (e_data e) (l_data l)) by (intros e I; eapply v_edges_data; eauto).
  assert (HI : forall e, In e es -> nth_error (l_data l) (ix e) = Some (e_data e) /\ v_index (l_heap l (e_data e)) = Some (ix e) /\ ix e < List.length (l_data l)).
  { intros e I. destruct (data_index l (e_data e) C X (HD e I)) as (k & A & B & D). unfold ix. rewrite A. auto. }
  assert (ND : NoDup (map ix es)).
  { pose proof (nodup_op_data l i C O) as N. fold es in N.
    assert (inj : forall a b, In a es -> In b es -> ix a = ix b -> e_data a = e_data b).
    { intros a b Ia Ib E. destruct (HI a Ia) as (A & _), (HI b Ib) as (B & _). congruence. }
    clear - N inj. induction es as [|e es IH]; cbn in *; [constructor|]. inversion N; subst. constructor; [|apply IH; auto].
    intros I. apply in_map_iff in I as (x & E & I). apply H1. rewrite <- (inj x e); auto. apply in_map; auto. }
  rewrite op_dict_fold; [| |exact ND].
  2:{ intros e I. exists (ix e). apply HI; auto. }
  set (d := map (fun e => (ix e, String (factor_name (e_factor e)) "")) es).
  cbn [app bindR]. match goal with |- string_to_pauli (op_string ?D) _ = _ => change D with d end.
  assert (Kd : map fst d = map ix es) by (unfold d; rewrite map_map; auto).
  assert (Gd : forall e, In e es -> dict_get d (ix e) = Some (String (factor_name (e_factor e)) "")).
  { intros e I. apply dict_get_unique. rewrite Kd; auto. unfold d. apply in_map_iff. exists e; auto. }
  destruct (op_string_from d (sort_nat (map fst d))) with (o := @nil (bool * bool)) as (o & E1 & E2 & E3).
  { intros q. rewrite sort_nat_in, Kd. intros I. apply in_map_iff in I as (e & <- & I). exists (e_factor e). auto. }
  { apply sort_increasing. rewrite Kd. auto. }
  unfold op_string. cbn [map string_of_list List.length] in E1, E3. rewrite E1.
  assert (Lo : List.length o <= List.length (l_data l)).
  { rewrite E3. apply fold_last_bound; [apply sort_increasing; rewrite Kd; auto| |cbn; lia].
    intros k. rewrite sort_nat_in, Kd. intros I. apply in_map_iff in I as (e & <- & I). apply HI; auto. }
  assert (N : forall q, nth q o (false, false) = dbits d q).
  { intros q. rewrite E2. cbn [List.length]. destruct (memb q (sort_nat (map fst d))) eqn:M; auto.
    apply memb_notIn in M. rewrite sort_nat_in in M. unfold dbits. rewrite dict_get_none; auto. }
  assert (P : forall k x, nth_error (l_data l) k = Some x -> dbits d k = pw l i x).
  { intros k x E. destruct (pw_cases l i x C) as [[-> A]|(e & I & J & ->)].
    - unfold dbits. rewrite dict_get_none; auto. rewrite Kd. intros I. apply in_map_iff in I as (e & E' & I).
      destruct (HI e I) as (B & _). rewrite E', E in B. injection B as ->.
      apply (A e). apply v_edges_in in I; tauto. unfold es in I. rewrite op_edges in I by auto. apply filter_In in I as [_ I]. apply Nat.eqb_eq in I.
      unfold ends. congruence.
    - unfold ends in J. injection J as J1 J2.
      assert (Ie : In e es) by (unfold es; rewrite op_edges by auto; apply filter_In; split; auto; apply Nat.eqb_eq; auto).
      destruct (HI e Ie) as (B & _ & D).
      assert (k = ix e).
      { apply (NoDup_nth_error (l_data l)); auto. apply nodup_data; auto. apply nth_error_Some; congruence. congruence. }
      subst k. unfold dbits. rewrite Gd by auto. destruct (e_factor e); reflexivity. }
  destruct es as [|e0 es'] eqn:Ees; [congruence|].
  destruct (HI e0 (or_introl eq_refl)) as (B0 & _ & D0).
  assert (NE0 : nth (ix e0) o (false, false) = fbits (e_factor e0)).
  { rewrite N. unfold dbits. rewrite Gd by (left; auto). destruct (e_factor e0); reflexivity. }
  assert (Lx : ix e0 < List.length o).
  { destruct (Nat.ltb_spec (ix e0) (List.length o)); auto. rewrite nth_overflow in NE0 by auto. symmetry in NE0. apply fbits_nonzero in NE0. tauto. }
  rewrite string_to_pauli_letters by (intros ->; cbn in Lx; lia).
  replace (existsb nonid o) with true.
  2:{ symmetry. apply existsb_exists. exists (nth (ix e0) o (false, false)). split. apply nth_In; auto. rewrite NE0. destruct (e_factor e0); reflexivity. }
  rewrite Nat.max_l by auto. unfold op_row, op_bits. f_equal. f_equal.
  apply (nth_ext _ _ (false, false) (false, false)).
  - rewrite app_length, repeat_length, map_length. lia.
  - intros k Hk. rewrite app_length, repeat_length in Hk.
    assert (Hk' : k < List.length (l_data l)) by lia.
    destruct (nth_error (l_data l) k) as [x|] eqn:Ex; [|apply nth_error_None in Ex; lia].
    rewrite (nth_indep (map (pw l i) (l_data l)) _ (pw l i 0)) by (rewrite map_length; auto). rewrite map_nth.
    rewrite (nth_error_nth _ _ 0 Ex). rewrite <- (P k x Ex), <- N.
    destruct (Nat.ltb_spec k (List.length o)).
    + rewrite app_nth1; auto.
    + rewrite app_nth2, nth_repeat by auto. rewrite nth_overflow; auto.
Qed.
Lemma vertex_operator_empty l n i : v_edges (l_heap l i) = [] -> vertex_operator l n i = Err IndexError.
Proof. intros E. unfold vertex_operator. rewrite E. reflexivity. Qed.

Lemma vertices_to_operators_ok l os : consistent l -> indexed l -> (forall i, In i os -> In i (l_operators l) /\ v_edges (l_heap l i) <> []) ->
  vertices_to_operators l os (List.length (l_data l)) = Ok (map (op_row l) os).
Proof.
  intros C X. unfold vertices_to_operators. induction os; intros H; cbn; auto.
  destruct (H a (or_introl eq_refl)). rewrite vertex_operator_ok by auto. cbn. rewrite IHos; auto. intros; apply H; right; auto.
Qed.
