(** Lemmas: lattices made from lists of operators (CodeLatticeFromStab) carry these operators. *)
Require Import List Bool Arith ZArith Lia String Ascii.
From Verif Require Import Base BaseProofs PauliModel CircuitModel PauliTextModel PauliTextProofs LatticeModel LatticeSpec LatticeProofs LatticeOps CodesModel CodesSpec
  BuildProofs CodesProofs GeneratorModel GeneratorSpec RoundProofs LatticeEdit ExperimentCodes.
Import ListNotations.
Local Open Scope string_scope.
Local Open Scope nat_scope.
Local Open Scope list_scope.

(** A word with optional sign. *)
Definition word (o : list (bool * bool)) : string := string_of_list (map letter_arr o).
Definition spells (s : string) (o : list (bool * bool)) : Prop := s = word o \/ s = ("+" ++ word o)%string \/ s = ("-" ++ word o)%string.
Definition bfactor (b : bool * bool) : factor := match b with (true, true) => FY | (true, false) => FX | _ => FZ end.
Fixpoint word_edges (op q : nat) (o : list (bool * bool)) : list (nat * pos * factor) :=
  match o with
  | [] => []
  | b :: o' => (if nonid b then [(op, (Z.of_nat q, 1%Z), bfactor b)] else []) ++ word_edges op (S q) o'
  end.
Lemma in_word_edges op o : forall q t, In t (word_edges op q o) <-> exists i b, nth_error o i = Some b /\ nonid b = true /\ t = (op, (Z.of_nat (q + i), 1%Z), bfactor b).
Proof.
  induction o as [|b o IH]; intros q t; cbn [word_edges].
  - split; [intros []|]. intros ([|i] & b & E & _); discriminate.
  - rewrite in_app_iff, IH. split.
    + intros [I|(i & c & E & N & ->)].
      * destruct (nonid b) eqn:N; [|destruct I]. destruct I as [<-|[]]. exists 0, b. rewrite Nat.add_0_r. auto.
      * exists (S i), c. conjs; auto. f_equal. f_equal. f_equal. lia.
    + intros ([|i] & c & E & N & ->); cbn in E.
      * injection E as ->. left. rewrite N. left. rewrite Nat.add_0_r. auto.
      * right. exists i, c. conjs; auto. f_equal. f_equal. f_equal. lia.
Qed.
Lemma nodup_word_edges op o : forall q, NoDup (map fst (word_edges op q o)).
Proof.
  induction o as [|b o IH]; intros q; cbn [word_edges]; [constructor|]. destruct (nonid b); cbn [app map]; auto. constructor; auto.
  intros I. apply in_map_iff in I as (t & E & I). apply in_word_edges in I as (i & c & _ & _ & ->). cbn [fst] in E. injection E as E. lia.
Qed.
Lemma draws_letters vs op o : forall q, draws vs (edges_from_letters q (word o) op) (word_edges op q o).
Proof.
  induction o as [|b o IH]; intros q; [apply draws_skip|]. unfold word. cbn [map string_of_list edges_from_letters word_edges]. fold (word o).
  apply draws_seq; auto. destruct (nonid b) eqn:N.
  - apply (draws_built vs _ (edge_to (Z.of_nat q, 1%Z) op (bfactor b))); [|apply draws_one]. intros sh es l _. destruct b as [[] []]; try discriminate; cbn [letter_arr Ascii.eqb Bool.eqb];
    unfold edge_to at 2; destruct (lookup l _) eqn:E; cbn [factor_of_name Ascii.eqb Bool.eqb bfactor]; unfold factor_of_name; cbn [Ascii.eqb Bool.eqb]; unfold edge_to; rewrite ?E; auto.
  - destruct b as [[] []]; try discriminate. apply draws_skip.
Qed.
Lemma word_length o : String.length (word o) = List.length o.
Proof. unfold word. induction o; cbn; auto. Qed.
Lemma draws_text vs n op s o : 0 < n -> spells s o -> List.length o = n -> draws vs (add_edges_from_str n op s) (word_edges op 0 o).
Proof.
  intros P S L. assert (D := draws_letters vs op o 0).
  assert (W : word o = "" -> False) by (intros E; apply (f_equal String.length) in E; rewrite word_length in E; cbn in E; lia).
  destruct S as [->|[->| ->]].
  - unfold add_edges_from_str. destruct o as [|b o]; [cbn in L; lia|]. assert (Wl := word_length (b :: o)). unfold word in *. cbn [map string_of_list] in *.
    destruct (letter_facts (letter_arr b) (letter_is_letter b)) as (_ & _ & _ & ->). rewrite Wl, L, Nat.eqb_refl. auto.
  - unfold add_edges_from_str. cbn [String.append is_sign]. unfold is_sign. cbn [Ascii.eqb Bool.eqb orb]. rewrite word_length, L, Nat.eqb_refl. auto.
  - unfold add_edges_from_str. cbn [String.append is_sign]. unfold is_sign. cbn [Ascii.eqb Bool.eqb orb]. rewrite word_length, L, Nat.eqb_refl. auto.
Qed.

(** A loop which adds operators with their edges.  [items] are kind, position, text and word. *)
Definition item := (kind * pos * (string * list (bool * bool)))%type.
Definition add_item (n : nat) (x : item) : eff := fun l =>
  let i := l_next l in (seqE (add_vertex (fst (fst x)) (snd (fst x))) (add_edges_from_str n i (fst (snd x)))) l.
Definition item_edges (ix : nat * item) : list (nat * pos * factor) := word_edges (fst ix) 0 (snd (snd (snd ix))).
Lemma items_loop sh n xs : 0 < n -> forall vs es, (forall q, q < n -> In (KData, (Z.of_nat q, 1%Z)) vs) ->
  NoDup (map snd (vs ++ map fst xs)) -> (forall x, In x xs -> inside sh (snd (fst x)) /\ fst (fst x) <> KData /\ spells (fst (snd x)) (snd (snd x)) /\ List.length (snd (snd x)) = n) ->
  (forall t, In t es -> fst (fst t) < List.length vs) -> NoDup (map fst es) ->
  runs sh (forE (add_item n) xs) vs es (vs ++ map fst xs) (es ++ flat_map item_edges (enumerate_from (List.length vs) xs)).
Proof.
  intros P. induction xs as [|x xs IH]; intros vs es D N I K KN.
  - cbn. rewrite !List.app_nil_r. apply runs_skip.
  - cbn [forE map enumerate_from flat_map]. destruct (I x (or_introl eq_refl)) as (I1 & I2 & I3 & I4).
    destruct x as [[k p] [s o]]. cbn [fst snd] in *.
    set (vs1 := vs ++ [(k, p)]). set (es1 := es ++ word_edges (List.length vs) 0 o).
    assert (KN1 : NoDup (map fst es1)).
    { unfold es1. rewrite map_app. apply NoDup_app3; auto. apply nodup_word_edges.
      intros t A B. apply in_map_iff in A as (t' & <- & A). apply K in A. apply in_map_iff in B as (t'' & E & B). apply in_word_edges in B as (? & ? & _ & _ & ->). rewrite <- E in A. cbn [fst] in A. lia. }
    assert (Q : nth_error vs1 (List.length vs) = Some (k, p)) by (unfold vs1; rewrite nth_error_app2, Nat.sub_diag; auto).
    eapply runs_seq.
    { apply (runs_with sh k p (fun i => add_edges_from_str n i s) vs es vs1 es1); auto.
      - rewrite map_app in N. cbn [map snd fst] in N. apply NoDup_remove_2 in N. rewrite in_app_iff in N. tauto.
      - apply (draws_text _ n _ s o P I3 I4); auto. intros t T. apply in_word_edges in T as (i & b & E & _ & ->). cbn [Nat.add]. split; cbn [fst snd].
        + apply in_app_iff. left. apply D. rewrite <- I4. apply nth_error_Some. congruence.
        + eauto. }
    replace (vs ++ (k, p) :: map fst xs) with (vs1 ++ map fst xs) by (unfold vs1; rewrite <- app_assoc; auto).
    unfold item_edges at 1. cbn [fst snd]. rewrite app_assoc. fold es1. replace (S (List.length vs)) with (List.length vs1) by (unfold vs1; rewrite app_length; cbn; lia).
    apply IH; auto.
    + intros q L. apply in_app_iff. auto.
    + unfold vs1. rewrite <- app_assoc. auto.
    + intros y Y. apply I. right; auto.
    + intros t T. unfold vs1. rewrite app_length. cbn [List.length]. unfold es1 in T. apply in_app_iff in T as [T|T]; [apply K in T; lia|].
      apply in_word_edges in T as (? & ? & _ & _ & ->). cbn [fst]. lia.
Qed.

Definition fdata (n : nat) : list (kind * pos) := map (fun i => (KData, (Z.of_nat i, 1%Z))) (seq 0 n).
Definition fstabs (S : list (string * list (bool * bool))) : list item := map (fun ix => (KStab GU, (Z.of_nat (fst ix), 0%Z), snd ix)) (enumerate_from 0 S).
Definition flogs (L : list (string * list (bool * bool))) : list item := map (fun ix => (KLogical (logical_name (fst ix)), (Z.of_nat (fst ix), 2%Z), snd ix)) (enumerate_from 0 L).
Definition fitems S L := fstabs S ++ flogs L.
Definition fvs n S L := fdata n ++ map fst (fitems S L).
Definition fes n S L := flat_map item_edges (enumerate_from n (fitems S L)).
Definition texts (n : nat) (S : list (string * list (bool * bool))) : Prop := List.length S <= n /\ forall x, In x S -> spells (fst x) (snd x) /\ List.length (snd x) = n.
Lemma in_enumerate0 {A} (l : list A) i a : In (i, a) (enumerate_from 0 l) <-> nth_error l i = Some a.
Proof. rewrite enumerate_nth. split. intros (k & -> & E); auto. intros; exists i; auto. Qed.
Lemma nodup_col {A} (col : Z) (l : list A) : (NoDup (map (fun ix => (Z.of_nat (fst ix), col)) (enumerate_from 0 l))).
Proof.
  rewrite <- (map_map fst (fun i => (Z.of_nat i, col))), map_fst_enumerate. apply FinFun.Injective_map_NoDup. intros a b E. injection E. lia. apply seq_NoDup.
Qed.
Lemma nodup_fvs n S L : NoDup (map snd (fvs n S L)).
Proof.
  unfold fvs, fitems, fdata, fstabs, flogs. rewrite !map_app, !map_map. cbn [fst snd]. apply NoDup_app3; [|apply NoDup_app3|].
  - apply FinFun.Injective_map_NoDup. intros a b E. injection E. lia. apply seq_NoDup.
  - apply nodup_col.
  - apply nodup_col.
  - intros x A B. apply in_map_iff in A as (? & <- & _). apply in_map_iff in B as (? & E & _). discriminate.
  - intros x A B. apply in_map_iff in A as (? & <- & _). apply in_app_iff in B as [B|B]; apply in_map_iff in B as (? & E & _); discriminate.
Qed.
Lemma forE_map {A B} (f : A -> B) (g : B -> eff) xs : forE g (map f xs) = forE (fun x => g (f x)) xs.
Proof. induction xs; cbn; auto. rewrite IHxs. auto. Qed.
Lemma enumerate_map {A B} (f : A -> B) l : forall n, enumerate_from n (map f l) = map (fun ix => (fst ix, f (snd ix))) (enumerate_from n l).
Proof. induction l; intros n; cbn; auto. rewrite IHl. auto. Qed.
Lemma forE_app {A} (g : A -> eff) xs ys l : forE g (xs ++ ys) l = seqE (forE g xs) (forE g ys) l.
Proof.
  revert l. induction xs as [|x xs IH]; intros l; cbn [app forE]; [reflexivity|]. unfold seqE in *. destruct (g x l) as [l1 [e|]]; auto.
Qed.
Lemma seq_assoc a b c l : seqE (seqE a b) c l = seqE a (seqE b c) l.
Proof. unfold seqE. destruct (a l) as [l1 [e|]]; auto. Qed.
Lemma from_stab_built n S L : 0 < n -> texts n S -> texts n L ->
  exists l, from_stab_lattice n (map fst S) (map fst L) = Ok l /\ built (Z.of_nat n, 3%Z) (fvs n S L) (fes n S L) l /\ indexed l.
Proof.
  intros P [S1 S2] [L1 L2]. unfold from_stab_lattice, construct. destruct (built_empty (Z.of_nat n, 3%Z)) as (l0 & -> & B0); cbn [fst snd]; try lia. cbn [bindR].
  unfold from_stab_body.
  assert (A1 : adds (forE (fun i => add_data (Z.of_nat i, 1%Z)) (seq 0 n)) (fdata n)).
  { unfold fdata. replace (map _ (seq 0 n)) with (flat_map (fun i => [(KData, (Z.of_nat i, 1%Z))]) (seq 0 n)) by (induction (seq 0 n); cbn; congruence). apply adds_for. intros. apply adds_one. }
  assert (N := nodup_fvs n S L).
  assert (LD : List.length (fdata n) = n) by (unfold fdata; rewrite map_length, seq_length; auto).
  destruct (A1 (Z.of_nat n, 3%Z) [] []) with (l := l0) as (l1 & E1 & B1); auto.
  { cbn [app]. unfold fvs in N. rewrite map_app in N. apply nodup_app_l in N. auto. }
  { intros w W. apply in_map_iff in W as (i & <- & I). apply in_seq in I. unfold inside. cbn [fst snd]. lia. }
  rewrite (seq_step _ _ _ l1 E1). cbn [app] in B1.
  destruct (items_loop (Z.of_nat n, 3%Z) n (fitems S L) P (fdata n) []) with (l := l1) as (l2 & E2 & B2); auto.
  { intros q Q. apply in_map_iff. exists q. split; auto. apply in_seq. lia. }
  { intros x I. apply in_app_iff in I as [I|I]; apply in_map_iff in I as ([i y] & <- & I); apply in_enumerate0 in I; cbn [fst snd].
    - assert (i < List.length S) by (apply nth_error_Some; congruence). apply nth_error_In in I. destruct (S2 _ I). conjs; auto; [unfold inside; cbn [fst snd]; lia|discriminate].
    - assert (i < List.length L) by (apply nth_error_Some; congruence). apply nth_error_In in I. destruct (L2 _ I). conjs; auto; [unfold inside; cbn [fst snd]; lia|discriminate]. }
  { intros t []. } { constructor. }
  cbn [app] in B2. replace (flat_map item_edges _) with (fes n S L) in B2 by (unfold fes; f_equal; f_equal; symmetry; exact LD). fold (fvs n S L) in B2.
  exists (assign_indices l2). destruct (runs_indices _ _ _ _ B2) as (B3 & X & _). split; auto.
  unfold fitems, fstabs, flogs in E2. rewrite forE_app, !forE_map in E2. rewrite !enumerate_map, !forE_map. rewrite <- seq_assoc. unfold seqE at 1.
  match goal with |- context [seqE ?a ?b l1] => replace (seqE a b l1) with (l2, @None exn) by (symmetry; exact E2) end. reflexivity.
Qed.
(** * The operators *)
Lemma in_fes n S L o q f : In (o, (Z.of_nat q, 1%Z), f) (fes n S L) <-> exists i x b, o = n + i /\ nth_error (fitems S L) i = Some x /\ nth_error (snd (snd x)) q = Some b /\ nonid b = true /\ f = bfactor b.
Proof.
  unfold fes. rewrite in_flat_map. split.
  - intros ([k x] & I & J). apply enumerate_nth in I as (i & -> & I). unfold item_edges in J. cbn [fst snd] in J. apply in_word_edges in J as (j & b & E & N & J). cbn [Nat.add] in J.
    injection J as -> J ->. assert (q = j) by lia. subst j. exists i, x, b. auto.
  - intros (i & x & b & -> & I & E & N & ->). exists (n + i, x). split. apply enumerate_nth; eauto. unfold item_edges. cbn [fst snd]. apply in_word_edges. exists q, b. auto.
Qed.
Lemma fdpos n S L : dpos (fvs n S L) = map (fun i => (Z.of_nat i, 1%Z)) (seq 0 n).
Proof.
  assert (G : forall vs : list (kind * pos), (forall x, In x vs -> isd x = false) -> filter isd vs = []).
  { induction vs as [|x vs IH]; intros H; cbn; auto. rewrite (H x (or_introl eq_refl)). apply IH. intros; apply H; right; auto. }
  unfold dpos, fvs. rewrite filter_app, (G (map fst (fitems S L))).
  - rewrite List.app_nil_r. unfold fdata. induction (seq 0 n); cbn [map filter isd fst snd]; auto; rewrite <- IHl; reflexivity.
  - intros x I. apply in_map_iff in I as (y & <- & I). apply in_app_iff in I as [I|I]; apply in_map_iff in I as (? & <- & _); reflexivity.
Qed.
Lemma bfactor_bits b : nonid b = true -> fbits (bfactor b) = b.
Proof. destruct b as [[] []]; cbn; auto; discriminate. Qed.
Lemma frow n S L i x : NoDup (map fst (fes n S L)) -> nth_error (fitems S L) i = Some x -> List.length (snd (snd x)) = n -> brow (fvs n S L) (fes n S L) (n + i) = mkRow (snd (snd x)) false.
Proof.
  intros N E Ln. unfold brow. f_equal. rewrite fdpos, map_map. apply (nth_ext _ _ (false, false) (false, false)). { rewrite map_length, seq_length; auto. }
  intros q Q. rewrite map_length, seq_length in Q.
  rewrite (nth_indep _ _ (BuildProofs.fac (fes n S L) (n + i) (Z.of_nat 0, 1%Z))) by (rewrite map_length, seq_length; auto).
  rewrite (map_nth (fun q => BuildProofs.fac (fes n S L) (n + i) (Z.of_nat q, 1%Z))), seq_nth by auto. cbn [Nat.add].
  destruct (nth_error (snd (snd x)) q) as [b|] eqn:B; [|apply nth_error_None in B; lia]. rewrite (nth_error_nth _ _ _ B).
  destruct (nonid b) eqn:Nb.
  - rewrite (fac_in _ _ _ (bfactor b)); auto. apply bfactor_bits; auto. apply in_fes. exists i, x, b. auto.
  - rewrite fac_out. destruct b as [[] []]; try discriminate; auto. intros f I. apply in_fes in I as (j & y & c & A & B' & C & Nc & _). assert (j = i) by lia. subst j. congruence.
Qed.
Lemma stab_ids_split a b c : (forall x, In x a -> iss x = false) -> (forall x, In x b -> iss x = true) -> (forall x, In x c -> iss x = false) ->
  stab_ids (a ++ b ++ c) = seq (List.length a) (List.length b).
Proof.
  intros A B C. unfold stab_ids, numbered.
  assert (G : forall (l : list (kind * pos)) (v : bool), (forall x, In x l -> iss x = v) -> forall n, map fst (filter (fun x => iss (snd x)) (enumerate_from n l)) = if v then seq n (List.length l) else []).
  { induction l as [|x l IH]; intros v H n; cbn; [destruct v; auto|]. rewrite (H x (or_introl eq_refl)). destruct v; cbn; rewrite (IH _ (fun y I => H y (or_intror I))); auto. }
  assert (E : forall (l l' : list (kind * pos)) n, enumerate_from n (l ++ l') = enumerate_from n l ++ enumerate_from (n + List.length l) l').
  { induction l; intros l' n; cbn. rewrite Nat.add_0_r; auto. rewrite IHl. f_equal. f_equal. f_equal. lia. }
  rewrite !E, !filter_app, !map_app, (G _ _ A), (G _ _ B), (G _ _ C). cbn. rewrite List.app_nil_r. auto.
Qed.
Lemma log_ids_split a b c : (forall x, In x a -> isl x = false) -> (forall x, In x b -> isl x = false) -> (forall x, In x c -> isl x = true) ->
  log_ids (a ++ b ++ c) = seq (List.length a + List.length b) (List.length c).
Proof.
  intros A B C. rewrite app_assoc, log_ids_app; auto. rewrite app_length. auto. intros x I. apply in_app_iff in I as [I|I]; auto.
Qed.
Lemma length_enumerate {A} (l : list A) n : List.length (enumerate_from n l) = List.length l.
Proof. revert n; induction l; intros; cbn; auto. Qed.
Lemma fids n S L : stab_ids (fvs n S L) = seq n (List.length S) /\ log_ids (fvs n S L) = seq (n + List.length S) (List.length L).
Proof.
  unfold fvs, fitems. rewrite map_app.
  assert (LD : List.length (fdata n) = n) by (unfold fdata; rewrite map_length, seq_length; auto).
  assert (LS : List.length (map fst (fstabs S)) = List.length S) by (unfold fstabs; rewrite !map_length, length_enumerate; auto).
  assert (LL : List.length (map fst (flogs L)) = List.length L) by (unfold flogs; rewrite !map_length, length_enumerate; auto).
  rewrite stab_ids_split, log_ids_split; [split; f_equal; [exact LD|exact LS|f_equal; [exact LD|exact LS]|exact LL]| | | | | |]; intros x I; unfold fdata, fstabs, flogs in I; rewrite ?map_map in I; apply in_map_iff in I as (? & <- & _); reflexivity.
Qed.
Lemma nth_fitems S L i : nth_error (fitems S L) i = if i <? List.length S then option_map (fun x => (KStab GU, (Z.of_nat i, 0%Z), x)) (nth_error S i)
  else option_map (fun x => (KLogical (logical_name (i - List.length S)), (Z.of_nat (i - List.length S), 2%Z), x)) (nth_error L (i - List.length S)).
Proof.
  assert (G : forall {A} (l : list A) n i, nth_error (enumerate_from n l) i = option_map (fun x => (n + i, x)) (nth_error l i)).
  { induction l; intros n [|j]; cbn; auto. rewrite Nat.add_0_r; auto. rewrite IHl. destruct (nth_error l j); cbn; auto. f_equal. f_equal. lia. }
  unfold fitems, fstabs, flogs. destruct (Nat.ltb_spec i (List.length S)).
  - rewrite nth_error_app1 by (rewrite map_length, length_enumerate; auto). rewrite nth_error_map, G. destruct (nth_error S i); auto.
  - rewrite nth_error_app2 by (rewrite map_length, length_enumerate; auto). rewrite map_length, length_enumerate, nth_error_map, G. destruct (nth_error L _); auto.
Qed.
Lemma map_seq_rows {A} (f : nat -> row) (l : list A) (g : A -> row) n : (forall i x, nth_error l i = Some x -> f (n + i) = g x) -> map f (seq n (List.length l)) = map g l.
Proof.
  revert n. induction l as [|a l IH]; intros n H; cbn; auto. f_equal. specialize (H 0 a eq_refl). rewrite Nat.add_0_r in H; auto.
  apply IH. intros i x E. rewrite <- (H (S i) x E). f_equal. lia.
Qed.
Lemma from_stab_code n S L k : 0 < n -> texts n S -> texts n L -> S <> [] -> List.length L = 2 * Datatypes.S k ->
  (forall x, In x S \/ In x L -> exists b, In b (snd x) /\ nonid b = true) ->
  exists l, from_stab_lattice n (map fst S) (map fst L) = Ok l /\ consistent l /\ indexed l /\
    from_codelattice l = Ok (mkStabcode (map (fun x => mkRow (snd x) false) S) (map (fun x => mkRow (snd x) false) L)) /\
    (forall e, In e (l_edges l) -> exists x b, (In x S \/ In x L) /\ In b (snd x) /\ e_factor e = bfactor b).
Proof.
  intros P TS TL NS EL ID. destruct (from_stab_built n S L P TS TL) as (l & E & B & X). exists l. split; auto. split; [apply B|]. split; auto.
  assert (N := built_keys _ _ _ _ B). destruct (fids n S L) as [I1 I2].
  assert (RS : map (brow (fvs n S L) (fes n S L)) (seq n (List.length S)) = map (fun x => mkRow (snd x) false) S).
  { apply map_seq_rows. intros i x H. rewrite (frow n S L i (KStab GU, (Z.of_nat i, 0%Z), x)); auto.
    - rewrite nth_fitems. replace (i <? List.length S) with true by (symmetry; apply Nat.ltb_lt, nth_error_Some; congruence). rewrite H; auto.
    - apply TS. eapply nth_error_In; eauto. }
  assert (RL : map (brow (fvs n S L) (fes n S L)) (seq (n + List.length S) (List.length L)) = map (fun x => mkRow (snd x) false) L).
  { apply map_seq_rows. intros i x H. rewrite <- Nat.add_assoc. rewrite (frow n S L (List.length S + i) (KLogical (logical_name i), (Z.of_nat i, 2%Z), x)); auto.
    - rewrite nth_fitems. replace (List.length S + i <? List.length S) with false by (symmetry; apply Nat.ltb_ge; lia). replace (List.length S + i - List.length S) with i by lia. rewrite H; auto.
    - apply TL. eapply nth_error_In; eauto. }
  split.
  - rewrite (built_from _ _ _ _ B X), I1, I2, RS, RL; auto.
    + rewrite I1, I2. intros o O.
      assert (exists i x, o = n + i /\ nth_error (fitems S L) i = Some x /\ (In (snd x) S \/ In (snd x) L)) as (i & x & -> & Q & Hx).
      { destruct O as [O|O]; apply in_seq in O.
        - destruct (nth_error S (o - n)) as [x|] eqn:H; [|apply nth_error_None in H; lia]. exists (o - n), (KStab GU, (Z.of_nat (o - n), 0%Z), x). conjs; [lia| |left; eapply nth_error_In; eauto].
          rewrite nth_fitems. replace (o - n <? List.length S) with true by (symmetry; apply Nat.ltb_lt; lia). rewrite H; auto.
        - destruct (nth_error L (o - n - List.length S)) as [x|] eqn:H; [|apply nth_error_None in H; lia]. eexists (o - n), (_, _, x). conjs; [lia| |right; eapply nth_error_In; eauto].
          rewrite nth_fitems. replace (o - n <? List.length S) with false by (symmetry; apply Nat.ltb_ge; lia). rewrite H; reflexivity. }
      destruct (ID _ Hx) as (b & Ib & Nb). apply In_nth_error in Ib as [q Ib]. exists (Z.of_nat q, 1%Z), (bfactor b). apply in_fes. exists i, x, b. auto.
    + rewrite I1. destruct S; [congruence|]. discriminate.
    + rewrite I2, seq_length. eauto.
  - intros e I. assert (K : In (ekey l e) (fes n S L)) by (rewrite <- (b_edges _ _ _ _ B); apply in_map; auto).
    unfold fes in K. apply in_flat_map in K as ([o x] & K1 & K2). apply enumerate_nth in K1 as (i & -> & K1). unfold item_edges in K2. cbn [fst snd] in K2.
    apply in_word_edges in K2 as (j & b & E1 & E2 & E3). unfold ekey in E3. injection E3 as _ _ E3. exists (snd x), b. conjs; auto; [|eapply nth_error_In; eauto].
    rewrite nth_fitems in K1. destruct (i <? List.length S).
    + destruct (nth_error S i) eqn:Q; [|discriminate]. injection K1 as <-. left. eapply nth_error_In; eauto.
    + destruct (nth_error L _) eqn:Q; [|discriminate]. injection K1 as <-. right. eapply nth_error_In; eauto.
Qed.

(** No schedule. *)
Lemma from_stab_steps n S L l : from_stab_lattice n S L = Ok l -> l_steps l = None.
Proof.
  set (Q := fun l => l_steps l = None).
  assert (A : forall k p, tri Q (add_vertex k p) Q).
  { intros k p l0 l1 E H. unfold add_vertex in E. destruct (lookup l0 p) as [[i|]|]; try discriminate. injection E as <-. unfold Q, assign_cell, append_by_kind in *. destruct k; cbn; destruct (cell_of _ p); cbn; auto. }
  assert (B : forall p o f, tri Q (edge_to p o f) Q).
  { intros p o f l0 l1 E H. unfold edge_to in E. destruct (lookup l0 p) as [[i|]|]; try discriminate. unfold add_edge, seqE, assertE, modify in E. destruct (negb _); [|discriminate]. destruct (negb _); [|discriminate]. injection E as <-. auto. }
  assert (C : forall s q o, tri Q (edges_from_letters q s o) Q).
  { induction s; intros q o; cbn [edges_from_letters]; [apply tri_skip|]. eapply tri_seq; eauto. apply tri_if; [apply tri_skip|]. intros l0 l1 E H. destruct (lookup l0 _); [|discriminate]. destruct (factor_of_name _); [|discriminate]. eapply B; eauto. }
  assert (D : forall o s, tri Q (add_edges_from_str n o s) Q).
  { intros o [|c s]; cbn [add_edges_from_str]. intros l0 l1 E; discriminate. cbv zeta. destruct (_ =? n); auto. intros l0 l1 E; discriminate. }
  intros E. unfold from_stab_lattice, construct in E. destruct (empty_lattice _) as [l0|] eqn:E0; [|discriminate]. cbn [bindR] in E. assert (H0 := proj1 (plain_empty _ _ E0)).
  destruct (from_stab_body n S L l0) as [l1 [x|]] eqn:E1; [discriminate|]. injection E as <-. apply (fun T : tri Q (from_stab_body n S L) Q => T l0 l1 E1 H0). clear l0 l1 E0 H0 E1.
  unfold from_stab_body. eapply tri_seq. { apply tri_for. intros; apply A. } eapply tri_seq. { apply tri_for. intros ix _. apply tri_with; auto. } eapply tri_seq. { apply tri_for. intros ix _. apply tri_with; auto. }
  intros l0 l1 E H. injection E as <-. unfold Q. rewrite (proj1 (proj2 (indices_same l0))). auto.
Qed.

(** * Codes from operators *)
Definition unsigned (r : row) : row := mkRow (ops r) false.
Lemma spells_row r : spells (pauli_to_string r true) (ops r).
Proof. unfold spells, pauli_to_string, word. cbv zeta. destruct (neg r); auto. Qed.
Definition texted (r : row) : string * list (bool * bool) := (pauli_to_string r true, ops r).
Lemma texted_texts n S : List.length S <= n -> (forall r, In r S -> List.length (ops r) = n) -> texts n (map texted S).
Proof. intros A B. split; [rewrite map_length; auto|]. intros x I. apply in_map_iff in I as (r & <- & I). cbn [texted fst snd]. split; auto. apply spells_row. Qed.
Lemma from_operators_ok n S L k r : 0 < n -> S <> [] -> List.length S <= n -> List.length L <= n -> List.length L = 2 * Datatypes.S k ->
  (forall x, In x S \/ In x L -> List.length (ops x) = n /\ exists b, In b (ops x) /\ nonid b = true) ->
  exists l, from_operators S L r = Ok (mkCode (mkStabcode (map unsigned S) (map unsigned L)) l r) /\ consistent l /\ indexed l /\ l_steps l = None /\
    from_codelattice l = Ok (mkStabcode (map unsigned S) (map unsigned L)) /\
    (forall e, In e (l_edges l) -> exists x b, (In x S \/ In x L) /\ In b (ops x) /\ e_factor e = bfactor b).
Proof.
  intros P NS LS LL EL H. destruct (from_stab_code n (map texted S) (map texted L) k) as (l & E & C & X & F & Ed); auto.
  - apply texted_texts; auto. intros; apply H; auto.
  - apply texted_texts; auto. intros; apply H; auto.
  - destruct S; [congruence|discriminate].
  - rewrite map_length. auto.
  - intros x [I|I]; apply in_map_iff in I as (y & <- & I); apply H; auto.
  - rewrite !map_map in E, F. cbn [texted fst snd] in E, F. exists l. conjs; auto.
    + unfold from_operators. destruct S as [|s S]; [congruence|]. replace (List.length (ops s)) with n by (symmetry; apply H; left; left; auto).
      unfold make_code. match goal with |- bindR ?x _ = _ => replace x with (Ok l) by (symmetry; exact E) end. cbn [bindR]. match goal with |- bindR ?x _ = _ => replace x with (Ok (mkStabcode (map unsigned (s :: S)) (map unsigned L))) by (symmetry; exact F) end. reflexivity.
    + eapply from_stab_steps; eauto.
    + intros e I. destruct (Ed e I) as (x & b & Hx & Hb & Q). rewrite !in_map_iff in Hx. destruct Hx as [(y & <- & Hy)|(y & <- & Hy)]; exists y, b; auto.
Qed.
Lemma bfactor_Y b : bfactor b = FY -> b = (true, true).
Proof. destruct b as [[] []]; cbn; auto; discriminate. Qed.
Lemma from_operators_experiment n S L k r : 0 < n -> S <> [] -> List.length S <= n -> List.length L <= n -> List.length L = 2 * Datatypes.S k ->
  (forall x, In x S \/ In x L -> List.length (ops x) = n /\ (exists b, In b (ops x) /\ nonid b = true) /\ ~ In (true, true) (ops x)) ->
  check (mkStabcode (map unsigned S) (map unsigned L)) = Ok tt ->
  exists cd, from_operators S L r = Ok cd /\ experiment_code cd /\ c_rounds cd = r /\ c_ops cd = mkStabcode (map unsigned S) (map unsigned L).
Proof.
  intros P NS LS LL EL H K. destruct (from_operators_ok n S L k r) as (l & E & C & X & T & F & Ed); auto. intros x I. destruct (H x I) as (? & ? & _); auto.
  eexists. split; [exact E|]. split; [|auto]. constructor; cbn [c_lattice c_ops]; auto.
  intros e I Y. destruct (Ed e I) as (x & b & Hx & Hb & Q). rewrite Y in Q. symmetry in Q. apply bfactor_Y in Q. subst b. apply H in Hx. tauto.
Qed.

(** * The five-qubit and the Shor code *)
Fixpoint unword (s : string) : list (bool * bool) :=
  match s with
  | EmptyString => []
  | String c s' => (if Ascii.eqb c "X" then (true, false) else if Ascii.eqb c "Z" then (false, true) else if Ascii.eqb c "Y" then (true, true) else (false, false)) :: unword s'
  end.
Definition written (s : string) : string * list (bool * bool) := (s, unword s).
Definition writtenb (n : nat) (s : string) : bool :=
  String.eqb s (word (unword s)) && (List.length (unword s) =? n) && existsb nonid (unword s) && negb (existsb (fun b => fst b && snd b) (unword s)).
Lemma written_experiment n S L k r : 0 < n -> S <> [] -> List.length S <= n -> List.length L <= n -> List.length L = 2 * Datatypes.S k -> forallb (writtenb n) (S ++ L) = true ->
  check (mkStabcode (map (fun s => mkRow (unword s) false) S) (map (fun s => mkRow (unword s) false) L)) = Ok tt ->
  exists cd, make_code (from_stab_lattice n S L) r = Ok cd /\ experiment_code cd /\ c_rounds cd = r /\
    c_ops cd = mkStabcode (map (fun s => mkRow (unword s) false) S) (map (fun s => mkRow (unword s) false) L).
Proof.
  intros P NS LS LL EL W K.
  assert (W' : forall s, In s S \/ In s L -> s = word (unword s) /\ List.length (unword s) = n /\ (exists b, In b (unword s) /\ nonid b = true) /\ ~ In (true, true) (unword s)).
  { intros s I. rewrite forallb_forall in W. specialize (W s). rewrite in_app_iff in W. specialize (W I). unfold writtenb in W. rewrite !andb_true_iff in W. destruct W as [[[A B] C] D].
    apply String.eqb_eq in A. apply Nat.eqb_eq in B. apply existsb_exists in C. conjs; auto. intros Y. apply negb_true_iff in D. assert (existsb (fun b => fst b && snd b) (unword s) = true) by (apply existsb_exists; eexists; split; [exact Y|auto]). congruence. }
  destruct (from_stab_code n (map written S) (map written L) k) as (l & E & C & X & F & Ed); auto.
  - split; [rewrite map_length; auto|]. intros x I. apply in_map_iff in I as (s & <- & I). destruct (W' s) as (A & B & _); auto. split; auto. left. auto.
  - split; [rewrite map_length; auto|]. intros x I. apply in_map_iff in I as (s & <- & I). destruct (W' s) as (A & B & _); auto. split; auto. left. auto.
  - destruct S; [congruence|discriminate].
  - rewrite map_length; auto.
  - intros x [I|I]; apply in_map_iff in I as (s & <- & I); apply W'; auto.
  - rewrite !map_map in E, F. cbn [written fst snd] in E, F. rewrite !map_id in E.
    eexists (mkCode (mkStabcode (map (fun s => mkRow (unword s) false) S) (map (fun s => mkRow (unword s) false) L)) l r). unfold make_code. rewrite E. cbn [bindR]. rewrite F. cbn [bindR]. split; auto. split; [|auto].
    constructor; cbn [c_lattice c_ops]; auto.
    + intros e I Y. destruct (Ed e I) as (x & b & Hx & Hb & Q). rewrite Y in Q. symmetry in Q. apply bfactor_Y in Q. subst b.
      rewrite !in_map_iff in Hx. destruct Hx as [(y & <- & Hy)|(y & <- & Hy)]; apply (W' y); auto.
    + left. eapply from_stab_steps; eauto.
Qed.
Lemma five_qubit_experiment r : exists cd, make_five_qubit r = Ok cd /\ experiment_code cd /\ c_rounds cd = r.
Proof.
  edestruct (written_experiment 5 ["XZZXI"; "IXZZX"; "XIXZZ"; "ZXIXZ"] ["XXXXX"; "ZZZZZ"] 0 r) as (cd & A & B & C & _);
    [apply Nat.ltb_lt; vm_compute; reflexivity|discriminate|apply Nat.leb_le; vm_compute; reflexivity|apply Nat.leb_le; vm_compute; reflexivity|reflexivity|vm_compute; reflexivity|vm_compute; reflexivity|]. eauto.
Qed.
Lemma shor_experiment r : exists cd, make_shor r = Ok cd /\ experiment_code cd /\ c_rounds cd = r.
Proof.
  edestruct (written_experiment 9 ["ZZIIIIIII"; "IZZIIIIII"; "XXXXXXIII"; "IIIZZIIII"; "IIIIZZIII"; "IIIXXXXXX"; "IIIIIIZZI"; "IIIIIIIZZ"] ["ZZZZZZZZZ"; "XXXXXXXXX"] 0 r) as (cd & A & B & C & _);
    [apply Nat.ltb_lt; vm_compute; reflexivity|discriminate|apply Nat.leb_le; vm_compute; reflexivity|apply Nat.leb_le; vm_compute; reflexivity|reflexivity|vm_compute; reflexivity|vm_compute; reflexivity|]. eauto.
Qed.
