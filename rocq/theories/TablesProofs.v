(** Proofs about the error tables. *)
Require Import String List Bool Arith Ascii ZArith QArith Lia.
From Verif Require Import Base BaseProofs CircuitModel GeneratorModel GeneratorSpec WeightsModel TablesModel TablesSpec.
Import ListNotations.
Local Open Scope string_scope.
Local Open Scope nat_scope.
Local Open Scope list_scope.

Lemma mem_str_in s l : mem_str s l = true <-> In s l.
Proof. unfold mem_str. rewrite existsb_exists. split; [intros (x & I & E); apply String.eqb_eq in E; subst; auto|intros I; exists s; split; auto; apply String.eqb_refl]. Qed.
Lemma mem_str_out s l : mem_str s l = false <-> ~ In s l.
Proof. rewrite <- mem_str_in. destruct (mem_str s l); split; congruence. Qed.
Lemma pair_eqb_spec a b : pair_eqb a b = true <-> a = b.
Proof. destruct a, b. unfold pair_eqb. cbn. rewrite andb_true_iff, !Z.eqb_eq. split; [intros [-> ->]; auto|intros [= -> ->]; auto]. Qed.

(** * The last element with a property *)
Lemma last_snoc {A} (P : A -> Prop) l x y : last_with P (l ++ [x]) y <-> P x /\ y = x \/ ~ P x /\ last_with P l y.
Proof.
  split.
  - intros (pre & post & E & H & N). destruct post as [|z post' _] using rev_ind.
    + apply app_inj_tail in E as [-> ->]. auto.
    + rewrite app_comm_cons, app_assoc in E. apply app_inj_tail in E as [-> ->]. right. split; [apply N, in_app_iff; cbn; auto|].
      exists pre, post'. repeat split; auto. intros w I. apply N, in_app_iff. auto.
  - intros [[H ->]|[H (pre & post & -> & H' & N)]].
    + exists l, []. split; [auto|]. split; [auto|]. intros ? [].
    + exists pre, (post ++ [x]). rewrite <- app_assoc. split; auto. split; auto. intros z I. apply in_app_iff in I as [I|[<-|[]]]; auto.
Qed.
Lemma last_nil {A} (P : A -> Prop) x : ~ last_with P [] x.
Proof. intros (pre & post & E & _). destruct pre; discriminate. Qed.
Lemma last_holds {A} (P : A -> Prop) l x : last_with P l x -> P x /\ In x l.
Proof. intros (pre & post & -> & H & _). split; auto. apply in_app_iff. cbn. auto. Qed.
Lemma last_exists {A} (P : A -> Prop) (dec : forall x, P x \/ ~ P x) l x : In x l -> P x -> exists y, last_with P l y.
Proof.
  induction l as [|z l IH] using rev_ind; [intros []|]. intros I H. destruct (dec z) as [D|D]; [exists z; apply last_snoc; auto|].
  apply in_app_iff in I as [I|[->|[]]]; [|contradiction]. destruct (IH I H) as (y & Y). exists y. apply last_snoc. auto.
Qed.
Lemma last_iff {A} (P P' : A -> Prop) l x : (forall y, In y l -> (P y <-> P' y)) -> (last_with P l x <-> last_with P' l x).
Proof.
  intros H. split; intros (pre & post & -> & B & N); exists pre, post; (split; [auto|]; split; [apply H; auto; apply in_app_iff; cbn; auto|]);
    intros y I; rewrite ?H; auto; try (rewrite <- H; auto); apply in_app_iff; cbn; auto.
Qed.

(** * Dictionaries *)
Section KSET.
  Context {K V : Type} (eqb : K -> K -> bool) (eqb_spec : forall a b, eqb a b = true <-> a = b).
  Lemma kset_keys k (v : V) d : NoDup (map fst d) -> NoDup (map fst (kset eqb k v d)).
  Proof.
    intros N. unfold kset. destruct (existsb _ d) eqn:E.
    - rewrite map_map. replace (map _ d) with (map fst d); auto. apply map_ext. intros [k' v']. cbn. destruct (eqb k' k) eqn:F; auto. apply eqb_spec in F. auto.
    - rewrite map_app. cbn. apply NoDup_Add with (a := k) (l := map fst d); [rewrite <- (app_nil_r (map fst d)) at 1; apply Add_app|].
      split; auto. intros I. apply in_map_iff in I as (kv & E' & I). assert (existsb (fun kv => eqb (fst kv) k) d = true); [|congruence].
      apply existsb_exists. exists kv. split; auto. apply eqb_spec. auto.
  Qed.
  Lemma kset_in k (v : V) d k' v' : In (k', v') (kset eqb k v d) <-> k' = k /\ v' = v \/ k' <> k /\ In (k', v') d.
  Proof.
    unfold kset. destruct (existsb _ d) eqn:E.
    - rewrite in_map_iff. split.
      + intros ([a b] & E' & I). cbn in E'. destruct (eqb a k) eqn:F; injection E' as <- <-; auto. right. split; auto. intros ->. rewrite (proj2 (eqb_spec k k)) in F; [discriminate|auto].
      + intros [[-> ->]|[N I]].
        * apply existsb_exists in E as ([a b] & I & F). exists (a, b). rewrite F. auto.
        * exists (k', v'). split; auto. cbn. destruct (eqb k' k) eqn:F; auto. apply eqb_spec in F. contradiction.
    - rewrite in_app_iff. cbn. split.
      + intros [I|[[= <- <-]|[]]]; auto. right. split; auto. intros ->. assert (existsb (fun kv => eqb (fst kv) k) d = true); [|congruence].
        apply existsb_exists. exists (k, v'). split; auto. apply eqb_spec. auto.
      + intros [[-> ->]|[_ I]]; auto.
  Qed.
End KSET.
Lemma pset_kset k v p : pset k v p = kset String.eqb k v p. Proof. reflexivity. Qed.

Lemma row_params_ok r : contents r (row_params r).
Proof.
  unfold contents, row_params. generalize (combine (g_errors r) (g_probs r)) as l. induction l as [|[n v] l [ND IN]] using rev_ind.
  - split; [constructor|]. intros k v. split; [intros []|]. intros (n & H). apply last_nil in H. contradiction.
  - rewrite fold_left_app. cbn [fold_left]. revert ND IN; generalize (fold_left (fun (p : params) (kv : string * Q) => pset (lower (fst kv)) (snd kv) p) l []) as p; intros p ND IN. cbn [fst snd]. rewrite pset_kset. split; [apply kset_keys; auto using String.eqb_eq|].
    intros k v'. rewrite kset_in by apply String.eqb_eq. rewrite IN. split.
    + intros [[-> ->]|[D (n' & H)]]; [exists n; apply last_snoc; auto|]. exists n'. apply last_snoc. right. cbn. auto.
    + intros (n' & H). apply last_snoc in H as [[<- [= -> ->]]|[D H]]; auto. right. cbn in D. split; [congruence|]. exists n'. auto.
Qed.

(** * Gate errors *)
Lemma add_row1_ok r : forall d, NoDup (map fst d) -> NoDup (map fst (add_row1 r d)) /\
  forall q p, In (q, p) (add_row1 r d) <-> In q (g_qubits r) /\ p = row_params r \/ ~ In q (g_qubits r) /\ In (q, p) d.
Proof.
  unfold add_row1. generalize (g_qubits r) as qs. induction qs as [|a qs IH]; intros d N; cbn [fold_left]; [split; auto; cbn; tauto|].
  destruct (IH (kset Z.eqb a (row_params r) d)) as [N' H]; [apply kset_keys; auto using Z.eqb_eq|]. split; auto. intros q p. rewrite H, kset_in by apply Z.eqb_eq. cbn.
  destruct (in_dec Z.eq_dec q qs); [tauto|]. destruct (Z.eq_dec a q); [subst|]; intuition congruence.
Qed.
Lemma is_pair_nil a b : ~ is_pair a b []. Proof. intros ([|i] & E & _); discriminate. Qed.
Lemma is_pair_cons a b x y l : is_pair a b (x :: y :: l) <-> a = x /\ b = y \/ is_pair a b l.
Proof.
  split.
  - intros ([|i] & E & F); [cbn in E, F; injection E as <-; injection F as <-; auto|]. right. exists i.
    replace (2 * S i + 1) with (S (S (2 * i + 1))) in F by lia. replace (2 * S i) with (S (S (2 * i))) in E by lia. auto.
  - intros [[-> ->]|(i & E & F)]; [exists 0; auto|]. exists (S i). replace (2 * S i + 1) with (S (S (2 * i + 1))) by lia. replace (2 * S i) with (S (S (2 * i))) by lia. auto.
Qed.
Lemma is_pair_dec a b : forall l, is_pair a b l \/ ~ is_pair a b l.
Proof.
  fix IH 1. intros [|x [|y l]].
  - right. apply is_pair_nil.
  - right. intros ([|i] & E & F); [discriminate|]. cbn in E. replace (i + S (i + 0)) with (S (2 * i)) in E by lia. destruct i; discriminate.
  - rewrite is_pair_cons. destruct (IH l) as [H|H]; [auto|]. destruct (Z.eq_dec a x), (Z.eq_dec b y); tauto.
Qed.
Lemma add_pairs_ok p : forall qs d, NoDup (map fst d) ->
  (Nat.Even (length qs) -> exists d', add_pairs p qs d = Ok d' /\ NoDup (map fst d') /\
     forall ab p', In (ab, p') d' <-> is_pair (fst ab) (snd ab) qs /\ p' = p \/ ~ is_pair (fst ab) (snd ab) qs /\ In (ab, p') d) /\
  (~ Nat.Even (length qs) -> add_pairs p qs d = Err IndexError).
Proof.
  fix IH 1. intros [|x [|y qs]] d N; cbn [add_pairs].
  - split; [|intros H; exfalso; apply H; exists 0; auto]. intros _. exists d. split; auto. split; auto. intros ab p'. split; [intros I; right; split; auto; apply is_pair_nil|].
    intros [[H _]|[_ I]]; auto. apply is_pair_nil in H. contradiction.
  - split; auto. intros [k E]. cbn in E. lia.
  - destruct (IH qs (kset pair_eqb (x, y) p d)) as [A B]; [apply kset_keys; auto using pair_eqb_spec|].
    assert (EV : Nat.Even (length (x :: y :: qs)) <-> Nat.Even (length qs)).
    { cbn. split; intros [k E]; [exists (k - 1); lia|exists (S k); lia]. }
    rewrite EV. split; auto. intros E. destruct (A E) as (d' & -> & N' & H). exists d'. split; auto. split; auto. intros [a b] p'. rewrite H, kset_in by apply pair_eqb_spec.
    cbn [fst snd]. rewrite is_pair_cons. destruct (is_pair_dec a b qs); [tauto|]. destruct (Z.eq_dec a x), (Z.eq_dec b y); subst; intuition (try congruence).
Qed.
Lemma bad_names_ok r : existsb (fun k => mem_str k ["X"; "Y"; "Z"]) (g_errors r) = true <-> bad_names r.
Proof. rewrite existsb_exists. unfold bad_names. setoid_rewrite mem_str_in. tauto. Qed.

Lemma last_rows_other {K} (men : K -> gate_row -> Prop) rows r d : (forall k, ~ men k r) -> last_rows men rows d -> last_rows men (rows ++ [r]) d.
Proof.
  intros H [A B C]. split; auto.
  - intros k p I. destruct (B k p I) as (r' & L & P). exists r'. split; auto. apply last_snoc. auto.
  - intros k r' L. apply last_snoc in L as [[M _]|[_ L]]; [apply H in M; contradiction|auto].
Qed.
Lemma last_rows_row {K} (men : K -> gate_row -> Prop) rows r d d' : NoDup (map fst d') ->
  (forall k p, In (k, p) d' <-> men k r /\ p = row_params r \/ ~ men k r /\ In (k, p) d) -> last_rows men rows d -> last_rows men (rows ++ [r]) d'.
Proof.
  intros N H [A B C]. split; auto.
  - intros k p I. apply H in I as [[M ->]|[M I]]; [exists r; split; [apply last_snoc; auto|apply row_params_ok]|].
    destruct (B k p I) as (r' & L & P). exists r'. split; auto. apply last_snoc. auto.
  - intros k r' L. apply last_snoc in L as [[M ->]|[M L]]; [exists (row_params r); split; [apply H; auto|apply row_params_ok]|].
    destruct (C k r' L) as (p & I & P). exists p. split; auto. apply H. auto.
Qed.

(** The dictionaries of all gates. *)
Record gates_done (gon : list string) (rows : list gate_row) (e : errors) : Prop := {
  gd_H : last_rows (mentions gon "H") rows (er_H e);
  gd_M : last_rows (mentions gon "M") rows (er_M e);
  gd_R : last_rows (mentions gon "R") rows (er_R e);
  gd_CX : last_rows (mentions2 gon "CX") rows (er_CX e);
  gd_CZ : last_rows (mentions2 gon "CZ") rows (er_CZ e);
  gd_qubits : er_pauli e = [] /\ er_erasure e = [] /\ er_measurement e = [] }.
Lemma add_row_ok gon rows e r : gates_done gon rows e ->
  (fine_row gon r -> exists e', add_row gon e r = Ok e' /\ gates_done gon (rows ++ [r]) e') /\
  (two_row gon r -> bad_names r -> add_row gon e r = Err KeyError) /\
  (two_row gon r -> ~ bad_names r -> ~ Nat.Even (length (g_qubits r)) -> add_row gon e r = Err IndexError).
Proof.
  intros [H M R X Z (EP & EE & EM)]. destruct e as [p er m cx cz h mm rr]. cbn in H, M, R, X, Z, EP, EE, EM. subst.
  assert (O1 : forall g d, ~ (In (g_gate r) gon /\ g_gate r = g) -> last_rows (mentions gon g) rows d -> last_rows (mentions gon g) (rows ++ [r]) d).
  { intros g d O L. apply last_rows_other; auto. intros k (A & B & _). auto. }
  assert (O2 : forall g d, ~ (In (g_gate r) gon /\ g_gate r = g) -> last_rows (mentions2 gon g) rows d -> last_rows (mentions2 gon g) (rows ++ [r]) d).
  { intros g d O L. apply last_rows_other; auto. intros k (A & B & _). auto. }
  assert (R1 : forall g d, In (g_gate r) gon -> g_gate r = g -> last_rows (mentions gon g) rows d -> last_rows (mentions gon g) (rows ++ [r]) (add_row1 r d)).
  { intros g d I E L. destruct (add_row1_ok r d (lr_keys _ _ _ L)) as [N' K]. apply (last_rows_row _ rows r d); auto. intros k p'. rewrite K. unfold mentions. tauto. }
  assert (R2 : forall g d, In (g_gate r) gon -> g_gate r = g -> last_rows (mentions2 gon g) rows d -> ~ bad_names r -> Nat.Even (length (g_qubits r)) ->
    exists d', add_row2 r d = Ok d' /\ last_rows (mentions2 gon g) (rows ++ [r]) d').
  { intros g d I E L B V. unfold add_row2. destruct (existsb _ (g_errors r)) eqn:F; [apply bad_names_ok in F; contradiction|].
    destruct (proj1 (add_pairs_ok (row_params r) (g_qubits r) d (lr_keys _ _ _ L)) V) as (d' & -> & N' & K). exists d'. split; auto.
    apply (last_rows_row _ rows r d); auto. intros k p'. rewrite K. unfold mentions2. tauto. }
  assert (R3 : forall d, bad_names r -> add_row2 r d = Err KeyError) by (intros d B; apply bad_names_ok in B; unfold add_row2; rewrite B; auto).
  assert (R4 : forall g d, last_rows (mentions2 gon g) rows d -> ~ bad_names r -> ~ Nat.Even (length (g_qubits r)) -> add_row2 r d = Err IndexError).
  { intros g d L B V. unfold add_row2. destruct (existsb _ (g_errors r)) eqn:F; [apply bad_names_ok in F; contradiction|]. apply add_pairs_ok; auto. apply (lr_keys _ _ _ L). }
  unfold add_row. destruct (mem_str (g_gate r) gon) eqn:G; cbn [negb].
  2:{ apply mem_str_out in G. split; [|split; intros []; contradiction]. intros _. eexists. split; [reflexivity|]. split; cbn; auto; [apply O1|apply O1|apply O1|apply O2|apply O2]; tauto. }
  apply mem_str_in in G. unfold fine_row, two_row.
  destruct (String.eqb_spec (g_gate r) "H") as [E|N1]; [|destruct (String.eqb_spec (g_gate r) "M") as [E|N2]; [|destruct (String.eqb_spec (g_gate r) "R") as [E|N3];
    [|destruct (String.eqb_spec (g_gate r) "CX") as [E|N4]; [|destruct (String.eqb_spec (g_gate r) "CZ") as [E|N5]]]]].
  1-3: split; [|split; intros [_ [A|[A|[]]]]; congruence]; intros _; eexists; (split; [reflexivity|]); split; cbn; auto; first [apply R1|apply O1|apply O2]; auto; rewrite E; intuition discriminate.
  - assert (T : In (g_gate r) gon /\ In (g_gate r) ["CX"; "CZ"]) by (split; auto; rewrite E; cbn; auto). split.
    + intros F. destruct (F T) as [B V]. destruct (R2 "CX" cx G E X B V) as (d' & -> & L). cbn [bindR]. eexists. split; [reflexivity|]. split; cbn; auto; first [apply O1|apply O2]; auto; rewrite E; intuition discriminate.
    + split; intros _ B; [rewrite R3 by auto; auto|]. intros V. rewrite (R4 "CX") by auto. auto.
  - assert (T : In (g_gate r) gon /\ In (g_gate r) ["CX"; "CZ"]) by (split; auto; rewrite E; cbn; auto). split.
    + intros F. destruct (F T) as [B V]. destruct (R2 "CZ" cz G E Z B V) as (d' & -> & L). cbn [bindR]. eexists. split; [reflexivity|]. split; cbn; auto; first [apply O1|apply O2]; auto; rewrite E; intuition discriminate.
    + split; intros _ B; [rewrite R3 by auto; auto|]. intros V. rewrite (R4 "CZ") by auto. auto.
  - split; [|split; intros [_ [A|[A|[]]]]; congruence]. intros _. eexists. split; [reflexivity|]. split; cbn; auto; [apply O1|apply O1|apply O1|apply O2|apply O2]; tauto.
Qed.
Lemma add_rows_ok gon : forall suf pre e, gates_done gon pre e ->
  ((forall r, In r suf -> fine_row gon r) -> exists e', foldR (add_row gon) suf e = Ok e' /\ gates_done gon (pre ++ suf) e') /\
  (forall a r b, suf = a ++ r :: b -> (forall x, In x a -> fine_row gon x) -> two_row gon r ->
     (bad_names r -> foldR (add_row gon) suf e = Err KeyError) /\ (~ bad_names r -> ~ Nat.Even (length (g_qubits r)) -> foldR (add_row gon) suf e = Err IndexError)).
Proof.
  induction suf as [|x suf IH]; intros pre e G.
  - split; [intros _; exists e; rewrite app_nil_r; auto|]. intros [|? ?] r b; discriminate.
  - destruct (add_row_ok gon pre e x G) as (A & B & C). cbn [foldR]. split.
    + intros F. destruct (A (F x (or_introl eq_refl))) as (e' & -> & G'). cbn [bindR]. destruct (IH _ _ G') as [D _].
      destruct (D (fun r I => F r (or_intror I))) as (e'' & -> & G''). exists e''. rewrite <- app_assoc in G''. auto.
    + intros a r b E F T. destruct a as [|y a]; injection E as -> ->.
      * split; intros; [rewrite B|rewrite C]; auto.
      * destruct (A (F y (or_introl eq_refl))) as (e' & -> & G'). cbn [bindR]. destruct (IH _ _ G') as [_ D]. apply (D a r b); auto. intros; apply F; cbn; auto.
Qed.
Lemma gates_start gon : gates_done gon [] no_errors.
Proof. assert (L : forall K (men : K -> gate_row -> Prop), last_rows men [] []) by (intros; split; [constructor|intros ? ? []|intros k r H; apply last_nil in H; contradiction]). split; cbn; auto. Qed.
