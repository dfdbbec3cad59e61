(** Lemmas: how the stabilisers of a state vector change in the circuits of a memory experiment.
    An operator is given by its factor on each qubit. *)
Require Import List Bool Arith ZArith Lia.
From Verif Require Import Base BaseProofs QSpec PauliModel PauliSem PauliProofs PauliAlg TableauProofs MeasureProofs StateSpec GateProofs SimProofs StateProofs
  LatticeModel LatticeSpec.
Import ListNotations.

Definition pfun := nat -> bool * bool.
Definition prow (n : nat) (f : pfun) (s : bool) : row := mkRow (map f (seq 0 n)) s.
(** (-1)^s times the operator with factors [f] stabilises [v]. *)
Definition stab (n : nat) (f : pfun) (s : bool) (v : vec) : Prop := stabilises n (denote (prow n f s)) v.
Definition fset (f : pfun) (q : nat) (p : bool * bool) : pfun := fun i => if i =? q then p else f i.

Lemma prow_len n f s : length (ops (prow n f s)) = n.
Proof. cbn. rewrite map_length, seq_length. auto. Qed.
Lemma nth_prow n f q : q < n -> nth q (map f (seq 0 n)) pid = f q.
Proof. intros H. rewrite (nth_indep _ pid (f 0)) by (rewrite map_length, seq_length; auto). rewrite map_nth, seq_nth; auto. Qed.
Lemma map_eq_nth (f : pfun) n l : length l = n -> (forall q, q < n -> nth q l pid = f q) -> l = map f (seq 0 n).
Proof.
  intros L H. apply (nth_ext _ _ pid pid). rewrite map_length, seq_length; auto.
  intros q Hq. rewrite nth_prow by lia. apply H. lia.
Qed.
Lemma prow_ext n f g s : (forall q, q < n -> f q = g q) -> prow n f s = prow n g s.
Proof.
  intros H. unfold prow. f_equal. apply map_ext_in. intros q Hq. apply H. apply in_seq in Hq. lia.
Qed.
Lemma stab_ext n f g s v : (forall q, q < n -> f q = g q) -> stab n f s v -> stab n g s v.
Proof. intros H. unfold stab. rewrite (prow_ext n f g s H). auto. Qed.

Lemma conj_stab n (U : vec -> vec) (F : row -> row) r v : length (ops r) = n ->
  (forall v w, veq n v w -> veq n (U v) (U w)) ->
  veq n (U (papply (denote r) v)) (papply (denote (F r)) (U v)) ->
  stabilises n (denote r) v -> stabilises n (denote (F r)) (U v).
Proof.
  intros L E C S. unfold stabilises in *. eapply veq_trans. apply veq_sym, C. apply E, S.
Qed.

Lemma h_prow n f s q : q < n ->
  h_row q (prow n f s) = prow n (fset f q (snd (f q), fst (f q))) (xorb s (fst (f q) && snd (f q))).
Proof.
  intros Hq. unfold h_row, prow, getx, getz. cbn [ops neg].
  change (false, false) with pid. rewrite nth_prow by auto. f_equal.
  apply map_eq_nth. rewrite length_upd, map_length, seq_length; auto.
  intros i Hi. rewrite nth_upd, map_length, seq_length. unfold fset. rewrite (Nat.eqb_sym i q).
  destruct (Nat.eqb_spec q i); cbn [andb]; [|apply nth_prow; auto]. destruct (Nat.ltb_spec q n); auto. lia.
Qed.
Lemma stab_h n f s q v : q < n -> stab n f s v ->
  stab n (fset f q (snd (f q), fst (f q))) (xorb s (fst (f q) && snd (f q))) (apply1 mH q v).
Proof.
  intros Hq S. unfold stab. rewrite <- h_prow by auto.
  apply (conj_stab n (apply1 mH q)); auto using prow_len.
  - intros; apply apply1_ext; auto.
  - apply h_conj; auto using prow_len.
Qed.

(** * Controlled gates *)
Definition cgate (p : factor) : mat4 := match p with FX => mCX | _ => mCZ end.
(** Conjugation of the operator [f] by a controlled-[p] gate from [a] on [d]. *)
Definition cstep (a d : nat) (p : factor) (f : pfun) : pfun := fun q =>
  if q =? d then (if fst (f a) then pxor (f d) (fbits p) else f d)
  else if q =? a then (fst (f a), xorb (snd (f a)) (sp (f d) (fbits p)))
  else f q.
Lemma stab_c n f s a d p v : a < n -> d < n -> a <> d -> p <> FY -> fst (f a) && sp (f d) (fbits p) = false ->
  stab n f s v -> stab n (cstep a d p f) s (apply2 (cgate p) a d v).
Proof.
  intros Ha Hd Had Hp Hs S. unfold stab in *.
  assert (E : (match p with FX => cx_row a d | _ => cz_row a d end) (prow n f s) = prow n (cstep a d p f) s).
  { destruct p; try tauto; [rewrite cx_row_ops by (rewrite ?prow_len; auto)|rewrite cz_row_ops by (rewrite ?prow_len; auto)];
      unfold prow; cbn [ops neg]; unfold getx, getz; change (false, false) with pid; rewrite !nth_prow by auto;
      (f_equal; [apply map_eq_nth; [rewrite !length_upd, map_length, seq_length; auto|];
                 intros i Hi; rewrite !nth_upd, !length_upd, map_length, seq_length; unfold cstep, pxor, sp, fbits; cbn [fst snd];
                 rewrite (Nat.eqb_sym i d), (Nat.eqb_sym i a);
                 destruct (Nat.ltb_spec a n); [|lia]; destruct (Nat.ltb_spec d n); [|lia]; rewrite ?andb_true_r;
                 destruct (Nat.eqb_spec a i) as [EA|EA], (Nat.eqb_spec d i) as [ED|ED]; try (exfalso; congruence); cbn [andb]; try (apply nth_prow; auto);
                 destruct (f a) as [xa za], (f d) as [xd zd]; cbn [fst snd]; try tauto;
                 destruct xa, za, xd, zd; reflexivity
                |unfold sp, fbits in Hs; cbn [fst snd] in Hs; destruct (f a) as [xa za], (f d) as [xd zd]; cbn [fst snd] in *;
                 destruct xa, za, xd, zd; try discriminate Hs; cbn; destruct s; reflexivity]). }
  destruct p; try tauto.
  - rewrite <- E. apply (conj_stab n (apply2 mCX a d)); auto using prow_len.
    + intros; apply apply2_ext; auto.
    + apply cx_conj; auto using prow_len.
  - rewrite <- E. apply (conj_stab n (apply2 mCZ a d)); auto using prow_len.
    + intros; apply apply2_ext; auto.
    + apply cz_conj; auto using prow_len.
Qed.

(** * Paulis, measurements *)
Definition fone (q : nat) (p : bool * bool) : pfun := fset (fun _ => pid) q p.
Lemma single_prow n p q s : q < n -> single n s p q = denote (prow n (fone q (pbits p)) s).
Proof.
  intros Hq. rewrite <- denote_single. f_equal. unfold prow. f_equal. apply map_eq_nth.
  rewrite length_upd, repeat_length; auto.
  intros i Hi. rewrite nth_upd, repeat_length, nth_repeat. unfold fone, fset. rewrite (Nat.eqb_sym i q).
  destruct (Nat.eqb_spec q i); cbn [andb]; auto. destruct (Nat.ltb_spec q n); auto. lia.
Qed.
Lemma symp_prow n f q p : q < n -> symp (map f (seq 0 n)) (map (fone q p) (seq 0 n)) = sp (f q) p.
Proof.
  intros Hq. replace (map (fone q p) (seq 0 n)) with (upd q p (repeat pid n)).
  - rewrite symp_single by (rewrite ?map_length, ?seq_length; auto). rewrite nth_prow by auto.
    unfold sp1, sp. destruct (f q), p; reflexivity.
  - apply map_eq_nth. rewrite length_upd, repeat_length; auto.
    intros i Hi. rewrite nth_upd, repeat_length, nth_repeat. unfold fone, fset. rewrite (Nat.eqb_sym i q).
    destruct (Nat.eqb_spec q i); cbn [andb]; auto. destruct (Nat.ltb_spec q n); auto. lia.
Qed.
Lemma stab_pauli n f s q p v : q < n -> stab n f s v -> stab n f (xorb s (sp (f q) (pbits p))) (apply1 (mP p) q v).
Proof.
  intros Hq Hs. unfold stab, stabilises in *.
  assert (E := apply1_pauli n p q v Hq). rewrite single_prow in E by auto.
  set (P := prow n (fone q (pbits p)) false) in *.
  assert (LP : length (ops P) = n) by apply prow_len.
  eapply veq_trans. apply papply_ext; [apply prow_len|]. apply E.
  eapply veq_trans. 2: apply veq_sym; apply E.
  eapply veq_trans. apply papply_swap; auto using prow_len.
  replace (symp (ops (prow n f (xorb s (sp (f q) (pbits p))))) (ops P)) with (sp (f q) (pbits p)) by (symmetry; apply symp_prow; auto).
  assert (F : veq n (papply (denote (prow n f (xorb s (sp (f q) (pbits p))))) v) (vscale (sgn (sp (f q) (pbits p))) v)).
  { intros a Ha. unfold papply, vscale. cbn [denote fst prow neg].
    specialize (Hs a Ha). unfold papply, vscale in Hs. cbn [denote fst prow neg] in Hs.
    rewrite <- Hs. rewrite <- sgn_mul.
    change (snd (denote (prow n f (xorb s (sp (f q) (pbits p)))))) with (snd (denote (prow n f s))). ring. }
  eapply veq_trans. apply vscale_ext. apply papply_ext; [auto|apply F].
  eapply veq_trans. apply vscale_ext. apply papply_scale; auto.
  intros a Ha. unfold vscale. transitivity (zimul (zimul (sgn (sp (f q) (pbits p))) (sgn (sp (f q) (pbits p)))) (papply (denote P) v a)). ring.
  rewrite sgn_sq. ring.
Qed.
Definition zq : bool * bool := (false, true).
Lemma stab_measure_keep n f s q m v : q < n -> fst (f q) = false -> stab n f s v ->
  stab n f s (project (single n false PZ q) m v).
Proof.
  intros Hq Hf Hs. rewrite single_prow by auto. apply project_keep; auto using prow_len.
  cbn [ops prow]. rewrite symp_prow by auto. unfold sp. cbn. rewrite Hf. cbn. rewrite andb_false_r. auto.
Qed.
Lemma stab_measure_new n q m v : q < n -> stab n (fone q zq) m (project (single n false PZ q) m v).
Proof.
  intros Hq. rewrite single_prow by auto.
  replace (stab n (fone q zq) m) with (stab n (fone q zq) (xorb false m)) by (destruct m; auto).
  apply (project_new n (prow n (fone q (pbits PZ)) false)). apply prow_len.
Qed.
Lemma stab_unique n f s s' v : nz n v -> stab n f s v -> stab n f s' v -> s = s'.
Proof.
  intros N H1 H2. destruct (bool_dec s s') as [|D]; auto. exfalso. apply N. apply norm2_zero. intros a Ha.
  specialize (H1 a Ha). specialize (H2 a Ha). unfold papply, vscale in *. cbn [denote fst snd prow neg ops] in *.
  set (w := ptensor (map p1 (map f (seq 0 n))) v a) in *. 
  pose proof (f_equal re H1) as R1. pose proof (f_equal im H1) as I1. pose proof (f_equal re H2) as R2. pose proof (f_equal im H2) as I2.
  destruct s, s'; try tauto; cbn [sgn zimul ziopp zi1 re im] in *; apply Zi_eq; cbn [re im zi0]; lia.
Qed.
Lemma phase_same a b : Forall2 (fun p q => p = pid \/ q = pid \/ p = q) a b -> phase_exponent a b = 0%Z.
Proof.
  induction 1 as [|[x1 z1] [x2 z2] a b H _ IH]; auto. cbn [phase_exponent]. rewrite IH.
  destruct H as [H|[H|H]]; inversion H; subst; [destruct x2, z2|destruct x1, z1|destruct x2, z2]; reflexivity.
Qed.
Lemma xor_map {A} (f g : A -> bool * bool) l : xor_ops (map f l) (map g l) = map (fun d => pxor (f d) (g d)) l.
Proof. induction l as [|d l IH]; cbn; auto. rewrite IH. destruct (f d), (g d). auto. Qed.
Lemma stab_mul n f g s s' v : (forall q, q < n -> f q = pid \/ g q = pid \/ f q = g q) ->
  stab n f s v -> stab n g s' v -> stab n (fun q => pxor (f q) (g q)) (xorb s s') v.
Proof.
  intros H H1 H2. unfold stab.
  assert (F : Forall2 (fun p q => p = pid \/ q = pid \/ p = q) (map f (seq 0 n)) (map g (seq 0 n))).
  { assert (H' : forall q, In q (seq 0 n) -> f q = pid \/ g q = pid \/ f q = g q) by (intros q Hq; apply in_seq in Hq; apply H; lia).
    revert H'. induction (seq 0 n); intros H'; cbn; constructor; auto. apply H'; left; auto. apply IHl. intros; apply H'; right; auto. }
  assert (P := phase_same _ _ F).
  replace (prow n (fun q => pxor (f q) (g q)) (xorb s s')) with (mulrow (prow n f s) (prow n g s')).
  - apply mul_stabilises; auto using prow_len. cbn [ops prow].
    assert (Q := phase_parity (map f (seq 0 n)) (map g (seq 0 n)) ltac:(rewrite !map_length; auto)). rewrite P in Q.
    destruct (symp _ _); auto. discriminate Q.
  - unfold mulrow, prow. cbn [ops neg]. rewrite P. cbn. rewrite xorb_false_r. f_equal.
    apply xor_map.
Qed.

(** * A round of parity measurements *)
(** The gates (ancilla, data qubit, factor) of a round; the operator they measure on ancilla [a]. *)
Definition cgates := list (nat * nat * factor).
Definition sfun (G : cgates) (a : nat) : pfun := fun q =>
  fold_right pxor pid (map (fun g => if (fst (fst g) =? a) && (snd (fst g) =? q) then fbits (snd g) else pid) G).
(** Parity of the gates of ancilla [a] whose factor anticommutes with [f]. *)
Definition par (G : cgates) (a : nat) (f : pfun) : bool :=
  fold_right xorb false (map (fun g => if fst (fst g) =? a then sp (f (snd (fst g))) (fbits (snd g)) else false) G).
(** Parity of the gates of [a] whose factor anticommutes with the factor of an earlier gate of [a0]
    on the same data qubit. *)
Fixpoint cross (a0 a : nat) (seen G : cgates) : bool :=
  match G with
  | [] => false
  | g :: G' => xorb (if fst (fst g) =? a then sp (sfun seen a0 (snd (fst g))) (fbits (snd g)) else false) (cross a0 a (g :: seen) G')
  end.
Definition evol (G : cgates) (f : pfun) : pfun := fold_left (fun f g => cstep (fst (fst g)) (snd (fst g)) (snd g) f) G f.

Lemma pxor_pid_r p : pxor p pid = p. Proof. destruct p as [[] []]; auto. Qed.
Lemma pxor_pid_l p : pxor pid p = p. Proof. destruct p as [[] []]; auto. Qed.
Lemma pxor_comm p q : pxor p q = pxor q p. Proof. destruct p as [[] []], q as [[] []]; auto. Qed.
Lemma pxor_assoc p q r : pxor p (pxor q r) = pxor (pxor p q) r. Proof. destruct p as [[] []], q as [[] []], r as [[] []]; auto. Qed.
Lemma sp_pid_l p : sp pid p = false. Proof. reflexivity. Qed.
Lemma sp_pid_r p : sp p pid = false. Proof. destruct p as [[] []]; reflexivity. Qed.

(** Good gates: controls in [L], targets outside, below [n], not Y. *)
Definition good (n : nat) (L : list nat) (G : cgates) : Prop :=
  forall a d p, In (a, d, p) G -> In a L /\ ~ In d L /\ a < n /\ d < n /\ p <> FY.

Lemma cstep_same a d p f q : a <> d -> fst (f a) = false -> q <> a -> cstep a d p f q = f q.
Proof.
  intros Had H Hq. unfold cstep. destruct (Nat.eqb_spec q d); [subst; rewrite H; auto|]. destruct (Nat.eqb_spec q a); [tauto|auto].
Qed.
Lemma par_ext G a f g : (forall c d p, In (c, d, p) G -> f d = g d) -> par G a f = par G a g.
Proof.
  intros H. unfold par. f_equal. apply map_ext_in. intros [[c d] p] Hg. cbn [fst snd]. rewrite (H c d p Hg). auto.
Qed.
Lemma evol_data n L G : good n L G -> forall f, (forall a, In a L -> fst (f a) = false) ->
  (forall q, ~ In q L -> evol G f q = f q) /\
  (forall a, In a L -> evol G f a = (false, xorb (snd (f a)) (par G a f))) /\
  (forall s v, stab n f s v -> stab n (evol G f) s (fold_left (fun w g => apply2 (cgate (snd g)) (fst (fst g)) (snd (fst g)) w) G v)).
Proof.
  induction G as [|[[c d] p] G IH]; intros HG f Hf.
  - cbn. repeat split; auto. intros a Ha. specialize (Hf a Ha). destruct (f a) as [x z]. cbn in *. rewrite xorb_false_r. congruence.
  - destruct (HG c d p (or_introl eq_refl)) as (Hc & Hd & Lc & Ld & Hp).
    assert (Hcd : c <> d) by (intros ->; tauto).
    assert (HG' : good n L G) by (intros a' d' p' H'; apply HG; right; auto).
    assert (Hf' : forall a, In a L -> fst (cstep c d p f a) = false).
    { intros a Ha. unfold cstep. destruct (Nat.eqb_spec a d); [subst; tauto|]. destruct (Nat.eqb_spec a c); cbn; auto. }
    destruct (IH HG' _ Hf') as (I1 & I2 & I3). cbn [evol fold_left fst snd]. fold (evol G (cstep c d p f)).
    split; [|split].
    + intros q Hq. rewrite I1 by auto. apply cstep_same; auto. intros ->; tauto.
    + intros a Ha. rewrite I2 by auto. cbn [par map fold_right fst snd]. fold (par G a f).
      replace (par G a (cstep c d p f)) with (par G a f).
      * unfold cstep. destruct (Nat.eqb_spec a d); [subst; tauto|]. rewrite (Nat.eqb_sym c a).
        destruct (Nat.eqb_spec a c) as [->|]; cbn [snd]; f_equal; destruct (par G _ f), (snd (f _)), (sp (f d) (fbits p)); auto.
      * apply par_ext. intros c' d' p' H'. symmetry. apply cstep_same; auto. destruct (HG' _ _ _ H') as (_ & X & _). intros ->; tauto.
    + intros s v Hs. apply I3. apply stab_c; auto. rewrite (Hf c Hc). auto.
Qed.

Lemma sfun_cons G a g q : sfun (g :: G) a q = pxor (if (fst (fst g) =? a) && (snd (fst g) =? q) then fbits (snd g) else pid) (sfun G a q).
Proof. reflexivity. Qed.
Lemma sfun_none G a q : (forall p, ~ In (a, q, p) G) -> sfun G a q = pid.
Proof.
  induction G as [|[[c d] p] G IH]; intros H; auto. rewrite sfun_cons. rewrite IH by (intros p' H'; apply (H p'); right; auto). rewrite pxor_pid_r. cbn [fst snd].
  destruct (Nat.eqb_spec c a), (Nat.eqb_spec d q); cbn [andb]; auto. subst. exfalso. apply (H p). left; auto.
Qed.
Lemma evol_anc n L a0 : In a0 L -> forall G seen f, good n L G -> NoDup (map fst (seen ++ G)) ->
  fst (f a0) = true -> (forall a, In a L -> a <> a0 -> fst (f a) = false) -> (forall d, ~ In d L -> f d = sfun seen a0 d) ->
  (forall a, In a L -> evol G f a = if a =? a0 then f a0 else (false, xorb (snd (f a)) (cross a0 a seen G))) /\
  (forall d, ~ In d L -> evol G f d = pxor (sfun G a0 d) (sfun seen a0 d)) /\
  (forall s v, stab n f s v -> stab n (evol G f) s (fold_left (fun w g => apply2 (cgate (snd g)) (fst (fst g)) (snd (fst g)) w) G v)).
Proof.
  intros Ha0. induction G as [|[[c d] p] G IH]; intros seen f HG ND F0 F1 FD.
  - cbn. repeat split; auto.
    + intros a Ha. destruct (Nat.eqb_spec a a0); [subst; auto|]. specialize (F1 a Ha n0). destruct (f a) as [x z]. cbn in *. rewrite xorb_false_r. congruence.
    + intros d Hd. rewrite FD by auto. destruct (sfun seen a0 d) as [[] []]; auto.
  - destruct (HG c d p (or_introl eq_refl)) as (Hc & Hd & Lc & Ld & Hp).
    assert (Hcd : c <> d) by (intros ->; tauto).
    assert (HG' : good n L G) by (intros a' d' p' H'; apply HG; right; auto).
    assert (ND' : NoDup (map fst (((c, d, p) :: seen) ++ G))).
    { rewrite map_app in *. cbn [map app] in *. apply NoDup_cons_iff. apply NoDup_remove in ND. tauto. }
    assert (NS : forall p', ~ In (c, d, p') seen).
    { intros p' H'. rewrite map_app in ND. cbn [map] in ND. apply NoDup_remove_2 in ND. apply ND. apply in_or_app. left. apply (in_map fst) in H'. exact H'. }
    assert (SG : fst (f c) && sp (f d) (fbits p) = false).
    { rewrite (FD d Hd). destruct (Nat.eq_dec c a0) as [->|N]; [|rewrite (F1 c Hc N); reflexivity].
      rewrite sfun_none by auto. rewrite sp_pid_l. apply andb_false_r. }
    set (f' := cstep c d p f).
    assert (X0 : f' a0 = f a0).
    { unfold f', cstep. destruct (Nat.eqb_spec a0 d); [subst; tauto|]. destruct (Nat.eqb_spec a0 c); auto. subst c.
      rewrite F0 in SG. cbn in SG. rewrite SG, xorb_false_r. destruct (f a0); auto. }
    assert (X1 : forall a, In a L -> a <> a0 -> f' a = (false, xorb (snd (f a)) (if c =? a then sp (sfun seen a0 d) (fbits p) else false))).
    { intros a Ha N. unfold f', cstep. destruct (Nat.eqb_spec a d); [subst; tauto|]. rewrite (Nat.eqb_sym c a). rewrite <- (FD d) by auto.
      destruct (Nat.eqb_spec a c) as [<-|]; [rewrite (F1 a Ha N); reflexivity|]. rewrite xorb_false_r. rewrite <- (F1 a Ha N). destruct (f a); auto. }
    assert (X2 : forall q, ~ In q L -> f' q = sfun ((c, d, p) :: seen) a0 q).
    { intros q Hq. rewrite sfun_cons. cbn [fst snd]. unfold f', cstep. destruct (Nat.eqb_spec q d) as [->|Nq].
      - rewrite Nat.eqb_refl, andb_true_r, (FD d Hd). destruct (Nat.eqb_spec c a0) as [->|N].
        + rewrite F0. apply pxor_comm.
        + rewrite (F1 c Hc N), pxor_pid_l. auto.
      - destruct (Nat.eqb_spec q c); [subst; tauto|]. destruct (Nat.eqb_spec d q); [subst; tauto|]. rewrite andb_false_r, pxor_pid_l. auto. }
    assert (Y0 : fst (f' a0) = true) by (rewrite X0; auto).
    assert (Y1 : forall a, In a L -> a <> a0 -> fst (f' a) = false) by (intros a Ha N; rewrite X1; auto).
    destruct (IH _ f' HG' ND' Y0 Y1 X2) as (I1 & I2 & I3).
    cbn [evol fold_left fst snd]. fold f'. fold (evol G f').
    split; [|split].
    + intros a Ha. rewrite I1 by auto. destruct (Nat.eqb_spec a a0); auto. cbn [cross fst snd]. rewrite X1 by auto. cbn [snd].
      rewrite xorb_assoc. auto.
    + intros q Hq. rewrite I2 by auto. rewrite !sfun_cons. cbn [fst snd]. rewrite pxor_assoc. f_equal. apply pxor_comm.
    + intros s v Hs. apply I3. apply stab_c; auto.
Qed.
