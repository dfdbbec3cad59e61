(** Proofs for InstantiateModel: the rows of gate errors which a configuration gives (C64). *)
Require Import String List Bool Arith ZArith QArith Lia Permutation.
From Verif Require Import Base BaseProofs LatticeModel LatticeSpec LatticeOps CircuitModel SimModel GeneratorModel TablesModel TablesSpec TablesProofs TablesLattice Props_GateConfig
  FrontendModel FrontendSpec FrontendProofs FrontendConf FrontendSchema InstantiateModel InstantiateSpec InstantiateTable.
Import ListNotations.
Local Open Scope string_scope.
Local Open Scope nat_scope.
Local Open Scope list_scope.

Lemma mapR_total {A B} (f : A -> Res B) (P : A -> B -> Prop) l : (forall a, In a l -> exists b, f a = Ok b /\ P a b) -> exists bs, mapR f l = Ok bs /\ Forall2 P l bs.
Proof.
  induction l as [|a l IH]; intros H; [exists []; split; [auto|constructor]|]. destruct (H a (or_introl eq_refl)) as (b & E & Pb). destruct IH as (bs & M & F); [intros; apply H; right; auto|].
  exists (b :: bs). cbn [mapR]. rewrite E. cbn [bindR]. rewrite M. split; [auto|constructor; auto].
Qed.
Lemma forall2_in {A B} (P : A -> B -> Prop) l bs : Forall2 P l bs -> (forall a, In a l -> exists b, In b bs /\ P a b) /\ (forall b, In b bs -> exists a, In a l /\ P a b).
Proof.
  induction 1 as [|a b l bs H F [IH1 IH2]]; [split; intros ? []|]. split.
  - intros x [<-|I]; [exists b; split; [left; auto|auto]|]. destruct (IH1 x I) as (y & J & K). exists y. split; [right; auto|auto].
  - intros x [<-|I]; [exists a; split; [left; auto|auto]|]. destruct (IH2 x I) as (y & J & K). exists y. split; [right; auto|auto].
Qed.
Lemma number_spec v q : number v q <-> as_number v = Ok q.
Proof.
  unfold number. destruct v; cbn; (split; [intros [H|(z' & H & E)]; try discriminate H; try (injection H as <-; subst; auto)|intros H; try discriminate H; injection H as <-; eauto]).
Qed.
Lemma in_combine_seq {A B} (f : nat -> B) (l : list A) : forall k a b, In (a, b) (combine l (map f (seq k (List.length l)))) <-> exists i, nth_error l i = Some a /\ b = f (k + i).
Proof.
  induction l as [|x l IH]; intros k a b; cbn [List.length seq map combine]; [split; [intros []|intros ([|i] & E & _); discriminate]|].
  cbn [In]. rewrite IH. split.
  - intros [[= -> <-]|(i & E & ->)]; [exists 0; split; [auto|f_equal; lia]|exists (S i); split; [auto|f_equal; lia]].
  - intros ([|i] & E & ->); [left; injection E as ->; do 2 f_equal; lia|right; exists i; split; [auto|f_equal; lia]].
Qed.
Lemma in_combine_index {A} (l : list A) i a : In (i, a) (combine (seq 0 (List.length l)) l) <-> nth_error l i = Some a.
Proof.
  enough (H : forall k, In (i, a) (combine (seq k (List.length l)) l) <-> k <= i /\ nth_error l (i - k) = Some a) by (rewrite H, Nat.sub_0_r; intuition lia).
  induction l as [|x l IH]; intros k; cbn [List.length seq combine In]; [split; [intros []|intros [_ E]; destruct (i - k); discriminate]|].
  rewrite IH. split.
  - intros [[= -> ->]|[L E]]; [rewrite Nat.sub_diag; auto|]. split; [lia|]. replace (i - k) with (S (i - S k)) by lia. exact E.
  - intros [L E]. destruct (Nat.eq_dec i k) as [->|N]; [left; rewrite Nat.sub_diag in E; injection E as ->; auto|right]. split; [lia|]. replace (i - k) with (S (i - S k)) in E by lia. exact E.
Qed.
Lemma same_nth {A} (a : list A) : forall b, (forall i, nth_error a i = nth_error b i) -> a = b.
Proof.
  induction a as [|x a IH]; intros [|y b] H; [auto|discriminate (H 0)|discriminate (H 0)|]. assert (E := H 0). injection E as ->. f_equal. apply IH. intros i. apply (H (S i)).
Qed.
Lemma stab_list l : indexed l -> map (equbit_number l) (l_stabs l) = map Z.of_nat (seq (List.length (l_data l)) (List.length (l_stabs l))).
Proof.
  intros X. apply same_nth. intros i. rewrite !nth_error_map. destruct (nth_error (l_stabs l) i) as [s|] eqn:E.
  - cbn [option_map]. rewrite (equbit_stab _ _ _ X E). assert (L : i < List.length (l_stabs l)) by (apply nth_error_Some; congruence).
    rewrite (nth_error_nth' _ 0) by (rewrite seq_length; auto). rewrite seq_nth by auto. reflexivity.
  - apply nth_error_None in E. rewrite (proj2 (nth_error_None (seq _ _) i)) by (rewrite seq_length; auto). reflexivity.
Qed.
Lemma gate_qubits_even l : List.length (gate_qubits l) = 2 * Nat.div2 (List.length (gate_qubits l)).
Proof.
  rewrite gate_qubits_flat. generalize (flat_map (fun i => map (pair i) (v_edges (l_heap l i))) (l_stabs l)). intros ps.
  assert (E : List.length (flat_map (fun ie : nat * edge => [equbit_number l (fst ie); equbit_number l (e_data (snd ie))]) ps) = 2 * List.length ps) by (induction ps as [|x ps IH]; cbn in *; lia).
  rewrite E, Nat.div2_double. reflexivity.
Qed.
Lemma gate_pair_nth l i : 2 * i < List.length (gate_qubits l) -> gate_pair l i = [nth (2 * i) (gate_qubits l) 0%Z; nth (2 * i + 1) (gate_qubits l) 0%Z].
Proof.
  intros L. assert (E := gate_qubits_even l). assert (L1 : 2 * i + 1 < List.length (gate_qubits l)) by lia. unfold gate_pair. revert L1. clear. generalize (gate_qubits l) as g. generalize (2 * i) as k. intros k g. revert g.
  induction k as [|k IH]; intros [|a [|b g]] L; cbn in *; try lia; [reflexivity|]. rewrite IH by (cbn; lia). cbn. destruct k; reflexivity.
Qed.

Section Gates.
Context (u : surroundings) (l : lattice) (X : indexed l).

Lemma channel_total k j dist name ps : In k ["H"; "M"; "R"; "CX"; "CZ"] ->
  (dist = PStr "constant" /\ (exists p q, ps = [p] /\ number p q) \/ dist = PStr "gaussian" /\ (exists p s a b, ps = [p; s] /\ number p a /\ number s b /\ (0 <= b)%Q)) ->
  exists chs, gate_channel (map (su_zg u k j) (seq 0 (draws_needed l k))) (dist, PStr name, ps) = Ok chs /\
    forall r, In r (flat_map (if mem_str k ["H"; "M"; "R"] then channel_rows1 l k else channel_rows2 l k) chs) <-> channel_row u l k j dist name ps r.
Proof.
  intros K [[-> (p & q & -> & N)]|[-> (p & s & a & b & -> & N1 & N2 & B)]].
  - assert (N' := N). apply number_spec in N'. exists [Constant name q]. cbn [gate_channel is_str]. rewrite N'. split; [reflexivity|]. intros r. cbn [flat_map]. rewrite app_nil_r.
    assert (U : forall q', number p q' -> q' = q) by (intros q' H; apply number_spec in H; congruence).
    destruct (mem_str k ["H"; "M"; "R"]) eqn:M.
    + apply mem_str_in in M. cbn [channel_rows1]. rewrite (stab_list l X). split.
      * intros [<-|[]]. left. split; [exact M|]. left. split; [auto|]. exists p, q. auto.
      * intros [[_ [[_ (p' & q' & [= <-] & N3 & ->)]|[[=] _]]]|[M2 _]]; [rewrite (U _ N3); left; auto|exfalso; cbn in M, M2; intuition congruence].
    + assert (M2 : In k ["CX"; "CZ"]) by (assert (H : ~ In k ["H"; "M"; "R"]) by (intros H; apply mem_str_in in H; congruence); cbn in K, H |- *; tauto).
      cbn [channel_rows2]. split.
      * intros [<-|[]]. right. split; [exact M2|]. left. split; [auto|]. exists p, q. auto.
      * intros [[H _]|[_ [[_ (p' & q' & [= <-] & N3 & ->)]|[[=] _]]]]; [apply mem_str_in in H; congruence|rewrite (U _ N3); left; auto].
  - assert (N1' := N1). assert (N2' := N2). apply number_spec in N1', N2'. assert (B' : Qle_bool 0 b = true) by (apply Qle_bool_iff; auto).
    exists [Gaussian name (map (fun z => (a + b * z)%Q) (map (su_zg u k j) (seq 0 (draws_needed l k))))]. cbn [gate_channel is_str]. cbn [String.eqb Ascii.eqb Bool.eqb]. rewrite N1'. cbn [bindR]. rewrite N2'. cbn [bindR]. rewrite B'. split; [reflexivity|]. intros r. cbn [flat_map]. rewrite app_nil_r.
    assert (U1 : forall q', number p q' -> q' = a) by (intros q' H; apply number_spec in H; congruence). assert (U2 : forall q', number s q' -> q' = b) by (intros q' H; apply number_spec in H; congruence).
    rewrite map_map. destruct (mem_str k ["H"; "M"; "R"]) eqn:M.
    + apply mem_str_in in M. assert (D : draws_needed l k = List.length (l_stabs l)) by (destruct M as [<-|[<-|[<-|[]]]]; reflexivity). cbn [channel_rows1]. rewrite D, in_map_iff. split.
      * intros ([i p0] & <- & I). apply in_combine_seq in I as (t & E & ->). cbn [fst snd Nat.add]. left. split; [exact M|]. right. split; [auto|]. exists p, s, a, b, t. rewrite (equbit_stab _ _ _ X E). repeat (split; auto). apply nth_error_Some. congruence.
      * intros [[_ [[[=] _]|[_ (p' & s' & a' & b' & t & [= <- <-] & H1 & H2 & L & ->)]]]|[M2 _]]; [|exfalso; cbn in M, M2; intuition congruence].
        rewrite (U1 _ H1), (U2 _ H2). exists (nth t (l_stabs l) 0, (a + b * su_zg u k j t)%Q). assert (E : nth_error (l_stabs l) t = Some (nth t (l_stabs l) 0)) by (apply nth_error_nth'; auto). split; [cbn [fst snd]; rewrite (equbit_stab _ _ _ X E); auto|]. apply in_combine_seq. exists t. auto.
    + assert (M1 : ~ In k ["H"; "M"; "R"]) by (intros H; apply mem_str_in in H; congruence). assert (M2 : In k ["CX"; "CZ"]) by (cbn in K, M1 |- *; tauto).
      assert (D : draws_needed l k = Nat.div2 (List.length (gate_qubits l))) by (destruct M2 as [<-|[<-|[]]]; reflexivity). assert (EV := gate_qubits_even l). cbn [channel_rows2]. rewrite D, map_length, seq_length, in_map_iff. set (w := Nat.div2 _) in *. split.
      * intros ([i p0] & <- & I). replace w with (List.length (seq 0 w)) in I at 2 by apply seq_length. apply in_combine_seq in I as (t & E & ->). cbn [fst snd Nat.add].
        assert (L : t < w) by (rewrite <- (seq_length w 0); apply nth_error_Some; congruence). rewrite (nth_error_nth' _ 0) in E by (rewrite seq_length; auto). rewrite seq_nth in E by auto. injection E as <-.
        right. split; [exact M2|]. right. split; [auto|]. exists p, s, a, b, t. cbn [Nat.add]. rewrite gate_pair_nth by lia. repeat (split; auto). lia.
      * intros [[H _]|[_ [[[=] _]|[_ (p' & s' & a' & b' & t & [= <- <-] & H1 & H2 & L & ->)]]]]; [contradiction|].
        rewrite (U1 _ H1), (U2 _ H2). exists (t, (a + b * su_zg u k j t)%Q). split; [cbn [fst snd]; rewrite gate_pair_nth by lia; auto|].
        replace w with (List.length (seq 0 w)) at 2 by apply seq_length. apply in_combine_seq. exists t. split; [|auto]. rewrite (nth_error_nth' _ 0) by (rewrite seq_length; lia). rewrite seq_nth by lia. auto.
Qed.

Lemma combine_nth {A B} (a : list A) (b : list B) : forall i x y, nth_error (combine a b) i = Some (x, y) <-> nth_error a i = Some x /\ nth_error b i = Some y.
Proof.
  revert b. induction a as [|x0 a IH]; intros [|y0 b] [|i] x y; cbn; try (split; [discriminate|intros [? ?]; discriminate]).
  - split; [intros [= -> ->]; auto|intros [[= ->] [= ->]]; auto].
  - apply IH.
Qed.

Lemma gates_assimilated keys c : Permutation gate_keys keys -> usable_gates c ->
  exists conf rows, sim_gate_errors keys c = Ok (Some (conf, gc_path c)) /\ assimilate_gates (su_zg u) conf (su_gates u) l = Ok rows /\
    (forall k, In k (map fst conf) <-> exists m, gate_on c k m) /\ forall r, In r rows <-> gate_configured u c l r.
Proof.
  intros P [SA KE FO UC UG]. destruct (sim_gates_spec keys c P SA KE FO) as (conf & E & ND & CI).
  assert (CI' : forall k v, In (k, v) conf -> exists m, gate_on c k m /\
    (gm_dist m = PStr "user" /\ v = SimName "user" \/ exists cs, v = SimChannels cs /\ cs <> [] /\ (exists ds, gm_dist m = PList ds) /\ (forall x, In x cs -> exists d name ps, x = (d, PStr name, ps)) /\ forall j dist name ps, nth_error cs j = Some (dist, PStr name, ps) <-> channel_of m j dist name ps)).
  { intros k v I. apply CI in I as (m & I & EN & H). destruct H as [[D ->]|(ds & ss & ps & D & NE & EI & EP & ->)].
    - exists m. split; [split; [auto|split; auto]|]. auto.
    - exists m. split; [split; [auto|split; [auto|right; eauto]]|]. right. eexists. split; [reflexivity|].
      destruct (FO k m I) as [[(D' & _)|(ds' & ss' & ps' & D' & EI' & EP' & L1 & L2 & _)]|D']; [rewrite D in D'; discriminate| |rewrite D in D'; discriminate].
      rewrite D in D'. injection D' as <-. assert (M1 : ss' = ss) by (rewrite EI in EI'; injection EI' as EI'; revert EI'; clear; revert ss'; induction ss as [|x ss IH]; intros [|y ss']; cbn; try discriminate; auto; intros [= -> H]; f_equal; auto). subst ss'.
      assert (M2 : ps' = ps) by (rewrite EP in EP'; injection EP' as EP'; revert EP'; clear; revert ps'; induction ps as [|x ps IH]; intros [|y ps']; cbn; try discriminate; auto; intros [= -> H]; f_equal; auto). subst ps'.
      split; [destruct ds, ss, ps; try discriminate; congruence|]. split; [eauto|]. split.
      + intros [[d v] p] J. assert (J' := in_combine_l _ _ _ _ J). apply in_combine_r in J'. apply in_map_iff in J' as (name & <- & _). eauto.
      + intros j dist name p. rewrite combine_nth, combine_nth, nth_error_map. unfold channel_of. split.
        * intros [[J1 J2] J3]. destruct (nth_error ss j) as [x|] eqn:EX; [|discriminate]. injection J2 as ->. exists ds, ss, ps. auto 8.
        * intros (ds' & ss' & ps' & A1 & A2 & A3 & J1 & J2 & J3). rewrite D in A1. injection A1 as <-. rewrite EI in A2. rewrite EP in A3.
          assert (M1 : ss' = ss) by (injection A2 as A2; revert A2; clear; revert ss'; induction ss as [|x ss IH]; intros [|y ss']; cbn; try discriminate; auto; intros [= -> H]; f_equal; auto).
          assert (M2 : ps' = ps) by (injection A3 as A3; revert A3; clear; revert ps'; induction ps as [|x ps IH]; intros [|y ps']; cbn; try discriminate; auto; intros [= -> H]; f_equal; auto).
          subst. rewrite J1, J2, J3. auto. }
  assert (KC : forall k m, gate_on c k m -> In k (map fst conf)).
  { intros k m (I & EN & H). assert (Q : exists v, In (k, v) conf).
    { destruct H as [D|(ds & D & NE)]; [exists (SimName "user"); apply CI; exists m; auto|].
      destruct (FO k m I) as [[(D' & _)|(ds' & ss' & ps' & D' & EI' & EP' & _)]|D']; [rewrite D in D'; discriminate| |rewrite D in D'; discriminate]. rewrite D in D'. injection D' as <-.
      eexists. apply CI. exists m. split; [auto|]. split; [auto|]. right. exists ds, ss', ps'. auto. }
    destruct Q as (v & Q). apply in_map_iff. exists (k, v). auto. }
  assert (ND' : NoDup (map fst (gc_meta c))) by (rewrite KE; apply nodup_gate_keys).
  assert (UM : forall k m m', In (k, m) (gc_meta c) -> In (k, m') (gc_meta c) -> m = m') by (intros k m m'; apply fst_unique; auto).
  set (Pk := fun (lc : string * sim_gate) (rs : list gate_row) => forall r, In r rs <-> exists m, gate_on c (fst lc) m /\
    (gm_dist m = PStr "user" /\ In r (su_gates u) /\ g_gate r = fst lc \/ exists j dist name ps, channel_of m j dist name ps /\ channel_row u l (fst lc) j dist name ps r)).
  destruct (mapR_total (sim_gate_rows (su_zg u) l (su_gates u)) Pk conf) as (rss & M & F2).
  { intros [k v] I. destruct (CI' k v I) as (m & GO & [[D ->]|(cs & -> & NE & (ds & D) & SH & CH)]).
    - exists (filter (fun r => String.eqb (g_gate r) k) (su_gates u)). split; [reflexivity|]. intros r. cbn [fst]. rewrite filter_In, String.eqb_eq. split.
      + intros H. exists m. split; [auto|]. left. tauto.
      + intros (m' & GO' & [H|(j & dist & name & ps & (ds & ss & pss & D' & _) & _)]); [tauto|]. rewrite <- (UM k m m' (proj1 GO) (proj1 GO')) in D'. rewrite D in D'. discriminate.
    - assert (UN : forall r, (exists m', gate_on c k m' /\ (gm_dist m' = PStr "user" /\ In r (su_gates u) /\ g_gate r = k \/ exists j dist name ps, channel_of m' j dist name ps /\ channel_row u l k j dist name ps r)) <->
        exists j dist name ps, nth_error cs j = Some (dist, PStr name, ps) /\ channel_row u l k j dist name ps r).
      { intros r. split.
        - intros (m' & GO' & H). rewrite <- (UM k m m' (proj1 GO) (proj1 GO')) in H. destruct H as [(D' & _)|(j & dist & name & ps & C1 & C2)]; [rewrite D in D'; discriminate|]. exists j, dist, name, ps. split; [apply CH; auto|auto].
        - intros (j & dist & name & ps & C1 & C2). exists m. split; [auto|]. right. exists j, dist, name, ps. split; [apply CH; auto|auto]. }
      unfold Pk. cbn [fst]. unfold sim_gate_rows. cbn [fst snd]. destruct cs as [|c0 cs0] eqn:EC; [contradiction|]. rewrite <- EC in *. clear c0 cs0 EC.
      destruct (mem_str k ["H"; "M"; "R"; "CX"; "CZ"]) eqn:KN.
      + assert (KN' : In k ["H"; "M"; "R"; "CX"; "CZ"]) by (apply mem_str_in; auto).
        destruct (mapR_total (fun kc => gate_channel (map (su_zg u k (fst kc)) (seq 0 (draws_needed l k))) (snd kc))
          (fun kc chs => forall r, In r (flat_map (if mem_str k ["H"; "M"; "R"] then channel_rows1 l k else channel_rows2 l k) chs) <-> exists dist name ps, snd kc = (dist, PStr name, ps) /\ channel_row u l k (fst kc) dist name ps r)
          (combine (seq 0 (List.length cs)) cs)) as (chans & M & F2).
        { intros [j x] J. apply in_combine_index in J. cbn [fst snd]. destruct (SH x (nth_error_In _ _ J)) as (dist & name & ps & ->). assert (CO := J). apply CH in CO.
          destruct (channel_total k j dist name ps KN') as (chs & E1 & E2).
          - destruct CO as (ds' & ss & pss & A1 & A2 & A3 & J1 & J2 & J3). assert (CO : channel_of m j dist name ps) by (exists ds', ss, pss; auto 8).
            destruct (FO k m (proj1 GO)) as [[(D' & _)|(ds'' & ss' & ps' & D' & EI' & EP' & L1 & L2 & _ & DS)]|D']; [rewrite D in D'; discriminate| |rewrite D in D'; discriminate].
            assert (DJ : dist = PStr "constant" \/ dist = PStr "gaussian").
            { rewrite A1 in D'. injection D' as <-. clear -DS J1. revert j J1. induction DS as [|d p ds ps [[-> _]|[-> _]] _ IH]; intros [|j] H; cbn in H; try discriminate; try (injection H as <-; auto); eauto. }
            destruct DJ as [-> | ->]; [left|right]; (split; [auto|]); [apply (UC k m j name ps GO CO)|apply (UG k m j name ps GO CO)].
          - exists chs. split; [exact E1|]. intros r. rewrite E2. split; [intros H; exists dist, name, ps; auto|]. intros (d' & n' & p' & [= -> -> ->] & H). exact H. }
        rewrite M. cbn [bindR]. eexists. split; [reflexivity|]. intros r. rewrite UN. destruct (forall2_in _ _ _ F2) as [T1 T2]. rewrite in_flat_map. split.
        * intros (ch & I1 & I2). apply in_concat in I1 as (chs & I1 & I3). destruct (T2 chs I1) as ([j x] & J & H). apply in_combine_index in J. cbn [fst snd] in H.
          destruct (proj1 (H r)) as (dist & name & ps & -> & CR); [apply in_flat_map; exists ch; auto|]. exists j, dist, name, ps. auto.
        * intros (j & dist & name & ps & J & CR). apply in_combine_index in J. destruct (T1 _ J) as (chs & I1 & H). cbn [fst snd] in H.
          assert (I2 : In r (flat_map (if mem_str k ["H"; "M"; "R"] then channel_rows1 l k else channel_rows2 l k) chs)) by (apply H; exists dist, name, ps; auto).
          apply in_flat_map in I2 as (ch & I2 & I3). exists ch. split; [apply in_concat; eauto|auto].
      + exists []. assert (KN' : ~ In k ["H"; "M"; "R"; "CX"; "CZ"]) by (intros H; apply mem_str_in in H; congruence).
        split; [destruct cs as [|c1 cs1]; [contradiction|reflexivity]|]. intros r. rewrite UN. split; [intros []|]. intros (j & dist & name & ps & _ & [[H _]|[H _]]); apply KN'; cbn in H |- *; tauto. }
  exists conf, (List.concat rss). split; [auto|]. split; [unfold assimilate_gates; rewrite M; reflexivity|]. split.
  - intros k. split; [|intros (m & GO); eauto]. intros I. apply in_map_iff in I as ([k' v] & <- & I). destruct (CI' _ _ I) as (m & GO & _). eauto.
  - destruct (forall2_in _ _ _ F2) as [T1 T2]. intros r. rewrite in_concat. unfold gate_configured. split.
    + intros (rs & I1 & I2). destruct (T2 rs I1) as ([k v] & J & H). destruct (proj1 (H r) I2) as (m & K). cbn [fst] in K. exists k, m. exact K.
    + intros (k & m & GO & H). specialize (KC k m GO). apply in_map_iff in KC as ([k' v] & E' & J). cbn [fst] in E'. subst k'. destruct (T1 _ J) as (rs & I1 & H'). exists rs. split; [auto|]. apply H'. eauto.
Qed.
End Gates.

(** The table of qubit errors does not depend on gate errors, whose rows are those of the configuration. *)
Theorem gates_instantiated u qkeys gkeys q g g0 l : fair u -> Permutation qubit_keys qkeys -> Permutation gate_keys gkeys -> usable u q -> usable_gates g -> truthy (gc_sample g0) = false ->
  consistent l -> indexed l -> l_stabs l <> [] ->
  exists d d0, instantiate_errors u qkeys gkeys (mkErrorsConf q g) l = Ok d /\ instantiate_errors u qkeys gkeys (mkErrorsConf q g0) l = Ok d0 /\
    ed_qubits d = ed_qubits d0 /\ ed_qon d = ed_qon d0 /\ (forall k, In k (ed_gon d) <-> exists m, gate_on g k m) /\ forall r, In r (ed_gates d) <-> gate_configured u g l r.
Proof.
  intros FU PQ PG UQ UG S0 C X N. destruct (table_instantiated u qkeys gkeys (mkErrorsConf q g0) l FU PQ UQ S0 C X N) as (d0 & E0 & _).
  destruct (gates_assimilated u l X gkeys g PG UG) as (conf & rows & E1 & E2 & E3 & E4). assert (E0' := E0).
  unfold instantiate_errors in E0' |- *. cbn [ec_qubits ec_gates] in *. destruct (sim_qubit_errors qkeys q) as [[[qc pc]|]|] eqn:EQ; [| |discriminate].
  2:{ exfalso. unfold sim_qubit_errors in EQ. rewrite (us_sample _ _ UQ) in EQ. cbn [negb] in EQ. destruct (foldR _ _ _); discriminate. }
  cbn [bindR] in *. rewrite E1. cbn [bindR]. assert (EG : sim_gate_errors gkeys g0 = Ok None) by (unfold sim_gate_errors; rewrite S0; reflexivity). rewrite EG in E0' |- *. cbn [bindR] in E0' |- *.
  unfold from_lattice_config in *. destruct (assimilate_qubit_errors _ _ _ _) as [t|]; [|discriminate]. cbn [bindR] in E0' |- *. rewrite E2. cbn [bindR]. eexists. exists d0. split; [reflexivity|]. split; [exact E0'|].
  injection E0' as <-. cbn [ed_qubits ed_qon ed_gon ed_gates]. split; [auto|]. split; [auto|]. split; [|exact E4]. intros k. rewrite <- E3. split; apply Permutation_in; [apply Permutation_sym|]; apply FU.
Qed.
