(** Properties of gate errors made from configurations. *)
Require Import String List Bool Arith Ascii ZArith QArith Lia.
From Verif Require Import Base BaseProofs QSpec PauliModel CircuitModel SimSpec SimModel CodesSpec LatticeModel LatticeSpec CodesModel GeneratorModel GeneratorSpec MemorySem MemoryTotal Props_Generator WeightsModel TablesModel TablesSpec TablesProofs TablesQubits TablesLattice Props_Tables.
Import ListNotations.
Local Open Scope string_scope.
Local Open Scope nat_scope.
Local Open Scope list_scope.

(** * C57 Gate errors from configurations *)
(** A row with one error. *)
Lemma contents_single g qs name p c : contents (mkGateRow g qs [name] [p]) c <-> c = [(lower name, p)].
Proof.
  split.
  - intros [N H]. cbn in H. assert (K : forall k v, In (k, v) c <-> k = lower name /\ v = p).
    { intros k v. rewrite H. split.
      - intros (n & L). apply last_holds in L as [E [[= <- <-]|[]]]. cbn in E. auto.
      - intros [-> ->]. exists name. exists [], []. cbn. auto. }
    destruct c as [|[k v] c]; [destruct (proj2 (K _ _) (conj eq_refl eq_refl))|]. destruct (proj1 (K k v) (or_introl eq_refl)) as [-> ->].
    destruct c as [|[k v] c]; auto. destruct (proj1 (K k v) (or_intror (or_introl eq_refl))) as [-> ->]. inversion N as [|? ? X]. cbn in X. tauto.
  - intros ->. split; [constructor; [intros []|constructor]|]. intros k v. cbn. split.
    + intros [[= <- <-]|[]]. exists name, [], []. cbn. auto.
    + intros (n & L). apply last_holds in L as [E [[= <- <-]|[]]]. cbn in E. rewrite E. auto.
Qed.
Lemma last_middle {A} (P : A -> Prop) pre mid post x : last_with P mid x -> (forall y, In y post -> ~ P y) -> last_with P (pre ++ mid ++ post) x.
Proof.
  intros (a & b & -> & H & K) N. exists (pre ++ a), (b ++ post). split; [rewrite <- !app_assoc; auto|]. split; auto. intros y I. apply in_app_iff in I as [I|I]; auto.
Qed.
Lemma mapR_split {A B} (f : A -> Res B) : forall l ys, mapR f l = Ok ys -> forall x, In x l -> exists l1 l2 y1 y y2, l = l1 ++ x :: l2 /\ ys = y1 ++ y :: y2 /\ f x = Ok y /\ mapR f l1 = Ok y1 /\ mapR f l2 = Ok y2.
Proof.
  induction l as [|a l IH]; intros ys E x I; [destruct I|]. cbn [mapR] in E. destruct (f a) as [y|] eqn:F; [|discriminate]. cbn [bindR] in E. destruct (mapR f l) as [ys'|] eqn:M; [|discriminate]. cbn in E. injection E as <-.
  destruct I as [<-|I].
  - exists [], l, [], y, ys'. auto.
  - destruct (IH ys' eq_refl x I) as (l1 & l2 & y1 & z & y2 & -> & -> & Fx & M1 & M2). exists (a :: l1), l2, (y :: y1), z, y2. split; auto. split; auto. split; auto. split; auto. cbn [mapR]. rewrite F. cbn [bindR]. rewrite M1. auto.
Qed.
Lemma mapR_in {A B} (f : A -> Res B) : forall l ys y, mapR f l = Ok ys -> In y ys -> exists x, In x l /\ f x = Ok y.
Proof.
  induction l as [|a l IH]; intros ys y E I; cbn [mapR] in E; [injection E as <-; destruct I|]. destruct (f a) as [z|] eqn:F; [|discriminate]. cbn [bindR] in E. destruct (mapR f l) as [ys'|] eqn:M; [|discriminate]. cbn in E. injection E as <-.
  destruct I as [<-|I]; [exists a; cbn; auto|]. destruct (IH _ _ eq_refl I) as (x & K & Fx). exists x. cbn. auto.
Qed.
Lemma channel1_gate l g c r : In r (channel_rows1 l g c) -> g_gate r = g.
Proof. destruct c; cbn; [intros [<-|[]]; auto|]. intros I. apply in_map_iff in I as (? & <- & _). auto. Qed.
Lemma channel2_gate l g c r : In r (channel_rows2 l g c) -> g_gate r = g.
Proof. destruct c; cbn; [intros [<-|[]]; auto|]. intros I. apply in_map_iff in I as (? & <- & _). auto. Qed.
Lemma label_gate l csv lc rs r : label_rows l csv lc = Ok rs -> In r rs -> g_gate r = fst lc.
Proof.
  unfold label_rows. destruct (snd lc) as [|[|c cs]]; [intros [= <-] I; apply filter_In in I as [_ I]; apply String.eqb_eq in I; auto|discriminate|].
  intros E. assert (E' := f_equal (fun x => match x with Ok a => a | Err _ => [] end) E). cbn beta iota in E'. clear E. subst rs. destruct (mem_str (fst lc) ["H"; "M"; "R"]); [|destruct (mem_str (fst lc) ["CX"; "CZ"]); [|intros []]]; intros I; apply in_flat_map in I as (x & _ & I); [eapply channel1_gate|eapply channel2_gate]; eauto.
Qed.
(** The last row of a gate comes from its own configuration. *)
Lemma own_rows {K} (men : K -> gate_row -> Prop) conf csv l d g rs k r : NoDup (map fst conf) -> from_lattice_gates conf csv l = Ok d ->
  (forall cfg, In (g, cfg) conf -> label_rows l csv (g, cfg) = Ok rs) -> In g (map fst conf) -> (forall y, men k y -> g_gate y = g) ->
  last_with (men k) rs r -> last_with (men k) (ed_gates d) r.
Proof.
  intros N E LR IG MG L. unfold from_lattice_gates, assimilate_gate_errors in E. destruct (mapR (label_rows l csv) conf) as [rss|] eqn:M; [|discriminate]. cbn in E. injection E as <-. cbn.
  apply in_map_iff in IG as ([g' cfg] & EG & I). cbn in EG. subst g'. destruct (mapR_split _ _ _ M _ I) as (l1 & l2 & y1 & y & y2 & -> & -> & F & M1 & M2).
  rewrite (LR cfg I) in F. injection F as <-. rewrite concat_app. cbn [List.concat]. apply last_middle; auto. intros r' I' MR. apply MG in MR.
  apply in_concat in I' as (rs' & I1 & I2). destruct (mapR_in _ _ _ _ M2 I1) as (lc & I3 & F). pose proof (label_gate _ _ _ _ _ F I2) as G.
  rewrite map_app in N. cbn in N. apply NoDup_remove_2 in N. apply N, in_app_iff. right. rewrite <- MR, G. apply in_map. auto.
Qed.
Lemma own_none {K} (men : K -> gate_row -> Prop) conf csv l d g rs k : from_lattice_gates conf csv l = Ok d ->
  (forall cfg, In (g, cfg) conf -> label_rows l csv (g, cfg) = Ok rs) -> (forall y, men k y -> g_gate y = g) ->
  (forall r, In r rs -> ~ men k r) -> forall r, In r (ed_gates d) -> ~ men k r.
Proof.
  intros E LR MG H r I MR. unfold from_lattice_gates, assimilate_gate_errors in E. destruct (mapR (label_rows l csv) conf) as [rss|] eqn:M; [|discriminate]. cbn in E. injection E as <-. cbn in I.
  apply in_concat in I as (rs' & I1 & I2). destruct (mapR_in _ _ _ _ M I1) as ([g' cfg] & I3 & F). pose proof (label_gate _ _ _ _ _ F I2) as G. cbn in G. rewrite (MG _ MR) in G. subst g'.
  rewrite (LR cfg I3) in F. injection F as <-. eapply H; eauto.
Qed.
(** Numbers of the ancillas and the pairs of qubits of the two-qubit gates. *)
Lemma equbit_stab l k i : indexed l -> nth_error (l_stabs l) k = Some i -> equbit_number l i = Z.of_nat (length (l_data l) + k).
Proof.
  intros (_ & _ & _ & EQ & NUM) E. unfold equbit_number. rewrite (NUM (length (l_data l) + k) i); auto. rewrite EQ. rewrite nth_error_app2 by lia. replace (_ + k - _) with k by lia.
  rewrite nth_error_app1; auto. apply nth_error_Some. congruence.
Qed.
Lemma equbit_data l k i : indexed l -> nth_error (l_data l) k = Some i -> equbit_number l i = Z.of_nat k.
Proof.
  intros (_ & _ & _ & EQ & NUM) E. unfold equbit_number. rewrite (NUM k i); auto. rewrite EQ. rewrite nth_error_app1; auto. apply nth_error_Some. congruence.
Qed.
Lemma stab_numbers l a : indexed l -> In (Z.of_nat a) (map (equbit_number l) (l_stabs l)) <-> ancilla_number (length (l_data l)) (length (l_stabs l)) (Z.of_nat a).
Proof.
  intros X. unfold ancilla_number. rewrite in_map_iff. split.
  - intros (i & E & I). apply In_nth_error in I as (k & K). assert (k < length (l_stabs l)) by (apply nth_error_Some; congruence). rewrite (equbit_stab l k i X K) in E. lia.
  - intros B. assert (L : a - length (l_data l) < length (l_stabs l)) by lia. exists (nth (a - length (l_data l)) (l_stabs l) 0). split; [|apply nth_In; auto].
    rewrite (equbit_stab l (a - length (l_data l)) _ X); [f_equal; lia|]. apply nth_error_nth'. auto.
Qed.
Lemma pairs_flat {X} (u v : X -> Z) a b : forall l, is_pair a b (flat_map (fun x => [u x; v x]) l) <-> exists x, In x l /\ a = u x /\ b = v x.
Proof.
  induction l as [|x l IH]; cbn [flat_map app]; [split; [intros H; apply is_pair_nil in H; contradiction|intros (x & [] & _)]|]. rewrite is_pair_cons, IH. split.
  - intros [[-> ->]|(y & I & E)]; [exists x; cbn; auto|exists y; cbn; auto].
  - intros (y & [<-|I] & E); auto. right. exists y. auto.
Qed.
Lemma gate_qubits_flat l : gate_qubits l = flat_map (fun ie : nat * edge => [equbit_number l (fst ie); equbit_number l (e_data (snd ie))]) (flat_map (fun i => map (pair i) (v_edges (l_heap l i))) (l_stabs l)).
Proof.
  unfold gate_qubits. induction (l_stabs l) as [|i is IH]; cbn [flat_map]; auto. rewrite IH, flat_map_app. f_equal. induction (v_edges (l_heap l i)) as [|e es IHe]; cbn; auto. rewrite IHe. auto.
Qed.
Lemma gate_qubits_even l : Nat.Even (length (gate_qubits l)).
Proof. rewrite gate_qubits_flat. induction (flat_map _ (l_stabs l)) as [|x xs IH]; cbn [flat_map app length]; [exists 0; auto|]. destruct IH as (k & ->). exists (S k). lia. Qed.
(** There is an edge between generator [k] and data qubit [q]. *)
Definition joined (l : lattice) (k q : nat) : Prop :=
  exists e, In e (l_edges l) /\ nth_error (l_stabs l) k = Some (e_op e) /\ nth_error (l_data l) q = Some (e_data e).
Lemma gate_pairs l a b : consistent l -> indexed l -> is_pair (Z.of_nat a) (Z.of_nat b) (gate_qubits l) <-> exists k, a = length (l_data l) + k /\ joined l k b.
Proof.
  intros C X. rewrite gate_qubits_flat, pairs_flat. split.
  - intros ([i e] & I & EA & EB). cbn [fst snd] in *. apply in_flat_map in I as (i' & I & J). apply in_map_iff in J as (e' & [= -> ->] & J).
    rewrite (cons_edges _ C) in J. apply filter_In in J as [J T]. destruct (cons_ends _ C _ J) as [D O]. apply In_nth_error in I as (k & K). apply In_nth_error in D as (q & Q).
    rewrite (equbit_stab _ _ _ X K) in EA. rewrite (equbit_data _ _ _ X Q) in EB. exists k. split; [lia|]. assert (b = q) by lia. subst q. exists e. split; auto. split; auto.
    rewrite K. f_equal. unfold touches in T. assert (AD := proj1 (kind_of_list l (e_data e) C) (nth_error_In _ _ Q)). assert (AS := proj1 (proj2 (kind_of_list l i C)) (nth_error_In _ _ K)). apply orb_true_iff in T as [T|T]; apply Nat.eqb_eq in T; auto. exfalso.
    rewrite T in AD. apply kinds_apart in AD as [AD _]. congruence.
  - intros (k & -> & e & J & K & Q). exists (e_op e, e). cbn [fst snd]. rewrite (equbit_stab _ _ _ X K), (equbit_data _ _ _ X Q). split; auto. apply in_flat_map. exists (e_op e). split; [eapply nth_error_In; eauto|].
    apply in_map. rewrite (cons_edges _ C). apply filter_In. split; auto. unfold touches. rewrite Nat.eqb_refl. auto.
Qed.
Lemma fst_unique {A B} (l : list (A * B)) k a b : NoDup (map fst l) -> In (k, a) l -> In (k, b) l -> a = b.
Proof.
  induction l as [|[x y] l IH]; cbn; [intros _ []|]. intros N. inversion N as [|? ? NI N']; subst. intros [[= -> ->]|I] [[= E]|J]; auto.
  - apply (in_map fst) in J. contradiction.
  - subst. apply (in_map fst) in I. contradiction.
Qed.
Lemma label_rows1 l csv g cs c : In g ["H"; "M"; "R"] -> label_rows l csv (g, GateChannels (cs ++ [c])) = Ok (flat_map (channel_rows1 l g) cs ++ channel_rows1 l g c).
Proof.
  intros G. apply mem_str_in in G. unfold label_rows. cbn [snd fst]. destruct (cs ++ [c]) as [|x xs] eqn:E; [destruct cs; discriminate|]. rewrite <- E, G, flat_map_app. cbn [flat_map]. rewrite app_nil_r. auto.
Qed.
Lemma label_rows2 l csv g cs c : In g ["CX"; "CZ"] -> label_rows l csv (g, GateChannels (cs ++ [c])) = Ok (flat_map (channel_rows2 l g) cs ++ channel_rows2 l g c).
Proof.
  intros G. assert (G1 : mem_str g ["H"; "M"; "R"] = false) by (destruct G as [<-|[<-|[]]]; reflexivity). apply mem_str_in in G. unfold label_rows. cbn [snd fst]. destruct (cs ++ [c]) as [|x xs] eqn:E; [destruct cs; discriminate|]. rewrite <- E, G1, G, flat_map_app. cbn [flat_map]. rewrite app_nil_r. auto.
Qed.
Lemma gates_on conf csv l d : from_lattice_gates conf csv l = Ok d -> ed_gon d = map fst conf.
Proof. unfold from_lattice_gates. destruct (assimilate_gate_errors conf csv l); [|discriminate]. cbn. intros [= <-]. auto. Qed.
Lemma channel1_qubits l g c r q : In r (channel_rows1 l g c) -> In q (g_qubits r) -> In q (map (equbit_number l) (l_stabs l)).
Proof.
  destruct c as [n p|n ps]; cbn; [intros [<-|[]]; auto|]. intros I. apply in_map_iff in I as ([i p] & <- & I). cbn. intros [<-|[]]. apply in_map. eapply in_combine_l; eauto.
Qed.

(** The last channel of a gate counts: if it is a constant, all ancillas have exactly this error
    after H, M or R, whatever the other channels are. *)
Theorem C57_constant_one : forall conf csv l d e g cs name p, indexed l -> NoDup (map fst conf) ->
  In g ["H"; "M"; "R"] -> In (g, GateChannels (cs ++ [Constant name p])) conf -> from_lattice_gates conf csv l = Ok d -> gate_errors_dict d = Ok e -> forall a,
  (ancilla_number (length (l_data l)) (length (l_stabs l)) (Z.of_nat a) -> get_gate_error e g (Some a) None = Some [(lower name, p)]) /\
  (~ ancilla_number (length (l_data l)) (length (l_stabs l)) (Z.of_nat a) -> get_gate_error e g (Some a) None = None).
Proof.
  intros conf csv l d e g cs name p X N G I ED EE a. destruct (C38_used d e EE) as [U _]. specialize (U g a G). rewrite (gates_on _ _ _ _ ED) in U. destruct U as [U1 U2].
  assert (LR : forall cfg, In (g, cfg) conf -> label_rows l csv (g, cfg) = Ok (flat_map (channel_rows1 l g) cs ++ channel_rows1 l g (Constant name p))).
  { intros cfg J. rewrite (fst_unique _ _ _ _ N J I). apply label_rows1. auto. }
  assert (IG : In g (map fst conf)) by (change g with (fst (g, GateChannels (cs ++ [Constant name p]))); apply in_map; auto).
  rewrite <- stab_numbers by auto. split.
  - intros A. destruct (U1 (mkGateRow g (map (equbit_number l) (l_stabs l)) [name] [p])) as (c & -> & K); [|rewrite (proj1 (contents_single _ _ _ _ _) K); reflexivity].
    apply (own_rows (mentions (map fst conf) g) conf csv l d g _ _ _ N ED LR IG); [intros y (_ & E & _); auto|]. apply last_snoc. left. split; [|auto]. split; auto.
  - intros A. apply U2. apply (own_none (mentions (map fst conf) g) conf csv l d g _ _ ED LR); [intros y (_ & E & _); auto|]. intros r J (_ & _ & K). apply A.
    apply in_app_iff in J as [J|J]; [apply in_flat_map in J as (c & _ & J)|]; eapply channel1_qubits; eauto.
Qed.
Print Assumptions C57_constant_one.
(** With a Gaussian distribution each ancilla has its own number. *)
Theorem C57_gaussian_one : forall conf csv l d e g cs name ps k p, indexed l -> NoDup (map fst conf) ->
  In g ["H"; "M"; "R"] -> In (g, GateChannels (cs ++ [Gaussian name ps])) conf -> from_lattice_gates conf csv l = Ok d -> gate_errors_dict d = Ok e ->
  k < length (l_stabs l) -> nth_error ps k = Some p -> get_gate_error e g (Some (length (l_data l) + k)) None = Some [(lower name, p)].
Proof.
  intros conf csv l d e g cs name ps k p X N G I ED EE Lk P. destruct (C38_used d e EE) as [U _]. specialize (U g (length (l_data l) + k) G). rewrite (gates_on _ _ _ _ ED) in U. destruct U as [U1 _].
  assert (LR : forall cfg, In (g, cfg) conf -> label_rows l csv (g, cfg) = Ok (flat_map (channel_rows1 l g) cs ++ channel_rows1 l g (Gaussian name ps))).
  { intros cfg J. rewrite (fst_unique _ _ _ _ N J I). apply label_rows1. auto. }
  assert (IG : In g (map fst conf)) by (change g with (fst (g, GateChannels (cs ++ [Gaussian name ps]))); apply in_map; auto).
  destruct (U1 (mkGateRow g [Z.of_nat (length (l_data l) + k)] [name] [p])) as (c & -> & K); [|rewrite (proj1 (contents_single _ _ _ _ _) K); reflexivity].
  apply (own_rows (mentions (map fst conf) g) conf csv l d g _ _ _ N ED LR IG); [intros y (_ & E & _); auto|].
  rewrite <- (app_nil_r (channel_rows1 _ _ _)). apply last_middle; [|intros ? []]. cbn [channel_rows1].
  assert (SK : nth_error (l_stabs l) k = Some (nth k (l_stabs l) 0)) by (apply nth_error_nth'; auto).
  assert (Q : nth_error (combine (l_stabs l) ps) k = Some (nth k (l_stabs l) 0, p)).
  { revert SK P. generalize (nth k (l_stabs l) 0). clear. revert ps k. induction (l_stabs l) as [|i is IH]; intros [|q ps] [|k] x; cbn; try discriminate; [intros [= ->] [= ->]; auto|]. apply IH. }
  apply nth_error_split in Q as (pre & post & E & LP). rewrite E, map_app. cbn [map fst snd]. rewrite (equbit_stab l k _ X SK).
  eexists _, _. split; [reflexivity|]. split; [split; [auto|split; cbn; auto]|]. intros y J (_ & _ & K). apply in_map_iff in J as ([i q] & <- & J). cbn in K. destruct K as [K|[]].
  apply In_nth_error in J as (m & J). assert (Q : nth_error (combine (l_stabs l) ps) (k + S m) = Some (i, q)).
  { rewrite E, nth_error_app2 by lia. replace (k + S m - length pre) with (S m) by lia. auto. }
  assert (SI : nth_error (l_stabs l) (k + S m) = Some i).
  { revert Q. clear. generalize (k + S m). revert ps. induction (l_stabs l) as [|i0 is IH]; intros [|q0 ps] [|n]; cbn; try discriminate; [intros [= -> _]; auto|]. apply IH. }
  rewrite (equbit_stab l _ _ X SI) in K. lia.
Qed.
Print Assumptions C57_gaussian_one.
(** The same for the pairs of an ancilla and a data qubit of CX and CZ, if there are no Gaussian
    distributions. *)
Theorem C57_constant_two : forall conf csv l d e g cs name p, consistent l -> indexed l -> NoDup (map fst conf) ->
  In g ["CX"; "CZ"] -> In (g, GateChannels (cs ++ [Constant name p])) conf -> from_lattice_gates conf csv l = Ok d -> gate_errors_dict d = Ok e ->
  (forall k q, joined l k q -> get_gate_error e g (Some (length (l_data l) + k)) (Some (Some q)) = Some [(lower name, p)]) /\
  ((forall c, In c cs -> exists n p', c = Constant n p') -> forall a q, ~ (exists k, a = length (l_data l) + k /\ joined l k q) -> get_gate_error e g (Some a) (Some (Some q)) = None).
Proof.
  intros conf csv l d e g cs name p C X N G I ED EE. destruct (C38_used d e EE) as [_ U]. rewrite (gates_on _ _ _ _ ED) in U.
  assert (LR : forall cfg, In (g, cfg) conf -> label_rows l csv (g, cfg) = Ok (flat_map (channel_rows2 l g) cs ++ channel_rows2 l g (Constant name p))).
  { intros cfg J. rewrite (fst_unique _ _ _ _ N J I). apply label_rows2. auto. }
  assert (IG : In g (map fst conf)) by (change g with (fst (g, GateChannels (cs ++ [Constant name p]))); apply in_map; auto). split.
  - intros k q J. destruct (proj1 (U g (length (l_data l) + k) q G) (mkGateRow g (gate_qubits l) [name] [p])) as (c & -> & K); [|rewrite (proj1 (contents_single _ _ _ _ _) K); reflexivity].
    apply (own_rows (mentions2 (map fst conf) g) conf csv l d g _ _ _ N ED LR IG); [intros y (_ & E & _); auto|]. apply last_snoc. left. split; [|auto]. split; [auto|split; [auto|]]. cbn [fst snd g_qubits]. apply gate_pairs; auto. exists k. auto.
  - intros OC a q A. apply U; auto. apply (own_none (mentions2 (map fst conf) g) conf csv l d g _ _ ED LR); [intros y (_ & E & _); auto|]. intros r J (_ & _ & K). apply A. apply gate_pairs; auto. cbn [fst snd] in K.
    apply in_app_iff in J as [J|J]; [apply in_flat_map in J as (c & Ic & J); destruct (OC c Ic) as (n & p' & ->)|]; destruct J as [<-|[]]; auto.
Qed.
Print Assumptions C57_constant_two.
(** So of several channels of a gate only the last one is left, although a gate may have several
    channels (frontend/__init__.py 731-740). *)
Theorem C57_channels_refuted : ~ (forall rounds cd d e a c, make_five_qubit rounds = Ok cd ->
  from_lattice_gates [("H", GateChannels [Constant "X" (1 # 100); Constant "Z" (2 # 100)])] [] (c_lattice cd) = Ok d -> gate_errors_dict d = Ok e ->
  get_gate_error e "H" (Some a) None = Some c -> (pget "x" c == 1 # 100)%Q /\ (pget "z" c == 2 # 100)%Q).
Proof.
  intros H. destruct (C49_builtin_codes_exist 1%Z 2%Z false) as (_ & _ & _ & _ & (cd & E) & _); [lia|].
  destruct (C49_builtin_codes 1%Z cd) as [X _]; [auto|]. assert (NS := proj1 (proj2 (proj2 (xc_rows cd X)))). assert (XI := xc_indexed _ X). specialize (H 1%Z cd).
  revert H NS XI. generalize (c_lattice cd). intros l H NS XI.
  set (conf := [("H", GateChannels [Constant "X" (1 # 100); Constant "Z" (2 # 100)])]) in *.
  set (d := mkErrorData (mkTable (lattice_rows l) []) [mkGateRow "H" (map (equbit_number l) (l_stabs l)) ["X"] [1 # 100]; mkGateRow "H" (map (equbit_number l) (l_stabs l)) ["Z"] [2 # 100]] [] ["H"]).
  assert (ED : from_lattice_gates conf [] l = Ok d) by reflexivity.
  destruct (C38_total d) as [T _]. destruct T as (e & EE); [intros r [<-|[<-|[]]] [_ [B|[B|[]]]]; discriminate|].
  destruct (C57_constant_one conf [] l d e "H" [Constant "X" (1 # 100)] "Z" (2 # 100) XI
    ltac:(constructor; [intros []|constructor]) (or_introl eq_refl) (or_introl eq_refl) ED EE (length (l_data l))) as [K _].
  destruct (H d e _ _ E ED EE (K ltac:(unfold ancilla_number; destruct (l_stabs l); [congruence|cbn; lia]))) as [B _]. discriminate B.
Qed.
Print Assumptions C57_channels_refuted.
(** A Gaussian distribution for CX or CZ never works: the rows have the letters of the name, which
    are names of single-qubit errors. *)
Lemma letters_bad name : In name ["IX"; "IY"; "IZ"; "XI"; "XX"; "XY"; "XZ"; "YI"; "YX"; "YY"; "YZ"; "ZI"; "ZX"; "ZY"; "ZZ"] ->
  exists k, In k (letters name) /\ In k ["X"; "Y"; "Z"].
Proof. intros I. cbn in I. repeat destruct I as [<-|I]; try contradiction; cbn; first [exists "X"; split; solve [auto 6]|exists "Y"; split; solve [auto 6]|exists "Z"; split; solve [auto 6]]. Qed.
Theorem C57_gaussian_refuted : forall conf csv l d g name ps cs, consistent l -> NoDup (map fst conf) -> In g ["CX"; "CZ"] -> ps <> [] ->
  In name ["IX"; "IY"; "IZ"; "XI"; "XX"; "XY"; "XZ"; "YI"; "YX"; "YY"; "YZ"; "ZI"; "ZX"; "ZY"; "ZZ"] ->
  In (g, GateChannels cs) conf -> In (Gaussian name ps) cs -> from_lattice_gates conf csv l = Ok d -> exists x, gate_errors_dict d = Err x.
Proof.
  intros conf csv l d g name ps cs C N G NP IN I IC ED. destruct (gate_errors_dict d) as [e|x] eqn:E; [|eauto]. exfalso.
  assert (B : exists r, In r (ed_gates d) /\ two_row (ed_gon d) r /\ bad_names r).
  { unfold from_lattice_gates, assimilate_gate_errors in ED. destruct (mapR (label_rows l csv) conf) as [rss|] eqn:M; [|discriminate]. cbn in ED. injection ED as <-. cbn [ed_gates ed_gon].
    destruct (mapR_split _ _ _ M _ I) as (l1 & l2 & y1 & y & y2 & _ & -> & F & _). destruct ps as [|p ps]; [congruence|].
    exists (mkGateRow g (gate_pair l 0) (letters name) [p]). split; [|split; [split; [apply (in_map fst) in I; auto|auto]|]].
    - apply in_concat. exists y. split; [apply in_app_iff; cbn; auto|]. assert (K := in_split _ _ IC). assert (CS : exists a c, cs = a ++ [c]) by (destruct cs using rev_ind; [destruct IC|eauto]). destruct CS as (a & c & ->).
      rewrite label_rows2 in F by auto. injection F as <-. apply in_app_iff in IC. destruct IC as [IC|[->|[]]]; apply in_app_iff; [left; apply in_flat_map; exists (Gaussian name (p :: ps)); split; auto|right]; cbn; auto.
    - cbn [g_errors]. unfold bad_names. cbn [g_errors]. apply letters_bad; auto. }
  destruct B as (r & Ir & T & B). destruct (first_bad (ed_gon d) (ed_gates d)) as [F|(a & r' & b & ER & FA & T' & BD)].
  - destruct (F r Ir T) as [NB _]. auto.
  - destruct (C38_total d) as [_ K]. destruct (K a r' b ER FA T') as [K1 K2]. destruct BD as [BD|[NB OD]]; [rewrite K1 in E by auto|rewrite K2 in E by auto]; discriminate.
Qed.
Print Assumptions C57_gaussian_refuted.
(** Constants in the range of probabilities, with the right names, can be used with the code. *)
Definition sound_gate (g : string) (cfg : gate_config) : Prop :=
  exists cs, cfg = GateChannels cs /\ cs <> [] /\ forall c, In c cs -> exists name p, c = Constant name p /\ (0 <= p <= 1)%Q /\
    In name (if in_dec string_dec g ["H"; "M"; "R"] then ["X"; "Y"; "Z"] else ["IX"; "IY"; "IZ"; "XI"; "XX"; "XY"; "XZ"; "YI"; "YX"; "YY"; "YZ"; "ZI"; "ZX"; "ZY"; "ZZ"]).
Theorem C57_valid : forall conf csv l, consistent l -> indexed l -> (forall g cfg, In (g, cfg) conf -> In g ["H"; "M"; "R"; "CX"; "CZ"] /\ sound_gate g cfg) ->
  exists d, from_lattice_gates conf csv l = Ok d /\ ed_gon d = map fst conf /\ forall r, In r (ed_gates d) -> valid_row (length (l_data l)) (length (l_stabs l)) r.
Proof.
  intros conf csv l C X H.
  assert (T : exists rss, mapR (label_rows l csv) conf = Ok rss).
  { clear C X. induction conf as [|[g cfg] conf IH]; [exists []; auto|]. destruct IH as (rss & E); [intros; apply H; cbn; auto|]. destruct (H g cfg (or_introl eq_refl)) as (_ & cs & -> & NE & _).
    destruct cs as [|c cs]; [congruence|]. cbn [mapR]. unfold label_rows at 1. cbn [snd bindR]. rewrite E. cbn. eauto. }
  destruct T as (rss & E). unfold from_lattice_gates, assimilate_gate_errors. rewrite E. cbn [bindR]. eexists. split; [reflexivity|]. split; [auto|]. cbn [ed_gates].
  intros r I. apply in_concat in I as (rs & I1 & I2). destruct (mapR_in _ _ _ _ E I1) as ([g cfg] & I3 & F). destruct (H g cfg I3) as (G & cs & -> & NE & HC).
  assert (CS : exists a c, cs = a ++ [c]) by (destruct cs using rev_ind; [congruence|eauto]). destruct CS as (a & c & EC).
  assert (SUM : forall names name p, NoDup names -> (0 <= p <= 1)%Q -> distribution names [(name, p)]).
  { intros names name p ND [P0 P1]. assert (V : forall k, pget k [(name, p)] = if String.eqb name k then p else 0%Q) by (intros k; unfold pget; cbn; destruct (String.eqb name k); auto). split.
    - intros k _. rewrite V. destruct (String.eqb name k); auto. apply Qle_refl.
    - assert (Z : forall ks, ~ In name ks -> (qsum (map (fun k => pget k [(name, p)]) ks) == 0)%Q).
      { unfold qsum. induction ks as [|k ks IH]; cbn [map fold_right]; [reflexivity|]. intros NI. rewrite V. destruct (String.eqb_spec name k) as [->|]; [cbn in NI; tauto|]. cbn [fold_right]. rewrite IH by (cbn in NI; tauto). reflexivity. }
      unfold qsum in *. induction ND as [|k ks NI ND IH]; cbn [map fold_right]; [discriminate|]. rewrite V. destruct (String.eqb_spec name k) as [->|D]; [rewrite Z by auto; rewrite Qplus_0_r; auto|rewrite Qplus_0_l; auto]. }
  assert (Ex : (In g ["H"; "M"; "R"] /\ exists name p, (0 <= p <= 1)%Q /\ In name ["X"; "Y"; "Z"] /\ r = mkGateRow g (map (equbit_number l) (l_stabs l)) [name] [p]) \/
    (In g ["CX"; "CZ"] /\ exists name p, (0 <= p <= 1)%Q /\ In name ["IX"; "IY"; "IZ"; "XI"; "XX"; "XY"; "XZ"; "YI"; "YX"; "YY"; "YZ"; "ZI"; "ZX"; "ZY"; "ZZ"] /\ r = mkGateRow g (gate_qubits l) [name] [p])).
  { destruct (in_dec string_dec g ["H"; "M"; "R"]) as [G1|G1].
    - left. split; auto. subst cs. rewrite label_rows1 in F by auto. injection F as <-. assert (K : exists c', In c' (a ++ [c]) /\ In r (channel_rows1 l g c')).
      { apply in_app_iff in I2 as [I2|I2]; [apply in_flat_map in I2 as (c' & J & K); exists c'; split; auto; apply in_app_iff; auto|]. exists c. split; auto. apply in_app_iff. cbn. auto. }
      destruct K as (c' & J & K). destruct (HC c' J) as (name & p & -> & P & NM). destruct K as [<-|[]]. exists name, p. auto.
    - right. assert (G2 : In g ["CX"; "CZ"]) by (cbn in G, G1 |- *; tauto). split; auto. subst cs. rewrite label_rows2 in F by auto. injection F as <-. assert (K : exists c', In c' (a ++ [c]) /\ In r (channel_rows2 l g c')).
      { apply in_app_iff in I2 as [I2|I2]; [apply in_flat_map in I2 as (c' & J & K); exists c'; split; auto; apply in_app_iff; auto|]. exists c. split; auto. apply in_app_iff. cbn. auto. }
      destruct K as (c' & J & K). destruct (HC c' J) as (name & p & -> & P & NM). destruct K as [<-|[]]. exists name, p. auto. }
  assert (ND2 : NoDup two_qubit_paulis) by (repeat constructor; cbn; intuition discriminate).
  assert (ND1 : NoDup ["x"; "y"; "z"]) by (repeat constructor; cbn; intuition discriminate).
  destruct Ex as [(G1 & name & p & P & NM & ->)|(G2 & name & p & P & NM & ->)]; split; cbn [g_gate g_qubits g_errors].
  - intros _. split; [|split].
    + intros q J. apply in_map_iff in J as (i & <- & J). apply In_nth_error in J as (k & K). assert (k < length (l_stabs l)) by (apply nth_error_Some; congruence). rewrite (equbit_stab _ _ _ X K). unfold ancilla_number. lia.
    + intros k [<-|[]]. cbn in NM. repeat destruct NM as [<-|NM]; try contradiction; cbn; auto.
    + intros c0 K. apply contents_single in K as ->. auto.
  - intros B. exfalso. cbn in G1, B. repeat destruct G1 as [<-|G1]; try contradiction; repeat destruct B as [B|B]; try contradiction; discriminate.
  - intros B. exfalso. cbn in G2, B. repeat destruct G2 as [<-|G2]; try contradiction; repeat destruct B as [B|B]; try contradiction; discriminate.
  - intros _. split; [apply gate_qubits_even|]. split; [|split].
    + intros x y J. rewrite gate_qubits_flat in J. apply pairs_flat in J as ([i e] & J & -> & ->). cbn [fst snd]. apply in_flat_map in J as (i' & J1 & J2). apply in_map_iff in J2 as (e' & [= -> ->] & J2).
      rewrite (cons_edges _ C) in J2. apply filter_In in J2 as [J2 _]. destruct (cons_ends _ C _ J2) as [D _]. apply In_nth_error in J1 as (k & K). apply In_nth_error in D as (q & Q).
      assert (k < length (l_stabs l)) by (apply nth_error_Some; congruence). assert (q < length (l_data l)) by (apply nth_error_Some; congruence).
      rewrite (equbit_stab _ _ _ X K), (equbit_data _ _ _ X Q). unfold ancilla_number, data_number. lia.
    + intros k [<-|[]]. cbn in NM. repeat destruct NM as [<-|NM]; try contradiction; cbn; auto 20.
    + intros c0 K. apply contents_single in K as ->. auto.
Qed.
Print Assumptions C57_valid.
(** The five-qubit code: CX errors for the four edges of each generator, and R errors. *)
Example C57_example :
  (do cd <- make_five_qubit 1;
   do d <- from_lattice_gates [("CX", GateChannels [Constant "IZ" (1 # 7); Constant "XZ" (1 # 9)]); ("R", GateChannels [Gaussian "Z" [1 # 2; 1 # 3; 1 # 4; 1 # 5]%Q])] [] (c_lattice cd);
   do e <- gate_errors_dict d; Ok (length (er_CX e), get_gate_error e "CX" (Some 5) (Some (Some 0)), get_gate_error e "CX" (Some 5) (Some (Some 4)), er_R e)) =
  Ok (16%nat, Some [("xz", 1 # 9)], None, [(5%Z, [("z", 1 # 2)]); (6%Z, [("z", 1 # 3)]); (7%Z, [("z", 1 # 4)]); (8%Z, [("z", 1 # 5)])])%Q /\
  (do cd <- make_five_qubit 1;
   do d <- from_lattice_gates [("CX", GateChannels [Gaussian "IZ" (repeat (1 # 7)%Q 16)])] [] (c_lattice cd); gate_errors_dict d) = Err KeyError /\
  (do cd <- make_five_qubit 1;
   do d <- from_lattice_gates [("H", GateUser)] [mkGateRow "H" [5%Z] ["X"] [1 # 7]; mkGateRow "M" [5%Z] ["X"] [1 # 7]] (c_lattice cd); do e <- gate_errors_dict d; Ok (er_H e, er_M e)) = Ok ([(5%Z, [("x", 1 # 7)])], []).
Proof. repeat split; vm_compute; reflexivity. Qed.
