(** Property theorems C10-C12, C41, C42: conversions between operators, strings and
    dictionaries, tensor products and states from strings. *)
Require Import List Bool Arith ZArith Lia String Ascii.
From Verif Require Import Base BaseProofs QSpec PauliModel PauliSem PauliProofs PauliAlg TableauProofs StateProofs CircuitModel
  PauliTextModel PauliTextSpec PauliTextProofs TensorProofs StateTextProofs.
Import ListNotations.
Local Open Scope string_scope.
Local Open Scope nat_scope.
Local Open Scope list_scope.

Lemma is_identity_iff r : is_identity r <-> existsb nonid (ops r) = false.
Proof.
  unfold is_identity, denote. cbn [snd]. induction (ops r) as [|[x z] o IH]; cbn [map existsb].
  - split; auto.
  - rewrite Forall_cons_iff, IH, orb_false_iff. unfold nonid; cbn [fst snd].
    destruct x, z; cbn [p1 orb]; split; intros [A B]; try discriminate; auto.
Qed.
Lemma not_identity r : ~ is_identity r -> existsb nonid (ops r) = true.
Proof. rewrite is_identity_iff. destruct (existsb nonid (ops r)); auto. Qed.
Lemma padded_resize m r s : padded m (mkRow (ops r) s) (mkRow (resize m (ops r)) s).
Proof. unfold padded, denote. cbn [fst snd ops neg]. rewrite map_app, map_rep, map_length. auto. Qed.

(** * C10 *)
(** Printing and parsing gives the operator back, in both forms, sign included. *)
Theorem C10_round_trip (show_identities : bool) (r : row) :
  ~ is_identity r -> string_to_pauli (pauli_to_string r show_identities) (Some (List.length (ops r))) = Ok r.
Proof. intros H. apply row_round. apply not_identity; auto. Qed.
Print Assumptions C10_round_trip.

(** A larger number of qubits pads with identities. *)
Theorem C10_round_trip_padded (show_identities : bool) (r : row) (m : nat) :
  ~ is_identity r -> List.length (ops r) <= m ->
  exists r', string_to_pauli (pauli_to_string r show_identities) (Some m) = Ok r' /\ padded m r r'.
Proof.
  intros H L. apply not_identity in H. exists (mkRow (resize m (ops r)) (neg r)). split.
  - destruct show_identities.
    + rewrite canonical_round, H, Nat.max_l by auto. auto.
    + rewrite short_round, H, dict_round by auto. auto.
  - destruct r as [o s]. apply (padded_resize m (mkRow o s) s).
Qed.
Print Assumptions C10_round_trip_padded.

(** The identity cannot be parsed back, in either form, with any number of qubits. *)
Theorem C10_identity_raises (show_identities : bool) (r : row) (m : option nat) :
  is_identity r -> string_to_pauli (pauli_to_string r show_identities) m = Err ValueError.
Proof.
  rewrite is_identity_iff. intros H. destruct show_identities; rewrite ?canonical_round, ?short_round, H; auto.
Qed.
Print Assumptions C10_identity_raises.

(** Spaces and underscores can be inserted anywhere. *)
Theorem C10_separators (a b : string) (m : option nat) :
  string_to_pauli (a ++ " " ++ b) m = string_to_pauli (a ++ b) m /\
  string_to_pauli (a ++ "_" ++ b) m = string_to_pauli (a ++ b) m.
Proof.
  unfold string_to_pauli. rewrite !remove_app. split; auto.
Qed.
Print Assumptions C10_separators.

Definition op12 : row := mkRow (repeat (false, false) 11 ++ [(true, true); (true, false)]) true.
Example C10_example :
  ~ is_identity op12 /\ pauli_to_string op12 false = "- Y11 X12" /\ pauli_to_string op12 true = "-IIIIIIIIIIIYX" /\
  string_to_pauli "- Y11 X12" (Some 13) = Ok op12 /\ string_to_pauli "-Y1_1 X12" None = Ok op12.
Proof.
  split; [|repeat split; vm_compute; reflexivity]. rewrite is_identity_iff. vm_compute. discriminate.
Qed.

(** The docstring (pauli.py:987-991) promises ValueError for unrecognised characters and for
    too few qubits, and says that the forms cannot be mixed (pauli.py:977); all are accepted. *)
Theorem C10_unknown_character_refuted :
  exists s c a b r, s = (a ++ String c b)%string /\ mem_str (String c "") ["+"; "-"; "I"; "X"; "Y"; "Z"] = false /\
    is_digit c = false /\ c <> " "%char /\ c <> "_"%char /\ string_to_pauli s None = Ok r.
Proof.
  exists "XQ", "Q"%char, "X", "", (mkRow [(true, false); (false, false)] false).
  repeat split; try discriminate; vm_compute; reflexivity.
Qed.
Print Assumptions C10_unknown_character_refuted.
Theorem C10_too_few_qubits_refuted :
  exists s m r, m < String.length s /\ string_to_pauli s (Some m) = Ok r /\ List.length (ops r) > m.
Proof. exists "XX", 1, (mkRow [(true, false); (true, false)] false). repeat split; cbn; auto. Qed.
Print Assumptions C10_too_few_qubits_refuted.
Theorem C10_mixed_forms_refuted :
  exists r, string_to_pauli "XX1" None = Ok r /\ denote r = (false, [PI; PX]).
Proof. eexists. split; vm_compute; reflexivity. Qed.
Print Assumptions C10_mixed_forms_refuted.

(** * C11 *)
(** Dictionary and back: the same factors, padded; the sign is lost (becomes plus). *)
Theorem C11_operator_round_trip (r : row) (m : nat) :
  ~ is_identity r -> List.length (ops r) <= m ->
  exists r', dict_to_pauli (pauli_to_dict r) (Some m) = Ok r' /\ padded m (mkRow (ops r) false) r'.
Proof.
  intros H L. apply not_identity in H. rewrite dict_round by auto. eexists. split; [reflexivity|]. apply padded_resize.
Qed.
Print Assumptions C11_operator_round_trip.
Theorem C11_identity_raises (r : row) (m : option nat) :
  is_identity r -> dict_to_pauli (pauli_to_dict r) m = Err ValueError.
Proof. rewrite is_identity_iff. apply dict_err. Qed.
Print Assumptions C11_identity_raises.

(** Operator and back: the same dictionary without its identity factors. *)
Theorem C11_dictionary_round_trip (d : pdict) (m : option nat) (r : row) :
  NoDup (map fst d) -> (forall k v, In (k, v) d -> In v ["I"; "X"; "Y"; "Z"]) -> dict_to_pauli d m = Ok r ->
  forall k v, dict_get (pauli_to_dict r) k = Some v <-> dict_get d k = Some v /\ v <> "I".
Proof.
  intros ND F E k v. rewrite (dict_back d m r ND); auto.
  - destruct (dict_get d k) as [w|].
    + destruct (String.eqb_spec w "I") as [->|N].
      * split; [discriminate|]. intros [[= <-] X]. congruence.
      * split; [intros [= <-]; auto|]. intros [A _]. auto.
    + split; [discriminate|]. intros [A _]. discriminate.
  - apply Forall_forall. intros [k' v'] H. apply (F k' v'). auto.
Qed.
Print Assumptions C11_dictionary_round_trip.

(** Padding keeps sign and factors, never truncates and does not change the dictionary. *)
Theorem C11_padding (r : row) (m : nat) :
  padded m r (pad_operator r m) /\ pauli_to_dict (pad_operator r m) = pauli_to_dict r /\
  List.length (ops (pad_operator r m)) = max m (List.length (ops r)) /\
  (m <= List.length (ops r) -> pad_operator r m = r).
Proof.
  rewrite pad_eq. split; [|split; [|split]].
  - destruct r as [o s]. apply (padded_resize m (mkRow o s) s).
  - unfold pauli_to_dict. cbn [ops]. apply to_dict_pad.
  - cbn [ops]. rewrite app_length, repeat_length. lia.
  - intros H. replace (m - List.length (ops r)) with 0 by lia. cbn. rewrite app_nil_r. destruct r; auto.
Qed.
Print Assumptions C11_padding.

Example C11_example :
  pauli_to_dict op12 = [(11, "Y"); (12, "X")] /\ dict_to_pauli [(12, "X"); (3, "I"); (11, "Y")] None = Ok (mkRow (ops op12) false) /\
  pad_operator (mkRow [(true, true); (false, true)] true) 4 = mkRow [(true, true); (false, true); (false, false); (false, false)] true.
Proof. repeat split; vm_compute; reflexivity. Qed.

(** Values that are no Pauli letters are not rejected: substring tests make "" a Y. *)
Theorem C11_unknown_value_refuted :
  exists r, dict_to_pauli [(0, "")] None = Ok r /\ denote r = (false, [PY]).
Proof. eexists. split; vm_compute; reflexivity. Qed.
Print Assumptions C11_unknown_value_refuted.

(** * C12 *)
Theorem C12_tensor_states (na nb : nat) (a b : tableau) :
  0 < na -> 0 < nb -> valid na a -> valid nb b ->
  exists t, tensor_product [St a; St b] = Ok (St t) /\ valid (na + nb) t /\
    (* stabilisers: those of a with identities on the right, those of b with identities on the left *)
    map denote (stab_rows (na + nb) t) =
      map (fun p => (fst p, snd p ++ repeat PI nb)) (map denote (stab_rows na a)) ++
      map (fun p => (fst p, repeat PI na ++ snd p)) (map denote (stab_rows nb b)) /\
    (forall v w, describes na a v -> describes nb b w -> describes (na + nb) t (vtensor na v w)) /\
    (forall v w, norm2 (na + nb) (vtensor na v w) = norm2 na v * norm2 nb w)%Z.
Proof.
  intros Ha Hb Va Vb. apply valid_wf in Va, Vb. exists (tens na nb a b).
  split; [|split; [|split; [|split]]].
  - unfold tensor_product. cbn [rev app tensor_chain tensor2]. rewrite (tensor_state_tens na nb) by auto. auto.
  - apply valid_wf, tens_wf; auto.
  - destruct Va as (La & _), Vb as (Lb & _). rewrite tens_stabs by auto. rewrite map_app, !map_map. f_equal; apply map_ext; intros r;
      unfold denote, pad_right, pad_left; cbn [ops neg fst snd]; rewrite map_app, map_rep; auto.
  - intros v w. apply tens_describes; auto.
  - intros v w. apply norm2_vtensor.
Qed.
Print Assumptions C12_tensor_states.

(** Any number of states. *)
Theorem C12_tensor_many (l : list (nat * tableau * vec)) :
  l <> [] -> (forall n t v, In (n, t, v) l -> 0 < n /\ valid n t /\ describes n t v) ->
  let N := list_sum (map (fun x => fst (fst x)) l) in
  exists t, tensor_product (map (fun x => St (snd (fst x))) l) = Ok (St t) /\ valid N t /\
    describes N t (vtensors (map (fun x => (fst (fst x), snd x)) l)).
Proof.
  intros NE H. cbv zeta. destruct (tensors_ok l NE) as (t & E & W & D).
  - apply Forall_forall. intros [[n t] v] Hx. destruct (H n t v Hx) as (A & B & C). split; [auto|]. split; auto. apply valid_wf; auto.
  - exists t. split; [exact E|]. split; [apply valid_wf; exact W|exact D].
Qed.
Print Assumptions C12_tensor_many.

(** Operators: signs multiply, factors are concatenated, and the product acts on the tensor
    product of two vectors factor by factor. *)
Theorem C12_tensor_operators (l : list row) :
  l <> [] -> exists r, tensor_product (map Op l) = Ok (Op r) /\
    denote r = (fold_right xorb false (map (fun a => fst (denote a)) l), List.concat (map (fun a => snd (denote a)) l)).
Proof.
  intros NE. rewrite tensor_ops by auto. eexists. split; [reflexivity|].
  unfold denote. cbn [ops neg fst snd]. rewrite concat_map, map_map. auto.
Qed.
Print Assumptions C12_tensor_operators.
Theorem C12_operator_action (na nb : nat) (a b : row) :
  List.length (ops a) = na -> List.length (ops b) = nb ->
  exists r, tensor_product [Op a; Op b] = Ok (Op r) /\
    forall v w, veq (na + nb) (papply (denote r) (vtensor na v w)) (vtensor na (papply (denote a) v) (papply (denote b) w)).
Proof.
  intros La Lb. exists (tensor_row a b). split; [reflexivity|]. intros v w. apply tensor_row_apply; auto.
Qed.
Print Assumptions C12_operator_action.

Theorem C12_associative (na nb nc : nat) (a b c : tableau) :
  0 < na -> 0 < nb -> 0 < nc -> valid na a -> valid nb b -> valid nc c ->
  exists t ab bc, tensor_product [St a; St b; St c] = Ok (St t) /\
    tensor_product [St a; St b] = Ok (St ab) /\ tensor_product [St ab; St c] = Ok (St t) /\
    tensor_product [St b; St c] = Ok (St bc) /\ tensor_product [St a; St bc] = Ok (St t).
Proof.
  intros Ha Hb Hc Va Vb Vc. apply valid_wf in Va, Vb, Vc.
  pose proof (tens_wf na nb a b Va Vb) as Wab. pose proof (tens_wf nb nc b c Vb Vc) as Wbc.
  pose proof (tens_assoc na nb nc a b c (proj1 Va) (proj1 Vb) (proj1 Vc)) as AS.
  exists (tens na (nb + nc) a (tens nb nc b c)), (tens na nb a b), (tens nb nc b c).
  unfold tensor_product. cbn [rev app tensor_chain tensor2].
  rewrite (tensor_state_tens na nb a b), (tensor_state_tens nb nc b c) by auto. cbn [bindR tensor_chain tensor2].
  rewrite (tensor_state_tens (na + nb) nc _ c), (tensor_state_tens na (nb + nc) a) by (auto; lia). cbn [bindR]. rewrite AS. auto.
Qed.
Print Assumptions C12_associative.

Theorem C12_mixed_raises (r : row) (t : tableau) :
  tensor_product [Op r; St t] = Err ValueError /\ tensor_product [St t; Op r] = Err ValueError /\ tensor_product [] = Err ValueError.
Proof. auto. Qed.
Print Assumptions C12_mixed_raises.

(** A Bell pair and |1>. *)
Definition bell : tableau :=
  [mkRow [(false, true); (false, false)] false; mkRow [(false, false); (true, false)] false;
   mkRow [(true, false); (true, false)] false; mkRow [(false, true); (false, true)] false].
Definition one : tableau := [mkRow [(true, false)] false; mkRow [(false, true)] true].
Lemma small_valid n t : List.length t = 2 * n -> forallb (fun r => List.length (ops r) =? n) t = true ->
  forallb (fun i => forallb (fun j => Bool.eqb (symp (ops (t@@i)) (ops (t@@j))) (conj_rows n i j)) (seq 0 (2 * n))) (seq 0 (2 * n)) = true ->
  valid n t.
Proof.
  intros L F C. apply valid_wf. split; auto. split.
  - intros i Hi. rewrite forallb_forall in F. apply Nat.eqb_eq, F. apply nth_In. lia.
  - intros i j Hi Hj. rewrite forallb_forall in C. specialize (C i ltac:(apply in_seq; lia)). rewrite forallb_forall in C.
    apply Bool.eqb_prop, C. apply in_seq; lia.
Qed.
Example C12_example :
  valid 2 bell /\ valid 1 one /\
  exists t, tensor_product [St bell; St one] = Ok (St t) /\
    state_to_stabiliser_string t true = Ok (["+ZII"; "+IXI"; "+IIX"], ["+XXI"; "+ZZI"; "-IIZ"]).
Proof.
  split; [apply small_valid; reflexivity|]. split; [apply small_valid; reflexivity|]. eexists. split; vm_compute; reflexivity.
Qed.

(** * C41 *)
(** Printing a state and parsing the strings gives the same tableau, in both forms. *)
Theorem C41_state_round_trip (n : nat) (t : tableau) (show_identities : bool) :
  0 < n -> valid n t ->
  exists ds ss, state_to_stabiliser_string t show_identities = Ok (ds, ss) /\
    List.length ds = n /\ List.length ss = n /\ string_to_state ss ds (Some n) = Ok t.
Proof.
  intros Hn V. apply valid_wf in V. destruct (state_round n show_identities t V Hn) as (ds & ss & E1 & E2).
  exists ds, ss. split; auto. destruct (string_to_state_inv _ _ _ _ E2) as (w & rs & rd & -> & M1 & M2 & L & _).
  destruct (mapR_ok _ _ _ M1) as (L1 & _). destruct (mapR_ok _ _ _ M2) as (L2 & _). destruct V as (LT & _).
  rewrite app_length in LT. split; [lia|]. split; [lia|]. exact E2.
Qed.
Print Assumptions C41_state_round_trip.
Example C41_example :
  valid 2 bell /\ state_to_stabiliser_string bell false = Ok (["+ Z0"; "+ X1"], ["+ X0 X1"; "+ Z0 Z1"]) /\
  string_to_state ["+ X0 X1"; "+ Z0 Z1"] ["+ Z0"; "+ X1"] (Some 2) = Ok bell.
Proof. split; [apply small_valid; reflexivity|]. split; vm_compute; reflexivity. Qed.

(** * C42 *)
(** What acceptance by string_to_state guarantees. *)
Theorem C42_accepted_state (stabs destabs : list string) (m : option nat) (t : tableau) :
  string_to_state stabs destabs m = Ok t ->
  exists n rs rd, t = rd ++ rs /\ List.length rs = List.length stabs /\ List.length rd = List.length rs /\
    (forall i, i < List.length rs ->
       string_to_pauli (nth i stabs "") m = Ok (rs@@i) /\ string_to_pauli (nth i destabs "") m = Ok (rd@@i)) /\
    (forall i j, i < List.length rs -> j < List.length rs ->
       commute n (denote (rs@@i)) (denote (rs@@j)) /\ commute n (denote (rd@@i)) (denote (rd@@j))) /\
    (forall i, i < List.length rs -> anticommute n (denote (rd@@i)) (denote (rs@@i))).
Proof.
  intros H. destruct (string_to_state_inv _ _ _ _ H) as (n & rs & rd & -> & E1 & E2 & L & F & C).
  exists n, rs, rd. destruct (mapR_ok _ _ _ E1) as (L1 & N1). destruct (mapR_ok _ _ _ E2) as (L2 & N2).
  rewrite check_all_iff in C. apply Forall_app in F. destruct F as (Fd & Fs). rewrite Forall_forall in Fd, Fs.
  assert (Ws : forall i, i < List.length rs -> List.length (ops (rs@@i)) = n) by (intros; apply Fs, nth_In; auto).
  assert (Wd : forall i, i < List.length rs -> List.length (ops (rd@@i)) = n) by (intros; apply Fd, nth_In; lia).
  assert (K : forall i j, i < List.length rs -> j <= i ->
     symp (ops (rs@@i)) (ops (rs@@j)) = false /\ symp (ops (rd@@i)) (ops (rd@@j)) = false /\
     (i = j -> symp (ops (rs@@i)) (ops (rd@@j)) = true)).
  { intros i j Hi Hj. specialize (C i j Hi ltac:(lia)). rewrite check_pair_iff in C. specialize (C Hj).
    rewrite !commutator_sign_symp in C by (rewrite ?Ws, ?Wd by lia; auto). auto. }
  split; auto. split; auto. split; auto. split; [|split].
  - intros i Hi. split. apply N1; lia. apply N2; lia.
  - intros i j Hi Hj. rewrite !commute_iff by (auto).
    destruct (le_lt_dec j i). destruct (K i j Hi ltac:(lia)) as (A & B & _); auto.
    destruct (K j i Hj ltac:(lia)) as (A & B & _). rewrite (symp_comm (ops (rs@@i))), (symp_comm (ops (rd@@i))). auto.
  - intros i Hi. rewrite anticommute_iff by auto. rewrite symp_comm. apply (K i i Hi (le_n _)). auto.
Qed.
Print Assumptions C42_accepted_state.

(** The relation between stabilisers and destabilisers with different indices is never
    checked (the branch [elif j > i], pauli.py:1155, is dead): invalid tableaus are accepted. *)
Theorem C42_cross_relations_refuted :
  exists stabs destabs t, string_to_state stabs destabs None = Ok t /\ List.length t = 4 /\ ~ valid 2 t /\
    anticommute 2 (denote (t@@1)) (denote (t@@2)).
Proof.
  exists ["ZI"; "IZ"], ["XI"; "XX"]. eexists. split; [vm_compute; reflexivity|]. split; [reflexivity|]. split.
  - rewrite valid_wf. intros (_ & _ & C). specialize (C 1 2 ltac:(lia) ltac:(lia)). discriminate.
  - apply anticommute_iff; reflexivity.
Qed.
Print Assumptions C42_cross_relations_refuted.
Example C42_example :
  string_to_state ["XX"; "ZZ"] ["ZI"; "IX"] None = Ok bell /\
  string_to_state ["ZI"; "IZ"] ["XI"; "ZX"] None = Err ValueError /\ string_to_state ["XI"; "ZI"] ["ZI"; "XI"] None = Err ValueError.
Proof. repeat split; vm_compute; reflexivity. Qed.
