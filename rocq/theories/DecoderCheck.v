(** The success check and memory experiments with a decoder. *)
Require Import List Bool Arith ZArith QArith Lia String.
From Verif Require Import Base BaseProofs QSpec PauliModel PauliSem PauliAlg MeasureProofs GraphProofs LatticeModel LatticeSpec LatticeOps
  CodesModel CodesSpec CodesProofs GeneratorModel GeneratorSpec MemorySem
  ErasureModel ErasureProofs SyngraphModel SyngraphErrors SyngraphFinal Props_UnionFind Props_Generator
  DecoderSpec DecoderModel DecoderProofs DecoderObjects DecoderHistory.
Import ListNotations.
Open Scope nat_scope.
Local Open Scope list_scope.

(** The operators to be checked: all logical operators or those given. *)
Definition chosen (c : stabcode) (x : option logical_spec) (is : list nat) : Prop :=
  match x with
  | None => is = seq 0 (List.length (c_logicals c))
  | Some x => logical_ops_to_indices c x = Ok is
  end.

Lemma get_all {A} (l : list A) d is : (forall i, In i is -> i < List.length l) -> mapR (get l) is = Ok (map (fun i => nth i l d) is).
Proof.
  induction is as [|i is IH]; intros H; auto. cbn [mapR map]. rewrite (get_nth _ _ d) by (apply H; left; auto).
  cbn [bindR]. rewrite IH by (intros; apply H; right; auto). reflexivity.
Qed.

Lemma chosen_ops c x is : chosen c x is ->
  match x with None => Ok (c_logicals c) | Some s => do is <- logical_ops_to_indices c s; mapR (get (c_logicals c)) is end =
  Ok (map (fun i => nth i (c_logicals c) row0) is) /\ forall i, In i is -> i < List.length (c_logicals c).
Proof.
  destruct x as [x|]; cbn [chosen].
  - intros E. rewrite E. cbn [bindR]. destruct (indices_ok _ _ _ E) as [_ H]. rewrite (get_all _ row0) by auto. auto.
  - intros ->. split; [|intros i I; apply in_seq in I; lia]. f_equal. apply list_ext with (d := row0); [rewrite map_length, seq_length; auto|].
    intros i L. rewrite nth_map_seq by auto. auto.
Qed.

Lemma agree_all (f : nat -> bool) is toggle : List.length toggle = List.length is ->
  (forallb (fun tb : bool * bool => Bool.eqb (fst tb) (snd tb)) (combine toggle (map f is)) = true <->
   forall k, k < List.length is -> nth k toggle false = f (nth k is 0)).
Proof.
  revert toggle. induction is as [|i is IH]; intros [|t toggle] L; cbn in L; try lia; cbn [combine map forallb List.length].
  - split; auto. intros _ k Lk. lia.
  - cbn [fst snd]. rewrite andb_true_iff, eqb_true_iff, IH by lia. split.
    + intros [-> H] [|k] Lk; cbn [nth]; auto. apply H. lia.
    + intros H. split; [apply (H 0); lia|]. intros k Lk. apply (H (S k)). lia.
Qed.

Theorem check_success_ok n c correction toggle x is :
  (forall l, In l (c_logicals c) -> List.length (ops l) = n) -> n_data_qubits c = n ->
  chosen c x is -> is <> [] ->
  if (List.length toggle =? List.length is) && (List.length (ops correction) =? n) then
    exists b, check_success c correction toggle x = Ok b /\
      (b = true <-> forall k, k < List.length is ->
         nth k toggle false = anti (seq 0 n) (fac (nth (nth k is 0) (c_logicals c) row0)) (fac correction))
  else check_success c correction toggle x = Err AssertionError.
Proof.
  intros W N CH NE. destruct (chosen_ops c x is CH) as [E B]. unfold check_success. rewrite E. cbn [bindR].
  rewrite map_length, N, (Nat.eqb_sym (List.length is)). destruct (Nat.eqb_spec (List.length toggle) (List.length is)) as [LT|]; [|reflexivity].
  unfold assertR at 1. cbn [bindR andb]. destruct (Nat.eqb_spec (List.length (ops correction)) n) as [LC|]; [|reflexivity].
  unfold assertR. cbn [bindR]. destruct is as [|i is]; [congruence|]. cbn [map].
  eexists. split; [reflexivity|].
  rewrite map_map.
  rewrite (agree_all (fun i => commutator_sign (nth i (c_logicals c) row0) correction)) with (is := i :: is) by auto. split; intros H k Lk; [rewrite (H k Lk)|rewrite (H k Lk); symmetry]; apply sign_anti; auto; apply W, nth_In, B, nth_In; auto.
Qed.

Lemma experiment_generators cd : experiment_code cd -> generators (n_data_qubits (c_ops cd)) (c_stabs (c_ops cd)).
Proof.
  intros X. destruct (xc_rows cd X) as (S & G & N & N2 & M). split; [rewrite S; destruct (l_stabs _); [congruence|discriminate]|].
  rewrite xc_nd by auto. split; [|intros g I; apply xc_width; auto].
  destruct (l_data (c_lattice cd)) as [|q l] eqn:D; [|cbn; lia]. exfalso.
  assert (W : forall r, In r (c_stabs (c_ops cd)) \/ In r (c_logicals (c_ops cd)) -> List.length (ops r) = 0) by (intros r I; rewrite (xc_width cd r X I), D; auto).
  destruct (check_iff 0 (c_ops cd) W) as [[_ (_ & _ & _ & _ & R)]|[E _]]; [|rewrite (xc_check _ X) in E; discriminate].
  assert (LL : List.length (c_logicals (c_ops cd)) mod 2 = 0) by (rewrite G, map_length; auto).
  destruct (c_logicals (c_ops cd)) as [|a [|b k]] eqn:EL; [rewrite G in EL; destruct (l_logicals _); [congruence|discriminate]|discriminate|].
  specialize (R 0 0 a b eq_refl eq_refl). cbn in R. apply anticommute_iff in R.
  - assert (LA : List.length (ops a) = 0) by (apply W; right; left; auto). destruct (ops a); [discriminate|cbn in LA; lia].
  - apply W; right; left; auto.
  - apply W; right; right; left; auto.
Qed.

Lemma anti_total n f rounds E : anti (seq 0 n) f (total rounds E) = parity (map (fun t => anti (seq 0 n) f (E t)) (seq 0 rounds)).
Proof. apply anti_parity. Qed.
