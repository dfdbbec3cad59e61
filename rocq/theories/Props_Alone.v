(** C78: states from stabilisers alone. *)
Require Import String List Bool Arith ZArith QArith Qabs Lia Lqa.
From Verif Require Import Base PauliModel PauliSem PauliAlg TableauProofs PauliTextModel StateTextProofs AloneModel AloneSpec AloneProofs.
Import ListNotations.
Local Open Scope string_scope.
Local Open Scope nat_scope.
Local Open Scope list_scope.

(** Whatever the pseudo-inverse is, an accepted state has as many destabilisers as qubits, its stabilisers are the given
    ones, with their signs, and the relations which are checked hold. *)
Theorem C78_accepted pinv stabs qubits t : string_to_state_alone pinv stabs qubits = Ok t -> stabs <> [] ->
  exists ss ds n, mapR (fun s => string_to_pauli s qubits) stabs = Ok ss /\ t = ds ++ ss /\ List.length ds = n /\
    (forall r, In r ss -> List.length (ops r) = n) /\
    forall i j, i < List.length ss -> j < n -> j <= i -> commutator_sign (nth i ss row0) (nth j ss row0) = false /\
      commutator_sign (nth i ds row0) (nth j ds row0) = false /\ (i = j -> commutator_sign (nth i ss row0) (nth i ds row0) = true).
Proof. exact (alone_accepted pinv stabs qubits t). Qed.
Print Assumptions C78_accepted.

(** Single X and Z operators: the destabilisers are the same operators with X and Z exchanged, and the tableau is valid. *)
Theorem C78_single pinv stabs qubits ss n :
  mapR (fun s => string_to_pauli s qubits) stabs = Ok ss -> apart n ss -> (forall r, In r ss -> ones (flat r) = 1) -> List.length ss = n -> 0 < n ->
  (forall i j, i < n -> j < n -> symp (ops (nth i ss row0)) (ops (nth j ss row0)) = false) ->
  exact_dual (2 * n) (map flat ss) (pinv (map flat ss)) ->
  string_to_state_alone pinv stabs qubits = Ok (map exchanged ss ++ ss) /\ wf n (map exchanged ss ++ ss).
Proof. exact (alone_single pinv stabs qubits ss n). Qed.
Print Assumptions C78_single.

(** Stabilisers for which one row of the pseudo-inverse has only entries less than one are never accepted: the computed
    destabiliser is the identity. *)
Theorem C78_refused eps pinv stabs qubits ss n P i :
  mapR (fun s => string_to_pauli s qubits) stabs = Ok ss -> (forall r, In r ss -> List.length (ops r) = n) ->
  near_dual eps (2 * n) (map flat ss) (pinv (map flat ss)) -> dual_rows (2 * n) (map flat ss) P ->
  i < List.length ss -> (forall k, k < 2 * n -> (Qabs (nth k (nth i P []) 0) + eps <= 1)%Q) ->
  forall t, string_to_state_alone pinv stabs qubits <> Ok t.
Proof. exact (alone_refused eps pinv stabs qubits ss n P i). Qed.
Print Assumptions C78_refused.

(** In particular operators without common entries, one of them with two entries (also a single Y), raise ValueError. *)
Theorem C78_several eps pinv stabs qubits ss n :
  mapR (fun s => string_to_pauli s qubits) stabs = Ok ss -> apart n ss ->
  (eps <= 1 # 2)%Q -> near_dual eps (2 * n) (map flat ss) (pinv (map flat ss)) ->
  (exists r, In r ss /\ 2 <= ones (flat r)) -> string_to_state_alone pinv stabs qubits = Err ValueError.
Proof. exact (alone_apart eps pinv stabs qubits ss n). Qed.
Print Assumptions C78_several.

Definition op (l : list (bool * bool)) : row := mkRow l false.
Definition pI := (false, false). Definition pX := (true, false). Definition pZ := (false, true). Definition pY := (true, true).
Lemma disjoint_dec a b : forallb (fun p => negb (fst p && snd p)) (combine a b) = true -> disjoint a b.
Proof.
  revert b. induction a as [|x a IH]; intros [|y b] H [|k] K; cbn in *; auto; try discriminate; try (destruct k; auto; fail).
  - subst x. apply andb_true_iff in H. destruct H as [H _]. destruct y; auto; discriminate.
  - apply andb_true_iff in H. destruct H as [_ H]. apply (IH b H k K).
Qed.
Lemma apart_dec n ss : forallb (fun r => (List.length (ops r) =? n) && (0 <? ones (flat r))) ss = true ->
  forallb (fun i => forallb (fun j => (i =? j) || forallb (fun p => negb (fst p && snd p)) (combine (flat (nth i ss row0)) (flat (nth j ss row0)))) (seq 0 (List.length ss))) (seq 0 (List.length ss)) = true -> apart n ss.
Proof.
  intros H1 H2. split.
  - rewrite forallb_forall in H1. intros r I. specialize (H1 r I). apply andb_true_iff in H1. destruct H1 as [A B]. apply Nat.eqb_eq in A. apply Nat.ltb_lt in B. auto.
  - intros i j Li Lj N. rewrite forallb_forall in H2. specialize (H2 i ltac:(apply in_seq; lia)). rewrite forallb_forall in H2. specialize (H2 j ltac:(apply in_seq; lia)).
    apply orb_true_iff in H2. destruct H2 as [E|E]; [apply Nat.eqb_eq in E; lia|]. apply disjoint_dec; auto.
Qed.

(** The documentation says that appropriate destabilisers will be computed.  For the Bell state and the eigenstate of Y
    ValueError is raised instead, although destabilisers exist. *)
Theorem C78_bell_refuted eps pinv : (eps <= 1 # 2)%Q ->
  (let bell := [[true; true; false; false]; [false; false; true; true]] in near_dual eps 4 bell (pinv bell)) -> near_dual eps 2 [[true; true]] (pinv [[true; true]]) ->
  string_to_state_alone pinv ["XX"; "ZZ"] None = Err ValueError /\ (exists t, string_to_state ["XX"; "ZZ"] ["ZI"; "IX"] None = Ok t /\ wf 2 t) /\
  string_to_state_alone pinv ["Y"] None = Err ValueError /\ (exists t, string_to_state ["Y"] ["Z"] None = Ok t /\ wf 1 t).
Proof.
  intros E H H'.
  assert (W : forall n t, List.length t = 2 * n -> forallb (fun i => (List.length (ops (t@@i)) =? n) && forallb (fun j => Bool.eqb (symp (ops (t@@i)) (ops (t@@j))) (conj_rows n i j)) (seq 0 (2 * n))) (seq 0 (2 * n)) = true -> wf n t).
  { intros n t L F. rewrite forallb_forall in F. split; [auto|]. split.
    - intros i Li. specialize (F i ltac:(apply in_seq; lia)). apply andb_true_iff in F. destruct F as [F _]. apply Nat.eqb_eq in F. auto.
    - intros i j Li Lj. specialize (F i ltac:(apply in_seq; lia)). apply andb_true_iff in F. destruct F as [_ F]. rewrite forallb_forall in F. specialize (F j ltac:(apply in_seq; lia)). apply Bool.eqb_prop in F. auto. }
  split; [|split; [|split]].
  - apply (C78_several eps pinv ["XX"; "ZZ"] None [op [pX; pX]; op [pZ; pZ]] 2); [reflexivity|apply apart_dec; reflexivity|auto|exact H|]. eexists. split; [left; reflexivity|cbn; lia].
  - eexists. split; [reflexivity|]. apply W; reflexivity.
  - apply (C78_several eps pinv ["Y"] None [op [pY]] 1); [reflexivity|apply apart_dec; reflexivity|auto|exact H'|]. eexists. split; [left; reflexivity|cbn; lia].
  - eexists. split; [reflexivity|]. apply W; reflexivity.
Qed.
Print Assumptions C78_bell_refuted.

(** Fractions are cut off, not rounded: a pseudo-inverse less than one by any rounding error makes a single Z fail. *)
Theorem C78_rounding_refuted eps : (0 < eps)%Q -> (eps < 1)%Q ->
  exists pinv, near_dual eps 2 [[false; true]] (pinv [[false; true]]) /\ string_to_state_alone pinv ["Z"] None = Err ValueError /\
    string_to_state_alone (fun _ => [[0; 1]])%Q ["Z"] None = Ok [op [pX]; op [pZ]].
Proof.
  intros P L. exists (fun _ => [[0; 1 - eps / 2]])%Q. split; [|split].
  - apply (dual_near eps 2 _ [scaled [false; true]]); [|auto|].
    + apply (dual_disjoint 2 [[false; true]]); [intros [|i] Li; cbn in Li; [cbn; lia|lia]|intros i j Li Lj; cbn in Li, Lj; lia].
    + intros [|i] Li; [|cbn in Li; lia]. split; [auto|]. intros [|[|k]] Lk; [| |lia].
      * cbn [nth scaled map]. setoid_replace (0 - 0)%Q with 0%Q by ring. auto.
      * change (nth 1 (nth 0 [scaled [false; true]] []) 0%Q) with (nth 1 (scaled [false; true]) 0%Q). rewrite scaled_one by auto. cbn [nth bit]. setoid_replace (1 - eps / 2 - 1)%Q with (- (eps / 2))%Q by ring. assert (E2 : (eps / 2 == eps * (1 # 2))%Q) by (unfold Qdiv; reflexivity). rewrite Qabs_opp, Qabs_pos; lra.
  - assert (E2 : (eps / 2 == eps * (1 # 2))%Q) by (unfold Qdiv; reflexivity).
    unfold string_to_state_alone. change (mapR (fun s => string_to_pauli s None) ["Z"]) with (Ok [op [pZ]]). cbn [bindR]. change (negb (same_width [op [pZ]])) with false. cbv iota zeta. change (List.length (ops (hd row0 [op [pZ]]))) with 1.
    cbn [mapR]. rewrite (computed_zero 1 [0; 1 - eps / 2]%Q); [reflexivity|reflexivity|]. intros q [<-|[<-|[]]]; lra.
  - reflexivity.
Qed.
Print Assumptions C78_rounding_refuted.

(** The examples of the documentation, and three qubits with different operators and signs. *)
Example C78_example_single : exists pinv, exact_dual 6 (map flat [op [pI; pX; pI]; mkRow [pZ; pI; pI] true; op [pI; pI; pZ]]) (pinv (map flat [op [pI; pX; pI]; mkRow [pZ; pI; pI] true; op [pI; pI; pZ]])) /\
  string_to_state_alone pinv ["IXI"; "-ZII"; "Z2"] (Some 3) = Ok [op [pI; pZ; pI]; op [pX; pI; pI]; op [pI; pI; pX]; op [pI; pX; pI]; mkRow [pZ; pI; pI] true; op [pI; pI; pZ]] /\
  string_to_state_alone pinv ["ZI"; "IZ"] None = Ok [op [pX; pI]; op [pI; pX]; op [pZ; pI]; op [pI; pZ]] /\
  string_to_state_alone pinv ["XI"; "IX"] None = Ok [op [pZ; pI]; op [pI; pZ]; op [pX; pI]; op [pI; pX]] /\
  string_to_state_alone pinv ["XI"; "ZI"] None = Err ValueError /\ string_to_state_alone pinv ["XI"] None = Err ValueError.
Proof.
  exists (fun S => map scaled S). split; [|repeat split; reflexivity]. apply dual_exact. apply (apart_dual 3). apply apart_dec; reflexivity.
Qed.
(** Rows with common entries, for which a row of the pseudo-inverse is small: ZZI, IZZ, XXX. *)
Example C78_example_refused : exists P, let ss := [op [pZ; pZ; pI]; op [pI; pZ; pZ]; op [pX; pX; pX]] in
  dual_rows 6 (map flat ss) P /\ forall t, string_to_state_alone (fun _ => P) ["ZZI"; "IZZ"; "XXX"] None <> Ok t.
Proof.
  exists [[0; 0; 0; 2 # 3; 1 # 3; - (1 # 3)]; [0; 0; 0; - (1 # 3); 1 # 3; 2 # 3]; [1 # 3; 1 # 3; 1 # 3; 0; 0; 0]]%Q. intros ss.
  assert (D : dual_rows 6 (map flat ss) [[0; 0; 0; 2 # 3; 1 # 3; - (1 # 3)]; [0; 0; 0; - (1 # 3); 1 # 3; 2 # 3]; [1 # 3; 1 # 3; 1 # 3; 0; 0; 0]]%Q).
  { assert (C : forall a b c p, (forall k, (nth k p 0 == 0 + a * bit (nth k [false; false; false; true; true; false] false) + b * bit (nth k [false; false; false; false; true; true] false) + c * bit (nth k [true; true; true; false; false; false] false))%Q) -> combination (map flat ss) (fun k => nth k p 0%Q)).
    { intros a b c p Hp. eapply (comb_add _ [true; true; true; false; false; false] c); [right; right; left; reflexivity| |exact Hp].
      eapply (comb_add _ [false; false; false; false; true; true] b); [right; left; reflexivity| |intros k; reflexivity].
      eapply (comb_add _ [false; false; false; true; true; false] a (fun _ => 0%Q)); [left; reflexivity|apply comb_zero; reflexivity|intros k; reflexivity]. }
    split; [reflexivity|]. intros [|[|[|i]]] Li; cbn in Li; try lia; (split; [reflexivity|]; split; [|intros [|[|[|j]]] Lj; cbn in Lj; try lia; reflexivity]).
    - apply (C (2 # 3) (- (1 # 3)) 0)%Q. intros [|[|[|[|[|[|[|k]]]]]]]; reflexivity.
    - apply (C (- (1 # 3)) (2 # 3) 0)%Q. intros [|[|[|[|[|[|[|k]]]]]]]; reflexivity.
    - apply (C 0 0 (1 # 3))%Q. intros [|[|[|[|[|[|[|k]]]]]]]; reflexivity. }
  split; [exact D|]. apply (C78_refused (1 # 4) _ _ None ss 3 [[0; 0; 0; 2 # 3; 1 # 3; - (1 # 3)]; [0; 0; 0; - (1 # 3); 1 # 3; 2 # 3]; [1 # 3; 1 # 3; 1 # 3; 0; 0; 0]]%Q 0); [reflexivity| | |exact D|cbn; lia|].
  - intros r [<-|[<-|[<-|[]]]]; reflexivity.
  - apply dual_exact; [exact D|reflexivity].
  - intros k Lk. do 6 (destruct k as [|k]; [cbn; lra|]). lia.
Qed.
