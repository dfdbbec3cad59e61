(** Property theorem C66: how often the simulator gives each result.
    Vocabulary: QSpec, StateSpec, SimSpec, DistSpec. *)
Require Import String List Bool Arith ZArith QArith Lia.
From Verif Require Import Base QSpec StateSpec CircuitModel SimModel SimSpec RunProofs DistSpec DistMean DistSim.
Import ListNotations.
Local Open Scope string_scope.
Local Open Scope nat_scope.
Local Open Scope list_scope.

(** * C66 *)
(** Over all values of the random numbers, the mean of any function of the measurement results
    and the erasures which a circuit gives is its expected value by Born's rule and the chances
    written in the circuit. *)
Theorem C66_distribution (N : positive) (items : list item) (m : nat) (F : list bool -> list bool -> Q) (s0 : sim) :
  usable N items -> calls (text items) <= m ->
  (mean (sequences N m) (fun l =>
     match sim_run (stream (s_k s0) l) (text items) true s0 with Ok s => F (s_meas s) (s_eras s) | Err _ => 0 end) ==
   expected (number_of_qubits (text items)) items (fun _ ms es => F ms es) ket0 [] [])%Q.
Proof. apply distribution. Qed.
Print Assumptions C66_distribution.

(** So the share of the random numbers with which a circuit gives the results [ms] and the erasures
    [es] is the chance of these by Born's rule. *)
Theorem C66_chances (N : positive) (items : list item) (m : nat) (ms es : list bool) (s0 : sim) :
  usable N items -> calls (text items) <= m ->
  (inject_Z (Z.of_nat (List.length (filter (fun l =>
     match sim_run (stream (s_k s0) l) (text items) true s0 with
     | Ok s => if list_eq_dec bool_dec ms (s_meas s) then if list_eq_dec bool_dec es (s_eras s) then true else false else false
     | Err _ => false
     end) (sequences N m)))) ==
   inject_Z (Z.of_nat (List.length (sequences N m))) *
   expected (number_of_qubits (text items)) items (fun _ => yields ms es) ket0 [] [])%Q.
Proof.
  intros U L. rewrite <- (C66_distribution N items m (yields ms es) s0 U L). unfold mean.
  match goal with |- (inject_Z (Z.of_nat (List.length (filter ?t ?l))) == _ * (sum_over _ ?f / _))%Q =>
    assert (E : (sum_over l f == inject_Z (Z.of_nat (List.length (filter t l))))%Q); [|rewrite E; field] end.
  - generalize (sequences N m). induction l as [|x l IH]; [reflexivity|]. rewrite sum_cons, IH. cbn [filter].
    destruct (sim_run (stream (s_k s0) x) (text items) true s0) as [s|]; [|ring]. unfold yields.
    destruct (list_eq_dec bool_dec ms (s_meas s)), (list_eq_dec bool_dec es (s_eras s)); try ring.
    cbn [List.length]. rewrite Nat2Z.inj_succ, <- Z.add_1_l, inject_Z_plus. ring.
  - apply inject_nz. pose proof (sequences_nonempty N m). destruct (sequences N m); [congruence|cbn; lia].
Qed.
Print Assumptions C66_chances.

(** Every circuit which runs without an exception (C09_run_total) and whose probabilities are
    between 0 and 1 is of this form. *)
Theorem C66_circuits (c : circuit) :
  valid_circuit false c -> Forall (fun gt => Forall (fun p => 0 <= p <= 1)%Q (instruction_chances gt)) c ->
  exists N items, c = text items /\ usable N items.
Proof.
  intros V P. assert (P' : Forall (fun p => 0 <= p <= 1)%Q (flat_map instruction_chances c)).
  { apply Forall_forall. intros p Hp. apply in_flat_map in Hp. destruct Hp as (gt & A & B). rewrite Forall_forall in P. specialize (P gt A). rewrite Forall_forall in P. auto. }
  destruct (common_grid _ P') as (N & G). exists N.
  destruct (structure N c false V) as (gs & bs & items & E & _ & _ & U & HB).
  - apply Forall_forall. intros gt A. apply Forall_forall. intros p B. rewrite Forall_forall in G. apply G. apply in_flat_map. eauto.
  - destruct (HB eq_refl) as (-> & ->). exists items. auto.
Qed.
Print Assumptions C66_circuits.

(** A Bell pair, an error block with two branches, an erasure and measurements. *)
Definition ex_items : list item :=
  [Plain ("H", [qa 0]); Plain ("CX", [qa 0; qa 1]);
   Block (mkBranch (1 # 3) ("X", [qa 0]) [("Z", [qa 1])]) [mkBranch (1 # 4) ("H", [qa 1]) []];
   Plain ("E_ERASE", [AFlt (1 # 4); qa 1]); Plain ("M", [qa 0; qa 1])].
Example C66_example :
  usable 12 ex_items /\ calls (text ex_items) = 29 /\
  (expected 2 ex_items (fun _ => yields [false; false] [false]) ket0 [] [] == 7 # 32)%Q /\
  (expected 2 ex_items (fun _ => yields [true; false] [false]) ket0 [] [] == 5 # 32)%Q /\
  (expected 2 ex_items (fun _ => yields [true; false] [true]) ket0 [] [] == 1 # 16)%Q /\
  (expected 2 ex_items (fun _ _ _ => 1) ket0 [] [] == 1)%Q.
Proof.
  split; [|repeat split; vm_compute; reflexivity].
  assert (V : forall name qs, In name ["X"; "Y"; "Z"; "H"; "M"; "R"; "DEPOLARIZE"] -> usable_gate 12 (name, map qa qs)).
  { intros name qs H. split; [apply vg_plain; auto|]. unfold chances. cbn [In fst] in *.
    destruct H as [<-|[<-|[<-|[<-|[<-|[<-|[<-|[]]]]]]]]; constructor. }
  assert (G : forall p, (exists a : nat, a <= 12 /\ (p == Z.of_nat a # 12)%Q) -> on_grid 12 p).
  { intros p (a & L & E). split; [rewrite E; unfold Qle; cbn; lia|]. exists a. auto. }
  unfold usable, ex_items. constructor; [|constructor; [|constructor; [|constructor; [|constructor; [|constructor]]]]].
  - apply (V "H" [0]). cbn. auto.
  - split; [|constructor]. apply (vg_pairs "CX" [(0, 1)]); [cbn; auto|]. constructor; [discriminate|constructor].
  - constructor; [|constructor; [|constructor]]; split.
    + apply G. exists 4. split; [lia|reflexivity].
    + constructor; [apply (V "X" [0]); cbn; auto|]. constructor; [apply (V "Z" [1]); cbn; auto|constructor].
    + apply G. exists 3. split; [lia|reflexivity].
    + constructor; [apply (V "H" [1]); cbn; auto|constructor].
  - split; [apply (vg_erase (AFlt (1 # 4)) (1 # 4) 1); constructor|]. constructor; [|constructor]. apply G. exists 3. split; [lia|reflexivity].
  - apply (V "M" [0; 1]). cbn. auto 8.
Qed.
