(** C80: normalisation of the weights of union find. *)
Require Import List Bool Arith Lia QArith.
From Verif Require Import Base BaseProofs ErasureModel UnionFindModel UnionFindStep GrowthFree ScaleModel ScaleProofs.
Import ListNotations.
Open Scope nat_scope.

(** The unit of the weights does not matter: weights which are multiplied by a positive number are accepted or refused
    alike, and then the same edges are grown, the same correction is made, or the same exception is raised. *)
Theorem C80_scale c k ws u fuel erased syndrome : (0 < k)%Q ->
  match set_weights c ws u, set_weights c (map (Qmult k) ws) u with
  | Ok u1, Ok u2 =>
    match union_find fuel erased syndrome u1, union_find fuel erased syndrome u2 with
    | Ok (_, g1), Ok (_, g2) => g1 = g2
    | Err e1, Err e2 => e1 = e2
    | _, _ => False
    end /\
    match uf_decode fuel erased syndrome u1, uf_decode fuel erased syndrome u2 with
    | Ok (_, k1), Ok (_, k2) => k1 = k2
    | Err e1, Err e2 => e1 = e2
    | _, _ => False
    end
  | Err e1, Err e2 => e1 = e2
  | _, _ => False
  end.
Proof.
  intros K. destruct (set_weights c ws u) as [u1|e] eqn:E.
  - destruct (set_weights_scale c k ws u u1 K E) as (u2 & -> & N). pose proof (union_find_norm fuel erased syndrome u1 u2 N) as X.
    destruct (norm_fields u1 u2 N) as (EN & _ & EV & _). unfold uf_decode. rewrite EN, EV.
    destruct (union_find fuel erased syndrome u1) as [[v1 g1]|], (union_find fuel erased syndrome u2) as [[v2 g2]|]; cbn [liftR fst snd] in X; try discriminate.
    + injection X. intros G _. rewrite G. split; [auto|]. cbn [bindR fst snd]. destruct (erasure_decode _ _ _ _); cbn [bindR]; auto.
    + injection X. intros ->. split; reflexivity.
  - revert E. unfold set_weights. rewrite min_nonzero_scale by auto. destruct (min_nonzero ws); cbn [bindR liftR]; [|congruence]. rewrite map_length. destruct (assertR _); cbn [bindR]; [discriminate|congruence].
Qed.
Print Assumptions C80_scale.

(** The setter keeps exactly the numbers which are not negative. *)
Theorem C80_coefficient v q : set_coefficient v = Ok q <-> v = Number q /\ (0 <= q)%Q.
Proof.
  unfold set_coefficient. destruct v as [r|]; [|split; [discriminate|intros [[=] _]]]. destruct (Qle_bool 0 r) eqn:E.
  - apply Qle_bool_iff in E. split; [intros [= <-]; auto|intros [[= ->] _]; auto].
  - split; [discriminate|]. intros [[= ->] H]. apply Qle_bool_iff in H. congruence.
Qed.
Print Assumptions C80_coefficient.

Lemma Ok_inj {A} {x y : A} : Ok x = Ok y -> x = y.
Proof. congruence. Qed.
(** Zero is among them, and with it any two arrays of weights give the same decoder: the weights have no effect. *)
Theorem C80_zero_refuted : set_coefficient (Number 0%Q) = Ok 0%Q /\
  forall ws ws' u u1 u2, set_weights 0 ws u = Ok u1 -> set_weights 0 ws' u = Ok u2 -> u1 = u2.
Proof.
  split; [reflexivity|]. intros ws ws' u u1 u2. unfold set_weights.
  destruct (min_nonzero ws) as [lo|]; cbn [bindR]; [|discriminate]. destruct (min_nonzero ws') as [lo'|]; cbn [bindR]; [|intros _; discriminate].
  destruct (length ws =? length (u_grow u)) eqn:L; cbn [assertR bindR]; [|discriminate]. destruct (length ws' =? length (u_grow u)) eqn:L'; cbn [assertR bindR]; [|discriminate].
  apply Nat.eqb_eq in L, L'. intros E1 E2. assert (X1 := Ok_inj E1). assert (X2 := Ok_inj E2). clear E1 E2. subst u1 u2. apply (f_equal (fun g => set_grow g u)).
  assert (Z : forall w d, Qeq_bool (0 * w / d) 0 = true) by (intros; apply Qeq_bool_iff; unfold Qdiv; ring).
  revert ws ws' L L'. generalize (u_grow u). induction l as [|g l IH]; intros [|w ws] [|w' ws'] L L'; cbn [length combine map] in *; try discriminate; [auto|]. cbn [fst snd]. cbv zeta. rewrite !Z. apply f_equal. apply IH; congruence.
Qed.
Print Assumptions C80_zero_refuted.

(** Runs on a line of four vertices with a dangling edge at both ends. *)
Definition sc_run (c : Q) (ws : list Q) (syn : list bool) : Res (list nat) :=
  do u <- new_ugraph 4 [[0]; [0; 1]; [1; 2]; [2; 3]; [3]]; do u <- set_weights c ws u; do r <- union_find 100 [] syn u; Ok (snd r).
Example C80_example :
  sc_run 2 [1; 5; 5; 5; 1]%Q [true; false; false; false] = Ok [0] /\
  sc_run 2 [1 # 7; 5 # 7; 5 # 7; 5 # 7; 1 # 7]%Q [true; false; false; false] = Ok [0] /\
  sc_run 2 [5; 1; 5; 5; 1]%Q [true; false; false; false] = Ok [0; 1] /\
  sc_run 0 [1; 5; 5; 5; 1]%Q [true; false; false; false] = Ok [0; 1] /\
  sc_run (1 # 10) [1; 5; 5; 5; 1]%Q [true; false; false; false] = Ok [0; 1] /\
  sc_run 2 [0; 0; 0; 0; 0]%Q [true; false; false; false] = Err ValueError /\
  set_coefficient (Number (1 # 2)) = Ok (1 # 2)%Q /\ set_coefficient (Number (- 1)%Q) = Err ValueError /\ set_coefficient Other = Err TypeError.
Proof. vm_compute. auto 12. Qed.
