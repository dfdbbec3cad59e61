(** C79: union find with chosen growth increments. *)
Require Import List Bool Arith Lia QArith.
From Verif Require Import Base BaseProofs GraphSpec GraphProofs GraphComponents ErasureModel
  UnionFindModel UnionFindStep UnionFindFinal GrowthFree ChooseModel ChooseProofs ChooseWeights ChooseLeast.
Import ListNotations.
Open Scope nat_scope.

(** Objects of a class which chooses growth increments, as they come up when it is used: new, with weights set or removed,
    and after calls of the decoder with weights (increments are chosen) and without (they are not). *)
Inductive chosen_object (n : nat) (edges : list (list nat)) : ugraph -> Prop :=
| ch_new u : new_ugraph n edges = Ok u -> chosen_object n edges u
| ch_weights c ws u u' : chosen_object n edges u -> (0 <= c)%Q -> (forall w, In w ws -> 0 <= w)%Q ->
    set_weights c ws u = Ok u' -> chosen_object n edges u'
| ch_no_weights b u : chosen_object n edges u -> chosen_object n edges (unset_weights b u)
| ch_used fuel erased syndrome u u' corr : chosen_object n edges u ->
    (forall i, In i erased -> i < length edges) -> length syndrome = n ->
    uf_decode_by fuel erased syndrome u = Ok (u', corr) -> chosen_object n edges u'
| ch_used_plain fuel erased syndrome u u' corr : chosen_object n edges u ->
    (forall i, In i erased -> i < length edges) -> length syndrome = n ->
    uf_decode fuel erased syndrome u = Ok (u', corr) -> chosen_object n edges u'.

Lemma chosen_ready n edges u : well_formed n edges -> chosen_object n edges u -> uready n edges u.
Proof.
  intros WF. induction 1 as [u E|c ws u u' _ IH Pc PW E|b u _ IH|fuel er syn u u' corr _ IH LE LS E|fuel er syn u u' corr _ IH LE LS E].
  - destruct (new_ugraph_ready n edges WF) as (u' & E' & R & _). congruence.
  - eapply set_weights_ready; eauto.
  - apply unset_weights_ready; auto.
  - destruct (uf_decode_by_ok n edges WF er syn u (fuel + S (length edges)) IH LS LE) as
      [[X _]|(u1 & c1 & X & R & _)]; [lia| |];
      rewrite (uf_decode_by_more _ _ _ _ _ (S (length edges)) E) in X; [discriminate|congruence].
  - set (N := S (total (fresh (u_grow u)))).
    destruct (uf_decode_ok n edges WF er syn u (fuel + N) IH LS LE) as
      [[X _]|(u1 & c1 & X & R & _)]; [unfold N; lia| |];
      rewrite (uf_decode_more _ _ _ _ _ N E) in X; [discriminate|congruence].
Qed.

(** Every step completes an edge, so that [m + 1] steps are enough whatever the weights are; the result is as without
    chosen increments. *)
Theorem C79_union_find n edges u erased syndrome fuel : well_formed n edges -> chosen_object n edges u ->
  (forall i, In i erased -> i < length edges) -> length syndrome = n -> length edges < fuel ->
  (explainable n edges (fun _ => True) (bits syndrome) /\
    exists u' grown, union_find_by fuel erased syndrome u = Ok (u', grown) /\
      (forall i, In i erased -> In i grown) /\ NoDup grown /\
      (forall i, In i grown -> i < length edges) /\
      (forall C, component edges (fun i => In i grown) C ->
         (exists i v, In i grown /\ nth_error edges i = Some [v] /\ C v = true) \/
         parity_on n (bits syndrome) C = false)) \/
   (~ explainable n edges (fun _ => True) (bits syndrome) /\
    union_find_by fuel erased syndrome u = Err AssertionError).
Proof.
  intros WF O LE LS F. apply (chosen_ready n edges u WF) in O. rename syndrome into syn, erased into er.
  destruct (union_find_by_ok n edges WF er syn u fuel O LS LE F) as
    [[X NE]|(u1 & sel & X & R1 & SE & SM & ND & EV)].
  - right. split; auto. rewrite (even_all n edges WF syn LS). auto.
  - left. split.
    + apply (even_all n edges WF syn LS). intros A IA. apply EV. intros i _. apply IA. auto.
    + exists u1, sel. split; [auto|]. split; [auto|]. split; [auto|]. split; [auto|].
      apply (components_even n edges WF (fun i => In i sel) (fun i => in_dec Nat.eq_dec i sel)). auto.
Qed.
Print Assumptions C79_union_find.

(** The decoder. *)
Theorem C79_decode n edges u erased syndrome fuel : well_formed n edges -> chosen_object n edges u ->
  (forall i, In i erased -> i < length edges) -> length syndrome = n -> length edges < fuel ->
  (explainable n edges (fun _ => True) (bits syndrome) /\
   exists u' corr, uf_decode_by fuel erased syndrome u = Ok (u', corr) /\
     length corr = length edges /\ explains n edges (bits corr) (bits syndrome) /\
     chosen_object n edges u') \/
  (~ explainable n edges (fun _ => True) (bits syndrome) /\
   uf_decode_by fuel erased syndrome u = Err AssertionError).
Proof.
  intros WF O LE LS F. pose proof (chosen_ready n edges u WF O) as R. rename syndrome into syn, erased into er.
  destruct (uf_decode_by_ok n edges WF er syn u fuel R LS LE F) as
    [[X NE]|(u1 & corr & X & R1 & LC & EX)].
  - right. split; auto. rewrite (even_all n edges WF syn LS). auto.
  - left. split; [exists (bits corr); auto|]. exists u1, corr. split; [auto|]. split; [auto|].
    split; [auto|]. eapply ch_used; eauto.
Qed.
Print Assumptions C79_decode.

(** The increment is the least of what the incomplete edges at the boundary of the cluster lack: there is such an edge, and
    no other one lacks less; there is no increment if and only if all edges are complete. *)
Theorem C79_choice adj gs b inc : choose_increment adj gs b = Ok inc ->
  let lacks i d := exists g q, nth_error gs i = Some g /\ complete g = false /\ g_cur g = Some q /\ d = (g_max g - q)%Q in
  match inc with
  | Some d => (exists v i o, In v b /\ In (i, o) (nth v adj []) /\ lacks i d) /\
              forall v i o d', In v b -> In (i, o) (nth v adj []) -> lacks i d' -> (d <= d')%Q
  | None => forall v i o d', In v b -> In (i, o) (nth v adj []) -> ~ lacks i d'
  end.
Proof.
  intros E lk. pose proof (choose_least adj gs b inc E) as H. destruct inc as [d|].
  - destruct H as [(v & [i o] & Iv & Ie & K) L]. split; [exists v, i, o; auto|]. intros w j p d' Iw Ie' K'. exact (L w (j, p) d' Iw Ie' K').
  - intros v i o d' Iv Ie K. exact (H v (i, o) d' Iv Ie K).
Qed.
Print Assumptions C79_choice.
Example C79_example_choice : choose_increment [[(0, None); (1, Some 1)]; [(1, Some 0); (2, None)]]
  [mkGrowth (Some 0) 1 (Some (1 # 4)); mkGrowth (Some (3 # 4)) 1 (Some (1 # 8)); mkGrowth (Some (1 # 2)) 1 None]%Q [0; 1] = Ok (Some (1 - (3 # 4)))%Q.
Proof. reflexivity. Qed.

(** A line of four vertices with a dangling edge at both ends. *)
Definition ch_edges : list (list nat) := [[0]; [0; 1]; [1; 2]; [2; 3]; [3]].
Definition ch_run (by_choice : bool) (fuel : nat) (ws : list Q) (erased : list nat) (syn : list bool) : Res (list nat) :=
  do u <- new_ugraph 4 ch_edges;
  do u <- set_weights 2 ws u;
  do r <- (if by_choice then union_find_by else union_find) fuel erased syn u; Ok (snd r).
Example C79_example :
  ch_run true 6 [1; 2; 3; 2; 1]%Q [] [false; true; true; false] = Ok [1; 2; 3] /\
  ch_run true 6 [1; 2; 3; 2; 1]%Q [2] [true; false; false; false] = Ok [0; 1; 2] /\
  ch_run true 2 [1000; 2; 3; 2; 1]%Q [] [true; false; false; false] = Ok [0; 1] /\
  (do u <- new_ugraph 3 [[0; 1]; [1; 2]; [2; 0]]; do u <- set_weights 2 [1; 1; 5]%Q u; union_find_by 4 [] [true; false; false] u) = Err AssertionError.
Proof. vm_compute. auto. Qed.
(** The chosen increment replaces the one of the edge, in which the weight is, and all edges have the same maximum: the
    weights do not matter any more, for all graphs, weights, erasures and syndromes. *)
Theorem C79_weights_ignored c ws c' ws' u u1 u2 fuel erased syndrome :
  set_weights c ws u = Ok u1 -> set_weights c' ws' u = Ok u2 ->
  match union_find_by fuel erased syndrome u1, union_find_by fuel erased syndrome u2 with
  | Ok (_, g1), Ok (_, g2) => g1 = g2
  | Err e1, Err e2 => e1 = e2
  | _, _ => False
  end /\
  match uf_decode_by fuel erased syndrome u1, uf_decode_by fuel erased syndrome u2 with
  | Ok (_, k1), Ok (_, k2) => k1 = k2
  | Err e1, Err e2 => e1 = e2
  | _, _ => False
  end.
Proof.
  intros E1 E2. pose proof (set_weights_bare c ws c' ws' u u1 u2 E1 E2) as B.
  pose proof (union_find_bare fuel erased syndrome u1) as X1. pose proof (union_find_bare fuel erased syndrome u2) as X2. rewrite B, X2 in X1. clear X2.
  assert (EN : u_ends u1 = u_ends u2) by exact (f_equal u_ends B). assert (EV : u_verts u1 = u_verts u2) by exact (f_equal u_verts B).
  unfold uf_decode_by. rewrite EN, EV. destruct (union_find_by fuel erased syndrome u1) as [[v1 g1]|], (union_find_by fuel erased syndrome u2) as [[v2 g2]|]; cbn [liftR fst snd] in X1; try discriminate.
  - injection X1. intros G _. cbn [bindR fst snd]. rewrite G. split; [auto|]. destruct (erasure_decode _ _ _ _); cbn [bindR]; auto.
  - injection X1. intros ->. split; reflexivity.
Qed.
Print Assumptions C79_weights_ignored.
(** Without the choice, the edge with the smaller weight is complete first; so weights with the choice do not have the effect
    which they have otherwise. *)
Theorem C79_weights_refuted :
  ch_run false 100 [1; 5; 5; 5; 1]%Q [] [true; false; false; false] = Ok [0] /\
  ch_run false 100 [5; 1; 5; 5; 5]%Q [] [true; false; false; false] <> ch_run false 100 [1; 5; 5; 5; 1]%Q [] [true; false; false; false] /\
  ch_run true 6 [1; 5; 5; 5; 1]%Q [] [true; false; false; false] = Ok [0; 1] /\
  ch_run true 6 [5; 1; 5; 5; 5]%Q [] [true; false; false; false] = Ok [0; 1].
Proof. repeat split; try (vm_compute; reflexivity). vm_compute. discriminate. Qed.
Print Assumptions C79_weights_refuted.
