(** What effective error probabilities and weights have to be. *)
Require Import String List Bool Arith ZArith QArith Lia.
From Verif Require Import Base QSpec SimSpec GeneratorModel LatticeSpec GeneratorSpec SyngraphModel.
Import ListNotations.
Local Open Scope nat_scope.
Local Open Scope list_scope.

(** All outcomes of [n] yes-no events, and the probability of an outcome of independent ones. *)
Fixpoint outcomes (n : nat) : list (list bool) :=
  match n with O => [[]] | S n => map (cons false) (outcomes n) ++ map (cons true) (outcomes n) end.
Fixpoint outcome_prob (ps : list Q) (bs : list bool) : Q :=
  match ps, bs with
  | p :: ps, b :: bs => ((if b then p else 1 - p) * outcome_prob ps bs)%Q
  | _, _ => 1%Q
  end.
(** The probability that an odd number of independent events happen. *)
Definition odd_prob (ps : list Q) : Q :=
  qsum (map (outcome_prob ps) (filter (fun bs => fold_right xorb false bs) (outcomes (length ps)))).

(** The probability that the error of a data qubit between two rounds (as in [possible_history],
    a Pauli error and then a random Pauli operator if the qubit is erased) has the X or the Z
    part [bit]. *)
Definition paulis4 : list pauli1 := [PI; PX; PY; PZ].
Definition kick_prob (e : errors) (q : nat) (R : pauli1) : Q :=
  match R with PI => (1 - erase_prob e q) + erase_prob e q / 4 | _ => erase_prob e q / 4 end.
Definition part_prob (e : errors) (q : nat) (bit : bool * bool -> bool) : Q :=
  qsum (flat_map (fun P => map (fun R =>
    if bit (pxor (xz P) (xz R)) then (pauli_prob e q P * kick_prob e q R)%Q else 0%Q) paulis4) paulis4).

(** What is needed of the function which gives the weights: signs and infinite values of
    [-log (p / (1 - p))]. *)
Record log_like (f : Q -> weight) : Prop := {
  ll_zero : forall p, (p == 0)%Q -> f p = Inf false;
  ll_small : forall p, (0 < p)%Q -> (p < 1 # 2)%Q -> exists w, f p = Fin w /\ (0 < w)%Q;
  ll_half : forall p, (p == 1 # 2)%Q -> exists w, f p = Fin w /\ (w == 0)%Q;
  ll_large : forall p, (1 # 2 < p)%Q -> (p < 1)%Q -> exists w, f p = Fin w /\ (w < 0)%Q;
  ll_one : forall p, (p == 1)%Q -> f p = Inf true;
  ll_none : forall p, (p < 0 \/ 1 < p)%Q -> f p = NaN }.

(** Dictionaries have distinct keys. *)
Record distinct_keys (e : errors) : Prop := {
  dk_pauli : NoDup (map fst (er_pauli e));
  dk_erasure : NoDup (map fst (er_erasure e));
  dk_measurement : NoDup (map fst (er_measurement e)) }.

(** A missing or zero probability is replaced by 1e-15. *)
Definition filled (p : Q) : Q := if Qeq_bool p 0 then 1 # 1000000000000000 else p.
