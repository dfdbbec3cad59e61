(** Independent specification of the chances of error histories of memory experiments and of what
    such a history shows. *)
Require Import String List Bool Arith ZArith QArith.
From Verif Require Import Base QSpec PauliModel PauliSem PauliAlg StateSpec CircuitModel SimSpec LatticeModel LatticeSpec CodesModel CodesSpec GeneratorModel GeneratorSpec StabTrack DistSpec.
Import ListNotations.
Local Open Scope string_scope.
Local Open Scope nat_scope.
Local Open Scope list_scope.

(** All lists of [n] letters. *)
Fixpoint words {A} (l : list A) (n : nat) : list (list A) :=
  match n with 0 => [[]] | S n' => flat_map (fun x => map (cons x) (words l n')) l end.
Definition product (l : list Q) : Q := fold_right Qmult 1%Q l.

(** * Error histories *)
(** What happens to a data qubit before a round of measurements: a Pauli error and, if the qubit is
    erased, another Pauli operator.  What happens in a round: this for every data qubit, and which
    results of the generators are flipped.  A history: this for every round. *)
Definition qubit_error := (pauli1 * option pauli1)%type.
Definition round_error := (list qubit_error * list bool)%type.
Definition history := list round_error.
Definition qubit_errors : list qubit_error := list_prod letters (None :: map Some letters).
Definition round_errors (nd ns : nat) : list round_error := list_prod (words qubit_errors nd) (words [false; true] ns).
Definition histories (nd ns rounds : nat) : list history := words (round_errors nd ns) rounds.

(** * Chances *)
(** The errors of the qubits, the erasures and the flipped results are independent and have the
    probabilities of the error data; the operator on an erased qubit is any of the four with the
    same probability; the results of the last round are never flipped. *)
Definition qubit_chance (e : errors) (q : nat) (x : qubit_error) : Q :=
  (pauli_prob e q (fst x) * match snd x with None => 1 - erase_prob e q | Some _ => erase_prob e q * (1 # 4) end)%Q.
Definition flip_chance (p : Q) (b : bool) : Q := (if b then p else 1 - p)%Q.
Definition round_chance (e : errors) (nd ns : nat) (last : bool) (r : round_error) : Q :=
  (product (map (fun qx => qubit_chance e (fst qx) (snd qx)) (combine (seq 0 nd) (fst r))) *
   product (map (fun ab => flip_chance (if last then 0 else flip_prob e (fst ab)) (snd ab)) (combine (seq nd ns) (snd r))))%Q.
Fixpoint history_chance (e : errors) (nd ns : nat) (h : history) : Q :=
  match h with
  | [] => 1%Q
  | r :: h' => (round_chance e nd ns (match h' with [] => true | _ => false end) r * history_chance e nd ns h')%Q
  end.

(** * What a history shows *)
Definition at_round (h : history) (t : nat) : round_error := nth t h ([], []).
Definition at_qubit (h : history) (t q : nat) : qubit_error := nth q (fst (at_round h t)) (PI, None).
Definition error_of (x : qubit_error) : bool * bool :=
  pxor (xz (fst x)) (match snd x with Some R => xz R | None => (false, false) end).
Definition erasure_of (x : qubit_error) : bool := match snd x with Some _ => true | None => false end.
(** Is the result of generator [s] in measurement [t] wrong?  The first measurement is the one before
    the first round. *)
Definition wrong (h : history) (t s : nat) : bool := match t with 0 => false | S t' => nth s (snd (at_round h t')) false end.

Definition syndrome_of (cd : CodesModel.code) (h : history) : list (list bool) :=
  map (fun t => map (fun s =>
      xorb (anti (seq 0 (n_data_qubits (c_ops cd))) (fac (nth s (c_stabs (c_ops cd)) row0)) (fun q => error_of (at_qubit h t q)))
           (xorb (wrong h t s) (wrong h (S t) s)))
    (seq 0 (n_stabgens (c_ops cd)))) (seq 0 (List.length h)).
Definition toggle_of (cd : CodesModel.code) (is : list nat) (h : history) : list bool :=
  map (fun i => fold_right xorb false (map (fun t =>
      anti (seq 0 (n_data_qubits (c_ops cd))) (fac (nth i (c_logicals (c_ops cd)) row0)) (fun q => error_of (at_qubit h t q)))
    (seq 0 (List.length h)))) is.
Definition erasures_of (cd : CodesModel.code) (e : errors) (h : history) : option (list (list bool)) :=
  match er_erasure e with
  | [] => None
  | _ => Some (map (fun t => map (fun q => erasure_of (at_qubit h t q)) (seq 0 (n_data_qubits (c_ops cd)))) (seq 0 (List.length h)))
  end.

(** The probabilities of the error data are multiples of 1/N. *)
Definition on_grid_errors (N : positive) (e : errors) : Prop :=
  (forall q p k x, In (q, p) (er_pauli e) -> In (k, x) p -> on_grid N x) /\
  (forall q p k x, In (q, p) (er_erasure e) -> In (k, x) p -> on_grid N x) /\
  (forall q p k x, In (q, p) (er_measurement e) -> In (k, x) p -> on_grid N x).
(** The probabilities are between 0 and 1. *)
Definition unit_errors (e : errors) : Prop :=
  (forall q p k x, In (q, p) (er_pauli e) -> In (k, x) p -> 0 <= x <= 1)%Q /\
  (forall q p k x, In (q, p) (er_erasure e) -> In (k, x) p -> 0 <= x <= 1)%Q /\
  (forall q p k x, In (q, p) (er_measurement e) -> In (k, x) p -> 0 <= x <= 1)%Q.
