(** Independent specification of logical error rates of memory experiments with a decoder and of
    bounds for them. *)
Require Import String List Bool Arith ZArith QArith.
From Verif Require Import Base QSpec PauliModel PauliSem PauliAlg StateSpec CircuitModel SimModel LatticeModel LatticeSpec CodesModel CodesSpec GeneratorModel GeneratorSpec
  DecoderModel MatchingModel FaultSpec DistSpec HistorySpec.
Import ListNotations.
Local Open Scope string_scope.
Local Open Scope nat_scope.
Local Open Scope list_scope.

(** A decoder gives a correction for erasures and a syndrome. *)
Definition correction := option (list (list bool)) -> list (list bool) -> Res row.
Definition uf_correction (fuel : nat) (d : decoder) : correction := fun er syn => do r <- interface_decode fuel er syn d; Ok (snd r).
Definition py_correction (solver : pm_graph -> list bool -> Res (list bool)) (d : xdecoder pm_graph) : correction :=
  fun er syn => do r <- x_decode (py_decode solver) er syn d; Ok (snd r).
Definition fb_correction (solver : fb_graph -> list nat -> list nat -> Res (list nat)) (d : xdecoder fb_graph) : correction :=
  fun er syn => do r <- x_decode (fb_decode solver) er syn d; Ok (snd r).

(** One run of the experiment: does the correction restore the logical operators? *)
Definition decoded_run (dec : correction) (s0 : sim) (cd : CodesModel.code) (e : errors) (x : logical_spec) (anc : bool) (g : rng) : Res bool :=
  do sm <- memory_experiment g s0 cd e x anc;
  do fr <- dec (sm_erased sm) (sm_syndrome sm);
  check_success (c_ops cd) fr (sm_toggle sm) (Some x).
(** The share of all values of [m] random numbers with which it does not. *)
Definition error_rate (N : positive) (m : nat) (dec : correction) (s0 : sim) (cd : CodesModel.code) (e : errors) (x : logical_spec) (anc : bool) : Q :=
  mean (sequences N m) (fun ds => match decoded_run dec s0 cd e x anc (stream (s_k s0) ds) with Ok true => 0 | _ => 1 end)%Q.

(** The price of a history (FaultSpec), if faults cost [a] and erased qubits 1. *)
Definition history_price (a : nat) (cd : CodesModel.code) (e : errors) (allow : pauli1 -> bool) (side : nat -> bool) (h : history) : nat :=
  total_price a 1 (List.length h) (n_data_qubits (c_ops cd)) (c_stabs (c_ops cd)) allow side
    (erasures_of cd e h) (fun t q => error_of (at_qubit h t q)) (wrong h).
(** The chance of the histories which cost [dist] or more. *)
Definition chance_of_price (a dist : nat) (cd : CodesModel.code) (e : errors) (allow : pauli1 -> bool) (side : nat -> bool) : Q :=
  sum_over (filter (fun h => dist <=? history_price a cd e allow side h)
      (histories (n_data_qubits (c_ops cd)) (n_stabgens (c_ops cd)) (Z.to_nat (c_rounds cd))))
    (history_chance e (n_data_qubits (c_ops cd)) (n_stabgens (c_ops cd))).

(** The number of parts X and Z of a Pauli operator which are allowed. *)
Definition letter_faults (allow : pauli1 -> bool) (P : pauli1) : nat :=
  List.length (filter (fun p => allow p && error_part p (xz P)) [PX; PZ]).
Definition power (y : Q) (k : nat) : Q := product (repeat y k).
(** For one qubit and for one result: the mean of [y] to the power of the number of faults. *)
Definition qubit_factor (e : errors) (allow : pauli1 -> bool) (y : Q) (q : nat) : Q :=
  sum_over letters (fun P => pauli_prob e q P * power y (letter_faults allow P))%Q.
Definition result_factor (e : errors) (y : Q) (a : nat) : Q := (1 - flip_prob e a + flip_prob e a * y)%Q.
(** ... and for all of them. *)
Definition fault_bound (cd : CodesModel.code) (e : errors) (allow : pauli1 -> bool) (side : nat -> bool) (y : Q) : Q :=
  let n := n_data_qubits (c_ops cd) in let rounds := Z.to_nat (c_rounds cd) in
  (power (product (map (qubit_factor e allow y) (seq 0 n))) rounds *
   power (product (map (fun s => if side s then result_factor e y (n + s) else 1) (seq 0 (n_stabgens (c_ops cd))))) (rounds - 1))%Q.
