(** Model of /repo/src/plaquette/device/_circuitsim.py: CircuitSimulator (and of the
    QuantumState wrappers it uses, device/__init__.py:56-167, which only call pauli.py).

    The random generator [plaquette.rng] is the stream [g]; [s_k] counts the calls.
    numpy's [choice(range(k), p=p)] is modelled by its documented algorithm: one uniform
    draw compared with the cumulated probabilities; [integers(0, k)] is a draw reduced
    modulo k.  Negative qubit indices (which Python would wrap around) and arguments of
    the wrong type, which Circuit.append never stores, are [Unmodelled]. *)
Require Import List Bool Arith ZArith QArith Lia String.
From Verif Require Import Base QSpec PauliModel CircuitModel.
Import ListNotations.
Local Open Scope string_scope.

(** _circuitsim.py:39-51 and the position in the random stream. *)
Record sim := mkSim {
  s_st : tableau;            (* self.state.tableau *)
  s_meas : list bool;        (* self.meas_results *)
  s_eras : list bool;        (* self.erasure *)
  s_in : bool;               (* self.in_error *)
  s_any : bool;              (* self.any_error_applied *)
  s_branch : bool;           (* self.apply_branch *)
  s_k : nat }.

Definition set_st (s : sim) (t : tableau) : sim :=
  mkSim t (s_meas s) (s_eras s) (s_in s) (s_any s) (s_branch s) (s_k s).
Definition set_flags (s : sim) (i a b : bool) : sim :=
  mkSim (s_st s) (s_meas s) (s_eras s) i a b (s_k s).
Definition tick (s : sim) : sim :=
  mkSim (s_st s) (s_meas s) (s_eras s) (s_in s) (s_any s) (s_branch s) (S (s_k s)).

(** Python [a < b] on floats. *)
Definition Qltb (a b : Q) : bool := negb (Qle_bool b a).

(** A qubit index argument. *)
Definition qubit_of (a : arg) : Res nat :=
  match a with
  | AInt z => if (z <? 0)%Z then Err Unmodelled else Ok (Z.to_nat z)
  | _ => Err Unmodelled
  end.
(** A probability argument (float, or int inside an ERROR instruction). *)
Definition prob_of (a : arg) : Res Q :=
  match a with AInt z => Ok (inject_Z z) | AFlt q => Ok q | AStr _ => Err Unmodelled end.

(** Python slices args[::2] and args[1::2] (_circuitsim.py:139, 141). *)
Fixpoint evens {A} (l : list A) : list A :=
  match l with a :: _ :: l' => a :: evens l' | [a] => [a] | [] => [] end.
Definition odds {A} (l : list A) : list A := evens (tl l).

(** numpy Generator.choice(range(len(ps)), p=ps): ValueError for a negative probability;
    otherwise the first index whose cumulated probability exceeds the uniform draw. *)
Fixpoint pick (u acc : Q) (ps : list Q) (i : nat) : nat :=
  match ps with
  | [] => i
  | p :: ps' => if Qltb u (acc + p) then i else pick u (acc + p) ps' (S i)
  end.
Definition choice (u : Q) (ps : list Q) : Res nat :=
  if existsb (fun p => Qltb p 0) ps then Err ValueError else Ok (pick u 0 ps 0).

Definition Qsum (l : list Q) : Q := fold_left Qplus l 0%Q.

Section Sim.
Variable g : rng.

(** _circuitsim.py:180-192 _apply_pauli_from_int. *)
Definition apply_pauli_from_int (s : sim) (qubit sample : nat) : Res sim :=
  match sample with
  | 0%nat => Ok s
  | 1%nat => do t <- gate_x (s_st s) [qubit]; Ok (set_st s t)
  | 2%nat => do t <- gate_y (s_st s) [qubit]; Ok (set_st s t)
  | 3%nat => do t <- gate_z (s_st s) [qubit]; Ok (set_st s t)
  | _ => Err AssertionError
  end.

(** _circuitsim.py:144-149, one qubit of M. *)
Definition measure_qubit (s : sim) (q : nat) : Res sim :=
  do op <- single_qubit_pauli_operator false PZ q (nqubits (s_st s));
  do r <- measure g (s_k s) (s_st s) op None;
  let '(t, m, k) := r in
  Ok (mkSim t (s_meas s ++ [m]) (s_eras s) (s_in s) (s_any s) (s_branch s) k).

(** _circuitsim.py:153-155, one qubit of DEPOLARIZE. *)
Definition depolarize_qubit (s : sim) (q : nat) : Res sim :=
  apply_pauli_from_int (tick s) q (1 + d_int (g (s_k s)) mod 3).

(** _circuitsim.py:128-178 _handle_gate. *)
Definition handle_gate (s : sim) (name : string) (args : list arg) : Res sim :=
  if String.eqb name "X" then
    do qs <- mapR qubit_of args; do t <- gate_x (s_st s) qs; Ok (set_st s t)
  else if String.eqb name "Y" then
    do qs <- mapR qubit_of args; do t <- gate_y (s_st s) qs; Ok (set_st s t)
  else if String.eqb name "Z" then
    do qs <- mapR qubit_of args; do t <- gate_z (s_st s) qs; Ok (set_st s t)
  else if String.eqb name "H" then
    do qs <- mapR qubit_of args; do t <- hadamard (s_st s) qs; Ok (set_st s t)
  else if String.eqb name "CX" then
    do qs <- mapR qubit_of args; do t <- control_not_gate (s_st s) (evens qs) (odds qs); Ok (set_st s t)
  else if String.eqb name "CZ" then
    do qs <- mapR qubit_of args; do t <- control_phase_gate (s_st s) (evens qs) (odds qs); Ok (set_st s t)
  else if String.eqb name "M" then
    do qs <- mapR qubit_of args; foldR measure_qubit qs s
  else if String.eqb name "R" then
    do qs <- mapR qubit_of args;
    do r <- reset_qubits g (s_k s) (s_st s) false PZ qs;
    Ok (mkSim (fst r) (s_meas s) (s_eras s) (s_in s) (s_any s) (s_branch s) (snd r))
  else if String.eqb name "DEPOLARIZE" then
    do qs <- mapR qubit_of args; foldR depolarize_qubit qs s
  else if String.eqb name "E_ERASE" then
    match args with
    | [a; b] =>
        do p <- prob_of a; do q <- qubit_of b;
        let erase := Qltb (d_unif (g (s_k s))) p in
        let s1 := mkSim (s_st s) (s_meas s) (s_eras s ++ [erase]) (s_in s) (s_any s) (s_branch s) (S (s_k s)) in
        if erase then apply_pauli_from_int (tick s1) q (d_int (g (s_k s1)) mod 4) else Ok s1
    | _ => Err ValueError
    end
  else if String.eqb name "E_PAULI" then
    match args with
    | a :: b :: c :: d :: _ =>
        do ps <- mapR prob_of [a; b; c];
        do q <- qubit_of d;
        do sample <- choice (d_unif (g (s_k s))) (1 - Qsum ps :: ps)%Q;
        apply_pauli_from_int (tick s) q sample
    | _ => Err IndexError
    end
  else if String.eqb name "E_PAULI2" then
    do ps <- mapR prob_of (firstn 15 args);
    if negb (List.length ps =? 15)%nat then Err ValueError
    else
      do sample <- choice (d_unif (g (s_k s))) (1 - Qsum ps :: ps)%Q;
      match skipn 15 args with
      | a :: b :: _ =>
          do q1 <- qubit_of a; do q2 <- qubit_of b;
          do s1 <- apply_pauli_from_int (tick s) q1 (sample / 4);
          apply_pauli_from_int s1 q2 (sample mod 4)
      | _ => Err IndexError
      end
  else Err ValueError.

(** _circuitsim.py:100-126 _handle_error. *)
Definition handle_error (s : sim) (name : string) (args : list arg) : Res sim :=
  if String.eqb name "ERROR" then
    match args with
    | a :: AStr inner :: rest =>
        do p <- prob_of a;
        if Qltb (d_unif (g (s_k s))) p
        then handle_gate (tick (set_flags s true true true)) inner rest
        else Ok (tick (set_flags s true false false))
    | _ => Err Unmodelled
    end
  else if String.eqb name "ERROR_CONTINUE" then
    match args with
    | AStr inner :: rest =>
        if negb (s_in s) then Err ValueError
        else if s_branch s then handle_gate s inner rest else Ok s
    | _ => Err Unmodelled
    end
  else if String.eqb name "ERROR_ELSE" then
    match args with
    | a :: AStr inner :: rest =>
        do p <- prob_of a;
        if negb (s_in s) then Err ValueError
        else if s_any s then Ok (set_flags s (s_in s) (s_any s) false)
        else if Qltb (d_unif (g (s_k s))) p
             then handle_gate (tick (set_flags s (s_in s) true true)) inner rest
             else Ok (tick s)
    | _ => Err Unmodelled
    end
  else Err ValueError.

(** _circuitsim.py:194-200 _run_gate. *)
Definition run_gate (s : sim) (gt : gate) : Res sim :=
  if String.prefix "ERROR" (fst gt) then handle_error s (fst gt) (snd gt)
  else handle_gate (set_flags s false (s_any s) (s_branch s)) (fst gt) (snd gt).

(** _circuitsim.py:219-235 reset; the error flags are kept. *)
Definition sim_reset (c : circuit) (s : sim) : sim :=
  mkSim (zero_state (number_of_qubits c)) [] [] (s_in s) (s_any s) (s_branch s) (s_k s).

(** _circuitsim.py:202-208 run (with __iter__ and __next__, lines 62-88: the gates in
    order). *)
Definition sim_run (c : circuit) (after_reset : bool) (s : sim) : Res sim :=
  foldR run_gate c (if after_reset then sim_reset c s else s).

(** _circuitsim.py:26-51 __init__. *)
Definition sim_init (c : circuit) (k : nat) : sim :=
  mkSim (zero_state (number_of_qubits c)) [] [] false false false k.
End Sim.

(** _circuitsim.py:210-217 process_results. *)
Definition process_results (s : sim) : list bool * option (list bool) :=
  (s_meas s, match s_eras s with [] => None | l => Some l end).
