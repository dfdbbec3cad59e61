(** Model of /repo/src/plaquette/device/_stimsim.py and of Device.run / get_sample of
    device/__init__.py for the local simulators.

    Stim itself is not modelled: an appended instruction is recorded, and a compiled
    sampler is a function from its seed and the number of earlier [sample] calls to the
    next batch (so a sampler built twice with the same seed repeats its batches, as Stim
    documents).  Floats are rationals. *)
Require Import List Bool Arith ZArith QArith Lia String.
From Verif Require Import Base QSpec PauliModel CircuitModel SimModel.
Import ListNotations.
Local Open Scope string_scope.
Local Open Scope nat_scope.
Local Open Scope list_scope.

(** Targets of a Stim instruction: a qubit, or target_x/y/z of a qubit. *)
Inductive starget := SQ (q : nat) | SP (p : pauli1) (q : nat).
(** An instruction given to stim.Circuit.append: name, targets, probabilities. *)
Record sinstr := mkS { i_name : string; i_targets : list starget; i_args : list Q }.

(** _stimsim.py:18-23 _append_equiprobable. *)
Fixpoint append_equiprobable_from (i : nat) (p : Q) (steps : list (list starget)) : Res (list sinstr) :=
  match steps with
  | [] => Ok []
  | step :: steps' =>
      let gate := if 0 <? i then "ELSE_CORRELATED_ERROR" else "CORRELATED_ERROR" in
      let den := (1 - inject_Z (Z.of_nat i) * p)%Q in
      if Qeq_bool den 0 then Err ZeroDivisionError
      else do rest <- append_equiprobable_from (S i) p steps'; Ok (mkS gate step [(p / den)%Q] :: rest)
  end.
Definition append_equiprobable (p : Q) (steps : list (list starget)) : Res (list sinstr) :=
  append_equiprobable_from 0 p steps.

(** _stimsim.py:50-91, one gate: the instructions appended and the marks of
    meas_is_erasure.  Arguments are ints and floats as stored by Circuit.append; negative
    qubit numbers are outside of the model. *)
Definition gate_to_stim (ancilla : nat) (gt : gate) : Res (list sinstr * list bool) :=
  let '(name, args) := gt in
  if mem_str name ["X"; "Y"; "Z"; "H"; "R"; "CX"; "CZ"] then
    do qs <- mapR qubit_of args; Ok ([mkS name (map SQ qs) []], [])
  else if String.eqb name "M" then
    do qs <- mapR qubit_of args; Ok ([mkS name (map SQ qs) []], repeat false (List.length args))
  else if String.eqb name "DEPOLARIZE" then
    do qs <- mapR qubit_of args; Ok ([mkS name (map SQ qs) [1%Q]], [])
  else if String.eqb name "E_PAULI" then
    if negb (List.length args =? 4) then Err AssertionError
    else
      do ps <- mapR prob_of (firstn 3 args); do qs <- mapR qubit_of (skipn 3 args);
      Ok ([mkS "PAULI_CHANNEL_1" (map SQ qs) ps], [])
  else if String.eqb name "E_PAULI2" then
    if negb (List.length args =? 17) then Err AssertionError
    else
      do ps <- mapR prob_of (firstn 15 args); do qs <- mapR qubit_of (skipn 15 args);
      Ok ([mkS "PAULI_CHANNEL_2" (map SQ qs) ps], [])
  else if String.eqb name "E_ERASE" then
    match args with
    | [a; b] =>
        do p <- prob_of a; do q <- qubit_of b;
        let x := SP PX ancilla in
        do l <- append_equiprobable (p / 4)%Q [[x; SP PX q]; [x; SP PY q]; [x; SP PZ q]; [x]];
        Ok (mkS "R" [SQ ancilla] [] :: l ++ [mkS "M" [SQ ancilla] []], [true])
    | _ => Err AssertionError
    end
  else if String.eqb name "ERROR" then
    match args with
    | a :: AStr name2 :: args2 =>
        do p <- prob_of a;
        if mem_str name2 ["X"; "Y"; "Z"] then
          if negb (List.length args2 =? 1) then Err ValueError
          else do qs <- mapR qubit_of args2; Ok ([mkS (name2 ++ "_ERROR")%string (map SQ qs) [p]], [])
        else Err ValueError
    | _ => Err Unmodelled
    end
  else if mem_str name ["ERROR_ELSE"; "ERROR_CONTINUE"] then Err ValueError
  else Ok ([], []).

(** _stimsim.py:26-92 circuit_to_stim. *)
Definition stim_step (ancilla : nat) (acc : list sinstr * list bool) (gt : gate) : Res (list sinstr * list bool) :=
  do r <- gate_to_stim ancilla gt; Ok (fst acc ++ fst r, snd acc ++ snd r).
Definition circuit_to_stim (c : circuit) : Res (list sinstr * list bool) :=
  foldR (stim_step (number_of_qubits c)) c ([], []).

(** * StimSimulator *)
(** a[mask] for a boolean mask of the same length (numpy raises IndexError otherwise). *)
Fixpoint select {A} (mask : list bool) (l : list A) : list A :=
  match mask, l with
  | b :: mask', a :: l' => if b then a :: select mask' l' else select mask' l'
  | _, _ => []
  end.
(** _stimsim.py:183-191 process_results.  np.array([]) of an empty list has float type, for
    which ~ raises TypeError. *)
Definition stim_process (is_erasure all_meas : list bool) : Res (list bool * option (list bool)) :=
  match is_erasure with
  | [] => Err TypeError
  | _ =>
      if negb (List.length is_erasure =? List.length all_meas) then Err IndexError
      else
        let erased := select is_erasure all_meas in
        Ok (select (map negb is_erasure) all_meas, match erased with [] => None | _ => Some erased end)
  end.

(** Seeds of compiled samplers. *)
Definition seed := nat.
(** Python indexing l[-k]: k = 0 is the first element. *)
Definition neg_index {A} (l : list A) (k : nat) : Res A :=
  if List.length l <? k then Err IndexError
  else match nth_error l (if k =? 0 then 0 else List.length l - k) with
       | Some a => Ok a
       | None => Err IndexError
       end.

Section Sampler.
(** [sampler circ sd k shots]: the batch of the k-th call of sample(shots) on the sampler
    compiled from [circ] with seed [sd]; a batch is a list of measurement records. *)
Variable sampler : list sinstr -> seed -> nat -> nat -> list (list bool).

(** _stimsim.py:95-118: the fields of StimSimulator. *)
Record stim_sim := mkStim {
  b_circ : list sinstr; b_marks : list bool; b_size : nat; b_seed : seed; b_calls : nat;
  b_batch : option (list (list bool)); b_remaining : nat; b_all : option (list bool) }.

(** _stimsim.py:158-170 reset. *)
Definition stim_reset (new_seed : option seed) (s : stim_sim) : stim_sim :=
  mkStim (b_circ s) (b_marks s) (b_size s) (match new_seed with Some x => x | None => b_seed s end) 0 None 0 (b_all s).
(** _stimsim.py:120-156 __init__ (the seed is given or drawn). *)
Definition stim_init (c : circuit) (batch_size : nat) (sd : seed) : Res stim_sim :=
  do r <- circuit_to_stim c;
  Ok (stim_reset None (mkStim (fst r) (snd r) batch_size sd 0 None 0 None)).

(** _stimsim.py:172-181 run. *)
Definition stim_run (after_reset : bool) (s : stim_sim) : Res stim_sim :=
  if negb after_reset then Err ValueError
  else
    let s1 := if b_remaining s =? 0
              then mkStim (b_circ s) (b_marks s) (b_size s) (b_seed s) (S (b_calls s))
                     (Some (sampler (b_circ s) (b_seed s) (b_calls s) (b_size s))) (b_size s) (b_all s)
              else s in
    match b_batch s1 with
    | None => Err AssertionError
    | Some batch =>
        do r <- neg_index batch (b_remaining s1);
        Ok (mkStim (b_circ s1) (b_marks s1) (b_size s1) (b_seed s1) (b_calls s1) (b_batch s1) (b_remaining s1 - 1) (Some r))
    end.

(** _stimsim.py:183-191 process_results (AttributeError before the first run). *)
Definition stim_results (s : stim_sim) : Res (list bool * option (list bool)) :=
  match b_all s with None => Err AttributeError | Some r => stim_process (b_marks s) r end.

(** * Device, device/__init__.py:298-445, backend "stim" *)
(** Python objects by identity: a Circuit object, or a CircuitBuilder object with the
    identity of its Circuit. *)
Inductive circ_obj := OCircuit (id : nat) | OBuilder (id circ_id : nat).
(** _stimsim.py:139-142: self.circ is the Circuit object. *)
Definition inner_circuit (o : circ_obj) : nat := match o with OCircuit i => i | OBuilder _ i => i end.
(** device/__init__.py:410 [self.circuit is circuit]: a builder is never the stored Circuit object. *)
Definition is_same (stored : nat) (o : circ_obj) : bool :=
  match o with OCircuit i => i =? stored | OBuilder _ _ => false end.

(** device/__init__.py:332-342: the backend (with the identity of its circuit), the keyword
    arguments for it, and the position in the random stream. *)
Record stim_dev := mkDev { dv_backend : option (nat * stim_sim); dv_batch_size : nat; dv_seed : option seed; dv_k : nat }.
(** device/__init__.py:304-342 __init__ with keyword arguments batch_size and stim_seed. *)
Definition dev_init (batch_size : nat) (sd : option seed) (k : nat) : stim_dev := mkDev None batch_size sd k.

(** The random generator, and the gates held by each Circuit object at the time of the call. *)
Variable g : rng.
(** device/__init__.py:410-413: a new backend (_stimsim.py:152-155 draws a missing seed). *)
Definition new_backend (heap : nat -> circuit) (o : circ_obj) (d : stim_dev) : Res (nat * stim_sim * nat) :=
  let id := inner_circuit o in
  match dv_seed d with
  | Some x => do s <- stim_init (heap id) (dv_batch_size d) x; Ok (id, s, dv_k d)
  | None => do s <- stim_init (heap id) (dv_batch_size d) (d_int (g (dv_k d))); Ok (id, s, S (dv_k d))
  end.
(** device/__init__.py:388-416 run. *)
Definition dev_run (heap : nat -> circuit) (o : circ_obj) (after_reset : bool) (d : stim_dev) : Res stim_dev :=
  do b <- match dv_backend d with
          | Some (id, s) => if is_same id o then Ok (id, s, dv_k d) else new_backend heap o d
          | None => new_backend heap o d
          end;
  let '(id, s, k) := b in
  do s' <- stim_run after_reset s;
  Ok (mkDev (Some (id, s')) (dv_batch_size d) (dv_seed d) k).
(** device/__init__.py:418-433 get_sample (AttributeError of None before the first run). *)
Definition dev_sample (d : stim_dev) : Res (list bool * option (list bool)) :=
  match dv_backend d with None => Err AttributeError | Some (_, s) => stim_results s end.
End Sampler.
