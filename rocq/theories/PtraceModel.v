(** Model of /repo/src/plaquette/pauli.py: measurements of single qubits in the X or Z base,
    partial trace, and insertion of qubits. *)
Require Import List Bool Arith ZArith.
From Verif Require Import Base QSpec PauliModel.
Import ListNotations.

(** numpy [np.delete] with one index in range (pauli.py:591-592). *)
Definition delete_nth {A} (i : nat) (l : list A) : list A := firstn i l ++ skipn (S i) l.

(** pauli.py:592, the columns [target] and [target + number_of_qubits] of one row are deleted. *)
Definition delete_qubit (q : nat) (r : row) : row := mkRow (delete_nth q (ops r)) (neg r).

(** pauli.py:585-589, loop body of _ptrace. *)
Definition ptrace_step (n f : nat) (st : tableau) (i : nat) : Res tableau :=
  do s <- multiply [nth (i + n) st row0; nth (f + n) st row0];
  let st1 := upd (i + n) (fst s) st in
  do d <- multiply [nth i st1 row0; nth f st1 row0];
  Ok (upd f (fst d) st1).

(** pauli.py:548-595 _ptrace; the base is PX, PZ, or something else.  The rows
    [first_stab] and [first_stab + number_of_qubits] are deleted at once, i.e. the second
    one first. *)
Definition ptrace (st : tableau) (target : nat) (base : pauli1) : Res tableau :=
  let n := nqubits st in
  do column <- match base with
               | PX => Ok (getx target)
               | PZ => Ok (getz target)
               | _ => Err ValueError
               end;
  if n <=? target then Err IndexError
  else
    match nonzero (map (fun r => column (ops r)) (skipn n st)) with
    | [] => Err IndexError
    | f :: others =>
        do st' <- foldR (ptrace_step n f) others st;
        Ok (map (delete_qubit target) (delete_nth f (delete_nth (f + n) st')))
    end.

(** pauli.py:497-500: the argument [forced_outcomes], None or an int, or a sequence. *)
Inductive forced_arg := ForcedOne (o : option Z) | ForcedSeq (l : list (option Z)).

(** pauli.py:497-520: one forced outcome for each target. *)
Definition pad_forced (forced : forced_arg) (targets : nat) : Res (list (option Z)) :=
  let l := match forced with ForcedOne o => [o] | ForcedSeq l => l end in
  match l with
  | [o] => Ok (repeat o targets)
  | _ => if length l =? targets then Ok l else Err ValueError
  end.

(** numpy [np.argsort]: insertion of an index into the sorted list of indices.  Equal
    targets keep their order (numpy promises this for short arrays only; the theorems about
    several targets do not depend on it). *)
Fixpoint insert_index (key : nat -> nat) (i : nat) (l : list nat) : list nat :=
  match l with
  | [] => [i]
  | j :: l' => if key i <=? key j then i :: l else j :: insert_index key i l'
  end.

(** pauli.py:536 [np.argsort(targets)]. *)
Definition argsort (targets : list nat) : list nat :=
  fold_right (insert_index (fun i => nth i targets 0)) [] (seq 0 (length targets)).

(** pauli.py:536-544, loop body of _measure_base; [n_q] is the number of qubits before the
    first measurement (pauli.py:492). *)
Definition measure_base_step (g : rng) (n_q : nat) (base : pauli1) (targets : list nat)
    (fo : list (option Z)) (destructive : bool) (s : tableau * list bool * nat) (idx : nat)
  : Res (tableau * list bool * nat) :=
  let '(st, results, k) := s in
  let q := nth idx targets 0 in
  do op <- single_qubit_pauli_operator false base q n_q;
  do r <- measure g k st op (nth idx fo None);
  let '(st', m, k') := r in
  do st'' <- if destructive then ptrace st' q base else Ok st';
  Ok (st'', upd idx m results, k').

(** pauli.py:459-545 _measure_base, i.e. measure_z_base (599-625) and measure_x_base
    (628-653).  An int as [targets] is a list of length one; the array of results is returned
    as a list also for one target, where the code returns the number itself. *)
Definition measure_base (g : rng) (k : nat) (st : tableau) (base : pauli1) (targets : list nat)
    (destructive : bool) (forced : forced_arg) : Res (tableau * list bool * nat) :=
  let n_q := nqubits st in
  do fo <- pad_forced forced (length targets);
  foldR (measure_base_step g n_q base targets fo destructive) (rev (argsort targets))
        (st, repeat false (length targets), k).

(** pauli.py:427 [np.insert] of zero columns at [p] and [p + number_of_qubits] of one row. *)
Definition insert_column (p : nat) (r : row) : row :=
  mkRow (firstn p (ops r) ++ (false, false) :: skipn p (ops r)) (neg r).

(** pauli.py:393-432 insert_qubit_at for an int [p] >= 0.  With the numbers of lines 410-425,
    h_pos = [p, p + n] and v_pos = [n] * p ++ [2n] * p.  For p = 0 the array v_pos is an empty
    array of floats, which np.insert refuses (IndexError); for p >= 2 the index arrays in line
    430 have lengths 2p and 2 and cannot be broadcast (IndexError).  For p = 1 a row is inserted
    before row n and one after the last row; then the entries [n, 1] and [2n, n + 1] of the new
    array are set, and line 431 assigns to an empty selection. *)
Definition insert_qubit_at (st : tableau) (p : nat) : Res tableau :=
  let n := nqubits st in
  if n <? p then Err IndexError
  else if negb (p =? 1) then Err IndexError
  else
    let zero := mkRow (repeat (false, false) (S n)) false in
    let st1 := map (insert_column p) st in
    let st2 := firstn n st1 ++ zero :: skipn n st1 ++ [zero] in
    let a := nth n st2 row0 in
    let st3 := upd n (mkRow (setx 1 true (ops a)) (neg a)) st2 in
    let b := nth (2 * n) st3 row0 in
    Ok (upd (2 * n) (mkRow (setz 0 true (ops b)) (neg b)) st3).

(** pauli.py:94-96 append_qubit. *)
Definition append_qubit (st : tableau) : Res tableau := insert_qubit_at st (nqubits st).
