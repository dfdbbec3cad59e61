(** Specification vocabulary for whole gates, measurements and resets, on state vectors
    (no tableau in sight), and the list of tableau operations a program can perform. *)
Require Import List Bool Arith ZArith Lia.
From Verif Require Import Base QSpec PauliModel.
Import ListNotations.

(** A one-qubit matrix applied to several qubits in turn, and a two-qubit matrix applied
    to several pairs in turn. *)
Definition all1 (m : mat2) (qs : list nat) (v : vec) : vec := fold_left (fun w q => apply1 m q w) qs v.
Definition all2 (m : mat4) (cts : list (nat * nat)) (v : vec) : vec :=
  fold_left (fun w ct => apply2 m (fst ct) (snd ct) w) cts v.

(** The Pauli operator with the single factor [p] on qubit [q] of [n] qubits. *)
Definition single (n : nat) (sign : bool) (p : pauli1) (q : nat) : spauli := (sign, upd q p (repeat PI n)).

(** A Pauli operator acts trivially on the qubits [qs]. *)
Definition trivial_on (qs : list nat) (P : spauli) : Prop := forall q, In q qs -> nth q (snd P) PI = PI.

(** Operations a program can perform on a tableau. *)
Inductive oper :=
| OpH (qs : list nat) | OpS (qs : list nat)
| OpX (qs : list nat) | OpY (qs : list nat) | OpZ (qs : list nat)
| OpCX (cs ts : list nat) | OpCZ (cs ts : list nat)
| OpMeasure (op : row) (forced : option Z)
| OpReset (sign : bool) (p : pauli1) (qs : list nat).

(** [k] counts the random draws used so far. *)
Definition exec (g : rng) (stk : tableau * nat) (o : oper) : Res (tableau * nat) :=
  let '(st, k) := stk in
  let gate r := bindR r (fun st' => Ok (st', k)) in
  match o with
  | OpH qs => gate (hadamard st qs)
  | OpS qs => gate (phase_gate st qs)
  | OpX qs => gate (gate_x st qs)
  | OpY qs => gate (gate_y st qs)
  | OpZ qs => gate (gate_z st qs)
  | OpCX cs ts => gate (control_not_gate st cs ts)
  | OpCZ cs ts => gate (control_phase_gate st cs ts)
  | OpMeasure op forced => bindR (measure g k st op forced) (fun r => Ok (fst (fst r), snd r))
  | OpReset sign p qs => reset_qubits g k st sign p qs
  end.

(** Arguments in range for n qubits. *)
Definition pairs_ok (n : nat) (cs ts : list nat) : Prop :=
  length cs = length ts /\
  Forall (fun ct => fst ct < n /\ snd ct < n /\ fst ct <> snd ct) (combine cs ts).
Definition oper_ok (n : nat) (o : oper) : Prop :=
  match o with
  | OpH qs | OpS qs | OpX qs | OpY qs | OpZ qs => Forall (fun q => q < n) qs
  | OpCX cs ts | OpCZ cs ts => pairs_ok n cs ts
  | OpMeasure op forced => length (ops op) = n /\ (exists q, nth q (ops op) (false, false) <> (false, false)) /\
                           (forall f, forced = Some f -> f = 0%Z \/ f = 1%Z)
  | OpReset _ p qs => Forall (fun q => q < n) qs /\ (p <> PI \/ qs = [])
  end.
