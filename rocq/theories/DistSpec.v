(** Independent specification of how often circuits give their results: Born's rule for
    measurements and the chances named in the instructions of docs/ref/circuits.rst for errors. *)
Require Import String List Bool Arith ZArith QArith Lia.
From Verif Require Import Base QSpec StateSpec CircuitModel SimSpec.
Import ListNotations.
Local Open Scope string_scope.
Local Open Scope nat_scope.
Local Open Scope list_scope.

(** * Random numbers *)
(** All the values of one call of the random generator, equally likely: a bit, a multiple of 1/N
    below 1, and an integer below 12 (only its remainders by 3 and by 4 are used). *)
Definition draws (N : positive) : list draw :=
  flat_map (fun b => flat_map (fun z => map (fun i => mkDraw b (Z.of_nat i # N) z) (seq 0 (Pos.to_nat N))) (seq 0 12)) [false; true].
(** All sequences of the values of [m] calls. *)
Fixpoint sequences (N : positive) (m : nat) : list (list draw) :=
  match m with
  | 0 => [[]]
  | S m' => flat_map (fun d => map (cons d) (sequences N m')) (draws N)
  end.
(** The generator which gives these values from its call number [k] on. *)
Definition stream (k : nat) (l : list draw) : rng := fun j => nth (j - k) l (mkDraw false 0 0).

Definition sum_over {A} (l : list A) (f : A -> Q) : Q := qsum (map f l).
Definition mean {A} (l : list A) (f : A -> Q) : Q := (sum_over l f / inject_Z (Z.of_nat (List.length l)))%Q.

(** * Expected values *)
(** A number which depends on the state vector, the measurement results and the erasures. *)
Definition statistic := vec -> list bool -> list bool -> Q.
(** Born's rule: the chance of outcome [m] of the observable [P] in the state [v]. *)
Definition born (n : nat) (P : spauli) (m : bool) (v : vec) : Q :=
  (inject_Z (norm2 n (project P m v)) / inject_Z (4 * norm2 n v))%Q.

Definition qubits (args : list arg) : list nat := flat_map (fun a => match a with AInt z => [Z.to_nat z] | _ => [] end) args.
Definition number (a : arg) : Q := match a with AFlt q => q | AInt z => inject_Z z | AStr _ => 0%Q end.
Fixpoint pairs {A} (l : list A) : list (A * A) := match l with a :: b :: l' => (a, b) :: pairs l' | _ => [] end.
Definition letters := [PI; PX; PY; PZ].

(** The expected value of [f] after measurements, resets and random Pauli operators ... *)
Fixpoint mean_measure (n : nat) (qs : list nat) (f : statistic) (v : vec) (ms es : list bool) : Q :=
  match qs with
  | [] => f v ms es
  | q :: qs' => sum_over [false; true] (fun m => born n (single n false PZ q) m v *
      mean_measure n qs' f (project (single n false PZ q) m v) (ms ++ [m]) es)%Q
  end.
Fixpoint mean_reset (n : nat) (qs : list nat) (f : statistic) (v : vec) (ms es : list bool) : Q :=
  match qs with
  | [] => f v ms es
  | q :: qs' => sum_over [false; true] (fun m => born n (single n false PZ q) m v *
      mean_reset n qs' f (let w := project (single n false PZ q) m v in if m then apply1 mX q w else w) ms es)%Q
  end.
Fixpoint mean_depolarize (qs : list nat) (f : statistic) (v : vec) (ms es : list bool) : Q :=
  match qs with
  | [] => f v ms es
  | q :: qs' => sum_over [PX; PY; PZ] (fun P => (1 # 3) * mean_depolarize qs' f (apply1 (mP P) q v) ms es)%Q
  end.
(** ... after a gate ... *)
Definition mean_gate (n : nat) (gt : gate) (f : statistic) : statistic := fun v ms es =>
  let (name, args) := gt in
  if String.eqb name "X" then f (all1 mX (qubits args) v) ms es
  else if String.eqb name "Y" then f (all1 mY (qubits args) v) ms es
  else if String.eqb name "Z" then f (all1 mZ (qubits args) v) ms es
  else if String.eqb name "H" then f (all1 mH (qubits args) v) ms es
  else if String.eqb name "CX" then f (all2 mCX (pairs (qubits args)) v) ms es
  else if String.eqb name "CZ" then f (all2 mCZ (pairs (qubits args)) v) ms es
  else if String.eqb name "M" then mean_measure n (qubits args) f v ms es
  else if String.eqb name "R" then mean_reset n (qubits args) f v ms es
  else if String.eqb name "DEPOLARIZE" then mean_depolarize (qubits args) f v ms es
  else if String.eqb name "E_ERASE" then
    let p := number (nth 0 args (AInt 0)) in let q := nth 0 (qubits (skipn 1 args)) 0 in
    (p * sum_over letters (fun P => (1 # 4) * f (apply1 (mP P) q v) ms (es ++ [true])) + (1 - p) * f v ms (es ++ [false]))%Q
  else if String.eqb name "E_PAULI" then
    let ps := map number (firstn 3 args) in let q := nth 0 (qubits (skipn 3 args)) 0 in
    sum_over letters (fun P => prob_k ps (code P) * f (apply1 (mP P) q v) ms es)%Q
  else if String.eqb name "E_PAULI2" then
    let ps := map number (firstn 15 args) in let q1 := nth 0 (qubits (skipn 15 args)) 0 in let q2 := nth 1 (qubits (skipn 15 args)) 0 in
    sum_over letters (fun P1 => sum_over letters (fun P2 =>
      prob_k ps (4 * code P1 + code P2) * f (apply1 (mP P2) q2 (apply1 (mP P1) q1 v)) ms es))%Q
  else 0%Q.
Fixpoint mean_gates (n : nat) (gs : list gate) (f : statistic) : statistic :=
  match gs with [] => f | gt :: gs' => mean_gate n gt (mean_gates n gs' f) end.
(** ... after a block of errors: each branch is chosen with its probability if none before it was ... *)
Fixpoint mean_block (n : nat) (bs : list branch) (f : statistic) : statistic := fun v ms es =>
  match bs with
  | [] => f v ms es
  | b :: bs' => (br_p b * mean_gates n (br_gates b) f v ms es + (1 - br_p b) * mean_block n bs' f v ms es)%Q
  end.
(** ... and after a circuit, which is a sequence of gates and blocks of errors. *)
Inductive item := Plain (gt : gate) | Block (b : branch) (bs : list branch).
Definition text (l : list item) : circuit := flat_map (fun it => match it with Plain gt => [gt] | Block b bs => block_text b bs end) l.
Fixpoint expected (n : nat) (l : list item) (f : statistic) : statistic :=
  match l with
  | [] => f
  | Plain gt :: l' => mean_gate n gt (expected n l' f)
  | Block b bs :: l' => mean_block n (b :: bs) (expected n l' f)
  end.

(** * Circuits *)
(** Probabilities of a gate; all are multiples of 1/N. *)
Definition chances (gt : gate) : list Q :=
  map number (firstn (if String.eqb (fst gt) "E_ERASE" then 1 else if String.eqb (fst gt) "E_PAULI" then 3
                      else if String.eqb (fst gt) "E_PAULI2" then 15 else 0) (snd gt)).
Definition on_grid (N : positive) (p : Q) : Prop := (0 <= p <= 1)%Q /\ exists a : nat, (p == Z.of_nat a # N)%Q.
Definition usable_gate (N : positive) (gt : gate) : Prop := valid_gate (fst gt) (snd gt) /\ Forall (on_grid N) (chances gt).
Definition usable_branch (N : positive) (b : branch) : Prop := on_grid N (br_p b) /\ Forall (usable_gate N) (br_gates b).
Definition usable (N : positive) (l : list item) : Prop :=
  Forall (fun it => match it with Plain gt => usable_gate N gt | Block b bs => Forall (usable_branch N) (b :: bs) end) l.
(** More calls of the generator than the circuit makes. *)
Definition calls (c : circuit) : nat := fold_right (fun gt k => List.length (snd gt) + 2 + k) 0 c.
(** Probabilities of an instruction, also of those of error blocks. *)
Definition instruction_chances (gt : gate) : list Q :=
  match snd gt with
  | AFlt p :: AStr inner :: args => p :: chances (inner, args)
  | AStr inner :: args => chances (inner, args)
  | _ => chances gt
  end.
(** The indicator of given results. *)
Definition yields (ms es : list bool) : list bool -> list bool -> Q :=
  fun ms' es' => if list_eq_dec bool_dec ms ms' then if list_eq_dec bool_dec es es' then 1%Q else 0%Q else 0%Q.
