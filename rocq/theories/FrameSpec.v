(** Independent specification of how Pauli errors travel through circuits: a frame says for every qubit whether it differs by X
    and by Z from the qubit of the circuit without errors.  There are no state vectors and no tableaus in this file. *)
Require Import String List Bool Arith ZArith QArith.
From Verif Require Import Base QSpec StateSpec CircuitModel SimSpec DistSpec.
Import ListNotations.
Local Open Scope string_scope.
Local Open Scope nat_scope.
Local Open Scope list_scope.

Definition frame := list (bool * bool).
Definition at_qubit (q : nat) (f : frame) : bool * bool := nth q f (false, false).
Definition no_frame (n : nat) : frame := repeat (false, false) n.

(** An error on a qubit. *)
Definition hit (P : pauli1) (q : nat) (f : frame) : frame :=
  let (x, z) := at_qubit q f in
  upd q (match P with PI => (x, z) | PX => (negb x, z) | PY => (negb x, negb z) | PZ => (x, negb z) end) f.
(** H exchanges X and Z. *)
Definition through_h (f : frame) (q : nat) : frame := let (x, z) := at_qubit q f in upd q (z, x) f.
(** CX copies X from the control to the target and Z from the target to the control, CZ makes Z on each qubit of X on the other. *)
Definition through_cx (f : frame) (ct : nat * nat) : frame :=
  let (c, t) := ct in let (xc, zc) := at_qubit c f in let (xt, zt) := at_qubit t f in
  upd c (xc, xorb zc zt) (upd t (xorb xt xc, zt) f).
Definition through_cz (f : frame) (ct : nat * nat) : frame :=
  let (c, t) := ct in let (xc, zc) := at_qubit c f in let (xt, zt) := at_qubit t f in
  upd c (xc, xorb zc xt) (upd t (xt, xorb zt xc) f).
(** A reset removes all errors of the qubit. *)
Definition through_reset (f : frame) (q : nat) : frame := upd q (false, false) f.

(** A number which depends on the frame, on which of the results are flipped, and on the erasures. *)
Definition frame_statistic := frame -> list bool -> list bool -> Q.

(** The expected value after errors ... *)
Fixpoint hits_depolarize (qs : list nat) (G : frame_statistic) : frame_statistic := fun f fl es =>
  match qs with
  | [] => G f fl es
  | q :: qs' => sum_over [PX; PY; PZ] (fun P => (1 # 3) * hits_depolarize qs' G (hit P q f) fl es)%Q
  end.
Definition hits (P : pauli1) (qs : list nat) (f : frame) : frame := fold_left (fun f q => hit P q f) qs f.
Definition error_gate (gt : gate) (G : frame_statistic) : frame_statistic := fun f fl es =>
  let (name, args) := gt in
  if String.eqb name "X" then G (hits PX (qubits args) f) fl es
  else if String.eqb name "Y" then G (hits PY (qubits args) f) fl es
  else if String.eqb name "Z" then G (hits PZ (qubits args) f) fl es
  else if String.eqb name "DEPOLARIZE" then hits_depolarize (qubits args) G f fl es
  else if String.eqb name "E_ERASE" then
    let p := number (nth 0 args (AInt 0)) in let q := nth 0 (qubits (skipn 1 args)) 0 in
    (p * sum_over letters (fun P => (1 # 4) * G (hit P q f) fl (es ++ [true])) + (1 - p) * G f fl (es ++ [false]))%Q
  else if String.eqb name "E_PAULI" then
    let ps := map number (firstn 3 args) in let q := nth 0 (qubits (skipn 3 args)) 0 in
    sum_over letters (fun P => prob_k ps (code P) * G (hit P q f) fl es)%Q
  else if String.eqb name "E_PAULI2" then
    let ps := map number (firstn 15 args) in let q1 := nth 0 (qubits (skipn 15 args)) 0 in let q2 := nth 1 (qubits (skipn 15 args)) 0 in
    sum_over letters (fun P1 => sum_over letters (fun P2 => prob_k ps (4 * code P1 + code P2) * G (hit P2 q2 (hit P1 q1 f)) fl es))%Q
  else 0%Q.
Fixpoint error_gates (gs : list gate) (G : frame_statistic) : frame_statistic :=
  match gs with [] => G | gt :: gs' => error_gate gt (error_gates gs' G) end.
Fixpoint error_block (bs : list branch) (G : frame_statistic) : frame_statistic := fun f fl es =>
  match bs with
  | [] => G f fl es
  | b :: bs' => (br_p b * error_gates (br_gates b) G f fl es + (1 - br_p b) * error_block bs' G f fl es)%Q
  end.
(** ... and after gates, where X, Y and Z belong to the circuit and change no frame. *)
Definition frame_gate (gt : gate) (G : frame_statistic) : frame_statistic := fun f fl es =>
  let (name, args) := gt in
  if String.eqb name "X" || String.eqb name "Y" || String.eqb name "Z" then G f fl es
  else if String.eqb name "H" then G (fold_left through_h (qubits args) f) fl es
  else if String.eqb name "CX" then G (fold_left through_cx (pairs (qubits args)) f) fl es
  else if String.eqb name "CZ" then G (fold_left through_cz (pairs (qubits args)) f) fl es
  else if String.eqb name "M" then G f (fl ++ map (fun q => fst (at_qubit q f)) (qubits args)) es
  else if String.eqb name "R" then G (fold_left through_reset (qubits args) f) fl es
  else error_gate gt G f fl es.
Fixpoint framed (l : list item) (G : frame_statistic) : frame_statistic :=
  match l with
  | [] => G
  | Plain gt :: l' => frame_gate gt (framed l' G)
  | Block b bs :: l' => error_block (b :: bs) (framed l' G)
  end.

(** The circuit without errors. *)
Definition clean_names := ["X"; "Y"; "Z"; "H"; "CX"; "CZ"; "M"; "R"].
Definition error_names := ["X"; "Y"; "Z"; "DEPOLARIZE"; "E_ERASE"; "E_PAULI"; "E_PAULI2"].
Definition is_clean (it : item) : bool := match it with Plain gt => existsb (String.eqb (fst gt)) clean_names | Block _ _ => false end.
Definition noiseless (l : list item) : list item := filter is_clean l.
(** Error blocks contain only errors. *)
Definition only_errors (l : list item) : Prop :=
  Forall (fun it => match it with Plain _ => True | Block b bs => Forall (fun b => Forall (fun gt => In (fst gt) error_names) (br_gates b)) (b :: bs) end) l.
(** Results some of which are flipped. *)
Fixpoint flipped (ms fl : list bool) : list bool :=
  match fl with [] => [] | f :: fl' => xorb (hd false ms) f :: flipped (tl ms) fl' end.
(** The parity of some of the results. *)
Definition parity_of (ms : list bool) (D : list nat) : bool := fold_right xorb false (map (fun i => nth i ms false) D).
