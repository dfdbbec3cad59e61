(** Model of /repo/src/plaquette/pauli.py: tableau rows, gates, products, measurement.

    A numpy row [x_0 .. x_{n-1}, z_0 .. z_{n-1}, r] of 0/1 bytes is modelled by the list
    of pairs (x_q, z_q) and the sign bit r.  [row_bits] gives the flat numpy layout.
    A tableau is the list of its rows (destabilisers first, then stabilisers).
    Qubit indices are natural numbers (Python's negative wrap-around indices are not
    modelled).  In-place mutation is modelled by returning the new tableau. *)
Require Import List Bool Arith ZArith Lia.
From Verif Require Import Base QSpec.
Import ListNotations.

(** pauli.py:53 [Tableau], one row; layout documented by unpack_tableau, pauli.py:1361-1387. *)
Record row := mkRow { ops : list (bool * bool); neg : bool }.

(** pauli.py:53 [Tableau] as a 2D array. *)
Definition tableau := list row.

(** pauli.py:1361-1387 unpack_tableau, inverted: the flat numpy row. *)
Definition row_bits (r : row) : list bool := map fst (ops r) ++ map snd (ops r) ++ [neg r].

(** pauli.py:1335, 1475, 376 [state.shape[1] // 2] and count_qubits, pauli.py:750-781 with
    include_identities=True.  An array without rows has no modelled width (0). *)
Definition nqubits (t : tableau) : nat :=
  match t with [] => O | r :: _ => length (ops r) end.

(** numpy element access x[:, q], z[:, q] of one row (pauli.py:277, 381, ...); the range
    check is done by the callers. *)
Definition getx (q : nat) (o : list (bool * bool)) : bool := fst (nth q o (false, false)).
Definition getz (q : nat) (o : list (bool * bool)) : bool := snd (nth q o (false, false)).
(** numpy element assignment x[:, q] = b, z[:, q] = b of one row (pauli.py:279-281, ...). *)
Definition setx (q : nat) (b : bool) (o : list (bool * bool)) := upd q (b, getz q o) o.
Definition setz (q : nat) (b : bool) (o : list (bool * bool)) := upd q (getx q o, b) o.

(** pauli.py:379-385, body of the loop of hadamard, on one row. *)
Definition h_row (q : nat) (r : row) : row :=
  let o := ops r in
  mkRow (upd q (getz q o, getx q o) o) (xorb (neg r) (getx q o && getz q o)).

(** pauli.py:890-894, body of the loop of phase_gate, on one row. *)
Definition s_row (q : nat) (r : row) : row :=
  let o := ops r in
  mkRow (setz q (xorb (getz q o) (getx q o)) o) (xorb (neg r) (getx q o && getz q o)).

(** pauli.py:1342-1344, body of the loop of x, on one row. *)
Definition x_row (q : nat) (r : row) : row :=
  mkRow (ops r) (xorb (neg r) (getz q (ops r))).

(** pauli.py:1481-1483, body of the loop of z, on one row. *)
Definition z_row (q : nat) (r : row) : row :=
  mkRow (ops r) (xorb (neg r) (getx q (ops r))).

(** pauli.py:275-281, body of the loop of control_not_gate, on one row; the three
    assignments are sequential, so that control = target is covered as well. *)
Definition cx_row (c t : nat) (r : row) : row :=
  let o := ops r in
  let s := xorb (neg r) (getx c o && getz t o && xorb (xorb (getx t o) (getz c o)) true) in
  let o1 := setx t (xorb (getx t o) (getx c o)) o in
  let o2 := setz c (xorb (getz c o1) (getz t o1)) o1 in
  mkRow o2 s.

(** pauli.py:314-320, body of the loop of control_phase_gate, on one row. *)
Definition cz_row (c t : nat) (r : row) : row :=
  let o := ops r in
  let s := xorb (neg r) (getx c o && getx t o && xorb (getz t o) (getz c o)) in
  let o1 := setz t (xorb (getz t o) (getx c o)) o in
  let o2 := setz c (xorb (getz c o1) (getx t o1)) o1 in
  mkRow o2 s.

(** One loop step of a one-qubit gate: numpy raises IndexError for a column out of range.
    (pauli.py:381, 892; the explicit check of x and z is in [gate_checked].) *)
Definition gate1_step (f : nat -> row -> row) (st : tableau) (q : nat) : Res tableau :=
  if q <? nqubits st then Ok (map (f q) st) else Err IndexError.

(** pauli.py:364-386 hadamard (targets given as a list). *)
Definition hadamard (st : tableau) (qs : list nat) : Res tableau := foldR (gate1_step h_row) qs st.

(** pauli.py:874-895 phase_gate. *)
Definition phase_gate (st : tableau) (qs : list nat) : Res tableau := foldR (gate1_step s_row) qs st.

(** pauli.py:1337-1345 and 1477-1484: x and z check all targets before the loop. *)
Definition gate_checked (f : nat -> row -> row) (st : tableau) (qs : list nat) : Res tableau :=
  if existsb (fun q => nqubits st <=? q) qs then Err IndexError
  else foldR (gate1_step f) qs st.

(** pauli.py:1323-1345 x. *)
Definition gate_x (st : tableau) (qs : list nat) : Res tableau := gate_checked x_row st qs.

(** pauli.py:1463-1484 z. *)
Definition gate_z (st : tableau) (qs : list nat) : Res tableau := gate_checked z_row st qs.

(** pauli.py:1348-1358 y: z(x(state, qubits), qubits). *)
Definition gate_y (st : tableau) (qs : list nat) : Res tableau :=
  do st' <- gate_x st qs; gate_z st' qs.

(** pauli.py:275-281 / 314-320: one (control, target) step with numpy's range check. *)
Definition gate2_step (f : nat -> nat -> row -> row) (st : tableau) (ct : nat * nat) : Res tableau :=
  if (fst ct <? nqubits st) && (snd ct <? nqubits st)
  then Ok (map (f (fst ct) (snd ct)) st) else Err IndexError.

(** pauli.py:246-282 control_not_gate. *)
Definition control_not_gate (st : tableau) (cs ts : list nat) : Res tableau :=
  if negb (length ts =? length cs) then Err ValueError
  else foldR (gate2_step cx_row) (combine cs ts) st.

(** pauli.py:285-321 control_phase_gate. *)
Definition control_phase_gate (st : tableau) (cs ts : list nat) : Res tableau :=
  if negb (length ts =? length cs) then Err ValueError
  else foldR (gate2_step cz_row) (combine cs ts) st.

(** Python int of a bit. *)
Definition b2z (b : bool) : Z := if b then 1%Z else 0%Z.

(** pauli.py:57-91 _g. *)
Definition g_phase (x1 z1 x2 z2 : bool) : Z :=
  match x1, z1 with
  | false, false => 0
  | true, true => b2z z2 - b2z x2
  | true, false => b2z z2 * (2 * b2z x2 - 1)
  | false, true => b2z x2 * (1 - 2 * b2z z2)
  end.

(** pauli.py:1452 [1j ** k], exact. *)
Definition ipow (k : Z) : Zi :=
  match (k mod 4)%Z with
  | 0%Z => zi1
  | 1%Z => zii
  | 2%Z => ziopp zi1
  | _ => ziopp zii
  end.

(** pauli.py:1437-1441, reduction of _g over the qubits. *)
Fixpoint phase_exponent (a b : list (bool * bool)) : Z :=
  match a, b with
  | (x1, z1) :: a', (x2, z2) :: b' => g_phase x1 z1 x2 z2 + phase_exponent a' b'
  | _, _ => 0
  end.

(** pauli.py:1436, elementwise xor of the x and z parts. *)
Fixpoint xor_ops (a b : list (bool * bool)) : list (bool * bool) :=
  match a, b with
  | (x1, z1) :: a', (x2, z2) :: b' => (xorb x1 x2, xorb z1 z2) :: xor_ops a' b'
  | _, _ => []
  end.

(** pauli.py:1452-1459: sign bit of the computed phase; RuntimeError for phase 0. *)
Definition sign_of_phase (p : Zi) : Res bool :=
  if negb (im p =? 0)%Z then Ok (im p <? 0)%Z
  else if negb (re p =? 0)%Z then Ok (re p <? 0)%Z
  else Err RuntimeError.

(** pauli.py:1432-1460, the two-operator case of multiply. *)
Definition multiply2 (initial_phase : Zi) (a b : row) : Res (row * Zi) :=
  if negb (length (ops a) =? length (ops b)) then Err ValueError
  else
    let s := xorb (neg a) (neg b) in
    let phase := zimul (zimul initial_phase (ipow (phase_exponent (ops a) (ops b))))
                       (mkZi (1 - 2 * b2z s) 0) in
    do sign_bit <- sign_of_phase phase;
    Ok (mkRow (xor_ops (ops a) (ops b)) sign_bit, phase).

(** pauli.py:1427-1431: the recursion for more than two operators, on the reversed list:
    [last] is operators[-1], [rest] is operators[-2], operators[-3], ... *)
Fixpoint multiply_chain (phase : Zi) (last : row) (rest : list row) : Res (row * Zi) :=
  match rest with
  | [] => Ok (last, phase)
  | o :: rest' =>
      do pp <- multiply2 phase o last;
      multiply_chain (snd pp) (fst pp) rest'
  end.

(** pauli.py:1390-1460 multiply with its default initial_phase = 1. *)
Definition multiply (os : list row) : Res (row * Zi) :=
  match rev os with
  | [] => Err ValueError
  | [o] => Ok (o, if neg o then ziopp zi1 else zi1)
  | last :: rest => multiply_chain zi1 last rest
  end.

(** pauli.py:243, one entry of [ax @ bz.T + az @ bx.T]: both dot products and their sum
    are accumulated in uint8, i.e. modulo 256. *)
Fixpoint dot8 (a b : list bool) : Z :=
  match a, b with
  | x :: a', y :: b' => (b2z x * b2z y + dot8 a' b') mod 256
  | _, _ => 0
  end.

(** pauli.py:167-243 commutator_sign for two single operators (1D arrays). *)
Definition commutator_sign (a b : row) : bool :=
  let ax := map fst (ops a) in let az := map snd (ops a) in
  let bx := map fst (ops b) in let bz := map snd (ops b) in
  (((dot8 ax bz + dot8 az bx) mod 256) mod 2 =? 1)%Z.

(** pauli.py:1487-1496 zero_state: np.eye(2n+1)[:-1].  Row i < n has x_i = 1 and row n+i
    has z_i = 1. *)
Definition zero_state (n : nat) : tableau :=
  map (fun i => mkRow (map (fun q => (q =? i, false)) (seq 0 n)) false) (seq 0 n) ++
  map (fun i => mkRow (map (fun q => (false, q =? i)) (seq 0 n)) false) (seq 0 n).

(** pauli.py:1279-1320 single_qubit_pauli_operator; [sign] is [op[0] == "-"] and [p] the
    letter op[-1]; PI stands for any letter other than X, Y, Z.  Negative arguments are
    outside of the model. *)
Definition single_qubit_pauli_operator (sign : bool) (p : pauli1) (qubit qubits : nat) : Res row :=
  if qubits <? 1 then Err ValueError
  else if qubits <=? qubit then Err ValueError
  else
    let zero := repeat (false, false) qubits in
    match p with
    | PX => Ok (mkRow (upd qubit (true, false) zero) sign)
    | PZ => Ok (mkRow (upd qubit (false, true) zero) sign)
    | PY => Ok (mkRow (upd qubit (true, true) zero) sign)
    | PI => Err ValueError
    end.

(** numpy [np.nonzero] on a list of flags (pauli.py:698). *)
Definition nonzero (l : list bool) : list nat :=
  filter (fun i => nth i l false) (seq 0 (length l)).

Definition row0 : row := mkRow [] false.

(** pauli.py:711: state[row_no], _ = multiply(state[p], state[row_no]). *)
Definition mul_into (p : nat) (st : tableau) (row_no : nat) : Res tableau :=
  do r <- multiply [nth p st row0; nth row_no st row0];
  Ok (upd row_no (fst r) st).

(** pauli.py:739-742: the scratch row is multiplied by state[row_no + n]. *)
Definition scratch_step (st : tableau) (n : nat) (scratch : row) (row_no : nat) : Res row :=
  do r <- multiply [scratch; nth (row_no + n) st row0];
  Ok (fst r).

(** pauli.py:656-747 measure, for an operator in binary form.  [k] counts the draws of the
    generator consumed so far; the result is (state, outcome, draws).  The outcome is the
    Python int 0 or 1. *)
Definition measure (g : rng) (k : nat) (st : tableau) (op : row) (forced : option Z)
  : Res (tableau * bool * nat) :=
  let n := nqubits st in
  if negb (n =? length (ops op)) then Err ValueError
  else
    let nz := nonzero (map (fun r => commutator_sign r op) st) in
    match rev nz with
    | [] => Err IndexError                                   (* nonzero[-1], pauli.py:703 *)
    | last :: _ =>
        if n <=? last then
          match filter (fun i => n <=? i) nz with
          | [] => Err IndexError                             (* nonzero[..][0], pauli.py:705 *)
          | p :: _ =>
              let others := filter (fun i => negb (i =? p)) nz in
              do st1 <- foldR (mul_into p) others st;
              let st2 := upd (p - n) (nth p st1 row0) st1 in
              do mk <- match forced with
                       | Some f => if (f =? 0)%Z then Ok (false, k)
                                   else if (f =? 1)%Z then Ok (true, k)
                                   else Err ValueError
                       | None => Ok (d_bit (g k), S k)
                       end;
              let m := fst mk in
              Ok (upd p (mkRow (ops op) (xorb (neg op) m)) st2, m, snd mk)
          end
        else
          do scratch <- foldR (scratch_step st n) nz (mkRow (repeat (false, false) n) false);
          Ok (st, negb (eqb (neg scratch) (neg op)), k)
    end.

(** pauli.py:1267-1275, loop body of reset_qubits_to_eigenstate; PI stands for any string
    other than X, -X, Z, -Z.  (The value "Y" takes no corrective action in the code.) *)
Definition reset_step (g : rng) (sign : bool) (p : pauli1) (stk : tableau * nat) (q : nat)
  : Res (tableau * nat) :=
  let '(st, k) := stk in
  do op <- single_qubit_pauli_operator sign p q (nqubits st);
  do r <- measure g k st op None;
  let '(st', m, k') := r in
  if m then
    match p with
    | PZ => do st'' <- gate_x st' [q]; Ok (st'', k')
    | PX => do st'' <- gate_z st' [q]; Ok (st'', k')
    | _ => Ok (st', k')
    end
  else Ok (st', k').

(** pauli.py:1248-1276 reset_qubits_to_eigenstate. *)
Definition reset_qubits (g : rng) (k : nat) (st : tableau) (sign : bool) (p : pauli1) (qs : list nat)
  : Res (tableau * nat) :=
  foldR (reset_step g sign p) qs (st, k).
