(** Model of the conversions of /repo/src/plaquette/pauli.py: dictionaries, strings,
    padding, tensor products, states from strings.

    Python strings are Coq strings (Latin-1); [str.isdigit] and [\d] are modelled for the
    ASCII digits only.  Dictionaries are association lists in insertion order with
    distinct keys; qubit indices are natural numbers. *)
Require Import List Bool Arith ZArith Lia String Ascii.
From Verif Require Import Base QSpec PauliModel CircuitModel.
Import ListNotations.
Local Open Scope string_scope.
Local Open Scope nat_scope.
Local Open Scope list_scope.

(** pauli.py:54 [PauliDict]: qubit index -> operator string. *)
Definition pdict := list (nat * string).

(** Python [d[k] = v]: an existing key keeps its position. *)
Fixpoint dict_set (d : pdict) (k : nat) (v : string) : pdict :=
  match d with
  | [] => [(k, v)]
  | (k', v') :: d' => if k' =? k then (k, v) :: d' else (k', v') :: dict_set d' k v
  end.
(** Python [d.get(k)]. *)
Fixpoint dict_get (d : pdict) (k : nat) : option string :=
  match d with
  | [] => None
  | (k', v') :: d' => if k' =? k then Some v' else dict_get d' k
  end.

(** pauli.py:358, 359: [op in "XY"], [op in "ZY"] are substring tests. *)
Definition in_XY (s : string) : bool := mem_str s [""; "X"; "Y"; "XY"].
Definition in_ZY (s : string) : bool := mem_str s [""; "Z"; "Y"; "ZY"].

(** pauli.py:357-360, loop body of dict_to_pauli. *)
Definition dict_step (o : list (bool * bool)) (kv : nat * string) : list (bool * bool) :=
  setz (fst kv) (in_ZY (snd kv)) (setx (fst kv) (in_XY (snd kv)) o).

(** pauli.py:330-361 dict_to_pauli. *)
Definition dict_to_pauli (d : pdict) (qubits : option nat) : Res row :=
  match d with
  | [] => Err ValueError                                  (* max() of an empty sequence *)
  | _ =>
      let max_index := fold_left max (map fst d) 0 in
      let n := match qubits with None => max_index + 1 | Some n => n end in
      if n <=? max_index then Err ValueError
      else Ok (mkRow (fold_left dict_step d (repeat (false, false) n)) false)
  end.

(** pauli.py:825: "IZXY"[binary_index], binary_index = 2 x + z. *)
Definition letter_xz (p : bool * bool) : string :=
  match p with
  | (false, false) => "I" | (false, true) => "Z" | (true, false) => "X" | (true, true) => "Y"
  end.
(** pauli.py:820-827, the enumerate loop of pauli_to_dict. *)
Fixpoint to_dict_from (q : nat) (o : list (bool * bool)) : pdict :=
  match o with
  | [] => []
  | p :: o' => if fst p || snd p then (q, letter_xz p) :: to_dict_from (S q) o' else to_dict_from (S q) o'
  end.
(** pauli.py:809-827 pauli_to_dict (the sign is discarded). *)
Definition pauli_to_dict (r : row) : pdict := to_dict_from 0 (ops r).

(** pauli.py:856-860: letters of "IXZY" at x + 2 z. *)
Definition letter_arr (p : bool * bool) : ascii :=
  match p with
  | (false, false) => "I" | (true, false) => "X" | (false, true) => "Z" | (true, true) => "Y"
  end%char.
Fixpoint string_of_list (l : list ascii) : string :=
  match l with [] => "" | a :: l' => String a (string_of_list l') end.
(** pauli.py:865-868, loop of the short form. *)
Fixpoint short_form (q : nat) (s : list ascii) : string :=
  match s with
  | [] => ""
  | a :: s' => ((if Ascii.eqb a "I" then "" else " " ++ String a (show_int (Z.of_nat q))) ++ short_form (S q) s')%string
  end.
(** pauli.py:830-871 pauli_to_string for 1D arrays of odd length. *)
Definition pauli_to_string (r : row) (show_identities : bool) : string :=
  let sign := if neg r then "-" else "+" in
  let main := map letter_arr (ops r) in
  if show_identities then (sign ++ string_of_list main)%string
  else (sign ++ short_form 0 main)%string.

(** str.replace(c, ""). *)
Fixpoint remove_char (c : ascii) (s : string) : string :=
  match s with
  | EmptyString => EmptyString
  | String a s' => if Ascii.eqb a c then remove_char c s' else String a (remove_char c s')
  end.
Fixpoint any_digit (s : string) : bool :=
  match s with EmptyString => false | String a s' => is_digit a || any_digit s' end.
Definition is_sign (c : ascii) : bool := Ascii.eqb c "+" || Ascii.eqb c "-".
Definition is_letter (c : ascii) : bool :=
  (Ascii.eqb c "X" || Ascii.eqb c "Y" || Ascii.eqb c "Z" || Ascii.eqb c "I")%char.

(** Greedy \d+ : the digits at the start and the remaining text. *)
Fixpoint take_digits (s : string) : string * string :=
  match s with
  | EmptyString => ("", "")
  | String a s' => if is_digit a then let '(d, r) := take_digits s' in (String a d, r) else ("", s)
  end.
(** pauli.py:1028 the regular expression ([-+])?(([XYZI])(\d+)) at the start of [s]: sign is
    minus, letter, digits, rest.  (If the optional sign matches and the rest does not, the
    regex cannot match without the sign either, because a sign is not a letter.) *)
Definition match_here (s : string) : option (bool * ascii * string * string) :=
  let '(minus, s1) := match s with
                      | String c r => if is_sign c then (Ascii.eqb c "-", r) else (false, s)
                      | EmptyString => (false, s)
                      end in
  match s1 with
  | String l r =>
      if is_letter l then
        match take_digits r with
        | (EmptyString, _) => None
        | (d, r') => Some (minus, l, d, r')
        end
      else None
  | EmptyString => None
  end.
(** re.findall: non-overlapping matches from left to right. *)
Fixpoint findall (fuel : nat) (s : string) : list (bool * ascii * string) :=
  match fuel, s with
  | S f, String _ r =>
      match match_here s with
      | Some (m, l, d, r') => (m, l, d) :: findall f r'
      | None => findall f r
      end
  | _, _ => []
  end.
(** pauli.py:1041, the dict comprehension over the components (a later duplicate wins). *)
Definition comp_step (d : pdict) (c : bool * ascii * string) : Res pdict :=
  let '(_, l, i) := c in
  match py_int i with
  | Some z => Ok (dict_set d (Z.to_nat z) (String l ""))
  | None => Err ValueError
  end.
(** pauli.py:1049, {i: o for i, o in enumerate(op_str) if o != "I"}. *)
Fixpoint canon_dict (q : nat) (s : string) : pdict :=
  match s with
  | EmptyString => []
  | String a s' => if Ascii.eqb a "I" then canon_dict (S q) s' else (q, String a "") :: canon_dict (S q) s'
  end.

(** pauli.py:963-1056 string_to_pauli. *)
Definition string_to_pauli (op_str : string) (qubits : option nat) : Res row :=
  let s := remove_char "_" (remove_char " " op_str) in
  if any_digit s then
    match findall (String.length s) s with
    | [] => Err IndexError                                (* op_str_components[0] *)
    | (c :: _) as comps =>
        do d <- foldR comp_step comps [];
        do r <- dict_to_pauli d qubits;
        Ok (mkRow (ops r) (fst (fst c)))
    end
  else
    match s with
    | EmptyString => Err IndexError                       (* op_str[0] *)
    | String a s' =>
        let '(phase, body) := if is_sign a then (Ascii.eqb a "-", s') else (false, s) in
        let n := max (match qubits with Some n => n | None => 0 end) (String.length body) in
        do r <- dict_to_pauli (canon_dict 0 body) (Some n);
        Ok (mkRow (ops r) phase)
    end.

(** pauli.py:784-806 pad_operator on the flat array: zeros inserted before position n (end
    of the x part) and before position 2n (end of the z part). *)
Definition pad_bits (b : list bool) (total : nat) : list bool :=
  let n := List.length b / 2 in
  if total <=? n then b
  else
    let zeros := repeat false (total - n) in
    firstn n b ++ zeros ++ firstn n (skipn n b) ++ zeros ++ skipn (2 * n) b.
(** The row with the given flat layout (inverse of row_bits; pauli.py:1361-1387). *)
Definition of_bits (b : list bool) : row :=
  let n := List.length b / 2 in
  mkRow (combine (firstn n b) (firstn n (skipn n b))) (nth (2 * n) b false).
Definition pad_operator (r : row) (total : nat) : row := of_bits (pad_bits (row_bits r) total).

(** * Tensor products *)
(** 1D arrays are operators, 2D arrays are states. *)
Inductive arr := Op (r : row) | St (t : tableau).

(** pauli.py:1243-1245: (ax, bx, az, bz, asig ^ bsig). *)
Definition tensor_row (a b : row) : row := mkRow (ops a ++ ops b) (xorb (neg a) (neg b)).
(** pauli.py:1226-1233: a row of np.block padded with zeros on the right / on the left. *)
Definition pad_right (m : nat) (r : row) : row := mkRow (ops r ++ repeat (false, false) m) (neg r).
Definition pad_left (m : nat) (r : row) : row := mkRow (repeat (false, false) m ++ ops r) (neg r).

(** pauli.py:1213-1242, states.  np.block needs as many (de)stabilisers as qubits. *)
Definition tensor_state (a b : tableau) : Res tableau :=
  let na := nqubits a in
  let nb := nqubits b in
  if negb ((List.length a =? 2 * na) && (List.length b =? 2 * nb)) then Err ValueError
  else
    Ok (map (pad_right nb) (firstn na a) ++ map (pad_left na) (firstn nb b) ++
        map (pad_right nb) (skipn na a) ++ map (pad_left na) (skipn nb b)).

(** pauli.py:1200-1245, two arguments. *)
Definition tensor2 (a b : arr) : Res arr :=
  match a, b with
  | Op a, Op b => Ok (Op (tensor_row a b))
  | St a, St b => do t <- tensor_state a b; Ok (St t)
  | _, _ => Err ValueError
  end.
(** pauli.py:1197-1199: the recursion, on the reversed list. *)
Fixpoint tensor_chain (last : arr) (rest : list arr) : Res arr :=
  match rest with
  | [] => Ok last
  | o :: rest' => do p <- tensor2 o last; tensor_chain p rest'
  end.
(** pauli.py:1163-1245 tensor_product. *)
Definition tensor_product (os : list arr) : Res arr :=
  match rev os with
  | [] => Err ValueError
  | last :: rest => tensor_chain last rest
  end.

(** * States from strings *)
(** pauli.py:1137-1159: the checks for one pair j <= i; the branch [elif j > i] can never be
    taken because of the [continue] for i < j. *)
Definition check_pair (ss ds : list row) (i j : nat) : Res unit :=
  if i <? j then Ok tt
  else if commutator_sign (nth i ss row0) (nth j ss row0) then Err ValueError
  else if commutator_sign (nth i ds row0) (nth j ds row0) then Err ValueError
  else if (i =? j) && negb (commutator_sign (nth i ss row0) (nth j ds row0)) then Err ValueError
  else Ok tt.
Definition check_all (ss ds : list row) : Res unit :=
  foldR (fun _ i => foldR (fun _ j => check_pair ss ds i j) (seq 0 (List.length ds)) tt) (seq 0 (List.length ss)) tt.
Definition same_width (l : list row) : bool :=
  match l with [] => false | r :: _ => forallb (fun r' => List.length (ops r') =? List.length (ops r)) l end.
(** pauli.py:1059-1160 string_to_state with both lists given (the pseudo-inverse used when
    no destabilisers are given is floating point and not modelled).  Empty lists and rows
    of different lengths are outside of the model. *)
Definition string_to_state (stabs destabs : list string) (qubits : option nat) : Res tableau :=
  do ss <- mapR (fun s => string_to_pauli s qubits) stabs;
  do ds <- mapR (fun s => string_to_pauli s qubits) destabs;
  if negb (same_width (ds ++ ss)) then Err Unmodelled
  else if negb (List.length destabs =? List.length stabs) then Err ValueError
  else do _ <- check_all ss ds; Ok (ds ++ ss).

(** pauli.py:898-927 state_to_stabiliser_string: destabilisers, stabilisers. *)
Definition state_to_stabiliser_string (t : tableau) (show_identities : bool) : Res (list string * list string) :=
  if negb (List.length t =? 2 * nqubits t) then Err ValueError
  else
    let operators := map (fun r => pauli_to_string r show_identities) t in
    let n := List.length operators in
    Ok (firstn (n / 2) operators, skipn (n / 2) operators).
