(** Model of /repo/src/plaquette/pauli.py: apply_operator, pprint_state. *)
Require Import String List Bool Arith Ascii.
From Verif Require Import Base QSpec PauliModel CircuitModel PauliTextModel.
Import ListNotations.
Local Open Scope string_scope.
Local Open Scope nat_scope.
Local Open Scope list_scope.

(** Python values as far as apply_operator distinguishes them (pauli.py:131-144): something which is no array and has no attribute [ndim],
    arrays with one dimension, with two dimensions, and with another number of dimensions. *)
Inductive array := NotArray | Vector (r : row) | Matrix (t : tableau) | Higher.
(** pauli.py:136 [isinstance(op, np.ndarray)]. *)
Definition is_array (a : array) : bool := match a with NotArray => false | _ => true end.

(** pauli.py:160 [itertools.zip_longest(op, state, fillvalue=f)]. *)
Fixpoint zip_longest (f : row) (a b : list row) : list (row * row) :=
  match a, b with
  | [], _ => map (fun y => (f, y)) b
  | _, [] => map (fun x => (x, f)) a
  | x :: a', y :: b' => (x, y) :: zip_longest f a' b'
  end.
(** pauli.py:150-164: the check of the widths and the products.  An array without rows has no modelled width. *)
Definition apply_rows (o st : tableau) : Res tableau :=
  match o, st with
  | [], _ | _, [] => Err Unmodelled
  | f :: _, _ => if negb (nqubits o =? nqubits st) then Err ValueError
                 else mapR (fun p => do r <- multiply [fst p; snd p]; Ok (fst r)) (zip_longest f o st)
  end.
(** pauli.py:139-164: what follows the check of the type of [op]. *)
Definition apply_rest (op : array) (st : tableau) : Res tableau :=
  match op with
  | NotArray => Err AttributeError
  | Vector r => apply_rows [r] st
  | Matrix o => if negb (List.length o =? List.length st) then Err ValueError else apply_rows o st
  | Higher => Err Unmodelled
  end.
(** pauli.py:111-164 apply_operator. *)
Definition apply_operator (op state : array) : Res tableau :=
  match state with
  | NotArray => Err TypeError
  | Vector _ | Higher => Err ValueError
  | Matrix st => if is_array op then Err TypeError else apply_rest op st
  end.

(** pauli.py:930-960 pprint_state: the text which is printed (without the end given by kwargs). *)
Definition pprint_state (t : tableau) (show_identities show_destabilisers : bool) : Res string :=
  do p <- state_to_stabiliser_string t show_identities;
  let nl := String newline EmptyString in
  let destabilisers := join nl (fst p) in
  let stabilisers := join nl (snd p) in
  Ok (if show_destabilisers then "Destabilisers:" ++ nl ++ destabilisers ++ nl ++ "Stabilisers:" ++ nl ++ stabilisers
      else "Stabilisers:" ++ nl ++ stabilisers)%string.
