(** Model of states from stabilisers alone. *)
Require Import String List Bool Arith QArith.
From Verif Require Import Base PauliModel PauliTextModel.
Import ListNotations.
Local Open Scope nat_scope.
Local Open Scope list_scope.

(** A row of [binary_stabilisers[:, :-1]] (pauli.py:1128). *)
Definition flat (r : row) : list bool := map fst (ops r) ++ map snd (ops r).
(** [astype("u1")] (pauli.py:1129) cuts the fraction off; results other than 0 and 1 are not modelled. *)
Definition as_bit (q : Q) : Res bool :=
  if Qle_bool q (-1) then Err Unmodelled else if Qle_bool 2 q then Err Unmodelled else Ok (Qle_bool 1 q).
(** pauli.py:1123-1133: the product with [omega] exchanges the halves of a row; the sign is 0. *)
Definition computed (n : nat) (p : list Q) : Res row :=
  do x <- mapR as_bit (skipn n p); do z <- mapR as_bit (firstn n p); Ok (mkRow (combine x z) false).
(** pauli.py:1059-1160 [string_to_state] without destabilisers.  [pinv] is [np.linalg.pinv] of the matrix whose
    columns are the given rows.  [hstack] (1131) refuses another number of rows than qubits; stabilisers on different
    numbers of qubits and empty lists are not modelled. *)
Definition string_to_state_alone (pinv : list (list bool) -> list (list Q)) (stabs : list string) (qubits : option nat) : Res tableau :=
  do ss <- mapR (fun s => string_to_pauli s qubits) stabs;
  if negb (same_width ss) then Err Unmodelled
  else
    let n := List.length (ops (hd row0 ss)) in
    do ds <- mapR (computed n) (pinv (map flat ss));
    if negb (List.length ds =? n) then Err ValueError
    else do _ <- check_all ss ds; Ok (ds ++ ss).
