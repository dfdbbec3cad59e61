(** Model of the remaining helpers of errors/__init__.py: Gaussian errors and cached indices. *)
Require Import List Bool Arith ZArith QArith.
From Verif Require Import Base LatticeModel.
Import ListNotations.
Open Scope nat_scope.

(** scipy's truncnorm: bounds of the standard variate, location and scale. *)
Record truncnorm := mkTruncnorm { t_lo : Q; t_hi : Q; t_loc : Q; t_scale : Q }.
(** [rvs]: the standard variates, which the library draws between the bounds, are scaled and moved. *)
Definition rvs (t : truncnorm) (standard : Q -> Q -> nat -> list Q) (n : nat) : list Q :=
  map (fun x => t_loc t + t_scale t * x)%Q (standard (t_lo t) (t_hi t) n).
(** errors/__init__.py:201-235 [generate_gaussian_errors]; [n] is the length of [qubit_list].  The numbers are Python
    floats, seen as rational numbers: division by zero raises an exception (with numpy numbers it gives NaN instead). *)
Definition gaussian_distribution (mean dev : Q) : Res truncnorm :=
  if negb (Qle_bool 0 mean && Qle_bool mean 1) then Err ValueError
  else if negb (Qle_bool 0 dev && Qle_bool dev 1) then Err ValueError
  else if Qeq_bool dev 0 then Err ZeroDivisionError
  else Ok (mkTruncnorm ((0 - mean) / dev) ((1 - mean) / dev) mean dev).
Definition generate_gaussian_errors (standard : Q -> Q -> nat -> list Q) (mean dev : Q) (n : nat) : Res (list Q) :=
  do t <- gaussian_distribution mean dev; Ok (rvs t standard n).

(** A dictionary from positions to [equbit_idx] (None is NO_INDEX). *)
Definition index_dict := list (pos * option nat).
Fixpoint index_set (d : index_dict) (p : pos) (q : option nat) : index_dict :=
  match d with
  | [] => [(p, q)]
  | (p', q') :: d' => if pos_eqb p' p then (p', q) :: d' else (p', q') :: index_set d' p q
  end.
Definition index_get (d : index_dict) (p : pos) : option (option nat) := option_map snd (find (fun e => pos_eqb (fst e) p) d).
(** errors/__init__.py:1120-1133 [cache_full_code_indices]: the value of the attribute. *)
Definition cache_full_code_indices (l : lattice) : index_dict :=
  fold_left (fun d i => index_set d (v_pos (l_heap l i)) (v_equbit (l_heap l i)))
    (filter (fun i => negb (is_logical (l_heap l i))) (l_equbits l)) [].
