(** Model of the normalisation coefficient of weights. *)
Require Import QArith.
From Verif Require Import Base.

(** Values given to the setter: [float] or [int], or anything else. *)
Inductive number_or_other := Number (q : Q) | Other.
(** unionfind_decoder.py 588-595 [normalization_coefficient] (setter): the new coefficient.  Floats are rational numbers;
    infinity and NaN are not modelled. *)
Definition set_coefficient (v : number_or_other) : Res Q :=
  match v with
  | Other => Err TypeError
  | Number q => if Qle_bool 0 q then Ok q else Err ValueError
  end.
