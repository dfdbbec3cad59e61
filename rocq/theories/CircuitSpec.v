(** Specification of the gates a Circuit can hold after append (docs/ref/circuits.rst). *)
Require Import List Bool Arith ZArith QArith Lia String.
From Verif Require Import Base CircuitModel.
Import ListNotations.
Local Open Scope string_scope.

Definition gate_names : list string :=
  ["X"; "Y"; "Z"; "H"; "CX"; "CZ"; "M"; "R"; "DEPOLARIZE";
   "E_ERASE"; "E_PAULI"; "E_PAULI2"; "ERROR"; "ERROR_ELSE"; "ERROR_CONTINUE"].

Inductive stored : gate -> Prop :=
| st_error name p inner zs :
    name = "ERROR" \/ name = "ERROR_ELSE" -> (0 <= p)%Q -> (p <= 1)%Q -> In inner gate_names ->
    stored (name, AFlt p :: AStr inner :: map AInt zs)
| st_continue inner zs : In inner gate_names ->
    stored ("ERROR_CONTINUE", AStr inner :: map AInt zs)
| st_erase p z : stored ("E_ERASE", [AFlt p; AInt z])
| st_pauli p1 p2 p3 z : stored ("E_PAULI", [AFlt p1; AFlt p2; AFlt p3; AInt z])
| st_pauli2 ps z1 z2 : List.length ps = 15%nat -> stored ("E_PAULI2", (map AFlt ps ++ [AInt z1; AInt z2])%list)
| st_plain name zs :
    In name ["X"; "Y"; "Z"; "H"; "CX"; "CZ"; "M"; "R"; "DEPOLARIZE"] -> stored (name, map AInt zs).
