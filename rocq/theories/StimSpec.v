(** Specification vocabulary for the Stim interface.  Meaning of the instructions from the
    Stim gate reference. *)
Require Import List Bool Arith ZArith QArith Lia String.
From Verif Require Import Base QSpec CircuitModel SimSpec StimModel.
Import ListNotations.
Local Open Scope string_scope.
Local Open Scope nat_scope.
Local Open Scope list_scope.

(** A chain CORRELATED_ERROR(p0), ELSE_CORRELATED_ERROR(p1), ...: branch i happens with
    probability p_i if none of the earlier branches happened.  [chain_prob ps i] is the
    total probability of branch i, [chain_none ps] that no branch happens. *)
Fixpoint chain_none (ps : list Q) : Q := match ps with [] => 1%Q | p :: ps' => ((1 - p) * chain_none ps')%Q end.
Fixpoint chain_prob (ps : list Q) (i : nat) : Q :=
  match ps, i with
  | [], _ => 0%Q
  | p :: _, O => p
  | p :: ps', S i' => ((1 - p) * chain_prob ps' i')%Q
  end.
(** The sequence of names that forms one chain. *)
Definition is_chain (l : list sinstr) : Prop :=
  match l with
  | [] => True
  | a :: l' => i_name a = "CORRELATED_ERROR" /\ Forall (fun b => i_name b = "ELSE_CORRELATED_ERROR") l'
  end.
Definition prob_arg1 (a : sinstr) : Q := nth 0 (i_args a) 0%Q.

(** Qubits measured by a Stim circuit, in the order of its measurement record. *)
Definition target_qubit (t : starget) : nat := match t with SQ q => q | SP _ q => q end.
Definition stim_measured (l : list sinstr) : list nat :=
  flat_map (fun a => if String.eqb (i_name a) "M" then map target_qubit (i_targets a) else []) l.
(** All qubits used by a Stim circuit. *)
Definition stim_qubits (l : list sinstr) : list nat := flat_map (fun a => map target_qubit (i_targets a)) l.

(** Qubits measured by M gates of a plaquette circuit, in order, and its number of E_ERASE. *)
Definition m_qubits (c : circuit) : list nat :=
  flat_map (fun gt : gate => if String.eqb (fst gt) "M"
    then map (fun a => match a with AInt z => Z.to_nat z | _ => 0 end) (snd gt) else []) c.
Definition n_erasures (c : circuit) : nat := List.length (filter (fun gt : gate => String.eqb (fst gt) "E_ERASE") c).

(** Names of Stim's gate reference that occur here. *)
Definition stim_names : list string :=
  ["X"; "Y"; "Z"; "H"; "R"; "CX"; "CZ"; "M"; "X_ERROR"; "Y_ERROR"; "Z_ERROR"; "PAULI_CHANNEL_1"; "PAULI_CHANNEL_2";
   "CORRELATED_ERROR"; "ELSE_CORRELATED_ERROR"; "DEPOLARIZE1"; "DEPOLARIZE2"].
