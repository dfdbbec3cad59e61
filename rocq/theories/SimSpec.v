(** Independent specification of circuits: what each instruction of docs/ref/circuits.rst
    does to a state vector and which results it may produce.  No tableau here. *)
Require Import List Bool Arith ZArith QArith Lia String.
From Verif Require Import Base QSpec StateSpec CircuitModel.
Import ListNotations.
Local Open Scope string_scope.
Local Open Scope nat_scope.
Local Open Scope list_scope.

(** Qubit index as an instruction argument. *)
Definition qa (q : nat) : arg := AInt (Z.of_nat q).

(** Outcome [m] of the observable [P] is possible in state [v] and the outcome is either
    certain or a fair coin: Born probability = |v + (-1)^m P v|^2 / (4 |v|^2). *)
Definition outcome (n : nat) (P : spauli) (m : bool) (v : vec) : Prop :=
  (norm2 n (project P m v) <> 0)%Z /\
  ((norm2 n (project P m v) = 4 * norm2 n v)%Z \/
   (forall m', 2 * norm2 n (project P m' v) = 4 * norm2 n v)%Z).

(** M: measure Z on the qubits in turn. *)
Inductive qmeasure (n : nat) : list nat -> vec -> list bool -> vec -> Prop :=
| qm_nil v : qmeasure n [] v [] v
| qm_cons q qs m ms v v' :
    q < n -> outcome n (single n false PZ q) m v ->
    qmeasure n qs (project (single n false PZ q) m v) ms v' ->
    qmeasure n (q :: qs) v (m :: ms) v'.

(** R: project on a (hidden) Z outcome and flip the qubit if the outcome was 1. *)
Inductive qreset (n : nat) : list nat -> vec -> vec -> Prop :=
| qr_nil v : qreset n [] v v
| qr_cons q qs (m : bool) v v' :
    q < n -> outcome n (single n false PZ q) m v ->
    qreset n qs (let w := project (single n false PZ q) m v in if m then apply1 mX q w else w) v' ->
    qreset n (q :: qs) v v'.

(** Paulis on a list of qubits in turn. *)
Definition paulis (l : list (pauli1 * nat)) (v : vec) : vec :=
  fold_left (fun w pq => apply1 (mP (fst pq)) (snd pq) w) l v.

Definition code (p : pauli1) : nat := match p with PI => 0 | PX => 1 | PY => 2 | PZ => 3 end.
Definition qsum (l : list Q) : Q := fold_right Qplus 0%Q l.
(** Probability of the k-th outcome, outcome 0 (identity) having the remaining one. *)
Definition prob_k (ps : list Q) (k : nat) : Q := nth k ((1 - qsum ps)%Q :: ps) 0%Q.

(** A probability argument: a float, or an int (inside ERROR instructions the arguments of
    the inner gate are converted to ints). *)
Inductive prob_arg : arg -> Q -> Prop :=
| pa_float q : prob_arg (AFlt q) q
| pa_int z : prob_arg (AInt z) (inject_Z z).

(** [qgate n name args v ms es v']: a gate may turn [v] into [v'] with measurement results
    [ms] and erasure flags [es]. *)
Inductive qgate (n : nat) : string -> list arg -> vec -> list bool -> list bool -> vec -> Prop :=
| QX qs v : qgate n "X" (map qa qs) v [] [] (all1 mX qs v)
| QY qs v : qgate n "Y" (map qa qs) v [] [] (all1 mY qs v)
| QZ qs v : qgate n "Z" (map qa qs) v [] [] (all1 mZ qs v)
| QH qs v : qgate n "H" (map qa qs) v [] [] (all1 mH qs v)
| QCX cts v : qgate n "CX" (flat_map (fun ct => [qa (fst ct); qa (snd ct)]) cts) v [] [] (all2 mCX cts v)
| QCZ cts v : qgate n "CZ" (flat_map (fun ct => [qa (fst ct); qa (snd ct)]) cts) v [] [] (all2 mCZ cts v)
| QM qs v ms v' : qmeasure n qs v ms v' -> qgate n "M" (map qa qs) v ms [] v'
| QR qs v v' : qreset n qs v v' -> qgate n "R" (map qa qs) v [] [] v'
| QDepol (l : list (pauli1 * nat)) v :
    Forall (fun pq => fst pq <> PI) l ->
    qgate n "DEPOLARIZE" (map (fun pq => qa (snd pq)) l) v [] [] (paulis l v)
| QErase a p q P v : prob_arg a p -> (0 < p)%Q -> qgate n "E_ERASE" [a; qa q] v [] [true] (apply1 (mP P) q v)
| QNoErase a p q v : prob_arg a p -> (p < 1)%Q -> qgate n "E_ERASE" [a; qa q] v [] [false] v
| QPauli a1 a2 a3 p1 p2 p3 q rest P v : Forall2 prob_arg [a1; a2; a3] [p1; p2; p3] ->
    (0 < prob_k [p1; p2; p3] (code P))%Q ->
    qgate n "E_PAULI" (a1 :: a2 :: a3 :: qa q :: rest) v [] [] (apply1 (mP P) q v)
| QPauli2 ars ps q1 q2 rest P1 P2 v : Forall2 prob_arg ars ps -> List.length ps = 15%nat ->
    (0 < prob_k ps (4 * code P1 + code P2))%Q ->
    qgate n "E_PAULI2" (ars ++ qa q1 :: qa q2 :: rest)%list v [] []
      (apply1 (mP P2) q2 (apply1 (mP P1) q1 v)).

(** Circuits.  An instruction of an error block either performs its gate or nothing
    (which of the two is the subject of the error block properties). *)
Inductive qcirc (n : nat) : circuit -> vec -> list bool -> list bool -> vec -> Prop :=
| qc_nil v : qcirc n [] v [] [] v
| qc_gate name args c v ms es v1 ms' es' v' :
    qgate n name args v ms es v1 -> qcirc n c v1 ms' es' v' ->
    qcirc n ((name, args) :: c) v (ms ++ ms')%list (es ++ es')%list v'
| qc_error name p inner args c v ms es v1 ms' es' v' :
    name = "ERROR" \/ name = "ERROR_ELSE" -> (0 < p)%Q ->
    qgate n inner args v ms es v1 -> qcirc n c v1 ms' es' v' ->
    qcirc n ((name, AFlt p :: AStr inner :: args) :: c) v (ms ++ ms')%list (es ++ es')%list v'
| qc_noerror name p inner args c v ms' es' v' :
    name = "ERROR" /\ (p < 1)%Q \/ name = "ERROR_ELSE" -> qcirc n c v ms' es' v' ->
    qcirc n ((name, AFlt p :: AStr inner :: args) :: c) v ms' es' v'
| qc_continue inner args c v ms es v1 ms' es' v' :
    qgate n inner args v ms es v1 -> qcirc n c v1 ms' es' v' ->
    qcirc n (("ERROR_CONTINUE", AStr inner :: args) :: c) v (ms ++ ms')%list (es ++ es')%list v'
| qc_nocontinue inner args c v ms' es' v' :
    qcirc n c v ms' es' v' ->
    qcirc n (("ERROR_CONTINUE", AStr inner :: args) :: c) v ms' es' v'.

(** Controls and targets of CX and CZ differ, also inside error instructions. *)
Fixpoint distinct_pairs (args : list arg) : Prop :=
  match args with a :: b :: l => a <> b /\ distinct_pairs l | _ => True end.
Definition distinct_gate (name : string) (args : list arg) : Prop :=
  name = "CX" \/ name = "CZ" -> distinct_pairs args.
Definition distinct_ct (g : gate) : Prop :=
  distinct_gate (fst g) (snd g) /\
  match snd g with
  | AFlt _ :: AStr inner :: args | AStr inner :: args => distinct_gate inner args
  | _ => True
  end.

(** * Circuits that run without an exception *)
(** Arguments that make sense: in-range is not required here (number_of_qubits provides
    for it), but probabilities are and CX/CZ pairs are complete and distinct. *)
Inductive valid_gate : string -> list arg -> Prop :=
| vg_plain name qs : In name ["X"; "Y"; "Z"; "H"; "M"; "R"; "DEPOLARIZE"] -> valid_gate name (map qa qs)
| vg_pairs name cts : In name ["CX"; "CZ"] -> Forall (fun ct : nat * nat => fst ct <> snd ct) cts ->
    valid_gate name (flat_map (fun ct => [qa (fst ct); qa (snd ct)]) cts)
| vg_erase a p q : prob_arg a p -> valid_gate "E_ERASE" [a; qa q]
| vg_pauli ars ps q : Forall2 prob_arg ars ps -> List.length ps = 3 -> Forall (fun p => 0 <= p)%Q ps ->
    (qsum ps <= 1)%Q -> valid_gate "E_PAULI" (ars ++ [qa q])
| vg_pauli2 ars ps q1 q2 : Forall2 prob_arg ars ps -> List.length ps = 15 -> Forall (fun p => 0 <= p)%Q ps ->
    (qsum ps <= 1)%Q -> valid_gate "E_PAULI2" (ars ++ [qa q1; qa q2]).

(** ERROR_CONTINUE and ERROR_ELSE only directly inside an error block. *)
Inductive valid_circuit : bool -> circuit -> Prop :=
| vc_nil b : valid_circuit b []
| vc_gate b name args c : valid_gate name args -> valid_circuit false c -> valid_circuit b ((name, args) :: c)
| vc_error b p inner args c : valid_gate inner args -> valid_circuit true c ->
    valid_circuit b (("ERROR", AFlt p :: AStr inner :: args) :: c)
| vc_else p inner args c : valid_gate inner args -> valid_circuit true c ->
    valid_circuit true (("ERROR_ELSE", AFlt p :: AStr inner :: args) :: c)
| vc_continue inner args c : valid_gate inner args -> valid_circuit true c ->
    valid_circuit true (("ERROR_CONTINUE", AStr inner :: args) :: c).

(** * Error blocks *)
(** A branch: its probability and its gates, the first one in the ERROR/ERROR_ELSE
    instruction and the others in ERROR_CONTINUE instructions. *)
Record branch := mkBranch { br_p : Q; br_first : gate; br_rest : list gate }.
Definition br_gates (b : branch) : list gate := br_first b :: br_rest b.
Definition branch_text (kw : string) (b : branch) : circuit :=
  (kw, AFlt (br_p b) :: AStr (fst (br_first b)) :: snd (br_first b)) ::
  map (fun gt : gate => ("ERROR_CONTINUE", AStr (fst gt) :: snd gt)) (br_rest b).
Definition block_text (b : branch) (bs : list branch) : circuit :=
  branch_text "ERROR" b ++ flat_map (branch_text "ERROR_ELSE") bs.

(** Position and value of the first branch whose uniform draw is below its probability,
    one draw per branch tried. *)
Fixpoint first_hit (u : nat -> Q) (bs : list branch) : option (nat * branch) :=
  match bs with
  | [] => None
  | b :: bs' => if Qle_bool (br_p b) (u 0) then
                  match first_hit (fun i => u (S i)) bs' with Some (i, b') => Some (S i, b') | None => None end
                else Some (0, b)
  end.

(** * Counters *)
(** The qubits an instruction acts on. *)
Inductive gate_qubit : string -> list arg -> nat -> Prop :=
| gq_all name args q : In name ["X"; "Y"; "Z"; "H"; "CX"; "CZ"; "M"; "R"; "DEPOLARIZE"] -> In (qa q) args ->
    gate_qubit name args q
| gq_erase a q : gate_qubit "E_ERASE" [a; qa q] q
| gq_pauli a b c q : gate_qubit "E_PAULI" [a; b; c; qa q] q
| gq_pauli2 ars a b q : List.length ars = 15 -> qa q = a \/ qa q = b -> gate_qubit "E_PAULI2" (ars ++ [a; b]) q.
Inductive instr_qubit : gate -> nat -> Prop :=
| iq_gate name args q : gate_qubit name args q -> instr_qubit (name, args) q
| iq_error name p inner args q : name = "ERROR" \/ name = "ERROR_ELSE" -> gate_qubit inner args q ->
    instr_qubit (name, AFlt p :: AStr inner :: args) q
| iq_continue inner args q : gate_qubit inner args q -> instr_qubit ("ERROR_CONTINUE", AStr inner :: args) q.

(** The gate inside an error instruction. *)
Definition inner_name (gt : gate) : option string :=
  match snd gt with AFlt _ :: AStr s :: _ | AStr s :: _ => Some s | _ => None end.
(** Number of qubits measured conditionally by an instruction. *)
Definition nested_measured (gt : gate) : nat :=
  match snd gt with
  | AFlt _ :: AStr s :: l | AStr s :: l => if String.eqb s "M" then List.length l else 0
  | _ => 0
  end.
(** Erasure flags an instruction yields if it (or its inner gate) is executed. *)
Definition erases (gt : gate) : nat :=
  match inner_name gt with
  | Some nm => if String.eqb nm "E_ERASE" then 1 else 0
  | None => if String.eqb (fst gt) "E_ERASE" then 1 else 0
  end.
(** Measurement results an instruction yields if it (or its inner gate) is executed. *)
Definition measures (gt : gate) : nat :=
  if String.eqb (fst gt) "M" then List.length (snd gt) else nested_measured gt.
(** Sum over the executed instructions. *)
Fixpoint executed_sum (f : gate -> nat) (c : circuit) (ex : list bool) : nat :=
  match c, ex with
  | gt :: c', e :: ex' => (if e then f gt else 0) + executed_sum f c' ex'
  | _, _ => 0
  end.
