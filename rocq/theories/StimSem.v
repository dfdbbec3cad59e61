(** Meaning of Stim circuits and of plaquette circuits as probability distributions over
    sequences of elementary operations, and the meaning of these sequences on state vectors.
    Stim's instructions are as in the Stim gate reference. *)
Require Import List Bool Arith ZArith QArith Lia String.
From Verif Require Import Base QSpec StateSpec CircuitModel SimSpec PauliTextSpec StimModel StimSpec.
Import ListNotations.
Local Open Scope string_scope.
Local Open Scope nat_scope.
Local Open Scope list_scope.

Definition basic : list string := ["X"; "Y"; "Z"; "H"; "R"; "CX"; "CZ"; "M"].

(** Elementary operations: a gate, M or R; a product of Paulis; a qubit is erased (replaced
    by applying a Pauli and raising a flag); a qubit is not erased (the flag is not raised). *)
Inductive elem :=
| EGate (name : string) (qs : list nat)
| EPauli (l : list (pauli1 * nat))
| EErased (P : pauli1) (q : nat)
| EKept (q : nat).

(** Weighted alternatives, and one followed by another. *)
Definition dist := list (Q * list elem).
Definition scale (w : Q) (ops : list elem) (d : dist) : dist := map (fun x => ((w * fst x)%Q, ops ++ snd x)) d.
Definition dseq (d1 d2 : dist) : dist := flat_map (fun x => scale (fst x) (snd x) d2) d1.
Definition done : dist := [(1%Q, [])].
Definition deq : dist -> dist -> Prop := Forall2 (fun a b => (fst a == fst b)%Q /\ snd a = snd b).

(** ** Stim *)
Definition paulis4 : list pauli1 := [PI; PX; PY; PZ].
Definition target_pauli (t : starget) : pauli1 * nat := match t with SQ q => (PI, q) | SP P q => (P, q) end.
Fixpoint pairs_of {A} (l : list A) : list (A * A) := match l with a :: b :: l' => (a, b) :: pairs_of l' | _ => [] end.
(** X_ERROR(p) etc. act on each target independently. *)
Definition flip_dist (p : Q) (P : pauli1) (qs : list nat) : dist :=
  fold_right (fun q d => dseq [(p, [EPauli [(P, q)]]); ((1 - p)%Q, [])] d) done qs.
(** PAULI_CHANNEL_1(px, py, pz). *)
Definition channel1 (ps : list Q) (q : nat) : dist := map (fun P => (prob_k ps (code P), [EPauli [(P, q)]])) paulis4.
(** PAULI_CHANNEL_2(pix, piy, piz, pxi, ..., pzz). *)
Definition channel2 (ps : list Q) (q1 q2 : nat) : dist :=
  flat_map (fun P1 => map (fun P2 => (prob_k ps (4 * code P1 + code P2), [EPauli [(P1, q1); (P2, q2)]])) paulis4) paulis4.
Definition stim_simple (a : sinstr) : dist :=
  let qs := map target_qubit (i_targets a) in
  if mem_str (i_name a) basic then [(1%Q, [EGate (i_name a) qs])]
  else if String.eqb (i_name a) "X_ERROR" then flip_dist (prob_arg1 a) PX qs
  else if String.eqb (i_name a) "Y_ERROR" then flip_dist (prob_arg1 a) PY qs
  else if String.eqb (i_name a) "Z_ERROR" then flip_dist (prob_arg1 a) PZ qs
  else if String.eqb (i_name a) "PAULI_CHANNEL_1" then fold_right (fun q d => dseq (channel1 (i_args a) q) d) done qs
  else if String.eqb (i_name a) "PAULI_CHANNEL_2" then
    fold_right (fun qq d => dseq (channel2 (i_args a) (fst qq) (snd qq)) d) done (pairs_of qs)
  else [].
(** [hit]: an error of the current chain of correlated errors has happened. *)
Fixpoint stim_dist (hit : bool) (l : list sinstr) : dist :=
  match l with
  | [] => done
  | a :: l' =>
      let err := [EPauli (map target_pauli (i_targets a))] in
      let happens := scale (prob_arg1 a) err (stim_dist true l') ++ scale (1 - prob_arg1 a)%Q [] (stim_dist false l') in
      if String.eqb (i_name a) "CORRELATED_ERROR" then happens
      else if String.eqb (i_name a) "ELSE_CORRELATED_ERROR" then if hit then stim_dist true l' else happens
      else dseq (stim_simple a) (stim_dist false l')
  end.

(** ** Plaquette (docs/ref/circuits.rst), for the instructions the conversion supports *)
Inductive pl_gate : gate -> dist -> Prop :=
| pg_basic name qs : In name basic -> pl_gate (name, map qa qs) [(1%Q, [EGate name qs])]
| pg_pauli ars ps q : Forall2 prob_arg ars ps -> List.length ps = 3 ->
    pl_gate ("E_PAULI", ars ++ [qa q]) (map (fun P => (prob_k ps (code P), [EPauli [(P, q)]])) paulis4)
| pg_pauli2 ars ps q1 q2 : Forall2 prob_arg ars ps -> List.length ps = 15 ->
    pl_gate ("E_PAULI2", ars ++ [qa q1; qa q2])
      (flat_map (fun P1 => map (fun P2 => (prob_k ps (4 * code P1 + code P2), [EPauli [(P1, q1); (P2, q2)]])) paulis4) paulis4)
| pg_erase a p q : prob_arg a p -> (0 <= p)%Q -> (p <= 1)%Q ->
    pl_gate ("E_ERASE", [a; qa q]) (map (fun P => ((p / 4)%Q, [EErased P q])) [PX; PY; PZ; PI] ++ [((1 - p)%Q, [EKept q])])
| pg_error p name P q : In (name, P) [("X", PX); ("Y", PY); ("Z", PZ)] ->
    pl_gate ("ERROR", [AFlt p; AStr name; qa q]) [(p, [EPauli [(P, q)]]); ((1 - p)%Q, [])].
Inductive pl_circ : circuit -> dist -> Prop :=
| pl_nil : pl_circ [] done
| pl_cons gt c d1 d2 : pl_gate gt d1 -> pl_circ c d2 -> pl_circ (gt :: c) (dseq d1 d2).

(** ** State vectors *)
(** One elementary operation: measurement results, erasure flags, new state. *)
Inductive esem (n : nat) : elem -> vec -> list bool -> list bool -> vec -> Prop :=
| es_gate name qs v ms es v' : In name basic -> qgate n name (map qa qs) v ms es v' -> esem n (EGate name qs) v ms es v'
| es_pauli l v : esem n (EPauli l) v [] [] (paulis l v)
| es_erased P q v : esem n (EErased P q) v [] [true] (apply1 (mP P) q v)
| es_kept q v : esem n (EKept q) v [] [false] v.
Inductive rsem (n : nat) : list elem -> vec -> list bool -> list bool -> vec -> Prop :=
| rs_nil v : rsem n [] v [] [] v
| rs_cons e ops v ms es v1 ms' es' v' : esem n e v ms es v1 -> rsem n ops v1 ms' es' v' ->
    rsem n (e :: ops) v (ms ++ ms') (es ++ es') v'.

(** With an ancilla in place of the flags. *)
Definition embed (anc : nat) (e : elem) : list elem :=
  match e with
  | EErased P q => [EGate "R" [anc]; EPauli ((PX, anc) :: match P with PI => [] | _ => [(P, q)] end); EGate "M" [anc]]
  | EKept _ => [EGate "R" [anc]; EGate "M" [anc]]
  | _ => [e]
  end.
(** Which entries of the record are erasure flags. *)
Definition emarks (e : elem) : list bool :=
  match e with
  | EGate name qs => if String.eqb name "M" then repeat false (List.length qs) else []
  | EPauli _ => []
  | EErased _ _ | EKept _ => [true]
  end.
(** The qubits of an operation. *)
Definition equbits (e : elem) : list nat :=
  match e with EGate _ qs => qs | EPauli l => map snd l | EErased _ q | EKept q => [q] end.
(** A basis state of one more qubit. *)
Definition ketb (b : bool) : vec := fun a => if Bool.eqb (hd false a) b then zi1 else zi0.
(** [w] is [v] on n qubits together with a basis state [b] of the next qubit, up to a factor. *)
Definition lifted (n : nat) (v : vec) (b : bool) (w : vec) : Prop :=
  exists c, ziabs2 c <> 0%Z /\ veq (n + 1) w (vscale c (vtensor n v (ketb b))).
(** The embedding of a distribution. *)
Definition edist (anc : nat) (d : dist) : dist := map (fun x => (fst x, flat_map (embed anc) (snd x))) d.
(** What the marks say about a record. *)
Definition splits (marks record ms es : list bool) : Prop :=
  List.length marks = List.length record /\ select (map negb marks) record = ms /\ select marks record = es.
