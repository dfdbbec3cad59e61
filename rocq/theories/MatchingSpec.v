(** What is expected of the libraries PyMatching and Fusion Blossom, and weights of error
    histories. *)
Require Import List Bool Arith ZArith QArith.
From Verif Require Import Base QSpec PauliModel LatticeSpec GeneratorSpec GraphSpec SyngraphModel SyngraphProofs DecoderSpec MatchingModel.
Import ListNotations.
Open Scope nat_scope.

(** The sum of [f] over a list. *)
Definition qsum {A} (f : A -> Q) (l : list A) : Q := fold_right (fun a s => (f a + s)%Q) 0%Q l.

(** ** PyMatching *)
(** A set of edges (positions) gives the syndrome: at each node which is not a boundary node, the
    number of edges is odd exactly if the bit of the syndrome is set. *)
Definition pm_end (e : pm_edge) (v : nat) : bool := xorb (pe_a e =? v) (pe_b e =? v).
Definition pm_nth (g : pm_graph) (i : nat) : pm_edge := nth i (pm_edges g) (mkPmEdge 0 0 0 0).
Definition pm_solves (g : pm_graph) (syn : list bool) (sel : nat -> bool) : Prop :=
  forall v, ~ In v (pm_bound g) ->
    parity (map (fun i => sel i && pm_end (pm_nth g i) v) (seq 0 (length (pm_edges g)))) = nth v syn false.
Definition pm_total (g : pm_graph) (sel : nat -> bool) : Q :=
  qsum (fun i => if sel i then pe_weight (pm_nth g i) else 0%Q) (seq 0 (length (pm_edges g))).
Definition pm_faults (g : pm_graph) : nat := list_max (map (fun e => S (pe_fault e)) (pm_edges g)).
(** If no weight is negative and the syndrome can be explained, [Matching.decode] finds a set of
    edges of minimum weight which gives the syndrome, and returns for each fault id whether the
    number of edges with this id is odd. *)
Definition pm_contract (solver : pm_graph -> list bool -> Res (list bool)) : Prop :=
  forall g syn, (forall e, In e (pm_edges g) -> (0 <= pe_weight e)%Q) -> (exists sel, pm_solves g syn sel) ->
  exists sel, pm_solves g syn sel /\ (forall sel', pm_solves g syn sel' -> (pm_total g sel <= pm_total g sel')%Q) /\
    solver g syn = Ok (map (fun f => parity (map (fun i => sel i && (pe_fault (pm_nth g i) =? f)) (seq 0 (length (pm_edges g)))))
                         (seq 0 (pm_faults g))).

(** ** Fusion Blossom *)
Definition fb_nth (g : fb_graph) (i : nat) : nat * nat * Z := nth i (fb_edges g) (0, 0, 0%Z).
Definition fb_end (e : nat * nat * Z) (v : nat) : bool := xorb (fst (fst e) =? v) (snd (fst e) =? v).
Definition fb_solves (g : fb_graph) (syn : list nat) (sel : nat -> bool) : Prop :=
  forall v, ~ In v (fb_virtual g) ->
    parity (map (fun i => sel i && fb_end (fb_nth g i) v) (seq 0 (length (fb_edges g)))) = existsb (Nat.eqb v) syn.
(** Erased edges have the weight 0. *)
Definition fb_total (g : fb_graph) (er : list nat) (sel : nat -> bool) : Q :=
  qsum (fun i => if sel i && negb (existsb (Nat.eqb i) er) then inject_Z (snd (fb_nth g i)) else 0%Q) (seq 0 (length (fb_edges g))).
(** If the weights are even and not negative and the syndrome can be explained, [solve] finds a
    set of edges of minimum weight which gives the syndrome, and [subgraph] returns it. *)
Definition fb_contract (solver : fb_graph -> list nat -> list nat -> Res (list nat)) : Prop :=
  forall g syn er, (forall e, In e (fb_edges g) -> (0 <= snd e)%Z /\ Z.even (snd e) = true) -> (exists sel, fb_solves g syn sel) ->
  exists r, solver g syn er = Ok r /\ let sel := fun i => existsb (Nat.eqb i) r in
    fb_solves g syn sel /\ forall sel', fb_solves g syn sel' -> (fb_total g er sel <= fb_total g er sel')%Q.

(** ** Weights of histories *)
(** The weight of an X error, a Z error or a wrong result; 1 without weights. *)
Definition fault_weight (w : option warg) (sel : warg -> wspec) (i : nat) : Q :=
  match w with None => 1%Q | Some a => match weight_at (sel a) i with Fin q => q | _ => 0%Q end end.
(** The total weight of the errors [E] and wrong results [F]. *)
Definition history_weight (w : option warg) (rounds n m : nat) (E : nat -> nat -> bool * bool) (F : nat -> nat -> bool) : Q :=
  (qsum (fun t => qsum (fun q => (if fst (E t q) then fault_weight w w_x q else 0) + (if snd (E t q) then fault_weight w w_z q else 0)) (seq 0 n)) (seq 0 rounds) +
   qsum (fun t => qsum (fun s => if F t s then fault_weight w w_meas s else 0) (seq 0 m)) (seq 1 (rounds - 1)))%Q.
(** No weights, or weights which are not negative. *)
Definition not_negative (x : weight) : Prop := match x with Fin q => (0 <= q)%Q | Inf negative => negative = false | NaN => False end.
Definition sane_weights (w : option warg) (n m : nat) : Prop :=
  match w with
  | None => True
  | Some a => (forall q, q < n -> not_negative (weight_at (w_x a) q) /\ not_negative (weight_at (w_z a) q)) /\
              forall s, s < m -> not_negative (weight_at (w_meas a) s)
  end.
(** The weight of an operator as errors of one round. *)
Definition weight_of_operator (w : option warg) (n : nat) (P : nat -> bool * bool) : Q :=
  qsum (fun q => ((if fst (P q) then fault_weight w w_x q else 0) + (if snd (P q) then fault_weight w w_z q else 0))%Q) (seq 0 n).

(** Every operator which commutes with the generators, not with the logical operator [l], and
    acts on the qubits by errors whose weights are not infinite has weight [D] or more. *)
Definition weight_distance (w : option warg) (n : nat) (gens : list row) (l : nat -> bool * bool) (D : Q) : Prop :=
  forall P, (forall q, q < n -> (fst (P q) = true -> finite_error w w_x q) /\ (snd (P q) = true -> finite_error w w_z q)) ->
  (forall s, s < length gens -> anti (seq 0 n) (fac (nth s gens row0)) P = false) ->
  anti (seq 0 n) l P = true -> (D <= weight_of_operator w n P)%Q.
(** The errors of the letters [allow] and wrong results of the generators [side]. *)
Definition those_errors (allow : pauli1 -> bool) (E : nat -> nat -> bool * bool) (t q : nat) : bool * bool :=
  (allow PX && fst (E t q), allow PZ && snd (E t q)).
Definition those_results (side : nat -> bool) (F : nat -> nat -> bool) (t s : nat) : bool := side s && F t s.
