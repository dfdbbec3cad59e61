(** What it means for a code lattice to be consistent, and sequences of editing operations. *)
Require Import List Bool Arith ZArith Lia String.
From Verif Require Import Base LatticeModel.
Import ListNotations.

(** The edge ends at vertex [i]; the other end. *)
Definition touches (i : nat) (e : edge) : bool := (e_op e =? i) || (e_data e =? i).
Definition other (i : nat) (e : edge) : nat := if e_op e =? i then e_data e else e_op e.
Definition ends (e : edge) : nat * nat := (e_op e, e_data e).
Definition l_operators (l : lattice) : list nat := l_stabs l ++ l_logicals l.

Record consistent (l : lattice) : Prop := mkConsistent {
  (** vertices are distinct, allocated objects *)
  cons_alloc : forall i, In i (l_vertices l) -> i < l_next l;
  cons_nodup : NoDup (l_vertices l);
  (** the three lists contain exactly the vertices of their class, in order of creation *)
  cons_data : l_data l = filter (fun i => is_data (l_heap l i)) (l_vertices l);
  cons_stabs : l_stabs l = filter (fun i => is_stab (l_heap l i)) (l_vertices l);
  cons_logicals : l_logicals l = filter (fun i => is_logical (l_heap l i)) (l_vertices l);
  (** every vertex object, removed ones included, lists exactly the edges ending there and
      the vertices at their other ends *)
  cons_edges : forall i, v_edges (l_heap l i) = filter (touches i) (l_edges l);
  cons_neighbours : forall i, v_neighbours (l_heap l i) = map (other i) (v_edges (l_heap l i));
  (** edges join an operator and a data qubit of the lattice *)
  cons_ends : forall e, In e (l_edges l) -> In (e_data e) (l_data l) /\ In (e_op e) (l_operators l);
  (** at most one edge between two vertices *)
  cons_simple : NoDup (map ends (l_edges l));
  (** every vertex of the lattice has a valid position *)
  cons_valid : forall i, In i (l_vertices l) -> exists c, cell_of (l_shape l) (v_pos (l_heap l i)) = Some c;
  (** a cell contains a vertex exactly if the vertex is in the lattice at this position *)
  cons_cells : forall c i, l_cells l c = Some i <->
     In i (l_vertices l) /\ cell_of (l_shape l) (v_pos (l_heap l i)) = Some c;
  (** the extended qubits are the vertices which have an extended index *)
  cons_equbits_nodup : NoDup (l_equbits l);
  cons_equbits : forall i, In i (l_equbits l) <-> In i (l_vertices l) /\ v_equbit (l_heap l i) <> None }.

(** The public operations which change a lattice. *)
Inductive lop :=
| OAddData (p : pos) | OAddStab (p : pos) (g : group) | OAddLogical (p : pos) (name : string)
| OAddEdge (data op : nat) (f : factor) | ORemoveEdge (e : edge) | ORemoveVertex (i : nat)
| OAssignIndices | OAssignOrder (order : list pos)
| OSuperstab (keep remove : nat) | OMultiply (logical stab : nat) | ORemoveStab (stab : nat)
| ORemoveData (q : nat)
| OFabrication (qubits : list locator) (gates : list (locator * locator)) (stabs : list locator)
    (keep_gauge : option string) (join : option bool).
Definition run_op (o : lop) : eff :=
  match o with
  | OAddData p => add_data p
  | OAddStab p g => add_stabgen p g
  | OAddLogical p n => add_logical p n
  | OAddEdge d o f => add_edge d o f
  | ORemoveEdge e => remove_edge e
  | ORemoveVertex i => remove_vertex i
  | OAssignIndices => modify assign_indices
  | OAssignOrder order => assign_stab_edge_order order
  | OSuperstab k r => create_superstab k r
  | OMultiply g s => multiply_logical_with_stab g s
  | ORemoveStab s => remove_stabilizer s
  | ORemoveData q => remove_dataqubit q
  | OFabrication q g s k j => apply_fabrication_errors q g s k j
  end.
(** The arguments are vertices of the lattice and of the annotated classes. *)
Definition typed (l : lattice) (o : lop) : Prop :=
  match o with
  | OAddEdge d o _ => In d (l_data l) /\ In o (l_operators l)
  | OSuperstab k r => In k (l_stabs l) /\ In r (l_stabs l)
  | OMultiply g s => In g (l_logicals l) /\ In s (l_stabs l)
  | ORemoveData q => In q (l_data l)
  | _ => True
  end.
(** The lattices reached from an empty lattice by any operations; an operation which raises
    an exception (possibly half-way) may be followed by further operations. *)
Inductive reachable : lattice -> Prop :=
| reach_new : forall shape l, empty_lattice shape = Ok l -> reachable l
| reach_op : forall l o, reachable l -> typed l o -> reachable (fst (run_op o l)).

(** The indices assigned by [assign_indices]: positions in the lists. *)
Definition indexed (l : lattice) : Prop :=
  (forall k i, nth_error (l_data l) k = Some i -> v_index (l_heap l i) = Some k) /\
  (forall k i, nth_error (l_stabs l) k = Some i -> v_index (l_heap l i) = Some k) /\
  (forall k i, nth_error (l_logicals l) k = Some i -> v_index (l_heap l i) = Some k) /\
  l_equbits l = l_data l ++ l_stabs l ++ l_logicals l /\
  (forall k i, nth_error (l_equbits l) k = Some i -> v_equbit (l_heap l i) = Some k).

(** The single-qubit factor of the operator [o] at the data qubit [d]: (x, z) bits. *)
Definition fbits (f : factor) : bool * bool :=
  match f with FX => (true, false) | FY => (true, true) | FZ => (false, true) end.
Definition pw (l : lattice) (o d : nat) : bool * bool :=
  match find (fun e => (e_op e =? o) && (e_data e =? d)) (l_edges l) with
  | Some e => fbits (e_factor e)
  | None => (false, false)
  end.
(** Two factors anticommute; two operators anticommute if an odd number of factors do. *)
Definition sp (a b : bool * bool) : bool := xorb (fst a && snd b) (snd a && fst b).
Definition anti (D : list nat) (f g : nat -> bool * bool) : bool := fold_right xorb false (map (fun d => sp (f d) (g d)) D).
Definition pxor (a b : bool * bool) : bool * bool := (xorb (fst a) (fst b), xorb (snd a) (snd b)).
