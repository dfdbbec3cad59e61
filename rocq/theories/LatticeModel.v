(** Model of /repo/src/plaquette/codes/latticebase.py: the code lattice.

    Vertices are mutable Python objects; they are modelled by addresses (natural numbers)
    into a heap.  Equality of vertices is equality of addresses: the generated dataclass
    [__eq__] compares the class and then [pos] first, so that it decides the same on vertices
    with different positions or classes (a vertex which is no longer in the lattice and has the
    position of another one is outside of the model).  Edges are compared by [__eq__] only
    (never by [is]), so that they are modelled as values; an assignment to an attribute of an
    edge object replaces the edge in all lists which share the object.
    Lattices are two-dimensional and positions are pairs of integers (the built-in codes);
    the numpy array [lattice] is a finite map from cells to addresses and negative
    coordinates wrap around as in numpy.
    Methods change the lattice in place and may raise an exception half-way: they are functions
    from the lattice to the changed lattice and the exception, if any.  Warnings are omitted. *)
Require Import List Bool Arith ZArith Lia String Ascii.
From Verif Require Import Base PauliModel CircuitModel PauliTextModel.
Import ListNotations.
Local Open Scope string_scope.
Local Open Scope nat_scope.
Local Open Scope list_scope.

(** latticebase.py:40-51 Pauli. *)
Inductive factor := FX | FY | FZ.
Definition factor_eqb (a b : factor) : bool :=
  match a, b with FX, FX | FY, FY | FZ, FZ => true | _, _ => false end.
(** [factor.name], latticebase.py:47-51, 524. *)
Definition factor_name (f : factor) : ascii := match f with FX => "X" | FY => "Y" | FZ => "Z" end%char.

(** latticebase.py:54-69 StabGroup. *)
Inductive group := GU | GA | GB.

(** latticebase.py:94-95 PosType, for two-dimensional lattices. *)
Definition pos := (Z * Z)%type.
Definition pos_eqb (a b : pos) : bool := ((fst a =? fst b) && (snd a =? snd b))%Z.

(** latticebase.py:231-250 Edge. *)
Record edge := mkEdge { e_op : nat; e_data : nat; e_factor : factor; e_time : option nat }.
(** The dataclass [__eq__] of Edge, latticebase.py:231. *)
Definition time_eqb (a b : option nat) : bool :=
  match a, b with Some x, Some y => x =? y | None, None => true | _, _ => false end.
Definition edge_eqb (a b : edge) : bool :=
  (e_op a =? e_op b) && (e_data a =? e_data b) && factor_eqb (e_factor a) (e_factor b) && time_eqb (e_time a) (e_time b).

(** latticebase.py:138-228: the three classes of vertices. *)
Inductive kind := KData | KStab (g : group) | KLogical (name : string).
(** latticebase.py:98-228 Vertex and its subclasses.  [v_equbit] is equbit_idx and [v_index] is
    dataqubit_idx, stabgen_idx or logical_idx; None is NO_INDEX. *)
Record vertex := mkVertex {
  v_kind : kind; v_pos : pos; v_neighbours : list nat; v_edges : list edge;
  v_equbit : option nat; v_index : option nat }.

(** latticebase.py:303-354: the attributes of CodeLattice. *)
Record lattice := mkLattice {
  l_shape : Z * Z; l_cells : pos -> option nat; l_heap : nat -> vertex; l_next : nat;
  l_vertices : list nat; l_data : list nat; l_stabs : list nat; l_logicals : list nat;
  l_equbits : list nat; l_edges : list edge; l_steps : option nat;
  l_gauge : string; l_join : bool }.

(** Assignments to one attribute of the lattice. *)
Definition set_cells f l := mkLattice (l_shape l) f (l_heap l) (l_next l) (l_vertices l) (l_data l) (l_stabs l) (l_logicals l) (l_equbits l) (l_edges l) (l_steps l) (l_gauge l) (l_join l).
Definition set_heap h l := mkLattice (l_shape l) (l_cells l) h (l_next l) (l_vertices l) (l_data l) (l_stabs l) (l_logicals l) (l_equbits l) (l_edges l) (l_steps l) (l_gauge l) (l_join l).
Definition set_next n l := mkLattice (l_shape l) (l_cells l) (l_heap l) n (l_vertices l) (l_data l) (l_stabs l) (l_logicals l) (l_equbits l) (l_edges l) (l_steps l) (l_gauge l) (l_join l).
Definition set_vertices x l := mkLattice (l_shape l) (l_cells l) (l_heap l) (l_next l) x (l_data l) (l_stabs l) (l_logicals l) (l_equbits l) (l_edges l) (l_steps l) (l_gauge l) (l_join l).
Definition set_data x l := mkLattice (l_shape l) (l_cells l) (l_heap l) (l_next l) (l_vertices l) x (l_stabs l) (l_logicals l) (l_equbits l) (l_edges l) (l_steps l) (l_gauge l) (l_join l).
Definition set_stabs x l := mkLattice (l_shape l) (l_cells l) (l_heap l) (l_next l) (l_vertices l) (l_data l) x (l_logicals l) (l_equbits l) (l_edges l) (l_steps l) (l_gauge l) (l_join l).
Definition set_logicals x l := mkLattice (l_shape l) (l_cells l) (l_heap l) (l_next l) (l_vertices l) (l_data l) (l_stabs l) x (l_equbits l) (l_edges l) (l_steps l) (l_gauge l) (l_join l).
Definition set_equbits x l := mkLattice (l_shape l) (l_cells l) (l_heap l) (l_next l) (l_vertices l) (l_data l) (l_stabs l) (l_logicals l) x (l_edges l) (l_steps l) (l_gauge l) (l_join l).
Definition set_edges x l := mkLattice (l_shape l) (l_cells l) (l_heap l) (l_next l) (l_vertices l) (l_data l) (l_stabs l) (l_logicals l) (l_equbits l) x (l_steps l) (l_gauge l) (l_join l).
Definition set_steps x l := mkLattice (l_shape l) (l_cells l) (l_heap l) (l_next l) (l_vertices l) (l_data l) (l_stabs l) (l_logicals l) (l_equbits l) (l_edges l) x (l_gauge l) (l_join l).
Definition set_gauge x l := mkLattice (l_shape l) (l_cells l) (l_heap l) (l_next l) (l_vertices l) (l_data l) (l_stabs l) (l_logicals l) (l_equbits l) (l_edges l) (l_steps l) x (l_join l).
Definition set_join x l := mkLattice (l_shape l) (l_cells l) (l_heap l) (l_next l) (l_vertices l) (l_data l) (l_stabs l) (l_logicals l) (l_equbits l) (l_edges l) (l_steps l) (l_gauge l) x.

(** Assignments to one attribute of a vertex object. *)
Definition hset (i : nat) (v : vertex) (h : nat -> vertex) : nat -> vertex := fun j => if i =? j then v else h j.
Definition change (i : nat) (f : vertex -> vertex) (l : lattice) : lattice := set_heap (hset i (f (l_heap l i)) (l_heap l)) l.
Definition put_neighbours x v := mkVertex (v_kind v) (v_pos v) x (v_edges v) (v_equbit v) (v_index v).
Definition put_edges x v := mkVertex (v_kind v) (v_pos v) (v_neighbours v) x (v_equbit v) (v_index v).
Definition put_equbit x v := mkVertex (v_kind v) (v_pos v) (v_neighbours v) (v_edges v) x (v_index v).
Definition put_index x v := mkVertex (v_kind v) (v_pos v) (v_neighbours v) (v_edges v) (v_equbit v) x.

(** A Python method: new lattice and exception.  Sequencing and [for] loops. *)
Definition eff := lattice -> lattice * option exn.
Definition skip : eff := fun l => (l, None).
Definition raise (e : exn) : eff := fun l => (l, Some e).
Definition seqE (a b : eff) : eff := fun l =>
  match a l with (l', None) => b l' | (l', Some e) => (l', Some e) end.
Definition assertE (c : lattice -> bool) : eff := fun l => if c l then (l, None) else (l, Some AssertionError).
Definition modify (f : lattice -> lattice) : eff := fun l => (f l, None).
Notation "a ;; b" := (seqE a b) (at level 90, right associativity) : res_scope.
Fixpoint forE {A} (f : A -> eff) (xs : list A) : eff :=
  match xs with [] => skip | x :: xs' => f x ;; forE f xs' end.

Definition memb (i : nat) (l : list nat) : bool := existsb (Nat.eqb i) l.
(** list.remove(x): the first equal element; ValueError if there is none. *)
Fixpoint remove1 {A} (eqb : A -> A -> bool) (x : A) (l : list A) : option (list A) :=
  match l with
  | [] => None
  | y :: l' => if eqb x y then Some l' else option_map (cons y) (remove1 eqb x l')
  end.
Definition del {A} (eqb : A -> A -> bool) (x : A) (get : lattice -> list A) (put : list A -> lattice -> lattice) : eff :=
  fun l => match remove1 eqb x (get l) with Some r => (put r l, None) | None => (l, Some ValueError) end.

(** numpy index normalisation of one coordinate and of a pair (IndexError is None). *)
Definition wrap (n z : Z) : option Z :=
  if ((0 <=? z) && (z <? n))%Z then Some z else if ((- n <=? z) && (z <? 0))%Z then Some (z + n)%Z else None.
Definition cell_of (shape : Z * Z) (p : pos) : option pos :=
  match wrap (fst shape) (fst p), wrap (snd shape) (snd p) with
  | Some a, Some b => Some (a, b)
  | _, _ => None
  end.
(** [self.lattice[pos]]. *)
Definition lookup (l : lattice) (p : pos) : Res (option nat) :=
  match cell_of (l_shape l) p with Some c => Ok (l_cells l c) | None => Err IndexError end.
(** [self.lattice[pos] = x] for a valid position. *)
Definition assign_cell (p : pos) (x : option nat) (l : lattice) : lattice :=
  match cell_of (l_shape l) p with
  | Some c => set_cells (fun c' => if pos_eqb c c' then x else l_cells l c') l
  | None => l
  end.

Definition dead : vertex := mkVertex KData (0, 0)%Z [] [] None None.
(** latticebase.py:340-354 __init__; a negative dimension is a ValueError of np.zeros.
    fabrication_err_keep_gauge and fabrication_err_boundary_join have the defaults of
    latticebase.py:331 and 338. *)
Definition empty_lattice (shape : Z * Z) : Res lattice :=
  if ((fst shape <? 0) || (snd shape <? 0))%Z then Err ValueError
  else Ok (mkLattice shape (fun _ => None) (fun _ => dead) 0 [] [] [] [] [] [] None "none" false).

(** latticebase.py:429-452: the common part of add_data, add_stabgen, add_logical. *)
Definition append_by_kind (k : kind) (i : nat) (l : lattice) : lattice :=
  match k with
  | KData => set_data (l_data l ++ [i]) l
  | KStab _ => set_stabs (l_stabs l ++ [i]) l
  | KLogical _ => set_logicals (l_logicals l ++ [i]) l
  end.
Definition add_vertex (k : kind) (p : pos) : eff := fun l =>
  match lookup l p with
  | Err e => (l, Some e)
  | Ok (Some _) => (l, Some AssertionError)
  | Ok None =>
      let i := l_next l in
      let l1 := set_next (S i) (set_heap (hset i (mkVertex k p [] [] None None) (l_heap l)) l) in
      let l2 := append_by_kind k i (set_vertices (l_vertices l1 ++ [i]) l1) in
      (assign_cell p (Some i) l2, None)
  end.
(** latticebase.py:429-435 *)
Definition add_data (p : pos) : eff := add_vertex KData p.
(** latticebase.py:437-443 *)
Definition add_stabgen (p : pos) (g : group) : eff := add_vertex (KStab g) p.
(** latticebase.py:445-452; the new vertex is returned by [l_next] before the call. *)
Definition add_logical (p : pos) (name : string) : eff := add_vertex (KLogical name) p.

(** latticebase.py:454-463 add_edge. *)
Definition add_edge (data op : nat) (f : factor) : eff :=
  assertE (fun l => negb (memb data (v_neighbours (l_heap l op)))) ;;
  assertE (fun l => negb (memb op (v_neighbours (l_heap l data)))) ;;
  let e := mkEdge op data f None in
  modify (change data (fun v => put_edges (v_edges v ++ [e]) v)) ;;
  modify (change data (fun v => put_neighbours (v_neighbours v ++ [op]) v)) ;;
  modify (change op (fun v => put_edges (v_edges v ++ [e]) v)) ;;
  modify (change op (fun v => put_neighbours (v_neighbours v ++ [data]) v)) ;;
  modify (fun l => set_edges (l_edges l ++ [e]) l).

(** latticebase.py:465-474 remove_edge. *)
Definition remove_edge (e : edge) : eff :=
  let data := e_data e in
  let op := e_op e in
  assertE (fun l => existsb (edge_eqb e) (l_edges l)) ;;
  del edge_eqb e (fun l => v_edges (l_heap l data)) (fun x => change data (put_edges x)) ;;
  del Nat.eqb op (fun l => v_neighbours (l_heap l data)) (fun x => change data (put_neighbours x)) ;;
  del edge_eqb e (fun l => v_edges (l_heap l op)) (fun x => change op (put_edges x)) ;;
  del Nat.eqb data (fun l => v_neighbours (l_heap l op)) (fun x => change op (put_neighbours x)) ;;
  del edge_eqb e l_edges set_edges.

(** latticebase.py:476-499 remove_vertex. *)
Definition remove_vertex (i : nat) : eff :=
  assertE (fun l => memb i (l_vertices l)) ;;
  (fun l => match lookup l (v_pos (l_heap l i)) with
            | Err e => (l, Some e)
            | Ok x => if (match x with Some j => j =? i | None => false end) then (l, None) else (l, Some AssertionError)
            end) ;;
  assertE (fun l => List.length (v_neighbours (l_heap l i)) =? List.length (v_edges (l_heap l i))) ;;
  (fun l => match v_edges (l_heap l i) with [] => (l, None) | _ => (l, Some ValueError) end) ;;
  (fun l => match v_kind (l_heap l i) with
            | KData => del Nat.eqb i l_data set_data l
            | KStab _ => del Nat.eqb i l_stabs set_stabs l
            | KLogical _ => del Nat.eqb i l_logicals set_logicals l
            end) ;;
  (fun l => match v_equbit (l_heap l i) with
            | Some _ => del Nat.eqb i l_equbits set_equbits l
            | None => (l, None)
            end) ;;
  del Nat.eqb i l_vertices set_vertices ;;
  modify (fun l => assign_cell (v_pos (l_heap l i)) None l).

(** latticebase.py:377-382: the enumerate loops. *)
Fixpoint number_from (n : nat) (put : option nat -> vertex -> vertex) (is : list nat) (l : lattice) : lattice :=
  match is with
  | [] => l
  | i :: is' => number_from (S n) put is' (change i (put (Some n)) l)
  end.
(** latticebase.py:356-386 assign_indices. *)
Definition assign_indices (l : lattice) : lattice :=
  let l1 := number_from 0 put_index (l_data l) l in
  let l2 := number_from 0 put_index (l_stabs l1) l1 in
  let l3 := number_from 0 put_index (l_logicals l2) l2 in
  let all := l_data l3 ++ l_stabs l3 ++ l_logicals l3 in
  set_equbits all (number_from 0 put_equbit all l3).

(** isinstance checks. *)
Definition is_data (v : vertex) : bool := match v_kind v with KData => true | _ => false end.
Definition is_stab (v : vertex) : bool := match v_kind v with KStab _ => true | _ => false end.
Definition is_logical (v : vertex) : bool := match v_kind v with KLogical _ => true | _ => false end.

(** [edge.measurement_time_step = t] on the shared edge object. *)
Definition retime (e : edge) (t : nat) : edge := mkEdge (e_op e) (e_data e) (e_factor e) (Some t).
Definition set_time (e : edge) (t : nat) (l : lattice) : lattice :=
  let r := map (fun e' => if edge_eqb e e' then retime e t else e') in
  let l1 := change (e_data e) (fun v => put_edges (r (v_edges v)) v) l in
  let l2 := change (e_op e) (fun v => put_edges (r (v_edges v)) v) l1 in
  set_edges (r (l_edges l2)) l2.

(** latticebase.py:414-427 _periodic_boundary_time_step, with its guard of 408-411. *)
Definition periodic (d : Z) : Z :=
  if (1 <? Z.abs d)%Z then (if (0 <? d)%Z then -1 else 1)%Z else d.
(** tuple.index. *)
Fixpoint index_of (p : pos) (l : list pos) : option nat :=
  match l with
  | [] => None
  | q :: l' => if pos_eqb p q then Some 0 else option_map S (index_of p l')
  end.
(** latticebase.py:388-412 assign_stab_edge_order. *)
Definition order_edge (order : list pos) (e : edge) : eff := fun l =>
  if negb (is_stab (l_heap l (e_op e))) then (l, None)
  else
    let dp := v_pos (l_heap l (e_data e)) in
    let op := v_pos (l_heap l (e_op e)) in
    let d0 := periodic (fst dp - fst op) in
    let d1 := periodic (snd dp - snd op) in
    match index_of (d0, d1) order with
    | Some t => (set_time e t l, None)
    | None => (l, Some ValueError)
    end.
Definition assign_stab_edge_order (order : list pos) : eff := fun l =>
  let l1 := set_steps (Some (List.length order)) l in
  forE (order_edge order) (l_edges l1) l1.

(** latticebase.py:502-536 _vertices_to_operators. *)
(** line 524, the dict comprehension; an unassigned index is outside of the model. *)
Definition op_dict_step (l : lattice) (d : pdict) (e : edge) : Res pdict :=
  match v_index (l_heap l (e_data e)) with
  | Some q => Ok (dict_set d q (String (factor_name (e_factor e)) ""))
  | None => Err Unmodelled
  end.
Fixpoint insert_nat (x : nat) (l : list nat) : list nat :=
  match l with [] => [x] | y :: l' => if x <=? y then x :: l else y :: insert_nat x l' end.
(** sorted(operators.keys()). *)
Definition sort_nat (l : list nat) : list nat := fold_right insert_nat [] l.
Fixpoint pad_I (k : nat) : string := match k with O => "" | S k' => String "I" (pad_I k') end.
(** lines 525-534. *)
Definition op_string_step (d : pdict) (s : string) (q : nat) : string :=
  let actual := min (String.length s) q in
  (s ++ pad_I (q - actual) ++ match dict_get d q with Some x => x | None => "" end)%string.
Definition op_string (d : pdict) : string := fold_left (op_string_step d) (sort_nat (map fst d)) ""%string.
Definition vertex_operator (l : lattice) (n : nat) (i : nat) : Res row :=
  do d <- foldR (op_dict_step l) (v_edges (l_heap l i)) [];
  string_to_pauli (op_string d) (Some n).
Definition vertices_to_operators (l : lattice) (ops : list nat) (n : nat) : Res (list row) :=
  mapR (vertex_operator l n) ops.
(** latticebase.py:538-546 stabilisers, logical_operators. *)
Definition stabilisers (l : lattice) : Res (list row) := vertices_to_operators l (l_stabs l) (List.length (l_data l)).
Definition logical_operators (l : lattice) : Res (list row) := vertices_to_operators l (l_logicals l) (List.length (l_data l)).

(** latticebase.py:558-576 get_vertex_at_pos. *)
Definition get_vertex_at_pos (p : pos) (allow_empty : bool) (l : lattice) : Res (option nat) :=
  do x <- lookup l p;
  match x with
  | None => if allow_empty then Ok None else Err ValueError
  | Some i => Ok (Some i)
  end.
(** latticebase.py:578-617 check_equbit_is_data, check_equbit_is_stabgen for an integer. *)
Definition check_equbit (is : vertex -> bool) (z : Z) (l : lattice) : Res unit :=
  if ((z <? 0) || (Z.of_nat (List.length (l_equbits l)) <=? z))%Z then Err ValueError
  else if is (l_heap l (nth (Z.to_nat z) (l_equbits l) 0)) then Ok tt else Err ValueError.
Definition check_equbit_is_data := check_equbit is_data.
Definition check_equbit_is_stabgen := check_equbit is_stab.

(** next(e for e in edges if e.data == data): StopIteration is None. *)
Definition edge_at (data : nat) (es : list edge) : option edge := find (fun e => e_data e =? data) es.
(** latticebase.py:633-638 and 661-666: cancel or add one factor. *)
Definition toggle_edge (op : nat) (edge : edge) : eff := fun l =>
  if memb (e_data edge) (v_neighbours (l_heap l op)) then
    match edge_at (e_data edge) (v_edges (l_heap l op)) with
    | None => (l, Some StopIteration)
    | Some edge2 =>
        if factor_eqb (e_factor edge2) (e_factor edge) then remove_edge edge2 l else (l, Some AssertionError)
    end
  else add_edge (e_data edge) op (e_factor edge) l.
(** latticebase.py:619-639 create_superstab. *)
Definition create_superstab (keep remove : nat) : eff :=
  assertE (fun l => is_stab (l_heap l keep)) ;;
  assertE (fun l => is_stab (l_heap l remove)) ;;
  (fun l => forE (fun e => remove_edge e ;; toggle_edge keep e) (v_edges (l_heap l remove)) l) ;;
  remove_vertex remove.
(** latticebase.py:641-654 create_superstab_from_edges. *)
Definition create_superstab_from_edges (es : list edge) : eff :=
  match es with
  | [e1; e2] =>
      assertE (fun l => is_stab (l_heap l (e_op e1))) ;;
      assertE (fun l => is_stab (l_heap l (e_op e2))) ;;
      create_superstab (e_op e1) (e_op e2)
  | _ => raise AssertionError
  end.
(** latticebase.py:656-666 multiply_logical_with_stab (the list [stab.edges] does not change
    during the loop if the two vertices are different). *)
Definition multiply_logical_with_stab (logical stab : nat) : eff := fun l =>
  forE (toggle_edge logical) (v_edges (l_heap l stab)) l.
(** latticebase.py:668-672 remove_stabilizer. *)
Definition remove_stabilizer (stab : nat) : eff := fun l =>
  (forE remove_edge (v_edges (l_heap l stab)) ;; remove_vertex stab) l.

(** latticebase.py:725-779: removal of the edges of a data qubit, by groups. *)
Definition remove_two (es : list edge) : eff :=
  match es with
  | e0 :: e1 :: _ => remove_edge e0 ;; remove_edge e1
  | _ => raise IndexError
  end.
Definition boundary_remove (es : list edge) : eff :=
  match es with
  | [e0] => remove_stabilizer (e_op e0)
  | [e0; e1] => remove_edge e0 ;; remove_edge e1
  | _ => raise ValueError
  end.
Definition boundary_join (es : list edge) : eff :=
  match es with
  | [e0] => remove_edge e0
  | [e0; e1] => create_superstab_from_edges [e0; e1]
  | _ => raise ValueError
  end.
Definition handle_edgegroups (groups : list (list edge)) : eff := fun l =>
  if forallb (fun es => List.length es =? 2) groups then
    if String.eqb (l_gauge l) "none" then forE create_superstab_from_edges groups l
    else if String.eqb (l_gauge l) "half" then
      match groups with
      | [] => (l, Some IndexError)
      | g :: gs => (create_superstab_from_edges g ;; forE remove_two gs) l
      end
    else if String.eqb (l_gauge l) "all" then forE remove_two groups l
    else (l, Some ValueError)
  else if l_join l then forE boundary_join groups l else forE boundary_remove groups l.

(** latticebase.py:703-713: edges of the data qubit by factor, in order of first occurrence. *)
Fixpoint group_add (e : edge) (gs : list (factor * list edge)) : list (factor * list edge) :=
  match gs with
  | [] => [(e_factor e, [e])]
  | (f, es) :: gs' => if factor_eqb f (e_factor e) then (f, es ++ [e]) :: gs' else (f, es) :: group_add e gs'
  end.
Definition group_get (f : factor) (gs : list (factor * list edge)) : option (list edge) :=
  option_map snd (find (fun g => factor_eqb (fst g) f) gs).
Definition stab_groups (l : lattice) (es : list edge) : list (factor * list edge) :=
  fold_left (fun gs e => group_add e gs) (filter (fun e => is_stab (l_heap l (e_op e))) es) [].
(** latticebase.py:715-721. *)
Definition update_logical (gs : list (factor * list edge)) (e : edge) : eff :=
  match group_get (e_factor e) gs with
  | Some (s :: _) => multiply_logical_with_stab (e_op e) (e_op s)
  | _ => raise NoLogicalOperatorError
  end.
(** latticebase.py:683-723 remove_dataqubit. *)
Definition remove_dataqubit (q : nat) : eff := fun l =>
  let es := v_edges (l_heap l q) in
  if existsb (fun e => is_data (l_heap l (e_op e))) es then (l, Some TypeError)
  else
    let gs := stab_groups l es in
    let logical_edges := filter (fun e => is_logical (l_heap l (e_op e))) es in
    (forE (update_logical gs) logical_edges ;; handle_edgegroups (map snd gs) ;; remove_vertex q) l.

(** latticebase.py:847, 853-860, 873: a position or an extended qubit index. *)
Inductive locator := AtPos (p : pos) | AtIndex (z : Z).
Definition locate (l : lattice) (x : locator) : Res (option nat) :=
  match x with
  | AtPos p => lookup l p
  | AtIndex z =>
      match wrap (Z.of_nat (List.length (l_equbits l))) z with
      | Some k => Ok (Some (nth (Z.to_nat k) (l_equbits l) 0))
      | None => Err IndexError
      end
  end.
Definition located (is : vertex -> bool) (l : lattice) (x : locator) : Res nat :=
  do v <- locate l x;
  match v with
  | Some i => if is (l_heap l i) then Ok i else Err ValueError
  | None => Err ValueError
  end.
(** The dictionary from positions to data qubits. *)
Fixpoint qdict_set (d : list (pos * nat)) (p : pos) (q : nat) : list (pos * nat) :=
  match d with
  | [] => [(p, q)]
  | (p', q') :: d' => if pos_eqb p' p then (p, q) :: d' else (p', q') :: qdict_set d' p q
  end.
(** latticebase.py:833-878 _fabrication_errors_get_remove_qubits.  In the loop over
    faulty_gates both look-ups come before both checks. *)
Definition faulty_qubit_step (l : lattice) (d : list (pos * nat)) (x : locator) : Res (list (pos * nat)) :=
  do q <- located is_data l x; Ok (qdict_set d (v_pos (l_heap l q)) q).
Definition faulty_gate_step (l : lattice) (d : list (pos * nat)) (x : locator * locator) : Res (list (pos * nat)) :=
  do _ <- locate l (fst x);
  do _ <- locate l (snd x);
  do s <- located is_stab l (fst x);
  do q <- located is_data l (snd x);
  if memb s (v_neighbours (l_heap l q)) then Ok (qdict_set d (v_pos (l_heap l q)) q) else Err ValueError.
Definition faulty_stab_step (l : lattice) (d : list (pos * nat)) (x : locator) : Res (list (pos * nat)) :=
  do s <- located is_stab l x;
  Ok (fold_left (fun d e => qdict_set d (v_pos (l_heap l (e_data e))) (e_data e)) (v_edges (l_heap l s)) d).
Definition get_remove_qubits (l : lattice) (qubits : list locator) (gates : list (locator * locator)) (stabs : list locator)
  : Res (list (pos * nat)) :=
  do d1 <- foldR (faulty_qubit_step l) qubits [];
  do d2 <- foldR (faulty_gate_step l) gates d1;
  foldR (faulty_stab_step l) stabs d2.
(** sorted(remove_qubits.items()): positions are distinct, so that they decide the order. *)
Definition pos_leb (a b : pos) : bool := ((fst a <? fst b) || ((fst a =? fst b) && (snd a <=? snd b)))%Z.
Fixpoint insert_pos (x : pos * nat) (l : list (pos * nat)) : list (pos * nat) :=
  match l with [] => [x] | y :: l' => if pos_leb (fst x) (fst y) then x :: l else y :: insert_pos x l' end.
Definition sort_pos (l : list (pos * nat)) : list (pos * nat) := fold_right insert_pos [] l.
(** latticebase.py:781-831 apply_fabrication_errors. *)
Definition apply_fabrication_errors (qubits : list locator) (gates : list (locator * locator)) (stabs : list locator)
  (keep_gauge : option string) (join : option bool) : eff :=
  modify (fun l => match keep_gauge with Some g => set_gauge g l | None => l end) ;;
  modify (fun l => match join with Some b => set_join b l | None => l end) ;;
  (fun l => match get_remove_qubits l qubits gates stabs with
            | Err e => (l, Some e)
            | Ok d => forE (fun pq => assertE (fun l => is_data (l_heap l (snd pq))) ;; remove_dataqubit (snd pq)) (sort_pos d) l
            end) ;;
  modify assign_indices.
