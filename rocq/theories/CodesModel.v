(** Model of /repo/src/plaquette/codes/latticeinstances.py, of CodeLatticeFromStab in
    codes/latticebase.py and of codes/__init__.py: the built-in lattices and the codes made
    from them. *)
Require Import List Bool Arith ZArith Lia String Ascii.
From Verif Require Import Base PauliModel CircuitModel PauliTextModel LatticeModel.
Import ListNotations.
Local Open Scope string_scope.
Local Open Scope nat_scope.
Local Open Scope list_scope.

(** Python range(a, b, s) for a positive step. *)
Definition zrange (a b s : Z) : list Z :=
  map (fun k => a + s * Z.of_nat k)%Z (seq 0 (Z.to_nat ((b - a + s - 1) / s))).

(** [self.add_edge(self.lattice[p], op, f)]: an empty cell is None, which has no attribute
    [neighbours] (latticebase.py:457; line 456 does not fail because None is no neighbour). *)
Definition edge_to (p : pos) (op : nat) (f : factor) : eff := fun l =>
  match lookup l p with
  | Err e => (l, Some e)
  | Ok None => (l, Some AttributeError)
  | Ok (Some d) => add_edge d op f l
  end.
(** [self.add_edge(self.lattice[p], self.lattice[q], f)] with [q] known to be occupied by the
    operator which was added last: callers pass its address. *)

(** [v = self.add_logical(p, name)] followed by the rest of the constructor. *)
Definition with_logical (p : pos) (name : string) (k : nat -> eff) : eff := fun l =>
  let i := l_next l in (add_logical p name ;; k i) l.
(** [self.add_stabgen(p, g)] followed by statements which use [self.lattice[p]]. *)
Definition with_stabgen (p : pos) (g : group) (k : nat -> eff) : eff := fun l =>
  let i := l_next l in (add_stabgen p g ;; k i) l.

(** latticebase.py:120-121 etc.: [for stab in self.vertices] restricted to stabilisers; the
    list [vertices] does not change during the loop. *)
Definition for_stabs (f : nat -> pos -> group -> eff) : eff := fun l =>
  forE (fun i l => match v_kind (l_heap l i) with
                   | KStab g => f i (v_pos (l_heap l i)) g l
                   | _ => (l, None)
                   end) (l_vertices l) l.
(** [ops[int(stab.group) - 1]] for ops = (X, Z, X, Z) or (X, Z): group U gives ops[-1] = Z. *)
Definition group_factor (g : group) : factor := match g with GA => FX | GB => FZ | GU => FZ end.

(** The exception of a constructor; the unfinished object is lost. *)
Definition construct (shape : Z * Z) (body : eff) : Res lattice :=
  do l <- empty_lattice shape;
  match body l with (l', None) => Ok l' | (_, Some e) => Err e end.

(** latticeinstances.py:60-79 RepetitionCodeLattice. *)
Definition repetition_body (size : Z) : eff :=
  (forE (fun i => add_data (i, 0)) (zrange 0 (2 * size) 2) ;;
   forE (fun i => with_stabgen (i, 0) GA (fun s =>
           forE (fun di => edge_to (i + di, 0) s FZ) [-1; 1])) (zrange 1 (2 * size - 2) 2) ;;
   with_logical (size - 1, 1) "X" (fun x =>
   forE (fun i => edge_to (i, 0) x FX) (zrange 0 (2 * size) 2) ;;
   with_logical (2 * size - 1, 0) "Z" (fun z =>
   edge_to (2 * size - 2, 0) z FZ ;;
   modify assign_indices)))%Z.
Definition repetition_lattice (size : Z) : Res lattice :=
  if negb (size mod 2 =? 1)%Z then Err ValueError
  else construct (2 * size, 2)%Z (repetition_body size).

(** latticeinstances.py:91, 159 and 212: the default edge orders. *)
Definition nwes : list pos := [(0, 1); (-1, 0); (1, 0); (0, -1)]%Z.
Definition diagonal_order : list pos := [(1, 1); (-1, 1); (1, -1); (-1, -1)]%Z.
(** latticeinstances.py:124, 185. *)
Definition cross : list pos := [(0, 1); (0, -1); (1, 0); (-1, 0)]%Z.

(** latticeinstances.py:126-133. *)
Definition torus (m q : Z) : Z := let q1 := (if q =? 0 then m else q)%Z in if (m <? q1)%Z then 1%Z else q1.
(** latticeinstances.py:88-145 ToricCodeLattice. *)
Definition toric_body (size : Z) (order : list pos) : eff :=
  (forE (fun i => forE (fun j =>
     let i_ := i + 1 in
     let j_ := j + 1 in
     if negb (i_ mod 2 =? j_ mod 2) then add_data (i_, j_)
     else if j_ mod 2 =? 0 then add_stabgen (i_, j_) GA
     else add_stabgen (i_, j_) GB) (zrange 0 (2 * size) 1)) (zrange 0 (2 * size) 1) ;;
   let m := 2 * size in
   for_stabs (fun s p g =>
     forE (fun d => edge_to (torus m (fst p + fst d), torus m (snd p + snd d)) s (group_factor g)) cross) ;;
   with_logical (0, size) "X" (fun x1 =>
   with_logical (size, m + 1) "Z" (fun z1 =>
   with_logical (size, 0) "X" (fun x2 =>
   with_logical (m + 1, size) "Z" (fun z2 =>
   forE (fun i =>
     edge_to (1, 2 * i + 2) x1 FX ;;
     edge_to (2 * i + 1, m) z1 FZ ;;
     edge_to (2 * i + 2, 1) x2 FX ;;
     edge_to (m, 2 * i + 1) z2 FZ) (zrange 0 size 1) ;;
   assign_stab_edge_order order ;;
   modify assign_indices)))))%Z.
Definition toric_lattice (size : Z) (order : list pos) : Res lattice :=
  construct (2 * size + 2, 2 * size + 2)%Z (toric_body size order).

(** latticeinstances.py:156-197 PlanarCodeLattice. *)
Definition planar_body (size : Z) (order : list pos) : eff :=
  (forE (fun i => forE (fun j =>
     if i mod 2 =? j mod 2 then add_data (i, j)
     else if j mod 2 =? 0 then add_stabgen (i, j) GA
     else add_stabgen (i, j) GB) (zrange 0 (2 * size - 1) 1)) (zrange 0 (2 * size - 1) 1) ;;
   let m := 2 * size - 2 in
   for_stabs (fun s p g =>
     forE (fun d =>
       let qi := fst p + fst d in
       let qj := snd p + snd d in
       if (qi <? 0) || (qj <? 0) || (m <? qi) || (m <? qj) then skip
       else edge_to (qi, qj) s (group_factor g)) cross) ;;
   with_logical (m + 1, size - 1) "X" (fun x =>
   with_logical (size - 1, m + 1) "Z" (fun z =>
   forE (fun i =>
     edge_to (m, 2 * i) x FX ;;
     edge_to (2 * i, m) z FZ) (zrange 0 size 1) ;;
   assign_stab_edge_order order ;;
   modify assign_indices)))%Z.
Definition planar_lattice (size : Z) (order : list pos) : Res lattice :=
  construct (2 * size, 2 * size)%Z (planar_body size order).

(** latticeinstances.py:246. *)
Definition corners : list (factor * pos) := [(FX, (1, 1)); (FZ, (1, -1)); (FZ, (-1, 1)); (FX, (-1, -1))]%Z.
(** latticeinstances.py:266-284 inverted_order. *)
Definition invert_edge (e : edge) : eff := fun l =>
  if negb (is_stab (l_heap l (e_op e))) then (l, None)
  else
    let p := v_pos (l_heap l (e_op e)) in
    if negb ((fst p + snd p) mod 4 =? 0)%Z then (l, None)
    else match e_time e with
         | Some 1 => (set_time e 2 l, None)
         | Some 2 => (set_time e 1 l, None)
         | _ => (l, None)
         end.
Definition inverted_order : eff := fun l => forE invert_edge (l_edges l) l.
(** latticeinstances.py:208-264 RotatedPlanarCodeLattice. *)
Definition rotated_body (size : Z) (xzzx : bool) (order : list pos) : eff :=
  (forE (fun i => forE (fun j => add_data (i, j)) (zrange 1 (2 * size) 2)) (zrange 1 (2 * size) 2) ;;
   forE (fun i => forE (fun j =>
     if (i / 2) mod 2 =? (j / 2) mod 2 then add_stabgen (i, j) GA else add_stabgen (i, j) GB)
       (zrange 2 (2 * size) 2)) (zrange 2 (2 * size) 2) ;;
   let odd := size mod 2 in
   forE (fun i => add_stabgen (0, i) GA ;; add_stabgen (2 * size, i - odd * 2) GA) (zrange 4 (2 * size) 4) ;;
   forE (fun i => add_stabgen (i, 0) GB ;; add_stabgen (i + odd * 2, 2 * size) GB) (zrange 2 (2 * size) 4) ;;
   let data_max := 2 * size - 1 in
   for_stabs (fun s p g =>
     forE (fun pd : factor * pos =>
       let qi := fst p + fst (snd pd) in
       let qj := snd p + snd (snd pd) in
       let f := if xzzx then fst pd else group_factor g in
       if (1 <=? qi) && (qi <=? data_max) && (1 <=? qj) && (qj <=? data_max) then edge_to (qi, qj) s f else skip) corners) ;;
   let mid := size + odd - 1 in
   with_logical (mid, 0) "X" (fun vx =>
   with_logical (0, mid) "Z" (fun vz =>
   forE (fun i =>
     let regular := negb xzzx || ((i / 2) mod 2 =? 0) in
     edge_to (i, 1) vx (if regular then FX else FZ) ;;
     edge_to (1, i) vz (if regular then FZ else FX)) (zrange 1 (2 * size) 2) ;;
   assign_stab_edge_order order ;;
   inverted_order ;;
   modify assign_indices)))%Z.
Definition rotated_lattice (size : Z) (xzzx : bool) (order : list pos) : Res lattice :=
  construct (2 * size + 1, 2 * size + 1)%Z (rotated_body size xzzx order).

(** latticebase.py:946-953 _add_edges_from_str. *)
Definition factor_of_name (c : ascii) : option factor :=
  if Ascii.eqb c "X" then Some FX else if Ascii.eqb c "Y" then Some FY else if Ascii.eqb c "Z" then Some FZ else None.
Fixpoint edges_from_letters (q : nat) (s : string) (op : nat) : eff :=
  match s with
  | EmptyString => skip
  | String c s' =>
      (if Ascii.eqb c "I" then skip
       else (fun l => match lookup l (Z.of_nat q, 1%Z) with
                      | Err e => (l, Some e)
                      | Ok x =>
                          match factor_of_name c with
                          | None => (l, Some AttributeError)
                          | Some f => edge_to (Z.of_nat q, 1%Z) op f l
                          end
                      end)) ;;
      edges_from_letters (S q) s' op
  end.
Definition add_edges_from_str (n : nat) (op : nat) (s : string) : eff :=
  match s with
  | EmptyString => raise IndexError
  | String c r =>
      let body := if is_sign c then r else s in
      if String.length body =? n then edges_from_letters 0 body op else raise AssertionError
  end.
(** latticebase.py:941. *)
Definition logical_name (i : nat) : string :=
  ((if Nat.even i then "X" else "Z") ++ show_int (Z.of_nat (i / 2)))%string.
Fixpoint enumerate_from {A} (n : nat) (l : list A) : list (nat * A) :=
  match l with [] => [] | a :: l' => (n, a) :: enumerate_from (S n) l' end.
(** latticebase.py:898-944 CodeLatticeFromStab with all three arguments. *)
Definition from_stab_body (n : nat) (stabs logs : list string) : eff :=
  forE (fun i => add_data (Z.of_nat i, 1%Z)) (seq 0 n) ;;
  forE (fun ix => with_stabgen (Z.of_nat (fst ix), 0%Z) GU (fun s => add_edges_from_str n s (snd ix))) (enumerate_from 0 stabs) ;;
  forE (fun ix => with_logical (Z.of_nat (fst ix), 2%Z) (logical_name (fst ix)) (fun s => add_edges_from_str n s (snd ix))) (enumerate_from 0 logs) ;;
  modify assign_indices.
Definition from_stab_lattice (n : nat) (stabs logs : list string) : Res lattice :=
  construct (Z.of_nat n, 3%Z) (from_stab_body n stabs logs).
(** latticeinstances.py:12-24 FiveQubitCodeLattice. *)
Definition five_qubit_lattice : Res lattice :=
  from_stab_lattice 5 ["XZZXI"; "IXZZX"; "XIXZZ"; "ZXIXZ"] ["XXXXX"; "ZZZZZ"].
(** latticeinstances.py:27-46 ShorCodeLattice. *)
Definition shor_lattice : Res lattice :=
  from_stab_lattice 9
    ["ZZIIIIIII"; "IZZIIIIII"; "XXXXXXIII"; "IIIZZIIII"; "IIIIZZIII"; "IIIXXXXXX"; "IIIIIIZZI"; "IIIIIIIZZ"]
    ["ZZZZZZZZZ"; "XXXXXXXXX"].

(** * codes/__init__.py *)
(** codes/__init__.py:78-102 the attributes of StabilizerCode, 280-283 of LatticeCode. *)
Record stabcode := mkStabcode { c_stabs : list row; c_logicals : list row }.
Record code := mkCode { c_ops : stabcode; c_lattice : lattice; c_rounds : Z }.
(** codes/__init__.py:78-102 __init__. *)
Definition make_stabcode (stabs logicals : list row) : Res stabcode :=
  match stabs with
  | [] => Err IndexError
  | s :: _ =>
      if negb (List.length logicals mod 2 =? 0) then Err AssertionError
      else match logicals with
           | [] => Err IndexError
           | g :: _ => if List.length (ops s) =? List.length (ops g) then Ok (mkStabcode stabs logicals) else Err AssertionError
           end
  end.
(** codes/__init__.py:99-102: logical_ops[::2] and logical_ops[1::2]. *)
Fixpoint evens {A} (l : list A) : list A := match l with x :: l' => x :: (match l' with _ :: l'' => evens l'' | [] => [] end) | [] => [] end.
Definition logical_x (c : stabcode) : list row := evens (c_logicals c).
Definition logical_z (c : stabcode) : list row := evens (tl (c_logicals c)).
(** codes/__init__.py:131-159. *)
Definition n_logical_ops (c : stabcode) : nat := List.length (c_logicals c).
Definition n_logical_qubits (c : stabcode) : nat := List.length (c_logicals c) / 2.
Definition n_stabgens (c : stabcode) : nat := List.length (c_stabs c).
Definition n_data_qubits (c : stabcode) : nat := nqubits (c_stabs c).
Definition n_ext_qubits (c : stabcode) : nat := n_data_qubits c + n_stabgens c + n_logical_ops c.
(** codes/__init__.py:161-171 from_codelattice. *)
Definition from_codelattice (l : lattice) : Res stabcode :=
  do s <- stabilisers l; do g <- logical_operators l; make_stabcode s g.

(** np.all(commutator_sign(a, b) == 0) and == np.eye(n): pauli.py:167-243 gives the matrix of
    all pairs (squeezed; numpy broadcasting undoes the squeezing here). *)
Definition all_commute (a b : list row) : bool := forallb (fun x => forallb (fun y => negb (commutator_sign x y)) b) a.
Definition all_conjugate (a b : list row) : bool :=
  forallb (fun ix : nat * row => forallb (fun jy : nat * row => Bool.eqb (commutator_sign (snd ix) (snd jy)) (fst ix =? fst jy))
     (enumerate_from 0 b)) (enumerate_from 0 a).
(** codes/__init__.py:173-207 check (the rank test is commented out). *)
Definition check (c : stabcode) : Res unit :=
  if negb (all_conjugate (logical_x c) (logical_z c)) then Err AssertionError
  else if negb (all_commute (logical_x c) (logical_x c)) then Err AssertionError
  else if negb (all_commute (logical_z c) (logical_z c)) then Err AssertionError
  else if negb (all_commute (c_stabs c) (c_logicals c)) then Err AssertionError
  else if negb (all_commute (c_stabs c) (c_stabs c)) then Err AssertionError
  else Ok tt.

(** codes/__init__.py:209-249 logical_ops_to_indices. *)
Fixpoint letters_to_indices (q : nat) (s : string) : Res (list Z) :=
  match s with
  | EmptyString => Ok []
  | String a s' =>
      do k <- (if Ascii.eqb a "X" then Ok 0%Z else if Ascii.eqb a "Z" then Ok 1%Z else Err ValueError);
      do ks <- letters_to_indices (S q) s';
      Ok ((2 * Z.of_nat q + k)%Z :: ks)
  end.
Inductive logical_spec := LogLetters (s : string) | LogIndices (l : list Z).
Definition logical_ops_to_indices (c : stabcode) (x : logical_spec) : Res (list nat) :=
  do idx <- match x with LogLetters s => letters_to_indices 0 s | LogIndices l => Ok l end;
  if negb (List.length idx =? n_logical_qubits c) then Err ValueError
  else if existsb (fun i => (i <? 0) || (Z.of_nat (n_logical_ops c) <=? i))%Z idx then Err ValueError
  else Ok (map Z.to_nat idx).

(** codes/__init__.py:105-129 __eq__ for two codes.  The comparison of rows of different
    lengths depends on the version of numpy and is outside of the model. *)
Definition row_eqb (a b : row) : Res bool :=
  if List.length (ops a) =? List.length (ops b) then
    Ok (forallb (fun xy => Bool.eqb (fst xy) (snd xy)) (combine (row_bits a) (row_bits b)))
  else Err Unmodelled.
Definition rows_eqb (a b : list row) : Res bool :=
  do bs <- mapR (fun xy => row_eqb (fst xy) (snd xy)) (combine a b); Ok (forallb (fun x => x) bs).
Definition code_eqb (a b : stabcode) : Res bool :=
  do s <- rows_eqb (c_stabs a) (c_stabs b);
  if s then rows_eqb (c_logicals a) (c_logicals b) else Ok false.

(** codes/__init__.py:273-283 LatticeCode.__init__. *)
Definition make_code (lat : Res lattice) (n_rounds : Z) : Res code :=
  do l <- lat; do c <- from_codelattice l; Ok (mkCode c l n_rounds).
(** codes/__init__.py:318-380: the class methods. *)
Definition make_five_qubit (n_rounds : Z) : Res code := make_code five_qubit_lattice n_rounds.
Definition make_toric (n_rounds size : Z) : Res code := make_code (toric_lattice size nwes) n_rounds.
Definition make_planar (n_rounds size : Z) : Res code := make_code (planar_lattice size nwes) n_rounds.
Definition make_repetition (n_rounds size : Z) : Res code := make_code (repetition_lattice size) n_rounds.
Definition make_rotated_planar (n_rounds size : Z) (xzzx : bool) : Res code :=
  make_code (rotated_lattice size xzzx diagonal_order) n_rounds.
Definition make_shor (n_rounds : Z) : Res code := make_code shor_lattice n_rounds.
(** codes/__init__.py:294-316 from_operators. *)
Definition from_operators (stabs logicals : list row) (n_rounds : Z) : Res code :=
  match stabs with
  | [] => Err IndexError
  | s :: _ =>
      make_code (from_stab_lattice (List.length (ops s)) (map (fun r => pauli_to_string r true) stabs)
                   (map (fun r => pauli_to_string r true) logicals)) n_rounds
  end.
(** codes/__init__.py:285-292 apply_fabrication_errors: the operators are not recomputed. *)
Definition code_apply_fabrication_errors qubits gates stabs keep_gauge join (c : code) : code * option exn :=
  let '(l, e) := apply_fabrication_errors qubits gates stabs keep_gauge join (c_lattice c) in
  (mkCode (c_ops c) l (c_rounds c), e).
