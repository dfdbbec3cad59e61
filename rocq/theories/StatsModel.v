(** Model of the statistics of the syndrome graph (/repo/src/plaquette/syngraph/__init__.py). *)
Require Import String List Bool Arith ZArith.
From Verif Require Import Base CircuitModel SyngraphModel.
Import ListNotations.
Local Open Scope string_scope.
Local Open Scope nat_scope.
Local Open Scope list_scope.

(** The dictionary which [get_statistics] returns. *)
Record statistics := mkStatistics {
  st_vertices : nat; st_edges : nat; st_2_edges : nat; st_1_edges : nat; st_0_edges : nat; st_edges_qubit : nat; st_edges_stab : nat;
  st_edges_disabled : nat; st_vertices_in_comp : list nat; st_edges_in_comp : list nat; st_comp : nat; st_comp_nontrivial : nat; st_comp_trivial : Z }.
(** [sum(cond(edge) for edge in self.edges)] *)
Definition count {A} (f : A -> bool) (l : list A) : nat := length (filter f l).
(** syngraph/__init__.py:1012-1034 [get_statistics]; [components_with_edges] are the components with edges (824-826). *)
Definition get_statistics (g : sgraph) : statistics :=
  let cs := filter has_edges (sg_comps g) in
  mkStatistics (length (sg_verts g)) (length (sg_ends g))
    (count (fun e => length e =? 2) (sg_ends g)) (count (fun e => length e =? 1) (sg_ends g)) (count (fun e => length e =? 0) (sg_ends g))
    (count (fun k => match k with QubitError _ _ _ _ => true | StabError _ _ => false end) (sg_kind g))
    (count (fun k => match k with QubitError _ _ _ _ => false | StabError _ _ => true end) (sg_kind g))
    (count negb (sg_on g)) (map k_n cs) (map (fun k => length (k_edges k)) cs) (length (sg_comps g)) (length cs)
    (Z.of_nat (length (sg_comps g)) - Z.of_nat (length cs))%Z.

(** [str] of a list of integers. *)
Definition show_list (l : list nat) : string := ("[" ++ join ", " (map (fun k => show_int (Z.of_nat k)) l) ++ "]")%string.
(** A line of the text: a name, spaces and a value. *)
Definition nl : string := String (Ascii.ascii_of_nat 10) EmptyString.
Definition stat_line (name value : string) : string := (name ++ value ++ nl)%string.
(** 1036-1057 [format_statistics] *)
Definition format_statistics (g : sgraph) : string :=
  let s := get_statistics g in let n k := show_int (Z.of_nat k) in
  String.concat "" [stat_line "Vertices:            " (n (st_vertices s)); stat_line "Edges:               " (n (st_edges s));
    stat_line "Disabled edges:      " (n (st_edges_disabled s)); nl;
    stat_line "2-edges:             " (n (st_2_edges s)); stat_line "1-edges (dangling):  " (n (st_1_edges s)); stat_line "0-edges (empty):     " (n (st_0_edges s)); nl;
    stat_line "Qubit edges:         " (n (st_edges_qubit s)); stat_line "Stabil. edges:       " (n (st_edges_stab s)); nl;
    stat_line "Vertices in non-triv. components:  " (show_list (st_vertices_in_comp s)); stat_line "Edges in non-triv. components:     " (show_list (st_edges_in_comp s)); nl;
    stat_line "Connected components:    " (n (st_comp s)); stat_line "Non-trivial components:  " (n (st_comp_nontrivial s)); stat_line "Trivial components:      " (show_int (st_comp_trivial s))].
