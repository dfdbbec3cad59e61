(** C86: generated files of qubit errors. *)
Require Import String List Bool Arith ZArith QArith Lia.
From Verif Require Import Base BaseProofs PauliModel CircuitModel LatticeModel LatticeSpec CodesModel GeneratorModel WeightsModel TablesModel TablesSpec TablesProofs TablesQubits TablesLattice
  FrontendModel InstantiateModel InstantiateTable SaveModel SaveProofs EmptyFileModel.
Import ListNotations.
Local Open Scope string_scope.
Local Open Scope nat_scope.
Local Open Scope list_scope.

(** A table which is written without its index is loaded as it is, with all columns enabled. *)
Theorem C86_columns t : well_formed t -> (forall n, In n (map fst (qt_cols t)) -> ~ In n ["qubit_id"; "qubit_type"]) ->
  load_qubits (columns_file t) = Ok (mkErrorData t [] (map fst (qt_cols t)) []).
Proof.
  intros W P. unfold load_qubits. rewrite read_distinct.
  - cbn [bindR]. unfold columns_file. change (file_get "qubit_id" _) with (Some (Ints (map fst (qt_rows t)))). change (file_get "qubit_type" _) with (Some (Texts (map snd (qt_rows t)))). cbv iota.
    cbn [skipn]. rewrite map_map. cbn [fst]. f_equal. f_equal. destruct t as [rows cols]. cbn [qt_rows qt_cols] in *. f_equal.
    + clear. induction rows as [|[q ty] l IH]; cbn [map combine fst snd]; [auto|]. rewrite IH. auto.
    + unfold number_columns. cbn [flat_map fst snd]. change (mem_str "qubit_id" ["qubit_id"; "qubit_type"]) with true. change (mem_str "qubit_type" ["qubit_id"; "qubit_type"]) with true. cbn [app].
      clear W. induction cols as [|[n vs] l IH]; cbn [map flat_map fst snd]; [auto|]. rewrite (proj2 (mem_str_out n _)) by (apply P; left; auto). cbn [app]. f_equal. apply IH. intros m I. apply P. right. auto.
  - unfold columns_file. cbn [map fst]. rewrite map_map. cbn [fst]. constructor; [|constructor; [|apply W]].
    + intros [X|X]; [discriminate|]. apply (P _ X). cbn. auto.
    + intros X. apply (P _ X). cbn. auto.
  - intros ? _ [].
Qed.
Print Assumptions C86_columns.
(** The generated file of a lattice: all data qubits and ancillas in order, zeros, and exactly the given errors are enabled. *)
Theorem C86_generated l names : consistent l -> indexed l -> l_stabs l <> [] -> NoDup names -> (forall n, In n names -> In n ["X"; "Y"; "Z"; "erasure"; "measurement"]) ->
  exists f d, empty_file l (Some names) = Ok f /\ load_qubits f = Ok d /\ well_formed (ed_qubits d) /\ ed_qon d = names /\
    qt_rows (ed_qubits d) = standard_rows (length (l_data l)) (length (l_stabs l)) /\
    (forall n q v, holds (ed_qubits d) n q v <-> In n names /\ v = 0%Q /\ exists k, q = Z.of_nat k /\ k < length (l_data l) + length (l_stabs l)).
Proof.
  intros C X N ND S. destruct (lattice_rows_some l C X N) as [RN RD].
  set (t := mkTable (lattice_rows l) (map (fun n => (n, repeat 0%Q (List.length (lattice_rows l)))) names)).
  assert (NM : map fst (qt_cols t) = names) by (unfold t; cbn [qt_cols]; rewrite map_map; cbn [fst]; apply map_id).
  assert (W : well_formed t).
  { constructor; [exact RN|exact RD|rewrite NM; exact ND|]. unfold t. cbn [qt_cols qt_rows]. intros n vs I. apply in_map_iff in I as (m & [= _ <-] & _). apply repeat_length. }
  assert (E : empty_qubit_errors l (Some names) = Ok t).
  { unfold empty_qubit_errors. replace (forallb _ names) with true; [reflexivity|]. symmetry. apply forallb_forall. intros n I. apply S in I. destruct I as [<-|[<-|[<-|[<-|[<-|[]]]]]]; reflexivity. }
  exists (columns_file t), (mkErrorData t [] names []). split; [unfold empty_file; rewrite E; reflexivity|]. split.
  { rewrite C86_columns; [rewrite NM; reflexivity|exact W|]. rewrite NM. intros n I J. apply S in I. destruct J as [<-|[<-|[]]]; repeat (destruct I as [I|I]; [discriminate|]); destruct I. }
  cbn [ed_qubits ed_qon]. split; [exact W|]. split; [reflexivity|]. split; [apply lattice_rows_ok; auto|].
  intros n q v. unfold holds, t. cbn [qt_rows qt_cols]. rewrite (lattice_rows_ok l C X). unfold standard_rows. set (nd := length (l_data l)). set (ns := length (l_stabs l)). rewrite map_length, seq_length. split.
  - intros (i & ty & vs & A & B & F). apply in_map_iff in B as (m & [= <- <-] & I). split; [exact I|]. split; [apply nth_error_In, repeat_spec in F; auto|].
    apply nth_error_In, in_map_iff in A as (k & [= <- _] & K). apply in_seq in K. exists k. split; [auto|lia].
  - intros (I & -> & k & -> & K). exists k, (if k <? nd then "data" else "stab"), (repeat 0%Q (nd + ns)). split; [|split].
    + erewrite map_nth_error; [reflexivity|]. rewrite (nth_error_nth' _ 0) by (rewrite seq_length; auto). rewrite seq_nth by auto. reflexivity.
    + apply in_map_iff. exists n. auto.
    + rewrite (nth_error_nth' _ 0%Q) by (rewrite repeat_length; auto). f_equal. apply nth_repeat.
Qed.
Print Assumptions C86_generated.
(** Other names are refused. *)
Theorem C86_names l names : (exists n, In n names /\ ~ In n ["X"; "Y"; "Z"; "erasure"; "measurement"; "fabrication"]) -> empty_file l (Some names) = Err ValueError.
Proof.
  intros (n & I & O). unfold empty_file, empty_qubit_errors. replace (forallb _ names) with false; [reflexivity|]. symmetry. apply not_true_iff_false. intros F. rewrite forallb_forall in F. apply F in I.
  apply mem_str_out in O. congruence.
Qed.
Print Assumptions C86_names.
(** The example of the docstring (278-296) without the column of texts, and the names which are taken if there are none. *)
Example C86_example :
  (do cd <- make_five_qubit 1; do f <- empty_file (c_lattice cd) (Some ["X"; "measurement"]); do d <- load_qubits f; Ok (map fst f, qt_rows (ed_qubits d), qt_cols (ed_qubits d), ed_qon d)) =
    Ok (["qubit_id"; "qubit_type"; "X"; "measurement"],
        [(0, "data"); (1, "data"); (2, "data"); (3, "data"); (4, "data"); (5, "stab"); (6, "stab"); (7, "stab"); (8, "stab")]%Z,
        [("X", [0; 0; 0; 0; 0; 0; 0; 0; 0]); ("measurement", [0; 0; 0; 0; 0; 0; 0; 0; 0])]%Q, ["X"; "measurement"]) /\
  (do cd <- make_five_qubit 1; do f <- empty_file (c_lattice cd) None; Ok (map fst f)) = Ok ["qubit_id"; "qubit_type"; "X"; "Y"; "Z"] /\
  (do cd <- make_five_qubit 1; empty_file (c_lattice cd) (Some ["x"])) = Err ValueError.
Proof. vm_compute. auto. Qed.
