(** C84: overwriting the table of qubit errors. *)
Require Import String List Bool Arith ZArith QArith Lia.
From Verif Require Import Base BaseProofs PauliModel CircuitModel LatticeModel GeneratorModel WeightsModel TablesModel TablesSpec TablesProofs TablesQubits OverwriteModel OverwriteProofs.
Import ListNotations.
Local Open Scope string_scope.
Local Open Scope nat_scope.
Local Open Scope list_scope.

(** A file which has the qubits 0, 1, 2 and so on in this order gives the errors of its table. *)
Theorem C84_in_order file d : map fst (qt_rows file) = map Z.of_nat (seq 0 (length (qt_rows file))) ->
  overwritten_errors file d = qubit_errors_dict (mkErrorData file (ed_gates d) (ed_qon d) (ed_gon d)).
Proof.
  intros H. unfold overwritten_errors, overwrite_qubits. rewrite <- (by_position (mkErrorData file (ed_gates d) (ed_qon d) (ed_gon d))). apply by_same. intros q. cbn [ed_qubits]. apply numbered_position. auto.
Qed.
Print Assumptions C84_in_order.
(** Other files do not, although they are tables like those which are accepted elsewhere: with a qubit whose number is too large
    for the number of rows, as in each file which leaves out qubits but not the last one, the errors cannot be read. *)
Theorem C84_some_refuted file d q name : In q (map fst (qt_rows file)) -> (Z.of_nat (length (qt_rows file)) <= q)%Z ->
  In name (ed_qon d) -> In name ["X"; "Y"; "Z"; "erasure"; "measurement"] -> overwritten_errors file d = Err KeyError.
Proof.
  intros I L N K. unfold overwritten_errors, qubit_errors_by, overwrite_qubits. cbn [ed_qubits ed_qon]. destruct (qt_rows file) as [|r l] eqn:E; [destruct I|]. rewrite <- E in *.
  apply (missing_fails file q); auto. exists name. split; [auto|]. apply mem_str_in. auto.
Qed.
Print Assumptions C84_some_refuted.
(** With the qubits in another order, qubits get the numbers of others, and an ancilla may be taken for a data qubit. *)
Definition ow_data : error_data := mkErrorData (mkTable [(0%Z, "data"); (1%Z, "data"); (2%Z, "stab")] [("X", [1 # 10; 1 # 10; 0]%Q)]) [] ["X"] [].
Definition ow_file : qubit_table := mkTable [(2%Z, "stab"); (0%Z, "data"); (1%Z, "data")] [("X", [0; 1 # 5; 1 # 3]%Q)].
Definition ow_pauli (r : Res errors) : Res (list (Z * list (string * Q))) := do e <- r; Ok (er_pauli e).
Theorem C84_order_refuted :
  well_formed ow_file /\ typed ow_file ["stab"] 2%Z /\ holds ow_file "X" 1%Z (1 # 3) /\
  ow_pauli (overwritten_errors ow_file ow_data) = Ok [(2%Z, [("x", 1 # 3)]); (1%Z, [("x", 1 # 5)])]%Q /\
  ow_pauli (qubit_errors_dict (overwrite_qubits ow_file ow_data)) = Ok [(0%Z, [("x", 1 # 5)]); (1%Z, [("x", 1 # 3)])]%Q.
Proof.
  split; [|split; [|split; [|vm_compute; auto]]].
  - split; [discriminate| | |]; cbn.
    + repeat constructor; cbn; intuition discriminate.
    + repeat constructor; cbn; intuition discriminate.
    + intros n vs [[= <- <-]|[]]. reflexivity.
  - exists "stab". cbn. auto.
  - exists 2, "data", [0; 1 # 5; 1 # 3]%Q. cbn. auto.
Qed.
Print Assumptions C84_order_refuted.
Example C84_example :
  ow_pauli (overwritten_errors (mkTable [(0%Z, "data"); (1%Z, "data"); (2%Z, "stab")] [("X", [1 # 5; 1 # 3; 0]%Q)]) ow_data) = Ok [(0%Z, [("x", 1 # 5)]); (1%Z, [("x", 1 # 3)])]%Q /\
  overwritten_errors (mkTable [(1%Z, "data")] [("X", [1 # 5]%Q)]) ow_data = Err KeyError /\
  overwritten_errors (mkTable [(0%Z, "data")] [("Y", [1 # 5]%Q)]) ow_data = Err KeyError.
Proof. vm_compute. auto. Qed.
