(** C85: files of qubit errors which are saved and loaded. *)
Require Import String List Bool Arith ZArith QArith Lia.
From Verif Require Import Base BaseProofs PauliModel CircuitModel LatticeModel GeneratorModel WeightsModel TablesModel TablesSpec TablesProofs TablesQubits OverwriteProofs SaveModel SaveProofs.
Import ListNotations.
Local Open Scope string_scope.
Local Open Scope nat_scope.
Local Open Scope list_scope.

(** A table which has been saved can be loaded, and the result is well-formed: qubits, types and numbers are the same, and the errors are those of the table with
    all columns enabled. *)
Theorem C85_saved t : well_formed t -> (forall n, In n (map fst (qt_cols t)) -> ~ In n ["qubit_id"; "qubit_id.1"; "qubit_type"]) ->
  exists d, load_qubits (save_qubits t) = Ok d /\ well_formed (ed_qubits d) /\ qt_rows (ed_qubits d) = qt_rows t /\
    (forall n q v, In n (map fst (qt_cols t)) -> (holds (ed_qubits d) n q v <-> holds t n q v)) /\
    qubit_errors_dict d = qubit_errors_dict (mkErrorData t [] (map fst (qt_cols t)) []).
Proof.
  intros W P. eexists. split; [apply load_saved; [apply W|exact P]|]. cbn [ed_qubits]. split.
  { constructor; cbn [loaded qt_rows qt_cols map fst]; [apply W|apply W| |].
    - constructor; [|apply W]. intros X. apply (P _ X). cbn. auto.
    - intros n vs [[= _ <-]|I]; [rewrite !map_length; auto|apply (wf_lengths _ W n vs I)]. }
  split; [auto|]. split.
  - intros n q v I. unfold holds, loaded. cbn [qt_rows qt_cols In]. split; intros (i & ty & vs & A & B & F); exists i, ty, vs; (split; [auto|split; [|auto]]); [|auto].
    destruct B as [[= X _]|B]; [|auto]. exfalso. apply (P n I). cbn. auto.
  - unfold qubit_errors_dict. cbn [ed_qubits ed_qon]. change (qt_rows (loaded t)) with (qt_rows t). destruct (qt_rows t); [auto|]. cbn [foldR]. change (enabled_error (loaded t) no_errors "qubit_type") with (Ok no_errors). cbn [bindR]. apply foldR_same. intros. apply loaded_error.
Qed.
Print Assumptions C85_saved.
(** So errors which had been disabled are enabled again, and there is a column more. *)
Definition sv_data (on : list string) : error_data := mkErrorData (mkTable [(0%Z, "data"); (1%Z, "stab")] [("X", [1 # 10; 0]%Q); ("erasure", [1 # 5; 0]%Q)]) [] on [].
Theorem C85_disabled_refuted :
  (do e <- qubit_errors_dict (sv_data ["X"]); Ok (er_erasure e)) = Ok [] /\
  (do d <- load_qubits (save_qubits (ed_qubits (sv_data ["X"]))); do e <- qubit_errors_dict d; Ok (er_erasure e)) = Ok [(0%Z, [("p", 1 # 5)])]%Q /\
  (do d <- load_qubits (save_qubits (ed_qubits (sv_data ["X"]))); Ok (map fst (qt_cols (ed_qubits d)), ed_qon d)) = Ok (["qubit_id.1"; "X"; "erasure"], ["qubit_type"; "X"; "erasure"]).
Proof. vm_compute. auto. Qed.
Print Assumptions C85_disabled_refuted.
Example C85_example :
  save_qubits (ed_qubits (sv_data [])) = [("qubit_id", Ints [0; 1]%Z); ("qubit_id", Ints [0; 1]%Z); ("qubit_type", Texts ["data"; "stab"]); ("X", Floats [1 # 10; 0]%Q); ("erasure", Floats [1 # 5; 0]%Q)] /\
  (do d <- load_qubits (save_qubits (ed_qubits (sv_data []))); qubit_errors_dict d) = qubit_errors_dict (sv_data ["X"; "erasure"]).
Proof. vm_compute. auto. Qed.
