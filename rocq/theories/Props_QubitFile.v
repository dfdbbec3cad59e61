(** C83: updates of the table of qubit errors. *)
Require Import String List Bool Arith ZArith QArith Lia.
From Verif Require Import Base BaseProofs WeightsModel GeneratorModel TablesModel TablesSpec TablesProofs TablesQubits InstantiateModel QubitFileModel QubitFileProofs.
Import ListNotations.
Local Open Scope string_scope.
Local Open Scope nat_scope.
Local Open Scope list_scope.

(** The file has a number for an error of a qubit. *)
Definition file_gives (c : qubit_csv) (n : string) (q : Z) (v : Q) : Prop :=
  exists file k, In (n, file) (cs_cols c) /\ nth_error (cs_ids c) k = Some q /\ nth_error file k = Some (Some v).

(** Numbers of the file replace those of the table, the others stay; the file adds columns, but no rows. *)
Theorem C83_update_from_csv c d d' : well_formed (ed_qubits d) -> NoDup (map fst (cs_cols c)) -> update_qubits_csv c d = Ok d' ->
  well_formed (ed_qubits d') /\ qt_rows (ed_qubits d') = qt_rows (ed_qubits d) /\
  (forall n, In n (map fst (qt_cols (ed_qubits d'))) <-> In n (map fst (cs_cols c)) \/ In n (map fst (qt_cols (ed_qubits d)))) /\
  ed_gates d' = ed_gates d /\ ed_qon d' = ed_qon d /\ ed_gon d' = ed_gon d /\
  (forall n q v, holds (ed_qubits d') n q v <->
     (In q (map fst (qt_rows (ed_qubits d))) /\ file_gives c n q v) \/
     ((forall w, ~ file_gives c n q w) /\ holds (ed_qubits d) n q v)).
Proof.
  intros W N. unfold update_qubits_csv. destruct (foldR _ _ _) as [t|] eqn:F; cbn [bindR]; [|discriminate]. intros [= <-]. cbn [ed_qubits ed_gates ed_qon ed_gon].
  destruct (merge_ok c (cs_cols c) N _ _ W F) as (W1 & R & C & H). do 6 (split; [auto|]). intros n q v. rewrite H.
  assert (G : forall w, file_gives c n q w <-> exists file, In (n, file) (cs_cols c) /\ cell_given (cs_ids c) file q w).
  { intros w. unfold file_gives, cell_given. split; [intros (f & k & A & B & D); exists f; split; [auto|exists k; auto]|intros (f & A & k & B & D); exists f, k; auto]. }
  rewrite G. apply or_iff_compat_l. apply and_iff_compat_r. split.
  - intros X w Y. apply G in Y as (f & A & B). exact (X f w A B).
  - intros X f w A B. apply (X w). apply G. exists f. auto.
Qed.
Print Assumptions C83_update_from_csv.
(** A file with distinct qubits and known columns raises no exception. *)
Theorem C83_accepted c d : well_formed (ed_qubits d) -> NoDup (map fst (cs_cols c)) -> NoDup (cs_ids c) ->
  (forall n, In n (map fst (cs_cols c)) -> In n (map fst (qt_cols (ed_qubits d)))) -> exists d', update_qubits_csv c d = Ok d'.
Proof. intros W N NI H. destruct (merge_total c (cs_cols c) NI N _ W H) as [t E]. unfold update_qubits_csv. rewrite E. eexists. reflexivity. Qed.
Print Assumptions C83_accepted.
(** Columns which the file adds are not enabled: the errors do not change with them, whatever the numbers are.  (They do if the
    column is enabled.) *)
Definition qf_data (on : list string) : error_data := mkErrorData (mkTable [(0%Z, "data"); (1%Z, "data"); (2%Z, "stab")] [("X", [1 # 10; 1 # 10; 0]%Q)]) [] on [].
Definition qf_file : qubit_csv := mkQubitCsv [2; 0; 1]%Z [("X", [None; Some (1 # 5); None]%Q); ("erasure", [Some 0; Some (1 # 2); Some (1 # 4)]%Q)].
Theorem C83_new_column_refuted : exists d e,
  update_qubits_csv qf_file (qf_data ["X"]) = Ok d /\ qubit_errors_dict d = Ok e /\
  holds (ed_qubits d) "erasure" 0%Z (1 # 2) /\ er_erasure e = [] /\ er_pauli e = [(0%Z, [("x", 1 # 5)]); (1%Z, [("x", 1 # 10)])]%Q /\
  (do d <- update_qubits_csv qf_file (qf_data ["X"; "erasure"]); do e <- qubit_errors_dict d; Ok (er_erasure e)) = Ok [(0%Z, [("p", 1 # 2)]); (1%Z, [("p", 1 # 4)])]%Q.
Proof.
  eexists. eexists. split; [vm_compute; reflexivity|]. split; [vm_compute; reflexivity|]. split; [|vm_compute; auto].
  exists 0, "data", [1 # 2; 1 # 4; 0]%Q. cbn. auto.
Qed.
Print Assumptions C83_new_column_refuted.
(** The method [update] never changes the object: with any table it raises ValueError, whatever it would do with it. *)
Theorem C83_update_refuted A B (merge : A -> error_data -> Res error_data) (append : B -> error_data -> Res error_data) qubits gates d :
  update merge append qubits gates d = match qubits, gates with None, None => Ok d | _, _ => Err ValueError end.
Proof. destruct qubits, gates; reflexivity. Qed.
Print Assumptions C83_update_refuted.
Example C83_example :
  match update_qubits_csv qf_file (qf_data ["X"]) with
  | Ok d => qt_cols (ed_qubits d) = [("X", [1 # 5; 1 # 10; 0]%Q); ("erasure", [1 # 2; 1 # 4; 0]%Q)] /\ ed_qon d = ["X"]
  | Err _ => False end /\
  update_qubits_csv (mkQubitCsv [0; 0]%Z [("X", [None; Some (1 # 5)]%Q)]) (qf_data ["X"]) = Err ValueError /\
  match update_qubits_csv (mkQubitCsv [7; 1]%Z [("X", [Some (1 # 3); Some (1 # 5)]%Q)]) (qf_data ["X"]) with
  | Ok d => qt_cols (ed_qubits d) = [("X", [1 # 10; 1 # 5; 0]%Q)] | Err _ => False end.
Proof. vm_compute. auto. Qed.
