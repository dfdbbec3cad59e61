(** Files of qubit errors which are saved and loaded. *)
Require Import String List Bool Arith ZArith QArith Lia.
From Verif Require Import Base BaseProofs PauliModel CircuitModel LatticeModel GeneratorModel WeightsModel TablesModel TablesSpec TablesProofs TablesQubits OverwriteProofs SaveModel.
Import ListNotations.
Local Open Scope string_scope.
Local Open Scope nat_scope.
Local Open Scope list_scope.

Lemma read_distinct f : forall seen, NoDup (map fst f) -> (forall n, In n (map fst f) -> ~ In n seen) -> read_names seen f = Ok f.
Proof.
  induction f as [|[n c] f IH]; intros seen N H; cbn [read_names]; [auto|]. cbn [map fst] in *. apply NoDup_cons_iff in N as [NI N].
  rewrite (proj2 (mem_str_out n seen)) by (apply H; left; auto). cbn [bindR]. rewrite IH; [reflexivity|auto|]. intros m I J. apply in_app_or in J as [J|[<-|[]]]; [apply (H m); [right|]; auto|contradiction].
Qed.
(** Names of columns which do not clash with those of the qubits. *)
Definition plain (t : qubit_table) : Prop := forall n, In n (map fst (qt_cols t)) -> ~ In n ["qubit_id"; "qubit_id.1"; "qubit_type"].
Definition loaded (t : qubit_table) : qubit_table := mkTable (qt_rows t) (("qubit_id.1", map inject_Z (map fst (qt_rows t))) :: qt_cols t).
Lemma load_saved t : NoDup (map fst (qt_cols t)) -> plain t ->
  load_qubits (save_qubits t) = Ok (mkErrorData (loaded t) [] ("qubit_type" :: map fst (qt_cols t)) []).
Proof.
  intros N P. set (fl := map (fun c : string * list Q => (fst c, Floats (snd c))) (qt_cols t)).
  assert (FN : map fst fl = map fst (qt_cols t)) by (unfold fl; rewrite map_map; auto).
  assert (R : read_names [] (save_qubits t) = Ok (("qubit_id", Ints (map fst (qt_rows t))) :: ("qubit_id.1", Ints (map fst (qt_rows t))) :: ("qubit_type", Texts (map snd (qt_rows t))) :: fl)).
  { unfold save_qubits. fold fl. cbn [read_names mem_str existsb]. cbn [bindR app]. change (mem_str "qubit_id" ["qubit_id"]) with true. cbv iota. change ("qubit_id" ++ ".1")%string with "qubit_id.1".
    rewrite (proj2 (mem_str_out "qubit_id.1" _)).
    - cbn [bindR app]. change (mem_str "qubit_type" ["qubit_id"; "qubit_id.1"]) with false. cbv iota. cbn [bindR app].
      rewrite read_distinct; [reflexivity|rewrite FN; auto|]. intros n I J. rewrite FN in I. apply (P n I). exact J.
    - cbn [map fst app]. rewrite FN. cbn [In]. intros [X|[X|X]]; [discriminate|discriminate|]. apply (P _ X). cbn. auto. }
  unfold load_qubits. rewrite R. cbn [bindR skipn map fst]. rewrite FN. change (file_get "qubit_id" _) with (Some (Ints (map fst (qt_rows t)))).
  change (file_get "qubit_type" _) with (Some (Texts (map snd (qt_rows t)))). cbv iota. do 2 f_equal. unfold loaded. f_equal.
  - clear. induction (qt_rows t) as [|[q ty] l IH]; cbn [map combine fst snd]; [auto|]. rewrite IH. auto.
  - unfold number_columns. cbn [flat_map fst snd]. change (mem_str "qubit_id" ["qubit_id"; "qubit_type"]) with true. change (mem_str "qubit_id.1" ["qubit_id"; "qubit_type"]) with false. change (mem_str "qubit_type" ["qubit_id"; "qubit_type"]) with true. cbn [app]. f_equal.
    unfold fl. clear R FN N fl. unfold plain in P. induction (qt_cols t) as [|[n vs] l IH]; cbn [map flat_map fst snd]; [auto|]. rewrite (proj2 (mem_str_out n _)).
    + cbn [app]. f_equal. apply IH. intros m I. apply P. right. auto.
    + intros X. apply (P n); [left; auto|]. cbn in *. intuition.
Qed.
Lemma loaded_error t e n : enabled_error (loaded t) e n = enabled_error t e n.
Proof.
  assert (C : forall m, m <> "qubit_id.1" -> forall d key types, enabled_column (loaded t) types m key d = enabled_column t types m key d).
  { intros m D d key types. assert (CC : column (loaded t) m = column t m).
    { unfold column, loaded. cbn [qt_cols find fst]. destruct (String.eqb_spec "qubit_id.1" m); [congruence|auto]. }
    unfold enabled_column, set_param, cell. rewrite CC. reflexivity. }
  unfold enabled_error. destruct (mem_str n ["X"; "Y"; "Z"]) eqn:E.
  - rewrite C; [auto|]. intros ->. discriminate.
  - destruct (String.eqb_spec n "erasure") as [->|]; [rewrite C by discriminate; auto|]. destruct (String.eqb_spec n "measurement") as [->|]; [rewrite C by discriminate; auto|auto].
Qed.
