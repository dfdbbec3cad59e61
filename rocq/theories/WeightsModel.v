(** Model of the weights computed from error data (/repo/src/plaquette/syngraph/weights.py), of
    [SyndromeGraphManager] (syngraph/__init__.py 1077-1144) and of [DecoderInterface.from_code]
    (decoders/decoderbase.py 299-387).

    Simplifications:
    - probabilities are rational numbers and sums and products of them are exact;
    - [-np.log(p / (1 - p))] is a parameter [logw] from probabilities to weights;
    - an empty dictionary counts as a missing one;
    - warnings are not modelled;
    - that several qubits share one dictionary of default values (decoderbase.py 344-348) cannot
      be seen in the model. *)
Require Import List Bool Arith ZArith QArith Lia String.
From Verif Require Import Base PauliModel LatticeModel CodesModel GeneratorModel ErasureModel SyngraphModel DecoderModel.
Import ListNotations.
Local Open Scope string_scope.
Local Open Scope nat_scope.
Local Open Scope list_scope.

(** * weights.py *)
(** 174-177 [_update_p_eff] for one qubit: an effective probability [p] and a source [q]. *)
Definition update_p (q p : Q) : Q := ((1 - q) * p + q * (1 - p))%Q.
(** 174-177 for the arrays. *)
Definition update_p_eff (q p : list Q) : list Q := map (fun qp : Q * Q => update_p (fst qp) (snd qp)) (combine q p).

(** 143, 153, 168: [self.code.lattice.equbits[equbit_idx]]; negative indices do not get past
    [check_against_code]. *)
Definition equbit (l : lattice) (z : Z) : Res vertex :=
  if (z <? 0)%Z then Err Unmodelled else do i <- get (l_equbits l) (Z.to_nat z); Ok (l_heap l i).
(** 146, 158-159, 171-172: assignment to the array element of a vertex.  An index [None] would set
    the whole array. *)
Definition put_at (v : vertex) (p : Q) (a : list Q) : Res (list Q) :=
  match v_index v with Some i => put a i p | None => Err Unmodelled end.

(** 140-146 [_p_meas]. *)
Definition p_meas (l : lattice) (d : dict1) (a : list Q) : Res (list Q) :=
  foldR (fun a (kv : Z * params) =>
           do v <- equbit l (fst kv); do _ <- assertR (is_stab v); put_at v (pget "p" (snd kv)) a) d a.

(** 148-160, 162-173: the arrays [q_x] and [q_z] of [_p_eff_pauli_1] and [_p_eff_erasure]. *)
Definition q_arrays (l : lattice) (fx fz : params -> Q) (d : dict1) (n : nat) : Res (list Q * list Q) :=
  foldR (fun (a : list Q * list Q) (kv : Z * params) =>
           do v <- equbit l (fst kv); do _ <- assertR (is_data v);
           do x <- put_at v (fx (snd kv)) (fst a);
           do z <- put_at v (fz (snd kv)) (snd a);
           Ok (x, z)) d (repeat 0%Q n, repeat 0%Q n).

(** The arrays of a [WeightComputation] (114-128). *)
Record probabs := mkProbabs { p_x_eff : list Q; p_z_eff : list Q; p_measured : list Q }.

(** 148-160 [_p_eff_pauli_1]. *)
Definition p_eff_pauli_1 (l : lattice) (d : dict1) (p : probabs) : Res probabs :=
  do q <- q_arrays l (fun r => pget "x" r + pget "y" r)%Q (fun r => pget "y" r + pget "z" r)%Q d (List.length (p_x_eff p));
  Ok (mkProbabs (update_p_eff (fst q) (p_x_eff p)) (update_p_eff (snd q) (p_z_eff p)) (p_measured p)).
(** 162-173 [_p_eff_erasure]. *)
Definition p_eff_erasure (l : lattice) (d : dict1) (p : probabs) : Res probabs :=
  do q <- q_arrays l (fun r => pget "p" r / 2)%Q (fun r => pget "p" r / 2)%Q d (List.length (p_x_eff p));
  Ok (mkProbabs (update_p_eff (fst q) (p_x_eff p)) (update_p_eff (snd q) (p_z_eff p)) (p_measured p)).

(** 130-138 [_compute_probabs]; [ew] is the class attribute [erasure_weights] (100-102, False). *)
Definition compute_probabs (ew : bool) (l : lattice) (e : errors) (p : probabs) : Res probabs :=
  do p <- (match er_pauli e with [] => Ok p | d => p_eff_pauli_1 l d p end);
  do p <- (if ew then match er_erasure e with [] => Ok p | d => p_eff_erasure l d p end else Ok p);
  match er_measurement e with
  | [] => Ok p
  | d => do m <- p_meas l d (p_measured p); Ok (mkProbabs (p_x_eff p) (p_z_eff p) m)
  end.

(** 104-128 [WeightComputation.__init__]; 91 [supported_errors]. *)
Definition weight_computation (ew : bool) (cd : code) (e : errors) : Res probabs :=
  do _ <- check_against_code (c_lattice cd) e;
  match er_CX e, er_CZ e, er_H e, er_M e, er_R e with
  | [], [], [], [], [] =>
      let n := n_data_qubits (c_ops cd) in
      compute_probabs ew (c_lattice cd) e
        (mkProbabs (repeat 0%Q n) (repeat 0%Q n) (repeat 0%Q (n_stabgens (c_ops cd))))
  | _, _, _, _, _ => Err ValueError
  end.

(** 179-208 [get_edge_probab], [get_edge_weights]. *)
Definition get_edge_weights (logw : Q -> weight) (p : probabs) : warg :=
  mkWarg (WArr (map logw (p_x_eff p))) (WArr (map logw (p_z_eff p))) (WArr (map logw (p_measured p))).

(** * syngraph/__init__.py *)
(** 1099-1130 [SyndromeGraphManager.__init__]: the attribute [sgraph]. *)
Definition new_manager (logw : Q -> weight) (cd : code) (errordata : option errors) (weighted : option bool) (weights : option warg) : Res sgraph :=
  let given := fun A (x : option A) => match x with Some _ => true | None => false end in
  if given _ errordata && given _ weights then Err ValueError
  else
    do w <- (if match weighted with Some b => b | None => given _ errordata || given _ weights end then
               match weights with
               | Some w => Ok (Some w)
               | None =>
                   match errordata with
                   | None => Err ValueError
                   | Some e => do p <- weight_computation false cd e; Ok (Some (get_edge_weights logw p))
                   end
               end
             else Ok None);
    from_code (Z.to_nat (c_rounds cd)) (c_stabs (c_ops cd)) w.

(** * decoderbase.py *)
(** Assignment to a key of a dictionary: new keys go to the end. *)
Definition pset (k : string) (v : Q) (p : params) : params :=
  if existsb (fun kv => String.eqb (fst kv) k) p
  then map (fun kv => if String.eqb (fst kv) k then (k, v) else kv) p else p ++ [(k, v)].
Definition dset (q : nat) (v : params) (d : dict1) : dict1 :=
  if existsb (fun kv => (fst kv =? Z.of_nat q)%Z) d
  then map (fun kv => if (fst kv =? Z.of_nat q)%Z then (Z.of_nat q, v) else kv) d else d ++ [(Z.of_nat q, v)].
Definition set_pauli (d : dict1) (e : errors) : errors :=
  mkErrors d (er_erasure e) (er_measurement e) (er_CX e) (er_CZ e) (er_H e) (er_M e) (er_R e).
Definition set_er_erasure (d : dict1) (e : errors) : errors :=
  mkErrors (er_pauli e) d (er_measurement e) (er_CX e) (er_CZ e) (er_H e) (er_M e) (er_R e).

(** 344-348: 1e-15. *)
Definition tiny : Q := 1 # 1000000000000000.
Definition default_pauli : params := [("x", tiny); ("y", tiny); ("z", tiny)].
(** 365-373: missing and zero probabilities. *)
Definition fill_params (p : params) : params :=
  fold_left (fun p k => if Qeq_bool (pget k p) 0 then pset k tiny p else p) ["x"; "y"; "z"] p.
(** 357-375: the body of the loop. *)
Definition fill_qubit (erasures : bool) (e : errors) (q : nat) : errors :=
  let e := match get1 (er_pauli e) (Some q) with
           | None | Some [] => set_pauli (dset q default_pauli (er_pauli e)) e
           | Some p => set_pauli (dset q (fill_params p) (er_pauli e)) e
           end in
  if erasures then
    match get1 (er_erasure e) (Some q) with
    | None | Some [] => set_er_erasure (dset q [("p", 0%Q)] (er_erasure e)) e
    | _ => e
    end
  else e.
(** 349-375: the error data after the changes, for [n] data qubits. *)
Definition fill_errors (n : nat) (e : errors) : errors :=
  match er_pauli e with
  | [] => set_pauli (map (fun q => (Z.of_nat q, default_pauli)) (seq 0 n)) e
  | _ => fold_left (fill_qubit (match er_erasure e with [] => false | _ => true end)) (seq 0 n) e
  end.
(** 376-382: the error data used if there is none. *)
Definition default_errors (n : nat) : errors :=
  set_pauli (map (fun q => (Z.of_nat q, default_pauli)) (seq 0 n)) no_errors.

(** 299-387 [DecoderInterface.from_code]: the dictionary of the caller afterwards, and the
    decoder. *)
Definition decoder_from_code (logw : Q -> weight) (cls : ufclass) (cd : code) (errordata : option errors) (weighted : option bool)
    (weights : option warg) : option errors * Res decoder :=
  let n := List.length (l_data (c_lattice cd)) in
  let e := match errordata with Some e => fill_errors n e | None => default_errors n end in
  (match errordata with Some _ => Some e | None => None end,
   do g <- new_manager logw cd (Some e) weighted weights; new_interface cls g).
