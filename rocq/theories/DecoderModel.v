(** Model of the decoder interfaces (/repo/src/plaquette/decoders/decoderbase.py and
    unionfind_interfaces.py).

    Simplifications:
    - warnings are not modelled;
    - a decoder for a component keeps the position of the component in [components] instead of
      a reference to the object;
    - [fuel] is passed to the union-find decoder (UnionFindModel.v). *)
Require Import List Bool Arith ZArith QArith Lia.
From Verif Require Import Base PauliModel ErasureModel UnionFindModel SyngraphModel CodesModel.
Import ListNotations.
Open Scope nat_scope.

(** decoderbase.py 28-75 [check_weights_sane]. *)
Definition check_weights_sane (weights : option (list weight)) : Res bool :=
  match weights with
  | None => Ok true
  | Some ws =>
      if existsb is_nan ws then Err ValueError
      else if existsb (fun w => wlt w (Fin 0)) ws then Err ValueError
      else Ok (negb (existsb (fun w => weqb w (Fin 0)) ws) && negb (existsb is_inf ws))
  end.

(** decoderbase.py 78-139 [check_success].  [commutator_sign] of the operators with the
    correction; [count_qubits(correction)[0]] is its number of qubits.  Codes without logical
    operators are outside of the model ([commutator_sign] of an empty list). *)
Definition check_success (c : stabcode) (correction : row) (toggle : list bool) (logical_ops : option logical_spec) : Res bool :=
  do log_ops <-
    match logical_ops with
    | None => Ok (c_logicals c)
    | Some s => do is <- logical_ops_to_indices c s; mapR (get (c_logicals c)) is
    end;
  do _ <- assertR (length log_ops =? length toggle);
  do _ <- assertR (length (ops correction) =? n_data_qubits c);
  match log_ops with
  | [] => Err Unmodelled
  | _ => Ok (forallb (fun tb : bool * bool => Bool.eqb (fst tb) (snd tb))
               (combine toggle (map (fun l => commutator_sign l correction) log_ops)))
  end.

(** unionfind_interfaces.py 79-111: the two classes of decoders for components. *)
Inductive ufclass := NoWeights | Weights.

(** unionfind_interfaces.py 25-34: class [UnionFindBase]: component and decoder. *)
Record compdec := mkCompdec { d_comp : nat; d_uf : ugraph }.

(** Floats as rationals (unionfind_decoder.py 609); infinite weights have no model there. *)
Definition finite (w : weight) : Res Q := match w with Fin q => Ok q | _ => Err Unmodelled end.

(** unionfind_decoder.py 597-615, 709-717 [set_weights] of a new object of the class. *)
Definition decoder_set_weights (cls : ufclass) (weights : option (list weight)) (u : ugraph) : Res ugraph :=
  match weights with
  | None => Ok (unset_weights false u)
  | Some ws =>
      do qs <- mapR finite ws;
      match cls with
      | Weights => set_weights 2 qs u
      | NoWeights => do _ <- min_nonzero qs; Err ValueError
      end
  end.

(** unionfind_interfaces.py 41-55 [set_syngraph] for component [c]. *)
Definition new_decoder (cls : ufclass) (c : nat) (k : comp) : Res compdec :=
  do u <- new_ugraph (k_n k) (k_edges k);
  do b <- is_weighted false k;
  do u <- (if b then
             do _ <- check_weights_sane (Some (k_wt k));
             decoder_set_weights cls (Some (k_wt k)) u
           else decoder_set_weights cls None u);
  Ok (mkCompdec c u).

(** decoderbase.py 186-200, 273-297: [ComponentDecoder] and [DecoderInterface], the graph and
    the decoders of its components. *)
Record decoder := mkDecoder { dc_graph : sgraph; dc_decs : list compdec }.

(** decoderbase.py 212-223 [ComponentDecoder.set_syngraph], called by the constructor (288-297)
    of [DecoderInterface]; syngraph/__init__.py 824-826 [components_with_edges]. *)
Definition new_interface (cls : ufclass) (g : sgraph) : Res decoder :=
  do ds <- mapR (fun ck : nat * comp => new_decoder cls (fst ck) (snd ck))
             (filter (fun ck => has_edges (snd ck)) (combine (seq 0 (length (sg_comps g))) (sg_comps g)));
  Ok (mkDecoder g ds).

(** decoderbase.py 239-255: body of the loop of [_check_decodable]. *)
Definition check_component (k : comp) : Res unit :=
  if length (k_edges k) =? 0 then
    do _ <- assertR (k_n k =? 1);
    do _ <- assertR (length (k_syn k) =? 1);
    do b <- get (k_syn k) 0;
    if b then Err ValueError else Ok tt
  else if negb (k_dang k) && Nat.odd (length (filter (fun b => b) (k_syn k))) then Err ValueError
  else Ok tt.

(** decoderbase.py 232-255 [_check_decodable]. *)
Definition check_decodable (g : sgraph) : Res unit :=
  foldR (fun _ k => check_component k) (sg_comps g) tt.

(** unionfind_interfaces.py 69-76 [decode]: the decoder reads erasure and syndrome of its
    component and stores the result there. *)
Definition decode_component (fuel : nat) (g : sgraph) (d : compdec) : Res (sgraph * compdec) :=
  do k <- get (sg_comps g) (d_comp d);
  do er <- (match k_erased k with Some er => Ok er | None => Err AttributeError end);
  do r <- uf_decode fuel (nonzero er) (k_syn k) (d_uf d);
  do g <- set_results (d_comp d) (snd r) g;
  Ok (g, mkCompdec (d_comp d) (fst r)).

(** decoderbase.py 269-270: the loop over the decoders. *)
Definition decode_loop (fuel : nat) (ds : list compdec) (s : sgraph * list compdec) : Res (sgraph * list compdec) :=
  foldR (fun (s : sgraph * list compdec) d =>
           do r <- decode_component fuel (fst s) d; Ok (fst r, snd s ++ [snd r])) ds s.

(** decoderbase.py 257-270 [ComponentDecoder.decode]. *)
Definition decode_components (fuel : nat) (er : option (list (list bool))) (syn : list (list bool)) (d : decoder) : Res decoder :=
  do g <- set_erasure er (dc_graph d);
  do g <- set_syndrome (Some syn) g;
  do _ <- check_decodable g;
  do r <- decode_loop fuel (dc_decs d) (g, []);
  Ok (mkDecoder (fst r) (snd r)).

(** decoderbase.py 389-425 [DecoderInterface.decode]; syngraph/__init__.py 1132-1144: [update_for_decoding]
    changes nothing. *)
Definition interface_decode (fuel : nat) (er : option (list (list bool))) (syn : list (list bool)) (d : decoder)
  : Res (decoder * row) :=
  do d <- decode_components fuel er syn d;
  do g <- update_results (dc_graph d);
  do fr <- result_frame g;
  Ok (mkDecoder g (dc_decs d), fr).
