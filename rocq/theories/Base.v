(** Shared definitions: results with Python exceptions as values, list update,
    and the explicit random stream.  Nothing here models a particular function. *)
Require Import List Bool Arith ZArith QArith Lia.
Import ListNotations.

(** Python exceptions as values.  [Unmodelled] is not a Python exception: it marks inputs
    whose behaviour is outside of the model (theorems never claim anything for them). *)
Inductive exn :=
| ValueError | TypeError | IndexError | KeyError | AssertionError | RuntimeError
| NotImplementedError | AttributeError | ZeroDivisionError | StopIteration
| GateNotSupportedError      (* plaquette.circuit.openqasm *)
| NoLogicalOperatorError     (* plaquette.codes.latticebase, a ValueError *)
| FileNotFoundError | NotADirectoryError
| ValidationError            (* jsonschema *)
| Unmodelled.

Inductive Res (A : Type) :=
| Ok (a : A)
| Err (e : exn).
Arguments Ok {A} _.
Arguments Err {A} _.

Definition bindR {A B} (m : Res A) (f : A -> Res B) : Res B :=
  match m with Ok a => f a | Err e => Err e end.

Declare Scope res_scope.
Notation "'do' x <- m ; f" := (bindR m (fun x => f))
  (at level 200, x pattern, m at level 100, f at level 200, right associativity) : res_scope.
Open Scope res_scope.

(** A Python [for] loop over [l] with loop state [s]; an exception ends the loop. *)
Fixpoint foldR {A S} (f : S -> A -> Res S) (l : list A) (s : S) : Res S :=
  match l with
  | [] => Ok s
  | a :: l' => do s' <- f s a; foldR f l' s'
  end.

(** [mapM]: a Python list comprehension whose body may raise. *)
Fixpoint mapR {A B} (f : A -> Res B) (l : list A) : Res (list B) :=
  match l with
  | [] => Ok []
  | a :: l' => do b <- f a; do bs <- mapR f l'; Ok (b :: bs)
  end.

(** Assignment [l[i] = a] for an index known to be in range (no-op otherwise; the
    models check the range before calling it). *)
Fixpoint upd {A} (i : nat) (a : A) (l : list A) : list A :=
  match l, i with
  | [], _ => []
  | _ :: l', O => a :: l'
  | h :: l', S i' => h :: upd i' a l'
  end.

(** One draw from the random generator [plaquette.rng].  Every call of a generator
    method consumes one draw; the field that is read depends on the method:
    [d_bit] for [choice([0,1])], [d_unif] for [random()] and [choice(range(k), p=...)],
    [d_int] for [integers]. *)
Record draw := mkDraw { d_bit : bool; d_unif : Q; d_int : nat }.

(** The random generator: the [k]-th call reads [rng k]. *)
Definition rng := nat -> draw.
