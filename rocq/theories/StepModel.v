(** Model of the iterator protocol of CircuitSimulator (/repo/src/plaquette/device/_circuitsim.py:54-88, 202-208). *)
Require Import String List Bool Arith ZArith.
From Verif Require Import Base CircuitModel SimModel.
Import ListNotations.
Local Open Scope list_scope.

(** The simulator of SimModel.v with [_instruction_pointer] (54-60). *)
Record stepper := mkStepper { sp_sim : sim; sp_pointer : Z }.
(** 25-60 [__init__] *)
Definition step_init (c : circuit) (k : nat) : stepper := mkStepper (sim_init c k) (-1).
(** 62-73 [__iter__] *)
Definition step_iter (st : stepper) : stepper := mkStepper (sp_sim st) (-1).
(** What a call of [next] does.  The attributes of the simulator after an exception are not modelled, apart from the pointer. *)
Inductive stepped := Stepped (st : stepper) | StopIteration (st : stepper) | Raised (e : exn) (pointer : Z).

Section Step.
Variable g : rng.
(** 75-88 [__next__]; a negative pointer, which only an assignment from outside could cause, would count from the end. *)
Definition step_next (c : circuit) (st : stepper) : stepped :=
  let p := (sp_pointer st + 1)%Z in
  if (p <? Z.of_nat (length c))%Z then
    if (p <? 0)%Z then Raised Unmodelled p
    else match nth_error c (Z.to_nat p) with
         | Some gt => match run_gate g (sp_sim st) gt with Ok s => Stepped (mkStepper s p) | Err e => Raised e p end
         | None => Raised IndexError p
         end
  else StopIteration (mkStepper (sp_sim st) p).
(** The loop [while True: next(sim)] until [StopIteration], i.e. the loop of a [for] statement after [iter]. *)
Inductive finishes (c : circuit) : stepper -> Res stepper -> Prop :=
| fin_stop st st' : step_next c st = StopIteration st' -> finishes c st (Ok st')
| fin_raise st e p : step_next c st = Raised e p -> finishes c st (Err e)
| fin_next st st' r : step_next c st = Stepped st' -> finishes c st' r -> finishes c st r.
(** 219-235 [reset]: the pointer is kept. *)
Definition step_reset (c : circuit) (st : stepper) : stepper := mkStepper (sim_reset c (sp_sim st)) (sp_pointer st).
(** 202-208 [run]: a [for] loop over the object itself. *)
Definition step_run (c : circuit) (after_reset : bool) (st : stepper) (r : Res stepper) : Prop :=
  finishes c (step_iter (if after_reset then step_reset c st else st)) r.
End Step.
