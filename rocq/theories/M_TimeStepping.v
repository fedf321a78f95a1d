(** Model of core/time_stepping.py. Definitions only. *)
From Coq Require Import Reals List Arith ZArith.
From Verif Require Import Prelude.
Import ListNotations.
Open Scope R_scope.

(** The literal 1e-12 of L132, L146, L154 (as an exact real). *)
Definition tol : R := 1 / 1000000000000.

(** TimeStepGenerator, L49-82. The time step function reads some outside
    state [World] (for instance the discrete solution). [gen_frozen] is the
    attribute _time_step computed by the constructor (L67) and only used if
    not adaptive. *)
Record generator (World : Type) := {
  gen_function : World -> R;
  gen_cfl : R;
  gen_adaptive : bool;
  gen_frozen : R
}.
Arguments gen_function {World}. Arguments gen_cfl {World}.
Arguments gen_adaptive {World}. Arguments gen_frozen {World}.

(** TimeStepGenerator.__init__, L55-68, executed when the world is [w0]. *)
Definition new_generator {World} (f : World -> R) (cfl : R) (adaptive : bool) (w0 : World)
  : generator World :=
  {| gen_function := f; gen_cfl := cfl; gen_adaptive := adaptive; gen_frozen := f w0 |}.

(** TimeStepGenerator.__call__, L65, L68, L74-75, executed when the world is [w]. *)
Definition call_generator {World} (g : generator World) (w : World) : R :=
  if gen_adaptive g then gen_function g w * gen_cfl g else gen_frozen g * gen_cfl g.

(** State of the iterator TimeStepping: attributes time, time_steps_number and
    _stop_iteration (L88-94). *)
Record ts_state := { ts_time : R; ts_count : nat; ts_stop : bool }.

(** TimeStepping.__iter__, L111-115. *)
Definition ts_iter (start : R) : ts_state :=
  {| ts_time := start; ts_count := 0; ts_stop := false |}.

Inductive ts_out :=
| Yield (step : R) (s : ts_state)
| StopIter
| TooSmall.

(** TimeStepping.__next__ and helpers, L117-121, L136-156. [g] is the value the
    generator returns during this call. *)
Definition ts_next (end_time g : R) (s : ts_state) : ts_out :=
  if ts_stop s then StopIter
  else
    let step := Rmin g (end_time - ts_time s) in
    if Rltb step tol then TooSmall
    else
      let t' := ts_time s + step in
      if Rltb (end_time - t') tol
      then Yield step {| ts_time := end_time; ts_count := S (ts_count s); ts_stop := true |}
      else Yield step {| ts_time := t'; ts_count := S (ts_count s); ts_stop := false |}.

Inductive ts_status := Running | Finished | Raised.

(** The for loop over a TimeStepping: at most [n] calls of __next__, the k-th
    call (counted from the start of the loop) sees the generator value [g k].
    Returns the yielded steps, the state of the iterator and how the loop
    stands. *)
Fixpoint ts_loop (end_time : R) (g : nat -> R) (k n : nat) (s : ts_state)
  : list R * ts_state * ts_status :=
  match n with
  | O => ([], s, Running)
  | S n' =>
      match ts_next end_time (g k) s with
      | StopIter => ([], s, Finished)
      | TooSmall => ([], s, Raised)
      | Yield step s' =>
          let '(l, s'', st) := ts_loop end_time g (S k) n' s' in (step :: l, s'', st)
      end
  end.

Definition ts_run (start end_time : R) (g : nat -> R) (n : nat)
  : list R * ts_state * ts_status :=
  ts_loop end_time g 0 n (ts_iter start).

(** TimeStepping.__len__, L123-134. [dt] is the value of the generator. For the
    python expression [int(duration // time_step)]: floor of the quotient,
    negative numbers of steps are impossible for end >= start, dt > 0. *)
Definition ts_len (start end_time dt : R) (adaptive : bool) : nat :=
  if adaptive then 0%nat
  else
    let duration := end_time - start in
    let n := Z.to_nat (Int_part (duration / dt)) in
    if Rltb (dt * INR n) (duration - tol) then (n + 1)%nat else n.

(** get_mesh_dependent_time_stepping, L166-174: generator with the constant
    function mesh.step_length, not adaptive. *)
Definition mesh_dependent_generator {World} (step_length cfl : R) (w0 : World) : generator World :=
  new_generator (fun _ => step_length) cfl false w0.

(** DiscreteSolutionDependentTimeStep.__call__, L30-33, and
    get_adaptive_time_stepping, L177-193. World = (time, value) of the solution. *)
Definition solution_dependent_generator {V} (optimal : R -> V -> R) (cfl : R) (adaptive : bool)
  (w0 : R * V) : generator (R * V) :=
  new_generator (fun w => optimal (fst w) (snd w)) cfl adaptive w0.

(** CFLChecker.__call__, L42-46. Stages beyond the time nodes raise IndexError
    (time_nodes[i]). *)
Fixpoint cfl_check {V} (optimal : R -> V -> R) (dt : R) (nodes : list R) (stages : list V)
  : result unit :=
  match stages with
  | [] => Ok tt
  | u :: us =>
      match nodes with
      | [] => Err IndexError
      | t :: ts => if Rltb (optimal t u) dt then Err CFLConditionViolatedError
                   else cfl_check optimal dt ts us
      end
  end.
