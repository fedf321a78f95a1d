(** Model of core/time_stepping.py and of the clock of core/discrete_solution.py in double precision. Definitions only.
    M_TimeStepping models the same code with exact real numbers; here every sum and difference is rounded. *)
From Coq Require Import Reals List Arith ZArith.
From Flocq Require Import Core.Core.
From Verif Require Import Prelude M_TimeStepping.
Import ListNotations.
Open Scope R_scope.

(** Python floats are IEEE 754 double precision numbers with rounding to nearest, ties to even. Overflow, infinities and
    nan are not modelled: the theorems are about times below 4096 in absolute value. *)
Definition double (x : R) : Prop := generic_format radix2 (FLT_exp (-1074) 53) x.
Definition rnd (x : R) : R := round radix2 (FLT_exp (-1074) 53) ZnearestE x.

Section Rounding.
(** [r] rounds the results of all operations and the literal 1e-12. *)
Context (r : R -> R).

(** the literal 1e-12 of L132, L146, L154 *)
Definition f_tol : R := r (1 / 1000000000000).

(** TimeStepping.__next__ and helpers, L117-121, L136-156; compare [ts_next]. [g] is the value the generator returns during
    this call. *)
Definition f_next (end_time g : R) (s : ts_state) : ts_out :=
  if ts_stop s then StopIter
  else
    let step := Rmin g (r (end_time - ts_time s)) in
    if Rltb step f_tol then TooSmall
    else
      let t' := r (ts_time s + step) in
      if Rltb (r (end_time - t')) f_tol
      then Yield step {| ts_time := end_time; ts_count := S (ts_count s); ts_stop := true |}
      else Yield step {| ts_time := t'; ts_count := S (ts_count s); ts_stop := false |}.

(** The for loop over a TimeStepping (core/solver.py L52-61); compare [ts_loop]. *)
Fixpoint f_loop (end_time : R) (g : nat -> R) (k n : nat) (s : ts_state) : list R * ts_state * ts_status :=
  match n with
  | O => ([], s, Running)
  | S n' =>
      match f_next end_time (g k) s with
      | StopIter => ([], s, Finished)
      | TooSmall => ([], s, Raised)
      | Yield step s' => let '(l, s'', st) := f_loop end_time g (S k) n' s' in (step :: l, s'', st)
      end
  end.
Definition f_run (start end_time : R) (g : nat -> R) (n : nat) : list R * ts_state * ts_status :=
  f_loop end_time g 0 n (ts_iter start).

(** DiscreteSolution.update, core/discrete_solution.py L53-57, and ExplicitRungeKuttaMethod.execute, core/ode_solver.py L93:
    the clocks of the solution and of the time integrator after the steps of the loop. *)
Fixpoint f_clock (t : R) (steps : list R) : R :=
  match steps with
  | [] => t
  | dt :: l => f_clock (r (t + dt)) l
  end.
End Rounding.
