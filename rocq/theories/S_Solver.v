(** Specification of a run of the solver: a chain of Runge-Kutta steps. *)
From Coq Require Import Reals List Arith.
From Verif Require Import Prelude M_TimeStepping M_ODE M_Solver.
Import ListNotations.
Open Scope R_scope.

Section S.
Context {V : Type} `{VecOps V} (finite : V -> bool).

(** [os] are the states after the steps [dts], started in [o]; all are finite *)
Definition chain (f : R -> V -> result V) (T : tableau) (o : ode V) (dts : list R) (os : list (ode V)) : Prop :=
  length os = length dts /\
  forall k, (k < length dts)%nat ->
    rk_execute_e f T (nth k dts 0) (nth k (o :: os) o) = Ok (nth k os o) /\
    finite (o_sol (nth k os o)) = true.

(** the solution as the caller sees it: solution.time and solution.value *)
Definition solution_of (w : world V) : ode V := {| o_time := w_sol_time w; o_sol := w_mem w (w_sol w) |}.

(** ODE solver and solution agree *)
Definition in_sync (w : world V) : Prop :=
  w_ode_time w = w_sol_time w /\ w_mem w (w_ode w) = w_mem w (w_sol w).

(** the step proposed by the time stepping when the states so far are [o :: os] *)
Definition proposed (c : config V) (o : ode V) (os : list (ode V)) (k : nat) : R :=
  let x := nth k (o :: os) o in call_generator (c_gen c) (o_time x, o_sol x).
End S.
