(** Specification of the solvers of scalar problems, from the benchmark to the solution. *)
From Coq Require Import Reals String List Arith.
From Verif Require Import Prelude M_Mesh M_ODE M_Solver M_Scalar S_Scalar M_FVSolver M_ScalarSolver.
Import ListNotations.
Open Scope R_scope.

(** everything a program that uses a solver can see of the solution: the current value
    and the values in the history *)
Definition shown (w : world (list R)) (v : list R) : Prop := v = w_mem w (w_sol w) \/ In v (w_values w).

(** the data of a benchmark stay between [lo] and [hi]: the initial data inside the domain
    and the prescribed values at a boundary with inflow *)
Definition data_between (b : scalar_benchmark) (lo hi : R) : Prop :=
  (forall x, ia (sb_domain b) < x < ib (sb_domain b) -> lo <= sb_initial b x <= hi) /\
  (In "inflow"%string (sb_conditions b) -> forall t, lo <= sb_inflow_left b t <= hi /\ lo <= sb_inflow_right b t <= hi).

Definition names_problem (p : problem) : string := match p with Advection => "advection" | Burgers => "burgers" end.

(** the condition on the CFL number: waves may cross one cell per step, half a cell with the limiter *)
Definition cells_per_step (g : scalar_getter) : R := match g with SMCL => 1 / 2 | _ => 1 end.
(** schemes that preserve bounds *)
Definition bounded_scheme (g : scalar_getter) : Prop := g = SLLF \/ g = SMCL.
(** the strong stability preserving methods of the program; None is the default *)
Definition ssp_method (m : option tableau) : Prop := forall T, m = Some T -> In T [euler; heun; ssp3].
