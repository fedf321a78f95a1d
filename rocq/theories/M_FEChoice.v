(** Model of the choice of the time integrator in the continuous Galerkin solver. Definitions only. *)
From Coq Require Import String List.
From Verif Require Import Prelude M_ODE M_FE.
Open Scope string_scope.

(** the classes of core/ode_solver.py named in finite_element/ode_solver.py L12-20 *)
Definition tableau_of (o : ode_name) : tableau := match o with UseHeun => heun | UseSSP3 => ssp3 | UseRK8 => rk8 end.
(** names of the constructor parameters: ExplicitRungeKuttaMethod.__init__ L25-30, RungeKutta8.__init__ L132-135 *)
Definition constructor_parameters (o : ode_name) : list string :=
  match o with
  | UseRK8 => ("right_hand_side" :: "initial_value" :: "start_time" :: nil)%list
  | _ => ("right_hand_side" :: "initial_value" :: "initial_time" :: nil)%list
  end.
(** a call with two positional arguments and one keyword *)
Definition construct (o : ode_name) (keyword : string) : result ode_name :=
  if existsb (String.eqb keyword) (skipn 2 (constructor_parameters o)) then Ok o else Err TypeError.
(** ContinuousGalerkinSolver.__init__ (scalar/solver/cg.py L72-87) with core/solver.py L43-47: ode_solver_type(rhs, value, initial_time=...) *)
Definition cg_ode_solver (degree : nat) : result ode_name :=
  bind (optimal_ode_solver degree) (fun o => construct o "initial_time").
