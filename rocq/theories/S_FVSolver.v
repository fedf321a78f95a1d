(** Specification of the finite volume solvers of the shallow water equations. *)
From Coq Require Import Reals List Arith String.
From Verif Require Import Prelude M_Mesh M_Boundary M_ODE M_Solver M_ShallowWater S_ShallowWater M_FVSolver.
Import ListNotations.
Open Scope R_scope.

(** no network is part of the scheme *)
Fixpoint network_free (g : getter) : Prop :=
  match g with
  | GReduced _ _ _ => False
  | GMCL high => network_free high
  | GAntidiffusion _ raw => network_free raw
  | _ => True
  end.
(** every network gets the same number of cells left and right of a node *)
Fixpoint even_inputs (g : getter) : Prop :=
  match g with
  | GReduced dim _ base => (exists k, (1 <= k)%nat /\ dim = (2 * k)%nat) /\ even_inputs base
  | GMCL high => even_inputs high
  | GAntidiffusion _ raw => even_inputs raw
  | _ => True
  end.
(** number of cells around a node a scheme reads *)
Fixpoint cells_read (g : getter) : nat :=
  match g with
  | GReduced dim _ base => Nat.max (cells_read base) dim
  | GMCL high => cells_read high
  | GAntidiffusion _ raw => Nat.max (cells_read raw) 2
  | _ => 2%nat
  end.

(** the Runge-Kutta methods of the program *)
Definition known_method (a : solver_args) : Prop :=
  forall T, a_ode a = Some T -> In T [euler; heun; ssp3; rk8].

(** everything a program that uses a solver can see of the solution: the current value
    and the values in the history *)
Definition visible (w : world (list (R * R))) (v : list (R * R)) : Prop :=
  v = w_mem w (w_sol w) \/ In v (w_values w).

(** the schemes that keep a lake at rest: low order, central and limited ones built on
    them *)
Fixpoint keeps_lakes (g : getter) : Prop :=
  match g with GLow | GCentral => True | GMCL high => keeps_lakes high | _ => False end.

(** a benchmark that starts with a lake at rest: the water level is the same everywhere,
    nothing moves, and the water is nowhere thinner than EPSILON *)
Definition lake_benchmark (b : sw_benchmark) : Prop :=
  exists level, forall x, bm_initial b x = (level - bm_bottom b x, 0) /\
    (ia (bm_domain b) < x < ib (bm_domain b) -> epsilon <= level - bm_bottom b x).
