(** Specification: order, distance and convex totals of lists of values. *)
From Coq Require Import Reals String List Arith.
From Verif Require Import Prelude M_Scalar S_Boundary M_Mesh M_ScalarSolver S_Scalar S_ScalarSolver M_Generate M_Benchmark M_FVSolver S_FVSolver M_FEChoice M_ShallowWater.
Import ListNotations.
Open Scope R_scope.

(** every value is at most the corresponding one *)
Definition below (u v : list R) : Prop := Forall2 Rle u v.
(** the sum of the differences (times the cell length: the integral of the difference) *)
Definition distance (u v : list R) : R := rsum (map2 (fun x y => Rabs (x - y)) u v).
(** the sum of a function of the values *)
Definition total (phi : R -> R) (u : list R) : R := rsum (map phi u).
Definition convex_on (lo hi : R) (phi : R -> R) : Prop :=
  forall x y q, lo <= x <= hi -> lo <= y <= hi -> 0 <= q <= 1 -> phi (q * x + (1 - q) * y) <= q * phi x + (1 - q) * phi y.

(** how many cells a wave may cross in one step for the Lax-Friedrichs scheme to be monotone *)
Definition monotone_cells_per_step (p : M_Scalar.problem) : R := match p with M_Scalar.Advection => 1 | M_Scalar.Burgers => 1 / 2 end.

(** two benchmarks that differ in nothing but the initial data (and in inflow data, which periodic conditions do not ask for) *)
Definition same_but_data (b1 b2 : scalar_benchmark) : Prop :=
  sb_problem b1 = sb_problem b2 /\ sb_domain b1 = sb_domain b2 /\ sb_start b1 = sb_start b2 /\ sb_end b1 = sb_end b2 /\ sb_conditions b1 = sb_conditions b2.

(** the solver is used as intended: a periodic domain, data in a range where waves run to the right, a Runge-Kutta method made of Euler steps
    and steps in which waves cross at most one cell (half a cell for Burgers' equation) *)
Definition monotone_use (b : scalar_benchmark) (a : solver_args) (p : M_Scalar.problem) (lo hi : R) : Prop :=
  ia (sb_domain b) < ib (sb_domain b) /\ sb_problem b = names_problem p /\ side_names (sb_conditions b) "periodic" "periodic" /\ data_between b lo hi /\ range_ok p lo /\
  ssp_method (a_ode a) /\ 0 < py_or (a_cfl a) default_cfl /\ py_or (a_cfl a) default_cfl * max_speed p hi <= monotone_cells_per_step p.
