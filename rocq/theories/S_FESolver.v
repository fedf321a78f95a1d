(** Specification of the finite element solvers, from the benchmark to the solution. *)
From Coq Require Import Reals String List Arith.
From Verif Require Import Prelude M_Misc M_Mesh M_Quadrature M_ODE M_FE M_ScalarSolver.
Import ListNotations.
Open Scope R_scope.

(** every bound of the values of [u] is a bound of the values of [v] *)
Definition inherits_bounds (u v : list R) : Prop :=
  List.length v = List.length u /\ forall lo hi, (forall x, In x u -> lo <= x <= hi) -> forall x, In x v -> lo <= x <= hi.

(** the rate with which a wave of speed one leaves the node [i]: sum of the coupling coefficients over the mass of the node *)
Definition node_rate (mass : list R) (C : mat) (i : nat) : R := rsum (tab (List.length mass) (fun j => Rabs (C i j))) / nth i mass 0.
(** The condition on the CFL number. For advection the usual one. For Burgers' equation the optimal step is determined by
    the values of the solution at the nodes, the node of the largest value can be one where waves are slow; steps are safe for all
    solutions with the same bounds if the CFL number makes up for the ratio of the rates. *)
Definition cfl_condition (eig : nat -> (nat -> nat -> R) -> (nat -> R) * (nat -> nat -> R)) (pr : problem) (s : fespace) (cfl : R) : Prop :=
  match pr with
  | Advection => cfl <= 1
  | Burgers => forall mass C, lumped_mass eig s = Ok mass -> discrete_gradient eig s = Ok C -> forall i j,
      (i < fs_dimension s)%nat -> (j < fs_dimension s)%nat -> cfl * node_rate mass C i <= node_rate mass C j
  end.

(** schemes that preserve bounds *)
Definition bounded_kind (k : fe_kind) : Prop := exists adaptive, k = FLow adaptive \/ k = FMCL adaptive.
Definition fe_name (pr : problem) : string := match pr with Advection => "advection" | Burgers => "burgers" end.
(** mesh size, degree and CFL number a solver uses *)
Definition used_cells (a : fe_args) : nat := match f_mesh_size a with Some (S k) => S k | _ => 20 * 20 end.
Definition used_degree (a : fe_args) : nat := match f_degree a with Some (S k) => S k | _ => 1 end.
(** CFL numbers that are safe whatever the mesh: for advection 1, for Burgers' equation a number for each degree *)
Definition safe_cfl (pr : problem) (degree : nat) : R :=
  match pr with
  | Advection => 1
  | Burgers => match degree with 1%nat => 1 | 2%nat => 2 / 5 | 3%nat => 3 / 5 | 4%nat => 8 / 25 | 5%nat => 2 / 5 | 6%nat => 11 / 100 | _ => 3 / 10 end
  end.
