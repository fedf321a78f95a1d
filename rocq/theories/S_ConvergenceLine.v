(** Specification: the errors of the solutions of calculate for the advection equation. *)
From Coq Require Import String Reals List Arith ZArith Bool.
From Verif Require Import Prelude M_Mesh M_ODE M_Solution M_Solver M_ScalarSolver M_Command M_Parser S_Parser M_CommandLine S_CommandLine S_CommandRun S_Convergence.
Import ListNotations.
Open Scope R_scope.

(** the times and values in an object that calculate returns *)
Definition object_shows (o : object) (t : R) (v : list R) : Prop := match o with Scalar (_, w) => shown w t v | _ => False end.
(** first order solvers with steps that are short enough *)
Definition first_order (r : request) : Prop := let '(k, _, _) := r in cfl_asked r <= 1 /\ (k = ScalarLLF \/ k = CGLow /\ (3 <= mesh_asked r)%nat).
(** where value i of a solution belongs to: the middle of cell i or node i *)
Definition place (D : interval) (r : request) (i : nat) : R :=
  let '(k, _, _) := r in
  match k with ScalarLLF => middle D (mesh_asked r) i | _ => ia D + INR i * ((ib D - ia D) / INR (mesh_asked r)) end.
Definition width (D : interval) (r : request) : R := (ib D - ia D) / INR (mesh_asked r).
