(** Specification: the requests of calculate whose solutions never get new oscillations. *)
From Coq Require Import String Reals List Arith ZArith Bool.
From Verif Require Import Prelude M_Mesh M_ScalarSolver M_Parser S_Parser M_CommandLine S_CommandLine S_CommandRun.
Import ListNotations.
Open Scope R_scope.

(** the values a solver starts with: averages in the cells, or values at the nodes *)
Definition start_values (b : scalar_benchmark) (r : request) : list R :=
  let '(k, _, _) := r in
  let n := mesh_asked r in
  tab n (match k with CG | CGLow | FEMCL => start_value (sb_initial b) (sb_domain b) n | _ => start_average (sb_initial b) (sb_domain b) n end).
(** the schemes and CFL numbers *)
Definition never_wavier (p : problem_name) (r : request) : Prop :=
  let '(k, _, _) := r in
  p = Advection /\ (k = ScalarLLF /\ cfl_asked r <= 1 \/ k = ScalarMCL /\ cfl_asked r <= 1 / 4) \/
  (k = CGLow /\ cfl_asked r <= 1 \/ k = FEMCL /\ cfl_asked r <= 1 / 2) /\ (2 <= mesh_asked r)%nat.
