(** Specification: the ends of the domain named once for both or one by one. *)
From Coq Require Import String Reals List.
From Verif Require Import Prelude M_Mesh M_Flux M_Solver M_ShallowWater M_FVSolver M_ScalarSolver.
Import ListNotations.

(** the same benchmark with other boundary conditions *)
Definition water_with (b : sw_benchmark) (conditions : list string) : sw_benchmark :=
  {| bm_domain := bm_domain b; bm_start := bm_start b; bm_end := bm_end b; bm_conditions := conditions; bm_inflow_left := bm_inflow_left b;
     bm_inflow_right := bm_inflow_right b; bm_initial := bm_initial b; bm_bottom := bm_bottom b; bm_gravity := bm_gravity b |}.
Definition scalar_with (b : scalar_benchmark) (conditions : list string) : scalar_benchmark :=
  {| sb_problem := sb_problem b; sb_domain := sb_domain b; sb_start := sb_start b; sb_end := sb_end b; sb_conditions := conditions;
     sb_inflow_left := sb_inflow_left b; sb_inflow_right := sb_inflow_right b; sb_initial := sb_initial b |}.
(** no limiter anywhere in the flux *)
Fixpoint without_limiter (g : getter) : Prop :=
  match g with GMCL _ => False | GReduced _ _ base => without_limiter base | GAntidiffusion _ raw => without_limiter raw | _ => True end.
