(** Specification of total variation on a periodic domain. *)
From Coq Require Import Reals List Arith.
From Verif Require Import Prelude M_ScalarSolver.
Import ListNotations.
Open Scope R_scope.

(** The sum of the jumps between neighbouring cells; the first cell is the right
    neighbour of the last one. *)
Definition variation (u : list R) : R :=
  rsum (map (fun i => Rabs (nth (S i mod length u) u 0 - nth i u 0)) (seq 0 (length u))).

(** The condition on the CFL number: waves may cross one cell per step, a quarter of a
    cell with the limiter. *)
Definition calm_cells_per_step (g : scalar_getter) : R := match g with SMCL => 1 / 4 | _ => 1 end.

(** The same for finite elements of degree one, in terms of the optimal step: half of it
    with the limiter. *)
Definition calm_cfl (k : fe_kind) : R := match k with FMCL _ => 1 / 2 | _ => 1 end.
