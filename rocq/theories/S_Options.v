(** Specification of what the options of the shallow water solvers mean. *)
From Coq Require Import Reals List Arith ZArith String.
From Verif Require Import Prelude M_Mesh M_ShallowWater M_FVSolver S_Units.
Import ListNotations.
Open Scope R_scope.

(** the same benchmark over another bottom *)
Definition with_bottom (b : sw_benchmark) (f : R -> R) : sw_benchmark :=
  {| bm_domain := bm_domain b; bm_start := bm_start b; bm_end := bm_end b; bm_conditions := bm_conditions b;
     bm_inflow_left := bm_inflow_left b; bm_inflow_right := bm_inflow_right b; bm_initial := bm_initial b;
     bm_bottom := f; bm_gravity := bm_gravity b |}.

(** no network and no limiter *)
Fixpoint unlimited (g : getter) : Prop :=
  match g with GReduced _ _ _ | GMCL _ => False | GAntidiffusion _ raw => unlimited raw | _ => True end.

(** the second difference of the values [e] of the cells at cell [i] *)
Definition second_difference (e : Z -> R * R) (i : Z) : R * R :=
  minus (minus (e (i + 1)%Z) (e i)) (minus (e i) (e (i - 1)%Z)).

(** what the Lax-Wendroff class computes at the left side of cell [i]: the
    Lax-Friedrichs flux with the viscosity reduced by dt / dx times the speed (see C80) *)
Definition lax_wendroff_face (g dt dx : R) (e : Z -> R * R) (i : Z) : R * R :=
  let l := e (i - 1)%Z in let r := e i in
  minus (mean (phys_flux g l) (phys_flux g r)) (times ((1 / 2 - dt / dx) * speed g l r) (minus r l)).
