(** Specification: the same shallow water problem in other units of length and time. *)
From Coq Require Import Reals List Arith String.
From Verif Require Import Prelude M_Boundary M_Flux M_ODE M_ShallowWater S_Symmetry.
Import ListNotations.
Open Scope R_scope.

(** [d] new units of (horizontal) length make one old unit, and numbers that stand for
    velocities are multiplied by [c]; so times are multiplied by [d / c], gravity (a squared
    velocity per height) by [c ^ 2], discharges by [c]. Heights keep their unit. *)
Definition in_units (c : R) (u : R * R) : R * R := (fst u, c * snd u).
Definition units_inflow (c d : R) (f : option (R -> R * R)) : option (R -> R * R) :=
  match f with Some f => Some (fun t => in_units c (f (c / d * t))) | None => None end.
Definition units_gravity (c : R) (gravity : option R) : option R := Some (c ^ 2 * py_or gravity default_gravity).
(** step lengths are lengths, [gamma] is a length times a velocity, the time step of Lax-Wendroff a time *)
Fixpoint units_kind (c d : R) (k : kind) : kind :=
  match k with
  | LaxWendroff dt dx => LaxWendroff (d / c * dt) (d * dx)
  | Antidiffusion k gamma dx => Antidiffusion (units_kind c d k) (c * d * gamma) (d * dx)
  | _ => k
  end.
(** every scheme but the two refuted below *)
Fixpoint unit_free (k : kind) : Prop :=
  match k with
  | EnergyStable1 | LaxWendroff _ _ => False
  | Antidiffusion k _ _ => unit_free k
  | _ => True
  end.
(** a scheme, or the limited scheme with it as high order flux *)
Definition flux_of (limited : bool) (k : kind) (gravity : option R) (b : bathymetry) (conditions : list string)
  (il ir : option (R -> R * R)) : result (nflux (R * R)) :=
  bind (scheme k gravity b) (fun high => if limited then sw_mcl gravity b conditions il ir high else Ok high).

(** the flux of the equations, its Jacobian, and the flux of Lax and Wendroff
    with the Jacobian in the mean state *)
Definition phys_flux (g : R) (u : R * R) : R * R := (snd u, snd u ^ 2 / fst u + g * fst u ^ 2 / 2).
Definition jacobian_times (g : R) (u w : R * R) : R * R :=
  (snd w, (g * fst u - (snd u / fst u) ^ 2) * fst w + 2 * (snd u / fst u) * snd w).
Definition mean (a b : R * R) : R * R := ((fst a + fst b) / 2, (snd a + snd b) / 2).
Definition minus (a b : R * R) : R * R := (fst a - fst b, snd a - snd b).
Definition times (k : R) (a : R * R) : R * R := (k * fst a, k * snd a).
Definition textbook_lax_wendroff (g dt dx : R) (l r : R * R) : R * R :=
  minus (mean (phys_flux g l) (phys_flux g r))
    (times (dt / (2 * dx)) (jacobian_times g (mean l r) (minus (phys_flux g r) (phys_flux g l)))).
(** the largest characteristic speed of two states *)
Definition speed (g : R) (l r : R * R) : R :=
  Rmax (Rabs (snd l / fst l) + sqrt (g * fst l)) (Rabs (snd r / fst r) + sqrt (g * fst r)).
