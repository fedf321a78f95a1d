(** Specification: characteristic speeds and energy of the shallow water equations, textbook formulas. *)
From Coq Require Import Reals List.
From Coquelicot Require Import Coquelicot.
From Verif Require Import Prelude.
Import ListNotations.
Open Scope R_scope.

(** discharge and momentum flux of height h and discharge q *)
Definition physical_flux1 (h q : R) : R := q.
Definition physical_flux2 (g h q : R) : R := q ^ 2 / h + g * h ^ 2 / 2.

(** lam is a characteristic speed at the state (h, q): for some direction (x, y) <> 0 the derivative of the flux in this
    direction is lam times the direction. *)
Definition characteristic_speed (g h q lam : R) : Prop :=
  exists x y, (x <> 0 \/ y <> 0) /\
    is_derive (fun s => physical_flux1 (h + s * x) (q + s * y)) 0 (lam * x) /\
    is_derive (fun s => physical_flux2 g (h + s * x) (q + s * y)) 0 (lam * y).

(** kinetic plus potential energy of a water column over the bottom b, and the flux of energy *)
Definition energy (g b h q : R) : R := q ^ 2 / (2 * h) + g * h ^ 2 / 2 + g * h * b.
Definition energy_flux (g b h q : R) : R := q / h * (q ^ 2 / (2 * h) + g * h ^ 2 + g * h * b).

(** energy (divided by the cell size) of a vector of states over a flat bottom *)
Definition total_energy (g : R) (u : list (R * R)) : R := rsum (map (fun x => energy g 0 (fst x) (snd x)) u).
(** the energy of u + s v changes with rate r at s = 0 *)
Definition energy_rate (g : R) (u v : list (R * R)) (r : R) : Prop :=
  is_derive (fun s => total_energy g (map2 cadd u (map (cscal s) v))) 0 r.
