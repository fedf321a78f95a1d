(** Specification of the local bounds of the shallow water schemes (C79). *)
From Coq Require Import Reals List Arith.
From Verif Require Import Prelude M_Boundary M_Flux M_ShallowWater.
Import ListNotations.
Open Scope R_scope.
Notation length := List.length.

(** flux of the shallow water equations for a wet state (h, q) *)
Definition wet_flux (g : R) (u : R * R) : R * R := (snd u, snd u ^ 2 / fst u + g * fst u ^ 2 / 2).
(** fastest wave of two wet states *)
Definition wet_speed (g : R) (l r : R * R) : R :=
  Rmax (Rabs (snd l / fst l) + sqrt (g * fst l)) (Rabs (snd r / fst r) + sqrt (g * fst r)).
(** the state between two cells: mean value of the Riemann fan between -s and s *)
Definition bar_state (g : R) (l r : R * R) : R * R :=
  let s := wet_speed g l r in
  ((fst l + fst r) / 2 - (fst (wet_flux g r) - fst (wet_flux g l)) / (2 * s),
   (snd l + snd r) / 2 - (snd (wet_flux g r) - snd (wet_flux g l)) / (2 * s)).
Definition bar_velocity (g : R) (l r : R * R) : R := snd (bar_state g l r) / fst (bar_state g l r).

Definition flat (b : bathymetry) : Prop :=
  match b with BArray l => forall x y, In x l -> In y l -> x = y | _ => True end.
(** [x] lies between the smallest and the largest of three numbers *)
Definition between (a b c x : R) : Prop := Rmin a (Rmin b c) <= x <= Rmax a (Rmax b c).
(** the velocity q / h of the state (h, q) does; also meaningful for h = 0 *)
Definition velocity_between (a b c : R) (u : R * R) : Prop :=
  Rmin a (Rmin b c) * fst u <= snd u <= Rmax a (Rmax b c) * fst u.
Definition all_wet (e : list (R * R)) : Prop := forall x, In x e -> epsilon <= fst x.
(** values on the two sides of every face of the mesh, for a solution [e] extended by
    one cell on each side *)
Definition sides (e : list (R * R)) : list (list (R * R)) := [removelast e; tl e].
(** the bottom's step at face j of n cells; the bottom goes on constantly outside *)
Definition bottom_step (b : bathymetry) (n j : nat) : R :=
  match b with
  | BArray l => if Nat.eqb j 0 then 0 else if Nat.leb n j then 0 else nth j l 0 - nth (j - 1) l 0
  | _ => 0
  end.
(** half of the step, cut off at the height h *)
Definition half_step (h step : R) : R := Rmax (- h) (Rmin h (step / 2)).
(** the states next to a face that a flux [f] through it stands for: with the fastest
    speed s, f = s (right - r) + flux r = - s (left - l) + flux l *)
Definition right_of (g : R) (l r f : R * R) : R * R :=
  (fst r + (fst f - fst (wet_flux g r)) / wet_speed g l r, snd r + (snd f - snd (wet_flux g r)) / wet_speed g l r).
Definition left_of (g : R) (l r f : R * R) : R * R :=
  (fst l - (fst f - fst (wet_flux g l)) / wet_speed g l r, snd l - (snd f - snd (wet_flux g l)) / wet_speed g l r).
(** height and velocity of [w] lie between those of two states *)
Definition state_between (a b w : R * R) : Prop :=
  Rmin (fst a) (fst b) <= fst w <= Rmax (fst a) (fst b) /\
  fst w * Rmin (snd a / fst a) (snd b / fst b) <= snd w <= fst w * Rmax (snd a / fst a) (snd b / fst b).
