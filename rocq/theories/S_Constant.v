(** Specification: constant states, in any arithmetic. *)
From Coq Require Import Reals String List Arith.
From Verif Require Import Prelude M_Boundary S_Boundary M_Flux M_ODE.
Import ListNotations.
Open Scope R_scope.

(** the operations on cell values are those of the reals with every result changed by [rd] (exact arithmetic: nothing is changed; double precision: rounding),
    and cell values are determined by their components *)
Definition arithmetic {W : Type} (rd : R -> R) (H : CellOps W) : Prop :=
  (forall k a b, ccoord k (cadd a b) = rd (ccoord k a + ccoord k b)) /\ (forall k c a, ccoord k (cscal c a) = rd (c * ccoord k a)) /\
  (forall a b : W, (forall k, ccoord k a = ccoord k b) -> a = b).

(** a cell beyond the boundary of a constant state has the same value *)
Definition shows_constant {W : Type} (c : W) (b : cond W) : Prop :=
  match b with Periodic => True | Outflow => True | Inflow g => forall t, g t = c | Wall neg => neg c = c end.

(** the fluxes that read the two cells beside a node: Lax-Friedrichs, central and antidiffusive ones and sums of them *)
Inductive nodal_flux {W : Type} {H : CellOps W} : nflux W -> Prop :=
| NodalLaxFriedrichs rs : nodal_flux (lax_friedrichs rs)
| NodalCentral f : nodal_flux (central f)
| NodalAntidiffusive gamma dx : nodal_flux (linear_antidiffusive gamma dx)
| NodalSum a b : nodal_flux a -> nodal_flux b -> nodal_flux (corrected a b).
