(** Specification notions for finite element spaces: points of the domain, degrees of freedom that share a cell, piecewise
    integrals. *)
From Coq Require Import Reals List.
From Coquelicot Require Import Coquelicot.
From Verif Require Import Prelude M_Mesh S_Poly.
Import ListNotations.
Open Scope R_scope.

(** the same point of the domain D; the two end points are one point if the domain is periodic *)
Definition same_point (D : interval) (periodic : bool) (x y : R) : Prop :=
  x = y \/ periodic = true /\ (x = ia D /\ y = ib D \/ x = ib D /\ y = ia D).

(** node a of p + 1 equidistant ones in the cell *)
Definition node_of (p a : nat) (cell : interval) : R := ia cell + INR a * ((ib cell - ia cell) / INR p).

(** l is the integral over all cells of a function given cell by cell *)
Inductive integral_over : list interval -> (nat -> R -> R) -> R -> Prop :=
| integral_none : forall f, integral_over [] f 0
| integral_cell : forall c cs f l1 l2, is_RInt (f 0%nat) (ia c) (ib c) l1 -> integral_over cs (fun k => f (S k)) l2 ->
    integral_over (c :: cs) f (l1 + l2).

(** the polynomial pieces of degree at most p *)
Definition poly_on (p : nat) (c : interval) (f : R -> R) : Prop :=
  exists g, deg_lt (S p) g /\ forall x, ia c <= x <= ib c -> f x = g x.
