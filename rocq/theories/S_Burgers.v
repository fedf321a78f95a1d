(** Specification: the exact solution of Burgers' equation before shocks appear. *)
From Coq Require Import Reals.
Open Scope R_scope.

(** v t x is the value at place x after time t: up to time T every value of the data u0 travels with itself as speed *)
Definition carried (u0 : R -> R) (T : R) (v : R -> R -> R) : Prop := forall t y, 0 <= t <= T -> v t (y + t * u0 y) = u0 y.
(** |f| is at most M, and M is reached *)
Definition largest (M : R) (f : R -> R) : Prop := (forall x, Rabs (f x) <= M) /\ exists x, Rabs (f x) = M.
