(** Specification vocabulary: real polynomials given by their coefficients. *)
From Coq Require Import Reals List.
Import ListNotations.
Open Scope R_scope.

(** [peval [a0; a1; ...; ad] x] is a0 + a1 x + ... + ad x^d *)
Definition peval (p : list R) (x : R) : R := fold_right (fun a r => a + x * r) 0 p.
(** [f] is a polynomial function with [n] coefficients, i.e. of degree less than [n] *)
Definition deg_lt (n : nat) (f : R -> R) : Prop := exists p, (length p <= n)%nat /\ forall x, f x = peval p x.
