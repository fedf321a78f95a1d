(** Specification: curvature of curves, standardised data. *)
From Coq Require Import Reals List.
From Verif Require Import Prelude.
Import ListNotations.
Open Scope R_scope.

(** the curvature of the graph of p(x) = a x^2 + b x + c at 0: |p''(0)| / (1 + p'(0)^2)^(3/2) *)
Definition parabola (a b c x : R) : R := a * x ^ 2 + b * x + c.
Definition curvature_at_0 (a b : R) : R := Rabs (2 * a) / sqrt (1 + b ^ 2) ^ 3.
(** three values lie on a line *)
Definition on_a_line (u0 u1 u2 : R) : Prop := u1 - u0 = u2 - u1.

(** sample mean 0 and variance 1 *)
Definition standardised (l : list R) : Prop := rsum l = 0 /\ rsum (map (fun x => x ^ 2) l) = INR (length l).
(** all entries are equal *)
Definition constant (l : list R) : Prop := forall x y, In x l -> In y l -> x = y.
