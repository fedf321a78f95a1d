(** Specification: the exact solution of the advection equation with speed one on a domain whose ends are joined, and the data whose
    solutions can be approximated. *)
From Coq Require Import Reals List Arith.
From Verif Require Import Prelude M_Mesh M_ODE M_Solution M_Solver.
Import ListNotations.
Open Scope R_scope.

(** the initial data repeat with the length of the domain *)
Definition repeats (D : interval) (f : R -> R) : Prop := forall x, f (x + (ib D - ia D)) = f x.
(** the data have moved to the right by the time that has passed *)
Definition moved (f : R -> R) (t : R) : R -> R := fun x => f (x - t).

(** two derivatives, the second one at most M *)
Definition smooth (M : R) (f : R -> R) : Prop := exists f1 f2,
  (forall x, derivable_pt_lim f x (f1 x)) /\ (forall x, derivable_pt_lim f1 x (f2 x)) /\ forall x, Rabs (f2 x) <= M.
(** slope at most K *)
Definition lipschitz (K : R) (f : R -> R) : Prop := forall x y, Rabs (f x - f y) <= K * Rabs (x - y).

(** the middle of cell i out of n *)
Definition middle (D : interval) (n i : nat) : R := ia D + (INR i + 1 / 2) * ((ib D - ia D) / INR n).

(** the times and values a solver shows: the solution now and the entries of the history *)
Definition shown {V} (w : world V) (t : R) (v : V) : Prop :=
  t = w_sol_time w /\ v = w_mem w (w_sol w) \/ In (t, v) (combine (w_times w) (w_values w)).
