(** Specification: data that may jump, and the distance of values from a function over the whole domain. *)
From Coq Require Import Reals List Arith.
From Verif Require Import Prelude M_Mesh M_Benchmark.
Import ListNotations.
Open Scope R_scope.

(** total variation: along points that go once around the domain at most, f rises and falls by V altogether *)
Definition varies (D : interval) (V : R) (f : R -> R) : Prop := forall (x : nat -> R) m,
  (forall k, (k < m)%nat -> x k <= x (S k)) -> x m <= x O + (ib D - ia D) ->
  rsum (tab m (fun k => Rabs (f (x (S k)) - f (x k)))) <= V.

(** n values, each for a piece of length h, against a function at the points of these pieces: the area between them *)
Definition area (h : R) (v : list R) (g : R -> R) (point : nat -> R) : R :=
  h * rsum (tab (List.length v) (fun i => Rabs (nth i v 0 - g (point i)))).

(** the initial data of the advection benchmarks rise and fall by V in total and lie between lo and 1 *)
Definition hills (u0 : R -> R) (V lo : R) : Prop :=
  u0 = one_hill /\ V = 2 /\ lo = 0 \/ u0 = two_hills /\ V = 4 /\ lo = 0 \/ u0 = three_hills /\ V = 6 /\ lo = 0 \/
  u0 = gaussian_bell /\ V = 2 /\ lo = 0 \/ u0 = cosine /\ V = 4 /\ lo = -1.
(** the errors of a row of eoc on n cells at time T, in the norms L1, L2 and Linf, for data of variation V and values in an interval of length W *)
Definition jump_errors (V W T : R) (n : nat) (errors : list R) : Prop := exists e1 e2 e3, errors = [e1; e2; e3] /\
  0 <= e1 <= V * (sqrt (T * (1 / INR n)) + 9 / 5 * (1 / INR n) + 1 / 10 ^ 12) /\ 0 <= e2 <= sqrt (W * e1) /\ 0 <= e3 <= W.
