(** Specification of Gaussian quadrature. *)
From Coq Require Import Reals List Arith.
From Verif Require Import Prelude S_Poly M_Mesh M_Quadrature.
Import ListNotations.
Open Scope R_scope.

Definition delta (i j : nat) : R := if Nat.eqb i j then 1 else 0.
(** contract of np.linalg.eig for a real symmetric n x n matrix with exact arithmetic: T V = V diag(nodes) and V is an
    orthogonal matrix *)
Definition eigen_decomposition (n : nat) (t : nat -> nat -> R) (d : (nat -> R) * (nat -> nat -> R)) : Prop :=
  let '(nodes, v) := d in
  (forall k i, (k < n)%nat -> (i < n)%nat -> rsum (tab n (fun j => t k j * v j i)) = nodes i * v k i) /\
  (forall i j, (i < n)%nat -> (j < n)%nat -> rsum (tab n (fun k => v k i * v k j)) = delta i j) /\
  (forall k l, (k < n)%nat -> (l < n)%nat -> rsum (tab n (fun i => v k i * v l i)) = delta k l).
(** strictly increasing list *)
Definition increasing (l : list R) : Prop := forall i j, (i < j < length l)%nat -> nth i l 0 < nth j l 0.
