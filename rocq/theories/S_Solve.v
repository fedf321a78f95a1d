(** Specification of systems of linear equations and of their solver. *)
From Coq Require Import Reals List.
From Verif Require Import Prelude.
Open Scope R_scope.

(** entry i of the product with a matrix, and the quadratic form *)
Definition row (n : nat) (M : nat -> nat -> R) (x : nat -> R) (i : nat) : R := rsum (tab n (fun j => M i j * x j)).
Definition form (n : nat) (M : nat -> nat -> R) (x : nat -> R) : R := rsum (tab n (fun i => x i * row n M x i)).
Definition definite (n : nat) (M : nat -> nat -> R) : Prop :=
  (forall i j, (i < n)%nat -> (j < n)%nat -> M i j = M j i) /\ forall x i, (i < n)%nat -> x i <> 0 -> 0 < form n M x.

(** what is assumed of scipy.sparse.linalg.spsolve: systems with a symmetric positive definite matrix are solved *)
Definition solves (solver : (nat -> nat -> R) -> list R -> list R) (n : nat) : Prop :=
  forall M b, definite n M -> length b = n ->
  length (solver M b) = n /\ forall i, (i < n)%nat -> row n M (fun j => nth j (solver M b) 0) i = nth i b 0.
