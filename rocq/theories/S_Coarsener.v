(** Specification of coarsening, independent of the implementation. *)
From Coq Require Import Reals List.
From Verif Require Import Prelude.
Import ListNotations.
Open Scope R_scope.

(** [coarse] is the vector of arithmetic means of consecutive blocks of [d]
    entries of [fine] (component [k] of every entry). *)
Definition block_average {W} `{CellOps W} (d : nat) (fine coarse : list W) : Prop :=
  length fine = (length coarse * d)%nat /\
  forall i (k : bool), (i < length coarse)%nat ->
    ccoord k (nth i coarse czero) =
    rsum (tab d (fun j => ccoord k (nth (i * d + j) fine czero))) / INR d.
