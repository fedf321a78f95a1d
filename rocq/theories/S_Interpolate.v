(** Specification: piecewise linear interpolation. *)
From Coq Require Import Reals List.
Import ListNotations.
Open Scope R_scope.

(** [y] is the value at [x] of the continuous function which is linear between the points (xp_i, fp_i) and constant outside. *)
Definition piecewise_linear (xp fp : list R) (x y : R) : Prop :=
  (x <= nth 0 xp 0 -> y = nth 0 fp 0) /\
  (nth (length xp - 1) xp 0 <= x -> y = nth (length xp - 1) fp 0) /\
  (forall i, (S i < length xp)%nat -> nth i xp 0 <= x <= nth (S i) xp 0 ->
     (y - nth i fp 0) * (nth (S i) xp 0 - nth i xp 0) = (x - nth i xp 0) * (nth (S i) fp 0 - nth i fp 0)).

(** entry j of row i *)
Definition entry (values : list (list R)) (i j : nat) : R := nth j (nth i values []) 0.
(** an array: all rows have k entries *)
Definition rectangular (k : nat) (values : list (list R)) : Prop := forall row, In row values -> length row = k.
