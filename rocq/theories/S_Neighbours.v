(** Which cells of an interval mesh touch. Cell i has the nodes i and i+1; on a
    periodic mesh node n is node 0. *)
From Coq Require Import List ZArith Arith.
Import ListNotations.

Definition cell_nodes (n : nat) (periodic : bool) (i : nat) : list nat :=
  [i; if andb periodic (Nat.eqb (S i) n) then 0 else S i].
Definition share_node (n : nat) (periodic : bool) (i j : nat) : Prop :=
  exists k, In k (cell_nodes n periodic i) /\ In k (cell_nodes n periodic j).
