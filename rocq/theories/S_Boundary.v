(** Specification of ghost values: the value of cell [j] (any integer) of the
    extension of [v] by a boundary condition at the side that [j] lies on. *)
From Coq Require Import Reals List ZArith Arith String.
From Verif Require Import Prelude.
Import ListNotations.
Open Scope R_scope.

Inductive cond (W : Type) :=
| Periodic | Outflow | Inflow (g : R -> W) | Wall (neg : W -> W).
Arguments Periodic {W}. Arguments Outflow {W}. Arguments Inflow {W} g. Arguments Wall {W} neg.

(** which condition a name denotes, given the optional inflow function; [wall] says
    whether (and how) walls are available *)
Definition names_cond {W} (wall : option (W -> W)) (name : string) (inflow : option (R -> W)) (c : cond W) : Prop :=
  match c with
  | Periodic => name = "periodic"%string
  | Outflow => name = "outflow"%string
  | Inflow g => name = "inflow"%string /\ inflow = Some g
  | Wall neg => name = "wall"%string /\ wall = Some neg
  end.

(** value of a cell outside of 0..n-1. For a wall this is the edge cell with
    reversed discharge. *)
Definition outside_value {W} (d : W) (v : list W) (time : option R) (c : cond W) (j : Z) (x : W) : Prop :=
  let n := Z.of_nat (List.length v) in
  match c with
  | Periodic => x = nth (Z.to_nat (j mod n)) v d
  | Outflow => x = nth (if (j <? 0)%Z then 0 else List.length v - 1)%nat v d
  | Inflow g => exists t, time = Some t /\ x = g t
  | Wall neg => x = neg (nth (if (j <? 0)%Z then 0 else List.length v - 1)%nat v d)
  end.

Definition extension_value {W} (d : W) (v : list W) (time : option R) (cl cr : cond W) (j : Z) (x : W) : Prop :=
  if (j <? 0)%Z then outside_value d v time cl j x
  else if (j <? Z.of_nat (List.length v))%Z then x = nth (Z.to_nat j) v d
  else outside_value d v time cr j x.

(** the two names used: a single name is used on both sides *)
Definition side_names (conditions : list string) (l r : string) : Prop :=
  match conditions with
  | [] => False
  | [c] => l = c /\ r = c
  | c1 :: c2 :: _ => l = c1 /\ r = c2
  end.
