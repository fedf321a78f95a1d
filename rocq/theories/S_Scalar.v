(** Specification of discrete maximum principles. [e] is the dof vector extended by
    one ghost cell on each side, so that cell i of the mesh is entry i+1 of [e]. *)
From Coq Require Import Reals List Arith.
From Verif Require Import Prelude M_Scalar.
Import ListNotations.
Open Scope R_scope.

(** x lies between the least and the largest of the values of cell i and its two
    neighbours *)
Definition in_local_bounds (e : list R) (i : nat) (x : R) : Prop :=
  Rmin (nth i e 0) (Rmin (nth (S i) e 0) (nth (S (S i)) e 0)) <= x <=
  Rmax (nth i e 0) (Rmax (nth (S i) e 0) (nth (S (S i)) e 0)).

(** states for which max(f'(l), f'(r)) bounds the characteristic speeds *)
Definition states_ok (p : problem) (l : list R) : Prop :=
  match p with Advection => True | Burgers => forall x, In x l -> 0 <= x end.

(** one forward Euler step *)
Definition euler_update (u v : list R) (dt : R) : list R := map2 (fun x y => x + dt * y) u v.

Definition in_range (lo hi : R) (u : list R) : Prop := forall x, In x u -> lo <= x <= hi.
(** prescribed inflow values stay in the range, too *)
Definition inflow_in_range (lo hi : R) (g : option (R -> R)) : Prop :=
  match g with None => True | Some f => forall t, lo <= f t <= hi end.
(** largest characteristic speed of states in [lo, hi] *)
Definition max_speed (p : problem) (hi : R) : R := match p with Advection => 1 | Burgers => hi end.
Definition range_ok (p : problem) (lo : R) : Prop := match p with Advection => True | Burgers => 0 < lo end.
