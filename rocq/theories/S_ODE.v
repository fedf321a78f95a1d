(** Specification of explicit Runge-Kutta steps (textbook formulas, read
    coordinate by coordinate), of rooted trees and order conditions, and of
    convexity. *)
From Coq Require Import Reals List Arith.
From Verif Require Import Prelude M_ODE.
Import ListNotations.
Open Scope R_scope.

(** A set of admissible vectors (for arrays: fixed length) on which addition and
    scaling act coordinatewise and vectors are determined by coordinates. *)
Class VecLaws (V : Type) `{VecOps V} (D : V -> Prop) := {
  vdom_add : forall a b, D a -> D b -> D (vadd a b);
  vdom_scal : forall r a, D a -> D (vscal r a);
  vcoord_add : forall p a b, D a -> D b -> vcoord p (vadd a b) = vcoord p a + vcoord p b;
  vcoord_scal : forall p r a, D a -> vcoord p (vscal r a) = r * vcoord p a;
  vcoord_ext : forall a b, D a -> D b -> (forall p, vcoord p a = vcoord p b) -> a = b
}.

(** entry (i, j) of the matrix, entry i of the weights/nodes *)
Definition rkA (T : tableau) (i j : nat) : R := nth j (nth i (rk_A T) []) 0.
Definition rkb (T : tableau) (i : nat) : R := nth i (rk_b T) 0.
Definition rkc (T : tableau) (i : nat) : R := nth i (rk_c T) 0.

(** [X i], [k i] are the stage values and slopes of one explicit step from (t,u):
    X_i = u + dt * sum_{j<i} a_ij k_j,   k_i = f (t + c_i dt, X_i). *)
Definition rk_stage_spec {V} `{VecOps V} (D : V -> Prop) (f : R -> V -> V) (T : tableau)
  (dt t : R) (u : V) (s : nat) (X k : nat -> V) : Prop :=
  forall i, (i < s)%nat ->
    D (X i) /\
    (forall p, vcoord p (X i) = vcoord p u + dt * rsum (tab i (fun j => rkA T i j * vcoord p (k j)))) /\
    k i = f (t + rkc T i * dt) (X i).

(** u' = u + dt * sum_i b_i k_i *)
Definition rk_result_spec {V} `{VecOps V} (D : V -> Prop) (T : tableau) (dt : R) (u : V)
  (s : nat) (k : nat -> V) (u' : V) : Prop :=
  D u' /\ forall p, vcoord p u' = vcoord p u + dt * rsum (tab s (fun i => rkb T i * vcoord p (k i))).

(** ** Rooted trees and order conditions (Butcher) *)
Inductive tree := Node (children : list tree).

Fixpoint tree_size (t : tree) : nat :=
  match t with
  | Node ch => S ((fix go l := match l with [] => O | x :: l' => (tree_size x + go l')%nat end) ch)
  end.

(** gamma(t) = |t| * product of gamma over the children *)
Fixpoint tree_gamma (t : tree) : R :=
  match t with
  | Node ch => INR (tree_size t) *
      (fix go l := match l with [] => 1 | x :: l' => tree_gamma x * go l' end) ch
  end.

(** Phi_i(t) = product over children c of sum_j a_ij Phi_j(c) *)
Fixpoint tree_phi (T : tableau) (s : nat) (t : tree) (i : nat) : R :=
  match t with
  | Node ch =>
      (fix go l := match l with
                   | [] => 1
                   | x :: l' => rsum (tab s (fun j => rkA T i j * tree_phi T s x j)) * go l'
                   end) ch
  end.

Definition order_condition (T : tableau) (t : tree) : Prop :=
  let s := length (rk_b T) in
  rsum (tab s (fun i => rkb T i * tree_phi T s t i)) = 1 / tree_gamma t.

(** order p: the conditions of all trees with at most p vertices hold *)
Definition has_order (T : tableau) (p : nat) : Prop :=
  forall t, (tree_size t <= p)%nat -> order_condition T t.

Definition consistent_nodes (T : tableau) : Prop :=
  forall i, (i < length (rk_b T))%nat ->
    rkc T i = rsum (tab (length (rk_b T)) (fun j => rkA T i j)).

Definition explicit (T : tableau) : Prop :=
  forall i j, (i <= j)%nat -> rkA T i j = 0.

(** ** Convex sets of vectors *)
Definition convex_set {V} `{VecOps V} (K : V -> Prop) : Prop :=
  forall a b r, K a -> K b -> 0 <= r <= 1 -> K (vadd (vscal r a) (vscal (1 - r) b)).
