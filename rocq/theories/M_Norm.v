(** Model of core/norm.py, FiniteVolumeElement and the error calculators of command/error.py. Definitions only.
    Functions have real values; for vector valued functions the code works componentwise (axis=0). *)
From Coq Require Import Reals List Arith Bool.
From Verif Require Import Prelude M_Mesh M_Quadrature M_Boundary M_Neighbours.
Import ListNotations.
Open Scope R_scope.

(** python's [x or default] for an optional number *)
Definition or_default (x : option nat) (d : nat) : nat :=
  match x with None => d | Some O => d | Some k => k end.

Section Norms.
Context (eig : nat -> (nat -> nat -> R) -> (nat -> R) * (nat -> nat -> R)).
(** the loop over the cells, L40-45, L73-78 *)
Definition over_cells {A} (m : mesh) (f : nat -> interval -> A) : list A := map2 f (seq 0 (m_len m)) (m_cells m).
(** L48-65, L80-98: derivative(cell) * sum of w * value, values at the transformed nodes *)
Definition norm_on_cell (Q : quadrature) (value : R -> R) (cell : interval) : R :=
  affine_derivative cell * rsum (map2 Rmult (q_weights Q) (map (fun node => value (affine node cell)) (q_nodes Q))).
(** L2Norm L35-65, IntegralNorm L25-32 *)
Definition l2norm (degree : option nat) (m : mesh) (f : nat -> R -> R) : result R :=
  bind (local_quadrature eig (or_default degree 1)) (fun Q =>
  Ok (sqrt (rsum (over_cells m (fun c cell => norm_on_cell Q (fun x => (f c x) ^ 2) cell))))).
(** L1Norm L68-98 *)
Definition l1norm (degree : option nat) (m : mesh) (f : nat -> R -> R) : result R :=
  bind (local_quadrature eig (or_default degree 1)) (fun Q =>
  Ok (rsum (over_cells m (fun c cell => norm_on_cell Q (fun x => Rabs (f c x)) cell)))).
(** solver_spaces (the maximum norm) L101-131 *)
Definition linf_points (points : option nat) (cell : interval) : list R :=
  linspace (ia cell) (ib cell) (or_default points 10 - 1).
Definition linfnorm (points : option nat) (m : mesh) (f : nat -> R -> R) : result R :=
  bind (mapM (fun r => r) (over_cells m (fun c cell => amax (map (fun x => Rabs (f c x)) (linf_points points cell))))) amax.

(** finite_volume/space.py L45-53 FiniteVolumeElement.__call__ (cell index in range) *)
Definition fv_element (dof : list R) (c : nat) (x : R) : R := nth c dof 0.

(** command/error.py L26-40 ErrorCalculator with the norm [norm]: exact is a discrete solution (an element of the
    same space) or a function of x *)
Definition error_calculator (norm : (nat -> R -> R) -> result R) (time : R) (exact discrete : nat -> R -> R) : result (R * R) :=
  bind (norm (fun c x => exact c x - discrete c x)) (fun e => Ok (time, e)).
End Norms.

(** command/error.py L43-118 EOCCalculator. [errors] are the three errors of each refinement.
    Python floats with nan: None stands for nan. log2 of old/new; new = 0 gives inf with a warning in
    numpy, which the model reports as error. *)
Definition log2 (x : R) : R := ln x / ln 2.
(** L105-118 _calculate_eoc for one norm; [errors] is the column of this norm filled up to [index] *)
Definition calculate_eoc (errors : list R) (index : nat) : option R :=
  match index with
  | O => None
  | S k => Some (log2 (nth k errors 0 / nth (S k) errors 0))
  end.
(** L54-69 __call__: one (dofs, errors, eocs) entry per pair of solver and space. [error_of s] is _calculate_error,
    the three norms of the difference to the exact solution *)
Fixpoint eoc_rows {V : Type} (dim : V -> nat) (error_of : V -> list R) (index : nat) (done : list (list R)) (solvers : list V)
  : list (nat * list R * list (option R)) :=
  match solvers with
  | [] => []
  | s :: rest =>
      let errors := done ++ [error_of s] in
      (dim s, error_of s, map (fun k => calculate_eoc (map (fun e => nth k e 0) errors) index) (seq 0 3))
        :: eoc_rows dim error_of (S index) errors rest
  end.
Definition eoc_calculator {V : Type} (dim : V -> nat) (error_of : V -> list R) (solvers : list V) :=
  eoc_rows dim error_of 0 [] solvers.
(** L292-305 _build_eoc_solutions: mesh sizes 2**i * mesh_size for i in range(refine) *)
Definition eoc_mesh_sizes (mesh_size refine : nat) : list nat := map (fun i => (2 ^ i * mesh_size)%nat) (seq 0 refine).
