(** Specification: convex functions of finite element solutions. *)
From Coq Require Import Reals List.
From Coquelicot Require Import Coquelicot.
From Verif Require Import Prelude M_Misc M_Mesh M_FE S_FE.
Import ListNotations.
Open Scope R_scope.

(** l is the integral of the finite element that has the values phi(u) at the nodes (of the interpolant of phi(u)) *)
Definition integral_of (m : mesh) (s : fespace) (phi : R -> R) (u : list R) (l : R) : Prop :=
  integral_over (m_cells m) (element s (map phi u)) l.
(** the integral for v is at most the one for u *)
Definition no_more (m : mesh) (s : fespace) (phi : R -> R) (u v : list R) : Prop :=
  exists lu lv, integral_of m s phi u lu /\ integral_of m s phi v lv /\ lv <= lu.
