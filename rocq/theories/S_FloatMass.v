(** What a run in double precision conserves: notions used in the statements about M_FloatODE. *)
From Coq Require Import Reals List Arith.
From Verif Require Import Prelude M_Boundary M_Flux M_ODE M_FloatStepping.
Import ListNotations.
Open Scope R_scope.

(** the operations on cell values are those of the reals, each rounded to the next double *)
Definition rounded {W : Type} (H : CellOps W) : Prop :=
  (forall k a b, ccoord k (cadd a b) = rnd (ccoord k a + ccoord k b)) /\ (forall k c a, ccoord k (cscal c a) = rnd (c * ccoord k a)).

(** relative error of one rounding, and the smallest positive normal double *)
Definition unit_roundoff : R := / 2 ^ 53.
Definition smallest_normal : R := / 2 ^ 1022.

(** the component [k] of the cell values [v] is at most [M], the fluxes computed from them at time [t] are at most [F] *)
Definition call_within {W : Type} (H : CellOps W) (nf : nflux W) (bc : bconds W) (k : bool) (M F : R) (call : R * list W) : Prop :=
  let '(t, v) := call in
  (forall x, In x v -> Rabs (ccoord k x) <= M) /\
  (forall a fl fr, get_node_neighbours bc v (Nat.div (nf_dim nf) 2) (Some t) = Ok a -> nf_call nf a = Ok (fl, fr) -> forall x, In x fr -> Rabs (ccoord k x) <= F).
