(** Specification of norms of cell dependent functions (cell index, point). *)
From Coq Require Import Reals.
Open Scope R_scope.
Definition cfun := nat -> R -> R.
Definition is_seminorm (N : cfun -> R) : Prop :=
  (forall f, 0 <= N f) /\
  (forall c f, N (fun i x => c * f i x) = Rabs c * N f) /\
  (forall f g, N (fun i x => f i x + g i x) <= N f + N g) /\
  N (fun _ _ => 0) = 0.
