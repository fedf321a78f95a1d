(** Specification of a time dependent solution with history: a log of
    (time, value) pairs, newest last. *)
From Coq Require Import Reals List.
Import ListNotations.
Open Scope R_scope.

Section Spec.
Context {V : Type}.

(** the calls a user can make *)
Inductive call := CUpdate (dt : R) (v : V) | CSetValue (v : V) (t : R).

Definition log := list (R * V).

(** [keeps_before t l l1]: l1 is l without the entries at or after time t *)
Inductive keeps_before (t : R) : log -> log -> Prop :=
| kb_nil : keeps_before t [] []
| kb_keep : forall e l l1, fst e < t -> keeps_before t l l1 -> keeps_before t (e :: l) (e :: l1)
| kb_drop : forall e l l1, t <= fst e -> keeps_before t l l1 -> keeps_before t (e :: l) l1.

(** [log_step good l c l']: call [c] turns log [l] into [l'].
    A value that is not [good] (finite) changes nothing; an update appends an
    entry dt later than the newest one; set_value drops all entries not earlier
    than t and appends (t, v). *)
Inductive log_step (good : V -> Prop) : log -> call -> log -> Prop :=
| log_update : forall l t u dt v, good v ->
    log_step good (l ++ [(t, u)]) (CUpdate dt v) ((l ++ [(t, u)]) ++ [(t + dt, v)])
| log_set : forall l l1 v t, good v -> keeps_before t l l1 ->
    log_step good l (CSetValue v t) (l1 ++ [(t, v)])
| log_reject : forall l dt v, ~ good v -> log_step good l (CUpdate dt v) l
| log_reject_set : forall l v t, ~ good v -> log_step good l (CSetValue v t) l.

Inductive log_steps (good : V -> Prop) : log -> list call -> log -> Prop :=
| ls_nil : forall l, log_steps good l [] l
| ls_cons : forall l c l' cs l'', log_step good l c l' -> log_steps good l' cs l'' ->
    log_steps good l (c :: cs) l''.

Inductive increasing : list R -> Prop :=
| inc_nil : increasing []
| inc_one : forall t, increasing [t]
| inc_cons : forall a b l, a < b -> increasing (b :: l) -> increasing (a :: b :: l).
End Spec.
Arguments call V : clear implicits.
