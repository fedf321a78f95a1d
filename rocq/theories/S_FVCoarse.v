(** Programs that use a solver and a coarse solver side by side. *)
From Coq Require Import Reals List.
From Verif Require Import Prelude M_Boundary M_ODE M_TimeStepping M_Coarsener M_Solver M_ShallowWater M_FVSolver.
Import ListNotations.
Open Scope R_scope.

(** solve, possibly interrupted after [n] steps, or reinitialize with a benchmark *)
Inductive solver_use := USolve (n : nat) | UReinit (b : sw_benchmark).
(** what a use reports: how solve ended, the exception of reinitialize if any *)
Definition report := (outcome + option exn)%type.

Section Uses.
Context (eig : nat -> (nat -> nat -> R) -> (nat -> R) * (nat -> nat -> R)) (finite : list state -> bool).
(** on a solver with [n] cells *)
Definition fine_use (c : config (list state)) (n : nat) (u : solver_use) (w : world (list state)) : world (list state) * report :=
  match u with
  | USolve k => let '(w', _, st) := solve finite c k w in (w', inl st)
  | UReinit b => let '(w', e) := sw_reinitialize eig finite c n b w in (w', inr e)
  end.
Definition coarse_use (c : config (list state)) (history : bool) (d n : nat) (u : solver_use) (w : coarse_world) : coarse_world * report :=
  match u with
  | USolve k => let '(w', _, st) := coarse_solve finite c history d k w in (w', inl st)
  | UReinit b => let '(w', e) := coarse_reinitialize eig finite c history d n b w in (w', inr e)
  end.
Fixpoint fine_uses c n us w : world (list state) * list report :=
  match us with
  | [] => (w, [])
  | u :: us' => let '(w1, r) := fine_use c n u w in let '(w2, rs) := fine_uses c n us' w1 in (w2, r :: rs)
  end.
Fixpoint coarse_uses c history d n us w : coarse_world * list report :=
  match us with
  | [] => (w, [])
  | u :: us' => let '(w1, r) := coarse_use c history d n u w in let '(w2, rs) := coarse_uses c history d n us' w1 in (w2, r :: rs)
  end.
End Uses.
