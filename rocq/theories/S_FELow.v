(** Specification notions for the finite element schemes: wave speeds of the two problems, steps allowed by a bound. *)
From Coq Require Import Reals.
From Verif Require Import M_FE.
Open Scope R_scope.
(** |f'(u)| *)
Definition wave_speed (pr : problem) (u : R) : R := match pr with Advection => 1 | Burgers => Rabs u end.
(** dt is at most the step; no restriction if the step is infinite *)
Definition step_allows (step : option R) (dt : R) : Prop := match step with None => True | Some x => dt <= x end.
