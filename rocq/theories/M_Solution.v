(** Model of core/discrete_solution.py. Definitions only.

    [V] is the type of dof vectors and [finite] the test np.isfinite(v).all().
    Operations return the new state together with the exception raised, if any,
    because a raising python method leaves its object in some state.
    Simplifications: values are immutable here (array aliasing is the subject of
    M_Solver.v); all values of one solution have the same shape (np.append with
    axis=0 would raise otherwise); the space/grid attributes are left out. *)
From Coq Require Import Reals List Bool.
From Verif Require Import Prelude M_Coarsener.
Import ListNotations.
Open Scope R_scope.

Section Solution.
Context {V : Type} (finite : V -> bool).

(** DiscreteSolution, L11-35 *)
Record dsol := { d_time : R; d_value : V }.

(** DiscreteSolution.update, L53-58 *)
Definition d_update (dt : R) (v : V) (s : dsol) : dsol * option exn :=
  if finite v then ({| d_time := d_time s + dt; d_value := v |}, None)
  else (s, Some ValueError).

(** DiscreteSolution.set_value, L60-61 *)
Definition d_set_value (v : V) (t : R) (s : dsol) : dsol * option exn :=
  d_update (t - d_time s) v s.

(** DiscreteSolutionWithHistory, L70-103 *)
Record hsol := { h_sol : dsol; h_times : list R; h_values : list V }.

(** L76-79 *)
Definition h_new (s : dsol) : hsol :=
  {| h_sol := s; h_times := [d_time s]; h_values := [d_value s] |}.

(** L97-99: time_step_history = np.diff(time_history) *)
Fixpoint diff (l : list R) : list R :=
  match l with
  | a :: ((b :: _) as rest) => (b - a) :: diff rest
  | _ => []
  end.
Definition h_time_steps (h : hsol) : list R := diff (h_times h).

(** L105-110: the wrapped solution is updated first, then time and value are
    appended. *)
Definition h_update (dt : R) (v : V) (h : hsol) : hsol * option exn :=
  let '(s', e) := d_update dt v (h_sol h) in
  match e with
  | Some _ => ({| h_sol := s'; h_times := h_times h; h_values := h_values h |}, e)
  | None => ({| h_sol := s'; h_times := h_times h ++ [d_time s'];
                h_values := h_values h ++ [v] |}, None)
  end.

(** boolean mask time_history < time, L113-115 *)
Fixpoint mask_values (t : R) (times : list R) (values : list V) : list V :=
  match times, values with
  | t' :: ts, v :: vs => if Rltb t' t then v :: mask_values t ts vs else mask_values t ts vs
  | _, _ => []
  end.

(** L112-117: the history is truncated, then update is called *)
Definition h_set_value (v : V) (t : R) (h : hsol) : hsol * option exn :=
  let h' := {| h_sol := h_sol h;
               h_times := filter (fun t' => Rltb t' t) (h_times h);
               h_values := mask_values t (h_times h) (h_values h) |} in
  h_update (t - d_time (h_sol h')) v h'.

Inductive hop := Update (dt : R) (v : V) | SetValue (v : V) (t : R).

(** A caller that catches the exceptions and goes on. *)
Definition h_step (h : hsol) (o : hop) : hsol :=
  match o with
  | Update dt v => fst (h_update dt v h)
  | SetValue v t => fst (h_set_value v t h)
  end.
Definition h_run (s : dsol) (ops : list hop) : hsol := fold_left h_step ops (h_new s).

Definition d_step (s : dsol) (o : hop) : dsol :=
  match o with
  | Update dt v => fst (d_update dt v s)
  | SetValue v t => fst (d_set_value v t s)
  end.
Definition d_run (s : dsol) (ops : list hop) : dsol := fold_left d_step ops s.
End Solution.

Arguments dsol V : clear implicits.
Arguments hsol V : clear implicits.
Arguments hop V : clear implicits.

(** CoarseSolution, L120-143: time, update and set_value are delegated to the
    wrapped solution; value is coarsened on every access. *)
Definition cs_time {W} (s : dsol (list W)) : R := d_time s.
Definition cs_value {W} `{CellOps W} (d : nat) (s : dsol (list W)) : result (list W) :=
  coarsen d (d_value s).
Definition cs_update {W} (finite : list W -> bool) := d_update finite.
Definition cs_set_value {W} (finite : list W -> bool) := d_set_value finite.

(** CoarseSolutionWithHistory, L146-164 *)
Record chsol W := { ch_sol : dsol (list W); ch_times : list R; ch_values : list (list W) }.
Arguments ch_sol {W}. Arguments ch_times {W}. Arguments ch_values {W}.

(** L147-149: the constructor may fail because the value is coarsened *)
Definition ch_new {W} `{CellOps W} (d : nat) (s : dsol (list W)) : result (chsol W) :=
  bind (coarsen d (d_value s)) (fun c =>
  Ok {| ch_sol := s; ch_times := [d_time s]; ch_values := [c] |}).

(** L159-164 *)
Definition ch_update {W} `{CellOps W} (finite : list W -> bool) (d : nat) (dt : R) (v : list W)
  (h : chsol W) : chsol W * option exn :=
  let '(s', e) := d_update finite dt v (ch_sol h) in
  match e with
  | Some _ => ({| ch_sol := s'; ch_times := ch_times h; ch_values := ch_values h |}, e)
  | None =>
      match coarsen d v with
      | Ok c => ({| ch_sol := s'; ch_times := ch_times h ++ [d_time s'];
                    ch_values := ch_values h ++ [c] |}, None)
      | Err e' => ({| ch_sol := s'; ch_times := ch_times h ++ [d_time s'];
                      ch_values := ch_values h |}, Some e')
      end
  end.

(** inherited L112-117, calling the overridden update *)
Definition ch_set_value {W} `{CellOps W} (finite : list W -> bool) (d : nat) (v : list W) (t : R)
  (h : chsol W) : chsol W * option exn :=
  let h' := {| ch_sol := ch_sol h;
               ch_times := filter (fun t' => Rltb t' t) (ch_times h);
               ch_values := mask_values t (ch_times h) (ch_values h) |} in
  ch_update finite d (t - d_time (ch_sol h')) v h'.

Definition ch_step {W} `{CellOps W} (finite : list W -> bool) (d : nat) (h : chsol W)
  (o : hop (list W)) : chsol W :=
  match o with
  | Update dt v => fst (ch_update finite d dt v h)
  | SetValue v t => fst (ch_set_value finite d v t h)
  end.
