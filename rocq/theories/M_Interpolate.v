(** Model of core/interpolate.py and of ErrorEvolutionCalculator (command/error_evolution.py L18-109). Definitions only.
    An array of shape (n, d1, d2, ...) is a list of n rows; a row is the list of its entries in row-major order,
    which is the order in which itertools.product visits the indices. *)
From Coq Require Import Reals List Arith Bool.
From Verif Require Import Prelude M_Mesh M_Quadrature M_Boundary M_Norm.
Import ListNotations.
Open Scope R_scope.

(** numpy.interp, one evaluation point: [a], [u] are the last sample point not right of [x] and its value. numpy finds the
    interval by bisection, which agrees with this walk for increasing sample points (for others its result is unspecified). *)
Fixpoint interp_from (a u : R) (xp fp : list R) (x : R) : R :=
  match xp, fp with
  | b :: xp', w :: fp' => if Rltb x b then (w - u) / (b - a) * (x - a) + u else interp_from b w xp' fp' x
  | _, _ => u
  end.
Definition interp1 (xp fp : list R) (x : R) : R :=
  match xp, fp with
  | a :: xp', u :: fp' => if Rltb x a then u else interp_from a u xp' fp' x
  | _, _ => 0
  end.
(** numpy.interp: ValueError for no sample points or different lengths *)
Definition np_interp (x xp fp : list R) : result (list R) :=
  if (length xp =? 0)%nat then Err ValueError
  else if negb (length xp =? length fp)%nat then Err ValueError
  else Ok (map (interp1 xp fp) x).

(** core/interpolate.py L70-86 TemporalInterpolator.__call__: values[0] raises IndexError without values; column by column *)
Definition column (j : nat) (rows : list (list R)) : list R := map (fun row => nth j row 0) rows.
Definition temporal_interpolator (old_time : list R) (values : list (list R)) (new_time : list R) : result (list (list R)) :=
  match values with
  | [] => Err IndexError
  | row0 :: _ =>
      bind (mapM (fun j => np_interp new_time old_time (column j (firstn (length old_time) values))) (seq 0 (length row0))) (fun cols =>
      Ok (tab (length new_time) (fun i => map (fun col => nth i col 0) cols)))
  end.

(** L89-123 SpatialInterpolator.__call__: [values] has shape (time, grid, k): the same along the second axis *)
Definition spatial_interpolator (k : nat) (old_grid : list R) (values : list (list (list R))) (new_grid : list R) : result (list (list (list R))) :=
  mapM (fun v =>
    bind (mapM (fun j => np_interp new_grid old_grid (column j (firstn (length old_grid) v))) (seq 0 k)) (fun cols =>
    Ok (tab (length new_grid) (fun i => map (fun col => nth i col 0) cols)))) values.

(** L33-55 CellAverageInterpolator for a scalar function *)
Section Average.
Context (eig : nat -> (nat -> nat -> R) -> (nat -> R) * (nat -> nat -> R)).
Definition cell_average (degree : nat) (f : R -> R) (cell : interval) : result R :=
  bind (gaussian eig degree cell) (fun Q => Ok (integrate Q f / ilength cell)).
Definition cell_averages (degree : nat) (m : mesh) (f : R -> R) : result (list R) :=
  mapM (cell_average degree f) (m_cells m).
(** L58-67 NodeValuesInterpolator *)
Definition node_values (nodes : list R) (f : R -> R) : list R := map f nodes.
(** L14-25 Interpolator.interpolate for a function with [k] components: one scalar interpolation per component, transposed *)
Definition interpolate_components (scalar : (R -> R) -> result (list R)) (k : nat) (f : R -> list R) : result (list (list R)) :=
  bind (mapM (fun i => scalar (fun x => nth i (f x) 0)) (seq 0 k)) (fun cols =>
  Ok (tab (length (nth 0 cols [])) (fun i => map (fun col => nth i col 0) cols))).
End Average.

(** command/error_evolution.py: a solution with history, its [space] is known or not. Scalar solutions: rows are degree of freedom vectors. *)
Record history := { h_time : list R; h_values : list (list R); h_shape : nat; h_space : bool }.
(** L88-109 _adjust_time: the longer history's time; the other solution is interpolated *)
Definition adjust_time (solution exact : history) : result (list R * list (list R) * list (list R)) :=
  if (length (h_time exact) <? length (h_time solution))%nat then
    bind (temporal_interpolator (h_time exact) (h_values exact) (h_time solution)) (fun ve =>
    Ok (h_time solution, h_values solution, ve))
  else
    bind (temporal_interpolator (h_time solution) (h_values solution) (h_time exact)) (fun v =>
    Ok (h_time exact, v, h_values exact)).
(** float division of numpy arrays: division by zero gives nan or inf with a warning, here None *)
Definition np_div (a b : R) : option R := if Reqb b 0 then None else Some (a / b).
(** L21-42 __call__: the relative error at every time; [element] is space.element, [norm] the norm of the space, applied to
    arrays of values over all times, entry by entry *)
Definition error_evolution (element : list R -> nat -> R -> R) (norm : (nat -> R -> R) -> result R) (solution exact : history)
  : result (list R * list (option R)) :=
  if negb (h_shape solution =? h_shape exact)%nat then Err AssertionError
  else if negb (h_space solution || h_space exact) then Err ValueError
  else
    bind (adjust_time solution exact) (fun a => let '(time, values, values_exact) := a in
    bind (mapM (fun p => norm (fun c x => element (fst p) c x - element (snd p) c x)) (combine values values_exact)) (fun num =>
    bind (mapM (fun v => norm (element v)) values_exact) (fun den =>
    Ok (time, map2 np_div num den)))).
