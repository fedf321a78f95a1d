(** Model of the commands calculate, plot and animate: command/calculate.py, command/plot.py, command/animate.py. Definitions only.
    Solvers are distinct objects: a state and what solve() does to it. [solve] returns the state after the call and the
    exception it raises, if any. The commands are the same for every kind of solver.
    Not modelled: what is written to the terminal (only whether something is), the pictures (colours, axes limits, files with
    extension png or mp4); a plot is its lines, with label, x- and y-values. *)
From Coq Require Import Reals String List Arith Bool.
From Verif Require Import Prelude M_ODE M_Solver M_ShallowWater M_Interpolate M_Boundary.
Import ListNotations.
Open Scope R_scope.

Section Commands.
Context {Sv : Type} (solve : Sv -> Sv * option exn).

(** the argument of Calculate, Plot and Animate: a solver, a list of solvers or None (no option -s: the default of argparse) *)
Inductive given := OneSolver (s : Sv) | SolverList (l : list Sv) | NoSolver.

(** command/calculate.py Calculate.execute L36-46, the loop: an exception of a solver ends the command *)
Fixpoint solve_all (l : list Sv) : list Sv * option exn :=
  match l with
  | [] => ([], None)
  | s :: l' =>
      match solve s with
      | (s', Some e) => (s' :: l', Some e)
      | (s', None) => let '(l2, r) := solve_all l' in (s' :: l2, r)
      end
  end.
Definition calculate_execute (g : given) : given * option exn :=
  match g with
  | OneSolver s => let '(s', r) := solve s in (OneSolver s', r)
  | NoSolver => (NoSolver, Some TypeError)                       (* len(None) *)
  | SolverList [s] => let '(s', r) := solve s in (SolverList [s'], r)
  | SolverList l => let '(l', r) := solve_all l in (SolverList l', r)
  end.

(** CalculateParser._build_solver L200-212 *)
Definition build_solvers {Ar : Type} (new : Ar -> result Sv) (arguments : option (list Ar)) : result given :=
  match arguments with
  | None => Ok NoSolver
  | Some l => bind (mapM new l) (fun l' => Ok (SolverList l'))
  end.
(** _add_save_history_argument L214-216 *)
Definition add_save_history {Ar : Type} (set : Ar -> Ar) (arguments : option (list Ar)) : result (option (list Ar)) :=
  match arguments with
  | None => Err TypeError                                         (* for ... in None *)
  | Some l => Ok (Some (map set l))
  end.

(** command/plot.py. [A] is the value at one point (a number, or height and discharge); [axes] computes, for every set of
    axes, the y-values from the grid and the values: scalar_axes, swe_axes below. *)
Context {A : Type} (axes : list (list R -> list A -> list R)).
Record line := { l_label : string; l_x : list R; l_y : list R }.
Record plotter := { p_axes : list (list line); p_available : bool }.
(** Plotter.__init__ L32-49 (the grid is an argument of the functions below) *)
Definition new_plotter : plotter := {| p_axes := map (fun _ => []) axes; p_available := false |}.
(** add_function_values: ScalarPlotter L120-124, ShallowWaterPlotter L196-223: one label for all axes or one for each *)
Definition label_of (labels : list string) (k : nat) : string :=
  if (length labels =? 1)%nat then nth 0 labels ""%string else nth k labels ""%string.
Fixpoint add_lines (k : nat) (fs : list (list R -> list A -> list R)) (old : list (list line)) (grid : list R) (values : list A) (labels : list string) : list (list line) :=
  match fs, old with
  | f :: fs', ls :: old' =>
      (ls ++ [{| l_label := label_of labels k; l_x := grid; l_y := f grid values |}]) :: add_lines (S k) fs' old' grid values labels
  | _, _ => old
  end.
Definition add_function_values (grid : list R) (values : list A) (labels : list string) (p : plotter) : plotter :=
  {| p_axes := add_lines 0 axes (p_axes p) grid values labels; p_available := true |}.
(** add_function L116-118, L192-194: the function may raise *)
Definition add_function (grid : list R) (f : R -> result A) (labels : list string) (p : plotter) : result plotter :=
  bind (mapM f grid) (fun values => Ok (add_function_values grid values labels p)).

(** what the commands read from a solver: solution.grid, solution.value, short *)
Context (grid_of : Sv -> list R) (value_of : Sv -> list A) (short_of : Sv -> string).
(** Plot._calculate_solutions L318-326 and Animate._calculate_solutions (animate.py L415-423): every exception is caught and
    written as a warning *)
Definition calculate_solutions (l : list Sv) : list Sv := map (fun s => fst (solve s)) l.
Definition solvers_of (g : given) : option (list Sv) :=          (* Plot.__init__ L301-304 *)
  match g with OneSolver s => Some [s] | SolverList l => Some l | NoSolver => None end.
(** _add_discrete_solutions L352-357 *)
Definition add_discrete_solutions (l : list Sv) (p : plotter) : plotter :=
  fold_left (fun p s => add_function_values (grid_of s) (value_of s) [short_of s] p) l p.
(** _add_exact_solution L345-350: errors are warnings *)
Definition add_exact_solution (grid : list R) (exact : R -> result A) (labels : list string) (p : plotter) : plotter :=
  match add_function grid exact labels p with Ok p' => p' | Err _ => p end.

(** Python's dict: assignment keeps the place of a key *)
Fixpoint dict_set {X : Type} (k : string) (v : X) (d : list (string * X)) : list (string * X) :=
  match d with
  | [] => [(k, v)]
  | (k', v') :: d' => if String.eqb k k' then (k', v) :: d' else (k', v') :: dict_set k v d'
  end.
(** _save_results L135-148, _save_result L266-275: the pickled dictionary, label -> xdata, ydata *)
Definition save_result (ls : list line) : list (string * (list R * list R)) :=
  fold_left (fun d l => dict_set (l_label l) (l_x l, l_y l) d) ls [].
(** the files: ScalarPlotter writes to the path, ShallowWaterPlotter L253-264 to path_h, path_q, path_v; [paths] gives them *)
Definition save_results (paths : string -> list string) (save_data : option string) (p : plotter)
  : list (string * list (string * (list R * list R))) :=
  match save_data with
  | None => []
  | Some s => if String.eqb s "" then [] else combine (paths s) (map save_result (p_axes p))
  end.

(** Plot.execute L306-316, _add_plots L336-343 and show L68-75. [setup] are the lines added by _setup: none, or the bathymetry (L225-233) *)
Record plot_input := {
  pi_grid : list R; pi_exact : R -> result A; pi_exact_labels : list string;
  pi_initial : option (R -> result A); pi_initial_labels : list string;
  pi_setup : list (list line); pi_paths : string -> list string; pi_save : option string; pi_executed : bool }.
Inductive plot_output :=
  | NothingToPlot (solvers : option (list Sv))
  | Plotted (solvers : option (list Sv)) (lines : list (list line)) (files : list (string * list (string * (list R * list R)))).
Definition plot_execute (i : plot_input) (g : given) : result plot_output :=
  let solvers := match solvers_of g with
                 | Some l => Some (if pi_executed i then l else calculate_solutions l)
                 | None => None end in
  let p1 := add_exact_solution (pi_grid i) (pi_exact i) (pi_exact_labels i) new_plotter in
  let p2 := match solvers with Some l => add_discrete_solutions l p1 | None => p1 end in
  bind (match pi_initial i with
        | Some u0 => add_function (pi_grid i) u0 (pi_initial_labels i) p2
        | None => Ok p2 end) (fun p3 =>
  if p_available p3 then
    let p4 := {| p_axes := map2 (fun a b => a ++ b) (p_axes p3) (pi_setup i); p_available := true |} in
    Ok (Plotted solvers (p_axes p4) (save_results (pi_paths i) (pi_save i) p4))
  else Ok (NothingToPlot solvers)).
End Commands.
Arguments given Sv : clear implicits.
Arguments plot_input A : clear implicits.
Arguments plot_output Sv : clear implicits.

(** ScalarPlotter L120-124: the values themselves; ShallowWaterPlotter L212-223: total height, discharge, velocity *)
Definition scalar_axes : list (list R -> list R -> list R) := [fun _ v => v].
Definition swe_axes (bathymetry : R -> R) : list (list R -> list state -> list R) :=
  [fun grid v => map2 (fun x u => fst u + bathymetry x) grid v; fun _ v => map snd v; fun _ v => map velocity v].

(** PlotParser._build_save_data L427-433; [splitext] is os.path.splitext *)
Definition build_save_data (splitext : string -> string * string) (default : string) (save_data save_plot : option string) : string :=
  match save_data with
  | Some s => s
  | None => match save_plot with
            | Some s => if String.eqb s "" then default else append (fst (splitext s)) ".pkl"
            | None => default end
  end.
Definition scalar_paths (s : string) : list string := [s].
Definition swe_paths (splitext : string -> string * string) (s : string) : list string :=
  map (fun suffix => append (fst (splitext s)) (append suffix (snd (splitext s)))) ["_h"; "_q"; "_v"]%string.

(** command/animate.py. An animated object: a solution with its histories (rows: the values at all grid points, one after the
    other), or a function of place and time with a list of components. *)
Inductive animatable :=
  | ASolution (grid times : list R) (values : list (list R))
  | AFunction (f : R -> R -> result (list R)).
(** numpy.union1d: the sorted distinct entries *)
Fixpoint insert_unique (x : R) (l : list R) : list R :=
  match l with
  | [] => [x]
  | y :: l' => if Rltb x y then x :: y :: l' else if Reqb x y then y :: l' else y :: insert_unique x l'
  end.
Definition union1d (a b : list R) : list R := fold_right insert_unique [] (a ++ b).
(** add_animatable L100-113 *)
Definition temporal_grid_of (time_grid : list R) (a : animatable) : list R :=
  match a with ASolution _ times _ => times | AFunction _ => time_grid end.
Definition spatial_grid_of (space_grid : list R) (a : animatable) : list R :=
  match a with ASolution grid _ _ => grid | AFunction _ => space_grid end.
(** start_index L77-79 *)
Fixpoint first_from (start : R) (i : nat) (times : list R) : result nat :=
  match times with
  | [] => Err IndexError
  | t :: times' => if Rleb start t then Ok i else first_from start (S i) times'
  end.
(** _adjust_values L135-156 *)
Definition adjust_values (space_grid times : list R) (a : animatable) : result (list (list R)) :=
  match a with
  | ASolution _ old values => temporal_interpolator old values times
  | AFunction f => mapM (fun t => bind (mapM (fun x => f x t) space_grid) (fun rows => Ok (List.concat rows))) times
  end.
(** _setup L129-133: the reduction of the temporal grids (of at least one object), the values, the start index (L158-167).
    A frame is its time and the values shown, one row for every object (_animate L210-216, L264-283). *)
Record animator := { an_space : list R; an_time : list R; an_start : R }.
Inductive animation := NothingToAnimate | Frames (frames : list (R * list (list R))).
Definition animator_show (an : animator) (objects : list animatable) : result animation :=
  match map (temporal_grid_of (an_time an)) objects with
  | [] => Ok NothingToAnimate
  | g :: gs =>
      let times := fold_left union1d gs g in
      bind (mapM (adjust_values (an_space an) times) objects) (fun values =>
      if (length times =? 0)%nat then Err IndexError               (* values[0] in _adjust_axes *)
      else
      bind (first_from (an_start an) 0 times) (fun start =>
      Ok (Frames (map (fun i => (nth i times 0, map (fun v => nth i v []) values)) (seq start (length times - start))))))
  end.
(** Animator.__init__ L44-75 *)
Definition new_animator (space_grid time_grid : list R) (start_time : option R) (benchmark_start : R) : animator :=
  {| an_space := space_grid; an_time := time_grid; an_start := py_or start_time benchmark_start |}.

Section Animate.
Context {Sv : Type} (solve : Sv -> Sv * option exn) (history_of : Sv -> animatable).
(** Animate.execute L403-442: None as solver is a TypeError (for ... in tqdm(None)); the exact solution is added if it can be
    evaluated at (0, 0) *)
Definition animate_execute (an : animator) (exact : R -> R -> result (list R)) (initial : option (R -> result (list R))) (executed : bool) (g : given Sv)
  : result (list Sv * animation) :=
  match solvers_of g with
  | None => Err TypeError
  | Some l =>
      let l' := if executed then l else calculate_solutions solve l in
      let objects := map history_of l'
                     ++ (match exact 0 0 with Ok _ => [AFunction exact] | Err _ => [] end)
                     ++ (match initial with Some u0 => [AFunction (fun x _ => u0 x)] | None => [] end) in
      bind (animator_show an objects) (fun r => Ok (l', r))
  end.
End Animate.

(** a solver of core/solver.py (M_Solver) as an object: at most [n] iterations of the loop *)
Section Instance.
Context {V : Type} `{VecOps V} (finite : V -> bool) (n : nat).
Definition solve_object (o : config V * world V) : (config V * world V) * option exn :=
  let '(c, w) := o in
  match M_Solver.solve finite c n w with
  | (w', _, RaisedExn e) => ((c, w'), Some e)
  | (w', _, _) => ((c, w'), None)
  end.
End Instance.
