(** Model of the main program around the commands: cls1 (print_arguments, _get_deep_dict, print_profile, execute_command, main),
    profiler.py, the names in the namespace of every command between argparse and the constructor of the command, and the methods
    as_dict. Definitions only.

    Simplified: what is printed is modelled as a tree of names, numbers are not printed; pprint and cProfile themselves are left out.
    The names are those of all fourteen commands; the words of the seven commands that M_CommandLine does not model stay
    unmodelled. *)
From Coq Require Import String Ascii Reals List Arith ZArith Bool.
From Verif Require Import Prelude M_Mesh M_Boundary M_ODE M_TimeStepping M_Solver M_ShallowWater M_FVSolver M_ScalarSolver M_Misc M_Command M_Series M_Parser M_CommandLine.
Import ListNotations.
Open Scope string_scope.
Open Scope list_scope.

(** ** Names in the namespace *)
Inductive any_command :=
| Main (c : command) | AnalyzeCurvature | AnalyzeData | DeleteCurvature | HelpPage | PrintNetwork | RunTests | TrainNetwork.
(** dest of the options (argparse: the long option with "-" replaced unless dest= is given): calculate.py L98-130, L183, plot.py L379-416,
    animate.py L466-500, error.py L250-269, error_evolution.py L362-369, generate_data.py L409-470, parameter_variation_test.py L188-249,
    command.py L28-40. -h has no dest *)
Definition dest (c : command) (o : copt) : list string :=
  match o with
  | OHelp => [] | OBench | ORandom => ["benchmark"] | OEnd => ["end_time"] | OSolver => ["solver"] | OProfile => ["profile"] | OArgs => ["args"]
  | OMesh => ["mesh_size"] | OInitial => ["initial"] | OSave => [match c with CPlot _ => "save_plot" | _ => "save" end] | OSaveData => ["save_data"] | OHide => ["show"]
  | OTimeSteps => ["time_steps"] | OStartTime => ["start_time"] | ODuration => ["duration"] | ORefine => ["refine"] | ODirectory => ["directory"]
  | ODegree => ["coarsening_degree"] | ONumber => ["solution_number"] | OSeed => ["seed"] | ORadius => ["input_radius"] | ONode => ["node_index"] | OAppend => ["append"]
  | OReferences => ["references"] | OPrefix => ["references_prefix"] | OVariations => ["variations"] | OProblems => ["initial_data_number"]
  | OSavePlot => ["save_plot"] | OSaveAnimation => ["save_animation"]
  end.
Definition add_name (n : string) (l : list string) : list string := if existsb (String.eqb n) l then l else l ++ [n].
Definition names_of (l : list string) : list string := fold_left (fun acc n => add_name n acc) l [].
(** parse_args: parser.py L24-29 (dest="command"), calculate.py L76-78 (dest="problem"), and the positional arguments and options of the other
    commands: analyze_curvature.py L142-149, analyze_data.py L41-43, delete_curvature.py L55-91, help.py L33-38, print_network.py L27-32, test.py L24-30,
    train_network.py L119-180 *)
Definition parsed_names (c : any_command) : list string :=
  names_of (["command"] ++
    match c with
    | Main c => match c with CCalculate _ | CPlot _ | CAnimate _ | CEOC _ => ["problem"] | CVariation => ["directory"] | _ => [] end ++ List.concat (map (dest c) (copts c))
    | AnalyzeCurvature => ["hide"; "save"; "profile"; "args"]
    | AnalyzeData => ["data_path"; "histogram"; "profile"; "args"]
    | DeleteCurvature => ["data_path"; "target_path"; "step_length"; "curvature_height_threshold"; "curvature_discharge_threshold"; "profile"; "args"]
    | HelpPage => ["parser"; "profile"; "args"]
    | PrintNetwork => ["network"; "profile"; "args"]
    | RunTests => ["file"; "profile"; "args"]
    | TrainNetwork => ["network"; "parameter"; "epochs"; "skip"; "seed"; "resume_training"; "confirm"; "plot_loss"; "profile"; "args"]
    end).
(** the statements of postprocess that create, read and delete names *)
Inductive statement := Assign (n : string) | Read (n : string) | Delete (n : string).
Definition build_solver : list statement := [Read "solver"; Read "benchmark"; Assign "solver"].
Definition adjust_end_time_names : list statement := [Read "end_time"; Read "benchmark"; Delete "end_time"].
(** calculate.py L187-216, plot.py L418-453, animate.py L502-533, error.py L271-309, error_evolution.py L371-384, generate_data.py L472-493,
    parameter_variation_test.py L251-286, analyze_curvature.py L151-155, analyze_data.py L45-49, delete_curvature.py L93-94, help.py L40-41,
    print_network.py L34-36, test.py L32-33, train_network.py L182-205 *)
Definition postprocess_names (c : any_command) : list statement :=
  match c with
  | Main (CCalculate _) => adjust_end_time_names ++ build_solver ++ [Assign "command"; Delete "problem"; Delete "benchmark"]
  | Main (CPlot _) => adjust_end_time_names ++ build_solver ++ [Read "save_data"; Read "save_plot"; Assign "save_data";
      Read "problem"; Read "benchmark"; Read "mesh_size"; Read "save_plot"; Read "save_data"; Read "show"; Assign "plotter";
      Delete "mesh_size"; Delete "save_plot"; Delete "save_data"; Delete "show"; Assign "command"; Delete "problem"]
  | Main (CAnimate _) => adjust_end_time_names ++ [Read "solver"] ++ build_solver ++ [Read "problem"; Read "benchmark"; Read "mesh_size"; Read "time_steps"; Read "save";
      Read "start_time"; Read "duration"; Read "show"; Assign "animator"; Delete "mesh_size"; Delete "time_steps"; Delete "save"; Delete "start_time"; Delete "duration";
      Delete "show"; Assign "command"; Delete "problem"]
  | Main (CEOC _) => adjust_end_time_names ++ [Assign "solvers"; Assign "solver_spaces"; Read "mesh_size"; Read "refine"; Read "solver"; Read "benchmark"; Delete "refine"; Delete "mesh_size"; Delete "solver";
      Assign "command"; Delete "problem"]
  | Main CErrorEvolution => [Read "solver"] ++ adjust_end_time_names ++ [Read "solver"] ++ build_solver ++ [Assign "command"; Delete "benchmark"]
  | Main CGenerate => [Read "solver"; Read "directory"; Assign "directory"; Read "append"; Assign "overwrite"; Assign "benchmark"] ++ build_solver ++
      [Read "solver"; Assign "solver"; Assign "command"; Delete "append"; Delete "benchmark"]
  | Main CVariation => [Read "solver"; Read "solver"; Assign "benchmark"] ++ adjust_end_time_names ++ build_solver ++ [Read "solver"; Assign "solver_approximation"; Assign "solver_exact"; Delete "solver";
      Read "variations"; Assign "parameter_variations"; Delete "variations"; Assign "command"; Delete "benchmark"]
  | AnalyzeCurvature => [Read "hide"; Assign "show"; Assign "command"; Delete "hide"]
  | AnalyzeData => [Read "data_path"; Assign "data_paths"; Assign "command"; Delete "data_path"]
  | DeleteCurvature | HelpPage | RunTests => [Assign "command"]
  | PrintNetwork => [Read "network"; Assign "network"; Assign "command"]
  | TrainNetwork => [Read "network"; Assign "network"; Read "resume_training"; Delete "resume_training"; Read "parameter"; Delete "parameter"; Assign "command"]
  end.
(** cls1 L25, L54-57, L60-62: after postprocess *)
Definition main_names : list statement := [Read "args"; Delete "args"; Read "profile"; Delete "profile"; Read "command"; Delete "command"].
(** a missing name is an AttributeError *)
Fixpoint execute_names (l : list statement) (names : list string) : result (list string) :=
  match l with
  | [] => Ok names
  | s :: l' =>
      match s with
      | Assign n => execute_names l' (add_name n names)
      | Read n => if existsb (String.eqb n) names then execute_names l' names else Err AttributeError
      | Delete n => if existsb (String.eqb n) names then execute_names l' (filter (fun m => negb (String.eqb n m)) names) else Err AttributeError
      end
  end.
(** the parameters of the constructor: required, optional; [true]: further keywords are accepted. calculate.py L32, plot.py L286-294, animate.py L383-391,
    error.py L182-187, error_evolution.py L120-127, generate_data.py L290-302, parameter_variation_test.py L67-80, analyze_curvature.py L99, analyze_data.py L14,
    delete_curvature.py L17-24, help.py L10, print_network.py L8, test.py L10, train_network.py L22-30 *)
Definition signature (c : any_command) : list string * list string * bool :=
  match c with
  | Main (CCalculate _) => (["solver"], [], true)
  | Main (CPlot _) => (["benchmark"; "solver"; "plotter"], ["initial"; "solver_executed"; "write_warnings"], false)
  | Main (CAnimate _) => (["benchmark"; "solver"; "animator"], ["initial"; "solver_executed"; "write_warnings"], false)
  | Main (CEOC _) => (["benchmark"; "solvers"; "solver_spaces"], [], false)
  | Main CErrorEvolution => (["solver"], ["suptitle"; "show"; "save"; "solver_executed"], false)
  | Main CGenerate => (["solver"; "directory"], ["solution_number"; "end_time"; "seed"; "coarsening_degree"; "input_radius"; "node_index"; "overwrite"; "print_output"], false)
  | Main CVariation => (["solver_approximation"; "solver_exact"; "directory"], ["initial_data_number"; "seed"; "end_time"; "references"; "references_prefix"; "parameter_variations"; "save_plot"; "save_animation"], false)
  | AnalyzeCurvature => ([], ["show"; "save"], false)
  | AnalyzeData => (["data_paths"], ["histogram"], false)
  | DeleteCurvature => (["data_path"; "target_path"], ["step_length"; "curvature_height_threshold"; "curvature_discharge_threshold"], false)
  | HelpPage => (["parser"], [], false)
  | PrintNetwork => (["network"], [], false)
  | RunTests => ([], ["file"], false)
  | TrainNetwork => (["network"], ["epochs"; "skip"; "seed"; "plot_loss"; "confirm"], false)
  end.
(** the call in execute_command, cls1 L64 *)
Definition call_constructor (c : any_command) (names : list string) : result (list string) :=
  let '(required, optional, more) := signature c in
  if forallb (fun n => more || existsb (String.eqb n) (required ++ optional)) names && forallb (fun n => existsb (String.eqb n) names) required then Ok names else Err TypeError.
Definition keywords (c : any_command) : result (list string) :=
  bind (execute_names (postprocess_names c) (parsed_names c)) (fun ns => bind (execute_names main_names ns) (call_constructor c)).

(** ** --args *)
(** values: [Thing]: an object with a method as_dict and what it returns; [Atom]: anything else that is no list *)
Inductive pyval := Atom | PyDict (d : list (string * pyval)) | PyList (l : list pyval) | Thing (as_dict : result (list (string * pyval))).
(** cls1 _get_deep_dict L28-50 *)
Fixpoint deep_value (v : pyval) : result pyval :=
  match v with
  | Thing (Ok d) =>
      bind ((fix deep (d : list (string * pyval)) : result (list (string * pyval)) :=
        match d with [] => Ok [] | (k, v) :: d' => bind (deep_value v) (fun v' => bind (deep d') (fun r => Ok ((k, v') :: r))) end) d) (fun d' => Ok (PyDict d'))
  | Thing (Err e) => Err e
  | PyList l =>
      bind ((fix elements (l : list pyval) : result (list pyval) :=
        match l with
        | [] => Ok []
        | x :: l' => bind (match x with Thing _ => deep_value x | _ => Ok x end) (fun x' => bind (elements l') (fun r => Ok (x' :: r)))
        end) l) (fun l' => Ok (PyList l'))
  | _ => Ok v
  end.
Fixpoint deep_dict (d : list (string * pyval)) : result (list (string * pyval)) :=
  match d with [] => Ok [] | (k, v) :: d' => bind (deep_value v) (fun v' => bind (deep_dict d') (fun r => Ok ((k, v') :: r))) end.
(** cls1 print_arguments L17-25; None: nothing is printed *)
Definition print_arguments (args : bool) (ns : list (string * pyval)) : result (option (list (string * pyval))) :=
  if args then bind (deep_dict ns) (fun d => Ok (Some d)) else Ok None.

(** time_stepping.py L77-82: the attribute _time_step exists only without adaptivity (L63-68) *)
Definition generator_value (adaptive : bool) : pyval :=
  Thing (if adaptive then Err AttributeError else Ok [("time_step", Atom); ("cfl", Atom); ("adaptive", Atom)]).
(** time_stepping.py L158-163 *)
Definition stepping_value (adaptive : bool) : pyval := Thing (Ok [("start_time", Atom); ("end_time", Atom); ("time_step_generator", generator_value adaptive)]).
(** solver.py L84-90, finite_volume/numerical_flux.py L188-189; [None]: right hand sides of finite elements have no as_dict *)
Definition solver_value (numerical_flux : option pyval) (adaptive : bool) : pyval :=
  Thing (Ok [("name", Atom); ("right_hand_side", match numerical_flux with Some f => Thing (Ok [("numerical_flux", f)]) | None => Atom end); ("ode_solver", Atom);
             ("time_stepping", stepping_value adaptive)]).
Definition adaptive_object (o : object) : bool :=
  match o with
  | Scalar (c, _) => gen_adaptive (c_gen c)
  | Water (c, _) => gen_adaptive (c_gen c)
  | Wendroff (c, _) => gen_adaptive (c_gen (c 0%R))
  | Coarsened (c, _, _) _ => gen_adaptive (c_gen c)
  end.
(** whether a scalar solver has a finite volume right hand side makes no difference for what can be printed *)
Definition object_value (o : object) : pyval := solver_value (match o with Scalar _ => None | _ => Some Atom end) (adaptive_object o).
(** core/benchmark.py L45-51, benchmark/shallow_water.py L210-221, L257-258 *)
Definition benchmark_value : pyval := Thing (Ok [("name", Atom); ("domain", Atom); ("start_time", Atom); ("end_time", Atom)]).
(** the namespace after postprocess, without the names of plain values; [objects]: the solvers in the order of the line *)
Definition job_values (j : job) (objects : list object) : list (string * pyval) :=
  let solvers := PyList (map object_value objects) in
  match j with
  | JCalculate _ None => [("solver", Atom)]
  | JCalculate _ (Some _) => [("solver", solvers)]
  | JPlot _ None _ _ _ _ _ => [("benchmark", benchmark_value); ("solver", Atom); ("plotter", Atom); ("initial", Atom)]
  | JPlot _ (Some _) _ _ _ _ _ => [("benchmark", benchmark_value); ("solver", solvers); ("plotter", Atom); ("initial", Atom)]
  | JAnimate _ _ _ _ _ _ _ _ _ => [("benchmark", benchmark_value); ("solver", solvers); ("animator", Atom); ("initial", Atom)]
  | JEOC _ _ => [("benchmark", benchmark_value); ("solvers", PyList [solvers]); ("solver_spaces", PyList [Atom])]
  | JErrorEvolution _ _ _ _ _ => [("solver", solvers); ("save", Atom); ("show", Atom)]
  | JGenerate _ _ _ _ _ _ _ _ _ _ => ("solver", match objects with o :: _ => object_value o | [] => Atom end) ::
      map (fun n => (n, Atom)) ["directory"; "end_time"; "coarsening_degree"; "solution_number"; "seed"; "input_radius"; "node_index"; "overwrite"]
  | JVariation _ _ _ _ _ _ _ _ _ _ _ =>
      match objects with a :: e :: _ => [("solver_approximation", object_value a); ("solver_exact", object_value e)] | _ => [] end ++
      map (fun n => (n, Atom)) ["directory"; "references"; "references_prefix"; "initial_data_number"; "seed"; "save_plot"; "save_animation"] ++ [("parameter_variations", PyList [Atom])]
  end.

(** ** main *)
Section Main.
Context (parse_int : string -> option Z) (parse_float : string -> option pyfloat) (net net2 : list state -> state).
Context (newton : (R -> R) -> R -> result R) (moving_height : R -> R) (random_waves : Z -> M_Benchmark.oscillation) (drawn : Z) (splitext : string -> string * string).
Context (eig : nat -> (nat -> nat -> R) -> (nat -> R) * (nat -> nat -> R)) (linear_solver : M_Misc.mat -> list R -> list R) (old : nat -> R).
Context (finite : list R -> bool) (finite2 : list state -> bool).
(** parser.py L34-38 up to postprocess, as in [requested] of M_CommandLine *)
Definition line_settings (words : list string) : M_Parser.outcome (command * settings) :=
  let parse c rest := obind (parse_command parse_int parse_float net net2 newton moving_height random_waves drawn c rest) (fun s => Parsed (c, s)) in
  match words with
  | [] => Exit 2 false
  | name :: rest =>
      if first_is dash name then Unmodelled else
      match problems_of name, single_command name with
      | Some ps, _ =>
          match rest with
          | [] => Exit 2 false
          | p :: rest' => if first_is dash p then Unmodelled else match find_key ps p with Some c => parse c rest' | None => Exit 2 false end
          end
      | None, Some c => parse c rest
      | None, None => if existsb (String.eqb name) other_commands then Unmodelled else Exit 2 false
      end
  end.
(** what is seen in the end: the printed arguments, the result of the command with the exception that ended it, and the number of lines of the profile *)
Record seen := { printed : option (list (string * pyval)); calculated : given object * option exn; profiled : option Z }.
(** main with profile (profiler.py L14-26) for calculate: parse, postprocess (the solvers are built), print_arguments, print_profile, execute_command; the
    profile is printed after a command that raised nothing *)
Definition main_calculate (n : nat) (words : list string) : M_Parser.outcome seen :=
  obind (line_settings words) (fun cs => let '(c, s) := cs in
  obind (postprocess net net2 splitext c s) (fun j =>
  match j with
  | JCalculate b l =>
      match mapM (fun o : order => construct eig linear_solver old b (snd o)) (match l with Some l => l | None => [] end) with
      | Err e => Raised e
      | Ok objects =>
          match print_arguments (s_args s) (job_values j objects) with
          | Err e => Raised e
          | Ok p =>
              let r := calculate_execute (solve_any finite finite2 n) (match l with Some _ => SolverList objects | None => NoSolver end) in
              Parsed {| printed := p; calculated := r; profiled := match snd r with None => if (0 <? s_profile s)%Z then Some (s_profile s) else None | Some _ => None end |}
          end
      end
  | _ => Unmodelled
  end)).
End Main.
