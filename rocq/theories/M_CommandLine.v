(** Model of the command line of the program: cls1, parser.py, command/command.py, the benchmarks that can be chosen
    (benchmark/*.py), the parsers of calculate, plot, animate, eoc, plot-error-evolution, generate-data,
    parameter-variation-test and help, and the command calculate from the words to the solutions. Definitions only.

    As in M_Parser, of argparse the model covers options that are written in full and separated from their values by
    blanks; everything else ("--cfl=1", "-m5", abbreviations, "--") gives the outcome [Unmodelled]. Not modelled: what is
    printed (help pages, option --args, profiles), and positional arguments other than the command, the problem and the
    directory of parameter-variation-test. *)
From Coq Require Import String Ascii Reals List Arith ZArith Bool.
From Verif Require Import Prelude M_Mesh M_Boundary M_ODE M_Solver M_ShallowWater M_Benchmark M_FVSolver M_ScalarSolver M_Misc M_Command M_Series M_Parser.
Import ListNotations.
Open Scope R_scope.

(** ** The options *)
Inductive copt :=
| OHelp | OBench | ORandom | OEnd | OSolver | OProfile | OArgs                               (* common *)
| OMesh | OInitial | OSave | OSaveData | OHide                                               (* plot *)
| OTimeSteps | OStartTime | ODuration                                                        (* animate *)
| ORefine                                                                                    (* eoc *)
| ODirectory | ODegree | ONumber | OSeed | ORadius | ONode | OAppend                         (* generate-data *)
| OReferences | OPrefix | OVariations | OProblems | OSavePlot | OSaveAnimation.              (* parameter-variation-test *)
(** calculate.py L98-130, L170-185, command.py L28-40, plot.py L379-416, animate.py L466-500, error.py L250-269,
    error_evolution.py L362-369, generate_data.py L409-470, parameter_variation_test.py L188-249 *)
Definition cflags (o : copt) : list string :=
  match o with
  | OHelp => ["-h"; "--help"] | OBench => ["-b"; "--benchmark"] | ORandom => ["-r"; "--random-benchmark"] | OEnd => ["-T"; "--end-time"]
  | OSolver => ["-s"; "--solver"] | OProfile => ["--profile"] | OArgs => ["--args"] | OMesh => ["-m"; "--mesh-size"] | OInitial => ["--initial"]
  | OSave => ["--save"] | OSaveData => ["--save-data"] | OHide => ["--hide"] | OTimeSteps => ["--time_steps"] | OStartTime => ["-t"; "--start-time"]
  | ODuration => ["--duration"] | ORefine => ["-r"; "--refine"] | ODirectory => ["-d"; "--directory"] | ODegree => ["-c"; "--coarsening-degree"]
  | ONumber => ["-n"; "--solution-number"] | OSeed => ["--seed"] | ORadius => ["-i"; "--input-radius"] | ONode => ["--node-index"] | OAppend => ["--append"]
  | OReferences => ["--references"] | OPrefix => ["--references-prefix"] | OVariations => ["-v"; "--variations"] | OProblems => ["-n"; "--initial-data-number"]
  | OSavePlot => ["--save-plot"] | OSaveAnimation => ["--save-animation"]
  end%string.
(** nargs: none, one, "?", "+", "*" *)
Inductive arity := Zero | One | AtMostOne | AtLeastOne | Any.
Definition carity (o : copt) : arity :=
  match o with
  | OHelp | OArgs | OInitial | OHide | OAppend | OSavePlot | OSaveAnimation => Zero
  | ORandom | OProfile | OSave | OSaveData | OReferences => AtMostOne
  | OSolver => AtLeastOne
  | OVariations => Any
  | _ => One
  end.

Inductive problem_name := Advection | Burgers | Swe.
Inductive command := CCalculate (p : problem_name) | CPlot (p : problem_name) | CAnimate (p : problem_name) | CEOC (p : problem_name)
| CErrorEvolution | CGenerate | CVariation.
Definition problem_of (c : command) : problem_name := match c with CCalculate p | CPlot p | CAnimate p | CEOC p => p | _ => Swe end.
(** the options of the parsers: calculate.py L71-168, plot.py L372-377, animate.py L457-464, error.py L231-248,
    error_evolution.py L350-360, generate_data.py L397-407, parameter_variation_test.py L175-186 *)
Definition copts (c : command) : list copt :=
  OHelp :: match c with
  | CCalculate p => OBench :: (match p with Swe => [ORandom] | _ => [] end) ++ [OEnd; OSolver; OProfile; OArgs]
  | CPlot p => OBench :: (match p with Swe => [ORandom] | _ => [] end) ++ [OEnd; OSolver; OMesh; OInitial; OSave; OSaveData; OHide; OProfile; OArgs]
  | CAnimate p => OBench :: (match p with Swe => [ORandom] | _ => [] end) ++ [OEnd; OSolver; OMesh; OInitial; OSave; OHide; OTimeSteps; OStartTime; ODuration; OProfile; OArgs]
  | CEOC p => [OBench; OEnd; OSolver; OMesh; ORefine; OProfile; OArgs]
  | CErrorEvolution => [OBench; ORandom; OEnd; OSolver; OSave; OHide; OProfile; OArgs]
  | CGenerate => [ODirectory; OEnd; ODegree; OSolver; ONumber; OSeed; ORadius; ONode; OAppend; OProfile; OArgs]
  | CVariation => [OSolver; OEnd; OReferences; OPrefix; OVariations; OProblems; OSeed; OSavePlot; OSaveAnimation; OProfile; OArgs]
  end.
(** the registries ScalarSolverAction, ShallowWaterSolverAction (calculate.py L14-23) *)
Definition cregistry (c : command) : list (string * parser) := match problem_of c with Swe => swe_registry | _ => scalar_registry end.

(** ** The benchmarks *)
Inductive any_benchmark := BScalar (b : scalar_benchmark) | BSw (b : sw_benchmark).
(** defaults.py L4 *)
Definition default_gravity : R := 9812 / 1000.
Definition water (domain : interval) (end_time : R) (conditions : list string) (initial : R -> state) (bottom : R -> R) (gravity : R) : sw_benchmark :=
  {| bm_domain := domain; bm_start := 0; bm_end := end_time; bm_conditions := conditions; bm_inflow_left := fun _ => (0, 0); bm_inflow_right := fun _ => (0, 0);
     bm_initial := initial; bm_bottom := bottom; bm_gravity := gravity |}.
Definition dom (a b : R) : interval := {| ia := a; ib := b |}.
Definition free : list string := ["outflow"; "outflow"]%string.
Definition closed : list string := ["periodic"]%string.
Definition flat (x : R) : R := 0.
(** benchmark/shallow_water.py L139-208: [end_time=40.0] *)
Definition waves (o : oscillation) : sw_benchmark := water (dom 0 osc_length) 40 closed (osc_initial o) flat default_gravity.

Section Lines.
Context (parse_int : string -> option Z) (parse_float : string -> option pyfloat).
Context (net net2 : list state -> state).
(** scipy's newton; the root of moving_func at x (MovingWaterBumpBathymetryBenchmark; that newton fails is left out);
    the random benchmark of a seed (RandomOscillationNoTopographyBenchmark, random_benchmark of M_Series) and the seed
    drawn when the parser is built (calculate.py L170-185) *)
Context (newton : (R -> R) -> R -> result R) (moving_height : R -> R) (random_waves : Z -> oscillation) (drawn : Z).

(** benchmark/shallow_water.py L33-443; the keys L426-443. "random" is called without its seed: TypeError *)
Definition swe_benchmark (key : string) : option (result sw_benchmark) :=
  find_key
    [("lake-at-rest-no-bathymetry", Ok (water (dom 0 20) 100 closed (fun _ => (1, 0)) flat default_gravity));
     ("lake-at-rest", Ok (water (dom 0 20) 100 free lake_initial bump default_gravity));
     ("lake-at-rest-perturbation", Ok (water (dom 0 20) 2 free perturbed_lake_initial bump default_gravity));
     ("moving-water-no-bathymetry", Ok (water (dom 0 100) 1 closed (fun _ => (2, 1)) flat default_gravity));
     ("moving-water-bump-bathymetry", Ok (water (dom (-2) 2) 100 closed (fun x => (moving_height x, 1)) cos_bump default_gravity));
     ("oscillation", Ok (waves (new_oscillation None None None None None None None None)));
     ("random", Err TypeError);
     ("damm-break", bind (new_dam newton 1 (1 / 10) (1 / 2) 1) (fun d => Ok (water (dom 0 1) (3 / 10) free (dam_initial d) flat 1)));
     ("cylindrical-damm-break", Ok (water (dom (-1) 1) (2 / 10) free cylinder_initial flat 1));
     ("cylindrical-damm-break-with-wall", Ok (water (dom (-1) 1) (2 / 10) ["wall"; "wall"]%string cylinder_initial flat 1));
     ("sinus-inflow", Ok {| bm_domain := dom 0 100; bm_start := 0; bm_end := 40; bm_conditions := ["inflow"; "wall"]%string;
        bm_inflow_left := sinus_inflow_left; bm_inflow_right := fun _ => (0, 0); bm_initial := fun _ => (2, 0); bm_bottom := flat; bm_gravity := default_gravity |});
     ("b1", Ok (waves (new_oscillation None None None (Some 1) None (Some 0) None None)));
     ("b2", Ok (waves (new_oscillation None (Some 0) None None None None (Some 0) None)));
     ("b3", Ok (waves (new_oscillation None None None (Some 3) None (Some 0) None None)));
     ("b4", Ok (waves (new_oscillation None (Some (45 / 100)) (Some (278 / 100)) (Some 4) (Some (11 / 10)) (Some (1 / 2)) (Some (45 / 10)) (Some 3))));
     ("b5", Ok (waves (new_oscillation None (Some (45 / 100)) (Some (278 / 100)) (Some 3) (Some (11 / 10)) (Some (1 / 2)) (Some (45 / 10)) (Some 4))))]%string key.
(** benchmark/advection.py L69-75, benchmark/burgers.py L60-63 *)
Definition advection_benchmark_of (key : string) : option (result scalar_benchmark) :=
  find_key [("three-hills", Ok (advection_benchmark three_hills 1)); ("two-hills", Ok (advection_benchmark two_hills 1)); ("one-hill", Ok (advection_benchmark one_hill 1));
            ("cos", Ok (advection_benchmark cosine 1)); ("gauss", Ok (advection_benchmark gaussian_bell 1))]%string key.
Definition burgers_benchmark_of (key : string) : option (result scalar_benchmark) :=
  find_key [("shock", Ok (burgers_benchmark (shock_benchmark burgers_default_end))); ("smooth", Ok (burgers_benchmark (smooth_benchmark burgers_default_end)))]%string key.
(** the lambda of calculate.py L104 *)
Definition benchmark_named (p : problem_name) (key : string) : result any_benchmark :=
  match p with
  | Swe => match swe_benchmark key with Some r => bind r (fun b => Ok (BSw b)) | None => Err KeyError end
  | Advection => match advection_benchmark_of key with Some r => bind r (fun b => Ok (BScalar b)) | None => Err KeyError end
  | Burgers => match burgers_benchmark_of key with Some r => bind r (fun b => Ok (BScalar b)) | None => Err KeyError end
  end.
(** BENCHMARK_DEFAULTS of the benchmark modules; animate uses those of plot (animate.py L446 sets another attribute) *)
Definition default_benchmark (c : command) : any_benchmark :=
  match c with
  | CEOC Advection => BScalar (advection_benchmark cosine 1)
  | CEOC Burgers => BScalar (burgers_benchmark (smooth_benchmark burgers_default_end))
  | _ => match problem_of c with
         | Advection => BScalar (advection_benchmark two_hills 1)
         | Burgers => BScalar (burgers_benchmark (shock_benchmark burgers_default_end))
         | Swe => BSw (waves (new_oscillation None None None None None None None None))
         end
  end.
(** calculate.py L176-178: default_rng refuses negative seeds with a ValueError *)
Definition seeded (s : string) : result any_benchmark :=
  bind (int_of parse_int s) (fun z => if (z <? 0)%Z then Err ValueError else Ok (BSw (waves (random_waves z)))).

(** ** The namespace of a command *)
Record settings := {
  s_benchmark : any_benchmark; s_by_name : bool; s_by_seed : bool;       (* which of the exclusive options -b and -r were seen *)
  s_end : option pyfloat; s_solver : option (list (solver_class * namespace));
  s_mesh : Z; s_initial : bool; s_save : option string; s_save_data : option string; s_show : bool;
  s_time_steps : Z; s_start : option pyfloat; s_duration : pyfloat; s_refine : Z;
  s_directory : option string; s_degree : Z; s_number : Z; s_seed : Z; s_radius : Z; s_node : Z; s_append : bool;
  s_references : option string; s_prefix : string; s_variations : option (list string); s_problems : Z; s_save_plot : bool; s_save_animation : bool;
  s_profile : Z; s_args : bool }.
(** the defaults: defaults.py L14-16, L21-29, L42, L51-53, L66, L71 *)
Definition initial_settings (c : command) : settings :=
  {| s_benchmark := default_benchmark c; s_by_name := false; s_by_seed := false; s_end := None; s_solver := None;
     s_mesh := match c with CEOC _ => 8 | _ => 200 end; s_initial := false; s_save := None; s_save_data := None; s_show := true;
     s_time_steps := 100; s_start := None; s_duration := Finite 20; s_refine := 4;
     s_directory := None; s_degree := 8; s_number := 100; s_seed := 1; s_radius := 2; s_node := 2; s_append := false;
     s_references := None; s_prefix := "error"; s_variations := None; s_problems := 20; s_save_plot := false; s_save_animation := false;
     s_profile := 0; s_args := false |}%Z.

(** one option with its values: conversion (ValueError and TypeError end the program, other exceptions are not caught) and storage *)
Definition converted {A} (r : result A) (f : A -> outcome settings) : outcome settings :=
  match r with
  | Ok a => f a
  | Err ValueError | Err TypeError => Exit 2 false
  | Err e => Raised e
  end.
Definition file_default (c : command) : string := match c with CAnimate _ => "data/animation.mp4" | CErrorEvolution => "data/error.png" | _ => "data/plot.png" end.
Definition store (c : command) (o : copt) (vs : list string) (s : settings) : outcome settings :=
  let '(Build_settings be bn bs en so me ini sa sd sh ti st du re di de nu se ra no ap rf pre va pr sp an pf ar) := s in
  let v := hd ""%string vs in
  let pos f := converted (positive_int parse_int v) f in
  let posf f := converted (positive_float parse_float v) f in
  match o with
  | OHelp => Exit 0 false
  | OBench => converted (benchmark_named (problem_of c) v) (fun b =>
      if bs then Exit 2 false else Parsed (Build_settings b true bs en so me ini sa sd sh ti st du re di de nu se ra no ap rf pre va pr sp an pf ar))
  | ORandom => converted (match vs with [] => Ok (BSw (waves (random_waves drawn))) | _ => seeded v end) (fun b =>
      if bn then Exit 2 false else Parsed (Build_settings b bn true en so me ini sa sd sh ti st du re di de nu se ra no ap rf pre va pr sp an pf ar))
  | OEnd => posf (fun t => Parsed (Build_settings be bn bs (Some t) so me ini sa sd sh ti st du re di de nu se ra no ap rf pre va pr sp an pf ar))
  | OSolver => match solver_action parse_int parse_float net net2 (cregistry c) (List.length vs) vs with
               | Parsed l => Parsed (Build_settings be bn bs en (Some l) me ini sa sd sh ti st du re di de nu se ra no ap rf pre va pr sp an pf ar)
               | Exit a b => Exit a b | Raised e => Raised e | Unmodelled => Unmodelled
               end
  | OMesh => pos (fun z => Parsed (Build_settings be bn bs en so z ini sa sd sh ti st du re di de nu se ra no ap rf pre va pr sp an pf ar))
  | OInitial => Parsed (Build_settings be bn bs en so me true sa sd sh ti st du re di de nu se ra no ap rf pre va pr sp an pf ar)
  | OSave => let f := match vs with [] => file_default c | _ => v end in
      Parsed (Build_settings be bn bs en so me ini (Some f) sd sh ti st du re di de nu se ra no ap rf pre va pr sp an pf ar)
  | OSaveData => Parsed (Build_settings be bn bs en so me ini sa (match vs with [] => None | _ => Some v end) sh ti st du re di de nu se ra no ap rf pre va pr sp an pf ar)
  | OHide => Parsed (Build_settings be bn bs en so me ini sa sd false ti st du re di de nu se ra no ap rf pre va pr sp an pf ar)
  | OTimeSteps => pos (fun z => Parsed (Build_settings be bn bs en so me ini sa sd sh z st du re di de nu se ra no ap rf pre va pr sp an pf ar))
  | OStartTime => posf (fun t => Parsed (Build_settings be bn bs en so me ini sa sd sh ti (Some t) du re di de nu se ra no ap rf pre va pr sp an pf ar))
  | ODuration => posf (fun t => Parsed (Build_settings be bn bs en so me ini sa sd sh ti st t re di de nu se ra no ap rf pre va pr sp an pf ar))
  | ORefine => pos (fun z => Parsed (Build_settings be bn bs en so me ini sa sd sh ti st du z di de nu se ra no ap rf pre va pr sp an pf ar))
  | ODirectory => Parsed (Build_settings be bn bs en so me ini sa sd sh ti st du re (Some v) de nu se ra no ap rf pre va pr sp an pf ar)
  | ODegree => pos (fun z => Parsed (Build_settings be bn bs en so me ini sa sd sh ti st du re di z nu se ra no ap rf pre va pr sp an pf ar))
  | ONumber => pos (fun z => Parsed (Build_settings be bn bs en so me ini sa sd sh ti st du re di de z se ra no ap rf pre va pr sp an pf ar))
  | OSeed => pos (fun z => Parsed (Build_settings be bn bs en so me ini sa sd sh ti st du re di de nu z ra no ap rf pre va pr sp an pf ar))
  | ORadius => pos (fun z => Parsed (Build_settings be bn bs en so me ini sa sd sh ti st du re di de nu se z no ap rf pre va pr sp an pf ar))
  | ONode => pos (fun z => Parsed (Build_settings be bn bs en so me ini sa sd sh ti st du re di de nu se ra z ap rf pre va pr sp an pf ar))
  | OAppend => Parsed (Build_settings be bn bs en so me ini sa sd sh ti st du re di de nu se ra no true rf pre va pr sp an pf ar)
  | OReferences => let f := match vs with [] => "references"%string | _ => v end in
      Parsed (Build_settings be bn bs en so me ini sa sd sh ti st du re di de nu se ra no ap (Some f) pre va pr sp an pf ar)
  | OPrefix => Parsed (Build_settings be bn bs en so me ini sa sd sh ti st du re di de nu se ra no ap rf v va pr sp an pf ar)
  | OVariations => Parsed (Build_settings be bn bs en so me ini sa sd sh ti st du re di de nu se ra no ap rf pre (Some vs) pr sp an pf ar)
  | OProblems => pos (fun z => Parsed (Build_settings be bn bs en so me ini sa sd sh ti st du re di de nu se ra no ap rf pre va z sp an pf ar))
  | OSavePlot => Parsed (Build_settings be bn bs en so me ini sa sd sh ti st du re di de nu se ra no ap rf pre va pr true an pf ar)
  | OSaveAnimation => Parsed (Build_settings be bn bs en so me ini sa sd sh ti st du re di de nu se ra no ap rf pre va pr sp true pf ar)
  | OProfile => converted (match vs with [] => Ok 30%Z | _ => int_of parse_int v end) (fun z =>
      Parsed (Build_settings be bn bs en so me ini sa sd sh ti st du re di de nu se ra no ap rf pre va pr sp an z ar))
  | OArgs => Parsed (Build_settings be bn bs en so me ini sa sd sh ti st du re di de nu se ra no ap rf pre va pr sp an pf true)
  end.

(** ** argparse *)
Inductive ctoken := CPlain | COption (o : copt) | CUnknown | COdd.
Definition dash : ascii := "-"%char.
(** ^-\d+$|^-\d*\.\d+$ *)
Definition digit (a : ascii) : bool := (Nat.leb 48 (nat_of_ascii a) && Nat.leb (nat_of_ascii a) 57)%bool.
Fixpoint digits (s : string) : bool := match s with EmptyString => true | String a s' => digit a && digits s' end.
Fixpoint digits_dot_digits (s : string) : bool :=
  match s with
  | EmptyString => false
  | String a s' => if Ascii.eqb a "." then negb (String.eqb s' "") && digits s' else digit a && digits_dot_digits s'
  end.
Definition negative_number (s : string) : bool :=
  match s with
  | String a s' => Ascii.eqb a dash && ((negb (String.eqb s' "") && digits s') || digits_dot_digits s')
  | EmptyString => false
  end.
Definition cclassify (c : command) (s : string) : ctoken :=
  if String.eqb s "--" then COdd
  else if negb (first_is dash s) then CPlain
  else match find (fun o => existsb (String.eqb s) (cflags o)) (copts c) with
       | Some o => COption o
       | None =>
           if Nat.eqb (String.length s) 1 then CPlain
           else if has_char "=" s || existsb (fun o => existsb (fun f => prefix s f || String.eqb f (substring 0 2 s)) (cflags o)) (copts c) then COdd
           else if negative_number s || has_char " " s then CPlain
           else CUnknown
       end.
Definition is_plain (c : command) (s : string) : bool := match cclassify c s with CPlain => true | _ => false end.
Fixpoint take_plain (c : command) (l : list string) : list string * list string :=
  match l with
  | [] => ([], [])
  | t :: l' => if is_plain c t then let '(a, b) := take_plain c l' in (t :: a, b) else ([], l)
  end.
(** the values of an option: None if there are not enough *)
Definition arguments (c : command) (o : copt) (rest : list string) : option (list string * list string) :=
  match carity o with
  | Zero => Some ([], rest)
  | One => match rest with v :: rest' => if is_plain c v then Some ([v], rest') else None | [] => None end
  | AtMostOne => match rest with v :: rest' => if is_plain c v then Some ([v], rest') else Some ([], rest) | [] => Some ([], rest) end
  | AtLeastOne => match take_plain c rest with ([], _) => None | r => Some r end
  | Any => Some (take_plain c rest)
  end.
(** parse_args of the parser of the command: the namespace and the strings that belong to no option; [unknown]: there
    is an unknown option; [fuel] bounds the number of strings *)
Fixpoint parse_options (c : command) (fuel : nat) (unknown : bool) (left_over : list string) (tokens : list string) (s : settings)
  : outcome (settings * list string * bool) :=
  match fuel with
  | O => Unmodelled
  | S fuel' =>
      match tokens with
      | [] => Parsed (s, left_over, unknown)
      | t :: rest =>
          match cclassify c t with
          | COdd => Unmodelled
          | CPlain => parse_options c fuel' unknown (left_over ++ [t]) rest s
          | CUnknown => parse_options c fuel' true left_over rest s
          | COption o =>
              match arguments c o rest with
              | None => Exit 2 false
              | Some (vs, rest') =>
                  match store c o vs s with
                  | Parsed s' => parse_options c fuel' unknown left_over rest' s'
                  | Exit a b => Exit a b | Raised e => Raised e | Unmodelled => Unmodelled
                  end
              end
          end
      end
  end.
(** the directory of parameter-variation-test is the first string that belongs to no option; missing or further
    strings end the program *)
Definition parse_command (c : command) (tokens : list string) : outcome settings :=
  if existsb (fun t => match cclassify c t with COdd => true | _ => false end) tokens then Unmodelled else
  match parse_options c (S (List.length tokens)) false [] tokens (initial_settings c) with
  | Parsed (s, left_over, unknown) =>
      if unknown then Exit 2 false else
      match c, left_over with
      | CVariation, [d] =>
          let '(Build_settings be bn bs en so me ini sa sd sh ti st du re _ de nu se ra no ap rf pre va pr sp an pf ar) := s in
          Parsed (Build_settings be bn bs en so me ini sa sd sh ti st du re (Some d) de nu se ra no ap rf pre va pr sp an pf ar)
      | CVariation, _ => Exit 2 false
      | _, [] => Parsed s
      | _, _ => Exit 2 false
      end
  | Exit a b => Exit a b | Raised e => Raised e | Unmodelled => Unmodelled
  end.

(** ** postprocess of the commands *)
(** a solver that is asked for: name, short name, constructor with its arguments *)
Definition order : Type := string * string * call.
Inductive job :=
| JCalculate (b : any_benchmark) (solvers : option (list order))
| JPlot (b : any_benchmark) (solvers : option (list order)) (points : Z) (initial : bool) (save_plot : option string) (save_data : string) (show : bool)
| JAnimate (b : any_benchmark) (solvers : list order) (points time_steps : Z) (initial : bool) (save : option string) (start : option R) (duration : R) (show : bool)
| JEOC (b : any_benchmark) (solvers : list (list order))
| JErrorEvolution (b : any_benchmark) (approximation exact : order) (save : option string) (show : bool)
| JGenerate (b : any_benchmark) (solver : order) (directory : string) (end_time : option R) (degree number seed radius node : Z) (overwrite : bool)
| JVariation (b : any_benchmark) (approximation exact : order) (directory : string) (references : option string) (prefix_ : string) (variations : list variation)
    (problems seed : Z) (save_plot save_animation : bool).
Definition obind {A B} (x : outcome A) (f : A -> outcome B) : outcome B :=
  match x with Parsed a => f a | Exit s l => Exit s l | Raised e => Raised e | Unmodelled => Unmodelled end.
Fixpoint omap {A B} (f : A -> outcome B) (l : list A) : outcome (list B) :=
  match l with [] => Parsed [] | a :: l' => obind (f a) (fun b => obind (omap f l') (fun bs => Parsed (b :: bs))) end.
(** numbers that are not finite are left out *)
Definition finite_number (f : option pyfloat) : outcome (option R) :=
  match f with None => Parsed None | Some (Finite r) => Parsed (Some r) | Some _ => Unmodelled end.
(** calculate.py _adjust_end_time L195-198 *)
Definition with_end (b : any_benchmark) (t : option R) : any_benchmark :=
  match b with
  | BScalar b => BScalar (adjust_end_time b t)
  | BSw b => match t with
             | Some t => if Reqb t 0 then BSw b else
                 BSw {| bm_domain := bm_domain b; bm_start := bm_start b; bm_end := t; bm_conditions := bm_conditions b; bm_inflow_left := bm_inflow_left b;
                        bm_inflow_right := bm_inflow_right b; bm_initial := bm_initial b; bm_bottom := bm_bottom b; bm_gravity := bm_gravity b |}
             | None => BSw b end
  end.
(** _build_solver L200-212 (the constructors themselves are called by [construct] below), _add_save_history_argument L214-216 *)
Definition orders (history : bool) (l : list (solver_class * namespace)) : outcome (list order) := omap (fun x => build_call net net2 (fst x) (snd x) history) l.
Definition optional_orders (history : bool) (l : option (list (solver_class * namespace))) : outcome (option (list order)) :=
  match l with None => Parsed None | Some l => obind (orders history l) (fun o => Parsed (Some o)) end.
(** os.path.splitext *)
Context (splitext : string -> string * string).
(** the keyword mesh_size of a solver replaced: error.py L298 *)
Definition with_mesh (n : Z) (ns : namespace) : namespace := set_value "mesh_size" (OInt n) ns.
Definition two_orders {A} (l : list A) : outcome (A * A) := match l with [a; b] => Parsed (a, b) | _ => Raised AssertionError end.
Definition given_solvers {A} (l : option (list A)) : list A := match l with Some l => l | None => [] end.
(** generate_data.py L16-21, L491-493 *)
Definition directories : list (string * string) :=
  [("llf", "data/reduced-llf/"); ("llf2", "data/reduced-llf-2/"); ("llf3", "data/reduced-llf-3/"); ("es1", "data/reduced-es1/")]%string.
Definition data_directory (given : option string) (ns : namespace) : outcome string :=
  match given with
  | Some d => Parsed d
  | None => match get ns "short" with
            | OStr s => match find_key directories s with Some d => Parsed d | None => Raised KeyError end
            | _ => Raised KeyError end
  end.
(** calculate.py L187-193, plot.py L418-453, animate.py L502-533, error.py L271-309 (there each solver is solved before the next
    is built), error_evolution.py L371-384, generate_data.py L472-493, parameter_variation_test.py L251-286 *)
Definition postprocess (c : command) (s : settings) : outcome job :=
  match c with
  | CCalculate _ =>
      obind (finite_number (s_end s)) (fun t => let b := with_end (s_benchmark s) t in
      obind (optional_orders false (s_solver s)) (fun l => Parsed (JCalculate b l)))
  | CPlot _ =>
      obind (finite_number (s_end s)) (fun t => let b := with_end (s_benchmark s) t in
      obind (optional_orders false (s_solver s)) (fun l =>
      Parsed (JPlot b l (s_mesh s) (s_initial s) (s_save s) (build_save_data splitext "data/plot.pkl" (s_save_data s) (s_save s)) (s_show s))))
  | CAnimate _ =>
      obind (finite_number (s_end s)) (fun t => let b := with_end (s_benchmark s) t in
      match s_solver s with
      | None => Raised TypeError                                                     (* for ... in None *)
      | Some l => obind (orders true l) (fun l =>
          obind (finite_number (s_start s)) (fun st => obind (finite_number (Some (s_duration s))) (fun d =>
          Parsed (JAnimate b l (s_mesh s) (s_time_steps s) (s_initial s) (s_save s) st (match d with Some d => d | None => 0 end) (s_show s)))))
      end)
  | CEOC _ =>
      obind (finite_number (s_end s)) (fun t => let b := with_end (s_benchmark s) t in
      match s_solver s with
      | None => Raised TypeError
      | Some l => obind (omap (fun x => orders false (map (fun i => (fst x, with_mesh (2 ^ Z.of_nat i * s_mesh s) (snd x))) (seq 0 (Z.to_nat (s_refine s))))) l) (fun ls =>
          Parsed (JEOC b ls))
      end)
  | CErrorEvolution =>
      obind (two_orders (given_solvers (s_solver s))) (fun _ =>
      obind (finite_number (s_end s)) (fun t => let b := with_end (s_benchmark s) t in
      obind (orders true (given_solvers (s_solver s))) (fun l => obind (two_orders l) (fun p => Parsed (JErrorEvolution b (fst p) (snd p) (s_save s) (s_show s))))))
  | CGenerate =>
      match given_solvers (s_solver s) with
      | [x] =>
          obind (data_directory (s_directory s) (snd x)) (fun d =>
          obind (orders false [x]) (fun l => obind (finite_number (s_end s)) (fun t =>
          match l with
          | [o] => Parsed (JGenerate (s_benchmark s) o d t (s_degree s) (s_number s) (s_seed s) (s_radius s) (s_node s) (negb (s_append s)))
          | _ => Unmodelled
          end)))
      | _ => Raised AssertionError
      end
  | CVariation =>
      obind (two_orders (given_solvers (s_solver s))) (fun _ =>
      obind (finite_number (s_end s)) (fun t => let b := with_end (s_benchmark s) t in
      obind (orders true (given_solvers (s_solver s))) (fun l => obind (two_orders l) (fun p =>
      match build_variations (s_variations s), s_directory s with
      | Ok v, Some d => Parsed (JVariation b (fst p) (snd p) d (s_references s) (s_prefix s) v (s_problems s) (s_seed s) (s_save_plot s) (s_save_animation s))
      | Err e, _ => Raised e
      | _, None => Unmodelled
      end))))
  end.

(** ** The program: parser.py L11-38 and cls1 L60-74 up to the call of execute *)
Definition problem_key (p : problem_name) : string := match p with Advection => "advection" | Burgers => "burgers" | Swe => "swe" end.
Definition problems_of (name : string) : option (list (string * command)) :=
  find_key [("calculate", map (fun p => (problem_key p, CCalculate p)) [Advection; Burgers; Swe]); ("plot", map (fun p => (problem_key p, CPlot p)) [Advection; Burgers; Swe]);
            ("animate", map (fun p => (problem_key p, CAnimate p)) [Advection; Burgers; Swe]); ("eoc", map (fun p => (problem_key p, CEOC p)) [Advection; Burgers])]%string name.
Definition single_command (name : string) : option command :=
  find_key [("plot-error-evolution", CErrorEvolution); ("generate-data", CGenerate); ("parameter-variation-test", CVariation)]%string name.
(** commands whose arguments are not modelled (help: see below) *)
Definition other_commands : list string := ["analyze-curvature"; "analyze-data"; "delete-curvature"; "help"; "print-network"; "test"; "train-network"]%string.
Definition requested (words : list string) : outcome job :=
  match words with
  | [] => Exit 2 false
  | name :: rest =>
      if first_is dash name then Unmodelled else
      match problems_of name, single_command name with
      | Some ps, _ =>
          match rest with
          | [] => Exit 2 false
          | p :: rest' => if first_is dash p then Unmodelled else
              match find_key ps p with Some c => obind (parse_command c rest') (postprocess c) | None => Exit 2 false end
          end
      | None, Some c => obind (parse_command c rest) (postprocess c)
      | None, None => if existsb (String.eqb name) other_commands then Unmodelled else Exit 2 false
      end
  end.

(** command/help.py L32-41 with command/__init__.py L25: the page of a solver, from the union of the registries in which
    the shallow water solvers come last; the KeyError is not caught *)
Definition help_page (key : string) : outcome parser :=
  match find_key swe_registry key with
  | Some p => Parsed p
  | None => match find_key scalar_registry key with Some p => Parsed p | None => Raised KeyError end
  end.

(** ** The solvers and the command calculate *)
Section Run.
Context (eig : nat -> (nat -> nat -> R) -> (nat -> R) * (nat -> nat -> R)) (linear_solver : M_Misc.mat -> list R -> list R) (old : nat -> R).
Context (finite : list R -> bool) (finite2 : list state -> bool).
Inductive object :=
| Scalar (o : config (list R) * world (list R)) | Water (o : config (list state) * world (list state))
| Wendroff (o : (R -> config (list state)) * world (list state)) | Coarsened (o : config (list state) * nat * coarse_world) (history : bool).
(** solver(benchmark, **vars(solver_arguments)); the kinds of benchmark and solver always agree *)
Definition construct (b : any_benchmark) (c : call) : result object :=
  match b, c with
  | BSw b, SW g a => bind (sw_solver eig g b a) (fun o => Ok (Water o))
  | BSw b, SWLaxWendroff a => bind (lw_solver eig b a) (fun o => Ok (Wendroff o))
  | BSw b, SWCoarse g a d => bind (coarse_solver eig g b a d) (fun o => Ok (Coarsened o (a_history a)))
  | BScalar b, ScalarFV g a => bind (scalar_solver eig g b a) (fun o => Ok (Scalar o))
  | BScalar b, ScalarFE k a => bind (fe_solver eig linear_solver old k b a) (fun o => Ok (Scalar o))
  | _, _ => Err AttributeError
  end.
Definition exception_of (o : M_Solver.outcome) : option exn := match o with RaisedExn e => Some e | _ => None end.
(** solve(); at most [n] iterations of the loop *)
Definition solve_any (n : nat) (o : object) : object * option exn :=
  match o with
  | Scalar (c, w) => let '(w', _, r) := M_Solver.solve finite c n w in (Scalar (c, w'), exception_of r)
  | Water (c, w) => let '(w', _, r) := M_Solver.solve finite2 c n w in (Water (c, w'), exception_of r)
  | Wendroff (c, w) => let '(w', _, r) := lw_solve finite2 c n w in (Wendroff (c, w'), exception_of r)
  | Coarsened (c, d, w) h => let '(w', _, r) := coarse_solve finite2 c h d n w in (Coarsened (c, d, w') h, exception_of r)
  end.
(** cls1 calculate ...: all solvers are built before the first is solved *)
Definition calculate_line (n : nat) (words : list string) : outcome (given object * option exn) :=
  match requested words with
  | Parsed (JCalculate b l) =>
      match l with
      | None => Parsed (calculate_execute (solve_any n) NoSolver)
      | Some l => match mapM (fun o => construct b (snd o)) l with
                  | Ok objects => Parsed (calculate_execute (solve_any n) (SolverList objects))
                  | Err e => Raised e
                  end
      end
  | Parsed _ => Unmodelled
  | Exit s l => Exit s l | Raised e => Raised e | Unmodelled => Unmodelled
  end.
End Run.
End Lines.
