(** Specification of the command line of the program: what a user can ask a command for, how it is written and what the
    command then does. *)
From Coq Require Import String Ascii Reals List Arith ZArith Bool.
From Verif Require Import Prelude M_Mesh M_ODE M_ShallowWater M_Benchmark M_FVSolver M_ScalarSolver M_Misc M_Command M_Series M_Parser S_Parser M_CommandLine.
Import ListNotations.
Open Scope R_scope.

(** one wish concerning a command *)
Inductive cwish :=
| Benchmark (b : any_benchmark) | Seed (z : Z) | AnySeed | EndTime (t : R) | Solvers (rs : list request)
| Points (n : Z) | Initial | SaveFile (f : option string) | SaveData (f : option string) | Hide
| TimeSteps (n : Z) | StartTime (t : R) | Duration (t : R) | Refinements (n : Z)
| DataDirectory (d : string) | Degree (n : Z) | Number (n : Z) | RandomSeed (n : Z) | InputRadius (n : Z) | NodeIndex (n : Z) | Append
| ResultDirectory (d : string) | References (d : option string) | Prefix (s : string) | Variations (l : list string) | Problems (n : Z)
| PlotsToo | AnimationsToo
| Profile (n : option Z) | ShowArguments.

(** words that are values: not led by a dash, a single dash, or a negative number *)
Definition all_digits (s : string) : Prop := Forall (fun a => (48 <= nat_of_ascii a <= 57)%nat) (list_ascii_of_string s).
Definition decimal (d : string) : Prop :=
  exists a b, all_digits a /\ all_digits b /\ (a <> ""%string /\ d = a \/ b <> ""%string /\ d = (a ++ "." ++ b)%string).
Definition value_word (w : string) : Prop := (forall r, w <> String "-" r) \/ w = "-"%string \/ exists d, w = String "-" d /\ decimal d.
(** other strings with a dash are only taken as values if there is a blank in them *)
Definition blank_word (w : string) : Prop := (exists r, w = String "-" r) /\ In " "%char (list_ascii_of_string w).
Definition any_word (w : string) : Prop := value_word w \/ blank_word w.

Section Words.
Context (parse_int : string -> option Z) (parse_float : string -> option pyfloat) (net net2 : list state -> state).
Context (newton : (R -> R) -> R -> result R) (moving_height : R -> R) (random_waves : Z -> oscillation) (drawn : Z).

(** the benchmarks that have a name *)
Definition still (x : R) : R := 0.
Definition default_waves : oscillation := {| h0 := 2; Ah := 1 / 10 * 2; ph := 0; kh := 3; v0 := 1; Av := 1 / 2; pv := PI / 2; kv := 1 |}.
Definition pool (a b T : R) (conditions : list string) (initial : R -> state) (bottom : R -> R) (g : R) : any_benchmark :=
  BSw {| bm_domain := {| ia := a; ib := b |}; bm_start := 0; bm_end := T; bm_conditions := conditions; bm_inflow_left := fun _ => (0, 0); bm_inflow_right := fun _ => (0, 0);
         bm_initial := initial; bm_bottom := bottom; bm_gravity := g |}.
Definition earth : R := 9812 / 1000.
Definition named_benchmark (p : problem_name) (key : string) (b : any_benchmark) : Prop :=
  match p with
  | Swe =>
      key = "lake-at-rest-no-bathymetry" /\ b = pool 0 20 100 ["periodic"] (fun _ => (1, 0)) still earth \/
      key = "lake-at-rest" /\ b = pool 0 20 100 ["outflow"; "outflow"] lake_initial bump earth \/
      key = "lake-at-rest-perturbation" /\ b = pool 0 20 2 ["outflow"; "outflow"] perturbed_lake_initial bump earth \/
      key = "moving-water-no-bathymetry" /\ b = pool 0 100 1 ["periodic"] (fun _ => (2, 1)) still earth \/
      key = "moving-water-bump-bathymetry" /\ b = pool (-2) 2 100 ["periodic"] (fun x => (moving_height x, 1)) cos_bump earth \/
      key = "oscillation" /\ b = pool 0 100 40 ["periodic"] (osc_initial default_waves) still earth \/
      key = "damm-break" /\ (exists d, new_dam newton 1 (1 / 10) (1 / 2) 1 = Ok d /\ b = pool 0 1 (3 / 10) ["outflow"; "outflow"] (dam_initial d) still 1) \/
      key = "cylindrical-damm-break" /\ b = pool (-1) 1 (2 / 10) ["outflow"; "outflow"] cylinder_initial still 1 \/
      key = "cylindrical-damm-break-with-wall" /\ b = pool (-1) 1 (2 / 10) ["wall"; "wall"] cylinder_initial still 1 \/
      key = "sinus-inflow" /\ b = BSw {| bm_domain := {| ia := 0; ib := 100 |}; bm_start := 0; bm_end := 40; bm_conditions := ["inflow"; "wall"];
        bm_inflow_left := fun t => (2 + 2 / 10 * sin t, 0); bm_inflow_right := fun _ => (0, 0); bm_initial := fun _ => (2, 0); bm_bottom := still; bm_gravity := earth |} \/
      key = "b1" /\ b = pool 0 100 40 ["periodic"] (osc_initial {| h0 := 2; Ah := 1 / 10 * 2; ph := 0; kh := 1; v0 := 1; Av := 0; pv := PI / 2; kv := 1 |}) still earth \/
      key = "b2" /\ b = pool 0 100 40 ["periodic"] (osc_initial {| h0 := 2; Ah := 0; ph := 0; kh := 3; v0 := 1; Av := 1 / 2; pv := 0; kv := 1 |}) still earth \/
      key = "b3" /\ b = pool 0 100 40 ["periodic"] (osc_initial {| h0 := 2; Ah := 1 / 10 * 2; ph := 0; kh := 3; v0 := 1; Av := 0; pv := PI / 2; kv := 1 |}) still earth \/
      key = "b4" /\ b = pool 0 100 40 ["periodic"] (osc_initial {| h0 := 2; Ah := 45 / 100; ph := 278 / 100; kh := 4; v0 := 11 / 10; Av := 1 / 2; pv := 45 / 10; kv := 3 |}) still earth \/
      key = "b5" /\ b = pool 0 100 40 ["periodic"] (osc_initial {| h0 := 2; Ah := 45 / 100; ph := 278 / 100; kh := 3; v0 := 11 / 10; Av := 1 / 2; pv := 45 / 10; kv := 4 |}) still earth
  | Advection =>
      exists f, b = BScalar (advection_benchmark f 1) /\
        (key = "three-hills" /\ f = three_hills \/ key = "two-hills" /\ f = two_hills \/ key = "one-hill" /\ f = one_hill \/ key = "cos" /\ f = cosine \/ key = "gauss" /\ f = gaussian_bell)
  | Burgers => key = "shock" /\ b = BScalar (burgers_benchmark (shock_benchmark burgers_default_end)) \/
      key = "smooth" /\ b = BScalar (burgers_benchmark (smooth_benchmark burgers_default_end))
  end%string.
Definition random_pool (z : Z) : any_benchmark := pool 0 100 40 ["periodic"%string] (osc_initial (random_waves z)) still earth.

Definition is_swe (c : command) : bool := match c with CCalculate Swe | CPlot Swe | CAnimate Swe | CEOC Swe | CErrorEvolution | CGenerate | CVariation => true | _ => false end.
(** how a wish is written; [any] says which words are values *)
Definition cwritten (value : string -> Prop) (c : command) (x : cwish) (ws : list string) : Prop :=
  let count n w := exists z, parse_int w = Some z /\ (0 < z)%Z /\ n = z in
  let positive t w := parse_float w = Some (Finite t) /\ 0 < t in
  let one short long (means : string -> Prop) := exists f w, ws = [f; w] /\ spelled short long f /\ value w /\ means w in
  let optional f (means : option string -> Prop) := ws = [f] /\ means None \/ exists w, ws = [f; w] /\ value w /\ means (Some w) in
  match x with
  | Benchmark b => one "-b" "--benchmark" (fun w => named_benchmark (match c with CCalculate p | CPlot p | CAnimate p | CEOC p => p | _ => Swe end) w b)
  | Seed z => exists f w, ws = [f; w] /\ spelled "-r" "--random-benchmark" f /\ value w /\ parse_int w = Some z /\ (0 <= z)%Z
  | AnySeed => exists f, ws = [f] /\ spelled "-r" "--random-benchmark" f
  | EndTime t => one "-T" "--end-time" (positive t)
  | Solvers rs => exists f, ws = f :: List.concat (map (words (is_swe c)) rs) /\ spelled "-s" "--solver" f /\ rs <> [] /\
      Forall (well_written parse_int parse_float net net2 (is_swe c)) rs /\ Forall value (List.concat (map (words (is_swe c)) rs))
  | Points n => one "-m" "--mesh-size" (count n)
  | Initial => ws = ["--initial"]
  | SaveFile f => optional "--save" (fun o => o = f)
  | SaveData f => optional "--save-data" (fun o => o = f)
  | Hide => ws = ["--hide"]
  | TimeSteps n => one "--time_steps" "--time_steps" (count n)
  | StartTime t => one "-t" "--start-time" (positive t)
  | Duration t => one "--duration" "--duration" (positive t)
  | Refinements n => one "-r" "--refine" (count n)
  | DataDirectory d => one "-d" "--directory" (fun w => w = d)
  | Degree n => one "-c" "--coarsening-degree" (count n)
  | Number n => one "-n" "--solution-number" (count n)
  | RandomSeed n => one "--seed" "--seed" (count n)
  | InputRadius n => one "-i" "--input-radius" (count n)
  | NodeIndex n => one "--node-index" "--node-index" (count n)
  | Append => ws = ["--append"]
  | ResultDirectory d => ws = [d] /\ value d
  | References d => optional "--references" (fun o => o = d)
  | Prefix s => one "--references-prefix" "--references-prefix" (fun w => w = s)
  | Variations l => exists f, ws = f :: l /\ spelled "-v" "--variations" f /\ Forall value l
  | Problems n => one "-n" "--initial-data-number" (count n)
  | PlotsToo => ws = ["--save-plot"]
  | AnimationsToo => ws = ["--save-animation"]
  | Profile n => optional "--profile" (fun o => match o, n with None, None => True | Some w, Some z => parse_int w = Some z | _, _ => False end)
  | ShowArguments => ws = ["--args"]
  end%string.

(** the commands that offer the choice *)
Definition coffered (c : command) (x : cwish) : Prop :=
  match x with
  | Benchmark _ => match c with CGenerate | CVariation => False | _ => True end
  | Seed _ | AnySeed => match c with CCalculate Swe | CPlot Swe | CAnimate Swe | CErrorEvolution => True | _ => False end
  | EndTime _ | Solvers _ | Profile _ | ShowArguments => True
  | Points _ => match c with CPlot _ | CAnimate _ | CEOC _ => True | _ => False end
  | Initial => match c with CPlot _ | CAnimate _ => True | _ => False end
  | SaveFile _ | Hide => match c with CPlot _ | CAnimate _ | CErrorEvolution => True | _ => False end
  | SaveData _ => match c with CPlot _ => True | _ => False end
  | TimeSteps _ | StartTime _ | Duration _ => match c with CAnimate _ => True | _ => False end
  | Refinements _ => match c with CEOC _ => True | _ => False end
  | DataDirectory _ | Degree _ | Number _ | InputRadius _ | NodeIndex _ | Append => c = CGenerate
  | RandomSeed _ => c = CGenerate \/ c = CVariation
  | ResultDirectory _ | References _ | Prefix _ | Variations _ | Problems _ | PlotsToo | AnimationsToo => c = CVariation
  end.
(** a benchmark is chosen by name or at random, not both *)
Definition exclusive (xs : list cwish) : Prop :=
  ~ (exists b, In (Benchmark b) xs) \/ ~ (In AnySeed xs \/ exists z, In (Seed z) xs).
(** the result directory of parameter-variation-test is given once *)
Definition result_directories (xs : list cwish) : list string := flat_map (fun x => match x with ResultDirectory d => [d] | _ => [] end) xs.
(** wishes that would swallow a directory behind them *)
Definition swallows (x : cwish) : bool :=
  match x with Solvers _ | Variations _ | References None | Profile None => true | _ => false end.
Fixpoint separated (xs : list cwish) : Prop :=
  match xs with
  | x :: (y :: _) as rest => ~ (swallows x = true /\ exists d, y = ResultDirectory d) /\ separated rest
  | _ => True
  end.
Definition no_key_in_values (c : command) (x : cwish) : Prop :=
  match x with Solvers rs => Forall (fun r => Forall (no_key_inside (is_swe c)) (snd r)) rs | _ => True end.

(** ** What the command does *)
(** the last wish of a kind counts, without one the default *)
Fixpoint last_wish {A} (pick : cwish -> option A) (xs : list cwish) (default : A) : A :=
  match xs with
  | [] => default
  | x :: rest => last_wish pick rest match pick x with Some a => a | None => default end
  end.
Definition asked (y : cwish) (xs : list cwish) : bool :=
  last_wish (fun x => match x, y with
    | Initial, Initial | Hide, Hide | Append, Append | PlotsToo, PlotsToo | AnimationsToo, AnimationsToo | ShowArguments, ShowArguments => Some true | _, _ => None end) xs false.
Definition end_of (b : any_benchmark) (t : option R) : any_benchmark :=
  match t with
  | None => b
  | Some t =>
      match b with
      | BScalar b => BScalar {| sb_domain := sb_domain b; sb_start := sb_start b; sb_end := t; sb_initial := sb_initial b; sb_conditions := sb_conditions b;
          sb_inflow_left := sb_inflow_left b; sb_inflow_right := sb_inflow_right b; sb_problem := sb_problem b |}
      | BSw b => BSw {| bm_domain := bm_domain b; bm_start := bm_start b; bm_end := t; bm_conditions := bm_conditions b; bm_inflow_left := bm_inflow_left b;
          bm_inflow_right := bm_inflow_right b; bm_initial := bm_initial b; bm_bottom := bm_bottom b; bm_gravity := bm_gravity b |}
      end
  end.
Definition start_benchmark (c : command) : any_benchmark :=
  match c with
  | CEOC Advection => BScalar (advection_benchmark cosine 1)
  | CEOC Burgers => BScalar (burgers_benchmark (smooth_benchmark burgers_default_end))
  | CCalculate Advection | CPlot Advection | CAnimate Advection => BScalar (advection_benchmark two_hills 1)
  | CCalculate Burgers | CPlot Burgers | CAnimate Burgers => BScalar (burgers_benchmark (shock_benchmark burgers_default_end))
  | _ => pool 0 100 40 ["periodic"%string] (osc_initial default_waves) still earth
  end.
Definition end_time_of (xs : list cwish) : option R := last_wish (fun x => match x with EndTime t => Some (Some t) | _ => None end) xs None.
Definition benchmark_of (c : command) (xs : list cwish) : any_benchmark :=
  last_wish (fun x => match x with Benchmark b => Some b | Seed z => Some (random_pool z) | AnySeed => Some (random_pool drawn) | _ => None end) xs (start_benchmark c).
Definition requests_of (xs : list cwish) : option (list request) := last_wish (fun x => match x with Solvers rs => Some (Some rs) | _ => None end) xs None.
Definition points_of := last_wish (fun x => match x with Points n => Some n | _ => None end).
Definition steps_of := last_wish (fun x => match x with TimeSteps n => Some n | _ => None end).
Definition start_of := last_wish (fun x => match x with StartTime t => Some (Some t) | _ => None end).
Definition duration_of := last_wish (fun x => match x with Duration t => Some t | _ => None end).
Definition refinements_of := last_wish (fun x => match x with Refinements n => Some n | _ => None end).
Definition cdegree_of := last_wish (fun x => match x with Degree n => Some n | _ => None end).
Definition number_of := last_wish (fun x => match x with Number n => Some n | _ => None end).
Definition seed_of := last_wish (fun x => match x with RandomSeed n => Some n | _ => None end).
Definition radius_of := last_wish (fun x => match x with InputRadius n => Some n | _ => None end).
Definition node_of := last_wish (fun x => match x with NodeIndex n => Some n | _ => None end).
Definition problems_of_wishes := last_wish (fun x => match x with Problems n => Some n | _ => None end).
Definition directory_of := last_wish (fun x => match x with DataDirectory d => Some (Some d) | _ => None end).
Definition result_of := last_wish (fun x => match x with ResultDirectory d => Some (Some d) | _ => None end).
Definition prefix_of := last_wish (fun x => match x with Prefix s => Some s | _ => None end).
Definition references_of := last_wish (fun x => match x with References (Some d) => Some (Some d) | References None => Some (Some "references"%string) | _ => None end).
Definition variations_of := last_wish (fun x => match x with Variations l => Some (Some l) | _ => None end).
Definition file_of (default : string) := last_wish (fun x => match x with SaveFile (Some f) => Some (Some f) | SaveFile None => Some (Some default) | _ => None end).
Definition data_file_of := last_wish (fun x => match x with SaveData f => Some f | _ => None end).
(** the solvers as they were asked for (specification of C82) *)
Definition ordered (history : bool) (r : request) : order := let '(k, xs, _) := r in expected net net2 k xs history.
(** the same solver on another mesh *)
Definition on_mesh (n : Z) (r : request) : request := let '(k, xs, wss) := r in (k, xs ++ [MeshSize (Z.to_nat n)], wss).
Definition kinds_of_variation (names : option (list string)) : option (list variation) :=
  match names with
  | None => Some []
  | Some l => if existsb (String.eqb "all") l then Some [VHeight; VWaveNumber; VAmplitude] else
      fold_right (fun s r => match r with
        | Some vs => if String.eqb s "height-average" then Some (VHeight :: vs) else if String.eqb s "wave-number" then Some (VWaveNumber :: vs)
                     else if String.eqb s "amplitude" then Some (VAmplitude :: vs) else None
        | None => None end) (Some []) l
  end.
Definition default_data_directory (short : string) : option string :=
  (if String.eqb short "llf" then Some "data/reduced-llf/" else if String.eqb short "llf2" then Some "data/reduced-llf-2/"
  else if String.eqb short "llf3" then Some "data/reduced-llf-3/" else if String.eqb short "es1" then Some "data/reduced-es1/" else None)%string.
Context (splitext : string -> string * string).
(** the job; None if the number of solvers is wrong, a variation is unknown or there is no directory for the data *)
Definition expected_job (c : command) (xs : list cwish) : option job :=
  let b := end_of (benchmark_of c xs) (end_time_of xs) in
  match c with
  | CCalculate _ => Some (JCalculate b (option_map (map (ordered false)) (requests_of xs)))
  | CPlot _ =>
      let file := file_of "data/plot.png" xs None in
      Some (JPlot b (option_map (map (ordered false)) (requests_of xs)) (points_of xs 200%Z) (asked Initial xs) file
        (match data_file_of xs None, file with
         | Some d, _ => d
         | None, Some f => if String.eqb f "" then "data/plot.pkl" else append (fst (splitext f)) ".pkl"
         | None, None => "data/plot.pkl" end) (negb (asked Hide xs)))
  | CAnimate _ =>
      option_map (fun rs => JAnimate b (map (ordered true) rs) (points_of xs 200%Z) (steps_of xs 100%Z) (asked Initial xs) (file_of "data/animation.mp4" xs None)
        (start_of xs None) (duration_of xs 20) (negb (asked Hide xs))) (requests_of xs)
  | CEOC _ =>
      option_map (fun rs => JEOC b (map (fun r => map (fun i => ordered false (on_mesh (2 ^ Z.of_nat i * points_of xs 8) r)) (seq 0 (Z.to_nat (refinements_of xs 4%Z)))) rs)) (requests_of xs)
  | CErrorEvolution =>
      match requests_of xs with Some [r1; r2] => Some (JErrorEvolution b (ordered true r1) (ordered true r2) (file_of "data/error.png" xs None) (negb (asked Hide xs))) | _ => None end
  | CGenerate =>
      match requests_of xs with
      | Some [r] =>
          option_map (fun d => JGenerate (start_benchmark c) (ordered false r) d (end_time_of xs) (cdegree_of xs 8%Z) (number_of xs 100%Z) (seed_of xs 1%Z) (radius_of xs 2%Z)
            (node_of xs 2%Z) (negb (asked Append xs)))
          (match directory_of xs None with Some d => Some d | None => default_data_directory (snd (fst (ordered false r))) end)
      | _ => None end
  | CVariation =>
      match requests_of xs, kinds_of_variation (variations_of xs None), result_of xs None with
      | Some [r1; r2], Some v, Some d =>
          Some (JVariation b (ordered true r1) (ordered true r2) d (references_of xs None) (prefix_of xs "error"%string) v (problems_of_wishes xs 20%Z) (seed_of xs 1%Z)
            (asked PlotsToo xs) (asked AnimationsToo xs))
      | _, _, _ => None end
  end%string.
(** how the program ends instead *)
Definition complaint (c : command) (xs : list cwish) : exn :=
  match c with
  | CErrorEvolution => AssertionError
  | CGenerate => match requests_of xs with Some [_] => KeyError | _ => AssertionError end
  | CVariation => match requests_of xs with Some [_; _] => KeyError | _ => AssertionError end
  | _ => TypeError
  end.
(** the words in front *)
Definition problem_word (p : problem_name) : string := match p with Advection => "advection" | Burgers => "burgers" | Swe => "swe" end.
Definition command_words (c : command) : list string :=
  match c with
  | CCalculate p => ["calculate"; problem_word p] | CPlot p => ["plot"; problem_word p] | CAnimate p => ["animate"; problem_word p] | CEOC p => ["eoc"; problem_word p]
  | CErrorEvolution => ["plot-error-evolution"] | CGenerate => ["generate-data"] | CVariation => ["parameter-variation-test"]
  end%string.
(** eoc is not offered for the shallow water equations *)
Definition exists_command (c : command) : Prop := c <> CEOC Swe.
End Words.
