(** Model of the random benchmarks with their generator of random numbers (benchmark/shallow_water.py L223-271), of the series of error
    curves (command/error_evolution.py L168-335) and of the parameter variations (command/parameter_variation_test.py). Definitions only.
    Not modelled: the pictures (only the names of the files and directories), what is written to the terminal. *)
From Coq Require Import Reals String List Arith ZArith Bool.
From Verif Require Import Prelude M_Boundary M_Interpolate M_ShallowWater M_Benchmark M_Command.
Import ListNotations.
Open Scope R_scope.

(** ** random benchmarks. A generator of numpy: its state [G], the state for a seed, and the draws uniform(low, high) and
    integers(low, high) with the state after them *)
Section Random.
Context {G : Type} (default_rng : Z -> G) (uniform : R -> R -> G -> R * G) (integers : Z -> Z -> G -> Z * G).
(** [x or draw]: a draw is only made if [x] is None or 0 *)
Definition or_draw (x : option R) (draw : G -> R * G) (g : G) : R * G :=
  match x with Some y => if Reqb y 0 then draw g else (y, g) | None => draw g end.
Definition draw_integer (low high : Z) (g : G) : R * G := let '(k, g') := integers low high g in (IZR k, g').
(** the keyword arguments of RandomOscillationNoTopographyBenchmark (None: not given) *)
Record osc_args := { g_h0 : option R; g_Ah : option R; g_ph : option R; g_kh : option R; g_v0 : option R; g_Av : option R; g_pv : option R; g_kv : option R }.
(** __init__ L227-255, the arguments are evaluated in their order *)
Definition random_benchmark (a : osc_args) (seed : Z) : oscillation :=
  let g0 := default_rng seed in
  let '(Ah_, g1) := or_draw (g_Ah a) (uniform (2 / 10) (6 / 10)) g0 in
  let '(ph_, g2) := or_draw (g_ph a) (uniform 0 (2 * PI)) g1 in
  let '(kh_, g3) := or_draw (g_kh a) (draw_integer 1 6) g2 in
  let '(v0_, g4) := or_draw (g_v0 a) (uniform 1 2) g3 in
  let '(Av_, g5) := or_draw (g_Av a) (uniform (2 / 10) (6 / 10)) g4 in
  let '(pv_, g6) := or_draw (g_pv a) (uniform 0 (2 * PI)) g5 in
  let '(kv_, g7) := or_draw (g_kv a) (draw_integer 1 5) g6 in
  new_oscillation (Some (py_or (g_h0 a) 2)) (Some Ah_) (Some ph_) (Some kh_) (Some v0_) (Some Av_) (Some pv_) (Some kv_).
(** RandomBenchmarkGenerator.__call__ L269-271 without argument: the seed of the benchmark is drawn (below int(1e9)) *)
Definition next_benchmark (a : osc_args) (g : G) : (Z * oscillation) * G :=
  let '(seed, g') := integers 0 (10 ^ 9) g in ((seed, random_benchmark a seed), g').
(** [n] calls of a new RandomBenchmarkGenerator(seed) (L265-267) *)
Fixpoint benchmarks_from (a : osc_args) (n : nat) (g : G) : list (Z * oscillation) :=
  match n with
  | O => []
  | S n' => let '(b, g') := next_benchmark a g in b :: benchmarks_from a n' g'
  end.
Definition random_benchmarks (a : osc_args) (seed : Z) (n : nat) : list (Z * oscillation) := benchmarks_from a n (default_rng seed).
End Random.

(** ** GenerateShallowWaterErrorEvolutionSeries *)
Section Series.
(** solvers with what reinitialize(benchmark) and solve() do to them, the errors computed by ErrorEvolutionCalculator from what the two solutions show *)
Context {Sv B Sn E : Type} (reinit : B -> Sv -> Sv * option exn) (solve : Sv -> Sv * option exn) (seen : Sv -> Sn) (errors : Sn -> Sn -> result E).
(** execute L217-240 and _save L242-274: plots are asked for with a keyword argument [save] that the plotter (plot.py L33-40) does not have: TypeError. Returns the
    approximating and the exact solver, the errors so far and the exception that ended the command. *)
Fixpoint series (save_plot : bool) (bs : list B) (a e : Sv) (acc : list E) : Sv * Sv * list E * option exn :=
  match bs with
  | [] => (a, e, acc, None)
  | b :: bs' =>
      match reinit b a with
      | (a1, Some x) => (a1, e, acc, Some x)
      | (a1, None) =>
          match reinit b e with
          | (e1, Some x) => (a1, e1, acc, Some x)
          | (e1, None) =>
              match calculate_execute solve (SolverList [e1; a1]) with
              | (SolverList [e2; a2], Some _) => series save_plot bs' a2 e2 acc         (* a warning *)
              | (SolverList [e2; a2], None) =>
                  match errors (seen a2) (seen e2) with
                  | Err x => (a2, e2, acc, Some x)
                  | Ok r => if save_plot then (a2, e2, acc ++ [r], Some TypeError) else series save_plot bs' a2 e2 (acc ++ [r])
                  end
              | (_, _) => (a1, e1, acc, None)                                           (* not reached *)
              end
          end
      end
  end.
End Series.

(** ** PlotShallowWaterAverageErrorEvolution L277-335. Errors are numbers (an error relative to an exact solution of norm 0 is not). *)
(** np.argmin L333-335 of the lengths: the first of the smallest; ValueError if there is none *)
Fixpoint shortest (best : list R) (times : list (list R)) : list R :=
  match times with
  | [] => best
  | t :: times' => shortest (if (length t <? length best)%nat then t else best) times'
  end.
Definition minimum_time (times : list (list R)) : result (list R) :=
  match times with [] => Err ValueError | t :: times' => Ok (shortest t times') end.
(** L321-331: the list of times is read first *)
Definition adjust_errors (times : list (list R)) (errs : list (list (list R))) : result (list R * list (list (list R))) :=
  bind (minimum_time times) (fun t =>
  bind (mapM (fun p => temporal_interpolator (fst p) (snd p) t) (combine times errs)) (fun adjusted => Ok (t, adjusted))).
(** np.mean and np.max over the first axis, entry (i, j): time i, component j *)
Definition entries_of (adjusted : list (list (list R))) (i j : nat) : list R := map (fun v => nth j (nth i v []) 0) adjusted.
Definition mean_of (l : list R) : R := rsum l / INR (length l).
Definition max_of (l : list R) : R := match l with [] => 0 | x :: l' => lmax1 x l' end.
Record average := { av_time : list R; av_mean : nat -> nat -> R; av_max : nat -> nat -> R }.
Definition average_errors (times : list (list R)) (errs : list (list (list R))) : result average :=
  bind (adjust_errors times errs) (fun a => let '(t, adjusted) := a in
  Ok {| av_time := t; av_mean := fun i j => mean_of (entries_of adjusted i j); av_max := fun i j => max_of (entries_of adjusted i j) |}).

(** ** command/parameter_variation_test.py *)
(** L19-53: values, name, the constant arguments; HEIGHT_AVERAGE is 2 *)
Inductive variation := VHeight | VWaveNumber | VAmplitude.
Definition no_args : osc_args := {| g_h0 := None; g_Ah := None; g_ph := None; g_kh := None; g_v0 := None; g_Av := None; g_pv := None; g_kv := None |}.
Definition variation_values (v : variation) : list R :=
  match v with VHeight => [8 / 10 * 2; 12 / 10 * 2] | VWaveNumber => [10; 15] | VAmplitude => [8 / 10; 1; 15 / 10] end.
Definition variation_name (v : variation) : string :=
  match v with VHeight => "height_average" | VWaveNumber => "height_wave_number" | VAmplitude => "height_amplitude" end.
(** **{name: param}, **benchmark_defaults L150-151 *)
Definition variation_args (v : variation) (x : R) : osc_args :=
  match v with
  | VHeight => {| g_h0 := Some x; g_Ah := None; g_ph := None; g_kh := Some 2; g_v0 := None; g_Av := None; g_pv := None; g_kv := None |}
  | VWaveNumber => {| g_h0 := None; g_Ah := None; g_ph := None; g_kh := Some x; g_v0 := None; g_Av := None; g_pv := None; g_kv := None |}
  | VAmplitude => {| g_h0 := None; g_Ah := Some x; g_ph := None; g_kh := None; g_v0 := None; g_Av := None; g_pv := None; g_kv := None |}
  end.
(** ParameterVariationTestParser._build_variations L276-286; dictionaries keep their order *)
Definition all_variations : list (string * variation) := [("height-average", VHeight); ("wave-number", VWaveNumber); ("amplitude", VAmplitude)]%string.
Fixpoint find_variation (k : string) (d : list (string * variation)) : result variation :=
  match d with [] => Err KeyError | (k', v) :: d' => if String.eqb k k' then Ok v else find_variation k d' end.
Definition build_variations (names : option (list string)) : result (list variation) :=
  match names with
  | None => Ok []
  | Some l => if existsb (String.eqb "all") l then Ok (map snd all_variations) else mapM (fun k => find_variation k all_variations) l
  end.
(** ParameterVariationTest.execute L93-160: the benchmarks of the reference run and of every value of every variation, with the same seed; the
    directories (L112, L144); [text] prints the value *)
Section Variation.
Context {G : Type} (default_rng : Z -> G) (uniform : R -> R -> G -> R * G) (integers : Z -> Z -> G -> Z * G) (text : R -> string).
Definition reference_benchmarks (seed : Z) (n : nat) := random_benchmarks default_rng uniform integers no_args seed n.
Definition variation_benchmarks (v : variation) (x : R) (seed : Z) (n : nat) := random_benchmarks default_rng uniform integers (variation_args v x) seed n.
Definition reference_directory (directory references : string) : string := append directory references.
Definition variation_directory (directory : string) (v : variation) (x : R) : string :=
  append directory (append (variation_name v) (append "/" (text x))).
End Variation.
