(** Model of command/generate_data.py as a whole: GenerateData from the seed of the random benchmarks to the rows of the two files. Definitions only.
    The parts are the models of the solvers (M_FVSolver, M_Solver), of the random benchmarks (M_Series), of the recorded windows and of the files (M_Generate).
    Simplified: the solution of the solver is replaced by a DiscreteSolutionWithInputData (L151-157), which records the time and two windows of every value;
    the model lets the solver record the whole values and takes the windows afterwards (C31_recorded_windows: these are the recorded ones).
    Not modelled: names of columns, progress bars and messages. *)
From Coq Require Import Reals String List Arith ZArith Bool.
From Verif Require Import Prelude M_Mesh M_Boundary M_Flux M_Coarsener M_Solution M_TimeStepping M_ODE M_Solver M_Generate M_ShallowWater M_Benchmark
  M_FVSolver M_Series M_CommandLine.
Import ListNotations.
Open Scope R_scope.
Notation length := List.length.

(** SubgridFluxDataFrameBuilder.get_data_frame L198-211: the index (time) and the concatenated columns; a column pair h, q is a state *)
Definition data_row := (R * list state)%type.
(** BenchparkParameterDataFrameBuilder L236-278: the seed and the parameters of the benchmark *)
Definition benchmark_row := (Z * oscillation)%type.

(** the attributes of GenerateData and of its builders (L281-341, L122-163) *)
Record generator := {
  gd_config : config (list state); gd_cells : nat;
  gd_degree : nat; gd_radius : nat; gd_node : nat;
  gd_fine : nflux state; gd_coarse : nflux state
}.
(** defaults.py L42, L51-53 *)
Definition default_coarsening : nat := 8.
Definition default_radius : nat := 2.
Definition default_number : nat := 100.
Definition default_seed : Z := 1.
(** [seed or defaults.SEED] L305 *)
Definition seed_or (seed : option Z) : Z := match seed with Some s => if (s =? 0)%Z then default_seed else s | None => default_seed end.
(** OscillationNoTopographyBenchmark(), L476 *)
Definition plain_waves : sw_benchmark := waves (new_oscillation None None None None None None None None).
Definition with_history (a : solver_args) : solver_args :=
  {| a_mesh_size := a_mesh_size a; a_cfl := a_cfl a; a_ode := a_ode a; a_history := true |}.

Section Run.
Context (eig : nat -> (nat -> nat -> R) -> (nat -> R) * (nat -> nat -> R)) (finite : list state -> bool).
Context {G : Type} (default_rng : Z -> G) (uniform : R -> R -> G -> R * G) (integers : Z -> Z -> G -> Z * G).

(** postprocess L472-480 (the solver), GenerateData.__init__ L291-318, _get_fluxes L332-341: the generator of random benchmarks is called once for each of the
    two fluxes; SubgridFluxDataBuilder.__init__ L135-163. The end time [-T] is an argument of the generator of benchmarks only; a random benchmark differs from
    [waves] by it in its end time, which neither the fluxes nor reinitialize read. *)
Definition new_generate (g : getter) (a : solver_args) (seed : option Z) (degree radius node : option nat) : result (generator * (world (list state) * G)) :=
  bind (sw_solver eig g plain_waves (with_history a)) (fun cw => let '(c, w) := cw in
  let u := w_mem w (w_sol w) in
  bind (new_mesh (bm_domain plain_waves) (length u)) (fun fine =>
  let d := or_default degree default_coarsening in
  bind (m_coarsen fine d) (fun coarse =>
  let '(b1, r1) := next_benchmark default_rng uniform integers no_args (default_rng (seed_or seed)) in
  bind (get_flux eig g (waves (snd b1)) fine BNone) (fun ff =>
  let '(b2, r2) := next_benchmark default_rng uniform integers no_args r1 in
  bind (get_flux eig g (waves (snd b2)) coarse BNone) (fun cf =>
  bind (builder_parameters radius node default_radius) (fun rn =>
  let '(r, nd) := rn in
  bind (id_new (new_window nd r d (Nat.div (nf_dim ff) 2)) {| d_time := w_sol_time w; d_value := u |}) (fun _ =>
  Ok ({| gd_config := c; gd_cells := length u; gd_degree := d; gd_radius := r; gd_node := nd; gd_fine := ff; gd_coarse := cf |}, (w, r2))))))))).

(** what DiscreteSolutionWithInputData has recorded (L83-120) for the given times and values *)
Definition recorded (gd : generator) (times : list R) (values : list (list state)) : result idata :=
  let win := new_window (gd_node gd) (gd_radius gd) (gd_degree gd) (Nat.div (nf_dim (gd_fine gd)) 2) in
  bind (mapM (coarse_window win) values) (fun cs =>
  Ok {| id_sol := {| d_time := last times 0; d_value := last values [] |}; id_times := times; id_coarse := cs; id_fine := map (fine_window win) values |}).
(** get_data_frame L198-211 and SubgridFluxDataBuilder.__call__ L165-174 after the run of the solver *)
Definition data_rows (gd : generator) (times : list R) (values : list (list state)) : result (list data_row) :=
  bind (recorded gd times values) (fun h =>
  bind (subgrid_data (gd_fine gd) (gd_coarse gd) h) (fun d => let '(cells, fluxes) := d in
  Ok (tab (length times) (fun j => (nth j times 0, map (fun v => nth j v czero) cells ++ [nth j fluxes czero]))))).

(** _build_data L364-370, _get_values L176-188: the next benchmark, its run (for at most [k] time steps; a run stopped by the user before its end leaves no
    data, SystemExit stands for that) and its rows; with the solver and the random numbers afterwards. Calculate (calculate.py) turns a time step that is too
    small into a warning. *)
Definition build_data (k : nat) (gd : generator) (st : world (list state) * G) : result (list data_row * list benchmark_row) * (world (list state) * G) :=
  let '(b, rng) := next_benchmark default_rng uniform integers no_args (snd st) in
  match sw_reinitialize eig finite (gd_config gd) (gd_cells gd) (waves (snd b)) (fst st) with
  | (w1, Some e) => (Err e, (w1, rng))
  | (w1, None) =>
      match solve finite (gd_config gd) k w1 with
      | (w2, _, RaisedExn e) => (Err e, (w2, rng))
      | (w2, _, Interrupted) => (Err SystemExit, (w2, rng))
      | (w2, _, _) => (bind (data_rows gd (w_times w2) (w_values w2)) (fun rows => Ok (rows, [b])), (w2, rng))
      end
  end.
Fixpoint state_before (k : nat) (gd : generator) (st : world (list state) * G) (i : nat) : world (list state) * G :=
  match i with O => st | S i' => snd (build_data k gd (state_before k gd st i')) end.
(** the result of the i-th call of _build_data *)
Definition nth_data (k : nat) (gd : generator) (st : world (list state) * G) (i : nat) : result (list data_row * list benchmark_row) :=
  fst (build_data k gd (state_before k gd st i)).
(** GenerateData.execute L342-362 *)
Definition generate_data (k : nat) (gd : generator) (st : world (list state) * G) (number : option nat) (overwrite : bool) fs :=
  generate_execute (nth_data k gd st) (or_default number default_number) overwrite fs.
End Run.
