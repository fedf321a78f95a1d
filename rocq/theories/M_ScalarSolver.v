(** Model of the solvers of scalar problems from the benchmark to the solution:
    finite_volume/solver.py with finite_volume/scalar/solver, finite_element/solver.py with
    finite_element/scalar/solver, and of the option --end-time (command/calculate.py). Definitions only.

    Not modelled: names, the text written to the terminal, argparse. The cache of
    finite_element/flux_approximation.py is left out: the arrays the right hand sides get
    are new ones in each stage (core/ode_solver.py L71-80) and never modified, see C56. *)
From Coq Require Import Reals String List Arith ZArith Bool.
From Verif Require Import Prelude M_Mesh M_Quadrature M_Interpolate M_Boundary M_Flux M_ODE M_TimeStepping
  M_Solution M_Solver M_Generate M_Neighbours M_Scalar M_ShallowWater M_FVSolver M_FE M_FEChoice M_Benchmark.
Import ListNotations.
Open Scope R_scope.

(** core/benchmark.py L11-52: what a solver reads from a benchmark. [sb_conditions] is the
    property boundary_conditions. Benchmarks without inflow data raise AttributeError in
    inflow_left/right; they are only called for the condition "inflow", here they are total. *)
Record scalar_benchmark := {
  sb_problem : string;
  sb_domain : interval;
  sb_start : R;
  sb_end : R;
  sb_conditions : list string;
  sb_inflow_left : R -> R;
  sb_inflow_right : R -> R;
  sb_initial : R -> R
}.
(** benchmark/advection.py L7-79 and benchmark/burgers.py L8-59, with core/benchmark.py L15 *)
Definition advection_benchmark (initial : R -> R) (end_time : R) : scalar_benchmark :=
  {| sb_problem := "advection"; sb_domain := unit_interval; sb_start := 0; sb_end := end_time; sb_conditions := ["periodic"%string];
     sb_inflow_left := fun _ => 0; sb_inflow_right := fun _ => 0; sb_initial := initial |}.
Definition burgers_benchmark (b : burgers) : scalar_benchmark :=
  {| sb_problem := "burgers"; sb_domain := b_domain b; sb_start := 0; sb_end := b_end b; sb_conditions := ["periodic"%string];
     sb_inflow_left := fun _ => 0; sb_inflow_right := fun _ => 0; sb_initial := b_u0 b |}.

(** finite_volume/scalar/solver: LaxFriedrichsFluxGetter, CentralFluxGetter, MCLFluxGetter *)
Inductive scalar_getter := SLLF | SCentral | SMCL.

(** finite_element/scalar/solver: ContinuousGalerkinSolver(exact_flux),
    LowOrderContinuousGalerkinSolver(adaptive), MCLSolver(adaptive) *)
Inductive fe_kind := FCG (exact : bool) | FLow (adaptive : bool) | FMCL (adaptive : bool).

(** defaults.py L36-39; FINITE_ELEMENT_CFL_NUMBER is the same number as the one of the
    finite volumes ([default_cfl]) *)
Definition default_polynomial_degree : nat := 1.

Section Solvers.
(** np.linalg.eig, scipy's spsolve, the memory of np.empty, np.isfinite(value).all() *)
Context (eig : nat -> (nat -> nat -> R) -> (nat -> R) * (nat -> nat -> R)) (solver : M_Misc.mat -> list R -> list R) (old : nat -> R).
Context (finite : list R -> bool).

(** lax_friedrichs.py L6-11, central.py L6-10, mcl.py L86-95 of finite_volume/scalar/solver *)
Definition get_scalar_flux (g : scalar_getter) (b : scalar_benchmark) (m : mesh) : result (nflux R) :=
  bind (parse_problem (sb_problem b)) (fun p =>
  match g with
  | SLLF => Ok (scalar_llf p)
  | SCentral => Ok (scalar_central p)
  | SMCL => scalar_mcl_getter p (m_len m) (sb_conditions b)
  end).

(** finite_volume/space.py L57-74 get_finite_volume_solution *)
Definition scalar_fv_solution (b : scalar_benchmark) (mesh_size : option nat) : result (mesh * list R) :=
  bind (new_mesh (sb_domain b) (or_default mesh_size default_mesh_size)) (fun m =>
  bind (cell_averages eig 2 m (sb_initial b)) (fun u => Ok (m, u))).

(** Solver.__init__ and _get_solver_args of finite_volume/solver.py L22-70 *)
Definition scalar_config (b : scalar_benchmark) (a : solver_args) (m : mesh) (u : list R)
  (rhs : R -> list R -> result (list R)) : config (list R) :=
  {| c_rhs := rhs;
     c_tab := match a_ode a with Some T => T | None => heun end;
     c_gen := mesh_dependent_generator (m_step m) (py_or (a_cfl a) default_cfl) (sb_start b, u);
     c_start := sb_start b; c_end := sb_end b; c_check := None; c_history := a_history a |}.
Definition scalar_boundary (b : scalar_benchmark) (radius : nat) : result (bconds R) :=
  get_boundary_conditions None (sb_conditions b) radius (Some (sb_inflow_left b)) (Some (sb_inflow_right b)).
Definition scalar_solver (g : scalar_getter) (b : scalar_benchmark) (a : solver_args)
  : result (config (list R) * world (list R)) :=
  bind (scalar_fv_solution b (a_mesh_size a)) (fun mu =>
  let '(m, u) := mu in
  bind (get_scalar_flux g b m) (fun nf =>
  bind (scalar_boundary b (Nat.div (nf_dim nf) 2)) (fun bc =>
  let c := scalar_config b a m u (fv_rhs nf (m_step m) bc) in
  Ok (c, new_solver c (fun _ => u) 1 0 (sb_start b))))).

(** finite_element/space.py L333-354 get_finite_element_solution. The problem names are looked up in
    dictionaries (artificial_diffusion.py L69-73, flux_gradient.py L118-135): KeyError. *)
Definition fe_solution (b : scalar_benchmark) (mesh_size degree : option nat) : result (fespace * list R) :=
  bind (new_mesh (sb_domain b) (or_default mesh_size default_mesh_size)) (fun m =>
  bind (new_fespace m (or_default degree default_polynomial_degree)) (fun s =>
  Ok (s, initial_dofs old s (sb_initial b)))).
Definition fe_problem (name : string) : result M_FE.problem :=
  if String.eqb name "advection" then Ok M_FE.Advection else if String.eqb name "burgers" then Ok M_FE.Burgers else Err KeyError.

(** An infinite optimal step (no wave at all) is represented by a number which is at
    least the duration, also after the multiplication with the CFL number: all that is
    done with it is min(step * cfl, end - time) and dt > step. An optimal step that is not a
    number is represented by 0; for degrees up to 7 there is none (C39_low_order_succeeds). *)
Definition finite_step (duration cfl : R) (step : result (option R)) : R :=
  match step with Ok (Some x) => x | Ok None => Rmax duration (duration / cfl) | Err _ => 0 end.

(** the keyword arguments of the finite element solvers (cg.py L46-56, cg_low.py L84-96,
    mcl.py L113-125) that are not part of [fe_kind] *)
Record fe_args := { f_mesh_size : option nat; f_degree : option nat; f_cfl : option R; f_ode : option tableau; f_history : bool }.

(** cg.py L46-86: no choice of the time integrator, steps from the mesh *)
Definition cg_solver (exact : bool) (b : scalar_benchmark) (a : fe_args) : result (config (list R) * world (list R)) :=
  bind (fe_solution b (f_mesh_size a) (f_degree a)) (fun su =>
  let '(s, u) := su in
  bind (fe_problem (sb_problem b)) (fun pr =>
  bind (cg_ode_solver (fs_degree s)) (fun o =>
  let c := {| c_rhs := fun _ => cg_rhs eig solver pr s exact; c_tab := tableau_of o;
              c_gen := mesh_dependent_generator (m_step (fs_mesh s)) (py_or (f_cfl a) default_cfl) (sb_start b, u);
              c_start := sb_start b; c_end := sb_end b; c_check := None; c_history := f_history a |} in
  Ok (c, new_solver c (fun _ => u) 1 0 (sb_start b))))).
(** cg_low.py L84-121 and mcl.py L113-158: steps from the optimal time step of the solution (the initial one unless
    adaptive), CFL check *)
Definition limited_solver (rhs : M_FE.problem -> fespace -> list R -> result (list R)) (adaptive : bool) (b : scalar_benchmark) (a : fe_args)
  : result (config (list R) * world (list R)) :=
  bind (fe_solution b (f_mesh_size a) (f_degree a)) (fun su =>
  let '(s, u) := su in
  bind (fe_problem (sb_problem b)) (fun pr =>
  let cfl := py_or (f_cfl a) default_cfl in
  let optimal := fun (_ : R) v => finite_step (sb_end b - sb_start b) cfl (fe_time_step eig pr s v) in
  let c := {| c_rhs := fun _ => rhs pr s; c_tab := match f_ode a with Some T => T | None => heun end;
              c_gen := solution_dependent_generator optimal cfl adaptive (sb_start b, u);
              c_start := sb_start b; c_end := sb_end b;
              c_check := Some (fun t v => Ok (optimal t v)); c_history := f_history a |} in
  Ok (c, new_solver c (fun _ => u) 1 0 (sb_start b)))).
Definition fe_solver (k : fe_kind) (b : scalar_benchmark) (a : fe_args) : result (config (list R) * world (list R)) :=
  match k with
  | FCG exact => cg_solver exact b a
  | FLow adaptive => limited_solver (cg_low_rhs eig) adaptive b a
  | FMCL adaptive => limited_solver (mcl_rhs eig) adaptive b a
  end.

(** command/calculate.py _adjust_end_time L195-198 *)
Definition adjust_end_time (b : scalar_benchmark) (end_time : option R) : scalar_benchmark :=
  match end_time with
  | Some t => if Reqb t 0 then b else
      {| sb_problem := sb_problem b; sb_domain := sb_domain b; sb_start := sb_start b; sb_end := t; sb_conditions := sb_conditions b;
         sb_inflow_left := sb_inflow_left b; sb_inflow_right := sb_inflow_right b; sb_initial := sb_initial b |}
  | None => b
  end.
End Solvers.
