(** Model of the finite volume solvers of the shallow water equations from the benchmark
    to the solution: finite_volume/solver.py, finite_volume/space.py, the flux getters and
    solvers below finite_volume/shallow_water/solver. Definitions only.

    Not modelled: names, the text written to the terminal, loading and training of the
    networks (a network is a function of one row of its input). *)
From Coq Require Import Reals String List Arith ZArith Bool.
From Verif Require Import Prelude M_Mesh M_Quadrature M_Interpolate M_Boundary M_Flux M_ODE M_TimeStepping
  M_Coarsener M_Solution M_Solver M_Generate M_ShallowWater M_Benchmark.
Import ListNotations.
Open Scope R_scope.

(** benchmark/shallow_water.py L20-30 and core/benchmark.py L11-52: what a solver reads
    from a benchmark. [bm_conditions] is the property boundary_conditions (one or two
    names). Benchmarks without inflow data raise AttributeError in inflow_left/right;
    they are only called for the condition "inflow", here they are total. *)
Record sw_benchmark := {
  bm_domain : interval;
  bm_start : R;
  bm_end : R;
  bm_conditions : list string;
  bm_inflow_left : R -> state;
  bm_inflow_right : R -> state;
  bm_initial : R -> state;
  bm_bottom : R -> R;
  bm_gravity : R
}.

(** defaults.py L9, L41-42, L47 *)
Definition default_mesh_size : nat := 20 * 20.
Definition default_cfl : R := 1 / 10.
Definition default_degree : nat := 8.
Definition default_antidiffusion : R := 1 / 10.

(** what ReducedNetwork.predict (reduced_model.py L47-50) does with the concatenated
    arrays (L163-165): each row is treated independently of the others (the scalers act on columns
    with fixed coefficients, the modules of reduced_llf.py L9-22 and reduced_llf_2.py L9-24
    are applied row by row); single precision is ignored *)
Definition row_predict (net : list state -> state) (values : list (list state)) : list state :=
  tab (List.length (hd [] values)) (fun i => net (map (fun v => nth i v (0, 0)) values)).

(** the objects of class FluxGetter: solver/low_order.py L115-129, central.py L5-10,
    lax_friedrichs.py L5-10, energy_stable.py L127-146, lax_wendroff.py L43-61,
    reduced_model.py L174-205 (dimension, network, inner getter; the default is LLF), mcl.py L189-216 (default
    central) and the method flux_getter of antidiffusion.py L26-37 (default LLF) *)
Inductive getter :=
| GLow | GCentral | GLLF | GES | GES1 | GLW
| GReduced (dim : nat) (net : list state -> state) (base : getter)
| GMCL (high : getter)
| GAntidiffusion (gamma : option R) (raw : getter).

Section FV.
(** np.linalg.eig, see M_Quadrature *)
Context (eig : nat -> (nat -> nat -> R) -> (nat -> R) * (nat -> nat -> R)).
(** np.isfinite(value).all() *)
Context (finite : list state -> bool).

(** Interpolator.interpolate (core/interpolate.py L14-25) for a function with two
    components, CellAverageInterpolator(mesh, 2) *)
Definition averages2 (m : mesh) (f : R -> state) : result (list state) :=
  bind (cell_averages eig 2 m (fun x => fst (f x))) (fun h =>
  bind (cell_averages eig 2 m (fun x => snd (f x))) (fun q => Ok (combine h q))).

(** finite_volume/space.py L59-74 get_finite_volume_solution: mesh and initial value *)
Definition fv_solution (b : sw_benchmark) (mesh_size : option nat) : result (mesh * list state) :=
  bind (new_mesh (bm_domain b) (or_default mesh_size default_mesh_size)) (fun m =>
  bind (averages2 m (bm_initial b)) (fun u => Ok (m, u))).

(** finite_volume/shallow_water/core.py L69-74 build_bathymetry_discretization *)
Definition discrete_bottom (b : sw_benchmark) (n : nat) : result (list R) :=
  bind (new_mesh (bm_domain b) n) (fun m => cell_averages eig 2 m (bm_bottom b)).

(** [bathymetry or build_bathymetry_discretization(...)] of the getters: the truth value
    of an array with more than one entry raises ValueError, of an array with one entry it
    is that of the entry *)
Definition bathymetry_or (x : bathymetry) (d : result (list R)) : result bathymetry :=
  let default := bind d (fun l => Ok (BArray l)) in
  match x with
  | BNone => default
  | BFloat r => if Reqb r 0 then default else Ok x
  | BArray [] => default
  | BArray [r] => if Reqb r 0 then default else Ok x
  | BArray _ => Err ValueError
  end.

(** FluxGetter.__call__(benchmark, space, bathymetry) of the getters. Without bathymetry
    argument [x = BNone]. The MCL getter uses its argument only for the high order flux
    (mcl.py L201-211), the reduced one does not hand it on (reduced_model.py L196). *)
Fixpoint get_flux (g : getter) (b : sw_benchmark) (m : mesh) (x : bathymetry) : result (nflux state) :=
  let gr := Some (bm_gravity b) in
  let bottom := bathymetry_or x (discrete_bottom b (m_len m)) in
  match g with
  | GLow => bind bottom (sw_low gr)
  | GCentral => bind bottom (sw_central gr)
  | GLLF => bind bottom (sw_llf gr)
  | GES => bind bottom (sw_es gr)
  | GES1 => bind bottom (sw_es1 gr)
  | GLW => bind bottom (fun bt => with_source gr bt (lw_flux gr 0 (m_step m)))
  | GReduced dim net base =>
      bind bottom (fun bt => bind (get_flux base b m BNone) (fun nf =>
      with_source gr bt (corrected nf (subgrid_flux dim (row_predict net)))))
  | GMCL high =>
      bind (get_flux high b m x) (fun h => bind (discrete_bottom b (m_len m)) (fun l =>
      sw_mcl gr (BArray l) (bm_conditions b) (Some (bm_inflow_left b)) (Some (bm_inflow_right b)) h))
  | GAntidiffusion gamma raw =>
      bind (get_flux raw b m x) (fun nf =>
      Ok (corrected nf (linear_antidiffusive (py_or gamma default_antidiffusion) (m_step m))))
  end.

(** the keyword arguments of Solver (finite_volume/solver.py L27-36) *)
Record solver_args := {
  a_mesh_size : option nat;
  a_cfl : option R;
  a_ode : option tableau;
  a_history : bool
}.

Definition boundary (b : sw_benchmark) (radius : nat) : result (bconds state) :=
  get_boundary_conditions (Some reflect) (bm_conditions b) radius
    (Some (bm_inflow_left b)) (Some (bm_inflow_right b)).

(** Solver._get_solver_args L27-70 and Solver.__init__ L23-25 *)
Definition sw_config (b : sw_benchmark) (a : solver_args) (m : mesh) (u : list state)
  (rhs : R -> list state -> result (list state)) : config (list state) :=
  {| c_rhs := rhs;
     c_tab := match a_ode a with Some T => T | None => heun end;
     c_gen := mesh_dependent_generator (m_step m) (py_or (a_cfl a) default_cfl) (bm_start b, u);
     c_start := bm_start b; c_end := bm_end b; c_check := None; c_history := a_history a |}.
Definition sw_solver (g : getter) (b : sw_benchmark) (a : solver_args) : result (config (list state) * world (list state)) :=
  bind (fv_solution b (a_mesh_size a)) (fun mu =>
  let '(m, u) := mu in
  bind (get_flux g b m BNone) (fun nf =>
  bind (boundary b (Nat.div (nf_dim nf) 2)) (fun bc =>
  let c := sw_config b a m u (fv_rhs nf (m_step m) bc) in
  Ok (c, new_solver c (fun _ => u) 1 0 (bm_start b))))).

(** Solver.reinitialize L72-77 for another benchmark; [n] is the size of the mesh *)
Definition sw_reinitialize (c : config (list state)) (n : nat) (b : sw_benchmark) (w : world (list state))
  : world (list state) * option exn :=
  match fv_solution b (Some n) with
  | Err e => (w, Some e)
  | Ok (_, v) => reinitialize finite c v (bm_start b) w
  end.

(** lax_wendroff.py L64-110: forward Euler; before each step the time step is stored in
    the flux, so the right hand side is another one in each step *)
Definition lw_solver (b : sw_benchmark) (a : solver_args) : result ((R -> config (list state)) * world (list state)) :=
  bind (fv_solution b (a_mesh_size a)) (fun mu =>
  let '(m, u) := mu in
  bind (boundary b 1) (fun bc =>
  let a' := {| a_mesh_size := a_mesh_size a; a_cfl := a_cfl a; a_ode := Some euler; a_history := a_history a |} in
  let c := fun dt => sw_config b a' m u (fv_rhs (lw_flux (Some (bm_gravity b)) dt (m_step m)) (m_step m) bc) in
  Ok (c, new_solver (c 0) (fun _ => u) 1 0 (bm_start b)))).
(** the loop of core/solver.py L54-64 with the _update of lax_wendroff.py L108-110 *)
Fixpoint lw_loop (c : R -> config (list state)) (n : nat) (w : world (list state)) (s : ts_state)
  : world (list state) * ts_state * outcome :=
  match n with
  | O => (w, s, Interrupted)
  | S n' =>
      match ts_next (c_end (c 0)) (call_generator (c_gen (c 0)) (w_sol_time w, w_mem w (w_sol w))) s with
      | StopIter => (w, s, Completed)
      | TooSmall => (w, s, TooSmallWarning)
      | Yield dt s' =>
          match solver_update finite (c dt) dt w with
          | (w', None) => lw_loop c n' w' s'
          | (w', Some e) => (w', s', RaisedExn e)
          end
      end
  end.
Definition lw_solve (c : R -> config (list state)) (n : nat) (w : world (list state)) : world (list state) * option ts_state * outcome :=
  match tqdm_len (c 0) w with
  | Err e => (w, None, RaisedExn e)
  | Ok _ => let '(w', s, st) := lw_loop c n w (ts_iter (c_start (c 0))) in (w', Some s, st)
  end.

(** ** solver/coarse.py: CoarseSolver. The wrapped solution has no history; with a
    history the coarse solution keeps coarsened copies
    (discrete_solution.py L146-164). *)
Record coarse_world := {
  cw_fine : world (list state);
  cw_times : list R;
  cw_values : list (list state)
}.
(** L12-28; [c] has c_history = false *)
Definition coarse_solver (g : getter) (b : sw_benchmark) (a : solver_args) (degree : option nat)
  : result (config (list state) * nat * coarse_world) :=
  let d := or_default degree default_degree in
  bind (sw_solver g b {| a_mesh_size := a_mesh_size a; a_cfl := a_cfl a; a_ode := a_ode a; a_history := false |}) (fun cw =>
  let '(c, w) := cw in
  if a_history a then
    bind (coarsen d (w_mem w (w_sol w))) (fun v =>
    Ok (c, d, {| cw_fine := w; cw_times := [w_sol_time w]; cw_values := [v] |}))
  else Ok (c, d, {| cw_fine := w; cw_times := []; cw_values := [] |})).
(** CoarseSolution.update L139-140, CoarseSolutionWithHistory.update L159-164 with the
    array at [l] *)
Definition coarse_sol_update (c : config (list state)) (history : bool) (d : nat) (dt : R) (l : nat) (w : coarse_world)
  : coarse_world * option exn :=
  match sol_update finite c dt l (cw_fine w) with
  | (w1, Some e) => ({| cw_fine := w1; cw_times := cw_times w; cw_values := cw_values w |}, Some e)
  | (w1, None) =>
      if history then
        match coarsen d (w_mem w1 l) with
        | Ok v => ({| cw_fine := w1; cw_times := cw_times w ++ [w_sol_time w1]; cw_values := cw_values w ++ [v] |}, None)
        | Err e => ({| cw_fine := w1; cw_times := cw_times w ++ [w_sol_time w1]; cw_values := cw_values w |}, Some e)
        end
      else ({| cw_fine := w1; cw_times := cw_times w; cw_values := cw_values w |}, None)
  end.
(** core/solver.py L66-69 *)
Definition coarse_update (c : config (list state)) (history : bool) (d : nat) (dt : R) (w : coarse_world)
  : coarse_world * option exn :=
  match ode_execute c dt (cw_fine w) with
  | Err e => (w, Some e)
  | Ok (w1, nodes, stages) =>
      match check_cfl c dt nodes stages with
      | Err e => ({| cw_fine := w1; cw_times := cw_times w; cw_values := cw_values w |}, Some e)
      | Ok x => coarse_sol_update c history d dt (w_ode w1) {| cw_fine := warn x w1; cw_times := cw_times w; cw_values := cw_values w |}
      end
  end.
(** core/solver.py L54-64; the generator does not read the solution (mesh dependent) *)
Fixpoint coarse_loop (c : config (list state)) (history : bool) (d n : nat) (w : coarse_world) (s : ts_state)
  : coarse_world * ts_state * outcome :=
  match n with
  | O => (w, s, Interrupted)
  | S n' =>
      match ts_next (c_end c) (call_generator (c_gen c) (w_sol_time (cw_fine w), w_mem (cw_fine w) (w_sol (cw_fine w)))) s with
      | StopIter => (w, s, Completed)
      | TooSmall => (w, s, TooSmallWarning)
      | Yield dt s' =>
          match coarse_update c history d dt w with
          | (w', None) => coarse_loop c history d n' w' s'
          | (w', Some e) => (w', s', RaisedExn e)
          end
      end
  end.
(** solve reads solution.dimension (L58) and thereby coarsens before anything else *)
Definition coarse_solve (c : config (list state)) (history : bool) (d n : nat) (w : coarse_world)
  : coarse_world * option ts_state * outcome :=
  match coarsen d (w_mem (cw_fine w) (w_sol (cw_fine w))) with
  | Err e => (w, None, RaisedExn e)
  | Ok _ =>
      match tqdm_len c (cw_fine w) with
      | Err e => (w, None, RaisedExn e)
      | Ok _ => let '(w', s, st) := coarse_loop c history d n w (ts_iter (c_start c)) in (w', Some s, st)
      end
  end.
(** what the caller sees: solution.time, solution.value (may raise), the histories *)
Definition coarse_seen (d : nat) (w : coarse_world) : R * result (list state) * list R * list (list state) :=
  (w_sol_time (cw_fine w), coarsen d (w_mem (cw_fine w) (w_sol (cw_fine w))), cw_times w, cw_values w).

(** coarse.py L30-37 reinitialize; [n] is the size of the fine mesh, so the coarse one
    (solution.space, mesh.py L142-147) has n / d cells *)
Definition coarse_reinitialize (c : config (list state)) (history : bool) (d n : nat) (b : sw_benchmark) (w : coarse_world)
  : coarse_world * option exn :=
  if negb (Nat.eqb (n mod d) 0) then (w, Some AssertionError) else
  match bind (new_mesh (bm_domain b) (n / d * d)) (fun m => averages2 m (bm_initial b)) with
  | Err e => (w, Some e)
  | Ok v =>
      let t := bm_start b in
      let w0 := cw_fine w in
      let l := w_next w0 in
      let w1 := {| w_mem := store (w_mem w0) l v; w_next := S l; w_ode := w_ode w0; w_ode_time := w_ode_time w0;
                   w_sol := w_sol w0; w_sol_time := w_sol_time w0; w_times := w_times w0; w_values := w_values w0;
                   w_warnings := w_warnings w0 |} in
      let cw1 := {| cw_fine := w1;
                    cw_times := if history then filter (fun t' => Rltb t' t) (cw_times w) else cw_times w;
                    cw_values := if history then mask_values t (cw_times w) (cw_values w) else cw_values w |} in
      match coarse_sol_update c history d (t - w_sol_time w1) l cw1 with
      | (w2, Some e) => (w2, Some e)
      | (w2, None) =>
          let f := cw_fine w2 in
          ({| cw_fine := {| w_mem := store (w_mem f) (S l) v; w_next := S (S l); w_ode := S l; w_ode_time := t;
                            w_sol := w_sol f; w_sol_time := w_sol_time f; w_times := w_times f; w_values := w_values f;
                            w_warnings := w_warnings f |};
              cw_times := cw_times w2; cw_values := cw_values w2 |}, None)
      end
  end.
End FV.
