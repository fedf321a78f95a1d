(** Specification of what a user of the command calculate sees of the solutions. *)
From Coq Require Import String Reals List Arith ZArith Bool.
From Verif Require Import Prelude M_Mesh M_ODE M_Coarsener M_Solver S_Solver M_ShallowWater S_ShallowWater M_FVSolver S_FVSolver M_Benchmark M_ScalarSolver M_Misc M_Command M_Series
  M_Parser S_Parser M_CommandLine S_CommandLine.
Import ListNotations.
Open Scope R_scope.

(** the mesh size and the CFL number of a solver, asked for or by default *)
Definition mesh_asked (r : request) : nat :=
  let '(k, ws, _) := r in mesh_of ws match k with ReducedLLF | ReducedLLF2 => 50%nat | _ => 400%nat end.
Definition cfl_asked (r : request) : R :=
  let '(k, ws, _) := r in cfl_of ws match k with ReducedLLF => 1 / 10 / 8 | ReducedLLF2 => 1 / 10 / 40 | CGLow | FEMCL => 1 | _ => 1 / 10 end.

(** what a solver shows: heights and discharges in the cells, or values in the cells or at the nodes; and the time *)
Definition water_shown (o : object) : option (list state) :=
  match o with
  | Water (_, w) | Wendroff (_, w) => Some (o_sol (solution_of w))
  | Coarsened (_, d, w) _ => match coarsen d (o_sol (solution_of (cw_fine w))) with Ok v => Some v | Err _ => None end
  | Scalar _ => None
  end.
Definition values_shown (o : object) : option (list R) := match o with Scalar (_, w) => Some (o_sol (solution_of w)) | _ => None end.
Definition time_shown (o : object) : R :=
  match o with
  | Scalar (_, w) => o_time (solution_of w)
  | Water (_, w) | Wendroff (_, w) => o_time (solution_of w)
  | Coarsened (_, _, w) _ => o_time (solution_of (cw_fine w))
  end.

(** the amount that belongs to values in cells of equal size *)
Definition amount (D : interval) (v : list R) : R := (ib D - ia D) / INR (List.length v) * rsum v.
(** the averages of a function over [n] cells of equal size, from two Gauss points in each cell (C42) *)
Definition start_average (f : R -> R) (D : interval) (n i : nat) : R :=
  let h := (ib D - ia D) / INR n in let c := ia D + (INR i + 1 / 2) * h in (f (c - h * sqrt (1 / 12)) + f (c + h * sqrt (1 / 12))) / 2.
Definition start_value (f : R -> R) (D : interval) (n i : nat) : R := f (ia D + INR i * ((ib D - ia D) / INR n)).
Definition start_amount (f : R -> R) (D : interval) (n : nat) : R := amount D (tab n (start_average f D n)).

(** the amount that belongs to the values at the nodes of equal cells whose ends are joined (the piecewise linear interpolation) is
    computed in the same way *)
Definition start_nodal_amount (f : R -> R) (D : interval) (n : nat) : R := amount D (tab n (start_value f D n)).

(** neural networks are involved *)
Definition asks_network (r : request) : Prop :=
  let '(k, ws, _) := r in k = ReducedLLF \/ k = ReducedLLF2 \/ In k [MCL; Antidiff; Coarse] /\ ~ network_free (flux_of ws GLLF).

(** the mesh can be coarsened *)
Definition can_be_shown (r : request) : Prop :=
  let '(k, ws, _) := r in k = Coarse -> (mesh_asked r mod degree_of ws 8 = 0)%nat.
(** the solvers whose time step is the cell size times the CFL number *)
Definition steps_from_mesh (r : request) : Prop := let '(k, _, _) := r in k <> CGLow /\ k <> FEMCL.
Definition step_asked (D : interval) (r : request) : R := (ib D - ia D) / INR (mesh_asked r) * cfl_asked r.
(** the domain and the end time of a benchmark *)
Definition domain_of (b : any_benchmark) : interval := match b with BScalar b => sb_domain b | BSw b => bm_domain b end.
Definition end_given (b : any_benchmark) : R := match b with BScalar b => sb_end b | BSw b => bm_end b end.
(** no water passes the ends: they are joined or two walls; networks need joined ends and two cells *)
Definition closed_ends (b : sw_benchmark) (r : request) : Prop :=
  bm_conditions b = ["periodic"%string] /\ (asks_network r -> (2 <= mesh_asked r)%nat) \/
  (bm_conditions b = ["wall"%string] \/ bm_conditions b = ["wall"%string; "wall"%string]) /\ ~ asks_network r.

(** the schemes for scalar problems that conserve: finite volumes without limiter, finite elements *)
Definition start_mass (b : scalar_benchmark) (r : request) : option R :=
  let '(k, _, _) := r in
  match k with
  | ScalarLLF | ScalarCentral => Some (start_amount (sb_initial b) (sb_domain b) (mesh_asked r))
  | CG | CGLow | FEMCL => Some (start_nodal_amount (sb_initial b) (sb_domain b) (mesh_asked r))
  | _ => None
  end.
(** the schemes and CFL numbers that keep the bounds of the initial data *)
Definition keeps_bounds (p : problem_name) (r : request) : Prop :=
  let '(k, _, _) := r in
  p = M_CommandLine.Advection /\ (k = ScalarLLF /\ cfl_asked r <= 1 \/ k = ScalarMCL /\ cfl_asked r <= 1 / 2) \/
  (k = CGLow \/ k = FEMCL) /\ cfl_asked r <= 1 /\ (2 <= mesh_asked r)%nat.

Section Words.
Context (parse_int : string -> option Z) (parse_float : string -> option pyfloat) (net net2 : list state -> state).
Context (newton : (R -> R) -> R -> result R) (moving_height : R -> R) (random_waves : Z -> oscillation) (drawn : Z).
(** the line asks calculate for the solvers [rs] of the benchmark [b] *)
Definition asks (line : list string) (p : problem_name) (b : any_benchmark) (rs : list request) : Prop :=
  exists xs wss, line = command_words (CCalculate p) ++ List.concat wss /\
    Forall2 (cwritten parse_int parse_float net net2 newton moving_height any_word (CCalculate p)) xs wss /\ Forall (coffered (CCalculate p)) xs /\ exclusive xs /\
    b = end_of (benchmark_of random_waves drawn (CCalculate p) xs) (end_time_of xs) /\ requests_of xs = Some rs.
End Words.
