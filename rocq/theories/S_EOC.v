(** Specification: the tables of eoc. *)
From Coq Require Import String Reals List Arith ZArith Bool.
From Verif Require Import Prelude M_Mesh M_Norm M_ODE M_Coarsener M_Solver S_Solver M_ShallowWater M_FVSolver M_Benchmark M_ScalarSolver M_Misc M_Command M_Series M_Parser S_Parser M_CommandLine S_CommandLine S_CommandRun M_EOC.
Import ListNotations.
Open Scope R_scope.

(** how large an error for the cosine or the Gaussian bell may be at time T on cells of length h *)
Definition small_error (u0 : R -> R) (T h e : R) : Prop :=
  u0 = cosine /\ 0 <= e <= 2 * PI * ((PI * T + 1) * h + 1 / 10 ^ 12) \/
  u0 = gaussian_bell /\ 0 <= e <= 10 * (sqrt (T * h) + h + 1 / 10 ^ 12).
(** first order solvers on meshes with n cells or more *)
Definition first_order_on (n : nat) (r : request) : Prop := let '(k, _, _) := r in cfl_asked r <= 1 /\ (k = ScalarLLF \/ k = CGLow /\ (3 <= n)%nat).
(** the steps of such a solver on cells of length h *)
Definition first_order_step (r : request) (h : R) : R := let '(k, _, _) := r in match k with CGLow => h * cfl_asked r / 2 | _ => h * cfl_asked r end.
(** a table with one row per mesh: as many numbers as cells, three small errors, and orders that compare the errors of the row with those of the row above *)
Definition order_between (old new : R) (o : order_value) : Prop :=
  match o with
  | Order x => 0 < old /\ 0 < new /\ Rpower 2 x = old / new
  | PlusInf => 0 < old /\ new = 0
  | MinusInf => old = 0 /\ 0 < new
  | NaN => old = 0 /\ new = 0
  end.
Definition orders_of_rows (rows : list table_row) : Prop := forall i row, nth_error rows i = Some row ->
  match i with
  | O => row_orders row = [NaN; NaN; NaN]
  | S j => forall above, nth_error rows j = Some above -> length (row_orders row) = 3%nat /\
      forall k old new, nth_error (row_errors above) k = Some old -> nth_error (row_errors row) k = Some new -> 0 <= old -> 0 <= new ->
        exists o, nth_error (row_orders row) k = Some o /\ order_between old new o
  end.
Definition table_with (ok : nat -> list R -> Prop) (cells meshes : nat) (rows : list table_row) : Prop :=
  length rows = meshes /\ orders_of_rows rows /\
  forall i, (i < meshes)%nat -> exists row, nth_error rows i = Some row /\ row_dofs row = (2 ^ i * cells)%nat /\ length (row_errors row) = 3%nat /\ ok (2 ^ i * cells)%nat (row_errors row).
Definition convergence_table (u0 : R -> R) (T : R) : nat -> nat -> list table_row -> Prop :=
  table_with (fun n errors => forall e, In e errors -> small_error u0 T (1 / INR n) e).

Section Words.
Context (parse_int : string -> option Z) (parse_float : string -> option pyfloat) (net net2 : list state -> state).
Context (newton : (R -> R) -> R -> result R) (moving_height : R -> R) (random_waves : Z -> oscillation) (drawn : Z).
(** the line asks eoc for tables of the solvers [rs] of the benchmark [b], with the given number of meshes, the first one with [cells] cells *)
Definition asks_tables (line : list string) (p : problem_name) (b : any_benchmark) (rs : list request) (cells meshes : nat) : Prop :=
  exists xs wss, line = command_words (CEOC p) ++ List.concat wss /\
    Forall2 (cwritten parse_int parse_float net net2 newton moving_height any_word (CEOC p)) xs wss /\ Forall (coffered (CEOC p)) xs /\ exclusive xs /\
    b = end_of (benchmark_of random_waves drawn (CEOC p) xs) (end_time_of xs) /\ requests_of xs = Some rs /\
    cells = Z.to_nat (points_of xs 8%Z) /\ meshes = Z.to_nat (refinements_of xs 4%Z).
(** the name of a solver, asked for or by default *)
Definition title (r : request) : string := fst (fst (ordered net net2 false r)).
End Words.

(** the rows of a table belong to runs of the solver [r] on the meshes *)
Section Runs.
Context (net net2 : list state -> state) (eig : nat -> (nat -> nat -> R) -> (nat -> R) * (nat -> nat -> R)) (linear_solver : M_Misc.mat -> list R -> list R) (old : nat -> R).
Context (finite : list R -> bool) (finite2 : list state -> bool).
Definition measured_run (n : nat) (b : scalar_benchmark) (exact : R -> R) (r : request) (cells : nat) (row : table_row) : Prop :=
  exists call s o t v sp e1 e2 e3, call = snd (ordered net net2 false (on_mesh (Z.of_nat cells) r)) /\
    construct eig linear_solver old (BScalar b) call = Ok s /\ solve_any finite finite2 n s = (o, None) /\
    time_shown o = t /\ values_shown o = Some v /\ space_of b call = Ok sp /\ row_dofs row = length v /\ row_errors row = [e1; e2; e3] /\
    let difference c x := exact x - value_in sp v c x in
    l1norm eig (norm_degree sp) (mesh_in sp) difference = Ok e1 /\ l2norm eig (norm_degree sp) (mesh_in sp) difference = Ok e2 /\ linfnorm None (mesh_in sp) difference = Ok e3.
End Runs.
