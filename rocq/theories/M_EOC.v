(** Model of the command eoc (command/error.py), from the words to the tables: _build_eoc_solutions, CalculateEOC, EOCCalculator and the
    content of EOCDataFrame. Definitions only. The numbers of the tables are kept as they are; their printed form (L120-124, L166-178) is not modelled. *)
From Coq Require Import String Reals List Arith ZArith Bool.
From Verif Require Import Prelude M_Mesh M_Norm M_Quadrature M_Boundary M_Flux M_Interpolate M_ODE M_Solution M_Solver M_Generate M_Scalar M_ShallowWater M_FVSolver M_FE M_FEChoice M_Benchmark M_ScalarSolver M_Misc M_Command M_Series
  M_Parser M_CommandLine.
Import ListNotations.
Open Scope R_scope.

(** numpy's log2(old / new) for floats: division by zero and the logarithm of zero give infinities or nan and a warning *)
Inductive order_value := NaN | PlusInf | MinusInf | Order (x : R).
Definition log2_ratio (old new : R) : order_value :=
  if Reqb new 0 then if Rltb 0 old then PlusInf else NaN               (* log2(inf); log2(-inf) and 0/0 are nan *)
  else let q := old / new in
       if Reqb q 0 then MinusInf else if Rltb q 0 then NaN else Order (ln q / ln 2).

(** solver.solution.space: finite_volume/space.py L62-74 and finite_element/space.py L333-354, where the same options are used for the initial value *)
Inductive any_space := FVSpace (m : mesh) | FESpace (s : fespace).
Definition space_of (b : scalar_benchmark) (c : call) : result any_space :=
  match c with
  | ScalarFV _ a => bind (new_mesh (sb_domain b) (or_default (a_mesh_size a) default_mesh_size)) (fun m => Ok (FVSpace m))
  | ScalarFE _ a => bind (new_mesh (sb_domain b) (or_default (f_mesh_size a) default_mesh_size)) (fun m =>
                    bind (new_fespace m (or_default (f_degree a) default_polynomial_degree)) (fun s => Ok (FESpace s)))
  | _ => Err AttributeError
  end.
(** space.element(value)(cell_index, x) *)
Definition value_in (sp : any_space) (v : list R) (c : nat) (x : R) : R :=
  match sp with FVSpace _ => fv_element v c x | FESpace s => element s v c x end.
Definition mesh_in (sp : any_space) : mesh := match sp with FVSpace m => m | FESpace s => fs_mesh s end.
(** _build_norms L85-103: quadrature_degree *)
Definition norm_degree (sp : any_space) : option nat := match sp with FVSpace _ => None | FESpace s => Some (fs_degree s + 1)%nat end.

Section EOC.
Context (eig : nat -> (nat -> nat -> R) -> (nat -> R) * (nat -> nat -> R)).
(** _calculate_error L71-83 with ErrorCalculator L26-40: the norms L1, L2 and Linf in this order (L49) *)
Definition errors_at (exact : R -> R) (sp : any_space) (time : R) (v : list R) : result (list R) :=
  let m := mesh_in sp in
  let d := norm_degree sp in
  let against norm := bind (error_calculator norm time (fun _ => exact) (value_in sp v)) (fun e => Ok (snd e)) in
  bind (against (l1norm eig d m)) (fun e1 => bind (against (l2norm eig d m)) (fun e2 => bind (against (linfnorm None m)) (fun e3 => Ok [e1; e2; e3]))).
(** _calculate_eoc L105-118 *)
Definition orders_from (before now : list R) : list order_value := map2 log2_ratio before now.
Record table_row := { row_dofs : nat; row_errors : list R; row_orders : list order_value }.
(** __call__ L54-69: [before] are the errors of the row above *)
Fixpoint table_rows (exact : R -> R) (before : option (list R)) (l : list (any_space * (R * list R))) : result (list table_row) :=
  match l with
  | [] => Ok []
  | (sp, (t, v)) :: rest =>
      bind (errors_at exact sp t v) (fun e =>
      bind (table_rows exact (Some e) rest) (fun rows =>
      Ok ({| row_dofs := List.length v; row_errors := e; row_orders := match before with None => [NaN; NaN; NaN] | Some old => orders_from old e end |} :: rows)))
  end.

Context (linear_solver : M_Misc.mat -> list R -> list R) (old : nat -> R) (finite : list R -> bool) (finite2 : list state -> bool).
(** _build_eoc_solutions L295-303 for one solver: each solver is built and solved (Calculate(solver).execute()) before the next is built; nothing is caught *)
Fixpoint eoc_solutions (n : nat) (b : any_benchmark) (l : list order) : result (list object) :=
  match l with
  | [] => Ok []
  | o :: rest =>
      bind (construct eig linear_solver old b (snd o)) (fun s =>
      match calculate_execute (solve_any finite finite2 n) (OneSolver s) with
      | (_, Some e) => Err e
      | (OneSolver s', None) => bind (eoc_solutions n b rest) (fun l' => Ok (s' :: l'))
      | _ => Err TypeError
      end)
  end.
(** solver.solution of scalar solvers: time and value *)
Definition solution_in (o : object) : result (R * list R) := match o with Scalar (_, w) => Ok (w_sol_time w, w_mem w (w_sol w)) | _ => Err AttributeError end.

(** Benchmark.exact_solution_at_end_time (core/benchmark.py L43-44). For Burgers' equation (Newton's method, C49) the values, or the
    exception of the first evaluation that fails, are left open. *)
Context (burgers_solution : scalar_benchmark -> result (R -> R)).
Definition exact_at_end (b : scalar_benchmark) : result (R -> R) :=
  if String.eqb (sb_problem b) "advection" then Ok (fun x => advection_exact (sb_initial b) x (sb_end b)) else burgers_solution b.
(** one table, L211-220: the title is the name of the first solver *)
Definition eoc_table (b : scalar_benchmark) (solvers : list order) (objects : list object) : result (string * list table_row) :=
  match solvers with
  | [] => Err IndexError
  | (name, _, _) :: _ =>
      bind (mapM (fun o => space_of b (snd o)) solvers) (fun sps =>
      bind (mapM solution_in objects) (fun vs =>
      bind (exact_at_end b) (fun exact =>
      bind (table_rows exact None (combine sps vs)) (fun rows => Ok (name, rows)))))
  end.
(** CalculateEOC.execute L195-226: all tables are computed before the first is printed; exceptions are printed *)
Inductive printed := Warning | Tables (l : list (string * list table_row)) | ErrorLine (e : exn).
Definition eoc_execute (b : scalar_benchmark) (solvers : list (list order)) (objects : list (list object)) : printed :=
  match solvers with
  | [] => Warning
  | _ => match mapM (fun p => eoc_table b (fst p) (snd p)) (combine solvers objects) with Ok l => Tables l | Err e => ErrorLine e end
  end.

Context (parse_int : string -> option Z) (parse_float : string -> option pyfloat) (net net2 : list state -> state).
Context (newton : (R -> R) -> R -> result R) (moving_height : R -> R) (random_waves : Z -> oscillation) (drawn : Z) (splitext : string -> string * string).
(** cls1 eoc ...: postprocess (L271-309) with the solutions, then execute *)
Definition eoc_line (n : nat) (words : list string) : outcome printed :=
  match requested parse_int parse_float net net2 newton moving_height random_waves drawn splitext words with
  | Parsed (JEOC (BScalar b) ls) =>
      match mapM (eoc_solutions n (BScalar b)) ls with
      | Ok objects => Parsed (eoc_execute b ls objects)
      | Err e => Raised e
      end
  | Parsed _ => Unmodelled
  | Exit s l => Exit s l | Raised e => Raised e | Unmodelled => Unmodelled
  end.
End EOC.
