(** Model of the command line options of the solvers: SolverParser and SolverAction of
    core/solver.py, finite_volume/solver.py, finite_element/solver.py, the parsers and
    registries of all solvers, and _build_solver of command/calculate.py. Definitions only.

    Of argparse the model covers option strings that are written in full and separated
    from their value by a blank; abbreviated options, "+m5", "++cfl=1", "+", "--" and other
    strings with a leading "+" and a blank inside give the outcome [Unmodelled]. *)
From Coq Require Import String Ascii Reals List Arith ZArith Bool.
From Verif Require Import Prelude M_ODE M_ShallowWater M_FVSolver M_ScalarSolver M_Misc.
Import ListNotations.
Open Scope R_scope.

(** values stored in a namespace *)
Inductive ovalue :=
| OStr (s : string) | OInt (z : Z) | OFloat (f : pyfloat) | OMethod (T : tableau) | OFlux (g : getter) | OFlag (b : bool) | ONone.

(** how the string behind an option is converted: no type, positive_int, positive_float,
    float, the lambda of _add_ode_solver (core/solver.py L179), the lambda of _add_flux
    (finite_volume/solver.py L96); [KTrue] is action="store_true" *)
Inductive okind := KStr | KPosInt | KPosFloat | KFloat | KMethod | KFlux | KTrue.
Record opt := { op_short : string; op_long : string; op_dest : string; op_kind : okind; op_default : ovalue }.

(** classes of solvers *)
Inductive solver_class :=
| CG | CGLow | FEMCL                       (* finite_element/scalar/solver *)
| ScalarLLF | ScalarCentral | ScalarMCL    (* finite_volume/scalar/solver *)
| LLF | LW | Low | Central | ES | ES1 | MCL | ReducedLLF | ReducedLLF2 | Antidiff | Coarse. (* finite_volume/shallow_water/solver *)
Record parser := { pa_class : solver_class; pa_options : list opt }.

(** ** The option tables *)
(** core/solver.py _add_name L122-129, _add_short L131-138 *)
Definition o_name (s : string) : opt := {| op_short := "+n"; op_long := "++name"; op_dest := "name"; op_kind := KStr; op_default := OStr s |}.
Definition o_short (s : string) : opt := {| op_short := "+s"; op_long := "++short"; op_dest := "short"; op_kind := KStr; op_default := OStr s |}.
(** _add_mesh_size L140-148 *)
Definition o_mesh (n : Z) : opt := {| op_short := "+m"; op_long := "++mesh-size"; op_dest := "mesh_size"; op_kind := KPosInt; op_default := OInt n |}.
(** _add_cfl L150-158: only a long option *)
Definition o_cfl (c : R) : opt := {| op_short := "++cfl"; op_long := "++cfl"; op_dest := "cfl_number"; op_kind := KPosFloat; op_default := OFloat (Finite c) |}.
(** _add_adaptive_time_stepping L160-165 *)
Definition o_adaptive : opt := {| op_short := "++adaptive"; op_long := "++adaptive"; op_dest := "adaptive"; op_kind := KTrue; op_default := OFlag false |}.
(** _add_ode_solver L167-183 with defaults.ODE_SOLVER = "heun" *)
Definition o_ode : opt := {| op_short := "+o"; op_long := "++ode-solver"; op_dest := "ode_solver_type"; op_kind := KMethod; op_default := OMethod heun |}.
(** finite_volume/solver.py _add_flux L88-99 *)
Definition o_flux : opt := {| op_short := "+f"; op_long := "++flux"; op_dest := "flux_getter"; op_kind := KFlux; op_default := ONone |}.
(** antidiffusion.py _add_gamma L50-58 *)
Definition o_gamma : opt := {| op_short := "+g"; op_long := "++gamma"; op_dest := "gamma"; op_kind := KFloat; op_default := OFloat (Finite (1 / 10)) |}.
(** coarse.py _add_coarsening_degree L50-58 *)
Definition o_degree : opt := {| op_short := "+c"; op_long := "++coarsening-degree"; op_dest := "coarsening_degree"; op_kind := KPosInt; op_default := OInt 8 |}.
(** cg.py CGParser._add_arguments L93-96 *)
Definition o_exact : opt := {| op_short := "++exact-flux"; op_long := "++exact-flux"; op_dest := "exact_flux"; op_kind := KTrue; op_default := OFlag false |}.
(** _add_standard_arguments L113-117 *)
Definition standard (name short : string) (mesh : Z) (cfl : R) : list opt := [o_name name; o_short short; o_mesh mesh; o_cfl cfl].

(** the parsers of all classes; CALCULATE_MESH_SIZE = 400; the finite element parsers
    override _add_arguments, so +p of finite_element/solver.py L20-28 is never added *)
Definition options (k : solver_class) : list opt :=
  match k with
  | CG => standard "Continuous Galerkin" "cg" 400 (1 / 10) ++ [o_exact]
  | CGLow => standard "Low order Continuous Galerkin" "cg-low" 400 1 ++ [o_adaptive; o_ode]
  | FEMCL => standard "Finite Element MCL Solver" "mcl-fem" 400 1 ++ [o_adaptive; o_ode]
  | ScalarLLF => standard "Lax-Friedrichs finite volume scheme" "llf" 400 (1 / 10)
  | ScalarCentral => standard "Central scheme" "central" 400 (1 / 10)
  | ScalarMCL => standard "Finite Volume MCL Solver" "mcl-fv" 400 (1 / 10) ++ [o_ode]
  | LLF => standard "Lax-Friedrichs finite volume scheme" "llf" 400 (1 / 10) ++ [o_ode]
  | LW => standard "Lax-Wendroff finite volume scheme" "lw" 400 (1 / 10)
  | Low => standard "Low order finite volume scheme" "low-order" 400 (1 / 10) ++ [o_ode]
  | Central => standard "Central scheme" "central" 400 (1 / 10)
  | ES => standard "Energy stable finite volume scheme" "es" 400 (1 / 10) ++ [o_ode]
  | ES1 => standard "Energy stable finite volume scheme with first order diffusion" "es1" 400 (1 / 10) ++ [o_ode]
  | MCL => standard "MCL Solver" "mcl" 400 (1 / 10) ++ [o_flux; o_ode]
  | ReducedLLF => standard "Reduced Lax Friedrichs Solver" "reduced-llf" 50 (1 / 10 / 8) ++ [o_ode]
  | ReducedLLF2 => standard "Second Reduced Lax Friedrichs Solver" "reduced-llf-2" 50 (1 / 10 / 40) ++ [o_ode]
  | Antidiff => standard "Solver with antidiffusion." "antidiffusion" 400 (1 / 10) ++ [o_flux; o_gamma; o_ode]
  | Coarse => standard "Coarsened Solver." "coarse" 400 (1 / 10) ++ [o_flux; o_degree; o_ode]
  end.
Definition parser_of (k : solver_class) : parser := {| pa_class := k; pa_options := options k |}.

(** command/calculate.py L14 (finite_element/scalar/solver/__init__.py L5 merged with
    finite_volume/scalar/solver/__init__.py L5-9) *)
Definition scalar_registry : list (string * parser) :=
  [("cg", parser_of CG); ("cg-low", parser_of CGLow); ("mcl-fem", parser_of FEMCL);
   ("llf", parser_of ScalarLLF); ("central", parser_of ScalarCentral); ("mcl-fv", parser_of ScalarMCL)]%string.
(** L15: finite_volume/shallow_water/solver/__init__.py L27-39 *)
Definition swe_registry : list (string * parser) :=
  [("llf", parser_of LLF); ("lw", parser_of LW); ("low-order", parser_of Low); ("central", parser_of Central);
   ("es", parser_of ES); ("es1", parser_of ES1); ("mcl", parser_of MCL); ("reduced-llf", parser_of ReducedLLF);
   ("reduced-llf-2", parser_of ReducedLLF2); ("antidiffusion", parser_of Antidiff); ("coarse", parser_of Coarse)]%string.
Definition find_key {A} (l : list (string * A)) (s : string) : option A :=
  option_map snd (find (fun p => String.eqb (fst p) s) l).

Section Parse.
Context (parse_int : string -> option Z) (parse_float : string -> option pyfloat).
(** the networks of reduced_llf.py and reduced_llf_2.py *)
Context (net net2 : list state -> state).

(** core/solver.py L168-172 *)
Definition methods : list (string * tableau) := [("euler", euler); ("heun", heun); ("ssp3", ssp3)]%string.
(** finite_volume/shallow_water/solver/__init__.py L13-21 *)
Definition fluxes : list (string * getter) :=
  [("central", GCentral); ("es", GES); ("es1", GES1); ("llf", GLLF); ("low-order", GLow);
   ("reduced-llf", GReduced 4 net GLLF); ("reduced-llf-2", GReduced 4 net2 GLLF)]%string.

(** the type functions; a lookup in a dict raises KeyError *)
Definition convert (k : okind) (s : string) : result ovalue :=
  match k with
  | KStr => Ok (OStr s)
  | KPosInt => bind (positive_int parse_int s) (fun z => Ok (OInt z))
  | KPosFloat => bind (positive_float parse_float s) (fun f => Ok (OFloat f))
  | KFloat => bind (float_of parse_float s) (fun f => Ok (OFloat f))
  | KMethod => match find_key methods s with Some T => Ok (OMethod T) | None => Err KeyError end
  | KFlux => match find_key fluxes s with Some g => Ok (OFlux g) | None => Err KeyError end
  | KTrue => Err TypeError
  end.

(** argparse with prefix_chars="+": what a string on the command line is for a parser *)
Inductive token := Plain | Option (o : opt) | Unknown | Odd.
Definition flags (o : opt) : list string := [op_short o; op_long o].
Definition first_is (c : ascii) (s : string) : bool := match s with EmptyString => false | String a _ => Ascii.eqb a c end.
Definition plus : ascii := "+"%char.
Definition has_char (c : ascii) (s : string) : bool := existsb (Ascii.eqb c) (list_ascii_of_string s).
Definition classify (opts : list opt) (s : string) : token :=
  if String.eqb s "--" then Odd
  else if negb (first_is plus s) then Plain
  else match find (fun o => existsb (String.eqb s) (flags o)) opts with
       | Some o => Option o
       | None =>
           if Nat.eqb (String.length s) 1 || has_char "=" s || has_char " " s
              || existsb (fun o => existsb (fun f => prefix s f || String.eqb f (substring 0 2 s)) (flags o)) opts
           then Odd else Unknown
       end.

(** how the program goes on: a value, the end of the program (with this exit status; [listing]
    if the list of the available solvers was printed), an exception *)
Inductive outcome (A : Type) := Parsed (a : A) | Exit (status : nat) (listing : bool) | Raised (e : exn) | Unmodelled.
Arguments Parsed {A} a. Arguments Exit {A} status listing. Arguments Raised {A} e. Arguments Unmodelled {A}.

Definition namespace := list (string * ovalue).
(** setattr(namespace, dest, value) *)
Definition set_value (d : string) (x : ovalue) (ns : namespace) : namespace :=
  map (fun p => if String.eqb (fst p) d then (d, x) else p) ns.

(** ArgumentParser.parse_args: errors of the conversion (ValueError, TypeError), missing
    values and strings left over end the program with status 2 and a usage message; a
    KeyError of the conversion is not caught. [extras]: there are unrecognised strings,
    reported at the end. All strings are classified first. *)
Fixpoint parse_tokens (opts : list opt) (extras : bool) (tokens : list string) (ns : namespace) : outcome namespace :=
  match tokens with
  | [] => if extras then Exit 2 false else Parsed ns
  | t :: rest =>
      match classify opts t with
      | Odd => Unmodelled
      | Plain | Unknown => parse_tokens opts true rest ns
      | Option o =>
          match op_kind o with
          | KTrue => parse_tokens opts extras rest (set_value (op_dest o) (OFlag true) ns)
          | k =>
              match rest with
              | [] => Exit 2 false
              | v :: rest' =>
                  match classify opts v with
                  | Odd => Unmodelled
                  | Plain =>
                      match convert k v with
                      | Ok x => parse_tokens opts extras rest' (set_value (op_dest o) x ns)
                      | Err KeyError => Raised KeyError
                      | Err _ => Exit 2 false
                      end
                  | _ => Exit 2 false
                  end
              end
          end
      end
  end.
(** SolverParser.parse_arguments L185-189: the namespace and the class of the solver *)
Definition parse_arguments (p : parser) (tokens : list string) : outcome (solver_class * namespace) :=
  if existsb (fun t => match classify (pa_options p) t with Odd => true | _ => false end) tokens then Unmodelled else
  match parse_tokens (pa_options p) false tokens (map (fun o => (op_dest o, op_default o)) (pa_options p)) with
  | Parsed ns => Parsed (pa_class p, ns)
  | Exit s l => Exit s l
  | Raised e => Raised e
  | Unmodelled => Unmodelled
  end.

(** SolverAction._get_solver_namespace L226-242: the KeyError of an unknown solver and
    every KeyError inside the parser print the list of solvers and quit() (status 0) *)
Definition solver_namespace (registry : list (string * parser)) (group : list string) : outcome (solver_class * namespace) :=
  match group with
  | [] => Raised IndexError
  | k :: args =>
      match find_key registry k with
      | None => Exit 0 true
      | Some p => match parse_arguments p args with Raised KeyError => Exit 0 true | o => o end
      end
  end.
Definition is_key (registry : list (string * parser)) (s : string) : bool :=
  match find_key registry s with Some _ => true | None => false end.
(** SolverAction.__call__ L195-207; [fuel] bounds the number of groups *)
Fixpoint solver_action (registry : list (string * parser)) (fuel : nat) (values : list string) : outcome (list (solver_class * namespace)) :=
  match values with
  | [] => Parsed []
  | _ =>
      match fuel with
      | O => Unmodelled
      | S fuel' =>
          let '(g, rest) := pop_solver_arguments (is_key registry) values in
          match solver_namespace registry g with
          | Parsed ns =>
              match solver_action registry fuel' rest with
              | Parsed nss => Parsed (ns :: nss)
              | o => o
              end
          | Exit s l => Exit s l
          | Raised e => Raised e
          | Unmodelled => Unmodelled
          end
      end
  end.

(** ** Building the solvers: calculate.py _build_solver L200-212 *)
(** keyword parameters of the constructors: finite_volume/solver.py L27-36 (all finite volume
    solvers hand their keywords on to it), lax_wendroff.py L70-78 (no ode_solver_type),
    mcl.py L220-224, antidiffusion.py L16-24, coarse.py L12-19, and the __init__ of cg.py
    L47-57, cg_low.py L76-87, finite_element/scalar/solver/mcl.py L107-118 *)
Definition keywords (k : solver_class) : list string :=
  let common := ["name"; "short"; "mesh_size"; "cfl_number"; "save_history"]%string in
  (match k with
   | CG => "polynomial_degree" :: "exact_flux" :: common
   | CGLow | FEMCL => "polynomial_degree" :: "ode_solver_type" :: "adaptive" :: common
   | LW => common
   | MCL => "flux_getter" :: "ode_solver_type" :: common
   | Antidiff => "gamma" :: "flux_getter" :: "ode_solver_type" :: common
   | Coarse => "coarsening_degree" :: "flux_getter" :: "ode_solver_type" :: common
   | _ => "ode_solver_type" :: common
   end)%string.
(** solver(benchmark, **vars(namespace)): an unexpected keyword raises TypeError *)
Definition accepts (k : solver_class) (ns : namespace) : bool :=
  forallb (fun p => existsb (String.eqb (fst p)) (keywords k)) ns.

(** reading a namespace *)
Definition get (ns : namespace) (d : string) : ovalue :=
  match find_key ns d with Some x => x | None => ONone end.
Definition as_nat (x : ovalue) : option nat := match x with OInt z => Some (Z.to_nat z) | _ => None end.
Definition as_real (x : ovalue) : option R := match x with OFloat (Finite r) => Some r | _ => None end.
Definition as_method (x : ovalue) : option tableau := match x with OMethod T => Some T | _ => None end.
Definition as_flux (x : ovalue) : option getter := match x with OFlux g => Some g | _ => None end.
Definition or_flux (x : ovalue) (d : getter) : getter := match as_flux x with Some g => g | None => d end.
Definition is_finite (x : ovalue) : bool := match x with OFloat (Finite _) => true | OFloat _ => false | _ => true end.

(** what the constructor is called with; [SW] and [SWCoarse] are built by sw_solver and
    coarse_solver of M_FVSolver, [SWLaxWendroff] by lw_solver, [ScalarFV] by scalar_solver
    and [ScalarFE] by fe_solver of M_ScalarSolver *)
Inductive call :=
| SW (g : getter) (a : solver_args)
| SWLaxWendroff (a : solver_args)
| SWCoarse (g : getter) (a : solver_args) (degree : option nat)
| ScalarFV (g : scalar_getter) (a : solver_args)
| ScalarFE (k : fe_kind) (a : fe_args).
(** the attributes name and short: core/solver.py L37-38 with the defaults of cg.py L58-59,
    cg_low.py L89-90, mcl.py L119-120; an empty string is replaced *)
Definition as_label (x : ovalue) (d : string) : string := match x with OStr s => if String.eqb s "" then d else s | _ => d end.
Definition label_defaults (k : solver_class) : string * string :=
  match k with
  | CG => ("Continuous Galerkin", "cg") | CGLow => ("Low order Continuous Galerkin", "cg_low") | FEMCL => ("MCL Solver", "mcl")
  | _ => ("Solver", "")
  end%string.
Definition labels (k : solver_class) (ns : namespace) : string * string :=
  (as_label (get ns "name") (fst (label_defaults k)), as_label (get ns "short") (snd (label_defaults k))).
(** the keywords as arguments; [history] is save_history, set to True by commands that need
    it (calculate.py L214-216). Infinite and nan CFL numbers or gammas are not modelled. *)
Definition build_call (k : solver_class) (ns : namespace) (history : bool) : outcome (string * string * call) :=
  if negb (accepts k (ns ++ if history then [("save_history"%string, OFlag true)] else [])) then Raised TypeError
  else if negb (forallb (fun p => is_finite (snd p)) ns) then Unmodelled
  else
    let a := {| a_mesh_size := as_nat (get ns "mesh_size"); a_cfl := as_real (get ns "cfl_number");
                a_ode := as_method (get ns "ode_solver_type"); a_history := history |} in
    let f := {| f_mesh_size := as_nat (get ns "mesh_size"); f_degree := as_nat (get ns "polynomial_degree");
                f_cfl := as_real (get ns "cfl_number"); f_ode := as_method (get ns "ode_solver_type"); f_history := history |} in
    let flag (d : string) := match get ns d with OFlag b => b | _ => false end in
    Parsed (labels k ns, match k with
    | CG => ScalarFE (FCG (flag "exact_flux"%string)) f
    | CGLow => ScalarFE (FLow (flag "adaptive"%string)) f
    | FEMCL => ScalarFE (FMCL (flag "adaptive"%string)) f
    | ScalarLLF => ScalarFV SLLF a
    | ScalarCentral => ScalarFV SCentral a
    | ScalarMCL => ScalarFV SMCL a
    | LLF => SW GLLF a
    | LW => SWLaxWendroff a
    | Low => SW GLow a
    | Central => SW GCentral a
    | ES => SW GES a
    | ES1 => SW GES1 a
    | MCL => SW (GMCL (or_flux (get ns "flux_getter") GCentral)) a
    | ReducedLLF => SW (GReduced 4 net GLLF) a
    | ReducedLLF2 => SW (GReduced 4 net2 GLLF) a
    | Antidiff => SW (GAntidiffusion (as_real (get ns "gamma")) (or_flux (get ns "flux_getter") GLLF)) a
    | Coarse => SWCoarse (or_flux (get ns "flux_getter") GLLF) a (as_nat (get ns "coarsening_degree"))
    end).
End Parse.
Arguments Parsed {A} a. Arguments Exit {A} status listing. Arguments Raised {A} e. Arguments Unmodelled {A}.
