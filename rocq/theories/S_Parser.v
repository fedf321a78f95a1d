(** Specification of the solver command line: what a user can ask for, how it is written and
    which solver they get. *)
From Coq Require Import String Ascii Reals List Arith ZArith Bool.
From Verif Require Import Prelude M_ODE M_ShallowWater M_FVSolver M_ScalarSolver M_Misc M_Parser.
Import ListNotations.
Open Scope R_scope.

(** one wish concerning a solver *)
Inductive wish :=
| Name (s : string) | Short (s : string) | MeshSize (n : nat) | Cfl (x : R)
| TimeIntegrator (T : tableau) | FluxOf (g : getter) | Gamma (x : R) | CoarseningDegree (n : nat)
| AdaptiveSteps | ExactFlux.

(** strings that are values: no option marker in front *)
Definition is_value (w : string) : Prop := w <> "--"%string /\ forall r, w <> String "+"%char r.

Section Words.
Context (parse_int : string -> option Z) (parse_float : string -> option pyfloat) (net net2 : list state -> state).
(** the two ways to write an option *)
Definition spelled (short long : string) (f : string) : Prop := f = short \/ f = long.
(** how a wish is written *)
Definition written (x : wish) (ws : list string) : Prop :=
  match x with
  | AdaptiveSteps => ws = ["++adaptive"%string]
  | ExactFlux => ws = ["++exact-flux"%string]
  | _ => exists f w, ws = [f; w] /\ is_value w /\
      match x with
      | Name s => spelled "+n" "++name" f /\ w = s
      | Short s => spelled "+s" "++short" f /\ w = s
      | MeshSize n => spelled "+m" "++mesh-size" f /\ exists z, parse_int w = Some z /\ (0 < z)%Z /\ n = Z.to_nat z
      | Cfl x => f = "++cfl"%string /\ parse_float w = Some (Finite x) /\ 0 < x
      | TimeIntegrator T => spelled "+o" "++ode-solver" f /\ (w = "euler"%string /\ T = euler \/ w = "heun"%string /\ T = heun \/ w = "ssp3"%string /\ T = ssp3)
      | FluxOf g => spelled "+f" "++flux" f /\
          (w = "central"%string /\ g = GCentral \/ w = "es"%string /\ g = GES \/ w = "es1"%string /\ g = GES1 \/ w = "llf"%string /\ g = GLLF \/
           w = "low-order"%string /\ g = GLow \/ w = "reduced-llf"%string /\ g = GReduced 4 net GLLF \/ w = "reduced-llf-2"%string /\ g = GReduced 4 net2 GLLF)
      | Gamma x => spelled "+g" "++gamma" f /\ parse_float w = Some (Finite x)
      | CoarseningDegree n => spelled "+c" "++coarsening-degree" f /\ exists z, parse_int w = Some z /\ (0 < z)%Z /\ n = Z.to_nat z
      | _ => False
      end
  end.
End Words.

(** the solvers that offer the choice *)
Definition offered (k : solver_class) (x : wish) : Prop :=
  match x with
  | Name _ | Short _ | MeshSize _ | Cfl _ => True
  | TimeIntegrator _ => ~ In k [CG; ScalarLLF; ScalarCentral; LW; Central]
  | FluxOf _ => In k [MCL; Antidiff; Coarse]
  | Gamma _ => k = Antidiff
  | CoarseningDegree _ => k = Coarse
  | AdaptiveSteps => k = CGLow \/ k = FEMCL
  | ExactFlux => k = CG
  end.

(** the last wish of a kind counts, without one the default *)
Fixpoint chosen {A} (pick : wish -> option A) (ws : list wish) (default : A) : A :=
  match ws with
  | [] => default
  | x :: rest => chosen pick rest match pick x with Some a => a | None => default end
  end.
Definition wants (x : wish) (ws : list wish) : bool :=
  chosen (fun y => match x, y with AdaptiveSteps, AdaptiveSteps => Some true | ExactFlux, ExactFlux => Some true | _, _ => None end) ws false.
Definition mesh_of := chosen (fun x => match x with MeshSize n => Some n | _ => None end).
Definition cfl_of := chosen (fun x => match x with Cfl c => Some c | _ => None end).
Definition method_of := chosen (fun x => match x with TimeIntegrator T => Some T | _ => None end).
Definition flux_of := chosen (fun x => match x with FluxOf g => Some g | _ => None end).
Definition gamma_of := chosen (fun x => match x with Gamma c => Some c | _ => None end).
Definition degree_of := chosen (fun x => match x with CoarseningDegree n => Some n | _ => None end).
Definition name_of := chosen (fun x => match x with Name s => Some s | _ => None end).
Definition short_of := chosen (fun x => match x with Short s => Some s | _ => None end).
Definition unless_empty (s d : string) : string := if String.eqb s "" then d else s.

(** the key of a solver on the command line *)
Definition swe_key (k : solver_class) : option string :=
  match k with
  | LLF => Some "llf" | LW => Some "lw" | Low => Some "low-order" | Central => Some "central" | ES => Some "es" | ES1 => Some "es1"
  | MCL => Some "mcl" | ReducedLLF => Some "reduced-llf" | ReducedLLF2 => Some "reduced-llf-2" | Antidiff => Some "antidiffusion" | Coarse => Some "coarse"
  | _ => None
  end%string.
Definition scalar_key (k : solver_class) : option string :=
  match k with
  | CG => Some "cg" | CGLow => Some "cg-low" | FEMCL => Some "mcl-fem" | ScalarLLF => Some "llf" | ScalarCentral => Some "central" | ScalarMCL => Some "mcl-fv"
  | _ => None
  end%string.

Definition key_for (swe : bool) : solver_class -> option string := if swe then swe_key else scalar_key.
(** no value but that of +f is the key of a solver *)
Definition no_key_inside (swe : bool) (ws : list string) : Prop :=
  forall f w, ws = [f; w] -> f <> "+f"%string -> forall k, key_for swe k <> Some w.

(** the solver a user gets: name, short name and what is built *)
Section Expected.
Context (net net2 : list state -> state).
Definition fv (mesh : nat) (cfl : R) (T : option tableau) (history : bool) : solver_args :=
  {| a_mesh_size := Some mesh; a_cfl := Some cfl; a_ode := T; a_history := history |}.
Definition fe (mesh : nat) (cfl : R) (T : option tableau) (history : bool) : fe_args :=
  {| f_mesh_size := Some mesh; f_degree := None; f_cfl := Some cfl; f_ode := T; f_history := history |}.
Definition expected (k : solver_class) (ws : list wish) (history : bool) : string * string * call :=
  let n := mesh_of ws 400%nat in
  let c := cfl_of ws (1 / 10) in
  let T := method_of ws heun in
  let named name short := (unless_empty (name_of ws name) "Solver", short_of ws short)%string in
  match k with
  | CG => (unless_empty (name_of ws "Continuous Galerkin") "Continuous Galerkin", unless_empty (short_of ws "cg") "cg",
           ScalarFE (FCG (wants ExactFlux ws)) (fe n c None history))
  | CGLow => (unless_empty (name_of ws "Low order Continuous Galerkin") "Low order Continuous Galerkin", unless_empty (short_of ws "cg-low") "cg_low",
              ScalarFE (FLow (wants AdaptiveSteps ws)) (fe n (cfl_of ws 1) (Some T) history))
  | FEMCL => (unless_empty (name_of ws "Finite Element MCL Solver") "MCL Solver", unless_empty (short_of ws "mcl-fem") "mcl",
              ScalarFE (FMCL (wants AdaptiveSteps ws)) (fe n (cfl_of ws 1) (Some T) history))
  | ScalarLLF => (named "Lax-Friedrichs finite volume scheme" "llf", ScalarFV SLLF (fv n c None history))
  | ScalarCentral => (named "Central scheme" "central", ScalarFV SCentral (fv n c None history))
  | ScalarMCL => (named "Finite Volume MCL Solver" "mcl-fv", ScalarFV SMCL (fv n c (Some T) history))
  | LLF => (named "Lax-Friedrichs finite volume scheme" "llf", SW GLLF (fv n c (Some T) history))
  | LW => (named "Lax-Wendroff finite volume scheme" "lw", SWLaxWendroff (fv n c None history))
  | Low => (named "Low order finite volume scheme" "low-order", SW GLow (fv n c (Some T) history))
  | Central => (named "Central scheme" "central", SW GCentral (fv n c None history))
  | ES => (named "Energy stable finite volume scheme" "es", SW GES (fv n c (Some T) history))
  | ES1 => (named "Energy stable finite volume scheme with first order diffusion" "es1", SW GES1 (fv n c (Some T) history))
  | MCL => (named "MCL Solver" "mcl", SW (GMCL (flux_of ws GCentral)) (fv n c (Some T) history))
  | ReducedLLF => (named "Reduced Lax Friedrichs Solver" "reduced-llf", SW (GReduced 4 net GLLF) (fv (mesh_of ws 50%nat) (cfl_of ws (1 / 10 / 8)) (Some T) history))
  | ReducedLLF2 => (named "Second Reduced Lax Friedrichs Solver" "reduced-llf-2", SW (GReduced 4 net2 GLLF) (fv (mesh_of ws 50%nat) (cfl_of ws (1 / 10 / 40)) (Some T) history))
  | Antidiff => (named "Solver with antidiffusion." "antidiffusion", SW (GAntidiffusion (Some (gamma_of ws (1 / 10))) (flux_of ws GLLF)) (fv n c (Some T) history))
  | Coarse => (named "Coarsened Solver." "coarse", SWCoarse (flux_of ws GLLF) (fv n c (Some T) history) (Some (degree_of ws 8%nat)))
  end%string.
End Expected.

(** a line: solvers with their wishes and how these are written *)
Definition request := (solver_class * list wish * list (list string))%type.
Definition well_written (parse_int : string -> option Z) (parse_float : string -> option pyfloat) (net net2 : list state -> state) (swe : bool) (r : request) : Prop :=
  let '(k, xs, wss) := r in (exists key, key_for swe k = Some key) /\ Forall2 (written parse_int parse_float net net2) xs wss /\ Forall (offered k) xs.
Definition words (swe : bool) (r : request) : list string :=
  let '(k, xs, wss) := r in match key_for swe k with Some key => key :: List.concat wss | None => [] end.
