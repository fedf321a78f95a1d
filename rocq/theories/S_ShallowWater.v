(** Specification of the shallow water properties. *)
From Coq Require Import Reals List Arith.
From Verif Require Import Prelude M_Boundary M_Flux M_ODE M_ShallowWater.
Import ListNotations.
Open Scope R_scope.
Notation length := List.length.

Definition heights_nonneg (u : list (R * R)) : Prop := forall x, In x u -> 0 <= fst x.
(** total amount of water divided by the cell size *)
Definition water (u : list (R * R)) : R := rsum (map fst u).

(** flat surface, no motion, every cell wet *)
Definition lake_at_rest (b : list R) (u : list (R * R)) : Prop :=
  length b = length u /\
  exists level, forall i, (i < length u)%nat ->
    fst (nth i u (0, 0)) + nth i b 0 = level /\ snd (nth i u (0, 0)) = 0 /\ epsilon <= fst (nth i u (0, 0)).
(** The code treats a bottom whose values differ from the first one by less than
    EPSILON as flat; a bottom is resolved if it is flat or not treated so. *)
Definition resolved (b : list R) : Prop :=
  (forall i, (i < length b)%nat -> nth i b 0 = nth 0 b 0) \/
  (exists i, (i < length b)%nat /\ epsilon <= Rabs (nth i b 0 - nth 0 b 0)).

(** Runs that stop with CFLConditionViolatedError as soon as the right hand side is
    evaluated for a state that fails the check for the current time step. *)
Definition checked_run {V} `{VecOps V} (check : R -> R -> V -> bool) (f : R -> V -> result V) (T : tableau)
  (dts : list R) (o : ode V) : result (ode V) :=
  foldM (fun o dt => rk_execute_e (fun t u => if check dt t u then f t u else Err CFLConditionViolatedError) T dt o) dts o.

(** dt * (|v| + sqrt(g h)) <= dx / 2 for all cells of [e] *)
Definition half_cfl (g dx dt : R) (e : list (R * R)) : Prop :=
  forall x, In x e -> dt * (Rabs (velocity x) + sqrt (g * fst x)) <= dx / 2.
Definition half_cfl_check (g dx : R) (bc : bconds (R * R)) (dt t : R) (u : list (R * R)) : bool :=
  match extended bc u (Some t) with
  | Ok e => forallb (fun x => Rleb (dt * (Rabs (velocity x) + sqrt (g * fst x))) (dx / 2)) e
  | Err _ => false
  end.

(** ** The fluxes of the program for the shallow water equations, for one benchmark
    (bottom, gravity, boundary conditions): the getters of the solvers below
    finite_volume/shallow_water/solver, antidiffusion added to any of them, and
    convex limiting (MCL) of any of them. *)
Inductive sw_scheme (gravity : option R) (b : bathymetry) (conditions : list String.string)
  (il ir : option (R -> R * R)) : nflux (R * R) -> Prop :=
| sch_low nf : sw_low gravity b = Ok nf -> sw_scheme gravity b conditions il ir nf
| sch_central nf : sw_central gravity b = Ok nf -> sw_scheme gravity b conditions il ir nf
| sch_llf nf : sw_llf gravity b = Ok nf -> sw_scheme gravity b conditions il ir nf
| sch_es nf : sw_es gravity b = Ok nf -> sw_scheme gravity b conditions il ir nf
| sch_es1 nf : sw_es1 gravity b = Ok nf -> sw_scheme gravity b conditions il ir nf
| sch_lw dt dx : sw_scheme gravity b conditions il ir (lw_flux gravity dt dx)
| sch_antidiffusion nf gamma dx : sw_scheme gravity b conditions il ir nf ->
    sw_scheme gravity b conditions il ir (corrected nf (linear_antidiffusive gamma dx))
| sch_mcl high nf : sw_scheme gravity b conditions il ir high ->
    sw_mcl gravity b conditions il ir high = Ok nf -> sw_scheme gravity b conditions il ir nf.

(** ** Partial derivatives of the flux, as functions of the state *)
Definition flux_component (eps g : R) (second : bool) (h q : R) : R :=
  match sw_flux_eps eps g (h, q) with
  | Ok f => if second then snd f else fst f
  | Err _ => 0
  end.
(** [M] is the Jacobian matrix of the flux at (h, q): row = component, column = variable *)
Definition is_flux_jacobian (eps g h q : R) (M : (R * R) * (R * R)) : Prop :=
  derivable_pt_lim (fun y => flux_component eps g false y q) h (fst (fst M)) /\
  derivable_pt_lim (fun y => flux_component eps g false h y) q (snd (fst M)) /\
  derivable_pt_lim (fun y => flux_component eps g true y q) h (fst (snd M)) /\
  derivable_pt_lim (fun y => flux_component eps g true h y) q (snd (snd M)).

Definition dot (a b : R * R) : R := fst a * fst b + snd a * snd b.

(** Runs in which the flux may be another one in each step (LaxWendroffSolver
    stores the current time step in its flux before each step). *)
Definition run_with {V} `{VecOps V} (rhs : nflux (R * R) -> R -> V -> result V) (T : tableau)
  (steps : list (R * nflux (R * R))) (o : ode V) : result (ode V) :=
  foldM (fun o p => rk_execute_e (rhs (snd p)) T (fst p) o) steps o.
