(** Specification: mirror images and translations of shallow water problems. *)
From Coq Require Import Reals List Arith String.
From Verif Require Import Prelude M_Boundary M_Flux M_ODE M_ShallowWater.
Import ListNotations.
Open Scope R_scope.

(** height and discharge seen in a mirror *)
Definition mirror_state (u : R * R) : R * R := (fst u, - snd u).
(** the cells in the opposite order *)
Definition mirror (u : list (R * R)) : list (R * R) := rev (map mirror_state u).
Definition mirror_bottom (b : bathymetry) : bathymetry := match b with BArray l => BArray (rev l) | _ => b end.
(** the inflow of the other side *)
Definition mirror_inflow (f : option (R -> R * R)) : option (R -> R * R) :=
  match f with Some f => Some (fun t => mirror_state (f t)) | None => None end.
Definition mirror_conditions (c : list string) : list string :=
  match c with c1 :: c2 :: _ => [c2; c1] | _ => c end.

(** the unlimited schemes of the program: the getters of the solvers below
    finite_volume/shallow_water/solver, and antidiffusion added to any of them *)
Inductive kind := LowOrder | Central | LaxFriedrichs | EnergyStable | EnergyStable1 | LaxWendroff (dt dx : R)
| Antidiffusion (k : kind) (gamma dx : R).
Fixpoint scheme (k : kind) (gravity : option R) (b : bathymetry) : result (nflux (R * R)) :=
  match k with
  | LowOrder => sw_low gravity b
  | Central => sw_central gravity b
  | LaxFriedrichs => sw_llf gravity b
  | EnergyStable => sw_es gravity b
  | EnergyStable1 => sw_es1 gravity b
  | LaxWendroff dt dx => Ok (lw_flux gravity dt dx)
  | Antidiffusion k gamma dx => bind (scheme k gravity b) (fun nf => Ok (corrected nf (linear_antidiffusive gamma dx)))
  end.

(** LaxWendroffFlux multiplies the gravity it is given by a height; both it and the
    antidiffusion divide by the step length *)
Fixpoint usable (k : kind) (gravity : option R) : Prop :=
  match k with
  | LaxWendroff _ dx => gravity <> None /\ dx <> 0
  | Antidiffusion k _ dx => usable k gravity /\ dx <> 0
  | _ => True
  end.

(** The bottom is flat, or the program recognises it as not flat. ([is_constant] compares with the first entry.) *)
Definition flat_bottom (b : bathymetry) : Prop :=
  match b with BArray l => l <> [] /\ forall i, (i < length l)%nat -> nth i l 0 = nth 0 l 0 | _ => True end.
Definition bumpy_bottom (b : bathymetry) : Prop :=
  exists l i, b = BArray l /\ (i < length l)%nat /\ epsilon <= Rabs (nth i l 0 - nth 0 l 0).
(** both in the problem and in its mirror image *)
Definition recognised (b : bathymetry) : Prop := flat_bottom b \/ bumpy_bottom b /\ bumpy_bottom (mirror_bottom b).
Definition one_entry_per_cell (b : bathymetry) (n : nat) : Prop := forall l, b = BArray l -> length l = n.

(** the cells of a periodic domain, numbered from another cell on *)
Definition rotate {A} (k : nat) (u : list A) : list A := skipn k u ++ firstn k u.
