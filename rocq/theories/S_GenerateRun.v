(** What the rows written by generate-data should be. *)
From Coq Require Import Reals String List Arith ZArith Bool.
From Verif Require Import Prelude M_Mesh M_Boundary M_Flux M_Coarsener M_ShallowWater M_FVSolver.
Import ListNotations.
Open Scope R_scope.
Notation length := List.length.

(** The fluxes (those counted for the cells to the right) which the solver with flux [g] for the benchmark [b] computes at time [t] for the cells [u], from the
    left end of the domain to the right end *)
Definition node_fluxes (eig : nat -> (nat -> nat -> R) -> (nat -> R) * (nat -> nat -> R)) (g : getter) (b : sw_benchmark) (t : R) (u : list state) : result (list state) :=
  bind (new_mesh (bm_domain b) (length u)) (fun m =>
  bind (get_flux eig g b m BNone) (fun nf =>
  bind (boundary b (Nat.div (nf_dim nf) 2)) (fun bc =>
  bind (get_node_neighbours bc u (Nat.div (nf_dim nf) 2) (Some t)) (fun a =>
  bind (nf_call nf a) (fun p => Ok (snd p)))))).
(** A row for the cells [u] at time [t]: the time, the cells of the coarsened solution around the node (radius on each side), and the flux of the fine solver at the
    node minus the flux which the same solver has there on the coarse mesh for the coarsened solution *)
Definition row_for eig g b (degree radius node : nat) (t : R) (u : list state) (row : R * list state) : Prop :=
  fst row = t /\ exists cu cells flux, coarsen degree u = Ok cu /\ snd row = cells ++ [flux] /\ length cells = (2 * radius)%nat /\
  (forall i, (i < 2 * radius)%nat -> nth i cells (0, 0) = nth (node - radius + i) cu (0, 0)) /\
  forall ff cf, node_fluxes eig g b t u = Ok ff -> node_fluxes eig g b t cu = Ok cf ->
    flux = csub (nth (node * degree) ff (0, 0)) (nth node cf (0, 0)).

(** The seed that is meant: the given one; 1 if there is none (or zero) *)
Definition seed_meant (seed : option Z) : Z := match seed with Some s => if (s =? 0)%Z then 1%Z else s | None => 1%Z end.
