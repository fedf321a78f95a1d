(** Model of finite_volume/scalar/core.py, finite_volume/time_stepping.py and
    finite_volume/scalar/solver/{lax_friedrichs,central,mcl}.py. Definitions only. *)
From Coq Require Import Reals List ZArith Arith String.
From Verif Require Import Prelude M_Boundary M_Flux M_Neighbours.
Import ListNotations.
Open Scope R_scope.

Inductive problem := Advection | Burgers.
(** the strings accepted by get_flux/get_wave_speed, everything else is a ValueError *)
Definition parse_problem (s : string) : result problem :=
  if String.eqb s "advection" then Ok Advection
  else if String.eqb s "burgers" then Ok Burgers else Err ValueError.

(** scalar/core.py get_flux L8-14 *)
Definition scalar_flux (p : problem) (u : R) : R :=
  match p with Advection => u | Burgers => 1 / 2 * u ^ 2 end.
(** flux_prime of get_wave_speed L31-39 *)
Definition flux_prime (p : problem) (u : R) : R :=
  match p with Advection => 1 | Burgers => u end.
(** WaveSpeed.__call__ L23-28 *)
Definition scalar_wave_speed (p : problem) (ul ur : R) : R * R :=
  let w := Rmax (flux_prime p ul) (flux_prime p ur) in (- w, w).
(** get_riemann_solver L42-43 *)
Definition scalar_riemann (p : problem) : riemann R :=
  {| rs_flux := fun u => Ok (scalar_flux p u); rs_speed := scalar_wave_speed p |}.

(** LaxFriedrichsFluxGetter, CentralFluxGetter *)
Definition scalar_llf (p : problem) : nflux R := lax_friedrichs (scalar_riemann p).
Definition scalar_central (p : problem) : nflux R := central (fun u => Ok (scalar_flux p u)).

(** finite_volume/time_stepping.py OptimalTimeStep.__call__ L21-33 (for any kind of
    cell values); note that get_node_neighbours is called without time. *)
Definition optimal_time_step {W} `{CellOps W} (rs : riemann W) (bc : bconds W) (dx : R) (u : list W) : result R :=
  bind (get_node_neighbours bc u 1 None) (fun a =>
  match a with
  | [vl; vr] =>
    bind (rs_solve_all rs vl vr) (fun o =>
    bind (amax (map (fun x => Rabs (ro_sl x)) o ++ map ro_sr o)) (fun m => rdiv dx m))
  | _ => Err TypeError
  end).

(** scalar/solver/mcl.py limit L9-33, at one node *)
Definition limit_at (f s bl br maxl maxr minl minr : R) : R :=
  let fmax := s * Rmin (maxr - br) (bl - minl) in
  let fmin := s * Rmax (minr - br) (bl - maxl) in
  Rmax fmin (Rmin fmax f).
(** limit on arrays: node i lies between the cells i and i+1 of the bounds *)
Fixpoint limit_arrays (f s bl br : list R) (lmax lmin : list R) : list R :=
  match f, s, bl, br, lmax, lmin with
  | f0 :: f', s0 :: s', bl0 :: bl', br0 :: br', m0 :: ((m1 :: _) as lmax'), n0 :: ((n1 :: _) as lmin') =>
      limit_at f0 s0 bl0 br0 m0 m1 n0 n1 :: limit_arrays f' s' bl' br' lmax' lmin'
  | _, _, _, _, _, _ => []
  end.
Definition limit (f s bl br lmax lmin : list R) : list R * list R :=
  let l := limit_arrays f s bl br lmax lmin in (map Ropp l, l).

(** MCLFlux L36-83, for a neighbour array as built by MCLFluxGetter L86-94
    (mesh size + 2, i.e. including one ghost cell on each side) *)
Definition mcl_call (rs : riemann R) (array : list (list Z)) (a : list (list R)) : result (list R * list R) :=
  match a with
  | [vl; vr] =>
    bind (rs_solve_all rs vl vr) (fun o =>
    let low := map ro_flux o in
    bind (mapM (fun p => central_at (rs_flux rs) (fst p) (snd p)) (combine vl vr)) (fun high =>
    let anti := map2 Rminus high low in
    bind (get_dof_vector [vl; vr]) (fun dofs =>
    bind (local_maximum array dofs) (fun vmax =>
    bind (local_minimum array dofs) (fun vmin =>
    let bar := map ro_state o in
    let '(ll, lr) := limit anti (map ro_sr o) bar bar vmax vmin in
    Ok (map2 Rplus (map Ropp low) ll, map2 Rplus low lr))))))
  | _ => Err TypeError
  end.
Definition scalar_mcl (p : problem) (array : list (list Z)) : nflux R :=
  {| nf_dim := 2; nf_call := mcl_call (scalar_riemann p) array |}.
(** MCLFluxGetter.__call__ *)
Definition scalar_mcl_getter (p : problem) (mesh_size : nat) (conditions : list string) : result (nflux R) :=
  bind (fv_neighbours (mesh_size + 2) (is_periodic conditions)) (fun rows =>
    Ok (scalar_mcl p (neighbours_array rows))).
