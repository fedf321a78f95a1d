(** Model of core/riemann_solver.py and finite_volume/numerical_flux.py.
    Definitions only.

    A flux is called with arrays (one per neighbour position), all numpy
    arithmetic is elementwise. A division by zero does not raise in numpy, it
    produces nan/inf, which every later [DiscreteSolution.update] rejects with a
    ValueError; the model stops with [Err ZeroDivisionError] at the division. *)
From Coq Require Import Reals List ZArith Arith.
From Verif Require Import Prelude M_Boundary.
Import ListNotations.
Open Scope R_scope.

Definition rdiv (x y : R) : result R := if Reqb y 0 then Err ZeroDivisionError else Ok (x / y).

Section Flux.
Context {W : Type} `{CellOps W}.

(** ** core/riemann_solver.py L7-50 *)
Record riemann := {
  rs_flux : W -> result W;                 (* flux callable, may raise *)
  rs_speed : W -> W -> R * R               (* wave_speed callable: (left, right) *)
}.
(** the attributes set by solve, per node *)
Record rs_out := {
  ro_flux : W;               (* first return value *)
  ro_state : W;              (* intermediate_state *)
  ro_fl : W; ro_fr : W;      (* flux_left, flux_right *)
  ro_sl : R; ro_sr : R       (* wave_speed_left, wave_speed_right *)
}.
(** RiemannSolver.solve at one node, L25-42 *)
Definition rs_solve (rs : riemann) (ul ur : W) : result rs_out :=
  bind (rs_flux rs ul) (fun fl =>
  bind (rs_flux rs ur) (fun fr =>
  let '(sl, sr) := rs_speed rs ul ur in
  bind (rdiv 1 (sr - sl)) (fun factor =>
  let st := cscal factor (csub (csub (cscal sr ur) (cscal sl ul)) (csub fr fl)) in
  Ok {| ro_flux := csub fl (cscal sl (csub ul st));
        ro_state := st; ro_fl := fl; ro_fr := fr; ro_sl := sl; ro_sr := sr |}))).
Definition rs_solve_all (rs : riemann) (vl vr : list W) : result (list rs_out) :=
  mapM (fun p => rs_solve rs (fst p) (snd p)) (combine vl vr).

(** ** numerical_flux.py *)
Record nflux := {
  nf_dim : nat;                                                 (* input_dimension *)
  nf_call : list (list W) -> result (list W * list W)           (* __call__ *)
}.

(** get_required_values L10-18 *)
Definition get_required_values (dim : nat) (values : list (list W)) : result (list (list W)) :=
  if negb (Nat.leb dim (length values)) then Err AssertionError
  else if negb (Nat.even (length values)) then Err AssertionError
  else let delta := Nat.div (length values - dim) 2 in
       Ok (slice values delta (length values - delta)).

(** get_dof_vector L21-22; [*values[0], *[v[-1] for v in values[1:]]] *)
Definition get_dof_vector (values : list (list W)) : result (list W) :=
  match values with
  | [] => Err IndexError
  | v0 :: rest => bind (mapM (fun v => pyget v (-1)) rest) (fun l => Ok (v0 ++ l))
  end.

(** elementwise operations of arrays *)
Definition vneg (l : list W) : list W := map copp l.

(** LaxFriedrichsFlux L85-95; a call with another number of arguments is a TypeError *)
Definition lax_friedrichs (rs : riemann) : nflux :=
  {| nf_dim := 2;
     nf_call := fun a => match a with
       | [vl; vr] => bind (rs_solve_all rs vl vr) (fun o =>
           let f := map ro_flux o in Ok (vneg f, f))
       | _ => Err TypeError
       end |}.

(** CentralFlux L98-110 *)
Definition central_at (f : W -> result W) (l r : W) : result W :=
  bind (f l) (fun fl => bind (f r) (fun fr => Ok (cscal (1 / 2) (cadd fl fr)))).
Definition central (f : W -> result W) : nflux :=
  {| nf_dim := 2;
     nf_call := fun a => match a with
       | [vl; vr] => bind (mapM (fun p => central_at f (fst p) (snd p)) (combine vl vr)) (fun f =>
           Ok (vneg f, f))
       | _ => Err TypeError
       end |}.

(** NumericalFluxWithArbitraryInput L74-82 *)
Definition arbitrary_input (nf : nflux) : nflux :=
  {| nf_dim := nf_dim nf;
     nf_call := fun a => bind (get_required_values (nf_dim nf) a) (nf_call nf) |}.

(** CorrectedNumericalFlux L113-130 *)
Definition corrected (nf fc : nflux) : nflux :=
  {| nf_dim := Nat.max (nf_dim nf) (nf_dim fc);
     nf_call := fun a =>
       bind (nf_call (arbitrary_input nf) a) (fun p =>
       bind (nf_call (arbitrary_input fc) a) (fun q =>
       Ok (map2 cadd (fst p) (fst q), map2 cadd (snd p) (snd q)))) |}.

(** LinearAntidiffusiveFlux L133-148 *)
Definition linear_antidiffusive (gamma dx : R) : nflux :=
  {| nf_dim := 2;
     nf_call := fun a => match a with
       | [vl; vr] =>
           bind (mapM (fun p => bind (rdiv 1 dx) (fun f =>
                   Ok (cscal f (cscal gamma (cadd (snd p) (copp (fst p))))))) (combine vl vr)) (fun f =>
           Ok (vneg f, f))
       | _ => Err TypeError
       end |}.

(** NumericalFluxWithHistory L36-71: flux plus recorded calls. The history is
    [None] before the first call (np.empty(0)). *)
Record hflux := { hf_flux : nflux; hf_left : option (list (list W)); hf_right : option (list (list W)) }.
Definition with_history (nf : nflux) : hflux := {| hf_flux := nf; hf_left := None; hf_right := None |}.
Definition hf_append (h : option (list (list W))) (f : list W) : option (list (list W)) :=
  match h with None => Some [f] | Some l => Some (l ++ [f]) end.
Definition hf_call (h : hflux) (a : list (list W)) : hflux * result (list W * list W) :=
  match nf_call (hf_flux h) a with
  | Err e => (h, Err e)
  | Ok (fl, fr) => ({| hf_flux := hf_flux h; hf_left := hf_append (hf_left h) fl;
                       hf_right := hf_append (hf_right h) fr |}, Ok (fl, fr))
  end.

(** NumericalFluxDependentRightHandSide.__call__ L168-186 *)
Definition cells_from_nodes (dx : R) (fl fr : list W) : result (list W) :=
  bind (rdiv 1 dx) (fun f =>
    Ok (map (cscal f) (map2 cadd (removelast fr) (tl fl)))).
Definition fv_rhs (nf : nflux) (dx : R) (bc : bconds W) (t : R) (u : list W) : result (list W) :=
  bind (get_node_neighbours bc u (Nat.div (nf_dim nf) 2) (Some t)) (fun a =>
  bind (nf_call nf a) (fun p => cells_from_nodes dx (fst p) (snd p))).
End Flux.
Arguments nflux W : clear implicits.
Arguments riemann W : clear implicits.
Arguments rs_out W : clear implicits.
Arguments hflux W : clear implicits.
