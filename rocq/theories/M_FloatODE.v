(** Model of core/ode_solver.py with rounded arithmetic. Definitions only.
    M_ODE models the same code; there the order of the summands does not matter. Here the sum over the stages is taken from the left, as
    np.sum along the first axis takes it, and the clock is rounded by [r]. The operations on vectors are those of [VecOps]; the rounded ones
    come from rounded operations on cells ([float_cells], [float_states]). *)
From Coq Require Import Reals List Arith.
From Verif Require Import Prelude M_ODE M_FloatStepping.
Import ListNotations.
Open Scope R_scope.

(** numpy arrays of doubles: sums and products with a number are rounded. Quotients are products with the exact reciprocal, rounded once.
    One number per cell (scalar problems) *)
Definition float_cells : CellOps R :=
  {| czero := 0; cadd := fun a b => rnd (a + b); cscal := fun c a => rnd (c * a); ccoord := fun _ x => x |}.
(** height and discharge per cell *)
Definition float_states : CellOps (R * R) :=
  {| czero := (0, 0); cadd := fun a b => (rnd (fst a + fst b), rnd (snd a + snd b)); cscal := fun c a => (rnd (c * fst a), rnd (c * snd a));
     ccoord := fun k x => if k then fst x else snd x |}.

Section RK.
Context {V : Type} `{VecOps V} (r : R -> R).

(** np.sum(np.array([c0*k0, ...]), axis=0), from the left; None: no summands *)
Fixpoint lsum (acc : V) (cs : list R) (ks : list V) : V :=
  match cs, ks with
  | c :: cs', k :: ks' => lsum (vadd acc (vscal c k)) cs' ks'
  | _, _ => acc
  end.
Definition wsum_left (cs : list R) (ks : list V) : option V :=
  match cs, ks with
  | c :: cs', k :: ks' => Some (lsum (vscal c k) cs' ks')
  | _, _ => None
  end.

(** the loop L73-87 for the stages [is]; [calls] are the arguments the right hand side was called with, [ks] its values *)
Fixpoint rkf_stages (f : R -> V -> result V) (T : tableau) (dt : R) (o : ode V) (is : list nat) (calls : list (R * V)) (ks : list V) : result (list (R * V) * list V) :=
  match is with
  | [] => Ok (calls, ks)
  | i :: is' =>
      let tn := r (o_time o + r (nth i (rk_c T) 0 * dt)) in
      let sv := axpy (o_sol o) dt (wsum_left (firstn i (nth i (rk_A T) [])) ks) in
      bind (f tn sv) (fun k => rkf_stages f T dt o is' (calls ++ [(tn, sv)]) (ks ++ [k]))
  end.
(** ExplicitRungeKuttaMethod.execute, L63-93; also returns the calls of the right hand side *)
Definition rkf_execute (f : R -> V -> result V) (T : tableau) (dt : R) (o : ode V) : result (ode V * list (R * V)) :=
  bind (rkf_stages f T dt o (seq 0 (length (rk_b T))) [] []) (fun st =>
  Ok ({| o_time := r (o_time o + dt); o_sol := axpy (o_sol o) dt (wsum_left (rk_b T) (snd st)) |}, fst st)).
(** consecutive calls execute(dt) for dt in a list *)
Fixpoint rkf_run (f : R -> V -> result V) (T : tableau) (dts : list R) (o : ode V) : result (ode V * list (R * V)) :=
  match dts with
  | [] => Ok (o, [])
  | dt :: l => bind (rkf_execute f T dt o) (fun p => bind (rkf_run f T l (fst p)) (fun q => Ok (fst q, snd p ++ snd q)))
  end.
End RK.
