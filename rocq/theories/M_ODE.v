(** Model of core/ode_solver.py. Definitions only.

    The vectors the method works on: [V] with addition and scaling (numpy
    arrays or floats). [vcoord] reads one number out of a vector, it is used by
    specifications only. The in-place update of the solution array is modelled
    functionally here; M_Solver.v has the aliasing. *)
From Coq Require Import Reals List Arith.
From Verif Require Import Prelude.
Import ListNotations.
Open Scope R_scope.

Class VecOps (V : Type) := {
  vadd : V -> V -> V;
  vscal : R -> V -> V;
  vcoord : nat * bool -> V -> R
}.

#[export] Instance R_VecOps : VecOps R := {
  vadd := Rplus; vscal := Rmult; vcoord := fun _ x => x }.

#[export] Instance list_VecOps {W} `{CellOps W} : VecOps (list W) := {
  vadd := map2 cadd;
  vscal := fun r l => map (cscal r) l;
  vcoord := fun p l => ccoord (snd p) (nth (fst p) l czero) }.

(** Butcher tableau: class attributes _runge_kutta_matrix, _weights, _nodes (L18-20) *)
Record tableau := { rk_A : list (list R); rk_b : list R; rk_c : list R }.

Section RK.
Context {V : Type} `{VecOps V}.

(** np.sum(np.array([c0*k0, ...]), axis=0): None stands for the sum of an empty
    array, which is the number 0.0. *)
Fixpoint wsum (cs : list R) (ks : list V) : option V :=
  match cs, ks with
  | c :: cs', k :: ks' =>
      match wsum cs' ks' with
      | None => Some (vscal c k)
      | Some r => Some (vadd (vscal c k) r)
      end
  | _, _ => None
  end.

(** u + dt * sum, where u + dt * 0.0 = u *)
Definition axpy (u : V) (dt : R) (k : option V) : V :=
  match k with None => u | Some k => vadd u (vscal dt k) end.

(** State of ExplicitRungeKuttaMethod between calls: time and solution. *)
Record ode := { o_time : R; o_sol : V }.

(** loop body L73-87 for stage [i]; the state is (time_nodes, stage_values, stages) *)
Definition rk_stage (f : R -> V -> V) (T : tableau) (dt : R) (o : ode)
  (st : list R * list V * list V) (i : nat) : list R * list V * list V :=
  let '(tns, svs, ks) := st in
  let tn := o_time o + nth i (rk_c T) 0 * dt in
  let sv := axpy (o_sol o) dt (wsum (firstn i (nth i (rk_A T) [])) ks) in
  (tns ++ [tn], svs ++ [sv], ks ++ [f tn sv]).

Definition rk_stages (f : R -> V -> V) (T : tableau) (dt : R) (o : ode) :=
  fold_left (rk_stage f T dt o) (seq 0 (length (rk_b T))) ([], [], []).

(** ExplicitRungeKuttaMethod.execute, L63-93 *)
Definition rk_execute (f : R -> V -> V) (T : tableau) (dt : R) (o : ode) : ode :=
  let '(_, _, ks) := rk_stages f T dt o in
  {| o_time := o_time o + dt; o_sol := axpy (o_sol o) dt (wsum (rk_b T) ks) |}.

(** the properties time_nodes and stage_values after execute (L52-58) *)
Definition rk_time_nodes f T dt o : list R := fst (fst (rk_stages f T dt o)).
Definition rk_stage_values f T dt o : list V := snd (fst (rk_stages f T dt o)).

(** consecutive calls execute(dt) for dt in a list *)
Definition rk_run (f : R -> V -> V) (T : tableau) (dts : list R) (o : ode) : ode :=
  fold_left (fun o dt => rk_execute f T dt o) dts o.
End RK.
Arguments ode V : clear implicits.

(** ForwardEuler L99-104 *)
Definition euler : tableau := {| rk_A := [[0]]; rk_b := [1]; rk_c := [0] |}.
(** Heun L107-112 *)
Definition heun : tableau :=
  {| rk_A := [[0; 0]; [1; 0]]; rk_b := [1 / 2; 1 / 2]; rk_c := [0; 1] |}.
(** StrongStabilityPreservingRungeKutta3 L115-120 *)
Definition ssp3 : tableau :=
  {| rk_A := [[0; 0; 0]; [1; 0; 0]; [1 / 4; 1 / 4; 0]];
     rk_b := [1 / 6; 1 / 6; 2 / 3]; rk_c := [0; 1; 1 / 2] |}.

(** RungeKutta8 L123-221 *)
Definition rk8_A : list (list R) :=
  let s := sqrt 21 in
  [ [0; 0; 0; 0; 0; 0; 0; 0; 0; 0; 0];
    [1 / 2; 0; 0; 0; 0; 0; 0; 0; 0; 0; 0];                                  (* L153-154 *)
    [1 / 4; 1 / 4; 0; 0; 0; 0; 0; 0; 0; 0; 0];                              (* L156-158 *)
    [1 / 7; 1 / 98 * (-7 - 3 * s); 1 / 49 * (21 + 5 * s); 0; 0; 0; 0; 0; 0; 0; 0]; (* L160-163 *)
    [1 / 84 * (11 + s); 0; 1 / 63 * (18 + 4 * s); 1 / 252 * (21 - s); 0; 0; 0; 0; 0; 0; 0]; (* L165-168 *)
    [1 / 48 * (5 + s); 0; 1 / 36 * (9 + s); 1 / 360 * (-231 + 14 * s);
      1 / 80 * (63 - 7 * s); 0; 0; 0; 0; 0; 0];                             (* L170-174 *)
    [1 / 42 * (10 - s); 0; 1 / 315 * (-432 + 92 * s); 1 / 90 * (633 - 145 * s);
      1 / 70 * (-504 + 115 * s); 1 / 35 * (63 - 13 * s); 0; 0; 0; 0; 0];    (* L176-181 *)
    [1 / 14; 0; 0; 0; 1 / 126 * (14 - 3 * s); 1 / 63 * (13 - 3 * s); 1 / 9; 0; 0; 0; 0]; (* L183-187 *)
    [1 / 32; 0; 0; 0; 1 / 576 * (91 - 21 * s); 11 / 72; 1 / 1152 * (-385 - 75 * s);
      1 / 128 * (63 + 13 * s); 0; 0; 0];                                    (* L189-194 *)
    [1 / 14; 0; 0; 0; 1 / 9; 1 / 2205 * (-733 - 147 * s); 1 / 504 * (515 + 111 * s);
      1 / 56 * (-51 - 11 * s); 1 / 245 * (132 + 28 * s); 0; 0];             (* L196-202 *)
    [0; 0; 0; 0; 1 / 18 * (-42 + 7 * s); 1 / 45 * (-18 + 28 * s); 1 / 72 * (-273 - 53 * s);
      1 / 72 * (301 + 53 * s); 1 / 45 * (28 - 28 * s); 1 / 18 * (49 - 7 * s); 0] ]. (* L204-210 *)
Definition rk8_b : list R :=
  [1 / 20; 0; 0; 0; 0; 0; 0; 49 / 180; 16 / 45; 49 / 180; 1 / 20].          (* L212-218 *)
Definition rk8 : tableau :=
  {| rk_A := rk8_A; rk_b := rk8_b; rk_c := map rsum rk8_A |}.               (* L220-221 *)

(** The same loop for a right hand side that may raise: the first exception ends
    execute (and with it the run). *)
Section RKE.
Context {V : Type} `{VecOps V}.
Definition rk_stage_e (f : R -> V -> result V) (T : tableau) (dt : R) (o : ode V)
  (st : list R * list V * list V) (i : nat) : result (list R * list V * list V) :=
  let '(tns, svs, ks) := st in
  let tn := o_time o + nth i (rk_c T) 0 * dt in
  let sv := axpy (o_sol o) dt (wsum (firstn i (nth i (rk_A T) [])) ks) in
  bind (f tn sv) (fun k => Ok (tns ++ [tn], svs ++ [sv], ks ++ [k])).

Fixpoint foldM {A B} (g : A -> B -> result A) (l : list B) (a : A) : result A :=
  match l with [] => Ok a | b :: l' => bind (g a b) (foldM g l') end.

Definition rk_execute_e (f : R -> V -> result V) (T : tableau) (dt : R) (o : ode V) : result (ode V) :=
  bind (foldM (rk_stage_e f T dt o) (seq 0 (length (rk_b T))) ([], [], [])) (fun st =>
    let '(_, _, ks) := st in
    Ok {| o_time := o_time o + dt; o_sol := axpy (o_sol o) dt (wsum (rk_b T) ks) |}).

Definition rk_run_e (f : R -> V -> result V) (T : tableau) (dts : list R) (o : ode V) : result (ode V) :=
  foldM (fun o dt => rk_execute_e f T dt o) dts o.
End RKE.
