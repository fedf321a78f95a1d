(** Model of core/solver.py: Solver, with the sharing of arrays between the solver, the
    ODE solver, the discrete solution and the caller. Definitions only.

    Arrays live in a memory ([w_mem], addresses are natural numbers, [w_next] is the next
    free one); objects hold addresses, so two names of one array are visible. The values
    kept in a history are copies (np.append) and are therefore stored directly.
    Not modelled: the name/short attributes, as_dict, the text written to the terminal
    (only the number of warnings). *)
From Coq Require Import Reals List Arith ZArith Bool.
From Verif Require Import Prelude M_TimeStepping M_Solution M_ODE.
Import ListNotations.
Open Scope R_scope.

Section Solver.
Context {V : Type} `{VecOps V} (finite : V -> bool).

(** What the constructor (core/solver.py L27-47) is given and never changed afterwards.
    [c_check] is the optional CFLChecker (its optimal step function may raise),
    [c_history] whether the solution is a DiscreteSolutionWithHistory. *)
Record config := {
  c_rhs : R -> V -> result V;
  c_tab : tableau;
  c_gen : generator (R * V);
  c_start : R;
  c_end : R;
  c_check : option (R -> V -> result R);
  c_history : bool
}.

Record world := {
  w_mem : nat -> V;  w_next : nat;
  w_ode : nat;       w_ode_time : R;     (* ExplicitRungeKuttaMethod._solution, _time *)
  w_sol : nat;       w_sol_time : R;     (* DiscreteSolution._value, _time *)
  w_times : list R;  w_values : list V;  (* the histories, if there are any *)
  w_warnings : nat
}.

Definition store (m : nat -> V) (l : nat) (v : V) : nat -> V :=
  fun l' => if Nat.eqb l' l then v else m l'.

(** Solver.__init__ L27-47 for a solution whose array is at address [sol]: the ODE solver
    gets a copy (the property value copies, discrete_solution.py L34, and
    _get_initial_value copies again, ode_solver.py L38-42; one copy here).
    With a history the constructor of DiscreteSolutionWithHistory ran before (L76-79). *)
Definition new_solver (c : config) (m : nat -> V) (next sol : nat) (time : R) : world :=
  {| w_mem := store m next (m sol); w_next := S next;
     w_ode := next; w_ode_time := time; w_sol := sol; w_sol_time := time;
     w_times := if c_history c then [time] else [];
     w_values := if c_history c then [m sol] else [];
     w_warnings := 0 |}.

(** CFLChecker.__call__ (core/time_stepping.py L42-46) with a step function that may raise *)
Fixpoint cfl_check_e (optimal : R -> V -> result R) (dt : R) (nodes : list R) (stages : list V) : result unit :=
  match stages with
  | [] => Ok tt
  | u :: us =>
      match nodes with
      | [] => Err IndexError
      | t :: ts => bind (optimal t u) (fun o =>
          if Rltb o dt then Err CFLConditionViolatedError else cfl_check_e optimal dt ts us)
      end
  end.

(** Solver._check_cfl_condition L71-82: only CFLConditionViolatedError is caught.
    [Ok true] means a warning was written. *)
Definition check_cfl (c : config) (dt : R) (nodes : list R) (stages : list V) : result bool :=
  match c_check c with
  | None => Ok false
  | Some optimal =>
      match cfl_check_e optimal dt nodes stages with
      | Ok _ => Ok false
      | Err CFLConditionViolatedError => Ok true
      | Err e => Err e
      end
  end.

(** DiscreteSolution.update (discrete_solution.py L53-58) and
    DiscreteSolutionWithHistory.update (L105-110) with the array at [l]: the address is
    stored, not a copy; the history gets a copy. *)
Definition sol_update (c : config) (dt : R) (l : nat) (w : world) : world * option exn :=
  if finite (w_mem w l) then
    let t := w_sol_time w + dt in
    ({| w_mem := w_mem w; w_next := w_next w; w_ode := w_ode w; w_ode_time := w_ode_time w;
        w_sol := l; w_sol_time := t;
        w_times := if c_history c then w_times w ++ [t] else w_times w;
        w_values := if c_history c then w_values w ++ [w_mem w l] else w_values w;
        w_warnings := w_warnings w |}, None)
  else (w, Some ValueError).

(** ode_solver.execute with the in-place update of the array (ode_solver.py L89-93);
    returns also time_nodes and stage_values. An exception of the right hand side leaves
    everything as it was. *)
Definition ode_execute (c : config) (dt : R) (w : world) : result (world * list R * list V) :=
  let o := {| o_time := w_ode_time w; o_sol := w_mem w (w_ode w) |} in
  bind (foldM (rk_stage_e (c_rhs c) (c_tab c) dt o) (seq 0 (length (rk_b (c_tab c)))) ([], [], [])) (fun st =>
    let '(nodes, stages, ks) := st in
    Ok ({| w_mem := store (w_mem w) (w_ode w) (axpy (o_sol o) dt (wsum (rk_b (c_tab c)) ks));
           w_next := w_next w; w_ode := w_ode w; w_ode_time := w_ode_time w + dt;
           w_sol := w_sol w; w_sol_time := w_sol_time w;
           w_times := w_times w; w_values := w_values w; w_warnings := w_warnings w |}, nodes, stages)).

Definition warn (b : bool) (w : world) : world :=
  {| w_mem := w_mem w; w_next := w_next w; w_ode := w_ode w; w_ode_time := w_ode_time w;
     w_sol := w_sol w; w_sol_time := w_sol_time w; w_times := w_times w; w_values := w_values w;
     w_warnings := if b then S (w_warnings w) else w_warnings w |}.

(** Solver._update L66-69 *)
Definition solver_update (c : config) (dt : R) (w : world) : world * option exn :=
  match ode_execute c dt w with
  | Err e => (w, Some e)
  | Ok (w1, nodes, stages) =>
      match check_cfl c dt nodes stages with
      | Err e => (w1, Some e)
      | Ok b => sol_update c dt (w_ode w1) (warn b w1)
      end
  end.

Inductive outcome := Interrupted | Completed | TooSmallWarning | RaisedExn (e : exn).

(** the loop of Solver.solve L54-64, for at most [n] iterations; the generator reads the
    time and the value of the solution (time_stepping.py L30-33) *)
Fixpoint solve_loop (c : config) (n : nat) (w : world) (s : ts_state) : world * ts_state * outcome :=
  match n with
  | O => (w, s, Interrupted)
  | S n' =>
      match ts_next (c_end c) (call_generator (c_gen c) (w_sol_time w, w_mem w (w_sol w))) s with
      | StopIter => (w, s, Completed)
      | TooSmall => (w, s, TooSmallWarning)
      | Yield dt s' =>
          match solver_update c dt w with
          | (w', None) => solve_loop c n' w' s'
          | (w', Some e) => (w', s', RaisedExn e)
          end
      end
  end.

(** tqdm(iterable) calls len(iterable), i.e. TimeStepping.__len__ (L123-134), and lets
    everything but TypeError and AttributeError pass. Division by a zero step and a
    negative length raise. *)
Definition tqdm_len (c : config) (w : world) : result nat :=
  if gen_adaptive (c_gen c) then Ok 0%nat
  else
    let dt := call_generator (c_gen c) (w_sol_time w, w_mem w (w_sol w)) in
    let duration := c_end c - c_start c in
    if Reqb dt 0 then Err ZeroDivisionError
    else
      let n := Int_part (duration / dt) in
      let n := if Rltb (dt * IZR n) (duration - tol) then (n + 1)%Z else n in
      if (n <? 0)%Z then Err ValueError else Ok (Z.to_nat n).

(** Solver.solve L53-64; [None] as iterator state: the loop was never entered *)
Definition solve (c : config) (n : nat) (w : world) : world * option ts_state * outcome :=
  match tqdm_len c w with
  | Err e => (w, None, RaisedExn e)
  | Ok _ => let '(w', s, st) := solve_loop c n w (ts_iter (c_start c)) in (w', Some s, st)
  end.

(** reinitialize of finite_volume/solver.py L72-77 and finite_element/solver.py L7-14 for
    initial data [v] at time [t]: set_value (discrete_solution.py L60-61, with a history
    L112-117), then reinitialize of the ODE solver with another copy *)
Definition reinitialize (c : config) (v : V) (t : R) (w : world) : world * option exn :=
  let l := w_next w in
  let w1 := {| w_mem := store (w_mem w) l v; w_next := S l; w_ode := w_ode w; w_ode_time := w_ode_time w;
               w_sol := w_sol w; w_sol_time := w_sol_time w;
               w_times := if c_history c then filter (fun t' => Rltb t' t) (w_times w) else w_times w;
               w_values := if c_history c then mask_values t (w_times w) (w_values w) else w_values w;
               w_warnings := w_warnings w |} in
  match sol_update c (t - w_sol_time w1) l w1 with
  | (w2, Some e) => (w2, Some e)
  | (w2, None) =>
      ({| w_mem := store (w_mem w2) (S l) v; w_next := S (S l); w_ode := S l; w_ode_time := t;
          w_sol := w_sol w2; w_sol_time := w_sol_time w2; w_times := w_times w2; w_values := w_values w2;
          w_warnings := w_warnings w2 |}, None)
  end.

(** What a program using the solver does with it: read solution.value (a copy is handed
    out), write to an array it owns, solve (possibly interrupted after [n] iterations),
    reinitialize. [owned] are the addresses handed out. *)
Inductive use := Read | Write (i : nat) (v : V) | Solve (n : nat) | Reinit (v : V) (t : R).
Definition use_step (c : config) (st : world * list nat) (u : use) : world * list nat :=
  let '(w, owned) := st in
  match u with
  | Read =>
      ({| w_mem := store (w_mem w) (w_next w) (w_mem w (w_sol w)); w_next := S (w_next w);
          w_ode := w_ode w; w_ode_time := w_ode_time w; w_sol := w_sol w; w_sol_time := w_sol_time w;
          w_times := w_times w; w_values := w_values w; w_warnings := w_warnings w |}, owned ++ [w_next w])
  | Write i v =>
      match nth_error owned i with
      | None => st
      | Some l =>
          ({| w_mem := store (w_mem w) l v; w_next := w_next w;
              w_ode := w_ode w; w_ode_time := w_ode_time w; w_sol := w_sol w; w_sol_time := w_sol_time w;
              w_times := w_times w; w_values := w_values w; w_warnings := w_warnings w |}, owned)
      end
  | Solve n => (fst (fst (solve c n w)), owned)
  | Reinit v t => (fst (reinitialize c v t w), owned)
  end.
Definition use_run (c : config) (us : list use) (st : world * list nat) : world * list nat :=
  fold_left (use_step c) us st.

(** what the caller sees: solution.time, solution.value and the histories *)
Definition seen (w : world) : R * V * list R * list V :=
  (w_sol_time w, w_mem w (w_sol w), w_times w, w_values w).
End Solver.
Arguments config V : clear implicits.
Arguments world V : clear implicits.
Arguments use V : clear implicits.
