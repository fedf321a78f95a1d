(** C15, C16, C17: core/ode_solver.py *)
From Coq Require Import Reals List Lia Lra Arith.
From Verif Require Import Prelude L_Prelude M_ODE S_ODE L_ODE L_ODEOrder.
Import ListNotations.
Open Scope R_scope.

(** For every right hand side and every tableau whose rows are long enough,
    execute performs the step described in S_ODE.v, the recorded time nodes and
    stage values (the arguments with which f was called, in order, one per
    stage) are those of the step. *)
Theorem C15_execute_is_runge_kutta_step {V : Type} (D : V -> Prop) `{VecLaws V D} :
  forall (f : R -> V -> V) (T : tableau) (dt : R) (o : ode V),
  (forall t u, D u -> D (f t u)) -> D (o_sol o) ->
  (forall i, (i < length (rk_b T))%nat -> (i <= length (nth i (rk_A T) []))%nat) ->
  exists X k : nat -> V,
    rk_stage_spec D f T dt (o_time o) (o_sol o) (length (rk_b T)) X k /\
    rk_time_nodes f T dt o = tab (length (rk_b T)) (fun i => o_time o + rkc T i * dt) /\
    rk_stage_values f T dt o = tab (length (rk_b T)) X /\
    o_time (rk_execute f T dt o) = o_time o + dt /\
    rk_result_spec D T dt (o_sol o) (length (rk_b T)) k (o_sol (rk_execute f T dt o)).
Proof. exact (rk_execute_correct D). Qed.
Print Assumptions C15_execute_is_runge_kutta_step.

(** The step described in S_ODE.v is unique. *)
Theorem C15_step_is_unique {V : Type} (D : V -> Prop) `{VecLaws V D} :
  forall f T dt t u s X k X' k',
  rk_stage_spec D f T dt t u s X k -> rk_stage_spec D f T dt t u s X' k' ->
  forall i, (i < s)%nat -> X i = X' i /\ k i = k' i.
Proof. exact (rk_stage_spec_unique D). Qed.
Print Assumptions C15_step_is_unique.

(** All four methods satisfy the hypothesis on the tableau. *)
Theorem C15_tableaus_are_explicit : forall T,
  In T [euler; heun; ssp3; rk8] ->
  explicit T /\
  (forall i, (i < length (rk_b T))%nat -> (i <= length (nth i (rk_A T) []))%nat) /\
  length (rk_A T) = length (rk_b T) /\ length (rk_c T) = length (rk_b T).
Proof.
  intros T HT.
  assert (Hs : length (rk_A T) = length (rk_b T) /\ length (rk_c T) = length (rk_b T) /\
               Forall (fun r => length r = length (rk_b T)) (rk_A T)).
  { simpl in HT. decompose [or] HT; subst; try tauto; simpl; repeat constructor. }
  destruct Hs as [H1 [H2 H3]].
  assert (H4 : forall i, (i < length (rk_b T))%nat -> length (nth i (rk_A T) []) = length (rk_b T)).
  { intros i Hi. rewrite Forall_forall in H3. apply H3. apply nth_In. lia. }
  split; [|split; [intros i Hi; rewrite H4; lia | auto]].
  intros i j Hij. unfold rkA.
  destruct (Nat.lt_ge_cases i (length (rk_b T))) as [Hi|Hi].
  2:{ rewrite (nth_overflow (rk_A T)) by lia. destruct j; reflexivity. }
  destruct (Nat.lt_ge_cases j (length (rk_b T))) as [Hj|Hj].
  2:{ apply nth_overflow. rewrite H4; lia. }
  clear - HT Hij Hi Hj. simpl in HT. decompose [or] HT; subst; try tauto; simpl in Hi, Hj.
  - destruct i as [|i], j as [|j]; try lia; reflexivity.
  - do 2 (destruct i as [|i]; [do 2 (destruct j as [|j]; [first [reflexivity | lia]|]); lia|]). lia.
  - do 3 (destruct i as [|i]; [do 3 (destruct j as [|j]; [first [reflexivity | lia]|]); lia|]). lia.
  - do 11 (destruct i as [|i]; [do 11 (destruct j as [|j]; [first [reflexivity | lia]|]); lia|]). lia.
Qed.
Print Assumptions C15_tableaus_are_explicit.

(** Textbook formulas. *)
Theorem C15_euler_formula {V : Type} (D : V -> Prop) `{VecLaws V D} :
  forall (f : R -> V -> V) dt t u, D u -> (forall t u, D u -> D (f t u)) ->
  rk_execute f euler dt {| o_time := t; o_sol := u |} =
  {| o_time := t + dt; o_sol := vadd u (vscal dt (f t u)) |}.
Proof. intros f dt t u Hu Hf. exact (euler_step D f dt {| o_time := t; o_sol := u |} Hu Hf). Qed.
Theorem C15_heun_formula {V : Type} (D : V -> Prop) `{VecLaws V D} :
  forall (f : R -> V -> V) dt t u, D u -> (forall t u, D u -> D (f t u)) ->
  let u1 := vadd u (vscal dt (f t u)) in
  rk_execute f heun dt {| o_time := t; o_sol := u |} =
  {| o_time := t + dt;
     o_sol := vadd (vscal (1/2) u) (vscal (1 - 1/2) (vadd u1 (vscal dt (f (t + dt) u1)))) |}.
Proof. intros f dt t u Hu Hf. exact (heun_step D f dt {| o_time := t; o_sol := u |} Hu Hf). Qed.
Theorem C15_ssp3_formula {V : Type} (D : V -> Prop) `{VecLaws V D} :
  forall (f : R -> V -> V) dt t u, D u -> (forall t u, D u -> D (f t u)) ->
  let u1 := vadd u (vscal dt (f t u)) in
  let u2 := vadd (vscal (3/4) u) (vscal (1 - 3/4) (vadd u1 (vscal dt (f (t + dt) u1)))) in
  rk_execute f ssp3 dt {| o_time := t; o_sol := u |} =
  {| o_time := t + dt;
     o_sol := vadd (vscal (1/3) u) (vscal (1 - 1/3) (vadd u2 (vscal dt (f (t + 1/2 * dt) u2)))) |}.
Proof. intros f dt t u Hu Hf. exact (ssp3_step D f dt {| o_time := t; o_sol := u |} Hu Hf). Qed.
Print Assumptions C15_ssp3_formula.

(** time after any number of steps *)
Theorem C15_time_adds_up {V : Type} `{VecOps V} : forall f T dts (o : ode V),
  o_time (rk_run f T dts o) = o_time o + rsum dts.
Proof. exact rk_run_time. Qed.
Print Assumptions C15_time_adds_up.

(* hypotheses are met by vectors of two cells and f(t,u) = -u + t, with Heun *)
Example C15_ex :
  let f := fun (t : R) (u : list R) => map2 Rplus (map (Rmult (-1)) u) [t; t] in
  o_sol (rk_execute f heun 1 {| o_time := 1; o_sol := [1; 2] |}) = [3/2; 2].
Proof.
  intro f. rewrite (C15_heun_formula (fun l => length l = 2%nat)); auto.
  - simpl. apply f_equal2; [lra|]. apply f_equal2; [lra|reflexivity].
  - intros t u Hu. unfold f. rewrite map2_length, map_length, Hu. reflexivity.
Qed.

(** ** C16 *)
Theorem C16_euler_order_1 : has_order euler 1. Proof. exact euler_order. Qed.
Theorem C16_heun_order_2 : has_order heun 2. Proof. exact heun_order. Qed.
Theorem C16_ssp3_order_3 : has_order ssp3 3. Proof. exact ssp3_order. Qed.
Theorem C16_rk8_order_8 : has_order rk8 8. Proof. exact rk8_order. Qed.
Print Assumptions C16_rk8_order_8.

(** The orders are sharp (so the statement above is not vacuous). *)
Theorem C16_orders_are_sharp :
  ~ has_order euler 2 /\ ~ has_order heun 3 /\ ~ has_order ssp3 4.
Proof. exact (conj euler_not_order2 (conj heun_not_order3 ssp3_not_order4)). Qed.
Print Assumptions C16_orders_are_sharp.

Theorem C16_nodes_are_row_sums : forall T, In T [euler; heun; ssp3; rk8] -> consistent_nodes T.
Proof.
  intros T HT i Hi.
  simpl in HT. decompose [or] HT; subst; try tauto; simpl in Hi.
  - destruct i; [|lia]. unfold rkc, rkA, tab; simpl; lra.
  - do 2 (destruct i as [|i]; [unfold rkc, rkA, tab; simpl; lra|]); lia.
  - do 3 (destruct i as [|i]; [unfold rkc, rkA, tab; simpl; lra|]); lia.
  - unfold rkc, rk8. cbn [rk_c rk_b].
    rewrite (nth_map' rsum rk8_A i [] 0) by exact Hi.
    unfold rkA. cbn [rk_A].
    rewrite (rsum_list_tab (nth i rk8_A [])).
    do 11 (destruct i as [|i]; [reflexivity|]). lia.
Qed.
Print Assumptions C16_nodes_are_row_sums.

(** ** C17 *)
Theorem C17_convex_invariants_survive_ssp_steps {V : Type} (D : V -> Prop) `{VecLaws V D} :
  forall (f : R -> V -> V) (K : V -> Prop) (dts : list R) (T : tableau) (o : ode V),
  (forall u, K u -> D u) -> (forall t u, D u -> D (f t u)) -> convex_set K ->
  (forall dt t u, In dt dts -> K u -> K (vadd u (vscal dt (f t u)))) ->
  T = euler \/ T = heun \/ T = ssp3 ->
  K (o_sol o) -> K (o_sol (rk_run f T dts o)).
Proof. exact (ssp_convex_run D). Qed.
Print Assumptions C17_convex_invariants_survive_ssp_steps.

(* the unit interval, f(t,u) = -u, steps of size 1 and 1/2 with SSP3 *)
Example C17_ex : let o := {| o_time := 0; o_sol := 1 |} in
  0 <= o_sol (rk_run (fun _ u => -u) ssp3 [1; 1/2; 1] o) <= 1.
Proof.
  apply (C17_convex_invariants_survive_ssp_steps (fun _ : R => True) _ (fun u => 0 <= u <= 1)); auto.
  - intros a b r Ha Hb Hr. simpl. nra.
  - intros dt t u [<-|[<-|[<-|[]]]] Hu; simpl; lra.
  - simpl; lra.
Qed.
