(** Invariants that relate the values of a solver to their times. *)
From Coq Require Import Reals List ZArith Arith Lia Lra Bool String.
From Verif Require Import Prelude L_Prelude M_ODE M_TimeStepping L_TimeStepping M_Solution M_Solver S_Solver L_Solver P_Solver L_Flux L_FVSolver L_Invariant S_Convergence.
Import ListNotations.
Local Open Scope nat_scope.
Open Scope R_scope.
Local Open Scope list_scope.

Section Timed.
Context {V : Type} `{VecOps V} (finite : V -> bool) (P : R -> V -> Prop) (c : config V).
Hypotheses (HF : forall t v, P t v -> finite v = true) (HC : quiet_check c)
  (HS : forall dt o, P (o_time o) (o_sol o) -> tol <= dt <= call_generator (c_gen c) (o_time o, o_sol o) ->
    exists o', rk_execute_e (c_rhs c) (c_tab c) dt o = Ok o' /\ P (o_time o') (o_sol o')).

Definition timed (w : world V) : Prop := in_sync w /\ P (w_sol_time w) (w_mem w (w_sol w)) /\ Forall2 P (w_times w) (w_values w).

Lemma step_timed dt w : timed w -> tol <= dt <= call_generator (c_gen c) (w_sol_time w, w_mem w (w_sol w)) ->
  exists w', solver_update finite c dt w = (w', None) /\ timed w'.
Proof.
  intros [S [Ps B]] D. destruct (HS dt (solution_of w) Ps D) as [y [Ey Py]].
  assert (EO : {| o_time := w_ode_time w; o_sol := w_mem w (w_ode w) |} = solution_of w) by (unfold solution_of; destruct S as [-> ->]; reflexivity).
  destruct (solver_update finite c dt w) as [w' r] eqn:E. exists w'.
  assert (R : r = None).
  { unfold solver_update in E. pose proof (ode_execute_spec c dt w) as X. rewrite EO in X.
    destruct (ode_execute c dt w) as [[[w1 nodes] stages]|e] eqn:Eo; [|congruence].
    destruct X as [y' [X1 [X2 X3]]]. assert (y' = y) by congruence. subst y'. destruct (check_ok c HC _ _ _ _ _ Eo) as [bb Eb]. rewrite Eb in E.
    unfold sol_update in E. rewrite X3 in E. cbn [warn w_mem w_next w_ode w_ode_time w_sol w_sol_time w_times w_values w_warnings] in E.
    rewrite store_same, (HF _ _ Py) in E. congruence. }
  subst r. split; [reflexivity|]. destruct (solver_update_spec finite c dt w w' None S E) as [_ [_ [_ [y' [Y1 [_ [Y2 [Y3 [Y4 [Y5 Y6]]]]]]]]]].
  assert (Q : y' = y) by congruence. rewrite Q in Y1, Y3, Y5, Y6. split; [exact Y2|].
  pose proof (f_equal o_sol Y3) as Z. cbn [solution_of o_sol] in Z. rewrite Z. pose proof (f_equal o_time Y3) as Z'. cbn [solution_of o_time] in Z'. rewrite Z'. split; [exact Py|].
  rewrite Y5, Y6. cbn [map]. destruct (c_history c); [|exact B]. apply Forall2_app; [exact B|]. constructor; [exact Py|constructor].
Qed.
Lemma solve_timed n w : timed w -> timed (fst (fst (solve finite c n w))).
Proof.
  intro I. unfold solve. destruct (tqdm_len c w) as [k|e]; [|exact I].
  assert (G : forall m w s, timed w -> timed (fst (fst (solve_loop finite c m w s)))).
  { clear - HF HC HS. induction m as [|m IH]; intros w s I; cbn [solve_loop]; [exact I|].
    destruct (ts_next _ _ _) as [dt s'| |] eqn:E; [|exact I..].
    apply ts_next_yield in E as [_ [E1 [E2 _]]].
    destruct (step_timed dt w I) as [w' [U1 U2]]; [|rewrite U1; apply IH; exact U2].
    split; [exact E2|]. rewrite E1. apply Rmin_l. }
  specialize (G n w (ts_iter (c_start c)) I). destruct (solve_loop finite c n w _) as [[w' s'] st]. exact G.
Qed.
Lemma use_timed us m : forall st N, (forall v t, ~ In (Reinit v t) us) -> separate N m st -> timed (fst st) -> timed (fst (use_run finite c us st)).
Proof.
  unfold use_run. induction us as [|u us IH]; intros st N HR S K; [exact K|]. cbn [fold_left]. apply (IH _ N); auto.
  - intros v t Hin. apply (HR v t). right. auto.
  - apply separate_step. auto.
  - destruct st as [w owned]. cbn [fst] in K. destruct S as [S1 [S2 [S3 [S4 [S5 [S6 S7]]]]]].
    destruct u as [|i v|n|v t]; cbn [use_step].
    + destruct K as [[K0 K0'] K]. unfold timed, in_sync. cbn [fst w_mem w_next w_ode w_ode_time w_sol w_sol_time w_times w_values w_warnings].
      rewrite !store_other by lia. auto.
    + destruct (nth_error owned i) as [l|] eqn:E; [|exact K]. apply nth_error_In in E. destruct K as [[K0 K0'] K].
      unfold timed, in_sync. cbn [fst w_mem w_next w_ode w_ode_time w_sol w_sol_time w_times w_values w_warnings].
      rewrite !store_other by (intro Z; rewrite <- Z in E; auto). auto.
    + cbn [fst]. apply solve_timed; auto.
    + exfalso. apply (HR v t). left. reflexivity.
Qed.
Lemma timed_shown w t v : timed w -> shown w t v -> P t v.
Proof.
  intros [_ [Ps B]] [[-> ->]|Q]; [exact Ps|]. clear - B Q. revert Q. induction B as [|x y l l' Hxy B IH]; cbn; [tauto|]. intros [Q|Q]; [injection Q as <- <-; exact Hxy|auto].
Qed.
End Timed.
Lemma new_timed {V} `{VecOps V} (P : R -> V -> Prop) c m next sol time : (sol < next)%nat -> P time (m sol) -> timed P (new_solver c m next sol time).
Proof.
  intros Hs HP. unfold timed, in_sync, new_solver. cbn [w_mem w_next w_ode w_ode_time w_sol w_sol_time w_times w_values w_warnings].
  rewrite store_same, store_other by lia. split; [auto|]. split; [exact HP|]. destruct (c_history c); cbn; repeat constructor; auto.
Qed.
