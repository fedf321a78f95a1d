(** Invariants of the values of a solver whose steps are only safe up to the length the generator proposes, and completion of solve. *)
From Coq Require Import Reals List ZArith Arith Lia Lra Bool String.
From Verif Require Import Prelude L_Prelude M_ODE M_TimeStepping L_TimeStepping M_Solution M_Solver S_Solver L_Solver P_Solver L_Flux L_FVSolver.
Import ListNotations.
Local Open Scope nat_scope.
Open Scope R_scope.

Section Inv.
Context {V : Type} `{VecOps V} (finite : V -> bool) (P : V -> Prop) (c : config V).

(** every step that is not longer than proposed can be computed and preserves P *)
Definition safe_steps : Prop := forall dt o, P (o_sol o) -> tol <= dt <= call_generator (c_gen c) (o_time o, o_sol o) ->
  exists o', rk_execute_e (c_rhs c) (c_tab c) dt o = Ok o' /\ P (o_sol o').
Definition quiet_check : Prop := forall optimal, c_check c = Some optimal -> forall t u, exists x, optimal t u = Ok x.

Hypothesis HF : forall v, P v -> finite v = true.
Hypothesis HC : quiet_check.
Hypothesis HS : safe_steps.

Definition inv (w : world V) : Prop := in_sync w /\ keeps P w.

Lemma check_ok dt w w1 nodes stages : ode_execute c dt w = Ok (w1, nodes, stages) -> exists b, M_Solver.check_cfl c dt nodes stages = Ok b.
Proof.
  intro E. destruct (c_check c) as [optimal|] eqn:Ec.
  - destruct (check_bool c (fun t u => match optimal t u with Ok x => x | Err _ => 0 end) optimal dt w w1 nodes stages Ec) as [_ [b [Eb _]]]; [|exact E|exists b; exact Eb].
    intros t u. destruct (HC optimal Ec t u) as [x ->]. reflexivity.
  - exists false. unfold M_Solver.check_cfl. rewrite Ec. reflexivity.
Qed.

Lemma update_inv dt w : inv w -> tol <= dt <= call_generator (c_gen c) (w_sol_time w, w_mem w (w_sol w)) ->
  exists w', solver_update finite c dt w = (w', None) /\ inv w' /\ w_sol_time w' = w_sol_time w + dt.
Proof.
  intros [S K] D. assert (Ps : P (w_mem w (w_sol w))) by apply K.
  destruct (HS dt (solution_of w) Ps D) as [y [Ey Py]].
  assert (EO : {| o_time := w_ode_time w; o_sol := w_mem w (w_ode w) |} = solution_of w) by (unfold solution_of; destruct S as [-> ->]; reflexivity).
  destruct (solver_update finite c dt w) as [w' r] eqn:E. exists w'.
  assert (R : r = None).
  { unfold solver_update in E. pose proof (ode_execute_spec c dt w) as X. rewrite EO in X.
    destruct (ode_execute c dt w) as [[[w1 nodes] stages]|e] eqn:Eo; [|congruence].
    destruct X as [y' [X1 [X2 X3]]]. assert (y' = y) by congruence. subst y'. destruct (check_ok _ _ _ _ _ Eo) as [b Eb]. rewrite Eb in E.
    unfold sol_update in E. rewrite X3 in E. cbn [warn w_mem w_next w_ode w_ode_time w_sol w_sol_time w_times w_values w_warnings] in E.
    rewrite store_same, HF in E by exact Py. congruence. }
  subst r. split; [reflexivity|]. destruct (solver_update_spec finite c dt w w' None S E) as [_ [_ [_ [y' [Y1 [_ [Y2 [Y3 [Y4 [_ Y6]]]]]]]]]].
  assert (Q : y' = y) by congruence. rewrite Q in Y1, Y3, Y6. split; [split; [exact Y2|]|].
  - pose proof (f_equal o_sol Y3) as Z. cbn [solution_of o_sol] in Z. unfold keeps. rewrite <- Y4, Z. split; [exact Py|]. split; [exact Py|].
    rewrite Y6. cbn [map]. destruct (c_history c); [apply Forall_app; split; auto|]; apply K.
  - pose proof (f_equal o_time Y3) as Z. cbn [solution_of o_time] in Z. rewrite Z.
    unfold rk_execute_e in Y1. inv_bind Y1. destruct a as [[? ?] ?]. apply Ok_inj in Y1. rewrite <- Y1. reflexivity.
Qed.

Lemma loop_inv' n : forall w s, inv w -> let '(w', _, st) := solve_loop finite c n w s in inv w' /\ (forall e, st <> RaisedExn e).
Proof.
  induction n as [|n IH]; intros w s I; cbn [solve_loop]; [split; [exact I|discriminate]|].
  destruct (ts_next _ _ _) as [dt s'| |] eqn:E; [|split; [exact I|discriminate]..].
  apply ts_next_yield in E as [_ [E1 [E2 _]]].
  destruct (update_inv dt w I) as [w' [U1 [U2 _]]]; [|rewrite U1; apply IH; exact U2].
  split; [exact E2|]. rewrite E1. apply Rmin_l.
Qed.
Lemma solve_inv n w : inv w -> inv (fst (fst (solve finite c n w))).
Proof.
  intro I. unfold solve. destruct (tqdm_len c w) as [k|e]; [|exact I]. pose proof (loop_inv' n w (ts_iter (c_start c)) I) as X.
  destruct (solve_loop finite c n w _) as [[w' s'] st]. apply X.
Qed.
Lemma reinitialize_inv v t w : (w_ode w < w_next w)%nat -> (w_sol w < w_next w)%nat -> P v -> inv w -> inv (fst (reinitialize finite c v t w)).
Proof.
  intros B1 B2 Pv [S K]. split; [|apply reinitialize_keeps; auto].
  unfold reinitialize, sol_update. cbn [w_mem w_next w_ode w_ode_time w_sol w_sol_time w_times w_values w_warnings]. rewrite store_same, HF by exact Pv.
  unfold in_sync. cbn [fst w_mem w_next w_ode w_ode_time w_sol w_sol_time w_times w_values w_warnings].
  rewrite store_same, store_other, store_same by lia. split; [ring|reflexivity].
Qed.
Lemma use_inv us m : forall st N, (forall v t, In (Reinit v t) us -> P v) -> separate N m st -> inv (fst st) -> inv (fst (use_run finite c us st)).
Proof.
  unfold use_run. induction us as [|u us IH]; intros st N HR S K; [exact K|]. cbn [fold_left]. apply (IH _ N); auto.
  - intros v t Hin. apply (HR v t). right. auto.
  - apply separate_step. auto.
  - destruct st as [w owned]. cbn [fst] in K. destruct S as [S1 [S2 [S3 [S4 [S5 [S6 S7]]]]]].
    destruct u as [|i v|n|v t]; cbn [use_step].
    + destruct K as [[K0 K0'] [K1 [K2 K3]]]. unfold inv, in_sync, keeps. cbn [fst w_mem w_next w_ode w_ode_time w_sol w_sol_time w_times w_values w_warnings].
      rewrite !store_other by lia. auto.
    + destruct (nth_error owned i) as [l|] eqn:E; [|exact K]. apply nth_error_In in E. destruct K as [[K0 K0'] [K1 [K2 K3]]].
      unfold inv, in_sync, keeps. cbn [fst w_mem w_next w_ode w_ode_time w_sol w_sol_time w_times w_values w_warnings].
      rewrite !store_other by (intro Z; rewrite <- Z in E; auto). auto.
    + cbn [fst]. apply solve_inv; auto.
    + cbn [fst]. apply reinitialize_inv; auto; try lia. apply (HR v t). left. reflexivity.
Qed.

(** ** completion *)
Section Completes.
Context (p : R) (Hp : tol <= p) (HG : forall t v, P v -> p <= call_generator (c_gen c) (t, v)).

Lemma loop_completes n : forall w s, inv w -> ts_stop s = false -> tol <= c_end c - ts_time s -> c_end c - ts_time s < INR n * p ->
  exists w' s', solve_loop finite c (S n) w s = (w', s', Completed) /\ inv w' /\
    0 <= (c_end c - ts_time s) - (w_sol_time w' - w_sol_time w) < tol.
Proof.
  induction n as [|n IH]; intros w s I Hs Ht Hn; [cbn [INR] in Hn; pose proof tol_pos; lra|].
  rewrite S_INR in Hn. change (solve_loop finite c (S (S n)) w s) with
    (match ts_next (c_end c) (call_generator (c_gen c) (w_sol_time w, w_mem w (w_sol w))) s with
      | StopIter => (w, s, Completed) | TooSmall => (w, s, TooSmallWarning)
      | Yield dt s' => match solver_update finite c dt w with
          | (w', None) => solve_loop finite c (S n) w' s' | (w', Some e) => (w', s', RaisedExn e) end end).
  set (g := call_generator _ _). assert (Hg : p <= g) by (apply HG; apply I).
  destruct (ts_next (c_end c) g s) as [dt s'| |] eqn:E.
  - apply ts_next_yield in E as [_ [E1 [E2 [_ E3]]]].
    destruct (update_inv dt w I) as [w1 [U1 [U2 U3]]]; [fold g; split; [exact E2|rewrite E1; apply Rmin_l]|]. rewrite U1.
    destruct E3 as [[F1 [F2 F3]]|[F1 [F2 F3]]].
    + assert (dt = g).
      { destruct (Rmin_cases g (c_end c - ts_time s)) as [[Q _]|[Q _]]; [lra|]. pose proof tol_pos. lra. }
      destruct (IH w1 s' U2 F1 F3) as [w' [s'' [G1 [G2 G3]]]]; [lra|]. exists w', s''. split; [exact G1|]. split; [exact G2|]. lra.
    + exists w1, s'. cbn [solve_loop]. rewrite (proj2 (ts_next_stop _ _ s') F1). split; [reflexivity|]. split; [exact U2|]. lra.
  - apply ts_next_stop in E. congruence.
  - apply ts_next_toosmall in E as [_ E]. exfalso. destruct (Rmin_cases g (c_end c - ts_time s)) as [[Q _]|[Q _]]; lra.
Qed.
Lemma solve_completes n w : inv w -> tol <= c_end c - c_start c < INR n * p ->
  exists w' s', solve finite c (S n) w = (w', Some s', Completed) /\ inv w' /\ 0 <= (c_end c - c_start c) - (w_sol_time w' - w_sol_time w) < tol.
Proof.
  intros I [H1 H2]. unfold solve.
  assert (T : exists k, tqdm_len c w = Ok k).
  { unfold tqdm_len. destruct (gen_adaptive (c_gen c)); [eauto|].
    set (g := call_generator _ _). assert (Hg : p <= g) by (apply HG; apply I). pose proof tol_pos as TP.
    destruct (Reqb_spec g 0); [lra|]. pose proof (base_Int_part ((c_end c - c_start c) / g)) as [B1 B2].
    assert (0 < (c_end c - c_start c) / g) by (apply Rdiv_lt_0_compat; lra).
    assert (Hz : (0 <= Int_part ((c_end c - c_start c) / g))%Z).
    { apply Z.lt_pred_le. apply lt_IZR. unfold Z.pred. rewrite plus_IZR. lra. }
    set (z := Int_part _) in *. destruct (Rltb _ _); [destruct (Z.ltb_spec (z + 1) 0); [lia|eauto]|destruct (Z.ltb_spec z 0); [lia|eauto]]. }
  destruct T as [k ->]. destruct (loop_completes n w (ts_iter (c_start c)) I eq_refl H1 H2) as [w' [s' [E [I' D]]]].
  exists w', s'. rewrite E. auto.
Qed.
End Completes.
End Inv.

(** the first step of solve *)
Lemma first_step {V} `{VecOps V} (finite : V -> bool) c w dt y : in_sync w -> c_check c = None ->
  call_generator (c_gen c) (w_sol_time w, w_mem w (w_sol w)) = dt -> tol <= dt -> tol <= c_end c - c_start c - dt ->
  rk_execute_e (c_rhs c) (c_tab c) dt (solution_of w) = Ok y -> finite (o_sol y) = true ->
  exists s, snd (fst (solve finite c 1 w)) = Some s /\ snd (solve finite c 1 w) = Interrupted /\ solution_of (fst (fst (solve finite c 1 w))) = y.
Proof.
  intros S Ck Gd D1 D2 Ey Fy. pose proof tol_pos as TP. unfold solve.
  assert (T : exists k, tqdm_len c w = Ok k).
  { unfold tqdm_len. destruct (gen_adaptive (c_gen c)); [eauto|]. rewrite Gd.
    destruct (Reqb_spec dt 0); [lra|]. pose proof (base_Int_part ((c_end c - c_start c) / dt)) as [B1 B2].
    assert (0 < (c_end c - c_start c) / dt) by (apply Rdiv_lt_0_compat; lra).
    assert (Hz : (0 <= Int_part ((c_end c - c_start c) / dt))%Z).
    { apply Z.lt_pred_le. apply lt_IZR. unfold Z.pred. rewrite plus_IZR. lra. }
    set (z := Int_part _) in *. destruct (Rltb _ _); [destruct (Z.ltb_spec (z + 1) 0); [lia|eauto]|destruct (Z.ltb_spec z 0); [lia|eauto]]. }
  destruct T as [k ->]. cbn [solve_loop]. rewrite Gd. unfold ts_next, ts_iter. cbn [ts_stop ts_time].
  rewrite Rmin_left by lra. destruct (Rltb_spec dt tol); [lra|].
  set (s1 := if Rltb _ tol then _ else _).
  assert (Y : exists s', s1 = Yield dt s') by (unfold s1; destruct (Rltb _ _); eauto). destruct Y as [s' ->].
  destruct (solver_update finite c dt w) as [w' r] eqn:E.
  assert (EO : {| o_time := w_ode_time w; o_sol := w_mem w (w_ode w) |} = solution_of w) by (unfold solution_of; destruct S as [-> ->]; reflexivity).
  assert (R : r = None).
  { unfold solver_update in E. pose proof (ode_execute_spec c dt w) as X. rewrite EO in X.
    destruct (ode_execute c dt w) as [[[w1 nodes] stages]|e] eqn:Eo; [|congruence].
    destruct X as [y' [X1 [X2 X3]]]. assert (y' = y) by congruence. subst y'. unfold M_Solver.check_cfl in E. rewrite Ck in E.
    unfold sol_update in E. rewrite X3 in E. cbn [warn w_mem w_next w_ode w_ode_time w_sol w_sol_time w_times w_values w_warnings] in E.
    rewrite store_same, Fy in E. congruence. }
  subst r. destruct (solver_update_spec finite c dt w w' None S E) as [_ [_ [_ [y' [Y1 [_ [_ [Y3 _]]]]]]]].
  exists s'. cbn [fst snd]. split; [reflexivity|]. split; [reflexivity|]. congruence.
Qed.
