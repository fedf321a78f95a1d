(** C90: on a periodic domain the Lax-Friedrichs solver of scalar problems keeps the order of two solutions, never increases their distance
    and never increases the sum of a convex function of the values. *)
From Coq Require Import Reals List ZArith Arith Lia Lra Psatz Bool String Sorted.
From Verif Require Import Prelude L_Prelude M_Mesh L_Mesh M_Quadrature M_Interpolate M_Boundary S_Boundary L_Boundary M_Flux S_Flux L_Flux
  M_ODE S_ODE L_ODE M_TimeStepping L_TimeStepping M_Solution M_Solver S_Solver L_Solver P_Solver M_Generate
  M_Neighbours S_Neighbours L_Neighbours M_Scalar S_Scalar L_Scalar P_Scalar M_ShallowWater L_SWLow M_FVSolver S_FVSolver L_FVSolver P_FVWater P_FVLake P_Quadrature
  M_FE M_FEChoice M_Benchmark P_Benchmark M_ScalarSolver S_ScalarSolver L_Invariant P_Boundary P_Flux P_Gauss P_ScalarSolver S_Variation L_Variation P_Variation
  S_Contraction L_Contraction.
Import ListNotations.
Local Open Scope nat_scope.
Open Scope R_scope.
Local Open Scope list_scope.
Notation length := List.length.

(** ** two solvers in step *)
Section Lockstep.
Context {V : Type} `{VecOps V} (finite : V -> bool) (Q : V -> V -> Prop) (c1 c2 : config V).
Hypotheses (HF : forall u v, Q u v -> finite u = true /\ finite v = true) (Q1 : quiet_check c1) (Q2 : quiet_check c2)
  (HG : forall x y, call_generator (c_gen c1) x = call_generator (c_gen c2) y) (HA : gen_adaptive (c_gen c1) = gen_adaptive (c_gen c2))
  (C1 : c_start c1 = c_start c2) (C2 : c_end c1 = c_end c2) (C3 : c_history c1 = c_history c2)
  (HS : forall dt t u v, Q u v -> tol <= dt <= call_generator (c_gen c1) (t, u) ->
    exists u' v', rk_execute_e (c_rhs c1) (c_tab c1) dt {| o_time := t; o_sol := u |} = Ok {| o_time := t + dt; o_sol := u' |} /\
      rk_execute_e (c_rhs c2) (c_tab c2) dt {| o_time := t; o_sol := v |} = Ok {| o_time := t + dt; o_sol := v' |} /\ Q u' v').

Definition lockstep (h1 h2 : list V) (w1 w2 : world V) : Prop := in_sync w1 /\ in_sync w2 /\ w_sol_time w1 = w_sol_time w2 /\ w_times w1 = w_times w2 /\
  Q (w_mem w1 (w_sol w1)) (w_mem w2 (w_sol w2)) /\ exists l1 l2, w_values w1 = h1 ++ l1 /\ w_values w2 = h2 ++ l2 /\ Forall2 Q l1 l2.

Lemma update_succeeds c dt w y : quiet_check c -> in_sync w -> rk_execute_e (c_rhs c) (c_tab c) dt (solution_of w) = Ok y -> finite (o_sol y) = true ->
  exists w', solver_update finite c dt w = (w', None) /\ in_sync w' /\ solution_of w' = y /\ appended c w w' [y].
Proof.
  intros HC S Ey Fy. assert (EO : {| o_time := w_ode_time w; o_sol := w_mem w (w_ode w) |} = solution_of w) by (unfold solution_of; destruct S as [-> ->]; reflexivity).
  destruct (solver_update finite c dt w) as [w' r] eqn:E. exists w'.
  assert (R : r = None).
  { unfold solver_update in E. pose proof (ode_execute_spec c dt w) as X. rewrite EO in X.
    destruct (ode_execute c dt w) as [[[w1 nodes] stages]|e] eqn:Eo; [|congruence].
    destruct X as [y' [X1 [X2 X3]]]. assert (y' = y) by congruence. subst y'. destruct (check_ok c HC _ _ _ _ _ Eo) as [bb Eb]. rewrite Eb in E.
    unfold sol_update in E. rewrite X3 in E. cbn [warn w_mem w_next w_ode w_ode_time w_sol w_sol_time w_times w_values w_warnings] in E.
    rewrite store_same, Fy in E. congruence. }
  subst r. split; [reflexivity|]. destruct (solver_update_spec finite c dt w w' None S E) as [_ [_ [_ [y' [Y1 [_ [Y2 [Y3 [Y4 Y5]]]]]]]]].
  assert (Z : y' = y) by congruence. rewrite Z in Y3, Y5. auto.
Qed.
Lemma F2_snoc (l1 l2 : list V) x y : Forall2 Q l1 l2 -> Q x y -> Forall2 Q (l1 ++ [x]) (l2 ++ [y]).
Proof. intros F K. apply Forall2_app; auto. Qed.
Lemma step_lockstep h1 h2 dt w1 w2 : lockstep h1 h2 w1 w2 -> tol <= dt <= call_generator (c_gen c1) (w_sol_time w1, w_mem w1 (w_sol w1)) ->
  exists w1' w2', solver_update finite c1 dt w1 = (w1', None) /\ solver_update finite c2 dt w2 = (w2', None) /\ lockstep h1 h2 w1' w2'.
Proof.
  intros [S1 [S2 [T [TT [K [l1 [l2 [L1 [L2 L3]]]]]]]]] D. destruct (HS dt (w_sol_time w1) _ _ K D) as [u' [v' [E1 [E2 K']]]]. destruct (HF _ _ K') as [F1 F2].
  destruct (update_succeeds c1 dt w1 _ Q1 S1 E1 F1) as [w1' [U1 [I1 [O1 [A1 B1]]]]]. rewrite T in E2. destruct (update_succeeds c2 dt w2 _ Q2 S2 E2 F2) as [w2' [U2 [I2 [O2 [A2 B2]]]]].
  exists w1', w2'. split; [exact U1|]. split; [exact U2|]. split; [exact I1|]. split; [exact I2|].
  pose proof (f_equal o_time O1) as T1. pose proof (f_equal o_time O2) as T2. pose proof (f_equal o_sol O1) as V1. pose proof (f_equal o_sol O2) as V2. cbn [solution_of o_time o_sol] in T1, T2, V1, V2.
  split; [congruence|]. rewrite A1, A2, B1, B2, V1, V2, C3, TT. cbn [map o_time o_sol]. split; [destruct (c_history c2); congruence|]. split; [exact K'|].
  destruct (c_history c2).
  - exists (l1 ++ [u']), (l2 ++ [v']). rewrite L1, L2, !app_assoc. split; [reflexivity|]. split; [reflexivity|]. apply F2_snoc; auto.
  - exists l1, l2. auto.
Qed.
Lemma solve_lockstep h1 h2 n w1 w2 : lockstep h1 h2 w1 w2 -> lockstep h1 h2 (fst (fst (solve finite c1 n w1))) (fst (fst (solve finite c2 n w2))) /\
  snd (solve finite c1 n w1) = snd (solve finite c2 n w2).
Proof.
  intro I. unfold solve.
  assert (TL : tqdm_len c1 w1 = tqdm_len c2 w2). { unfold tqdm_len. rewrite HA, C1, C2. rewrite (HG _ (w_sol_time w2, w_mem w2 (w_sol w2))). reflexivity. }
  rewrite TL. destruct (tqdm_len c2 w2) as [k|e]; [|auto]. rewrite C1.
  assert (G : forall m w1 w2 s, lockstep h1 h2 w1 w2 -> lockstep h1 h2 (fst (fst (solve_loop finite c1 m w1 s))) (fst (fst (solve_loop finite c2 m w2 s))) /\
    snd (solve_loop finite c1 m w1 s) = snd (solve_loop finite c2 m w2 s)).
  { clear - HF Q1 Q2 HG C2 C3 HS. induction m as [|m IH]; intros w1 w2 s I; cbn [solve_loop]; [auto|].
    rewrite <- (HG (w_sol_time w1, w_mem w1 (w_sol w1)) (w_sol_time w2, w_mem w2 (w_sol w2))), <- C2.
    destruct (ts_next _ _ _) as [dt s'| |] eqn:E; [|auto..].
    apply ts_next_yield in E as [_ [E1 [E2 _]]].
    destruct (step_lockstep h1 h2 dt w1 w2 I) as [w1' [w2' [U1 [U2 U3]]]]; [split; [exact E2|rewrite E1; apply Rmin_l]|]. rewrite U1, U2. apply IH; exact U3. }
  specialize (G n w1 w2 (ts_iter (c_start c2)) I). destruct (solve_loop finite c1 n w1 _) as [[w' s'] st]. destruct (solve_loop finite c2 n w2 _) as [[w'' s''] st']. exact G.
Qed.
Lemma use_lockstep h1 h2 us m1 m2 : forall st1 st2 N, (forall v t, ~ In (Reinit v t) us) -> separate N m1 st1 -> separate N m2 st2 ->
  lockstep h1 h2 (fst st1) (fst st2) -> lockstep h1 h2 (fst (use_run finite c1 us st1)) (fst (use_run finite c2 us st2)).
Proof.
  unfold use_run. induction us as [|u us IH]; intros st1 st2 N HR S1 S2 K; [exact K|]. cbn [fold_left]. apply (IH _ _ N); auto using separate_step.
  - intros v t Hin. apply (HR v t). right. auto.
  - assert (Same : forall (c : config V) st m, separate N m st -> forall u, (forall n, u <> Solve n) -> (forall v t, u <> Reinit v t) ->
      let w := fst st in let w' := fst (use_step finite c st u) in (in_sync w -> in_sync w') /\ w_sol_time w' = w_sol_time w /\ w_times w' = w_times w /\ w_values w' = w_values w /\ w_mem w' (w_sol w') = w_mem w (w_sol w)).
    { intros c [w owned] m [T1 [T2 [T3 [T4 [T5 [T6 T7]]]]]] u' N1 N2. cbn [fst]. destruct u' as [|i v|n|v t]; cbn [use_step]; [| |exfalso; eapply N1; eauto|exfalso; eapply N2; eauto].
      - cbn [fst w_mem w_next w_ode w_ode_time w_sol w_sol_time w_times w_values w_warnings]. unfold in_sync. cbn [w_mem w_next w_ode w_ode_time w_sol w_sol_time]. rewrite !store_other by lia. auto.
      - destruct (nth_error owned i) as [l|] eqn:E; [|cbn; auto]. apply nth_error_In in E. cbn [fst w_mem w_next w_ode w_ode_time w_sol w_sol_time w_times w_values w_warnings].
        unfold in_sync. cbn [w_mem w_next w_ode w_ode_time w_sol w_sol_time]. rewrite !store_other by (intro Z; rewrite <- Z in E; auto). auto. }
    assert (Easy : (forall n, u <> Solve n) -> (forall v t, u <> Reinit v t) -> lockstep h1 h2 (fst (use_step finite c1 st1 u)) (fst (use_step finite c2 st2 u))).
    { intros N1 N2. destruct (Same c1 st1 m1 S1 u N1 N2) as [A1 [A2 [A3 [A4 A5]]]]. destruct (Same c2 st2 m2 S2 u N1 N2) as [B1 [B2 [B3 [B4 B5]]]].
      destruct K as [K1 [K2 [K3 [K4 [K5 [l1 [l2 [K6 [K7 K8]]]]]]]]]. split; [auto|]. split; [auto|]. split; [congruence|]. split; [congruence|]. rewrite A5, B5, A4, B4. split; [exact K5|]. exists l1, l2. auto. }
    destruct u as [|i v|n|v t]; try (apply Easy; intros; discriminate).
    + destruct st1 as [w1 o1], st2 as [w2 o2]. cbn [use_step fst] in *. apply solve_lockstep. exact K.
    + exfalso. apply (HR v t). left. reflexivity.
Qed.
End Lockstep.

(** ** the solver *)
Lemma periodic_boundary conds r (il ir il' ir' : option (R -> R)) : side_names conds "periodic" "periodic" ->
  get_boundary_conditions None conds r il ir = get_boundary_conditions None conds r il' ir'.
Proof. destruct conds as [|k [|k' rest]]; cbn [side_names]; [tauto|intros [<- _]; reflexivity|intros [<- <-]; reflexivity]. Qed.
(** what there is to know about a solver with a monotone step *)
Lemma monotone_solver eig b a p lo hi c w : eig2_works eig -> ia (sb_domain b) < ib (sb_domain b) ->
  sb_problem b = names_problem p -> side_names (sb_conditions b) "periodic" "periodic" -> data_between b lo hi -> range_ok p lo ->
  ssp_method (a_ode a) -> 0 < py_or (a_cfl a) default_cfl -> py_or (a_cfl a) default_cfl * max_speed p hi <= monotone_cells_per_step p ->
  scalar_solver eig SLLF b a = Ok (c, w) ->
  let n := or_default (a_mesh_size a) default_mesh_size in
  let dx := (ib (sb_domain b) - ia (sb_domain b)) / INR n in
  exists bc, get_boundary_conditions None (sb_conditions b) 1 (Some (fun _ => lo)) (Some (fun _ => lo)) = Ok bc /\ (0 < n)%nat /\ 0 < dx /\ lo <= hi /\
    c_rhs c = fv_rhs (scalar_llf p) dx bc /\ c_tab c = match a_ode a with Some T => T | None => heun end /\ In (c_tab c) [euler; heun; ssp3] /\
    (forall x, call_generator (c_gen c) x = dx * py_or (a_cfl a) default_cfl) /\ gen_adaptive (c_gen c) = false /\ c_start c = sb_start b /\ c_end c = sb_end b /\ c_history c = a_history a /\ quiet_check c /\
    w = new_solver c (fun _ => tab n (mean2 (sb_initial b) (sb_domain b) n)) 1 0 (sb_start b) /\ in_range lo hi (tab n (mean2 (sb_initial b) (sb_domain b) n)).
Proof.
  intros HE HD Hp SN HB HR HM C1 C2 E. cbv zeta. set (n := or_default (a_mesh_size a) default_mesh_size) in *.
  destruct (scalar_solver_inv eig SLLF b a c w E) as [m [u [nf [bc X]]]]. fold n in X. cbv zeta in X. destruct X as [Em [Eu [Lm [Lu [Hn [Ed [Enf [Ebc [Ec Ew]]]]]]]]].
  assert (Hn' : (0 < n)%nat) by lia.
  assert (HX : 0 < m_step m). { rewrite Ed. apply Rdiv_lt_0_compat; [lra|apply lt_0_INR; lia]. }
  rewrite (averages_tab eig _ n m _ HE Hn' HD Em) in Eu. apply Ok_inj in Eu. subst u.
  assert (Ru : in_range lo hi (tab n (mean2 (sb_initial b) (sb_domain b) n))).
  { intros x Hx. unfold tab in Hx. apply in_map_iff in Hx as [i [<- Hi]]. apply in_seq in Hi. apply mean2_between; [lia|exact HD|apply HB]. }
  rewrite (scalar_dim _ _ _ _ Enf) in Ebc. change (2 / 2)%nat with 1%nat in Ebc. unfold scalar_boundary in Ebc. rewrite (periodic_boundary _ 1 _ _ (Some (fun _ => lo)) (Some (fun _ => lo)) SN) in Ebc.
  exists bc. split; [exact Ebc|]. split; [exact Hn'|]. rewrite <- Ed. split; [exact HX|].
  split. { pose proof (proj1 HB ((ia (sb_domain b) + ib (sb_domain b)) / 2) ltac:(lra)). lra. }
  unfold get_scalar_flux in Enf. rewrite Hp, names_parse in Enf. cbn [bind] in Enf. apply Ok_inj in Enf. subst nf.
  split; [subst c; reflexivity|]. split; [subst c; reflexivity|].
  split. { subst c. cbn [c_tab scalar_config]. destruct (a_ode a) as [T|] eqn:Ea; [apply HM; reflexivity|cbn; auto]. }
  split; [intro x; subst c; reflexivity|]. split; [subst c; reflexivity|]. split; [subst c; reflexivity|]. split; [subst c; reflexivity|]. split; [subst c; reflexivity|].
  split; [subst c; intros o Z; discriminate|]. auto.
Qed.

Section Two.
Context (eig : nat -> (nat -> nat -> R) -> (nat -> R) * (nat -> nat -> R)) (finite : list R -> bool) (b1 b2 : scalar_benchmark) (a : solver_args) (p : M_Scalar.problem) (lo hi : R)
  (c1 c2 : config (list R)) (w1 w2 : world (list R)).
Hypotheses (HE : eig2_works eig) (HD : ia (sb_domain b1) < ib (sb_domain b1)) (Hp : sb_problem b1 = names_problem p) (SN : side_names (sb_conditions b1) "periodic" "periodic")
  (SB : same_but_data b1 b2) (HB1 : data_between b1 lo hi) (HB2 : data_between b2 lo hi) (HR : range_ok p lo) (HM : ssp_method (a_ode a)) (C1 : 0 < py_or (a_cfl a) default_cfl)
  (C2 : py_or (a_cfl a) default_cfl * max_speed p hi <= monotone_cells_per_step p) (HF : forall v, in_range lo hi v -> finite v = true)
  (E1 : scalar_solver eig SLLF b1 a = Ok (c1, w1)) (E2 : scalar_solver eig SLLF b2 a = Ok (c2, w2)).
Let n := or_default (a_mesh_size a) default_mesh_size.
Let good (Q : list R -> list R -> Prop) (u v : list R) : Prop := length u = n /\ length v = n /\ in_range lo hi u /\ in_range lo hi v /\ Q u v.

Lemma two_lockstep (Q : list R -> list R -> Prop) :
  (forall dx dt bc T t u v, get_boundary_conditions None (sb_conditions b1) 1 (Some (fun _ => lo)) (Some (fun _ => lo)) = Ok bc -> 0 < dx -> In T [euler; heun; ssp3] -> 0 <= dt -> lo <= hi ->
    dt * max_speed p hi <= dx * monotone_cells_per_step p -> u <> [] -> good Q u v ->
    exists u' v', rk_execute_e (fv_rhs (scalar_llf p) dx bc) T dt {| o_time := t; o_sol := u |} = Ok {| o_time := t + dt; o_sol := u' |} /\
      rk_execute_e (fv_rhs (scalar_llf p) dx bc) T dt {| o_time := t; o_sol := v |} = Ok {| o_time := t + dt; o_sol := v' |} /\ good Q u' v') ->
  forall h1 h2 us m1 m2 st1 st2, (forall v t, ~ In (Reinit v t) us) -> separate 1 m1 st1 -> separate 1 m2 st2 ->
  lockstep (good Q) h1 h2 (fst st1) (fst st2) -> lockstep (good Q) h1 h2 (fst (use_run finite c1 us st1)) (fst (use_run finite c2 us st2)).
Proof.
  intros Step h1 h2 us m1 m2 st1 st2 HU S1 S2 K.
  destruct (monotone_solver eig b1 a p lo hi c1 w1 HE HD Hp SN HB1 HR HM C1 C2 E1) as [bc [A1 [A2 [A3 [A4 [A5 [A6 [A7 [A8 [A9 [A10 [A11 [A12 [A13 _]]]]]]]]]]]]]].
  destruct SB as [B1 [B2 [B3 [B4 B5]]]].
  destruct (monotone_solver eig b2 a p lo hi c2 w2 HE ltac:(congruence) ltac:(congruence) ltac:(congruence) HB2 HR HM C1 C2 E2) as [bc' [Z1 [Z2 [Z3 [Z4 [Z5 [Z6 [Z7 [Z8 [Z9 [Z10 [Z11 [Z12 [Z13 _]]]]]]]]]]]]]].
  assert (bc' = bc) by congruence. subst bc'. rewrite <- B2 in Z3, Z5, Z8. fold n in A2, A3, A5, A8, Z2, Z3, Z5, Z8.
  set (dx := (ib (sb_domain b1) - ia (sb_domain b1)) / INR n) in A3, A5, A8, Z3, Z5, Z8.
  apply (use_lockstep finite (good Q) c1 c2) with (m1 := m1) (m2 := m2) (N := 1%nat); auto; try congruence.
  - intros u v [_ [_ [R1 [R2 _]]]]. auto.
  - intros dt t u v G [D1 D2]. rewrite A8 in D2. rewrite A5, Z5, Z6, <- A6. pose proof tol_pos. apply (Step dx dt bc); auto; [lra| |].
    + assert (Sp : 0 <= max_speed p hi) by (destruct p; cbn [max_speed range_ok] in *; lra).
      apply Rle_trans with (dx * py_or (a_cfl a) default_cfl * max_speed p hi); [apply Rmult_le_compat_r; auto|]. rewrite Rmult_assoc. apply Rmult_le_compat_l; lra.
    + destruct G as [L _]. intros ->. cbn in L. lia.
Qed.
Lemma two_start (Q : list R -> list R -> Prop) : Q (o_sol (solution_of w1)) (o_sol (solution_of w2)) -> lockstep (good Q) [] [] w1 w2.
Proof.
  destruct (monotone_solver eig b1 a p lo hi c1 w1 HE HD Hp SN HB1 HR HM C1 C2 E1) as [bc [A1 [A2 [A3 [A4 [A5 [A6 [A7 [A8 [A9 [A10 [A11 [A12 [A13 [A14 A15]]]]]]]]]]]]]]].
  destruct SB as [B1 [B2 [B3 [B4 B5]]]].
  destruct (monotone_solver eig b2 a p lo hi c2 w2 HE ltac:(congruence) ltac:(congruence) ltac:(congruence) HB2 HR HM C1 C2 E2) as [bc' [Z1 [Z2 [Z3 [Z4 [Z5 [Z6 [Z7 [Z8 [Z9 [Z10 [Z11 [Z12 [Z13 [Z14 Z15]]]]]]]]]]]]]]].
  fold n in A14, A15, Z14, Z15. set (u := tab n (mean2 (sb_initial b1) (sb_domain b1) n)) in *. set (v := tab n (mean2 (sb_initial b2) (sb_domain b2) n)) in *.
  intro K. assert (G : good Q u v). { rewrite A14, Z14 in K. cbn in K. split; [apply tab_length|]. split; [apply tab_length|]. auto. }
  rewrite A14, Z14. unfold lockstep, in_sync, new_solver. cbn [w_mem w_next w_ode w_ode_time w_sol w_sol_time w_times w_values w_warnings]. rewrite !store_same, !store_other by lia.
  rewrite A12, Z12, B3. split; [auto|]. split; [auto|]. split; [reflexivity|]. split; [reflexivity|]. split; [exact G|]. destruct (a_history a).
  - exists [u], [v]. auto.
  - exists [], []. auto.
Qed.
Lemma two_separate : exists u v, separate 1 (fun _ => u) (w1, []) /\ separate 1 (fun _ => v) (w2, []).
Proof.
  destruct (monotone_solver eig b1 a p lo hi c1 w1 HE HD Hp SN HB1 HR HM C1 C2 E1) as [bc [A1 [A2 [A3 [A4 [A5 [A6 [A7 [A8 [A9 [A10 [A11 [A12 [A13 [A14 A15]]]]]]]]]]]]]]].
  destruct SB as [B1 [B2 [B3 [B4 B5]]]].
  destruct (monotone_solver eig b2 a p lo hi c2 w2 HE ltac:(congruence) ltac:(congruence) ltac:(congruence) HB2 HR HM C1 C2 E2) as [bc' [Z1 [Z2 [Z3 [Z4 [Z5 [Z6 [Z7 [Z8 [Z9 [Z10 [Z11 [Z12 [Z13 [Z14 Z15]]]]]]]]]]]]]]].
  eexists. eexists. split; [rewrite A14|rewrite Z14]; apply separate_new; lia.
Qed.
(** between two times *)
Lemma two_between (Q : list R -> list R -> Prop) us1 us2 : (forall v t, ~ In (Reinit v t) us1) -> (forall v t, ~ In (Reinit v t) us2) ->
  (forall dx dt bc T t u v, get_boundary_conditions None (sb_conditions b1) 1 (Some (fun _ => lo)) (Some (fun _ => lo)) = Ok bc -> 0 < dx -> In T [euler; heun; ssp3] -> 0 <= dt -> lo <= hi ->
    dt * max_speed p hi <= dx * monotone_cells_per_step p -> u <> [] -> good Q u v ->
    exists u' v', rk_execute_e (fv_rhs (scalar_llf p) dx bc) T dt {| o_time := t; o_sol := u |} = Ok {| o_time := t + dt; o_sol := u' |} /\
      rk_execute_e (fv_rhs (scalar_llf p) dx bc) T dt {| o_time := t; o_sol := v |} = Ok {| o_time := t + dt; o_sol := v' |} /\ good Q u' v') ->
  Q (o_sol (solution_of (fst (use_run finite c1 us1 (w1, []))))) (o_sol (solution_of (fst (use_run finite c2 us1 (w2, []))))) ->
  lockstep (good Q) (w_values (fst (use_run finite c1 us1 (w1, [])))) (w_values (fst (use_run finite c2 us1 (w2, []))))
    (fst (use_run finite c1 us2 (use_run finite c1 us1 (w1, [])))) (fst (use_run finite c2 us2 (use_run finite c2 us1 (w2, [])))).
Proof.
  intros H1 H2 Step K. destruct two_separate as [u [v [S1 S2]]].
  assert (Any : lockstep (good (fun _ _ => True)) [] [] (fst (use_run finite c1 us1 (w1, []))) (fst (use_run finite c2 us1 (w2, [])))).
  { apply (two_lockstep (fun _ _ => True)) with (m1 := fun _ => u) (m2 := fun _ => v); auto; [|apply two_start; exact I].
    intros dx dt bc T t x y Hbc Hdx HT Hdt Hlh HC Hx [L1 [L2 [R1 [R2 _]]]].
    destruct (distance_scheme p (sb_conditions b1) _ _ bc dx dt lo hi T SN Hbc Hdx HR (fun _ => conj (Rle_refl lo) Hlh) (fun _ => conj (Rle_refl lo) Hlh) HT Hdt HC t x y (distance x y) Hx ltac:(congruence) R1 R2 (Rle_refl _)) as [x' [y' [X1 [X2 [X3 [X4 [X5 [X6 _]]]]]]]].
    exists x', y'. split; [exact X1|]. split; [exact X2|]. split; [congruence|]. split; [congruence|]. auto. }
  apply (two_lockstep Q Step) with (m1 := fun _ => u) (m2 := fun _ => v); auto.
  - apply (separate_run finite 1 _ c1 us1 _ S1).
  - apply (separate_run finite 1 _ c2 us1 _ S2).
  - destruct Any as [K1 [K2 [K3 [K4 [[K5 [K6 [K7 [K8 _]]]] _]]]]]. split; [exact K1|]. split; [exact K2|]. split; [exact K3|]. split; [exact K4|]. split.
    + split; [exact K5|]. split; [exact K6|]. split; [exact K7|]. split; [exact K8|]. exact K.
    + exists [], []. rewrite !app_nil_r. auto.
Qed.
End Two.

(** Two solvers for the same problem with different data run through the same program (everything but reinitialisation, [us1] and then [us2]):
    they are at the same time, and if the values of the first were below those of the second after [us1], so they are after [us2] and in all entries
    that were added to the histories meanwhile. *)
Theorem C90_order_is_kept : forall eig finite b1 b2 a p lo hi c1 w1 c2 w2 us1 us2, eig2_works eig -> (forall v, in_range lo hi v -> finite v = true) ->
  monotone_use b1 a p lo hi -> monotone_use b2 a p lo hi -> same_but_data b1 b2 ->
  scalar_solver eig SLLF b1 a = Ok (c1, w1) -> scalar_solver eig SLLF b2 a = Ok (c2, w2) ->
  (forall v t, ~ In (Reinit v t) (us1 ++ us2)) ->
  let before1 := use_run finite c1 us1 (w1, []) in let after1 := use_run finite c1 us2 before1 in
  let before2 := use_run finite c2 us1 (w2, []) in let after2 := use_run finite c2 us2 before2 in
  below (o_sol (solution_of (fst before1))) (o_sol (solution_of (fst before2))) ->
  o_time (solution_of (fst after1)) = o_time (solution_of (fst after2)) /\ below (o_sol (solution_of (fst after1))) (o_sol (solution_of (fst after2))) /\
  w_times (fst after1) = w_times (fst after2) /\
  exists l1 l2, w_values (fst after1) = w_values (fst before1) ++ l1 /\ w_values (fst after2) = w_values (fst before2) ++ l2 /\ Forall2 below l1 l2.
Proof.
  intros eig finite b1 b2 a p lo hi c1 w1 c2 w2 us1 us2 HE HF M1 M2 SB E1 E2 HU. cbv zeta. intro K.
  destruct M1 as [HD [Hp [SN [HB1 [HR [HM [C1 C2]]]]]]]. destruct M2 as [_ [_ [_ [HB2 _]]]].
  destruct (two_between eig finite b1 b2 a p lo hi c1 c2 w1 w2 HE HD Hp SN SB HB1 HB2 HR HM C1 C2 HF E1 E2 below us1 us2) as [_ [_ [T [TT [G [l1 [l2 [L1 [L2 L3]]]]]]]]]; auto.
  - intros v t Q. apply (HU v t), in_or_app. auto.
  - intros v t Q. apply (HU v t), in_or_app. auto.
  - intros dx dt bc T t x y Hbc Hdx HT Hdt Hlh HC Hx [L1 [L2 [R1 [R2 B]]]].
    destruct (below_scheme p (sb_conditions b1) _ _ bc dx dt lo hi T SN Hbc Hdx HR (fun _ => conj (Rle_refl lo) Hlh) (fun _ => conj (Rle_refl lo) Hlh) HT Hdt HC t x y Hx R1 R2 B) as [x' [y' [X1 [X2 [X3 [X4 [X5 [X6 X7]]]]]]]].
    exists x', y'. split; [exact X1|]. split; [exact X2|]. split; [congruence|]. split; [congruence|]. auto.
  - split; [exact T|]. split; [apply G|]. split; [exact TT|]. exists l1, l2. split; [exact L1|]. split; [exact L2|]. clear - L3. induction L3 as [|x y l1 l2 G F IH]; constructor; [apply G|auto].
Qed.
Print Assumptions C90_order_is_kept.

(** The same with the distance of the two solutions: it never grows. *)
Theorem C90_distance_never_grows : forall eig finite b1 b2 a p lo hi c1 w1 c2 w2 us1 us2, eig2_works eig -> (forall v, in_range lo hi v -> finite v = true) ->
  monotone_use b1 a p lo hi -> monotone_use b2 a p lo hi -> same_but_data b1 b2 ->
  scalar_solver eig SLLF b1 a = Ok (c1, w1) -> scalar_solver eig SLLF b2 a = Ok (c2, w2) ->
  (forall v t, ~ In (Reinit v t) (us1 ++ us2)) ->
  let before1 := use_run finite c1 us1 (w1, []) in let after1 := use_run finite c1 us2 before1 in
  let before2 := use_run finite c2 us1 (w2, []) in let after2 := use_run finite c2 us2 before2 in
  let d := distance (o_sol (solution_of (fst before1))) (o_sol (solution_of (fst before2))) in
  o_time (solution_of (fst after1)) = o_time (solution_of (fst after2)) /\ distance (o_sol (solution_of (fst after1))) (o_sol (solution_of (fst after2))) <= d /\
  w_times (fst after1) = w_times (fst after2) /\
  exists l1 l2, w_values (fst after1) = w_values (fst before1) ++ l1 /\ w_values (fst after2) = w_values (fst before2) ++ l2 /\ Forall2 (fun u v => distance u v <= d) l1 l2.
Proof.
  intros eig finite b1 b2 a p lo hi c1 w1 c2 w2 us1 us2 HE HF M1 M2 SB E1 E2 HU. cbv zeta. set (d := distance (o_sol (solution_of (fst (use_run finite c1 us1 (w1, []))))) _).
  destruct M1 as [HD [Hp [SN [HB1 [HR [HM [C1 C2]]]]]]]. destruct M2 as [_ [_ [_ [HB2 _]]]].
  destruct (two_between eig finite b1 b2 a p lo hi c1 c2 w1 w2 HE HD Hp SN SB HB1 HB2 HR HM C1 C2 HF E1 E2 (fun u v => distance u v <= d) us1 us2) as [_ [_ [T [TT [G [l1 [l2 [L1 [L2 L3]]]]]]]]].
  - intros v t Q. apply (HU v t), in_or_app. auto.
  - intros v t Q. apply (HU v t), in_or_app. auto.
  - intros dx dt bc T t x y Hbc Hdx HT Hdt Hlh HC Hx [L1 [L2 [R1 [R2 B]]]].
    destruct (distance_scheme p (sb_conditions b1) _ _ bc dx dt lo hi T SN Hbc Hdx HR (fun _ => conj (Rle_refl lo) Hlh) (fun _ => conj (Rle_refl lo) Hlh) HT Hdt HC t x y d Hx ltac:(congruence) R1 R2 B) as [x' [y' [X1 [X2 [X3 [X4 [X5 [X6 X7]]]]]]]].
    exists x', y'. split; [exact X1|]. split; [exact X2|]. split; [congruence|]. split; [congruence|]. auto.
  - unfold d; right; reflexivity.
  - split; [exact T|]. split; [apply G|]. split; [exact TT|]. exists l1, l2. split; [exact L1|]. split; [exact L2|]. clear - L3. induction L3 as [|x y l1 l2 G F IH]; constructor; [apply G|auto].
Qed.
Print Assumptions C90_distance_never_grows.

(** In terms of the data: ordered data have ordered solutions, at the end of every program and in the histories; *)
Theorem C90_ordered_data : forall eig finite b1 b2 a p lo hi c1 w1 c2 w2 us, eig2_works eig -> (forall v, in_range lo hi v -> finite v = true) ->
  monotone_use b1 a p lo hi -> monotone_use b2 a p lo hi -> same_but_data b1 b2 ->
  scalar_solver eig SLLF b1 a = Ok (c1, w1) -> scalar_solver eig SLLF b2 a = Ok (c2, w2) -> (forall v t, ~ In (Reinit v t) us) ->
  (forall x, ia (sb_domain b1) < x < ib (sb_domain b1) -> sb_initial b1 x <= sb_initial b2 x) ->
  let end1 := fst (use_run finite c1 us (w1, [])) in let end2 := fst (use_run finite c2 us (w2, [])) in
  o_time (solution_of end1) = o_time (solution_of end2) /\ below (o_sol (solution_of end1)) (o_sol (solution_of end2)) /\
  w_times end1 = w_times end2 /\ Forall2 below (w_values end1) (w_values end2).
Proof.
  intros eig finite b1 b2 a p lo hi c1 w1 c2 w2 us HE HF M1 M2 SB E1 E2 HU HO. cbv zeta.
  destruct (monotone_solver eig b1 a p lo hi c1 w1) as [_ [_ [_ [A3 [_ [_ [_ [_ [_ [_ [_ [_ [A12 [_ [A14 _]]]]]]]]]]]]]]]; auto; try apply M1.
  destruct (monotone_solver eig b2 a p lo hi c2 w2) as [_ [_ [_ [_ [_ [_ [_ [_ [_ [_ [_ [_ [Z12 [_ [Z14 _]]]]]]]]]]]]]]]; auto; try apply M2.
  set (n := or_default (a_mesh_size a) default_mesh_size) in *.
  assert (B : below (o_sol (solution_of w1)) (o_sol (solution_of w2))).
  { rewrite A14, Z14. cbn. apply below_nth. rewrite !tab_length. split; [reflexivity|]. intros i Hi. rewrite !nth_tab by exact Hi. unfold mean2.
    destruct M1 as [HD _]. destruct SB as [_ [<- _]]. pose proof (two_points_inside (sb_domain b1) n i Hi HD) as [T1 [T2 [T3 [T4 T5]]]].
    set (c := cell_centre (sb_domain b1) n i) in *. set (r := ilength (sb_domain b1) / INR n * gauss_point) in *.
    pose proof (HO (c - r) ltac:(lra)). pose proof (HO (c + r) ltac:(lra)). lra. }
  destruct (C90_order_is_kept eig finite b1 b2 a p lo hi c1 w1 c2 w2 [] us HE HF M1 M2 SB E1 E2 HU B) as [T [G [TT [l1 [l2 [L1 [L2 L3]]]]]]].
  change (use_run finite c1 [] (w1, [])) with (w1, @nil nat) in *. change (use_run finite c2 [] (w2, [])) with (w2, @nil nat) in *. cbn [fst] in L1, L2.
  split; [exact T|]. split; [exact G|]. split; [exact TT|]. rewrite L1, L2. apply Forall2_app; [|exact L3].
  rewrite A14, Z14 in B |- *. cbn in B |- *. rewrite A12, Z12. destruct (a_history a); constructor; [exact B|constructor].
Qed.
Print Assumptions C90_ordered_data.

(** data that differ by at most [e] have solutions whose difference has at most the integral [e] times the length of the domain. *)
Theorem C90_small_changes : forall eig finite b1 b2 a p lo hi c1 w1 c2 w2 us e, eig2_works eig -> (forall v, in_range lo hi v -> finite v = true) ->
  monotone_use b1 a p lo hi -> monotone_use b2 a p lo hi -> same_but_data b1 b2 ->
  scalar_solver eig SLLF b1 a = Ok (c1, w1) -> scalar_solver eig SLLF b2 a = Ok (c2, w2) -> (forall v t, ~ In (Reinit v t) us) ->
  (forall x, ia (sb_domain b1) < x < ib (sb_domain b1) -> Rabs (sb_initial b1 x - sb_initial b2 x) <= e) ->
  let end1 := fst (use_run finite c1 us (w1, [])) in let end2 := fst (use_run finite c2 us (w2, [])) in
  let length_of_cells := (ib (sb_domain b1) - ia (sb_domain b1)) / INR (length (o_sol (solution_of end1))) in
  o_time (solution_of end1) = o_time (solution_of end2) /\
  length_of_cells * distance (o_sol (solution_of end1)) (o_sol (solution_of end2)) <= (ib (sb_domain b1) - ia (sb_domain b1)) * e.
Proof.
  intros eig finite b1 b2 a p lo hi c1 w1 c2 w2 us e HE HF M1 M2 SB E1 E2 HU HO. cbv zeta.
  destruct (monotone_solver eig b1 a p lo hi c1 w1) as [_ [_ [A2 [A3 [_ [_ [_ [_ [_ [_ [_ [_ [A12 [_ [A14 _]]]]]]]]]]]]]]]; auto; try apply M1.
  destruct (monotone_solver eig b2 a p lo hi c2 w2) as [_ [_ [_ [_ [_ [_ [_ [_ [_ [_ [_ [_ [Z12 [_ [Z14 _]]]]]]]]]]]]]]]; auto; try apply M2.
  set (n := or_default (a_mesh_size a) default_mesh_size) in *.
  assert (B : distance (o_sol (solution_of w1)) (o_sol (solution_of w2)) <= INR n * e).
  { rewrite A14, Z14. unfold new_solver, solution_of. cbn [w_mem w_sol o_sol w_sol_time]. rewrite !store_other by lia. rewrite (distance_tab _ _ n) by apply tab_length. rewrite <- rsum_tab_const. apply rsum_tab_le. intros i Hi. rewrite !nth_tab by exact Hi. unfold mean2.
    destruct M1 as [HD _]. destruct SB as [_ [<- _]]. pose proof (two_points_inside (sb_domain b1) n i Hi HD) as [T1 [T2 [T3 [T4 T5]]]].
    set (c := cell_centre (sb_domain b1) n i) in *. set (r := ilength (sb_domain b1) / INR n * gauss_point) in *.
    pose proof (HO (c - r) ltac:(lra)) as X. pose proof (HO (c + r) ltac:(lra)) as Y. revert X Y. unfold Rabs. repeat destruct Rcase_abs; lra. }
  assert (L : length (o_sol (solution_of (fst (use_run finite c1 us (w1, []))))) = n).
  { destruct M1 as [HD [Hp [SN [HB1 [HR [HM [C1 C2]]]]]]]. destruct M2 as [_ [_ [_ [HB2 _]]]].
    destruct (two_between eig finite b1 b2 a p lo hi c1 c2 w1 w2 HE HD Hp SN SB HB1 HB2 HR HM C1 C2 HF E1 E2 (fun u v => True) [] us) as [_ [_ [_ [_ [[G _] _]]]]]; auto.
    intros dx dt bc T t x y Hbc Hdx HT Hdt Hlh HC Hx [L1 [L2 [R1 [R2 _]]]].
    destruct (distance_scheme p (sb_conditions b1) _ _ bc dx dt lo hi T SN Hbc Hdx HR (fun _ => conj (Rle_refl lo) Hlh) (fun _ => conj (Rle_refl lo) Hlh) HT Hdt HC t x y (distance x y) Hx ltac:(congruence) R1 R2 (Rle_refl _)) as [x' [y' [X1 [X2 [X3 [X4 [X5 [X6 _]]]]]]]].
    exists x', y'. split; [exact X1|]. split; [exact X2|]. split; [congruence|]. split; [congruence|]. auto. }
  destruct (C90_distance_never_grows eig finite b1 b2 a p lo hi c1 w1 c2 w2 [] us HE HF M1 M2 SB E1 E2 HU) as [T [G _]].
  change (use_run finite c1 [] (w1, [])) with (w1, @nil nat) in *. change (use_run finite c2 [] (w2, [])) with (w2, @nil nat) in *. cbn [fst] in G.
  split; [exact T|]. rewrite L. assert (Hn : INR n > 0) by (apply lt_0_INR; lia). destruct M1 as [HD _].
  apply Rle_trans with ((ib (sb_domain b1) - ia (sb_domain b1)) / INR n * (INR n * e)).
  - apply Rmult_le_compat_l; [|eapply Rle_trans; [exact G|exact B]]. left. exact A3.
  - right. field. lra.
Qed.
Print Assumptions C90_small_changes.

(** One solver: the sum of a convex function of the values never grows, between any two times. *)
Theorem C90_convex_totals_never_grow : forall eig finite b a p lo hi phi c w us1 us2, eig2_works eig -> (forall v, in_range lo hi v -> finite v = true) ->
  monotone_use b a p lo hi -> convex_on lo hi phi -> scalar_solver eig SLLF b a = Ok (c, w) ->
  (forall v t, In (Reinit v t) us1 -> length v = length (o_sol (solution_of w)) /\ in_range lo hi v) ->
  (forall v t, ~ In (Reinit v t) us2) ->
  let st1 := use_run finite c us1 (w, []) in
  let st2 := use_run finite c us2 st1 in
  let before := total phi (o_sol (solution_of (fst st1))) in
  let after := total phi (o_sol (solution_of (fst st2))) in
  after <= before /\
  exists l, w_values (fst st2) = w_values (fst st1) ++ l /\ StronglySorted (fun x y => total phi y <= total phi x) l /\ Forall (fun v => after <= total phi v <= before) l.
Proof.
  intros eig finite b a p lo hi phi c w us1 us2 HE HF M C E HU1 HU2. cbv zeta. destruct M as [HD [Hp [SN [HB [HR [HM [C1 C2]]]]]]].
  assert (C3 : py_or (a_cfl a) default_cfl * max_speed p hi <= cells_per_step SLLF) by (eapply Rle_trans; [exact C2|]; destruct p; cbn; lra).
  destruct (bounds_setup eig SLLF b a p lo hi c w HE HD Hp (or_introl eq_refl) HB HR HM (conj C1 C3) E) as [m [u [Ew [Bu [_ [_ [_ [_ [_ [Qc Sf]]]]]]]]]].
  destruct (bounds_start eig SLLF b a p lo hi c w HE HD Hp (or_introl eq_refl) HB HR HM (conj C1 C3) E) as [I0 [L _]]. rewrite L in HU1.
  destruct (monotone_solver eig b a p lo hi c w HE HD Hp SN HB HR HM C1 C2 E) as [bc [A1 [A2 [A3 [A4 [A5 [A6 [A7 [A8 _]]]]]]]]].
  set (n := or_default (a_mesh_size a) default_mesh_size) in *. set (dx := (ib (sb_domain b) - ia (sb_domain b)) / INR n) in A3, A5, A8.
  assert (HS : forall dt o, between a lo hi (o_sol o) -> tol <= dt <= call_generator (c_gen c) (o_time o, o_sol o) ->
    exists o', rk_execute_e (c_rhs c) (c_tab c) dt o = Ok o' /\ between a lo hi (o_sol o') /\ total phi (o_sol o') <= total phi (o_sol o)).
  { intros dt o [Lo Ro] [D1 D2]. fold n in Lo. rewrite A8 in D2. pose proof tol_pos.
    assert (Sp : 0 <= max_speed p hi) by (destruct p; cbn [max_speed range_ok] in *; lra).
    assert (HC : dt * max_speed p hi <= dx * monotone_cells_per_step p).
    { apply Rle_trans with (dx * py_or (a_cfl a) default_cfl * max_speed p hi); [apply Rmult_le_compat_r; auto|]. rewrite Rmult_assoc. apply Rmult_le_compat_l; lra. }
    destruct (convex_scheme p (sb_conditions b) _ _ bc dx dt lo hi (c_tab c) SN A1 A3 HR (fun _ => conj (Rle_refl lo) A4) (fun _ => conj (Rle_refl lo) A4) A7 ltac:(lra) HC phi (o_time o) (o_sol o) C) as [u' [X1 [X2 [X3 X4]]]]; auto.
    - intro Z. rewrite Z in Lo. cbn in Lo. lia.
    - destruct o as [t v]. cbn [o_time o_sol] in *. rewrite A5. eexists. split; [exact X1|]. split; [split; [fold n; cbn; congruence|exact X3]|exact X4]. }
  set (st1 := use_run finite c us1 (w, [])).
  assert (Sep : separate 1 (fun _ => u) (w, [])) by (rewrite Ew; apply separate_new; lia).
  assert (K : inv (between a lo hi) (fst st1)) by (apply (use_inv finite (between a lo hi) c (fun v Pv => HF v (proj2 Pv)) Qc Sf us1 (fun _ => u) (w, []) 1); auto).
  assert (D : descends (between a lo hi) (total phi) (w_values (fst st1)) (total phi (w_mem (fst st1) (w_sol (fst st1)))) (fst st1)).
  { destruct K as [K0 [_ [K2 _]]]. split; [exact K0|]. split; [exact K2|]. split; [lra|]. exists []. rewrite app_nil_r. repeat constructor. }
  pose proof (use_descends finite (between a lo hi) (total phi) c (fun v Pv => HF v (proj2 Pv)) Qc HS _ _ us2 (fun _ => u) st1 1 HU2 (separate_run finite 1 _ c us1 _ Sep) D) as [_ [_ [X Y]]].
  split; [exact X|exact Y].
Qed.
Print Assumptions C90_convex_totals_never_grow.

(** Burgers' equation with data (1, 3, 2) and (2, 3, 4): ordered, at distance 3; the squares are a convex function. *)
Example C90_ex : exists eig c1 w1 c2 w2, let b1 := box_benchmark "burgers" ["periodic"%string] [1; 3; 2] 10 in let b2 := box_benchmark "burgers" ["periodic"%string] [2; 3; 4] 10 in
  let a := {| a_mesh_size := Some 3%nat; a_cfl := Some (1 / 12); a_ode := Some ssp3; a_history := true |} in
  eig2_works eig /\ monotone_use b1 a M_Scalar.Burgers 1 4 /\ monotone_use b2 a M_Scalar.Burgers 1 4 /\ same_but_data b1 b2 /\
  scalar_solver eig SLLF b1 a = Ok (c1, w1) /\ scalar_solver eig SLLF b2 a = Ok (c2, w2) /\
  (forall x, ia (sb_domain b1) < x < ib (sb_domain b1) -> sb_initial b1 x <= sb_initial b2 x <= sb_initial b1 x + 2) /\
  below [1; 3; 2] [2; 3; 4] /\ distance [1; 3; 2] [2; 3; 4] = 3 /\ convex_on 1 4 (fun x => x ^ 2) /\ total (fun x => x ^ 2) [1; 3; 2] = 14.
Proof.
  destruct (C43_decomposition_exists 2) as [eig HE]. assert (HE2 : eig2_works eig) by (apply HE; lia).
  set (b1 := box_benchmark "burgers" ["periodic"%string] [1; 3; 2] 10). set (b2 := box_benchmark "burgers" ["periodic"%string] [2; 3; 4] 10).
  set (a := {| a_mesh_size := Some 3%nat; a_cfl := Some (1 / 12); a_ode := Some ssp3; a_history := true |}).
  destruct (C69_scalar_solvers_can_be_built eig SLLF b1 a M_Scalar.Burgers "periodic" "periodic" HE2) as [c1 [w1 [E1 _]]]; try (cbn; tauto); [cbn; lra|].
  destruct (C69_scalar_solvers_can_be_built eig SLLF b2 a M_Scalar.Burgers "periodic" "periodic" HE2) as [c2 [w2 [E2 _]]]; try (cbn; tauto); [cbn; lra|].
  assert (C : py_or (a_cfl a) default_cfl = 1 / 12). { cbn [a a_cfl py_or]. destruct (Reqb_spec (1 / 12) 0); [lra|reflexivity]. }
  assert (I3 : INR 3 = 3) by (cbn; ring).
  assert (V : forall x, 0 < x < 3 -> (sb_initial b1 x = 1 /\ sb_initial b2 x = 2) \/ (sb_initial b1 x = 3 /\ sb_initial b2 x = 3) \/ (sb_initial b1 x = 2 /\ sb_initial b2 x = 4)).
  { intros x Hx. cbn [b1 b2 box_benchmark sb_initial]. destruct (Rlt_dec x 1); [left; rewrite !(box_data_at _ 0) by (cbn; lra); cbn; lra|].
    destruct (Rlt_dec x 2); [right; left; rewrite !(box_data_at _ 1) by (cbn; lra); cbn; lra|]. right; right. rewrite !(box_data_at _ 2) by (cbn; lra). cbn. lra. }
  assert (B1 : data_between b1 1 4). { split; [|cbn; intros [Q|[]]; discriminate]. intros x Hx. cbn [b1 box_benchmark sb_domain ia ib length] in Hx. rewrite I3 in Hx. specialize (V x ltac:(lra)). lra. }
  assert (B2 : data_between b2 1 4). { split; [|cbn; intros [Q|[]]; discriminate]. intros x Hx. cbn [b2 box_benchmark sb_domain ia ib length] in Hx. rewrite I3 in Hx. specialize (V x ltac:(lra)). lra. }
  exists eig, c1, w1, c2, w2. cbv zeta. split; [exact HE2|].
  split; [|split]; [unfold monotone_use; rewrite C; split; [cbn; lra|split; [reflexivity|split; [cbn; auto|split; [assumption|split; [cbn; lra|split; [intros T HT; injection HT as <-; cbn; auto|split; [lra|cbn; lra]]]]]]]..|].
  split; [repeat split|]. split; [exact E1|]. split; [exact E2|]. split; [intros x Hx; cbn [b1 box_benchmark sb_domain ia ib length] in Hx; rewrite I3 in Hx; specialize (V x ltac:(lra)); lra|].
  split; [repeat constructor; lra|]. split; [unfold distance; cbn [map2 rsum fold_right]; unfold Rabs; repeat destruct Rcase_abs; lra|]. split; [|unfold total; cbn [map rsum fold_right]; lra].
  intros x y q Hx Hy Hq. pose proof (Rle_0_sqr (x - y)) as Sq. unfold Rsqr in Sq. pose proof (Rmult_le_pos q (1 - q) ltac:(lra) ltac:(lra)). pose proof (Rmult_le_pos _ _ H Sq). nra.
Qed.
