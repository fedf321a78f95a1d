(** C86: on a periodic domain the Lax-Friedrichs and the limited finite volume solver of scalar problems never create new
    oscillations: the total variation of the solution only decreases. *)
From Coq Require Import Reals List ZArith Arith Lia Lra Psatz Bool String Sorted.
From Verif Require Import Prelude L_Prelude M_Mesh L_Mesh M_Quadrature M_Interpolate M_Boundary S_Boundary L_Boundary M_Flux S_Flux L_Flux
  M_ODE S_ODE L_ODE M_TimeStepping L_TimeStepping M_Solution M_Solver S_Solver L_Solver P_Solver M_Generate
  M_Neighbours S_Neighbours L_Neighbours M_Scalar S_Scalar L_Scalar P_Scalar M_ShallowWater L_SWLow M_FVSolver S_FVSolver L_FVSolver P_FVWater P_FVLake P_Quadrature
  M_FE M_FEChoice M_Benchmark P_Benchmark M_ScalarSolver S_ScalarSolver L_Invariant P_Boundary P_Flux P_Gauss P_ScalarSolver S_Variation L_Variation.
Import ListNotations.
Local Open Scope nat_scope.
Open Scope R_scope.
Local Open Scope list_scope.
Notation length := List.length.

Lemma mcl_variation p conds il ir bc nf dx T dt t0 u0 lo hi : side_names conds "periodic" "periodic" ->
  get_boundary_conditions None conds 1 il ir = Ok bc -> u0 <> [] -> 0 < dx -> range_ok p lo ->
  scalar_mcl_getter p (length u0) conds = Ok nf ->
  inflow_in_range lo hi il -> inflow_in_range lo hi ir -> in_range lo hi u0 ->
  In T [euler; heun; ssp3] -> 0 <= dt -> 4 * dt * max_speed p hi <= dx ->
  exists o, rk_run_e (fv_rhs nf dx bc) T [dt] {| o_time := t0; o_sol := u0 |} = Ok o /\
    length (o_sol o) = length u0 /\ in_range lo hi (o_sol o) /\ variation (o_sol o) <= variation u0.
Proof.
  intros SN B Hu Hdx Hlo G Il Ir R0 HT Hdt Hc. destruct (bc_radius _ _ _ _ _ _ B) as [B1 B2].
  assert (G' := G). unfold scalar_mcl_getter in G'. inv_bind G'. apply Ok_inj in G'.
  assert (HA : good_array (S (S (length u0))) (neighbours_array a)).
  { replace (length u0 + 2)%nat with (S (S (length u0))) in E by lia. eapply fv_array_good; eauto. }
  assert (LV : forall t u v, fv_rhs nf dx bc t u = Ok v -> length u = length u0 -> length v = length u0).
  { intros t u v Ev Lu. subst nf. rewrite <- Lu. eapply mcl_rhs_length; eauto. rewrite Lu. auto. }
  apply (variation_run conds il ir bc nf dx T dt t0 u0 lo hi); auto.
  - intros t u e Lu Ru Ee Re Le. subst nf. rewrite <- Lu in HA.
    destruct (mcl_bounds _ _ e HA Le) as [M [m [EM [Em [LM [Lm _]]]]]].
    eexists. apply (L_Scalar.mcl_rhs p (neighbours_array a) bc dx t u e (length u) M m); auto; try lra.
    intros i Hi. pose proof (in_range_speed p lo hi e i Hlo Re ltac:(lia)). lra.
  - intros t u e v Lu Ru Ee Re Le Ev. assert (Hn : (0 < length u)%nat) by (rewrite Lu; destruct u0; [congruence|cbn; lia]).
    assert (LB : forall dt', 0 <= dt' <= 2 * dt -> length v = length u /\ forall i, (i < length u)%nat -> in_local_bounds e i (nth i (euler_update u v dt') 0)).
    { intros dt' Hd'. rewrite <- Lu in G. apply (C25_mcl_local_maximum_principle p conds bc il ir dx t u e v dt' nf B G Ee); auto; [eapply in_range_ok; eauto|lra|].
      intros j Hj. pose proof (in_range_speed p lo hi e j Hlo Re ltac:(lia)) as S1.
      pose proof (in_range_speed p lo hi e (S j) Hlo Re ltac:(lia)) as S2. unfold speed in S1, S2.
      eapply Rle_trans; [|exact Hc]. replace (4 * dt * max_speed p hi) with ((2 * dt) * (2 * max_speed p hi)) by ring.
      apply Rmult_le_compat; lra. }
    split.
    + intros i Hi. eapply local_in_range; [exact Re| |apply (LB dt ltac:(lra)); auto]. lia.
    + destruct (LB (2 * dt) ltac:(lra)) as [L2 X]. apply (half_step_variation u _ e (length u)); auto.
      * unfold euler_update. rewrite map2_length. lia.
      * eapply wrapped_extension; eauto.
      * intros i Hi. rewrite <- (euler_double u v dt i) by auto. apply X. auto.
Qed.

(** ** what is true of every step is true of the history *)
Section Descends.
Context {V : Type} `{VecOps V} (finite : V -> bool) (P : V -> Prop) (f : V -> R) (c : config V).
Hypotheses (HF : forall v, P v -> finite v = true) (HC : quiet_check c)
  (HS : forall dt o, P (o_sol o) -> tol <= dt <= call_generator (c_gen c) (o_time o, o_sol o) ->
    exists o', rk_execute_e (c_rhs c) (c_tab c) dt o = Ok o' /\ P (o_sol o') /\ f (o_sol o') <= f (o_sol o)).

(** relative to a history [h] and a value [b] at some earlier time *)
Definition descends (h : list V) (b : R) (w : world V) : Prop := in_sync w /\ P (w_mem w (w_sol w)) /\ f (w_mem w (w_sol w)) <= b /\
  exists l, w_values w = h ++ l /\ StronglySorted (fun x y => f y <= f x) l /\ Forall (fun v => f (w_mem w (w_sol w)) <= f v <= b) l.

Lemma sorted_snoc (R : V -> V -> Prop) l y : StronglySorted R l -> Forall (fun x => R x y) l -> StronglySorted R (l ++ [y]).
Proof.
  induction 1 as [|x l S IH F]; cbn; intro G; [repeat constructor|]. apply Forall_inv_tail in G as G'. apply Forall_inv in G.
  constructor; [auto|]. apply Forall_app. auto.
Qed.
Lemma step_descends h b dt w : descends h b w -> tol <= dt <= call_generator (c_gen c) (w_sol_time w, w_mem w (w_sol w)) ->
  exists w', solver_update finite c dt w = (w', None) /\ descends h b w'.
Proof.
  intros [S [Ps [B [l [L1 [L2 L3]]]]]] D.
  destruct (HS dt (solution_of w) Ps D) as [y [Ey [Py Fy]]]. cbn [solution_of o_sol] in Fy.
  assert (EO : {| o_time := w_ode_time w; o_sol := w_mem w (w_ode w) |} = solution_of w) by (unfold solution_of; destruct S as [-> ->]; reflexivity).
  destruct (solver_update finite c dt w) as [w' r] eqn:E. exists w'.
  assert (R : r = None).
  { unfold solver_update in E. pose proof (ode_execute_spec c dt w) as X. rewrite EO in X.
    destruct (ode_execute c dt w) as [[[w1 nodes] stages]|e] eqn:Eo; [|congruence].
    destruct X as [y' [X1 [X2 X3]]]. assert (y' = y) by congruence. subst y'. destruct (check_ok c HC _ _ _ _ _ Eo) as [bb Eb]. rewrite Eb in E.
    unfold sol_update in E. rewrite X3 in E. cbn [warn w_mem w_next w_ode w_ode_time w_sol w_sol_time w_times w_values w_warnings] in E.
    rewrite store_same, HF in E by exact Py. congruence. }
  subst r. split; [reflexivity|]. destruct (solver_update_spec finite c dt w w' None S E) as [_ [_ [_ [y' [Y1 [_ [Y2 [Y3 [Y4 [_ Y6]]]]]]]]]].
  assert (Q : y' = y) by congruence. rewrite Q in Y1, Y3, Y6. split; [exact Y2|].
  pose proof (f_equal o_sol Y3) as Z. cbn [solution_of o_sol] in Z. rewrite Z. split; [exact Py|]. split; [lra|].
  rewrite Y6. cbn [map]. destruct (c_history c).
  - exists (l ++ [o_sol y]). rewrite L1, app_assoc. split; [reflexivity|]. split.
    + apply sorted_snoc; [exact L2|]. eapply Forall_impl; [|exact L3]. cbn. intros v Hv. lra.
    + apply Forall_app. split; [|constructor; [lra|constructor]]. eapply Forall_impl; [|exact L3]. cbn. intros v Hv. lra.
  - exists l. split; [exact L1|]. split; [exact L2|]. eapply Forall_impl; [|exact L3]. cbn. intros v Hv. lra.
Qed.
Lemma solve_descends h b n w : descends h b w -> descends h b (fst (fst (solve finite c n w))).
Proof.
  intro I. unfold solve. destruct (tqdm_len c w) as [k|e]; [|exact I].
  assert (G : forall m w s, descends h b w -> descends h b (fst (fst (solve_loop finite c m w s)))).
  { clear - HF HC HS. induction m as [|m IH]; intros w s I; cbn [solve_loop]; [exact I|].
    destruct (ts_next _ _ _) as [dt s'| |] eqn:E; [|exact I..].
    apply ts_next_yield in E as [_ [E1 [E2 _]]].
    destruct (step_descends h b dt w I) as [w' [U1 U2]]; [|rewrite U1; apply IH; exact U2].
    split; [exact E2|]. rewrite E1. apply Rmin_l. }
  specialize (G n w (ts_iter (c_start c)) I). destruct (solve_loop finite c n w _) as [[w' s'] st]. exact G.
Qed.
Lemma use_descends h b us m : forall st N, (forall v t, ~ In (Reinit v t) us) -> separate N m st -> descends h b (fst st) -> descends h b (fst (use_run finite c us st)).
Proof.
  unfold use_run. induction us as [|u us IH]; intros st N HR S K; [exact K|]. cbn [fold_left]. apply (IH _ N); auto.
  - intros v t Hin. apply (HR v t). right. auto.
  - apply separate_step. auto.
  - destruct st as [w owned]. cbn [fst] in K. destruct S as [S1 [S2 [S3 [S4 [S5 [S6 S7]]]]]].
    destruct u as [|i v|n|v t]; cbn [use_step].
    + destruct K as [[K0 K0'] K]. unfold descends, in_sync. cbn [fst w_mem w_next w_ode w_ode_time w_sol w_sol_time w_times w_values w_warnings].
      rewrite !store_other by lia. auto.
    + destruct (nth_error owned i) as [l|] eqn:E; [|exact K]. apply nth_error_In in E. destruct K as [[K0 K0'] K].
      unfold descends, in_sync. cbn [fst w_mem w_next w_ode w_ode_time w_sol w_sol_time w_times w_values w_warnings].
      rewrite !store_other by (intro Z; rewrite <- Z in E; auto). auto.
    + cbn [fst]. apply solve_descends; auto.
    + exfalso. apply (HR v t). left. reflexivity.
Qed.
End Descends.

(** ** the solvers *)
(** the CFL number: waves may cross one cell per step, a quarter of a cell with the limiter *)
Lemma variation_steps eig g b a p lo hi c w : eig2_works eig -> ia (sb_domain b) < ib (sb_domain b) ->
  sb_problem b = names_problem p -> side_names (sb_conditions b) "periodic" "periodic" -> bounded_scheme g -> data_between b lo hi -> range_ok p lo ->
  ssp_method (a_ode a) -> 0 < py_or (a_cfl a) default_cfl -> py_or (a_cfl a) default_cfl * max_speed p hi <= calm_cells_per_step g ->
  scalar_solver eig g b a = Ok (c, w) ->
  forall dt o, between a lo hi (o_sol o) -> tol <= dt <= call_generator (c_gen c) (o_time o, o_sol o) ->
    exists o', rk_execute_e (c_rhs c) (c_tab c) dt o = Ok o' /\ between a lo hi (o_sol o') /\ variation (o_sol o') <= variation (o_sol o).
Proof.
  intros HE HD Hp SN HG HB HR HM C1 C2 E dt o Bo D.
  set (n := or_default (a_mesh_size a) default_mesh_size) in *.
  destruct (scalar_solver_inv eig g b a c w E) as [m [u [nf [bc X]]]]. fold n in X. cbv zeta in X. destruct X as [Em [Eu [Lm [Lu [Hn [Ed [Enf [Ebc [Ec Ew]]]]]]]]].
  assert (Hn' : (0 < n)%nat) by lia.
  assert (HX : 0 < m_step m). { rewrite Ed. apply Rdiv_lt_0_compat; [lra|apply lt_0_INR; lia]. }
  set (cfl := py_or (a_cfl a) default_cfl) in *.
  assert (GG : forall x, call_generator (c_gen c) x = m_step m * cfl) by (intro x; subst c; reflexivity).
  destruct Bo as [Lo Ro]. fold n in Lo. destruct D as [D1 D2]. rewrite GG in D2. pose proof tol_pos as TP.
  assert (Hx : exists x, In x (o_sol o)). { destruct (o_sol o) as [|x l]; [cbn in Lo; lia|]. exists x. left. reflexivity. }
  destruct Hx as [x Hx]. pose proof (Ro x Hx) as Rx.
  assert (Sp : 0 < max_speed p hi) by (destruct p; cbn [max_speed]; [lra|]; cbn [range_ok] in HR; lra).
  assert (Spd : dt * max_speed p hi <= m_step m * calm_cells_per_step g).
  { eapply Rle_trans; [apply Rmult_le_compat_r; [lra|exact D2]|]. rewrite Rmult_assoc. apply Rmult_le_compat_l; lra. }
  rewrite (scalar_dim _ _ _ _ Enf) in Ebc. change (2 / 2)%nat with 1%nat in Ebc.
  assert (HBC : exists il ir, get_boundary_conditions None (sb_conditions b) 1 il ir = Ok bc /\ inflow_in_range lo hi il /\ inflow_in_range lo hi ir).
  { destruct (in_dec string_dec "inflow"%string (sb_conditions b)) as [Y|N].
    - exists (Some (sb_inflow_left b)), (Some (sb_inflow_right b)). split; [exact Ebc|]. split; intro t; apply (proj2 HB Y t).
    - rewrite (boundary_without_inflow b 1 (fun _ => lo) (fun _ => lo) N) in Ebc. exists (Some (fun _ => lo)), (Some (fun _ => lo)). split; [exact Ebc|].
      split; intro t; lra. }
  destruct HBC as [il [ir [Ebc' [Il Ir]]]].
  assert (HT : In (c_tab c) [euler; heun; ssp3]). { subst c. cbn [c_tab scalar_config]. destruct (a_ode a) as [T|] eqn:Ea; [apply HM; reflexivity|cbn; auto]. }
  assert (Hne : o_sol o <> []) by (intro Q; rewrite Q in Lo; cbn in Lo; lia).
  assert (OO : o = {| o_time := o_time o; o_sol := o_sol o |}) by (destruct o; reflexivity).
  assert (Run : exists o', rk_run_e (c_rhs c) (c_tab c) [dt] {| o_time := o_time o; o_sol := o_sol o |} = Ok o' /\ length (o_sol o') = length (o_sol o) /\ in_range lo hi (o_sol o') /\
    variation (o_sol o') <= variation (o_sol o)).
  { assert (Rhs : c_rhs c = fv_rhs nf (m_step m) bc) by (subst c; reflexivity). rewrite Rhs. unfold get_scalar_flux in Enf. rewrite Hp, names_parse in Enf. cbn [bind] in Enf.
    destruct HG as [-> | ->]; cbn [calm_cells_per_step] in Spd.
    - apply Ok_inj in Enf. subst nf. apply (llf_variation p (sb_conditions b) il ir bc (m_step m) (c_tab c) dt (o_time o) (o_sol o) lo hi); auto; lra.
    - rewrite Lm in Enf. rewrite <- Lo in Enf. apply (mcl_variation p (sb_conditions b) il ir bc nf (m_step m) (c_tab c) dt (o_time o) (o_sol o) lo hi); auto; lra. }
  rewrite <- OO in Run. destruct Run as [o' [X1 [X2 [X3 X4]]]]. exists o'. split; [|split; [split; [fold n; congruence|exact X3]|exact X4]].
  unfold rk_run_e in X1. cbn [foldM] in X1. destruct (rk_execute_e (c_rhs c) (c_tab c) dt o) as [y|e]; [|discriminate]. exact X1.
Qed.

(** Whatever a program does with the solver first ([us1], which may include reinitialisation with values in the range of the data) and then
    ([us2], without reinitialisation): the variation of the solution has not grown meanwhile, the entries that were added to the history
    meanwhile have ever smaller variation, none more than at the beginning and none less than at the end. *)
Theorem C86_variation_never_grows : forall eig finite g b a p lo hi c w us1 us2, eig2_works eig -> ia (sb_domain b) < ib (sb_domain b) ->
  sb_problem b = names_problem p -> side_names (sb_conditions b) "periodic" "periodic" -> bounded_scheme g -> data_between b lo hi -> range_ok p lo ->
  ssp_method (a_ode a) -> 0 < py_or (a_cfl a) default_cfl -> py_or (a_cfl a) default_cfl * max_speed p hi <= calm_cells_per_step g ->
  (forall v, in_range lo hi v -> finite v = true) ->
  scalar_solver eig g b a = Ok (c, w) ->
  (forall v t, In (Reinit v t) us1 -> length v = length (o_sol (solution_of w)) /\ in_range lo hi v) ->
  (forall v t, ~ In (Reinit v t) us2) ->
  let st1 := use_run finite c us1 (w, []) in
  let st2 := use_run finite c us2 st1 in
  let before := variation (o_sol (solution_of (fst st1))) in
  let after := variation (o_sol (solution_of (fst st2))) in
  after <= before /\
  exists l, w_values (fst st2) = w_values (fst st1) ++ l /\ StronglySorted (fun x y => variation y <= variation x) l /\
    Forall (fun v => after <= variation v <= before) l.
Proof.
  intros eig finite g b a p lo hi c w us1 us2 HE HD Hp SN HG HB HR HM C1 C2 HF E HU1 HU2. cbv zeta.
  pose proof (variation_steps eig g b a p lo hi c w HE HD Hp SN HG HB HR HM C1 C2 E) as HS.
  assert (C3 : py_or (a_cfl a) default_cfl * max_speed p hi <= cells_per_step g).
  { eapply Rle_trans; [exact C2|]. destruct g; cbn [calm_cells_per_step cells_per_step]; lra. }
  destruct (bounds_setup eig g b a p lo hi c w HE HD Hp HG HB HR HM (conj C1 C3) E) as [m [u [Ew [Bu [_ [_ [_ [_ [_ [Qc Sf]]]]]]]]]].
  destruct (bounds_start eig g b a p lo hi c w HE HD Hp HG HB HR HM (conj C1 C3) E) as [I0 [L _]]. rewrite L in HU1.
  set (st1 := use_run finite c us1 (w, [])).
  assert (Sep : separate 1 (fun _ => u) (w, [])) by (rewrite Ew; apply separate_new; lia).
  assert (K : inv (between a lo hi) (fst st1)) by (apply (use_inv finite (between a lo hi) c (fun v Pv => HF v (proj2 Pv)) Qc Sf us1 (fun _ => u) (w, []) 1); auto).
  assert (D : descends (between a lo hi) variation (w_values (fst st1)) (variation (w_mem (fst st1) (w_sol (fst st1)))) (fst st1)).
  { destruct K as [K0 [_ [K2 _]]]. split; [exact K0|]. split; [exact K2|]. split; [lra|]. exists []. rewrite app_nil_r. repeat constructor. }
  pose proof (use_descends finite (between a lo hi) variation c (fun v Pv => HF v (proj2 Pv)) Qc HS _ _ us2 (fun _ => u) st1 1 HU2 (separate_run finite 1 _ c us1 _ Sep) D) as [_ [_ [X Y]]].
  split; [exact X|exact Y].
Qed.
Print Assumptions C86_variation_never_grows.

(** All advection benchmarks with the default options, both schemes. *)
Theorem C86_advection_benchmarks : forall eig finite g u0 lo e history us, eig2_works eig -> bounded_scheme g ->
  (u0 = three_hills \/ u0 = two_hills \/ u0 = one_hill \/ u0 = gaussian_bell) /\ lo = 0 \/ u0 = cosine /\ lo = -1 ->
  (forall v, in_range lo 1 v -> finite v = true) -> (forall v t, ~ In (Reinit v t) us) ->
  exists c w, scalar_solver eig g (advection_benchmark u0 e) {| a_mesh_size := None; a_cfl := None; a_ode := None; a_history := history |} = Ok (c, w) /\
    variation (o_sol (solution_of (fst (use_run finite c us (w, []))))) <= variation (o_sol (solution_of w)).
Proof.
  intros eig finite g u0 lo e history us HE HG Hu HF HU. set (b := advection_benchmark u0 e). set (a := {| a_mesh_size := None; a_cfl := None; a_ode := None; a_history := history |}).
  assert (HD : ia (sb_domain b) < ib (sb_domain b)) by (cbn; lra).
  assert (S : side_names (sb_conditions b) "periodic" "periodic") by (cbn; auto).
  destruct (C69_scalar_solvers_can_be_built eig g b a M_Scalar.Advection _ _ HE HD eq_refl S) as [c [w [E _]]]; [cbn; tauto|cbn; tauto|].
  assert (HB : data_between b lo 1).
  { split; [intros x _; apply (C49_advection_data u0 lo Hu)|]. cbn. intros [Q|[]]. discriminate. }
  assert (C1 : py_or (a_cfl a) default_cfl = 1 / 10) by reflexivity.
  exists c, w. split; [exact E|].
  destruct (C86_variation_never_grows eig finite g b a M_Scalar.Advection lo 1 c w [] us HE HD eq_refl S HG HB I) as [X _]; auto.
  - intros T Q. discriminate.
  - rewrite C1. lra.
  - rewrite C1. cbn [max_speed]. destruct g; cbn [calm_cells_per_step]; lra.
  - intros ? ? [].
Qed.
Print Assumptions C86_advection_benchmarks.

(** Burgers' equation with the limiter on three cells: not an advection benchmark, with history, a third order method and a CFL number of its own. *)
Example C86_ex : exists eig c w, let b := box_benchmark "burgers" ["periodic"%string] [1; 3; 2] 10 in
  let a := {| a_mesh_size := Some 3%nat; a_cfl := Some (1 / 12); a_ode := Some ssp3; a_history := true |} in
  eig2_works eig /\ scalar_solver eig SMCL b a = Ok (c, w) /\ ia (sb_domain b) < ib (sb_domain b) /\ sb_problem b = names_problem M_Scalar.Burgers /\
  side_names (sb_conditions b) "periodic" "periodic" /\ data_between b 1 3 /\ range_ok M_Scalar.Burgers 1 /\ ssp_method (a_ode a) /\
  0 < py_or (a_cfl a) default_cfl /\ py_or (a_cfl a) default_cfl * max_speed M_Scalar.Burgers 3 <= calm_cells_per_step SMCL /\ variation [1; 3; 2] = 4.
Proof.
  destruct (C43_decomposition_exists 2) as [eig HE]. assert (HE2 : eig2_works eig) by (apply HE; lia).
  set (b := box_benchmark "burgers" ["periodic"%string] [1; 3; 2] 10). set (a := {| a_mesh_size := Some 3%nat; a_cfl := Some (1 / 12); a_ode := Some ssp3; a_history := true |}).
  assert (HD : ia (sb_domain b) < ib (sb_domain b)) by (cbn; lra).
  destruct (C69_scalar_solvers_can_be_built eig SMCL b a M_Scalar.Burgers "periodic" "periodic" HE2) as [c [w [E _]]]; try (cbn; tauto).
  assert (C : py_or (a_cfl a) default_cfl = 1 / 12). { cbn [a a_cfl py_or]. destruct (Reqb_spec (1 / 12) 0); [lra|reflexivity]. }
  exists eig, c, w. cbv zeta. rewrite C. split; [exact HE2|]. split; [exact E|]. split; [exact HD|]. split; [reflexivity|]. split; [cbn; auto|]. split.
  - split; [|cbn; intros [Q|[]]; discriminate]. intros x Hx. cbn [b box_benchmark sb_domain ia ib length] in Hx.
    assert (I3 : INR 3 = 3) by (cbn; ring). rewrite I3 in Hx. cbn [b box_benchmark sb_initial].
    destruct (Rlt_dec x 1); [rewrite (box_data_at _ 0) by (cbn; lra); cbn; lra|]. destruct (Rlt_dec x 2); [rewrite (box_data_at _ 1) by (cbn; lra); cbn; lra|].
    rewrite (box_data_at _ 2) by (cbn; lra). cbn. lra.
  - split; [cbn; lra|]. split; [intros T HT; injection HT as <-; cbn; auto|]. split; [lra|]. split; [cbn; lra|].
    unfold variation. cbn [length seq map]. change (1 mod 3)%nat with 1%nat. change (2 mod 3)%nat with 2%nat. change (3 mod 3)%nat with 0%nat. cbn [nth rsum fold_right].
    unfold Rabs. repeat destruct Rcase_abs; lra.
Qed.
