(** C92, continued: the benchmarks of the advection equation, and the solutions of calculate, from the words to the values. *)
From Coq Require Import String Ascii Reals List Arith ZArith Bool Lia Lra Psatz Sorted Classical_Prop.
From Verif Require Import Prelude L_Prelude M_Mesh L_Mesh M_FE M_Quadrature S_Quadrature M_Interpolate M_Boundary S_Boundary M_Flux L_Flux
  M_ODE S_ODE M_TimeStepping L_TimeStepping M_Coarsener L_Coarsener P_Coarsener M_Solution M_Solver S_Solver L_Solver M_Generate M_Scalar S_Scalar L_Scalar M_ShallowWater S_ShallowWater M_FVSolver S_FVSolver L_FVSolver
  M_Benchmark P_Benchmark M_ScalarSolver S_ScalarSolver M_Misc P_FVWater P_FVLake P_ScalarSolver P_FESolver M_Command M_Series M_Parser S_Parser P_Parser M_CommandLine S_CommandLine L_CommandLine P_CommandLine P_CommandRun P_CommandMore S_CommandRun L_CommandRun P_FEMatrix S_Solve S_FESolver L_FELinear
  P_CommandCalc S_Variation S_VariationLine P_Variation P_VariationFE P_VariationLine S_Convergence S_ConvergenceLine P_Convergence P_ConvergenceFE P_ConvergenceLine P_ConvergenceBench S_Jumps L_Jumps L_Hills P_Jumps.
Import ListNotations.
Open Scope R_scope.
Notation length := List.length.

Lemma hills_data u0 V lo : hills u0 V lo -> varies unit_interval V (line_data u0) /\ (forall x, lo <= u0 x <= 1) /\ -1 <= lo <= 0.
Proof.
  intros [[-> [-> ->]]|[[-> [-> ->]]|[[-> [-> ->]]|[[-> [-> ->]]|[-> [-> ->]]]]]]; (split; [apply climbs_varies|split; [|lra]]).
  - exact one_hill_climbs.
  - apply (C49_advection_data one_hill 0). tauto.
  - exact two_hills_climbs.
  - apply (C49_advection_data two_hills 0). tauto.
  - exact three_hills_climbs.
  - apply (C49_advection_data three_hills 0). tauto.
  - exact bell_climbs.
  - apply (C49_advection_data gaussian_bell 0). tauto.
  - exact cosine_climbs.
  - apply (C49_advection_data cosine (-1)). tauto.
Qed.

(** All five benchmarks with the Lax-Friedrichs solver and all options: the area between the values of the cells and the exact solution of the
    benchmark at the middles of the cells, or beside them, at all times that are shown. *)
Theorem C92_advection_benchmarks : forall eig finite u0 V lo e a us, eig2_works eig -> hills u0 V lo -> ssp_method (a_ode a) -> 0 < py_or (a_cfl a) default_cfl <= 1 ->
  (forall v, in_range lo 1 v -> finite v = true) -> (forall v t, ~ In (Reinit v t) us) ->
  let n := or_default (a_mesh_size a) default_mesh_size in
  let h := 1 / INR n in
  exists c w, scalar_solver eig SLLF (advection_benchmark u0 e) a = Ok (c, w) /\ forall t v, shown (fst (use_run finite c us (w, []))) t v ->
    0 <= t /\ length v = n /\ forall d, area h v (fun x => advection_exact u0 x t) (fun i => (INR i + 1 / 2) * h + d) <= V * (sqrt (t * h) + 13 / 10 * h + Rabs d).
Proof.
  intros eig finite u0 V lo e a us HE Hu HM HC HF NR n h. destruct (hills_data u0 V lo Hu) as [HV [Hb _]]. set (b := advection_benchmark u0 e).
  assert (HD : ia (sb_domain b) < ib (sb_domain b)) by (cbn; lra). assert (S : side_names (sb_conditions b) "periodic" "periodic") by (cbn; auto).
  assert (Hn : (0 < n)%nat) by (apply or_default_pos; unfold default_mesh_size; lia).
  destruct (C69_scalar_solvers_can_be_built eig SLLF b a M_Scalar.Advection _ _ HE HD eq_refl S) as [c [w [E _]]]; [cbn; tauto|cbn; tauto|].
  exists c, w. split; [exact E|]. intros t v SH.
  assert (HF' : forall v, inherits_bounds (o_sol (solution_of w)) v -> finite v = true).
  { intros y [_ Hy]. apply HF. intros x Hx. apply (Hy lo 1); [|exact Hx]. rewrite (first_values eig SLLF b a c w n HE HD E eq_refl Hn). intros z Hz. apply (In_nth _ _ 0) in Hz as [i [Hi <-]]. rewrite tab_length in Hi. rewrite nth_tab by auto.
    apply average_between; auto. }
  assert (HI : forall x, ia (sb_domain b) <= x < ib (sb_domain b) -> sb_initial b x = line_data u0 x) by (intros x Hx; apply line_inside; exact Hx).
  assert (Eh : (ib (sb_domain b) - ia (sb_domain b)) / INR n = h) by (cbn; unfold h; f_equal; lra).
  assert (Ep : t - sb_start b = t) by (cbn; lra).
  assert (X := fun d => C92_area_of_solutions_with_jumps eig finite b a (line_data u0) V c w us t v d HE HD eq_refl S (line_repeats u0) HI HV HM HC E HF' NR SH).
  cbv zeta in X. fold n in X. rewrite Eh, Ep in X. split; [apply (X 0)|]. split; [apply (X 0)|]. intro d. destruct (X d) as [_ [_ Y]].
  replace (area h v (fun x => advection_exact u0 x t) (fun i => (INR i + 1 / 2) * h + d)) with (area h v (moved (line_data u0) t) (fun i => middle (sb_domain b) n i + d)); [exact Y|].
  unfold area. do 2 f_equal. apply tab_ext. intros i _. rewrite line_moved. unfold middle. rewrite Eh. do 3 f_equal. cbn. lra.
Qed.
Print Assumptions C92_advection_benchmarks.

(** the low order finite element solver on the nodes *)
Theorem C92_element_benchmarks : forall eig solver old finite ad u0 V lo e a us, eig_ok eig 1 -> eig_ok eig 2 -> hills u0 V lo -> ssp_method (f_ode a) -> used_degree a = 1%nat -> (3 <= used_cells a)%nat -> 0 < py_or (f_cfl a) default_cfl <= 1 ->
  (forall v, in_range lo 1 v -> finite v = true) -> (forall v t, ~ In (Reinit v t) us) ->
  let n := used_cells a in
  let h := 1 / INR n in
  exists c w, fe_solver eig solver old (FLow ad) (advection_benchmark u0 e) a = Ok (c, w) /\ forall t v, shown (fst (use_run finite c us (w, []))) t v ->
    0 <= t /\ length v = n /\ forall d, area h v (fun x => advection_exact u0 x t) (fun i => INR i * h + d) <= V * (sqrt (t * h) + h + Rabs d).
Proof.
  intros eig solver old finite ad u0 V lo e a us HE1 HE Hu HM H1 H3 HC HF NR n h. destruct (hills_data u0 V lo Hu) as [HV [Hb _]]. set (b := advection_benchmark u0 e). assert (HD : ia (sb_domain b) < ib (sb_domain b)) by (cbn; lra).
  destruct (C71_fe_solvers_can_be_built eig solver old (FLow ad) b a M_FE.Advection HD eq_refl ltac:(intros; discriminate)) as [c [w [E _]]].
  exists c, w. split; [exact E|]. intros t v SH.
  pose proof (element_values eig solver old (FLow ad) b a c w n E HD (or_introl eq_refl) eq_refl H1) as St.
  assert (HF' : forall v, inherits_bounds (o_sol (solution_of w)) v -> finite v = true).
  { intros y [_ Hy]. apply HF. intros x Hx. apply (Hy lo 1); [|exact Hx]. rewrite St. intros z Hz. apply (In_nth _ _ 0) in Hz as [i [Hi <-]]. rewrite tab_length in Hi. rewrite nth_tab by auto. apply Hb. }
  assert (HI : forall x, ia (sb_domain b) <= x < ib (sb_domain b) -> sb_initial b x = line_data u0 x) by (intros x Hx; apply line_inside; exact Hx).
  assert (Eh : (ib (sb_domain b) - ia (sb_domain b)) / INR n = h) by (cbn; unfold h; f_equal; lra).
  assert (Ep : t - sb_start b = t) by (cbn; lra).
  assert (X := fun d => C92_element_area eig solver old finite ad b a (line_data u0) V c w us t v d HD eq_refl HM H1 HE1 HE H3 HC (line_repeats u0) HI HV E HF' NR SH).
  cbv zeta in X. fold n in X. rewrite Eh, Ep in X. split; [apply (X 0)|]. split; [apply (X 0)|]. intro d. destruct (X d) as [_ [_ Y]].
  replace (area h v (fun x => advection_exact u0 x t) (fun i => INR i * h + d)) with (area h v (moved (line_data u0) t) (fun i => ia (sb_domain b) + INR i * h + d)); [exact Y|].
  unfold area. do 2 f_equal. apply tab_ext. intros i _. rewrite line_moved. do 3 f_equal. cbn. lra.
Qed.
Print Assumptions C92_element_benchmarks.

Section Calc.
Context (parse_int : string -> option Z) (parse_float : string -> option pyfloat) (net net2 : list state -> state).
Context (newton : (R -> R) -> R -> result R) (moving_height : R -> R) (random_waves : Z -> oscillation) (drawn : Z) (splitext : string -> string * string).
Context (eig : nat -> (nat -> nat -> R) -> (nat -> R) * (nat -> nat -> R)) (linear_solver : M_Misc.mat -> list R -> list R) (old : nat -> R).
Context (finite : list R -> bool) (finite2 : list state -> bool).
Notation order_of := (ordered net net2 false).
Notation made := (construct eig linear_solver old).
Notation run := (solve_any finite finite2).
Notation well := (well_written parse_int parse_float net net2).

Lemma area_one b r s n o lo hi f V t v : eig2_works eig -> eig_ok eig 1 -> scalar_setting b -> sb_problem b = "advection"%string -> well false r -> first_order r ->
  (forall x, ia (sb_domain b) <= x <= ib (sb_domain b) -> lo <= sb_initial b x <= hi) -> (forall v, in_range lo hi v -> finite v = true) ->
  repeats (sb_domain b) f -> (forall x, ia (sb_domain b) <= x < ib (sb_domain b) -> sb_initial b x = f x) -> varies (sb_domain b) V f ->
  made (BScalar b) (snd (order_of r)) = Ok s -> o = s \/ o = fst (run n s) -> object_shows o t v ->
  let passed := t - sb_start b in
  let h := width (sb_domain b) r in
  0 <= passed /\ length v = mesh_asked r /\ area h v (moved f passed) (place (sb_domain b) r) <= V * (sqrt (passed * h) + 13 / 10 * h).
Proof.
  intros HE HE1 HS HN HW HV Hu HF HR HI VR M HO SH passed h. pose proof HS as [HD [HC HP]]. destruct (mesh_written parse_int parse_float net net2 r (or_intror HW)) as [Pm Pc].
  assert (Om : or_default (Some (mesh_asked r)) default_mesh_size = mesh_asked r) by (destruct (mesh_asked r); [lia|reflexivity]).
  assert (Py : py_or (Some (cfl_asked r)) default_cfl = cfl_asked r) by (unfold py_or; destruct (Reqb_spec (cfl_asked r) 0); [lra|reflexivity]).
  assert (Hh : 0 < h). { unfold h, width. apply Rdiv_lt_0_compat; [lra|]. apply lt_0_INR. exact Pm. }
  pose proof (scalar_kind parse_int parse_float net net2 r HW) as K. pose proof (element_kind parse_int parse_float net net2 r HW) as KE. destruct r as [[k ws] wss]. set (r := (k, ws, wss)) in *. pose proof HW as [_ [W _]]. pose proof (method_asked parse_int parse_float net net2 newton moving_height random_waves drawn splitext ws wss W) as MA.
  unfold first_order in HV. fold r in HV. destruct HV as [Hc [Hk|[Hk H3]]].
  - destruct K as [[Q Eo]|[[Q Eo]|[[Q Eo]|[[Q _]|[[Q|Q] _]]]]]; try congruence. rewrite Eo in M. cbn [construct] in M. inv_bind M. apply Ok_inj in M. subst s. destruct a as [c w].
    destruct (scalar_run finite finite2 c w n o HO) as [us [w' [-> [Ew NR]]]]. cbn [object_shows] in SH. rewrite Ew in SH.
    assert (SN : side_names (sb_conditions b) "periodic" "periodic") by (rewrite HC; cbn; auto).
    set (a := fv (mesh_asked r) (cfl_asked r) None false) in *.
    assert (HF' : forall v, inherits_bounds (o_sol (solution_of w)) v -> finite v = true).
    { intros y [_ Hy]. apply HF. intros x Hx. apply (Hy lo hi); [|exact Hx]. rewrite (first_values eig SLLF b a c w (mesh_asked r) HE HD E Om Pm). intros z Hz. apply (In_nth _ _ 0) in Hz as [i [Hi <-]]. rewrite tab_length in Hi. rewrite nth_tab by auto.
      apply average_between; auto. }
    assert (HM : ssp_method (a_ode a)) by (intros T X; discriminate X). assert (HC' : 0 < py_or (a_cfl a) default_cfl <= 1) by (cbn [a fv a_cfl]; rewrite Py; lra).
    destruct (C92_area_of_solutions_with_jumps eig finite b a f V c w us t v 0 HE HD HN SN HR HI VR HM HC' E HF' NR SH) as [T0 [Lv X]]. cbn [a fv a_mesh_size] in Lv, X. rewrite Om in Lv, X.
    split; [exact T0|]. split; [exact Lv|]. rewrite Rabs_R0, Rplus_0_r in X. fold passed in X. change ((ib (sb_domain b) - ia (sb_domain b)) / INR (mesh_asked r)) with h in X.
    replace (area h v (moved f passed) (place (sb_domain b) r)) with (area h v (moved f passed) (fun i => middle (sb_domain b) (mesh_asked r) i + 0)); [exact X|].
    unfold area. do 2 f_equal. apply tab_ext. intros i _. rewrite Rplus_0_r. unfold place. subst r. rewrite Hk. reflexivity.
  - destruct (proj1 KE Hk) as [ad Eo]. rewrite Eo in M. cbn [construct] in M. inv_bind M. apply Ok_inj in M. subst s. destruct a as [c w].
    destruct (scalar_run finite finite2 c w n o HO) as [us [w' [-> [Ew NR]]]]. cbn [object_shows] in SH. rewrite Ew in SH.
    set (T := Some (method_of ws heun)) in *. set (a := fe (mesh_asked r) (cfl_asked r) T false) in *. assert (Uc : used_cells a = mesh_asked r) by (cbn [a fe used_cells f_mesh_size]; destruct (mesh_asked r); [lia|reflexivity]).
    pose proof (element_values eig linear_solver old (FLow ad) b a c w (mesh_asked r) E HD HP Uc eq_refl) as St.
    assert (HF' : forall v, inherits_bounds (o_sol (solution_of w)) v -> finite v = true).
    { intros y [_ Hy]. apply HF. intros x Hx. apply (Hy lo hi); [|exact Hx]. clear - St Hu Pm HD. rewrite St. intros z Hz. apply (In_nth _ _ 0) in Hz as [i [Hi <-]]. rewrite tab_length in Hi. rewrite nth_tab by auto. apply Hu.
      unfold start_value. assert (0 < INR (mesh_asked r)) by (apply lt_0_INR; lia). assert (Q1 : 0 <= INR i <= INR (mesh_asked r)) by (split; [apply pos_INR|apply le_INR; lia]).
      replace (INR i * ((ib (sb_domain b) - ia (sb_domain b)) / INR (mesh_asked r))) with ((ib (sb_domain b) - ia (sb_domain b)) * (INR i / INR (mesh_asked r))) by (field; lra).
      assert (Q2 : 0 <= INR i / INR (mesh_asked r) <= 1). { split; [apply Rmult_le_pos; [lra|left; apply Rinv_0_lt_compat; lra]|]. apply (Rmult_le_reg_r (INR (mesh_asked r))); [lra|]. unfold Rdiv. rewrite Rmult_assoc, Rinv_l by lra. lra. }
      nra. }
    destruct (C92_element_area eig linear_solver old finite ad b a f V c w us t v 0 HD HN) as [T0 [Lv X]]; auto.
    { intros X EX. injection EX as <-. exact MA. }
    { rewrite Uc. exact H3. }
    { cbn [a fe f_cfl]. rewrite Py. lra. }
    rewrite Uc in Lv, X. rewrite Rabs_R0, Rplus_0_r in X. fold passed in X. change ((ib (sb_domain b) - ia (sb_domain b)) / INR (mesh_asked r)) with h in X.
    split; [exact T0|]. split; [exact Lv|].
    replace (area h v (moved f passed) (place (sb_domain b) r)) with (area h v (moved f passed) (fun i => ia (sb_domain b) + INR i * h + 0)).
    + eapply Rle_trans; [exact X|]. apply Rmult_le_compat_l; [exact (varies_nonneg _ _ _ HD VR)|lra].
    + unfold area. do 2 f_equal. apply tab_ext. intros i _. rewrite Rplus_0_r. unfold place, h, width, r. rewrite Hk. reflexivity.
Qed.
End Calc.

(** Whatever the words: for periodic initial data of finite variation, with or without jumps, the solutions of the first order solvers after calculate, also
    after an exception and after any number of steps, lie close to the data moved by the time that has passed. *)
Theorem C92_calculated_area : forall parse_int parse_float net net2 newton moving_height random_waves drawn splitext eig linear_solver old finite finite2 line n objects e,
  eig_ok eig 1 -> eig_ok eig 2 -> finite_words parse_float line ->
  calculate_line parse_int parse_float net net2 newton moving_height random_waves drawn splitext eig linear_solver old finite finite2 n line = Parsed (SolverList objects, e) ->
  exists p b rs, asks parse_int parse_float net net2 newton moving_height random_waves drawn line p b rs /\
    forall sb lo hi f V, p = M_CommandLine.Advection -> b = BScalar sb -> (forall x, ia (sb_domain sb) <= x <= ib (sb_domain sb) -> lo <= sb_initial sb x <= hi) -> (forall v, in_range lo hi v -> finite v = true) ->
    repeats (sb_domain sb) f -> (forall x, ia (sb_domain sb) <= x < ib (sb_domain sb) -> sb_initial sb x = f x) -> varies (sb_domain sb) V f ->
    Forall2 (fun r o => first_order r -> (exists t v, object_shows o t v) /\ forall t v, object_shows o t v ->
      let passed := t - sb_start sb in
      let h := width (sb_domain sb) r in
      0 <= passed /\ length v = mesh_asked r /\ area h v (moved f passed) (place (sb_domain sb) r) <= V * (sqrt (passed * h) + 13 / 10 * h)) rs objects.
Proof.
  intros parse_int parse_float net net2 newton moving_height random_waves drawn splitext eig ls old finite finite2 line n objects e HE1 HE Fin E.
  destruct (calculated_inv parse_int parse_float net net2 newton moving_height random_waves drawn splitext eig ls old finite finite2 line n objects e Fin E) as [p [b [rs [ss [A [M [S _]]]]]]].
  exists p, b, rs. split; [exact A|]. intros sb lo hi f V -> -> Hu HF HR HI VR. destruct (asked_proper parse_int parse_float net net2 newton moving_height random_waves drawn splitext line _ _ rs A) as [PR [_ WW]].
  destruct (setting M_CommandLine.Advection _ PR ltac:(discriminate)) as [sb' [X [Hs Hn]]]. injection X as <-.
  destruct (solve_all_spec finite finite2 n ss objects e S) as [F _]. cbn [is_swe] in WW.
  refine (through _ _ _ _ _ _ _ _ WW M F). intros r s o W Ms HO HB. split.
  - destruct (variation_one parse_int parse_float net net2 newton moving_height random_waves drawn splitext eig ls old finite finite2 M_CommandLine.Advection sb r s n o lo hi HE HE1 Hs Hn W) as [v [Sv _]]; auto.
    { destruct r as [[k ws] wss]. unfold never_wavier, first_order in *. destruct HB as [Hc [Hk|[Hk H3]]]; [left; split; [reflexivity|left; auto]|right; split; [left; auto|lia]]. }
    destruct o as [[c w]| | |]; try discriminate Sv. exists (w_sol_time w), (w_mem w (w_sol w)). left. auto.
  - intros t v SH. exact (area_one parse_int parse_float net net2 newton moving_height random_waves drawn splitext eig ls old finite finite2 sb r s n o lo hi f V t v HE HE1 Hs Hn W HB Hu HF HR HI VR Ms HO SH).
Qed.
Print Assumptions C92_calculated_area.
