(** C87, continued: errors of the solutions of calculate, from the words to the values. *)
From Coq Require Import String Ascii Reals List Arith ZArith Bool Lia Lra Psatz Sorted Classical_Prop.
From Verif Require Import Prelude L_Prelude M_Mesh L_Mesh M_FE M_Quadrature S_Quadrature M_Interpolate M_Boundary S_Boundary M_Flux L_Flux
  M_ODE S_ODE M_TimeStepping L_TimeStepping M_Coarsener L_Coarsener P_Coarsener M_Solution M_Solver S_Solver L_Solver M_Generate M_Scalar S_Scalar L_Scalar M_ShallowWater S_ShallowWater M_FVSolver S_FVSolver L_FVSolver
  M_Benchmark P_Benchmark M_ScalarSolver S_ScalarSolver M_Misc P_FVWater P_FVLake P_ScalarSolver P_FESolver M_Command M_Series M_Parser S_Parser P_Parser M_CommandLine S_CommandLine L_CommandLine P_CommandLine P_CommandRun P_CommandMore S_CommandRun L_CommandRun P_FEMatrix S_Solve S_FESolver L_FELinear
  P_CommandCalc S_Variation S_VariationLine P_Variation P_VariationFE P_VariationLine S_Convergence S_ConvergenceLine P_Convergence P_ConvergenceFE.
Import ListNotations.
Open Scope R_scope.
Notation length := List.length.

Section Calc.
Context (parse_int : string -> option Z) (parse_float : string -> option pyfloat) (net net2 : list state -> state).
Context (newton : (R -> R) -> R -> result R) (moving_height : R -> R) (random_waves : Z -> oscillation) (drawn : Z) (splitext : string -> string * string).
Context (eig : nat -> (nat -> nat -> R) -> (nat -> R) * (nat -> nat -> R)) (linear_solver : M_Misc.mat -> list R -> list R) (old : nat -> R).
Context (finite : list R -> bool) (finite2 : list state -> bool).
Notation order_of := (ordered net net2 false).
Notation made := (construct eig linear_solver old).
Notation run := (solve_any finite finite2).
Notation well := (well_written parse_int parse_float net net2).

Lemma average_between f D n i lo hi : ia D < ib D -> (i < n)%nat -> (forall x, ia D <= x <= ib D -> lo <= f x <= hi) -> lo <= start_average f D n i <= hi.
Proof.
  intros HD Hi Hu. unfold start_average. set (h := (ib D - ia D) / INR n). assert (Pn : 0 < INR n) by (apply lt_0_INR; lia). assert (Hh : 0 < h) by (apply Rdiv_lt_0_compat; lra).
  assert (Eh : INR n * h = ib D - ia D) by (unfold h; field; lra). assert (Q : 0 <= INR i /\ INR i + 1 <= INR n) by (split; [apply pos_INR|rewrite <- S_INR; apply le_INR; lia]).
  assert (S : 0 <= sqrt (1 / 12) <= 1 / 2). { split; [apply sqrt_pos|]. rewrite <- (sqrt_square (1 / 2)) by lra. apply sqrt_le_1; lra. }
  pose proof (Hu (ia D + (INR i + 1 / 2) * h - h * sqrt (1 / 12)) ltac:(nra)). pose proof (Hu (ia D + (INR i + 1 / 2) * h + h * sqrt (1 / 12)) ltac:(nra)). lra.
Qed.
Lemma error_one b r s n o lo hi f t v : eig2_works eig -> eig_ok eig 1 -> scalar_setting b -> sb_problem b = "advection"%string -> well false r -> first_order r ->
  (forall x, ia (sb_domain b) <= x <= ib (sb_domain b) -> lo <= sb_initial b x <= hi) -> (forall v, in_range lo hi v -> finite v = true) ->
  repeats (sb_domain b) f -> (forall x, ia (sb_domain b) <= x < ib (sb_domain b) -> sb_initial b x = f x) ->
  made (BScalar b) (snd (order_of r)) = Ok s -> o = s \/ o = fst (run n s) -> object_shows o t v ->
  let passed := t - sb_start b in
  let h := width (sb_domain b) r in
  let off_by i := Rabs (nth i v 0 - moved f passed (place (sb_domain b) r i)) in
  0 <= passed /\ length v = mesh_asked r /\
  (forall M, smooth M f -> forall i, (i < mesh_asked r)%nat -> off_by i <= M / 2 * passed * h + M / 24 * (h * h)) /\
  (forall K, lipschitz K f -> forall i, (i < mesh_asked r)%nat -> off_by i <= K * (sqrt (passed * h) + sqrt (1 / 12) * h)).
Proof.
  intros HE HE1 HS HN HW HV Hu HF HR HI M HO SH passed h off_by. pose proof HS as [HD [HC HP]]. destruct (mesh_written parse_int parse_float net net2 r (or_intror HW)) as [Pm Pc].
  assert (Om : or_default (Some (mesh_asked r)) default_mesh_size = mesh_asked r) by (destruct (mesh_asked r); [lia|reflexivity]).
  assert (Py : py_or (Some (cfl_asked r)) default_cfl = cfl_asked r) by (unfold py_or; destruct (Reqb_spec (cfl_asked r) 0); [lra|reflexivity]).
  assert (Hh : 0 <= h). { unfold h, width. apply Rmult_le_pos; [lra|]. left. apply Rinv_0_lt_compat, lt_0_INR. exact Pm. }
  pose proof (scalar_kind parse_int parse_float net net2 r HW) as K. pose proof (element_kind parse_int parse_float net net2 r HW) as KE. destruct r as [[k ws] wss]. set (r := (k, ws, wss)) in *. pose proof HW as [_ [W _]]. pose proof (method_asked parse_int parse_float net net2 newton moving_height random_waves drawn splitext ws wss W) as MA.
  unfold first_order in HV. fold r in HV. destruct HV as [Hc [Hk|[Hk H3]]].
  - destruct K as [[Q Eo]|[[Q Eo]|[[Q Eo]|[[Q _]|[[Q|Q] _]]]]]; try congruence. rewrite Eo in M. cbn [construct] in M. inv_bind M. apply Ok_inj in M. subst s. destruct a as [c w].
    destruct (scalar_run finite finite2 c w n o HO) as [us [w' [-> [Ew NR]]]]. cbn [object_shows] in SH. rewrite Ew in SH.
    assert (SN : side_names (sb_conditions b) "periodic" "periodic") by (rewrite HC; cbn; auto).
    set (a := fv (mesh_asked r) (cfl_asked r) None false) in *.
    assert (HF' : forall v, inherits_bounds (o_sol (solution_of w)) v -> finite v = true).
    { intros y [_ Hy]. apply HF. intros x Hx. apply (Hy lo hi); [|exact Hx]. rewrite (first_values eig SLLF b a c w (mesh_asked r) HE HD E Om Pm). intros z Hz. apply (In_nth _ _ 0) in Hz as [i [Hi <-]]. rewrite tab_length in Hi. rewrite nth_tab by auto.
      apply average_between; auto. }
    assert (HM : ssp_method (a_ode a)) by (intros T X; discriminate X). assert (HC' : 0 < py_or (a_cfl a) default_cfl <= 1) by (cbn [a fv a_cfl]; rewrite Py; lra).
    assert (Pl : forall i, place (sb_domain b) r i = middle (sb_domain b) (mesh_asked r) i) by (intro i; unfold place; subst r; rewrite Hk; reflexivity).
    assert (Q1 : 0 <= passed /\ length v = mesh_asked r).
    { destruct (fv_spread eig finite b a f HE HD HN SN HR HI HM HC' c w us t v E HF' NR SH) as [_ [_ [T0 [Lv _]]]]. cbn [a fv a_mesh_size] in Lv. rewrite Om in Lv. split; [unfold passed; lra|exact Lv]. }
    split; [apply Q1|]. split; [apply Q1|]. split.
    + intros B HB i Hi. destruct (C87_error_of_smooth_solutions eig finite b a f B c w us t v HE HD HN SN HR HI HB HM HC' E HF' NR SH) as [_ [_ X]]. cbn [a fv a_mesh_size] in X. rewrite Om in X.
      unfold off_by. rewrite Pl. exact (X i Hi).
    + intros B HB i Hi. destruct (C87_error_of_rough_solutions eig finite b a f B c w us t v HE HD HN SN HR HI HB HM HC' E HF' NR SH) as [_ [_ X]]. cbn [a fv a_mesh_size] in X. rewrite Om in X.
      unfold off_by. rewrite Pl. exact (X i Hi).
  - destruct (proj1 KE Hk) as [ad Eo]. rewrite Eo in M. cbn [construct] in M. inv_bind M. apply Ok_inj in M. subst s. destruct a as [c w].
    destruct (scalar_run finite finite2 c w n o HO) as [us [w' [-> [Ew NR]]]]. cbn [object_shows] in SH. rewrite Ew in SH.
    set (T := Some (method_of ws heun)) in *. set (a := fe (mesh_asked r) (cfl_asked r) T false) in *. assert (Uc : used_cells a = mesh_asked r) by (cbn [a fe used_cells f_mesh_size]; destruct (mesh_asked r); [lia|reflexivity]).
    pose proof (element_values eig linear_solver old (FLow ad) b a c w (mesh_asked r) E HD HP Uc eq_refl) as St.
    assert (HF' : forall v, inherits_bounds (o_sol (solution_of w)) v -> finite v = true).
    { intros y [_ Hy]. apply HF. intros x Hx. apply (Hy lo hi); [|exact Hx]. clear - St Hu Pm HD. rewrite St. intros z Hz. apply (In_nth _ _ 0) in Hz as [i [Hi <-]]. rewrite tab_length in Hi. rewrite nth_tab by auto. apply Hu.
      unfold start_value. assert (0 < INR (mesh_asked r)) by (apply lt_0_INR; lia). assert (Q1 : 0 <= INR i <= INR (mesh_asked r)) by (split; [apply pos_INR|apply le_INR; lia]).
      replace (INR i * ((ib (sb_domain b) - ia (sb_domain b)) / INR (mesh_asked r))) with ((ib (sb_domain b) - ia (sb_domain b)) * (INR i / INR (mesh_asked r))) by (field; lra).
      assert (Q2 : 0 <= INR i / INR (mesh_asked r) <= 1). { split; [apply Rmult_le_pos; [lra|left; apply Rinv_0_lt_compat; lra]|]. apply (Rmult_le_reg_r (INR (mesh_asked r))); [lra|]. unfold Rdiv. rewrite Rmult_assoc, Rinv_l by lra. lra. }
      nra. }
    destruct (C87_element_error eig linear_solver old finite ad b a f c w us t v HD HN) as [T0 [Lv [X Y]]]; auto.
    { intros X EX. injection EX as <-. exact MA. }
    { rewrite Uc. exact H3. }
    { cbn [a fe f_cfl]. rewrite Py. lra. }
    rewrite Uc in Lv, X, Y. 
    assert (Pl : forall i, place (sb_domain b) r i = ia (sb_domain b) + INR i * h) by (intro i; unfold h, width, place, r; rewrite Hk; reflexivity).
    split; [exact T0|]. split; [exact Lv|]. split.
    + intros B HB i Hi. pose proof (X B HB i Hi) as Z. fold passed in Z. change ((ib (sb_domain b) - ia (sb_domain b)) / INR (mesh_asked r)) with h in Z.
      assert (0 <= B) by (destruct HB as [f1 [f2 [_ [_ HB]]]]; pose proof (HB 0); pose proof (Rabs_pos (f2 0)); lra).
      unfold off_by. rewrite Pl. eapply Rle_trans; [exact Z|]. assert (0 <= B / 24 * (h * h)) by (apply Rmult_le_pos; [lra|nra]). lra.
    + intros B HB i Hi. pose proof (Y B HB i Hi) as Z. fold passed in Z. change ((ib (sb_domain b) - ia (sb_domain b)) / INR (mesh_asked r)) with h in Z.
      assert (0 <= B) by (pose proof (HB 1 0) as Q; rewrite Rminus_0_r, Rabs_R1 in Q; pose proof (Rabs_pos (f 1 - f 0)); lra).
      unfold off_by. rewrite Pl. eapply Rle_trans; [exact Z|]. apply Rmult_le_compat_l; [lra|]. assert (0 <= sqrt (1 / 12) * h) by (apply Rmult_le_pos; [apply sqrt_pos|exact Hh]). lra.
Qed.
End Calc.

(** Whatever the words: for periodic initial data the solutions of the first order solvers after calculate, also after an exception and after any number
    of steps, are as close to the data moved by the time that has passed as the mesh asked for and the smoothness of the data promise. *)
Theorem C87_calculated_error : forall parse_int parse_float net net2 newton moving_height random_waves drawn splitext eig linear_solver old finite finite2 line n objects e,
  eig_ok eig 1 -> eig_ok eig 2 -> finite_words parse_float line ->
  calculate_line parse_int parse_float net net2 newton moving_height random_waves drawn splitext eig linear_solver old finite finite2 n line = Parsed (SolverList objects, e) ->
  exists p b rs, asks parse_int parse_float net net2 newton moving_height random_waves drawn line p b rs /\
    forall sb lo hi f, p = M_CommandLine.Advection -> b = BScalar sb -> (forall x, ia (sb_domain sb) <= x <= ib (sb_domain sb) -> lo <= sb_initial sb x <= hi) -> (forall v, in_range lo hi v -> finite v = true) ->
    repeats (sb_domain sb) f -> (forall x, ia (sb_domain sb) <= x < ib (sb_domain sb) -> sb_initial sb x = f x) ->
    Forall2 (fun r o => first_order r -> (exists t v, object_shows o t v) /\ forall t v, object_shows o t v ->
      let passed := t - sb_start sb in
      let h := width (sb_domain sb) r in
      let off_by i := Rabs (nth i v 0 - moved f passed (place (sb_domain sb) r i)) in
      0 <= passed /\ length v = mesh_asked r /\
      (forall M, smooth M f -> forall i, (i < mesh_asked r)%nat -> off_by i <= M / 2 * passed * h + M / 24 * (h * h)) /\
      (forall K, lipschitz K f -> forall i, (i < mesh_asked r)%nat -> off_by i <= K * (sqrt (passed * h) + sqrt (1 / 12) * h))) rs objects.
Proof.
  intros parse_int parse_float net net2 newton moving_height random_waves drawn splitext eig ls old finite finite2 line n objects e HE1 HE Fin E.
  destruct (calculated_inv parse_int parse_float net net2 newton moving_height random_waves drawn splitext eig ls old finite finite2 line n objects e Fin E) as [p [b [rs [ss [A [M [S _]]]]]]].
  exists p, b, rs. split; [exact A|]. intros sb lo hi f -> -> Hu HF HR HI. destruct (asked_proper parse_int parse_float net net2 newton moving_height random_waves drawn splitext line _ _ rs A) as [PR [_ WW]].
  destruct (setting M_CommandLine.Advection _ PR ltac:(discriminate)) as [sb' [X [Hs Hn]]]. injection X as <-.
  destruct (solve_all_spec finite finite2 n ss objects e S) as [F _]. cbn [is_swe] in WW.
  refine (through _ _ _ _ _ _ _ _ WW M F). intros r s o W Ms HO HB. split.
  - destruct (variation_one parse_int parse_float net net2 newton moving_height random_waves drawn splitext eig ls old finite finite2 M_CommandLine.Advection sb r s n o lo hi HE HE1 Hs Hn W) as [v [Sv _]]; auto.
    { destruct r as [[k ws] wss]. unfold never_wavier, first_order in *. destruct HB as [Hc [Hk|[Hk H3]]]; [left; split; [reflexivity|left; auto]|right; split; [left; auto|lia]]. }
    destruct o as [[c w]| | |]; try discriminate Sv. exists (w_sol_time w), (w_mem w (w_sol w)). left. auto.
  - intros t v SH. exact (error_one parse_int parse_float net net2 newton moving_height random_waves drawn splitext eig ls old finite finite2 sb r s n o lo hi f t v HE HE1 Hs Hn W HB Hu HF HR HI Ms HO SH).
Qed.
Print Assumptions C87_calculated_error.
