(** C86, continued: the solutions of calculate, from the words to the result. *)
From Coq Require Import String Ascii Reals List Arith ZArith Bool Lia Lra Sorted Classical_Prop.
From Verif Require Import Prelude L_Prelude M_Mesh L_Mesh M_FE M_Quadrature S_Quadrature M_Interpolate M_Boundary S_Boundary M_Flux L_Flux
  M_ODE S_ODE M_TimeStepping L_TimeStepping M_Coarsener L_Coarsener P_Coarsener M_Solution M_Solver S_Solver L_Solver M_Generate M_Scalar S_Scalar L_Scalar M_ShallowWater S_ShallowWater M_FVSolver S_FVSolver L_FVSolver
  M_Benchmark M_ScalarSolver S_ScalarSolver M_Misc P_FVWater P_FVLake P_ScalarSolver P_FESolver M_Command M_Series M_Parser S_Parser P_Parser M_CommandLine S_CommandLine L_CommandLine P_CommandLine P_CommandRun P_CommandMore S_CommandRun L_CommandRun P_FEMatrix S_Solve S_FESolver L_FELinear
  P_CommandCalc S_Variation S_VariationLine P_Variation P_VariationFE.
Import ListNotations.
Open Scope R_scope.
Notation length := List.length.

Section Calc.
Context (parse_int : string -> option Z) (parse_float : string -> option pyfloat) (net net2 : list state -> state).
Context (newton : (R -> R) -> R -> result R) (moving_height : R -> R) (random_waves : Z -> oscillation) (drawn : Z) (splitext : string -> string * string).
Context (eig : nat -> (nat -> nat -> R) -> (nat -> R) * (nat -> nat -> R)) (linear_solver : M_Misc.mat -> list R -> list R) (old : nat -> R).
Context (finite : list R -> bool) (finite2 : list state -> bool).
Notation order_of := (ordered net net2 false).
Notation made := (construct eig linear_solver old).
Notation run := (solve_any finite finite2).
Notation well := (well_written parse_int parse_float net net2).

Lemma element_kind r : well false r -> let '(k, ws, _) := r in
  let a := fe (mesh_asked r) (cfl_asked r) (Some (method_of ws heun)) false in
  (k = CGLow -> exists ad, snd (order_of r) = ScalarFE (FLow ad) a) /\ (k = FEMCL -> exists ad, snd (order_of r) = ScalarFE (FMCL ad) a).
Proof.
  destruct r as [[k ws] wss]. intros [[key K] _]. cbv zeta. split; intros ->; eexists; reflexivity.
Qed.
Lemma element_values k b a c w n : fe_solver eig linear_solver old k b a = Ok (c, w) -> ia (sb_domain b) < ib (sb_domain b) ->
  sb_problem b = "advection"%string \/ sb_problem b = "burgers"%string -> used_cells a = n -> used_degree a = 1%nat ->
  o_sol (solution_of w) = tab n (start_value (sb_initial b) (sb_domain b) n).
Proof.
  intros E HD HP Hn H1. assert (HP' : exists pr, sb_problem b = fe_name pr) by (destruct HP as [-> | ->]; [exists M_FE.Advection|exists M_FE.Burgers]; reflexivity). destruct HP' as [pr HP'].
  destruct (C71_fe_solvers_can_be_built eig linear_solver old k b a pr HD HP') as [c2 [w2 [E2 [_ [L2 V2]]]]]; [intros; lia|].
  rewrite E in E2. apply Ok_inj in E2. injection E2 as <- <-. rewrite Hn, H1, Nat.mul_1_r in *.
  apply (nth_ext _ _ 0 0); [rewrite tab_length; exact L2|]. intros i Hi. rewrite L2 in Hi. rewrite nth_tab by auto. rewrite (V2 i Hi). cbn [INR]. rewrite Rmult_1_r. reflexivity.
Qed.

Lemma variation_one p b r s n o lo hi : eig2_works eig -> eig_ok eig 1 -> scalar_setting b -> sb_problem b = match p with Advection => "advection" | _ => "burgers" end%string -> well false r -> never_wavier p r ->
  (forall x, ia (sb_domain b) <= x <= ib (sb_domain b) -> lo <= sb_initial b x <= hi) -> (forall v, in_range lo hi v -> finite v = true) ->
  made (BScalar b) (snd (order_of r)) = Ok s -> o = s \/ o = fst (run n s) ->
  exists v, values_shown o = Some v /\ length v = mesh_asked r /\ variation v <= variation (start_values b r).
Proof.
  intros HE HE1 HS HN HW HV Hu HF M HO. pose proof HS as [HD [HC HP]]. destruct (mesh_written parse_int parse_float net net2 r (or_intror HW)) as [Pm Pc].
  assert (HB : keeps_bounds p r).
  { destruct r as [[k ws] wss]. unfold never_wavier, keeps_bounds in *. destruct HV as [[Q [[K C]|[K C]]]|[[[K C]|[K C]] H2]]; [left; split; [exact Q|left; auto]|left; split; [exact Q|right; split; [exact K|lra]]|right; auto|right; repeat split; auto; lra]. }
  destruct (bounds_one parse_int parse_float net net2 newton moving_height random_waves drawn splitext eig linear_solver old finite finite2 p b r s n o lo hi HE HE1 HS HN HW HB Hu HF M HO) as [v [Sv [Lv _]]].
  exists v. split; [exact Sv|]. split; [exact Lv|].
  assert (Om : or_default (Some (mesh_asked r)) default_mesh_size = mesh_asked r) by (destruct (mesh_asked r); [lia|reflexivity]).
  assert (Py : py_or (Some (cfl_asked r)) default_cfl = cfl_asked r) by (unfold py_or; destruct (Reqb_spec (cfl_asked r) 0); [lra|reflexivity]).
  pose proof (scalar_kind parse_int parse_float net net2 r HW) as K. pose proof (element_kind r HW) as KE. destruct r as [[k ws] wss]. set (r := (k, ws, wss)) in *. pose proof HW as [_ [W _]]. pose proof (method_asked parse_int parse_float net net2 newton moving_height random_waves drawn splitext ws wss W) as MA.
  assert (FV : forall g T, p = Advection -> bounded_scheme g -> ssp_method T -> cfl_asked r <= calm_cells_per_step g -> snd (order_of r) = ScalarFV g (fv (mesh_asked r) (cfl_asked r) T false) ->
    variation v <= variation (tab (mesh_asked r) (start_average (sb_initial b) (sb_domain b) (mesh_asked r)))).
  { intros g T -> Hg HT Hc Eo. rewrite Eo in M. cbn [construct] in M. inv_bind M. apply Ok_inj in M. subst s. destruct a as [c w].
    destruct (scalar_run finite finite2 c w n o HO) as [us [w' [-> [Ew NR]]]]. cbn [values_shown] in Sv. injection Sv as <-.
    rewrite <- (first_values eig g b _ c w (mesh_asked r) HE HD E Om Pm). rewrite Ew.
    destruct (C86_variation_never_grows eig finite g b (fv (mesh_asked r) (cfl_asked r) T false) M_Scalar.Advection lo hi c w [] us HE HD HN) as [X _]; auto.
    { rewrite HC. cbn. auto. }
    { split; [intros x Hx; apply Hu; lra|]. rewrite HC. intros [H|[]]. discriminate H. }
    { exact I. }
    { cbn [a_cfl fv]. rewrite Py. exact Pc. }
    { cbn [a_cfl fv]. rewrite Py. cbn [max_speed]. lra. }
    { intros ? ? []. } }
  assert (FE : forall kd, bounded_kind kd -> cfl_asked r <= calm_cfl kd -> (2 <= mesh_asked r)%nat -> snd (order_of r) = ScalarFE kd (fe (mesh_asked r) (cfl_asked r) (Some (method_of ws heun)) false) ->
    variation v <= variation (tab (mesh_asked r) (start_value (sb_initial b) (sb_domain b) (mesh_asked r)))).
  { intros kd BK Hc Hm Eo. rewrite Eo in M. cbn [construct] in M. inv_bind M. apply Ok_inj in M. subst s. destruct a as [c w].
    destruct (scalar_run finite finite2 c w n o HO) as [us [w' [-> [Ew NR]]]]. cbn [values_shown] in Sv. injection Sv as <-.
    set (T := Some (method_of ws heun)) in *. set (a := fe (mesh_asked r) (cfl_asked r) T false) in *. assert (Uc : used_cells a = mesh_asked r) by (cbn [a fe used_cells f_mesh_size]; destruct (mesh_asked r); [lia|reflexivity]).
    pose proof (element_values kd b a c w (mesh_asked r) E HD HP Uc eq_refl) as St. rewrite <- St, Ew.
    assert (HP' : exists pr, sb_problem b = fe_name pr) by (destruct HP as [-> | ->]; [exists M_FE.Advection|exists M_FE.Burgers]; reflexivity). destruct HP' as [pr HP'].
    destruct (C86_element_variation_never_grows eig linear_solver old finite kd b a pr c w [] us) as [X _]; auto.
    { intros X EX. injection EX as <-. exact MA. }
    { rewrite Uc. exact Hm. }
    { cbn [a fe f_cfl]. rewrite Py. auto. }
    { intros y [_ Hy]. apply HF. intros x Hx. apply (Hy lo hi); [|exact Hx]. clear - St Hu Pm HD. rewrite St. intros z Hz. apply (In_nth _ _ 0) in Hz as [i [Hi <-]]. rewrite tab_length in Hi. rewrite nth_tab by auto. apply Hu.
      unfold start_value. assert (0 < INR (mesh_asked r)) by (apply lt_0_INR; lia). assert (Q1 : 0 <= INR i <= INR (mesh_asked r)) by (split; [apply pos_INR|apply le_INR; lia]).
      replace (INR i * ((ib (sb_domain b) - ia (sb_domain b)) / INR (mesh_asked r))) with ((ib (sb_domain b) - ia (sb_domain b)) * (INR i / INR (mesh_asked r))) by (field; lra).
      assert (Q2 : 0 <= INR i / INR (mesh_asked r) <= 1). { split; [apply Rmult_le_pos; [lra|left; apply Rinv_0_lt_compat; lra]|]. apply (Rmult_le_reg_r (INR (mesh_asked r))); [lra|]. unfold Rdiv. rewrite Rmult_assoc, Rinv_l by lra. lra. }
      nra. }
    { intros ? ? []. } }
  unfold never_wavier in HV. fold r in HV. 
  assert (SV : start_values b r = tab (mesh_asked r) (match k with CG | CGLow | FEMCL => start_value (sb_initial b) (sb_domain b) (mesh_asked r) | _ => start_average (sb_initial b) (sb_domain b) (mesh_asked r) end)) by reflexivity.
  rewrite SV. clear SV. destruct HV as [[Hp [[Hk Hc]|[Hk Hc]]]|[[[Hk Hc]|[Hk Hc]] Hm]]; rewrite Hk.
  - destruct K as [[Q K]|[[Q K]|[[Q K]|[[Q _]|[[Q|Q] _]]]]]; try congruence. eapply (FV SLLF None); auto; [left; reflexivity|intros T X; discriminate X].
  - destruct K as [[Q K]|[[Q K]|[[Q K]|[[Q _]|[[Q|Q] _]]]]]; try congruence. apply (FV SMCL (Some (method_of ws heun)) Hp (or_intror eq_refl)); [intros T X; injection X as <-; exact MA|exact Hc|exact K].
  - destruct (proj1 KE Hk) as [ad Eo]. apply (FE (FLow ad)); auto. exists ad. auto.
  - destruct (proj2 KE Hk) as [ad Eo]. apply (FE (FMCL ad)); auto. exists ad. auto.
Qed.
End Calc.

(** Whatever the words: the total variation of the values that Lax-Friedrichs, low order and limited solvers with suitable CFL number show after calculate,
    also after an exception and after any number of steps, is at most the one of the initial values on the mesh asked for. *)
Theorem C86_calculated_variation : forall parse_int parse_float net net2 newton moving_height random_waves drawn splitext eig linear_solver old finite finite2 line n objects e,
  eig_ok eig 1 -> eig_ok eig 2 -> finite_words parse_float line ->
  calculate_line parse_int parse_float net net2 newton moving_height random_waves drawn splitext eig linear_solver old finite finite2 n line = Parsed (SolverList objects, e) ->
  exists p b rs, asks parse_int parse_float net net2 newton moving_height random_waves drawn line p b rs /\
    forall sb lo hi, b = BScalar sb -> (forall x, ia (sb_domain sb) <= x <= ib (sb_domain sb) -> lo <= sb_initial sb x <= hi) -> (forall v, in_range lo hi v -> finite v = true) ->
    Forall2 (fun r o => never_wavier p r -> exists v, values_shown o = Some v /\ length v = mesh_asked r /\ variation v <= variation (start_values sb r)) rs objects.
Proof.
  intros parse_int parse_float net net2 newton moving_height random_waves drawn splitext eig ls old finite finite2 line n objects e HE1 HE Fin E.
  destruct (calculated_inv parse_int parse_float net net2 newton moving_height random_waves drawn splitext eig ls old finite finite2 line n objects e Fin E) as [p [b [rs [ss [A [M [S _]]]]]]].
  exists p, b, rs. split; [exact A|]. intros sb lo hi -> Hu HF. destruct (asked_proper parse_int parse_float net net2 newton moving_height random_waves drawn splitext line p _ rs A) as [PR [_ WW]].
  assert (NS : p <> M_CommandLine.Swe). { intros ->. cbn [proper] in PR. destruct PR as [sb' [nl [nr [X _]]]]. discriminate X. }
  destruct (setting p _ PR NS) as [sb' [X [Hs Hn]]]. injection X as <-.
  destruct (solve_all_spec finite finite2 n ss objects e S) as [F _]. replace (is_swe (CCalculate p)) with false in WW by (destruct p; reflexivity || congruence).
  refine (through _ _ _ _ _ _ _ _ WW M F). intros r s o W Ms HO HB.
  exact (variation_one parse_int parse_float net net2 newton moving_height random_waves drawn splitext eig ls old finite finite2 p sb r s n o lo hi HE HE1 Hs Hn W HB Hu HF Ms HO).
Qed.
Print Assumptions C86_calculated_variation.

(** Lines that ask for the Lax-Friedrichs solver without further words meet the conditions (C84_scalar_ex shows that such lines are understood and that
    their data lie between 0 and 1), so do those for the limited solvers with suitable CFL number. *)
Example C86_line_ex : never_wavier M_CommandLine.Advection (ScalarLLF, [MeshSize 20], [["+m"; "20"]%string]) /\ In (ScalarLLF, [MeshSize 20], [["+m"; "20"]%string]) match requests_of hill_wishes with Some rs => rs | None => [] end /\
  never_wavier M_CommandLine.Advection (ScalarMCL, [], []) /\ never_wavier M_CommandLine.Burgers (CGLow, [], []) /\ never_wavier M_CommandLine.Burgers (FEMCL, [Cfl (1 / 2)], [["+cfl"; "0.5"]%string]).
Proof.
  split; [left; split; [reflexivity|]; left; split; [reflexivity|]; cbn [cfl_asked cfl_of chosen]; lra|].
  split; [cbn; auto|]. split; [left; split; [reflexivity|]; right; split; [reflexivity|]; cbn [cfl_asked cfl_of chosen]; lra|].
  split; (right; split; [|cbn [mesh_asked mesh_of chosen]; lia]).
  - left. split; [reflexivity|]. cbn [cfl_asked cfl_of chosen]. lra.
  - right. split; [reflexivity|]. cbn [cfl_asked cfl_of chosen]. lra.
Qed.
