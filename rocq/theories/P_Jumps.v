(** C92: data with jumps. The area between the solutions of the first order solvers of the advection equation and the exact solution
    vanishes like the square root of the cell size. *)
From Coq Require Import Reals List ZArith Arith Lia Lra Psatz Bool String.
From Verif Require Import Prelude L_Prelude M_Mesh L_Mesh M_FE M_Quadrature M_Interpolate M_Boundary S_Boundary L_Boundary M_Flux S_Flux L_Flux
  M_ODE S_ODE L_ODE M_TimeStepping L_TimeStepping M_Solution M_Solver S_Solver L_Solver P_Solver M_Generate
  M_Neighbours S_Neighbours L_Neighbours M_Scalar S_Scalar L_Scalar P_Scalar M_ShallowWater L_SWLow M_FVSolver S_FVSolver L_FVSolver P_FVWater P_FVLake P_Quadrature
  M_FEChoice S_FESolver M_Benchmark P_Benchmark M_ScalarSolver S_ScalarSolver L_Invariant P_Boundary P_Flux P_Gauss P_ScalarSolver L_Variation P_FESolver P_FEMatrix S_Solve
  S_Convergence L_Convergence L_Timed P_Convergence P_ConvergenceFE S_Jumps L_Jumps.
Import ListNotations.
Local Open Scope nat_scope.
Open Scope R_scope.
Local Open Scope list_scope.
Notation length := List.length.

Lemma root_12 : 0 < gauss_point <= 3 / 10.
Proof. destruct gauss_point_pos as [G1 G2]. split; [exact G1|]. nra. Qed.

(** The finite volume solver: the values of the cells against the exact solution at points that lie [e] beside the middles, also against the
    solution a moment [- e] later. *)
Theorem C92_area_of_solutions_with_jumps : forall eig finite b a f V c w us t v e, eig2_works eig -> ia (sb_domain b) < ib (sb_domain b) ->
  sb_problem b = names_problem M_Scalar.Advection -> side_names (sb_conditions b) "periodic" "periodic" ->
  repeats (sb_domain b) f -> (forall x, ia (sb_domain b) <= x < ib (sb_domain b) -> sb_initial b x = f x) -> varies (sb_domain b) V f ->
  ssp_method (a_ode a) -> 0 < py_or (a_cfl a) default_cfl <= 1 ->
  scalar_solver eig SLLF b a = Ok (c, w) -> (forall v, inherits_bounds (o_sol (solution_of w)) v -> finite v = true) ->
  (forall v t, ~ In (Reinit v t) us) -> shown (fst (use_run finite c us (w, []))) t v ->
  let n := or_default (a_mesh_size a) default_mesh_size in
  let h := (ib (sb_domain b) - ia (sb_domain b)) / INR n in
  let passed := t - sb_start b in
  0 <= passed /\ length v = n /\ area h v (moved f passed) (fun i => middle (sb_domain b) n i + e) <= V * (sqrt (passed * h) + 13 / 10 * h + Rabs e).
Proof.
  intros eig finite b a f V c w us t v e HE HD Hp SN HR HI HV HM HC E HF NR SH n h passed.
  destruct (fv_spread eig finite b a f HE HD Hp SN HR HI HM HC c w us t v E HF NR SH) as [Hn [Hh [T0 [Lv [u0 [m2 [HW [S V2]]]]]]]]. fold n in Hn, Lv, HW, S, V2. fold h in Hh, HW, S, V2. fold passed in S, V2.
  assert (Hh' : 0 < h) by exact Hh. clear Hh. rename Hh' into Hh.
  split; [unfold passed; lra|]. split; [exact Lv|]. pose proof root_12 as G.
  pose proof (error_area (sb_domain b) V f n (ia (sb_domain b) + h / 2) (h * gauss_point) e u0 (passed / h) m2 v HD Hn HV ltac:(nra) HW S Lv V2) as X. cbv zeta in X. fold h in X.
  replace (passed / h * h * h) with (passed * h) in X by (field; lra). unfold area. rewrite Lv.
  rewrite (tab_ext n _ (fun i => Rabs (nth i v 0 - f (ia (sb_domain b) + h / 2 + INR i * h + e - passed / h * h)))).
  - eapply Rle_trans; [exact X|]. apply Rmult_le_compat_l; [exact (varies_nonneg _ _ _ HD HV)|]. nra.
  - intros i Hi. unfold moved, middle. fold h. do 3 f_equal. field. lra.
Qed.
Print Assumptions C92_area_of_solutions_with_jumps.

(** The low order finite element solver on its nodes. *)
Theorem C92_element_area : forall eig solver old finite ad b a f V c w us t v e, ia (sb_domain b) < ib (sb_domain b) -> sb_problem b = fe_name M_FE.Advection -> ssp_method (f_ode a) ->
  used_degree a = 1%nat -> eig_ok eig 1 -> eig_ok eig 2 -> (3 <= used_cells a)%nat -> 0 < py_or (f_cfl a) default_cfl <= 1 ->
  repeats (sb_domain b) f -> (forall x, ia (sb_domain b) <= x < ib (sb_domain b) -> sb_initial b x = f x) -> varies (sb_domain b) V f ->
  fe_solver eig solver old (FLow ad) b a = Ok (c, w) -> (forall v, inherits_bounds (o_sol (solution_of w)) v -> finite v = true) ->
  (forall v t, ~ In (Reinit v t) us) -> shown (fst (use_run finite c us (w, []))) t v ->
  let n := used_cells a in
  let h := (ib (sb_domain b) - ia (sb_domain b)) / INR n in
  let passed := t - sb_start b in
  0 <= passed /\ length v = n /\ area h v (moved f passed) (fun i => ia (sb_domain b) + INR i * h + e) <= V * (sqrt (passed * h) + h + Rabs e).
Proof.
  intros eig solver old finite ad b a f V c w us t v e HD HP HM H1 HE HE1 H3 HC HR HI HV E HF NR SH n h passed.
  destruct (fe_spread eig solver old finite ad b a f c w us t v HD HP HM H1 HE HE1 H3 HC HR HI E HF NR SH) as [Hh [T0 [Lv [u0 [m2 [HW [S V2]]]]]]].
  assert (Hh' : 0 < h) by exact Hh. clear Hh. rename Hh' into Hh. split; [unfold passed; lra|]. split; [exact Lv|]. fold n in Lv. change ((ib (sb_domain b) - ia (sb_domain b)) / INR (used_cells a)) with h in HW, S, V2. fold passed in S, V2.
  assert (HW' : forall z, at_ u0 z = two_points f 0 (ia (sb_domain b) + IZR z * h)) by (intro z; rewrite two_points_0; apply HW).
  pose proof (error_area (sb_domain b) V f n (ia (sb_domain b)) 0 e u0 (passed / h) m2 v HD ltac:(fold n in H3; lia) HV ltac:(lra) HW' S Lv V2) as X. cbv zeta in X. fold h in X.
  replace (passed / h * h * h) with (passed * h) in X by (field; lra). unfold area. rewrite Lv.
  rewrite (tab_ext n _ (fun i => Rabs (nth i v 0 - f (ia (sb_domain b) + INR i * h + e - passed / h * h)))).
  - eapply Rle_trans; [exact X|]. right. ring.
  - intros i Hi. unfold moved. do 3 f_equal. field. lra.
Qed.
Print Assumptions C92_element_area.

(** With enough cells the area is as small as desired, whatever the options are otherwise: convergence for all data of finite variation. *)
Lemma enough_cells L V T eps : 0 < L -> 0 <= V -> 0 < eps -> exists n0, (0 < n0)%nat /\ forall n p, (n0 <= n)%nat -> p <= T ->
  V * (sqrt (p * (L / INR n)) + 13 / 10 * (L / INR n)) <= eps.
Proof.
  intros HL HV He. set (TT := Rmax 0 T). assert (PT : 0 <= TT) by apply Rmax_l. set (d := eps / (V + 1) / 3). assert (Hd : 0 < d) by (unfold d; repeat apply Rdiv_lt_0_compat; lra).
  set (k := (TT + 1) * L). assert (Hk : 0 < k) by (unfold k; apply Rmult_lt_0_compat; lra).
  destruct (archimed_cor1 (Rmin (d * d / k) (d / L))) as [n1 [N1 N1']].
  { apply Rmin_pos; apply Rdiv_lt_0_compat; try assumption. apply Rmult_lt_0_compat; assumption. }
  pose proof (Rmin_l (d * d / k) (d / L)) as M1. pose proof (Rmin_r (d * d / k) (d / L)) as M2. exists n1. split; [exact N1'|]. intros n p Hn Hp.
  assert (I1 : 0 < INR n1) by (apply lt_0_INR; exact N1'). assert (I : INR n1 <= INR n) by (apply le_INR; exact Hn). assert (J : / INR n <= / INR n1) by (apply Rinv_le_contravar; lra).
  assert (J0 : 0 < / INR n) by (apply Rinv_0_lt_compat; lra). set (h := L / INR n). assert (Hh : 0 < h) by (unfold h; apply Rdiv_lt_0_compat; lra).
  assert (H1 : h <= d). { unfold h. replace d with (L * (d / L)) by (field; lra). unfold Rdiv at 1. apply Rmult_le_compat_l; lra. }
  assert (H2 : p * h <= d * d).
  { assert (p <= TT + 1) by (pose proof (Rmax_r 0 T); unfold TT; lra). apply (Rle_trans _ ((TT + 1) * h)); [apply Rmult_le_compat_r; lra|]. unfold h. replace ((TT + 1) * (L / INR n)) with (k * / INR n) by (unfold k; field; lra).
    replace (d * d) with (k * (d * d / k)) by (field; lra). apply Rmult_le_compat_l; lra. }
  assert (H3 : sqrt (p * h) <= d). { rewrite <- (sqrt_square d) by lra. apply sqrt_le_1_alt. exact H2. }
  apply (Rle_trans _ (V * (3 * d))); [apply Rmult_le_compat_l; lra|]. unfold d. replace (V * (3 * (eps / (V + 1) / 3))) with (eps * (V / (V + 1))) by (field; lra).
  rewrite <- (Rmult_1_r eps) at 2. apply Rmult_le_compat_l; [lra|]. apply (Rmult_le_reg_r (V + 1)); [lra|]. unfold Rdiv. rewrite Rmult_assoc, Rinv_l by lra. lra.
Qed.
Theorem C92_solutions_converge : forall b f V T eps, ia (sb_domain b) < ib (sb_domain b) ->
  sb_problem b = names_problem M_Scalar.Advection -> side_names (sb_conditions b) "periodic" "periodic" ->
  repeats (sb_domain b) f -> (forall x, ia (sb_domain b) <= x < ib (sb_domain b) -> sb_initial b x = f x) -> varies (sb_domain b) V f -> 0 < eps ->
  exists n0, forall n, (n0 <= n)%nat -> let h := (ib (sb_domain b) - ia (sb_domain b)) / INR n in
  (forall eig finite a c w us t v, eig2_works eig -> a_mesh_size a = Some n ->
    ssp_method (a_ode a) -> 0 < py_or (a_cfl a) default_cfl <= 1 ->
    scalar_solver eig SLLF b a = Ok (c, w) -> (forall v, inherits_bounds (o_sol (solution_of w)) v -> finite v = true) ->
    (forall v t, ~ In (Reinit v t) us) -> shown (fst (use_run finite c us (w, []))) t v -> t <= T ->
    length v = n /\ area h v (moved f (t - sb_start b)) (middle (sb_domain b) n) <= eps) /\
  (forall eig solver old finite ad a c w us t v, eig_ok eig 1 -> eig_ok eig 2 -> f_mesh_size a = Some n -> used_degree a = 1%nat ->
    ssp_method (f_ode a) -> 0 < py_or (f_cfl a) default_cfl <= 1 ->
    fe_solver eig solver old (FLow ad) b a = Ok (c, w) -> (forall v, inherits_bounds (o_sol (solution_of w)) v -> finite v = true) ->
    (forall v t, ~ In (Reinit v t) us) -> shown (fst (use_run finite c us (w, []))) t v -> t <= T ->
    length v = n /\ area h v (moved f (t - sb_start b)) (fun i => ia (sb_domain b) + INR i * h) <= eps).
Proof.
  intros b f V T eps HD HP SN HR HI HV He.
  destruct (enough_cells (ib (sb_domain b) - ia (sb_domain b)) V (T - sb_start b) eps ltac:(lra) (varies_nonneg _ _ _ HD HV) He) as [n0 [N0 HN]].
  exists (n0 + 3)%nat. intros n Hn h. split.
  - intros eig finite a c w us t v HE Ha HM HC E HF NR SH Ht. assert (On : or_default (a_mesh_size a) default_mesh_size = n) by (rewrite Ha; destruct n; [lia|reflexivity]).
    destruct (C92_area_of_solutions_with_jumps eig finite b a f V c w us t v 0 HE HD HP SN HR HI HV HM HC E HF NR SH) as [T0 [Lv X]]. rewrite On in *. split; [exact Lv|].
    pose proof (HN n (t - sb_start b) ltac:(lia) ltac:(lra)) as Y. fold h in X, Y. rewrite Rabs_R0, Rplus_0_r in X. unfold area in *. rewrite (tab_ext _ _ (fun i => Rabs (nth i v 0 - moved f (t - sb_start b) (middle (sb_domain b) n i + 0)))); [lra|].
    intros i _. rewrite Rplus_0_r. reflexivity.
  - intros eig solver old finite ad a c w us t v HE HE1 Ha H1 HM HC E HF NR SH Ht. assert (On : used_cells a = n) by (unfold used_cells; rewrite Ha; destruct n; [lia|reflexivity]).
    destruct (C92_element_area eig solver old finite ad b a f V c w us t v 0 HD HP HM H1 HE HE1 ltac:(rewrite On; lia) HC HR HI HV E HF NR SH) as [T0 [Lv X]]. rewrite On in *. split; [exact Lv|].
    pose proof (HN n (t - sb_start b) ltac:(lia) ltac:(lra)) as Y. fold h in X, Y. rewrite Rabs_R0, Rplus_0_r in X. unfold area in *. rewrite (tab_ext _ _ (fun i => Rabs (nth i v 0 - moved f (t - sb_start b) (ia (sb_domain b) + INR i * h + 0)))).
    + assert (0 <= V) by (exact (varies_nonneg _ _ _ HD HV)). assert (0 < h) by (unfold h; apply Rdiv_lt_0_compat; [lra|apply lt_0_INR; lia]). nra.
    + intros i _. rewrite Rplus_0_r. reflexivity.
Qed.
Print Assumptions C92_solutions_converge.
