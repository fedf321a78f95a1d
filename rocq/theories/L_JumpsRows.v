(** Lemmas: the errors in the tables of eoc for advection data with jumps. *)
From Coq Require Import String Ascii Reals List Arith ZArith Bool Lia Lra Psatz.
From Verif Require Import Prelude L_Prelude M_Mesh L_Mesh M_Norm S_Norm L_Norm P_Norm M_FE M_Quadrature S_Quadrature M_Interpolate M_Boundary L_Boundary S_Boundary M_Flux L_Flux
  M_ODE S_ODE M_TimeStepping L_TimeStepping M_Solution M_Solver S_Solver L_Solver M_Generate M_Scalar S_Scalar L_Scalar M_ShallowWater S_ShallowWater M_FVSolver S_FVSolver L_FVSolver
  M_Benchmark P_Benchmark M_ScalarSolver S_ScalarSolver M_Misc P_FVWater P_FVLake P_ScalarSolver S_FE L_Lagrange L_FE P_FE S_FELow L_FELow P_FELow P_FERun P_FESolver M_Command M_Series M_Parser S_Parser M_CommandLine S_CommandLine S_CommandRun P_FEMatrix S_Solve S_FESolver
  P_CommandCalc L_FERates L_Variation P_VariationFE P_VariationLine S_Convergence S_ConvergenceLine P_Convergence P_ConvergenceFE P_ConvergenceLine P_ConvergenceBench M_EOC S_EOC L_EOC S_Jumps L_Jumps L_Hills P_JumpsBench.
Import ListNotations.
Open Scope R_scope.
Notation length := List.length.

Lemma unit_cell n c : unif_cell unit_interval n c = {| ia := 0 + INR c * (1 / INR n); ib := 0 + INR (S c) * (1 / INR n) |}.
Proof. unfold unif_cell, ilength. cbn [unit_interval ia ib]. replace ((1 - 0) / INR n) with (1 / INR n) by (f_equal; lra). reflexivity. Qed.

Section Norms.
Context (eig : nat -> (nat -> nat -> R) -> (nat -> R) * (nat -> nat -> R)) (n : nat) (m : mesh).
Hypothesis Hn : (0 < n)%nat.
Hypothesis Em : new_mesh unit_interval n = Ok m.
Let h := 1 / INR n.

Lemma cell_sum_points Q g : length (q_weights Q) = length (q_nodes Q) ->
  cell_sum Q m g = rsum (tab (length (q_nodes Q)) (fun j => nth j (q_weights Q) 0 * (h * rsum (tab n (fun c => g c (affine (nth j (q_nodes Q) 0) (unif_cell unit_interval n c))))))).
Proof.
  intro LW. destruct (mesh_cells unit_interval n m Hn ltac:(cbn; lra) Em) as [M1 [M2 M3]]. rewrite cell_sum_tab by exact LW. rewrite M1.
  transitivity (rsum (tab n (fun c => rsum (tab (length (q_nodes Q)) (fun j => nth j (q_weights Q) 0 * (h * g c (affine (nth j (q_nodes Q) 0) (unif_cell unit_interval n c)))))))).
  - f_equal. apply tab_ext. intros c Hc. assert (X : nth c (m_cells m) dcell = unif_cell unit_interval n c) by (rewrite M2; apply nth_tab; exact Hc). rewrite X.
    replace (ilength (unif_cell unit_interval n c)) with h by (rewrite unit_cell; unfold ilength; cbn [ia ib]; rewrite S_INR; fold h; ring).
    rewrite <- rsum_tab_scal. f_equal. apply tab_ext. intros j _. ring.
  - rewrite rsum_tab_swap. f_equal. apply tab_ext. intros j _. rewrite rsum_tab_scal. f_equal. apply rsum_tab_scal.
Qed.

(** errors whose areas on every choice of points are small *)
Lemma jump_norms degree f W A : eig_works eig degree -> (forall c x, (c < n)%nat -> ia (unif_cell unit_interval n c) <= x <= ib (unif_cell unit_interval n c) -> Rabs (f c x) <= W) ->
  (forall y, 0 <= y <= 1 -> h * rsum (tab n (fun c => Rabs (f c (affine y (unif_cell unit_interval n c))))) <= A) ->
  exists e1 e2 e3, l1norm eig degree m f = Ok e1 /\ l2norm eig degree m f = Ok e2 /\ linfnorm None m f = Ok e3 /\ 0 <= e1 <= A /\ 0 <= e2 <= sqrt (W * e1) /\ 0 <= e3 <= W.
Proof.
  intros HE HF HA. destruct (norms_between eig unit_interval n m Hn ltac:(cbn; lra) Em degree f W HE HF) as [e1 [e2 [e3 [E1 [E2 [E3 [B1 [B2 B3]]]]]]]]. exists e1, e2, e3. split; [exact E1|]. split; [exact E2|]. split; [exact E3|].
  destruct (rule_of eig degree HE) as [Q [EQ [_ [LW [NQ [WQ [SQ _]]]]]]]. rewrite (l1_value eig degree m Q f EQ) in E1. rewrite (l2_value eig degree m Q f EQ) in E2. apply Ok_inj in E1, E2.
  assert (V : forall j, (j < length (q_nodes Q))%nat -> 0 < nth j (q_weights Q) 0 /\ 0 < nth j (q_nodes Q) 0 < 1) by (intros j Hj; split; [apply WQ, nth_In; lia|apply NQ, nth_In; exact Hj]).
  assert (Hh : 0 < h) by (apply Rdiv_lt_0_compat; [lra|apply lt_0_INR; lia]).
  split; [split; [lra|]|split; [|exact B3]].
  - rewrite <- E1, cell_sum_points by exact LW. apply Rle_trans with (rsum (tab (length (q_nodes Q)) (fun j => A * nth j (q_weights Q) 0))).
    + apply rsum_tab_le. intros j Hj. destruct (V j Hj) as [V1 V2]. pose proof (HA (nth j (q_nodes Q) 0) ltac:(lra)). nra.
    + rewrite rsum_tab_scal, <- LW, <- list_tab, SQ. lra.
  - split; [lra|]. rewrite <- E2, <- E1. apply sqrt_le_1_alt. rewrite !cell_sum_points by exact LW. rewrite <- rsum_tab_scal. apply rsum_tab_le. intros j Hj. destruct (V j Hj) as [V1 V2].
    match goal with |- _ <= W * (?w * (h * ?s)) => replace (W * (w * (h * s))) with (w * (h * (W * s))) by ring end. apply Rmult_le_compat_l; [lra|]. apply Rmult_le_compat_l; [lra|].
    rewrite <- rsum_tab_scal. apply rsum_tab_le. intros c Hc. set (x := affine _ _). assert (X : Rabs (f c x) <= W).
    { apply HF; [exact Hc|]. unfold x. rewrite unit_cell. unfold affine, ilength. cbn [ia ib]. rewrite S_INR. fold h. nra. }
    rewrite <- pow2_abs. pose proof (Rabs_pos (f c x)). nra.
Qed.
End Norms.

Section Rows.
Context (eig : nat -> (nat -> nat -> R) -> (nat -> R) * (nat -> nat -> R)) (linear_solver : M_Misc.mat -> list R -> list R) (old : nat -> R).
Context (finite : list R -> bool) (finite2 : list state -> bool).
Hypothesis HE1 : eig_ok eig 1.
Hypothesis HE2 : eig_ok eig 2.
Hypothesis HF : forall v, in_range (-1) 1 v -> finite v = true.

Lemma jump_three exact sp t v n W A : (0 < n)%nat -> new_mesh unit_interval n = Ok (mesh_in sp) -> (norm_degree sp = None \/ norm_degree sp = Some 2%nat) ->
  (forall c x, (c < n)%nat -> INR c * (1 / INR n) <= x <= INR (S c) * (1 / INR n) -> Rabs (exact x - value_in sp v c x) <= W) ->
  (forall y, 0 <= y <= 1 -> 1 / INR n * rsum (tab n (fun c => Rabs (exact ((INR c + y) * (1 / INR n)) - value_in sp v c ((INR c + y) * (1 / INR n))))) <= A) ->
  exists e1 e2 e3, errors_at eig exact sp t v = Ok [e1; e2; e3] /\ 0 <= e1 <= A /\ 0 <= e2 <= sqrt (W * e1) /\ 0 <= e3 <= W.
Proof.
  intros Hn Em Dg HW HA.
  destruct (jump_norms eig n (mesh_in sp) Hn Em (norm_degree sp) (fun c x => exact x - value_in sp v c x) W A) as [e1 [e2 [e3 [E1 [E2 [E3 B]]]]]].
  { unfold eig_works. destruct Dg as [-> | ->]; cbn [or_default]; [exact HE1|exact HE2]. }
  { intros c x Hc Hx. apply HW; [exact Hc|]. rewrite unit_cell in Hx. cbn [ia ib] in Hx. lra. }
  { intros y Hy. eapply Rle_trans; [|exact (HA y Hy)]. right. do 2 f_equal. apply tab_ext. intros c _. rewrite unit_cell. unfold affine, ilength. cbn [ia ib]. rewrite S_INR.
    replace ((0 + (INR c + 1) * (1 / INR n) - (0 + INR c * (1 / INR n))) * y + (0 + INR c * (1 / INR n))) with ((INR c + y) * (1 / INR n)) by ring. reflexivity. }
  exists e1, e2, e3. unfold errors_at, error_calculator. rewrite E1, E2, E3. cbn [bind snd]. split; [reflexivity|exact B].
Qed.
Lemma exact_range u0 lo x t : (forall x, lo <= u0 x <= 1) -> lo <= advection_exact u0 x t <= 1.
Proof. intro H. unfold advection_exact. apply H. Qed.
Lemma exact_later u0 x t T : advection_exact u0 x T = advection_exact u0 (x + (t - T)) t.
Proof. rewrite <- !line_moved. unfold moved. f_equal. ring. Qed.

Lemma jump_fv_row u0 V lo T n cfl : hills u0 V lo -> (0 < n)%nat -> 0 < cfl <= 1 -> 1 / 10 ^ 12 <= T -> 1 / 10 ^ 12 <= 1 / INR n * cfl ->
  exists N, forall k, (N <= k)%nat -> good_row eig linear_solver old finite finite2 (jump_errors V (1 - lo) T n) u0 T n (ScalarFV SLLF (fv n cfl None false)) k.
Proof.
  intros Hu Hn HC HT HS. set (a := fv n cfl None false). set (b := advection_benchmark u0 T). destruct (hills_data u0 V lo Hu) as [HV [Hb Hlo]].
  assert (V0 : 0 <= V) by (apply (varies_nonneg unit_interval V (line_data u0)); [cbn; lra|exact HV]).
  assert (Om : or_default (a_mesh_size a) default_mesh_size = n) by (cbn; destruct n; [lia|reflexivity]).
  assert (Py : py_or (a_cfl a) default_cfl = cfl) by (cbn [a fv a_cfl]; unfold py_or; destruct (Reqb_spec cfl 0); [lra|reflexivity]).
  assert (HM : ssp_method (a_ode a)) by (intros X Y; discriminate Y). assert (Pn : 0 < INR n) by (apply lt_0_INR; lia). set (h := 1 / INR n) in *. assert (Hh : 0 < h) by (apply Rdiv_lt_0_compat; lra).
  assert (HF' : forall v, in_range lo 1 v -> finite v = true). { intros v Hv. apply HF. intros x Hx. specialize (Hv x Hx). lra. }
  assert (Tl : 0 < 1 / 10 ^ 12) by lra. set (dt := h * cfl). assert (Hd : 0 < dt) by (unfold dt; nra).
  destruct (natural_above (T / dt)) as [N HN]. assert (HN' : T < INR N * dt). { apply (Rmult_lt_compat_r dt) in HN; [|exact Hd]. unfold Rdiv in HN. rewrite Rmult_assoc, Rinv_l, Rmult_1_r in HN by lra. exact HN. }
  exists (S N). intros k Hk. destruct k as [|k]; [lia|]. assert (Hk' : T < INR k * dt). { eapply Rlt_le_trans; [exact HN'|]. apply Rmult_le_compat_r; [lra|]. apply le_INR. lia. }
  destruct (C92_advection_benchmarks eig finite u0 V lo T a [Solve (S k)] HE2 Hu HM ltac:(rewrite Py; exact HC) HF') as [c [w [E X]]].
  { intros v t [Q|[]]. discriminate Q. }
  rewrite Om in X. fold h in X. change (advection_benchmark u0 T) with b in E.
  assert (HD : ia (sb_domain b) < ib (sb_domain b)) by (cbn; lra).
  assert (Lw : length (o_sol (solution_of w)) = n) by (rewrite (first_values eig SLLF b a c w n HE2 HD E Om Hn); apply tab_length).
  destruct (C69_run_completes eig finite SLLF b a M_Scalar.Advection lo 1 c w k HE2 HD eq_refl) as [w' [s' [Ew [Et [_ Er]]]]]; auto.
  { left. reflexivity. }
  { split; [intros x _; apply Hb|]. cbn. intros [Q|[]]. discriminate Q. }
  { cbn. exact I. }
  { rewrite Py. lra. }
  { rewrite Py. cbn [max_speed cells_per_step]. lra. }
  { rewrite Lw, Py. cbn. replace ((1 - 0) / INR n) with h by (unfold h; f_equal; lra). exact HS. }
  { rewrite Lw, Py. cbn [b advection_benchmark sb_end sb_start sb_domain unit_interval ia ib]. replace ((1 - 0) / INR n) with h by (unfold h; f_equal; lra). fold dt. lra. }
  cbn [b advection_benchmark sb_end] in Et. set (t := w_sol_time w') in *. set (v := w_mem w' (w_sol w')). change (o_time (solution_of w')) with t in Et. change (in_range lo 1 v) in Er.
  destruct (X t v) as [T0 [Lv Y]]. { rewrite use_solve1, Ew. left. auto. }
  pose proof (new_mesh_ok unit_interval n Hn ltac:(cbn; lra)) as Em. set (m := {| m_domain := unit_interval; m_cells := _; m_step := _ |}) in Em.
  destruct (jump_three (fun x => advection_exact u0 x T) (FVSpace m) t v n (1 - lo) (V * (sqrt (T * h) + 9 / 5 * h + 1 / 10 ^ 12)) Hn Em (or_introl eq_refl)) as [e1 [e2 [e3 [Ee Be]]]].
  { intros i x Hi _. cbn [value_in]. unfold fv_element. pose proof (exact_range u0 lo x T Hb). pose proof (Er (nth i v 0) ltac:(apply nth_In; lia)). apply Rabs_le. lra. }
  { intros y Hy. fold h. pose proof (Y ((y - 1 / 2) * h + (t - T))) as Q. unfold area in Q. rewrite Lv in Q.
    eapply Rle_trans; [|eapply Rle_trans; [exact Q|]].
    - right. do 2 f_equal. apply tab_ext. intros i _. cbn [value_in]. unfold fv_element. rewrite Rabs_minus_sym, (exact_later u0 _ t T). do 3 f_equal. ring.
    - apply Rmult_le_compat_l; [exact V0|]. assert (sqrt (t * h) <= sqrt (T * h)) by (apply sqrt_le_1_alt; nra). assert (Rabs ((y - 1 / 2) * h + (t - T)) <= h / 2 + 1 / 10 ^ 12) by (apply Rabs_le; nra). lra. }
  exists (Scalar (c, w)), (Scalar (c, w')), t, v, (FVSpace m), [e1; e2; e3]. cbn [construct]. change (advection_benchmark u0 T) with b. rewrite E. cbn [bind solve_any solution_in]. rewrite Ew. cbn [exception_of]. split; [reflexivity|]. split; [reflexivity|]. split; [reflexivity|].
  split; [exact Lv|]. split; [cbn [space_of]; rewrite Om; change (sb_domain b) with unit_interval; rewrite Em; reflexivity|]. split; [exact Ee|]. split; [reflexivity|]. exists e1, e2, e3. split; [reflexivity|exact Be].
Qed.

Lemma jump_fe_row u0 V lo T n cfl M ad : hills u0 V lo -> (3 <= n)%nat -> 0 < cfl <= 1 -> 1 / 10 ^ 12 <= T -> 1 / 10 ^ 12 <= 1 / INR n * cfl / 2 -> In M [euler; heun; ssp3] ->
  exists N, forall k, (N <= k)%nat -> good_row eig linear_solver old finite finite2 (jump_errors V (1 - lo) T n) u0 T n (ScalarFE (FLow ad) (fe n cfl (Some M) false)) k.
Proof.
  intros Hu Hn HC HT HS HMM. set (a := fe n cfl (Some M) false). set (b := advection_benchmark u0 T). destruct (hills_data u0 V lo Hu) as [HV [Hb Hlo]].
  assert (V0 : 0 <= V) by (apply (varies_nonneg unit_interval V (line_data u0)); [cbn; lra|exact HV]).
  assert (Om : used_cells a = n) by (cbn; destruct n; [lia|reflexivity]). assert (Od : used_degree a = 1%nat) by reflexivity.
  assert (Py : py_or (f_cfl a) default_cfl = cfl) by (cbn [a fe f_cfl]; unfold py_or; destruct (Reqb_spec cfl 0); [lra|reflexivity]).
  assert (HM : ssp_method (f_ode a)) by (intros X Y; injection Y as <-; cbn in HMM; cbn; tauto). assert (Pn : 0 < INR n) by (apply lt_0_INR; lia). set (h := 1 / INR n) in *. assert (Hh : 0 < h) by (apply Rdiv_lt_0_compat; lra).
  assert (Eh : h * INR n = 1) by (unfold h; field; lra).
  assert (HF' : forall v, in_range lo 1 v -> finite v = true). { intros v Hv. apply HF. intros x Hx. specialize (Hv x Hx). lra. }
  assert (Tl : 0 < 1 / 10 ^ 12) by lra. set (dt := Rmin T (h * cfl / 2)). assert (Hd : 1 / 10 ^ 12 <= dt) by (unfold dt; apply Rmin_glb; lra). assert (Hd1 : dt <= T) by apply Rmin_l. assert (Hd2 : dt <= h * cfl / 2) by apply Rmin_r.
  destruct (natural_above (T / dt)) as [N HN]. assert (HN' : T < INR N * dt). { apply (Rmult_lt_compat_r dt) in HN; [|lra]. unfold Rdiv in HN. rewrite Rmult_assoc, Rinv_l, Rmult_1_r in HN by lra. exact HN. }
  exists (S N). intros k Hk. destruct k as [|k]; [lia|]. assert (Hk' : T < INR k * dt). { eapply Rlt_le_trans; [exact HN'|]. apply Rmult_le_compat_r; [lra|]. apply le_INR. lia. }
  destruct (C92_element_benchmarks eig linear_solver old finite ad u0 V lo T a [Solve (S k)] HE1 HE2 Hu HM Od ltac:(rewrite Om; exact Hn) ltac:(rewrite Py; exact HC) HF') as [c [w [E X]]].
  { intros v t [Q|[]]. discriminate Q. }
  rewrite Om in X. fold h in X. change (advection_benchmark u0 T) with b in E.
  assert (HD : ia (sb_domain b) < ib (sb_domain b)) by (cbn; lra).
  destruct (fe_solver_inv eig linear_solver old (FLow ad) b a c w E) as [m [s [_ [_ [Em [Es _]]]]]]. rewrite Om in Em. rewrite Od in Es. change (sb_domain b) with unit_interval in Em.
  pose proof (element_values eig linear_solver old (FLow ad) b a c w n E HD (or_introl eq_refl) Om Od) as St.
  assert (Hw : forall x, In x (o_sol (solution_of w)) -> lo <= x <= 1). { rewrite St. intros z Hz. apply (In_nth _ _ 0) in Hz as [i [Hi <-]]. rewrite tab_length in Hi. rewrite nth_tab by auto. apply Hb. }
  assert (Lw : length (o_sol (solution_of w)) = fs_dimension s). { rewrite St, tab_length. symmetry. rewrite (s_dim unit_interval n m 1 s ltac:(lia) HD ltac:(lia) Em Es). lia. }
  destruct (C39_low_order_succeeds eig unit_interval n m 1 s M_FE.Advection (o_sol (solution_of w)) ltac:(lia) HD Em Es HE1 HE2 ltac:(lia) Lw) as [_ [step [_ [Est _]]]].
  pose proof (low_step_value eig unit_interval n m s _ step Hn HD Em Es HE1 HE2 Est) as AL.
  destruct (C71_run_completes eig linear_solver old finite (FLow ad) b a M_FE.Advection c w m s lo 1 step dt k) as [w' [s' [Ew [Et [_ Er]]]]]; auto.
  { eexists. left. reflexivity. }
  { rewrite Om. exact Em. }
  { rewrite Om. lia. }
  { rewrite Od. lia. }
  { rewrite Py. lra. }
  { rewrite Py. cbn [cfl_condition]. lra. }
  { intros v [_ Hv]. apply HF'. intros x Hx. apply (Hv lo 1); auto. }
  { rewrite Py. cbn [top_speed]. destruct step as [x|]; [|exact I]. cbn [step_allows] in *. cbn [unit_interval ia ib] in AL. replace ((1 - 0) / INR n) with h in AL by (unfold h; f_equal; lra).
    rewrite Rmult_1_r. eapply Rle_trans; [|exact AL]. apply (Rmult_le_reg_r cfl); [lra|]. unfold Rdiv at 1. rewrite Rmult_assoc, Rinv_l by lra. lra. }
  { cbn. lra. }
  { cbn. lra. }
  specialize (Er lo 1 Hw).
  cbn [b advection_benchmark sb_end] in Et. set (t := w_sol_time w') in *. set (v := w_mem w' (w_sol w')). change (o_time (solution_of w')) with t in Et. change (o_sol (solution_of w')) with v in Er.
  destruct (X t v) as [T0 [Lv Y]]. { rewrite use_solve1, Ew. left. auto. }
  assert (Cell : forall i x, (i < n)%nat -> INR i * h <= x <= INR (S i) * h -> exists y, 0 <= y <= 1 /\ (INR i + y) * h = x /\ value_in (FESpace s) v i x = (1 - y) * nth i v 0 + y * nth (S i mod n) v 0).
  { intros i x Hi Hx. cbn [value_in]. destruct (linear_element unit_interval n m s v i x ltac:(lia) HD Em Es Hi) as [y [Hy [Q1 Q2]]].
    { rewrite unit_cell. fold h. cbn [ia ib]. lra. }
    exists y. split; [exact Hy|]. split; [|exact Q2]. rewrite <- Q1, unit_cell. fold h. unfold affine, ilength. cbn [ia ib]. rewrite S_INR. ring. }
  assert (Ms : mesh_in (FESpace s) = m /\ norm_degree (FESpace s) = Some 2%nat) by (rewrite (s_val unit_interval n m 1 s ltac:(lia) HD ltac:(lia) Em Es); split; reflexivity). destruct Ms as [Ms Mn].
  assert (Val : forall i, (i < n)%nat -> lo <= nth i v 0 <= 1) by (intros i Hi; apply Er, nth_In; lia).
  destruct (jump_three (fun x => advection_exact u0 x T) (FESpace s) t v n (1 - lo) (V * (sqrt (T * h) + 9 / 5 * h + 1 / 10 ^ 12)) ltac:(lia) ltac:(rewrite Ms; exact Em) (or_intror Mn)) as [e1 [e2 [e3 [Ee Be]]]].
  { intros i x Hi Hx. fold h in Hx. destruct (Cell i x Hi Hx) as [y [Hy [_ ->]]]. pose proof (exact_range u0 lo x T Hb). pose proof (Val i Hi). pose proof (Val (S i mod n)%nat ltac:(apply Nat.mod_upper_bound; lia)). apply Rabs_le. nra. }
  { intros y Hy. fold h. set (R1 := h * rsum (tab n (fun i => Rabs (nth i v 0 - advection_exact u0 (INR i * h + (y * h + (t - T))) t)))).
    set (R2 := h * rsum (tab n (fun i => Rabs (nth i v 0 - advection_exact u0 (INR i * h + ((y - 1) * h + (t - T))) t)))).
    assert (Q1 : R1 <= V * (sqrt (t * h) + h + Rabs (y * h + (t - T)))). { pose proof (Y (y * h + (t - T))) as Q. unfold area in Q. rewrite Lv in Q. exact Q. }
    assert (Q2 : R2 <= V * (sqrt (t * h) + h + Rabs ((y - 1) * h + (t - T)))). { pose proof (Y ((y - 1) * h + (t - T))) as Q. unfold area in Q. rewrite Lv in Q. exact Q. }
    assert (Q3 : h * rsum (tab n (fun i => Rabs (advection_exact u0 ((INR i + y) * h) T - value_in (FESpace s) v i ((INR i + y) * h)))) <= (1 - y) * R1 + y * R2).
    { set (g := fun i => Rabs (nth (i mod n) v 0 - advection_exact u0 (INR i * h + ((y - 1) * h + (t - T))) t)).
      assert (Sh : rsum (tab n (fun i => g (S i))) = rsum (tab n (fun i => Rabs (nth i v 0 - advection_exact u0 (INR i * h + ((y - 1) * h + (t - T))) t)))).
      { rewrite rsum_shift.
        - f_equal. apply tab_ext. intros i Hi. unfold g. rewrite Nat.mod_small by exact Hi. reflexivity.
        - unfold g. rewrite Nat.mod_same, Nat.mod_0_l by lia. rewrite <- !line_moved. unfold moved. replace (INR n * h + ((y - 1) * h + (t - T)) - t) with (INR 0 * h + ((y - 1) * h + (t - T)) - t + IZR 1) by (cbn [INR]; lra). rewrite line_data_Z. reflexivity. }
      unfold R1, R2. rewrite <- Sh.
      replace ((1 - y) * (h * rsum (tab n (fun i => Rabs (nth i v 0 - advection_exact u0 (INR i * h + (y * h + (t - T))) t)))) + y * (h * rsum (tab n (fun i => g (S i)))))
        with (h * rsum (tab n (fun i => (1 - y) * Rabs (nth i v 0 - advection_exact u0 (INR i * h + (y * h + (t - T))) t) + y * g (S i)))) by (rewrite rsum_tab_plus, !rsum_tab_scal; ring).
      apply Rmult_le_compat_l; [lra|]. apply rsum_tab_le. intros i Hi. destruct (Cell i ((INR i + y) * h) Hi) as [y' [_ [Ey ->]]]; [rewrite S_INR; nra|].
      assert (y' = y) by (apply (Rmult_eq_reg_r h); lra). subst y'. unfold g. rewrite (exact_later u0 ((INR i + y) * h) t T). rewrite S_INR.
      replace ((INR i + 1) * h + ((y - 1) * h + (t - T))) with ((INR i + y) * h + (t - T)) by ring. replace (INR i * h + (y * h + (t - T))) with ((INR i + y) * h + (t - T)) by ring.
      set (z := advection_exact u0 _ t). replace (z - ((1 - y) * nth i v 0 + y * nth (S i mod n) v 0)) with ((1 - y) * (z - nth i v 0) + y * (z - nth (S i mod n) v 0)) by ring.
      eapply Rle_trans; [apply Rabs_triang|]. rewrite !Rabs_mult, (Rabs_right (1 - y)), (Rabs_right y) by lra. rewrite (Rabs_minus_sym z), (Rabs_minus_sym z). lra. }
    eapply Rle_trans; [exact Q3|]. assert (sqrt (t * h) <= sqrt (T * h)) by (apply sqrt_le_1_alt; nra).
    assert (A1 : Rabs (y * h + (t - T)) <= y * h + 1 / 10 ^ 12) by (apply Rabs_le; nra). assert (A2 : Rabs ((y - 1) * h + (t - T)) <= (1 - y) * h + 1 / 10 ^ 12) by (apply Rabs_le; nra).
    assert (A3 : (1 - y) * R1 <= (1 - y) * (V * (sqrt (T * h) + h + y * h + 1 / 10 ^ 12))). { apply Rmult_le_compat_l; [lra|]. eapply Rle_trans; [exact Q1|]. apply Rmult_le_compat_l; lra. }
    assert (A4 : y * R2 <= y * (V * (sqrt (T * h) + h + (1 - y) * h + 1 / 10 ^ 12))). { apply Rmult_le_compat_l; [lra|]. eapply Rle_trans; [exact Q2|]. apply Rmult_le_compat_l; lra. }
    eapply Rle_trans; [apply (Rplus_le_compat _ _ _ _ A3 A4)|].
    replace ((1 - y) * (V * (sqrt (T * h) + h + y * h + 1 / 10 ^ 12)) + y * (V * (sqrt (T * h) + h + (1 - y) * h + 1 / 10 ^ 12))) with (V * (sqrt (T * h) + (1 + 2 * (y * (1 - y))) * h + 1 / 10 ^ 12)) by ring.
    apply Rmult_le_compat_l; [exact V0|]. assert (Yq : y * (1 - y) <= 1 / 4) by (pose proof (Rle_0_sqr (y - 1 / 2)) as Z; unfold Rsqr in Z; lra). nra. }
  exists (Scalar (c, w)), (Scalar (c, w')), t, v, (FESpace s), [e1; e2; e3]. cbn [construct]. change (advection_benchmark u0 T) with b. rewrite E. cbn [bind solve_any solution_in]. rewrite Ew. cbn [exception_of]. split; [reflexivity|]. split; [reflexivity|]. split; [reflexivity|].
  split; [exact Lv|]. split.
  { cbn [space_of]. replace (or_default (f_mesh_size a) default_mesh_size) with n by (cbn; destruct n; [lia|reflexivity]). change (sb_domain b) with unit_interval. rewrite Em. cbn [bind].
    change (or_default (f_degree a) default_polynomial_degree) with 1%nat. rewrite Es. reflexivity. }
  split; [exact Ee|]. split; [reflexivity|]. exists e1, e2, e3. split; [reflexivity|exact Be].
Qed.
End Rows.
