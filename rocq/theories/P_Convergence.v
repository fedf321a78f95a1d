(** C87: on a periodic domain the Lax-Friedrichs solver of the advection equation converges to the exact solution. *)
From Coq Require Import Reals List ZArith Arith Lia Lra Psatz Bool String.
From Verif Require Import Prelude L_Prelude M_Mesh L_Mesh M_Quadrature M_Interpolate M_Boundary S_Boundary L_Boundary M_Flux S_Flux L_Flux
  M_ODE S_ODE L_ODE M_TimeStepping L_TimeStepping M_Solution M_Solver S_Solver L_Solver P_Solver M_Generate
  M_Neighbours S_Neighbours L_Neighbours M_Scalar S_Scalar L_Scalar P_Scalar M_ShallowWater L_SWLow M_FVSolver S_FVSolver L_FVSolver P_FVWater P_FVLake P_Quadrature
  M_FE M_FEChoice S_FESolver M_Benchmark P_Benchmark M_ScalarSolver S_ScalarSolver L_Invariant P_Boundary P_Flux P_Gauss P_ScalarSolver L_Variation
  S_Convergence L_Convergence L_Timed.
Import ListNotations.
Local Open Scope nat_scope.
Open Scope R_scope.
Local Open Scope list_scope.
Notation length := List.length.

(** ** solvers that take upwind steps *)
Lemma upwind_run finite n h c u0 t0 us t v : upwind n h (c_rhs c) -> (0 < n)%nat -> length u0 = n -> 0 < h -> In (c_tab c) [euler; heun; ssp3] -> quiet_check c ->
  (forall t u, length u = n -> call_generator (c_gen c) (t, u) <= h) -> (forall v, inherits_bounds u0 v -> finite v = true) -> (forall v t, ~ In (Reinit v t) us) ->
  shown (fst (use_run finite c us (new_solver c (fun _ => u0) 1 0 t0, []))) t v ->
  t0 <= t /\ exists m2, spread u0 ((t - t0) / h) m2 v /\ m2 - (t - t0) / h * ((t - t0) / h) <= (t - t0) / h.
Proof.
  intros HU Hn L0 Hh HT HQ HG HF NR SH.
  set (P := fun t v => t0 <= t /\ exists m2, spread u0 ((t - t0) / h) m2 v /\ m2 - (t - t0) / h * ((t - t0) / h) <= (t - t0) / h).
  change (P t v). apply (timed_shown P (fst (use_run finite c us (new_solver c (fun _ => u0) 1 0 t0, [])))); [|exact SH].
  apply (use_timed finite P c) with (m := fun _ => u0) (N := 1%nat).
  - intros t' v' [_ [m2 [S _]]]. apply HF. split; [apply S|]. intros lo hi B. exact (spread_bounds u0 _ m2 v' lo hi ltac:(lia) S B).
  - exact HQ.
  - intros dt o [T0 [m2 [S V]]] D. pose proof tol_pos as TP. assert (Lo : length (o_sol o) = n) by (destruct S; congruence).
    pose proof (HG (o_time o) (o_sol o) Lo) as Hg.
    destruct (upwind_execute n h (c_rhs c) (c_tab c) dt o u0 ((o_time o - t0) / h) m2) as [o' [m2' [E [T1 [S' V']]]]]; auto; [lra|cbn in HT; intuition congruence|].
    exists o'. split; [exact E|]. unfold P. rewrite T1. split; [lra|]. exists m2'.
    replace ((o_time o + dt - t0) / h) with ((o_time o - t0) / h + dt / h) by (field; lra). split; [exact S'|]. lra.
  - exact NR.
  - apply separate_new. lia.
  - apply new_timed; [lia|]. unfold P. split; [lra|]. exists 0. replace ((t0 - t0) / h) with 0 by (field; lra). split; [apply spread_start|]. lra.
Qed.

(** ** the Lax-Friedrichs scheme for the advection equation is the upwind scheme *)
Lemma llf_upwind conds il ir bc n h : side_names conds "periodic" "periodic" -> get_boundary_conditions None conds 1 il ir = Ok bc -> (0 < n)%nat -> 0 < h ->
  upwind n h (fv_rhs (scalar_llf M_Scalar.Advection) h bc).
Proof.
  intros SN B Hn Hh t u Lu. destruct (extended_spec 0 None conds 1 il ir bc u (Some t) "periodic" "periodic" Periodic Periodic SN eq_refl eq_refl B) as [e [E [Le _]]]; [lia|intros hh [Q|Q]; discriminate|].
  destruct (wrapped_extension None il ir bc conds u (Some t) e SN B ltac:(lia) E) as [Le' We].
  assert (Hs : forall i, (i <= n)%nat -> speed M_Scalar.Advection (nth i e 0) (nth (S i) e 0) <> 0) by (intros i Hi; unfold speed; cbn; rewrite Rmax_left; lra).
  pose proof (llf_rhs M_Scalar.Advection bc h t u e n ltac:(lra) E ltac:(lia) Hs) as X. cbv zeta in X.
  eexists. split; [exact X|]. split; [apply tab_length|]. intros i Hi. rewrite nth_tab by auto. rewrite (llf_increment M_Scalar.Advection (nth i e 0) (nth (S i) e 0) (nth (S (S i)) e 0)) by (apply Hs; lia).
  cbn [slope speed]. unfold speed. cbn. rewrite !Rmax_left by lra.
  assert (W1 : nth (S i) e 0 = nth i u 0). { rewrite We by lia. unfold cyc. rewrite Lu. replace (S i + n - 1)%nat with (i + 1 * n)%nat by lia. rewrite Nat.mod_add, Nat.mod_small by lia. reflexivity. }
  assert (W0 : nth i e 0 = at_ u (Z.of_nat i - 1)).
  { rewrite We by lia. unfold cyc, at_. f_equal. rewrite Lu. apply Nat2Z.inj. rewrite Nat2Z.inj_mod, Z2Nat.id by (apply Z.mod_pos_bound; lia).
    replace (Z.of_nat (i + n - 1)) with (Z.of_nat i - 1 + 1 * Z.of_nat n)%Z by lia. rewrite Z.mod_add by lia. reflexivity. }
  rewrite W1, W0. field. lra.
Qed.

Section FV.
Context (eig : nat -> (nat -> nat -> R) -> (nat -> R) * (nat -> nat -> R)) (finite : list R -> bool) (b : scalar_benchmark) (a : solver_args) (f : R -> R).
Let D := sb_domain b.
Let n := or_default (a_mesh_size a) default_mesh_size.
Let h := (ib D - ia D) / INR n.
Hypotheses (HE : eig2_works eig) (HD : ia D < ib D) (Hp : sb_problem b = names_problem M_Scalar.Advection) (SN : side_names (sb_conditions b) "periodic" "periodic")
  (HR : repeats D f) (HI : forall x, ia D <= x < ib D -> sb_initial b x = f x) (HM : ssp_method (a_ode a)) (HC : 0 < py_or (a_cfl a) default_cfl <= 1).

Lemma fv_spread c w us t v : scalar_solver eig SLLF b a = Ok (c, w) -> (forall v, inherits_bounds (o_sol (solution_of w)) v -> finite v = true) ->
  (forall v t, ~ In (Reinit v t) us) -> shown (fst (use_run finite c us (w, []))) t v ->
  (0 < n)%nat /\ 0 < h /\ sb_start b <= t /\ length v = n /\ exists u0 m2, (forall z, at_ u0 z = two_points f (h * gauss_point) (ia D + h / 2 + IZR z * h)) /\
    spread u0 ((t - sb_start b) / h) m2 v /\ m2 - (t - sb_start b) / h * ((t - sb_start b) / h) <= (t - sb_start b) / h.
Proof.
  intros E HF NR SH. destruct (scalar_solver_inv eig SLLF b a c w E) as [m [u [nf [bc X]]]]. fold n in X. cbv zeta in X. destruct X as [Em [Eu [Lm [Lu [Hn [Ed [Enf [Ebc [Ec Ew]]]]]]]]].
  assert (Hn' : (0 < n)%nat) by (clear - Hn; lia). fold D in Ed, Em. fold h in Ed.
  assert (HX : 0 < h). { unfold h. apply Rdiv_lt_0_compat; [lra|apply lt_0_INR; exact Hn']. }
  assert (NF : nf = scalar_llf M_Scalar.Advection). { unfold get_scalar_flux in Enf. rewrite Hp, names_parse in Enf. cbn [bind] in Enf. apply Ok_inj in Enf. auto. }
  assert (HBC : exists il ir, get_boundary_conditions None (sb_conditions b) 1 il ir = Ok bc).
  { rewrite (scalar_dim _ _ _ _ Enf) in Ebc. change (2 / 2)%nat with 1%nat in Ebc. unfold scalar_boundary in Ebc. eauto. }
  destruct HBC as [il [ir Ebc']]. rewrite Ed, NF in Ec.
  assert (Su : o_sol (solution_of w) = u). { rewrite Ew. unfold solution_of, new_solver. cbn [w_mem w_sol o_sol]. rewrite store_other by (clear; lia). reflexivity. }
  rewrite Su in HF. rewrite Ew in SH.
  destruct (upwind_run finite n h c u (sb_start b) us t v) as [T0 [m2 [S V]]]; auto.
  - rewrite Ec. cbn [c_rhs scalar_config]. apply (llf_upwind (sb_conditions b) il ir); auto.
  - rewrite Ec. cbn [c_tab scalar_config]. destruct (a_ode a) as [T|] eqn:Ea; [apply HM; reflexivity|cbn; auto].
  - rewrite Ec. intros o Q. discriminate.
  - intros t' u' _. rewrite Ec. cbn [scalar_config c_gen]. change (m_step m * py_or (a_cfl a) default_cfl <= h). rewrite Ed. rewrite <- (Rmult_1_r h) at 2. apply Rmult_le_compat_l; lra.
  - split; [exact Hn'|]. split; [exact HX|]. split; [exact T0|]. split; [destruct S; congruence|]. exists u, m2. split; [|split; [exact S|exact V]].
    apply (at_period u _ n D Hn'); [apply two_points_repeat; exact HR|exact Lu|]. intros i Hi.
    rewrite (averages_tab eig _ n m _ HE Hn' HD Em) in Eu. apply Ok_inj in Eu. rewrite <- Eu, nth_tab by exact Hi. unfold mean2, two_points.
    pose proof (two_points_inside D n i Hi HD) as [T1 [T2 [T3 [T4 T5]]]]. unfold cell_centre, ilength in *. fold h in T1, T2, T3, T4, T5 |- *.
    replace (ia D + h / 2 + INR i * h) with (ia D + (INR i + 1 / 2) * h) by field.
    rewrite !HI by (unfold D in *; lra). reflexivity.
Qed.
End FV.

Lemma gauss_small : 0 < gauss_point < 1.
Proof. destruct gauss_point_pos as [G1 G2]. split; [exact G1|]. nra. Qed.
Lemma middle_at D n i t t0 : let h := (ib D - ia D) / INR n in 0 < h -> ia D + h / 2 + IZR (Z.of_nat i) * h - (t - t0) / h * h = middle D n i - (t - t0).
Proof. intros h Hh. unfold middle. fold h. rewrite <- INR_IZR_INZ. field. lra. Qed.

(** Smooth data: the values differ from the exact solution at the middles of the cells by at most half of M times the time times the
    cell size, and a part that vanishes even faster. Whatever a program does with the solver except reinitialising it, and also for the
    entries of its history. *)
Theorem C87_error_of_smooth_solutions : forall eig finite b a f M c w us t v, eig2_works eig -> ia (sb_domain b) < ib (sb_domain b) ->
  sb_problem b = names_problem M_Scalar.Advection -> side_names (sb_conditions b) "periodic" "periodic" ->
  repeats (sb_domain b) f -> (forall x, ia (sb_domain b) <= x < ib (sb_domain b) -> sb_initial b x = f x) -> smooth M f ->
  ssp_method (a_ode a) -> 0 < py_or (a_cfl a) default_cfl <= 1 ->
  scalar_solver eig SLLF b a = Ok (c, w) -> (forall v, inherits_bounds (o_sol (solution_of w)) v -> finite v = true) ->
  (forall v t, ~ In (Reinit v t) us) -> shown (fst (use_run finite c us (w, []))) t v ->
  let n := or_default (a_mesh_size a) default_mesh_size in
  let h := (ib (sb_domain b) - ia (sb_domain b)) / INR n in
  let passed := t - sb_start b in
  0 <= passed /\ length v = n /\ forall i, (i < n)%nat ->
    Rabs (nth i v 0 - moved f passed (middle (sb_domain b) n i)) <= M / 2 * passed * h + M / 24 * (h * h).
Proof.
  intros eig finite b a f M c w us t v HE HD Hp SN HR HI HS HM HC E HF NR SH n h passed.
  destruct (fv_spread eig finite b a f HE HD Hp SN HR HI HM HC c w us t v E HF NR SH) as [Hn [Hh [T0 [Lv [u0 [m2 [HW [S V]]]]]]]]. fold n in Hn, Lv, HW, S, V. fold h in Hh, HW, S, V. fold passed in S, V.
  assert (Hh' : 0 < h) by exact Hh. clear Hh. rename Hh' into Hh.
  split; [unfold passed; lra|]. split; [exact Lv|]. intros i Hi.
  pose proof (error_smooth u0 _ _ h HW M _ m2 v (Z.of_nat i) (two_points_smooth M f _ HS) S V) as X. rewrite at_nth in X by lia.
  pose proof (middle_at (sb_domain b) n i t (sb_start b) Hh) as Q. fold h passed in Q. rewrite Q in X.
  replace (passed / h * h) with passed in X by (field; lra).
  pose proof (two_points_near M f (h * gauss_point) (middle (sb_domain b) n i - passed) HS) as Y. destruct gauss_point_pos as [G1 G2].
  replace (M / 2 * (h * gauss_point) ^ 2) with (M / 2 * (h * h * (gauss_point * gauss_point))) in Y by ring. rewrite G2 in Y.
  unfold moved. apply abs_inv in X, Y. apply Rabs_le. lra.
Qed.
Print Assumptions C87_error_of_smooth_solutions.

(** Data whose slope is at most K, with kinks: the square root of time times cell size. *)
Theorem C87_error_of_rough_solutions : forall eig finite b a f K c w us t v, eig2_works eig -> ia (sb_domain b) < ib (sb_domain b) ->
  sb_problem b = names_problem M_Scalar.Advection -> side_names (sb_conditions b) "periodic" "periodic" ->
  repeats (sb_domain b) f -> (forall x, ia (sb_domain b) <= x < ib (sb_domain b) -> sb_initial b x = f x) -> lipschitz K f ->
  ssp_method (a_ode a) -> 0 < py_or (a_cfl a) default_cfl <= 1 ->
  scalar_solver eig SLLF b a = Ok (c, w) -> (forall v, inherits_bounds (o_sol (solution_of w)) v -> finite v = true) ->
  (forall v t, ~ In (Reinit v t) us) -> shown (fst (use_run finite c us (w, []))) t v ->
  let n := or_default (a_mesh_size a) default_mesh_size in
  let h := (ib (sb_domain b) - ia (sb_domain b)) / INR n in
  let passed := t - sb_start b in
  0 <= passed /\ length v = n /\ forall i, (i < n)%nat ->
    Rabs (nth i v 0 - moved f passed (middle (sb_domain b) n i)) <= K * (sqrt (passed * h) + sqrt (1 / 12) * h).
Proof.
  intros eig finite b a f K c w us t v HE HD Hp SN HR HI HS HM HC E HF NR SH n h passed.
  destruct (fv_spread eig finite b a f HE HD Hp SN HR HI HM HC c w us t v E HF NR SH) as [Hn [Hh [T0 [Lv [u0 [m2 [HW [S V]]]]]]]]. fold n in Hn, Lv, HW, S, V. fold h in Hh, HW, S, V. fold passed in S, V.
  assert (Hh' : 0 < h) by exact Hh. clear Hh. rename Hh' into Hh.
  split; [unfold passed; lra|]. split; [exact Lv|]. intros i Hi.
  pose proof (error_lipschitz u0 _ _ h Hh HW K _ m2 v (Z.of_nat i) (two_points_lipschitz K f _ HS) S V) as X. rewrite at_nth in X by lia.
  pose proof (middle_at (sb_domain b) n i t (sb_start b) Hh) as Q. fold h passed in Q. rewrite Q in X.
  replace (passed / h * h * h) with (passed * h) in X by (field; lra). destruct gauss_point_pos as [G1 G2].
  pose proof (two_points_close K f (h * gauss_point) (middle (sb_domain b) n i - passed) HS ltac:(nra)) as Y. change (sqrt (1 / 12)) with gauss_point.
  unfold moved. apply abs_inv in X, Y. apply Rabs_le. lra.
Qed.
Print Assumptions C87_error_of_rough_solutions.

(** All continuous data, up to any time: with enough cells the values are as close to the exact solution as desired, whatever the options
    are otherwise. *)
Theorem C87_solutions_converge : forall b f T eps, ia (sb_domain b) < ib (sb_domain b) ->
  sb_problem b = names_problem M_Scalar.Advection -> side_names (sb_conditions b) "periodic" "periodic" ->
  repeats (sb_domain b) f -> (forall x, ia (sb_domain b) <= x < ib (sb_domain b) -> sb_initial b x = f x) -> (forall x, continuity_pt f x) -> 0 < eps ->
  exists n0, forall n, (n0 <= n)%nat -> forall eig finite a c w us t v, eig2_works eig -> a_mesh_size a = Some n ->
  ssp_method (a_ode a) -> 0 < py_or (a_cfl a) default_cfl <= 1 ->
  scalar_solver eig SLLF b a = Ok (c, w) -> (forall v, inherits_bounds (o_sol (solution_of w)) v -> finite v = true) ->
  (forall v t, ~ In (Reinit v t) us) -> shown (fst (use_run finite c us (w, []))) t v -> t <= T ->
  length v = n /\ forall i, (i < n)%nat -> Rabs (nth i v 0 - moved f (t - sb_start b) (middle (sb_domain b) n i)) <= eps.
Proof.
  intros b f T eps HD Hp SN HR HI HK He. set (D := sb_domain b) in *.
  destruct (repeats_bounded D f HD HR HK) as [B HB]. destruct (repeats_uniform D f (eps / 3) HD HR HK ltac:(lra)) as [d [Hd Md]].
  assert (PB : 0 <= B) by (pose proof (HB 0); pose proof (Rabs_pos (f 0)); lra). set (L := ib D - ia D). assert (HL : 0 < L) by (unfold L; lra).
  set (TT := Rmax 0 (T - sb_start b)). assert (PT : 0 <= TT) by apply Rmax_l.
  set (k := 2 * B / (d * d) * TT * L). assert (Pk : 0 <= k). { unfold k. apply Rmult_le_pos; [|lra]. apply Rmult_le_pos; [|exact PT]. apply Rmult_le_pos; [lra|left; apply Rinv_0_lt_compat; nra]. }
  destruct (archimed_cor1 (eps / 3 / (k + 1)) ltac:(apply Rdiv_lt_0_compat; lra)) as [n1 [N1 N1']]. destruct (archimed_cor1 (d / L) ltac:(apply Rdiv_lt_0_compat; lra)) as [n2 [N2 N2']].
  exists (n1 + n2)%nat. intros n Hn eig finite a c w us t v HE Ha HM HC E HF NR SH Ht.
  destruct (fv_spread eig finite b a f HE HD Hp SN HR HI HM HC c w us t v E HF NR SH) as [Hn' [Hh [T0 [Lv [u0 [m2 [HW [S V]]]]]]]].
  assert (On : or_default (a_mesh_size a) default_mesh_size = n) by (rewrite Ha; destruct n; [lia|reflexivity]). rewrite On in *. fold D in Hh, HW, S, V. fold L in Hh, HW, S, V. set (h := L / INR n) in *.
  split; [exact Lv|]. intros i Hi.
  assert (I1 : 0 < INR n1) by (apply lt_0_INR; lia). assert (I2 : 0 < INR n2) by (apply lt_0_INR; lia). assert (I0 : INR n1 + INR n2 <= INR n) by (rewrite <- plus_INR; apply le_INR; lia).
  assert (In : 0 < INR n) by lra.
  assert (H1 : / INR n <= / INR n1) by (apply Rinv_le_contravar; lra). assert (H2 : / INR n <= / INR n2) by (apply Rinv_le_contravar; lra).
  assert (Hd' : h < d). { unfold h. apply (Rmult_lt_reg_r (/ L)); [apply Rinv_0_lt_compat; lra|]. replace (L / INR n * / L) with (/ INR n) by (field; lra). change (d * / L) with (d / L). lra. }
  pose proof gauss_small as GS.
  pose proof (error_modulus u0 _ _ h (eps / 3) d B _ m2 v (Z.of_nat i) Hh HW Hd ltac:(lra) (two_points_modulus _ _ f _ Md) (two_points_bounded B f _ HB) S V) as X. rewrite at_nth in X by lia.
  pose proof (middle_at D n i t (sb_start b) Hh) as Q. fold L in Q. fold h in Q. rewrite Q in X.
  replace ((t - sb_start b) / h * h * h) with ((t - sb_start b) * h) in X by (field; lra).
  pose proof (two_points_modulus_near (eps / 3) d f (h * gauss_point) (middle D n i - (t - sb_start b)) Md ltac:(nra)) as Y.
  assert (Z : 2 * B / (d * d) * ((t - sb_start b) * h) <= eps / 3).
  { assert (Tt : t - sb_start b <= TT) by (pose proof (Rmax_r 0 (T - sb_start b)); unfold TT; lra).
    apply (Rle_trans _ (k * / INR n)).
    - unfold k. replace (2 * B / (d * d) * TT * L * / INR n) with (2 * B / (d * d) * (TT * h)) by (unfold h; field; lra).
      apply Rmult_le_compat_l; [apply Rmult_le_pos; [lra|left; apply Rinv_0_lt_compat; nra]|]. apply Rmult_le_compat_r; lra.
    - apply (Rle_trans _ ((k + 1) * (eps / 3 / (k + 1)))); [|apply Req_le; field; lra]. assert (0 < / INR n) by (apply Rinv_0_lt_compat; lra).
      apply (Rle_trans _ ((k + 1) * / INR n)); [apply Rmult_le_compat_r; lra|]. apply Rmult_le_compat_l; lra. }
  unfold moved. apply abs_inv in X, Y. apply Rabs_le. lra.
Qed.
Print Assumptions C87_solutions_converge.
