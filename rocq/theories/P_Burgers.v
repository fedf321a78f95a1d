(** C94: before shocks appear first order solutions of Burgers' equation converge to the exact solution. *)
From Coq Require Import Reals List ZArith QArith Qreals Arith Lia Lra Psatz Bool String.
From Coquelicot Require Import Coquelicot.
From Verif Require Import Prelude L_Prelude M_Mesh L_Mesh M_Quadrature M_Interpolate M_Boundary L_Boundary M_Flux L_Flux M_ShallowWater
  M_ODE S_ODE L_ODE M_TimeStepping L_TimeStepping M_Solution M_Solver S_Solver L_Solver P_Solver M_Generate M_Misc
  M_FVSolver L_FVSolver P_Quadrature S_Quadrature S_Poly L_Poly L_Quadrature L_Lagrange M_FE L_FE L_NewtonCotes S_FE S_Solve S_FELow L_FELow P_FE P_FEMatrix P_FELow P_FEMCL P_FECG P_FERun P_FEChoice
  M_FEChoice M_Benchmark M_ScalarSolver S_ScalarSolver S_FESolver L_Invariant P_ScalarSolver L_FERates P_FESolver S_Scalar L_Scalar S_Variation L_Variation P_Variation P_VariationFE
  S_Burgers S_Convergence L_Convergence L_Timed P_Convergence P_ConvergenceFE L_Burgers P_Benchmark.
Import ListNotations.
Local Open Scope nat_scope.
Open Scope R_scope.
Local Open Scope list_scope.
Notation length := List.length.

(** ** the low order finite element scheme of degree one has the flux of Rusanov *)
Section Low.
Context (eig : nat -> (nat -> nat -> R) -> (nat -> R) * (nat -> nat -> R)) (D : interval) (n : nat) (m : mesh) (s : fespace).
Hypotheses (Hn : (3 <= n)%nat) (HD : ia D < ib D) (Em : new_mesh D n = Ok m) (Es : new_fespace m 1 = Ok s) (HE : eig_ok eig 1) (HE1 : eig_ok eig 2).
Let h := (ib D - ia D) / INR n.
Lemma at_next u i : length u = n -> (i < n)%nat -> at_ u (Z.of_nat i + 1) = dof u (S i mod n).
Proof.
  intros Lu Hi. unfold at_, dof. f_equal. rewrite Lu. apply Nat2Z.inj. rewrite Nat2Z.inj_mod, Z2Nat.id by (apply Z.mod_pos_bound; lia). f_equal. lia.
Qed.
Lemma low_rusanov : rusanov (fun _ => True) n h (fun _ => cg_low_rhs eig M_FE.Burgers s).
Proof.
  intros t u Lu _. destruct (low_n n Hn) as [N0 N2]. pose proof (low_h D n Hn HD) as Hh. fold h in Hh. pose proof (dimension_1 D n m s N2 HD Em Es) as DN.
  assert (Lu' := Lu). rewrite <- DN in Lu'.
  destruct (C39_low_order_succeeds eig D n m 1 s M_FE.Burgers u N0 HD Em Es HE HE1 ltac:(lia) Lu') as [r [_ [Er _]]].
  destruct (C39_low_order_conserves eig D n m 1 s M_FE.Burgers u r N0 HD Em Es HE HE1 Lu' Er) as [_ [_ [Lr _]]].
  exists r. split; [exact Er|]. split; [congruence|]. intros i Hi.
  destruct (C37_discrete_gradient eig D n m 1 s N0 HD Em Es HE) as [C [EC [SK [RS [CS [LOC _]]]]]].
  destruct (C37_lumped_masses eig D n m 1 s N0 HD Em Es HE1) as [M [mass [_ [EL [LL _]]]]]. rewrite DN in *.
  destruct (degree_1_entries eig D n m s mass C N2 HD Em Es HE HE1 EL EC) as [Mi Ci]. fold h in Mi.
  unfold cg_low_rhs in Er. rewrite EL, EC in Er. cbn [bind] in Er. unfold low_rhs in Er. rewrite DN in Er.
  apply (mapM_nth _ _ _ 0%nat 0) in Er. rewrite seq_length in Er. destruct Er as [_ VR]. specialize (VR i Hi). rewrite seq_nth in VR by auto. cbn [Nat.add] in VR.
  rewrite (low_term n C SK (fun j _ => RS j) M_FE.Burgers u i Hi Lu) in VR. rewrite (Mi i Hi) in VR. rewrite rdiv_ne in VR by lra. apply Ok_inj in VR. rewrite <- VR. clear VR. f_equal.
  destruct (next_before n Hn i Hi) as [A1 [A2 [A3 [A4 A5]]]].
  rewrite (off_two n _ i (S i mod n) ((i + n - 1) mod n)); auto.
  - rewrite !(diffusion_entry n C SK) by auto. cbn [wave_speed flux_of]. rewrite !Ci by auto. rewrite !delta_eq, (delta_ne (S i mod n)), (delta_ne ((i + n - 1) mod n)) by auto.
    replace (Rabs (1 * (1 / 2) - 0 * (1 / 2))) with (1 / 2) by (rewrite Rabs_right; lra). replace (Rabs (0 * (1 / 2) - 1 * (1 / 2))) with (1 / 2) by (rewrite Rabs_left; lra).
    rewrite (at_before n Hn u i Lu Hi), (at_next u i Lu Hi). change (nth i u 0) with (dof u i). unfold ru. rewrite (Rmax_comm (Rabs (dof u ((i + n - 1) mod n)))). field.
  - intros j Hj N0' N1 N3. rewrite (diffusion_entry n C SK) by auto. rewrite Ci, !delta_ne by auto. replace (0 * (1 / 2) - 0 * (1 / 2)) with 0 by ring. rewrite Rabs_R0. ring.
Qed.
Lemma low_step_speeds u step dt : length u = n -> fe_time_step eig M_FE.Burgers s u = Ok step -> 0 < dt -> step_allows step dt -> forall j, dt * Rabs (at_ u j) <= h / 2.
Proof.
  intros Lu Est Hdt Hs j. destruct (low_n n Hn) as [N0 N2]. pose proof (low_h D n Hn HD) as Hh. pose proof (dimension_1 D n m s N2 HD Em Es) as DN.
  destruct (C37_discrete_gradient eig D n m 1 s N0 HD Em Es HE) as [C [EC [SK [RS [CS [LOC _]]]]]].
  destruct (C37_lumped_masses eig D n m 1 s N0 HD Em Es HE1) as [M [mass [_ [EL [LL _]]]]].
  destruct (degree_1_entries eig D n m s mass C N2 HD Em Es HE HE1 EL EC) as [Mi Ci]. fold h in Mi.
  destruct (at_some u j ltac:(lia)) as [i [Hi [_ ->]]]. rewrite Lu in Hi.
  destruct (step_masses eig M_FE.Burgers s u mass C step EL EC Est dt Hdt Hs i ltac:(lia)) as [_ X]. rewrite DN in X.
  change (dof mass i) with (nth i mass 0) in X. rewrite (Mi i Hi) in X. rewrite (diffusion_abs_diag n C SK) in X by auto. destruct (next_before n Hn i Hi) as [A1 [A2 [A3 [A4 A5]]]].
  rewrite (off_two n _ i (S i mod n) ((i + n - 1) mod n)) in X; auto.
  - rewrite !(diffusion_entry n C SK) in X by auto. rewrite !Ci in X by auto. rewrite !delta_eq, (delta_ne (S i mod n)), (delta_ne ((i + n - 1) mod n)) in X by auto. cbn [wave_speed] in X.
    replace (Rabs (1 * (1 / 2) - 0 * (1 / 2))) with (1 / 2) in X by (rewrite Rabs_right; lra). replace (Rabs (0 * (1 / 2) - 1 * (1 / 2))) with (1 / 2) in X by (rewrite Rabs_left; lra).
    change (dof u i) with (nth i u 0) in X. pose proof (Rmax_l (Rabs (nth i u 0)) (Rabs (dof u (S i mod n)))) as Q1. pose proof (Rmax_l (Rabs (nth i u 0)) (Rabs (dof u ((i + n - 1) mod n)))) as Q2.
    assert (2 * dt * Rabs (nth i u 0) <= 2 * dt * (1 / 2 * Rmax (Rabs (nth i u 0)) (Rabs (dof u (S i mod n))) + 1 / 2 * Rmax (Rabs (nth i u 0)) (Rabs (dof u ((i + n - 1) mod n))))) by (apply Rmult_le_compat_l; lra). lra.
  - intros k Hk N0' N1 N3. rewrite (diffusion_entry n C SK) by auto. rewrite Ci, !delta_ne by auto. replace (0 * (1 / 2) - 0 * (1 / 2)) with 0 by ring. rewrite Rabs_R0. ring.
Qed.
End Low.

(** ** the solver *)
Lemma element_follows eig solver old finite ad b a f f1 f2 K K2 M T ex c w us t v :
  ia (sb_domain b) < ib (sb_domain b) -> sb_problem b = fe_name M_FE.Burgers -> ssp_method (f_ode a) ->
  used_degree a = 1%nat -> eig_ok eig 1 -> eig_ok eig 2 -> (3 <= used_cells a)%nat -> 0 < py_or (f_cfl a) default_cfl <= 1 / 3 ->
  repeats (sb_domain b) f -> (forall x, ia (sb_domain b) <= x < ib (sb_domain b) -> sb_initial b x = f x) ->
  (forall x, derivable_pt_lim f x (f1 x)) -> (forall x, derivable_pt_lim f1 x (f2 x)) -> (forall x, Rabs (f2 x) <= K2) ->
  lipschitz K f -> 0 < K -> 0 <= T -> K * T < 1 -> largest M f -> carried f T ex ->
  let h := (ib (sb_domain b) - ia (sb_domain b)) / INR (used_cells a) in
  ex_curve K K2 T * h <= ex_lip K T -> err_bound K K2 M T (sb_domain b) (used_cells a) 0 T + ex_lip K T * h <= M / 9 ->
  fe_solver eig solver old (FLow ad) b a = Ok (c, w) -> (forall v, inherits_bounds (o_sol (solution_of w)) v -> finite v = true) ->
  (forall v t, ~ In (Reinit v t) us) -> shown (fst (use_run finite c us (w, []))) t v ->
  sb_start b <= t /\ length v = used_cells a /\ (t - sb_start b <= T -> forall i, (i < used_cells a)%nat ->
    Rabs (nth i v 0 - ex (t - sb_start b) (ia (sb_domain b) + INR i * h)) <= err_bound K K2 M T (sb_domain b) (used_cells a) 0 (t - sb_start b)).
Proof.
  intros HD HP HM H1 HE HE1 H3 [C0 C1] HR HI F1 F2 F3 HL HK HT HKT HL2 HV h HA Hsm E HF NR SH.
  set (D := sb_domain b) in *. set (n := used_cells a) in *. set (cfl := py_or (f_cfl a) default_cfl) in *.
  destruct (fe_solver_inv eig solver old (FLow ad) b a c w E) as [m [s [_ [_ [Em [Es _]]]]]]. fold n D in Em. assert (Es' := Es). rewrite H1 in Es.
  assert (N0 : (0 < n)%nat) by (clear - H3; lia). assert (N2 : (2 <= n)%nat) by (clear - H3; lia). pose proof (dimension_1 D n m s N2 HD Em Es) as DN.
  set (u0 := initial_dofs old s (sb_initial b)).
  assert (L0 : length u0 = n) by (rewrite <- DN; apply (initial_length D n m 1 s old _ N0 HD Em Es)).
  pose proof (low_h D n H3 HD) as Hh. fold h in Hh.
  assert (HEa : eig_ok eig (used_degree a)) by (rewrite H1; exact HE). assert (HEb : eig_ok eig (used_degree a + 1)) by (rewrite H1; exact HE1).
  assert (CC : cfl_condition eig M_FE.Burgers s cfl) by (apply (C71_safe_cfl eig D n m 1 s M_FE.Burgers cfl N2); auto; [lia|cbn; lra]).
  assert (ST : c_rhs c = (fun _ => cg_low_rhs eig M_FE.Burgers s) /\ In (c_tab c) [euler; heun; ssp3] /\ quiet_check c /\ w = new_solver c (fun _ => u0) 1 0 (sb_start b) /\ safe_steps (inherits_bounds u0) c /\
    forall t v, call_generator (c_gen c) (t, v) = finite_step (sb_end b - sb_start b) cfl (fe_time_step eig M_FE.Burgers s (if ad then v else u0)) * cfl).
  { assert (Gp : fe_problem (sb_problem b) = Ok M_FE.Burgers) by (rewrite HP; reflexivity).
    assert (G : fe_solution old b (f_mesh_size a) (f_degree a) = Ok (s, u0)).
    { unfold fe_solution. change (or_default (f_mesh_size a) default_mesh_size) with n. fold D. rewrite Em. cbn [bind].
      change (or_default (f_degree a) default_polynomial_degree) with (used_degree a). rewrite H1, Es. reflexivity. }
    assert (Tb : In (match f_ode a with Some T => T | None => heun end) [euler; heun; ssp3]).
    { destruct (f_ode a) as [T'|] eqn:Q; [apply HM; reflexivity|cbn; auto]. }
    assert (SS : safe_steps (inherits_bounds u0) c).
    { apply (fe_safe eig solver old (FLow ad) b a M_FE.Burgers c w m s); auto; [exists ad; auto|rewrite H1; lia]. }
    destruct (fe_bounds_setup eig solver old (FLow ad) b a M_FE.Burgers c w m s (ex_intro _ ad (or_introl eq_refl)) HP HM Em Es' CC E) as [_ [_ [Ew [_ [_ [_ [_ [_ [Qc _]]]]]]]]].
    split; [|split; [|split; [exact Qc|split; [exact Ew|split; [exact SS|]]]]].
    all: cbn [fe_solver] in E; unfold limited_solver in E; rewrite G, Gp in E; cbn [bind] in E; apply Ok_inj in E; injection E as E1 E2; rewrite <- E1; cbn [c_rhs c_tab]; auto.
    intros t' v'. destruct ad; reflexivity. }
  destruct ST as [Er [HTb [Qc [Ew [SS Gn]]]]].
  assert (Su : o_sol (solution_of w) = u0). { rewrite Ew. unfold solution_of, new_solver. cbn [w_mem w_sol o_sol]. rewrite store_other by (clear; lia). reflexivity. }
  rewrite Su in HF. rewrite Ew in SH.
  assert (SP : forall u dt, length u = n -> 0 <= dt <= finite_step (sb_end b - sb_start b) cfl (fe_time_step eig M_FE.Burgers s u) * cfl -> forall j, dt * Rabs (at_ u j) <= h / 6).
  { intros u dt Lu [D1 D2] j. destruct (Req_dec dt 0) as [-> |Z0]; [rewrite Rmult_0_l; lra|]. assert (Lu' : length u = fs_dimension s) by congruence.
    destruct (step_exists eig D n m 1 s N2 HD Em Es HE HE1 ltac:(lia) M_FE.Burgers u Lu') as [step [E1 _]]. rewrite E1 in D2.
    assert (P0 : 0 < dt / cfl) by (apply Rdiv_lt_0_compat; lra).
    assert (AL : step_allows step (dt / cfl)).
    { destruct step as [x|]; [|exact I]. cbn [finite_step step_allows] in *. apply (Rmult_le_reg_r cfl); [exact C0|]. unfold Rdiv. rewrite Rmult_assoc, Rinv_l by lra. lra. }
    pose proof (low_step_speeds eig D n m s H3 HD Em Es HE HE1 u step (dt / cfl) Lu E1 P0 AL j) as X. fold h in X.
    replace (dt * Rabs (at_ u j)) with (cfl * (dt / cfl * Rabs (at_ u j))) by (field; lra). apply Rle_trans with (cfl * (h / 2)); [apply Rmult_le_compat_l; lra|]. nra. }
  assert (PE : 0 <= err_bound K K2 M T D n 0 T) by (apply (err_nonneg f f2 K K2 M T D n F3 HK HKT HL2 N0 HD 0); lra).
  assert (PL : 0 < ex_lip K T) by (apply ex_L; auto).
  assert (H0 : forall j, at_ u0 j = f (ia D + IZR j * h)).
  { apply (at_period u0 f n D N0 HR L0). intros i Hi. destruct (C34_basis_nodes D n m 1 s old N0 HD Em Es) as [BL [_ [BV _]]].
    unfold u0, initial_dofs. rewrite (nth_map' _ _ _ 0) by (rewrite BL, DN; exact Hi). rewrite BV by lia. cbn [INR]. rewrite Rmult_1_r. fold h.
    assert (0 <= INR i) by apply pos_INR. assert (INR i < INR n) by (apply lt_INR; exact Hi). apply HI.
    split; [nra|]. assert (INR n * h = ib D - ia D) by (unfold h; field; lra). nra. }
  assert (HLp : 0 < ex_lip K T * h) by (apply Rmult_lt_0_compat; lra).
  destruct (burgers_run f f1 f2 K K2 M T ex D n (ia D)) with (c0 := 0) (cm := M / 6) (finite := finite) (c := c) (w0 := u0) (I := inherits_bounds u0) (ok := fun _ : list R => True) (t0 := sb_start b) (us := us) (t := t) (u := v)
    as [T0 [IB FL]]; auto.
  - lra.
  - lra.
  - lra.
  - rewrite Er. apply (low_rusanov eig D n m s H3 HD Em Es HE HE1).
  - apply inherits_refl.
  - intros u [Lu _]. congruence.
  - intros t' u x Lu Ex. rewrite Er in Ex. destruct (low_rusanov eig D n m s H3 HD Em Es HE HE1 t' u Lu Logic.I) as [y [Ey [Ly _]]]. congruence.
  - intros t' u dt mm Lu Hd Hm [j Hj] [j' Hj']. rewrite Gn in Hd. destruct ad.
    + apply Rle_trans with (dt * Rabs (at_ u j)); [apply Rmult_le_compat_l; lra|]. apply SP; auto.
    + apply Rle_trans with (dt * Rabs (at_ u0 j')); [apply Rmult_le_compat_l; lra|]. apply SP; auto.
  - intro j. rewrite H0. fold h. replace (f (ia D + IZR j * h) - f (ia D + IZR j * h)) with 0 by ring. rewrite Rabs_R0. lra.
  - split; [exact T0|]. assert (Lv : length v = n) by (destruct IB; congruence). split; [exact Lv|]. intros Ht i Hi. specialize (FL Ht (Z.of_nat i)). rewrite at_nth in FL by lia.
    rewrite <- INR_IZR_INZ in FL. exact FL.
Qed.

(** Data with slopes of at most K have exactly one solution up to every time T before 1 / K: every value travels with itself as speed.
    That function starts with the data, keeps their bound, and satisfies Burgers' equation: its derivative with respect to time is minus its
    value times its slope. *)
Theorem C94_exact_solution : forall f K K2 M T, smooth K2 f -> lipschitz K f -> 0 < K -> 0 <= T -> K * T < 1 -> (forall x, Rabs (f x) <= M) ->
  exists ex, carried f T ex /\ (forall ex', carried f T ex' -> forall t x, 0 <= t <= T -> ex' t x = ex t x) /\ (forall x, ex 0 x = f x) /\ (forall t x, 0 <= t <= T -> Rabs (ex t x) <= M) /\
    forall t x, 0 < t < T -> exists p, derivable_pt_lim (ex t) x p /\ derivable_pt_lim (fun s => ex s x) t (- (ex t x * p)).
Proof.
  intros f K K2 M T [f1 [f2 [D1 [D2 B2]]]] HL HK HT HKT HM. destruct (exact_exists f f1 K M T D1 HL HK HKT HM) as [ex HV]. exists ex. split; [exact HV|].
  split; [intros ex' HV' t x Ht; exact (exact_unique f f1 M T ex D1 HM HV ex' t x HV' Ht)|]. split; [exact (exact_start f T ex HT HV)|]. split; [exact (exact_bound f f1 M T ex D1 HM HV)|].
  intros t x Ht. destruct (foot f f1 M D1 HM t x ltac:(lra)) as [y Hy]. destruct (exact_facts f f1 f2 K K2 M T ex D1 D2 B2 HL HK HKT HM HV t x y ltac:(lra) Hy) as [_ [X Y]].
  pose proof (ex_A f2 K K2 T B2 HKT) as PA. pose proof (ex_L K T HK HKT) as PL. pose proof (ex_M f M HM) as PM. set (p := f1 y / (1 + t * f1 y)) in *. exists p. split.
  - apply (quadratic_derivative (ex t) x p _ PA 1); [lra|]. intros e _. apply X.
  - match type of Y with forall s, _ -> _ <= ?B * _ => set (BB := B) in * end.
    assert (PB : 0 <= BB). { unfold BB. set (L := K / (1 - K * T)) in *. match goal with |- 0 <= _ + ?A * M * M => set (A0 := A) in * end. assert (0 <= L * L * M) by (apply Rmult_le_pos; [apply Rmult_le_pos; lra|lra]). assert (0 <= A0 * M * M) by (apply Rmult_le_pos; [apply Rmult_le_pos; lra|lra]). lra. }
    apply (quadratic_derivative (fun s => ex s x) t _ BB PB (Rmin t (T - t))); [apply Rmin_pos; lra|]. intros e He. pose proof (Rmin_l t (T - t)). pose proof (Rmin_r t (T - t)). assert (He' : Rabs e <= Rabs e) by lra. apply abs_inv in He'.
    specialize (Y (t + e) ltac:(lra)). replace (t + e - t) with e in Y by ring. replace (ex (t + e) x - ex t x - e * - (ex t x * p)) with (ex (t + e) x - ex t x + e * (ex t x * p)) by ring. exact Y.
Qed.
Print Assumptions C94_exact_solution.

(** The error of the low order finite element solver with explicit constants: periodic data f of at most M with slopes of at most K and
    second derivatives of at most K2, before the time 1 / K when shocks can appear. The bound holds once the cells are small enough for the
    solution: when it is itself below a ninth of M. Whatever a program does with the solver except reinitialising it, and also for the entries
    of its history. *)
Theorem C94_element_error : forall eig solver old finite ad b a f K K2 M T ex c w us t v, ia (sb_domain b) < ib (sb_domain b) -> sb_problem b = fe_name M_FE.Burgers -> ssp_method (f_ode a) ->
  used_degree a = 1%nat -> eig_ok eig 1 -> eig_ok eig 2 -> (3 <= used_cells a)%nat -> 0 < py_or (f_cfl a) default_cfl <= 1 / 3 ->
  repeats (sb_domain b) f -> (forall x, ia (sb_domain b) <= x < ib (sb_domain b) -> sb_initial b x = f x) ->
  smooth K2 f -> lipschitz K f -> 0 < K -> 0 <= T -> K * T < 1 -> largest M f -> carried f T ex ->
  let h := (ib (sb_domain b) - ia (sb_domain b)) / INR (used_cells a) in
  let steep := K / (1 - K * T) in
  let bent := K2 / 2 / ((1 - K * T) * (1 - K * T) * (1 - K * T)) in
  let bound s := (22 * (steep * steep) + 31 * bent * M) * h * s * exp (18 * steep * s) in
  bent * h <= steep -> bound T + steep * h <= M / 9 ->
  fe_solver eig solver old (FLow ad) b a = Ok (c, w) -> (forall v, inherits_bounds (o_sol (solution_of w)) v -> finite v = true) ->
  (forall v t, ~ In (Reinit v t) us) -> shown (fst (use_run finite c us (w, []))) t v ->
  sb_start b <= t /\ length v = used_cells a /\ (t - sb_start b <= T -> forall i, (i < used_cells a)%nat ->
    Rabs (nth i v 0 - ex (t - sb_start b) (ia (sb_domain b) + INR i * h)) <= bound (t - sb_start b)).
Proof.
  intros eig solver old finite ad b a f K K2 M T ex c w us t v HD HP HM H1 HE HE1 H3 HC HR HI [f1 [f2 [F1 [F2 F3]]]] HL HK HT HKT HL2 HV h steep bent bound HA Hsm E HF NR SH.
  assert (EB : forall s, err_bound K K2 M T (sb_domain b) (used_cells a) 0 s = bound s) by (intro s; unfold err_bound; rewrite Rplus_0_l; reflexivity).
  rewrite <- (EB T) in Hsm. destruct (element_follows eig solver old finite ad b a f f1 f2 K K2 M T ex c w us t v) as [T0 [Lv X]]; auto. split; [exact T0|]. split; [exact Lv|]. intros Ht i Hi. rewrite <- EB. auto.
Qed.
Print Assumptions C94_element_error.

(** The solutions converge, with the first power of the cell size: from some number of cells on, the error in every node, at every time before T, is at
    most a constant over the number of cells. The constant and the number depend on the data only, not on the options. *)
Theorem C94_element_solutions_converge : forall b f K K2 M T ex, ia (sb_domain b) < ib (sb_domain b) -> sb_problem b = fe_name M_FE.Burgers ->
  repeats (sb_domain b) f -> (forall x, ia (sb_domain b) <= x < ib (sb_domain b) -> sb_initial b x = f x) ->
  smooth K2 f -> lipschitz K f -> 0 < K -> 0 <= T -> K * T < 1 -> largest M f -> 0 < M -> carried f T ex ->
  exists C n0, forall eig solver old finite ad a c w us t v, ssp_method (f_ode a) -> used_degree a = 1%nat -> eig_ok eig 1 -> eig_ok eig 2 -> 0 < py_or (f_cfl a) default_cfl <= 1 / 3 -> (n0 <= used_cells a)%nat ->
    fe_solver eig solver old (FLow ad) b a = Ok (c, w) -> (forall v, inherits_bounds (o_sol (solution_of w)) v -> finite v = true) ->
    (forall v t, ~ In (Reinit v t) us) -> shown (fst (use_run finite c us (w, []))) t v -> t - sb_start b <= T ->
    sb_start b <= t /\ length v = used_cells a /\ forall i, (i < used_cells a)%nat ->
      Rabs (nth i v 0 - ex (t - sb_start b) (ia (sb_domain b) + INR i * ((ib (sb_domain b) - ia (sb_domain b)) / INR (used_cells a)))) <= C / INR (used_cells a).
Proof.
  intros b f K K2 M T ex HD HP HR HI [f1 [f2 [F1 [F2 F3]]]] HL HK HT HKT HL2 PM HV.
  destruct (enough_cells f f2 K K2 M T (sb_domain b) 0 1 F3 HK HKT HL2 HD HT ltac:(lra) PM ltac:(lra)) as [C [n0 [N3 HN]]]. exists C, n0.
  intros eig solver old finite ad a c w us t v HM H1 HE HE1 HC Hn E HF NR SH Ht. destruct (HN _ Hn) as [A1 [A2 [_ A3]]]. rewrite Rmult_0_l in A2, A3.
  destruct (element_follows eig solver old finite ad b a f f1 f2 K K2 M T ex c w us t v) as [T0 [Lv X]]; auto; [lia|]. split; [exact T0|]. split; [exact Lv|]. intros i Hi. eapply Rle_trans; [apply X; auto|]. apply A3. lra.
Qed.
Print Assumptions C94_element_solutions_converge.

(** ** the benchmarks of the program *)
Lemma sin_2PI_more x : sin (x + 2 * PI) = sin x.
Proof. rewrite sin_plus, cos_2PI, sin_2PI. ring. Qed.
Lemma burgers_data e b : b = shock_benchmark e \/ b = smooth_benchmark e -> exists K K2 M f2, 0 < K /\ K * b_critical b = 1 /\ 0 < M <= 2 /\ largest M (b_u0 b) /\ lipschitz K (b_u0 b) /\ repeats (b_domain b) (b_u0 b) /\
  ia (b_domain b) < ib (b_domain b) /\ (forall x, derivable_pt_lim (b_u0 b) x (b_du0 b x)) /\ (forall x, derivable_pt_lim (b_du0 b) x (f2 x)) /\ forall x, Rabs (f2 x) <= K2.
Proof.
  intro Hb. pose proof PI_RGT_0 as PP. destruct Hb as [-> | ->].
  - exists (2 * PI), (4 * (PI * PI)), 1, (fun x => - (4 * (PI * PI)) * sin (2 * PI * x)). cbn [shock_benchmark b_u0 b_du0 b_domain b_critical unit_interval ia ib].
    assert (D1 : forall x, derivable_pt_lim (fun x => sin (2 * PI * x)) x (2 * PI * cos (2 * PI * x))) by (intro x; apply is_derive_Reals, shock_derive).
    split; [lra|]. split; [field; lra|]. split; [lra|]. split; [|split; [|split; [|split; [lra|split; [exact D1|split]]]]].
    + split; [intro x; apply Rabs_le, SIN_bound|]. exists (1 / 4). replace (2 * PI * (1 / 4)) with (PI / 2) by field. rewrite sin_PI2. apply Rabs_R1.
    + intros x y. apply (mvt_bound _ _ (2 * PI) ltac:(lra) D1). intro z. rewrite Rabs_mult, (Rabs_right (2 * PI)) by lra. apply Rle_trans with (2 * PI * 1); [|lra]. apply Rmult_le_compat_l; [lra|]. apply Rabs_le, COS_bound.
    + intro x. change (sin (2 * PI * (x + (1 - 0))) = sin (2 * PI * x)). replace (2 * PI * (x + (1 - 0))) with (2 * PI * x + 2 * PI) by ring. apply sin_2PI_more.
    + intro x. apply is_derive_Reals. auto_derive; [auto|ring].
    + intro x. rewrite Rabs_mult, Rabs_Ropp, (Rabs_right (4 * (PI * PI))) by (assert (0 <= PI * PI) by (apply Rmult_le_pos; lra); lra).
      apply Rle_trans with (4 * (PI * PI) * 1); [|lra]. apply Rmult_le_compat_l; [assert (0 <= PI * PI) by (apply Rmult_le_pos; lra); lra|]. apply Rabs_le, SIN_bound.
  - exists 1, 1, (3 / 2), (fun x => - sin x). cbn [smooth_benchmark b_u0 b_du0 b_domain b_critical ia ib].
    assert (D1 : forall x, derivable_pt_lim (fun x => sin x + 1 / 2) x (cos x)) by (intro x; apply is_derive_Reals, smooth_derive).
    split; [lra|]. split; [field|]. split; [lra|]. split; [|split; [|split; [|split; [lra|split; [exact D1|split]]]]].
    + split; [intro x; apply Rabs_le; pose proof (SIN_bound x); lra|]. exists (PI / 2). rewrite sin_PI2. rewrite Rabs_right; lra.
    + intros x y. apply (mvt_bound _ _ 1 ltac:(lra) D1). intro z. apply Rabs_le, COS_bound.
    + intro x. cbn [ia ib]. replace (x + (2 * PI - 0)) with (x + 2 * PI) by ring. rewrite sin_2PI_more. reflexivity.
    + intro x. apply derivable_pt_lim_cos.
    + intro x. rewrite Rabs_Ropp. apply Rabs_le, SIN_bound.
Qed.

(** Both benchmarks of Burgers' equation: the solvers can be built, and for times that stay away from the critical time their values approach
    what exact_solution returns, whenever newton returns a root. *)
Theorem C94_burgers_benchmarks : forall newton e b T, finds_roots newton -> b = shock_benchmark e \/ b = smooth_benchmark e -> e <= b_critical b -> 0 <= T < b_critical b ->
  exists C n0, forall eig solver old finite ad a us, ssp_method (f_ode a) -> used_degree a = 1%nat -> eig_ok eig 1 -> eig_ok eig 2 -> 0 < py_or (f_cfl a) default_cfl <= 1 / 3 -> (n0 <= used_cells a)%nat ->
    (forall v, in_range (-2) 2 v -> finite v = true) -> (forall v t, ~ In (Reinit v t) us) ->
    exists c w, fe_solver eig solver old (FLow ad) (burgers_benchmark b) a = Ok (c, w) /\ forall t v, shown (fst (use_run finite c us (w, []))) t v -> t <= T ->
      0 <= t /\ length v = used_cells a /\ forall i r, (i < used_cells a)%nat ->
        burgers_exact newton b (ia (b_domain b) + INR i * ((ib (b_domain b) - ia (b_domain b)) / INR (used_cells a))) t = Ok r -> Rabs (nth i v 0 - r) <= C / INR (used_cells a).
Proof.
  intros newton e b T HN Hb He HT. destruct (burgers_data e b Hb) as [K [K2 [M [f2 [HK [HC [PM [HL2 [HL [HR [HD [D1 [D2 B2]]]]]]]]]]]]].
  assert (HKT : K * T < 1). { rewrite <- HC. apply Rmult_lt_compat_l; lra. }
  destruct (exact_exists (b_u0 b) (b_du0 b) K M T D1 HL HK HKT (proj1 HL2)) as [ex HV]. set (bb := burgers_benchmark b).
  destruct (C94_element_solutions_converge bb (b_u0 b) K K2 M T ex HD eq_refl HR (fun x _ => eq_refl) (ex_intro _ (b_du0 b) (ex_intro _ f2 (conj D1 (conj D2 B2)))) HL HK (proj1 HT) HKT HL2 (proj1 PM) HV) as [C [n0 HN0]].
  exists C, n0. intros eig solver old finite ad a us HM H1 HE HE1 HCf Hn HF NR.
  destruct (C71_fe_solvers_can_be_built eig solver old (FLow ad) bb a M_FE.Burgers HD eq_refl ltac:(intros; discriminate)) as [c [w [E [_ [L0 V0]]]]]. exists c, w. split; [exact E|]. intros t v SH Ht.
  assert (HF' : forall v, inherits_bounds (o_sol (solution_of w)) v -> finite v = true).
  { intros y [_ Hy]. apply HF. intros x Hx. apply (Hy (-2) 2); [|exact Hx]. intros z Hz. apply (In_nth _ _ 0) in Hz as [i [Hi <-]]. rewrite L0 in Hi. rewrite V0 by exact Hi. destruct HL2 as [Q _].
    match goal with |- _ <= sb_initial bb ?x <= _ => specialize (Q x); change (sb_initial bb x) with (b_u0 b x) end. apply abs_inv in Q. lra. }
  assert (Es : t - sb_start bb = t) by (cbn; lra). pose proof (HN0 eig solver old finite ad a c w us t v HM H1 HE HE1 HCf Hn E HF' NR SH ltac:(lra)) as [T0 [Lv X]]. rewrite Es in X. change (sb_domain bb) with (b_domain b) in X.
  change (0 <= t) in T0.
  split; [exact T0|]. split; [exact Lv|]. intros i r Hi Er. specialize (X i Hi). match type of Er with burgers_exact _ _ ?x _ = _ => set (x0 := x) in * end.
  destruct (foot (b_u0 b) (b_du0 b) M D1 (proj1 HL2) t x0 T0) as [y Hy]. destruct (C49_burgers newton e b HN Hb He) as [_ Y]. destruct (Y t ltac:(lra)) as [_ [Z _]].
  rewrite <- Hy in Er, X. rewrite HV in X by lra. rewrite (Rmult_comm t) in Er. rewrite (Z y r Er). exact X.
Qed.
Print Assumptions C94_burgers_benchmarks.

(** The conditions can be met: default CFL number, a third order method, a history; and a newton that finds roots returns a value that has travelled. *)
Example C94_ex : exists eig newton, eig_ok eig 1 /\ eig_ok eig 2 /\ finds_roots newton /\
  let a := {| f_mesh_size := Some 40%nat; f_degree := None; f_cfl := None; f_ode := Some ssp3; f_history := true |} in
  ssp_method (f_ode a) /\ used_degree a = 1%nat /\ (3 <= used_cells a)%nat /\ 0 < py_or (f_cfl a) default_cfl <= 1 / 3 /\ 1 / 10 < b_critical (shock_benchmark (1 / 10)) /\ burgers_default_end < b_critical (smooth_benchmark burgers_default_end) /\
  burgers_exact newton (shock_benchmark (1 / 10)) (0 + INR 14 * ((1 - 0) / INR 40)) (1 / 10) = Ok 1 /\ b_u0 (shock_benchmark (1 / 10)) (1 / 4) = 1 /\ b_u0 (shock_benchmark (1 / 10)) (3 / 4) = -1.
Proof.
  destruct (P_Gauss.C43_decomposition_exists 2) as [eig HE]. exists eig, (fun f _ => if Reqb (f 1) 0 then Ok 1 else Err ValueError). split; [apply HE; lia|]. split; [apply HE; lia|].
  split; [intros f x r Q; cbv beta in Q; destruct (Reqb_spec (f 1) 0); [|discriminate]; apply Ok_inj in Q; subst; auto|]. pose proof PI_RGT_0. pose proof PI_4.
  assert (CR : 1 / 10 < b_critical (shock_benchmark (1 / 10))). { cbn [shock_benchmark b_critical]. unfold Rdiv. rewrite !Rmult_1_l. apply Rinv_lt_contravar; [apply Rmult_lt_0_compat; lra|lra]. }
  cbv zeta. split; [intros T X; injection X as <-; cbn; auto|]. split; [reflexivity|]. split; [cbn; lia|]. split; [unfold py_or, default_cfl; cbn [f_cfl]; lra|]. split; [exact CR|].
  split; [unfold burgers_default_end; cbn [smooth_benchmark b_critical]; lra|]. split; [|split; cbn [shock_benchmark b_u0]].
  - unfold burgers_exact. destruct (Rltb_spec (b_critical (shock_benchmark (1 / 10)) + / 10 ^ 15) (b_end (shock_benchmark (1 / 10)))) as [L|L].
    + exfalso. cbn [shock_benchmark b_end] in L. assert (0 < / 10 ^ 15) by (apply Rinv_0_lt_compat, pow_lt; lra). lra.
    + match goal with |- (if Reqb ?x 0 then _ else _) = _ => assert (Q : x = 0) end.
      { unfold burgers_func. cbn [shock_benchmark b_u0]. replace (2 * PI * (0 + INR 14 * ((1 - 0) / INR 40) - 1 * (1 / 10))) with (PI / 2) by (cbn [INR]; field). rewrite sin_PI2. ring. }
      rewrite Q. destruct (Reqb_spec 0 0); [reflexivity|lra].
  - replace (2 * PI * (1 / 4)) with (PI / 2) by field. apply sin_PI2.
  - replace (2 * PI * (3 / 4)) with (3 * (PI / 2)) by field. apply sin_3PI2.
Qed.
