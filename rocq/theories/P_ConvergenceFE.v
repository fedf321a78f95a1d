(** C87, continued: the low order finite element solver (degree 1) converges to the exact solution of the advection equation. *)
From Coq Require Import Reals List ZArith QArith Qreals Arith Lia Lra Psatz Bool String.
From Coquelicot Require Import Coquelicot.
From Verif Require Import Prelude L_Prelude M_Mesh L_Mesh M_Quadrature M_Interpolate M_Boundary L_Boundary M_Flux L_Flux M_ShallowWater
  M_ODE S_ODE L_ODE M_TimeStepping L_TimeStepping M_Solution M_Solver S_Solver L_Solver P_Solver M_Generate M_Misc
  M_FVSolver L_FVSolver P_Quadrature S_Quadrature S_Poly L_Poly L_Quadrature L_Lagrange M_FE L_FE L_NewtonCotes S_FE S_Solve S_FELow L_FELow P_FE P_FEMatrix P_FELow P_FEMCL P_FECG P_FERun P_FEChoice
  M_FEChoice M_Benchmark M_ScalarSolver S_ScalarSolver S_FESolver L_Invariant P_ScalarSolver L_FERates P_FESolver S_Scalar L_Scalar S_Variation L_Variation P_Variation P_VariationFE
  S_Convergence L_Convergence L_Timed P_Convergence.
Import ListNotations.
Local Open Scope nat_scope.
Open Scope R_scope.
Local Open Scope list_scope.
Notation length := List.length.

Lemma Q2R_half : Q2R (1 # 2) = 1 / 2. Proof. unfold Q2R. cbn. lra. Qed.

(** ** masses and couplings of the nodes *)
Lemma degree_1_entries eig D n m s mass C : (2 <= n)%nat -> ia D < ib D -> new_mesh D n = Ok m -> new_fespace m 1 = Ok s -> eig_ok eig 1 -> eig_ok eig 2 ->
  lumped_mass eig s = Ok mass -> discrete_gradient eig s = Ok C ->
  (forall i, (i < n)%nat -> nth i mass 0 = (ib D - ia D) / INR n) /\
  forall i k, (i < n)%nat -> C i k = delta k (S i mod n) * (1 / 2) - delta k ((i + n - 1) mod n) * (1 / 2).
Proof.
  intros Hn HD Em Es HE HE1 EL EC. assert (Hn' : (0 < n)%nat) by lia. assert (Hp : (0 < 1)%nat) by lia.
  destruct (lumped_value eig D n m 1 s (fun a => nth a (weights 1) 0) mass Hn' HD Em Es HE1 (fun a Ha => weights_integral 1 a ltac:(lia) Ha) EL) as [LM HM].
  destruct (rule_full eig 1 Hp HE) as [Q [EQ [LN [LW [INC [POS EX]]]]]].
  unfold discrete_gradient in EC. rewrite (s_degree D n m 1 s Hn' HD Hp Em Es), EQ in EC. injection EC as EC.
  set (G := fun a b => integrate Q (fun x => basis_value 1 a x * basis_derivative 1 b x)).
  assert (HC : forall i j, C i j = rsum (tab n (fun c => rsum (tab 2 (fun a => delta i (fs_number s c a) * rsum (tab 2 (fun b => delta j (fs_number s c b) * G a b))))))).
  { intros x y. rewrite <- EC. rewrite (asm_matrix D n m 1 s Hn' HD Hp Em Es). apply sum_ext. intros c Hc. apply sum_ext. intros a Ha. rewrite <- rsum_tab_scal.
    apply sum_ext. intros b Hb. rewrite (gradient_entry_val D n m 1 s Hn' HD Hp Em Es). reflexivity. }
  assert (IG : forall a b, (a <= 1)%nat -> (b <= 1)%nat -> is_RInt (fun x => basis_value 1 a x * basis_derivative 1 b x) 0 1 (G a b)).
  { intros a b Ha Hb. apply EX. apply (deg_mono (2 + 1 - 1)); [lia|]. apply (deg_prod 2 1); [apply basis_deg|apply basis_deriv_deg|lia|lia]. }
  assert (OB : qbasis_ok 1 = true) by (vm_compute; reflexivity).
  assert (GV : forall a b, (a <= 1)%nat -> (b <= 1)%nat -> G a b = Q2R (qG (qbasis 1 a) (qbasis 1 b))).
  { intros a b Ha Hb. assert (X := qG_integral 1 Hp OB a b Ha Hb). assert (Y := IG a b Ha Hb).
    apply (@is_RInt_unique R_CompleteNormedModule) in X. apply (@is_RInt_unique R_CompleteNormedModule) in Y. congruence. }
  assert (G00 : G 0%nat 0%nat = - (1 / 2)). { rewrite GV by lia. replace (qG (qbasis 1 0) (qbasis 1 0)) with (-1 # 2)%Q by (vm_compute; reflexivity). unfold Q2R. cbn. lra. }
  assert (G01 : G 0%nat 1%nat = 1 / 2). { rewrite GV by lia. replace (qG (qbasis 1 0) (qbasis 1 1)) with (1 # 2)%Q by (vm_compute; reflexivity). unfold Q2R. cbn. lra. }
  assert (G10 : G 1%nat 0%nat = - (1 / 2)). { rewrite GV by lia. replace (qG (qbasis 1 1) (qbasis 1 0)) with (-1 # 2)%Q by (vm_compute; reflexivity). unfold Q2R. cbn. lra. }
  assert (G11 : G 1%nat 1%nat = 1 / 2). { rewrite GV by lia. replace (qG (qbasis 1 1) (qbasis 1 1)) with (1 # 2)%Q by (vm_compute; reflexivity). unfold Q2R. cbn. lra. }
  split.
  - intros i Hi. rewrite HM by lia. assert (PV := pick_vertex D n m 1 s Hn HD Hp Em Es i (fun _ a => (ib D - ia D) / INR n * nth a (weights 1) 0) ltac:(lia)). rewrite Nat.mul_1_r in PV.
    etransitivity; [exact PV|]. cbn [weights nth]. lra.
  - intros c k Hc. assert (RV := row_vertex D n m 1 s Hn HD Hp Em Es G C HC c k Hc). rewrite Nat.mul_1_r in RV. rewrite RV.
    rewrite !(rsum_tab_S 1), !(rsum_tab_S 0). change (rsum (tab 0 _)) with 0.
    rewrite (num_first D n m 1 s Hn HD Hp Em Es c Hc). rewrite (num_prev D n m 1 s Hn HD Hp Em Es c Hc), Nat.mul_1_r.
    assert (Hy : (prev n c < n)%nat) by (destruct c; cbn; lia).
    rewrite (num_first D n m 1 s Hn HD Hp Em Es (prev n c) Hy). rewrite Nat.mul_1_r.
    assert (X : fs_number s c 1 = (S c mod n)%nat).
    { rewrite (num_val D n m 1 s Hn' HD Hp Em Es) by lia. rewrite !Nat.mul_1_r, Nat.add_1_r. destruct (Nat.eqb_spec (S c) n) as [Z|Z]; [rewrite Z, Nat.mod_same by lia; reflexivity|rewrite Nat.mod_small by lia; reflexivity]. }
    assert (Y : prev n c = ((c + n - 1) mod n)%nat).
    { destruct c as [|c]; cbn [prev]; [rewrite Nat.mod_small by lia; lia|]. replace (S c + n - 1)%nat with (c + 1 * n)%nat by lia. rewrite Nat.mod_add, Nat.mod_small by lia. reflexivity. }
    rewrite X, Y, G00, G01, G10, G11. lra.
Qed.

Section Low.
Context (eig : nat -> (nat -> nat -> R) -> (nat -> R) * (nat -> nat -> R)) (D : interval) (n : nat) (m : mesh) (s : fespace).
Hypotheses (Hn : (3 <= n)%nat) (HD : ia D < ib D) (Em : new_mesh D n = Ok m) (Es : new_fespace m 1 = Ok s) (HE : eig_ok eig 1) (HE1 : eig_ok eig 2).
Let h := (ib D - ia D) / INR n.
Lemma low_n : (0 < n)%nat /\ (2 <= n)%nat. Proof. lia. Qed.
Lemma low_h : 0 < h. Proof. unfold h. apply Rdiv_lt_0_compat; [lra|]. apply lt_0_INR. exact (proj1 low_n). Qed.

Lemma next_before i : (i < n)%nat -> (S i mod n < n)%nat /\ ((i + n - 1) mod n < n)%nat /\ (S i mod n)%nat <> i /\ ((i + n - 1) mod n)%nat <> i /\ (S i mod n)%nat <> ((i + n - 1) mod n)%nat.
Proof.
  intro Hi. assert (A : forall k, (k mod n < n)%nat) by (intro k; apply Nat.mod_upper_bound; lia). split; [apply A|]. split; [apply A|].
  destruct (Nat.eq_dec (S i) n) as [Z|Z].
  - rewrite Z, Nat.mod_same by lia. replace (i + n - 1)%nat with ((i - 1) + 1 * n)%nat by lia. rewrite Nat.mod_add, Nat.mod_small by lia. lia.
  - rewrite (Nat.mod_small (S i)) by lia. destruct (Nat.eq_dec i 0) as [-> |Z0]; [rewrite Nat.mod_small by lia; lia|].
    replace (i + n - 1)%nat with ((i - 1) + 1 * n)%nat by lia. rewrite Nat.mod_add, Nat.mod_small by lia. lia.
Qed.
Lemma at_before u i : length u = n -> (i < n)%nat -> at_ u (Z.of_nat i - 1) = dof u ((i + n - 1) mod n).
Proof.
  intros Lu Hi. unfold at_, dof. f_equal. rewrite Lu. apply Nat2Z.inj. rewrite Nat2Z.inj_mod, Z2Nat.id by (apply Z.mod_pos_bound; lia).
  replace (Z.of_nat (i + n - 1)) with (Z.of_nat i - 1 + 1 * Z.of_nat n)%Z by lia. rewrite Z.mod_add by lia. reflexivity.
Qed.

Lemma low_upwind : upwind n h (fun _ => cg_low_rhs eig M_FE.Advection s).
Proof.
  intros t u Lu. destruct low_n as [N0 N2]. pose proof low_h as Hh. pose proof (dimension_1 D n m s N2 HD Em Es) as DN.
  assert (Lu' := Lu). rewrite <- DN in Lu'.
  destruct (C39_low_order_succeeds eig D n m 1 s M_FE.Advection u N0 HD Em Es HE HE1 ltac:(lia) Lu') as [r [_ [Er _]]].
  destruct (C39_low_order_conserves eig D n m 1 s M_FE.Advection u r N0 HD Em Es HE HE1 Lu' Er) as [_ [_ [Lr _]]].
  exists r. split; [exact Er|]. split; [congruence|]. intros i Hi.
  destruct (C37_discrete_gradient eig D n m 1 s N0 HD Em Es HE) as [C [EC [SK [RS [CS [LOC _]]]]]].
  destruct (C37_lumped_masses eig D n m 1 s N0 HD Em Es HE1) as [M [mass [_ [EL [LL _]]]]]. rewrite DN in *.
  destruct (degree_1_entries eig D n m s mass C N2 HD Em Es HE HE1 EL EC) as [Mi Ci]. fold h in Mi.
  unfold cg_low_rhs in Er. rewrite EL, EC in Er. cbn [bind] in Er. unfold low_rhs in Er. rewrite DN in Er.
  apply (mapM_nth _ _ _ 0%nat 0) in Er. rewrite seq_length in Er. destruct Er as [_ VR]. specialize (VR i Hi). rewrite seq_nth in VR by auto. cbn [Nat.add] in VR.
  rewrite (low_term n C SK (fun j _ => RS j) M_FE.Advection u i Hi Lu) in VR. rewrite (Mi i Hi) in VR. rewrite rdiv_ne in VR by lra. apply Ok_inj in VR. rewrite <- VR. clear VR. f_equal.
  destruct (next_before i Hi) as [A1 [A2 [A3 [A4 A5]]]].
  rewrite (off_two n _ i (S i mod n) ((i + n - 1) mod n)); auto.
  - rewrite !(diffusion_entry n C SK) by auto. cbn [wave_speed flux_of]. rewrite !Ci by auto. rewrite !delta_eq, (delta_ne (S i mod n)), (delta_ne ((i + n - 1) mod n)) by auto.
    rewrite Rmax_left by lra. replace (Rabs (1 * (1 / 2) - 0 * (1 / 2))) with (1 / 2) by (rewrite Rabs_right; lra). replace (Rabs (0 * (1 / 2) - 1 * (1 / 2))) with (1 / 2) by (rewrite Rabs_left; lra).
    rewrite (at_before u i Lu Hi). change (nth i u 0) with (dof u i). field.
  - intros j Hj N0' N1 N3. rewrite (diffusion_entry n C SK) by auto. rewrite Ci, !delta_ne by auto. replace (0 * (1 / 2) - 0 * (1 / 2)) with 0 by ring. rewrite Rabs_R0. ring.
Qed.

Lemma low_step_bound u step : length u = n -> fe_time_step eig M_FE.Advection s u = Ok step -> exists x, step = Some x /\ x <= h / 2.
Proof.
  intros Lu Est. destruct low_n as [N0 N2]. pose proof low_h as Hh. pose proof (dimension_1 D n m s N2 HD Em Es) as DN.
  destruct (C37_discrete_gradient eig D n m 1 s N0 HD Em Es HE) as [C [EC [SK [RS [CS [LOC _]]]]]].
  destruct (C37_lumped_masses eig D n m 1 s N0 HD Em Es HE1) as [M [mass [_ [EL [LL _]]]]].
  destruct (degree_1_entries eig D n m s mass C N2 HD Em Es HE HE1 EL EC) as [Mi Ci]. fold h in Mi.
  assert (B : forall dt, 0 < dt -> step_allows step dt -> dt <= h / 2).
  { intros dt Hdt Hs. destruct (step_masses eig M_FE.Advection s u mass C step EL EC Est dt Hdt Hs 0 ltac:(lia)) as [_ X]. rewrite DN in X.
    change (dof mass 0) with (nth 0 mass 0) in X. rewrite (Mi 0%nat N0) in X. rewrite (diffusion_abs_diag n C SK) in X by auto. destruct (next_before 0 N0) as [A1 [A2 [A3 [A4 A5]]]].
    rewrite (off_two n _ 0 (1 mod n) ((0 + n - 1) mod n)) in X; auto.
    - rewrite !(diffusion_entry n C SK) in X by auto. rewrite !Ci in X by auto. rewrite !delta_eq, (delta_ne (1 mod n)), (delta_ne ((0 + n - 1) mod n)) in X by auto. cbn [wave_speed] in X. rewrite Rmax_left in X by lra.
      replace (Rabs (1 * (1 / 2) - 0 * (1 / 2))) with (1 / 2) in X by (rewrite Rabs_right; lra). replace (Rabs (0 * (1 / 2) - 1 * (1 / 2))) with (1 / 2) in X by (rewrite Rabs_left; lra). lra.
    - intros j Hj N0' N1 N3. rewrite (diffusion_entry n C SK) by auto. rewrite Ci, !delta_ne by auto. replace (0 * (1 / 2) - 0 * (1 / 2)) with 0 by ring. rewrite Rabs_R0. ring. }
  destruct step as [x|].
  - exists x. split; [reflexivity|]. destruct (Rle_lt_dec x 0) as [Z|Z]; [lra|]. apply B; [exact Z|]. cbn. lra.
  - exfalso. specialize (B h Hh I). lra.
Qed.
End Low.

Lemma fe_spread eig solver old finite ad b a f c w us t v : ia (sb_domain b) < ib (sb_domain b) -> sb_problem b = fe_name M_FE.Advection -> ssp_method (f_ode a) ->
  used_degree a = 1%nat -> eig_ok eig 1 -> eig_ok eig 2 -> (3 <= used_cells a)%nat -> 0 < py_or (f_cfl a) default_cfl <= 1 ->
  repeats (sb_domain b) f -> (forall x, ia (sb_domain b) <= x < ib (sb_domain b) -> sb_initial b x = f x) ->
  fe_solver eig solver old (FLow ad) b a = Ok (c, w) -> (forall v, inherits_bounds (o_sol (solution_of w)) v -> finite v = true) ->
  (forall v t, ~ In (Reinit v t) us) -> shown (fst (use_run finite c us (w, []))) t v ->
  let h := (ib (sb_domain b) - ia (sb_domain b)) / INR (used_cells a) in
  0 < h /\ sb_start b <= t /\ length v = used_cells a /\ exists u0 m2, (forall z, at_ u0 z = f (ia (sb_domain b) + IZR z * h)) /\
    spread u0 ((t - sb_start b) / h) m2 v /\ m2 - (t - sb_start b) / h * ((t - sb_start b) / h) <= (t - sb_start b) / h.
Proof.
  intros HD HP HM H1 HE HE1 H3 [C0 C1] HR HI E HF NR SH h. set (D := sb_domain b) in *. set (n := used_cells a) in *. set (cfl := py_or (f_cfl a) default_cfl) in *.
  destruct (fe_solver_inv eig solver old (FLow ad) b a c w E) as [m [s [_ [_ [Em [Es _]]]]]]. fold n D in Em. rewrite H1 in Es.
  assert (N0 : (0 < n)%nat) by (clear - H3; lia). assert (N2 : (2 <= n)%nat) by (clear - H3; lia). pose proof (dimension_1 D n m s N2 HD Em Es) as DN.
  set (u0 := initial_dofs old s (sb_initial b)).
  assert (L0 : length u0 = n) by (rewrite <- DN; apply (initial_length D n m 1 s old _ N0 HD Em Es)).
  assert (ST : c_rhs c = (fun _ => cg_low_rhs eig M_FE.Advection s) /\ In (c_tab c) [euler; heun; ssp3] /\ quiet_check c /\ w = new_solver c (fun _ => u0) 1 0 (sb_start b) /\
    forall t v, call_generator (c_gen c) (t, v) = finite_step (sb_end b - sb_start b) cfl (fe_time_step eig M_FE.Advection s (if ad then v else u0)) * cfl).
  { assert (Gp : fe_problem (sb_problem b) = Ok M_FE.Advection) by (rewrite HP; reflexivity).
    assert (G : fe_solution old b (f_mesh_size a) (f_degree a) = Ok (s, u0)).
    { unfold fe_solution. change (or_default (f_mesh_size a) default_mesh_size) with n. fold D. rewrite Em. cbn [bind].
      change (or_default (f_degree a) default_polynomial_degree) with (used_degree a). rewrite H1, Es. reflexivity. }
    assert (Tb : In (match f_ode a with Some T => T | None => heun end) [euler; heun; ssp3]).
    { destruct (f_ode a) as [T|] eqn:Q; [apply HM; reflexivity|cbn; auto]. }
    assert (Es' : new_fespace m (used_degree a) = Ok s) by (rewrite H1; exact Es).
    destruct (fe_bounds_setup eig solver old (FLow ad) b a M_FE.Advection c w m s (ex_intro _ ad (or_introl eq_refl)) HP HM Em Es' C1 E) as [_ [_ [Ew [_ [_ [_ [_ [_ [Qc _]]]]]]]]].
    cbn [fe_solver] in E; unfold limited_solver in E; rewrite G, Gp in E; cbn [bind] in E; apply Ok_inj in E; injection E as E1 E2.
    rewrite <- E1 in Qc, Ew |- *. cbn [c_rhs c_tab]. repeat split; auto. intros t' v'. destruct ad; reflexivity. }
  destruct ST as [Er [HT [Qc [Ew Gn]]]].
  assert (Su : o_sol (solution_of w) = u0). { rewrite Ew. unfold solution_of, new_solver. cbn [w_mem w_sol o_sol]. rewrite store_other by (clear; lia). reflexivity. }
  rewrite Su in HF. rewrite Ew in SH. pose proof (low_h D n H3 HD) as Hh. fold h in Hh.
  destruct (upwind_run finite n h c u0 (sb_start b) us t v) as [T0 [m2 [S V]]]; auto.
  - rewrite Er. apply (low_upwind eig D n m s H3 HD Em Es HE HE1).
  - intros t' u' Lu'. rewrite Gn. set (u1 := if ad then u' else u0). assert (L1 : length u1 = n) by (unfold u1; destruct ad; auto).
    assert (L1' : length u1 = fs_dimension s) by congruence.
    destruct (step_exists eig D n m 1 s N2 HD Em Es HE HE1 ltac:(lia) M_FE.Advection u1 L1') as [step [E1 _]]. rewrite E1.
    destruct (low_step_bound eig D n m s H3 HD Em Es HE HE1 u1 step L1 E1) as [x [-> Hx]]. fold h in Hx. cbn [finite_step]. destruct (Rle_lt_dec x 0); nra.
  - split; [exact Hh|]. split; [exact T0|]. split; [destruct S; congruence|]. exists u0, m2. split; [|split; [exact S|exact V]].
    apply (at_period u0 f n D N0 HR L0). intros i Hi. destruct (C34_basis_nodes D n m 1 s old N0 HD Em Es) as [BL [_ [BV _]]].
    unfold u0, initial_dofs. rewrite (nth_map' _ _ _ 0) by (rewrite BL, DN; exact Hi). rewrite BV by lia. cbn [INR]. rewrite Rmult_1_r. fold h.
    assert (0 <= INR i) by apply pos_INR. assert (INR i < INR n) by (apply lt_INR; exact Hi). apply HI. fold D.
    split; [nra|]. assert (INR n * h = ib D - ia D) by (unfold h; field; lra). nra.
Qed.

(** node i *)
Lemma node_at D n i t t0 : let h := (ib D - ia D) / INR n in 0 < h -> ia D + IZR (Z.of_nat i) * h - (t - t0) / h * h = ia D + INR i * h - (t - t0).
Proof. intros h Hh. rewrite <- INR_IZR_INZ. field. lra. Qed.

Theorem C87_element_error : forall eig solver old finite ad b a f c w us t v, ia (sb_domain b) < ib (sb_domain b) -> sb_problem b = fe_name M_FE.Advection -> ssp_method (f_ode a) ->
  used_degree a = 1%nat -> eig_ok eig 1 -> eig_ok eig 2 -> (3 <= used_cells a)%nat -> 0 < py_or (f_cfl a) default_cfl <= 1 ->
  repeats (sb_domain b) f -> (forall x, ia (sb_domain b) <= x < ib (sb_domain b) -> sb_initial b x = f x) ->
  fe_solver eig solver old (FLow ad) b a = Ok (c, w) -> (forall v, inherits_bounds (o_sol (solution_of w)) v -> finite v = true) ->
  (forall v t, ~ In (Reinit v t) us) -> shown (fst (use_run finite c us (w, []))) t v ->
  let n := used_cells a in
  let h := (ib (sb_domain b) - ia (sb_domain b)) / INR n in
  let passed := t - sb_start b in
  let off_by i := Rabs (nth i v 0 - moved f passed (ia (sb_domain b) + INR i * h)) in
  0 <= passed /\ length v = n /\
  (forall M, smooth M f -> forall i, (i < n)%nat -> off_by i <= M / 2 * passed * h) /\
  (forall K, lipschitz K f -> forall i, (i < n)%nat -> off_by i <= K * sqrt (passed * h)).
Proof.
  intros eig solver old finite ad b a f c w us t v HD HP HM H1 HE HE1 H3 HC HR HI E HF NR SH n h passed off_by.
  destruct (fe_spread eig solver old finite ad b a f c w us t v HD HP HM H1 HE HE1 H3 HC HR HI E HF NR SH) as [Hh [T0 [Lv [u0 [m2 [HW [S V]]]]]]].
  assert (Hh' : 0 < h) by exact Hh. clear Hh. rename Hh' into Hh. split; [unfold passed; lra|]. split; [exact Lv|].
  pose proof (fun i => node_at (sb_domain b) n i t (sb_start b) Hh) as Q. cbv zeta in Q. fold h passed in Q.
  split; intros M HS i Hi.
  - pose proof (error_smooth u0 _ _ h HW M _ m2 v (Z.of_nat i) HS S V) as X. rewrite at_nth in X by (rewrite Lv; exact Hi).
    fold n in X. fold h passed in X. rewrite Q in X. replace (passed / h * h) with passed in X by (field; lra). exact X.
  - pose proof (error_lipschitz u0 _ _ h Hh HW M _ m2 v (Z.of_nat i) HS S V) as X. rewrite at_nth in X by (rewrite Lv; exact Hi).
    fold n in X. fold h passed in X. rewrite Q in X. replace (passed / h * h * h) with (passed * h) in X by (field; lra). exact X.
Qed.
Print Assumptions C87_element_error.

Theorem C87_element_solutions_converge : forall b f T eps, ia (sb_domain b) < ib (sb_domain b) -> sb_problem b = fe_name M_FE.Advection ->
  repeats (sb_domain b) f -> (forall x, ia (sb_domain b) <= x < ib (sb_domain b) -> sb_initial b x = f x) -> (forall x, continuity_pt f x) -> 0 < eps ->
  exists n0, forall n, (n0 <= n)%nat -> forall eig solver old finite ad a c w us t v, eig_ok eig 1 -> eig_ok eig 2 -> f_mesh_size a = Some n -> used_degree a = 1%nat ->
  ssp_method (f_ode a) -> 0 < py_or (f_cfl a) default_cfl <= 1 ->
  fe_solver eig solver old (FLow ad) b a = Ok (c, w) -> (forall v, inherits_bounds (o_sol (solution_of w)) v -> finite v = true) ->
  (forall v t, ~ In (Reinit v t) us) -> shown (fst (use_run finite c us (w, []))) t v -> t <= T ->
  length v = n /\ forall i, (i < n)%nat ->
    Rabs (nth i v 0 - moved f (t - sb_start b) (ia (sb_domain b) + INR i * ((ib (sb_domain b) - ia (sb_domain b)) / INR n))) <= eps.
Proof.
  intros b f T eps HD HP HR HI HK He. set (D := sb_domain b) in *.
  destruct (repeats_bounded D f HD HR HK) as [B HB]. destruct (repeats_uniform D f (eps / 2) HD HR HK ltac:(lra)) as [d [Hd Md]].
  assert (PB : 0 <= B) by (pose proof (HB 0); pose proof (Rabs_pos (f 0)); lra). set (L := ib D - ia D). assert (HL : 0 < L) by (unfold L; lra).
  set (TT := Rmax 0 (T - sb_start b)). assert (PT : 0 <= TT) by apply Rmax_l.
  set (k := 2 * B / (d * d) * TT * L). assert (Pk : 0 <= k). { unfold k. apply Rmult_le_pos; [|lra]. apply Rmult_le_pos; [|exact PT]. apply Rmult_le_pos; [lra|left; apply Rinv_0_lt_compat; nra]. }
  destruct (archimed_cor1 (eps / 2 / (k + 1)) ltac:(apply Rdiv_lt_0_compat; lra)) as [n1 [N1 N1']].
  exists (n1 + 3)%nat. intros n Hn eig solver old finite ad a c w us t v HE HE1 Ha Hd1 HM HC E HF NR SH Ht.
  assert (On : used_cells a = n) by (unfold used_cells; rewrite Ha; destruct n; [lia|reflexivity]).
  destruct (fe_spread eig solver old finite ad b a f c w us t v HD HP HM Hd1 HE HE1 ltac:(rewrite On; lia) HC HR HI E HF NR SH) as [Hh [T0 [Lv [u0 [m2 [HW [S V]]]]]]].
  rewrite On in *. fold D in Hh, HW, S, V. fold L in Hh, HW, S, V |- *. set (h := L / INR n) in *.
  split; [exact Lv|]. intros i Hi.
  assert (I1 : 0 < INR n1) by (apply lt_0_INR; lia). assert (I0 : INR n1 <= INR n) by (apply le_INR; lia).
  assert (In : 0 < INR n) by lra.
  assert (H1 : / INR n <= / INR n1) by (apply Rinv_le_contravar; lra).
  pose proof (error_modulus u0 _ _ h (eps / 2) d B _ m2 v (Z.of_nat i) Hh HW Hd ltac:(lra) Md HB S V) as X. rewrite at_nth in X by lia.
  pose proof (node_at D n i t (sb_start b) Hh) as Q. fold L in Q. fold h in Q. rewrite Q in X.
  replace ((t - sb_start b) / h * h * h) with ((t - sb_start b) * h) in X by (field; lra).
  assert (Z : 2 * B / (d * d) * ((t - sb_start b) * h) <= eps / 2).
  { assert (Tt : t - sb_start b <= TT) by (pose proof (Rmax_r 0 (T - sb_start b)); unfold TT; lra).
    apply (Rle_trans _ (k * / INR n)).
    - unfold k. replace (2 * B / (d * d) * TT * L * / INR n) with (2 * B / (d * d) * (TT * h)) by (unfold h; field; lra).
      apply Rmult_le_compat_l; [apply Rmult_le_pos; [lra|left; apply Rinv_0_lt_compat; nra]|]. apply Rmult_le_compat_r; lra.
    - apply (Rle_trans _ ((k + 1) * (eps / 2 / (k + 1)))); [|apply Req_le; field; lra]. assert (0 < / INR n) by (apply Rinv_0_lt_compat; lra).
      apply (Rle_trans _ ((k + 1) * / INR n)); [apply Rmult_le_compat_r; lra|]. apply Rmult_le_compat_l; lra. }
  unfold moved. apply abs_inv in X. apply Rabs_le. lra.
Qed.
Print Assumptions C87_element_solutions_converge.
