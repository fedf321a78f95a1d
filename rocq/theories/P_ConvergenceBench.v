(** C87, continued: the errors against the exact solutions that the benchmarks of the advection equation offer. *)
From Coq Require Import String Reals List Arith ZArith Bool Lia Lra Psatz.
From Verif Require Import Prelude L_Prelude M_Mesh L_Mesh M_FE M_Quadrature S_Quadrature M_Interpolate M_Boundary S_Boundary M_Flux L_Flux
  M_ODE S_ODE M_TimeStepping L_TimeStepping M_Solution M_Solver S_Solver L_Solver M_Generate M_Scalar S_Scalar L_Scalar M_ShallowWater S_ShallowWater M_FVSolver S_FVSolver L_FVSolver
  M_Benchmark P_Benchmark M_ScalarSolver S_ScalarSolver M_Misc P_FVWater P_FVLake P_ScalarSolver P_FESolver P_FEMatrix S_Solve M_FEChoice S_FESolver
  S_Variation P_Variation P_VariationFE S_Convergence L_Convergence P_Convergence P_ConvergenceFE S_CommandRun P_CommandCalc P_VariationLine P_ConvergenceLine.
Import ListNotations.
Open Scope R_scope.
Notation length := List.length.

(** ** the exact solution at time 0, as a function on the line *)
Definition line_data (u0 : R -> R) (x : R) : R := advection_exact u0 x 0.
Lemma line_repeats u0 : repeats unit_interval (line_data u0).
Proof. intro x. unfold line_data. cbn [unit_interval ia ib]. replace (x + (1 - 0)) with (x + IZR 1) by lra. apply (C49_advection u0 x 0 0 1%Z). Qed.
Lemma line_moved u0 t x : moved (line_data u0) t x = advection_exact u0 x t.
Proof. unfold moved, line_data. destruct (C49_advection u0 (x - t) 0 t 0%Z) as [Q _]. rewrite <- Q. f_equal; lra. Qed.
Lemma line_inside u0 x : 0 <= x < 1 -> u0 x = line_data u0 x.
Proof. intro H. symmetry. destruct (C49_advection u0 x 0 0 0%Z) as [_ [_ [_ [Q _]]]]. exact (Q H). Qed.
Lemma line_data_Z u0 x k : line_data u0 (x + IZR k) = line_data u0 x.
Proof. apply (C49_advection u0 x 0 0 k). Qed.

Lemma cosine_line x : line_data cosine x = cosine x.
Proof.
  pose proof (archimed x) as [A1 A2]. set (k := (up x - 1)%Z). assert (Hk : IZR k = IZR (up x) - 1) by (unfold k; rewrite minus_IZR; reflexivity).
  replace x with (x - IZR k + IZR k) at 1 by lra. rewrite line_data_Z, <- line_inside by lra. unfold cosine.
  replace (2 * PI * (x - 1 / 2)) with (2 * PI * (x - IZR k - 1 / 2) + 2 * PI * IZR k) by lra.
  assert (P : forall y n, cos (y + 2 * PI * INR n) = cos y). { intros y n. replace (y + 2 * PI * INR n) with (y + 2 * INR n * PI) by ring. apply cos_period. }
  destruct (Z_le_dec 0 k) as [H|H].
  - rewrite <- (Z2Nat.id k H), <- INR_IZR_INZ. symmetry. apply P.
  - replace (IZR k) with (- INR (Z.to_nat (- k))) by (rewrite INR_IZR_INZ, Z2Nat.id, opp_IZR by lia; lra).
    set (y := 2 * PI * (x - - INR (Z.to_nat (- k)) - 1 / 2) + 2 * PI * - INR (Z.to_nat (- k))).
    rewrite <- (P y (Z.to_nat (- k))). f_equal. unfold y. ring.
Qed.
Lemma lim_eq f x a b : derivable_pt_lim f x a -> a = b -> derivable_pt_lim f x b.
Proof. intros H <-. exact H. Qed.
Lemma cosine_smooth : smooth (4 * (PI * PI)) (line_data cosine).
Proof.
  exists (fun x => - (2 * PI) * sin (2 * PI * (x - 1 / 2))), (fun x => - (4 * (PI * PI)) * cos (2 * PI * (x - 1 / 2))).
  assert (L : forall x, derivable_pt_lim (fun x => 2 * PI * (x - 1 / 2)) x (2 * PI)).
  { intro x. apply (lim_eq _ _ (0 * (x - 1 / 2) + 2 * PI * (1 - 0))); [|ring]. apply (derivable_pt_lim_mult (fun _ => 2 * PI) (fun x => x - 1 / 2)); [apply derivable_pt_lim_const|].
    apply (derivable_pt_lim_minus (fun x => x) (fun _ => 1 / 2)); [apply derivable_pt_lim_id|apply derivable_pt_lim_const]. }
  split; [|split].
  - intro x. assert (Q : derivable_pt_lim cosine x (- (2 * PI) * sin (2 * PI * (x - 1 / 2)))).
    { unfold cosine. apply (lim_eq _ _ (- sin (2 * PI * (x - 1 / 2)) * (2 * PI))); [|ring]. apply (derivable_pt_lim_comp (fun x => 2 * PI * (x - 1 / 2)) cos); [apply L|apply derivable_pt_lim_cos]. }
    intros eps He. destruct (Q eps He) as [d Hd]. exists d. intros h H1 H2. rewrite !cosine_line. exact (Hd h H1 H2).
  - intro x. apply (lim_eq _ _ (0 * sin (2 * PI * (x - 1 / 2)) + - (2 * PI) * (cos (2 * PI * (x - 1 / 2)) * (2 * PI)))); [|ring].
    apply (derivable_pt_lim_mult (fun _ => - (2 * PI)) (fun x => sin (2 * PI * (x - 1 / 2)))); [apply derivable_pt_lim_const|].
    apply (derivable_pt_lim_comp (fun x => 2 * PI * (x - 1 / 2)) sin); [apply L|apply derivable_pt_lim_sin].
  - intro x. pose proof (COS_bound (2 * PI * (x - 1 / 2))). pose proof PI_RGT_0. rewrite Rabs_mult, Rabs_Ropp. rewrite (Rabs_right (4 * (PI * PI))) by nra.
    assert (Rabs (cos (2 * PI * (x - 1 / 2))) <= 1) by (apply Rabs_le; lra). assert (0 <= 4 * (PI * PI)) by nra. nra.
Qed.

(** the slope inside the domain is the slope everywhere when the ends fit together *)
Lemma line_lipschitz u0 K : 0 <= K -> u0 0 = u0 1 -> (forall x y, 0 <= x <= 1 -> 0 <= y <= 1 -> Rabs (u0 x - u0 y) <= K * Rabs (x - y)) -> lipschitz K (line_data u0).
Proof.
  intros HK H01 HL.
  assert (I : forall z, 0 <= z <= 1 -> line_data u0 z = u0 z) by (intros z Hz; apply (C49_advection u0 z 0 0 0%Z); auto).
  assert (One : forall k a b, IZR k <= a <= IZR k + 1 -> IZR k <= b <= IZR k + 1 -> Rabs (line_data u0 a - line_data u0 b) <= K * Rabs (a - b)).
  { intros k a b Ha Hb. replace a with (a - IZR k + IZR k) at 1 by lra. replace b with (b - IZR k + IZR k) at 1 by lra. rewrite !line_data_Z, !I by lra.
    eapply Rle_trans; [apply HL; lra|]. right. do 2 f_equal. lra. }
  assert (Ord : forall a b, a <= b -> Rabs (line_data u0 a - line_data u0 b) <= K * Rabs (a - b)).
  { intros a b Hab. pose proof (archimed a) as [A1 A2]. pose proof (archimed b) as [B1 B2]. assert (U : IZR (up a) <= IZR (up b)). { apply IZR_le. assert (IZR (up a) < IZR (up b + 1)) by (rewrite plus_IZR; lra). apply lt_IZR in H. lia. }
    assert (M1 : forall z, IZR (z - 1) = IZR z - 1) by (intro z; rewrite minus_IZR; reflexivity).
    destruct (Z.eq_dec (up a) (up b)) as [E|E].
    - apply (One (up a - 1)%Z); rewrite M1; rewrite ?E; rewrite E in *; lra.
    - assert (U' : IZR (up a) <= IZR (up b) - 1). { rewrite <- M1. apply IZR_le. apply le_IZR in U. lia. }
      pose proof (One (up a - 1)%Z a (IZR (up a)) ltac:(rewrite M1; lra) ltac:(rewrite M1; lra)) as P.
      pose proof (One (up b - 1)%Z (IZR (up b - 1)) b ltac:(rewrite M1; lra) ltac:(rewrite M1; lra)) as Q.
      replace (line_data u0 (IZR (up b - 1))) with (line_data u0 (IZR (up a))) in Q by (rewrite <- (line_data_Z u0 (IZR (up a)) (up b - 1 - up a)); f_equal; rewrite <- plus_IZR; f_equal; lia).
      rewrite M1 in Q. rewrite (Rabs_left1 (a - IZR (up a))) in P by lra. rewrite (Rabs_left1 (IZR (up b) - 1 - b)) in Q by lra. rewrite (Rabs_left1 (a - b)) by lra.
      replace (line_data u0 a - line_data u0 b) with ((line_data u0 a - line_data u0 (IZR (up a))) + (line_data u0 (IZR (up a)) - line_data u0 b)) by ring.
      eapply Rle_trans; [apply Rabs_triang|]. nra. }
  intros x y. destruct (Rle_dec x y) as [H|H]; [apply Ord; exact H|]. rewrite Rabs_minus_sym, (Rabs_minus_sym x y). apply Ord. lra.
Qed.
Lemma bell_lipschitz : lipschitz 10 (line_data gaussian_bell).
Proof.
  apply line_lipschitz; [lra|unfold gaussian_bell; f_equal; field|]. intros x y _ _.
  set (d := fun x => exp (-100 * (x - 1 / 2) ^ 2) * (-200 * (x - 1 / 2))).
  assert (HD : forall z, derivable_pt_lim gaussian_bell z (d z)).
  { intro z. unfold gaussian_bell, d. apply (derivable_pt_lim_comp (fun x => -100 * (x - 1 / 2) ^ 2) exp); [|apply derivable_pt_lim_exp].
    replace (-200 * (z - 1 / 2)) with (0 * (z - 1 / 2) ^ 2 + -100 * (INR 2 * (z - 1 / 2) ^ pred 2 * (1 - 0))) by (cbn [INR pred]; ring).
    apply (derivable_pt_lim_mult (fun _ => -100) (fun x => (x - 1 / 2) ^ 2)); [apply derivable_pt_lim_const|].
    apply (derivable_pt_lim_comp (fun x => x - 1 / 2) (fun x => x ^ 2)); [|apply (derivable_pt_lim_pow (z - 1 / 2) 2)].
    apply (derivable_pt_lim_minus (fun x => x) (fun _ => 1 / 2)); [apply derivable_pt_lim_id|apply derivable_pt_lim_const]. }
  assert (B : forall z, Rabs (d z) <= 10).
  { intro z. unfold d. set (s := z - 1 / 2). rewrite Rabs_mult, (Rabs_right (exp _)) by (left; apply exp_pos). set (q := 100 * (s * s)). replace (-100 * s ^ 2) with (- q) by (unfold q; ring).
    rewrite exp_Ropp. rewrite Rabs_mult, Rabs_left by lra. pose proof (exp_ineq1_le q) as E. assert (0 <= q) by (unfold q; nra). 
    pose proof (Rabs_pos s) as S0. assert (S2 : Rabs s * Rabs s = s * s) by (rewrite <- Rabs_mult; apply Rabs_right; nra).
    apply (Rmult_le_reg_l (exp q)); [apply exp_pos|]. rewrite <- Rmult_assoc, Rinv_r by (pose proof (exp_pos q); lra).
    assert (20 * Rabs s <= 1 + q) by (unfold q; rewrite <- S2; pose proof (Rle_0_sqr (1 - 10 * Rabs s)) as W; unfold Rsqr in W; lra). lra. }
  assert (V : forall a b, a < b -> Rabs (gaussian_bell a - gaussian_bell b) <= 10 * Rabs (a - b)).
  { intros a b Hab. assert (pr : derivable gaussian_bell) by (intro z; exists (d z); apply HD). destruct (MVT_cor1 gaussian_bell a b pr Hab) as [z [Hz _]].
    rewrite (derive_pt_eq_0 _ _ _ (pr z) (HD z)) in Hz. rewrite Rabs_minus_sym, Hz, Rabs_mult, (Rabs_minus_sym a b). pose proof (B z). pose proof (Rabs_pos (b - a)). nra. }
  destruct (Rtotal_order x y) as [H|[->|H]]; [apply V; exact H|unfold Rminus; rewrite !Rplus_opp_r, Rabs_R0; lra|]. rewrite Rabs_minus_sym, (Rabs_minus_sym x y). apply V. exact H.
Qed.

(** ** the benchmarks *)
Lemma bench_fv eig finite u0 lo e a us : eig2_works eig -> u0 = cosine /\ lo = -1 \/ u0 = gaussian_bell /\ lo = 0 -> ssp_method (a_ode a) -> 0 < py_or (a_cfl a) default_cfl <= 1 ->
  (forall v, in_range lo 1 v -> finite v = true) -> (forall v t, ~ In (Reinit v t) us) ->
  let n := or_default (a_mesh_size a) default_mesh_size in
  let h := 1 / INR n in
  exists c w, scalar_solver eig SLLF (advection_benchmark u0 e) a = Ok (c, w) /\ forall t v, shown (fst (use_run finite c us (w, []))) t v ->
    0 <= t /\ length v = n /\
    (forall M, smooth M (line_data u0) -> forall i, (i < n)%nat -> Rabs (nth i v 0 - advection_exact u0 ((INR i + 1 / 2) * h) t) <= M / 2 * t * h + M / 24 * (h * h)) /\
    (forall K, lipschitz K (line_data u0) -> forall i, (i < n)%nat -> Rabs (nth i v 0 - advection_exact u0 ((INR i + 1 / 2) * h) t) <= K * (sqrt (t * h) + sqrt (1 / 12) * h)).
Proof.
  intros HE Hu HM HC HF NR n h. set (b := advection_benchmark u0 e).
  assert (HD : ia (sb_domain b) < ib (sb_domain b)) by (cbn; lra). assert (S : side_names (sb_conditions b) "periodic" "periodic") by (cbn; auto).
  assert (Hb : forall x, lo <= u0 x <= 1) by (apply (C49_advection_data u0 lo); tauto).
  assert (Hn : (0 < n)%nat) by (apply or_default_pos; unfold default_mesh_size; lia).
  destruct (C69_scalar_solvers_can_be_built eig SLLF b a M_Scalar.Advection _ _ HE HD eq_refl S) as [c [w [E _]]]; [cbn; tauto|cbn; tauto|].
  exists c, w. split; [exact E|]. intros t v SH.
  assert (HF' : forall v, inherits_bounds (o_sol (solution_of w)) v -> finite v = true).
  { intros y [_ Hy]. apply HF. intros x Hx. apply (Hy lo 1); [|exact Hx]. rewrite (first_values eig SLLF b a c w n HE HD E eq_refl Hn). intros z Hz. apply (In_nth _ _ 0) in Hz as [i [Hi <-]]. rewrite tab_length in Hi. rewrite nth_tab by auto.
    apply average_between; auto. }
  assert (HI : forall x, ia (sb_domain b) <= x < ib (sb_domain b) -> sb_initial b x = line_data u0 x) by (intros x Hx; apply line_inside; exact Hx).
  assert (Eh : (ib (sb_domain b) - ia (sb_domain b)) / INR n = h) by (cbn; unfold h; f_equal; lra).
  assert (Ep : t - sb_start b = t) by (cbn; lra).
  assert (Em : forall i, moved (line_data u0) (t - sb_start b) (middle (sb_domain b) n i) = advection_exact u0 ((INR i + 1 / 2) * h) t).
  { intro i. rewrite line_moved, Ep. unfold middle. rewrite Eh. f_equal. cbn. lra. }
  destruct (fv_spread eig finite b a (line_data u0) HE HD eq_refl S (line_repeats u0) HI HM HC c w us t v E HF' NR SH) as [_ [_ [T0 [Lv _]]]].
  split; [cbn in T0; exact T0|]. split; [exact Lv|]. split.
  - intros B HB i Hi. destruct (C87_error_of_smooth_solutions eig finite b a (line_data u0) B c w us t v HE HD eq_refl S (line_repeats u0) HI HB HM HC E HF' NR SH) as [_ [_ X]].
    specialize (X i Hi). fold n in X. rewrite Em, Eh, Ep in X. exact X.
  - intros B HB i Hi. destruct (C87_error_of_rough_solutions eig finite b a (line_data u0) B c w us t v HE HD eq_refl S (line_repeats u0) HI HB HM HC E HF' NR SH) as [_ [_ X]].
    specialize (X i Hi). fold n in X. rewrite Em, Eh, Ep in X. exact X.
Qed.

(** The cosine and the Gaussian bell with the Lax-Friedrichs solver, for all options: the values of the cells against the exact solution
    of the benchmark in the middle of the cells, at all times that are shown. *)
Theorem C87_advection_benchmarks : forall eig finite e a us, eig2_works eig -> ssp_method (a_ode a) -> 0 < py_or (a_cfl a) default_cfl <= 1 ->
  (forall v, in_range (-1) 1 v -> finite v = true) -> (forall v t, ~ In (Reinit v t) us) ->
  let n := or_default (a_mesh_size a) default_mesh_size in
  let h := 1 / INR n in
  (exists c w, scalar_solver eig SLLF (advection_benchmark cosine e) a = Ok (c, w) /\ forall t v, shown (fst (use_run finite c us (w, []))) t v ->
    0 <= t /\ length v = n /\ forall i, (i < n)%nat -> Rabs (nth i v 0 - advection_exact cosine ((INR i + 1 / 2) * h) t) <= 2 * (PI * PI) * t * h + PI * PI / 6 * (h * h)) /\
  (exists c w, scalar_solver eig SLLF (advection_benchmark gaussian_bell e) a = Ok (c, w) /\ forall t v, shown (fst (use_run finite c us (w, []))) t v ->
    0 <= t /\ length v = n /\ forall i, (i < n)%nat -> Rabs (nth i v 0 - advection_exact gaussian_bell ((INR i + 1 / 2) * h) t) <= 10 * (sqrt (t * h) + sqrt (1 / 12) * h)).
Proof.
  intros eig finite e a us HE HM HC HF NR n h. split.
  - destruct (bench_fv eig finite cosine (-1) e a us HE ltac:(auto) HM HC HF NR) as [c [w [E X]]]. exists c, w. split; [exact E|]. intros t v SH. destruct (X t v SH) as [T0 [Lv [Y _]]].
    split; [exact T0|]. split; [exact Lv|]. intros i Hi. eapply Rle_trans; [apply (Y _ cosine_smooth i Hi)|]. right. fold n h. field.
  - assert (HF' : forall v, in_range 0 1 v -> finite v = true) by (intros v Hv; apply HF; intros x Hx; specialize (Hv x Hx); lra).
    destruct (bench_fv eig finite gaussian_bell 0 e a us HE ltac:(auto) HM HC HF' NR) as [c [w [E X]]]. exists c, w. split; [exact E|]. intros t v SH. destruct (X t v SH) as [T0 [Lv [_ Y]]].
    split; [exact T0|]. split; [exact Lv|]. exact (Y 10 bell_lipschitz).
Qed.
Print Assumptions C87_advection_benchmarks.

(** the low order finite element solver on the nodes *)
Theorem C87_element_benchmarks : forall eig solver old finite ad e a us, eig_ok eig 1 -> eig_ok eig 2 -> ssp_method (f_ode a) -> used_degree a = 1%nat -> (3 <= used_cells a)%nat -> 0 < py_or (f_cfl a) default_cfl <= 1 ->
  (forall v, in_range (-1) 1 v -> finite v = true) -> (forall v t, ~ In (Reinit v t) us) ->
  let n := used_cells a in
  let h := 1 / INR n in
  (exists c w, fe_solver eig solver old (FLow ad) (advection_benchmark cosine e) a = Ok (c, w) /\ forall t v, shown (fst (use_run finite c us (w, []))) t v ->
    0 <= t /\ length v = n /\ forall i, (i < n)%nat -> Rabs (nth i v 0 - advection_exact cosine (INR i * h) t) <= 2 * (PI * PI) * t * h) /\
  (exists c w, fe_solver eig solver old (FLow ad) (advection_benchmark gaussian_bell e) a = Ok (c, w) /\ forall t v, shown (fst (use_run finite c us (w, []))) t v ->
    0 <= t /\ length v = n /\ forall i, (i < n)%nat -> Rabs (nth i v 0 - advection_exact gaussian_bell (INR i * h) t) <= 10 * sqrt (t * h)).
Proof.
  intros eig solver old finite ad e a us HE1 HE HM H1 H3 HC HF NR n h.
  assert (G : forall u0, u0 = cosine \/ u0 = gaussian_bell -> exists c w, fe_solver eig solver old (FLow ad) (advection_benchmark u0 e) a = Ok (c, w) /\ forall t v, shown (fst (use_run finite c us (w, []))) t v ->
    0 <= t /\ length v = n /\
    (forall M, smooth M (line_data u0) -> forall i, (i < n)%nat -> Rabs (nth i v 0 - advection_exact u0 (INR i * h) t) <= M / 2 * t * h) /\
    (forall K, lipschitz K (line_data u0) -> forall i, (i < n)%nat -> Rabs (nth i v 0 - advection_exact u0 (INR i * h) t) <= K * sqrt (t * h))).
  { intros u0 Hu. set (b := advection_benchmark u0 e). assert (HD : ia (sb_domain b) < ib (sb_domain b)) by (cbn; lra).
    assert (Hb : forall x, -1 <= u0 x <= 1). { intro x. destruct Hu as [-> | ->]; [apply (C49_advection_data cosine (-1)); tauto|]. assert (0 <= gaussian_bell x <= 1) by (apply (C49_advection_data gaussian_bell 0); tauto). lra. }
    destruct (C71_fe_solvers_can_be_built eig solver old (FLow ad) b a M_FE.Advection HD eq_refl ltac:(intros; discriminate)) as [c [w [E _]]].
    exists c, w. split; [exact E|]. intros t v SH.
    pose proof (element_values eig solver old (FLow ad) b a c w n E HD (or_introl eq_refl) eq_refl H1) as St.
    assert (HF' : forall v, inherits_bounds (o_sol (solution_of w)) v -> finite v = true).
    { intros y [_ Hy]. apply HF. intros x Hx. apply (Hy (-1) 1); [|exact Hx]. rewrite St. intros z Hz. apply (In_nth _ _ 0) in Hz as [i [Hi <-]]. rewrite tab_length in Hi. rewrite nth_tab by auto. apply Hb. }
    assert (HI : forall x, ia (sb_domain b) <= x < ib (sb_domain b) -> sb_initial b x = line_data u0 x) by (intros x Hx; apply line_inside; exact Hx).
    destruct (C87_element_error eig solver old finite ad b a (line_data u0) c w us t v HD eq_refl HM H1 HE1 HE H3 HC (line_repeats u0) HI E HF' NR SH) as [T0 [Lv [X Y]]].
    fold n in Lv, X, Y. assert (Eh : (ib (sb_domain b) - ia (sb_domain b)) / INR n = h) by (cbn; unfold h; f_equal; lra).
    assert (Ep : t - sb_start b = t) by (cbn; lra). rewrite Ep in T0. rewrite Eh, Ep in X, Y.
    assert (Em : forall i, moved (line_data u0) t (ia (sb_domain b) + INR i * h) = advection_exact u0 (INR i * h) t) by (intro i; rewrite line_moved; f_equal; cbn; lra).
    split; [exact T0|]. split; [exact Lv|]. split.
    - intros B HB i Hi. specialize (X B HB i Hi). rewrite Em in X. exact X.
    - intros B HB i Hi. specialize (Y B HB i Hi). rewrite Em in Y. exact Y. }
  split.
  - destruct (G cosine ltac:(auto)) as [c [w [E X]]]. exists c, w. split; [exact E|]. intros t v SH. destruct (X t v SH) as [T0 [Lv [Y _]]].
    split; [exact T0|]. split; [exact Lv|]. intros i Hi. eapply Rle_trans; [apply (Y _ cosine_smooth i Hi)|]. right. field.
  - destruct (G gaussian_bell ltac:(auto)) as [c [w [E X]]]. exists c, w. split; [exact E|]. intros t v SH. destruct (X t v SH) as [T0 [Lv [_ Y]]].
    split; [exact T0|]. split; [exact Lv|]. exact (Y 10 bell_lipschitz).
Qed.
Print Assumptions C87_element_benchmarks.

(** The conditions can be met: options with a history, a third order method and the largest CFL number; the data show that the errors are not trivial. *)
Example C87_ex : exists eig, eig_ok eig 1 /\ eig_ok eig 2 /\
  let a := {| a_mesh_size := Some 40%nat; a_cfl := Some 1; a_ode := Some ssp3; a_history := true |} in
  let a' := {| f_mesh_size := Some 40%nat; f_degree := None; f_cfl := Some 1; f_ode := Some ssp3; f_history := true |} in
  ssp_method (a_ode a) /\ 0 < py_or (a_cfl a) default_cfl <= 1 /\ ssp_method (f_ode a') /\ used_degree a' = 1%nat /\ (3 <= used_cells a')%nat /\ 0 < py_or (f_cfl a') default_cfl <= 1 /\
  advection_exact cosine (1 / 2) (1 / 4) = 0 /\ advection_exact cosine (1 / 2) (1 / 2) = -1.
Proof.
  destruct (P_Gauss.C43_decomposition_exists 2) as [eig HE]. exists eig. split; [apply HE; lia|]. split; [apply HE; lia|]. cbv zeta.
  assert (C : py_or (Some 1) default_cfl = 1) by (unfold py_or; destruct (Reqb_spec 1 0); [lra|reflexivity]). cbn [a_cfl f_cfl]. rewrite C.
  split; [intros T X; injection X as <-; cbn; auto|]. split; [lra|]. split; [intros T X; injection X as <-; cbn; auto|]. split; [reflexivity|]. split; [cbn; lia|]. split; [lra|].
  split; rewrite <- line_moved; unfold moved; rewrite cosine_line; unfold cosine.
  - replace (2 * PI * (1 / 2 - 1 / 4 - 1 / 2)) with (- (PI / 2)) by field. rewrite cos_neg. apply cos_PI2.
  - replace (2 * PI * (1 / 2 - 1 / 2 - 1 / 2)) with (- PI) by field. rewrite cos_neg. apply cos_PI.
Qed.
