(** C57: runs of the finite element schemes conserve the integral, and those of the low order and limited schemes the bounds. *)
From Coq Require Import Reals List Lia Lra Arith.
From Coquelicot Require Import Coquelicot.
From Verif Require Import Prelude L_Prelude M_ODE S_ODE L_ODE M_Mesh M_Flux L_Flux M_Boundary L_Boundary M_Quadrature M_FE L_FE S_FE S_Solve S_FELow L_FELow P_FE P_FEMatrix P_FELow P_FEMCL P_FECG.
Import ListNotations.
Open Scope R_scope.

(** The right hand sides of the three schemes; time does not enter. *)
Definition fe_scheme (eig : nat -> (nat -> nat -> R) -> (nat -> R) * (nat -> nat -> R)) solver pr s : list (list R -> result (list R)) :=
  [cg_rhs eig solver pr s true; cg_rhs eig solver pr s false; cg_low_rhs eig pr s; mcl_rhs eig pr s].

Lemma step_all l dt : (forall x, In x l -> step_allows x dt) -> step_allows (fold_right step_min None l) dt.
Proof.
  induction l as [|y l IH]; intro H; [exact I|]. cbn [fold_right]. assert (A := H y (or_introl eq_refl)). specialize (IH (fun x Hx => H x (or_intror Hx))).
  destruct y as [a|], (fold_right step_min None l) as [b|]; cbn in *; auto. apply Rmin_glb; auto.
Qed.

Lemma weighted_sum (mass u : list R) : length u = length mass -> rsum (map2 Rmult mass u) = rsum (tab (length mass) (fun i => nth i mass 0 * nth i u 0)).
Proof. intro H. rewrite (list_tab 0 mass) at 1. rewrite (list_tab 0 u) at 1. rewrite H, map2_tab. reflexivity. Qed.
(** the integral of a finite element is the sum of its values weighted with the lumped masses *)
Lemma element_integral eig D n m p s mass u : (0 < n)%nat -> ia D < ib D -> new_mesh D n = Ok m -> new_fespace m p = Ok s -> eig_ok eig (p + 1) ->
  lumped_mass eig s = Ok mass -> length u = fs_dimension s -> integral_over (m_cells m) (element s u) (rsum (map2 Rmult mass u)).
Proof.
  intros Hn HD Em Es HE EL Lu. assert (Hp := space_degree m p s Es).
  destruct (C37_mass_matrix eig D n m p s Hn HD Em Es HE) as [M [EM [SY [_ [FORM _]]]]].
  destruct (C37_lumped_masses eig D n m p s Hn HD Em Es HE) as [M' [mass' [EM' [EL' [LL [V _]]]]]]. rewrite EL in EL'. apply Ok_inj in EL'. subst mass'. rewrite EM in EM'. apply Ok_inj in EM'. subst M'.
  assert (LC : length (m_cells m) = n) by (rewrite (cells_tab D n m p s Hn HD Hp Em Es); apply tab_length).
  assert (DM := s_dim D n m p s Hn HD Hp Em Es).
  assert (X := FORM u (repeat 1 (n * p))).
  apply (integral_change _ _ (element s u)) in X; [|intros c x Hc; rewrite (constant_element D n m p s Hn HD Hp Em Es) by lia; ring].
  eassert (Y : rsum _ = _); [|rewrite Y in X; exact X]. rewrite weighted_sum by lia. rewrite LL. apply sum_ext. intros i Hi. destruct (V i Hi) as [-> _]. unfold dof at 1. rewrite Rmult_comm. f_equal.
  apply sum_ext. intros j Hj. unfold dof. rewrite nth_repeat_lt by lia. ring.
Qed.

Theorem C57_runs_conserve_mass : forall eig solver D n m p s pr rhs T dts t0 u0 o,
  (0 < n)%nat -> ia D < ib D -> new_mesh D n = Ok m -> new_fespace m p = Ok s -> eig_ok eig p -> eig_ok eig (p + 1) -> eig_ok eig (2 ^ p) ->
  solves solver (fs_dimension s) -> In rhs (fe_scheme eig solver pr s) ->
  length u0 = fs_dimension s -> In T [euler; heun; ssp3; rk8] ->
  rk_run_e (fun _ => rhs) T dts {| o_time := t0; o_sol := u0 |} = Ok o ->
  length (o_sol o) = fs_dimension s /\
  exists l, integral_over (m_cells m) (element s u0) l /\ integral_over (m_cells m) (element s (o_sol o)) l.
Proof.
  intros eig solver D n m p s pr rhs T dts t0 u0 o Hn HD Em Es HE HE1 HE2 HS HR Lu HT ER.
  destruct (C37_lumped_masses eig D n m p s Hn HD Em Es HE1) as [M [mass [_ [EL [LL _]]]]].
  destruct (rk_run_e_linear (fun l => length l = fs_dimension s) (fun _ => rhs) (repeat 0 (fs_dimension s)) T dts {| o_time := t0; o_sol := u0 |} o (fun u => rsum (map2 Rmult mass u))) as [A B]; auto.
  - intros a b La Lb. rewrite !weighted_sum by (cbn; rewrite ?map2_length; lia). rewrite <- rsum_tab_plus. apply sum_ext. intros i Hi. cbn. rewrite (nth_map2 _ _ _ _ 0 0 0) by lia. ring.
  - intros r a La. rewrite !weighted_sum by (cbn; rewrite ?map_length; lia). rewrite <- rsum_tab_scal. apply sum_ext. intros i Hi. cbn. rewrite (nth_map' _ _ _ 0 0) by lia. ring.
  - apply repeat_length.
  - rewrite weighted_sum by (rewrite repeat_length; lia). apply rsum_tab_0. intros i Hi. rewrite nth_repeat_lt by lia. ring.
  - intros t u v Hu Ev. cbn [fe_scheme In] in HR.
    assert (CG : forall exact, cg_rhs eig solver pr s exact u = Ok v -> length v = fs_dimension s /\ rsum (map2 Rmult mass v) = 0).
    { intros exact E. assert (Lv : length v = fs_dimension s).
      { destruct (C55_cg_weak_form eig solver D n m p s pr exact u Hn HD Em Es HE HE1 HE2 HS Hu) as [r [E' [Lr _]]]. rewrite E in E'. apply Ok_inj in E'. subst r. exact Lr. }
      split; [exact Lv|]. apply (integral_unique _ _ _ _ (element_integral eig D n m p s mass v Hn HD Em Es HE1 EL Lv)).
      apply (C55_cg_conserves eig solver D n m p s pr exact u v); auto. }
    destruct HR as [<-|[<-|[<-|[<-|[]]]]].
    + apply (CG true Ev).
    + apply (CG false Ev).
    + destruct (C39_low_order_conserves eig D n m p s pr u v Hn HD Em Es HE HE1 Hu Ev) as [mass' [EL' X]]. rewrite EL in EL'. apply Ok_inj in EL'. subst mass'. exact X.
    + destruct (C40_mcl_conserves eig D n m p s pr u v Hn HD Em Es HE HE1 Hu Ev) as [mass' [EL' X]]. rewrite EL in EL'. apply Ok_inj in EL'. subst mass'. exact X.
  - apply tableau_rows; auto.
  - cbn [o_sol] in *. split; [exact B|]. exists (rsum (map2 Rmult mass u0)). split; [|rewrite <- A]; apply (element_integral eig D n m p s mass); auto.
Qed.

(** Bounds. [speed] is a bound of the wave speeds of all states between lo and hi. *)
Definition top_speed (pr : problem) (lo hi : R) : R := match pr with Advection => 1 | Burgers => Rmax (Rabs lo) (Rabs hi) end.
Lemma speed_le pr lo hi u : lo <= u <= hi -> wave_speed pr u <= top_speed pr lo hi.
Proof.
  intro H. destruct pr; cbn; [lra|]. unfold Rmax, Rabs. destruct Rle_dec; repeat destruct Rcase_abs; lra.
Qed.
Lemma uniform_step eig D n m p s pr u u0 lo hi step dt : (0 < n)%nat -> ia D < ib D -> new_mesh D n = Ok m -> new_fespace m p = Ok s -> eig_ok eig p -> eig_ok eig (p + 1) -> (p <= 7)%nat ->
  length u = fs_dimension s -> (forall i, (i < fs_dimension s)%nat -> lo <= dof u i <= hi) -> 0 <= dt ->
  fe_time_step eig Advection s u0 = Ok step -> step_allows step (dt * top_speed pr lo hi) ->
  exists step', fe_time_step eig pr s u = Ok step' /\ step_allows step' dt.
Proof.
  intros Hn HD Em Es HE HE1 H7 Lu Hb Hdt E0 H0. assert (Hp := space_degree m p s Es).
  destruct (C39_low_order_succeeds eig D n m p s pr u Hn HD Em Es HE HE1 H7 Lu) as [_ [step' [_ [E' _]]]]. exists step'. split; [exact E'|].
  destruct (C37_discrete_gradient eig D n m p s Hn HD Em Es HE) as [C [EC [SK _]]].
  destruct (C37_lumped_masses eig D n m p s Hn HD Em Es HE1) as [M [mass [_ [EL [LL _]]]]].
  assert (MP := C37_lumped_masses_positive eig D n m p s mass Hn HD Em Es HE1 H7 EL).
  unfold fe_time_step in E'. rewrite EL, EC in E'. cbn [bind] in E'. cbv zeta in E'. set (N := fs_dimension s) in *. set (d := diffusion pr N C u) in *.
  destruct (mapM (fun i => step_quotient (nth i mass 0) (2 * Rabs (d i i))) (seq 0 N)) as [qs|] eqn:EQ; [|discriminate E']. cbn [bind] in E'. apply Ok_inj in E'. subst step'.
  apply step_all. intros x Hx. apply (In_nth _ _ None) in Hx. destruct Hx as [i [Hi <-]].
  apply (mapM_nth _ _ _ 0%nat None) in EQ. rewrite seq_length in EQ. destruct EQ as [LQ V]. rewrite LQ in Hi. specialize (V i Hi). rewrite seq_nth in V by auto. cbn [Nat.add] in V.
  unfold step_quotient in V. destruct (Reqb_spec (2 * Rabs (d i i)) 0) as [Z|Z].
  { destruct (Rltb_spec 0 (nth i mass 0)) as [B|B]; [|discriminate]. apply Ok_inj in V. rewrite <- V. exact I. }
  apply Ok_inj in V. rewrite <- V. cbn. assert (Z' := Rabs_pos (d i i)). specialize (MP i Hi).
  assert (T : 0 <= top_speed pr lo hi) by (destruct pr; cbn; [lra|eapply Rle_trans; [apply (Rabs_pos lo)|apply Rmax_l]]).
  destruct (Rle_lt_or_eq_dec 0 (dt * top_speed pr lo hi)) as [P|P]; [nra| |].
  - destruct (step_masses eig Advection s u0 mass C step EL EC E0 _ P H0 i Hi) as [_ SB]. fold N in SB.
    rewrite (diffusion_abs_diag N C SK) in SB by auto. unfold d in *. rewrite (diffusion_abs_diag N C SK) in * by auto.
    assert (LE : off N (diffusion pr N C u i) i <= top_speed pr lo hi * off N (diffusion Advection N C u0 i) i).
    { rewrite <- off_scal. apply off_le. intros j Hj Hij. rewrite !diffusion_entry by auto. cbn [wave_speed]. unfold Rmax at 2. destruct (Rle_dec 1 1); [|lra].
      assert (Rmax (wave_speed pr (dof u i)) (wave_speed pr (dof u j)) <= top_speed pr lo hi) by (apply Rmax_lub; apply speed_le; auto).
      assert (X := Rabs_pos (C i j)). nra. }
    unfold dof in SB. apply (Rmult_le_reg_r (2 * off N (diffusion pr N C u i) i)); [lra|]. unfold Rdiv. rewrite Rmult_assoc, Rinv_l by lra.
    apply Rle_trans with (2 * (dt * (top_speed pr lo hi * off N (diffusion Advection N C u0 i) i))); [|lra]. nra.
  - destruct (Rmult_integral _ _ (eq_sym P)) as [-> |ZZ].
    + apply Rlt_le, Rdiv_lt_0_compat; lra.
    + exfalso. apply Z. unfold d. rewrite (diffusion_abs_diag N C SK) by auto.
      assert (LE : off N (diffusion pr N C u i) i <= off N (fun _ => 0) i).
      { apply off_le. intros j Hj Hij. rewrite diffusion_entry by auto.
        assert (Rmax (wave_speed pr (dof u i)) (wave_speed pr (dof u j)) <= top_speed pr lo hi) by (apply Rmax_lub; apply speed_le; auto).
        assert (X := Rabs_pos (C i j)). nra. }
      assert (GE : off N (fun _ => 0) i = 0) by (unfold off; apply rsum_tab_0; intros; destruct Nat.eqb; reflexivity).
      assert (NN : 0 <= off N (diffusion pr N C u i) i) by (apply off_nonneg; intros; apply diffusion_nonneg; auto). lra.
Qed.

(** With a strong stability preserving integrator and steps below the quotient of the step for unit speed and the top speed,
    the run succeeds and all values stay between any bounds of the initial ones. *)
Theorem C57_runs_keep_bounds : forall eig D n m p s pr rhs T dts t0 u0 lo hi step,
  (2 <= n)%nat -> ia D < ib D -> new_mesh D n = Ok m -> new_fespace m p = Ok s -> eig_ok eig p -> eig_ok eig (p + 1) -> (p <= 7)%nat ->
  rhs = cg_low_rhs eig pr s \/ rhs = mcl_rhs eig pr s ->
  length u0 = fs_dimension s -> (forall i, (i < fs_dimension s)%nat -> lo <= dof u0 i <= hi) ->
  fe_time_step eig Advection s u0 = Ok step ->
  (forall dt, In dt dts -> 0 <= dt /\ step_allows step (dt * top_speed pr lo hi)) ->
  In T [euler; heun; ssp3] ->
  exists o, rk_run_e (fun _ => rhs) T dts {| o_time := t0; o_sol := u0 |} = Ok o /\ o_time o = t0 + rsum dts /\
  length (o_sol o) = fs_dimension s /\ (forall i, (i < fs_dimension s)%nat -> lo <= dof (o_sol o) i <= hi).
Proof.
  intros eig D n m p s pr rhs T dts t0 u0 lo hi step H2 HD Em Es HE HE1 H7 HR Lu Hb E0 HT HTab. assert (Hn : (0 < n)%nat) by lia.
  destruct (ssp_convex_run_e (fun l : list R => length l = fs_dimension s) (fun _ => rhs) (repeat 0 (fs_dimension s))
    (fun u => length u = fs_dimension s /\ forall i, (i < fs_dimension s)%nat -> lo <= dof u i <= hi) dts T {| o_time := t0; o_sol := u0 |}) as [o [E [[Lo Ro] To]]].
  - apply repeat_length.
  - tauto.
  - intros t u v Lu' Ev. destruct HR as [->| ->].
    + destruct (C39_low_order_conserves eig D n m p s pr u v Hn HD Em Es HE HE1 Lu' Ev) as [_ [_ [X _]]]. exact X.
    + destruct (C40_mcl_conserves eig D n m p s pr u v Hn HD Em Es HE HE1 Lu' Ev) as [_ [_ [X _]]]. exact X.
  - intros a b r [La Ha] [Lb Hb'] Hr. cbn. split; [rewrite map2_length, !map_length; lia|]. intros i Hi. unfold dof.
    rewrite (nth_map2 _ _ _ _ 0 0 0) by (rewrite map_length; lia). rewrite !(nth_map' _ _ _ 0 0) by lia. specialize (Ha i Hi). specialize (Hb' i Hi). unfold dof in *. nra.
  - intros t u [Lu' Hu]. destruct HR as [->| ->].
    + destruct (C39_low_order_succeeds eig D n m p s pr u Hn HD Em Es HE HE1 H7 Lu') as [r [_ [X _]]]. eauto.
    + destruct (C40_mcl_succeeds eig D n m p s pr u Hn HD Em Es HE HE1 H7 Lu') as [r [_ [X _]]]. eauto.
  - intros dt t u v Hdt [Lu' Hu] Ev. destruct (HT dt Hdt) as [P HS].
    destruct (uniform_step eig D n m p s pr u u0 lo hi step dt Hn HD Em Es HE HE1 H7 Lu' Hu P E0 HS) as [st [EST AL]].
    assert (Lv : length v = fs_dimension s).
    { destruct HR as [->| ->].
      + destruct (C39_low_order_conserves eig D n m p s pr u v Hn HD Em Es HE HE1 Lu' Ev) as [_ [_ [X _]]]. exact X.
      + destruct (C40_mcl_conserves eig D n m p s pr u v Hn HD Em Es HE HE1 Lu' Ev) as [_ [_ [X _]]]. exact X. }
    cbn. split; [rewrite map2_length, map_length; lia|]. intros i Hi. unfold dof. rewrite (nth_map2 _ _ _ _ 0 0 0) by (rewrite ?map_length; lia). rewrite (nth_map' _ _ _ 0 0) by lia.
    destruct HR as [->| ->].
    + apply (C39_low_order_bounds eig D n m p s pr u v st Hn HD Em Es HE HE1 Lu' Ev EST dt P AL i lo hi Hi). intros; auto.
    + apply (C40_mcl_bounds eig D n m p s pr u v st H2 HD Em Es HE HE1 Lu' Ev EST dt P AL i lo hi Hi). intros; auto.
  - cbn in HTab. destruct HTab as [<-|[<-|[<-|[]]]]; auto.
  - cbn. auto.
  - exists o. auto.
Qed.

(** Both theorems apply to every mesh, degree up to 7 and initial state: a positive step size exists. *)
Example C57_ex : forall D n p pr lo hi, (2 <= n)%nat -> (0 < p <= 7)%nat -> ia D < ib D -> exists eig solver m s,
  new_mesh D n = Ok m /\ new_fespace m p = Ok s /\ eig_ok eig p /\ eig_ok eig (p + 1) /\ eig_ok eig (2 ^ p) /\ solves solver (fs_dimension s) /\
  forall u0, length u0 = fs_dimension s -> exists step dt, fe_time_step eig Advection s u0 = Ok step /\ 0 < dt /\ step_allows step (dt * top_speed pr lo hi).
Proof.
  intros D n p pr lo hi H2 [Hp H7] HD. destruct (C55_ex D n p ltac:(lia) Hp HD) as [eig [solver [m [s [Em [Es [H1 [H3 [H4 H5]]]]]]]]].
  exists eig, solver, m, s. do 6 (split; [assumption|]). intros u0 Lu.
  destruct (C39_low_order_succeeds eig D n m p s Advection u0 ltac:(lia) HD Em Es H1 H3 H7 Lu) as [_ [step [_ [E SP]]]].
  assert (T : 0 <= top_speed pr lo hi) by (destruct pr; cbn; [lra|eapply Rle_trans; [apply (Rabs_pos lo)|apply Rmax_l]]).
  destruct step as [x|].
  - specialize (SP x eq_refl). exists (Some x), (x / (1 + top_speed pr lo hi)). split; [exact E|]. split; [apply Rdiv_lt_0_compat; lra|]. cbn.
    apply (Rmult_le_reg_r (1 + top_speed pr lo hi)); [lra|]. unfold Rdiv. field_simplify; [nra|lra].
  - exists None, 1. split; [exact E|]. split; [lra|exact I].
Qed.
Print Assumptions C57_runs_conserve_mass.
Print Assumptions C57_runs_keep_bounds.
