(** C26, C27, C28, C29, C30, C33: finite_volume/shallow_water *)
From Coq Require Import Reals List ZArith Arith String Lia Lra Psatz.
From Verif Require Import Prelude L_Prelude M_Boundary S_Boundary L_Boundary M_Flux S_Flux L_Flux
  M_ODE S_ODE L_ODE M_ShallowWater S_ShallowWater L_ShallowWater L_SWRuns L_SWLow L_SWWater L_SWLake L_SWTotal.
Import ListNotations.
Local Open Scope nat_scope.
Open Scope R_scope.
Notation length := List.length.

(* one forward Euler step, used in the examples *)
Lemma euler_one {V} `{VecOps V} (f : R -> V -> result V) t u dt v : f (t + 0 * dt) u = Ok v ->
  rk_execute_e f euler dt {| o_time := t; o_sol := u |} = Ok {| o_time := t + dt; o_sol := vadd u (vscal dt (vscal 1 v)) |}.
Proof. intro E. unfold rk_execute_e, rk_stage_e. cbn. rewrite E. reflexivity. Qed.

(** ** C26 *)
Theorem C26_velocity : forall eps h q, 0 < eps -> 0 <= h ->
  (eps <= h -> velocity_eps eps (h, q) = q / h) /\
  (h <= eps -> Rabs (velocity_eps eps (h, q)) <= Rabs q / eps) /\
  h * Rabs (velocity_eps eps (h, q)) <= Rabs q /\
  velocity_eps eps (h, 0) = 0 /\ velocity_eps eps (0, q) = 0 /\
  velocity_eps eps (h, - q) = - velocity_eps eps (h, q).
Proof.
  intros eps h q He Hh. repeat match goal with |- _ /\ _ => split end.
  - apply velocity_wet; auto.
  - intro. apply velocity_dry; auto.
  - apply velocity_bound; auto.
  - apply velocity_q0.
  - unfold velocity_eps. cbn [fst snd]. unfold Rdiv. ring.
  - apply velocity_opp.
Qed.
Print Assumptions C26_velocity.

Theorem C26_positivity_fix : forall bar step, 0 <= bar ->
  Rabs (positivity_fix bar step) = Rmin (Rabs step / 2) bar /\
  Rabs (positivity_fix bar step) <= bar /\
  0 <= positivity_fix bar step * step /\ (step = 0 -> positivity_fix bar step = 0) /\
  (Rabs step / 2 <= bar -> positivity_fix bar step = step / 2).
Proof.
  intros bar step Hb.
  assert (M : 0 <= Rmin (Rabs step / 2) bar) by (apply Rmin_glb; auto; pose proof (Rabs_pos step); lra).
  repeat match goal with |- _ /\ _ => split end.
  - unfold positivity_fix. rewrite Rabs_mult, (Rabs_pos_eq (Rmin _ _)) by auto. unfold rsign.
    destruct (Rltb_spec 0 step); [rewrite Rabs_R1; ring|]. destruct (Rltb_spec step 0); [rewrite (Rabs_left (-1)) by lra; ring|].
    assert (step = 0) by lra. subst. rewrite Rabs_R0. rewrite Rmin_left by lra. field.
  - apply fix_bound; auto.
  - unfold positivity_fix. pose proof (rsign_mult step). pose proof (Rabs_pos step). 
    assert (0 <= rsign step * step).
    { unfold rsign. destruct (Rltb_spec 0 step); [lra|]. destruct (Rltb_spec step 0); lra. }
    rewrite Rmult_assoc. apply Rmult_le_pos; auto.
  - intros ->. apply fix_0.
  - apply fix_exact.
Qed.
Print Assumptions C26_positivity_fix.

Theorem C26_nullify : forall eps u, 0 < eps ->
  (fst u <= eps -> nullify_at eps u = (0, 0)) /\
  (eps < fst u -> fst (nullify_at eps u) = fst u /\
     (eps < Rabs (snd u) -> snd (nullify_at eps u) = snd u) /\ (Rabs (snd u) <= eps -> snd (nullify_at eps u) = 0)).
Proof.
  intros eps [h q] He. unfold nullify_at. cbn [fst snd]. destruct (Rltb_spec eps h); split; intros; try lra.
  - repeat split; try ring; intros; destruct (Rltb_spec eps (Rabs q)); try lra; ring.
  - f_equal; ring.
Qed.
Print Assumptions C26_nullify.
Example C26_ex : velocity_eps (1/10) (2, 3) = 3 / 2 /\ positivity_fix 1 3 = 1 /\ nullify_at (1/10) (1, 1/20) = (1, 0).
Proof.
  split; [apply velocity_wet; lra|]. split.
  - unfold positivity_fix. rewrite Rabs_pos_eq, Rmin_right by lra. unfold rsign. destruct (Rltb_spec 0 3); lra.
  - unfold nullify_at. cbn [fst snd]. rewrite Rabs_pos_eq by lra. destruct (Rltb_spec (1/10) 1); [|lra].
    destruct (Rltb_spec (1/10) (1/20)); [lra|]. f_equal; ring.
Qed.

(** ** C27 *)
Theorem C27_flux : forall gravity eps dofs, 0 < eps ->
  let g := py_or gravity default_gravity in
  ((exists u, In u dofs /\ fst u < 0) <-> sw_flux_call gravity eps dofs = Err ValueError) /\
  ((forall u, In u dofs -> 0 <= fst u) ->
   exists v, sw_flux_call gravity eps dofs = Ok v /\ length v = length dofs /\
   forall i, (i < length dofs)%nat ->
     let '(h, q) := nth i dofs (0, 0) in
     (h < eps -> nth i v (0, 0) = (0, 0)) /\ (eps <= h -> nth i v (0, 0) = (q, q ^ 2 / h + g * h ^ 2 / 2))).
Proof.
  intros gravity eps dofs He g.
  assert (T : (forall u, In u dofs -> 0 <= fst u) -> exists v, sw_flux_call gravity eps dofs = Ok v).
  { unfold sw_flux_call. fold g. induction dofs as [|[h q] l IH]; intro H; [eexists; reflexivity|].
    destruct IH as [v Ev]; [intros; apply H; right; auto|]. cbn [mapM]. unfold sw_flux_eps at 1.
    specialize (H (h, q) (or_introl eq_refl)). cbn [fst] in H. destruct (Rltb_spec h 0); [lra|].
    destruct (Rltb_spec h eps); cbn [bind]; rewrite Ev; cbn [bind]; eauto. }
  split.
  - split.
    + unfold sw_flux_call. fold g. intros [u [Hu Hn]]. clear T. induction dofs as [|[h q] l IH]; [destruct Hu|].
      cbn [mapM]. unfold sw_flux_eps at 1. destruct (Rltb_spec h 0) as [|Hh]; [reflexivity|]. destruct Hu as [<-|Hu]; [cbn [fst] in Hn; lra|].
      rewrite (IH Hu). destruct (Rltb_spec h eps); reflexivity.
    + intro E. destruct (existsb (fun u => Rltb (fst u) 0) dofs) eqn:X.
      * apply existsb_exists in X as [u [Hu Hn]]. exists u. split; auto. destruct (Rltb_spec (fst u) 0); [auto|discriminate].
      * destruct T as [v Ev]; [|congruence]. intros u Hu. destruct (Rlt_le_dec (fst u) 0) as [H|]; auto. exfalso.
        assert (existsb (fun u => Rltb (fst u) 0) dofs = true); [|congruence].
        apply existsb_exists. exists u. split; auto. destruct (Rltb_spec (fst u) 0); auto.
  - intro H. destruct (T H) as [v Ev]. exists v. split; auto. unfold sw_flux_call in Ev. fold g in Ev.
    destruct (mapM_nth _ _ _ (0, 0) (0, 0) Ev) as [L V]. split; auto. intros i Hi. specialize (V i Hi).
    destruct (nth i dofs (0, 0)) as [h q]. apply sw_flux_ok in V as [_ V]. exact V.
Qed.
Print Assumptions C27_flux.
Example C27_ex : exists v, sw_flux_call (Some 2) (1/10) [(2, 4); (1/20, 3)] = Ok v /\ nth 0 v (0, 0) = (4, 12) /\ nth 1 v (0, 0) = (0, 0).
Proof.
  destruct (C27_flux (Some 2) (1/10) [(2, 4); (1/20, 3)] ltac:(lra)) as [_ A].
  destruct A as [v [E [_ V]]]. { intros u [<-|[<-|[]]]; cbn; lra. }
  exists v. split; auto. split.
  - specialize (V 0%nat ltac:(cbn; lia)). cbn [nth] in V. rewrite (proj2 V) by lra. f_equal. cbn [py_or].
    destruct (Reqb_spec 2 0); [lra|]. field.
  - specialize (V 1%nat ltac:(cbn; lia)). cbn [nth] in V. apply V. lra.
Qed.

(* derivatives only depend on the values near the point *)
Lemma derivable_local f f' x l r : derivable_pt_lim f x l -> 0 < r -> (forall y, Rabs (y - x) < r -> f y = f' y) ->
  derivable_pt_lim f' x l.
Proof.
  intros D Hr E eps He. destruct (D eps He) as [del Hd].
  assert (P : 0 < Rmin del r) by (apply Rmin_glb_lt; [apply cond_pos|auto]).
  exists (mkposreal _ P). intros y Hy1 Hy2. cbn [pos] in Hy2.
  rewrite <- (E (x + y)), <- (E x).
  - apply Hd; auto. eapply Rlt_le_trans; [exact Hy2|apply Rmin_l].
  - replace (x - x) with 0 by ring. rewrite Rabs_R0. auto.
  - replace (x + y - x) with y by ring. eapply Rlt_le_trans; [exact Hy2|apply Rmin_r].
Qed.

(** The matrix returned by FluxJacobian has the right entries, but the two entries of
    the second row are exchanged ... *)
Theorem C27_jacobian_rows_swapped : forall eps g h q, 0 < eps -> eps < h ->
  exists j00 j01 j10 j11, sw_jacobian eps g (h, q) = Ok ((j00, j01), (j10, j11)) /\
  is_flux_jacobian eps g h q ((j00, j01), (j11, j10)).
Proof.
  intros eps g h q He Hh.
  assert (F : forall y z, eps <= y -> sw_flux_eps eps g (y, z) = Ok (z, z ^ 2 / y + g * y ^ 2 / 2)).
  { intros y z Hy. unfold sw_flux_eps. destruct (Rltb_spec y 0); [lra|]. destruct (Rltb_spec y eps); [lra|reflexivity]. }
  unfold sw_jacobian. destruct (Rltb_spec h 0); [lra|]. destruct (Rltb_spec h eps); [lra|].
  do 4 eexists. split; [reflexivity|]. unfold is_flux_jacobian, flux_component. cbn [fst snd].
  assert (P : 0 < h - eps) by lra.
  repeat match goal with |- _ /\ _ => split end.
  - apply (derivable_local (fun _ => q) _ h 0 (h - eps)); auto; [apply derivable_pt_lim_const|].
    intros y Hy. apply Rabs_def2 in Hy. rewrite F by lra. reflexivity.
  - apply (derivable_local (fun y => y) _ q 1 1); [apply derivable_pt_lim_id|lra|]. intros y _. rewrite F by lra. reflexivity.
  - apply (derivable_local (fun y => q ^ 2 / y + g * y ^ 2 / 2) _ h _ (h - eps)); auto.
    + replace (- (q / h) ^ 2 + g * h) with (q ^ 2 * - / h ^ 2 + g / 2 * (2 * h)) by (field; lra).
      apply (derivable_local (fun y => q ^ 2 * / y + g / 2 * y ^ 2) _ h _ h); [|lra|intros y Hy; apply Rabs_def2 in Hy; field; lra].
      apply (derivable_pt_lim_plus (fun y => q ^ 2 * / y) (fun y => g / 2 * y ^ 2)).
      * apply (derivable_pt_lim_scal (fun y => / y)).
           assert (D := derivable_pt_lim_div (fct_cte 1) id h 0 1 (derivable_pt_lim_const 1 h) (derivable_pt_lim_id h) ltac:(unfold id; lra)).
           replace (- / h ^ 2) with ((0 * id h - 1 * fct_cte 1 h) / Rsqr (id h)) by (unfold id, fct_cte, Rsqr; field; lra).
           apply (derivable_local _ _ _ _ h D); [lra|]. intros y Hy. apply Rabs_def2 in Hy. unfold div_fct, fct_cte, id. field. lra.
      * apply (derivable_pt_lim_scal (fun y => y ^ 2)). replace (2 * h) with (INR 2 * h ^ pred 2) by (simpl; ring).
           apply derivable_pt_lim_pow.
    + intros y Hy. apply Rabs_def2 in Hy. rewrite F by lra. reflexivity.
  - apply (derivable_local (fun y => / h * y ^ 2 + g * h ^ 2 / 2) _ q _ 1); [|lra|].
    + replace (2 * q / h) with (/ h * (INR 2 * q ^ pred 2) + 0) by (simpl; field; lra).
      apply (derivable_pt_lim_plus (fun y => / h * y ^ 2) (fun _ => g * h ^ 2 / 2)); [|apply derivable_pt_lim_const].
      apply (derivable_pt_lim_scal (fun y => y ^ 2)). apply derivable_pt_lim_pow.
    + intros y _. rewrite F by lra. cbn [snd]. field. lra.
Qed.
Print Assumptions C27_jacobian_rows_swapped.
(** ... so that it is not the derivative of the flux. *)
Theorem C27_jacobian_refuted :
  exists h q M, epsilon < h /\ sw_jacobian epsilon 1 (h, q) = Ok M /\ ~ is_flux_jacobian epsilon 1 h q M.
Proof.
  destruct (C27_jacobian_rows_swapped epsilon 1 1 0 epsilon_pos ltac:(pose proof epsilon_lt; lra)) as [a [b [c [d [E [_ [_ [D _]]]]]]]].
  exists 1, 0, ((a, b), (c, d)). split; [pose proof epsilon_lt; lra|]. split; [exact E|]. intros [_ [_ [D' _]]]. cbn [fst snd] in D, D'.
  pose proof (uniqueness_limite _ _ _ _ D D') as U. subst d.
  pose proof epsilon_lt. unfold sw_jacobian in E. destruct (Rltb_spec 1 0); [lra|]. destruct (Rltb_spec 1 epsilon); [lra|].
  apply Ok_inj in E. assert (E1 := f_equal (fun p => fst (snd p)) E). assert (E2 := f_equal (fun p => snd (snd p)) E). cbn [fst snd] in E1, E2.
  rewrite <- E2 in E1. assert (2 * 0 / 1 = - (0 / 1) ^ 2 + 1 * 1) by exact E1. lra.
Qed.
Print Assumptions C27_jacobian_refuted.

(** ** C28 *)
(** One forward Euler step, any bottom: b may be absent, a number or an array. *)
Theorem C28_low_order_step : forall gravity b nf conds il ir bc dx dt t u v e,
  sw_low gravity b = Ok nf ->
  get_boundary_conditions (Some reflect) conds 1 il ir = Ok bc -> u <> [] -> 0 < dx -> 0 <= dt ->
  heights_nonneg u -> extended bc u (Some t) = Ok e -> half_cfl (py_or gravity default_gravity) dx dt e ->
  fv_rhs nf dx bc t u = Ok v ->
  length v = length u /\ heights_nonneg (map2 cadd u (map (cscal dt) v)).
Proof. intros gravity b nf conds il ir bc dx dt t u v e E B. eapply bar_rhs; eauto. eapply bar_low; eauto. Qed.
Print Assumptions C28_low_order_step.

(** The limited scheme, for any high order two point flux. *)
Theorem C28_mcl_step : forall gravity b high nf conds il ir bc dx dt t u v e,
  nf_dim high = 2%nat ->
  (forall vl vr fl fr, (2 <= length vl)%nat -> length vl = length vr -> nf_call high [vl; vr] = Ok (fl, fr) -> length fr = length vl) ->
  sw_mcl gravity b conds il ir high = Ok nf ->
  get_boundary_conditions (Some reflect) conds 1 il ir = Ok bc -> u <> [] -> 0 < dx -> 0 <= dt ->
  heights_nonneg u -> extended bc u (Some t) = Ok e -> half_cfl (py_or gravity default_gravity) dx dt e ->
  fv_rhs nf dx bc t u = Ok v ->
  length v = length u /\ heights_nonneg (map2 cadd u (map (cscal dt) v)).
Proof. intros gravity b high nf conds il ir bc dx dt t u v e D LH E B. eapply bar_rhs; eauto. eapply bar_mcl; eauto. Qed.
Print Assumptions C28_mcl_step.

Lemma check_cfl g dx bc dt t u : half_cfl_check g dx bc dt t u = true ->
  exists e, extended bc u (Some t) = Ok e /\ half_cfl g dx dt e.
Proof.
  unfold half_cfl_check. destruct (extended bc u (Some t)) as [e|]; [|discriminate]. intro F. exists e. split; auto.
  rewrite forallb_forall in F. intros x Hx. specialize (F x Hx). destruct (Rleb_spec (dt * (Rabs (velocity x) + sqrt (g * fst x))) (dx / 2)); [auto|discriminate].
Qed.
Lemma bar_run gravity nf conds il ir bc dx T dts t0 u0 o : bar_form gravity nf ->
  get_boundary_conditions (Some reflect) conds 1 il ir = Ok bc -> u0 <> [] -> 0 < dx -> (forall dt, In dt dts -> 0 <= dt) ->
  T = euler \/ T = heun \/ T = ssp3 -> heights_nonneg u0 ->
  checked_run (half_cfl_check (py_or gravity default_gravity) dx bc) (fv_rhs nf dx bc) T dts {| o_time := t0; o_sol := u0 |} = Ok o ->
  rk_run_e (fv_rhs nf dx bc) T dts {| o_time := t0; o_sol := u0 |} = Ok o /\
  length (o_sol o) = length u0 /\ heights_nonneg (o_sol o).
Proof.
  intros BF B Hu Hdx Hdt HT H0 E.
  assert (Hne : forall u : list (R * R), length u = length u0 -> u <> []) by (intros u Lu ->; destruct u0; [congruence|discriminate]).
  destruct BF as [D BF].
  assert (HL : forall t u v, length u = length u0 -> fv_rhs nf dx bc t u = Ok v -> length v = length u0).
  { intros t u v Lu Ev. destruct (fv_rhs_inv _ _ _ _ _ _ Ev) as [a [fl [fr [E1 [E2 E3]]]]].
    rewrite D in E1. change (2 / 2)%nat with 1%nat in E1.
    destruct (nodes_of (0, 0) (Some reflect) conds il ir bc u t B (Hne u Lu)) as [_ [_ [_ [_ [x [e [_ [_ [_ [Ea _]]]]]]]]]].
    rewrite Ea in E1. apply Ok_inj in E1. subst a.
    assert (Hn : (1 <= length u)%nat) by (pose proof (Hne u Lu); destruct u; [congruence|cbn; lia]).
    destruct (BF (length u) x fl fr Hn E2) as [L1 [L2 _]].
    destruct (cells_from_nodes_spec _ _ _ _ (length u) E3 L1 L2) as [_ [Lv _]]. lia. }
  destruct (checked_run_convex (fun l => length l = length u0) (half_cfl_check (py_or gravity default_gravity) dx bc) (fv_rhs nf dx bc)
    (repeat (0, 0) (length u0)) (fun u => length u = length u0 /\ heights_nonneg u) dts T {| o_time := t0; o_sol := u0 |} o); auto.
  - apply repeat_length.
  - tauto.
  - intros a c r [La Ha] [Lc Hc] Hr. split; [cbn; rewrite map2_length, !map_length; lia|].
    intros x Hx. cbn in Hx. apply (In_nth _ _ (0, 0)) in Hx as [i [Hi <-]]. rewrite map2_length, !map_length in Hi.
    rewrite (nth_map2 _ _ _ i (0, 0) (0, 0)) by (rewrite ?map_length; lia).
    rewrite !(nth_map' _ _ _ (0, 0)) by lia. cbn [fst].
    assert (0 <= fst (nth i a (0, 0))) by (apply Ha, nth_In; lia).
    assert (0 <= fst (nth i c (0, 0))) by (apply Hc, nth_In; lia).
    apply Rplus_le_le_0_compat; apply Rmult_le_pos; lra.
  - intros dt u [Lu Hh]. split; [cbn; rewrite map2_length, map_length, repeat_length; lia|].
    intros x Hx. cbn in Hx. apply (In_nth _ _ (0, 0)) in Hx as [i [Hi <-]]. rewrite map2_length, map_length, repeat_length in Hi.
    rewrite (nth_map2 _ _ _ i (0, 0) (0, 0)) by (rewrite ?map_length, ?repeat_length; lia).
    rewrite (nth_map' _ _ _ (0, 0)) by (rewrite repeat_length; lia). cbn [fst].
    assert (Z : nth i (repeat (0, 0) (length u0)) (0, 0) = (0, 0)).
    { generalize (length u0). intro m. clear. revert i; induction m; destruct i; simpl; auto. }
    rewrite Z. cbn [fst]. rewrite Rmult_0_r, Rplus_0_r. apply Hh, nth_In. lia.
  - intros dt t u v Hin [Lu Hh] Hc Ev. destruct (check_cfl _ _ _ _ _ _ Hc) as [e [Ee C]].
    destruct (bar_rhs gravity nf conds il ir bc dx dt t u v e (conj D BF) B (Hne u Lu) Hdx (Hdt dt Hin) Hh Ee C Ev) as [Lv P].
    split; [cbn; rewrite map2_length, map_length; lia|exact P].
Qed.

(** Whole runs with forward Euler, Heun or SSP3, as long as every evaluated state meets
    the time step restriction: a run that does not stop with a violated restriction
    is a run of the scheme and all its heights are non-negative. *)
Theorem C28_low_order_runs : forall gravity b nf conds il ir bc dx T dts t0 u0 o,
  sw_low gravity b = Ok nf ->
  get_boundary_conditions (Some reflect) conds 1 il ir = Ok bc -> u0 <> [] -> 0 < dx -> (forall dt, In dt dts -> 0 <= dt) ->
  T = euler \/ T = heun \/ T = ssp3 -> heights_nonneg u0 ->
  checked_run (half_cfl_check (py_or gravity default_gravity) dx bc) (fv_rhs nf dx bc) T dts {| o_time := t0; o_sol := u0 |} = Ok o ->
  rk_run_e (fv_rhs nf dx bc) T dts {| o_time := t0; o_sol := u0 |} = Ok o /\
  length (o_sol o) = length u0 /\ heights_nonneg (o_sol o).
Proof. intros. eapply bar_run; eauto. eapply bar_low; eauto. Qed.
Print Assumptions C28_low_order_runs.
Theorem C28_mcl_runs : forall gravity b high nf conds il ir bc dx T dts t0 u0 o,
  nf_dim high = 2%nat ->
  (forall vl vr fl fr, (2 <= length vl)%nat -> length vl = length vr -> nf_call high [vl; vr] = Ok (fl, fr) -> length fr = length vl) ->
  sw_mcl gravity b conds il ir high = Ok nf ->
  get_boundary_conditions (Some reflect) conds 1 il ir = Ok bc -> u0 <> [] -> 0 < dx -> (forall dt, In dt dts -> 0 <= dt) ->
  T = euler \/ T = heun \/ T = ssp3 -> heights_nonneg u0 ->
  checked_run (half_cfl_check (py_or gravity default_gravity) dx bc) (fv_rhs nf dx bc) T dts {| o_time := t0; o_sol := u0 |} = Ok o ->
  rk_run_e (fv_rhs nf dx bc) T dts {| o_time := t0; o_sol := u0 |} = Ok o /\
  length (o_sol o) = length u0 /\ heights_nonneg (o_sol o).
Proof. intros gravity b high nf conds il ir bc dx T dts t0 u0 o D LH E. intros. eapply bar_run; eauto. eapply bar_mcl; eauto. Qed.
Print Assumptions C28_mcl_runs.

(** The right hand side is defined for every wet state and every bottom given as one
    number per cell. *)
Theorem C28_low_order_defined : forall gravity b nf conds il ir bc dx t u,
  0 < py_or gravity default_gravity -> sw_low gravity b = Ok nf ->
  (forall l, b = BArray l -> length l = length u) ->
  get_boundary_conditions (Some reflect) conds 1 il ir = Ok bc -> u <> [] -> dx <> 0 ->
  (forall f, il = Some f \/ ir = Some f -> forall t, 0 < fst (f t)) -> (forall x, In x u -> 0 < fst x) ->
  exists v, fv_rhs nf dx bc t u = Ok v.
Proof.
  intros gravity b nf conds il ir bc dx t u Hg E Hb B Hu Hdx PI PU.
  assert (Hn : (1 <= length u)%nat) by (destruct u; [congruence|cbn; lia]).
  destruct (bathymetry_array b (length u) Hn Hb) as [p [st [Ep Es]]].
  eapply wet_rhs; eauto. eapply low_total; eauto.
Qed.
Print Assumptions C28_low_order_defined.

(** two neighbouring dry cells make the low order flux divide by zero *)
Theorem C28_adjacent_dry_cells : forall gravity b nf dx t, sw_low gravity b = Ok nf ->
  (forall l, b = BArray l -> length l = 2%nat) ->
  exists bc, get_boundary_conditions (Some reflect) ["wall"%string] 1 None None = Ok bc /\
  fv_rhs nf dx bc t [(0, 0); (0, 0)] = Err ZeroDivisionError.
Proof.
  intros gravity b nf dx t E Hb. eexists. split; [reflexivity|].
  unfold sw_low in E. inv_bind E. apply Ok_inj in E. subst nf. unfold fv_rhs. cbn [nf_dim nf_call].
  match goal with |- bind ?n _ = _ => assert (X : n = Ok [[reflect (0, 0); (0, 0); (0, 0)]; [(0, 0); (0, 0); reflect (0, 0)]]) by reflexivity; rewrite X end.
  assert (RZ : reflect (0, 0) = (0, 0)) by (unfold reflect; cbn [fst snd]; f_equal; ring). rewrite RZ. cbn [bind]. unfold low_call, low_all.
  destruct (bathymetry_array b 2 ltac:(lia) Hb) as [p [st [Ep Es]]]. rewrite E0 in Ep. apply Ok_inj in Ep. subst p.
  cbn [List.length]. rewrite Es. cbn [bind]. pose proof (broadcast_length _ _ _ Es) as Ls.
  destruct st as [|s0 st]; [discriminate|]. cbn [combine mapM fst snd].
  assert (Z : low_at gravity (0, 0) (0, 0) s0 = Err ZeroDivisionError); [|rewrite Z; reflexivity].
  unfold low_at, rs_solve, sw_riemann. cbn [rs_flux rs_speed]. set (g := py_or gravity default_gravity).
  pose proof epsilon_pos.
  assert (F : sw_flux g (0, 0) = Ok (0, 0)).
  { unfold sw_flux, sw_flux_eps. destruct (Rltb_spec 0 0); [lra|]. destruct (Rltb_spec 0 epsilon); [reflexivity|lra]. }
  rewrite F. cbn [bind]. unfold sw_max_wave_speed, sw_max_speed. cbn [fst]. unfold velocity. rewrite velocity_q0, Rabs_R0, Rmult_0_r, sqrt_0.
  rewrite Rmax_left by lra. replace (0 + 0 - - (0 + 0)) with 0 by ring. rewrite rdiv_0. reflexivity.
Qed.
Print Assumptions C28_adjacent_dry_cells.

(* a step of one dam break: the hypotheses are met *)
Definition dam : list (R * R) := [(1, 0); (4, 0)].
Example C28_ex : exists nf bc o,
  sw_low (Some 1) (BArray [0; 1/2]) = Ok nf /\
  get_boundary_conditions (Some reflect) ["outflow"; "wall"]%string 1 None None = Ok bc /\ heights_nonneg dam /\
  checked_run (half_cfl_check (py_or (Some 1) default_gravity) 10 bc) (fv_rhs nf 10 bc) euler [1] {| o_time := 0; o_sol := dam |} = Ok o.
Proof.
  destruct (bathymetry_array (BArray [0; 1/2]) 2 ltac:(lia)) as [p [st [Ep Es]]]; [intros l El; injection El as <-; reflexivity|].
  eexists. eexists. unfold sw_low. rewrite Ep. cbn [bind]. 
  assert (G1 : py_or (Some 1) default_gravity = 1) by (cbn; destruct (Reqb_spec 1 0); [lra|reflexivity]).
  set (nf := {| nf_dim := 2; nf_call := low_call (Some 1) (snd p) |}).
  destruct (C28_low_order_defined (Some 1) (BArray [0; 1/2]) nf ["outflow"; "wall"]%string None None
    {| bc_left := [CopyCell 0]; bc_right := [RightReflecting reflect]; bc_periodic := false |} 10 (0 + 0 * 1) dam) as [v Ev].
  - rewrite G1. lra.
  - unfold sw_low. rewrite Ep. reflexivity.
  - intros l El. injection El as <-. reflexivity.
  - reflexivity.
  - discriminate.
  - lra.
  - intros f [|]; discriminate.
  - intros x [<-|[<-|[]]]; cbn; lra.
  - eexists. split; [reflexivity|]. split; [reflexivity|]. split; [intros x [<-|[<-|[]]]; cbn; lra|].
    unfold checked_run. cbn [foldM].
    assert (C : forall t, half_cfl_check (py_or (Some 1) default_gravity) 10
      {| bc_left := [CopyCell 0]; bc_right := [RightReflecting reflect]; bc_periodic := false |} 1 t dam = true).
    { intro t. unfold half_cfl_check. rewrite G1. unfold dam.
      assert (X : extended {| bc_left := [CopyCell 0]; bc_right := [RightReflecting reflect]; bc_periodic := false |} [(1, 0); (4, 0)] (Some t)
        = Ok [(1, 0); (1, 0); (4, 0); reflect (4, 0)]) by reflexivity.
      rewrite X. apply forallb_forall. intros x Hx.
      assert (Q : snd x = 0 /\ (fst x = 1 \/ fst x = 2 * 2)).
      { unfold reflect in Hx. cbn in Hx. destruct Hx as [<-|[<-|[<-|[<-|[]]]]]; cbn [fst snd]; lra. }
      destruct x as [h q]. cbn [fst snd] in *. destruct Q as [-> Hh]. unfold velocity. rewrite velocity_q0, Rabs_R0.
      assert (sqrt (1 * h) <= 2).
      { rewrite Rmult_1_l. destruct Hh as [-> | ->]; [rewrite sqrt_1; lra|]. rewrite sqrt_square; lra. }
      destruct (Rleb_spec (1 * (0 + sqrt (1 * h))) (10 / 2)); [reflexivity|]. lra. }
    rewrite (euler_one _ 0 dam 1 v); [reflexivity|]. rewrite C. exact Ev.
Qed.

(** ** C29 *)
(** Lake at rest over a bottom given as an array (or over a flat bottom, when the
    bottom is absent or a number): the right hand side of the low order scheme, of
    the central scheme and of the limited scheme built on them is zero. *)
Theorem C29_lake_at_rest_rhs : forall gravity b bot nf conds il ir bc dx t u,
  0 < py_or gravity default_gravity ->
  sw_low gravity b = Ok nf \/ sw_central gravity b = Ok nf \/
    (exists high, (sw_low gravity b = Ok high \/ sw_central gravity b = Ok high) /\ sw_mcl gravity b conds il ir high = Ok nf) ->
  b = BArray bot \/ (forall l, b <> BArray l) /\ (forall i, (i < length bot)%nat -> nth i bot 0 = nth 0 bot 0) ->
  get_boundary_conditions (Some reflect) conds 1 il ir = Ok bc ->
  ((exists nl nr, side_names conds nl nr /\ In nl ["wall"; "outflow"]%string /\ In nr ["wall"; "outflow"]%string) \/
   conds = ["periodic"%string] /\ nth 0 bot 0 = nth (length bot - 1) bot 0) ->
  u <> [] -> lake_at_rest bot u -> resolved bot -> dx <> 0 ->
  fv_rhs nf dx bc t u = Ok (repeat (0, 0) (length u)).
Proof.
  intros gravity b bot nf conds il ir bc dx t u Hg HN HB B HC Hu HL HR Hdx.
  eapply (balanced_rhs gravity b nf conds il ir bc dx t u bot); eauto.
  destruct HN as [E|[E|[high [HN E]]]].
  - eapply balanced_low; eauto.
  - eapply balanced_central; eauto.
  - eapply balanced_mcl; eauto. destruct HN as [E'|E']; [eapply balanced_low; eauto|eapply balanced_central; eauto].
Qed.
Print Assumptions C29_lake_at_rest_rhs.

(** so any run of any of the Runge-Kutta methods, with any time steps, returns the state *)
Theorem C29_lake_at_rest_runs : forall gravity b bot nf conds il ir bc dx T dts t0 u,
  0 < py_or gravity default_gravity ->
  sw_low gravity b = Ok nf \/ sw_central gravity b = Ok nf \/
    (exists high, (sw_low gravity b = Ok high \/ sw_central gravity b = Ok high) /\ sw_mcl gravity b conds il ir high = Ok nf) ->
  b = BArray bot \/ (forall l, b <> BArray l) /\ (forall i, (i < length bot)%nat -> nth i bot 0 = nth 0 bot 0) ->
  get_boundary_conditions (Some reflect) conds 1 il ir = Ok bc ->
  ((exists nl nr, side_names conds nl nr /\ In nl ["wall"; "outflow"]%string /\ In nr ["wall"; "outflow"]%string) \/
   conds = ["periodic"%string] /\ nth 0 bot 0 = nth (length bot - 1) bot 0) ->
  u <> [] -> lake_at_rest bot u -> resolved bot -> dx <> 0 ->
  rk_run_e (fv_rhs nf dx bc) T dts {| o_time := t0; o_sol := u |} = Ok {| o_time := t0 + rsum dts; o_sol := u |}.
Proof.
  intros gravity b bot nf conds il ir bc dx T dts t0 u Hg HN HB B HC Hu HL HR Hdx.
  apply (steady_run (fun l => length l = length u) _ T dts t0 u (repeat (0, 0) (length u))); auto.
  - apply repeat_length.
  - intros [i k]. cbn. assert (Z : nth i (repeat (0, 0) (length u)) (0, 0) = (0, 0)).
    { generalize (length u). intro m. clear. revert i; induction m; destruct i; simpl; auto. }
    rewrite Z. destruct k; reflexivity.
  - intro t. eapply C29_lake_at_rest_rhs; eauto.
Qed.
Print Assumptions C29_lake_at_rest_runs.
Example C29_ex : exists high nf bc,
  sw_central None (BArray [0; 1; 1/2]) = Ok high /\
  sw_mcl None (BArray [0; 1; 1/2]) ["wall"%string] None None high = Ok nf /\
  get_boundary_conditions (Some reflect) ["wall"%string] 1 None None = Ok bc /\
  lake_at_rest [0; 1; 1/2] [(2, 0); (1, 0); (3/2, 0)] /\ resolved [0; 1; 1/2] /\
  rk_run_e (fv_rhs nf (1/3) bc) ssp3 [1; 2] {| o_time := 0; o_sol := [(2, 0); (1, 0); (3/2, 0)] |} =
    Ok {| o_time := 0 + rsum [1; 2]; o_sol := [(2, 0); (1, 0); (3/2, 0)] |}.
Proof.
  pose proof epsilon_lt as He.
  destruct (bathymetry_array (BArray [0; 1; 1/2]) 3 ltac:(lia)) as [p [st [Ep Es]]]; [intros l El; injection El as <-; reflexivity|].
  assert (LR : lake_at_rest [0; 1; 1/2] [(2, 0); (1, 0); (3/2, 0)]).
  { split; [reflexivity|]. exists 2. intros i Hi. cbn [List.length] in Hi. destruct i as [|[|[|i]]]; [| | |lia]; cbn [nth fst snd]; lra. }
  assert (RS : resolved [0; 1; 1/2]).
  { right. exists 1%nat. split; [cbn; lia|]. cbn [nth]. rewrite Rabs_pos_eq; lra. }
  eexists. eexists. eexists. split; [unfold sw_central, with_source; rewrite Ep; cbn [bind]; reflexivity|].
  split; [unfold sw_mcl; cbn [get_boundary_conditions]; rewrite Ep; cbn [bind]; reflexivity|].
  split; [reflexivity|]. split; auto. split; auto.
  eapply (C29_lake_at_rest_runs None (BArray [0; 1; 1/2]) [0; 1; 1/2] _ ["wall"%string] None None); auto.
  - cbn. unfold default_gravity. lra.
  - right. right. eexists. split; [right; unfold sw_central, with_source; rewrite Ep; cbn [bind]; reflexivity|].
    unfold sw_mcl; cbn [get_boundary_conditions]; rewrite Ep; cbn [bind]; reflexivity.
  - left. exists "wall"%string, "wall"%string. cbn. auto.
  - discriminate.
  - lra.
Qed.

(** ** C30 *)
(** subtracting the bottom source term leaves the height fluxes unchanged *)
Theorem C30_source_keeps_heights : forall gravity b nf nf' vl vr fl fr fl' fr',
  with_source gravity b nf = Ok nf' -> length vl = length vr ->
  nf_call nf [vl; vr] = Ok (fl, fr) -> length fl = length vl -> length fr = length vl ->
  nf_call nf' [vl; vr] = Ok (fl', fr') ->
  map fst fl' = map fst fl /\ map fst fr' = map fst fr.
Proof.
  intros gravity b nf nf' vl vr fl fr fl' fr' E Lv C Ll Lr C'. unfold with_source in E. inv_bind E. apply Ok_inj in E. subst nf'.
  cbn [nf_call] in C'. unfold wrapped_call in C'. rewrite C in C'. cbn [bind] in C'.
  rewrite (required_two _ 1) in C' by (cbn; lia). cbn [bind nth Nat.sub fst snd] in C'. inv_bind C'. apply Ok_inj in C'. injection C' as <- <-.
  unfold source_term in E. inv_bind E. apply Ok_inj in E. apply broadcast_length in E1.
  assert (G : forall x, length x = length vl -> map fst (map2 csub x a0) = map fst x).
  { intros x Lx. apply (list_ext 0).
    - rewrite !map_length, map2_length, <- E, map2_length, combine_length. lia.
    - intros i Hi. rewrite map_length, map2_length, <- E, map2_length, combine_length in Hi.
      rewrite !(nth_map' fst _ _ (0, 0)) by (rewrite ?map2_length, <- ?E, ?map2_length, ?combine_length; lia).
      rewrite (nth_map2 _ _ _ i (0, 0) (0, 0)) by (rewrite <- ?E, ?map2_length, ?combine_length; lia).
      rewrite <- E. rewrite (nth_map2 _ _ _ i ((0, 0), (0, 0)) 0) by (rewrite ?combine_length; lia). cbn. ring. }
  split; apply G; auto.
Qed.
Print Assumptions C30_source_keeps_heights.

(** Between two walls, or with periodic boundaries, every scheme keeps the amount of
    water over any number of steps of any of the methods, for any bottom. *)
Theorem C30_water_is_conserved : forall gravity b conds il ir bc dx T steps t0 u0 o,
  (forall p, In p steps -> sw_scheme gravity b conds il ir (snd p)) ->
  get_boundary_conditions (Some reflect) conds 1 il ir = Ok bc ->
  conds = ["periodic"%string] \/ side_names conds "wall" "wall" ->
  u0 <> [] -> In T [euler; heun; ssp3; rk8] ->
  run_with (fun nf => fv_rhs nf dx bc) T steps {| o_time := t0; o_sol := u0 |} = Ok o ->
  length (o_sol o) = length u0 /\ water (o_sol o) = water u0.
Proof.
  intros gravity b conds il ir bc dx T steps t0 u0 o HS B HC Hu HT E.
  assert (W : forall u, water u = total true u) by reflexivity. rewrite !W. clear W.
  unfold run_with in E. revert t0 u0 Hu HS E. induction steps as [|[dt nf] steps IH]; intros t0 u0 Hu HS E.
  - cbn in E. apply Ok_inj in E. subst o. auto.
  - cbn [foldM fst snd] in E. inv_bind E.
    destruct (rk_run_e_linear (fun l => length l = length u0) (fv_rhs nf dx bc) (repeat czero (length u0)) T [dt]
       {| o_time := t0; o_sol := u0 |} a (total true)) as [R1 R2]; auto.
    + intros x y Hx Hy. apply (total_vadd true (length u0)); auto.
    + intros r x _. apply total_vscal.
    + apply repeat_length.
    + apply total_zero.
    + intros t u v Lu Ev. destruct (tight_rhs nf conds il ir bc dx t u v) as [Lv Tv]; auto.
      * eapply scheme_tight. apply (HS (dt, nf)). left. reflexivity.
      * intros ->. destruct u0; [congruence|discriminate].
      * split; [congruence|auto].
    + apply tableau_rows; auto.
    + unfold rk_run_e. cbn [foldM]. rewrite E0. reflexivity.
    + destruct a as [t1 u1]. cbn [o_sol] in R1, R2. destruct (IH t1 u1) as [A1 A2]; auto.
      * intros ->. destruct u0; [congruence|discriminate].
      * intros p Hp. apply HS. right. auto.
      * split; [etransitivity; [exact A1|exact R2]|etransitivity; [exact A2|exact R1]].
Qed.
Print Assumptions C30_water_is_conserved.
(* the hypotheses are met: a step of the limited scheme for the dam break *)
Example C30_ex : exists low nf bc o,
  sw_low (Some 1) (BArray [0; 1/2]) = Ok low /\
  sw_mcl (Some 1) (BArray [0; 1/2]) ["wall"%string] None None low = Ok nf /\
  sw_scheme (Some 1) (BArray [0; 1/2]) ["wall"%string] None None nf /\
  get_boundary_conditions (Some reflect) ["wall"%string] 1 None None = Ok bc /\
  run_with (fun nf => fv_rhs nf 10 bc) euler [(1, nf)] {| o_time := 0; o_sol := dam |} = Ok o /\ water (o_sol o) = 5.
Proof.
  assert (G1 : py_or (Some 1) default_gravity = 1) by (cbn; destruct (Reqb_spec 1 0); [lra|reflexivity]).
  destruct (bathymetry_array (BArray [0; 1/2]) 2 ltac:(lia)) as [p [st [Ep Es]]]; [intros l El; injection El as <-; reflexivity|].
  set (low := {| nf_dim := 2; nf_call := low_call (Some 1) (snd p) |}).
  set (bc := {| bc_left := [LeftReflecting reflect]; bc_right := [RightReflecting reflect]; bc_periodic := false |}).
  set (nf := {| nf_dim := 2; nf_call := sw_mcl_call (Some 1) (snd p) bc low |}).
  assert (E1 : sw_low (Some 1) (BArray [0; 1/2]) = Ok low) by (unfold sw_low; rewrite Ep; reflexivity).
  assert (EB : get_boundary_conditions (Some reflect) ["wall"%string] 1 None None = Ok bc) by reflexivity.
  assert (E2 : sw_mcl (Some 1) (BArray [0; 1/2]) ["wall"%string] None None low = Ok nf).
  { unfold sw_mcl. rewrite EB. cbn [bind]. rewrite Ep. reflexivity. }
  assert (HS : sw_scheme (Some 1) (BArray [0; 1/2]) ["wall"%string] None None nf).
  { eapply sch_mcl; [|exact E2]. apply sch_low. exact E1. }
  destruct (wet_rhs nf ["wall"%string] None None bc 10 (0 + 0 * 1) dam) as [v Ev]; auto.
  - eapply (mcl_total (Some 1)); [rewrite G1; lra|cbn; lia|exact E2|exact Ep|exact Es|].
    eapply (low_total (Some 1)); [rewrite G1; lra|exact E1|exact Ep|exact Es].
  - discriminate.
  - intros f [|]; discriminate.
  - intros x [<-|[<-|[]]]; cbn; lra.
  - exists low, nf, bc. eexists. split; auto. split; auto. split; auto. split; auto.
    assert (ER : run_with (fun nf => fv_rhs nf 10 bc) euler [(1, nf)] {| o_time := 0; o_sol := dam |} =
      Ok {| o_time := 0 + 1; o_sol := vadd dam (vscal 1 (vscal 1 v)) |}).
    { unfold run_with. cbn [foldM fst snd]. rewrite (euler_one _ 0 dam 1 v Ev). reflexivity. }
    split; [exact ER|].
    destruct (C30_water_is_conserved (Some 1) (BArray [0; 1/2]) ["wall"%string] None None bc 10 euler [(1, nf)] 0 dam {| o_time := 0 + 1; o_sol := vadd dam (vscal 1 (vscal 1 v)) |}) as [_ W].
    + intros q [<-|[]]. exact HS.
    + exact EB.
    + right. cbn. auto.
    + discriminate.
    + left. reflexivity.
    + exact ER.
    + rewrite W. unfold water, dam, rsum. cbn. ring.
Qed.

(** ** C33 *)
(** The diffusion matrix is defined, symmetric and positive semidefinite. *)
Theorem C33_diffusion_matrix : forall g l r, 0 < g ->
  exists D, diffusion_matrix g l r = Ok D /\ mat_transpose D = D /\ forall x, 0 <= dot x (mat_vec D x).
Proof.
  intros g l r Hg. unfold diffusion_matrix. set (c := sqrt (g * fst (cavg l r))). set (v := velocity (cavg l r)).
  assert (S2 : 0 < sqrt (2 * g)) by (apply sqrt_lt_R0; lra). rewrite rdiv_ne by lra. cbn [bind].
  eexists. split; [reflexivity|]. set (k := 1 / sqrt (2 * g)).
  assert (Hk : 0 < k) by (unfold k, Rdiv; rewrite Rmult_1_l; apply Rinv_0_lt_compat; auto).
  set (a := Rabs (v - c)). set (b := Rabs (v + c)).
  assert (Ha : 0 <= a) by apply Rabs_pos. assert (Hb : 0 <= b) by apply Rabs_pos.
  unfold mat_mul, mat_scal, mat_transpose, mat_vec, dot. cbn [cscal RR_CellOps fst snd]. split.
  - do 2 f_equal; ring.
  - intros [x y]. cbn [fst snd].
    match goal with |- 0 <= ?e => replace e with (k * k * k / 2 * (a * (x + (v - c) * y) ^ 2 + b * (x + (v + c) * y) ^ 2)) by field end.
    apply Rmult_le_pos.
    + apply Rmult_le_pos; [|lra]. clearbody k; apply Rmult_le_pos; [apply Rmult_le_pos|]; lra.
    + apply Rplus_le_le_0_compat; apply Rmult_le_pos; auto; apply pow2_ge_0.
Qed.
Print Assumptions C33_diffusion_matrix.

(** The flux of the first order energy stable scheme is the one of the energy stable
    scheme minus a diffusion that, tested with the jump of the entropy variables over
    the node, is never positive: the diffusion only removes energy. *)
Theorem C33_diffusion_removes_energy : forall g l r bl br step p, 0 < g ->
  es1_at g l r bl br step = Ok p ->
  let jump := csub (sw_entropy g r br) (sw_entropy g l bl) in
  let source := (0, g / 2 * average (fst l) (fst r) * step) in
  exists f d, sw_flux g (cavg l r) = Ok f /\
    fst p = csub (copp (csub f d)) source /\ snd p = csub (csub f d) source /\
    0 <= dot jump d /\ dot jump (snd p) <= dot jump (csub f source).
Proof.
  intros g l r bl br step p Hg E. cbv zeta. unfold es1_at in E. inv_bind E. inv_bind E. apply Ok_inj in E. subst p.
  destruct (C33_diffusion_matrix g l r Hg) as [D [ED [_ P]]]. rewrite ED in E1. apply Ok_inj in E1. subst a0.
  set (jump := csub (sw_entropy g r br) (sw_entropy g l bl)). specialize (P jump).
  exists a, (mat_vec D jump). cbn [fst snd]. repeat match goal with |- _ /\ _ => split end; auto.
  set (d := mat_vec D jump) in *. clearbody d jump. unfold dot, csub, copp in *. cbn [cadd cscal RR_CellOps fst snd]. lra.
Qed.
Print Assumptions C33_diffusion_removes_energy.
Example C33_ex : exists p, es1_at 1 (1, 0) (4, 0) 0 0 0 = Ok p /\ 0 < dot (csub (sw_entropy 1 (4, 0) 0) (sw_entropy 1 (1, 0) 0)) (3, 0).
Proof.
  destruct (C33_diffusion_matrix 1 (1, 0) (4, 0) ltac:(lra)) as [D [ED _]]. pose proof epsilon_lt.
  unfold es1_at. rewrite ED. unfold cavg, average. cbn [fst snd]. rewrite sw_flux_wet by lra. cbn [bind]. eexists. split; [reflexivity|].
  unfold dot, csub, copp, sw_entropy, velocity. cbn [fst snd cadd cscal RR_CellOps]. rewrite !velocity_q0. lra.
Qed.
