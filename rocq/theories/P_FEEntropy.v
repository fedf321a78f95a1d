(** C96: low order continuous Galerkin solutions lose entropy: the integral of the interpolant of a convex function of the solution never grows. *)
From Coq Require Import Reals List ZArith Arith Lia Lra Bool String Sorted.
From Coquelicot Require Import Coquelicot.
From Verif Require Import Prelude L_Prelude M_Mesh L_Mesh M_Quadrature M_Interpolate M_Boundary L_Boundary M_Flux L_Flux M_ShallowWater
  M_ODE S_ODE L_ODE M_TimeStepping L_TimeStepping M_Solution M_Solver S_Solver L_Solver P_Solver S_Contraction L_Contraction P_Variation P_Contraction M_Generate M_Misc
  M_FVSolver L_FVSolver P_Quadrature M_FE L_FE S_FE S_Solve S_FELow L_FELow P_FE P_FEMatrix P_FELow P_FEMCL P_FECG P_FERun P_FEChoice
  M_FEChoice M_Benchmark M_ScalarSolver S_ScalarSolver S_FESolver L_Invariant P_ScalarSolver L_FERates P_FESolver S_FEEntropy L_FEEntropy.
Import ListNotations.
Local Open Scope nat_scope.
Open Scope R_scope.
Local Open Scope list_scope.
Notation length := List.length.

Section Scheme.
Context (eig : nat -> (nat -> nat -> R) -> (nat -> R) * (nat -> nat -> R)) (D : interval) (n : nat) (m : mesh) (p : nat) (s : fespace) (pr : problem).
Hypothesis Hn : (0 < n)%nat.
Hypothesis HD : ia D < ib D.
Hypothesis Em : new_mesh D n = Ok m.
Hypothesis Es : new_fespace m p = Ok s.
Hypothesis HE : eig_ok eig p.
Hypothesis HE1 : eig_ok eig (p + 1).
Let N := fs_dimension s.
Context (mass : list R) (EL : lumped_mass eig s = Ok mass) (LL : length mass = N).

Lemma integral_weighted phi u : length u = N -> integral_of m s phi u (weighted mass phi u).
Proof. intro Lu. unfold integral_of, weighted. apply (element_integral eig D n m p s mass (map phi u) Hn HD Em Es HE1 EL). rewrite map_length. exact Lu. Qed.
Lemma weighted_no_more phi u v : length u = N -> length v = N -> weighted mass phi v <= weighted mass phi u -> no_more m s phi u v.
Proof. intros Lu Lv H. exists (weighted mass phi u), (weighted mass phi v). split; [apply integral_weighted; exact Lu|]. split; [apply integral_weighted; exact Lv|exact H]. Qed.

(** one Euler step *)
Lemma euler_entropy u r step dt lo hi phi : length u = N -> cg_low_rhs eig pr s u = Ok r -> fe_time_step eig pr s u = Ok step -> 0 <= dt -> step_allows step dt ->
  (forall i, (i < N)%nat -> lo <= dof u i <= hi) -> convex_on lo hi phi ->
  weighted mass phi (map2 Rplus u (map (Rmult dt) r)) <= weighted mass phi u.
Proof.
  intros Lu ER ES Hdt A Hb Cv.
  destruct (C37_discrete_gradient eig D n m p s Hn HD Em Es HE) as [C [EC [SK [RS [CS _]]]]].
  assert (LR : length r = N) by (destruct (C39_low_order_conserves eig D n m p s pr u r Hn HD Em Es HE HE1 Lu ER) as [_ [_ [X _]]]; exact X).
  set (x := map2 Rplus u (map (Rmult dt) r)). assert (Lx : length x = N) by (unfold x; rewrite map2_length, map_length; lia).
  assert (Vx : forall i, (i < N)%nat -> nth i x 0 = dof u i + dt * dof r i).
  { intros i Hi. unfold x, dof. rewrite (nth_map2 _ _ _ _ 0 0 0) by (rewrite ?map_length; lia). rewrite (nth_map' _ _ _ 0 0) by lia. reflexivity. }
  destruct Hdt as [Hdt|<-].
  2:{ right. f_equal. rewrite (list_tab 0 x), (list_tab 0 u), Lx, Lu. apply tab_ext. intros i Hi. rewrite Vx by exact Hi. unfold dof. ring. }
  assert (Hm := step_masses eig pr s u mass C step EL EC ES dt Hdt A). fold N in Hm.
  assert (Hr : forall i, (i < N)%nat -> nth i mass 0 * dof r i = off N (fun j => diffusion pr N C u i j * (dof u j - dof u i) - C i j * (flux_of pr (dof u j) - flux_of pr (dof u i))) i).
  { unfold cg_low_rhs in ER. rewrite EL, EC in ER. cbn [bind] in ER. unfold low_rhs in ER. fold N in ER.
    apply (mapM_nth _ _ _ 0%nat 0) in ER. rewrite seq_length in ER. destruct ER as [_ VR]. intros i Hi.
    specialize (VR i Hi). rewrite seq_nth in VR by auto. cbn [Nat.add] in VR. rewrite (low_term N C SK (fun j _ => RS j) pr u i Hi Lu) in VR. unfold rdiv in VR.
    destruct (Reqb_spec (nth i mass 0) 0) as [Z|Z]; [discriminate|]. apply Ok_inj in VR. change (nth i r 0) with (dof r i) in VR. rewrite <- VR. field. exact Z. }
  apply (weighted_majorised lo hi); [exact Cv| | |lia|lia| |].
  - intros z Hz. apply (In_nth _ _ 0) in Hz as [i [Hi <-]]. rewrite Lx in Hi. rewrite Vx by exact Hi.
    apply (C39_low_order_bounds eig D n m p s pr u r step Hn HD Em Es HE HE1 Lu ER ES dt ltac:(lra) A i lo hi Hi). intros; auto.
  - intros z Hz. apply (In_nth _ _ 0) in Hz as [i [Hi <-]]. apply Hb. lia.
  - rewrite !(weighted_tab mass _ _ N) by auto. destruct (C39_low_order_conserves eig D n m p s pr u r Hn HD Em Es HE HE1 Lu ER) as [ma [E1 [_ E2]]].
    rewrite EL in E1. apply Ok_inj in E1. subst ma. rewrite (list_tab 0 mass), (list_tab 0 r), LL, LR, map2_tab in E2.
    rewrite (sum_ext N _ (fun i => nth i mass 0 * nth i u 0 + dt * (nth i mass 0 * nth i r 0))) by (intros i Hi; rewrite Vx by exact Hi; unfold dof; ring).
    rewrite rsum_tab_plus, rsum_tab_scal, E2. ring.
  - intro k. rewrite !(weighted_tab mass _ _ N) by auto. rewrite (sum_ext N _ (fun i => nth i mass 0 * Rabs (dof u i + dt * dof r i - k))) by (intros i Hi; rewrite Vx by exact Hi; reflexivity).
    apply (all_kruzkov N C SK RS CS pr u mass r dt ltac:(lra) Hm Hr k).
Qed.

(** one step of a strong stability preserving method *)
Lemma step_entropy T dt t u0 u lo hi step phi : (p <= 7)%nat -> In T [euler; heun; ssp3] -> length u = N -> (forall i, (i < N)%nat -> lo <= dof u i <= hi) ->
  fe_time_step eig Advection s u0 = Ok step -> 0 <= dt -> step_allows step (dt * top_speed pr lo hi) -> convex_on lo hi phi ->
  exists u', rk_execute_e (fun _ => cg_low_rhs eig pr s) T dt {| o_time := t; o_sol := u |} = Ok {| o_time := t + dt; o_sol := u' |} /\ length u' = N /\
    (forall i, (i < N)%nat -> lo <= dof u' i <= hi) /\ weighted mass phi u' <= weighted mass phi u.
Proof.
  intros H7 HTab Lu Hb E0 Hdt A Cv.
  assert (MP := C37_lumped_masses_positive eig D n m p s mass Hn HD Em Es HE1 H7 EL). fold N in MP.
  destruct (ssp_convex_run_e (fun l : list R => length l = N) (fun _ => cg_low_rhs eig pr s) (repeat 0 N)
    (fun v => length v = N /\ (forall i, (i < N)%nat -> lo <= dof v i <= hi) /\ weighted mass phi v <= weighted mass phi u) [dt] T {| o_time := t; o_sol := u |}) as [o [E [[Lo [Ro Wo]] To]]].
  - apply repeat_length.
  - tauto.
  - intros z v r Lv Ev. destruct (C39_low_order_conserves eig D n m p s pr v r Hn HD Em Es HE HE1 Lv Ev) as [_ [_ [X _]]]. exact X.
  - intros a b r [La [Ha Wa]] [Lb [Hb' Wb]] Hr. cbn.
    assert (Lc : length (map2 Rplus (map (Rmult r) a) (map (Rmult (1 - r)) b)) = N) by (rewrite map2_length, !map_length; lia).
    assert (V : forall i, (i < N)%nat -> nth i (map2 Rplus (map (Rmult r) a) (map (Rmult (1 - r)) b)) 0 = r * nth i a 0 + (1 - r) * nth i b 0).
    { intros i Hi. rewrite (nth_map2 _ _ _ _ 0 0 0) by (rewrite map_length; lia). rewrite !(nth_map' _ _ _ 0 0) by lia. reflexivity. }
    split; [exact Lc|]. split.
    + intros i Hi. unfold dof. rewrite V by exact Hi. specialize (Ha i Hi). specialize (Hb' i Hi). unfold dof in *. nra.
    + apply Rle_trans with (r * weighted mass phi a + (1 - r) * weighted mass phi b); [|nra].
      rewrite !(weighted_tab mass _ _ N) by auto. rewrite <- !rsum_tab_scal, <- rsum_tab_plus. apply rsum_tab_le. intros i Hi. rewrite V by exact Hi.
      pose proof (MP i Hi) as M0. pose proof (Cv (nth i a 0) (nth i b 0) r (Ha i Hi) (Hb' i Hi) ltac:(lra)) as Q.
      apply (Rmult_le_compat_l (nth i mass 0)) in Q; [|lra]. lra.
  - intros z v [Lv _]. destruct (C39_low_order_succeeds eig D n m p s pr v Hn HD Em Es HE HE1 H7 Lv) as [r [_ [X _]]]. eauto.
  - intros d z v r [<-|[]] [Lv [Hv Wv]] Ev.
    destruct (uniform_step eig D n m p s pr v u0 lo hi step dt Hn HD Em Es HE HE1 H7 Lv Hv Hdt E0 A) as [st [EST AL]].
    assert (Lr : length r = N) by (destruct (C39_low_order_conserves eig D n m p s pr v r Hn HD Em Es HE HE1 Lv Ev) as [_ [_ [X _]]]; exact X).
    cbn. split; [rewrite map2_length, map_length; lia|]. split.
    + intros i Hi. unfold dof. rewrite (nth_map2 _ _ _ _ 0 0 0) by (rewrite ?map_length; lia). rewrite (nth_map' _ _ _ 0 0) by lia.
      apply (C39_low_order_bounds eig D n m p s pr v r st Hn HD Em Es HE HE1 Lv Ev EST dt Hdt AL i lo hi Hi). intros; auto.
    + eapply Rle_trans; [|exact Wv]. apply (euler_entropy v r st dt lo hi phi Lv Ev EST Hdt AL Hv Cv).
  - cbn in HTab. destruct HTab as [<-|[<-|[<-|[]]]]; auto.
  - cbn. split; [exact Lu|]. split; [exact Hb|lra].
  - destruct o as [to uo]. cbn [o_time o_sol] in *. unfold rk_run_e in E. cbn [foldM] in E. destruct (rk_execute_e _ T dt _) as [y|e]; [|discriminate]. cbn [bind] in E. apply Ok_inj in E. subst y.
    exists uo. cbn [rsum fold_right] in To. rewrite Rplus_0_r in To. rewrite To. auto.
Qed.
End Scheme.

(** A forward Euler step of the low order scheme that is at most as long as the optimal one, any degree for which right hand side and step
    can be computed, advection and Burgers' equation: the interpolant of a convex function of the solution has no larger integral afterwards. *)
Theorem C96_euler_step_loses_entropy : forall eig D n m p s pr u r step dt lo hi phi,
  (0 < n)%nat -> ia D < ib D -> new_mesh D n = Ok m -> new_fespace m p = Ok s -> eig_ok eig p -> eig_ok eig (p + 1) ->
  length u = fs_dimension s -> cg_low_rhs eig pr s u = Ok r -> fe_time_step eig pr s u = Ok step -> 0 <= dt -> step_allows step dt ->
  (forall x, In x u -> lo <= x <= hi) -> convex_on lo hi phi ->
  no_more m s phi u (tab (length u) (fun i => nth i u 0 + dt * nth i r 0)).
Proof.
  intros eig D n m p s pr u r step dt lo hi phi Hn HD Em Es HE HE1 Lu ER ES Hdt A Hb Cv.
  destruct (C37_lumped_masses eig D n m p s Hn HD Em Es HE1) as [M [mass [_ [EL [LL _]]]]].
  assert (LR : length r = fs_dimension s) by (destruct (C39_low_order_conserves eig D n m p s pr u r Hn HD Em Es HE HE1 Lu ER) as [_ [_ [X _]]]; exact X).
  replace (tab (length u) (fun i => nth i u 0 + dt * nth i r 0)) with (map2 Rplus u (map (Rmult dt) r)).
  - apply (weighted_no_more eig D n m p s Hn HD Em Es HE1 mass EL); [exact Lu|rewrite map2_length, map_length; lia|].
    apply (euler_entropy eig D n m p s pr Hn HD Em Es HE HE1 mass EL LL u r step dt lo hi phi); auto. rewrite between_dofs, Lu in Hb. exact Hb.
  - rewrite (list_tab 0 (map2 Rplus u (map (Rmult dt) r))), map2_length, map_length, LR, Lu, Nat.min_id. apply tab_ext. intros i Hi.
    rewrite (nth_map2 _ _ _ _ 0 0 0) by (rewrite ?map_length; lia). rewrite (nth_map' _ _ _ 0 0) by lia. reflexivity.
Qed.
Print Assumptions C96_euler_step_loses_entropy.

(** The solver: whatever a program does (short of a reinitialisation between the two times), the integral never grows, neither for the solution nor in the history. *)
Theorem C96_entropy_never_grows : forall eig solver old finite adaptive b a pr c w m s us1 us2 lo hi phi,
  ia (sb_domain b) < ib (sb_domain b) -> sb_problem b = fe_name pr -> ssp_method (f_ode a) ->
  new_mesh (sb_domain b) (used_cells a) = Ok m -> new_fespace m (used_degree a) = Ok s ->
  eig_ok eig (used_degree a) -> eig_ok eig (used_degree a + 1) -> (2 <= used_cells a)%nat -> (used_degree a <= 7)%nat ->
  0 < py_or (f_cfl a) default_cfl -> cfl_condition eig pr s (py_or (f_cfl a) default_cfl) ->
  fe_solver eig solver old (FLow adaptive) b a = Ok (c, w) ->
  (forall v, inherits_bounds (o_sol (solution_of w)) v -> finite v = true) ->
  (forall x, In x (o_sol (solution_of w)) -> lo <= x <= hi) -> convex_on lo hi phi ->
  (forall v t, In (Reinit v t) us1 -> inherits_bounds (o_sol (solution_of w)) v) -> (forall v t, ~ In (Reinit v t) us2) ->
  let st1 := use_run finite c us1 (w, []) in
  let st2 := use_run finite c us2 st1 in
  let before := o_sol (solution_of (fst st1)) in
  let after := o_sol (solution_of (fst st2)) in
  no_more m s phi before after /\
  exists l, w_values (fst st2) = w_values (fst st1) ++ l /\ StronglySorted (no_more m s phi) l /\ List.Forall (fun v => no_more m s phi before v /\ no_more m s phi v after) l.
Proof.
  intros eig solver old finite adaptive b a pr c w m s us1 us2 lo hi phi HD HP HM Em Es HE HE1 H2 H7 C0 HC E HF HB Cv HU1 HU2. cbv zeta.
  assert (HK : bounded_kind (FLow adaptive)) by (exists adaptive; auto).
  destruct (fe_initial eig solver old (FLow adaptive) b a pr c w m s HK HD HP HM Em Es H2 H7 HC E) as [I0 L0].
  destruct (fe_bounds_setup eig solver old (FLow adaptive) b a pr c w m s HK HP HM Em Es HC E) as [rhs [ad [Ew [_ [_ [Er [_ [HT [Qc Gn]]]]]]]]].
  assert (Er' : rhs = cg_low_rhs eig pr s).
  { assert (Gp : fe_problem (sb_problem b) = Ok pr) by (rewrite HP; destruct pr; reflexivity).
    cbn [fe_solver] in E. unfold limited_solver in E. inv_bind E. destruct a0 as [s' u']. rewrite Gp in E. cbn [bind] in E. apply Ok_inj in E.
    unfold fe_solution in E0. change (or_default (f_mesh_size a) default_mesh_size) with (used_cells a) in E0. rewrite Em in E0. cbn [bind] in E0.
    change (or_default (f_degree a) default_polynomial_degree) with (used_degree a) in E0. rewrite Es in E0. cbn [bind] in E0. apply Ok_inj in E0. injection E0 as <- <-.
    injection E as <- _. cbn [c_rhs] in Er. apply (f_equal (fun g => g 0)) in Er. symmetry. exact Er. }
  subst rhs. rewrite I0 in HF, HB, HU1. set (u0 := initial_dofs old s (sb_initial b)) in *. set (cfl := py_or (f_cfl a) default_cfl) in *. set (P := inherits_bounds u0).
  pose proof (fe_safe eig solver old (FLow adaptive) b a pr c w m s HK HD HP HM Em Es HE HE1 H2 H7 C0 HC E) as Sf. fold u0 P in Sf.
  pose proof (fe_inv eig solver old (FLow adaptive) b a pr c w m s HK HP HM Em Es H2 H7 HC E) as Iv. fold u0 P in Iv.
  assert (Hn : (0 < used_cells a)%nat) by lia.
  destruct (C37_lumped_masses eig _ _ m _ s Hn HD Em Es HE1) as [M [mass [_ [EL [LL _]]]]].
  assert (PL : forall v, P v -> length v = fs_dimension s) by (intros v [Lv _]; congruence).
  assert (NE : forall v : list R, length v = fs_dimension s -> v <> []).
  { intros v Lv Z. rewrite Z in Lv. cbn in Lv. rewrite (s_dim _ _ m _ s Hn HD (space_degree m _ s Es) Em Es) in Lv. pose proof (space_degree m _ s Es). nia. }
  assert (HS : forall dt o, P (o_sol o) -> tol <= dt <= call_generator (c_gen c) (o_time o, o_sol o) ->
    exists o', rk_execute_e (c_rhs c) (c_tab c) dt o = Ok o' /\ P (o_sol o') /\ weighted mass phi (o_sol o') <= weighted mass phi (o_sol o)).
  { intros dt o Po [D1 D2]. rewrite Gn in D2. pose proof tol_pos as TP. set (u1 := if ad then o_sol o else u0) in *.
    assert (L1 : length u1 = fs_dimension s) by (unfold u1; destruct ad; [apply PL; exact Po|exact L0]).
    assert (I1 : inherits_bounds u0 u1) by (unfold u1; destruct ad; [exact Po|apply inherits_refl]).
    assert (I2 : inherits_bounds u1 (o_sol o)) by (unfold u1; destruct ad; [apply inherits_refl|exact Po]).
    destruct (step_exists eig _ _ m _ s H2 HD Em Es HE HE1 H7 pr u1 L1) as [step1 [E1 _]]. rewrite E1 in D2.
    destruct (step_exists eig _ _ m _ s H2 HD Em Es HE HE1 H7 Advection u1 L1) as [step [E0 _]].
    destruct (extremes u1 (NE u1 L1)) as [lo' [hi' [Il [Ih B]]]].
    assert (AL : step_allows step (dt * top_speed pr lo' hi')).
    { apply (step_uniform eig _ _ m _ s pr cfl H2 HD Em Es HE HE1 H7 C0 HC u1 u1 step1 step lo' hi' dt L1 E1 E0 ltac:(lra)); auto.
      destruct step1 as [x|]; [|exact I]. cbn [finite_step step_allows] in *. apply (Rmult_le_reg_r cfl); [exact C0|]. unfold Rdiv. rewrite Rmult_assoc, Rinv_l by lra. lra. }
    assert (Lo := PL _ Po). assert (Ro : forall i, (i < fs_dimension s)%nat -> lo' <= dof (o_sol o) i <= hi').
    { destruct I2 as [_ I2]. specialize (I2 lo' hi' B). rewrite between_dofs, Lo in I2. exact I2. }
    assert (Bl := proj2 I1 lo hi HB). pose proof (Bl lo' Il). pose proof (Bl hi' Ih).
    assert (Cv' : convex_on lo' hi' phi) by (intros x y q Hx Hy Hq; apply Cv; lra).
    destruct (step_entropy eig _ _ m _ s pr Hn HD Em Es HE HE1 mass EL LL (c_tab c) dt (o_time o) u1 (o_sol o) lo' hi' step phi H7 HT Lo Ro E0 ltac:(lra) AL Cv') as [u' [X1 [X2 [X3 X4]]]].
    exists {| o_time := o_time o + dt; o_sol := u' |}. rewrite Er. split; [destruct o; exact X1|]. cbn [o_sol]. split; [|exact X4].
    split; [congruence|]. intros l h Bh x Hx. rewrite <- X2, <- between_dofs in X3. specialize (X3 x Hx). assert (Q := proj2 I1 l h Bh). pose proof (Q lo' Il). pose proof (Q hi' Ih). lra. }
  set (st1 := use_run finite c us1 (w, [])).
  assert (Sep : separate 1 (fun _ => u0) (w, [])) by (rewrite Ew; apply separate_new; lia).
  assert (K : inv P (fst st1)) by (apply (use_inv finite P c HF Qc Sf us1 (fun _ => u0) (w, []) 1); auto).
  assert (D : descends P (weighted mass phi) (w_values (fst st1)) (weighted mass phi (w_mem (fst st1) (w_sol (fst st1)))) (fst st1)).
  { destruct K as [K0 [_ [K2 _]]]. split; [exact K0|]. split; [exact K2|]. split; [lra|]. exists []. rewrite app_nil_r. repeat constructor. }
  pose proof (use_descends finite P (weighted mass phi) c HF Qc HS _ _ us2 (fun _ => u0) st1 1 HU2 (separate_run finite 1 _ c us1 _ Sep) D) as [_ [P2 [X [l [Y1 [Y2 Y3]]]]]].
  (* all states shown have the right length *)
  assert (K2 : inv P (fst (use_run finite c us2 st1))).
  { apply (use_inv finite P c HF Qc Sf us2 (fun _ => u0) st1 1); [intros v t Hin; destruct (HU2 v t Hin)|apply (separate_run finite 1 _ c us1 _ Sep)|exact K]. }
  assert (Pl : forall v, In v l -> P v).
  { destruct K2 as [_ [_ [_ K3]]]. rewrite Forall_forall in K3. intros v Hv. apply K3. rewrite Y1. apply in_or_app. auto. }
  assert (Pb : P (o_sol (solution_of (fst st1)))) by (destruct K as [_ [_ [Q _]]]; exact Q).
  assert (Mono : forall u v, P u -> P v -> weighted mass phi v <= weighted mass phi u -> no_more m s phi u v).
  { intros u v Pu Pv. apply (weighted_no_more eig _ _ m _ s Hn HD Em Es HE1 mass EL); apply PL; assumption. }
  split; [apply Mono; assumption|]. exists l. split; [exact Y1|]. split.
  - clear - Y2 Pl Mono. induction Y2 as [|v l S IH F]; constructor; [apply IH; intros; apply Pl; right; assumption|].
    rewrite Forall_forall in *. intros x Hx. apply Mono; [apply Pl; left; reflexivity|apply Pl; right; exact Hx|apply F; exact Hx].
  - rewrite Forall_forall in *. intros v Hv. destruct (Y3 v Hv) as [Z1 Z2]. split; apply Mono; auto.
Qed.
Print Assumptions C96_entropy_never_grows.

(** With the default CFL number: every benchmark, mesh and degree up to 7. *)
Theorem C96_default_cfl_loses_entropy : forall eig solver old finite adaptive b a pr c w m s us1 us2 lo hi phi,
  ia (sb_domain b) < ib (sb_domain b) -> sb_problem b = fe_name pr -> ssp_method (f_ode a) -> f_cfl a = None ->
  new_mesh (sb_domain b) (used_cells a) = Ok m -> new_fespace m (used_degree a) = Ok s ->
  eig_ok eig (used_degree a) -> eig_ok eig (used_degree a + 1) -> (2 <= used_cells a)%nat -> (used_degree a <= 7)%nat ->
  fe_solver eig solver old (FLow adaptive) b a = Ok (c, w) ->
  (forall v, inherits_bounds (o_sol (solution_of w)) v -> finite v = true) ->
  (forall x, In x (o_sol (solution_of w)) -> lo <= x <= hi) -> convex_on lo hi phi ->
  (forall v t, In (Reinit v t) us1 -> inherits_bounds (o_sol (solution_of w)) v) -> (forall v t, ~ In (Reinit v t) us2) ->
  let st1 := use_run finite c us1 (w, []) in
  no_more m s phi (o_sol (solution_of (fst st1))) (o_sol (solution_of (fst (use_run finite c us2 st1)))).
Proof.
  intros eig solver old finite adaptive b a pr c w m s us1 us2 lo hi phi HD HP HM HC Em Es HE HE1 H2 H7 E HF HB Cv HU1 HU2. cbv zeta.
  assert (Hd : (1 <= used_degree a)%nat) by (unfold used_degree; destruct (f_degree a) as [[|d]|]; lia).
  apply (C96_entropy_never_grows eig solver old finite adaptive b a pr c w m s us1 us2 lo hi phi); auto; rewrite HC; cbn [py_or]; unfold default_cfl; [lra|].
  apply (C71_safe_cfl eig (sb_domain b) (used_cells a) m (used_degree a)); auto. destruct pr; cbn [safe_cfl]; [lra|].
  destruct (used_degree a) as [|[|[|[|[|[|[|q]]]]]]]; try lra.
Qed.
Print Assumptions C96_default_cfl_loses_entropy.

(** Burgers' equation with a smooth wave, cubic elements: the values have both signs; the square is convex. *)
Example C96_ex : exists eig solver m s c w, let b := burgers_benchmark (smooth_benchmark burgers_default_end) in
  let a := {| f_mesh_size := Some 30%nat; f_degree := Some 3%nat; f_cfl := Some (1 / 2); f_ode := Some ssp3; f_history := true |} in
  ia (sb_domain b) < ib (sb_domain b) /\ sb_problem b = fe_name Burgers /\ ssp_method (f_ode a) /\
  new_mesh (sb_domain b) (used_cells a) = Ok m /\ new_fespace m (used_degree a) = Ok s /\ eig_ok eig (used_degree a) /\ eig_ok eig (used_degree a + 1) /\
  0 < py_or (f_cfl a) default_cfl /\ cfl_condition eig Burgers s (py_or (f_cfl a) default_cfl) /\ fe_solver eig solver (fun _ => 7) (FLow true) b a = Ok (c, w) /\
  (forall x, In x (o_sol (solution_of w)) -> -1 <= x <= 2) /\ convex_on (-1) 2 (fun x => x ^ 2).
Proof.
  set (b := burgers_benchmark (smooth_benchmark burgers_default_end)). set (a := {| f_mesh_size := Some 30%nat; f_degree := Some 3%nat; f_cfl := Some (1 / 2); f_ode := Some ssp3; f_history := true |}).
  assert (HD : ia (sb_domain b) < ib (sb_domain b)) by (cbn; pose proof PI_RGT_0; lra).
  destruct (C57_ex (sb_domain b) 30 3 Burgers (-1) 1 ltac:(lia) ltac:(lia) HD) as [eig [solver [m [s [Em [Es [H1 [H2 [H3 [H4 H5]]]]]]]]]].
  destruct (C71_fe_solvers_can_be_built eig solver (fun _ => 7) (FLow true) b a Burgers HD eq_refl ltac:(intros; discriminate)) as [c [w [E [_ [L V]]]]].
  assert (C : py_or (f_cfl a) default_cfl = 1 / 2) by (cbn [a f_cfl py_or]; destruct (Reqb_spec (1 / 2) 0); [lra|reflexivity]).
  exists eig, solver, m, s, c, w. cbv zeta. rewrite C. split; [exact HD|]. split; [reflexivity|].
  split; [intros T HT; injection HT as <-; cbn; auto|]. do 4 (split; [assumption|]). split; [lra|]. split.
  - apply (C71_safe_cfl eig (sb_domain b) 30 m 3); auto; try lia. cbn [safe_cfl]. lra.
  - split; [exact E|]. split.
    + intros x Hx. apply (In_nth _ _ 0) in Hx as [i [Hi <-]]. rewrite L in Hi. rewrite V by exact Hi. set (z := ia _ + _). change (sb_initial b z) with (sin z + 1 / 2). pose proof (SIN_bound z). lra.
    + intros x y q Hx Hy Hq. pose proof (Rle_0_sqr (x - y)) as Sq. unfold Rsqr in Sq. pose proof (Rmult_le_pos q (1 - q) ltac:(lra) ltac:(lra)) as Q1. pose proof (Rmult_le_pos _ _ Q1 Sq). nra.
Qed.
Print Assumptions C96_ex.
