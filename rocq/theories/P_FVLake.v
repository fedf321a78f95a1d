(** C65: lakes at rest and the finite volume solvers, from the benchmark to the values a
    program reads from the solution. *)
From Coq Require Import Reals List ZArith Arith Lia Lra Psatz Bool String FunctionalExtensionality.
From Coquelicot Require Import Coquelicot.
From Verif Require Import Prelude L_Prelude M_Mesh L_Mesh M_Quadrature S_Quadrature S_Poly L_Poly M_Interpolate M_Boundary S_Boundary L_Boundary M_Flux S_Flux L_Flux
  M_ODE S_ODE L_ODE M_TimeStepping L_TimeStepping M_Coarsener M_Solution M_Solver S_Solver L_Solver M_Generate
  M_Scalar L_Scalar M_ShallowWater S_ShallowWater L_ShallowWater L_SWRuns L_SWLow L_SWWater L_SWLake L_SWTotal M_FVSolver S_FVSolver L_SWWide L_FVSolver
  M_Benchmark P_TimeStepping P_Solver P_Boundary P_Quadrature P_Gauss P_Interpolate P_ShallowWater P_FVWater.
Import ListNotations.
Local Open Scope nat_scope.
Open Scope R_scope.
Notation length := List.length.

Lemma cubic_exact D Q f p : length (q_nodes Q) = 2%nat -> length (q_weights Q) = 2%nat ->
  (forall f, deg_lt (2 * 2) f -> is_RInt f (ia D) (ib D) (integrate Q f)) ->
  (length p <= 4)%nat -> (forall x, f x = peval p x) -> forall P, (forall x, peval (pderiv P) x = peval p x) ->
  nth 0 (q_weights Q) 0 * f (nth 0 (q_nodes Q) 0) + nth 1 (q_weights Q) 0 * f (nth 1 (q_nodes Q) 0) = peval P (ib D) - peval P (ia D).
Proof.
  intros LN LW HQ Lp Ef P HP. pose proof (HQ f (ex_intro _ p (conj Lp Ef))) as I1.
  pose proof (is_RInt_antiderivative P p (ia D) (ib D) HP) as I2.
  assert (I3 : is_RInt f (ia D) (ib D) (peval P (ib D) - peval P (ia D))).
  { eapply is_RInt_ext; [|exact I2]. intros x _. symmetry. apply Ef. }
  pose proof (is_RInt_unique _ _ _ _ I1) as U1. pose proof (is_RInt_unique _ _ _ _ I3) as U3. rewrite <- U3, U1.
  unfold integrate. destruct (q_nodes Q) as [|x1 [|x2 [|? ?]]]; try (cbn in LN; lia).
  destruct (q_weights Q) as [|w1 [|w2 [|? ?]]]; try (cbn in LW; lia). cbn. lra.
Qed.

(** The rule of the cell averages: the mean of the values at the two points at distance
    length / sqrt 12 of the centre. *)
Definition gauss_point : R := sqrt (1 / 12).
Lemma gauss_point_pos : 0 < gauss_point /\ gauss_point * gauss_point = 1 / 12.
Proof. unfold gauss_point. split; [apply sqrt_lt_R0; lra|apply sqrt_sqrt; lra]. Qed.

Theorem C42_two_point_average : forall eig f cell, eig2_works eig -> ia cell < ib cell ->
  let c := (ia cell + ib cell) / 2 in let r := (ib cell - ia cell) * gauss_point in
  cell_average eig 2 f cell = Ok ((f (c - r) + f (c + r)) / 2).
Proof.
  intros eig f D HE HD c r. destruct (C43_gauss_exact eig 2 D ltac:(lia) HD HE) as [Q [E [_ [LN [LW [IN [IN2 [PW [SW HQ]]]]]]]]].
  change (length (q_nodes Q) = 2%nat) in LN. unfold cell_average. rewrite E. cbn [bind]. f_equal.
  pose proof (cubic_exact D Q) as X. unfold integrate, ilength in *. specialize (IN 0%nat 1%nat).
  destruct (q_nodes Q) as [|x1 [|x2 [|? ?]]]; try (cbn in LN; lia). destruct (q_weights Q) as [|w1 [|w2 [|? ?]]]; try (cbn in LW; lia).
  cbn [length nth] in IN, X. assert (x1 < x2) by (apply IN; lia). clear IN IN2. assert (0 < w1) by (apply PW; cbn; auto). assert (0 < w2) by (apply PW; cbn; auto).
  assert (S : w1 + w2 = ib D - ia D) by (cbn in SW; lra). clear SW PW LN LW.
  set (a := ia D) in *. set (b := ib D) in *. set (d := b - a). assert (Hd : 0 < d) by (unfold d; lra).
  assert (X1 := X (fun x => (x - x1) * (x - x2)) [x1 * x2; - x1 - x2; 1] eq_refl eq_refl HQ ltac:(cbn; lia) ltac:(intro x; cbn; ring)
    [0; x1 * x2; (- x1 - x2) / 2; 1 / 3] ltac:(intro x; cbn; lra)).
  assert (X2 := X (fun x => (x - c) * ((x - x1) * (x - x2))) [- c * (x1 * x2); x1 * x2 + c * (x1 + x2); - x1 - x2 - c; 1] eq_refl eq_refl HQ ltac:(cbn; lia) ltac:(intro x; cbn; ring)
    [0; - c * (x1 * x2); (x1 * x2 + c * (x1 + x2)) / 2; (- x1 - x2 - c) / 3; 1 / 4] ltac:(intro x; cbn; lra)).
  assert (X3 := X (fun x => x - x2) [- x2; 1] eq_refl eq_refl HQ ltac:(cbn; lia) ltac:(intro x; cbn; ring)
    [0; - x2; 1 / 2] ltac:(intro x; cbn; lra)). clear X HQ. cbn in X1, X2, X3.
  assert (Y1 : d * ((c - x1) * (c - x2) + d * d / 12) = 0) by (unfold d, c; fold a b; unfold c in X2; fold a b in X2; lra).
  assert (Y2 : d * (d * d / 12 * (2 * c - x1 - x2)) = 0) by (unfold d, c; fold a b; unfold c in X2; fold a b in X2; lra).
  assert (Y3 : w1 * (x1 - x2) = d * (c - x2)) by (unfold d, c; fold a b; unfold c in X2; fold a b in X2; lra).
  assert (Z2 : 2 * c - x1 - x2 = 0).
  { apply Rmult_integral in Y2 as [Y2|Y2]; [lra|]. apply Rmult_integral in Y2 as [Y2|Y2]; [nra|exact Y2]. }
  assert (Z1 : (c - x1) * (c - x2) + d * d / 12 = 0) by (apply Rmult_integral in Y1 as [Y1|Y1]; [lra|exact Y1]).
  destruct gauss_point_pos as [G1 G2]. set (k := x2 - c). assert (E1 : x1 = c - k) by (unfold k; lra). assert (E2 : x2 = c + k) by (unfold k; lra).
  assert (Hk : 0 < k) by lra. assert (K2 : k * k = d * d / 12) by (rewrite E1, E2 in Z1; lra).
  assert (Kr : k = r). { unfold r. fold a b d. assert (P : 0 < d * gauss_point) by (apply Rmult_lt_0_compat; lra).
    assert (Q2 : (d * gauss_point) * (d * gauss_point) = k * k) by (rewrite K2; replace (d * gauss_point * (d * gauss_point)) with (d * d * (gauss_point * gauss_point)) by ring; rewrite G2; field). nra. }
  assert (W : w1 = d / 2) by (rewrite E1, E2 in Y3; nra). cbn. rewrite E1, E2, Kr. fold d. replace w2 with (d / 2) by (unfold d in *; lra). rewrite W. field. lra.
Qed.
Print Assumptions C42_two_point_average.

Definition cell_centre (D : interval) (n i : nat) : R := ia D + (INR i + 1 / 2) * (ilength D / INR n).
Definition mean2 (f : R -> R) (D : interval) (n i : nat) : R :=
  let c := cell_centre D n i in let r := ilength D / INR n * gauss_point in (f (c - r) + f (c + r)) / 2.
Lemma averages_tab eig D n m f : eig2_works eig -> (0 < n)%nat -> ia D < ib D -> new_mesh D n = Ok m ->
  cell_averages eig 2 m f = Ok (tab n (mean2 f D n)).
Proof.
  intros HE Hn HD Em. rewrite new_mesh_ok in Em by auto. apply Ok_inj in Em. subst m. unfold cell_averages. cbn [m_cells].
  apply mapM_tab_ok. intros i Hi. pose proof (unif_cell_step D n Hn HD) as P. set (d := ilength D / INR n) in *.
  rewrite (C42_two_point_average eig f (unif_cell D n i) HE).
  - unfold unif_cell, mean2, cell_centre. cbn [ia ib]. fold d. rewrite S_INR. f_equal. f_equal. f_equal; f_equal; lra.
  - unfold unif_cell. cbn [ia ib]. fold d. rewrite S_INR. lra.
Qed.
Lemma two_points_inside D n i : (i < n)%nat -> ia D < ib D ->
  let c := cell_centre D n i in let r := ilength D / INR n * gauss_point in
  ia D + INR i * (ilength D / INR n) < c - r /\ c - r < c + r /\ c + r < ia D + INR (S i) * (ilength D / INR n) /\ ia D <= ia D + INR i * (ilength D / INR n) /\ ia D + INR (S i) * (ilength D / INR n) <= ib D.
Proof.
  intros Hi HD. cbv zeta. pose proof (unif_cell_step D n ltac:(lia) HD) as P. unfold cell_centre. set (d := ilength D / INR n) in *.
  destruct gauss_point_pos as [G1 G2]. assert (G : gauss_point < 1 / 2) by nra. assert (0 < d * gauss_point < d / 2) by nra.
  rewrite S_INR. assert (0 <= INR i) by apply pos_INR. repeat split; try nra.
  replace (ib D) with (ia D + INR n * d). { assert (INR i + 1 <= INR n) by (rewrite <- S_INR; apply le_INR; lia). nra. }
  unfold d, ilength. field. apply not_0_INR. lia.
Qed.

Lemma still_balanced eig g b m l nf : 0 < bm_gravity b -> keeps_lakes g -> discrete_bottom eig b (m_len m) = Ok l ->
  get_flux eig g b m BNone = Ok nf -> balanced (Some (bm_gravity b)) (BArray l) nf.
Proof.
  intros Hg. assert (G : 0 < py_or (Some (bm_gravity b)) default_gravity).
  { unfold py_or. destruct (Reqb_spec (bm_gravity b) 0); lra. }
  intros K El. revert nf K. induction g; intros nf K E; try contradiction; cbn [get_flux bathymetry_or] in E; rewrite El in E; cbn [bind] in E.
  - eapply balanced_low; eauto.
  - eapply balanced_central; eauto.
  - inv_bind E. cbn [bind] in E. eapply balanced_mcl; eauto.
Qed.

Lemma lake_averages eig b m u l n : eig2_works eig -> (0 < n)%nat -> ia (bm_domain b) < ib (bm_domain b) -> lake_benchmark b ->
  new_mesh (bm_domain b) n = Ok m -> averages2 eig m (bm_initial b) = Ok u -> discrete_bottom eig b n = Ok l -> lake_at_rest l u.
Proof.
  intros HE Hn HD [level HL] Em Eu El. unfold discrete_bottom in El. rewrite Em in El. cbn [bind] in El.
  rewrite (averages_tab eig _ n m _ HE Hn HD Em) in El. apply Ok_inj in El. unfold averages2 in Eu.
  rewrite !(averages_tab eig _ n m _ HE Hn HD Em) in Eu. cbn [bind] in Eu. apply Ok_inj in Eu. rewrite combine_tab in Eu. subst u l.
  unfold lake_at_rest. rewrite !tab_length. split; [reflexivity|]. exists level. intros i Hi. rewrite !nth_tab by auto. cbn [fst snd].
  unfold mean2. set (D := bm_domain b) in *. pose proof (two_points_inside D n i Hi HD) as [T1 [T2 [T3 [T4 T5]]]].
  set (c := cell_centre D n i) in *. set (r := ilength D / INR n * gauss_point) in *.
  destruct (HL (c - r)) as [A1 A2]. destruct (HL (c + r)) as [B1 B2]. rewrite A1, B1. cbn [fst snd].
  assert (epsilon <= level - bm_bottom b (c - r)) by (apply A2; lra). assert (epsilon <= level - bm_bottom b (c + r)) by (apply B2; lra).
  repeat split; lra.
Qed.

Lemma last_in {A} (l : list A) d : l <> [] -> In (last l d) l.
Proof. induction l as [|x l IH]; [congruence|]. intros _. destruct l as [|y l]; [left; reflexivity|]. right. apply IH. discriminate. Qed.

Section Lake.
Context (eig : nat -> (nat -> nat -> R) -> (nat -> R) * (nat -> nat -> R)) (finite : list state -> bool) (g : getter) (b : sw_benchmark) (a : solver_args)
  (c : config (list state)) (w : world (list state)).
Hypotheses (HE : eig2_works eig) (HD : ia (bm_domain b) < ib (bm_domain b)) (HG : 0 < bm_gravity b) (HK : keeps_lakes g) (HL : lake_benchmark b)
  (HB : forall l, discrete_bottom eig b (length (o_sol (solution_of w))) = Ok l -> resolved l /\
     ((exists nl nr, side_names (bm_conditions b) nl nr /\ In nl ["wall"; "outflow"]%string /\ In nr ["wall"; "outflow"]%string) \/
      bm_conditions b = ["periodic"%string] /\ nth 0 l 0 = nth (length l - 1) l 0))
  (E : sw_solver eig g b a = Ok (c, w)).

Lemma lake_step : forall t dt, rk_execute_e (c_rhs c) (c_tab c) dt {| o_time := t; o_sol := o_sol (solution_of w) |} =
  Ok {| o_time := t + dt; o_sol := o_sol (solution_of w) |}.
Proof.
  intros t dt. destruct (sw_solver_inv eig g b a c w E) as [m [u [nf [bc [E1 [E2 [E3 [E4 E5]]]]]]]].
  destruct (fv_solution_inv eig b _ m u E1) as [Fm [Fu [Lm [Lu Hn]]]].
  assert (Su : o_sol (solution_of w) = u).
  { rewrite E5. unfold solution_of, new_solver. cbn [w_mem w_sol o_sol]. rewrite store_other by lia. reflexivity. }
  rewrite Su in *. set (n := or_default (a_mesh_size a) default_mesh_size) in *.
  destruct (bottom_exists eig b n HE Hn HD) as [l [El Ll]]. rewrite Lu in HB. destruct (HB l El) as [HR HC].
  pose proof (lake_averages eig b m u l n HE Hn HD HL Fm Fu El) as HLR. rewrite <- Lm in El.
  pose proof (still_balanced eig g b m l nf HG HK El E2) as BAL.
  assert (D2 : nf_dim nf = 2%nat) by apply BAL. rewrite D2 in E3. change (2 / 2)%nat with 1%nat in E3. unfold boundary in E3.
  assert (Hdx : m_step m <> 0).
  { apply Rgt_not_eq. destruct (new_mesh_length _ _ _ Fm) as [_ [_ Es]]. rewrite Es. apply Rlt_gt. apply (unif_cell_step (bm_domain b) n Hn HD). }
  assert (Hu : u <> []) by (intro Z; rewrite Z in Lu; cbn in Lu; lia).
  assert (RHS : forall t, c_rhs c t u = Ok (repeat (0, 0) (length u))).
  { intro s. rewrite E4. cbn [c_rhs sw_config]. eapply (balanced_rhs (Some (bm_gravity b)) (BArray l) nf); eauto. }
  pose proof (steady_run (fun x => length x = length u) (c_rhs c) (c_tab c) [dt] t u (repeat (0, 0) (length u))) as X.
  unfold rk_run_e in X. cbn [foldM] in X.
  destruct (rk_execute_e (c_rhs c) (c_tab c) dt {| o_time := t; o_sol := u |}) as [y|e]; cbn [bind] in X.
  - rewrite X; auto.
    + f_equal. f_equal. cbn. ring.
    + apply repeat_length.
    + intros [i k]. cbn. assert (Z : nth i (repeat (0, 0) (length u)) (0, 0) = (0, 0)).
      { generalize (length u). intro q. clear. revert i; induction q; destruct i; simpl; auto. }
      rewrite Z. destruct k; reflexivity.
  - discriminate X; auto.
    + apply repeat_length.
    + intros [i k]. cbn. assert (Z : nth i (repeat (0, 0) (length u)) (0, 0) = (0, 0)).
      { generalize (length u). intro q. clear. revert i; induction q; destruct i; simpl; auto. }
      rewrite Z. destruct k; reflexivity.
Qed.

Lemma lake_stays us : (forall v t, In (Reinit v t) us -> v = o_sol (solution_of w)) ->
  forall v, visible (fst (use_run finite c us (w, []))) v -> v = o_sol (solution_of w).
Proof.
  intros HU v HV. set (u := o_sol (solution_of w)) in *.
  destruct (sw_solver_inv eig g b a c w E) as [m [u' [nf [bc [E1 [E2 [E3 [E4 E5]]]]]]]].
  assert (Su : u = u').
  { unfold u. rewrite E5. unfold solution_of, new_solver. cbn [w_mem w_sol o_sol]. rewrite store_other by lia. reflexivity. }
  assert (K : keeps (fun x => x = u) (fst (use_run finite c us (w, [])))).
  { apply (use_keeps finite (fun x => x = u) c us (fun _ => u) (w, []) 1).
    - intros dt [t x] o' Po Eo. cbn [o_sol] in Po. subst x. rewrite lake_step in Eo. apply Ok_inj in Eo. subst o'. reflexivity.
    - exact HU.
    - rewrite E5, Su. apply separate_new. lia.
    - cbn [fst]. rewrite E5, <- Su. apply new_keeps; [lia|reflexivity]. }
  destruct K as [K1 [K2 K3]]. rewrite Forall_forall in K3. destruct HV as [-> |HV]; [exact K2|exact (K3 v HV)].
Qed.

Lemma lake_ends : finite (o_sol (solution_of w)) = true -> 1 / 10 ^ 12 <= bm_end b - bm_start b ->
  1 / 10 ^ 12 <= (ib (bm_domain b) - ia (bm_domain b)) / INR (length (o_sol (solution_of w))) * py_or (a_cfl a) default_cfl ->
  exists n w' s, solve finite c n w = (w', Some s, Completed) /\ bm_end b - 1 / 10 ^ 12 < o_time (solution_of w') <= bm_end b /\
    o_sol (solution_of w') = o_sol (solution_of w).
Proof.
  intros HF HT HS. set (u := o_sol (solution_of w)) in *.
  destruct (sw_solver_inv eig g b a c w E) as [m [u' [nf [bc [E1 [E2 [E3 [E4 E5]]]]]]]].
  destruct (fv_solution_inv eig b _ m u' E1) as [Fm [Fu [Lm [Lu Hn]]]].
  assert (Sy : in_sync w /\ solution_of w = {| o_time := bm_start b; o_sol := u' |}).
  { rewrite E5. destruct (C47_solvers_start_in_sync finite c (fun _ => u') 1 0%nat (bm_start b) ltac:(lia)) as [A [B _]]. auto. }
  destruct Sy as [Sy So]. assert (Su : u = u') by (unfold u; rewrite So; reflexivity).
  set (p := (ib (bm_domain b) - ia (bm_domain b)) / INR (length u) * py_or (a_cfl a) default_cfl) in *.
  assert (Hp : forall x, call_generator (c_gen c) x = p).
  { intro x. rewrite E4. unfold call_generator, sw_config, mesh_dependent_generator. cbn [c_gen gen_adaptive gen_frozen gen_cfl new_generator].
    destruct (new_mesh_length _ _ _ Fm) as [_ [_ ->]]. unfold p. rewrite Su, Lu. reflexivity. }
  assert (Cs : c_start c = bm_start b /\ c_end c = bm_end b /\ c_check c = None) by (rewrite E4; auto). destruct Cs as [Cs [Ce Cc]].
  destruct (C02_time_stepping_terminates (bm_start b) (bm_end b) p (fun _ => p) HS (fun _ => Rle_refl _) HT) as [n [steps [s [_ [_ TS]]]]].
  destruct (proj1 (C47_solve_raises_before_the_first_step finite c (S n) w ltac:(rewrite Cs, Ce; unfold tol; lra))) as [w' [s' [st Es]]].
  { right. rewrite Hp. assert (0 < 1 / 10 ^ 12) by lra. lra. }
  assert (TS' : forall os k, ts_run (c_start c) (c_end c) (proposed c (solution_of w) os) k = ts_run (bm_start b) (bm_end b) (fun _ => p) k).
  { intros os k. rewrite Cs, Ce. f_equal. apply FunctionalExtensionality.functional_extensionality. intro i. unfold proposed. apply Hp. }
  destruct (C47_solve_drives_ode_solver_and_solution finite c (S n) w w' s' st Sy Es) as [dts [os [Ch [_ [_ M]]]]].
  assert (Vals : forall o, In o (solution_of w :: os) -> o_sol o = u).
  { destruct Ch as [L1 L2]. assert (forall k, (k <= length os)%nat -> o_sol (nth k (solution_of w :: os) (solution_of w)) = u) as G.
    { induction k as [|k IH]; intro Hk; [reflexivity|]. destruct (L2 k ltac:(lia)) as [L3 _]. cbn [nth].
      specialize (IH ltac:(lia)). destruct (nth k (solution_of w :: os) (solution_of w)) as [tk xk]. cbn [o_sol] in IH. subst xk.
      unfold u in L3. rewrite lake_step in L3. apply Ok_inj in L3. rewrite <- L3. reflexivity. }
    intros o Ho. apply (In_nth _ _ (solution_of w)) in Ho as [k [Hk <-]]. cbn [length] in Hk. apply G. lia. }
  assert (Vl : o_sol (last os (solution_of w)) = u).
  { apply Vals. destruct os as [|o os]; [left; reflexivity|right]. apply last_in. discriminate. }
  destruct st as [| | |e]; rewrite ?TS', ?TS in M.
  - destruct M as [M _]. discriminate.
  - destruct M as [_ [_ M]]. exists (S n), w', s'. split; [exact Es|].
    destruct (C47_time_of_the_solution finite c (S n) w w' s' _ Sy Es) as [T _]. specialize (T eq_refl). rewrite Cs, Ce in T.
    assert (Tw : w_sol_time w = bm_start b) by (apply (f_equal o_time) in So; exact So). rewrite Tw in T.
    split; [unfold solution_of; cbn [o_time]; lra|]. rewrite M. exact Vl.
  - destruct M as [M _]. discriminate.
  - exfalso. destruct M as [s1 [dt [_ [_ M]]]]. destruct (last os (solution_of w)) as [tl xl]. cbn [o_sol] in Vl. subst xl. unfold u in M. rewrite lake_step in M.
    destruct M as [[M _]|[y [M [RF _]]]]; [discriminate|]. apply Ok_inj in M. subst y. unfold refused in RF. cbn [o_sol] in RF. fold u in RF.
    destruct RF as [[o [ns [ss [RF _]]]]|[_ RF]]; congruence.
Qed.
End Lake.

(** For every benchmark that starts with a lake at rest over a bottom that is resolved by
    the mesh (flat, or not treated as flat by the program), between walls or open boundaries
    or on a periodic domain whose bottom is the same at both ends: whatever is done with the
    solver, nothing but the initial lake is ever seen, and solve reaches the end time. *)
Definition lake_setting eig (b : sw_benchmark) (n : nat) : Prop :=
  ia (bm_domain b) < ib (bm_domain b) /\ 0 < bm_gravity b /\ lake_benchmark b /\
  forall l, discrete_bottom eig b n = Ok l -> resolved l /\
     ((exists nl nr, side_names (bm_conditions b) nl nr /\ In nl ["wall"; "outflow"]%string /\ In nr ["wall"; "outflow"]%string) \/
      bm_conditions b = ["periodic"%string] /\ nth 0 l 0 = nth (length l - 1) l 0).
Theorem C65_lake_stays : forall eig finite g b a c w us, eig2_works eig -> keeps_lakes g -> sw_solver eig g b a = Ok (c, w) ->
  lake_setting eig b (length (o_sol (solution_of w))) ->
  (forall v t, In (Reinit v t) us -> v = o_sol (solution_of w)) ->
  forall v, visible (fst (use_run finite c us (w, []))) v -> v = o_sol (solution_of w).
Proof. intros eig finite g b a c w us HE HK E [HD [HG [HL HB]]]. exact (lake_stays eig finite g b a c w HE HD HG HK HL HB E us). Qed.
Print Assumptions C65_lake_stays.
Theorem C65_lake_run_completes : forall eig finite g b a c w, eig2_works eig -> keeps_lakes g -> sw_solver eig g b a = Ok (c, w) ->
  lake_setting eig b (length (o_sol (solution_of w))) ->
  finite (o_sol (solution_of w)) = true -> 1 / 10 ^ 12 <= bm_end b - bm_start b ->
  1 / 10 ^ 12 <= (ib (bm_domain b) - ia (bm_domain b)) / INR (length (o_sol (solution_of w))) * py_or (a_cfl a) default_cfl ->
  exists n w' s, solve finite c n w = (w', Some s, Completed) /\ bm_end b - 1 / 10 ^ 12 < o_time (solution_of w') <= bm_end b /\
    o_sol (solution_of w') = o_sol (solution_of w).
Proof. intros eig finite g b a c w HE HK E [HD [HG [HL HB]]]. exact (lake_ends eig finite g b a c w HE HD HG HK HL HB E). Qed.
Print Assumptions C65_lake_run_completes.

(** LakeAtRestBenchmark (benchmark/shallow_water.py L50-64, gravity L27): its bump is
    resolved, or not seen at all, on every mesh. *)
Definition lake_at_rest_benchmark (end_time gravity : R) : sw_benchmark :=
  {| bm_domain := {| ia := 0; ib := 20 |}; bm_start := 0; bm_end := end_time; bm_conditions := ["outflow"; "outflow"]%string;
     bm_inflow_left := fun _ => (0, 0); bm_inflow_right := fun _ => (0, 0);
     bm_initial := lake_initial; bm_bottom := bump; bm_gravity := gravity |}.
Lemma bump_zero x : x < 8 \/ 12 <= x -> bump x = 0.
Proof. intro H. unfold bump. destruct (Rleb_spec 8 x); cbn [andb]; auto. destruct (Rltb_spec x 12); auto. lra. Qed.
Lemma bump_in x : 8 <= x < 12 -> bump x = (4 - (x - 10) ^ 2) / 20.
Proof. intro H. unfold bump. destruct (Rleb_spec 8 x); [|lra]. destruct (Rltb_spec x 12); [|lra]. reflexivity. Qed.
Lemma bump_bounds x : 0 <= bump x <= 2 / 10.
Proof. unfold bump. destruct (Rleb_spec 8 x); cbn [andb]; [|lra]. destruct (Rltb_spec x 12); [|lra]. assert (0 <= (x - 8) * (12 - x)) by (apply Rmult_le_pos; lra). assert (0 <= (x - 10) * (x - 10)) by apply Rle_0_sqr. lra. Qed.
Lemma bump_resolved n : (0 < n)%nat -> resolved (tab n (mean2 bump {| ia := 0; ib := 20 |} n)).
Proof.
  intro Hn. unfold resolved. rewrite tab_length. set (D := {| ia := 0; ib := 20 |}). assert (HD : ia D < ib D) by (cbn; lra).
  destruct gauss_point_pos as [G0 G2]. assert (G1 : 28 / 100 < gauss_point < 29 / 100) by nra.
  destruct (Nat.eq_dec n 1) as [->|N1]; [left; intros i Hi; replace i with 0%nat by lia; reflexivity|].
  destruct (Nat.eq_dec n 2) as [->|N2].
  { left. assert (Z : forall i, (i < 2)%nat -> mean2 bump D 2 i = 0).
    { intros i Hi. unfold mean2, cell_centre, ilength. cbn [ia ib D]. replace (INR 2) with 2 by (cbn; ring).
      destruct i as [|[|]]; [| |lia]; cbn [INR]; rewrite !bump_zero by first [left; lra|right; lra]; lra. }
    intros i Hi. rewrite !nth_tab, !Z by lia. reflexivity. }
  right. assert (N3 : 3 <= INR n). { replace 3 with (INR 3) by (cbn; ring). apply le_INR. lia. }
  set (d := 20 / INR n). assert (Hd : 0 < d) by (apply Rdiv_lt_0_compat; lra). assert (Dn : d * INR n = 20) by (unfold d; field; lra). assert (Hd3 : d <= 20 / 3) by nra.
  assert (B0 : mean2 bump D n 0 = 0).
  { unfold mean2, cell_centre, ilength. cbn [ia ib D INR]. replace (20 - 0) with 20 by ring. fold d. rewrite !bump_zero by (left; nra). lra. }
  destruct (Nat.Even_or_Odd n) as [[k Hk]|[k Hk]].
  - exists k. split; [lia|]. rewrite !nth_tab by lia. rewrite B0. unfold mean2, cell_centre, ilength. cbn [ia ib D]. replace (20 - 0) with 20 by ring. fold d.
    assert (K : INR k * d = 10). { assert (INR n = 2 * INR k) by (rewrite Hk, mult_INR; cbn; ring). nra. }
    assert (N4 : 4 <= INR n). { replace 4 with (INR 4) by (cbn; ring). apply le_INR. lia. } assert (d <= 5) by nra.
    set (x := 0 + (INR k + 1 / 2) * d - d * gauss_point). set (y := 0 + (INR k + 1 / 2) * d + d * gauss_point). assert (X : 10 < x < 10 + 11 / 10) by (unfold x; nra).
    assert (bump x = (4 - (x - 10) ^ 2) / 20) by (apply bump_in; lra). pose proof (bump_bounds y). assert (1 / 100 <= bump x) by nra.
    rewrite Rabs_pos_eq by lra. unfold epsilon. lra.
  - exists k. split; [lia|]. rewrite !nth_tab by lia. rewrite B0. unfold mean2, cell_centre, ilength. cbn [ia ib D]. replace (20 - 0) with 20 by ring. fold d.
    assert (K : (INR k + 1 / 2) * d = 10). { assert (INR n = 2 * INR k + 1) by (rewrite Hk, plus_INR, mult_INR; cbn; ring). nra. }
    rewrite K. set (r := d * gauss_point). assert (R2 : r * r = d * d / 12) by (unfold r; replace (d * gauss_point * (d * gauss_point)) with (d * d * (gauss_point * gauss_point)) by ring; rewrite G2; field).
    assert (0 < r) by (unfold r; nra). assert (r * r <= 400 / 108) by nra. assert (r < 2) by nra. rewrite !bump_in by lra.
    replace (((4 - (0 + 10 - r - 10) ^ 2) / 20 + (4 - (0 + 10 + r - 10) ^ 2) / 20) / 2 - 0) with ((4 - r * r) / 20) by field.
    rewrite Rabs_pos_eq by lra. unfold epsilon. lra.
Qed.
Theorem C65_lake_at_rest_benchmark : forall eig end_time gravity n, eig2_works eig -> 0 < gravity -> (0 < n)%nat ->
  lake_setting eig (lake_at_rest_benchmark end_time gravity) n.
Proof.
  intros eig e gr n HE Hg Hn. unfold lake_setting. cbn [lake_at_rest_benchmark bm_domain bm_gravity bm_conditions]. set (D := {| ia := 0; ib := 20 |}).
  assert (HD : ia D < ib D) by (cbn; lra). split; [exact HD|]. split; [exact Hg|]. split.
  - exists 2. intro x. cbn [bm_initial bm_bottom lake_at_rest_benchmark]. split; [reflexivity|]. intros _. pose proof (bump_bounds x). unfold epsilon. lra.
  - intros l El. unfold discrete_bottom in El. cbn [bm_domain bm_bottom lake_at_rest_benchmark] in El. fold D in El. pose proof (new_mesh_ok D n Hn HD) as Em. rewrite Em in El. cbn [bind] in El.
    rewrite (averages_tab eig D n _ bump HE Hn HD Em) in El. apply Ok_inj in El. subst l. split; [apply bump_resolved; exact Hn|].
    left. exists "outflow"%string, "outflow"%string. cbn. auto.
Qed.
Print Assumptions C65_lake_at_rest_benchmark.

Example C65_ex : exists eig c w, eig2_works eig /\
  sw_solver eig (GMCL GCentral) (lake_at_rest_benchmark 100 (981 / 100)) {| a_mesh_size := None; a_cfl := None; a_ode := None; a_history := true |} = Ok (c, w) /\
  keeps_lakes (GMCL GCentral) /\ lake_setting eig (lake_at_rest_benchmark 100 (981 / 100)) (length (o_sol (solution_of w))).
Proof.
  destruct (C43_decomposition_exists 2) as [eig HE]. assert (HE2 : eig2_works eig) by (apply HE; lia). set (b := lake_at_rest_benchmark 100 (981 / 100)).
  set (a := {| a_mesh_size := None; a_cfl := None; a_ode := None; a_history := true |}).
  assert (HD : ia (bm_domain b) < ib (bm_domain b)) by (cbn; lra).
  assert (S : side_names (bm_conditions b) "outflow" "outflow") by (cbn; auto).
  destruct (C64_solvers_can_be_built eig (GMCL GCentral) b a _ _ HE2 HD S) as [c [w [E [_ L]]]]; [cbn; tauto|cbn; tauto|].
  exists eig, c, w. split; [exact HE2|]. split; [exact E|]. split; [exact I|]. rewrite L. apply C65_lake_at_rest_benchmark; auto; try lra.
  apply or_default_pos. unfold default_mesh_size. lia.
Qed.

(** LakeAtRestNoBathymetryBenchmark (benchmark/shallow_water.py L33-47) *)
Definition lake_without_bottom_benchmark (end_time gravity : R) : sw_benchmark :=
  {| bm_domain := {| ia := 0; ib := 20 |}; bm_start := 0; bm_end := end_time; bm_conditions := ["periodic"%string];
     bm_inflow_left := fun _ => (0, 0); bm_inflow_right := fun _ => (0, 0);
     bm_initial := fun _ => (1, 0); bm_bottom := fun _ => 0; bm_gravity := gravity |}.
Theorem C65_lake_without_bottom_benchmark : forall eig end_time gravity n, eig2_works eig -> 0 < gravity -> (0 < n)%nat ->
  lake_setting eig (lake_without_bottom_benchmark end_time gravity) n.
Proof.
  intros eig e gr n HE Hg Hn. unfold lake_setting. cbn [lake_without_bottom_benchmark bm_domain bm_gravity bm_conditions]. set (D := {| ia := 0; ib := 20 |}).
  assert (HD : ia D < ib D) by (cbn; lra). split; [exact HD|]. split; [exact Hg|]. split.
  - exists 1. intro x. cbn [bm_initial bm_bottom lake_without_bottom_benchmark]. split; [f_equal; ring|]. intros _. unfold epsilon. lra.
  - intros l El. unfold discrete_bottom in El. cbn [bm_domain bm_bottom lake_without_bottom_benchmark] in El. fold D in El. pose proof (new_mesh_ok D n Hn HD) as Em. rewrite Em in El. cbn [bind] in El.
    rewrite (averages_tab eig D n _ _ HE Hn HD Em) in El. apply Ok_inj in El. subst l. rewrite tab_length. split.
    + left. rewrite tab_length. intros i Hi. rewrite !nth_tab by lia. reflexivity.
    + right. split; [reflexivity|]. rewrite !nth_tab by lia. reflexivity.
Qed.
Print Assumptions C65_lake_without_bottom_benchmark.
