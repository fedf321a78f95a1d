(** C94: before shocks appear the Lax-Friedrichs solver of Burgers' equation converges to the exact solution for positive data. *)
From Coq Require Import Reals List ZArith Arith Lia Lra Psatz Bool String.
From Verif Require Import Prelude L_Prelude M_Mesh L_Mesh M_Quadrature M_Interpolate M_Boundary S_Boundary L_Boundary M_Flux S_Flux L_Flux
  M_ODE S_ODE L_ODE M_TimeStepping L_TimeStepping M_Solution M_Solver S_Solver L_Solver P_Solver M_Generate
  M_Neighbours S_Neighbours L_Neighbours M_Scalar S_Scalar L_Scalar P_Scalar M_ShallowWater L_SWLow M_FVSolver S_FVSolver L_FVSolver P_FVWater P_FVLake P_Quadrature
  M_FE M_FEChoice S_FESolver M_Benchmark P_Benchmark M_ScalarSolver S_ScalarSolver L_Invariant P_Boundary P_Flux P_Gauss P_ScalarSolver L_Variation
  L_Contraction S_Burgers S_Convergence L_Convergence L_Timed P_Convergence L_Burgers.
Import ListNotations.
Local Open Scope nat_scope.
Open Scope R_scope.
Local Open Scope list_scope.
Notation length := List.length.

(** ** the Lax-Friedrichs scheme has the flux of Rusanov where the values are positive *)
Definition positive (u : list R) : Prop := forall x, In x u -> 0 < x.
Lemma lf_ru l r : 0 < l -> 0 < r -> lf M_Scalar.Burgers l r = ru l r.
Proof.
  intros Hl Hr. unfold lf, ru, speed. cbn [scalar_flux flux_prime]. rewrite (Rabs_right l), (Rabs_right r) by lra. field.
Qed.
Lemma llf_rusanov conds il ir bc n h : side_names conds "periodic" "periodic" -> get_boundary_conditions None conds 1 il ir = Ok bc -> (0 < n)%nat -> 0 < h ->
  rusanov positive n h (fv_rhs (scalar_llf M_Scalar.Burgers) h bc).
Proof.
  intros SN B Hn Hh t u Lu Pu. destruct (extended_spec 0 None conds 1 il ir bc u (Some t) "periodic" "periodic" Periodic Periodic SN eq_refl eq_refl B) as [e [E [Le _]]]; [lia|intros hh [Q|Q]; discriminate|].
  destruct (wrapped_extension None il ir bc conds u (Some t) e SN B ltac:(lia) E) as [Le' We].
  assert (Pe : forall i, (i < S (S n))%nat -> 0 < nth i e 0).
  { intros i Hi. rewrite We by lia. apply Pu. unfold cyc. apply nth_In. rewrite Lu. apply Nat.mod_upper_bound. lia. }
  assert (Hs : forall i, (i <= n)%nat -> speed M_Scalar.Burgers (nth i e 0) (nth (S i) e 0) <> 0).
  { intros i Hi. pose proof (Pe i ltac:(lia)). unfold speed. cbn [flux_prime]. pose proof (Rmax_l (nth i e 0) (nth (S i) e 0)). lra. }
  pose proof (llf_rhs M_Scalar.Burgers bc h t u e n ltac:(lra) E ltac:(lia) Hs) as X. cbv zeta in X.
  eexists. split; [exact X|]. split; [apply tab_length|]. intros i Hi. rewrite nth_tab by auto. rewrite !lf_flux by (apply Hs; lia). rewrite !lf_ru by (apply Pe; lia).
  assert (W : forall k, (k < S (S n))%nat -> nth k e 0 = at_ u (Z.of_nat k - 1)).
  { intros k Hk. rewrite We by lia. unfold cyc, at_. f_equal. rewrite Lu. apply Nat2Z.inj. rewrite Nat2Z.inj_mod, Z2Nat.id by (apply Z.mod_pos_bound; lia).
    replace (Z.of_nat (k + n - 1)) with (Z.of_nat k - 1 + 1 * Z.of_nat n)%Z by lia. rewrite Z.mod_add by lia. reflexivity. }
  rewrite !W by lia. replace (Z.of_nat (S i) - 1)%Z with (Z.of_nat i) by lia. replace (Z.of_nat (S (S i)) - 1)%Z with (Z.of_nat i + 1)%Z by lia. rewrite (at_nth u i) by lia. reflexivity.
Qed.
Lemma cell_follows eig finite b a f f1 f2 K K2 M T ex lo c w us t v : eig2_works eig -> ia (sb_domain b) < ib (sb_domain b) ->
  sb_problem b = names_problem M_Scalar.Burgers -> side_names (sb_conditions b) "periodic" "periodic" ->
  repeats (sb_domain b) f -> (forall x, ia (sb_domain b) <= x < ib (sb_domain b) -> sb_initial b x = f x) -> data_between b lo M -> 0 < lo -> (forall x, lo <= f x) ->
  ssp_method (a_ode a) -> 0 < py_or (a_cfl a) default_cfl -> py_or (a_cfl a) default_cfl * M <= 1 / 6 ->
  (forall x, derivable_pt_lim f x (f1 x)) -> (forall x, derivable_pt_lim f1 x (f2 x)) -> (forall x, Rabs (f2 x) <= K2) ->
  lipschitz K f -> 0 < K -> 0 <= T -> K * T < 1 -> largest M f -> carried f T ex ->
  let n := or_default (a_mesh_size a) default_mesh_size in
  let h := (ib (sb_domain b) - ia (sb_domain b)) / INR n in
  let bound := err_bound K K2 M T (sb_domain b) n (K2 / 24 * (h * h)) in
  ex_curve K K2 T * h <= ex_lip K T -> bound T + ex_lip K T * h <= M / 9 -> bound T <= lo / 2 ->
  scalar_solver eig SLLF b a = Ok (c, w) -> (forall v, in_range lo M v -> finite v = true) ->
  (forall v t, ~ In (Reinit v t) us) -> shown (fst (use_run finite c us (w, []))) t v ->
  sb_start b <= t /\ length v = n /\ (t - sb_start b <= T -> forall i, (i < n)%nat -> Rabs (nth i v 0 - ex (t - sb_start b) (middle (sb_domain b) n i)) <= bound (t - sb_start b)).
Proof.
  intros HE HD Hp SN HR HI HB Hlo Hf HM C0 C1 F1 F2 F3 HL HK HT HKT HL2 HV n h bound HA Hsm Hb2 E HF NR SH. set (D := sb_domain b) in *. set (cfl := py_or (a_cfl a) default_cfl) in *.
  assert (MP : lo <= M) by (destruct HL2 as [Q _]; specialize (Q 0); specialize (Hf 0); pose proof (Rle_abs (f 0)); lra).
  destruct (bounds_setup eig SLLF b a M_Scalar.Burgers lo M c w HE HD Hp (or_introl eq_refl) HB Hlo HM ltac:(split; [exact C0|cbn [max_speed cells_per_step]; fold cfl; lra]) E) as [m' [u' [Ew' [Bu [_ [_ [GG [_ [_ [Qc SS]]]]]]]]]].
  destruct (scalar_solver_inv eig SLLF b a c w E) as [m [u [nf [bc X]]]]. fold n in X. cbv zeta in X. destruct X as [Em [Eu [Lm [Lu [Hn [Ed [Enf [Ebc [Ec Ew]]]]]]]]].
  assert (Hn' : (0 < n)%nat) by (clear - Hn; lia). fold D in Ed, Em. fold h in Ed.
  assert (HX : 0 < h). { unfold h. apply Rdiv_lt_0_compat; [lra|apply lt_0_INR; exact Hn']. }
  assert (NF : nf = scalar_llf M_Scalar.Burgers). { unfold get_scalar_flux in Enf. rewrite Hp, names_parse in Enf. cbn [bind] in Enf. apply Ok_inj in Enf. auto. }
  assert (HBC : exists il ir, get_boundary_conditions None (sb_conditions b) 1 il ir = Ok bc).
  { rewrite (scalar_dim _ _ _ _ Enf) in Ebc. change (2 / 2)%nat with 1%nat in Ebc. unfold scalar_boundary in Ebc. eauto. }
  destruct HBC as [il [ir Ebc']]. rewrite Ed, NF in Ec. destruct (bc_radius _ _ _ _ _ _ Ebc') as [R1 R2].
  assert (Eq : u' = u). { pose proof (f_equal (fun x => w_mem x 0%nat) Ew') as Q. rewrite Ew in Q. unfold new_solver in Q. cbn [w_mem] in Q. rewrite !store_other in Q by lia. auto. }
  subst u'.
  assert (GG' : forall x, call_generator (c_gen c) x = h * cfl) by (intro x; rewrite Ec; cbn [scalar_config c_gen]; change (m_step m * py_or (a_cfl a) default_cfl = h * cfl); rewrite Ed; reflexivity).
  rewrite Ew in SH.
  assert (H0 : forall j, Rabs (at_ u j - f (ia D + h / 2 + IZR j * h)) <= K2 / 24 * (h * h)).
  { intro j. assert (Q : at_ u j = two_points f (h * gauss_point) (ia D + h / 2 + IZR j * h)).
    { apply (at_period u _ n D Hn'); [apply two_points_repeat; exact HR|exact Lu|]. intros i Hi.
      rewrite (averages_tab eig _ n m _ HE Hn' HD Em) in Eu. apply Ok_inj in Eu. rewrite <- Eu, nth_tab by exact Hi. unfold mean2, two_points.
      pose proof (two_points_inside D n i Hi HD) as [T1 [T2 [T3 [T4 T5]]]]. unfold cell_centre, ilength in *. fold h in T1, T2, T3, T4, T5 |- *.
      replace (ia D + h / 2 + INR i * h) with (ia D + (INR i + 1 / 2) * h) by field.
      rewrite !HI by (unfold D in *; lra). reflexivity. }
    rewrite Q. pose proof (two_points_near K2 f (h * gauss_point) (ia D + h / 2 + IZR j * h) (ex_intro _ f1 (ex_intro _ f2 (conj F1 (conj F2 F3))))) as Y. destruct gauss_point_pos as [G1 G2].
    replace (K2 / 2 * (h * gauss_point) ^ 2) with (K2 / 2 * (h * h * (gauss_point * gauss_point))) in Y by ring. rewrite G2 in Y. lra. }
  assert (PK : 0 <= K2) by (pose proof (F3 0); pose proof (Rabs_pos (f2 0)); lra).
  assert (P0 : 0 <= K2 / 24 * (h * h)) by (apply Rmult_le_pos; [lra|apply Rmult_le_pos; lra]).
  assert (PL : 0 < ex_lip K T) by (apply ex_L; auto). assert (HLp : 0 < ex_lip K T * h) by (apply Rmult_lt_0_compat; lra).
  destruct (burgers_run f f1 f2 K K2 M T ex D n (ia D + h / 2)) with (c0 := K2 / 24 * (h * h)) (cm := Rmin (M / 6) (lo / 2)) (finite := finite) (c := c) (w0 := u) (I := fun v => length v = n /\ in_range lo M v) (ok := positive) (t0 := sb_start b) (us := us) (t := t) (u := v)
    as [T0 [IB FL]]; auto.
  - apply Rmin_glb; [|exact Hb2]. change (err_bound K K2 M T D n (K2 / 24 * (h * h)) T) with (bound T). lra.
  - apply Rmin_l.
  - rewrite Ec. cbn [c_rhs scalar_config]. apply (llf_rusanov (sb_conditions b) il ir); auto.
  - rewrite Ec. cbn [c_tab scalar_config]. destruct (a_ode a) as [T'|] eqn:Ea; [apply HM; reflexivity|cbn; auto].
  - intros x [_ Q]. auto.
  - intros x [Q _]. exact Q.
  - intros t' x y Lx Ex. rewrite Ec in Ex. cbn [c_rhs scalar_config] in Ex. rewrite (llf_rhs_length _ _ _ _ _ _ R1 R2 Ex). exact Lx.
  - intros t' x dt mm Lx Hd Hm _ _. rewrite GG' in Hd. apply Rle_trans with (dt * M); [apply Rmult_le_compat_l; lra|]. apply Rle_trans with (h * cfl * M); [apply Rmult_le_compat_r; lra|].
    replace (h * cfl * M) with (h * (cfl * M)) by ring. apply Rle_trans with (h * (1 / 6)); [apply Rmult_le_compat_l; lra|]. apply Req_le. change (h * (1 / 6) = h / 6). field.
  - intros x Lx Q y Hy. apply (In_nth _ _ 0) in Hy as [i [Hi <-]]. destruct (Q (Z.of_nat i)) as [s [z [q [Q1 [Q2 Q3]]]]]. rewrite at_nth in Q3 by exact Hi.
    assert (Lz : lo <= ex s z). { destruct (foot f f1 M F1 (proj1 HL2) s z (proj1 Q1)) as [y <-]. rewrite HV by auto. apply Hf. }
    pose proof (Rmin_r (M / 6) (lo / 2)). apply abs_inv in Q2. apply abs_inv in Q3. assert (lo * (5 / 6) <= ex s z * (1 - q)) by (apply Rmult_le_compat; lra). lra.
  - split; [exact T0|]. destruct IB as [Lv _]. split; [exact Lv|]. intros Ht i Hi. specialize (FL Ht (Z.of_nat i)). rewrite at_nth in FL by lia.
    rewrite <- INR_IZR_INZ in FL. fold h in FL. replace (middle D n i) with (ia D + h / 2 + INR i * h) by (unfold middle; fold h; field). exact FL.
Qed.

(** The Lax-Friedrichs solver converges for positive data f of at most M with slopes of at most K, before the time 1 / K when shocks can
    appear, with the first power of the cell size: from some number of cells on, the error at the middle of every cell, at every time before T, is at most
    a constant over the number of cells. The CFL number must leave no value room to pass more than a sixth of a cell. *)
Theorem C94_positive_solutions_converge : forall b f K K2 M T ex lo, ia (sb_domain b) < ib (sb_domain b) -> sb_problem b = names_problem M_Scalar.Burgers -> side_names (sb_conditions b) "periodic" "periodic" ->
  repeats (sb_domain b) f -> (forall x, ia (sb_domain b) <= x < ib (sb_domain b) -> sb_initial b x = f x) -> data_between b lo M -> 0 < lo -> (forall x, lo <= f x) ->
  smooth K2 f -> lipschitz K f -> 0 < K -> 0 <= T -> K * T < 1 -> largest M f -> carried f T ex ->
  exists C n0, forall eig finite a c w us t v, eig2_works eig -> ssp_method (a_ode a) -> 0 < py_or (a_cfl a) default_cfl -> py_or (a_cfl a) default_cfl * M <= 1 / 6 ->
    let n := or_default (a_mesh_size a) default_mesh_size in (n0 <= n)%nat ->
    scalar_solver eig SLLF b a = Ok (c, w) -> (forall v, in_range lo M v -> finite v = true) ->
    (forall v t, ~ In (Reinit v t) us) -> shown (fst (use_run finite c us (w, []))) t v -> t - sb_start b <= T ->
    sb_start b <= t /\ length v = n /\ forall i, (i < n)%nat -> Rabs (nth i v 0 - ex (t - sb_start b) (middle (sb_domain b) n i)) <= C / INR n.
Proof.
  intros b f K K2 M T ex lo HD HP SN HR HI HB Hlo Hf [f1 [f2 [F1 [F2 F3]]]] HL HK HT HKT HL2 HV. assert (PK : 0 <= K2) by (pose proof (F3 0); pose proof (Rabs_pos (f2 0)); lra).
  assert (PM : 0 < M) by (destruct HL2 as [Q _]; specialize (Q 0); specialize (Hf 0); pose proof (Rle_abs (f 0)); lra).
  destruct (enough_cells f f2 K K2 M T (sb_domain b) (K2 / 24) (lo / 2) F3 HK HKT HL2 HD HT ltac:(lra) PM ltac:(lra)) as [C [n0 [N3 HN]]]. exists C, n0.
  intros eig finite a c w us t v HE HM C0 C1 n Hn E HF NR SH Ht. destruct (HN _ Hn) as [A1 [A2 [A3 A4]]].
  destruct (cell_follows eig finite b a f f1 f2 K K2 M T ex lo c w us t v) as [T0 [Lv X]]; auto. split; [exact T0|]. split; [exact Lv|]. intros i Hi. eapply Rle_trans; [apply X; auto|]. apply A4. lra.
Qed.
Print Assumptions C94_positive_solutions_converge.

(** the data 2 + sin x on the interval from 0 to twice pi meet the conditions, with the default end time and a CFL number of 1 / 18 *)
Example C94_positive_ex : exists eig, eig2_works eig /\
  let b := {| sb_problem := "burgers"; sb_domain := {| ia := 0; ib := 2 * PI |}; sb_start := 0; sb_end := 1 / 2; sb_conditions := ["periodic"%string]; sb_inflow_left := fun _ => 0; sb_inflow_right := fun _ => 0; sb_initial := fun x => 2 + sin x |} in
  let a := {| a_mesh_size := Some 50%nat; a_cfl := Some (1 / 18); a_ode := None; a_history := true |} in
  ia (sb_domain b) < ib (sb_domain b) /\ sb_problem b = names_problem M_Scalar.Burgers /\ side_names (sb_conditions b) "periodic" "periodic" /\ repeats (sb_domain b) (fun x => 2 + sin x) /\ data_between b 1 3 /\ (forall x, 1 <= 2 + sin x) /\
  smooth 1 (fun x => 2 + sin x) /\ lipschitz 1 (fun x => 2 + sin x) /\ 1 * (sb_end b) < 1 /\ largest 3 (fun x => 2 + sin x) /\ (exists ex, carried (fun x => 2 + sin x) (sb_end b) ex) /\
  ssp_method (a_ode a) /\ 0 < py_or (a_cfl a) default_cfl /\ py_or (a_cfl a) default_cfl * 3 <= 1 / 6 /\ exists c w, scalar_solver eig SLLF b a = Ok (c, w).
Proof.
  destruct (P_Gauss.C43_decomposition_exists 2) as [eig HE]. assert (HE2 : eig2_works eig) by (apply HE; lia). exists eig. split; [exact HE2|]. intros b a. pose proof PI_RGT_0.
  assert (D1 : forall x, derivable_pt_lim (fun x => 2 + sin x) x (cos x)). { intro x. replace (cos x) with (0 + cos x) by ring. apply (derivable_pt_lim_plus (fun _ => 2) sin); [apply derivable_pt_lim_const|apply derivable_pt_lim_sin]. }
  assert (HL : lipschitz 1 (fun x => 2 + sin x)) by (intros x y; apply (mvt_bound _ _ 1 ltac:(lra) D1); intro z; apply Rabs_le, COS_bound).
  assert (B : forall x, 1 <= 2 + sin x <= 3) by (intro x; pose proof (SIN_bound x); lra).
  assert (LG : largest 3 (fun x => 2 + sin x)). { split; [intro x; specialize (B x); apply Rabs_le; lra|]. exists (PI / 2). rewrite sin_PI2. rewrite Rabs_right; lra. }
  assert (SN : side_names (sb_conditions b) "periodic" "periodic") by (cbn; auto).
  split; [cbn; lra|]. split; [reflexivity|]. split; [exact SN|]. split; [|split; [|split; [|split; [|split; [|split; [|split; [|split; [|split; [|split; [|split]]]]]]]]]].
  - intro x. cbn [b sb_domain ia ib]. replace (x + (2 * PI - 0)) with (x + 2 * PI) by ring. rewrite sin_plus, cos_2PI, sin_2PI. f_equal. ring.
  - split; [intros x _; apply B|]. intros [Q|[]]. discriminate.
  - intro x. apply B.
  - exists cos, (fun x => - sin x). split; [exact D1|]. split; [apply derivable_pt_lim_cos|]. intro x. rewrite Rabs_Ropp. apply Rabs_le, SIN_bound.
  - exact HL.
  - cbn [b sb_end]. lra.
  - exact LG.
  - apply (exact_exists _ _ 1 3 _ D1 HL); [lra|cbn [b sb_end]; lra|exact (proj1 LG)].
  - intros T Q. discriminate.
  - unfold py_or, a. cbn [a_cfl]. destruct (Reqb_spec (1 / 18) 0); lra.
  - unfold py_or, a. cbn [a_cfl]. destruct (Reqb_spec (1 / 18) 0); lra.
  - destruct (C69_scalar_solvers_can_be_built eig SLLF b a M_Scalar.Burgers "periodic" "periodic" HE2) as [c [w [E _]]]; auto; try (cbn; tauto); [cbn; lra|]. eauto.
Qed.
