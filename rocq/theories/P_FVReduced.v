(** C66: the solvers with a network (reduced_model.py). C64: they lose water at walls. *)
From Coq Require Import Reals List ZArith Arith Lia Lra Bool String.
From Verif Require Import Prelude L_Prelude M_Mesh L_Mesh M_Quadrature S_Quadrature M_Interpolate M_Boundary S_Boundary L_Boundary M_Flux S_Flux L_Flux
  M_ODE S_ODE L_ODE M_TimeStepping L_TimeStepping M_Coarsener M_Solution M_Solver S_Solver L_Solver M_Generate
  M_Scalar L_Scalar M_ShallowWater S_ShallowWater L_ShallowWater L_SWRuns L_SWLow L_SWWater L_SWLake L_SWTotal M_FVSolver S_FVSolver L_SWWide L_FVSolver
  P_Boundary P_Quadrature P_Gauss P_Interpolate P_ShallowWater P_FVWater P_Solver.
Import ListNotations.
Local Open Scope nat_scope.
Open Scope R_scope.
Notation length := List.length.


(** ** With a network the solvers lose water at walls. *)
Definition one_box (q : R) : sw_benchmark :=
  {| bm_domain := {| ia := 0; ib := 1 |}; bm_start := 0; bm_end := 1; bm_conditions := ["wall"%string];
     bm_inflow_left := fun _ => (1, 0); bm_inflow_right := fun _ => (1, 0);
     bm_initial := fun _ => (1, q); bm_bottom := fun _ => 0; bm_gravity := 1 |}.
Definition one_cell : solver_args := {| a_mesh_size := Some 1%nat; a_cfl := None; a_ode := Some euler; a_history := true |}.
Definition leaky (row : list state) : state := (snd (nth 0 row (0, 0)), 0).

Lemma constant_averages eig D n m f k : eig2_works eig -> (0 < n)%nat -> ia D < ib D -> new_mesh D n = Ok m -> (forall x, f x = k) ->
  cell_averages eig 2 m f = Ok (repeat k n).
Proof.
  intros HE Hn HD Em Hf. destruct (C42_cell_averages eig 2 D n m f ltac:(lia) HE Hn HD Em) as [a [E [L [B _]]]]. rewrite E. f_equal.
  apply (nth_ext _ _ 0 0); [rewrite repeat_length; auto|]. intros i Hi. rewrite (nth_indep (repeat k n) 0 k) by (rewrite repeat_length; lia).
  rewrite nth_repeat. destruct (nth_error (m_cells m) i) as [cell|] eqn:Ec.
  - assert (Z := B i cell k k Ec ltac:(intros; rewrite Hf; lra)). lra.
  - apply nth_error_None in Ec. pose proof (new_mesh_length _ _ _ Em) as [Lm _]. unfold m_len in Lm. lia.
Qed.


Lemma source_flat g n vl vr : length vl = S n -> length vr = S n -> source_term g vl vr [0] = Ok (repeat (0, 0) (S n)).
Proof.
  intros Ll Lr. unfold source_term. rewrite Ll. destruct (broadcast (S n) [0]) as [st|] eqn:B.
  2:{ unfold broadcast in B. destruct (Nat.eqb _ _); discriminate. }
  cbn [bind]. f_equal. destruct (broadcast_zero _ _ B) as [L Z]. 
  apply (nth_ext _ _ (0, 0) (0, 0)).
  - rewrite map2_length, combine_length, repeat_length. lia.
  - intros i Hi. rewrite map2_length, combine_length in Hi.
    rewrite (nth_map2 _ _ _ i ((0,0), (0,0)) 0) by (rewrite ?combine_length; lia). rewrite Z.
    replace (nth i (repeat (0, 0) (S n)) (0, 0)) with ((0, 0) : state) by (symmetry; apply nth_repeat). f_equal. ring.
Qed.
Lemma source_length g vl vr step n src : length vl = S n -> length vr = S n -> source_term g vl vr step = Ok src -> length src = S n.
Proof.
  intros Ll Lr E. unfold source_term in E. inv_bind E. apply Ok_inj in E. subst src. apply broadcast_length in E0.
  rewrite map2_length, combine_length. lia.
Qed.

(** what a solver with a network and two cells per node does, for any inner scheme without network: to the
    flux of the inner scheme (which has a source term) the output of the network is added,
    and the source term is subtracted once more *)
Theorem C66_reduced_flux : forall eig net base b m red, network_free base ->
  get_flux eig (GReduced 2 net base) b m BNone = Ok red ->
  exists nf l p, get_flux eig base b m BNone = Ok nf /\ discrete_bottom eig b (m_len m) = Ok l /\ build_bathymetry (BArray l) = Ok p /\
  nf_dim red = 2%nat /\ nf_dim nf = 2%nat /\
  forall n vl vr, (1 <= n)%nat -> length vl = S n -> length vr = S n ->
    nf_call red [vl; vr] =
    bind (nf_call nf [vl; vr]) (fun q => bind (source_term (py_or (Some (bm_gravity b)) default_gravity) vl vr (snd p)) (fun src =>
      let g := tab (S n) (fun i => net [nth i vl (0, 0); nth i vr (0, 0)]) in
      Ok (map2 csub (map2 cadd (fst q) (map copp g)) src, map2 csub (map2 cadd (snd q) g) src))).
Proof.
  intros eig net base b m red NF E. cbn [get_flux] in E. inv_bind E. inv_bind E.
  unfold bathymetry_or in E0. inv_bind E0. apply Ok_inj in E0. subst a.
  unfold with_source in E. inv_bind E. apply Ok_inj in E. subst red.
  pose proof (get_flux_tight eig base b m _ _ NF E1) as [D T].
  exists a0, a1, a. repeat match goal with |- _ /\ _ => split end; auto; [cbn; rewrite D; reflexivity|].
  intros n vl vr Hn Ll Lr. cbn [nf_call]. unfold wrapped_call. cbn [corrected nf_call arbitrary_input subgrid_flux nf_dim]. rewrite D.
  rewrite (required_two _ 1) by (cbn; lia). cbn [bind nth Nat.sub].
  destruct (nf_call a0 [vl; vr]) as [[fl fr]|e]; [|reflexivity]. cbn [bind fst snd].
  destruct (source_term _ vl vr (snd a)) as [src|e]; [|reflexivity]. cbn [bind]. unfold row_predict, vneg. cbn [hd map]. rewrite Ll. reflexivity.
Qed.
Print Assumptions C66_reduced_flux.

Lemma csub_zero n (x : list state) : length x = n -> map2 csub x (repeat (0, 0) n) = x.
Proof.
  intro L. apply (nth_ext _ _ (0, 0) (0, 0)); [rewrite map2_length, repeat_length; lia|]. intros i Hi. rewrite map2_length, repeat_length in Hi.
  rewrite (nth_map2 _ _ _ i (0,0) (0,0)) by (rewrite ?repeat_length; lia).
  replace (nth i (repeat (0, 0) n) (0, 0)) with ((0, 0) : state) by (symmetry; apply nth_repeat).
  destruct (nth i x (0, 0)) as [h q]. unfold csub, copp. cbn [cadd cscal RR_CellOps fst snd]. f_equal; ring.
Qed.
Lemma cadd_zero n (x y : list state) : length x = n -> length y = n -> (forall i, (i < n)%nat -> nth i y (0, 0) = (0, 0)) -> map2 cadd x y = x.
Proof.
  intros L Ly Z. apply (nth_ext _ _ (0, 0) (0, 0)); [rewrite map2_length; lia|]. intros i Hi. rewrite map2_length in Hi.
  rewrite (nth_map2 _ _ _ i (0,0) (0,0)) by lia. rewrite Z by lia.
  destruct (nth i x (0, 0)) as [h q]. cbn [cadd RR_CellOps fst snd]. f_equal; ring.
Qed.

(** With a network that predicts no subgrid flux, the reduced solver is the solver of the
    inner scheme if the bottom is flat: the same right hand side in every state. *)
Theorem C66_zero_network_flat_bottom : forall eig net base b m red nf bc dx t u k, eig2_works eig -> ia (bm_domain b) < ib (bm_domain b) ->
  (1 <= m_len m)%nat -> network_free base -> (forall row, net row = (0, 0)) -> (forall x, bm_bottom b x = k) ->
  get_flux eig (GReduced 2 net base) b m BNone = Ok red -> get_flux eig base b m BNone = Ok nf ->
  boundary b 1 = Ok bc -> (1 <= length u)%nat ->
  fv_rhs red dx bc t u = fv_rhs nf dx bc t u.
Proof.
  intros eig net base b m red nf bc dx t u k HE HD Hm NF HN HB E E' B Hu.
  destruct (C66_reduced_flux eig net base b m red NF E) as [nf' [l [p [E1 [E2 [E3 [D1 [D2 C]]]]]]]].
  rewrite E1 in E'. apply Ok_inj in E'. subst nf'.
  assert (El : l = repeat k (m_len m)).
  { unfold discrete_bottom in E2. inv_bind E2. rewrite (constant_averages eig _ _ _ _ k HE Hm HD E0 HB) in E2. apply Ok_inj in E2. auto. }
  assert (Ep : p = ([0], [0])).
  { subst l. cbn [build_bathymetry] in E3. destruct (m_len m) as [|n]; [lia|]. cbn [repeat is_constant bind] in E3.
    replace (forallb (fun x => Rltb (Rabs (x - k)) epsilon) (k :: repeat k n)) with true in E3; [apply Ok_inj in E3; auto|].
    symmetry. apply forallb_forall. intros x Hx. assert (x = k) by (change (k :: repeat k n) with (repeat k (S n)) in Hx; apply (repeat_spec _ _ _ Hx)). subst x.
    apply Rltb_true. rewrite Rminus_diag_eq, Rabs_R0 by auto. unfold epsilon. lra. }
  subst p. unfold fv_rhs. rewrite D1, D2. change (2 / 2)%nat with 1%nat.
  destruct (get_node_neighbours bc u 1 (Some t)) as [a|e] eqn:Ea; [|reflexivity]. cbn [bind].
  destruct (fv_neighbours_shape _ _ _ _ _ _ u t B (le_n 1) a Ea) as [La Fa]. rewrite Forall_forall in Fa.
  destruct a as [|vl [|vr [|? ?]]]; try (cbn in La; lia).
  assert (Ll : length vl = S (length u)) by (apply Fa; left; auto). assert (Lr : length vr = S (length u)) by (apply Fa; right; left; auto).
  rewrite (C (length u) vl vr Hu Ll Lr). cbn [snd]. rewrite (source_flat _ _ _ _ Ll Lr).
  destruct (nf_call nf [vl; vr]) as [[fl fr]|e] eqn:Ec; [|reflexivity]. cbn [bind fst snd].
  destruct (get_flux_tight eig base b m _ _ NF E1) as [_ T]. destruct (T (length u) vl vr fl fr Hu Ll Lr Ec) as [L1 [L2 _]].
  assert (Z : forall i, (i < S (length u))%nat -> nth i (tab (S (length u)) (fun i => net [nth i vl (0, 0); nth i vr (0, 0)])) (0, 0) = (0, 0)).
  { intros i Hi. rewrite nth_tab by auto. apply HN. }
  rewrite (cadd_zero (S (length u)) fr) by (auto; apply tab_length).
  rewrite (cadd_zero (S (length u)) fl).
  - rewrite !csub_zero by auto. reflexivity.
  - auto.
  - rewrite map_length, tab_length. auto.
  - intros i Hi. rewrite (nth_map' copp _ _ (0, 0)) by (rewrite tab_length; auto). rewrite Z by auto. unfold copp. cbn [cscal RR_CellOps fst snd]. f_equal; ring.
Qed.
Print Assumptions C66_zero_network_flat_bottom.

(** ** instances *)
Section Wet.
Context (gravity : option R).
Let g := py_or gravity default_gravity.
Lemma llf_total b nf N p st : 0 < g -> sw_llf gravity b = Ok nf -> build_bathymetry b = Ok p -> broadcast (S N) (snd p) = Ok st ->
  wet_total nf N.
Proof.
  intros Hg E Ep Es. unfold sw_llf, with_source in E. rewrite Ep in E. cbn [bind] in E. apply Ok_inj in E. subst nf. split; [reflexivity|].
  intros x X. cbn [nf_call]. unfold wrapped_call. cbn [lax_friedrichs nf_call].
  assert (O : exists o, rs_solve_all (sw_riemann gravity) (tab (S N) x) (tab (S N) (fun i => x (S i))) = Ok o /\ length o = S N).
  { unfold rs_solve_all. destruct (mapM_exists (fun q => rs_solve (sw_riemann gravity) (fst q) (snd q)) (combine (tab (S N) x) (tab (S N) (fun i => x (S i))))) as [o Ho].
    - intros q Hq. rewrite combine_tab in Hq. apply in_tab in Hq. destruct Hq as [i [Hi <-]]. cbn [fst snd].
      destruct (low_at_total gravity (x i) (x (S i)) 0 Hg (X i ltac:(lia)) (X (S i) ltac:(lia))) as [o [Eo _]].
      unfold low_at in Eo. inv_bind Eo. eauto.
    - exists o. split; auto. apply mapM_ok in Ho as [L _]. rewrite combine_tab, tab_length in L. auto. }
  destruct O as [o [-> Lo]]. cbn [bind]. rewrite (required_two _ 1) by (cbn; lia). cbn [bind nth Nat.sub].
  unfold source_term. rewrite tab_length, Es. cbn [bind fst snd]. eexists. eexists. split; [reflexivity|].
  apply broadcast_length in Es. rewrite !map2_length, combine_length, !tab_length. unfold vneg. rewrite !map_length. lia.
Qed.
End Wet.

(* what is seen after one step *)
Lemma one_iteration {V} `{VecOps V} (finite : V -> bool) c w o1 s1 dt : tol <= c_end c - c_start c ->
  let p := call_generator (c_gen c) (w_sol_time w, w_mem w (w_sol w)) in
  0 < p -> ts_next (c_end c) p (ts_iter (c_start c)) = Yield dt s1 -> c_check c = None ->
  rk_execute_e (c_rhs c) (c_tab c) dt {| o_time := w_ode_time w; o_sol := w_mem w (w_ode w) |} = Ok o1 -> finite (o_sol o1) = true ->
  let w' := fst (fst (solve finite c 1 w)) in w_mem w' (w_sol w') = o_sol o1.
Proof.
  intros Hd p Hp Et Hc Eo Hf. cbv zeta.
  destruct (proj1 (C47_solve_raises_before_the_first_step finite c 1 w Hd) (or_intror Hp)) as [w' [s [st E]]].
  unfold solve in *. destruct (tqdm_len c w); [|discriminate]. cbn [solve_loop]. fold p. rewrite Et.
  unfold solver_update. pose proof (ode_execute_spec c dt w) as X. destruct (ode_execute c dt w) as [[[w1 nodes] stages]|e]; [|congruence].
  destruct X as [y [X1 [X2 ->]]]. rewrite Eo in X1. apply Ok_inj in X1. subst y. unfold M_Solver.check_cfl. rewrite Hc.
  unfold sol_update. cbn [warn w_mem w_next w_ode w_ode_time w_sol w_sol_time w_times w_values w_warnings]. rewrite store_same, Hf.
  cbn [fst w_mem w_sol]. apply store_same.
Qed.

Lemma one_box_mesh : exists m, new_mesh {| ia := 0; ib := 1 |} 1 = Ok m /\ m_len m = 1%nat /\ m_step m = 1.
Proof.
  eexists. split; [apply new_mesh_ok; [lia|cbn; lra]|]. split; [reflexivity|]. cbn [m_step]. unfold ilength. cbn. field.
Qed.
Lemma one_box_solution eig q : eig2_works eig -> exists m, new_mesh {| ia := 0; ib := 1 |} 1 = Ok m /\ m_step m = 1 /\
  fv_solution eig (one_box q) (Some 1%nat) = Ok (m, [(1, q)]) /\ m_len m = 1%nat /\ discrete_bottom eig (one_box q) 1 = Ok [0].
Proof.
  intro HE. assert (HD : ia {| ia := 0; ib := 1 |} < ib {| ia := 0; ib := 1 |}) by (cbn [ia ib]; lra). destruct one_box_mesh as [m [Em [Lm Sm]]]. exists m. repeat match goal with |- _ /\ _ => split end; auto.
  - unfold fv_solution. cbn [or_default bm_domain one_box]. rewrite Em. cbn [bind]. unfold averages2.
    rewrite (constant_averages eig _ 1 m _ 1 HE (le_n 1) HD Em) by reflexivity. cbn [bind].
    rewrite (constant_averages eig _ 1 m _ q HE (le_n 1) HD Em) by reflexivity. reflexivity.
  - unfold discrete_bottom. cbn [bm_domain one_box]. rewrite Em. cbn [bind].
    rewrite (constant_averages eig _ 1 m _ 0 HE (le_n 1) HD Em) by reflexivity. reflexivity.
Qed.
Lemma gravity_one : py_or (Some 1) default_gravity = 1.
Proof. cbn. destruct (Reqb_spec 1 0); [lra|reflexivity]. Qed.
Lemma zero_bottom : build_bathymetry (BArray [0]) = Ok ([0], [0]).
Proof.
  cbn [build_bathymetry is_constant bind forallb]. rewrite Rltb_true; [reflexivity|]. rewrite Rminus_diag_eq, Rabs_R0 by auto. unfold epsilon. lra.
Qed.

(** Between walls a network can create or remove water: one cell of water in a box,
    moving to the right. After one step water is missing. *)
Theorem C64_networks_between_walls_refuted :
  ~ (forall eig finite g b a c w us, eig2_works eig -> sw_solver eig g b a = Ok (c, w) -> known_method a -> even_inputs g ->
     (cells_read g <= 2 * length (o_sol (solution_of w)))%nat -> side_names (bm_conditions b) "wall" "wall" ->
     (forall v t, ~ In (Reinit v t) us) ->
     forall v, visible (fst (use_run finite c us (w, []))) v -> water v = water (o_sol (solution_of w))).
Proof.
  intro H. destruct (C43_decomposition_exists 2) as [eig HE]. assert (HE2 : eig2_works eig) by (apply HE; lia).
  set (g := GReduced 2 leaky GLLF). set (b := one_box 1). set (fin := fun _ : list state => true).
  destruct (C64_solvers_can_be_built eig g b one_cell "wall" "wall") as [c [w [E _]]]; auto; try (cbn; lra); try (cbn; auto; fail).
  destruct (sw_solver_inv eig g b one_cell c w E) as [m [u [nf [bc [E1 [E2 [E3 [E4 E5]]]]]]]].
  destruct (one_box_solution eig 1 HE2) as [m' [Em [Sm [Es [Lm Eb]]]]]. fold b in Es. cbn [a_mesh_size one_cell] in E1. rewrite Es in E1.
  apply Ok_inj in E1. injection E1 as Z1 Z2. subst m' u.
  destruct (C66_reduced_flux eig leaky GLLF b m nf I E2) as [base [l [p [F1 [F2 [F3 [F4 [F5 F6]]]]]]]].
  rewrite Lm in F2. fold b in Eb. rewrite Eb in F2. apply Ok_inj in F2. subst l. rewrite zero_bottom in F3. apply Ok_inj in F3. subst p.
  rewrite F4 in E3. change (2 / 2)%nat with 1%nat in E3. apply Ok_inj in E3.
  assert (N : get_node_neighbours bc [(1, 1)] 1 (Some (0 + 0 * (1 / 10))) = Ok [[reflect (1, 1); (1, 1)]; [(1, 1); reflect (1, 1)]]) by (rewrite <- E3; reflexivity).
  assert (WT : wet_total base 1).
  { cbn [get_flux] in F1. rewrite Lm, Eb in F1. cbn [bind bathymetry_or] in F1. eapply (llf_total (Some 1)).
    - rewrite gravity_one. lra.
    - exact F1.
    - apply zero_bottom.
    - reflexivity. }
  destruct WT as [_ WT]. destruct (WT (fun i => match i with 1%nat => (1, 1) | _ => reflect (1, 1) end)) as [fl [fr [C [L1 L2]]]].
  { intros [|[|i]] _; cbn; lra. }
  change (tab 2 _) with [reflect (1, 1); (1, 1)] in C at 1. change (tab 2 _) with [(1, 1); reflect (1, 1)] in C.
  destruct (get_flux_tight eig GLLF b m _ _ I F1) as [_ T].
  destruct (T 1%nat [reflect (1, 1); (1, 1)] [(1, 1); reflect (1, 1)] fl fr (le_n 1) eq_refl eq_refl C) as [_ [_ [T1 [T2 _]]]].
  assert (Z0 := T2 0%nat ltac:(auto) eq_refl). assert (Z1 : fst (nth 1 fr (0, 0)) = 0).
  { apply (T2 1%nat); [auto|]. cbn [nth]. unfold reflect. cbn. f_equal. ring. }
  assert (Z2 := T1 1%nat ltac:(lia)). rewrite Z1 in Z2.
  destruct fl as [|fl0 [|fl1 [|? ?]]]; try (cbn in L1; lia). destruct fr as [|fr0 [|fr1 [|? ?]]]; try (cbn in L2; lia). cbn [nth] in Z0, Z1, Z2.
  assert (RHS : exists y, c_rhs c (0 + 0 * (1 / 10)) [(1, 1)] = Ok [(-2, y)]).
  { subst c. cbn [c_rhs sw_config]. unfold fv_rhs. rewrite F4. change (2 / 2)%nat with 1%nat. rewrite N. cbn [bind].
    rewrite (F6 1%nat [reflect (1, 1); (1, 1)] [(1, 1); reflect (1, 1)] (le_n 1) eq_refl eq_refl), C. cbn [bind snd]. rewrite (source_flat _ 1 [reflect (1, 1); (1, 1)] [(1, 1); reflect (1, 1)] eq_refl eq_refl). cbn [bind fst snd].
    unfold cells_from_nodes. rewrite Sm, rdiv_ne by lra. cbn [bind]. eexists. cbn -[Rmult Rplus Rdiv Ropp IZR]. f_equal. f_equal.
    apply injective_projections; cbn [fst snd]; [|reflexivity]. rewrite Z0, Z2. unfold leaky, reflect. cbn [nth fst snd]. field. }
  destruct RHS as [y RHS].
  set (u1 := vadd [(1, 1)] (vscal (1 / 10) (vscal 1 [(-2, y)]))).
  assert (W : w_mem w (w_sol w) = [(1, 1)] /\ w_mem w (w_ode w) = [(1, 1)] /\ w_ode_time w = 0).
  { rewrite E5. unfold new_solver. cbn [w_mem w_ode w_sol w_ode_time]. rewrite store_same, store_other by lia. auto. }
  destruct W as [W1 [W2 W3]].
  assert (X : w_mem (fst (fst (solve fin c 1 w))) (w_sol (fst (fst (solve fin c 1 w)))) = u1).
  { assert (Cg : call_generator (c_gen c) (w_sol_time w, w_mem w (w_sol w)) = 1 / 10).
    { subst c. unfold call_generator. cbn [c_gen sw_config mesh_dependent_generator new_generator gen_adaptive gen_frozen gen_cfl a_cfl one_cell py_or].
      unfold default_cfl. rewrite Sm. ring. }
    assert (Cs : c_start c = 0 /\ c_end c = 1 /\ c_check c = None /\ c_tab c = euler) by (subst c; repeat split; reflexivity).
    destruct Cs as [Cs1 [Cs2 [Cs3 Cs4]]].
    pose proof (one_iteration fin c w {| o_time := 0 + 1 / 10; o_sol := u1 |} {| ts_time := 0 + 1 / 10; ts_count := 1; ts_stop := false |} (1 / 10)) as X.
    cbv zeta in X. rewrite Cg, Cs1, Cs2 in X. apply X; auto.
    - unfold tol. lra.
    - lra.
    - unfold ts_next, ts_iter. cbn [ts_stop ts_time ts_count]. replace (1 - 0) with 1 by ring. rewrite Rmin_left by lra.
      destruct (Rltb_spec (1 / 10) tol) as [Y|Y]; [unfold tol in Y; lra|]. destruct (Rltb_spec (1 - (0 + 1 / 10)) tol) as [Y'|Y']; [unfold tol in Y'; lra|]. reflexivity.
    - rewrite Cs4, W2, W3. apply euler_one. exact RHS. }
  assert (V := H eig fin g b one_cell c w [Solve 1] HE2 E).
  assert (SW : o_sol (solution_of w) = [(1, 1)]) by (unfold solution_of; cbn [o_sol]; auto).
  rewrite SW in V.
  assert (Q : water u1 = water [(1, 1)]).
  { apply V.
    - intros T0 HT. cbn in HT. injection HT as <-. left. reflexivity.
    - cbn [even_inputs g]. split; [exists 1%nat; lia|exact I].
    - cbn. lia.
    - cbn. auto.
    - intros v t [|[]]. discriminate.
    - left. unfold use_run. cbn [fold_left use_step fst]. symmetry. exact X. }
  unfold u1, water in Q. cbn -[Rmult Rplus Rdiv IZR] in Q. lra.
Qed.
Print Assumptions C64_networks_between_walls_refuted.

(** Over a step of the bottom the reduced solver with a network that predicts nothing is
    not the solver of the inner scheme: the source term counts twice. *)
Definition step_box : sw_benchmark :=
  {| bm_domain := {| ia := 0; ib := 2 |}; bm_start := 0; bm_end := 1; bm_conditions := ["wall"%string];
     bm_inflow_left := fun _ => (1, 0); bm_inflow_right := fun _ => (1, 0);
     bm_initial := fun _ => (1, 0); bm_bottom := fun x => if Rltb x 1 then 0 else 1; bm_gravity := 1 |}.
Lemma step_bottom eig : eig2_works eig -> discrete_bottom eig step_box 2 = Ok [0; 1].
Proof.
  intro HE. unfold discrete_bottom. cbn [bm_domain step_box].
  assert (HD : ia {| ia := 0; ib := 2 |} < ib {| ia := 0; ib := 2 |}) by (cbn [ia ib]; lra).
  pose proof (new_mesh_ok {| ia := 0; ib := 2 |} 2 ltac:(lia) HD) as Em. set (m := {| m_domain := _; m_cells := _; m_step := _ |}) in Em.
  rewrite Em. cbn [bind].
  destruct (C42_cell_averages eig 2 _ 2 m (bm_bottom step_box) ltac:(lia) HE ltac:(lia) HD Em) as [a [E [L [B _]]]].
  change (fun x => if Rltb x 1 then 0 else 1) with (bm_bottom step_box). rewrite E. f_equal.
  destruct a as [|a0 [|a1 [|? ?]]]; try (cbn in L; lia).
  assert (B0 := B 0%nat _ 0 0 eq_refl). assert (B1 := B 1%nat _ 1 1 eq_refl). unfold unif_cell, ilength in B0, B1. cbn -[Rplus Rmult Rdiv Rminus] in B0, B1.
  f_equal; [|f_equal].
  - assert (0 <= a0 <= 0); [|lra]. apply B0. intros x Hx. destruct (Rltb_spec x 1); lra.
  - assert (1 <= a1 <= 1); [|lra]. apply B1. intros x Hx. destruct (Rltb_spec x 1); lra.
Qed.
Lemma step_bathymetry : build_bathymetry (BArray [0; 1]) = Ok ([0; 0; 1; 1], [0 - 0; 1 - 0; 1 - 1]).
Proof.
  cbn [build_bathymetry is_constant bind forallb]. assert (He : epsilon < 1) by (unfold epsilon; lra).
  rewrite (Rltb_false (Rabs (1 - 0))); [rewrite andb_false_r; reflexivity|]. rewrite Rabs_pos_eq; lra.
Qed.
Theorem C66_zero_network_refuted :
  ~ (forall eig net base b m red nf bc dx t u, eig2_works eig -> ia (bm_domain b) < ib (bm_domain b) ->
     (1 <= m_len m)%nat -> network_free base -> (forall row, net row = (0, 0)) ->
     get_flux eig (GReduced 2 net base) b m BNone = Ok red -> get_flux eig base b m BNone = Ok nf ->
     boundary b 1 = Ok bc -> length u = m_len m -> fv_rhs red dx bc t u = fv_rhs nf dx bc t u).
Proof.
  intro H. destruct (C43_decomposition_exists 2) as [eig HE]. assert (HE2 : eig2_works eig) by (apply HE; lia).
  set (b := step_box). assert (HD : ia (bm_domain b) < ib (bm_domain b)) by (cbn; lra).
  pose proof (new_mesh_ok (bm_domain b) 2 ltac:(lia) HD) as Em. set (m := {| m_domain := _; m_cells := _; m_step := _ |}) in Em.
  assert (Lm : m_len m = 2%nat) by reflexivity. pose proof (step_bottom eig HE2) as Eb. fold b in Eb.
  set (net := fun _ : list state => ((0, 0) : state)).
  assert (X : exists red, get_flux eig (GReduced 2 net GLLF) b m BNone = Ok red).
  { cbn [get_flux]. rewrite Lm, Eb. cbn [bind bathymetry_or]. unfold sw_llf, with_source. rewrite step_bathymetry. cbn [bind]. eauto. }
  destruct X as [red E]. destruct (C66_reduced_flux eig net GLLF b m red I E) as [nf [l [p [F1 [F2 [F3 [F4 [F5 F6]]]]]]]].
  rewrite Lm, Eb in F2. apply Ok_inj in F2. subst l. rewrite step_bathymetry in F3. apply Ok_inj in F3. subst p.
  set (bc := {| bc_left := [LeftReflecting reflect]; bc_right := [RightReflecting reflect]; bc_periodic := false |}).
  set (u := [(1, 0); (1, 0)] : list state).
  assert (N : get_node_neighbours bc u 1 (Some 0) = Ok [[reflect (1, 0); (1, 0); (1, 0)]; [(1, 0); (1, 0); reflect (1, 0)]]) by reflexivity.
  specialize (H eig net GLLF b m red nf bc 1 0 u HE2 HD ltac:(lia) I (fun _ => eq_refl) E F1 eq_refl eq_refl).
  unfold fv_rhs in H. rewrite F4, F5 in H. change (2 / 2)%nat with 1%nat in H. rewrite N in H. cbn [bind] in H.
  set (vl := [reflect (1, 0); (1, 0); (1, 0)]) in *. set (vr := [(1, 0); (1, 0); reflect (1, 0)]) in *.
  assert (WT : wet_total nf 2).
  { cbn [get_flux] in F1. rewrite Lm, Eb in F1. cbn [bind bathymetry_or] in F1. eapply (llf_total (Some 1)).
    - rewrite gravity_one. lra.
    - exact F1.
    - apply step_bathymetry.
    - reflexivity. }
  destruct WT as [_ WT]. destruct (WT (fun i => match i with 0%nat | 3%nat => reflect (1, 0) | _ => (1, 0) end)) as [fl [fr [C [L1 L2]]]].
  { intros [|[|[|[|i]]]] _; cbn; lra. }
  change (tab 3 _) with vl in C at 1. change (tab 3 _) with vr in C.
  rewrite (F6 2%nat vl vr ltac:(lia) eq_refl eq_refl), C in H. cbn [bind fst snd] in H.
  unfold source_term in H. change (broadcast (length vl) [0 - 0; 1 - 0; 1 - 1]) with (Ok [0 - 0; 1 - 0; 1 - 1]) in H. cbn [bind] in H.
  destruct fl as [|fl0 [|fl1 [|fl2 [|? ?]]]]; try (cbn in L1; lia). destruct fr as [|fr0 [|fr1 [|fr2 [|? ?]]]]; try (cbn in L2; lia).
  unfold cells_from_nodes in H. rewrite rdiv_ne in H by lra. cbn [bind fst snd] in H. apply Ok_inj in H.
  apply (f_equal (fun v => snd (nth 0 v (0, 0)))) in H. cbn -[Rmult Rplus Rdiv Ropp IZR Rminus py_or] in H. rewrite gravity_one in H.
  unfold average in H. clear - H. cbn [fst snd] in H. lra.
Qed.
Print Assumptions C66_zero_network_refuted.

(** A getter that is given the bottom as an array with more than one entry raises ValueError. *)
Theorem C66_given_bottom_refuted : forall eig g b m l, (2 <= length l)%nat -> get_flux eig g b m (BArray l) = Err ValueError.
Proof.
  intros eig g b m l Hl. assert (B : forall d, bathymetry_or (BArray l) d = Err ValueError).
  { intro d. destruct l as [|x [|y l]]; [cbn in Hl; lia|cbn in Hl; lia|reflexivity]. }
  induction g; cbn [get_flux]; rewrite ?B; cbn [bind]; auto; rewrite ?IHg; reflexivity.
Qed.
Print Assumptions C66_given_bottom_refuted.

Example C64_ex : exists eig c w, eig2_works eig /\ sw_solver eig (GMCL GES) (one_box 1) one_cell = Ok (c, w) /\
  known_method one_cell /\ side_names (bm_conditions (one_box 1)) "wall" "wall" /\ network_free (GMCL GES) /\
  length (o_sol (solution_of w)) = 1%nat.
Proof.
  destruct (C43_decomposition_exists 2) as [eig HE]. assert (HE2 : eig2_works eig) by (apply HE; lia).
  assert (HD : ia (bm_domain (one_box 1)) < ib (bm_domain (one_box 1))) by (cbn; lra).
  assert (S : side_names (bm_conditions (one_box 1)) "wall" "wall") by (cbn; auto).
  destruct (C64_solvers_can_be_built eig (GMCL GES) (one_box 1) one_cell _ _ HE2 HD S) as [c [w [E [_ L]]]]; [cbn; tauto|cbn; tauto|].
  exists eig, c, w. repeat split; auto. unfold known_method. cbn. intros T ET. injection ET as <-. auto.
Qed.
