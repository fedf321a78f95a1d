(** C81: the options of the shallow water solvers take effect. *)
From Coq Require Import Reals List ZArith Arith Lia Lra Bool String.
From Verif Require Import Prelude L_Prelude M_Mesh L_Mesh M_Quadrature S_Quadrature M_Interpolate M_Boundary S_Boundary L_Boundary M_Flux S_Flux L_Flux
  M_ODE S_ODE L_ODE M_TimeStepping L_TimeStepping M_Coarsener M_Solution M_Solver S_Solver L_Solver M_Generate
  M_Scalar L_Scalar M_ShallowWater S_ShallowWater L_ShallowWater L_SWRuns L_SWLow L_SWWater L_SWLake L_SWTotal M_FVSolver S_FVSolver L_SWWide L_FVSolver
  P_Boundary P_Quadrature P_Gauss P_Interpolate P_ShallowWater P_FVWater P_Solver P_FVReduced S_Units P_Units S_Options.
Import ListNotations.
Local Open Scope nat_scope.
Open Scope R_scope.
Notation length := List.length.

(** ** The bottom given to a flux getter *)
Lemma flat_bathymetry k n : (1 <= n)%nat -> build_bathymetry (BArray (repeat k n)) = Ok ([0], [0]).
Proof.
  intro Hn. destruct n as [|n]; [lia|]. cbn [build_bathymetry repeat is_constant bind].
  replace (forallb (fun x => Rltb (Rabs (x - k)) epsilon) (k :: repeat k n)) with true; [reflexivity|].
  symmetry. apply forallb_forall. intros x Hx. assert (x = k) by (change (k :: repeat k n) with (repeat k (S n)) in Hx; apply (repeat_spec _ _ _ Hx)). subst x.
  apply Rltb_true. rewrite Rminus_diag_eq, Rabs_R0 by auto. unfold epsilon. lra.
Qed.

(** A constant bottom other than zero, given to the getter of an unlimited scheme
    without network, replaces the bottom of the benchmark: the getter returns the
    scheme of the benchmark with a flat bottom of any height. *)
Theorem C81_given_constant_bottom : forall eig g b m r k, eig2_works eig -> ia (bm_domain b) < ib (bm_domain b) ->
  (1 <= m_len m)%nat -> unlimited g -> r <> 0 ->
  get_flux eig g b m (BFloat r) = get_flux eig g (with_bottom b (fun _ => k)) m BNone.
Proof.
  intros eig g b m r k HE HD Hm HG Hr.
  assert (D : discrete_bottom eig (with_bottom b (fun _ => k)) (m_len m) = Ok (repeat k (m_len m))).
  { unfold discrete_bottom. cbn [bm_domain with_bottom bm_bottom]. pose proof (new_mesh_ok (bm_domain b) (m_len m) ltac:(lia) HD) as Em.
    rewrite Em. cbn [bind]. eapply constant_averages; eauto. }
  assert (B : forall d, bathymetry_or (BFloat r) d = Ok (BFloat r)).
  { intro d. unfold bathymetry_or. destruct (Reqb_spec r 0); [contradiction|reflexivity]. }
  assert (F := flat_bathymetry k (m_len m) Hm).
  assert (S : forall gr nf, with_source gr (BArray (repeat k (m_len m))) nf = with_source gr (BFloat r) nf) by (intros; unfold with_source; rewrite F; reflexivity).
  induction g; cbn [unlimited] in HG; try contradiction; cbn [get_flux]; rewrite ?B, ?D; cbn [bind bathymetry_or]; rewrite ?S;
    try (unfold sw_low, sw_central, sw_llf, sw_es, sw_es1; rewrite ?S, ?F; reflexivity).
  rewrite IHg by auto. reflexivity.
Qed.
Print Assumptions C81_given_constant_bottom.
Example C81_given_constant_bottom_ex : exists eig m nf, eig2_works eig /\ ia (bm_domain step_box) < ib (bm_domain step_box) /\
  (1 <= m_len m)%nat /\ unlimited (GAntidiffusion (Some 1) GLLF) /\ 2 <> 0 /\
  get_flux eig (GAntidiffusion (Some 1) GLLF) step_box m (BFloat 2) = Ok nf.
Proof.
  destruct (C43_decomposition_exists 2) as [eig HE]. assert (HE2 : eig2_works eig) by (apply HE; lia).
  assert (HD : ia (bm_domain step_box) < ib (bm_domain step_box)) by (cbn; lra).
  pose proof (new_mesh_ok (bm_domain step_box) 2 ltac:(lia) HD) as Em. set (m := {| m_domain := _; m_cells := _; m_step := _ |}) in Em.
  exists eig, m. eexists. repeat match goal with |- _ /\ _ => split end; auto; try (cbn; lra); try (cbn; lia); try exact I.
  cbn [get_flux]. unfold bathymetry_or. destruct (Reqb_spec 2 0); [lra|]. reflexivity.
Qed.

(** the states on both sides of the three nodes of a still pond of depth one *)
Definition pond_l : list state := [(1, 0); (1, 0); (1, 0)].
Lemma llf_pond_difference nf nf' st : sw_llf (Some 1) (BArray [0; 1]) = Ok nf -> sw_llf (Some 1) st = Ok nf' ->
  build_bathymetry st = Ok ([0], [0]) ->
  nf_call nf [pond_l; pond_l] <> nf_call nf' [pond_l; pond_l].
Proof.
  intros E E' F H. unfold sw_llf, with_source in E, E'. rewrite step_bathymetry in E. rewrite F in E'. cbn [bind] in E, E'.
  apply Ok_inj in E. apply Ok_inj in E'. subst nf nf'. cbn [nf_call snd] in H. unfold wrapped_call in H.
  destruct (nf_call (lax_friedrichs (sw_riemann (Some 1))) [pond_l; pond_l]) as [[fl fr]|e] eqn:C.
  - cbn [bind] in H. rewrite (required_two _ 1) in H by (cbn; lia). cbn [bind nth Nat.sub] in H.
    rewrite (source_flat _ 2 pond_l pond_l eq_refl eq_refl) in H. unfold source_term in H.
    change (broadcast (length pond_l) [0 - 0; 1 - 0; 1 - 1]) with (Ok [0 - 0; 1 - 0; 1 - 1]) in H. cbn [bind] in H.
    pose proof (two_point_call (fun l r => bind (rs_solve (sw_riemann (Some 1)) l r) (fun o => Ok (ro_flux o))) [pond_l; pond_l]) as T.
    rewrite lax_friedrichs_two_point in C. destruct (T fl fr 3%nat) as [vl [vr [_ [_ [_ [L1 [L2 _]]]]]]]; [repeat constructor|exact C|]. apply (f_equal (@List.length _)) in L1. unfold vneg in L1. rewrite map_length, L2 in L1.
    destruct fl as [|fl0 [|fl1 [|fl2 [|? ?]]]]; try (cbn in L1; lia). destruct fr as [|fr0 [|fr1 [|fr2 [|? ?]]]]; try (cbn in L2; lia).
    apply Ok_inj in H. apply (f_equal (fun v => snd (nth 1 (snd v) (0, 0)))) in H. cbn -[Rmult Rplus Rdiv Ropp IZR Rminus py_or] in H. rewrite gravity_one in H.
    unfold average in H. clear - H. cbn [fst snd] in H. lra.
  - assert (WT : exists fl fr, nf_call (lax_friedrichs (sw_riemann (Some 1))) [pond_l; pond_l] = Ok (fl, fr)); [|destruct WT as [? [? WT]]; congruence].
    assert (G : 0 < py_or (Some 1) default_gravity) by (rewrite gravity_one; lra).
    destruct (low_at_total (Some 1) (1, 0) (1, 0) 0 G) as [o [Eo _]]; [cbn; lra|cbn; lra|].
    unfold low_at in Eo. inv_bind Eo. unfold pond_l. cbn [lax_friedrichs nf_call]. unfold rs_solve_all. cbn [combine mapM fst snd]. rewrite E. cbn [bind]. eauto.
Qed.

(** A given bottom of height zero is ignored: the bottom of the benchmark is used. *)
Theorem C81_given_zero_bottom_refuted : exists eig b m nf nf', eig2_works eig /\ ia (bm_domain b) < ib (bm_domain b) /\ m_len m = 2%nat /\
  get_flux eig GLLF b m (BFloat 0) = Ok nf /\ get_flux eig GLLF (with_bottom b (fun _ => 0)) m BNone = Ok nf' /\
  exists still, nf_call nf [still; still] <> nf_call nf' [still; still].
Proof.
  destruct (C43_decomposition_exists 2) as [eig HE]. assert (HE2 : eig2_works eig) by (apply HE; lia).
  assert (HD : ia (bm_domain step_box) < ib (bm_domain step_box)) by (cbn; lra).
  pose proof (new_mesh_ok (bm_domain step_box) 2 ltac:(lia) HD) as Em. set (m := {| m_domain := _; m_cells := _; m_step := _ |}) in Em.
  assert (Lm : m_len m = 2%nat) by reflexivity. pose proof (step_bottom eig HE2) as Eb.
  assert (X : exists nf, sw_llf (Some 1) (BArray [0; 1]) = Ok nf) by (unfold sw_llf, with_source; rewrite step_bathymetry; cbn [bind]; eauto). destruct X as [nf X].
  assert (Y : exists nf, sw_llf (Some 1) (BFloat 1) = Ok nf) by (unfold sw_llf, with_source; cbn [build_bathymetry bind]; eauto). destruct Y as [nf' Y].
  exists eig, step_box, m, nf, nf'. repeat match goal with |- _ /\ _ => split end; auto.
  - cbn [get_flux]. rewrite Lm, Eb. unfold bathymetry_or. destruct (Reqb_spec 0 0); [|lra]. exact X.
  - rewrite <- (C81_given_constant_bottom eig GLLF step_box m 1 0 HE2 HD ltac:(lia) I ltac:(lra)). cbn [get_flux].
    unfold bathymetry_or. destruct (Reqb_spec 1 0); [lra|]. exact Y.
  - exists pond_l. apply (llf_pond_difference nf nf' (BFloat 1) X Y eq_refl).
Qed.
Print Assumptions C81_given_zero_bottom_refuted.

(** A solver with network is not the one over a flat bottom either: its inner scheme keeps
    the bottom of the benchmark. *)
Theorem C81_network_given_bottom_refuted : exists eig net b m nf nf', eig2_works eig /\ ia (bm_domain b) < ib (bm_domain b) /\ m_len m = 2%nat /\
  get_flux eig (GReduced 2 net GLLF) b m (BFloat 1) = Ok nf /\ get_flux eig (GReduced 2 net GLLF) (with_bottom b (fun _ => 0)) m BNone = Ok nf' /\
  exists still, nf_call nf [still; still] <> nf_call nf' [still; still].
Proof.
  destruct (C43_decomposition_exists 2) as [eig HE]. assert (HE2 : eig2_works eig) by (apply HE; lia).
  assert (HD : ia (bm_domain step_box) < ib (bm_domain step_box)) by (cbn; lra).
  pose proof (new_mesh_ok (bm_domain step_box) 2 ltac:(lia) HD) as Em. set (m := {| m_domain := _; m_cells := _; m_step := _ |}) in Em.
  assert (Lm : m_len m = 2%nat) by reflexivity. pose proof (step_bottom eig HE2) as Eb.
  assert (X : exists nf, sw_llf (Some 1) (BArray [0; 1]) = Ok nf) by (unfold sw_llf, with_source; rewrite step_bathymetry; cbn [bind]; eauto). destruct X as [nf X].
  assert (Y : exists nf, sw_llf (Some 1) (BFloat 1) = Ok nf) by (unfold sw_llf, with_source; cbn [build_bathymetry bind]; eauto). destruct Y as [nf' Y].
  set (net := fun _ : list state => ((0, 0) : state)).
  assert (P := llf_pond_difference nf nf' (BFloat 1) X Y eq_refl).
  assert (T1 : forall bt nf, sw_llf (Some 1) bt = Ok nf -> tight True nf). { intros bt n0 E0. apply (tight_base True (Some 1) bt n0). auto. }
  destruct (T1 _ _ X) as [D1 T]. destruct (T1 _ _ Y) as [D2 T']. clear T1.
  assert (F := flat_bathymetry 0 2 ltac:(lia)).
  assert (F2 : get_flux eig GLLF (with_bottom step_box (fun _ => 0)) m BNone = Ok nf').
  { rewrite <- (C81_given_constant_bottom eig GLLF step_box m 1 0 HE2 HD ltac:(lia) I ltac:(lra)). cbn [get_flux].
    unfold bathymetry_or. destruct (Reqb_spec 1 0); [lra|]. exact Y. }
  assert (DB : discrete_bottom eig (with_bottom step_box (fun _ => 0)) 2 = Ok [0; 0]).
  { unfold discrete_bottom. cbn [bm_domain with_bottom bm_bottom]. rewrite Em. cbn [bind]. apply (constant_averages eig _ 2 m _ 0 HE2 ltac:(lia) HD Em). reflexivity. }
  assert (SR : forall bt n0, build_bathymetry bt = Ok ([0], [0]) -> nf_dim n0 = 2%nat -> exists red, with_source (Some 1) bt (corrected n0 (subgrid_flux 2 (row_predict net))) = Ok red /\
    nf_call red [pond_l; pond_l] = bind (nf_call n0 [pond_l; pond_l]) (fun q => let g := repeat (0, 0) 3 in
      Ok (map2 csub (map2 cadd (fst q) (map copp g)) (repeat (0, 0) 3), map2 csub (map2 cadd (snd q) g) (repeat (0, 0) 3)))).
  { intros bt n0 B D. unfold with_source. rewrite B. cbn [bind]. eexists. split; [reflexivity|]. cbn [nf_call snd]. unfold wrapped_call.
    cbn [corrected nf_call arbitrary_input subgrid_flux nf_dim]. rewrite D. rewrite (required_two _ 1) by (cbn; lia). cbn [bind nth Nat.sub].
    rewrite (source_flat _ 2 pond_l pond_l eq_refl eq_refl).
    destruct (nf_call n0 [pond_l; pond_l]) as [[fl fr]|e]; reflexivity. }
  destruct (SR (BFloat 1) nf eq_refl D1) as [red [R1 R2]]. destruct (SR (BArray [0; 0]) nf' F D2) as [red' [R1' R2']].
  exists eig, net, step_box, m, red, red'. repeat match goal with |- _ /\ _ => split end; auto.
  - cbn [get_flux]. unfold bathymetry_or. destruct (Reqb_spec 1 0); [lra|]. cbn [bind]. rewrite Lm, Eb. cbn [bind]. change (bm_gravity step_box) with 1. rewrite X. cbn [bind]. exact R1.
  - change (get_flux eig (GReduced 2 net GLLF) (with_bottom step_box (fun _ => 0)) m BNone) with
      (bind (bathymetry_or BNone (discrete_bottom eig (with_bottom step_box (fun _ => 0)) (m_len m))) (fun bt => bind (get_flux eig GLLF (with_bottom step_box (fun _ => 0)) m BNone) (fun nf =>
      with_source (Some 1) bt (corrected nf (subgrid_flux 2 (row_predict net)))))). rewrite F2, Lm, DB. cbn [bathymetry_or bind]. exact R1'.
  - exists pond_l. rewrite R2, R2'. intro H. apply P.
    destruct (nf_call nf [pond_l; pond_l]) as [[fl fr]|e] eqn:C1; destruct (nf_call nf' [pond_l; pond_l]) as [[fl' fr']|e'] eqn:C2; cbn [bind] in H; try discriminate; [|injection H as ->; reflexivity].
    destruct (T 2%nat pond_l pond_l fl fr ltac:(lia) eq_refl eq_refl C1) as [L1 [L2 _]]. destruct (T' 2%nat pond_l pond_l fl' fr' ltac:(lia) eq_refl eq_refl C2) as [L1' [L2' _]].
    cbn [fst snd] in H. apply Ok_inj in H.
    assert (Z : forall i, (i < 3)%nat -> nth i (repeat ((0, 0) : state) 3) (0, 0) = (0, 0)) by (intros; apply nth_repeat).
    assert (Z' : forall i, (i < 3)%nat -> nth i (map copp (repeat ((0, 0) : state) 3)) (0, 0) = (0, 0)).
    { intros i Hi. rewrite (nth_map' copp _ _ (0, 0)) by (rewrite repeat_length; auto). rewrite Z by auto. unfold copp. cbn [cscal RR_CellOps fst snd]. f_equal; ring. }
    rewrite (cadd_zero 3 fl), (cadd_zero 3 fl'), (cadd_zero 3 fr), (cadd_zero 3 fr') in H by auto. rewrite !csub_zero in H by auto. congruence.
Qed.
Print Assumptions C81_network_given_bottom_refuted.

(** ** Antidiffusion *)
Lemma boundary_names b r bc : boundary b r = Ok bc -> exists nl nr, side_names (bm_conditions b) nl nr.
Proof.
  intro E. unfold boundary, get_boundary_conditions in E. destruct (bm_conditions b) as [|c1 [|c2 cs]]; cbn [side_names]; eauto. discriminate E.
Qed.

(** A solver with antidiffusion [gamma <> 0] is the solver of its scheme whose right hand
    side is reduced by gamma times the second difference quotient of the cells, continued by
    the boundary conditions; it starts with the same values. *)
Theorem C81_antidiffusion : forall eig gamma raw b a c w nl nr cl cr, network_free raw -> gamma <> 0 ->
  sw_solver eig (GAntidiffusion (Some gamma) raw) b a = Ok (c, w) ->
  side_names (bm_conditions b) nl nr ->
  names_cond (Some reflect) nl (Some (bm_inflow_left b)) cl -> names_cond (Some reflect) nr (Some (bm_inflow_right b)) cr ->
  exists c0 w0, sw_solver eig raw b a = Ok (c0, w0) /\ solution_of w = solution_of w0 /\
  forall t u v0 e, (1 <= length u)%nat -> c_rhs c0 t u = Ok v0 ->
    (forall j, (-1 <= j <= Z.of_nat (length u))%Z -> extension_value (0, 0) u (Some t) cl cr j (e j)) ->
    exists v, c_rhs c t u = Ok v /\ length v = length u /\
    let dx := (ib (bm_domain b) - ia (bm_domain b)) / INR (length (o_sol (solution_of w))) in
    forall i, (i < length u)%nat -> nth i v (0, 0) = minus (nth i v0 (0, 0)) (times (gamma / dx ^ 2) (second_difference e (Z.of_nat i))).
Proof.
  intros eig gamma raw b a c w nl nr cl cr NF Hg E HS Nl Nr.
  destruct (sw_solver_inv _ _ _ _ _ _ E) as [m [u0 [nf [bc [E1 [E2 [E3 [E4 E5]]]]]]]].
  cbn [get_flux] in E2. inv_bind E2. apply Ok_inj in E2. subst nf.
  destruct (get_flux_tight eig raw b m _ _ NF E0) as [D T].
  cbn [corrected nf_dim linear_antidiffusive] in E3. rewrite D in E3. change (Nat.max 2 2 / 2)%nat with 1%nat in E3.
  destruct (fv_solution_inv _ _ _ _ _ E1) as [Em [_ [Lm [Lu Hn]]]]. destruct (new_mesh_length _ _ _ Em) as [_ [_ Sm]].
  set (c0 := sw_config b a m u0 (fv_rhs a0 (m_step m) bc)). exists c0, (new_solver c0 (fun _ => u0) 1 0 (bm_start b)).
  assert (SW : o_sol (solution_of w) = u0). { subst w. unfold solution_of, new_solver. cbn [w_mem w_sol o_sol]. rewrite store_other by lia. reflexivity. }
  repeat match goal with |- _ /\ _ => split end.
  - unfold sw_solver. rewrite E1. cbn [bind]. rewrite E0. cbn [bind]. rewrite D. change (2 / 2)%nat with 1%nat. rewrite E3. reflexivity.
  - subst w. unfold solution_of, new_solver. cbn [w_mem w_sol w_sol_time]. rewrite !store_other by lia. reflexivity.
  - intros t u v0 e Hu Ev He. rewrite SW, Lu. unfold c0 in Ev. cbn [c_rhs sw_config] in Ev.
    destruct (fv_rhs_inv _ _ _ _ _ _ Ev) as [ar [fl [fr [A1 [A2 A3]]]]]. rewrite D in A1. change (2 / 2)%nat with 1%nat in A1.
    destruct (node_neighbours_spec (0, 0) _ _ _ _ _ bc u (Some t) nl nr cl cr 1 HS Nl Nr E3 ltac:(lia) Hu ltac:(discriminate)) as [ar' [A1' [La Va]]].
    rewrite A1 in A1'. apply Ok_inj in A1'. subst ar'. destruct ar as [|vl [|vr [|? ?]]]; try (cbn in La; lia).
    destruct (Va 0%nat ltac:(lia)) as [Ll Vl]. destruct (Va 1%nat ltac:(lia)) as [Lr Vr]. cbn [nth] in Ll, Vl, Lr, Vr.
    replace (length u + 2 * (1 - 1) + 1)%nat with (S (length u)) in Ll, Vl, Lr, Vr by lia.
    assert (UQ : forall j x y, extension_value (0, 0) u (Some t) cl cr j x -> extension_value (0, 0) u (Some t) cl cr j y -> x = y).
    { intros j x y. unfold extension_value. assert (O : forall cc, outside_value (0, 0) u (Some t) cc j x -> outside_value (0, 0) u (Some t) cc j y -> x = y).
      { intros [| |h|h]; cbn; try congruence. intros [t1 [Q1 ->]] [t2 [Q2 ->]]. congruence. }
      destruct (j <? 0)%Z; [apply O|]. destruct (j <? Z.of_nat (length u))%Z; [congruence|apply O]. }
    assert (Xl : forall i, (i < S (length u))%nat -> nth i vl (0, 0) = e (Z.of_nat i - 1)%Z).
    { intros i Hi. apply (UQ (Z.of_nat i - 1)%Z); [|apply He; lia]. replace (Z.of_nat i - 1)%Z with (Z.of_nat i - Z.of_nat 1 + Z.of_nat 0)%Z by lia. apply Vl; auto. }
    assert (Xr : forall i, (i < S (length u))%nat -> nth i vr (0, 0) = e (Z.of_nat i)).
    { intros i Hi. apply (UQ (Z.of_nat i)); [|apply He; lia]. replace (Z.of_nat i) with (Z.of_nat i - Z.of_nat 1 + Z.of_nat 1)%Z at 1 by lia. apply Vr; auto. }
    destruct (T (length u) vl vr fl fr Hu Ll Lr A2) as [L1 [L2 _]].
    destruct (cells_from_nodes_spec _ _ _ _ _ A3 L1 L2) as [Hd [Lv Vv]].
    assert (G : py_or (Some gamma) default_antidiffusion = gamma) by (cbn; destruct (Reqb_spec gamma 0); [contradiction|reflexivity]).
    set (k := fun p : state * state => cscal (1 / m_step m) (cscal gamma (cadd (snd p) (copp (fst p))))).
    assert (Ef : nf_call (linear_antidiffusive gamma (m_step m) : nflux state) [vl; vr] = Ok (vneg (map k (combine vl vr)), map k (combine vl vr))).
    { cbn [linear_antidiffusive nf_call]. rewrite rdiv_ne by auto. 
      assert (MM : mapM (fun p : state * state => bind (Ok (1 / m_step m)) (fun f => Ok (cscal f (cscal gamma (cadd (snd p) (copp (fst p))))))) (combine vl vr) = Ok (map k (combine vl vr))).
      { generalize (combine vl vr). induction l as [|x l IH]; [reflexivity|]. cbn [mapM map bind] in *. rewrite IH. reflexivity. }
      rewrite MM. reflexivity. }
    set (F := map k (combine vl vr)) in *. assert (LF : length F = S (length u)) by (unfold F; rewrite map_length, combine_length; lia).
    assert (VF : forall i, (i < S (length u))%nat -> nth i F (0, 0) = k (e (Z.of_nat i - 1)%Z, e (Z.of_nat i))).
    { intros i Hi. unfold F. rewrite (nth_map' k _ _ ((0,0),(0,0))) by (rewrite combine_length; lia). rewrite combine_nth by lia. rewrite Xl, Xr by auto. reflexivity. }
    assert (EC : exists v, c_rhs c t u = Ok v /\ cells_from_nodes (m_step m) (map2 cadd fl (vneg F)) (map2 cadd fr F) = Ok v).
    { unfold cells_from_nodes. rewrite rdiv_ne by auto. cbn [bind]. eexists. split; [|reflexivity].
      subst c. cbn [c_rhs sw_config]. unfold fv_rhs. cbn [corrected nf_dim linear_antidiffusive]. rewrite D. change (Nat.max 2 2 / 2)%nat with 1%nat. rewrite A1. cbn [bind].
      cbn [nf_call corrected arbitrary_input]. rewrite D, G. change (nf_dim (linear_antidiffusive gamma (m_step m))) with 2%nat. rewrite (required_two _ 1) by (cbn; lia). cbn [bind nth Nat.sub].
      rewrite A2, Ef. cbn [bind fst snd]. unfold cells_from_nodes. rewrite rdiv_ne by auto. reflexivity. }
    destruct EC as [v [Ec1 Ec2]]. exists v. split; auto.
    assert (M1 : length (map2 cadd fl (vneg F)) = S (length u)) by (unfold vneg; rewrite map2_length, map_length; lia).
    assert (M2 : length (map2 cadd fr F) = S (length u)) by (rewrite map2_length; lia).
    destruct (cells_from_nodes_spec _ _ _ _ _ Ec2 M1 M2) as [_ [Lv' Vv']]. split; auto.
    cbv zeta. rewrite <- Sm. intros i Hi. pose proof (Vv' i Hi) as Y1. pose proof (Vv i Hi) as Y2. change (czero : state) with ((0, 0) : state) in Y1, Y2. rewrite Y1, Y2.
    rewrite (nth_map2 cadd _ _ i (0,0) (0,0)) by lia. rewrite (nth_map2 cadd _ _ (S i) (0,0) (0,0)) by (unfold vneg; rewrite ?map_length; lia).
    unfold vneg. rewrite (nth_map' copp _ _ (0, 0)) by lia. rewrite !VF by lia. unfold k. cbn [fst snd].
    replace (Z.of_nat (S i) - 1)%Z with (Z.of_nat i) by lia. replace (Z.of_nat (S i)) with (Z.of_nat i + 1)%Z by lia.
    unfold second_difference, minus, times, copp. cbn [cadd cscal RR_CellOps fst snd]. f_equal; field; auto.
Qed.
Print Assumptions C81_antidiffusion.
Example C81_antidiffusion_ex : exists eig c w, eig2_works eig /\ network_free (GMCL GCentral) /\ 2 <> 0 /\
  sw_solver eig (GAntidiffusion (Some 2) (GMCL GCentral)) (one_box 1) one_cell = Ok (c, w) /\
  side_names (bm_conditions (one_box 1)) "wall" "wall" /\
  names_cond (Some reflect) "wall" (Some (bm_inflow_left (one_box 1))) (Wall reflect) /\
  names_cond (Some reflect) "wall" (Some (bm_inflow_right (one_box 1))) (Wall reflect).
Proof.
  destruct (C43_decomposition_exists 2) as [eig HE]. assert (HE2 : eig2_works eig) by (apply HE; lia).
  assert (HD : ia (bm_domain (one_box 1)) < ib (bm_domain (one_box 1))) by (cbn; lra).
  assert (S : side_names (bm_conditions (one_box 1)) "wall" "wall") by (cbn; auto).
  destruct (C64_solvers_can_be_built eig (GAntidiffusion (Some 2) (GMCL GCentral)) (one_box 1) one_cell _ _ HE2 HD S) as [c [w [E _]]]; [cbn; tauto|cbn; tauto|].
  exists eig, c, w. cbn [names_cond network_free]. repeat match goal with |- _ /\ _ => split end; auto; lra.
Qed.

(** Options that are not given are the defaults. *)
Theorem C81_defaults : forall eig g b cfl n T h d,
  sw_solver eig g b {| a_mesh_size := n; a_cfl := None; a_ode := T; a_history := h |} =
    sw_solver eig g b {| a_mesh_size := n; a_cfl := Some (1 / 10); a_ode := T; a_history := h |} /\
  sw_solver eig g b {| a_mesh_size := None; a_cfl := cfl; a_ode := T; a_history := h |} =
    sw_solver eig g b {| a_mesh_size := Some (4 * 100)%nat; a_cfl := cfl; a_ode := T; a_history := h |} /\
  sw_solver eig g b {| a_mesh_size := n; a_cfl := cfl; a_ode := None; a_history := h |} =
    sw_solver eig g b {| a_mesh_size := n; a_cfl := cfl; a_ode := Some heun; a_history := h |} /\
  sw_solver eig (GAntidiffusion None g) b d = sw_solver eig (GAntidiffusion (Some (1 / 10)) g) b d.
Proof.
  intros. repeat match goal with |- _ /\ _ => split end.
  - unfold sw_solver, sw_config. cbn [a_mesh_size a_cfl a_ode a_history py_or]. unfold default_cfl. destruct (Reqb_spec (1 / 10) 0); [lra|]. reflexivity.
  - unfold sw_solver, sw_config. cbn [a_mesh_size a_cfl a_ode a_history]. unfold fv_solution, or_default, default_mesh_size.
    change (20 * 20)%nat with (4 * 100)%nat. destruct (4 * 100)%nat eqn:Q; [lia|reflexivity].
  - reflexivity.
  - unfold sw_solver. cbn [get_flux]. replace (py_or (Some (1 / 10)) default_antidiffusion) with (py_or None default_antidiffusion); [reflexivity|].
    cbn [py_or]. unfold default_antidiffusion. destruct (Reqb_spec (1 / 10) 0); [lra|]. reflexivity.
Qed.
Print Assumptions C81_defaults.

(** An option given as zero is replaced by the default as well: no antidiffusion cannot be
    asked for, and neither a mesh without cells nor a CFL number of zero are refused. *)
Theorem C81_zero_options_refuted : forall eig g b cfl n T h d,
  sw_solver eig g b {| a_mesh_size := n; a_cfl := Some 0; a_ode := T; a_history := h |} =
    sw_solver eig g b {| a_mesh_size := n; a_cfl := Some (1 / 10); a_ode := T; a_history := h |} /\
  sw_solver eig g b {| a_mesh_size := Some 0%nat; a_cfl := cfl; a_ode := T; a_history := h |} =
    sw_solver eig g b {| a_mesh_size := Some (4 * 100)%nat; a_cfl := cfl; a_ode := T; a_history := h |} /\
  sw_solver eig (GAntidiffusion (Some 0) g) b d = sw_solver eig (GAntidiffusion (Some (1 / 10)) g) b d.
Proof.
  intros. destruct (C81_defaults eig g b cfl n T h d) as [D1 [D2 [_ D4]]]. rewrite <- D1, <- D2, <- D4. repeat match goal with |- _ /\ _ => split end.
  - unfold sw_solver, sw_config. cbn [a_mesh_size a_cfl a_ode a_history py_or]. destruct (Reqb_spec 0 0); [|lra]. reflexivity.
  - reflexivity.
  - unfold sw_solver. cbn [get_flux]. replace (py_or (Some 0) default_antidiffusion) with (py_or None default_antidiffusion); [reflexivity|].
    cbn [py_or]. destruct (Reqb_spec 0 0); [|lra]. reflexivity.
Qed.
Print Assumptions C81_zero_options_refuted.

(** ** The Lax-Wendroff solver *)

Lemma two_neighbours b bc u t nl nr cl cr e : side_names (bm_conditions b) nl nr ->
  names_cond (Some reflect) nl (Some (bm_inflow_left b)) cl -> names_cond (Some reflect) nr (Some (bm_inflow_right b)) cr ->
  boundary b 1 = Ok bc -> (1 <= length u)%nat ->
  (forall j, (-1 <= j <= Z.of_nat (length u))%Z -> extension_value (0, 0) u (Some t) cl cr j (e j)) ->
  exists vl vr, get_node_neighbours bc u 1 (Some t) = Ok [vl; vr] /\ length vl = S (length u) /\ length vr = S (length u) /\
  forall i, (i < S (length u))%nat -> nth i vl (0, 0) = e (Z.of_nat i - 1)%Z /\ nth i vr (0, 0) = e (Z.of_nat i).
Proof.
  intros HS Nl Nr E3 Hu He.
  destruct (node_neighbours_spec (0, 0) _ _ _ _ _ bc u (Some t) nl nr cl cr 1 HS Nl Nr E3 ltac:(lia) Hu ltac:(discriminate)) as [ar [A1 [La Va]]].
  destruct ar as [|vl [|vr [|? ?]]]; try (cbn in La; lia).
  destruct (Va 0%nat ltac:(lia)) as [Ll Vl]. destruct (Va 1%nat ltac:(lia)) as [Lr Vr]. cbn [nth] in Ll, Vl, Lr, Vr.
  replace (length u + 2 * (1 - 1) + 1)%nat with (S (length u)) in Ll, Vl, Lr, Vr by lia.
  assert (UQ : forall j x y, extension_value (0, 0) u (Some t) cl cr j x -> extension_value (0, 0) u (Some t) cl cr j y -> x = y).
  { intros j x y. unfold extension_value. assert (O : forall cc, outside_value (0, 0) u (Some t) cc j x -> outside_value (0, 0) u (Some t) cc j y -> x = y).
    { intros [| |h|h]; cbn; try congruence. intros [t1 [Q1 ->]] [t2 [Q2 ->]]. congruence. }
    destruct (j <? 0)%Z; [apply O|]. destruct (j <? Z.of_nat (length u))%Z; [congruence|apply O]. }
  exists vl, vr. repeat match goal with |- _ /\ _ => split end; auto. intros i Hi. split.
  - apply (UQ (Z.of_nat i - 1)%Z); [|apply He; lia]. replace (Z.of_nat i - 1)%Z with (Z.of_nat i - Z.of_nat 1 + Z.of_nat 0)%Z by lia. apply Vl; auto.
  - apply (UQ (Z.of_nat i)); [|apply He; lia]. replace (Z.of_nat i) with (Z.of_nat i - Z.of_nat 1 + Z.of_nat 1)%Z at 1 by lia. apply Vr; auto.
Qed.

(** Every step of length dt moves the solution by dt times the differences of the fluxes of
    this step length, if all cells are wet. *)
Theorem C81_lax_wendroff_step : forall eig finite b a c w0 nl nr cl cr w s n dt s1 u e,
  lw_solver eig b a = Ok (c, w0) -> 0 < bm_gravity b -> ia (bm_domain b) < ib (bm_domain b) ->
  side_names (bm_conditions b) nl nr ->
  names_cond (Some reflect) nl (Some (bm_inflow_left b)) cl -> names_cond (Some reflect) nr (Some (bm_inflow_right b)) cr ->
  (* the solver is about to make a step of length dt from the values u *)
  w_mem w (w_ode w) = u -> (1 <= length u)%nat ->
  ts_next (bm_end b) (call_generator (c_gen (c 0)) (w_sol_time w, w_mem w (w_sol w))) s = Yield dt s1 ->
  (forall j, (-1 <= j <= Z.of_nat (length u))%Z -> extension_value (0, 0) u (Some (w_ode_time w)) cl cr j (e j) /\ epsilon <= fst (e j)) ->
  let dx := (ib (bm_domain b) - ia (bm_domain b)) / INR (length (o_sol (solution_of w0))) in
  exists v, length v = length u /\
    (forall i, (i < length u)%nat -> nth i v (0, 0) =
       minus (e (Z.of_nat i)) (times (dt / dx) (minus (lax_wendroff_face (bm_gravity b) dt dx e (Z.of_nat i + 1)) (lax_wendroff_face (bm_gravity b) dt dx e (Z.of_nat i))))) /\
    (finite v = true -> exists w1, w_mem w1 (w_sol w1) = v /\ w_mem w1 (w_ode w1) = v /\ w_sol_time w1 = w_sol_time w + dt /\ w_ode_time w1 = w_ode_time w + dt /\
       lw_loop finite c (S n) w s = lw_loop finite c n w1 s1) /\
    (finite v = false -> snd (lw_loop finite c (S n) w s) = RaisedExn ValueError).
Proof.
  intros eig finite b a c w0 nl nr cl cr w s n dt s1 u e E Hg HD HS Nl Nr Hw Hu Ht He dx.
  unfold lw_solver in E. inv_bind E. destruct a0 as [m u0]. inv_bind E. apply Ok_inj in E. injection E as Ec Ew.
  destruct (fv_solution_inv _ _ _ _ _ E0) as [Em [_ [Lm [Lu Hn]]]]. destruct (new_mesh_length _ _ _ Em) as [_ [_ Sm]].
  assert (SW : o_sol (solution_of w0) = u0). { rewrite <- Ew. unfold solution_of, new_solver. cbn [w_mem w_sol o_sol]. rewrite store_other by lia. reflexivity. }
  unfold dx in *. rewrite SW, Lu, <- Sm. clear dx. clear SW Ew.
  assert (Hdx : 0 < m_step m). { rewrite Sm. apply Rdiv_lt_0_compat; [lra|]. apply lt_0_INR. lia. }
  destruct (two_neighbours b a0 u (w_ode_time w) nl nr cl cr e HS Nl Nr E1 Hu (fun j Hj => proj1 (He j Hj))) as [vl [vr [N [Ll [Lr X]]]]].
  destruct (C80_lax_wendroff_viscosity (bm_gravity b) dt (m_step m) vl vr Hg ltac:(lra) ltac:(lia)) as [fl [fr [C [L1 [L2 V]]]]].
  { intros x Hx. assert (K : exists i, (i < S (length u))%nat /\ (x = nth i vl (0, 0) \/ x = nth i vr (0, 0))).
    { destruct Hx as [Hx|Hx]; apply (In_nth _ _ (0, 0)) in Hx as [i [Hi <-]]; exists i; split; auto; lia. }
    destruct K as [i [Hi [-> | ->]]]; destruct (X i Hi) as [X1 X2]; rewrite ?X1, ?X2; apply He; lia. }
  rewrite Ll in L1, L2, V.
  assert (EC : exists r, cells_from_nodes (m_step m) fl fr = Ok r). { unfold cells_from_nodes. rewrite rdiv_ne by lra. cbn [bind]. eauto. }
  destruct EC as [r EC]. destruct (cells_from_nodes_spec _ _ _ _ _ EC L1 L2) as [_ [Lr' Vr]].
  assert (RHS : c_rhs (c dt) (w_ode_time w + 0 * dt) u = Ok r).
  { subst c. cbn [c_rhs sw_config]. unfold fv_rhs. change (nf_dim (lw_flux (Some (bm_gravity b)) dt (m_step m)) / 2)%nat with 1%nat.
    replace (w_ode_time w + 0 * dt) with (w_ode_time w) by ring. rewrite N. cbn [bind]. rewrite C. exact EC. }
  pose proof (euler_one (c_rhs (c dt)) (w_ode_time w) u dt r RHS) as EO.
  set (v := vadd u (vscal dt (vscal 1 r))) in *. exists v.
  assert (Lv : length v = length u). { unfold v. cbn [vadd vscal list_VecOps]. rewrite map2_length, !map_length. lia. }
  assert (CE : c_end (c 0) = bm_end b) by (subst c; reflexivity).
  assert (CT : c_tab (c dt) = euler) by (subst c; reflexivity). assert (CC : c_check (c dt) = None) by (subst c; reflexivity).
  assert (U : exists w1, solver_update finite (c dt) dt w = (w1, if finite v then None else Some ValueError) /\
    (finite v = true -> w_mem w1 (w_sol w1) = v /\ w_mem w1 (w_ode w1) = v /\ w_sol_time w1 = w_sol_time w + dt /\ w_ode_time w1 = w_ode_time w + dt)).
  { unfold solver_update. pose proof (ode_execute_spec (c dt) dt w) as Y. rewrite CT, Hw in Y. 
    destruct (ode_execute (c dt) dt w) as [[[w1 nodes] stages]|ex]; [|congruence].
    destruct Y as [y [Y1 [Y2 ->]]]. rewrite EO in Y1. apply Ok_inj in Y1. subst y. unfold M_Solver.check_cfl. rewrite CC.
    unfold sol_update. cbn [warn w_mem w_next w_ode w_ode_time w_sol w_sol_time w_times w_values w_warnings o_sol]. rewrite store_same.
    destruct (finite v); eexists; (split; [reflexivity|]); [|discriminate]. intros _. cbn [w_mem w_sol w_ode w_sol_time w_ode_time]. rewrite store_same. auto. }
  destruct U as [w1 [U1 U2]]. split; auto. split.
  2:{ cbn [lw_loop]. rewrite CE, Ht, U1. split; intro F; rewrite F in *; [|reflexivity]. destruct (U2 eq_refl) as [Z1 [Z2 [Z3 Z4]]]. exists w1. auto. }
  intros i Hi. assert (Vi : nth i v (0, 0) = cadd (nth i u (0, 0)) (cscal dt (cscal 1 (nth i r (0, 0))))).
  { unfold v. cbn [vadd vscal list_VecOps]. rewrite (nth_map2 cadd _ _ i (0,0) (0,0)) by (rewrite ?map_length; lia).
    rewrite (nth_map' _ _ _ (0,0)) by (rewrite map_length; lia). rewrite (nth_map' _ _ _ (0,0)) by lia. reflexivity. }
  rewrite Vi. pose proof (Vr i Hi) as Y. change (czero : state) with ((0, 0) : state) in Y. rewrite Y.
  destruct (V i ltac:(lia)) as [V1 _]. destruct (V (S i) ltac:(lia)) as [V2 V3]. rewrite V3, V2, V1.
  destruct (X i ltac:(lia)) as [X1 X2]. destruct (X (S i) ltac:(lia)) as [X3 X4]. rewrite X1, X2, X3, X4.
  assert (Ei : e (Z.of_nat i) = nth i u (0, 0)).
  { destruct (He (Z.of_nat i) ltac:(lia)) as [Q _]. unfold extension_value in Q. destruct (Z.ltb_spec (Z.of_nat i) 0); [lia|].
    destruct (Z.ltb_spec (Z.of_nat i) (Z.of_nat (length u))); [|lia]. rewrite Nat2Z.id in Q. exact Q. }
  rewrite <- Ei. unfold lax_wendroff_face. replace (Z.of_nat (S i) - 1)%Z with (Z.of_nat i) by lia. replace (Z.of_nat i + 1 - 1)%Z with (Z.of_nat i) by lia.
  replace (Z.of_nat (S i)) with (Z.of_nat i + 1)%Z by lia.
  generalize (mean (phys_flux (bm_gravity b) (e (Z.of_nat i - 1)%Z)) (phys_flux (bm_gravity b) (e (Z.of_nat i)))) as q1.
  generalize (mean (phys_flux (bm_gravity b) (e (Z.of_nat i))) (phys_flux (bm_gravity b) (e (Z.of_nat i + 1)%Z))) as q2.
  generalize (speed (bm_gravity b) (e (Z.of_nat i - 1)%Z) (e (Z.of_nat i))) as z1. generalize (speed (bm_gravity b) (e (Z.of_nat i)) (e (Z.of_nat i + 1)%Z)) as z2.
  intros. unfold minus, times. cbn [cadd cscal RR_CellOps fst snd]. f_equal; field; lra.
Qed.
Print Assumptions C81_lax_wendroff_step.
Example C81_lax_wendroff_step_ex : exists eig c w e s1, eig2_works eig /\ lw_solver eig (one_box 1) one_cell = Ok (c, w) /\ 0 < bm_gravity (one_box 1) /\
  side_names (bm_conditions (one_box 1)) "wall" "wall" /\
  names_cond (Some reflect) "wall" (Some (bm_inflow_left (one_box 1))) (Wall reflect) /\
  w_mem w (w_ode w) = [(1, 1)] /\
  ts_next (bm_end (one_box 1)) (call_generator (c_gen (c 0)) (w_sol_time w, w_mem w (w_sol w))) (ts_iter (bm_start (one_box 1))) = Yield (1 / 10) s1 /\
  forall j, (-1 <= j <= Z.of_nat 1)%Z -> extension_value (0, 0) [(1, 1)] (Some (w_ode_time w)) (Wall reflect) (Wall reflect) j (e j) /\ epsilon <= fst (e j).
Proof.
  destruct (C43_decomposition_exists 2) as [eig HE]. assert (HE2 : eig2_works eig) by (apply HE; lia).
  destruct (one_box_solution eig 1 HE2) as [m [_ [Sm [Es _]]]]. exists eig.
  unfold lw_solver. cbn [a_mesh_size one_cell]. rewrite Es. cbn [bind]. change (boundary (one_box 1) 1) with
    (Ok {| bc_left := [LeftReflecting reflect]; bc_right := [RightReflecting reflect]; bc_periodic := false |}). cbn [bind].
  eexists. eexists. exists (fun j => if ((j =? 0)%Z) then (1, 1) else (1, -1)). exists {| ts_time := 0 + 1 / 10; ts_count := 1; ts_stop := false |}.
  repeat match goal with |- _ /\ _ => split end; auto; try reflexivity; try (cbn; lra); try (cbn; auto; fail).
  - unfold call_generator. cbn [c_gen sw_config mesh_dependent_generator new_generator gen_adaptive gen_frozen gen_cfl a_cfl one_cell py_or].
    cbv beta zeta. rewrite Sm. unfold default_cfl, ts_next, ts_iter. cbn [ts_stop ts_time ts_count bm_start bm_end one_box]. replace (1 - 0) with 1 by ring. replace (1 * (1 / 10)) with (1 / 10) by ring. rewrite Rmin_left by lra.
    destruct (Rltb_spec (1 / 10) tol) as [Y|Y]; [unfold tol in Y; lra|]. destruct (Rltb_spec (1 - (0 + 1 / 10)) tol) as [Y'|Y']; [unfold tol in Y'; lra|]. reflexivity.
  - intros j Hj. pose proof epsilon_lt. assert (J : j = (-1)%Z \/ j = 0%Z \/ j = 1%Z) by lia. destruct J as [J|[J|J]]; subst j; cbn -[epsilon]; (split; [|lra]); unfold reflect; cbn; f_equal; lra.
Qed.

(** The Lax-Wendroff solver does not see the bottom: it is the same for every bottom. *)
Theorem C81_lax_wendroff_bottom_refuted : forall eig b f a, lw_solver eig (with_bottom b f) a = lw_solver eig b a.
Proof. reflexivity. Qed.
Print Assumptions C81_lax_wendroff_bottom_refuted.
