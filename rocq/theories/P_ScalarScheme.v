(** C81: the schemes of the finite volume solvers of scalar problems, cell by cell *)
From Coq Require Import Reals List ZArith Arith Lia Lra Bool String.
From Verif Require Import Prelude L_Prelude M_Mesh L_Mesh M_Quadrature M_Interpolate M_Boundary S_Boundary L_Boundary M_Flux S_Flux L_Flux
  M_ODE M_TimeStepping M_Solution M_Solver S_Solver M_Generate M_Scalar S_Scalar L_Scalar L_Solver L_SWLow M_ShallowWater M_FVSolver S_FVSolver L_FVSolver
  M_FE M_Benchmark M_ScalarSolver S_ScalarSolver P_ScalarSolver P_FVWater P_Gauss.
Import ListNotations.
Local Open Scope nat_scope.
Open Scope R_scope.
Notation length := List.length.

(** the flux functions u and u^2 / 2, their derivatives, the central and the Lax-Friedrichs flux between two cells *)
Definition physical (p : M_Scalar.problem) (u : R) : R := match p with M_Scalar.Advection => u | M_Scalar.Burgers => u ^ 2 / 2 end.
Definition derivative (p : M_Scalar.problem) (u : R) : R := match p with M_Scalar.Advection => 1 | M_Scalar.Burgers => u end.
Definition central_face (p : M_Scalar.problem) (l r : R) : R := (physical p l + physical p r) / 2.
Definition llf_face (p : M_Scalar.problem) (l r : R) : R := central_face p l r - Rmax (derivative p l) (derivative p r) / 2 * (r - l).

Lemma scalar_neighbours b bc u t nl nr cl cr e : side_names (sb_conditions b) nl nr ->
  names_cond None nl (Some (sb_inflow_left b)) cl -> names_cond None nr (Some (sb_inflow_right b)) cr ->
  scalar_boundary b 1 = Ok bc -> (1 <= length u)%nat ->
  (forall j, (-1 <= j <= Z.of_nat (length u))%Z -> extension_value 0 u (Some t) cl cr j (e j)) ->
  let E := tab (S (S (length u))) (fun i => e (Z.of_nat i - 1)%Z) in
  get_node_neighbours bc u 1 (Some t) = Ok [tab (S (length u)) (fun i => nth i E 0); tab (S (length u)) (fun i => nth (S i) E 0)].
Proof.
  intros HS Nl Nr E3 Hu He E.
  destruct (node_neighbours_spec 0 _ _ _ _ _ bc u (Some t) nl nr cl cr 1 HS Nl Nr E3 ltac:(lia) Hu ltac:(discriminate)) as [ar [A1 [La Va]]].
  destruct ar as [|vl [|vr [|? ?]]]; try (cbn in La; lia).
  destruct (Va 0%nat ltac:(lia)) as [Ll Vl]. destruct (Va 1%nat ltac:(lia)) as [Lr Vr]. cbn [nth] in Ll, Vl, Lr, Vr.
  replace (length u + 2 * (1 - 1) + 1)%nat with (S (length u)) in Ll, Vl, Lr, Vr by lia.
  assert (UQ : forall j x y, extension_value 0 u (Some t) cl cr j x -> extension_value 0 u (Some t) cl cr j y -> x = y).
  { intros j x y. unfold extension_value. assert (O : forall cc, outside_value 0 u (Some t) cc j x -> outside_value 0 u (Some t) cc j y -> x = y).
    { intros [| |h|h]; cbn; try congruence. intros [t1 [Q1 ->]] [t2 [Q2 ->]]. congruence. }
    destruct (j <? 0)%Z; [apply O|]. destruct (j <? Z.of_nat (length u))%Z; [congruence|apply O]. }
  rewrite A1. rewrite (list_tab 0 vl), (list_tab 0 vr), Ll, Lr. do 2 f_equal; [|f_equal]; apply tab_ext; intros i Hi; unfold E; rewrite nth_tab by lia.
  - apply (UQ (Z.of_nat i - 1)%Z); [|apply He; lia]. replace (Z.of_nat i - 1)%Z with (Z.of_nat i - Z.of_nat 1 + Z.of_nat 0)%Z by lia. apply Vl; auto.
  - replace (Z.of_nat (S i) - 1)%Z with (Z.of_nat i) by lia. apply (UQ (Z.of_nat i)); [|apply He; lia].
    replace (Z.of_nat i) with (Z.of_nat i - Z.of_nat 1 + Z.of_nat 1)%Z at 1 by lia. apply Vr; auto.
Qed.

(** The rate of change of each cell is the difference of the fluxes at its two sides divided by its size: the central
    fluxes for the key central, the local Lax-Friedrichs fluxes for the key llf (if no speed is zero). *)
Theorem C81_scalar_schemes : forall eig g b a c w p nl nr cl cr t u e, scalar_solver eig g b a = Ok (c, w) ->
  sb_problem b = names_problem p -> ia (sb_domain b) < ib (sb_domain b) -> side_names (sb_conditions b) nl nr ->
  names_cond None nl (Some (sb_inflow_left b)) cl -> names_cond None nr (Some (sb_inflow_right b)) cr -> (1 <= length u)%nat ->
  (forall j, (-1 <= j <= Z.of_nat (length u))%Z -> extension_value 0 u (Some t) cl cr j (e j)) ->
  let dx := (ib (sb_domain b) - ia (sb_domain b)) / INR (length (o_sol (solution_of w))) in
  let rate face := tab (length u) (fun i => let j := Z.of_nat i in (face (e (j - 1)%Z) (e j) - face (e j) (e (j + 1)%Z)) / dx) in
  (g = SCentral -> c_rhs c t u = Ok (rate (central_face p))) /\
  (g = SLLF -> (forall j, (-1 <= j < Z.of_nat (length u))%Z -> Rmax (derivative p (e j)) (derivative p (e (j + 1)%Z)) <> 0) ->
     c_rhs c t u = Ok (rate (llf_face p))).
Proof.
  intros eig g b a c w p nl nr cl cr t u e E Hp HD HS Nl Nr Hu He dx rate.
  destruct (scalar_solver_inv eig g b a c w E) as [m [u0 [nf [bc [Em [Eu [Lm [Lu [Hn [Sm [Ef [Eb [Ec Ew]]]]]]]]]]]]].
  assert (SW : o_sol (solution_of w) = u0). { rewrite Ew. unfold solution_of, new_solver. cbn [w_mem w_sol o_sol]. rewrite store_other by lia. reflexivity. }
  assert (Dx : dx = m_step m) by (unfold dx; rewrite SW, Lu, Sm; reflexivity).
  assert (Hdx : dx <> 0). { rewrite Dx, Sm. apply Rgt_not_eq. apply Rdiv_lt_0_compat; [lra|]. apply lt_0_INR. lia. }
  pose proof (scalar_dim _ _ _ _ Ef) as Dn. rewrite Dn in Eb. change (2 / 2)%nat with 1%nat in Eb.
  pose proof (scalar_neighbours b bc u t nl nr cl cr e HS Nl Nr Eb Hu He) as N. cbv zeta in N.
  set (L := tab (S (S (length u))) (fun i => e (Z.of_nat i - 1)%Z)) in N.
  assert (NL : forall i, (i <= S (length u))%nat -> nth i L 0 = e (Z.of_nat i - 1)%Z) by (intros i Hi; unfold L; rewrite nth_tab by lia; reflexivity).
  unfold get_scalar_flux in Ef. rewrite Hp, names_parse in Ef. cbn [bind] in Ef. subst c. cbn [c_rhs scalar_config]. rewrite <- Dx. split.
  - intros ->. apply Ok_inj in Ef. subst nf. unfold fv_rhs. rewrite Dn. change (2 / 2)%nat with 1%nat. rewrite N. cbn [bind scalar_central central nf_call].
    rewrite combine_tab. rewrite mapM_tab_ok with (k := fun i => central_face p (nth i L 0) (nth (S i) L 0)).
    2:{ intros i Hi. unfold central_at. cbn [bind fst snd]. f_equal. unfold central_face, physical, scalar_flux. destruct p; cbn [cscal cadd R_CellOps]; field. }
    cbn [bind fst snd]. unfold vneg. rewrite map_tab, cells_tab by auto. f_equal. apply tab_ext. intros i Hi. cbv zeta.
    rewrite !NL by lia. unfold copp. cbn [cscal R_CellOps]. replace (Z.of_nat (S i) - 1)%Z with (Z.of_nat i) by lia. replace (Z.of_nat (S (S i)) - 1)%Z with (Z.of_nat i + 1)%Z by lia. field. auto.
  - intros -> Hs. apply Ok_inj in Ef. subst nf. unfold fv_rhs. rewrite Dn. change (2 / 2)%nat with 1%nat. rewrite N. cbn [bind scalar_llf lax_friedrichs nf_call].
    assert (Hs' : forall i, (i < S (length u))%nat -> speed p (nth i L 0) (nth (S i) L 0) <> 0).
    { intros i Hi. rewrite !NL by lia. replace (Z.of_nat (S i) - 1)%Z with (Z.of_nat i - 1 + 1)%Z by lia. specialize (Hs (Z.of_nat i - 1)%Z ltac:(lia)). destruct p; exact Hs. }
    rewrite solve_all_tab by exact Hs'. cbn [bind fst snd]. unfold vneg. rewrite !map_tab, cells_tab by auto. f_equal. apply tab_ext. intros i Hi. cbv zeta.
    assert (LF : forall l r, speed p l r <> 0 -> ro_flux (llf_out p l r) = llf_face p l r).
    { intros l r Hl. cbn [ro_flux llf_out]. unfold bar, llf_face, central_face. replace (Rmax (derivative p l) (derivative p r)) with (speed p l r) by (destruct p; reflexivity).
      replace (physical p l) with (scalar_flux p l) by (destruct p; cbn; field). replace (physical p r) with (scalar_flux p r) by (destruct p; cbn; field). field. auto. }
    rewrite !LF by (apply Hs'; lia). rewrite !NL by lia. unfold copp. cbn [cscal R_CellOps].
    replace (Z.of_nat (S i) - 1)%Z with (Z.of_nat i) by lia. replace (Z.of_nat (S (S i)) - 1)%Z with (Z.of_nat i + 1)%Z by lia. field. auto.
Qed.
Print Assumptions C81_scalar_schemes.
(** Three cells of a periodic advection problem with values 1, 3, 5: the central scheme gives the rates
    3, -6, 3, the Lax-Friedrichs scheme 12, -6, -6. *)
Example C81_scalar_schemes_ex : exists eig g2 b a c w c2 w2,
  scalar_solver eig SCentral b a = Ok (c, w) /\ scalar_solver eig g2 b a = Ok (c2, w2) /\ g2 = SLLF /\ 
  c_rhs c 0 [1; 3; 5] = Ok [3; -6; 3] /\ c_rhs c2 0 [1; 3; 5] = Ok [12; -6; -6].
Proof.
  destruct (C43_decomposition_exists 2) as [eig HE]. assert (HE2 : eig2_works eig) by (apply HE; lia).
  pose (b := advection_benchmark (fun _ => 0) 1). pose (a := {| a_mesh_size := Some 3%nat; a_cfl := None; a_ode := None; a_history := false |}).
  assert (HD : ia (sb_domain b) < ib (sb_domain b)) by (cbn; lra).
  assert (HS : side_names (sb_conditions b) "periodic" "periodic") by (cbn; auto).
  destruct (C69_scalar_solvers_can_be_built eig SCentral b a M_Scalar.Advection "periodic" "periodic" HE2 HD eq_refl HS) as [c [w [E1 [_ L1]]]]; [cbn; auto..|].
  destruct (C69_scalar_solvers_can_be_built eig SLLF b a M_Scalar.Advection "periodic" "periodic" HE2 HD eq_refl HS) as [c2 [w2 [E2 [_ L2]]]]; [cbn; auto..|].
  exists eig, SLLF, b, a, c, w, c2, w2. split; auto. split; auto. split; auto.
  pose (e := fun j : Z => nth (Z.to_nat (j mod 3)) [1; 3; 5] 0).
  assert (He : forall j, (-1 <= j <= Z.of_nat (length [1; 3; 5]))%Z -> extension_value 0 [1; 3; 5] (Some 0) Periodic Periodic j (e j)).
  { intros j Hj. cbn in Hj. assert (J : (j = -1 \/ j = 0 \/ j = 1 \/ j = 2 \/ j = 3)%Z) by lia. destruct J as [->|[->|[->|[->| ->]]]]; reflexivity. }
  destruct (C81_scalar_schemes eig SCentral b a c w M_Scalar.Advection "periodic" "periodic" Periodic Periodic 0 [1; 3; 5] e E1 eq_refl HD HS eq_refl eq_refl ltac:(cbn; lia) He) as [X _].
  destruct (C81_scalar_schemes eig SLLF b a c2 w2 M_Scalar.Advection "periodic" "periodic" Periodic Periodic 0 [1; 3; 5] e E2 eq_refl HD HS eq_refl eq_refl ltac:(cbn; lia) He) as [_ Y].
  rewrite (X eq_refl), (Y eq_refl). 2:{ intros. cbn. rewrite Rmax_left; lra. }
  rewrite L1, L2. unfold b, a, central_face, llf_face, central_face, e. cbn -[IZR INR Rmax]. rewrite Rmax_left by lra.
  replace (INR 3) with 3 by (cbn; lra). assert (CE : forall x y (l m : list R), x = y -> l = m -> x :: l = y :: m) by congruence.
  split; apply (f_equal Ok); repeat apply CE; try reflexivity; change (Pos.to_nat 1) with 1%nat; change (Pos.to_nat 2) with 2%nat; cbv iota; field.
Qed.
