(** C71: the finite element solvers from the benchmark to the solution (finite_element/solver.py with
    finite_element/scalar/solver): conservation of the integral and bounds *)
From Coq Require Import Reals List ZArith Arith Lia Lra Bool String.
From Coquelicot Require Import Coquelicot.
From Verif Require Import Prelude L_Prelude M_Mesh L_Mesh M_Quadrature M_Interpolate M_Boundary L_Boundary M_Flux L_Flux M_ShallowWater
  M_ODE S_ODE L_ODE M_TimeStepping L_TimeStepping M_Solution M_Solver S_Solver L_Solver P_Solver M_Generate M_Misc
  M_FVSolver L_FVSolver P_Quadrature M_FE L_FE S_FE S_Solve S_FELow L_FELow P_FE P_FEMatrix P_FELow P_FEMCL P_FECG P_FERun P_FEChoice
  M_FEChoice M_Benchmark M_ScalarSolver S_ScalarSolver S_FESolver L_Invariant P_ScalarSolver L_FERates.
Import ListNotations.
Local Open Scope nat_scope.
Open Scope R_scope.
Notation length := List.length.

(** ** Decomposition of the constructors *)
Lemma fe_solver_inv eig solver old k b a c w : fe_solver eig solver old k b a = Ok (c, w) -> exists m s pr rhs,
  new_mesh (sb_domain b) (used_cells a) = Ok m /\ new_fespace m (used_degree a) = Ok s /\ fe_problem (sb_problem b) = Ok pr /\
  c_rhs c = (fun _ => rhs) /\ In rhs (fe_scheme eig solver pr s) /\
  w = new_solver c (fun _ => initial_dofs old s (sb_initial b)) 1 0 (sb_start b) /\ c_start c = sb_start b /\ c_end c = sb_end b /\
  (c_tab c = heun \/ c_tab c = ssp3 \/ c_tab c = rk8 \/ f_ode a = Some (c_tab c)).
Proof.
  intro E.
  assert (G : exists s u, fe_solution old b (f_mesh_size a) (f_degree a) = Ok (s, u) /\ exists pr, fe_problem (sb_problem b) = Ok pr).
  { destruct k; cbn [fe_solver] in E; [unfold cg_solver in E|unfold limited_solver in E..]; inv_bind E; destruct a0 as [s u]; inv_bind E; exists s, u; split; eauto. }
  destruct G as [s [u [G [pr Gp]]]].
  assert (G' := G). unfold fe_solution in G'. inv_bind G'. inv_bind G'. apply Ok_inj in G'. injection G' as <- <-. rename a0 into m, a1 into s.
  exists m, s, pr. destruct k; cbn [fe_solver] in E; [unfold cg_solver in E|unfold limited_solver in E..]; rewrite G, Gp in E; cbn [bind] in E; [inv_bind E|..]; apply Ok_inj in E; injection E as <- <-.
  - exists (cg_rhs eig solver pr s exact). cbn [c_rhs c_start c_end c_tab]. do 4 (split; [auto|]). split; [destruct exact; cbn; auto|].
    do 3 (split; [auto|]). destruct a0; auto.
  - exists (cg_low_rhs eig pr s). cbn [c_rhs c_start c_end c_tab]. do 4 (split; [auto|]). split; [cbn; auto|].
    do 3 (split; [auto|]). destruct (f_ode a); auto.
  - exists (mcl_rhs eig pr s). cbn [c_rhs c_start c_end c_tab]. do 4 (split; [auto|]). split; [cbn; auto|].
    do 3 (split; [auto|]). destruct (f_ode a); auto.
Qed.
Lemma cells_pos a : (0 < used_cells a)%nat.
Proof. unfold used_cells. destruct (f_mesh_size a) as [[|k]|]; cbn; lia. Qed.
Lemma initial_length D n m p s old u0 : (0 < n)%nat -> ia D < ib D -> new_mesh D n = Ok m -> new_fespace m p = Ok s -> length (initial_dofs old s u0) = fs_dimension s.
Proof. intros Hn HD Em Es. unfold initial_dofs. rewrite map_length. apply (C34_basis_nodes D n m p s old Hn HD Em Es). Qed.

(** Advection and Burgers: the low order and the limited solver exist for every degree, the continuous Galerkin solver for
    the degrees 1 and 2 (see C58). The solution starts with the values of the data at equidistant nodes. *)
Theorem C71_fe_solvers_can_be_built : forall eig solver old k b a pr, ia (sb_domain b) < ib (sb_domain b) -> sb_problem b = fe_name pr ->
  (forall exact, k = FCG exact -> (used_degree a <= 2)%nat) ->
  exists c w, fe_solver eig solver old k b a = Ok (c, w) /\ o_time (solution_of w) = sb_start b /\
    length (o_sol (solution_of w)) = (used_cells a * used_degree a)%nat /\
    forall i, (i < used_cells a * used_degree a)%nat -> nth i (o_sol (solution_of w)) 0 =
      sb_initial b (ia (sb_domain b) + INR i * ((ib (sb_domain b) - ia (sb_domain b)) / (INR (used_cells a) * INR (used_degree a)))).
Proof.
  intros eig solver old k b a pr HD Hp HK. pose proof (cells_pos a) as Hn.
  pose proof (new_mesh_ok (sb_domain b) _ Hn HD) as Em. set (m := {| m_domain := sb_domain b; m_cells := _; m_step := _ |}) in Em.
  assert (Hd : (0 < used_degree a)%nat) by (unfold used_degree; destruct (f_degree a) as [[|d]|]; lia).
  assert (Es : exists s, new_fespace m (used_degree a) = Ok s).
  { unfold new_fespace, new_gindex. destruct (Nat.ltb_spec 0 (used_degree a)); [eexists; reflexivity|lia]. }
  destruct Es as [s Es].
  assert (Gp : fe_problem (sb_problem b) = Ok pr) by (rewrite Hp; destruct pr; reflexivity).
  assert (G : fe_solution old b (f_mesh_size a) (f_degree a) = Ok (s, initial_dofs old s (sb_initial b))).
  { unfold fe_solution. change (or_default (f_mesh_size a) default_mesh_size) with (used_cells a). rewrite Em. cbn [bind].
    change (or_default (f_degree a) default_polynomial_degree) with (used_degree a). rewrite Es. reflexivity. }
  destruct (C34_basis_nodes _ _ m _ s old Hn HD Em Es) as [BL [BD [BV _]]].
  assert (Fin : forall c, o_time (solution_of (new_solver c (fun _ => initial_dofs old s (sb_initial b)) 1 0 (sb_start b))) = sb_start b /\
    length (o_sol (solution_of (new_solver c (fun _ => initial_dofs old s (sb_initial b)) 1 0 (sb_start b)))) = (used_cells a * used_degree a)%nat /\
    forall i, (i < used_cells a * used_degree a)%nat -> nth i (o_sol (solution_of (new_solver c (fun _ => initial_dofs old s (sb_initial b)) 1 0 (sb_start b)))) 0 =
      sb_initial b (ia (sb_domain b) + INR i * ((ib (sb_domain b) - ia (sb_domain b)) / (INR (used_cells a) * INR (used_degree a))))).
  { intro c. unfold solution_of, new_solver. cbn [w_mem w_sol w_sol_time o_sol o_time]. rewrite store_other by lia.
    split; [reflexivity|]. unfold initial_dofs. rewrite map_length, BL, BD. split; [reflexivity|]. intros i Hi.
    rewrite (nth_map' _ _ _ 0 0) by lia. rewrite BV by lia. reflexivity. }
  destruct k as [exact|adaptive|adaptive]; cbn [fe_solver]; [unfold cg_solver|unfold limited_solver..]; rewrite G, Gp; cbn [bind].
  - assert (O : exists o, cg_ode_solver (fs_degree s) = Ok o).
    { apply C58_solver_can_be_built_refuted. rewrite (s_degree (sb_domain b) (used_cells a) m (used_degree a) s) by auto. specialize (HK exact eq_refl). lia. }
    destruct O as [o ->]. cbn [bind]. eexists. eexists. split; [reflexivity|]. apply Fin.
  - eexists. eexists. split; [reflexivity|]. apply Fin.
  - eexists. eexists. split; [reflexivity|]. apply Fin.
Qed.
Print Assumptions C71_fe_solvers_can_be_built.

(** The integral of everything the solver shows is the one of the initial finite element, whatever is done with the solver. *)
Theorem C71_integral_is_conserved : forall eig solver old finite k b a c w us m s, fe_solver eig solver old k b a = Ok (c, w) ->
  (forall T, f_ode a = Some T -> In T [euler; heun; ssp3; rk8]) -> ia (sb_domain b) < ib (sb_domain b) ->
  new_mesh (sb_domain b) (used_cells a) = Ok m -> new_fespace m (used_degree a) = Ok s ->
  eig_ok eig (used_degree a) -> eig_ok eig (used_degree a + 1) -> eig_ok eig (2 ^ used_degree a) -> solves solver (fs_dimension s) ->
  exists l, integral_over (m_cells m) (element s (o_sol (solution_of w))) l /\
  ((forall v t, In (Reinit v t) us -> length v = length (o_sol (solution_of w)) /\ integral_over (m_cells m) (element s v) l) ->
   forall v, shown (fst (use_run finite c us (w, []))) v -> length v = length (o_sol (solution_of w)) /\ integral_over (m_cells m) (element s v) l).
Proof.
  intros eig solver old finite k b a c w us m s E HM HD Em Es HE HE1 HE2 HS.
  destruct (fe_solver_inv eig solver old k b a c w E) as [m' [s' [pr [rhs [Em' [Es' [Hp [Ec [HR [Ew [_ [_ HT]]]]]]]]]]]].
  rewrite Em in Em'. apply Ok_inj in Em'. subst m'. rewrite Es in Es'. apply Ok_inj in Es'. subst s'.
  pose proof (cells_pos a) as Hn. set (u := initial_dofs old s (sb_initial b)) in *.
  assert (Lu : length u = fs_dimension s) by (apply (initial_length _ _ m _ s old _ Hn HD Em Es)).
  assert (Su : o_sol (solution_of w) = u).
  { rewrite Ew. unfold solution_of, new_solver. cbn [w_mem w_sol o_sol]. rewrite store_other by lia. reflexivity. }
  rewrite Su, Lu.
  destruct (C37_lumped_masses eig _ _ m _ s Hn HD Em Es HE1) as [M [mass [_ [EL _]]]].
  exists (rsum (map2 Rmult mass u)). split; [apply (element_integral eig _ _ m _ s mass u Hn HD Em Es HE1 EL Lu)|].
  set (l := rsum (map2 Rmult mass u)). set (P := fun v => length v = fs_dimension s /\ integral_over (m_cells m) (element s v) l).
  intros HU v HV.
  assert (T4 : In (c_tab c) [euler; heun; ssp3; rk8]). { destruct HT as [-> |[-> |[-> |HT]]]; [cbn; auto..|apply HM; exact HT]. }
  assert (K : keeps P (fst (use_run finite c us (w, [])))).
  { apply (use_keeps finite P c us (fun _ => u) (w, []) 1).
    - intros dt o o' [Lo Io] Eo.
      destruct (C57_runs_conserve_mass eig solver _ _ m _ s pr rhs (c_tab c) [dt] (o_time o) (o_sol o) o' Hn HD Em Es HE HE1 HE2 HS HR Lo T4) as [L' [l' [I1 I2]]].
      + rewrite Ec in Eo. unfold rk_run_e. cbn [foldM]. replace {| o_time := o_time o; o_sol := o_sol o |} with o by (destruct o; reflexivity). rewrite Eo. reflexivity.
      + split; [exact L'|]. rewrite (integral_unique _ _ _ _ Io I1). exact I2.
    - exact HU.
    - rewrite Ew. apply separate_new. lia.
    - rewrite Ew. cbn [fst]. apply new_keeps; [lia|]. split; [exact Lu|]. apply (element_integral eig _ _ m _ s mass u Hn HD Em Es HE1 EL Lu). }
  destruct K as [_ [K2 K3]]. rewrite Forall_forall in K3. destruct HV as [-> |HV]; [exact K2|exact (K3 v HV)].
Qed.
Print Assumptions C71_integral_is_conserved.

(** ** Bounds *)
Lemma inherits_refl u : inherits_bounds u u.
Proof. split; auto. Qed.
Lemma inherits_trans u v x : inherits_bounds u v -> inherits_bounds v x -> inherits_bounds u x.
Proof. intros [L1 H1] [L2 H2]. split; [congruence|]. intros lo hi B. apply H2. apply H1. exact B. Qed.
Lemma between_dofs u lo hi : (forall x, In x u -> lo <= x <= hi) <-> (forall i, (i < length u)%nat -> lo <= dof u i <= hi).
Proof.
  split; intros H.
  - intros i Hi. apply H. apply nth_In. exact Hi.
  - intros x Hx. apply (In_nth _ _ 0) in Hx as [i [Hi <-]]. apply H. exact Hi.
Qed.
Lemma extremes : forall u : list R, u <> [] -> exists lo hi, In lo u /\ In hi u /\ forall x, In x u -> lo <= x <= hi.
Proof.
  induction u as [|y u IH]; [congruence|]. intros _. destruct u as [|z u].
  - exists y, y. repeat split; auto with datatypes; destruct H as [-> |[]]; lra.
  - destruct IH as [lo [hi [A [B C]]]]; [discriminate|]. exists (Rmin y lo), (Rmax y hi). split; [|split].
    + unfold Rmin. destruct Rle_dec; [left; reflexivity|right; exact A].
    + unfold Rmax. destruct Rle_dec; [right; exact B|left; reflexivity].
    + intros x [<-|Hx]; [split; [apply Rmin_l|apply Rmax_l]|]. destruct (C x Hx). split; [eapply Rle_trans; [apply Rmin_r|auto]|eapply Rle_trans; [|apply Rmax_r]; auto].
Qed.

Section Steps.
Context (eig : nat -> (nat -> nat -> R) -> (nat -> R) * (nat -> nat -> R)) (D : interval) (n : nat) (m : mesh) (p : nat) (s : fespace) (pr : problem) (cfl : R).
Hypothesis Hn : (2 <= n)%nat.
Hypothesis HD : ia D < ib D.
Hypothesis Em : new_mesh D n = Ok m.
Hypothesis Es : new_fespace m p = Ok s.
Hypothesis HE : eig_ok eig p.
Hypothesis HE1 : eig_ok eig (p + 1).
Hypothesis H7 : (p <= 7)%nat.
Hypothesis C0 : 0 < cfl.
Hypothesis HC : cfl_condition eig pr s cfl.
Let Hn' : (0 < n)%nat. Proof. lia. Qed.
Let N := fs_dimension s.

Lemma step_exists q u : length u = N -> exists step, fe_time_step eig q s u = Ok step /\ forall x, step = Some x -> 0 < x.
Proof. intro Lu. destruct (C39_low_order_succeeds eig D n m p s q u Hn' HD Em Es HE HE1 H7 Lu) as [_ [step [_ [E X]]]]. eauto. Qed.

(** a step of the length the solver computes for u1 is short enough for all states that inherit the bounds of u1 *)
Lemma step_uniform u1 u0 step1 step lo hi dt : length u1 = N -> fe_time_step eig pr s u1 = Ok step1 -> fe_time_step eig Advection s u0 = Ok step -> 0 < dt ->
  step_allows step1 (dt / cfl) -> In lo u1 -> In hi u1 -> (forall x, In x u1 -> lo <= x <= hi) -> step_allows step (dt * top_speed pr lo hi).
Proof.
  intros L1 E1 E0 Hdt A Il Ih B.
  destruct (C37_discrete_gradient eig D n m p s Hn' HD Em Es HE) as [C [EC [SK _]]].
  destruct (C37_lumped_masses eig D n m p s Hn' HD Em Es HE1) as [M [mass [_ [EL [LL _]]]]].
  assert (MP := C37_lumped_masses_positive eig D n m p s mass Hn' HD Em Es HE1 H7 EL).
  assert (Q : 0 < dt / cfl) by (apply Rdiv_lt_0_compat; auto).
  assert (OFF : forall i, (i < N)%nat -> off N (fun j => Rabs (C i j)) i = rsum (tab N (fun j => Rabs (C i j)))).
  { intros i Hi. rewrite (off_split N (fun j => Rabs (C i j)) i Hi). assert (Z : C i i = 0) by (specialize (SK i i); lra). rewrite Z, Rabs_R0. ring. }
  destruct pr.
  - cbn [top_speed cfl_condition] in *. change (fe_time_step eig Advection s u0) with (fe_time_step eig Advection s u1) in E0. rewrite E0 in E1. apply Ok_inj in E1. subst step1.
    destruct step as [x|]; [|exact I]. cbn [step_allows] in *. assert (dt <= dt / cfl); [|lra].
    apply (Rmult_le_reg_r cfl); [exact C0|]. unfold Rdiv. rewrite Rmult_assoc, Rinv_l by lra. nra.
  - cbn [cfl_condition] in HC. specialize (HC mass C EL EC).
    assert (PK : exists k, (k < N)%nat /\ Rabs (dof u1 k) = Rmax (Rabs lo) (Rabs hi)).
    { unfold Rmax. destruct Rle_dec.
      - apply (In_nth _ _ 0) in Ih as [k [Hk Ek]]. exists k. split; [lia|]. unfold dof. rewrite Ek. reflexivity.
      - apply (In_nth _ _ 0) in Il as [k [Hk Ek]]. exists k. split; [lia|]. unfold dof. rewrite Ek. reflexivity. }
    destruct PK as [k [Hk PK]]. cbn [top_speed]. rewrite <- PK. set (V := Rabs (dof u1 k)) in *. assert (HV : 0 <= V) by apply Rabs_pos.
    destruct (step_masses eig Burgers s u1 mass C step1 EL EC E1 (dt / cfl) Q A k Hk) as [_ SM]. fold N in SM.
    rewrite (diffusion_abs_diag N C SK) in SM by auto.
    assert (GE : V * off N (fun j => Rabs (C k j)) k <= off N (diffusion Burgers N C u1 k) k).
    { rewrite <- off_scal. apply off_le. intros j Hj Hkj. rewrite (diffusion_entry N C SK) by auto. cbn [wave_speed]. pose proof (Rabs_pos (C k j)).
      pose proof (Rmax_l (Rabs (dof u1 k)) (Rabs (dof u1 j))). fold V in H0 |- *. nra. }
    rewrite OFF in GE by auto. set (r := fun i => rsum (tab N (fun j => Rabs (C i j)))) in *. fold (r k) in GE.
    assert (RN : forall i, 0 <= r i) by (intro i; apply rsum_tab_nonneg; intros; apply Rabs_pos).
    assert (MK := MP k Hk). unfold dof in SM.
    assert (K1 : 2 * (dt * V) * (r k / nth k mass 0) <= cfl).
    { apply (Rmult_le_reg_r (nth k mass 0 / cfl)); [apply Rdiv_lt_0_compat; auto|]. replace (2 * (dt * V) * (r k / nth k mass 0) * (nth k mass 0 / cfl)) with (2 * (dt / cfl) * (V * r k)) by (field; lra).
      replace (cfl * (nth k mass 0 / cfl)) with (nth k mass 0) by (field; lra). eapply Rle_trans; [apply Rmult_le_compat_l; [lra|exact GE]|exact SM]. }
    unfold fe_time_step in E0. rewrite EL, EC in E0. cbn [bind] in E0. cbv zeta in E0. fold N in E0. set (d := diffusion Advection N C u0) in *.
    destruct (mapM (fun i => step_quotient (nth i mass 0) (2 * Rabs (d i i))) (seq 0 N)) as [qs|] eqn:EQ; [|discriminate E0]. cbn [bind] in E0. apply Ok_inj in E0. subst step.
    apply step_all. intros x Hx. apply (In_nth _ _ None) in Hx. destruct Hx as [i [Hi <-]].
    apply (mapM_nth _ _ _ 0%nat None) in EQ. rewrite seq_length in EQ. destruct EQ as [LQ VQ]. rewrite LQ in Hi. specialize (VQ i Hi). rewrite seq_nth in VQ by auto. cbn [Nat.add] in VQ.
    assert (MI := MP i Hi).
    assert (DI : Rabs (d i i) = r i).
    { unfold d. rewrite (diffusion_abs_diag N C SK) by auto. unfold r. rewrite <- OFF by auto. apply off_ext. intros j Hj Hij. rewrite (diffusion_entry N C SK) by auto. cbn [wave_speed].
      rewrite Rmax_left by lra. ring. }
    rewrite DI in VQ. unfold step_quotient in VQ. destruct (Reqb_spec (2 * r i) 0) as [Z|Z].
    { destruct (Rltb_spec 0 (nth i mass 0)) as [B'|B']; [|discriminate]. apply Ok_inj in VQ. rewrite <- VQ. exact I. }
    apply Ok_inj in VQ. rewrite <- VQ. cbn [step_allows]. specialize (RN i).
    specialize (HC i k Hi Hk). unfold node_rate in HC. rewrite LL in HC. fold N in HC. fold (r i) (r k) in HC.
    assert (K2 : cfl * (2 * (dt * V) * (r i / nth i mass 0)) <= cfl * 1).
    { replace (cfl * (2 * (dt * V) * (r i / nth i mass 0))) with (2 * (dt * V) * (cfl * (r i / nth i mass 0))) by ring.
      eapply Rle_trans; [apply Rmult_le_compat_l; [nra|exact HC]|]. lra. }
    apply Rmult_le_reg_l in K2; [|exact C0]. apply (Rmult_le_reg_r (2 * (r i / nth i mass 0))); [apply Rmult_lt_0_compat; [lra|apply Rdiv_lt_0_compat; lra]|].
    replace (nth i mass 0 / (2 * r i) * (2 * (r i / nth i mass 0))) with 1 by (field; lra). lra.
Qed.

Lemma step_safe rhs T u1 step1 dt o : rhs = cg_low_rhs eig pr s \/ rhs = mcl_rhs eig pr s -> In T [euler; heun; ssp3] ->
  length u1 = N -> fe_time_step eig pr s u1 = Ok step1 -> 0 < dt -> step_allows step1 (dt / cfl) -> inherits_bounds u1 (o_sol o) ->
  exists o', rk_execute_e (fun _ => rhs) T dt o = Ok o' /\ inherits_bounds u1 (o_sol o').
Proof.
  intros HR HT L1 E1 Hdt A [Lo Bo].
  assert (Hp := space_degree m p s Es).
  assert (NE : u1 <> []). { intro Z. rewrite Z in L1. cbn in L1. unfold N in L1. rewrite (s_dim D n m p s Hn' HD Hp Em Es) in L1. nia. }
  destruct (extremes u1 NE) as [lo [hi [Il [Ih B]]]].
  destruct (step_exists Advection u1 L1) as [step [E0 _]].
  assert (AL := step_uniform u1 u1 step1 step lo hi dt L1 E1 E0 Hdt A Il Ih B).
  destruct (C57_runs_keep_bounds eig D n m p s pr rhs T [dt] (o_time o) (o_sol o) lo hi step) as [o' [R1 [_ [R2 R3]]]]; auto.
  - fold N. congruence.
  - assert (X := Bo lo hi B). rewrite between_dofs in X. rewrite Lo, L1 in X. exact X.
  - intros dt' [<-|[]]. split; [lra|exact AL].
  - exists o'. split.
    + unfold rk_run_e in R1. cbn [foldM] in R1. replace {| o_time := o_time o; o_sol := o_sol o |} with o in R1 by (destruct o; reflexivity).
      destruct (rk_execute_e (fun _ : R => rhs) T dt o) as [y|e]; [exact R1|discriminate].
    + split; [fold N in R2; congruence|]. intros lo' hi' B' x Hx. assert (W : forall i, (i < length (o_sol o'))%nat -> lo <= dof (o_sol o') i <= hi) by (rewrite R2; exact R3).
      rewrite <- between_dofs in W. specialize (W x Hx). destruct (B' lo Il), (B' hi Ih). lra.
Qed.
End Steps.

Section Bounds.
Context (eig : nat -> (nat -> nat -> R) -> (nat -> R) * (nat -> nat -> R)) (solver : mat -> list R -> list R) (old : nat -> R) (finite : list R -> bool).
Context (k : fe_kind) (b : scalar_benchmark) (a : fe_args) (pr : problem) (c : config (list R)) (w : world (list R)) (m : mesh) (s : fespace).
Let cfl := py_or (f_cfl a) default_cfl.
Let p := used_degree a.
Hypothesis HK : bounded_kind k.
Hypothesis HD : ia (sb_domain b) < ib (sb_domain b).
Hypothesis HP : sb_problem b = fe_name pr.
Hypothesis HM : ssp_method (f_ode a).
Hypothesis Em : new_mesh (sb_domain b) (used_cells a) = Ok m.
Hypothesis Es : new_fespace m p = Ok s.
Hypothesis HE : eig_ok eig p.
Hypothesis HE1 : eig_ok eig (p + 1).
Hypothesis H2 : (2 <= used_cells a)%nat.
Hypothesis H7 : (p <= 7)%nat.
Hypothesis C0 : 0 < cfl.
Hypothesis HC : cfl_condition eig pr s cfl.
Hypothesis E : fe_solver eig solver old k b a = Ok (c, w).
Let u0 := initial_dofs old s (sb_initial b).
Hypothesis HF : forall v, inherits_bounds u0 v -> finite v = true.
Let Hn : (0 < used_cells a)%nat. Proof. lia. Qed.

Lemma fe_bounds_setup : exists rhs adaptive, w = new_solver c (fun _ => u0) 1 0 (sb_start b) /\ c_start c = sb_start b /\ c_end c = sb_end b /\
  c_rhs c = (fun _ => rhs) /\ (rhs = cg_low_rhs eig pr s \/ rhs = mcl_rhs eig pr s) /\ In (c_tab c) [euler; heun; ssp3] /\ quiet_check c /\
  forall t v, call_generator (c_gen c) (t, v) = finite_step (sb_end b - sb_start b) cfl (fe_time_step eig pr s (if adaptive : bool then v else u0)) * cfl.
Proof.
  assert (Gp : fe_problem (sb_problem b) = Ok pr) by (rewrite HP; destruct pr; reflexivity).
  assert (G : fe_solution old b (f_mesh_size a) (f_degree a) = Ok (s, u0)).
  { unfold fe_solution. change (or_default (f_mesh_size a) default_mesh_size) with (used_cells a). rewrite Em. cbn [bind].
    change (or_default (f_degree a) default_polynomial_degree) with p. rewrite Es. reflexivity. }
  assert (Tb : In (match f_ode a with Some T => T | None => heun end) [euler; heun; ssp3]).
  { destruct (f_ode a) as [T|] eqn:Q; [apply HM; reflexivity|cbn; auto]. }
  destruct HK as [adaptive [-> | ->]]; cbn [fe_solver] in E; unfold limited_solver in E; rewrite G, Gp in E; cbn [bind] in E; apply Ok_inj in E; injection E as <- <-.
  - exists (cg_low_rhs eig pr s), adaptive. cbn [c_rhs c_tab c_start c_end]. repeat split; auto.
    + intros o Q t v. cbn [c_check] in Q. injection Q as <-. eauto.
    + intros t v. destruct adaptive; reflexivity.
  - exists (mcl_rhs eig pr s), adaptive. cbn [c_rhs c_tab c_start c_end]. repeat split; auto.
    + intros o Q t v. cbn [c_check] in Q. injection Q as <-. eauto.
    + intros t v. destruct adaptive; reflexivity.
Qed.
Lemma fe_initial : o_sol (solution_of w) = u0 /\ length u0 = fs_dimension s.
Proof.
  destruct fe_bounds_setup as [rhs [ad [-> _]]]. split; [|apply (initial_length _ _ m _ s old _ Hn HD Em Es)].
  unfold solution_of, new_solver. cbn [w_mem w_sol o_sol]. rewrite store_other by lia. reflexivity.
Qed.
Lemma fe_safe : safe_steps (inherits_bounds u0) c.
Proof.
  destruct fe_bounds_setup as [rhs [ad [_ [_ [_ [Er [Hr [HT [_ Gn]]]]]]]]]. destruct fe_initial as [_ L0]. intros dt o Po [D1 D2]. rewrite Gn in D2. pose proof tol_pos as TP.
  set (u1 := if ad then o_sol o else u0) in *.
  assert (L1 : length u1 = fs_dimension s) by (unfold u1; destruct ad; [destruct Po; congruence|exact L0]).
  assert (I1 : inherits_bounds u0 u1) by (unfold u1; destruct ad; [exact Po|apply inherits_refl]).
  assert (I2 : inherits_bounds u1 (o_sol o)) by (unfold u1; destruct ad; [apply inherits_refl|exact Po]).
  destruct (step_exists eig _ _ m p s H2 HD Em Es HE HE1 H7 pr u1 L1) as [step [E1 _]]. rewrite E1 in D2.
  destruct (step_safe eig _ _ m p s pr cfl H2 HD Em Es HE HE1 H7 C0 HC rhs (c_tab c) u1 step dt o Hr HT L1 E1) as [o' [X1 X2]]; [lra| |exact I2|].
  - destruct step as [x|]; [|exact I]. cbn [finite_step step_allows] in *. apply (Rmult_le_reg_r cfl); [exact C0|]. unfold Rdiv. rewrite Rmult_assoc, Rinv_l by lra. lra.
  - exists o'. rewrite Er. split; [exact X1|]. eapply inherits_trans; eauto.
Qed.
Lemma fe_inv : inv (inherits_bounds u0) w.
Proof.
  destruct fe_bounds_setup as [rhs [ad [-> _]]]. split.
  - unfold in_sync, new_solver. cbn [w_ode_time w_sol_time w_mem w_ode w_sol]. rewrite store_same, store_other by lia. auto.
  - apply new_keeps; [lia|apply inherits_refl].
Qed.
Lemma fe_bounds_hold us : (forall v t, In (Reinit v t) us -> inherits_bounds (o_sol (solution_of w)) v) ->
  forall v, shown (fst (use_run finite c us (w, []))) v -> inherits_bounds (o_sol (solution_of w)) v.
Proof.
  intros HU v HV. destruct fe_initial as [I0 _]. rewrite I0 in *. destruct fe_bounds_setup as [rhs [ad [Ew [_ [_ [_ [_ [_ [Qc _]]]]]]]]].
  assert (K : inv (inherits_bounds u0) (fst (use_run finite c us (w, [])))).
  { apply (use_inv finite (inherits_bounds u0) c HF Qc fe_safe us (fun _ => u0) (w, []) 1); [exact HU| |exact fe_inv]. rewrite Ew. apply separate_new. lia. }
  destruct K as [_ [K1 [K2 K3]]]. rewrite Forall_forall in K3. destruct HV as [-> |HV]; [exact K2|exact (K3 v HV)].
Qed.
Lemma fe_completes lo hi step dt j : (forall x, In x u0 -> lo <= x <= hi) -> fe_time_step eig Advection s u0 = Ok step -> tol <= dt <= sb_end b - sb_start b ->
  step_allows step (dt / cfl * top_speed pr lo hi) -> sb_end b - sb_start b < INR j * dt ->
  exists w' s', solve finite c (S j) w = (w', Some s', Completed) /\ sb_end b - tol < o_time (solution_of w') <= sb_end b /\
    inherits_bounds (o_sol (solution_of w)) (o_sol (solution_of w')).
Proof.
  intros B E0 [D1 D2] A Hj. pose proof tol_pos as TP. destruct fe_initial as [I0 L0]. rewrite I0.
  destruct fe_bounds_setup as [rhs [ad [Ew [Cs [Ce [_ [_ [_ [Qc Gn]]]]]]]]].
  destruct (solve_completes finite (inherits_bounds u0) c HF Qc fe_safe dt D1) with (n := j) (w := w) as [w' [s' [S1 [S2 S3]]]].
  - intros t v Pv. rewrite Gn. set (u1 := if ad then v else u0).
    assert (I1 : inherits_bounds u0 u1) by (unfold u1; destruct ad; [exact Pv|apply inherits_refl]).
    assert (L1 : length u1 = fs_dimension s) by (destruct I1; congruence).
    destruct (uniform_step eig _ _ m p s pr u1 u0 lo hi step (dt / cfl) Hn HD Em Es HE HE1 H7 L1) as [st [E1 A1]]; auto.
    + destruct I1 as [_ I1]. specialize (I1 lo hi B). rewrite between_dofs, L1 in I1. exact I1.
    + apply Rlt_le, Rdiv_lt_0_compat; lra.
    + rewrite E1. destruct st as [x|]; cbn [finite_step step_allows] in *.
      * apply (Rmult_le_compat_r cfl) in A1; [|lra]. unfold Rdiv in A1. rewrite Rmult_assoc, Rinv_l in A1 by lra. lra.
      * set (d := sb_end b - sb_start b) in *. apply Rle_trans with (d / cfl * cfl); [replace (d / cfl * cfl) with d by (field; lra); lra|].
        apply Rmult_le_compat_r; [lra|]. apply Rmax_r.
  - exact fe_inv.
  - rewrite Cs, Ce. lra.
  - exists w', s'. split; [exact S1|]. rewrite Cs, Ce in S3. assert (T0 : w_sol_time w = sb_start b) by (rewrite Ew; reflexivity). rewrite T0 in S3.
    split; [cbn [solution_of o_time]; lra|]. exact (proj1 (proj2 (proj2 S2))).
Qed.
End Bounds.

(** The low order and the limited solver with a strong stability preserving method, on at least two cells, degree at most 7: whatever a
    program does with the solver, all it can see of the solution lies in the range of the initial values. *)
Theorem C71_bounds_hold : forall eig solver old finite k b a pr c w m s us,
  bounded_kind k -> ia (sb_domain b) < ib (sb_domain b) -> sb_problem b = fe_name pr -> ssp_method (f_ode a) ->
  new_mesh (sb_domain b) (used_cells a) = Ok m -> new_fespace m (used_degree a) = Ok s ->
  eig_ok eig (used_degree a) -> eig_ok eig (used_degree a + 1) -> (2 <= used_cells a)%nat -> (used_degree a <= 7)%nat ->
  0 < py_or (f_cfl a) default_cfl -> cfl_condition eig pr s (py_or (f_cfl a) default_cfl) ->
  fe_solver eig solver old k b a = Ok (c, w) ->
  (forall v, inherits_bounds (o_sol (solution_of w)) v -> finite v = true) ->
  (forall v t, In (Reinit v t) us -> inherits_bounds (o_sol (solution_of w)) v) ->
  forall v, shown (fst (use_run finite c us (w, []))) v -> inherits_bounds (o_sol (solution_of w)) v.
Proof.
  intros eig solver old finite k b a pr c w m s us HK HD HP HM Em Es HE HE1 H2 H7 C0 HC E HF.
  destruct (fe_initial eig solver old k b a pr c w m s HK HD HP HM Em Es H2 H7 HC E) as [I0 _].
  apply (fe_bounds_hold eig solver old finite k b a pr c w m s HK HD HP HM Em Es HE HE1 H2 H7 C0 HC E). rewrite I0 in HF. exact HF.
Qed.
Print Assumptions C71_bounds_hold.
(** With data between lo and hi: the same for all values shown, in terms of the benchmark. *)
Theorem C71_data_bounds_hold : forall eig solver old finite k b a pr c w m s us lo hi,
  bounded_kind k -> ia (sb_domain b) < ib (sb_domain b) -> sb_problem b = fe_name pr -> ssp_method (f_ode a) ->
  new_mesh (sb_domain b) (used_cells a) = Ok m -> new_fespace m (used_degree a) = Ok s ->
  eig_ok eig (used_degree a) -> eig_ok eig (used_degree a + 1) -> (2 <= used_cells a)%nat -> (used_degree a <= 7)%nat ->
  0 < py_or (f_cfl a) default_cfl -> cfl_condition eig pr s (py_or (f_cfl a) default_cfl) ->
  fe_solver eig solver old k b a = Ok (c, w) ->
  (forall x, ia (sb_domain b) <= x < ib (sb_domain b) -> lo <= sb_initial b x <= hi) ->
  (forall v, (forall x, In x v -> lo <= x <= hi) -> finite v = true) ->
  (forall v t, ~ In (Reinit v t) us) ->
  forall v x, shown (fst (use_run finite c us (w, []))) v -> In x v -> lo <= x <= hi.
Proof.
  intros eig solver old finite k b a pr c w m s us lo hi HK HD HP HM Em Es HE HE1 H2 H7 C0 HC E HB HF HU v x HV Hx.
  destruct (fe_initial eig solver old k b a pr c w m s HK HD HP HM Em Es H2 H7 HC E) as [I0 L0].
  assert (B0 : forall x, In x (o_sol (solution_of w)) -> lo <= x <= hi).
  { rewrite I0. intros y Hy. unfold initial_dofs in Hy. apply in_map_iff in Hy as [z [<- Hz]]. apply HB.
    destruct (C34_basis_nodes _ _ m _ s old (cells_pos a) HD Em Es) as [BL [BD [BV _]]]. apply (In_nth _ _ 0) in Hz as [i [Hi <-]]. rewrite BL, BD in Hi. rewrite BV by exact Hi.
    assert (Hd := space_degree _ _ _ Es). set (D := sb_domain b) in *. assert (A1 : 0 < INR (used_cells a)) by (apply lt_0_INR; lia). assert (A2 : 0 < INR (used_degree a)) by (apply lt_0_INR; lia).
    assert (A3 : INR i < INR (used_cells a) * INR (used_degree a)) by (rewrite <- mult_INR; apply lt_INR; exact Hi). assert (A4 := pos_INR i).
    assert (A5 : 0 < INR (used_cells a) * INR (used_degree a)) by (apply Rmult_lt_0_compat; auto). set (q := INR (used_cells a) * INR (used_degree a)) in *.
    assert (A6 : 0 < (ib D - ia D) / q) by (apply Rdiv_lt_0_compat; lra). split; [assert (0 <= INR i * ((ib D - ia D) / q)) by (apply Rmult_le_pos; lra); lra|].
    apply Rlt_le_trans with (ia D + q * ((ib D - ia D) / q)); [apply Rplus_lt_compat_l, Rmult_lt_compat_r; auto|]. right. field. lra. }
  assert (X := C71_bounds_hold eig solver old finite k b a pr c w m s us HK HD HP HM Em Es HE HE1 H2 H7 C0 HC E).
  destruct X with (v := v) as [_ X']; [|intros v' t Hin; exfalso; exact (HU v' t Hin)|exact HV|exact (X' lo hi B0 x Hx)].
  intros v' [_ Hv']. apply HF. apply Hv'. exact B0.
Qed.
Print Assumptions C71_data_bounds_hold.

(** The run completes: [step] is the optimal step for waves of speed one, [dt] a length that is not longer than CFL number times step over
    top speed. Then solve ends after at most duration / dt + 1 iterations at the end time, without any exception. *)
Theorem C71_run_completes : forall eig solver old finite k b a pr c w m s lo hi step dt j,
  bounded_kind k -> ia (sb_domain b) < ib (sb_domain b) -> sb_problem b = fe_name pr -> ssp_method (f_ode a) ->
  new_mesh (sb_domain b) (used_cells a) = Ok m -> new_fespace m (used_degree a) = Ok s ->
  eig_ok eig (used_degree a) -> eig_ok eig (used_degree a + 1) -> (2 <= used_cells a)%nat -> (used_degree a <= 7)%nat ->
  0 < py_or (f_cfl a) default_cfl -> cfl_condition eig pr s (py_or (f_cfl a) default_cfl) ->
  fe_solver eig solver old k b a = Ok (c, w) ->
  (forall v, inherits_bounds (o_sol (solution_of w)) v -> finite v = true) ->
  (forall x, In x (o_sol (solution_of w)) -> lo <= x <= hi) ->
  fe_time_step eig Advection s (o_sol (solution_of w)) = Ok step -> step_allows step (dt / py_or (f_cfl a) default_cfl * top_speed pr lo hi) ->
  1 / 10 ^ 12 <= dt <= sb_end b - sb_start b -> sb_end b - sb_start b < INR j * dt ->
  exists w' s', solve finite c (S j) w = (w', Some s', Completed) /\ sb_end b - 1 / 10 ^ 12 < o_time (solution_of w') <= sb_end b /\
    inherits_bounds (o_sol (solution_of w)) (o_sol (solution_of w')).
Proof.
  intros eig solver old finite k b a pr c w m s lo hi step dt j HK HD HP HM Em Es HE HE1 H2 H7 C0 HC E HF HB ES HA Hd Hj.
  assert (T : tol = 1 / 10 ^ 12) by (unfold tol; f_equal; ring). rewrite <- T in *.
  destruct (fe_initial eig solver old k b a pr c w m s HK HD HP HM Em Es H2 H7 HC E) as [I0 _].
  assert (HF' := HF). rewrite I0 in HF', HB, ES.
  exact (fe_completes eig solver old finite k b a pr c w m s HK HD HP HM Em Es HE HE1 H2 H7 C0 HC E HF' lo hi step dt j HB ES Hd HA Hj).
Qed.
Print Assumptions C71_run_completes.

(** ** The condition on the CFL number holds for the numbers of the table, on every mesh *)
Theorem C71_safe_cfl : forall eig D n m p s pr cfl, (2 <= n)%nat -> (1 <= p <= 7)%nat -> ia D < ib D -> new_mesh D n = Ok m -> new_fespace m p = Ok s ->
  eig_ok eig p -> eig_ok eig (p + 1) -> cfl <= safe_cfl pr p -> cfl_condition eig pr s cfl.
Proof.
  intros eig D n m p s [|] cfl Hn Hp HD Em Es HE HE1 H; [exact H|]. intros mass C EL EC i j Hi Hj. unfold node_rate.
  destruct (rates_ratio eig D n m p s mass C i j Hn Hp HD Em Es HE HE1 EL EC Hi Hj) as [P Q]. eapply Rle_trans; [|exact Q]. apply Rmult_le_compat_r; [exact P|exact H].
Qed.
(** With the default CFL number the schemes keep the bounds of the initial data, for every benchmark, mesh and degree up to 7. *)
Theorem C71_default_cfl_keeps_bounds : forall eig solver old finite k b a pr c w us,
  bounded_kind k -> ia (sb_domain b) < ib (sb_domain b) -> sb_problem b = fe_name pr -> ssp_method (f_ode a) -> f_cfl a = None ->
  eig_ok eig (used_degree a) -> eig_ok eig (used_degree a + 1) -> (2 <= used_cells a)%nat -> (used_degree a <= 7)%nat ->
  fe_solver eig solver old k b a = Ok (c, w) ->
  (forall v, inherits_bounds (o_sol (solution_of w)) v -> finite v = true) ->
  (forall v t, In (Reinit v t) us -> inherits_bounds (o_sol (solution_of w)) v) ->
  forall v, shown (fst (use_run finite c us (w, []))) v -> inherits_bounds (o_sol (solution_of w)) v.
Proof.
  intros eig solver old finite k b a pr c w us HK HD HP HM HC HE HE1 H2 H7 E HF HU.
  destruct (fe_solver_inv eig solver old k b a c w E) as [m [s [_ [_ [Em [Es _]]]]]].
  assert (Hd : (1 <= used_degree a)%nat) by (unfold used_degree; destruct (f_degree a) as [[|d]|]; lia).
  apply (C71_bounds_hold eig solver old finite k b a pr c w m s us); auto; rewrite HC; cbn [py_or]; unfold default_cfl; [lra|].
  apply (C71_safe_cfl eig (sb_domain b) (used_cells a) m (used_degree a)); auto. destruct pr; cbn [safe_cfl]; [lra|].
  destruct (used_degree a) as [|[|[|[|[|[|[|q]]]]]]]; try lra.
Qed.

Example C71_ex : exists eig solver m s c w, let b := burgers_benchmark (smooth_benchmark burgers_default_end) in
  let a := {| f_mesh_size := Some 30%nat; f_degree := Some 3%nat; f_cfl := Some (1 / 2); f_ode := Some ssp3; f_history := true |} in
  new_mesh (sb_domain b) (used_cells a) = Ok m /\ new_fespace m (used_degree a) = Ok s /\ eig_ok eig (used_degree a) /\ eig_ok eig (used_degree a + 1) /\
  eig_ok eig (2 ^ used_degree a) /\ solves solver (fs_dimension s) /\ bounded_kind (FMCL true) /\ sb_problem b = fe_name Burgers /\ ssp_method (f_ode a) /\
  0 < py_or (f_cfl a) default_cfl /\ cfl_condition eig Burgers s (py_or (f_cfl a) default_cfl) /\ fe_solver eig solver (fun _ => 7) (FMCL true) b a = Ok (c, w) /\
  exists step dt, 0 < dt /\ fe_time_step eig Advection s (o_sol (solution_of w)) = Ok step /\ step_allows step (dt / py_or (f_cfl a) default_cfl * top_speed Burgers (-1) 1).
Proof.
  set (b := burgers_benchmark (smooth_benchmark burgers_default_end)). set (a := {| f_mesh_size := Some 30%nat; f_degree := Some 3%nat; f_cfl := Some (1 / 2); f_ode := Some ssp3; f_history := true |}).
  assert (HD : ia (sb_domain b) < ib (sb_domain b)) by (cbn; pose proof PI_RGT_0; lra).
  destruct (C57_ex (sb_domain b) 30 3 Burgers (-1) 1 ltac:(lia) ltac:(lia) HD) as [eig [solver [m [s [Em [Es [H1 [H2 [H3 [H4 H5]]]]]]]]]].
  destruct (C71_fe_solvers_can_be_built eig solver (fun _ => 7) (FMCL true) b a Burgers HD eq_refl ltac:(intros; discriminate)) as [c [w [E [_ [L _]]]]].
  assert (C : py_or (f_cfl a) default_cfl = 1 / 2) by (cbn [a f_cfl py_or]; destruct (Reqb_spec (1 / 2) 0); [lra|reflexivity]).
  exists eig, solver, m, s, c, w. cbv zeta. rewrite C. do 6 (split; [assumption|]). split; [exists true; auto|]. split; [reflexivity|].
  split; [intros T HT; injection HT as <-; cbn; auto|]. split; [lra|]. split.
  - apply (C71_safe_cfl eig (sb_domain b) 30 m 3); auto; try lia. cbn [safe_cfl]. lra.
  - split; [exact E|]. destruct (H5 (o_sol (solution_of w))) as [step [dt [X [Y Z]]]].
    + rewrite L. rewrite (s_dim (sb_domain b) 30 m 3 s ltac:(lia) HD ltac:(lia) Em Es). reflexivity.
    + exists step, (dt / 2). split; [lra|]. split; [exact X|]. replace (dt / 2 / (1 / 2)) with dt by field. exact Z.
Qed.
Print Assumptions C71_safe_cfl.
Print Assumptions C71_default_cfl_keeps_bounds.
Print Assumptions C71_ex.
