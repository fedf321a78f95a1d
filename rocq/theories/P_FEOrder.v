(** C96, second part: the low order continuous Galerkin solver of the advection equation keeps the order of two solutions and never
    increases the integral of their difference. *)
From Coq Require Import Reals List ZArith Arith Lia Lra Bool String Sorted.
From Coquelicot Require Import Coquelicot.
From Verif Require Import Prelude L_Prelude M_Mesh L_Mesh M_Quadrature M_Interpolate M_Boundary L_Boundary M_Flux L_Flux M_ShallowWater
  M_ODE S_ODE L_ODE M_TimeStepping L_TimeStepping M_Solution M_Solver S_Solver L_Solver P_Solver S_Scalar L_Scalar S_Contraction L_Contraction P_Contraction M_Generate M_Misc
  M_FVSolver L_FVSolver P_Quadrature M_FE L_FE S_FE S_Solve S_FELow L_FELow P_FE P_FEMatrix P_FELow P_FEMCL P_FECG P_FERun P_FEChoice
  M_FEChoice M_Benchmark M_ScalarSolver S_ScalarSolver S_FESolver L_Invariant P_ScalarSolver L_FERates P_FESolver S_FEEntropy L_FEEntropy P_FEEntropy.
Import ListNotations.
Local Open Scope nat_scope.
Open Scope R_scope.
Local Open Scope list_scope.
Notation length := List.length.

Definition diff (u v : list R) : list R := map2 Rminus u v.
Lemma diff_length u v n : length u = n -> length v = n -> length (diff u v) = n.
Proof. intros. unfold diff. rewrite map2_length. lia. Qed.
Lemma nth_diff u v n i : length u = n -> length v = n -> (i < n)%nat -> nth i (diff u v) 0 = nth i u 0 - nth i v 0.
Proof. intros Lu Lv Hi. unfold diff. rewrite (nth_map2 _ _ _ _ 0 0 0) by lia. reflexivity. Qed.
Lemma list_eq (u v : list R) : length u = length v -> (forall i, (i < length u)%nat -> nth i u 0 = nth i v 0) -> u = v.
Proof. intros L H. rewrite (list_tab 0 u), (list_tab 0 v), <- L. apply tab_ext. exact H. Qed.

Section Scheme.
Context (eig : nat -> (nat -> nat -> R) -> (nat -> R) * (nat -> nat -> R)) (D : interval) (n : nat) (m : mesh) (p : nat) (s : fespace).
Hypothesis Hn : (0 < n)%nat.
Hypothesis HD : ia D < ib D.
Hypothesis Em : new_mesh D n = Ok m.
Hypothesis Es : new_fespace m p = Ok s.
Hypothesis HE : eig_ok eig p.
Hypothesis HE1 : eig_ok eig (p + 1).
Hypothesis H7 : (p <= 7)%nat.
Let N := fs_dimension s.

Lemma rhs_length u r : length u = N -> cg_low_rhs eig Advection s u = Ok r -> length r = N.
Proof. intros Lu E. destruct (C39_low_order_conserves eig D n m p s Advection u r Hn HD Em Es HE HE1 Lu E) as [_ [_ [X _]]]. exact X. Qed.
Lemma rhs_difference u v a b : length u = N -> length v = N -> cg_low_rhs eig Advection s u = Ok a -> cg_low_rhs eig Advection s v = Ok b ->
  cg_low_rhs eig Advection s (diff u v) = Ok (diff a b).
Proof.
  intros Lu Lv Ea Eb. assert (La := rhs_length u a Lu Ea). assert (Lb := rhs_length v b Lv Eb). assert (Ld := diff_length u v N Lu Lv).
  destruct (C37_discrete_gradient eig D n m p s Hn HD Em Es HE) as [C [EC [SK [RS _]]]].
  destruct (C37_lumped_masses eig D n m p s Hn HD Em Es HE1) as [M [mass [_ [EL [LL _]]]]].
  destruct (C39_low_order_succeeds eig D n m p s Advection (diff u v) Hn HD Em Es HE HE1 H7 Ld) as [r [_ [Er _]]]. rewrite Er. f_equal.
  assert (Lr := rhs_length _ r Ld Er).
  assert (F : forall w r, length w = N -> cg_low_rhs eig Advection s w = Ok r -> forall i, (i < N)%nat -> 0 <> nth i mass 0 /\
    nth i r 0 = off N (fun j => Rabs (C i j) * (nth j w 0 - nth i w 0) - C i j * (nth j w 0 - nth i w 0)) i / nth i mass 0).
  { intros w r' Lw E i Hi. unfold cg_low_rhs in E. rewrite EL, EC in E. cbn [bind] in E. unfold low_rhs in E. fold N in E.
    apply (mapM_nth _ _ _ 0%nat 0) in E. rewrite seq_length in E. destruct E as [_ VR].
    specialize (VR i Hi). rewrite seq_nth in VR by auto. cbn [Nat.add] in VR. rewrite (low_term N C SK (fun j _ => RS j) Advection w i Hi Lw) in VR. unfold rdiv in VR.
    destruct (Reqb_spec (nth i mass 0) 0) as [Z|Z]; [discriminate|]. apply Ok_inj in VR. split; [auto|]. rewrite <- VR. f_equal. apply off_ext. intros j Hj Hij.
    rewrite (diffusion_entry N C SK) by auto. cbn [wave_speed flux_of]. rewrite Rmax_left by lra. unfold dof. ring. }
  apply list_eq; [rewrite (diff_length a b N); auto|]. rewrite Lr. intros i Hi. rewrite (nth_diff a b N) by auto.
  destruct (F _ _ Ld Er i Hi) as [Z ->]. destruct (F _ _ Lu Ea i Hi) as [_ ->]. destruct (F _ _ Lv Eb i Hi) as [_ ->].
  assert (Q : off N (fun j => Rabs (C i j) * (nth j (diff u v) 0 - nth i (diff u v) 0) - C i j * (nth j (diff u v) 0 - nth i (diff u v) 0)) i =
    off N (fun j => Rabs (C i j) * (nth j u 0 - nth i u 0) - C i j * (nth j u 0 - nth i u 0)) i + (-1) * off N (fun j => Rabs (C i j) * (nth j v 0 - nth i v 0) - C i j * (nth j v 0 - nth i v 0)) i).
  { rewrite <- off_scal, <- off_plus. apply off_ext. intros j Hj Hij. rewrite !(nth_diff u v N) by auto. ring. }
  rewrite Q. field. auto.
Qed.

(** one step of a strong stability preserving method for two data; [Dp] is a property of the difference *)
Section Pair.
Context (T : tableau) (dt : R) (u0 : list R) (step : option R) (HTab : In T [euler; heun; ssp3]) (E0 : fe_time_step eig Advection s u0 = Ok step) (Hdt : 0 <= dt) (A : step_allows step dt).
Context (Dp : list R -> Prop).
Hypothesis Dconv : forall a b r, length a = N -> length b = N -> 0 <= r <= 1 -> Dp a -> Dp b -> Dp (map2 Rplus (map (Rmult r) a) (map (Rmult (1 - r)) b)).
Hypothesis Deuler : forall e r, length e = N -> Dp e -> cg_low_rhs eig Advection s e = Ok r -> Dp (map2 Rplus e (map (Rmult dt) r)).
Definition pair_ok lo1 hi1 lo2 hi2 (u v : list R) : Prop := length u = N /\ length v = N /\ (forall i, (i < N)%nat -> lo1 <= dof u i <= hi1) /\ (forall i, (i < N)%nat -> lo2 <= dof v i <= hi2) /\ Dp (diff u v).
Lemma comb_nth r a b i : length a = N -> length b = N -> (i < N)%nat -> nth i (map2 Rplus (map (Rmult r) a) (map (Rmult (1 - r)) b)) 0 = r * nth i a 0 + (1 - r) * nth i b 0.
Proof. intros La Lb Hi. clear - La Lb Hi. rewrite (nth_map2 _ _ _ _ 0 0 0) by (rewrite map_length; lia). rewrite !(nth_map' _ _ _ 0 0) by lia. reflexivity. Qed.
Lemma comb_length r (a b : list R) : length a = N -> length b = N -> length (map2 Rplus (map (Rmult r) a) (map (Rmult (1 - r)) b)) = N.
Proof. intros La Lb. clear - La Lb. rewrite map2_length, !map_length. lia. Qed.
Lemma pair_advances lo1 hi1 lo2 hi2 t u v : pair_ok lo1 hi1 lo2 hi2 u v ->
  exists u' v', rk_execute_e (fun _ => cg_low_rhs eig Advection s) T dt {| o_time := t; o_sol := u |} = Ok {| o_time := t + dt; o_sol := u' |} /\
    rk_execute_e (fun _ => cg_low_rhs eig Advection s) T dt {| o_time := t; o_sol := v |} = Ok {| o_time := t + dt; o_sol := v' |} /\ pair_ok lo1 hi1 lo2 hi2 u' v'.
Proof.
  intro K0. destruct (pair_step (fun _ => cg_low_rhs eig Advection s) (fun x => pair_ok lo1 hi1 lo2 hi2 (fst x) (snd x)) N dt T t u v) as [u' [v' [E1 [E2 K]]]]; auto.
  - intros x [L1 [L2 _]]. auto.
  - intros _ x w Lx E. exact (rhs_length x w Lx E).
  - intros [a1 a2] [b1 b2] r [La1 [La2 [Ra1 [Ra2 Da]]]] [Lb1 [Lb2 [Rb1 [Rb2 Db]]]] Hr. cbn [fst snd] in *. unfold pair_ok. cbn -[diff].
    split; [apply comb_length; auto|]. split; [apply comb_length; auto|]. split; [|split].
    + intros i Hi. unfold dof. rewrite comb_nth by auto. specialize (Ra1 i Hi). specialize (Rb1 i Hi). unfold dof in *. nra.
    + intros i Hi. unfold dof. rewrite comb_nth by auto. specialize (Ra2 i Hi). specialize (Rb2 i Hi). unfold dof in *. nra.
    + assert (Q := Dconv (diff a1 a2) (diff b1 b2) r (diff_length _ _ N La1 La2) (diff_length _ _ N Lb1 Lb2) Hr Da Db).
      replace (diff (map2 Rplus (map (Rmult r) a1) (map (Rmult (1 - r)) b1)) (map2 Rplus (map (Rmult r) a2) (map (Rmult (1 - r)) b2))) with
        (map2 Rplus (map (Rmult r) (diff a1 a2)) (map (Rmult (1 - r)) (diff b1 b2))); [exact Q|].
      assert (L1 := comb_length r (diff a1 a2) (diff b1 b2) (diff_length _ _ N La1 La2) (diff_length _ _ N Lb1 Lb2)).
      apply list_eq; [rewrite L1; symmetry; apply diff_length; apply comb_length; auto|]. rewrite L1. intros i Hi.
      rewrite comb_nth by (auto using diff_length). rewrite (nth_diff _ _ N) by auto. rewrite (nth_diff b1 b2 N) by auto. rewrite (nth_diff _ _ N) by (auto using comb_length). rewrite !comb_nth by auto. ring.
  - intros _ x [L1 [L2 _]]. destruct (C39_low_order_succeeds eig D n m p s Advection (fst x) Hn HD Em Es HE HE1 H7 L1) as [a [_ [X _]]].
    destruct (C39_low_order_succeeds eig D n m p s Advection (snd x) Hn HD Em Es HE HE1 H7 L2) as [b [_ [Y _]]]. eauto.
  - intros _ [x y] a b [Lx [Ly [Rx [Ry Dd]]]] Ea Eb. cbn [fst snd] in *. assert (La := rhs_length x a Lx Ea). assert (Lb := rhs_length y b Ly Eb).
    assert (Leu : forall u r, length u = N -> length r = N -> length (euler_update u r dt) = N) by (intros; unfold euler_update; rewrite map2_length; lia).
    assert (Veu : forall u r i, length u = N -> length r = N -> (i < N)%nat -> nth i (euler_update u r dt) 0 = nth i u 0 + dt * nth i r 0) by (intros u1 r i H H0 Hi; unfold euler_update; rewrite (nth_map2 _ _ _ _ 0 0 0) by lia; reflexivity).
    assert (Bd : forall u r lo hi, length u = N -> length r = N -> cg_low_rhs eig Advection s u = Ok r -> (forall i, (i < N)%nat -> lo <= dof u i <= hi) -> forall i, (i < N)%nat -> lo <= dof (euler_update u r dt) i <= hi).
    { intros u1 r lo hi Lu1 Lr Er B i Hi. unfold dof. rewrite Veu by auto.
      apply (C39_low_order_bounds eig D n m p s Advection u1 r step Hn HD Em Es HE HE1 Lu1 Er E0 dt Hdt A i lo hi Hi). intros; auto. }
    unfold pair_ok. split; [auto|]. split; [auto|]. split; [eauto|]. split; [eauto|].
    assert (Q := Deuler (diff x y) (diff a b) (diff_length _ _ N Lx Ly) Dd (rhs_difference x y a b Lx Ly Ea Eb)).
    replace (diff (euler_update x a dt) (euler_update y b dt)) with (map2 Rplus (diff x y) (map (Rmult dt) (diff a b))); [exact Q|].
    assert (L1 : length (map2 Rplus (diff x y) (map (Rmult dt) (diff a b))) = N) by (rewrite map2_length, map_length, (diff_length x y N), (diff_length a b N); auto; lia).
    apply list_eq; [rewrite L1; symmetry; apply diff_length; auto|]. rewrite L1. intros i Hi.
    rewrite (nth_map2 _ _ _ _ 0 0 0) by (rewrite ?map_length, ?(diff_length x y N), ?(diff_length a b N); auto). rewrite (nth_map' _ _ _ 0 0) by (rewrite (diff_length a b N); auto).
    rewrite !(nth_diff _ _ N) by auto. rewrite !Veu by auto. ring.
  - exists u', v'. auto.
Qed.
End Pair.
(** the two properties *)
Lemma below_diff u v : length u = N -> length v = N -> (forall x, In x (diff u v) -> x <= 0) <-> below u v.
Proof.
  intros Lu Lv. clear - Lu Lv. rewrite below_nth. assert (Ld := diff_length u v N Lu Lv). split.
  - intro H. split; [congruence|]. intros i Hi. assert (Q := H (nth i (diff u v) 0) ltac:(apply nth_In; lia)). rewrite (nth_diff u v N) in Q by (auto; lia). lra.
  - intros [_ H] x Hx. apply (In_nth _ _ 0) in Hx as [i [Hi <-]]. rewrite (nth_diff u v N) by (auto; lia). specialize (H i ltac:(lia)). lra.
Qed.
Lemma dim_pos : (0 < N)%nat.
Proof. unfold N. pose proof (space_degree m _ s Es). rewrite (s_dim D n m p s Hn HD H Em Es). nia. Qed.
Lemma nonpositive_euler dt u0 step e r : fe_time_step eig Advection s u0 = Ok step -> 0 <= dt -> step_allows step dt -> length e = N -> (forall x, In x e -> x <= 0) ->
  cg_low_rhs eig Advection s e = Ok r -> forall x, In x (map2 Rplus e (map (Rmult dt) r)) -> x <= 0.
Proof.
  intros E0 Hdt A Le Hb Er x Hx. assert (Lr := rhs_length e r Le Er). assert (NE : e <> []) by (intro Z; rewrite Z in Le; cbn in Le; pose proof dim_pos; lia).
  destruct (extremes e NE) as [lo [hi [_ [_ B]]]]. apply (In_nth _ _ 0) in Hx as [i [Hi <-]]. rewrite map2_length, map_length, Le, Lr, Nat.min_id in Hi.
  rewrite (nth_map2 _ _ _ _ 0 0 0) by (rewrite ?map_length; lia). rewrite (nth_map' _ _ _ 0 0) by lia.
  apply (C39_low_order_bounds eig D n m p s Advection e r step Hn HD Em Es HE HE1 Le Er E0 dt Hdt A i lo 0 Hi). intros j Hj _. assert (Q : In (dof e j) e) by (apply nth_In; fold N in Hj; lia).
  split; [apply B; exact Q|apply Hb; exact Q].
Qed.
Lemma convex_abs lo hi : convex_on lo hi Rabs.
Proof.
  intros x y q Hx Hy Hq. eapply Rle_trans; [apply Rabs_triang|]. rewrite !Rabs_mult, (Rabs_right q), (Rabs_right (1 - q)) by lra. lra.
Qed.
Lemma abs_euler dt u0 step mass e r : lumped_mass eig s = Ok mass -> length mass = N -> fe_time_step eig Advection s u0 = Ok step -> 0 <= dt -> step_allows step dt -> length e = N ->
  cg_low_rhs eig Advection s e = Ok r -> weighted mass Rabs (map2 Rplus e (map (Rmult dt) r)) <= weighted mass Rabs e.
Proof.
  intros EL LL E0 Hdt A Le Er. assert (NE : e <> []) by (intro Z; rewrite Z in Le; cbn in Le; pose proof dim_pos; lia).
  destruct (extremes e NE) as [lo [hi [_ [_ B]]]]. rewrite between_dofs, Le in B.
  apply (euler_entropy eig D n m p s Advection Hn HD Em Es HE HE1 mass EL LL e r step dt lo hi Rabs Le Er E0 Hdt A B). apply convex_abs.
Qed.
Lemma abs_convex mass a b r B : lumped_mass eig s = Ok mass -> length mass = N -> length a = N -> length b = N -> 0 <= r <= 1 -> weighted mass Rabs a <= B -> weighted mass Rabs b <= B ->
  weighted mass Rabs (map2 Rplus (map (Rmult r) a) (map (Rmult (1 - r)) b)) <= B.
Proof.
  intros EL LL La Lb Hr Wa Wb. assert (MP := C37_lumped_masses_positive eig D n m p s mass Hn HD Em Es HE1 H7 EL). fold N in MP.
  apply Rle_trans with (r * weighted mass Rabs a + (1 - r) * weighted mass Rabs b); [|nra].
  rewrite !(weighted_tab mass _ _ N) by (auto using comb_length). rewrite <- !rsum_tab_scal, <- rsum_tab_plus. apply rsum_tab_le. intros i Hi. rewrite comb_nth by auto.
  pose proof (MP i Hi) as M0. assert (Q : Rabs (r * nth i a 0 + (1 - r) * nth i b 0) <= r * Rabs (nth i a 0) + (1 - r) * Rabs (nth i b 0)).
  { eapply Rle_trans; [apply Rabs_triang|]. rewrite !Rabs_mult, (Rabs_right r), (Rabs_right (1 - r)) by lra. lra. }
  apply (Rmult_le_compat_l (nth i mass 0)) in Q; [|lra]. lra.
Qed.
End Scheme.

(** ** the solvers *)
Lemma low_solver eig solver old adaptive b a c w m s : ia (sb_domain b) < ib (sb_domain b) -> sb_problem b = "advection"%string -> ssp_method (f_ode a) ->
  new_mesh (sb_domain b) (used_cells a) = Ok m -> new_fespace m (used_degree a) = Ok s -> fe_solver eig solver old (FLow adaptive) b a = Ok (c, w) ->
  let u0 := initial_dofs old s (sb_initial b) in
  w = new_solver c (fun _ => u0) 1 0 (sb_start b) /\ length u0 = fs_dimension s /\ c_start c = sb_start b /\ c_end c = sb_end b /\ c_history c = f_history a /\
  c_rhs c = (fun _ => cg_low_rhs eig Advection s) /\ c_tab c = match f_ode a with Some T => T | None => heun end /\ In (c_tab c) [euler; heun; ssp3] /\ quiet_check c /\ gen_adaptive (c_gen c) = adaptive /\
  forall x, call_generator (c_gen c) x = finite_step (sb_end b - sb_start b) (py_or (f_cfl a) default_cfl) (fe_time_step eig Advection s []) * py_or (f_cfl a) default_cfl.
Proof.
  intros HD HP HM Em Es E. cbv zeta. assert (Hn := cells_pos a).
  assert (G : fe_solution old b (f_mesh_size a) (f_degree a) = Ok (s, initial_dofs old s (sb_initial b))).
  { unfold fe_solution. change (or_default (f_mesh_size a) default_mesh_size) with (used_cells a). rewrite Em. cbn [bind].
    change (or_default (f_degree a) default_polynomial_degree) with (used_degree a). rewrite Es. reflexivity. }
  cbn [fe_solver] in E. unfold limited_solver in E. rewrite G, HP in E. cbn [bind fe_problem] in E.
  assert (Gp : fe_problem "advection" = Ok Advection) by reflexivity. rewrite Gp in E. cbn [bind] in E. apply Ok_inj in E. injection E as <- <-. cbn [c_rhs c_tab c_start c_end c_history c_gen].
  split; [reflexivity|]. split; [apply (initial_length _ _ m _ s old _ Hn HD Em Es)|]. do 5 (split; [reflexivity|]).
  split; [destruct (f_ode a) as [T|] eqn:Q; [apply HM; reflexivity|cbn; auto]|]. split; [intros o Q t v; cbn [c_check] in Q; injection Q as <-; eauto|]. split; [reflexivity|].
  intros [t v]. destruct adaptive; reflexivity.
Qed.

Section Two.
Context (eig : nat -> (nat -> nat -> R) -> (nat -> R) * (nat -> nat -> R)) (solver : mat -> list R -> list R) (old : nat -> R) (finite : list R -> bool) (adaptive : bool)
  (b1 b2 : scalar_benchmark) (a : fe_args) (c1 c2 : config (list R)) (w1 w2 : world (list R)) (m : mesh) (s : fespace).
Hypotheses (HD : ia (sb_domain b1) < ib (sb_domain b1)) (HP : sb_problem b1 = "advection"%string) (SB : same_but_data b1 b2) (HM : ssp_method (f_ode a))
  (Em : new_mesh (sb_domain b1) (used_cells a) = Ok m) (Es : new_fespace m (used_degree a) = Ok s) (HE : eig_ok eig (used_degree a)) (HE1 : eig_ok eig (used_degree a + 1)) (H7 : (used_degree a <= 7)%nat)
  (C0 : 0 < py_or (f_cfl a) default_cfl <= 1) (E1 : fe_solver eig solver old (FLow adaptive) b1 a = Ok (c1, w1)) (E2 : fe_solver eig solver old (FLow adaptive) b2 a = Ok (c2, w2))
  (HF1 : forall v, inherits_bounds (o_sol (solution_of w1)) v -> finite v = true) (HF2 : forall v, inherits_bounds (o_sol (solution_of w2)) v -> finite v = true).
Let N := fs_dimension s.
Let Hn := cells_pos a.
Let u1 := initial_dofs old s (sb_initial b1).
Let u2 := initial_dofs old s (sb_initial b2).
Context (lo1 hi1 lo2 hi2 : R) (Il1 : In lo1 u1) (Ih1 : In hi1 u1) (B1 : forall x, In x u1 -> lo1 <= x <= hi1) (Il2 : In lo2 u2) (Ih2 : In hi2 u2) (B2 : forall x, In x u2 -> lo2 <= x <= hi2).
Let good (Dp : list R -> Prop) := pair_ok s Dp lo1 hi1 lo2 hi2.
Definition step_property (Dp : list R -> Prop) : Prop :=
  (forall x y r, length x = N -> length y = N -> 0 <= r <= 1 -> Dp x -> Dp y -> Dp (map2 Rplus (map (Rmult r) x) (map (Rmult (1 - r)) y))) /\
  (forall dt step e r, fe_time_step eig Advection s [] = Ok step -> 0 <= dt -> step_allows step dt -> length e = N -> Dp e -> cg_low_rhs eig Advection s e = Ok r -> Dp (map2 Rplus e (map (Rmult dt) r))).

Lemma fe_two : exists u v, u = u1 /\ v = u2 /\ w1 = new_solver c1 (fun _ => u) 1 0 (sb_start b1) /\ w2 = new_solver c2 (fun _ => v) 1 0 (sb_start b1) /\ length u = N /\ length v = N /\
  c_rhs c1 = (fun _ => cg_low_rhs eig Advection s) /\ c_rhs c2 = c_rhs c1 /\ c_tab c2 = c_tab c1 /\ In (c_tab c1) [euler; heun; ssp3] /\ quiet_check c1 /\ quiet_check c2 /\ gen_adaptive (c_gen c1) = gen_adaptive (c_gen c2) /\
  (forall x y, call_generator (c_gen c1) x = call_generator (c_gen c2) y) /\ c_start c1 = c_start c2 /\ c_end c1 = c_end c2 /\ c_history c1 = c_history c2 /\
  forall x, call_generator (c_gen c1) x = finite_step (sb_end b1 - sb_start b1) (py_or (f_cfl a) default_cfl) (fe_time_step eig Advection s []) * py_or (f_cfl a) default_cfl.
Proof.
  destruct SB as [S1 [S2 [S3 [S4 _]]]].
  destruct (low_solver eig solver old adaptive b1 a c1 w1 m s HD HP HM Em Es E1) as [X1 [X2 [X3 [X4 [X5 [X6 [X7 [X8 [X9 [X10 X11]]]]]]]]]].
  destruct (low_solver eig solver old adaptive b2 a c2 w2 m s ltac:(congruence) ltac:(congruence) HM ltac:(congruence) Es E2) as [Y1 [Y2 [Y3 [Y4 [Y5 [Y6 [Y7 [Y8 [Y9 [Y10 Y11]]]]]]]]]].
  exists u1, u2. split; [reflexivity|]. split; [reflexivity|]. split; [exact X1|]. split; [rewrite S3; exact Y1|]. split; [exact X2|]. split; [exact Y2|]. split; [exact X6|]. split; [congruence|]. split; [congruence|].
  split; [exact X8|]. split; [exact X9|]. split; [exact Y9|]. split; [congruence|]. split; [intros x y; rewrite X11, Y11, S3, S4; reflexivity|]. split; [congruence|]. split; [congruence|]. split; [congruence|]. exact X11.
Qed.
Lemma good_finite Dp u v : good Dp u v -> finite u = true /\ finite v = true.
Proof.
  intros [Lu [Lv [Ru [Rv _]]]]. destruct fe_two as [x [y [-> [-> [W1 [W2 [L1 [L2 _]]]]]]]].
  assert (O1 : o_sol (solution_of w1) = u1) by (rewrite W1; unfold solution_of, new_solver; cbn [w_mem w_sol o_sol]; rewrite store_other by lia; reflexivity).
  assert (O2 : o_sol (solution_of w2) = u2) by (rewrite W2; unfold solution_of, new_solver; cbn [w_mem w_sol o_sol]; rewrite store_other by lia; reflexivity).
  fold N in Lu, Lv, Ru, Rv. rewrite <- Lu, <- between_dofs in Ru. rewrite <- Lv, <- between_dofs in Rv. split.
  - apply HF1. rewrite O1. split; [congruence|]. intros l h Bh z Hz. specialize (Ru z Hz). pose proof (Bh lo1 Il1). pose proof (Bh hi1 Ih1). lra.
  - apply HF2. rewrite O2. split; [congruence|]. intros l h Bh z Hz. specialize (Rv z Hz). pose proof (Bh lo2 Il2). pose proof (Bh hi2 Ih2). lra.
Qed.
Lemma fe_lockstep Dp : step_property Dp -> forall h1 h2 us m1 m2 st1 st2, (forall v t, ~ In (Reinit v t) us) -> separate 1 m1 st1 -> separate 1 m2 st2 ->
  lockstep (good Dp) h1 h2 (fst st1) (fst st2) -> lockstep (good Dp) h1 h2 (fst (use_run finite c1 us st1)) (fst (use_run finite c2 us st2)).
Proof.
  intros [P1 P2] h1 h2 us m1 m2 st1 st2 HU S1 S2 K. destruct fe_two as [x [y [-> [-> [W1 [W2 [L1 [L2 [X1 [X2 [X3 [X4 [X5 [X6 [X7 [X8 [X9 [X10 [X11 X12]]]]]]]]]]]]]]]]]]].
  apply (use_lockstep finite (good Dp) c1 c2) with (m1 := m1) (m2 := m2) (N := 1%nat); auto.
  - intros u v G. apply (good_finite Dp). exact G.
  - intros dt t u v G [D1 D2]. rewrite X12 in D2. pose proof tol_pos. rewrite X2, X3, X1.
    destruct (C39_low_order_succeeds eig _ _ m _ s Advection u1 Hn HD Em Es HE HE1 H7 L1) as [_ [step [_ [Es' _]]]]. change (fe_time_step eig Advection s u1) with (fe_time_step eig Advection s []) in Es'.
    rewrite Es' in D2. assert (A : step_allows step dt).
    { destruct step as [z|]; [|exact I]. cbn [finite_step step_allows] in *. nra. }
    apply (pair_advances eig _ _ m _ s Hn HD Em Es HE HE1 H7 (c_tab c1) dt [] step X4 Es' ltac:(lra) A Dp); auto. intros e r Le De Er. apply (P2 dt step e r Es' ltac:(lra) A Le De Er).
Qed.
Lemma fe_between Dp us1 us2 : step_property Dp -> (forall v t, ~ In (Reinit v t) us1) -> (forall v t, ~ In (Reinit v t) us2) ->
  Dp (diff (o_sol (solution_of (fst (use_run finite c1 us1 (w1, []))))) (o_sol (solution_of (fst (use_run finite c2 us1 (w2, [])))))) ->
  lockstep (good Dp) (w_values (fst (use_run finite c1 us1 (w1, [])))) (w_values (fst (use_run finite c2 us1 (w2, []))))
    (fst (use_run finite c1 us2 (use_run finite c1 us1 (w1, [])))) (fst (use_run finite c2 us2 (use_run finite c2 us1 (w2, [])))).
Proof.
  intros SP H1 H2 K. destruct fe_two as [x [y [-> [-> [W1 [W2 [L1 [L2 [_ [_ [_ [_ [_ [_ [_ [_ [_ [_ [X11 _]]]]]]]]]]]]]]]]]]].
  assert (S1 : separate 1 (fun _ => u1) (w1, [])) by (rewrite W1; apply separate_new; lia). assert (S2 : separate 1 (fun _ => u2) (w2, [])) by (rewrite W2; apply separate_new; lia).
  assert (Any : lockstep (good (fun _ => True)) [] [] (fst (use_run finite c1 us1 (w1, []))) (fst (use_run finite c2 us1 (w2, [])))).
  { apply (fe_lockstep (fun _ => True)) with (m1 := fun _ => u1) (m2 := fun _ => u2); auto; [split; auto|]. cbn [fst].
    assert (G : good (fun _ => True) u1 u2). { split; [exact L1|]. split; [exact L2|]. fold N. rewrite between_dofs, L1 in B1. rewrite between_dofs, L2 in B2. auto. }
    rewrite W1, W2. unfold lockstep, in_sync, new_solver. cbn [w_mem w_next w_ode w_ode_time w_sol w_sol_time w_times w_values w_warnings]. rewrite !store_same, !store_other by lia. rewrite X11.
    split; [auto|]. split; [auto|]. split; [reflexivity|]. split; [reflexivity|]. split; [exact G|]. destruct (c_history c2); [exists [u1], [u2]; auto|exists [], []; auto]. }
  apply (fe_lockstep Dp SP) with (m1 := fun _ => u1) (m2 := fun _ => u2); auto.
  - apply (separate_run finite 1 _ c1 us1 _ S1).
  - apply (separate_run finite 1 _ c2 us1 _ S2).
  - destruct Any as [K1 [K2 [K3 [K4 [[K5 [K6 [K7 [K8 _]]]] _]]]]]. split; [exact K1|]. split; [exact K2|]. split; [exact K3|]. split; [exact K4|]. split.
    + split; [exact K5|]. split; [exact K6|]. split; [exact K7|]. split; [exact K8|]. exact K.
    + exists [], []. rewrite !app_nil_r. auto.
Qed.
Lemma fe_lengths us : (forall v t, ~ In (Reinit v t) us) -> length (o_sol (solution_of (fst (use_run finite c1 us (w1, []))))) = N /\ length (o_sol (solution_of (fst (use_run finite c2 us (w2, []))))) = N.
Proof.
  intro HU. destruct (fe_between (fun _ => True) [] us (conj (fun _ _ _ _ _ _ _ _ => I) (fun _ _ _ _ _ _ _ _ _ _ => I)) ltac:(intros v t []) HU I) as [_ [_ [_ [_ [[G1 [G2 _]] _]]]]]. split; [exact G1|exact G2].
Qed.
End Two.

(** what two solvers of the advection equation have in common *)
Definition advection_use (b : scalar_benchmark) (a : fe_args) (m : mesh) (s : fespace) : Prop :=
  ia (sb_domain b) < ib (sb_domain b) /\ sb_problem b = "advection"%string /\ ssp_method (f_ode a) /\ new_mesh (sb_domain b) (used_cells a) = Ok m /\ new_fespace m (used_degree a) = Ok s /\
  (used_degree a <= 7)%nat /\ 0 < py_or (f_cfl a) default_cfl <= 1.

(** Two low order solvers for advection with different data run through the same program (everything but reinitialisation, [us1] and then [us2]):
    they are at the same time, and if the nodal values of the first were below those of the second after [us1], so they are after [us2] and in all
    entries that were added to the histories meanwhile. *)
Theorem C96_advection_keeps_order : forall eig solver old finite adaptive b1 b2 a c1 w1 c2 w2 m s us1 us2,
  advection_use b1 a m s -> same_but_data b1 b2 -> eig_ok eig (used_degree a) -> eig_ok eig (used_degree a + 1) ->
  fe_solver eig solver old (FLow adaptive) b1 a = Ok (c1, w1) -> fe_solver eig solver old (FLow adaptive) b2 a = Ok (c2, w2) ->
  (forall v, inherits_bounds (o_sol (solution_of w1)) v \/ inherits_bounds (o_sol (solution_of w2)) v -> finite v = true) ->
  (forall v t, ~ In (Reinit v t) (us1 ++ us2)) ->
  let before1 := use_run finite c1 us1 (w1, []) in let after1 := use_run finite c1 us2 before1 in
  let before2 := use_run finite c2 us1 (w2, []) in let after2 := use_run finite c2 us2 before2 in
  below (o_sol (solution_of (fst before1))) (o_sol (solution_of (fst before2))) ->
  o_time (solution_of (fst after1)) = o_time (solution_of (fst after2)) /\ below (o_sol (solution_of (fst after1))) (o_sol (solution_of (fst after2))) /\
  w_times (fst after1) = w_times (fst after2) /\
  exists l1 l2, w_values (fst after1) = w_values (fst before1) ++ l1 /\ w_values (fst after2) = w_values (fst before2) ++ l2 /\ Forall2 below l1 l2.
Proof.
  intros eig solver old finite adaptive b1 b2 a c1 w1 c2 w2 m s us1 us2 [HD [HP [HM [Em [Es [H7 C0]]]]]] SB HE HE1 E1 E2 HF HU. cbv zeta. intro K.
  assert (Hn := cells_pos a). set (N := fs_dimension s). assert (SB' := SB). destruct SB' as [S1 [S2 [S3 [S4 _]]]].
  assert (L1 : length (initial_dofs old s (sb_initial b1)) = N) by (apply (initial_length _ _ m _ s old _ Hn HD Em Es)).
  assert (L2 : length (initial_dofs old s (sb_initial b2)) = N) by (apply (initial_length _ _ m _ s old _ Hn HD Em Es)).
  assert (NP := dim_pos _ _ m _ s Hn HD Em Es H7). fold N in NP.
  destruct (extremes (initial_dofs old s (sb_initial b1))) as [lo1 [hi1 [A1 [A2 A3]]]]; [intro Z; rewrite Z in L1; cbn in L1; lia|].
  destruct (extremes (initial_dofs old s (sb_initial b2))) as [lo2 [hi2 [A4 [A5 A6]]]]; [intro Z; rewrite Z in L2; cbn in L2; lia|].
  assert (HU1 : forall v t, ~ In (Reinit v t) us1) by (intros v t Q; apply (HU v t), in_or_app; auto). assert (HU2 : forall v t, ~ In (Reinit v t) us2) by (intros v t Q; apply (HU v t), in_or_app; auto).
  assert (HF1 : forall v, inherits_bounds (o_sol (solution_of w1)) v -> finite v = true) by (intros; apply HF; auto).
  assert (HF2 : forall v, inherits_bounds (o_sol (solution_of w2)) v -> finite v = true) by (intros; apply HF; auto).
  assert (SP : step_property eig s (fun e => forall x, In x e -> x <= 0)).
  { split.
    - intros x y r Lx Ly Hr Dx Dy z Hz. apply (In_nth _ _ 0) in Hz as [i [Hi <-]]. rewrite (comb_length s r x y Lx Ly) in Hi. rewrite (comb_nth s) by auto.
      assert (nth i x 0 <= 0) by (apply Dx, nth_In; fold N in Lx; lia). assert (nth i y 0 <= 0) by (apply Dy, nth_In; fold N in Ly; lia). nra.
    - intros dt step e r E0 Hdt A Le De Er. apply (nonpositive_euler eig _ _ m _ s Hn HD Em Es HE HE1 H7 dt [] step e r E0 Hdt A Le De Er). }
  destruct (fe_lengths eig solver old finite adaptive b1 b2 a c1 c2 w1 w2 m s HD HP SB HM Em Es HE HE1 H7 C0 E1 E2 HF1 HF2 lo1 hi1 lo2 hi2 A1 A2 A3 A4 A5 A6 us1 HU1) as [Lb1 Lb2].
  destruct (fe_between eig solver old finite adaptive b1 b2 a c1 c2 w1 w2 m s HD HP SB HM Em Es HE HE1 H7 C0 E1 E2 HF1 HF2 lo1 hi1 lo2 hi2 A1 A2 A3 A4 A5 A6 (fun e => forall x, In x e -> x <= 0) us1 us2 SP HU1 HU2) as [_ [_ [T [TT [G [l1 [l2 [G1 [G2 G3]]]]]]]]].
  - apply (below_diff s); auto.
  - assert (Bl : forall u v, pair_ok s (fun e => forall x, In x e -> x <= 0) lo1 hi1 lo2 hi2 u v -> below u v) by (intros u v [Lu [Lv [_ [_ Dd]]]]; apply (below_diff s); auto).
    split; [exact T|]. split; [apply Bl; exact G|]. split; [exact TT|]. exists l1, l2. split; [exact G1|]. split; [exact G2|]. clear - G3 Bl. induction G3; constructor; auto.
Qed.
Print Assumptions C96_advection_keeps_order.

(** The same with the integral of the (interpolated) distance of the two solutions: it never grows. *)
Theorem C96_advection_distance_never_grows : forall eig solver old finite adaptive b1 b2 a c1 w1 c2 w2 m s us1 us2,
  advection_use b1 a m s -> same_but_data b1 b2 -> eig_ok eig (used_degree a) -> eig_ok eig (used_degree a + 1) ->
  fe_solver eig solver old (FLow adaptive) b1 a = Ok (c1, w1) -> fe_solver eig solver old (FLow adaptive) b2 a = Ok (c2, w2) ->
  (forall v, inherits_bounds (o_sol (solution_of w1)) v \/ inherits_bounds (o_sol (solution_of w2)) v -> finite v = true) ->
  (forall v t, ~ In (Reinit v t) (us1 ++ us2)) ->
  let before1 := use_run finite c1 us1 (w1, []) in let after1 := use_run finite c1 us2 before1 in
  let before2 := use_run finite c2 us1 (w2, []) in let after2 := use_run finite c2 us2 before2 in
  let difference := map2 Rminus (o_sol (solution_of (fst before1))) (o_sol (solution_of (fst before2))) in
  o_time (solution_of (fst after1)) = o_time (solution_of (fst after2)) /\ w_times (fst after1) = w_times (fst after2) /\
  no_more m s Rabs difference (map2 Rminus (o_sol (solution_of (fst after1))) (o_sol (solution_of (fst after2)))) /\
  exists l1 l2, w_values (fst after1) = w_values (fst before1) ++ l1 /\ w_values (fst after2) = w_values (fst before2) ++ l2 /\
    Forall2 (fun u v => no_more m s Rabs difference (map2 Rminus u v)) l1 l2.
Proof.
  intros eig solver old finite adaptive b1 b2 a c1 w1 c2 w2 m s us1 us2 [HD [HP [HM [Em [Es [H7 C0]]]]]] SB HE HE1 E1 E2 HF HU. cbv zeta.
  assert (Hn := cells_pos a). set (N := fs_dimension s). assert (SB' := SB). destruct SB' as [S1 [S2 [S3 [S4 _]]]].
  assert (L1 : length (initial_dofs old s (sb_initial b1)) = N) by (apply (initial_length _ _ m _ s old _ Hn HD Em Es)).
  assert (L2 : length (initial_dofs old s (sb_initial b2)) = N) by (apply (initial_length _ _ m _ s old _ Hn HD Em Es)).
  assert (NP := dim_pos _ _ m _ s Hn HD Em Es H7). fold N in NP.
  destruct (extremes (initial_dofs old s (sb_initial b1))) as [lo1 [hi1 [A1 [A2 A3]]]]; [intro Z; rewrite Z in L1; cbn in L1; lia|].
  destruct (extremes (initial_dofs old s (sb_initial b2))) as [lo2 [hi2 [A4 [A5 A6]]]]; [intro Z; rewrite Z in L2; cbn in L2; lia|].
  assert (HU1 : forall v t, ~ In (Reinit v t) us1) by (intros v t Q; apply (HU v t), in_or_app; auto). assert (HU2 : forall v t, ~ In (Reinit v t) us2) by (intros v t Q; apply (HU v t), in_or_app; auto).
  assert (HF1 : forall v, inherits_bounds (o_sol (solution_of w1)) v -> finite v = true) by (intros; apply HF; auto).
  assert (HF2 : forall v, inherits_bounds (o_sol (solution_of w2)) v -> finite v = true) by (intros; apply HF; auto).
  destruct (C37_lumped_masses eig _ _ m _ s Hn HD Em Es HE1) as [M [mass [_ [EL [LL _]]]]]. fold N in LL.
  set (x := o_sol (solution_of (fst (use_run finite c1 us1 (w1, []))))). set (y := o_sol (solution_of (fst (use_run finite c2 us1 (w2, []))))).
  assert (SP : step_property eig s (fun e => weighted mass Rabs e <= weighted mass Rabs (diff x y))).
  { split.
    - intros u v r Lu Lv Hr Du Dv. apply (abs_convex eig _ _ m _ s Hn HD Em Es HE1 H7 mass); auto.
    - intros dt step e r E0 Hdt A Le De Er. eapply Rle_trans; [|exact De]. apply (abs_euler eig _ _ m _ s Hn HD Em Es HE HE1 H7 dt [] step mass); auto. }
  destruct (fe_lengths eig solver old finite adaptive b1 b2 a c1 c2 w1 w2 m s HD HP SB HM Em Es HE HE1 H7 C0 E1 E2 HF1 HF2 lo1 hi1 lo2 hi2 A1 A2 A3 A4 A5 A6 us1 HU1) as [Lb1 Lb2].
  destruct (fe_between eig solver old finite adaptive b1 b2 a c1 c2 w1 w2 m s HD HP SB HM Em Es HE HE1 H7 C0 E1 E2 HF1 HF2 lo1 hi1 lo2 hi2 A1 A2 A3 A4 A5 A6 _ us1 us2 SP HU1 HU2) as [_ [_ [T [TT [G [l1 [l2 [G1 [G2 G3]]]]]]]]].
  - fold x y. right. reflexivity.
  - fold x in Lb1. fold y in Lb2. fold N in Lb1, Lb2. assert (Bl : forall u v, pair_ok s (fun e => weighted mass Rabs e <= weighted mass Rabs (diff x y)) lo1 hi1 lo2 hi2 u v -> no_more m s Rabs (diff x y) (diff u v)).
    { intros u v [Lu [Lv [_ [_ Dd]]]]. apply (weighted_no_more eig _ _ m _ s Hn HD Em Es HE1 mass EL); auto using diff_length. }
    split; [exact T|]. split; [exact TT|]. split; [apply Bl; exact G|]. exists l1, l2. split; [exact G1|]. split; [exact G2|]. clear - G3 Bl. induction G3; constructor; [apply Bl|]; auto.
Qed.
Print Assumptions C96_advection_distance_never_grows.

(** Two hills, one twice as high as the other: cubic elements. *)
Definition hill (h : R) : scalar_benchmark :=
  {| sb_problem := "advection"; sb_domain := {| ia := 0; ib := 1 |}; sb_start := 0; sb_end := 3; sb_conditions := ["periodic"%string]; sb_inflow_left := fun _ => 0; sb_inflow_right := fun _ => 0;
     sb_initial := fun x => h * (x * (1 - x)) |}.
Example C96_ex_order : exists eig solver m s c1 w1 c2 w2,
  let a := {| f_mesh_size := Some 30%nat; f_degree := Some 3%nat; f_cfl := None; f_ode := Some ssp3; f_history := true |} in
  advection_use (hill 1) a m s /\ same_but_data (hill 1) (hill 2) /\ eig_ok eig (used_degree a) /\ eig_ok eig (used_degree a + 1) /\
  fe_solver eig solver (fun _ => 7) (FLow true) (hill 1) a = Ok (c1, w1) /\ fe_solver eig solver (fun _ => 7) (FLow true) (hill 2) a = Ok (c2, w2) /\
  below (o_sol (solution_of w1)) (o_sol (solution_of w2)).
Proof.
  set (a := {| f_mesh_size := Some 30%nat; f_degree := Some 3%nat; f_cfl := None; f_ode := Some ssp3; f_history := true |}).
  assert (HD : ia (sb_domain (hill 1)) < ib (sb_domain (hill 1))) by (cbn; lra).
  destruct (C57_ex (sb_domain (hill 1)) 30 3 Advection (-1) 1 ltac:(lia) ltac:(lia) HD) as [eig [solver [m [s [Em [Es [H1 [H2 _]]]]]]]].
  destruct (C71_fe_solvers_can_be_built eig solver (fun _ => 7) (FLow true) (hill 1) a Advection HD eq_refl ltac:(intros; discriminate)) as [c1 [w1 [E1 [_ [L1 V1]]]]].
  destruct (C71_fe_solvers_can_be_built eig solver (fun _ => 7) (FLow true) (hill 2) a Advection HD eq_refl ltac:(intros; discriminate)) as [c2 [w2 [E2 [_ [L2 V2]]]]].
  exists eig, solver, m, s, c1, w1, c2, w2. cbv zeta. split.
  - split; [exact HD|]. split; [reflexivity|]. split; [intros T HT; injection HT as <-; cbn; auto|]. split; [exact Em|]. split; [exact Es|]. split; [cbn; lia|]. cbn [a f_cfl py_or]. unfold default_cfl. lra.
  - split; [repeat split|]. split; [assumption|]. split; [assumption|]. split; [exact E1|]. split; [exact E2|].
    apply below_nth. split; [congruence|]. intros i Hi. rewrite L1 in Hi. rewrite V1, V2 by exact Hi. cbn [hill sb_initial sb_domain ia ib].
    set (x := 0 + INR i * _). assert (0 <= x <= 1). { clear - Hi. subst x. change (used_cells a) with 30%nat in *. change (used_degree a) with 3%nat in *.
      assert (INR i <= 90) by (replace 90 with (INR 90) by (cbn; lra); apply le_INR; lia). pose proof (pos_INR i). replace (INR 30) with 30 by (cbn; lra). replace (INR 3) with 3 by (cbn; lra). lra. }
    nra.
Qed.
Print Assumptions C96_ex_order.
