(** C86, continued: the low order and the limited finite element solver (degree 1). *)
From Coq Require Import Reals List ZArith Arith Lia Lra Psatz Bool String Sorted.
From Coquelicot Require Import Coquelicot.
From Verif Require Import Prelude L_Prelude M_Mesh L_Mesh M_Quadrature M_Interpolate M_Boundary L_Boundary M_Flux L_Flux M_ShallowWater
  M_ODE S_ODE L_ODE M_TimeStepping L_TimeStepping M_Solution M_Solver S_Solver L_Solver P_Solver M_Generate M_Misc
  M_FVSolver L_FVSolver P_Quadrature S_Quadrature L_Lagrange M_FE L_FE S_FE S_Solve S_FELow L_FELow P_FE P_FEMatrix P_FELow P_FEMCL P_FECG P_FERun P_FEChoice
  M_FEChoice M_Benchmark M_ScalarSolver S_ScalarSolver S_FESolver L_Invariant P_ScalarSolver L_FERates P_FESolver S_Scalar L_Scalar S_Variation L_Variation P_Variation.
Import ListNotations.
Local Open Scope nat_scope.
Open Scope R_scope.
Local Open Scope list_scope.
Notation length := List.length.

Lemma off_two N f i a b : (i < N)%nat -> (a < N)%nat -> (b < N)%nat -> a <> b -> i <> a -> i <> b ->
  (forall j, (j < N)%nat -> i <> j -> j <> a -> j <> b -> f j = 0) -> off N f i = f a + f b.
Proof.
  intros Hi Ha Hb Nab Nia Nib H. unfold off.
  rewrite (sum_ext N _ (fun j => delta j a * f j + delta j b * f j)).
  - rewrite rsum_tab_plus, (sum_delta N a f), (sum_delta N b f) by auto. reflexivity.
  - intros j Hj. unfold delta. destruct (Nat.eqb_spec i j), (Nat.eqb_spec j a), (Nat.eqb_spec j b); subst; try congruence; try ring.
    rewrite H by auto. ring.
Qed.
Lemma off_one N f i a : (a < N)%nat -> i <> a -> (forall j, (j < N)%nat -> i <> j -> 0 <= f j) -> f a <= off N f i.
Proof.
  intros Ha Nia H. unfold off. rewrite <- (sum_delta N a f) by auto. apply rsum_tab_le. intros j Hj. unfold delta.
  destruct (Nat.eqb_spec i j), (Nat.eqb_spec j a); subst; try congruence; try lra. specialize (H j Hj n). lra.
Qed.

Section Step.
Context (eig : nat -> (nat -> nat -> R) -> (nat -> R) * (nat -> nat -> R)) (D : interval) (n : nat) (m : mesh) (s : fespace) (pr : problem).
Hypothesis Hn : (2 <= n)%nat.
Hypothesis HD : ia D < ib D.
Hypothesis Em : new_mesh D n = Ok m.
Hypothesis Es : new_fespace m 1 = Ok s.
Hypothesis HE : eig_ok eig 1.
Hypothesis HE1 : eig_ok eig 2.
Lemma Hn' : (0 < n)%nat. Proof. lia. Qed.

Lemma dimension_1 : fs_dimension s = n.
Proof. rewrite (s_dim D n m 1 s Hn' HD ltac:(lia) Em Es). lia. Qed.
Lemma share_1 i j : share s i j -> (i < n)%nat -> (j < n)%nat -> j = i \/ j = (S i mod n)%nat \/ i = (S j mod n)%nat.
Proof.
  intros [c [a [b [Hc [Ha [Hb [Ei Ej]]]]]]] Hi Hj. rewrite (s_len D n m 1 s Hn' HD ltac:(lia) Em Es) in Hc.
  assert (SD := s_degree D n m 1 s Hn' HD ltac:(lia) Em Es). rewrite SD in Ha. rewrite SD in Hb.
  assert (NV := num_val D n m 1 s Hn' HD (le_n 1) Em Es). rewrite NV in Ei by (clear - Hc Ha; lia). rewrite NV in Ej by (clear - Hc Hb; lia).
  assert (V : forall k x, (k <= 1)%nat -> (if Nat.eqb (c * 1 + k) (n * 1) then 0 else c * 1 + k)%nat = x -> x = ((c + k) mod n)%nat).
  { intros k x Hk <-. destruct (Nat.eqb_spec (c * 1 + k) (n * 1)) as [Q|Q].
    - replace (c + k)%nat with n by lia. rewrite Nat.mod_same by lia. reflexivity.
    - rewrite Nat.mod_small by lia. lia. }
  apply V in Ei; [|lia]. apply V in Ej; [|lia].
  assert (Sc : (S (c mod n) mod n = (c + 1) mod n)%nat) by (rewrite <- (Nat.add_1_r (c mod n)), Nat.add_mod_idemp_l by lia; reflexivity).
  destruct a as [|[|a]], b as [|[|b]]; try lia; rewrite ?Nat.add_0_r in *; subst i j; rewrite ?Sc; auto.
Qed.

(** the neighbours of node i *)
Let nx i := (S i mod n)%nat.
Let pv i := ((i + n - 1) mod n)%nat.
Lemma neighbours_1 i : (i < n)%nat -> (nx i < n)%nat /\ (pv i < n)%nat /\ nx i <> i /\ pv i <> i /\ nx (pv i) = i /\ pv (nx i) = i.
Proof.
  intro Hi. unfold nx, pv.
  assert (A : forall k, (k mod n < n)%nat) by (intro k; apply Nat.mod_upper_bound; lia).
  destruct (Nat.eq_dec (S i) n) as [Q|Q].
  - rewrite Q, Nat.mod_same by lia. rewrite (Nat.mod_small (0 + n - 1)) by lia. replace (i + n - 1)%nat with ((i - 1) + 1 * n)%nat by lia. rewrite Nat.mod_add, (Nat.mod_small (i - 1)) by lia.
    replace (S (i - 1)) with i by lia. rewrite (Nat.mod_small i) by lia. repeat split; lia.
  - rewrite (Nat.mod_small (S i)) by lia. replace (S i + n - 1)%nat with (i + 1 * n)%nat by lia. rewrite Nat.mod_add, (Nat.mod_small i) by lia.
    destruct (Nat.eq_dec i 0) as [-> |Q0].
    + rewrite (Nat.mod_small (0 + n - 1)) by lia. replace (S (0 + n - 1)) with n by lia. rewrite Nat.mod_same by lia. repeat split; lia.
    + replace (i + n - 1)%nat with ((i - 1) + 1 * n)%nat by lia. rewrite Nat.mod_add, (Nat.mod_small (i - 1)) by lia. replace (S (i - 1)) with i by lia. rewrite (Nat.mod_small i) by lia. repeat split; lia.
Qed.
Lemma share_near i j : share s i j -> (i < n)%nat -> (j < n)%nat -> i <> j -> j = nx i \/ j = pv i.
Proof.
  intros H Hi Hj N. destruct (share_1 i j H Hi Hj) as [Q|[Q|Q]]; [congruence|left; exact Q|right].
  destruct (neighbours_1 j Hj) as [_ [_ [_ [_ [_ X]]]]]. unfold nx in X at 1. rewrite <- Q in X. symmetry. exact X.
Qed.

(** a local maximum principle for the doubled step *)
Lemma local_half_variation u r dt : length u = n -> length r = n ->
  (forall i lo hi, (i < n)%nat -> (forall j, (j < n)%nat -> share s i j -> lo <= dof u j <= hi) -> lo <= dof u i + 2 * dt * dof r i <= hi) ->
  variation (euler_update u r dt) <= variation u.
Proof.
  intros Lu Lr H. set (e := tab (S (S n)) (fun j => cyc u (j + n - 1))).
  apply (half_step_variation u _ e n); auto; [| lia | |].
  - unfold euler_update. rewrite map2_length. lia.
  - split; [unfold e; rewrite tab_length; lia|]. intros j Hj. rewrite Lu in *. unfold e. rewrite nth_tab by lia. reflexivity.
  - intros i Hi. rewrite nth_euler_update by lia. replace (nth i u 0 + 2 * (nth i u 0 + dt * nth i r 0 - nth i u 0)) with (dof u i + 2 * dt * dof r i) by (unfold dof; ring).
    unfold in_local_bounds, e. rewrite !nth_tab by lia.
    assert (V0 : cyc u (i + n - 1) = dof u (pv i)) by (unfold cyc, dof, pv; rewrite Lu; reflexivity).
    assert (V1 : cyc u (S i + n - 1) = dof u i). { unfold cyc, dof. rewrite Lu. replace (S i + n - 1)%nat with (i + 1 * n)%nat by lia. rewrite Nat.mod_add, Nat.mod_small by lia. reflexivity. }
    assert (V2 : cyc u (S (S i) + n - 1) = dof u (nx i)). { unfold cyc, dof, nx. rewrite Lu. replace (S (S i) + n - 1)%nat with (S i + 1 * n)%nat by lia. rewrite Nat.mod_add by lia. reflexivity. }
    rewrite V0, V1, V2. apply H; [exact Hi|]. intros j Hj Sh.
    pose proof (Rmin_l (dof u (pv i)) (Rmin (dof u i) (dof u (nx i)))). pose proof (Rmin_r (dof u (pv i)) (Rmin (dof u i) (dof u (nx i)))).
    pose proof (Rmin_l (dof u i) (dof u (nx i))). pose proof (Rmin_r (dof u i) (dof u (nx i))).
    pose proof (Rmax_l (dof u (pv i)) (Rmax (dof u i) (dof u (nx i)))). pose proof (Rmax_r (dof u (pv i)) (Rmax (dof u i) (dof u (nx i)))).
    pose proof (Rmax_l (dof u i) (dof u (nx i))). pose proof (Rmax_r (dof u i) (dof u (nx i))).
    destruct (Nat.eq_dec i j) as [<-|N]; [lra|]. destruct (share_near i j Sh Hi Hj N) as [-> | ->]; lra.
Qed.
Lemma mcl_step_variation u r step dt : length u = n -> M_FE.mcl_rhs eig pr s u = Ok r -> fe_time_step eig pr s u = Ok step -> 0 <= dt -> step_allows step (2 * dt) ->
  variation (euler_update u r dt) <= variation u.
Proof.
  intros Lu Er Est Hdt Hs. rewrite <- dimension_1 in Lu.
  destruct (C40_mcl_conserves eig D n m 1 s pr u r Hn' HD Em Es HE HE1 Lu Er) as [_ [_ [Lr _]]].
  pose proof (C40_mcl_bounds eig D n m 1 s pr u r step Hn HD Em Es HE HE1 Lu Er Est (2 * dt) ltac:(lra) Hs) as B. rewrite dimension_1 in *.
  apply local_half_variation; auto.
Qed.

(** the low order scheme with the full step *)
Lemma low_step_variation u r step dt : length u = n -> cg_low_rhs eig pr s u = Ok r -> fe_time_step eig pr s u = Ok step -> 0 < dt -> step_allows step dt ->
  variation (euler_update u r dt) <= variation u.
Proof.
  intros Lu Er Est Hdt Hs. pose proof dimension_1 as DN.
  assert (Lr : length r = n). { rewrite <- DN in Lu. destruct (C39_low_order_conserves eig D n m 1 s pr u r Hn' HD Em Es HE HE1 Lu Er) as [_ [_ [Lr _]]]. congruence. }
  assert (Lx : length (euler_update u r dt) = n) by (unfold euler_update; rewrite map2_length; lia).
  destruct (Nat.eq_dec n 2) as [N2|N2].
  { (* two nodes: the local bounds suffice *)
    assert (B : forall i, (i < n)%nat -> Rmin (dof u 0) (dof u 1) <= dof (euler_update u r dt) i <= Rmax (dof u 0) (dof u 1)).
    { intros i Hi. replace (dof (euler_update u r dt) i) with (dof u i + dt * dof r i) by (unfold dof; rewrite nth_euler_update by lia; reflexivity). rewrite <- DN in Lu, Hi.
      apply (C39_low_order_bounds eig D n m 1 s pr u r step Hn' HD Em Es HE HE1 Lu Er Est dt ltac:(lra) Hs i _ _ Hi). intros j Hj _. rewrite DN in Hj.
      destruct j as [|[|j]]; [split; [apply Rmin_l|apply Rmax_l]|split; [apply Rmin_r|apply Rmax_r]|lia]. }
    assert (B0 := B 0%nat ltac:(lia)). assert (B1 := B 1%nat ltac:(lia)).
    assert (V2 : forall z, length z = 2%nat -> variation z = 2 * Rabs (dof z 1 - dof z 0)).
    { intros z Lz. unfold variation. rewrite Lz. cbn [seq map rsum fold_right]. change (1 mod 2)%nat with 1%nat. change (2 mod 2)%nat with 0%nat. unfold dof.
      rewrite (Rabs_minus_sym (nth 0 z 0) (nth 1 z 0)). unfold rsum. cbn. ring. }
    rewrite N2 in *. rewrite !V2 by auto. revert B0 B1. unfold Rmin, Rmax, Rabs. repeat destruct Rle_dec; repeat destruct Rcase_abs; lra. }
  destruct (C37_discrete_gradient eig D n m 1 s Hn' HD Em Es HE) as [C [EC [SK [RS [CS [LOC _]]]]]].
  destruct (C37_lumped_masses eig D n m 1 s Hn' HD Em Es HE1) as [M [mass [_ [EL [LL _]]]]]. rewrite DN in *.
  set (d := diffusion pr n C u).
  set (sl := fun i j => match pr with Advection => 1 | Burgers => (dof u i + dof u j) / 2 end).
  set (e := fun i j => d i j - C i j * sl i j).
  assert (MS : forall i, (i < n)%nat -> 0 < nth i mass 0 /\ 2 * dt * Rabs (d i i) <= nth i mass 0).
  { intros i Hi. rewrite <- DN in Hi. destruct (step_masses eig pr s u mass C step EL EC Est dt Hdt Hs i Hi) as [A B]. unfold d. rewrite DN in B. auto. }
  assert (He : forall i j, i <> j -> 0 <= e i j <= 2 * d i j).
  { intros i j Hij. unfold e. assert (B : Rabs (sl i j) <= Rmax (wave_speed pr (dof u i)) (wave_speed pr (dof u j))).
    { unfold sl. destruct pr; cbn [wave_speed]; [rewrite Rabs_R1, Rmax_left; lra|]. unfold Rdiv. rewrite Rabs_mult, (Rabs_right (/ 2)) by lra.
      pose proof (Rabs_triang (dof u i) (dof u j)). pose proof (Rmax_l (Rabs (dof u i)) (Rabs (dof u j))). pose proof (Rmax_r (Rabs (dof u i)) (Rabs (dof u j))). lra. }
    assert (A : Rabs (C i j * sl i j) <= d i j).
    { unfold d. rewrite (diffusion_entry n C SK) by auto. rewrite Rabs_mult. apply Rmult_le_compat_l; [apply Rabs_pos|exact B]. }
    pose proof (Rle_abs (C i j * sl i j)). pose proof (Rle_abs (- (C i j * sl i j))) as Y. rewrite Rabs_Ropp in Y. lra. }
  assert (Hsum : forall i j, i <> j -> e i j + e j i = 2 * d i j).
  { intros i j Hij. unfold e. assert (d j i = d i j) by (unfold d; symmetry; apply diffusion_sym; auto).
    assert (sl j i = sl i j) by (unfold sl; destruct pr; [reflexivity|field]). rewrite H, H0. specialize (SK j i). rewrite SK. ring. }
  assert (Upd : forall i, (i < n)%nat -> nth i r 0 = off n (fun j => e i j * (dof u j - dof u i)) i / nth i mass 0).
  { intros i Hi. unfold cg_low_rhs in Er. rewrite EL, EC in Er. cbn [bind] in Er. unfold low_rhs in Er. rewrite DN in Er.
    apply (mapM_nth _ _ _ 0%nat 0) in Er. rewrite seq_length in Er. destruct Er as [_ VR]. specialize (VR i Hi). rewrite seq_nth in VR by auto. cbn [Nat.add] in VR.
    rewrite (low_term n C SK (fun j _ => RS j) pr u i Hi Lu) in VR. destruct (MS i Hi) as [Mi _]. rewrite rdiv_ne in VR by lra. apply Ok_inj in VR. rewrite <- VR. f_equal.
    apply off_ext. intros j Hj Hij. unfold e, d, sl. destruct pr; cbn [flux_of]; field. }
  assert (Two : forall i, (i < n)%nat -> off n (fun j => e i j * (dof u j - dof u i)) i = e i (nx i) * (dof u (nx i) - dof u i) + e i (pv i) * (dof u (pv i) - dof u i)).
  { intros i Hi. destruct (neighbours_1 i Hi) as [A1 [A2 [A3 [A4 [A5 A6]]]]]. apply (off_two n (fun j => e i j * (dof u j - dof u i)) i (nx i) (pv i)); auto.
    - intro Q. (* three nodes at least *) unfold nx, pv in Q. destruct (Nat.eq_dec (S i) n) as [Z|Z].
      + rewrite Z, Nat.mod_same in Q by lia. replace (i + n - 1)%nat with ((i - 1) + 1 * n)%nat in Q by lia. rewrite Nat.mod_add, Nat.mod_small in Q by lia. lia.
      + rewrite (Nat.mod_small (S i)) in Q by lia. destruct (Nat.eq_dec i 0) as [-> |Z0]; [rewrite Nat.mod_small in Q by lia; lia|].
        replace (i + n - 1)%nat with ((i - 1) + 1 * n)%nat in Q by lia. rewrite Nat.mod_add, Nat.mod_small in Q by lia. lia.
    - intros j Hj Hij J1 J2. assert (N0 : C i j = 0). { apply LOC. intro Sh. destruct (share_near i j Sh Hi Hj Hij); congruence. }
      assert (d i j = 0) by (unfold d; apply diffusion_zero; auto). pose proof (He i j Hij). assert (e i j = 0) by lra. rewrite H1. ring. }
  assert (Dn : forall i j, (i < n)%nat -> (j < n)%nat -> i <> j -> 2 * dt * d i j <= nth i mass 0).
  { intros i j Hi Hj Hij. destruct (MS i Hi) as [_ B]. eapply Rle_trans; [|exact B]. apply Rmult_le_compat_l; [lra|]. unfold d. rewrite (diffusion_abs_diag n C SK) by auto. fold d.
    apply off_one; auto. intros k Hk Hik. pose proof (He i k Hik). lra. }
  apply (incremental u _ n (fun i => dt / nth i mass 0 * e i (nx i)) (fun i => dt / nth i mass 0 * e i (pv i))); auto; [lia | | |].
  - intros i Hi. destruct (MS i Hi) as [Mi _]. destruct (neighbours_1 i Hi) as [A1 [A2 [A3 [A4 _]]]].
    assert (0 <= dt / nth i mass 0) by (apply Rlt_le, Rdiv_lt_0_compat; lra). split; apply Rmult_le_pos; auto; apply He; auto.
  - intros i Hi. destruct (neighbours_1 i Hi) as [A1 [A2 [A3 [A4 [A5 A6]]]]]. change (S i mod n)%nat with (nx i). rewrite A6.
    destruct (MS i Hi) as [Mi _]. destruct (MS _ A1) as [Mj _]. pose proof (Dn i (nx i) Hi A1 ltac:(auto)) as D1. pose proof (Dn (nx i) i A1 Hi A3) as D2.
    assert (DS : d (nx i) i = d i (nx i)) by (unfold d; symmetry; apply diffusion_sym; auto). rewrite DS in D2.
    pose proof (He i (nx i) ltac:(auto)) as E1. pose proof (He (nx i) i A3) as E2. pose proof (Hsum i (nx i) ltac:(auto)) as E3.
    set (a := e i (nx i)) in *. set (b := e (nx i) i) in *. set (dd := d i (nx i)) in *. set (mi := nth i mass 0) in *. set (mj := nth (nx i) mass 0) in *.
    assert (K : forall x mu, 0 <= x -> 0 < mu -> 2 * dt * dd <= mu -> 0 < dd -> dt / mu * x <= x / (2 * dd)).
    { intros x mu Hx Hmu Hle Hdd. apply (Rmult_le_reg_r (mu * (2 * dd))); [nra|]. replace (dt / mu * x * (mu * (2 * dd))) with (x * (2 * dt * dd)) by (field; lra).
      replace (x / (2 * dd) * (mu * (2 * dd))) with (x * mu) by (field; lra). apply Rmult_le_compat_l; lra. }
    destruct (Req_dec dd 0) as [Z|Z].
    + assert (a = 0) by lra. assert (b = 0) by lra. rewrite H, H0. lra.
    + assert (Pd : 0 < dd) by lra. pose proof (K a mi ltac:(lra) Mi D1 Pd). pose proof (K b mj ltac:(lra) Mj D2 Pd).
      assert (a / (2 * dd) + b / (2 * dd) = 1) by (rewrite <- (Rinv_r (2 * dd)) by lra; unfold Rdiv; rewrite <- Rmult_plus_distr_r, E3; reflexivity). lra.
  - intros i Hi. rewrite nth_euler_update by lia. rewrite (Upd i Hi), (Two i Hi). destruct (MS i Hi) as [Mi _].
    assert (V0 : cyc u (i + n - 1) = dof u (pv i)) by (unfold cyc, dof, pv; rewrite Lu; reflexivity).
    assert (V2 : cyc u (S i) = dof u (nx i)) by (unfold cyc, dof, nx; rewrite Lu; reflexivity).
    rewrite V0, V2, (cyc_inside u i) by lia. change (nth i u 0) with (dof u i). field. lra.
Qed.

(** [q] is 1 for the low order scheme and 2 for the limited one *)
Lemma fe_run_variation rhs q T dt t0 u0 lo hi step : rhs = cg_low_rhs eig pr s /\ q = 1 \/ rhs = M_FE.mcl_rhs eig pr s /\ q = 2 ->
  In T [euler; heun; ssp3] -> length u0 = n -> (forall i, (i < n)%nat -> lo <= dof u0 i <= hi) ->
  fe_time_step eig Advection s u0 = Ok step -> 0 < dt -> step_allows step (q * dt * top_speed pr lo hi) ->
  exists o, rk_run_e (fun _ => rhs) T [dt] {| o_time := t0; o_sol := u0 |} = Ok o /\ length (o_sol o) = n /\
    (forall i, (i < n)%nat -> lo <= dof (o_sol o) i <= hi) /\ variation (o_sol o) <= variation u0.
Proof.
  intros HR HT Lu Hb E0 Hdt HS. pose proof dimension_1 as DN. assert (Hn1 := Hn').
  assert (LR : forall u v, length u = n -> rhs u = Ok v -> length v = n).
  { intros u v Lu' Ev. rewrite <- DN in Lu'. destruct HR as [[-> _] | [-> _]].
    - destruct (C39_low_order_conserves eig D n m 1 s pr u v Hn1 HD Em Es HE HE1 Lu' Ev) as [_ [_ [X _]]]. congruence.
    - destruct (C40_mcl_conserves eig D n m 1 s pr u v Hn1 HD Em Es HE HE1 Lu' Ev) as [_ [_ [X _]]]. congruence. }
  destruct (ssp_convex_run_e (fun l : list R => length l = n) (fun _ => rhs) (repeat 0 n)
    (fun u => (length u = n /\ forall i, (i < n)%nat -> lo <= dof u i <= hi) /\ (length u = n /\ variation u <= variation u0)) [dt] T {| o_time := t0; o_sol := u0 |}) as [o [E [[[Lo Ro] [_ Vo]] _]]].
  - apply repeat_length.
  - tauto.
  - intros t u v Lu' Ev. eapply LR; eauto.
  - intros x y r [[La Ha] Va] [[Lb Hb'] Vb] Hr. split; [|apply variation_convex; auto].
    cbn. split; [rewrite map2_length, !map_length; lia|]. intros i Hi. unfold dof.
    rewrite (nth_map2 _ _ _ _ 0 0 0) by (rewrite map_length; lia). rewrite !(nth_map' _ _ _ 0 0) by lia. specialize (Ha i Hi). specialize (Hb' i Hi). unfold dof in *. nra.
  - intros t u [[Lu' Hu] _]. rewrite <- DN in Lu'. destruct HR as [[-> _] | [-> _]].
    + destruct (C39_low_order_succeeds eig D n m 1 s pr u Hn1 HD Em Es HE HE1 ltac:(lia) Lu') as [r [_ [X _]]]. eauto.
    + destruct (C40_mcl_succeeds eig D n m 1 s pr u Hn1 HD Em Es HE HE1 ltac:(lia) Lu') as [r [_ [X _]]]. eauto.
  - intros dt' t u v Hdt' [[Lu' Hu] [_ Vu]] Ev. destruct Hdt' as [<-|[]]. pose proof (LR u v Lu' Ev) as Lv.
    rewrite euler_update_vadd. assert (Lw : length (euler_update u v dt) = n) by (unfold euler_update; rewrite map2_length; lia).
    assert (Q : 0 < q) by (destruct HR as [[_ ->] | [_ ->]]; lra).
    assert (US : exists st, fe_time_step eig pr s u = Ok st /\ step_allows st (q * dt)).
    { apply (uniform_step eig D n m 1 s pr u u0 lo hi step (q * dt) Hn1 HD Em Es HE HE1 ltac:(lia)); rewrite ?DN; auto. nra. }
    destruct US as [st [EST AL]].
    assert (AL1 : step_allows st dt). { destruct st as [x|]; [|exact I]. cbn [step_allows] in *. destruct HR as [[_ ->] | [_ ->]]; lra. }
    split; [split; [exact Lw|]|split; [exact Lw|]].
    + intros i Hi. unfold dof at 1 2. rewrite nth_euler_update by lia. rewrite <- DN in Lu', Hi.
      destruct HR as [[-> _] | [-> _]].
      * apply (C39_low_order_bounds eig D n m 1 s pr u v st Hn1 HD Em Es HE HE1 Lu' Ev EST dt ltac:(lra) AL1 i lo hi Hi). intros j Hj _. rewrite DN in Hj. auto.
      * apply (C40_mcl_bounds eig D n m 1 s pr u v st Hn HD Em Es HE HE1 Lu' Ev EST dt ltac:(lra) AL1 i lo hi Hi). intros j Hj _. rewrite DN in Hj. auto.
    + eapply Rle_trans; [|exact Vu]. destruct HR as [[-> ->] | [-> ->]].
      * apply (low_step_variation u v st dt Lu' Ev EST Hdt AL1).
      * apply (mcl_step_variation u v st dt Lu' Ev EST ltac:(lra) AL).
  - cbn in HT. destruct HT as [<-|[<-|[<-|[]]]]; auto.
  - cbn. auto using Rle_refl.
  - exists o. auto.
Qed.
End Step.

(** ** the solvers *)
Lemma fe_variation_steps eig solver old k b a pr c w m s : bounded_kind k -> ia (sb_domain b) < ib (sb_domain b) -> sb_problem b = fe_name pr -> ssp_method (f_ode a) ->
  new_mesh (sb_domain b) (used_cells a) = Ok m -> new_fespace m 1 = Ok s -> used_degree a = 1%nat -> eig_ok eig 1 -> eig_ok eig 2 -> (2 <= used_cells a)%nat ->
  0 < py_or (f_cfl a) default_cfl <= calm_cfl k -> fe_solver eig solver old k b a = Ok (c, w) ->
  forall dt o, inherits_bounds (o_sol (solution_of w)) (o_sol o) -> tol <= dt <= call_generator (c_gen c) (o_time o, o_sol o) ->
    exists o', rk_execute_e (c_rhs c) (c_tab c) dt o = Ok o' /\ inherits_bounds (o_sol (solution_of w)) (o_sol o') /\ variation (o_sol o') <= variation (o_sol o).
Proof.
  intros HK HD HP HM Em Es H1 HE HE1 H2 [C0 C1] E dt o Po [D1 D2]. set (cfl := py_or (f_cfl a) default_cfl) in *.
  assert (Hn : (0 < used_cells a)%nat) by lia. assert (Es' : new_fespace m (used_degree a) = Ok s) by (rewrite H1; exact Es).
  assert (CC : cfl <= 1). { destruct HK as [ad [-> | ->]]; cbn [calm_cfl] in C1; lra. }
  assert (HC : forall x, x <= 1 -> cfl_condition eig pr s x). { intros x Hx. apply (C71_safe_cfl eig (sb_domain b) (used_cells a) m 1); auto; try lia. destruct pr; exact Hx. }
  destruct (fe_initial eig solver old k b a pr c w m s HK HD HP HM Em Es' H2 ltac:(lia) (HC cfl CC) E) as [I0 L0]. rewrite I0 in *. set (u0 := initial_dofs old s (sb_initial b)) in *.
  assert (ST : exists rhs q (ad : bool), c_rhs c = (fun _ => rhs) /\ (rhs = cg_low_rhs eig pr s /\ q = 1 \/ rhs = M_FE.mcl_rhs eig pr s /\ q = 2) /\ q * cfl <= 1 /\ In (c_tab c) [euler; heun; ssp3] /\
    forall t v, call_generator (c_gen c) (t, v) = finite_step (sb_end b - sb_start b) cfl (fe_time_step eig pr s (if ad then v else u0)) * cfl).
  { assert (Gp : fe_problem (sb_problem b) = Ok pr) by (rewrite HP; destruct pr; reflexivity).
    assert (G : fe_solution old b (f_mesh_size a) (f_degree a) = Ok (s, u0)).
    { unfold fe_solution. change (or_default (f_mesh_size a) default_mesh_size) with (used_cells a). rewrite Em. cbn [bind].
      change (or_default (f_degree a) default_polynomial_degree) with (used_degree a). rewrite Es'. reflexivity. }
    assert (Tb : In (match f_ode a with Some T => T | None => heun end) [euler; heun; ssp3]).
    { destruct (f_ode a) as [T|] eqn:Q; [apply HM; reflexivity|cbn; auto]. }
    destruct HK as [ad [-> | ->]]; cbn [fe_solver] in E; unfold limited_solver in E; rewrite G, Gp in E; cbn [bind] in E; apply Ok_inj in E; injection E as <- <-; cbn [calm_cfl] in C1.
    - exists (cg_low_rhs eig pr s), 1, ad. cbn [c_rhs c_tab]. repeat split; auto; [lra|]. intros t v. destruct ad; reflexivity.
    - exists (M_FE.mcl_rhs eig pr s), 2, ad. cbn [c_rhs c_tab]. repeat split; auto; [lra|]. intros t v. destruct ad; reflexivity. }
  destruct ST as [rhs [q [ad [Er [HR [HQ [HT Gn]]]]]]]. rewrite Gn in D2. pose proof tol_pos as TP.
  set (u1 := if ad then o_sol o else u0) in *.
  assert (I1 : inherits_bounds u0 u1) by (unfold u1; destruct ad; [exact Po|apply inherits_refl]).
  assert (I2 : inherits_bounds u1 (o_sol o)) by (unfold u1; destruct ad; [apply inherits_refl|exact Po]).
  assert (L1 : length u1 = fs_dimension s) by (destruct I1; congruence).
  destruct (step_exists eig (sb_domain b) (used_cells a) m 1 s H2 HD Em Es HE HE1 ltac:(lia) pr u1 L1) as [step1 [E1 _]]. rewrite E1 in D2.
  destruct (step_exists eig (sb_domain b) (used_cells a) m 1 s H2 HD Em Es HE HE1 ltac:(lia) Advection u1 L1) as [step [E0 _]].
  assert (DN : fs_dimension s = used_cells a) by (rewrite (s_dim (sb_domain b) (used_cells a) m 1 s Hn HD ltac:(lia) Em Es); lia).
  assert (NE : u1 <> []). { intro Z. rewrite Z in L1. cbn in L1. lia. }
  destruct (extremes u1 NE) as [lo [hi [Il [Ih B]]]].
  assert (Q : 0 < q) by (destruct HR as [[_ ->] | [_ ->]]; lra).
  assert (AL : step_allows step (q * dt * top_speed pr lo hi)).
  { apply (step_uniform eig (sb_domain b) (used_cells a) m 1 s pr (q * cfl) H2 HD Em Es HE HE1 ltac:(lia) ltac:(nra) (HC _ HQ) u1 u1 step1 step lo hi (q * dt) L1 E1 E0 ltac:(nra)); auto.
    replace (q * dt / (q * cfl)) with (dt / cfl) by (field; lra).
    destruct step1 as [x|]; [|exact I]. cbn [finite_step step_allows] in *. apply (Rmult_le_reg_r cfl); [exact C0|]. unfold Rdiv. rewrite Rmult_assoc, Rinv_l by lra. lra. }
  assert (Bo : forall i, (i < used_cells a)%nat -> lo <= dof (o_sol o) i <= hi).
  { destruct I2 as [Lo I2]. specialize (I2 lo hi B). rewrite between_dofs in I2. rewrite Lo, L1, DN in I2. exact I2. }
  destruct (fe_run_variation eig (sb_domain b) (used_cells a) m s pr H2 HD Em Es HE HE1 rhs q (c_tab c) dt (o_time o) (o_sol o) lo hi step HR HT) as [o' [R1 [R2 [R3 R4]]]]; auto; [destruct I2; congruence|lra|].
  exists o'. rewrite Er. split; [|split].
  - unfold rk_run_e in R1. cbn [foldM] in R1. replace {| o_time := o_time o; o_sol := o_sol o |} with o in R1 by (destruct o; reflexivity).
    destruct (rk_execute_e (fun _ : R => rhs) (c_tab c) dt o) as [y|e]; [exact R1|discriminate].
  - apply (inherits_trans u0 u1); auto. split; [congruence|]. intros lo' hi' B' x Hx. assert (W : forall i, (i < length (o_sol o'))%nat -> lo <= dof (o_sol o') i <= hi) by (rewrite R2; exact R3).
    rewrite <- between_dofs in W. specialize (W x Hx). destruct (B' lo Il), (B' hi Ih). lra.
  - exact R4.
Qed.

(** The same for the finite element solvers of degree 1, with the optimal step of the scheme (half of it for the limiter). *)
Theorem C86_element_variation_never_grows : forall eig solver old finite k b a pr c w us1 us2,
  bounded_kind k -> ia (sb_domain b) < ib (sb_domain b) -> sb_problem b = fe_name pr -> ssp_method (f_ode a) ->
  used_degree a = 1%nat -> eig_ok eig 1 -> eig_ok eig 2 -> (2 <= used_cells a)%nat ->
  0 < py_or (f_cfl a) default_cfl <= calm_cfl k ->
  fe_solver eig solver old k b a = Ok (c, w) ->
  (forall v, inherits_bounds (o_sol (solution_of w)) v -> finite v = true) ->
  (forall v t, In (Reinit v t) us1 -> inherits_bounds (o_sol (solution_of w)) v) ->
  (forall v t, ~ In (Reinit v t) us2) ->
  let st1 := use_run finite c us1 (w, []) in
  let st2 := use_run finite c us2 st1 in
  let before := variation (o_sol (solution_of (fst st1))) in
  let after := variation (o_sol (solution_of (fst st2))) in
  after <= before /\
  exists l, w_values (fst st2) = w_values (fst st1) ++ l /\ StronglySorted (fun x y => variation y <= variation x) l /\
    List.Forall (fun v => after <= variation v <= before) l.
Proof.
  intros eig solver old finite k b a pr c w us1 us2 HK HD HP HM H1 HE HE1 H2 HC E HF HU1 HU2. cbv zeta.
  destruct (fe_solver_inv eig solver old k b a c w E) as [m [s [_ [_ [Em [Es _]]]]]]. rewrite H1 in Es.
  pose proof (fe_variation_steps eig solver old k b a pr c w m s HK HD HP HM Em Es H1 HE HE1 H2 HC E) as HS.
  assert (Es' : new_fespace m (used_degree a) = Ok s) by (rewrite H1; exact Es).
  assert (CC : cfl_condition eig pr s (py_or (f_cfl a) default_cfl)).
  { apply (C71_safe_cfl eig (sb_domain b) (used_cells a) m 1); auto; try lia. assert (py_or (f_cfl a) default_cfl <= 1); [|destruct pr; exact H].
    destruct HK as [ad [-> | ->]]; cbn [calm_cfl] in HC; lra. }
  assert (HEu : eig_ok eig (used_degree a)) by (rewrite H1; exact HE). assert (HEu1 : eig_ok eig (used_degree a + 1)) by (rewrite H1; exact HE1).
  destruct (fe_initial eig solver old k b a pr c w m s HK HD HP HM Em Es' H2 ltac:(lia) CC E) as [I0 _].
  destruct (fe_bounds_setup eig solver old k b a pr c w m s HK HP HM Em Es' CC E) as [rhs [ad [Ew [_ [_ [_ [_ [_ [Qc _]]]]]]]]].
  pose proof (fe_safe eig solver old k b a pr c w m s HK HD HP HM Em Es' HEu HEu1 H2 ltac:(lia) (proj1 HC) CC E) as Sf.
  pose proof (fe_inv eig solver old k b a pr c w m s HK HP HM Em Es' H2 ltac:(lia) CC E) as Iv.
  rewrite I0 in *. set (u0 := initial_dofs old s (sb_initial b)) in *.
  set (st1 := use_run finite c us1 (w, [])).
  assert (Sep : separate 1 (fun _ => u0) (w, [])) by (rewrite Ew; apply separate_new; lia).
  assert (K : inv (inherits_bounds u0) (fst st1)) by (apply (use_inv finite (inherits_bounds u0) c HF Qc Sf us1 (fun _ => u0) (w, []) 1); auto).
  assert (Dd : descends (inherits_bounds u0) variation (w_values (fst st1)) (variation (w_mem (fst st1) (w_sol (fst st1)))) (fst st1)).
  { destruct K as [K0 [_ [K2 _]]]. split; [exact K0|]. split; [exact K2|]. split; [lra|]. exists []. rewrite app_nil_r. repeat constructor. }
  pose proof (use_descends finite (inherits_bounds u0) variation c HF Qc HS _ _ us2 (fun _ => u0) st1 1 HU2 (separate_run finite 1 _ c us1 _ Sep) Dd) as [_ [_ [X Y]]].
  split; [exact X|exact Y].
Qed.
Print Assumptions C86_element_variation_never_grows.

(** The limited solver for Burgers' equation with half the optimal step, and the low order one for advection with the full step, meet the
    hypotheses. *)
Example C86_element_ex : exists eig solver c w c' w',
  let b := burgers_benchmark (smooth_benchmark burgers_default_end) in
  let b' := advection_benchmark cosine 1 in
  let a := {| f_mesh_size := Some 30%nat; f_degree := None; f_cfl := Some (1 / 2); f_ode := Some ssp3; f_history := true |} in
  let a' := {| f_mesh_size := Some 30%nat; f_degree := None; f_cfl := Some 1; f_ode := None; f_history := true |} in
  ia (sb_domain b) < ib (sb_domain b) /\ ia (sb_domain b') < ib (sb_domain b') /\
  bounded_kind (FMCL true) /\ bounded_kind (FLow false) /\ sb_problem b = fe_name Burgers /\ sb_problem b' = fe_name Advection /\ ssp_method (f_ode a) /\ ssp_method (f_ode a') /\
  used_degree a = 1%nat /\ used_degree a' = 1%nat /\ eig_ok eig 1 /\ eig_ok eig 2 /\ (2 <= used_cells a)%nat /\
  0 < py_or (f_cfl a) default_cfl <= calm_cfl (FMCL true) /\ 0 < py_or (f_cfl a') default_cfl <= calm_cfl (FLow false) /\
  fe_solver eig solver (fun _ => 7) (FMCL true) b a = Ok (c, w) /\ fe_solver eig solver (fun _ => 7) (FLow false) b' a' = Ok (c', w').
Proof.
  set (b := burgers_benchmark (smooth_benchmark burgers_default_end)). set (b' := advection_benchmark cosine 1).
  set (a := {| f_mesh_size := Some 30%nat; f_degree := None; f_cfl := Some (1 / 2); f_ode := Some ssp3; f_history := true |}).
  set (a' := {| f_mesh_size := Some 30%nat; f_degree := None; f_cfl := Some 1; f_ode := None; f_history := true |}).
  assert (HD : ia (sb_domain b) < ib (sb_domain b)) by (cbn; pose proof PI_RGT_0; lra).
  assert (HD' : ia (sb_domain b') < ib (sb_domain b')) by (cbn; lra).
  destruct (C57_ex (sb_domain b) 30 1 Burgers (-1) 1 ltac:(lia) ltac:(lia) HD) as [eig [solver [m [s [Em [Es [H1 [H2 [H3 [H4 H5]]]]]]]]]].
  destruct (C71_fe_solvers_can_be_built eig solver (fun _ => 7) (FMCL true) b a Burgers HD eq_refl ltac:(intros; discriminate)) as [c [w [E _]]].
  destruct (C71_fe_solvers_can_be_built eig solver (fun _ => 7) (FLow false) b' a' Advection HD' eq_refl ltac:(intros; discriminate)) as [c' [w' [E' _]]].
  exists eig, solver, c, w, c', w'. cbv zeta. split; [exact HD|]. split; [exact HD'|]. split; [exists true; auto|]. split; [exists false; auto|].
  do 2 (split; [reflexivity|]). split; [intros T HT; injection HT as <-; cbn; auto|]. split; [intros T HT; discriminate|].
  do 2 (split; [reflexivity|]). split; [exact H1|]. split; [exact H2|]. split; [cbn; lia|].
  assert (C : py_or (f_cfl a) default_cfl = 1 / 2) by (cbn [a f_cfl py_or]; destruct (Reqb_spec (1 / 2) 0); [lra|reflexivity]).
  assert (C' : py_or (f_cfl a') default_cfl = 1) by (cbn [a' f_cfl py_or]; destruct (Reqb_spec 1 0); [lra|reflexivity]).
  split; [rewrite C; cbn [calm_cfl]; lra|]. split; [rewrite C'; cbn [calm_cfl]; lra|]. split; [exact E|exact E'].
Qed.
