(** C40, one cell: on a mesh with a single cell of degree 3 the limited scheme does not keep the bounds. *)
From Coq Require Import Reals List Lia Lra Arith Bool ZArith.
From Coquelicot Require Import Coquelicot.
From Verif Require Import Prelude L_Prelude M_Mesh L_Mesh M_Flux M_Boundary L_Boundary M_Neighbours L_Neighbours M_Quadrature S_Poly L_Poly S_Quadrature L_Flux L_Quadrature P_Quadrature M_Norm L_Norm P_Norm M_Misc M_FE L_Lagrange L_FE L_NewtonCotes S_FE S_FELow L_FELow L_FEMCL P_FE P_FEMatrix P_FELow P_FEMCL.
Import ListNotations.
Open Scope R_scope.


(** * One cell of degree 3: pairs that the periodic cell visits twice are corrected twice *)
Definition cub (a : nat) : list R :=
  match a with 0%nat => [1; -11/2; 9; -9/2] | 1%nat => [0; 9; -45/2; 27/2] | 2%nat => [0; -9/2; 18; -27/2] | _ => [0; 1; -9/2; 9/2] end.
Lemma cubic a x : (a <= 3)%nat -> basis_value 3 a x = peval (cub a) x.
Proof.
  intro Ha. assert (X := roots_zero 4 (fun y => basis_value 3 a y - peval (cub a) y) (fun i => INR i / INR 3)). cbv beta in X.
  assert (Y : basis_value 3 a x - peval (cub a) x = 0); [|lra]. apply X.
  - apply deg_minus; [apply basis_deg|]. exists (cub a). split; [|reflexivity]. do 4 (destruct a as [|a]; [cbn; lia|]). lia.
  - intros i j _ _. apply local_nodes_inj. lia.
  - intros i Hi. rewrite basis_nodal by lia. 
    do 4 (destruct a as [|a]; [do 4 (destruct i as [|i]; [unfold delta; cbn [Nat.eqb cub peval fold_right]; rewrite !INR_IZR_INZ; cbn [Z.of_nat Pos.of_succ_nat Pos.succ]; lra|]); lia|]). lia.
Qed.
Lemma cubic' a x : (a <= 3)%nat -> basis_derivative 3 a x = peval (pderiv (cub a)) x.
Proof.
  intro Ha. assert (A := basis_deriv 3 a x). assert (B := is_derive_peval (cub a) x).
  apply (is_derive_ext _ (basis_value 3 a)) in B; [|intro; symmetry; apply cubic; auto].
  apply is_derive_unique in A. apply is_derive_unique in B. congruence.
Qed.
Lemma peval_integral : forall l, is_RInt (peval l) 0 1 (rsum (tab (length l) (fun k => nth k l 0 * (1 / INR (S k))))).
Proof.
  intro l. apply (is_RInt_ext (fun x => rsum (tab (length l) (fun k => nth k l 0 * x ^ k)))).
  - intros x _. assert (G : forall l x, rsum (tab (length l) (fun k => nth k l 0 * x ^ k)) = peval l x); [|apply G].
    clear. induction l as [|a l IH]; intro x; [reflexivity|]. cbn [length]. rewrite rsum_tab_S', peval_cons, <- IH. cbn [nth pow]. rewrite <- rsum_tab_scal. f_equal; [ring|]. apply sum_ext. intros. ring.
  - generalize (length l). induction n as [|n IH]; [apply (is_RInt_ext (fun _ => 0)); [reflexivity|]; unfold tab; cbn; replace 0 with (scal (1 - 0) (0:R)) at 2 by (unfold scal; cbn; unfold mult; cbn; ring); apply @is_RInt_const|].
    rewrite rsum_tab_S. apply (is_RInt_ext (fun x => rsum (tab n (fun k => nth k l 0 * x ^ k)) + nth n l 0 * x ^ n)); [intros; rewrite rsum_tab_S; reflexivity|].
    apply @is_RInt_plus; [exact IH|]. apply @is_RInt_scal. apply pow_integral.
Qed.
Ltac numbers := unfold rsum; cbn [tab map seq fold_right nth length pmul padd pscal pderiv cub app]; rewrite ?INR_IZR_INZ; cbn [Z.of_nat Pos.of_succ_nat Pos.succ].
Definition one_cell : interval := {| ia := 0; ib := 1 |}.
Lemma four_sum (f : nat -> R) : rsum (tab 4 f) = f 0%nat + (f 1%nat + (f 2%nat + (f 3%nat + 0))).
Proof. reflexivity. Qed.
Section OneCell.
Context (m : mesh) (s : fespace).
Hypothesis Em : new_mesh one_cell 1 = Ok m.
Hypothesis Es : new_fespace m 3 = Ok s.
Lemma one_num a : (a <= 3)%nat -> fs_number s 0 a = (if Nat.eqb a 3 then 0 else a)%nat.
Proof. intro Ha. rewrite (num_val one_cell 1 m 3 s) by (auto; cbn; lra || lia). reflexivity. Qed.
Lemma one_matrix e i j : assemble_matrix s e i j =
  rsum (tab 4 (fun a => rsum (tab 4 (fun b => delta i (if Nat.eqb a 3 then 0 else a) * (delta j (if Nat.eqb b 3 then 0 else b) * e 0%nat a b))))).
Proof.
  rewrite (asm_matrix one_cell 1 m 3 s) by (auto; cbn; lra || lia). unfold tab at 1. cbn [seq map]. unfold rsum at 1. cbn [fold_right]. rewrite Rplus_0_r.
  apply sum_ext. intros a Ha. apply sum_ext. intros b Hb. rewrite !one_num by lia. reflexivity.
Qed.
Lemma one_gradient eig : eig_ok eig 3 -> exists C, discrete_gradient eig s = Ok C /\ C 0%nat 1%nat = 81/80 /\ C 0%nat 2%nat = -81/80 /\ C 1%nat 2%nat = 81/80.
Proof.
  intro HE. destruct (rule_full eig 3 ltac:(lia) HE) as [Q [EQ [_ [_ [_ [_ QX]]]]]].
  assert (Ds : fs_degree s = 3%nat) by (apply (s_degree one_cell 1 m 3 s); auto; cbn; lra || lia).
  exists (assemble_matrix s (gradient_entry s Q)). split; [unfold discrete_gradient; rewrite Ds, EQ; reflexivity|].
  assert (G : forall a b, (a <= 3)%nat -> (b <= 3)%nat -> gradient_entry s Q 0%nat a b = let l := pmul (cub a) (pderiv (cub b)) in rsum (tab (length l) (fun k => nth k l 0 * (1 / INR (S k))))).
  { intros a b Ha Hb. rewrite (gradient_entry_val one_cell 1 m 3 s) by (auto; cbn; lra || lia). apply (integrate_unique Q (2 * 3)); [exact QX| |].
    - apply (deg_mono (4 + 3 - 1)); [lia|]. apply (deg_prod 4 3); [apply basis_deg|apply (basis_deriv_deg 3 b)|lia|lia].
    - apply (is_RInt_ext (peval (pmul (cub a) (pderiv (cub b))))); [|apply peval_integral]. intros x _. rewrite peval_mul, cubic, cubic' by auto. reflexivity. }
  rewrite !one_matrix. unfold delta.
  split; [|split]; (rewrite four_sum, !four_sum; cbn [Nat.eqb]; rewrite !G by lia; numbers; lra).
Qed.
Lemma one_mass eig : eig_ok eig 4 -> exists M, mass_matrix eig s = Ok M /\ M 0%nat 1%nat = 63/1680 /\ M 0%nat 2%nat = 63/1680 /\ M 1%nat 0%nat = 63/1680 /\ M 2%nat 0%nat = 63/1680.
Proof.
  intro HE. destruct (rule_full eig 4 ltac:(lia) HE) as [Q [EQ [_ [_ [_ [_ QX]]]]]].
  assert (Ds : fs_degree s = 3%nat) by (apply (s_degree one_cell 1 m 3 s); auto; cbn; lra || lia).
  exists (assemble_matrix s (mass_entry s Q)). split; [unfold mass_matrix; rewrite Ds; cbn [Nat.add]; rewrite EQ; reflexivity|].
  destruct (s_step one_cell 1 m 3 s ltac:(lia) ltac:(cbn; lra) ltac:(lia) Em Es 0%nat ltac:(lia)) as [LC _]. 
  assert (G : forall a b, (a <= 3)%nat -> (b <= 3)%nat -> mass_entry s Q 0%nat a b = let l := pmul (cub a) (cub b) in rsum (tab (length l) (fun k => nth k l 0 * (1 / INR (S k))))).
  { intros a b Ha Hb. rewrite (mass_entry_val one_cell 1 m 3 s) by (auto; cbn; lra || lia). rewrite LC. cbn [one_cell ia ib INR]. replace ((1 - 0) / 1) with 1 by field. rewrite Rmult_1_l. apply (integrate_unique Q (2 * 4)); [exact QX| |].
    - apply (deg_mono (4 + 4 - 1)); [lia|]. apply (deg_prod 4 4); try lia; apply basis_deg.
    - apply (is_RInt_ext (peval (pmul (cub a) (cub b)))); [|apply peval_integral]. intros x _. rewrite peval_mul, !cubic by auto. reflexivity. }
  rewrite !one_matrix. unfold delta.
  split; [|split; [|split]]; (rewrite four_sum, !four_sum; cbn [Nat.eqb]; rewrite !G by lia; numbers; lra).
Qed.
Lemma one_lumped eig mass : eig_ok eig 4 -> lumped_mass eig s = Ok mass -> nth 0 mass 0 = 1/4 /\ nth 1 mass 0 = 3/8 /\ nth 2 mass 0 = 3/8.
Proof.
  intros HE E. destruct (lumped_value eig one_cell 1 m 3 s (fun a => nth a (weights 3) 0) mass ltac:(lia) ltac:(cbn; lra) Em Es HE (fun a Ha => weights_integral 3 a ltac:(lia) Ha) E) as [_ V].
  rewrite !V by lia. cbn [one_cell ia ib].
  split; [|split]; (unfold tab at 1; cbn [seq map]; unfold rsum at 1; cbn [fold_right]; rewrite Rplus_0_r; rewrite four_sum; rewrite !one_num by lia; unfold delta; cbn [Nat.eqb weights nth INR]; lra).
Qed.
End OneCell.
Ltac minmax := repeat match goal with
  | |- context [Rmax ?a ?b] => rewrite (Rmax_left a b) by lra
  | |- context [Rmax ?a ?b] => rewrite (Rmax_right a b) by lra
  | |- context [Rmin ?a ?b] => rewrite (Rmin_left a b) by lra
  | |- context [Rmin ?a ?b] => rewrite (Rmin_right a b) by lra end.
(** On one cell of degree 3 the limited scheme leaves the bounds with every step, however small: the right hand side at the
    largest value is positive. *)
Theorem C40_one_cell_bounds_refuted : forall eig, eig_ok eig 3 -> eig_ok eig 4 ->
  exists m s r x, new_mesh {| ia := 0; ib := 1 |} 1 = Ok m /\ new_fespace m 3 = Ok s /\ fs_dimension s = 3%nat /\
  let u := [1; 0; 9/10] in mcl_rhs eig Advection s u = Ok r /\ fe_time_step eig Advection s u = Ok (Some x) /\ 0 < x /\
  (forall j, (j < 3)%nat -> 0 <= dof u j <= 1) /\ forall dt, 0 < dt -> 1 < dof u 0 + dt * dof r 0.
Proof.
  intros eig HE HE'. set (D := {| ia := 0; ib := 1 |}). assert (HD : ia D < ib D) by (cbn; lra). assert (Hn : (0 < 1)%nat) by lia. assert (Hp : (0 < 3)%nat) by lia.
  assert (Em := new_mesh_ok D 1 Hn HD). match type of Em with _ = Ok ?y => set (m := y) in Em end. clearbody m.
  assert (Es : exists s, new_fespace m 3 = Ok s) by (unfold new_fespace, new_gindex; cbn; eexists; reflexivity). destruct Es as [s Es].
  assert (DM := s_dim D 1 m 3 s Hn HD Hp Em Es). cbn [Nat.mul Nat.add] in DM. set (u := [1; 0; 9/10]). assert (Lu : length u = fs_dimension s) by (rewrite DM; reflexivity).
  destruct (C40_mcl_succeeds eig D 1 m 3 s Advection u Hn HD Em Es HE HE' ltac:(lia) Lu) as [r [step [ER [EST SP]]]].
  destruct (one_gradient m s Em Es eig HE) as [C [EC [C01 [C02 C12]]]]. destruct (one_mass m s Em Es eig HE') as [M [EM [M01 [M02 [M10 M20]]]]].
  destruct (C37_discrete_gradient eig D 1 m 3 s Hn HD Em Es HE) as [C' [EC' [SK [RS _]]]]. rewrite EC in EC'. apply Ok_inj in EC'. subst C'.
  destruct (C37_lumped_masses eig D 1 m 3 s Hn HD Em Es HE') as [_ [mass [_ [EL _]]]].
  destruct (one_lumped m s Em Es eig mass HE' EL) as [m0 [m1 m2]].
  assert (C10 : C 1%nat 0%nat = -81/80) by (rewrite SK, C01; field). assert (C20 : C 2%nat 0%nat = 81/80) by (rewrite SK, C02; field). assert (C21 : C 2%nat 1%nat = -81/80) by (rewrite SK, C12; field).
  set (d := diffusion Advection 3 C u).
  assert (DE : forall i j, i <> j -> d i j = Rabs (C i j)). { intros i j Hij. unfold d. rewrite (diffusion_entry 3 C SK) by auto. cbn [wave_speed]. rewrite Rmax_left by lra. ring. }
  assert (A81 : Rabs (81/80) = 81/80) by (apply Rabs_right; lra). assert (B81 : Rabs (-81/80) = 81/80) by (rewrite Rabs_left by lra; lra).
  assert (D01 : d 0%nat 1%nat = 81/80) by (rewrite DE, C01 by lia; auto). assert (D02 : d 0%nat 2%nat = 81/80) by (rewrite DE, C02 by lia; auto). assert (D12 : d 1%nat 2%nat = 81/80) by (rewrite DE, C12 by lia; auto).
  assert (D10 : d 1%nat 0%nat = 81/80) by (rewrite DE, C10 by lia; auto). assert (D20 : d 2%nat 0%nat = 81/80) by (rewrite DE, C20 by lia; auto). assert (D21 : d 2%nat 1%nat = 81/80) by (rewrite DE, C21 by lia; auto).
  destruct (mcl_parts eig D 1 m 3 s Advection u Hn HD Em Es HE HE' Lu) as [M0 [C0 [mass0 [maxs [mins [Q1 [Q2 [Q3 [Q4 [Q5 [P1 P2]]]]]]]]]]].
  rewrite EM in Q1. rewrite EC in Q2. rewrite EL in Q3. apply Ok_inj in Q1, Q2, Q3. subst M0 C0 mass0. rewrite DM in P1, P2. fold d in P1.
  destruct (fe_extrema D 1 m 3 s u Hn HD Em Es Lu) as [maxs' [mins' [E1 [E2 EX]]]]. rewrite Q4 in E1. rewrite Q5 in E2. apply Ok_inj in E1, E2. subst maxs' mins'.
  assert (Sh : forall i j, (i < 3)%nat -> (j < 3)%nat -> share s i j).
  { intros i j Hi Hj. exists 0%nat, i, j. rewrite (s_len D 1 m 3 s Hn HD Hp Em Es), (s_degree D 1 m 3 s Hn HD Hp Em Es). repeat (split; [lia|]).
    rewrite !(one_num m s Em Es) by lia. destruct (Nat.eqb_spec i 3), (Nat.eqb_spec j 3); lia. }
  assert (MX : forall i, (i < 3)%nat -> dof maxs i = 1 /\ dof mins i = 0).
  { intros i Hi. rewrite DM in EX. destruct (EX i Hi) as [A [[j [_ B]] [k [_ B']]]]. assert (X0 := A 0%nat (Sh i 0%nat Hi ltac:(lia))). assert (X1 := A 1%nat (Sh i 1%nat Hi ltac:(lia))).
    unfold u, dof in X0, X1. cbn [nth] in X0, X1.
    assert (G : forall j, 0 <= dof u j <= 1) by (intro l; unfold dof, u; do 3 (destruct l as [|l]; [cbn; lra|]); destruct l; cbn; lra).
    assert (GB := G j). assert (GB' := G k). unfold dof in *. lra. }
  destruct (low_rhs Advection 3 mass C u) as [low|e] eqn:EL2; [|rewrite (P2 e eq_refl) in ER; discriminate]. assert (ER0 := ER). rewrite (P1 low eq_refl) in ER.
  assert (LV : forall i, (i < 3)%nat -> dof low i * nth i mass 0 = off 3 (fun j => d i j * (dof u j - dof u i) - C i j * (dof u j - dof u i)) i).
  { intros i Hi. unfold low_rhs in EL2. apply (mapM_nth _ _ _ 0%nat 0) in EL2. destruct EL2 as [_ V]. rewrite seq_length in V. specialize (V i Hi). rewrite seq_nth in V by auto. cbn [Nat.add] in V.
    rewrite (low_term 3 C SK) in V; [|rewrite <- DM; auto|exact Hi|reflexivity]. apply rdiv_ok in V. destruct V as [Z V]. unfold dof at 1. rewrite V. fold d. cbn [flux_of]. field. exact Z. }
  assert (L0 := LV 0%nat ltac:(lia)). assert (L1 := LV 1%nat ltac:(lia)). assert (L2 := LV 2%nat ltac:(lia)). rewrite m0 in L0. rewrite m1 in L1. rewrite m2 in L2.
  unfold off, tab, rsum in L0, L1, L2. cbn [seq map fold_right Nat.eqb] in L0, L1, L2. rewrite D01, D02, C01, C02 in L0. rewrite D10, D12, C10, C12 in L1. rewrite D20, D21, C20, C21 in L2.
  assert (U0 : dof u 0 = 1) by reflexivity. assert (U1 : dof u 1 = 0) by reflexivity. assert (U2 : dof u 2 = 9/10) by reflexivity. rewrite U0, U1, U2 in *.
  assert (low0 : dof low 0 = -81/100) by lra. assert (low1 : dof low 1 = 54/10) by lra. assert (low2 : dof low 2 = -486/100) by lra.
  apply (mapM_nth _ _ _ 0%nat 0) in ER. destruct ER as [_ V]. rewrite seq_length in V. specialize (V 0%nat ltac:(lia)). cbn [seq nth] in V. rewrite m0 in V. rewrite rdiv_ne in V by lra. cbn [bind] in V. apply Ok_inj in V.
  rewrite (corrections_val D 1 m 3 s Hn HD Hp Em Es) in V.
  unfold tab at 1 in V. cbn [seq map] in V. unfold rsum at 1 in V. cbn [fold_right] in V. rewrite Rplus_0_r in V.
  cbn [combinations flat_map seq map app Nat.sub fst snd] in V. rewrite !(one_num m s Em Es) in V by lia. cbn [Nat.eqb] in V. unfold delta, rsum in V. cbn [Nat.eqb fold_right] in V.
  set (X := limited_fluxes M C d Advection u low maxs mins) in V. destruct (MX 0%nat ltac:(lia)) as [X0 N0]. destruct (MX 1%nat ltac:(lia)) as [X1 N1]. destruct (MX 2%nat ltac:(lia)) as [X2 N2].
  assert (F01 : limited_flux (X 0%nat 1%nat) = 0).
  { unfold limited_flux, X, limited_fluxes. cbn [pd_m pd_d pd_c pd_ui pd_uj pd_fi pd_fj pd_ri pd_rj pd_maxi pd_maxj pd_mini pd_minj flux_of]. rewrite M01, D01, C01, U0, U1, low0, low1, X0, X1, N0, N1.
    minmax; lra. }
  assert (F10 : limited_flux (X 1%nat 0%nat) = 0).
  { unfold limited_flux, X, limited_fluxes. cbn [pd_m pd_d pd_c pd_ui pd_uj pd_fi pd_fj pd_ri pd_rj pd_maxi pd_maxj pd_mini pd_minj flux_of]. rewrite M10, D10, C10, U0, U1, low0, low1, X0, X1, N0, N1.
    minmax; lra. }
  assert (F02 : limited_flux (X 0%nat 2%nat) = 81/400).
  { unfold limited_flux, X, limited_fluxes. cbn [pd_m pd_d pd_c pd_ui pd_uj pd_fi pd_fj pd_ri pd_rj pd_maxi pd_maxj pd_mini pd_minj flux_of]. rewrite M02, D02, C02, U0, U2, low0, low2, X0, X2, N0, N2.
    minmax; lra. }
  assert (F20 : limited_flux (X 2%nat 0%nat) = -81/400).
  { unfold limited_flux, X, limited_fluxes. cbn [pd_m pd_d pd_c pd_ui pd_uj pd_fi pd_fj pd_ri pd_rj pd_maxi pd_maxj pd_mini pd_minj flux_of]. rewrite M20, D20, C20, U0, U2, low0, low2, X0, X2, N0, N2.
    minmax; lra. }
  rewrite F01, F10, F02, F20, low0 in V.
  assert (R0 : nth 0 r 0 = 81/100) by (rewrite <- V; field).
  assert (ST : exists x, step = Some x).
  { destruct step as [x|]; [eauto|]. exfalso. destruct (step_masses eig Advection s u mass C None EL EC EST 1 ltac:(lra) I 0%nat ltac:(rewrite DM; lia)) as [_ B].
    rewrite DM in B. fold d in B. unfold d in B. rewrite (diffusion_abs_diag 3 C SK) in B by lia. fold d in B. unfold off, tab, rsum, dof in B. cbn [seq map fold_right Nat.eqb] in B. rewrite D01, D02, m0 in B. lra. }
  destruct ST as [x ->]. exists m, s, r, x. split; [exact Em|]. split; [exact Es|]. split; [exact DM|]. cbv zeta. fold u.
  split; [unfold u in *; exact ER0|]. split; [exact EST|]. split; [apply SP; reflexivity|]. split.
  - intros j _. unfold dof, u. do 3 (destruct j as [|j]; [cbn; lra|]). destruct j; cbn; lra.
  - intros dt Hdt. rewrite U0. unfold dof. rewrite R0. lra.
Qed.
Print Assumptions C40_one_cell_bounds_refuted.
