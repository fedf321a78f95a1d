(** C37 (sign of the lumped masses), C38 and C39: artificial diffusion and the low order continuous Galerkin scheme. *)
From Coq Require Import Reals List Lia Lra Arith Bool ZArith.
From Coquelicot Require Import Coquelicot.
From Verif Require Import Prelude L_Prelude M_Mesh L_Mesh M_Flux M_Boundary L_Boundary M_Quadrature S_Poly L_Poly S_Quadrature L_Flux L_Quadrature P_Quadrature M_Norm L_Norm P_Norm M_Misc M_FE L_Lagrange L_FE L_NewtonCotes S_FE S_FELow L_FELow P_FE P_FEMatrix.
Import ListNotations.
Open Scope R_scope.

Lemma lumped_value eig D n m p s W mass : (0 < n)%nat -> ia D < ib D -> new_mesh D n = Ok m -> new_fespace m p = Ok s -> eig_ok eig (p + 1) ->
  (forall a, (a <= p)%nat -> is_RInt (basis_value p a) 0 1 (W a)) -> lumped_mass eig s = Ok mass ->
  length mass = (n * p)%nat /\
  forall i, (i < n * p)%nat -> nth i mass 0 = rsum (tab n (fun c => rsum (tab (S p) (fun a => delta i (fs_number s c a) * ((ib D - ia D) / INR n * W a))))).
Proof.
  intros Hn HD Em Es HE HW. assert (Hp := space_degree m p s Es).
  destruct (rule_full eig (p + 1) ltac:(lia) HE) as [Q [EQ [LN [LW [INC [POS EX]]]]]].
  unfold lumped_mass, mass_matrix. rewrite (s_degree D n m p s Hn HD Hp Em Es), EQ. cbn [bind]. rewrite (s_dim D n m p s Hn HD Hp Em Es). intro E. apply Ok_inj in E. subst mass.
  split; [apply tab_length|]. intros i Hi. rewrite nth_tab by auto.
  rewrite (sum_ext _ _ (fun j => assemble_matrix s (mass_entry s Q) i j * 1)) by (intros; ring). rewrite (asm_row D n m p s Hn HD Hp Em Es _ i (fun _ => 1)).
  apply sum_ext. intros c Hc. apply sum_ext. intros a Ha. f_equal.
  rewrite (sum_ext _ _ (fun b => ilength (fs_cell s c) * integrate Q (fun x => basis_value p a x * basis_value p b x))) by (intros; rewrite (mass_entry_val D n m p s Hn HD Hp Em Es); ring).
  rewrite rsum_tab_scal, <- integrate_sum. destruct (s_step D n m p s Hn HD Hp Em Es c Hc) as [-> _]. f_equal.
  rewrite (integrate_ext Q _ (basis_value p a)) by (intros; rewrite rsum_tab_scal, basis_partition by auto; ring).
  apply (integrate_unique Q _ _ _ EX); [|apply HW; lia]. apply (deg_mono (S p)); [lia|]. apply basis_deg.
Qed.
(** The lumped masses are positive for the degrees 1 to 7, for every mesh. *)
Theorem C37_lumped_masses_positive : forall eig D n m p s mass,
  (0 < n)%nat -> ia D < ib D -> new_mesh D n = Ok m -> new_fespace m p = Ok s -> eig_ok eig (p + 1) -> (p <= 7)%nat ->
  lumped_mass eig s = Ok mass -> forall i, (i < fs_dimension s)%nat -> 0 < nth i mass 0.
Proof.
  intros eig D n m p s mass Hn HD Em Es HE H7 E i Hi. assert (Hp := space_degree m p s Es). rewrite (s_dim D n m p s Hn HD Hp Em Es) in Hi.
  destruct (lumped_value eig D n m p s (fun a => nth a (weights p) 0) mass Hn HD Em Es HE (fun a Ha => weights_integral p a ltac:(lia) Ha) E) as [_ V]. rewrite V by auto.
  assert (H0 : 0 < (ib D - ia D) / INR n) by (apply Rdiv_lt_0_compat; [lra|apply lt_0_INR; lia]).
  assert (DN : forall x y, 0 <= delta x y) by (intros; unfold delta; destruct Nat.eqb; lra).
  destruct (num_onto D n m p s Hn HD Hp Em Es i Hi) as [c [a [Hc [Ha Ei]]]].
  assert (P1 : forall k (f : nat -> R) z, (forall x, (x < k)%nat -> 0 <= f x) -> (z < k)%nat -> 0 < f z -> 0 < rsum (tab k f)).
  { induction k as [|k IH]; intros f z Hf Hz Pz; [lia|]. rewrite rsum_tab_S. assert (0 <= rsum (tab k f)) by (apply rsum_tab_nonneg; intros; apply Hf; lia).
    assert (0 <= f k) by (apply Hf; lia). destruct (Nat.eq_dec z k) as [->|Nz]; [lra|]. assert (0 < rsum (tab k f)) by (apply (IH f z); auto; lia). lra. }
  assert (P2 : forall c a, (a < S p)%nat -> 0 <= delta i (fs_number s c a) * ((ib D - ia D) / INR n * nth a (weights p) 0)).
  { intros c' a' Ha'. apply Rmult_le_pos; [apply DN|]. left. apply Rmult_lt_0_compat; [exact H0|]. apply weights_positive; lia. }
  apply (P1 n _ c); [|exact Hc|].
  - intros x Hx. apply rsum_tab_nonneg. intros; apply P2; auto.
  - apply (P1 (S p) _ a); [intros; apply P2; auto|lia|]. rewrite Ei. unfold delta. rewrite Nat.eqb_refl, Rmult_1_l. apply Rmult_lt_0_compat; [exact H0|]. apply weights_positive; lia.
Qed.
(** For degree 8 every cell has a degree of freedom with negative lumped mass. *)
Theorem C37_degree_8_masses_negative : forall eig D n m s mass,
  (0 < n)%nat -> ia D < ib D -> new_mesh D n = Ok m -> new_fespace m 8 = Ok s -> eig_ok eig 9 ->
  lumped_mass eig s = Ok mass -> forall c, (c < n)%nat -> nth (fs_number s c 2) mass 0 < 0.
Proof.
  intros eig D n m s mass Hn HD Em Es HE E c Hc. assert (Hp : (0 < 8)%nat) by lia.
  destruct (lumped_value eig D n m 8 s (fun a => nth a (weights 8) 0) mass Hn HD Em Es HE (fun a Ha => weights_integral 8 a ltac:(lia) Ha) E) as [_ V].
  rewrite V by (apply (num_lt D n m 8 s Hn HD Hp Em Es); auto; lia).
  rewrite (sum_ext n _ (fun c' => delta c' c * ((ib D - ia D) / INR n * (-928/28350)))).
  - rewrite (sum_delta n c (fun _ => (ib D - ia D) / INR n * (-928/28350))) by auto.
    assert (H0 : 0 < (ib D - ia D) / INR n) by (apply Rdiv_lt_0_compat; [lra|apply lt_0_INR; lia]). nra.
  - intros c' Hc'. rewrite (sum_ext 9 _ (fun a => delta a 2 * (delta c' c * ((ib D - ia D) / INR n * nth a (weights 8) 0)))).
    + rewrite (sum_delta 9 2 (fun a => delta c' c * ((ib D - ia D) / INR n * nth a (weights 8) 0))) by lia. cbn [weights nth]. reflexivity.
    + intros a Ha. rewrite !(num_val D n m 8 s Hn HD Hp Em Es) by lia. unfold delta.
      destruct (Nat.eqb_spec (c * 8 + 2) (n * 8)); [lia|].
      destruct (Nat.eqb_spec (c' * 8 + a) (n * 8)), (Nat.eqb_spec a 2), (Nat.eqb_spec c' c);
        repeat match goal with |- context [Nat.eqb ?x ?y] => destruct (Nat.eqb_spec x y) end; subst; try lia; ring.
Qed.

(** * C38 *)
Theorem C38_artificial_diffusion : forall eig D n m p s,
  (0 < n)%nat -> ia D < ib D -> new_mesh D n = Ok m -> new_fespace m p = Ok s -> eig_ok eig p ->
  exists C, discrete_gradient eig s = Ok C /\ forall pr u i j, let N := fs_dimension s in let d := diffusion pr N C u in
  (i < N)%nat -> (j < N)%nat ->
  d i j = d j i /\ rsum (tab N (d i)) = 0 /\
  (i <> j -> 0 <= d i j /\ d i j = Rabs (C i j) * Rmax (wave_speed pr (dof u i)) (wave_speed pr (dof u j)) /\
     Rabs (C i j * (flux_of pr (dof u j) - flux_of pr (dof u i))) <= d i j * Rabs (dof u j - dof u i) /\
     (~ share s i j -> d i j = 0)).
Proof.
  intros eig D n m p s Hn HD Em Es HE. destruct (C37_discrete_gradient eig D n m p s Hn HD Em Es HE) as [C [EC [SK [RS [CS [LOC _]]]]]].
  exists C. split; [exact EC|]. intros pr u i j N d Hi Hj.
  split; [apply diffusion_sym; auto|]. split; [apply diffusion_rows; auto|]. intro Hij. split; [apply diffusion_nonneg; auto|]. split; [apply diffusion_entry; auto|]. split.
  - destruct (flux_bound N C SK pr u i j Hij) as [e [Be Ee]]. fold d in Be, Ee.
    replace (C i j * (flux_of pr (dof u j) - flux_of pr (dof u i))) with ((d i j - e) * (dof u j - dof u i)) by lra.
    rewrite Rabs_mult. apply Rmult_le_compat_r; [apply Rabs_pos|]. apply Rabs_le. lra.
  - intro Hs. apply diffusion_zero; auto.
Qed.
(** For a matrix that is not skew symmetric the rows of the diffusion need not add up to zero: the diagonal of the gradient is lost. *)
Theorem C38_rows_in_general : forall N c u i, (i < N)%nat ->
  rsum (tab N (discrete_upwind N c i)) = - Rabs (c i i) /\ rsum (tab N (burgers_diffusion N c u i)) = - Rabs (c i i * dof u i).
Proof.
  intros N c u i Hi. unfold discrete_upwind, burgers_diffusion. rewrite !offdiag_sum by auto. split; [reflexivity|]. rewrite Rmax_left by lra. reflexivity.
Qed.

(** * C39 *)
Theorem C39_low_order_conserves : forall eig D n m p s pr u r,
  (0 < n)%nat -> ia D < ib D -> new_mesh D n = Ok m -> new_fespace m p = Ok s -> eig_ok eig p -> eig_ok eig (p + 1) ->
  length u = fs_dimension s -> cg_low_rhs eig pr s u = Ok r ->
  exists mass, lumped_mass eig s = Ok mass /\ length r = fs_dimension s /\ rsum (map2 Rmult mass r) = 0.
Proof.
  intros eig D n m p s pr u r Hn HD Em Es HE HE' Lu ER. assert (Hp := space_degree m p s Es).
  destruct (C37_discrete_gradient eig D n m p s Hn HD Em Es HE) as [C [EC [SK [RS [CS _]]]]].
  destruct (C37_lumped_masses eig D n m p s Hn HD Em Es HE') as [M [mass [_ [EL [LL _]]]]].
  exists mass. split; [exact EL|]. unfold cg_low_rhs in ER. rewrite EL, EC in ER. cbn [bind] in ER. unfold low_rhs in ER.
  apply (mapM_nth _ _ _ 0%nat 0) in ER. rewrite seq_length in ER. destruct ER as [LR V]. split; [exact LR|].
  set (N := fs_dimension s) in *.
  rewrite (list_tab 0 mass), (list_tab 0 r), LL, LR, map2_tab.
  apply (fun H => eq_trans H (low_conserves N C SK (fun j _ => CS j) pr u Lu)). apply sum_ext. intros i Hi.
  specialize (V i Hi). rewrite seq_nth in V by auto. cbn [Nat.add] in V. unfold rdiv in V. destruct (Reqb_spec (nth i mass 0) 0) as [Z|Z]; [discriminate|]. apply Ok_inj in V. rewrite <- V. field. exact Z.
Qed.
(** the step of OptimalTimeStep: a positive step is allowed only if all lumped masses are positive *)
Lemma step_masses eig pr s u mass C step : lumped_mass eig s = Ok mass -> discrete_gradient eig s = Ok C -> fe_time_step eig pr s u = Ok step ->
  forall dt, 0 < dt -> step_allows step dt -> forall i, (i < fs_dimension s)%nat ->
  0 < dof mass i /\ 2 * dt * Rabs (diffusion pr (fs_dimension s) C u i i) <= dof mass i.
Proof.
  intros EL EC EST dt Hdt Hst i Hi. unfold fe_time_step in EST. rewrite EL, EC in EST. cbn [bind] in EST. cbv zeta in EST.
  set (N := fs_dimension s) in *. set (d := diffusion pr N C u) in *.
  destruct (mapM (fun i => step_quotient (nth i mass 0) (2 * Rabs (d i i))) (seq 0 N)) as [qs|] eqn:E; [|discriminate EST]. cbn [bind] in EST. apply Ok_inj in EST. subst step.
  apply (mapM_nth _ _ _ 0%nat None) in E. rewrite seq_length in E. destruct E as [LQ V]. specialize (V i Hi). rewrite seq_nth in V by auto. cbn [Nat.add] in V.
  assert (Y := step_min_le qs (nth i qs None) ltac:(apply nth_In; lia) dt Hst). unfold step_quotient in V. unfold dof. assert (Z' := Rabs_pos (d i i)).
  destruct (Reqb_spec (2 * Rabs (d i i)) 0) as [Z|Z].
  - destruct (Rltb_spec 0 (nth i mass 0)) as [B|B]; [|discriminate]. split; [exact B|]. nra.
  - apply Ok_inj in V. rewrite <- V in Y. cbn in Y. apply (Rmult_le_compat_r (2 * Rabs (d i i))) in Y; [|lra]. unfold Rdiv in Y. rewrite Rmult_assoc, Rinv_l in Y by lra.
    assert (0 < dt * (2 * Rabs (d i i))) by (apply Rmult_lt_0_compat; lra). lra.
Qed.
(** Whatever the degree: if right hand side and time step can be computed, a forward Euler step of at most this size
    keeps every degree of freedom between the bounds of the values it shares a cell with. *)
Theorem C39_low_order_bounds : forall eig D n m p s pr u r step,
  (0 < n)%nat -> ia D < ib D -> new_mesh D n = Ok m -> new_fespace m p = Ok s -> eig_ok eig p -> eig_ok eig (p + 1) ->
  length u = fs_dimension s -> cg_low_rhs eig pr s u = Ok r -> fe_time_step eig pr s u = Ok step ->
  forall dt, 0 <= dt -> step_allows step dt -> forall i lo hi, (i < fs_dimension s)%nat ->
  (forall j, (j < fs_dimension s)%nat -> share s i j -> lo <= dof u j <= hi) -> lo <= dof u i + dt * dof r i <= hi.
Proof.
  intros eig D n m p s pr u r step Hn HD Em Es HE HE' Lu ER EST dt Hdt Hst i lo hi Hi Hb. assert (Hp := space_degree m p s Es).
  destruct (C37_discrete_gradient eig D n m p s Hn HD Em Es HE) as [C [EC [SK [RS [CS [LOC _]]]]]].
  destruct (C37_lumped_masses eig D n m p s Hn HD Em Es HE') as [M [mass [_ [EL [LL _]]]]].
  assert (Self : share s i i).
  { destruct (num_onto D n m p s Hn HD Hp Em Es i) as [c [a [Hc [Ha E]]]]; [rewrite (s_dim D n m p s Hn HD Hp Em Es) in Hi; exact Hi|].
    exists c, a, a. rewrite (s_len D n m p s Hn HD Hp Em Es), (s_degree D n m p s Hn HD Hp Em Es). repeat (split; [auto; lia|]). exact E. }
  destruct Hdt as [Hdt|<-]; [|rewrite Rmult_0_l, Rplus_0_r; apply Hb; auto].
  destruct (step_masses eig pr s u mass C step EL EC EST dt Hdt Hst i Hi) as [Mi St]. unfold dof in Mi, St.
  set (N := fs_dimension s) in *. set (d := diffusion pr N C u) in *.
  unfold cg_low_rhs in ER. rewrite EL, EC in ER. cbn [bind] in ER. unfold low_rhs in ER. fold N in ER.
  apply (mapM_nth _ _ _ 0%nat 0) in ER. rewrite seq_length in ER. destruct ER as [LR VR].
    specialize (VR i Hi). rewrite seq_nth in VR by auto. cbn [Nat.add] in VR. rewrite (low_term N C SK (fun j _ => RS j) pr u i Hi Lu) in VR. unfold rdiv in VR.
    destruct (Reqb_spec (nth i mass 0) 0) as [Z|Z]; [lra|]. apply Ok_inj in VR. change (nth i r 0) with (dof r i) in VR. rewrite <- VR. fold d.
    (* choose the coefficients *)
    assert (CH : exists e, forall j, (j < N)%nat -> i <> j -> 0 <= e j <= 2 * d i j /\ d i j * (dof u j - dof u i) - C i j * (flux_of pr (dof u j) - flux_of pr (dof u i)) = e j * (dof u j - dof u i)).
    { exists (fun j => d i j - C i j * match pr with Advection => 1 | Burgers => (dof u i + dof u j) / 2 end). intros j Hj Hij.
      destruct (Req_dec (dof u j) (dof u i)) as [Eu|Nu].
      - rewrite Eu. split; [|ring]. unfold d. rewrite diffusion_entry by auto.
        rewrite Eu. rewrite Rmax_left by lra.
        assert (B : Rabs (C i j * match pr with Advection => 1 | Burgers => (dof u i + dof u i) / 2 end) = Rabs (C i j) * wave_speed pr (dof u i)).
        { rewrite Rabs_mult. f_equal. destruct pr; cbn; [apply Rabs_R1|f_equal; field]. }
        assert (X := Rle_abs (C i j * match pr with Advection => 1 | Burgers => (dof u i + dof u i) / 2 end)). assert (Y := Rle_abs (- (C i j * match pr with Advection => 1 | Burgers => (dof u i + dof u i) / 2 end))). rewrite Rabs_Ropp in Y. lra.
      - destruct (flux_bound N C SK pr u i j Hij) as [e [Be Ee]]. fold d in Be, Ee.
        assert (Q : d i j * (dof u j - dof u i) - C i j * (flux_of pr (dof u j) - flux_of pr (dof u i)) = (d i j - C i j * match pr with Advection => 1 | Burgers => (dof u i + dof u j) / 2 end) * (dof u j - dof u i)) by (destruct pr; cbn; field).
        split; [|exact Q]. assert (e = d i j - C i j * match pr with Advection => 1 | Burgers => (dof u i + dof u j) / 2 end) by (apply (Rmult_eq_reg_r (dof u j - dof u i)); lra). lra. }
    destruct CH as [e He].
    replace (dt * (off N (fun j => d i j * (dof u j - dof u i) - C i j * (flux_of pr (dof u j) - flux_of pr (dof u i))) i / nth i mass 0))
      with (dt / nth i mass 0 * off N (fun j => e j * (dof u j - dof u i)) i).
    2:{ rewrite (off_ext N _ (fun j => e j * (dof u j - dof u i)) i (fun j Hj Hij => proj2 (He j Hj Hij))). field. exact Z. }
    apply convex_step.
    + apply Rmult_le_pos; [lra|]. left. apply Rinv_0_lt_compat. auto.
    + intros j Hj Hij. apply (He j Hj Hij).
    + apply Hb; auto.
    + assert (B : off N e i <= 2 * Rabs (d i i)).
      { unfold d. rewrite diffusion_abs_diag by auto. rewrite <- off_scal. apply off_le. intros j Hj Hij. apply (He j Hj Hij). }
      apply (Rmult_le_reg_r (nth i mass 0)); [auto|]. replace (dt / nth i mass 0 * off N e i * nth i mass 0) with (dt * off N e i) by (field; exact Z).
      apply Rle_trans with (dt * (2 * Rabs (d i i))); [apply Rmult_le_compat_l; [lra|auto]|lra].
    + intros j Hj Hij. destruct (Req_dec (C i j) 0) as [E0|N0].
      * left. assert (d i j = 0) by (apply diffusion_zero; auto). destruct (He j Hj Hij). lra.
      * right. apply Hb; [auto|]. destruct (share_dec s i j) as [Y|Y]; [exact Y|]. exfalso. apply N0, LOC, Y.
Qed.
(** Degrees 1 to 7: both can be computed for every state, and the step is positive. *)
Theorem C39_low_order_succeeds : forall eig D n m p s pr u,
  (0 < n)%nat -> ia D < ib D -> new_mesh D n = Ok m -> new_fespace m p = Ok s -> eig_ok eig p -> eig_ok eig (p + 1) -> (p <= 7)%nat ->
  length u = fs_dimension s ->
  exists r step, cg_low_rhs eig pr s u = Ok r /\ fe_time_step eig pr s u = Ok step /\ (forall x, step = Some x -> 0 < x).
Proof.
  intros eig D n m p s pr u Hn HD Em Es HE HE' H7 Lu. assert (Hp := space_degree m p s Es).
  destruct (C37_discrete_gradient eig D n m p s Hn HD Em Es HE) as [C [EC _]].
  destruct (C37_lumped_masses eig D n m p s Hn HD Em Es HE') as [M [mass [_ [EL [LL _]]]]].
  assert (MP := C37_lumped_masses_positive eig D n m p s mass Hn HD Em Es HE' H7 EL).
  set (N := fs_dimension s) in *. set (d := diffusion pr N C u).
  unfold cg_low_rhs, fe_time_step. rewrite EL, EC. cbn [bind]. unfold low_rhs. fold N.
  destruct (mapM_exists (fun i => rdiv (nth i (mat_dot N (diffusion pr N C u) u) 0 + nth i (flux_gradient_approximation pr N C u) 0) (nth i mass 0)) (seq 0 N)) as [r ER].
  { intros i Hi. apply in_seq in Hi. unfold rdiv. destruct (Reqb_spec (nth i mass 0) 0) as [Z|Z]; [|eauto]. assert (X := MP i ltac:(lia)). lra. }
  destruct (mapM_exists (fun i => step_quotient (nth i mass 0) (2 * Rabs (d i i))) (seq 0 N)) as [qs EQ].
  { intros i Hi. apply in_seq in Hi. unfold step_quotient. destruct (Reqb_spec (2 * Rabs (d i i)) 0); [|eauto]. destruct (Rltb_spec 0 (nth i mass 0)) as [B|B]; [eauto|]. assert (X := MP i ltac:(lia)). lra. }
  rewrite ER. fold d. rewrite EQ. cbn [bind]. exists r, (fold_right step_min None qs). split; [reflexivity|]. split; [reflexivity|].
  apply (mapM_nth _ _ _ 0%nat None) in EQ. rewrite seq_length in EQ. destruct EQ as [LQ VQ].
  apply step_min_pos. intros x Hx. apply (In_nth _ _ None) in Hx. destruct Hx as [i [Hi Ex]]. rewrite LQ in Hi.
  specialize (VQ i Hi). rewrite seq_nth in VQ by auto. cbn [Nat.add] in VQ. unfold step_quotient in VQ.
  destruct (Reqb_spec (2 * Rabs (d i i)) 0) as [Z|Z].
  - destruct (Rltb 0 (nth i mass 0)); [|discriminate]. apply Ok_inj in VQ. congruence.
  - apply Ok_inj in VQ. rewrite Ex in VQ. injection VQ as <-. assert (X := Rabs_pos (d i i)). apply Rdiv_lt_0_compat; [auto|lra].
Qed.
(** Degree 8: OptimalTimeStep has no positive value for any state: it is negative or the division by zero shows. *)
Theorem C39_degree_8_has_no_time_step : forall eig D n m s pr u,
  (0 < n)%nat -> ia D < ib D -> new_mesh D n = Ok m -> new_fespace m 8 = Ok s -> eig_ok eig 8 -> eig_ok eig 9 ->
  (exists x, fe_time_step eig pr s u = Ok (Some x) /\ x < 0) \/ (exists e, fe_time_step eig pr s u = Err e).
Proof.
  intros eig D n m s pr u Hn HD Em Es HE HE'. assert (Hp : (0 < 8)%nat) by lia.
  destruct (C37_discrete_gradient eig D n m 8 s Hn HD Em Es HE) as [C [EC _]].
  destruct (C37_lumped_masses eig D n m 8 s Hn HD Em Es HE') as [M [mass [_ [EL [LL _]]]]].
  assert (NG := C37_degree_8_masses_negative eig D n m s mass Hn HD Em Es HE' EL 0%nat Hn).
  assert (Hi : (fs_number s 0 2 < fs_dimension s)%nat) by (rewrite (s_dim D n m 8 s Hn HD Hp Em Es); apply (num_lt D n m 8 s Hn HD Hp Em Es); auto; lia).
  set (i := fs_number s 0 2) in *. destruct (fe_time_step eig pr s u) as [step|e] eqn:E; [left|right; eauto].
  destruct step as [x|].
  - exists x. split; [reflexivity|]. destruct (Rlt_dec x 0) as [H|H]; [exact H|]. exfalso.
    unfold fe_time_step in E. rewrite EL, EC in E. cbn [bind] in E. cbv zeta in E. set (N := fs_dimension s) in *. set (d := diffusion pr N C u) in *.
    destruct (mapM (fun i => step_quotient (nth i mass 0) (2 * Rabs (d i i))) (seq 0 N)) as [qs|] eqn:Q; [|discriminate E]. cbn [bind] in E. apply Ok_inj in E.
    apply (mapM_nth _ _ _ 0%nat None) in Q. rewrite seq_length in Q. destruct Q as [LQ V]. specialize (V i Hi). rewrite seq_nth in V by auto. cbn [Nat.add] in V.
    assert (Y := step_min_le qs (nth i qs None) ltac:(apply nth_In; lia) 0). rewrite E in Y. cbn in Y. specialize (Y ltac:(lra)). unfold step_quotient in V.
    destruct (Reqb_spec (2 * Rabs (d i i)) 0) as [Z|Z]; [destruct (Rltb_spec 0 (nth i mass 0)); [lra|discriminate]|].
    apply Ok_inj in V. rewrite <- V in Y. cbn in Y. assert (Z' := Rabs_pos (d i i)). assert (0 < / (2 * Rabs (d i i))) by (apply Rinv_0_lt_compat; lra). unfold Rdiv in Y. nra.
  - exfalso. destruct (step_masses eig pr s u mass C None EL EC E 1 ltac:(lra) I i Hi) as [P _]. unfold dof in P. lra.
Qed.

(* Three cells of degree 2 on (0, 1), Burgers: the hypotheses can be met; the values differ. *)
Example C39_ex : exists eig m s r step, new_mesh {| ia := 0; ib := 1 |} 3 = Ok m /\ new_fespace m 2 = Ok s /\ fs_dimension s = 6%nat /\
  eig_ok eig 2 /\ eig_ok eig 3 /\ cg_low_rhs eig Burgers s [1; 2; 3; -1; -2; 0] = Ok r /\ fe_time_step eig Burgers s [1; 2; 3; -1; -2; 0] = Ok step.
Proof.
  destruct (C37_ex {| ia := 0; ib := 1 |} 3 2 ltac:(lia) ltac:(lia) ltac:(cbn; lra)) as [eig [m [s [Em [Es [Ds [H2 [H3 _]]]]]]]].
  destruct (C39_low_order_succeeds eig {| ia := 0; ib := 1 |} 3 m 2 s Burgers [1; 2; 3; -1; -2; 0] ltac:(lia) ltac:(cbn; lra) Em Es H2 H3 ltac:(lia) ltac:(rewrite Ds; reflexivity)) as [r [step [A [B _]]]].
  exists eig, m, s, r, step. repeat (split; [assumption|]). exact B.
Qed.
(* a skew symmetric matrix *)
Example C38_ex : let c := (fun i j => INR j - INR i) : mat in forall i j, c i j = - c j i.
Proof. intros c i j. unfold c. ring. Qed.
Print Assumptions C37_lumped_masses_positive.
Print Assumptions C37_degree_8_masses_negative.
Print Assumptions C38_artificial_diffusion.
Print Assumptions C38_rows_in_general.
Print Assumptions C39_low_order_conserves.
Print Assumptions C39_low_order_bounds.
Print Assumptions C39_low_order_succeeds.
Print Assumptions C39_degree_8_has_no_time_step.
