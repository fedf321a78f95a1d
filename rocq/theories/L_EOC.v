(** Lemmas: the errors in the tables of eoc for the advection equation. *)
From Coq Require Import String Ascii Reals List Arith ZArith Bool Lia Lra Psatz.
From Verif Require Import Prelude L_Prelude M_Mesh L_Mesh M_Norm S_Norm L_Norm P_Norm M_FE M_Quadrature S_Quadrature M_Interpolate M_Boundary L_Boundary S_Boundary M_Flux L_Flux
  M_ODE S_ODE M_TimeStepping L_TimeStepping M_Solution M_Solver S_Solver L_Solver M_Generate M_Scalar S_Scalar L_Scalar M_ShallowWater S_ShallowWater M_FVSolver S_FVSolver L_FVSolver
  M_Benchmark P_Benchmark M_ScalarSolver S_ScalarSolver M_Misc P_FVWater P_FVLake P_ScalarSolver S_FE L_Lagrange L_FE P_FE S_FELow L_FELow P_FELow P_FERun P_FESolver M_Command M_Series M_Parser S_Parser M_CommandLine S_CommandLine S_CommandRun P_FEMatrix S_Solve S_FESolver
  P_CommandCalc L_FERates P_VariationFE P_VariationLine S_Convergence S_ConvergenceLine P_Convergence P_ConvergenceFE P_ConvergenceLine P_ConvergenceBench M_EOC S_EOC.
Import ListNotations.
Open Scope R_scope.
Notation length := List.length.

Lemma natural_above x : exists N, x < INR N.
Proof. exists (Z.to_nat (Z.max 0 (up x))). rewrite INR_IZR_INZ, Z2Nat.id by lia. pose proof (archimed x) as [A _]. pose proof (IZR_le _ _ (Z.le_max_r 0 (up x))). lra. Qed.
(** ** norms of bounded functions *)
Section Norms.
Context (eig : nat -> (nat -> nat -> R) -> (nat -> R) * (nat -> nat -> R)) (D : interval) (n : nat) (m : mesh).
Hypothesis Hn : (0 < n)%nat.
Hypothesis HD : ia D < ib D.
Hypothesis Em : new_mesh D n = Ok m.

Lemma cell_sum_between Q g B : length (q_weights Q) = length (q_nodes Q) -> (forall x, In x (q_nodes Q) -> 0 < x < 1) -> (forall w, In w (q_weights Q) -> 0 < w) -> rsum (q_weights Q) = 1 ->
  (forall c x, (c < n)%nat -> ia (unif_cell D n c) <= x <= ib (unif_cell D n c) -> 0 <= g c x <= B) -> 0 <= cell_sum Q m g <= (ib D - ia D) * B.
Proof.
  intros LW NQ WQ SQ HG. destruct (mesh_cells D n m Hn HD Em) as [M1 [M2 M3]]. rewrite cell_sum_tab by exact LW. rewrite M1.
  assert (Pn : 0 < INR n) by (apply lt_0_INR; lia). set (h := (ib D - ia D) / INR n).
  assert (Cell : forall c, (c < n)%nat -> nth c (m_cells m) dcell = unif_cell D n c /\ ilength (unif_cell D n c) = h /\ 0 < h).
  { intros c Hc. assert (X : nth c (m_cells m) dcell = unif_cell D n c) by (rewrite M2; apply nth_tab; exact Hc). split; [exact X|].
    assert (Y : In (unif_cell D n c) (m_cells m)) by (rewrite M2; apply in_tab; exists c; auto). destruct (M3 _ Y) as [A P]. rewrite A in P. auto. }
  assert (In1 : forall c, (c < n)%nat -> 0 <= rsum (tab (length (q_nodes Q)) (fun j => nth j (q_weights Q) 0 * g c (affine (nth j (q_nodes Q) 0) (nth c (m_cells m) dcell)))) <= B).
  { intros c Hc. destruct (Cell c Hc) as [-> [Lc Ph]].
    assert (V : forall j, (j < length (q_nodes Q))%nat -> 0 < nth j (q_weights Q) 0 /\ 0 <= g c (affine (nth j (q_nodes Q) 0) (unif_cell D n c)) <= B).
    { intros j Hj. split; [apply WQ, nth_In; lia|]. apply HG; [exact Hc|]. pose proof (NQ _ (nth_In _ 0 Hj)) as X. unfold affine. unfold ilength in *. nra. }
    split.
    - apply rsum_tab_nonneg. intros j Hj. destruct (V j Hj) as [A [B1 _]]. apply Rmult_le_pos; lra.
    - apply Rle_trans with (rsum (tab (length (q_nodes Q)) (fun j => B * nth j (q_weights Q) 0))).
      + apply rsum_tab_le. intros j Hj. destruct (V j Hj) as [A [_ B2]]. nra.
      + rewrite rsum_tab_scal, <- LW, <- list_tab, SQ. lra. }
  split.
  - apply rsum_tab_nonneg. intros c Hc. destruct (Cell c Hc) as [E [L P]]. specialize (In1 c Hc). rewrite E in *. rewrite L. nra.
  - replace ((ib D - ia D) * B) with (rsum (tab n (fun _ => h * B))).
    2:{ rewrite rsum_tab_const. unfold h. field. lra. }
    apply rsum_tab_le. intros c Hc. destruct (Cell c Hc) as [E [L P]]. specialize (In1 c Hc). rewrite E in *. rewrite L. nra.
Qed.

Lemma norms_between degree f B : eig_works eig degree -> (forall c x, (c < n)%nat -> ia (unif_cell D n c) <= x <= ib (unif_cell D n c) -> Rabs (f c x) <= B) ->
  exists e1 e2 e3, l1norm eig degree m f = Ok e1 /\ l2norm eig degree m f = Ok e2 /\ linfnorm None m f = Ok e3 /\
    0 <= e1 <= (ib D - ia D) * B /\ 0 <= e2 <= sqrt (ib D - ia D) * B /\ 0 <= e3 <= B.
Proof.
  intros HE HF. destruct (rule_of eig degree HE) as [Q [EQ [_ [LW [NQ [WQ [SQ _]]]]]]]. rewrite (l1_value eig degree m Q f EQ), (l2_value eig degree m Q f EQ).
  destruct (mesh_cells D n m Hn HD Em) as [M1 [M2 M3]].
  destruct (C41_maximum_norm None D n m Hn HD Em) as [N [EN [[N0 _] [NB _]]]].
  assert (B0 : 0 <= B). { assert (Y : In (unif_cell D n 0) (m_cells m)) by (rewrite M2; apply in_tab; exists 0%nat; auto). destruct (M3 _ Y) as [_ P]. unfold ilength in P. pose proof (HF 0%nat (ia (unif_cell D n 0)) Hn ltac:(lra)). pose proof (Rabs_pos (f 0%nat (ia (unif_cell D n 0)))). lra. }
  exists (cell_sum Q m (fun i x => Rabs (f i x))), (sqrt (cell_sum Q m (fun i x => f i x ^ 2))), (N f). split; [reflexivity|]. split; [reflexivity|]. split; [apply EN|]. split; [|split].
  - apply (cell_sum_between Q _ B LW NQ WQ SQ). intros c x Hc Hx. split; [apply Rabs_pos|apply HF; auto].
  - split; [apply sqrt_pos|]. rewrite <- (sqrt_square B) by exact B0. rewrite <- sqrt_mult by nra. apply sqrt_le_1_alt.
    apply (cell_sum_between Q (fun i x => f i x ^ 2) (B * B) LW NQ WQ SQ). intros c x Hc Hx. pose proof (HF c x Hc Hx) as X. split; [apply pow2_ge_0|].
    rewrite <- pow2_abs. pose proof (Rabs_pos (f c x)). nra.
  - split; [apply N0|]. apply NB. intros c cell x Hc Hx. assert (Lc : (c < n)%nat) by (rewrite <- M1; apply nth_error_Some; congruence).
    assert (cell = unif_cell D n c). { rewrite M2 in Hc. apply (nth_error_nth _ _ dcell) in Hc. rewrite nth_tab in Hc by exact Lc. congruence. } subst cell. apply HF; auto.
Qed.
End Norms.

(** ** the low order solver steps by half a cell times the CFL number *)
Lemma low_step_value eig D n m s u step : (3 <= n)%nat -> ia D < ib D -> new_mesh D n = Ok m -> new_fespace m 1 = Ok s -> eig_ok eig 1 -> eig_ok eig 2 ->
  fe_time_step eig M_FE.Advection s u = Ok step -> step_allows step ((ib D - ia D) / INR n / 2).
Proof.
  intros H3 HD Em Es HE HE1 Est. assert (N0 : (0 < n)%nat) by lia. assert (N2 : (2 <= n)%nat) by lia. set (h := (ib D - ia D) / INR n).
  assert (Hh : 0 < h) by (apply Rdiv_lt_0_compat; [lra|apply lt_0_INR; lia]). pose proof (dimension_1 D n m s N2 HD Em Es) as DN.
  destruct (C37_discrete_gradient eig D n m 1 s N0 HD Em Es HE) as [C [EC [SK [RS [CS [LOC _]]]]]].
  destruct (C37_lumped_masses eig D n m 1 s N0 HD Em Es HE1) as [M [mass [_ [EL [LL _]]]]].
  destruct (degree_1_entries eig D n m s mass C N2 HD Em Es HE HE1 EL EC) as [Mi Ci]. fold h in Mi.
  unfold fe_time_step in Est. rewrite EL, EC in Est. cbn [bind] in Est. inv_bind Est. apply Ok_inj in Est. subst step. rewrite DN in *.
  apply (mapM_nth _ _ _ 0%nat None) in E as [La E]. rewrite seq_length in La, E. apply step_all. intros x Hx. apply (In_nth _ _ None) in Hx as [i [Hi <-]]. rewrite La in Hi.
  specialize (E i Hi). rewrite seq_nth in E by exact Hi. cbn [Nat.add] in E. rewrite (Mi i Hi) in E.
  rewrite (diffusion_abs_diag n C SK) in E by auto. destruct (next_before n H3 i Hi) as [A1 [A2 [A3 [A4 A5]]]].
  rewrite (off_two n _ i (S i mod n) ((i + n - 1) mod n)) in E; auto.
  - rewrite !(diffusion_entry n C SK) in E by auto. rewrite !Ci in E by auto. rewrite !delta_eq, (delta_ne (S i mod n)), (delta_ne ((i + n - 1) mod n)) in E by auto. cbn [wave_speed] in E. rewrite Rmax_left in E by lra.
    replace (Rabs (1 * (1 / 2) - 0 * (1 / 2))) with (1 / 2) in E by (rewrite Rabs_right; lra). replace (Rabs (0 * (1 / 2) - 1 * (1 / 2))) with (1 / 2) in E by (rewrite Rabs_left; lra).
    unfold step_quotient in E. destruct (Reqb_spec (2 * (1 / 2 * 1 + 1 / 2 * 1)) 0); [lra|]. apply Ok_inj in E. rewrite <- E. cbn [step_allows]. right. field.
  - intros j Hj N0' N1 N3. rewrite (diffusion_entry n C SK) by auto. rewrite Ci, !delta_ne by auto. replace (0 * (1 / 2) - 0 * (1 / 2)) with 0 by ring. rewrite Rabs_R0. ring.
Qed.

(** ** linear elements lie between their values at the nodes *)
Lemma linear_element D n m s v c x : (0 < n)%nat -> ia D < ib D -> new_mesh D n = Ok m -> new_fespace m 1 = Ok s -> (c < n)%nat -> ia (unif_cell D n c) <= x <= ib (unif_cell D n c) ->
  exists y, 0 <= y <= 1 /\ affine y (unif_cell D n c) = x /\ element s v c x = (1 - y) * nth c v 0 + y * nth (S c mod n) v 0.
Proof.
  intros Hn HD Em Es Hc Hx. exists (affine_inverse x (fs_cell s c)). rewrite (element_val D n m 1 s Hn HD ltac:(lia) Em Es).
  destruct (s_step D n m 1 s Hn HD ltac:(lia) Em Es c Hc) as [_ P]. rewrite (s_cell D n m 1 s Hn HD ltac:(lia) Em Es c Hc) in *. split.
  - unfold affine_inverse. split.
    + apply Rmult_le_pos; [lra|]. left. apply Rinv_0_lt_compat. exact P.
    + apply (Rmult_le_reg_r (ilength (unif_cell D n c))); [exact P|]. unfold Rdiv. rewrite Rmult_assoc, Rinv_l by lra. unfold ilength. lra.
  - split; [unfold affine, affine_inverse; field; lra|]. unfold local_fun. cbn [tab seq map]. unfold rsum. cbn [fold_right]. set (y := affine_inverse x (unif_cell D n c)).
    rewrite (num_small D n m 1 s Hn HD ltac:(lia) Em Es c 0 Hc ltac:(lia)).
    assert (X : fs_number s c 1 = (S c mod n)%nat).
    { rewrite (num_last D n m 1 s Hn HD ltac:(lia) Em Es c Hc). destruct (Nat.eqb_spec (S c) n) as [->|E]; [rewrite Nat.mod_same by lia; reflexivity|].
      rewrite (num_small D n m 1 s Hn HD ltac:(lia) Em Es (S c) 0 ltac:(lia) ltac:(lia)). rewrite Nat.mod_small by lia. lia. }
    rewrite X. unfold dof. replace (c * 1 + 0)%nat with c by lia. unfold basis_value, basis_poly, lagrange, lagrange_factor, local_nodes, unit_vector. cbn. field.
Qed.

(** ** one row *)
Lemma cosine_lipschitz : lipschitz (2 * PI) (line_data cosine).
Proof.
  intros x y. rewrite !cosine_line. pose proof PI_RGT_0.
  assert (HD : forall z, derivable_pt_lim cosine z (- sin (2 * PI * (z - 1 / 2)) * (2 * PI))).
  { intro z. unfold cosine. apply (derivable_pt_lim_comp (fun x => 2 * PI * (x - 1 / 2)) cos); [|apply derivable_pt_lim_cos].
    apply (lim_eq _ _ (0 * (z - 1 / 2) + 2 * PI * (1 - 0))); [|ring]. apply (derivable_pt_lim_mult (fun _ => 2 * PI) (fun x => x - 1 / 2)); [apply derivable_pt_lim_const|].
    apply (derivable_pt_lim_minus (fun x => x) (fun _ => 1 / 2)); [apply derivable_pt_lim_id|apply derivable_pt_lim_const]. }
  assert (B : forall z, Rabs (- sin (2 * PI * (z - 1 / 2)) * (2 * PI)) <= 2 * PI).
  { intro z. pose proof (SIN_bound (2 * PI * (z - 1 / 2))). rewrite Rabs_mult, (Rabs_right (2 * PI)) by lra. assert (Rabs (- sin (2 * PI * (z - 1 / 2))) <= 1) by (apply Rabs_le; lra). nra. }
  assert (V : forall a b, a < b -> Rabs (cosine a - cosine b) <= 2 * PI * Rabs (a - b)).
  { intros a b Hab. assert (pr : derivable cosine) by (intro z; eexists; apply HD). destruct (MVT_cor1 cosine a b pr Hab) as [z [Hz _]].
    rewrite (derive_pt_eq_0 _ _ _ (pr z) (HD z)) in Hz. rewrite Rabs_minus_sym, Hz, Rabs_mult, (Rabs_minus_sym a b). pose proof (B z). pose proof (Rabs_pos (b - a)). nra. }
  destruct (Rtotal_order x y) as [Q|[->|Q]]; [apply V; exact Q|unfold Rminus; rewrite !Rplus_opp_r, Rabs_R0; lra|]. rewrite Rabs_minus_sym, (Rabs_minus_sym x y). apply V. exact Q.
Qed.
Lemma exact_near u0 K x y t T : lipschitz K (line_data u0) -> 0 <= K -> Rabs (advection_exact u0 x T - advection_exact u0 y t) <= K * (Rabs (x - y) + Rabs (T - t)).
Proof.
  intros HK K0. rewrite <- !line_moved. unfold moved. eapply Rle_trans; [apply HK|]. apply Rmult_le_compat_l; [exact K0|]. replace (x - T - (y - t)) with (x - y + - (T - t)) by ring.
  eapply Rle_trans; [apply Rabs_triang|]. rewrite Rabs_Ropp. lra.
Qed.

Section Rows.
Context (eig : nat -> (nat -> nat -> R) -> (nat -> R) * (nat -> nat -> R)) (linear_solver : M_Misc.mat -> list R -> list R) (old : nat -> R).
Context (finite : list R -> bool) (finite2 : list state -> bool).
Hypothesis HE1 : eig_ok eig 1.
Hypothesis HE2 : eig_ok eig 2.
Hypothesis HF : forall v, in_range (-1) 1 v -> finite v = true.

Definition small_ones (u0 : R -> R) (T : R) (n : nat) (es : list R) : Prop := forall e, In e es -> small_error u0 T (1 / INR n) e.
Definition good_row (ok : list R -> Prop) (u0 : R -> R) (T : R) (n : nat) (call : call) (k : nat) : Prop := exists s o t v sp es,
  construct eig linear_solver old (BScalar (advection_benchmark u0 T)) call = Ok s /\ solve_any finite finite2 k s = (o, None) /\ solution_in o = Ok (t, v) /\ length v = n /\
  space_of (advection_benchmark u0 T) call = Ok sp /\ errors_at eig (fun x => advection_exact u0 x T) sp t v = Ok es /\ length es = 3%nat /\ ok es.

Lemma three_errors exact sp t v n B : (0 < n)%nat -> new_mesh unit_interval n = Ok (mesh_in sp) -> (norm_degree sp = None \/ norm_degree sp = Some 2%nat) ->
  (forall c x, (c < n)%nat -> INR c * (1 / INR n) <= x <= INR (S c) * (1 / INR n) -> Rabs (exact x - value_in sp v c x) <= B) ->
  exists es, errors_at eig exact sp t v = Ok es /\ length es = 3%nat /\ forall e, In e es -> 0 <= e <= B.
Proof.
  intros Hn Em Dg HB.
  destruct (norms_between eig unit_interval n (mesh_in sp) Hn ltac:(cbn; lra) Em (norm_degree sp) (fun c x => exact x - value_in sp v c x) B) as [e1 [e2 [e3 [E1 [E2 [E3 [B1 [B2 B3]]]]]]]].
  { unfold eig_works. destruct Dg as [-> | ->]; cbn [or_default]; [exact HE1|exact HE2]. }
  { intros c x Hc Hx. apply HB; [exact Hc|]. cbn [unif_cell ia ib unit_interval ilength] in Hx. unfold ilength in Hx. cbn [ia ib unit_interval] in Hx. replace ((1 - 0) / INR n) with (1 / INR n) in Hx by (f_equal; lra). lra. }
  exists [e1; e2; e3]. unfold errors_at, error_calculator. rewrite E1, E2, E3. cbn [bind snd]. split; [reflexivity|]. split; [reflexivity|]. cbn [unit_interval ia ib] in B1, B2.
  replace (1 - 0) with 1 in B1, B2 by lra. rewrite sqrt_1 in B2. intros e [<-|[<-|[<-|[]]]]; lra.
Qed.

Lemma fv_row u0 T n cfl : u0 = cosine \/ u0 = gaussian_bell -> (0 < n)%nat -> 0 < cfl <= 1 -> 1 / 10 ^ 12 <= T -> 1 / 10 ^ 12 <= 1 / INR n * cfl ->
  exists N, forall k, (N <= k)%nat -> good_row (small_ones u0 T n) u0 T n (ScalarFV SLLF (fv n cfl None false)) k.
Proof.
  intros Hu Hn HC HT HS. set (a := fv n cfl None false). set (b := advection_benchmark u0 T).
  assert (Om : or_default (a_mesh_size a) default_mesh_size = n) by (cbn; destruct n; [lia|reflexivity]).
  assert (Py : py_or (a_cfl a) default_cfl = cfl) by (cbn [a fv a_cfl]; unfold py_or; destruct (Reqb_spec cfl 0); [lra|reflexivity]).
  assert (HM : ssp_method (a_ode a)) by (intros X Y; discriminate Y). assert (Pn : 0 < INR n) by (apply lt_0_INR; lia). set (h := 1 / INR n) in *. assert (Hh : 0 < h) by (apply Rdiv_lt_0_compat; lra).
  assert (N1 : 1 <= INR n) by (apply (le_INR 1); lia). assert (Eh : h * INR n = 1) by (unfold h; field; lra). assert (h1 : h <= 1) by nra.
  assert (Hb : forall x, -1 <= u0 x <= 1). { intro x. destruct Hu as [-> | ->]; [apply (C49_advection_data cosine (-1)); tauto|]. assert (0 <= gaussian_bell x <= 1) by (apply (C49_advection_data gaussian_bell 0); tauto). lra. }
  assert (Tl : 0 < 1 / 10 ^ 12) by lra. set (dt := h * cfl). assert (Hd : 0 < dt) by (unfold dt; nra).
  destruct (natural_above (T / dt)) as [N HN]. assert (HN' : T < INR N * dt). { apply (Rmult_lt_compat_r dt) in HN; [|exact Hd]. unfold Rdiv in HN. rewrite Rmult_assoc, Rinv_l, Rmult_1_r in HN by lra. exact HN. }
  exists (S N). intros k Hk. destruct k as [|k]; [lia|]. assert (Hk' : T < INR k * dt). { eapply Rlt_le_trans; [exact HN'|]. apply Rmult_le_compat_r; [lra|]. apply le_INR. lia. }
  assert (Sh : exists c w, scalar_solver eig SLLF b a = Ok (c, w) /\ forall t v, shown (fst (use_run finite c [Solve (S k)] (w, []))) t v -> 0 <= t /\ length v = n /\
    forall i, (i < n)%nat -> u0 = cosine /\ Rabs (nth i v 0 - advection_exact u0 ((INR i + 1 / 2) * h) t) <= 2 * (PI * PI) * t * h + PI * PI / 6 * (h * h) \/
      u0 = gaussian_bell /\ Rabs (nth i v 0 - advection_exact u0 ((INR i + 1 / 2) * h) t) <= 10 * (sqrt (t * h) + sqrt (1 / 12) * h)).
  { destruct (C87_advection_benchmarks eig finite T a [Solve (S k)] HE2 HM ltac:(rewrite Py; exact HC) HF) as [[c [w [E X]]] [c' [w' [E' X']]]].
    { intros v t [Q|[]]. discriminate Q. }
    cbv zeta in X, X'. rewrite Om in X, X'. destruct Hu as [Hu|Hu].
    - exists c, w. unfold b. rewrite Hu. split; [exact E|]. intros t v SH. destruct (X t v SH) as [T0 [Lv Y]]. split; [exact T0|]. split; [exact Lv|]. intros i Hi. left. split; [reflexivity|exact (Y i Hi)].
    - exists c', w'. unfold b. rewrite Hu. split; [exact E'|]. intros t v SH. destruct (X' t v SH) as [T0 [Lv Y]]. split; [exact T0|]. split; [exact Lv|]. intros i Hi. right. split; [reflexivity|exact (Y i Hi)]. }
  destruct Sh as [c [w [E X]]].
  assert (HD : ia (sb_domain b) < ib (sb_domain b)) by (cbn; lra).
  assert (Lw : length (o_sol (solution_of w)) = n) by (rewrite (first_values eig SLLF b a c w n HE2 HD E Om Hn); apply tab_length).
  destruct (C69_run_completes eig finite SLLF b a M_Scalar.Advection (-1) 1 c w k HE2 HD eq_refl) as [w' [s' [Ew [Et _]]]]; auto.
  { left. reflexivity. }
  { split; [intros x _; apply Hb|]. cbn. intros [Q|[]]. discriminate Q. }
  { cbn. exact I. }
  { rewrite Py. lra. }
  { rewrite Py. cbn [max_speed cells_per_step]. lra. }
  { rewrite Lw, Py. cbn. replace ((1 - 0) / INR n) with h by (unfold h; f_equal; lra). exact HS. }
  { rewrite Lw, Py. cbn [b advection_benchmark sb_end sb_start sb_domain unit_interval ia ib]. replace ((1 - 0) / INR n) with h by (unfold h; f_equal; lra). fold dt. lra. }
  cbn [b advection_benchmark sb_end] in Et. set (t := w_sol_time w') in *. set (v := w_mem w' (w_sol w')). change (o_time (solution_of w')) with t in Et.
  destruct (X t v) as [T0 [Lv Y]]. { rewrite use_solve1, Ew. left. auto. }
  pose proof (new_mesh_ok unit_interval n Hn ltac:(cbn; lra)) as Em. set (m := {| m_domain := unit_interval; m_cells := _; m_step := _ |}) in Em.
  assert (Near : forall K B, lipschitz K (line_data u0) -> 0 <= K -> (forall i, (i < n)%nat -> Rabs (nth i v 0 - advection_exact u0 ((INR i + 1 / 2) * h) t) <= B) ->
    forall c x, (c < n)%nat -> INR c * h <= x <= INR (S c) * h -> Rabs (advection_exact u0 x T - value_in (FVSpace m) v c x) <= K * (h / 2 + 1 / 10 ^ 12) + B).
  { intros K B HK K0 HB i x Hi Hx. cbn [value_in]. unfold fv_element. specialize (HB i Hi). pose proof (exact_near u0 K x ((INR i + 1 / 2) * h) t T HK K0) as Q. rewrite S_INR in Hx.
    assert (Rabs (x - (INR i + 1 / 2) * h) <= h / 2) by (apply Rabs_le; nra). assert (Rabs (T - t) <= 1 / 10 ^ 12) by (apply Rabs_le; lra).
    replace (advection_exact u0 x T - nth i v 0) with ((advection_exact u0 x T - advection_exact u0 ((INR i + 1 / 2) * h) t) + - (nth i v 0 - advection_exact u0 ((INR i + 1 / 2) * h) t)) by ring.
    eapply Rle_trans; [apply Rabs_triang|]. rewrite Rabs_Ropp. nra. }
  assert (Go : forall B, (forall c x, (c < n)%nat -> INR c * h <= x <= INR (S c) * h -> Rabs (advection_exact u0 x T - value_in (FVSpace m) v c x) <= B) -> (forall e, 0 <= e <= B -> small_error u0 T h e) ->
    good_row (small_ones u0 T n) u0 T n (ScalarFV SLLF a) (S k)).
  { intros B HB HS'. destruct (three_errors (fun x => advection_exact u0 x T) (FVSpace m) t v n B Hn Em (or_introl eq_refl) HB) as [es [Ee [Le Be]]].
    exists (Scalar (c, w)), (Scalar (c, w')), t, v, (FVSpace m), es. cbn [construct]. change (advection_benchmark u0 T) with b. rewrite E. cbn [bind solve_any solution_in]. rewrite Ew. cbn [exception_of]. split; [reflexivity|]. split; [reflexivity|]. split; [reflexivity|].
    split; [exact Lv|]. split; [cbn [space_of]; rewrite Om; change (sb_domain b) with unit_interval; rewrite Em; reflexivity|]. split; [exact Ee|]. split; [exact Le|]. intros e He. apply HS', Be, He. }
  pose proof PI_RGT_0 as P0. pose proof PI2_3_2 as P3. assert (Pi4 : PI <= 4) by apply PI_4. destruct Hu as [Hu|Hu].
  - apply (Go (2 * PI * (h / 2 + 1 / 10 ^ 12) + (2 * (PI * PI) * T * h + PI * PI / 6 * (h * h)))).
    + apply Near; [rewrite Hu; apply cosine_lipschitz|lra|]. intros i Hi. destruct (Y i Hi) as [[_ Q]|[Q _]].
      * eapply Rle_trans; [exact Q|]. assert (0 <= 2 * (PI * PI) * h) by nra. nra.
      * exfalso. rewrite Hu in Q. apply (f_equal (fun f => f 0)) in Q. unfold cosine, gaussian_bell in Q. replace (2 * PI * (0 - 1 / 2)) with (- PI) in Q by field. rewrite cos_neg, cos_PI in Q. pose proof (exp_pos (-100 * (0 - 1 / 2) ^ 2)). lra.
    + intros e He. left. split; [exact Hu|]. assert (PI * PI / 6 * (h * h) <= PI * h). { assert (PI / 6 * h <= 1) by nra. replace (PI * PI / 6 * (h * h)) with (PI * h * (PI / 6 * h)) by field. assert (0 <= PI * h) by nra. nra. } lra.
  - apply (Go (10 * (h / 2 + 1 / 10 ^ 12) + 10 * (sqrt (T * h) + sqrt (1 / 12) * h))).
    + apply Near; [rewrite Hu; apply bell_lipschitz|lra|]. intros i Hi. destruct (Y i Hi) as [[Q _]|[_ Q]].
      * exfalso. rewrite Hu in Q. apply (f_equal (fun f => f 0)) in Q. unfold cosine, gaussian_bell in Q. replace (2 * PI * (0 - 1 / 2)) with (- PI) in Q by field. rewrite cos_neg, cos_PI in Q. pose proof (exp_pos (-100 * (0 - 1 / 2) ^ 2)). lra.
      * eapply Rle_trans; [exact Q|]. assert (sqrt (t * h) <= sqrt (T * h)) by (apply sqrt_le_1_alt; nra). lra.
    + intros e He. right. split; [exact Hu|]. assert (S : sqrt (1 / 12) <= 1 / 2). { rewrite <- (sqrt_square (1 / 2)) by lra. apply sqrt_le_1; lra. } nra.
Qed.

Lemma fe_row u0 T n cfl M ad : u0 = cosine \/ u0 = gaussian_bell -> (3 <= n)%nat -> 0 < cfl <= 1 -> 1 / 10 ^ 12 <= T -> 1 / 10 ^ 12 <= 1 / INR n * cfl / 2 -> In M [euler; heun; ssp3] ->
  exists N, forall k, (N <= k)%nat -> good_row (small_ones u0 T n) u0 T n (ScalarFE (FLow ad) (fe n cfl (Some M) false)) k.
Proof.
  intros Hu Hn HC HT HS HMM. set (a := fe n cfl (Some M) false). set (b := advection_benchmark u0 T).
  assert (Om : used_cells a = n) by (cbn; destruct n; [lia|reflexivity]). assert (Od : used_degree a = 1%nat) by reflexivity.
  assert (Py : py_or (f_cfl a) default_cfl = cfl) by (cbn [a fe f_cfl]; unfold py_or; destruct (Reqb_spec cfl 0); [lra|reflexivity]).
  assert (HM : ssp_method (f_ode a)) by (intros X Y; injection Y as <-; cbn in HMM; cbn; tauto). assert (Pn : 0 < INR n) by (apply lt_0_INR; lia). set (h := 1 / INR n) in *. assert (Hh : 0 < h) by (apply Rdiv_lt_0_compat; lra).
  assert (Eh : h * INR n = 1) by (unfold h; field; lra).
  assert (Hb : forall x, -1 <= u0 x <= 1). { intro x. destruct Hu as [-> | ->]; [apply (C49_advection_data cosine (-1)); tauto|]. assert (0 <= gaussian_bell x <= 1) by (apply (C49_advection_data gaussian_bell 0); tauto). lra. }
  assert (Tl : 0 < 1 / 10 ^ 12) by lra. set (dt := Rmin T (h * cfl / 2)). assert (Hd : 1 / 10 ^ 12 <= dt) by (unfold dt; apply Rmin_glb; lra). assert (Hd1 : dt <= T) by apply Rmin_l. assert (Hd2 : dt <= h * cfl / 2) by apply Rmin_r.
  destruct (natural_above (T / dt)) as [N HN]. assert (HN' : T < INR N * dt). { apply (Rmult_lt_compat_r dt) in HN; [|lra]. unfold Rdiv in HN. rewrite Rmult_assoc, Rinv_l, Rmult_1_r in HN by lra. exact HN. }
  exists (S N). intros k Hk. destruct k as [|k]; [lia|]. assert (Hk' : T < INR k * dt). { eapply Rlt_le_trans; [exact HN'|]. apply Rmult_le_compat_r; [lra|]. apply le_INR. lia. }
  assert (Sh : exists c w, fe_solver eig linear_solver old (FLow ad) b a = Ok (c, w) /\ forall t v, shown (fst (use_run finite c [Solve (S k)] (w, []))) t v -> 0 <= t /\ length v = n /\
    forall i, (i < n)%nat -> u0 = cosine /\ Rabs (nth i v 0 - advection_exact u0 (INR i * h) t) <= 2 * (PI * PI) * t * h \/
      u0 = gaussian_bell /\ Rabs (nth i v 0 - advection_exact u0 (INR i * h) t) <= 10 * sqrt (t * h)).
  { destruct (C87_element_benchmarks eig linear_solver old finite ad T a [Solve (S k)] HE1 HE2 HM Od ltac:(rewrite Om; exact Hn) ltac:(rewrite Py; exact HC) HF) as [[c [w [E X]]] [c' [w' [E' X']]]].
    { intros v t [Q|[]]. discriminate Q. }
    cbv zeta in X, X'. rewrite Om in X, X'. destruct Hu as [Hu|Hu].
    - exists c, w. unfold b. rewrite Hu. split; [exact E|]. intros t v SH. destruct (X t v SH) as [T0 [Lv Y]]. split; [exact T0|]. split; [exact Lv|]. intros i Hi. left. split; [reflexivity|exact (Y i Hi)].
    - exists c', w'. unfold b. rewrite Hu. split; [exact E'|]. intros t v SH. destruct (X' t v SH) as [T0 [Lv Y]]. split; [exact T0|]. split; [exact Lv|]. intros i Hi. right. split; [reflexivity|exact (Y i Hi)]. }
  destruct Sh as [c [w [E X]]].
  assert (HD : ia (sb_domain b) < ib (sb_domain b)) by (cbn; lra).
  destruct (fe_solver_inv eig linear_solver old (FLow ad) b a c w E) as [m [s [_ [_ [Em [Es _]]]]]]. rewrite Om in Em. rewrite Od in Es. change (sb_domain b) with unit_interval in Em.
  pose proof (element_values eig linear_solver old (FLow ad) b a c w n E HD (or_introl eq_refl) Om Od) as St.
  assert (Hw : forall x, In x (o_sol (solution_of w)) -> -1 <= x <= 1). { rewrite St. intros z Hz. apply (In_nth _ _ 0) in Hz as [i [Hi <-]]. rewrite tab_length in Hi. rewrite nth_tab by auto. apply Hb. }
  assert (Lw : length (o_sol (solution_of w)) = fs_dimension s). { rewrite St, tab_length. symmetry. rewrite (s_dim unit_interval n m 1 s ltac:(lia) HD ltac:(lia) Em Es). lia. }
  destruct (C39_low_order_succeeds eig unit_interval n m 1 s M_FE.Advection (o_sol (solution_of w)) ltac:(lia) HD Em Es HE1 HE2 ltac:(lia) Lw) as [_ [step [_ [Est _]]]].
  pose proof (low_step_value eig unit_interval n m s _ step Hn HD Em Es HE1 HE2 Est) as AL.
  destruct (C71_run_completes eig linear_solver old finite (FLow ad) b a M_FE.Advection c w m s (-1) 1 step dt k) as [w' [s' [Ew [Et _]]]]; auto.
  { eexists. left. reflexivity. }
  { rewrite Om. exact Em. }
  { rewrite Om. lia. }
  { rewrite Od. lia. }
  { rewrite Py. lra. }
  { rewrite Py. cbn [cfl_condition]. lra. }
  { intros v [_ Hv]. apply HF. intros x Hx. apply (Hv (-1) 1); auto. }
  { rewrite Py. cbn [top_speed]. destruct step as [x|]; [|exact I]. cbn [step_allows] in *. cbn [unit_interval ia ib] in AL. replace ((1 - 0) / INR n) with h in AL by (unfold h; f_equal; lra).
    rewrite Rmult_1_r. eapply Rle_trans; [|exact AL]. apply (Rmult_le_reg_r cfl); [lra|]. unfold Rdiv at 1. rewrite Rmult_assoc, Rinv_l by lra. lra. }
  { cbn. lra. }
  { cbn. lra. }
  cbn [b advection_benchmark sb_end] in Et. set (t := w_sol_time w') in *. set (v := w_mem w' (w_sol w')). change (o_time (solution_of w')) with t in Et.
  destruct (X t v) as [T0 [Lv Y]]. { rewrite use_solve1, Ew. left. auto. }
  assert (Near : forall K B, lipschitz K (line_data u0) -> 0 <= K -> (forall i, (i < n)%nat -> Rabs (nth i v 0 - advection_exact u0 (INR i * h) t) <= B) ->
    forall c x, (c < n)%nat -> INR c * h <= x <= INR (S c) * h -> Rabs (advection_exact u0 x T - value_in (FESpace s) v c x) <= K * (h + 1 / 10 ^ 12) + B).
  { intros K B HK K0 HB i x Hi Hx. cbn [value_in].
    destruct (linear_element unit_interval n m s v i x ltac:(lia) HD Em Es Hi) as [y [Hy [_ ->]]].
    { cbn [unif_cell ia ib unit_interval]. unfold ilength. cbn [ia ib unit_interval]. replace ((1 - 0) / INR n) with h by (unfold h; f_equal; lra). lra. }
    rewrite S_INR in Hx. assert (TT : Rabs (T - t) <= 1 / 10 ^ 12) by (apply Rabs_le; lra).
    assert (V1 : Rabs (advection_exact u0 x T - nth i v 0) <= K * (h + 1 / 10 ^ 12) + B).
    { pose proof (HB i Hi) as B1. pose proof (exact_near u0 K x (INR i * h) t T HK K0) as Q. assert (Rabs (x - INR i * h) <= h) by (apply Rabs_le; nra).
      replace (advection_exact u0 x T - nth i v 0) with ((advection_exact u0 x T - advection_exact u0 (INR i * h) t) + - (nth i v 0 - advection_exact u0 (INR i * h) t)) by ring.
      eapply Rle_trans; [apply Rabs_triang|]. rewrite Rabs_Ropp. nra. }
    assert (V2 : Rabs (advection_exact u0 x T - nth (S i mod n) v 0) <= K * (h + 1 / 10 ^ 12) + B).
    { assert (Hm : (S i mod n < n)%nat) by (apply Nat.mod_upper_bound; lia). pose proof (HB _ Hm) as B1. pose proof (exact_near u0 K x (INR (S i) * h) t T HK K0) as Q. rewrite S_INR in Q. assert (Rabs (x - (INR i + 1) * h) <= h) by (apply Rabs_le; nra).
      assert (En : advection_exact u0 (INR (S i mod n) * h) t = advection_exact u0 ((INR i + 1) * h) t).
      { destruct (Nat.eq_dec (S i) n) as [Z|Z].
        - rewrite Z, Nat.mod_same by lia. rewrite <- !line_moved. unfold moved. rewrite <- S_INR, Z. replace (INR n * h - t) with (INR 0 * h - t + IZR 1) by (cbn [INR]; lra). rewrite line_data_Z. reflexivity.
        - rewrite Nat.mod_small by lia. rewrite S_INR. reflexivity. }
      rewrite En in B1. replace (advection_exact u0 x T - nth (S i mod n) v 0) with ((advection_exact u0 x T - advection_exact u0 ((INR i + 1) * h) t) + - (nth (S i mod n) v 0 - advection_exact u0 ((INR i + 1) * h) t)) by ring.
      eapply Rle_trans; [apply Rabs_triang|]. rewrite Rabs_Ropp. nra. }
    replace (advection_exact u0 x T - ((1 - y) * nth i v 0 + y * nth (S i mod n) v 0)) with ((1 - y) * (advection_exact u0 x T - nth i v 0) + y * (advection_exact u0 x T - nth (S i mod n) v 0)) by ring.
    eapply Rle_trans; [apply Rabs_triang|]. rewrite !Rabs_mult, (Rabs_right (1 - y)), (Rabs_right y) by lra. nra. }
  assert (Go : forall B, (forall c x, (c < n)%nat -> INR c * h <= x <= INR (S c) * h -> Rabs (advection_exact u0 x T - value_in (FESpace s) v c x) <= B) -> (forall e, 0 <= e <= B -> small_error u0 T h e) ->
    good_row (small_ones u0 T n) u0 T n (ScalarFE (FLow ad) a) (S k)).
  { intros B HB HS'. assert (Ms : mesh_in (FESpace s) = m /\ norm_degree (FESpace s) = Some 2%nat) by (rewrite (s_val unit_interval n m 1 s ltac:(lia) HD ltac:(lia) Em Es); split; reflexivity). destruct Ms as [Ms Mn].
    destruct (three_errors (fun x => advection_exact u0 x T) (FESpace s) t v n B ltac:(lia) ltac:(rewrite Ms; exact Em) (or_intror Mn) HB) as [es [Ee [Le Be]]].
    exists (Scalar (c, w)), (Scalar (c, w')), t, v, (FESpace s), es. cbn [construct]. change (advection_benchmark u0 T) with b. rewrite E. cbn [bind solve_any solution_in]. rewrite Ew. cbn [exception_of]. split; [reflexivity|]. split; [reflexivity|]. split; [reflexivity|].
    split; [exact Lv|]. split.
    { cbn [space_of]. replace (or_default (f_mesh_size a) default_mesh_size) with n by (cbn; destruct n; [lia|reflexivity]). change (sb_domain b) with unit_interval. rewrite Em. cbn [bind].
      change (or_default (f_degree a) default_polynomial_degree) with 1%nat. rewrite Es. reflexivity. }
    split; [exact Ee|]. split; [exact Le|]. intros e He. apply HS', Be, He. }
  pose proof PI_RGT_0 as P0. destruct Hu as [Hu|Hu].
  - apply (Go (2 * PI * (h + 1 / 10 ^ 12) + 2 * (PI * PI) * T * h)).
    + apply Near; [rewrite Hu; apply cosine_lipschitz|lra|]. intros i Hi. destruct (Y i Hi) as [[_ Q]|[Q _]].
      * eapply Rle_trans; [exact Q|]. assert (0 <= 2 * (PI * PI) * h) by nra. nra.
      * exfalso. rewrite Hu in Q. apply (f_equal (fun f => f 0)) in Q. unfold cosine, gaussian_bell in Q. replace (2 * PI * (0 - 1 / 2)) with (- PI) in Q by field. rewrite cos_neg, cos_PI in Q. pose proof (exp_pos (-100 * (0 - 1 / 2) ^ 2)). lra.
    + intros e He. left. split; [exact Hu|]. lra.
  - apply (Go (10 * (h + 1 / 10 ^ 12) + 10 * sqrt (T * h))).
    + apply Near; [rewrite Hu; apply bell_lipschitz|lra|]. intros i Hi. destruct (Y i Hi) as [[Q _]|[_ Q]].
      * exfalso. rewrite Hu in Q. apply (f_equal (fun f => f 0)) in Q. unfold cosine, gaussian_bell in Q. replace (2 * PI * (0 - 1 / 2)) with (- PI) in Q by field. rewrite cos_neg, cos_PI in Q. pose proof (exp_pos (-100 * (0 - 1 / 2) ^ 2)). lra.
      * eapply Rle_trans; [exact Q|]. assert (sqrt (t * h) <= sqrt (T * h)) by (apply sqrt_le_1_alt; nra). lra.
    + intros e He. right. split; [exact Hu|]. lra.
Qed.
End Rows.
