From Coq Require Import Reals List ZArith Arith Lia Lra Bool String.
From Verif Require Import Prelude L_Prelude M_Mesh M_Quadrature M_Interpolate M_Boundary S_Boundary L_Boundary M_Flux S_Flux L_Flux
  M_ODE S_ODE L_ODE M_TimeStepping L_TimeStepping M_Coarsener M_Solution M_Solver S_Solver L_Solver M_Generate
  M_ShallowWater S_ShallowWater L_ShallowWater L_SWRuns L_SWLow L_SWWater M_FVSolver S_FVSolver L_SWWide.
Import ListNotations.
Local Open Scope nat_scope.
Open Scope R_scope.
Notation length := List.length.

Lemma build_cells_length grid cs : build_cells grid = Ok cs -> length cs = (length grid - 1)%nat.
Proof.
  revert cs. induction grid as [|x rest IH]; intros cs E; [apply Ok_inj in E; subst; reflexivity|].
  destruct rest as [|y rest]; [apply Ok_inj in E; subst; reflexivity|].
  change (build_cells (x :: y :: rest)) with
    (bind (new_interval x y) (fun c => bind (build_cells (y :: rest)) (fun cs => Ok (c :: cs)))) in E.
  inv_bind E. inv_bind E. apply Ok_inj in E. subst cs. cbn [length]. rewrite (IH _ E1). cbn [length]. lia.
Qed.
Lemma new_mesh_length D n m : new_mesh D n = Ok m -> m_len m = n /\ m_domain m = D /\ m_step m = (ib D - ia D) / INR n.
Proof.
  intro E. unfold new_mesh in E. inv_bind E. apply Ok_inj in E. subst m. unfold m_len. cbn [m_cells m_domain m_step].
  rewrite (build_cells_length _ _ E0). unfold linspace. rewrite tab_length. split; [lia|auto].
Qed.
Lemma or_default_pos x d : (0 < d)%nat -> (0 < or_default x d)%nat.
Proof. destruct x as [[|k]|]; cbn; lia. Qed.

Section E.
Context (eig : nat -> (nat -> nat -> R) -> (nat -> R) * (nat -> nat -> R)) (finite : list state -> bool).

Lemma averages2_length m f u : averages2 eig m f = Ok u -> length u = m_len m.
Proof.
  intro E. unfold averages2 in E. inv_bind E. inv_bind E. apply Ok_inj in E. subst u.
  apply mapM_ok in E0 as [L1 _]. apply mapM_ok in E1 as [L2 _]. rewrite combine_length. unfold m_len. lia.
Qed.
Lemma fv_solution_inv b k m u : fv_solution eig b k = Ok (m, u) ->
  let n := or_default k default_mesh_size in
  new_mesh (bm_domain b) n = Ok m /\ averages2 eig m (bm_initial b) = Ok u /\ m_len m = n /\ length u = n /\ (1 <= n)%nat.
Proof.
  intro E. cbv zeta. unfold fv_solution in E. inv_bind E. inv_bind E. apply Ok_inj in E. injection E as <- <-.
  destruct (new_mesh_length _ _ _ E0) as [L _]. rewrite (averages2_length _ _ _ E1). repeat split; auto.
  apply or_default_pos. unfold default_mesh_size. lia.
Qed.

(** ** fluxes of the getters *)
Lemma tight_lw_source per gravity bt dt dx nf : with_source gravity bt (lw_flux gravity dt dx) = Ok nf -> tight per nf.
Proof.
  intro E. eapply tight_source; [exact E|].
  apply (tight_ext _ _ (two_point (lw_at gravity dt dx))); [reflexivity|intro; reflexivity|].
  apply tight_two_point. intros r f. apply lw_wall.
Qed.
Lemma tight_base per gravity bt : forall nf,
  sw_low gravity bt = Ok nf \/ sw_central gravity bt = Ok nf \/ sw_llf gravity bt = Ok nf \/ sw_es gravity bt = Ok nf \/ sw_es1 gravity bt = Ok nf ->
  tight per nf.
Proof.
  intros nf E.
  assert (X : sw_scheme gravity bt [] None None nf).
  { destruct E as [E|[E|[E|[E|E]]]]; [apply sch_low|apply sch_central|apply sch_llf|apply sch_es|apply sch_es1]; auto. }
  assert (S : tight True nf).
  { destruct E as [E|[E|[E|[E|E]]]].
    - eapply tight_low; eauto.
    - unfold sw_central in E. eapply tight_source; eauto.
      apply (tight_ext _ _ (two_point (central_at (sw_flux (py_or gravity default_gravity))))); [reflexivity|intro; reflexivity|].
      apply tight_two_point. intros r f. apply (central_wall gravity).
    - unfold sw_llf in E. eapply tight_source; eauto.
      eapply tight_ext; [| |apply tight_two_point]; [reflexivity| |].
      + intro a. apply lax_friedrichs_two_point.
      + intros r f E'. inv_bind E'. apply Ok_inj in E'. subst f. eapply llf_wall; eauto.
    - unfold sw_es in E. eapply tight_source; eauto.
      apply (tight_ext _ _ (two_point (fun l r => sw_flux (py_or gravity default_gravity) (cavg l r)))); [reflexivity|intro; reflexivity|].
      apply tight_two_point. intros r f. apply (es_wall gravity).
    - eapply tight_es1; eauto. }
  destruct S as [D T]. split; auto. intros n vl vr fl fr Hn Ll Lr C. destruct (T n vl vr fl fr Hn Ll Lr C) as [? [? [? [? ?]]]]. auto 10.
Qed.
Lemma tight_anti per gamma dx : tight per (linear_antidiffusive gamma dx : nflux state).
Proof.
  apply (tight_ext _ _ (two_point (fun l r => bind (rdiv 1 dx) (fun f => Ok (cscal f (cscal gamma (cadd r (copp l)))))))); [reflexivity|intro; reflexivity|].
  apply tight_two_point. intros r f E. inv_bind E. apply Ok_inj in E. subst f. unfold copp. cbn [cadd cscal RR_CellOps fst].
  change (fst (reflect r)) with (fst r). ring.
Qed.

Lemma get_flux_tight g b m : forall x nf, network_free g -> get_flux eig g b m x = Ok nf -> tight (bm_conditions b = ["periodic"%string]) nf.
Proof.
  induction g; intros x nf F E; cbn [get_flux network_free] in *; try (inv_bind E; eapply tight_base; eauto 8; fail).
  - inv_bind E. eapply tight_lw_source; eauto.
  - destruct F.
  - inv_bind E. inv_bind E. eapply tight_mcl; [intro P; exact P| |exact E]. eapply IHg; eauto.
  - inv_bind E. apply Ok_inj in E. subst nf. apply tight_corrected; [eapply IHg; eauto|apply tight_anti].
Qed.

Lemma get_flux_wide g b m : bm_conditions b = ["periodic"%string] ->
  forall x nf, even_inputs g -> get_flux eig g b m x = Ok nf -> wide nf.
Proof.
  intro P. induction g; intros x nf F E; cbn [get_flux even_inputs] in *; try (inv_bind E; apply tight_wide; eapply tight_base; eauto 8; fail).
  - inv_bind E. apply tight_wide. eapply tight_lw_source; eauto.
  - destruct F as [[k [Hk ->]] F]. inv_bind E. inv_bind E. eapply wide_source; [exact E|]. apply wide_corrected; [eapply IHg; eauto|apply wide_subgrid; auto].
  - inv_bind E. inv_bind E. rewrite P in E. eapply wide_mcl; [|exact E]. eapply IHg; eauto.
  - inv_bind E. apply Ok_inj in E. subst nf. apply wide_corrected; [eapply IHg; eauto|apply tight_wide, tight_anti].
Qed.
Lemma source_dim gravity bt nf nf' : with_source gravity bt nf = Ok nf' -> nf_dim nf' = nf_dim nf.
Proof. intro E. unfold with_source in E. inv_bind E. apply Ok_inj in E. subst. reflexivity. Qed.
Lemma get_flux_dim g b m : forall x nf, get_flux eig g b m x = Ok nf -> nf_dim nf = cells_read g.
Proof.
  induction g; intros x nf E; cbn [get_flux cells_read] in *.
  1-6: inv_bind E.
  - apply (tight_base True (Some (bm_gravity b)) a nf). auto.
  - apply (tight_base True (Some (bm_gravity b)) a nf). auto.
  - apply (tight_base True (Some (bm_gravity b)) a nf). auto.
  - apply (tight_base True (Some (bm_gravity b)) a nf). auto.
  - apply (tight_base True (Some (bm_gravity b)) a nf). auto 6.
  - apply (source_dim _ _ _ _ E).
  - inv_bind E. inv_bind E. rewrite (source_dim _ _ _ _ E). cbn [corrected nf_dim subgrid_flux]. erewrite IHg by eauto. reflexivity.
  - inv_bind E. inv_bind E. unfold sw_mcl in E. inv_bind E. inv_bind E. apply Ok_inj in E. subst nf. cbn [nf_dim]. eapply IHg; eauto.
  - inv_bind E. apply Ok_inj in E. subst nf. cbn [corrected nf_dim linear_antidiffusive]. erewrite IHg by eauto. reflexivity.
Qed.

Lemma sw_solver_inv g b a c w : sw_solver eig g b a = Ok (c, w) -> exists m u nf bc,
  fv_solution eig b (a_mesh_size a) = Ok (m, u) /\ get_flux eig g b m BNone = Ok nf /\
  boundary b (Nat.div (nf_dim nf) 2) = Ok bc /\ c = sw_config b a m u (fv_rhs nf (m_step m) bc) /\
  w = new_solver c (fun _ => u) 1 0 (bm_start b).
Proof.
  intro E. unfold sw_solver in E. inv_bind E. destruct a0 as [m u]. inv_bind E. inv_bind E. apply Ok_inj in E.
  injection E as <- <-. exists m, u, a0, a1. auto.
Qed.
End E.

(** ** invariants of the values *)
Section Keep.
Context {V : Type} `{VecOps V} (finite : V -> bool) (P : V -> Prop).

Definition keeps (w : world V) : Prop := P (w_mem w (w_ode w)) /\ P (w_mem w (w_sol w)) /\ Forall P (w_values w).

Lemma update_keeps c dt w w' r :
  (forall o o', P (o_sol o) -> rk_execute_e (c_rhs c) (c_tab c) dt o = Ok o' -> P (o_sol o')) ->
  keeps w -> solver_update finite c dt w = (w', r) -> keeps w'.
Proof.
  intros HP [K1 [K2 K3]] E. unfold solver_update in E. pose proof (ode_execute_spec c dt w) as X.
  destruct (ode_execute c dt w) as [[[w1 nodes] stages]|e]; [|inversion E; subst; unfold keeps; auto].
  destruct X as [y [X1 [X2 ->]]]. pose proof (HP {| o_time := w_ode_time w; o_sol := w_mem w (w_ode w) |} y K1 X1) as Py.
  assert (Q : forall l, P (w_mem w l) -> P (store (w_mem w) (w_ode w) (o_sol y) l)).
  { intros l Pl. destruct (Nat.eq_dec l (w_ode w)); [subst; rewrite store_same; auto|rewrite store_other; auto]. }
  destruct (check_cfl c dt nodes stages) as [b|e].
  - unfold sol_update in E. cbn [warn w_mem w_next w_ode w_ode_time w_sol w_sol_time w_times w_values w_warnings] in E. rewrite store_same in E.
    destruct (finite (o_sol y)); inversion E; subst; unfold keeps; cbn [w_mem w_next w_ode w_ode_time w_sol w_sol_time w_times w_values w_warnings warn].
    + rewrite store_same. repeat split; auto. destruct (c_history c); auto. apply Forall_app. auto.
    + repeat split; auto.
  - inversion E; subst; unfold keeps; cbn [w_mem w_next w_ode w_ode_time w_sol w_sol_time w_times w_values w_warnings warn]; repeat split; auto.
Qed.
Lemma solve_keeps c n w :
  (forall dt o o', P (o_sol o) -> rk_execute_e (c_rhs c) (c_tab c) dt o = Ok o' -> P (o_sol o')) ->
  keeps w -> keeps (fst (fst (solve finite c n w))).
Proof. intros HP. apply (solve_preserves finite keeps). intros dt w1 w2 r _. apply update_keeps. apply HP. Qed.

Lemma mask_keeps t times : forall values, Forall P values -> Forall P (mask_values t times values).
Proof.
  induction times as [|t0 ts IH]; intros [|v vs] F; cbn [mask_values]; auto.
  inversion F; subst. destruct (Rltb t0 t); auto.
Qed.
Lemma reinitialize_keeps c v t w : (w_ode w < w_next w)%nat -> (w_sol w < w_next w)%nat -> P v -> keeps w -> keeps (fst (reinitialize finite c v t w)).
Proof.
  intros B1 B2 Pv [K1 [K2 K3]]. unfold reinitialize, sol_update. cbn [w_mem w_next w_ode w_ode_time w_sol w_sol_time w_times w_values w_warnings]. rewrite store_same.
  destruct (finite v); unfold keeps; cbn [fst w_mem w_next w_ode w_ode_time w_sol w_sol_time w_times w_values w_warnings].
  - rewrite store_same, store_other, store_same by lia. repeat split; auto. destruct (c_history c); auto.
    apply Forall_app. split; [apply mask_keeps; auto|auto].
  - rewrite !store_other by lia. repeat split; auto. destruct (c_history c); auto. apply mask_keeps; auto.
Qed.

Lemma use_keeps c us m : forall st N,
  (forall dt o o', P (o_sol o) -> rk_execute_e (c_rhs c) (c_tab c) dt o = Ok o' -> P (o_sol o')) ->
  (forall v t, In (Reinit v t) us -> P v) -> separate N m st -> keeps (fst st) -> keeps (fst (use_run finite c us st)).
Proof.
  unfold use_run. induction us as [|u us IH]; intros st N HP HR S K; [exact K|]. cbn [fold_left]. apply (IH _ N); auto.
  - intros v t Hin. apply (HR v t). right. auto.
  - apply separate_step. auto.
  - destruct st as [w owned]. cbn [fst] in K. destruct S as [S1 [S2 [S3 [S4 [S5 [S6 S7]]]]]].
    destruct u as [|i v|n|v t]; cbn [use_step].
    + destruct K as [K1 [K2 K3]]. unfold keeps. cbn [fst w_mem w_next w_ode w_ode_time w_sol w_sol_time w_times w_values w_warnings].
      rewrite !store_other by lia. auto.
    + destruct (nth_error owned i) as [l|] eqn:E; [|exact K]. apply nth_error_In in E. destruct K as [K1 [K2 K3]].
      unfold keeps. cbn [fst w_mem w_next w_ode w_ode_time w_sol w_sol_time w_times w_values w_warnings].
      rewrite !store_other by (intro Z; rewrite <- Z in E; auto). auto.
    + cbn [fst]. apply solve_keeps; auto.
    + cbn [fst]. apply reinitialize_keeps; auto; try lia. apply (HR v t). left. reflexivity.
Qed.
Lemma new_keeps c m next sol time : (sol < next)%nat -> P (m sol) -> keeps (new_solver c m next sol time).
Proof.
  intros Hs Pm. unfold new_solver, keeps. cbn [w_mem w_ode w_sol w_values]. rewrite store_same, store_other by lia.
  repeat split; auto. destruct (c_history c); auto.
Qed.
End Keep.

(** ** water *)
Lemma step_water (rhs : R -> list state -> result (list state)) T n W0 dt o o' :
  (forall t u v, length u = n -> rhs t u = Ok v -> length v = n /\ total true v = 0) -> In T [euler; heun; ssp3; rk8] ->
  length (o_sol o) = n /\ water (o_sol o) = W0 -> rk_execute_e rhs T dt o = Ok o' -> length (o_sol o') = n /\ water (o_sol o') = W0.
Proof.
  intros HR HT [L W] E. change (water (o_sol o)) with (total true (o_sol o)) in W. change (water (o_sol o')) with (total true (o_sol o')).
  destruct (rk_run_e_linear (fun l => length l = n) rhs (repeat czero n) T [dt] o o' (total true)) as [R1 R2]; auto.
  - intros x y Hx Hy. apply (total_vadd true n); auto.
  - intros r x _. apply total_vscal.
  - apply repeat_length.
  - apply total_zero.
  - apply tableau_rows; auto.
  - unfold rk_run_e. cbn [foldM]. rewrite E. reflexivity.
  - split; [exact R2|congruence].
Qed.
