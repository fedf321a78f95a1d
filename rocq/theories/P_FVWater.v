(** C64: the finite volume solvers of the shallow water equations, from the benchmark to
    the values a program reads from the solution, neither create nor lose water. *)
From Coq Require Import Reals List ZArith Arith Lia Lra Bool String.
From Verif Require Import Prelude L_Prelude M_Mesh L_Mesh M_Quadrature S_Quadrature M_Interpolate M_Boundary S_Boundary L_Boundary M_Flux S_Flux L_Flux
  M_ODE S_ODE L_ODE M_TimeStepping L_TimeStepping M_Coarsener M_Solution M_Solver S_Solver L_Solver M_Generate
  M_Scalar L_Scalar M_ShallowWater S_ShallowWater L_ShallowWater L_SWRuns L_SWLow L_SWWater L_SWLake L_SWTotal M_FVSolver S_FVSolver L_SWWide L_FVSolver
  P_Boundary P_Quadrature P_Gauss P_Interpolate P_ShallowWater.
Import ListNotations.
Local Open Scope nat_scope.
Open Scope R_scope.
Notation length := List.length.

(** np.linalg.eig diagonalises the 2x2 matrix of the quadrature *)
Definition eig2_works (eig : nat -> (nat -> nat -> R) -> (nat -> R) * (nat -> nat -> R)) : Prop :=
  eigen_decomposition 2 (gw_matrix 2) (eig 2%nat (gw_matrix 2)).

Lemma averages_exist eig D n m f : eig2_works eig -> (0 < n)%nat -> ia D < ib D -> new_mesh D n = Ok m ->
  exists a, cell_averages eig 2 m f = Ok a /\ length a = n.
Proof. intros HE Hn HD Em. destruct (C42_cell_averages eig 2 D n m f ltac:(lia) HE Hn HD Em) as [a [E [L _]]]. eauto. Qed.
Lemma averages2_exist eig D n m f : eig2_works eig -> (0 < n)%nat -> ia D < ib D -> new_mesh D n = Ok m ->
  exists u, averages2 eig m f = Ok u.
Proof.
  intros HE Hn HD Em. unfold averages2. destruct (averages_exist eig D n m (fun x => fst (f x)) HE Hn HD Em) as [h [-> _]].
  destruct (averages_exist eig D n m (fun x => snd (f x)) HE Hn HD Em) as [q [-> _]]. cbn [bind]. eauto.
Qed.
Lemma bottom_exists eig b n : eig2_works eig -> (0 < n)%nat -> ia (bm_domain b) < ib (bm_domain b) ->
  exists l, discrete_bottom eig b n = Ok l /\ length l = n.
Proof.
  intros HE Hn HD. unfold discrete_bottom. pose proof (new_mesh_ok (bm_domain b) n Hn HD) as E.
  rewrite E. cbn [bind]. eapply averages_exist; eauto.
Qed.
Lemma boundary_exists b r nl nr : (1 <= r)%nat -> side_names (bm_conditions b) nl nr ->
  In nl ["periodic"; "wall"; "outflow"; "inflow"]%string -> In nr ["periodic"; "wall"; "outflow"; "inflow"]%string ->
  exists bc, boundary b r = Ok bc.
Proof.
  intros Hr S Hl Hr'. unfold boundary. apply (C19_boundary_names_validated (0, 0) _ _ _ _ _ nl nr Hr S).
  assert (X : forall n f, In n ["periodic"; "wall"; "outflow"; "inflow"]%string -> exists c, names_cond (W := state) (Some reflect) n (Some f) c).
  { intros n f [<-|[<-|[<-|[<-|[]]]]]; [exists Periodic|exists (Wall reflect)|exists Outflow|exists (Inflow f)]; cbn; auto. }
  split; apply X; auto.
Qed.

(** Every scheme can be built for every benchmark with an interval as domain and known
    boundary conditions; the solution starts with one value per cell at the start time. *)
Theorem C64_solvers_can_be_built : forall eig g b a nl nr, eig2_works eig -> ia (bm_domain b) < ib (bm_domain b) ->
  side_names (bm_conditions b) nl nr ->
  In nl ["periodic"; "wall"; "outflow"; "inflow"]%string -> In nr ["periodic"; "wall"; "outflow"; "inflow"]%string ->
  exists c w, sw_solver eig g b a = Ok (c, w) /\ o_time (solution_of w) = bm_start b /\
    length (o_sol (solution_of w)) = or_default (a_mesh_size a) default_mesh_size.
Proof.
  intros eig g b a nl nr HE HD S Nl Nr. set (n := or_default (a_mesh_size a) default_mesh_size).
  assert (Hn : (0 < n)%nat) by (apply or_default_pos; unfold default_mesh_size; lia).
  pose proof (new_mesh_ok (bm_domain b) n Hn HD) as Em. set (m := {| m_domain := bm_domain b; m_cells := _; m_step := _ |}) in Em.
  destruct (averages2_exist eig _ n m (bm_initial b) HE Hn HD Em) as [u Eu].
  assert (Lm : m_len m = n) by apply (new_mesh_length _ _ _ Em).
  assert (Lu : length u = n) by (rewrite (averages2_length eig _ _ _ Eu); auto).
  destruct (bottom_exists eig b n HE Hn HD) as [l [El Ll]].
  assert (Hb : bathymetry_or BNone (discrete_bottom eig b (m_len m)) = Ok (BArray l)) by (rewrite Lm, El; reflexivity).
  destruct (bathymetry_array (BArray l) n ltac:(lia)) as [p [st [Ep Es]]]; [intros l0 E0; injection E0 as <-; auto|].
  destruct (boundary_exists b 1 nl nr ltac:(lia) S Nl Nr) as [bc1 B1]. unfold boundary in B1.
  assert (G : exists nf, get_flux eig g b m BNone = Ok nf).
  { clear - Hb Ep B1 Lm El. induction g as [| | | | | |dim net base IH|high IH|gamma raw IH]; cbn [get_flux]; rewrite ?Hb; cbn [bind].
    - unfold sw_low. rewrite Ep. cbn [bind]. eauto.
    - unfold sw_central, with_source. rewrite Ep. cbn [bind]. eauto.
    - unfold sw_llf, with_source. rewrite Ep. cbn [bind]. eauto.
    - unfold sw_es, with_source. rewrite Ep. cbn [bind]. eauto.
    - unfold sw_es1. rewrite Ep. cbn [bind]. eauto.
    - unfold with_source. rewrite Ep. cbn [bind]. eauto.
    - destruct IH as [nf ->]. cbn [bind]. unfold with_source. rewrite Ep. cbn [bind]. eauto.
    - destruct IH as [nf ->]. cbn [bind]. rewrite Lm, El. cbn [bind]. unfold sw_mcl. rewrite B1, Ep. cbn [bind]. eauto.
    - destruct IH as [nf ->]. cbn [bind]. eauto. }
  destruct G as [nf G].
  assert (Hr : (1 <= Nat.div (nf_dim nf) 2)%nat).
  { rewrite (get_flux_dim eig g b m _ _ G). assert (2 <= cells_read g)%nat by (clear; induction g; cbn [cells_read]; lia).
    apply (Nat.div_le_mono 2 (cells_read g) 2); lia. }
  destruct (boundary_exists b _ nl nr Hr S Nl Nr) as [bc B].
  unfold sw_solver, fv_solution. fold n. rewrite Em. cbn [bind]. rewrite Eu. cbn [bind]. rewrite G. cbn [bind]. rewrite B. cbn [bind].
  eexists. eexists. split; [reflexivity|]. unfold new_solver, solution_of. cbn [w_mem w_sol w_sol_time o_time o_sol]. rewrite store_other by lia. auto.
Qed.
Print Assumptions C64_solvers_can_be_built.

(** The amount of water in everything that can be seen of the solution is the initial one, whatever a
    program does: it reads values, writes to arrays it was given, solves any number of
    times, also interrupted after any number of steps or stopped by an exception, and
    reinitializes with data that contain the same amount. With periodic boundaries for
    every scheme (networks that read at most as many cells as there are), between walls
    for every scheme without network; for every bottom, method, CFL number and mesh size. *)
Theorem C64_water_is_conserved : forall eig finite g b a c w us, sw_solver eig g b a = Ok (c, w) -> known_method a ->
  bm_conditions b = ["periodic"%string] /\ even_inputs g /\ (cells_read g <= 2 * length (o_sol (solution_of w)))%nat \/
  side_names (bm_conditions b) "wall" "wall" /\ network_free g ->
  (forall v t, In (Reinit v t) us -> length v = length (o_sol (solution_of w)) /\ water v = water (o_sol (solution_of w))) ->
  forall v, visible (fst (use_run finite c us (w, []))) v ->
    length v = length (o_sol (solution_of w)) /\ water v = water (o_sol (solution_of w)).
Proof.
  intros eig finite g b a c w us E HK HC HU v HV.
  destruct (sw_solver_inv eig g b a c w E) as [m [u [nf [bc [E1 [E2 [E3 [E4 E5]]]]]]]].
  destruct (fv_solution_inv eig b _ m u E1) as [_ [_ [Lm [Lu Hn]]]].
  assert (Su : o_sol (solution_of w) = u).
  { subst w. unfold solution_of, new_solver. cbn [w_mem w_sol o_sol]. rewrite store_other by lia. reflexivity. }
  rewrite Su in *. rewrite <- Lu in Hn.
  assert (HT : In (c_tab c) [euler; heun; ssp3; rk8]).
  { subst c. cbn [c_tab sw_config]. specialize (HK). unfold known_method in HK. destruct (a_ode a) as [T|]; [apply HK; reflexivity|right; left; reflexivity]. }
  assert (HR : forall t x y, length x = length u -> c_rhs c t x = Ok y -> length y = length u /\ total true y = 0).
  { intros t x y Lx Ey. subst c. cbn [c_rhs sw_config] in Ey. unfold boundary in E3.
    destruct HC as [[P [Ev Hc]]|[Wl Nf]].
    - rewrite P in E3. rewrite <- Lx. eapply (wide_rhs nf); [eapply get_flux_wide; eauto|exact E3| |exact Ey].
      rewrite (get_flux_dim eig g b m _ _ E2), Lx. exact Hc.
    - rewrite <- Lx. pose proof (get_flux_tight eig g b m _ _ Nf E2) as T. rewrite (proj1 T) in E3.
      eapply (tight_rhs nf); [exact T|right; exact Wl|exact E3| |exact Ey]. intros ->. cbn in Lx. lia. }
  set (P := fun x => length x = length u /\ water x = water u).
  assert (K : keeps P (fst (use_run finite c us (w, [])))).
  { apply (use_keeps finite P c us (fun _ => u) (w, []) 1).
    - intros dt o o'. unfold P. intros Po Eo. apply (step_water (c_rhs c) (c_tab c) (length u) (water u) dt o o'); auto.
    - exact HU.
    - rewrite E5. apply separate_new. lia.
    - cbn [fst]. rewrite E5. apply new_keeps; [lia|]. unfold P. auto. }
  destruct K as [K1 [K2 K3]]. rewrite Forall_forall in K3. destruct HV as [-> |HV]; [exact K2|exact (K3 v HV)].
Qed.
Print Assumptions C64_water_is_conserved.

(** The same for the Lax-Wendroff solver. *)
Lemma lw_loop_keeps finite (P : list state -> Prop) (c : R -> config (list state)) :
  (forall dt o o', P (o_sol o) -> rk_execute_e (c_rhs (c dt)) (c_tab (c dt)) dt o = Ok o' -> P (o_sol o')) ->
  forall n w s, keeps P w -> keeps P (fst (fst (lw_loop finite c n w s))).
Proof.
  intros HP. induction n as [|n IH]; intros w s K; cbn [lw_loop]; [exact K|].
  destruct (ts_next _ _ _) as [dt s1| |]; auto.
  destruct (solver_update finite (c dt) dt w) as [w1 [e|]] eqn:Eu.
  - cbn [fst]. eapply update_keeps; eauto.
  - apply IH. eapply update_keeps; eauto.
Qed.
Theorem C64_lax_wendroff_water : forall eig finite b a c w ns, lw_solver eig b a = Ok (c, w) ->
  bm_conditions b = ["periodic"%string] \/ side_names (bm_conditions b) "wall" "wall" ->
  forall v, visible (fold_left (fun w n => fst (fst (lw_solve finite c n w))) ns w) v ->
    length v = length (o_sol (solution_of w)) /\ water v = water (o_sol (solution_of w)).
Proof.
  intros eig finite b a c w ns E HC v HV. unfold lw_solver in E. inv_bind E. destruct a0 as [m u]. inv_bind E. apply Ok_inj in E.
  injection E as Ec Ew. destruct (fv_solution_inv eig b _ m u E0) as [_ [_ [Lm [Lu Hn]]]].
  assert (Su : o_sol (solution_of w) = u).
  { subst w. unfold solution_of, new_solver. cbn [w_mem w_sol o_sol]. rewrite store_other by lia. reflexivity. }
  rewrite Su. rewrite <- Lu in Hn.
  set (P := fun x => length x = length u /\ water x = water u).
  assert (HP : forall dt o o', P (o_sol o) -> rk_execute_e (c_rhs (c dt)) (c_tab (c dt)) dt o = Ok o' -> P (o_sol o')).
  { intros dt o o' Po Eo. unfold P. apply (step_water (c_rhs (c dt)) (c_tab (c dt)) (length u) (water u) dt o o'); auto.
    - intros t x y Lx Ey. subst c. cbn [c_rhs sw_config] in Ey. rewrite <- Lx. unfold boundary in E1.
      eapply (tight_rhs (lw_flux (Some (bm_gravity b)) dt (m_step m))); [|exact HC|exact E1| |exact Ey].
      + eapply scheme_tight. apply (sch_lw _ BNone _ None None).
      + intros ->. cbn in Lx. lia.
    - subst c. cbn [c_tab sw_config]. left. reflexivity. }
  assert (K0 : keeps P w). { rewrite <- Ew. apply new_keeps; [lia|]. unfold P. auto. }
  clear Ew Su. assert (K : keeps P (fold_left (fun w n => fst (fst (lw_solve finite c n w))) ns w)).
  { revert w K0 HV. induction ns as [|n ns IH]; intros w K0 HV; cbn [fold_left]; [exact K0|]. apply IH; auto.
    unfold lw_solve. destruct (tqdm_len (c 0) w); [|exact K0].
    pose proof (lw_loop_keeps finite P c HP n w (ts_iter (c_start (c 0))) K0) as X.
    destruct (lw_loop finite c n w (ts_iter (c_start (c 0)))) as [[w' s] st]. exact X. }
  destruct K as [K1 [K2 K3]]. rewrite Forall_forall in K3. destruct HV as [-> |HV]; [exact K2|exact (K3 v HV)].
Qed.
Print Assumptions C64_lax_wendroff_water.
