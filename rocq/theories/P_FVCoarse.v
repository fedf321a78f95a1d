(** C67: the coarse solver shows the coarsened solution of the fine one. *)
From Coq Require Import Reals List ZArith Arith Lia Lra Bool String.
From Verif Require Import Prelude L_Prelude M_Mesh L_Mesh M_Quadrature S_Quadrature M_Interpolate M_Boundary S_Boundary L_Boundary M_Flux S_Flux L_Flux
  M_ODE S_ODE L_ODE M_TimeStepping L_TimeStepping M_Coarsener M_Solution M_Solver S_Solver L_Solver M_Generate
  M_Scalar L_Scalar M_ShallowWater S_ShallowWater L_ShallowWater L_SWRuns L_SWLow L_SWWater L_SWLake L_SWTotal M_FVSolver S_FVSolver L_SWWide L_SWSized L_FVSolver S_FVCoarse
  P_Boundary P_Quadrature P_Gauss P_Interpolate P_ShallowWater P_FVWater.
Import ListNotations.
Local Open Scope nat_scope.
Open Scope R_scope.
Notation length := List.length.

Section E.
Context (eig : nat -> (nat -> nat -> R) -> (nat -> R) * (nat -> nat -> R)) (finite : list state -> bool).
Lemma get_flux_sized g b m : forall x nf, even_inputs g -> get_flux eig g b m x = Ok nf -> sized nf.
Proof.
  induction g; intros x nf F E; cbn [get_flux even_inputs] in *; try (inv_bind E; apply tight_sized; eapply tight_base; eauto 8; fail).
  - inv_bind E. apply tight_sized. eapply tight_lw_source; eauto.
  - destruct F as [[k [Hk ->]] F]. inv_bind E. inv_bind E. eapply sized_source; [exact E|]. apply sized_corrected; [eapply IHg; eauto|apply sized_subgrid; auto].
  - inv_bind E. inv_bind E. eapply sized_mcl; [|exact E]. eapply IHg; eauto.
  - inv_bind E. apply Ok_inj in E. subst nf. apply sized_corrected; [eapply IHg; eauto|apply tight_sized, tight_anti].
Qed.
Lemma step_length (rhs : R -> list state -> result (list state)) T n dt o o' :
  (forall t u v, length u = n -> rhs t u = Ok v -> length v = n) -> In T [euler; heun; ssp3; rk8] ->
  length (o_sol o) = n -> rk_execute_e rhs T dt o = Ok o' -> length (o_sol o') = n.
Proof.
  intros HR HT L E.
  destruct (rk_run_e_linear (fun l => length l = n) rhs (repeat czero n) T [dt] o o' (fun _ => 0)) as [R1 R2]; auto.
  - intros; ring.
  - intros; ring.
  - apply repeat_length.
  - intros t u v Hu Hv. split; [eapply HR; eauto|auto].
  - apply tableau_rows; auto.
  - unfold rk_run_e. cbn [foldM]. rewrite E. reflexivity.
Qed.

(* the world of a solver without history *)
Definition bare (w : world (list state)) : world (list state) :=
  {| w_mem := w_mem w; w_next := w_next w; w_ode := w_ode w; w_ode_time := w_ode_time w; w_sol := w_sol w; w_sol_time := w_sol_time w;
     w_times := []; w_values := []; w_warnings := w_warnings w |}.
Definition without_history (c : config (list state)) : config (list state) :=
  {| c_rhs := c_rhs c; c_tab := c_tab c; c_gen := c_gen c; c_start := c_start c; c_end := c_end c; c_check := c_check c; c_history := false |}.
Definition sim (h : bool) (d : nat) (w : world (list state)) (cw : coarse_world) : Prop :=
  cw_fine cw = bare w /\ cw_times cw = w_times w /\ mapM (coarsen d) (w_values w) = Ok (cw_values cw) /\ (h = false -> w_times w = [] /\ w_values w = []).

Lemma mapM_app {A B} (f : A -> result B) l1 l2 b1 b2 : mapM f l1 = Ok b1 -> mapM f l2 = Ok b2 -> mapM f (l1 ++ l2) = Ok (b1 ++ b2).
Proof.
  revert b1. induction l1 as [|x l1 IH]; intros b1 E1 E2; cbn [mapM app] in *.
  - apply Ok_inj in E1. subst. exact E2.
  - inv_bind E1. inv_bind E1. apply Ok_inj in E1. subst. rewrite E. cbn [bind]. rewrite (IH _ E0 E2). reflexivity.
Qed.
Lemma mapM_mask {A B} (f : A -> result B) t times : forall l b, mapM f l = Ok b -> mapM f (mask_values t times l) = Ok (mask_values t times b).
Proof.
  induction times as [|t0 ts IH]; intros [|v vs] b E; cbn [mask_values mapM] in *; try (apply Ok_inj in E; subst; auto; fail).
  - inv_bind E. inv_bind E. apply Ok_inj in E. subst. reflexivity.
  - inv_bind E. inv_bind E. apply Ok_inj in E. subst. destruct (Rltb t0 t).
    + cbn [mapM]. rewrite E0. cbn [bind]. rewrite (IH _ _ E1). reflexivity.
    + apply IH. exact E1.
Qed.

Section Sim.
Context (c : config (list state)) (d n : nat) (Hd : (0 < d)%nat) (Hn : (n mod d = 0)%nat).
Let h := c_history c.
Let cc := without_history c.
Hypothesis HP : forall dt o o', length (o_sol o) = n -> rk_execute_e (c_rhs c) (c_tab c) dt o = Ok o' -> length (o_sol o') = n.
Definition P (v : list state) := length v = n.

Lemma coarsen_ok v : length v = n -> coarsen d v = Ok (coarsen_vector d v).
Proof. intro L. unfold coarsen. destruct d; [lia|]. rewrite L, Hn. reflexivity. Qed.

Lemma sim_sol_update dt l w cw w' r : sim h d w cw -> length (w_mem w l) = n -> sol_update finite c dt l w = (w', r) ->
  exists cw', coarse_sol_update finite cc h d dt l cw = (cw', r) /\ sim h d w' cw'.
Proof.
  intros [S1 [S2 [S3 S4]]] L E. unfold sol_update in E. unfold coarse_sol_update, sol_update. rewrite S1. unfold bare. cbn [w_mem].
  destruct (finite (w_mem w l)).
  - injection E as <- <-. cbn [c_history cc without_history w_mem w_next w_ode w_ode_time w_sol w_sol_time w_times w_values w_warnings].
    destruct h eqn:Eh.
    + rewrite (coarsen_ok _ L). eexists. split; [reflexivity|]. unfold sim, bare. cbn [cw_fine cw_times cw_values w_mem w_next w_ode w_ode_time w_sol w_sol_time w_times w_values w_warnings].
      fold h. rewrite Eh. split; [reflexivity|]. split; [rewrite S2; reflexivity|]. split; [|discriminate]. apply mapM_app; [exact S3|].
      cbn [mapM]. rewrite (coarsen_ok _ L). reflexivity.
    + eexists. split; [reflexivity|]. unfold sim, bare. cbn [cw_fine cw_times cw_values w_mem w_next w_ode w_ode_time w_sol w_sol_time w_times w_values w_warnings].
      fold h. rewrite Eh. auto.
  - injection E as <- <-. eexists. split; [reflexivity|]. unfold sim. cbn [cw_fine cw_times cw_values]. rewrite <- S1. auto.
Qed.

Lemma sim_update dt w cw w' r : sim h d w cw -> keeps P w -> solver_update finite c dt w = (w', r) ->
  exists cw', coarse_update finite cc h d dt cw = (cw', r) /\ sim h d w' cw'.
Proof.
  intros [S1 [S2 [S3 S4]]] [K1 _] E. unfold solver_update in E. unfold coarse_update. pose proof (ode_execute_spec c dt w) as X.
  assert (Y : ode_execute cc dt (cw_fine cw) = match ode_execute c dt w with Ok (w1, ns, ss) => Ok (bare w1, ns, ss) | Err e => Err e end).
  { rewrite S1. unfold ode_execute, bare. cbn [cc without_history c_rhs c_tab w_ode_time w_mem w_ode w_next w_sol w_sol_time w_times w_values w_warnings].
    destruct (foldM _ _ _) as [[[ns ss] ks]|e]; reflexivity. }
  rewrite Y. destruct (ode_execute c dt w) as [[[w1 ns] ss]|e].
  - destruct X as [y [X1 [X2 X3]]]. assert (Ly : length (o_sol y) = n) by (eapply HP; [|exact X1]; exact K1).
    change (M_Solver.check_cfl cc dt ns ss) with (M_Solver.check_cfl c dt ns ss).
    destruct (M_Solver.check_cfl c dt ns ss) as [x|e].
    + eapply (sim_sol_update dt (w_ode w1) (warn x w1)); [| |exact E].
      * unfold sim. cbn [cw_fine cw_times cw_values]. rewrite X3. unfold bare, warn. cbn. auto.
      * unfold warn. cbn [w_mem]. rewrite X3. cbn [w_mem w_ode]. rewrite store_same. exact Ly.
    + injection E as <- <-. eexists. split; [reflexivity|]. unfold sim. cbn [cw_fine cw_times cw_values]. rewrite X3. cbn. auto.
  - injection E as <- <-. exists cw. split; [reflexivity|]. unfold sim. auto.
Qed.

Lemma sim_loop k : forall w cw s w' s' st, sim h d w cw -> keeps P w -> solve_loop finite c k w s = (w', s', st) ->
  exists cw', coarse_loop finite cc h d k cw s = (cw', s', st) /\ sim h d w' cw'.
Proof.
  induction k as [|k IH]; intros w cw s w' s' st S K E; cbn [solve_loop coarse_loop] in *.
  - injection E as <- <- <-. eauto.
  - destruct (proj1 S). unfold bare. cbn [w_sol_time w_mem w_sol cc without_history c_end c_gen].
    change (c_end cc) with (c_end c). change (c_gen cc) with (c_gen c).
    assert (Z : cw_fine cw = bare w) by apply S. rewrite Z. unfold bare. cbn [w_sol_time w_mem w_sol].
    destruct (ts_next _ _ _) as [dt s1| |]; [|injection E as <- <- <-; eauto|injection E as <- <- <-; eauto].
    destruct (solver_update finite c dt w) as [w1 r] eqn:Eu.
    destruct (sim_update dt w cw w1 r S K Eu) as [cw1 [Ec S']]. rewrite Ec.
    assert (K' : keeps P w1) by (eapply update_keeps; [|exact K|exact Eu]; intros o o'; apply HP).
    destruct r as [e|]; [injection E as <- <- <-; eauto|]. eapply IH; eauto.
Qed.

Lemma sim_solve k w cw w' s st : sim h d w cw -> keeps P w -> solve finite c k w = (w', s, st) ->
  exists cw', coarse_solve finite cc h d k cw = (cw', s, st) /\ sim h d w' cw'.
Proof.
  intros S K E. unfold solve in E. unfold coarse_solve. assert (Z : cw_fine cw = bare w) by apply S.
  assert (C : coarsen d (w_mem (cw_fine cw) (w_sol (cw_fine cw))) = Ok (coarsen_vector d (w_mem w (w_sol w)))).
  { rewrite Z. unfold bare. cbn [w_mem w_sol]. apply coarsen_ok. apply K. }
  rewrite C. assert (T : tqdm_len cc (cw_fine cw) = tqdm_len c w) by (rewrite Z; reflexivity). rewrite T.
  destruct (tqdm_len c w) as [q|e]; [|injection E as <- <- <-; eauto].
  change (c_start cc) with (c_start c). destruct (solve_loop finite c k w (ts_iter (c_start c))) as [[w1 s1] st1] eqn:El.
  injection E as <- <- <-. destruct (sim_loop k w cw _ _ _ _ S K El) as [cw1 [El' S1]]. rewrite El'. eauto.
Qed.

Lemma sim_reinit b w cw w' r : (0 < n)%nat -> sim h d w cw -> sw_reinitialize eig finite c n b w = (w', r) ->
  exists cw', coarse_reinitialize eig finite cc h d n b cw = (cw', r) /\ sim h d w' cw'.
Proof.
  intros Pn S E. unfold sw_reinitialize, fv_solution in E. unfold coarse_reinitialize. rewrite Hn. cbn [Nat.eqb negb].
  replace (n / d * d)%nat with n by (rewrite (Nat.div_mod n d) at 1 by lia; rewrite Hn; lia).
  replace (or_default (Some n) default_mesh_size) with n in E by (unfold or_default; destruct n; [lia|reflexivity]).
  destruct (new_mesh (bm_domain b) n) as [m|e] eqn:Em; cbn [bind] in *; [|injection E as <- <-; eauto].
  destruct (averages2 eig m (bm_initial b)) as [v|e] eqn:Ea; cbn [bind] in *; [|injection E as <- <-; eauto].
  assert (Lv : length v = n). { rewrite (averages2_length eig _ _ _ Ea). apply (new_mesh_length _ _ _ Em). }
  unfold reinitialize in E. destruct S as [S1 [S2 [S3 S4]]]. set (l := w_next w) in *. rewrite S1. unfold bare at 1 2 3 4 5 6 7 8 9 10 11. cbn [w_mem w_next w_ode w_ode_time w_sol w_sol_time w_times w_values w_warnings].
  fold l. fold h in E.
  set (w1 := {| w_mem := store (w_mem w) l v; w_next := S l; w_ode := w_ode w; w_ode_time := w_ode_time w; w_sol := w_sol w; w_sol_time := w_sol_time w;
     w_times := if h then filter (fun t' => Rltb t' (bm_start b)) (w_times w) else w_times w; w_values := if h then mask_values (bm_start b) (w_times w) (w_values w) else w_values w; w_warnings := w_warnings w |}) in *.
  set (cw1 := {| cw_fine := _; cw_times := _; cw_values := _ |}).
  assert (SS : sim h d w1 cw1).
  { unfold sim, w1, cw1, bare. cbn [cw_fine cw_times cw_values w_mem w_next w_ode w_ode_time w_sol w_sol_time w_times w_values w_warnings].
    split; [reflexivity|]. split; [rewrite S2; reflexivity|]. split.
    - rewrite S2. destruct h; [apply mapM_mask; exact S3|exact S3].
    - intro Z. rewrite Z. apply S4. exact Z. }
  destruct (sol_update finite c (bm_start b - w_sol_time w1) l w1) as [w2 r2] eqn:Es.
  destruct (sim_sol_update _ l w1 cw1 w2 r2 SS ltac:(unfold w1; cbn [w_mem]; rewrite store_same; exact Lv) Es) as [cw2 [Ec S2']].
  match goal with |- context [coarse_sol_update finite cc h d ?x l cw1] => change x with (bm_start b - w_sol_time w1) end.
  rewrite Ec. destruct r2 as [e|]; [injection E as <- <-; eauto|]. injection E as <- <-. eexists. split; [reflexivity|].
  destruct S2' as [Q1 [Q2 [Q3 Q4]]]. unfold sim. cbn [cw_fine cw_times cw_values w_times w_values]. rewrite Q1. unfold bare. cbn. auto.
Qed.
End Sim.
End E.

(** Whatever is done with a solver and with the coarse solver of the same arguments, they
    report the same, and the coarse solver shows the same times and the coarsened values
    and history. *)
Theorem C67_coarse_solver_shows_coarsened_solution : forall eig finite g b a degree c w cc d cw us,
  sw_solver eig g b a = Ok (c, w) -> coarse_solver eig g b a degree = Ok (cc, d, cw) -> known_method a -> even_inputs g ->
  let n := length (o_sol (solution_of w)) in (n mod d = 0)%nat ->
  let '(w', rs) := fine_uses eig finite c n us w in let '(cw', crs) := coarse_uses eig finite cc (a_history a) d n us cw in
  crs = rs /\ exists v vs, coarse_seen d cw' = (o_time (solution_of w'), Ok v, w_times w', vs) /\
    coarsen d (o_sol (solution_of w')) = Ok v /\ mapM (coarsen d) (w_values w') = Ok vs.
Proof.
  intros eig finite g b a degree c w cc d cw us E EC HK HE n Hn.
  destruct (sw_solver_inv eig g b a c w E) as [m [u [nf [bc [E1 [E2 [E3 [E4 E5]]]]]]]].
  destruct (fv_solution_inv eig b _ m u E1) as [Fm [Fu [Lm [Lu Pn]]]].
  assert (Su : o_sol (solution_of w) = u).
  { rewrite E5. unfold solution_of, new_solver. cbn [w_mem w_sol o_sol]. rewrite store_other by lia. reflexivity. }
  assert (Ln : length u = n) by (unfold n; rewrite Su; reflexivity).
  assert (HT : In (c_tab c) [euler; heun; ssp3; rk8]).
  { rewrite E4. cbn [c_tab sw_config]. unfold known_method in HK. destruct (a_ode a) as [T|]; [apply HK; reflexivity|right; left; reflexivity]. }
  assert (HP : forall dt o o', length (o_sol o) = n -> rk_execute_e (c_rhs c) (c_tab c) dt o = Ok o' -> length (o_sol o') = n).
  { intros dt o o' Lo Eo. eapply step_length; [|exact HT|exact Lo|exact Eo]. intros t x y Lx Ey. rewrite E4 in Ey. cbn [c_rhs sw_config] in Ey.
    unfold boundary in E3. rewrite <- Lx. eapply sized_rhs; [eapply get_flux_sized; eauto|exact E3|lia|exact Ey]. }
  assert (Hh : c_history c = a_history a) by (rewrite E4; reflexivity).
  unfold coarse_solver in EC. set (a0 := {| a_mesh_size := _; a_cfl := _; a_ode := _; a_history := false |}) in EC.
  assert (E0 : sw_solver eig g b a0 = Ok (without_history c, bare w)).
  { unfold sw_solver. change (a_mesh_size a0) with (a_mesh_size a). rewrite E1. cbn [bind]. rewrite E2. cbn [bind]. rewrite E3. cbn [bind].
    rewrite E5, E4. reflexivity. }
  rewrite E0 in EC. cbn [bind] in EC.
  assert (Hd : (0 < d)%nat /\ cc = without_history c /\ sim (a_history a) d w cw).
  { assert (D : (0 < or_default degree default_degree)%nat) by (apply or_default_pos; unfold default_degree; lia).
    assert (W0 : w_times w = (if a_history a then [w_sol_time w] else []) /\ w_values w = (if a_history a then [u] else [])).
    { rewrite E5. unfold new_solver. cbn [w_times w_values w_sol_time]. rewrite Hh. auto. }
    assert (Wm : w_mem w (w_sol w) = u) by (rewrite <- Su; reflexivity). destruct W0 as [W1 W2].
    destruct (a_history a).
    - inv_bind EC. apply Ok_inj in EC. injection EC as <- <- <-. split; [exact D|]. split; [reflexivity|]. unfold sim. cbn [cw_fine cw_times cw_values].
      split; [reflexivity|]. split; [rewrite W1; reflexivity|]. split; [|discriminate]. rewrite W2. cbn [mapM]. unfold bare in E6. cbn [w_mem w_sol] in E6. rewrite Wm in E6. rewrite E6. reflexivity.
    - apply Ok_inj in EC. injection EC as <- <- <-. split; [exact D|]. split; [reflexivity|]. unfold sim. cbn [cw_fine cw_times cw_values]. rewrite W1, W2. cbn. auto. }
  destruct Hd as [Hd [-> S]]. rewrite <- Hh in *.
  assert (K : keeps (P n) w) by (rewrite E5; apply new_keeps; [lia|exact Ln]).
  assert (Sep : separate 1 (fun _ => u) (w, [])) by (rewrite E5; apply separate_new; lia).
  clear E5 EC E0 E. assert (Wn : (0 < n)%nat) by lia. clearbody n. clear Su. revert w cw S K Sep. induction us as [|x us IH]; intros w cw S K Sep; cbn [fine_uses coarse_uses].
  - split; [reflexivity|]. destruct S as [S1 [S2 [S3 S4]]]. exists (coarsen_vector d (o_sol (solution_of w))), (cw_values cw).
    unfold coarse_seen. rewrite S1, S2. unfold bare. cbn [w_sol_time w_mem w_sol solution_of o_time o_sol].
    assert (C : coarsen d (w_mem w (w_sol w)) = Ok (coarsen_vector d (w_mem w (w_sol w)))) by (apply (coarsen_ok d n Hd Hn); apply K).
    rewrite C. auto.
  - destruct (fine_use eig finite c n x w) as [w1 r] eqn:Ef.
    assert (G : exists cw1, coarse_use eig finite (without_history c) (c_history c) d n x cw = (cw1, r) /\ sim (c_history c) d w1 cw1 /\ keeps (P n) w1 /\ separate 1 (fun _ => u) (w1, [])).
    { destruct x as [k|b']; cbn [fine_use coarse_use] in *.
      - destruct (solve finite c k w) as [[w' s] st] eqn:Es. injection Ef as <- <-.
        destruct (sim_solve finite c d n Hd Hn HP k w cw w' s st S K Es) as [cw1 [Ec S1]]. rewrite Ec. exists cw1. split; [reflexivity|]. split; [exact S1|].
        pose proof (solve_keeps finite (P n) c k w HP K) as K1. pose proof (separate_step finite 1 (fun _ => u) c (w, []) (Solve k) Sep) as Sep1. cbn [use_step] in Sep1.
        rewrite Es in K1, Sep1. auto.
      - destruct (sw_reinitialize eig finite c n b' w) as [w' e] eqn:Es. injection Ef as <- <-.
        destruct (sim_reinit eig finite c d n Hd Hn HP b' w cw w' e Wn S Es) as [cw1 [Ec S1]]. rewrite Ec. exists cw1. split; [reflexivity|]. split; [exact S1|].
        unfold sw_reinitialize in Es. destruct (fv_solution eig b' (Some n)) as [[m' v]|e'] eqn:Ev; [|injection Es as <- <-; auto].
        pose proof (separate_step finite 1 (fun _ => u) c (w, []) (Reinit v (bm_start b')) Sep) as Sep1. cbn [use_step] in Sep1.
        assert (Lv : P n v). { destruct (fv_solution_inv eig b' _ m' v Ev) as [_ [_ [_ [Lv _]]]]. unfold P. rewrite Lv. unfold or_default. destruct n; [lia|reflexivity]. }
        destruct Sep as [[_ B1] [B2 _]]. pose proof (reinitialize_keeps finite (P n) c v (bm_start b') w B1 B2 Lv K) as K1.
        rewrite Es in K1, Sep1. auto. }
    destruct G as [cw1 [Ec [S1 [K1 Sep1]]]]. rewrite Ec. specialize (IH w1 cw1 S1 K1 Sep1).
    destruct (fine_uses eig finite c n us w1) as [w2 rs]. destruct (coarse_uses eig finite (without_history c) (c_history c) d n us cw1) as [cw2 crs].
    destruct IH as [-> IH]. split; [reflexivity|exact IH].
Qed.
Print Assumptions C67_coarse_solver_shows_coarsened_solution.

(** A degree that does not divide the number of cells: with a history the solver cannot be
    built; without one it can, but solve raises before the first step, reading the value
    raises, and the solver cannot be reinitialized. *)
Theorem C67_degree_must_divide : forall eig finite g b a degree c w, sw_solver eig g b a = Ok (c, w) ->
  let n := length (o_sol (solution_of w)) in let d := or_default degree default_degree in (n mod d <> 0)%nat ->
  (a_history a = true -> coarse_solver eig g b a degree = Err ValueError) /\
  (a_history a = false -> exists cc cw, coarse_solver eig g b a degree = Ok (cc, d, cw) /\
     (exists t ts vs, coarse_seen d cw = (t, Err ValueError, ts, vs)) /\
     (forall k, coarse_solve finite cc false d k cw = (cw, None, RaisedExn ValueError)) /\
     forall b', coarse_reinitialize eig finite cc false d n b' cw = (cw, Some AssertionError)).
Proof.
  intros eig finite g b a degree c w E n d Hn.
  destruct (sw_solver_inv eig g b a c w E) as [m [u [nf [bc [E1 [E2 [E3 [E4 E5]]]]]]]].
  unfold coarse_solver. fold d. set (a0 := {| a_mesh_size := _; a_cfl := _; a_ode := _; a_history := false |}).
  assert (E0 : sw_solver eig g b a0 = Ok (without_history c, bare w)).
  { unfold sw_solver. change (a_mesh_size a0) with (a_mesh_size a). rewrite E1. cbn [bind]. rewrite E2. cbn [bind]. rewrite E3. cbn [bind].
    rewrite E5, E4. reflexivity. }
  rewrite E0. cbn [bind].
  assert (D : (0 < d)%nat) by (apply or_default_pos; unfold default_degree; lia).
  assert (C : coarsen d (w_mem (bare w) (w_sol (bare w))) = Err ValueError).
  { unfold coarsen, bare. cbn [w_mem w_sol]. change (w_mem w (w_sol w)) with (o_sol (solution_of w)). destruct d as [|d']; [lia|].
    fold n. destruct (Nat.eqb_spec (n mod S d') 0); [contradiction|reflexivity]. }
  split; intro Hh; rewrite Hh.
  - rewrite C. reflexivity.
  - eexists _, _. split; [reflexivity|]. split; [|split].
    + unfold coarse_seen. cbn [cw_fine]. rewrite C. eauto.
    + intro k. unfold coarse_solve. cbn [cw_fine]. rewrite C. reflexivity.
    + intro b'. unfold coarse_reinitialize. destruct (Nat.eqb_spec (n mod d) 0); [contradiction|reflexivity].
Qed.
Print Assumptions C67_degree_must_divide.

Example C67_ex : exists eig c w cc cw, let b := {| bm_domain := {| ia := 0; ib := 1 |}; bm_start := 0; bm_end := 1; bm_conditions := ["wall"%string];
     bm_inflow_left := fun _ => (1, 0); bm_inflow_right := fun _ => (1, 0); bm_initial := fun x => (1 + x, x); bm_bottom := fun x => x; bm_gravity := 1 |} in
  let a := {| a_mesh_size := Some 6%nat; a_cfl := None; a_ode := None; a_history := true |} in
  sw_solver eig (GMCL GLLF) b a = Ok (c, w) /\ coarse_solver eig (GMCL GLLF) b a (Some 3%nat) = Ok (cc, 3%nat, cw) /\ known_method a /\
  even_inputs (GMCL GLLF) /\ (length (o_sol (solution_of w)) mod 3 = 0)%nat.
Proof.
  destruct (C43_decomposition_exists 2) as [eig HE]. assert (HE2 : eig2_works eig) by (apply HE; lia). exists eig.
  set (b := {| bm_domain := _; bm_start := _; bm_end := _; bm_conditions := _; bm_inflow_left := _; bm_inflow_right := _; bm_initial := _; bm_bottom := _; bm_gravity := _ |}).
  set (a := {| a_mesh_size := Some 6%nat; a_cfl := None; a_ode := None; a_history := true |}).
  assert (HD : ia (bm_domain b) < ib (bm_domain b)) by (cbn; lra).
  assert (S : side_names (bm_conditions b) "wall" "wall") by (cbn; auto).
  destruct (C64_solvers_can_be_built eig (GMCL GLLF) b a _ _ HE2 HD S) as [c [w [E [_ L]]]]; [cbn; tauto|cbn; tauto|].
  destruct (C64_solvers_can_be_built eig (GMCL GLLF) b {| a_mesh_size := Some 6%nat; a_cfl := None; a_ode := None; a_history := false |} _ _ HE2 HD S) as [c0 [w0 [E0 [_ L0]]]]; [cbn; tauto|cbn; tauto|].
  exists c, w. cbv zeta. unfold coarse_solver. cbn [a_mesh_size a_cfl a_ode a a_history]. rewrite E0. cbn [bind or_default].
  change (w_mem w0 (w_sol w0)) with (o_sol (solution_of w0)). unfold coarsen. rewrite L0. cbn [a_mesh_size or_default].
  eexists _, _. split; [exact E|]. split; [reflexivity|]. split; [|split; [exact I|rewrite L; reflexivity]]. intros T ET. discriminate.
Qed.
