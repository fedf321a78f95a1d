(** C84: what the solutions of calculate have in common, from the words to the result. *)
From Coq Require Import String Ascii Reals List Arith ZArith Bool Lia Lra Classical_Prop.
From Verif Require Import Prelude L_Prelude M_Mesh L_Mesh M_FE M_Quadrature S_Quadrature M_Interpolate M_Boundary S_Boundary M_Flux L_Flux
  M_ODE S_ODE M_TimeStepping L_TimeStepping M_Coarsener L_Coarsener P_Coarsener M_Solution M_Solver S_Solver L_Solver M_Generate M_Scalar S_Scalar L_Scalar M_ShallowWater S_ShallowWater M_FVSolver S_FVSolver L_FVSolver
  M_Benchmark M_ScalarSolver S_ScalarSolver M_Misc P_FVWater P_FVLake P_ScalarSolver P_FESolver M_Command M_Series M_Parser S_Parser P_Parser M_CommandLine S_CommandLine L_CommandLine P_CommandLine P_CommandRun P_CommandMore S_CommandRun L_CommandRun P_FEMatrix S_Solve S_FESolver L_FELinear.
Import ListNotations.
Open Scope R_scope.
Notation length := List.length.
Notation water := S_ShallowWater.water.

Section Calc.
Context (parse_int : string -> option Z) (parse_float : string -> option pyfloat) (net net2 : list state -> state).
Context (newton : (R -> R) -> R -> result R) (moving_height : R -> R) (random_waves : Z -> oscillation) (drawn : Z) (splitext : string -> string * string).
Context (eig : nat -> (nat -> nat -> R) -> (nat -> R) * (nat -> nat -> R)) (linear_solver : M_Misc.mat -> list R -> list R) (old : nat -> R).
Context (finite : list R -> bool) (finite2 : list state -> bool).
Notation request_line := (requested parse_int parse_float net net2 newton moving_height random_waves drawn splitext).
Notation asking := (asks parse_int parse_float net net2 newton moving_height random_waves drawn).
Notation order_of := (ordered net net2 false).
Notation calculated := (calculate_line parse_int parse_float net net2 newton moving_height random_waves drawn splitext eig linear_solver old finite finite2).
Notation made := (construct eig linear_solver old).
Notation run := (solve_any finite finite2).
Notation well := (well_written parse_int parse_float net net2).

Lemma in_words (ws : list wish) wss : Forall2 (written parse_int parse_float net net2) ws wss -> forall x, In x ws -> exists v, written parse_int parse_float net net2 x v.
Proof. induction 1 as [|x v ws wss H W IH]; intros y []; [subst; eauto|apply IH; assumption]. Qed.
Lemma flux_asked ws wss d : Forall2 (written parse_int parse_float net net2) ws wss -> (d = GLLF \/ d = GCentral) ->
  even_inputs (flux_of ws d) /\ (cells_read (flux_of ws d) <= 4)%nat /\ (network_free (flux_of ws d) -> cells_read (flux_of ws d) = 2%nat).
Proof.
  intros W D. unfold flux_of. destruct (chosen_in (fun x => match x with FluxOf g => Some g | _ => None end) ws d) as [->|[x [Hx P]]].
  - destruct D as [-> | ->]; repeat split; cbn; lia.
  - destruct x; try discriminate P. injection P as <-. destruct (in_words ws wss W _ Hx) as [v [f [w [_ [_ [_ H]]]]]].
    repeat (destruct H as [[_ ->]|H]); try destruct H as [_ ->]; (split; [cbn; try exact I|split; [cbn; lia|cbn; try tauto; reflexivity]]);
    (split; [exists 2%nat; split; lia|exact I]).
Qed.
Lemma flux_free ws d d' : network_free d -> network_free d' -> network_free (flux_of ws d) <-> network_free (flux_of ws d').
Proof.
  unfold flux_of. revert d d'. induction ws as [|x ws IH]; intros d d' H H'; cbn [chosen]; [tauto|]. destruct x; try (apply IH; assumption). split; exact (fun h => h).
Qed.
Lemma free_dec : forall g, network_free g \/ ~ network_free g.
Proof. induction g; cbn; auto. Qed.
Lemma method_asked ws wss : Forall2 (written parse_int parse_float net net2) ws wss -> In (method_of ws heun) [euler; heun; ssp3].
Proof.
  intro W. unfold method_of. destruct (chosen_in (fun x => match x with TimeIntegrator T => Some T | _ => None end) ws heun) as [->|[x [Hx P]]]; [cbn; tauto|].
  destruct x; try discriminate P. injection P as <-. destruct (in_words ws wss W _ Hx) as [v [f [w [_ [_ [_ H]]]]]]. cbn. intuition.
Qed.
Lemma degree_asked ws wss : Forall2 (written parse_int parse_float net net2) ws wss -> (0 < degree_of ws 8)%nat.
Proof.
  intro W. unfold degree_of. destruct (chosen_in (fun x => match x with CoarseningDegree n => Some n | _ => None end) ws 8%nat) as [->|[x [Hx P]]]; [lia|].
  destruct x; try discriminate P. injection P as <-. destruct (in_words ws wss W _ Hx) as [v [f [w [_ [_ [_ [z [_ [Z ->]]]]]]]]]. lia.
Qed.
Definition good (r : request) (g : getter) : Prop := even_inputs g /\ (cells_read g <= 4)%nat /\ (~ asks_network r -> network_free g /\ cells_read g = 2%nat).
Lemma water_call r : well true r -> exists T, (forall X, T = Some X -> In X [euler; heun; ssp3]) /\
  let a := fv (mesh_asked r) (cfl_asked r) T false in
  ((exists g, snd (order_of r) = SW g a /\ good r g) \/ snd (order_of r) = SWLaxWendroff a \/
   exists g d, (0 < d)%nat /\ (can_be_shown r -> mesh_asked r mod d = 0)%nat /\ snd (order_of r) = SWCoarse g a (Some d) /\ good r g).
Proof.
  destruct r as [[k ws] wss]. intros [[key K] [W _]]. pose proof (method_asked ws wss W) as M. pose proof (degree_asked ws wss W) as Dg.
  assert (S : forall X, Some (method_of ws heun) = Some X -> In X [euler; heun; ssp3]) by (intros X E; injection E as <-; exact M).
  assert (Z : forall X : tableau, None = Some X -> In X [euler; heun; ssp3]) by discriminate.
  destruct (flux_asked ws wss GLLF W (or_introl eq_refl)) as [A1 [A2 A3]]. destruct (flux_asked ws wss GCentral W (or_intror eq_refl)) as [B1 [B2 B3]].
  assert (Fr : In k [MCL; Antidiff; Coarse] -> ~ asks_network (k, ws, wss) -> network_free (flux_of ws GLLF)).
  { intros H N. destruct (free_dec (flux_of ws GLLF)) as [F|F]; [exact F|]. exfalso. apply N. cbn [asks_network]. auto. }
  destruct k; try discriminate K; cbn [ordered expected snd]; cbv zeta;
    first [exists None; split; [exact Z|]; right; left; reflexivity
          |exists None; split; [exact Z|]; left; eexists; split; [reflexivity|]; unfold good; cbn [even_inputs cells_read network_free asks_network]; repeat split; lia
          |exists (Some (method_of ws heun)); split; [exact S|]];
    try (left; eexists; split; [reflexivity|]; unfold good; cbn [even_inputs cells_read network_free asks_network]; repeat split; lia).
  - left. eexists. split; [reflexivity|]. unfold good. cbn [even_inputs cells_read network_free]. split; [exact B1|]. split; [exact B2|]. intro N.
    assert (F : network_free (flux_of ws GCentral)) by (apply (flux_free ws GCentral GLLF I I); apply Fr; [cbn; tauto|exact N]). auto.
  - left. eexists. split; [reflexivity|]. unfold good. cbn [even_inputs cells_read network_free asks_network]. split; [split; [exists 2%nat; lia|exact I]|]. split; [lia|]. intro N. exfalso. apply N. auto.
  - left. eexists. split; [reflexivity|]. unfold good. cbn [even_inputs cells_read network_free asks_network]. split; [split; [exists 2%nat; lia|exact I]|]. split; [lia|]. intro N. exfalso. apply N. auto.
  - left. eexists. split; [reflexivity|]. unfold good. cbn [even_inputs cells_read network_free]. split; [exact A1|]. split; [lia|]. intro N.
    assert (F : network_free (flux_of ws GLLF)) by (apply Fr; [cbn; tauto|exact N]). split; [exact F|]. rewrite (A3 F). reflexivity.
  - right. right. exists (flux_of ws GLLF), (degree_of ws 8). split; [exact Dg|]. split; [cbn [can_be_shown]; auto|]. split; [reflexivity|]. split; [exact A1|]. split; [exact A2|]. intro N.
    assert (F : network_free (flux_of ws GLLF)) by (apply Fr; [cbn; tauto|exact N]). auto.
Qed.

(** ** the runs *)
Lemma coarse_is_fine c d : forall n w s w' s' st, coarse_loop finite2 c false d n w s = (w', s', st) -> solve_loop finite2 c n (cw_fine w) s = (cw_fine w', s', st).
Proof.
  induction n as [|n IH]; intros w s w' s' st E; cbn [coarse_loop solve_loop] in *; [injection E as <- <- <-; reflexivity|].
  destruct (ts_next _ _ s) as [dt s1| |]; try (injection E as <- <- <-; reflexivity).
  destruct (coarse_update finite2 c false d dt w) as [w1 r] eqn:U.
  assert (V : solver_update finite2 c dt (cw_fine w) = (cw_fine w1, r)).
  { unfold coarse_update, solver_update in *. destruct (ode_execute c dt (cw_fine w)) as [[[f nodes] stages]|e]; [|injection U as <- <-; reflexivity].
    destruct (check_cfl c dt nodes stages) as [x|e]; [|injection U as <- <-; reflexivity]. unfold coarse_sol_update in U. cbn [cw_fine] in U.
    destruct (sol_update finite2 c dt (w_ode f) (warn x f)) as [f' [e|]]; injection U as <- <-; reflexivity. }
  rewrite V. destruct r as [e|]; [injection E as <- <- <-; reflexivity|]. apply IH. exact E.
Qed.

Lemma first_water g sb a c w n : eig2_works eig -> ia (bm_domain sb) < ib (bm_domain sb) -> sw_solver eig g sb a = Ok (c, w) -> or_default (a_mesh_size a) default_mesh_size = n -> (0 < n)%nat ->
  length (o_sol (solution_of w)) = n /\ map fst (o_sol (solution_of w)) = tab n (start_average (fun x => fst (bm_initial sb x)) (bm_domain sb) n).
Proof.
  intros HE HD E Hn Pn. destruct (sw_solver_inv eig g sb a c w E) as [m [u [nf [bc [E1 [_ [_ [_ E5]]]]]]]].
  destruct (fv_solution_inv eig sb _ m u E1) as [Fm [Fu [_ [Lu _]]]]. rewrite Hn in *.
  assert (Su : o_sol (solution_of w) = u) by (rewrite E5; unfold solution_of, new_solver; cbn [w_mem w_sol o_sol]; rewrite store_other by lia; reflexivity).
  rewrite Su. split; [exact Lu|]. unfold averages2 in Fu. rewrite !(averages_tab eig _ n m _ HE Pn HD Fm) in Fu. cbn [bind] in Fu. apply Ok_inj in Fu. rewrite combine_tab in Fu. subst u.
  unfold tab at 1. rewrite map_map. apply map_ext. intro i. reflexivity.
Qed.

Lemma use_solve (c : config (list state)) w n : fst (use_run finite2 c [Solve n] (w, [])) = fst (fst (M_Solver.solve finite2 c n w)).
Proof. cbn [use_run fold_left use_step]. destruct (M_Solver.solve finite2 c n w) as [[w' s] st]. reflexivity. Qed.
Lemma use_solve1 (c : config (list R)) w n : fst (use_run finite c [Solve n] (w, [])) = fst (fst (M_Solver.solve finite c n w)).
Proof. cbn [use_run fold_left use_step]. destruct (M_Solver.solve finite c n w) as [[w' s] st]. reflexivity. Qed.

Definition water_ok (sb : sw_benchmark) (r : request) (o : object) : Prop :=
  (can_be_shown r -> water_shown o <> None) /\
  forall v, water_shown o = Some v -> amount (bm_domain sb) (map fst v) = start_amount (fun x => fst (bm_initial sb x)) (bm_domain sb) (mesh_asked r).
Lemma water_amount sb r v u : length v = mesh_asked r -> water v = water u -> map fst u = tab (mesh_asked r) (start_average (fun x => fst (bm_initial sb x)) (bm_domain sb) (mesh_asked r)) ->
  amount (bm_domain sb) (map fst v) = start_amount (fun x => fst (bm_initial sb x)) (bm_domain sb) (mesh_asked r).
Proof. intros L W U. unfold start_amount, amount. rewrite <- U. rewrite U, map_length, tab_length, L, <- U. unfold water in W. rewrite W. reflexivity. Qed.
Lemma coarse_amount D n d (v c : list state) : (0 < n)%nat -> (0 < d)%nat -> length v = n -> coarsen d v = Ok c -> amount D (map fst c) = amount D (map fst v).
Proof.
  intros Hn Hd Lv E. pose proof (P_Coarsener.C10_coarsen_conserves_integral d v c true ((ib D - ia D) / INR n) Hd E) as S.
  apply (coarsen_ok_iff d v c Hd) in E. destruct E as [Lc _]. rewrite Lv in Lc.
  unfold amount. rewrite !map_length, Lv. set (q := length c) in *.
  assert (Q : INR n = INR q * INR d) by (rewrite Lc, mult_INR; reflexivity). assert (0 < INR d) by (apply lt_0_INR; lia). assert (0 < INR n) by (apply lt_0_INR; lia).
  assert (INR q <> 0) by (intro Z; rewrite Z in Q; lra). change (ccoord true) with (fun x : state => fst x) in S. change (fun x : state => fst x) with (@fst R R) in S.
  rewrite <- S. rewrite Q. field. split; lra.
Qed.
Lemma closed_sides sb r g : closed_ends sb r -> good r g -> (0 < mesh_asked r)%nat ->
  bm_conditions sb = ["periodic"%string] /\ even_inputs g /\ (cells_read g <= 2 * mesh_asked r)%nat \/ side_names (bm_conditions sb) "wall" "wall" /\ network_free g.
Proof.
  intros C [G1 [G2 G3]] P. destruct C as [[C N]|[C N]].
  - left. split; [exact C|]. split; [exact G1|]. pose proof (Classical_Prop.classic (asks_network r)) as D.
    destruct D as [D|D]; [specialize (N D); lia|]. destruct (G3 D) as [_ G4]. lia.
  - right. destruct (G3 N) as [G4 _]. split; [|exact G4]. destruct C as [-> | ->]; split; reflexivity.
Qed.
Lemma water_one sb r s n o : eig2_works eig -> ia (bm_domain sb) < ib (bm_domain sb) -> closed_ends sb r -> well true r ->
  made (BSw sb) (snd (order_of r)) = Ok s -> o = s \/ o = fst (run n s) -> water_ok sb r o.
Proof.
  intros HE HD HC HW M HO. destruct (mesh_written parse_int parse_float net net2 r (or_introl HW)) as [Pm Pc].
  destruct (water_call r HW) as [T [HT Q]]. set (a := fv (mesh_asked r) (cfl_asked r) T false) in *. cbv zeta in Q.
  assert (On : or_default (a_mesh_size a) default_mesh_size = mesh_asked r) by (cbn [a fv a_mesh_size]; destruct (mesh_asked r); [lia|reflexivity]).
  assert (HK : known_method a) by (intros X E; pose proof (HT X E) as Q0; clear - Q0; cbn in Q0 |- *; tauto).
  assert (NR : forall v t (us : list (use (list state))), (us = [] \/ us = [Solve n]) -> In (Reinit v t) us -> False) by (intros v t us [-> | ->] H; [contradiction|destruct H as [H|[]]; discriminate]).
  destruct Q as [[g [Eo G]]|[Eo|[g [d [Hd [Hs [Eo G]]]]]]]; rewrite Eo in M; cbn [construct] in M; inv_bind M; apply Ok_inj in M; subst s.
  - destruct a0 as [c w]. pose proof (closed_sides sb r g HC G Pm) as CS. destruct (first_water g sb a c w _ HE HD E On Pm) as [L U].
    assert (V : exists us, (us = [] \/ us = [Solve n]) /\ exists w', o = Water (c, w') /\ w' = fst (use_run finite2 c us (w, []))).
    { destruct HO as [-> | ->]; [exists []; split; [auto|]; exists w; split; reflexivity|]. exists [Solve n]. split; [auto|]. cbn [solve_any]. rewrite use_solve.
      destruct (M_Solver.solve finite2 c n w) as [[w' x] st]. exists w'. split; reflexivity. }
    destruct V as [us [Hu [w' [-> Ew]]]]. split; [intros _; discriminate|]. unfold water_shown. intros v Ev. injection Ev as <-.
    rewrite <- L in CS. destruct (C64_water_is_conserved eig finite2 g sb a c w us E HK CS) with (v := o_sol (solution_of w')) as [L' W'].
    { intros v t H. exfalso. eapply NR; eauto. }
    { rewrite <- Ew. left. reflexivity. }
    eapply water_amount; [exact (eq_trans L' L)|exact W'|exact U].
  - destruct a0 as [c w]. assert (E' := E). unfold lw_solver in E'. inv_bind E'. destruct a0 as [m u]. inv_bind E'. apply Ok_inj in E'. injection E' as _ E'.
    assert (F : exists c1 w1, sw_solver eig GLow sb a = Ok (c1, w1) /\ o_sol (solution_of w1) = o_sol (solution_of w)).
    { destruct HC as [[HC _]|[HC _]].
      - destruct (C64_solvers_can_be_built eig GLow sb a "periodic" "periodic" HE HD) as [c1 [w1 [F _]]]; [rewrite HC; split; reflexivity|cbn; tauto|cbn; tauto|].
        exists c1, w1. split; [exact F|]. destruct (sw_solver_inv _ _ _ _ _ _ F) as [m1 [u1 [nf [bc [F1 [_ [_ [_ ->]]]]]]]]. rewrite E0 in F1. apply Ok_inj in F1. injection F1 as <- <-. rewrite <- E'. reflexivity.
      - destruct (C64_solvers_can_be_built eig GLow sb a "wall" "wall" HE HD) as [c1 [w1 [F _]]]; [destruct HC as [-> | ->]; split; reflexivity|cbn; tauto|cbn; tauto|].
        exists c1, w1. split; [exact F|]. destruct (sw_solver_inv _ _ _ _ _ _ F) as [m1 [u1 [nf [bc [F1 [_ [_ [_ ->]]]]]]]]. rewrite E0 in F1. apply Ok_inj in F1. injection F1 as <- <-. rewrite <- E'. reflexivity. }
    destruct F as [c1 [w1 [F F']]]. destruct (first_water GLow sb a c1 w1 _ HE HD F On Pm) as [L U]. rewrite F' in L, U.
    assert (V : exists ns w', o = Wendroff (c, w') /\ w' = fold_left (fun w n => fst (fst (lw_solve finite2 c n w))) ns w).
    { destruct HO as [-> | ->]; [exists [], w; split; reflexivity|]. exists [n]. cbn [solve_any fold_left]. destruct (lw_solve finite2 c n w) as [[w' x] st]. exists w'. split; reflexivity. }
    destruct V as [ns [w' [-> Ew]]]. split; [intros _; discriminate|]. unfold water_shown. intros v Ev. injection Ev as <-.
    destruct (C64_lax_wendroff_water eig finite2 sb a c w ns E) with (v := o_sol (solution_of w')) as [L' W'].
    { destruct HC as [[HC _]|[HC _]]; [left; exact HC|right; destruct HC as [-> | ->]; split; reflexivity]. }
    { rewrite <- Ew. left. reflexivity. }
    eapply water_amount; [exact (eq_trans L' L)|exact W'|exact U].
  - destruct a0 as [[c d'] cw]. unfold coarse_solver in E. set (a1 := {| a_mesh_size := _; a_cfl := _; a_ode := _; a_history := false |}) in E. inv_bind E. destruct a0 as [c0 w].
    cbn [a fv a_history] in E. apply Ok_inj in E. injection E as <- Ed <-.
    assert (Ed' : d' = d) by (rewrite <- Ed; destruct d; [lia|reflexivity]). clear Ed. subst d'. change (a_history a) with false in *.
    pose proof (closed_sides sb r g HC G Pm) as CS. destruct (first_water g sb a1 c0 w _ HE HD E0 On Pm) as [L U].
    set (cw0 := {| cw_fine := w; cw_times := []; cw_values := [] |}) in *.
    assert (V : exists us, (us = [] \/ us = [Solve n]) /\ exists cw', o = Coarsened (c0, d, cw') false /\ cw_fine cw' = fst (use_run finite2 c0 us (w, []))).
    { destruct HO as [-> | ->]; [exists []; split; [auto|]; exists cw0; split; reflexivity|]. cbn [solve_any a fv a_history]. unfold coarse_solve.
      destruct (coarsen d _) as [x|e]; [|exists []; split; [auto|]; exists cw0; split; reflexivity].
      destruct (tqdm_len c0 (cw_fine cw0)) as [q|e] eqn:Tq; [|exists []; split; [auto|]; exists cw0; split; reflexivity].
      exists [Solve n]. split; [auto|]. rewrite use_solve. unfold M_Solver.solve. change (cw_fine cw0) with w in Tq. rewrite Tq.
      destruct (coarse_loop finite2 c0 false d n cw0 (ts_iter (c_start c0))) as [[cw' s'] st] eqn:CL. pose proof (coarse_is_fine _ _ _ _ _ _ _ _ CL) as F. change (cw_fine cw0) with w in F. rewrite F. exists cw'. split; reflexivity. }
    destruct V as [us [Hu [cw' [-> Ew]]]].
    rewrite <- L in CS. destruct (C64_water_is_conserved eig finite2 g sb a1 c0 w us E0 HK CS) with (v := o_sol (solution_of (cw_fine cw'))) as [L' W'].
    { intros v t H. exfalso. eapply NR; eauto. }
    { rewrite Ew. left. reflexivity. }
    rewrite L in L'. split; unfold water_shown.
    + intros S. specialize (Hs S). assert (X : forall y : list state, length y = mesh_asked r -> coarsen d y = Ok (coarsen_vector d y)) by (intros y Ly; unfold coarsen; destruct d; [lia|]; rewrite Ly, Hs; reflexivity).
      rewrite (X _ L'). discriminate.
    + intros v. destruct (coarsen d _) as [x|e] eqn:Ex; [|discriminate]. intro Ev. injection Ev as <-.
      rewrite (coarse_amount _ (mesh_asked r) d _ x Pm Hd L' Ex). eapply water_amount; [exact L'|exact W'|exact U].
Qed.

(** ** the time at the end *)
Definition steady {V} (c : config V) (w : world V) (T dt : R) : Prop := (forall x, call_generator (c_gen c) x = dt) /\ c_end c = T /\ c_start c = 0 /\ w_sol_time w = 0.
Definition paced (o : object) (T dt : R) : Prop :=
  match o with
  | Scalar (c, w) => steady c w T dt | Water (c, w) => steady c w T dt
  | Wendroff (c, w) => steady (c 0) w T dt
  | Coarsened (c, _, w) _ => steady c (cw_fine w) T dt
  end.
Lemma steady_loop {W} (time gen : W -> R) update T dt w : (forall x, gen x = dt) -> (forall d x x', update d x = (x', None) -> time x' = time x + d) -> time w = 0 -> tol <= dt -> tol <= T ->
  exists N, forall n, (N <= n)%nat -> forall w' s' st, loop gen update T n w (ts_iter 0) = (w', s', st) -> exception_of st = None -> T - tol < time w' <= T.
Proof.
  intros HG HU Hw Hd HT. destruct (loop_ends gen update T w (ts_iter 0)) as [N [w0 [s0 [st0 [Q H]]]]]. exists N. intros n Hn w' s' st E X. rewrite (H n Hn) in E. injection E as <- <- <-.
  assert (C : st0 = Completed).
  { destruct st0; try reflexivity; try congruence; try discriminate X. exfalso. eapply (loop_not_small gen update T); [intro x; rewrite HG; exact Hd| |exact (H N (le_n N))|reflexivity]. right. cbn. lra. }
  subst st0. pose proof (loop_time time gen update T HU N w (ts_iter 0) w0 s0 eq_refl (H N (le_n N))) as L. rewrite Hw in L. cbn [ts_iter ts_time] in L. lra.
Qed.
Lemma run_time o T dt : paced o T dt -> tol <= dt -> tol <= T -> exists N, forall n, (N <= n)%nat -> forall o', run n o = (o', None) -> T - tol < time_shown o' <= T.
Proof.
  intros P Hd HT. destruct o as [[c w]|[c w]|[c w]|[[c d] w] h]; cbn [paced] in P; destruct P as [P1 [P2 [P3 P4]]]; cbn [solve_any].
  - unfold M_Solver.solve. destruct (tqdm_len c w) as [q|e]; [|exists 0%nat; discriminate].
    destruct (steady_loop (fun w => w_sol_time w) (fun w => call_generator (c_gen c) (w_sol_time w, w_mem w (w_sol w))) (solver_update finite c) T dt w (fun x => P1 _) (update_time finite c) P4 Hd HT) as [N H].
    exists N. intros n Hn o' E. rewrite solve_loop_is, P2, P3 in E. destruct (loop _ _ _ _ _ _) as [[w' s'] st] eqn:L. injection E as <- X. exact (H n Hn w' s' st L X).
  - unfold M_Solver.solve. destruct (tqdm_len c w) as [q|e]; [|exists 0%nat; discriminate].
    destruct (steady_loop (fun w => w_sol_time w) (fun w => call_generator (c_gen c) (w_sol_time w, w_mem w (w_sol w))) (solver_update finite2 c) T dt w (fun x => P1 _) (update_time finite2 c) P4 Hd HT) as [N H].
    exists N. intros n Hn o' E. rewrite solve_loop_is, P2, P3 in E. destruct (loop _ _ _ _ _ _) as [[w' s'] st] eqn:L. injection E as <- X. exact (H n Hn w' s' st L X).
  - unfold lw_solve. destruct (tqdm_len (c 0) w) as [q|e]; [|exists 0%nat; discriminate].
    destruct (steady_loop (fun w => w_sol_time w) (fun w => call_generator (c_gen (c 0)) (w_sol_time w, w_mem w (w_sol w))) (fun d => solver_update finite2 (c d) d) T dt w (fun x => P1 _) (fun d => update_time finite2 (c d) d) P4 Hd HT) as [N H].
    exists N. intros n Hn o' E. rewrite lw_loop_is, P2, P3 in E. destruct (loop _ _ _ _ _ _) as [[w' s'] st] eqn:L. injection E as <- X. exact (H n Hn w' s' st L X).
  - unfold coarse_solve. destruct (coarsen _ _) as [v|e]; [|exists 0%nat; discriminate]. destruct (tqdm_len c (cw_fine w)) as [q|e]; [|exists 0%nat; discriminate].
    destruct (steady_loop (fun w => w_sol_time (cw_fine w)) (fun w => call_generator (c_gen c) (w_sol_time (cw_fine w), w_mem (cw_fine w) (w_sol (cw_fine w)))) (coarse_update finite2 c h d) T dt w (fun x => P1 _) (coarse_time finite2 c h d) P4 Hd HT) as [N H].
    exists N. intros n Hn o' E. rewrite coarse_loop_is, P2, P3 in E. destruct (loop _ _ _ _ _ _) as [[w' s'] st] eqn:L. injection E as <- X. exact (H n Hn w' s' st L X).
Qed.
Lemma made_paced p b r s : proper p b -> well (is_swe (CCalculate p)) r -> steps_from_mesh r -> made b (snd (order_of r)) = Ok s -> paced s (end_given b) (step_asked (domain_of b) r).
Proof.
  intros HP HW HS M. destruct (mesh_written parse_int parse_float net net2 r ltac:(destruct p; [right|right|left]; exact HW)) as [Pm Pc].
  assert (Py : py_or (Some (cfl_asked r)) default_cfl = cfl_asked r) by (unfold py_or; destruct (Reqb_spec (cfl_asked r) 0); [lra|reflexivity]).
  assert (Om : or_default (Some (mesh_asked r)) default_mesh_size = mesh_asked r) by (destruct (mesh_asked r); [lia|reflexivity]).
  assert (Sc : forall sb, b = BScalar sb -> sb_start sb = 0 -> well false r -> paced s (end_given b) (step_asked (domain_of b) r)).
  { intros sb -> S0 W. cbn [end_given domain_of]. assert (Kd : exists T, (exists g, snd (order_of r) = ScalarFV g (fv (mesh_asked r) (cfl_asked r) T false)) \/ exists x, snd (order_of r) = ScalarFE (FCG x) (fe (mesh_asked r) (cfl_asked r) T false)).
    { destruct r as [[k ws] wss]. destruct W as [[key K] _]. destruct HS as [H1 H2]. destruct k; try discriminate K; try congruence; cbn [ordered expected snd mesh_asked cfl_asked]; eexists;
      ((left; eexists; reflexivity) || (right; eexists; reflexivity)). }
    destruct Kd as [T [[g Eo]|[x Eo]]]; rewrite Eo in M; cbn [construct] in M; inv_bind M; apply Ok_inj in M; subst s; destruct a as [c w].
    - destruct (scalar_solver_inv _ _ _ _ _ _ E) as [m [u [nf [bc [F1 [_ [_ [_ [_ [F6 [_ [_ [-> ->]]]]]]]]]]]]]. cbn [fv a_mesh_size] in *. rewrite Om in *.
      unfold paced, steady. cbn [scalar_config c_gen c_end c_start new_solver w_sol_time]. rewrite S0. repeat split. intro y. unfold call_generator, mesh_dependent_generator, new_generator. cbn [gen_adaptive gen_frozen gen_cfl a_cfl fv]. rewrite Py, F6. reflexivity.
    - cbn [fe_solver] in E. unfold cg_solver in E. inv_bind E. destruct a as [s u]. inv_bind E. inv_bind E. apply Ok_inj in E. injection E as <- <-.
      unfold fe_solution in E0. inv_bind E0. inv_bind E0. apply Ok_inj in E0. injection E0 as <- <-. cbn [fe f_mesh_size f_degree] in *. rewrite Om in *.
      assert (F : m_step (M_FE.fs_mesh a2) = (ib (sb_domain sb) - ia (sb_domain sb)) / INR (mesh_asked r)).
      { destruct (new_mesh_length _ _ _ E) as [_ [_ L]]. unfold M_FE.new_fespace in E3. repeat (inv_bind E3). apply Ok_inj in E3. subst a2. exact L. }
      unfold paced, steady. cbn [c_gen c_end c_start new_solver w_sol_time]. rewrite S0. repeat split. intro y. transitivity (m_step (M_FE.fs_mesh a2) * py_or (Some (cfl_asked r)) default_cfl); [reflexivity|rewrite Py, F; reflexivity]. }
  destruct p; cbn [is_swe proper] in *.
  - destruct HP as [u0 [T [-> _]]]. eapply Sc; [reflexivity|reflexivity|exact HW].
  - destruct HP as [T [_ [-> | ->]]]; (eapply Sc; [reflexivity|reflexivity|exact HW]).
  - clear Sc. destruct HP as [sb [nl [nr [-> [HD [S0 _]]]]]]. cbn [end_given domain_of].
    assert (Gen : forall g a c w T, a = fv (mesh_asked r) (cfl_asked r) T false -> sw_solver eig g sb a = Ok (c, w) -> steady c w (bm_end sb) (step_asked (bm_domain sb) r)).
    { intros g a c w T -> E. destruct (sw_solver_inv _ _ _ _ _ _ E) as [m [u [nf [bc [F1 [_ [_ [-> ->]]]]]]]]. destruct (fv_solution_inv eig sb _ m u F1) as [Fm _]. cbn [fv a_mesh_size] in Fm. rewrite Om in Fm.
      destruct (new_mesh_length _ _ _ Fm) as [_ [_ L]]. unfold steady. cbn [sw_config c_gen c_end c_start new_solver w_sol_time]. rewrite S0. repeat split. intro y.
      unfold call_generator, mesh_dependent_generator, new_generator. cbn [gen_adaptive gen_frozen gen_cfl a_cfl fv]. rewrite Py, L. reflexivity. }
    destruct (swe_call parse_int parse_float net net2 r HW) as [T [[g Eo]|[Eo|[g [d Eo]]]]]; rewrite Eo in M; cbn [construct] in M; inv_bind M; apply Ok_inj in M; subst s.
    + destruct a as [c w]. cbn [paced]. eapply Gen; [reflexivity|exact E].
    + destruct a as [c w]. unfold lw_solver in E. inv_bind E. destruct a as [m u]. inv_bind E. apply Ok_inj in E. injection E as <- <-.
      destruct (fv_solution_inv eig sb _ m u E0) as [Fm _]. cbn [fv a_mesh_size] in Fm. rewrite Om in Fm. destruct (new_mesh_length _ _ _ Fm) as [_ [_ L]].
      unfold paced, steady. cbn [sw_config c_gen c_end c_start new_solver w_sol_time]. rewrite S0. repeat split. intro y.
      unfold call_generator, mesh_dependent_generator, new_generator. cbn [gen_adaptive gen_frozen gen_cfl a_cfl fv]. rewrite Py, L. reflexivity.
    + destruct a as [[c d'] cw]. unfold coarse_solver in E. inv_bind E. destruct a as [c0 w]. cbn [fv a_history] in E. apply Ok_inj in E. injection E as <- _ <-.
      cbn [paced cw_fine]. eapply Gen; [|exact E0]. reflexivity.
Qed.

(** ** scalar problems *)
Definition scalar_setting (b : scalar_benchmark) : Prop :=
  ia (sb_domain b) < ib (sb_domain b) /\ sb_conditions b = ["periodic"%string] /\ (sb_problem b = "advection"%string \/ sb_problem b = "burgers"%string).
Lemma scalar_run (c : config (list R)) w n o : o = Scalar (c, w) \/ o = fst (run n (Scalar (c, w))) ->
  exists us w', o = Scalar (c, w') /\ w' = fst (use_run finite c us (w, [])) /\ forall v t, ~ In (Reinit v t) us.
Proof.
  intros [-> | ->].
  - exists [], w. split; [reflexivity|]. split; [reflexivity|]. intros v t [].
  - exists [Solve n]. cbn [solve_any]. rewrite use_solve1. destruct (M_Solver.solve finite c n w) as [[w' x] st]. exists w'. split; [reflexivity|]. split; [reflexivity|]. intros v t [H|[]]. discriminate H.
Qed.
Lemma scalar_kind r : well false r -> let '(k, ws, _) := r in
  (k = ScalarLLF /\ snd (order_of r) = ScalarFV SLLF (fv (mesh_asked r) (cfl_asked r) None false)) \/
  (k = ScalarCentral /\ snd (order_of r) = ScalarFV SCentral (fv (mesh_asked r) (cfl_asked r) None false)) \/
  (k = ScalarMCL /\ snd (order_of r) = ScalarFV SMCL (fv (mesh_asked r) (cfl_asked r) (Some (method_of ws heun)) false)) \/
  (k = CG /\ exists x, snd (order_of r) = ScalarFE (FCG x) (fe (mesh_asked r) (cfl_asked r) None false)) \/
  ((k = CGLow \/ k = FEMCL) /\ exists kd, bounded_kind kd /\ snd (order_of r) = ScalarFE kd (fe (mesh_asked r) (cfl_asked r) (Some (method_of ws heun)) false)).
Proof.
  destruct r as [[k ws] wss]. intros [[key K] _]. destruct k; try discriminate K; cbn [ordered expected snd mesh_asked cfl_asked].
  - do 3 right. left. split; [reflexivity|]. eexists. reflexivity.
  - do 4 right. split; [left; reflexivity|]. eexists. split; [|reflexivity]. eexists. left. reflexivity.
  - do 4 right. split; [right; reflexivity|]. eexists. split; [|reflexivity]. eexists. right. reflexivity.
  - left. split; reflexivity.
  - right. left. split; reflexivity.
  - do 2 right. left. split; reflexivity.
Qed.
Lemma first_values g b a c w n : eig2_works eig -> ia (sb_domain b) < ib (sb_domain b) -> scalar_solver eig g b a = Ok (c, w) -> or_default (a_mesh_size a) default_mesh_size = n -> (0 < n)%nat ->
  o_sol (solution_of w) = tab n (start_average (sb_initial b) (sb_domain b) n).
Proof.
  intros HE HD E Hn Pn. destruct (scalar_solver_inv _ _ _ _ _ _ E) as [m [u [nf [bc [F1 [F2 [_ [_ [_ [_ [_ [_ [_ F10]]]]]]]]]]]]]. rewrite Hn in *.
  rewrite (averages_tab eig _ n m _ HE Pn HD F1) in F2. apply Ok_inj in F2. subst u. rewrite F10. unfold solution_of, new_solver. cbn [w_mem w_sol o_sol]. rewrite store_other by lia. reflexivity.
Qed.
Lemma mass_one b r s n o l : eig2_works eig -> eig_ok eig 1 -> (forall k, (0 < k)%nat -> solves linear_solver k) -> scalar_setting b -> well false r ->
  made (BScalar b) (snd (order_of r)) = Ok s -> o = s \/ o = fst (run n s) -> start_mass b r = Some l ->
  exists v, values_shown o = Some v /\ length v = mesh_asked r /\ amount (sb_domain b) v = l.
Proof.
  intros HE HE1 HS [HD [HC HP]] HW M HO Hl. destruct (mesh_written parse_int parse_float net net2 r (or_intror HW)) as [Pm Pc].
  assert (Om : or_default (Some (mesh_asked r)) default_mesh_size = mesh_asked r) by (destruct (mesh_asked r); [lia|reflexivity]).
  pose proof (scalar_kind r HW) as K. destruct r as [[k ws] wss]. set (r := (k, ws, wss)) in *. pose proof HW as [_ [W _]]. pose proof (method_asked ws wss W) as MA.
  assert (FV : forall g, g = SLLF \/ g = SCentral -> snd (order_of r) = ScalarFV g (fv (mesh_asked r) (cfl_asked r) None false) -> l = start_amount (sb_initial b) (sb_domain b) (mesh_asked r) ->
    exists v, values_shown o = Some v /\ length v = mesh_asked r /\ amount (sb_domain b) v = l).
  { intros g Hg Eo ->. rewrite Eo in M. cbn [construct] in M. inv_bind M. apply Ok_inj in M. subst s. destruct a as [c w].
    destruct (scalar_run c w n o HO) as [us [w' [-> [Ew NR]]]]. exists (o_sol (solution_of w')). split; [reflexivity|].
    pose proof (first_values g b _ c w (mesh_asked r) HE HD E Om Pm) as U.
    destruct (C70_mass_is_conserved eig finite g b (fv (mesh_asked r) (cfl_asked r) None false) c w us E Hg) with (v := o_sol (solution_of w')) as [L' S'].
    { intros T X. discriminate X. }
    { exact HC. }
    { exact HD. }
    { intros v t H. destruct (NR v t H). }
    { rewrite <- Ew. left. reflexivity. }
    rewrite U in L', S'. rewrite tab_length in L'. split; [exact L'|]. unfold start_amount, amount. rewrite tab_length, L', S'. reflexivity. }
  assert (FE : forall kd T, (forall X, T = Some X -> In X [euler; heun; ssp3]) -> snd (order_of r) = ScalarFE kd (fe (mesh_asked r) (cfl_asked r) T false) -> l = start_nodal_amount (sb_initial b) (sb_domain b) (mesh_asked r) ->
    exists v, values_shown o = Some v /\ length v = mesh_asked r /\ amount (sb_domain b) v = l).
  { intros kd T HT Eo ->. rewrite Eo in M. cbn [construct] in M. inv_bind M. apply Ok_inj in M. subst s. destruct a as [c w].
    destruct (scalar_run c w n o HO) as [us [w' [-> [Ew NR]]]]. exists (o_sol (solution_of w')). split; [reflexivity|].
    set (a := fe (mesh_asked r) (cfl_asked r) T false) in *. assert (Uc : used_cells a = mesh_asked r) by (cbn [a fe used_cells f_mesh_size]; destruct (mesh_asked r); [lia|reflexivity]).
    destruct (fe_solver_inv _ _ _ _ _ _ _ _ E) as [m [sp [pr [rhs [F1 [F2 _]]]]]].
    assert (Sd : fs_dimension sp = mesh_asked r). { rewrite <- Uc, <- (Nat.mul_1_r (used_cells a)). apply (L_FE.s_dim (sb_domain b) (used_cells a) m 1 sp); auto; lia. }
    assert (Wu : length (o_sol (solution_of w)) = mesh_asked r /\ o_sol (solution_of w) = tab (mesh_asked r) (start_value (sb_initial b) (sb_domain b) (mesh_asked r))).
    { assert (HP' : exists pr, sb_problem b = fe_name pr) by (destruct HP as [-> | ->]; [exists M_FE.Advection|exists M_FE.Burgers]; reflexivity). destruct HP' as [pr' HP'].
      destruct (C71_fe_solvers_can_be_built eig linear_solver old kd b a pr' HD HP') as [c2 [w2 [E2 [_ [L2 V2]]]]]; [cbn; intros; lia|]. rewrite E in E2. apply Ok_inj in E2. injection E2 as <- <-.
      rewrite Uc in *. change (used_degree a) with 1%nat in *. rewrite Nat.mul_1_r in *. split; [exact L2|]. rewrite (list_tab 0 (o_sol (solution_of w))), L2. apply tab_ext. intros i Hi. rewrite (V2 i Hi).
      unfold start_value. do 3 f_equal. cbn [INR]. rewrite Rmult_1_r. reflexivity. }
    destruct Wu as [Lw Vw].
    destruct (C71_integral_is_conserved eig linear_solver old finite kd b a c w us m sp E) as [x [X1 X2]].
    { intros X EX. pose proof (HT X EX) as Q. clear - Q. cbn in Q |- *. tauto. }
    { exact HD. } { exact F1. } { exact F2. } { exact HE1. } { exact HE. } { exact HE. } { apply HS. rewrite Sd. exact Pm. }
    destruct (X2 ltac:(intros v t H; destruct (NR v t H)) (o_sol (solution_of w'))) as [L' I']; [rewrite <- Ew; left; reflexivity|]. rewrite Lw in L'. split; [exact L'|].
    rewrite Uc in F1. pose proof (linear_integral eig (sb_domain b) (mesh_asked r) m sp _ x Pm HD F1 F2 HE L' I') as Y1. pose proof (linear_integral eig (sb_domain b) (mesh_asked r) m sp _ x Pm HD F1 F2 HE Lw X1) as Y2.
    unfold start_nodal_amount, amount. rewrite <- Vw. rewrite <- Y1, Y2. reflexivity. }
  cbn [start_mass] in Hl. destruct K as [[-> K]|[[-> K]|[[-> K]|[[-> [x K]]|[K1 [kd [_ K]]]]]]].
  - injection Hl as <-. eapply (FV SLLF); auto.
  - injection Hl as <-. eapply (FV SCentral); auto.
  - discriminate Hl.
  - injection Hl as <-. eapply FE; [|exact K|reflexivity]. discriminate.
  - assert (Hl' : l = start_nodal_amount (sb_initial b) (sb_domain b) (mesh_asked r)) by (destruct K1 as [-> | ->]; injection Hl as <-; reflexivity).
    eapply FE; [|exact K|exact Hl']. intros X EX. injection EX as <-. exact MA.
Qed.

Lemma bounds_one p b r s n o lo hi : eig2_works eig -> eig_ok eig 1 -> scalar_setting b -> sb_problem b = match p with Advection => "advection" | _ => "burgers" end%string -> well false r -> keeps_bounds p r ->
  (forall x, ia (sb_domain b) <= x <= ib (sb_domain b) -> lo <= sb_initial b x <= hi) -> (forall v, in_range lo hi v -> finite v = true) ->
  made (BScalar b) (snd (order_of r)) = Ok s -> o = s \/ o = fst (run n s) ->
  exists v, values_shown o = Some v /\ length v = mesh_asked r /\ in_range lo hi v.
Proof.
  intros HE HE1 [HD [HC HP]] HN HW HB Hu HF M HO. destruct (mesh_written parse_int parse_float net net2 r (or_intror HW)) as [Pm Pc].
  assert (Om : or_default (Some (mesh_asked r)) default_mesh_size = mesh_asked r) by (destruct (mesh_asked r); [lia|reflexivity]).
  assert (Py : py_or (Some (cfl_asked r)) default_cfl = cfl_asked r) by (unfold py_or; destruct (Reqb_spec (cfl_asked r) 0); [lra|reflexivity]).
  pose proof (scalar_kind r HW) as K. destruct r as [[k ws] wss]. set (r := (k, ws, wss)) in *. pose proof HW as [_ [W _]]. pose proof (method_asked ws wss W) as MA.
  assert (FV : forall g T, p = Advection -> bounded_scheme g -> ssp_method T -> cfl_asked r <= cells_per_step g -> snd (order_of r) = ScalarFV g (fv (mesh_asked r) (cfl_asked r) T false) ->
    exists v, values_shown o = Some v /\ length v = mesh_asked r /\ in_range lo hi v).
  { intros g T -> Hg HT Hc Eo. rewrite Eo in M. cbn [construct] in M. inv_bind M. apply Ok_inj in M. subst s. destruct a as [c w].
    destruct (scalar_run c w n o HO) as [us [w' [-> [Ew NR]]]]. exists (o_sol (solution_of w')). split; [reflexivity|].
    pose proof (first_values g b _ c w (mesh_asked r) HE HD E Om Pm) as U.
    destruct (C69_bounds_hold eig finite g b (fv (mesh_asked r) (cfl_asked r) T false) M_Scalar.Advection lo hi c w us HE HD HN Hg) with (v := o_sol (solution_of w')) as [L' S'].
    { split; [intros x Hx; apply Hu; lra|]. rewrite HC. intros [H|[]]. discriminate H. }
    { exact I. } { exact HT. }
    { cbn [a_cfl fv]. rewrite Py. exact Pc. }
    { cbn [a_cfl fv]. rewrite Py. cbn [max_speed]. lra. }
    { exact HF. } { exact E. }
    { intros v t H. destruct (NR v t H). }
    { rewrite <- Ew. left. reflexivity. }
    rewrite U in L'. rewrite tab_length in L'. auto. }
  cbn [keeps_bounds] in HB. fold r in HB. destruct HB as [[Hp HB]|[Hk [Hc Hm]]].
  - destruct HB as [[-> Hc]|[-> Hc]]; destruct K as [[Q K]|[[Q K]|[[Q K]|[[Q _]|[[Q|Q] _]]]]]; try discriminate Q.
    + eapply (FV SLLF None); auto; [left; reflexivity|intros T X; discriminate X].
    + apply (FV SMCL (Some (method_of ws heun)) Hp (or_intror eq_refl)); [intros T X; injection X as <-; exact MA|exact Hc|exact K].
  - destruct K as [[Q K]|[[Q K]|[[Q K]|[[Q _]|[_ [kd [BK Eo]]]]]]]; try (subst k; destruct Hk; discriminate).
    rewrite Eo in M. cbn [construct] in M. inv_bind M. apply Ok_inj in M. subst s. destruct a as [c w].
    destruct (scalar_run c w n o HO) as [us [w' [-> [Ew NR]]]]. exists (o_sol (solution_of w')). split; [reflexivity|].
    set (T := Some (method_of ws heun)) in *. set (a := fe (mesh_asked r) (cfl_asked r) T false) in *. assert (Uc : used_cells a = mesh_asked r) by (cbn [a fe used_cells f_mesh_size]; destruct (mesh_asked r); [lia|reflexivity]).
    destruct (fe_solver_inv _ _ _ _ _ _ _ _ E) as [m [sp [pr0 [rhs [F1 [F2 _]]]]]].
    assert (HP' : exists pr, sb_problem b = fe_name pr) by (destruct HP as [-> | ->]; [exists M_FE.Advection|exists M_FE.Burgers]; reflexivity). destruct HP' as [pr HP'].
    assert (HT : ssp_method (f_ode a)) by (intros X EX; injection EX as <-; exact MA).
    assert (CC : cfl_condition eig pr sp (cfl_asked r)).
    { rewrite Uc in F1. apply (C71_safe_cfl eig (sb_domain b) (mesh_asked r) m 1 sp pr); auto; try lia. destruct pr; exact Hc. }
    assert (Dat : forall v x, shown (fst (use_run finite c us (w, []))) v -> In x v -> lo <= x <= hi).
    { intros v x. apply (C71_data_bounds_hold eig linear_solver old finite kd b a pr c w m sp us lo hi); auto.
      - rewrite Uc. exact Hm.
      - change (used_degree a) with 1%nat. lia.
      - cbn [a fe f_cfl]. rewrite Py. exact Pc.
      - cbn [a fe f_cfl]. rewrite Py. exact CC.
      - intros y Hy. apply Hu. lra. }
    assert (Inh : inherits_bounds (o_sol (solution_of w)) (o_sol (solution_of w'))).
    { assert (L0 : in_range lo hi (o_sol (solution_of w))).
      { intros x Hx. assert (HP2 := HP'). destruct (C71_fe_solvers_can_be_built eig linear_solver old kd b a pr HD HP') as [c2 [w2 [E2 [_ [L2 V2]]]]]; [cbn; intros; lia|]. rewrite E in E2. apply Ok_inj in E2. injection E2 as <- <-.
        rewrite Uc in *. change (used_degree a) with 1%nat in *. rewrite Nat.mul_1_r in *. apply (In_nth _ _ 0) in Hx as [i [Hi <-]]. rewrite L2 in Hi. rewrite (V2 i Hi). apply Hu.
        assert (0 < INR (mesh_asked r)) by (apply lt_0_INR; lia). assert (Q1 : 0 <= INR i <= INR (mesh_asked r)) by (split; [apply pos_INR|apply le_INR; lia]).
        cbn [INR]. rewrite Rmult_1_r. replace (INR i * ((ib (sb_domain b) - ia (sb_domain b)) / INR (mesh_asked r))) with ((ib (sb_domain b) - ia (sb_domain b)) * (INR i / INR (mesh_asked r))) by (field; lra).
        assert (Q2 : 0 <= INR i / INR (mesh_asked r) <= 1). { split; [apply Rmult_le_pos; [lra|left; apply Rinv_0_lt_compat; lra]|]. apply (Rmult_le_reg_r (INR (mesh_asked r))); [lra|]. unfold Rdiv. rewrite Rmult_assoc, Rinv_l by lra. lra. }
        nra. }
      apply (C71_bounds_hold eig linear_solver old finite kd b a pr c w m sp us); auto.
      - rewrite Uc. exact Hm.
      - change (used_degree a) with 1%nat. lia.
      - cbn [a fe f_cfl]. rewrite Py. exact Pc.
      - cbn [a fe f_cfl]. rewrite Py. exact CC.
      - intros v [_ B]. apply HF. intros x Hx. exact (B lo hi L0 x Hx).
      - intros v t H. destruct (NR v t H).
      - rewrite <- Ew. left. reflexivity. }
    split; [|intros x Hx; apply (Dat (o_sol (solution_of w')) x); [rewrite <- Ew; left; reflexivity|exact Hx]].
    destruct Inh as [L _]. rewrite L. destruct (C71_fe_solvers_can_be_built eig linear_solver old kd b a pr HD HP') as [c2 [w2 [E2 [_ [L2 _]]]]]; [cbn; intros; lia|]. rewrite E in E2. apply Ok_inj in E2. injection E2 as <- <-.
    rewrite L2, Uc. apply Nat.mul_1_r.
Qed.
End Calc.

Lemma through {A B C} (P : A -> Prop) (X : A -> B -> Prop) (Y : B -> C -> Prop) (Z : A -> C -> Prop) : (forall a b c, P a -> X a b -> Y b c -> Z a c) ->
  forall la lb lc, Forall P la -> Forall2 X la lb -> Forall2 Y lb lc -> Forall2 Z la lc.
Proof. intros H la lb lc HP HX. revert lc HP. induction HX as [|a b la lb Hab HX IH]; intros lc HP HY; inversion HY; subst; constructor; inversion HP; subst; eauto. Qed.
Lemma setting p b : proper p b -> p <> M_CommandLine.Swe -> exists sb, b = BScalar sb /\ scalar_setting sb /\ sb_problem sb = match p with M_CommandLine.Advection => "advection" | _ => "burgers" end%string.
Proof.
  destruct p; cbn [proper]; intros H N; [| |congruence].
  - destruct H as [u0 [T [-> _]]]. eexists. split; [reflexivity|]. split; [|reflexivity]. split; [cbn; lra|]. split; [reflexivity|left; reflexivity].
  - destruct H as [T [_ [-> | ->]]]; (eexists; split; [reflexivity|]; split; [|reflexivity]; split; [cbn; pose proof PI_RGT_0; lra|]; split; [reflexivity|right; reflexivity]).
Qed.

(** Whatever the words: a line of calculate that is understood and asks for solvers leads to all of them. None of the constructors
    raises. *)
Theorem C84_solvers_are_built : forall parse_int parse_float net net2 newton moving_height random_waves drawn splitext eig linear_solver old finite finite2 line n b l,
  eig2_works eig -> finite_words parse_float line ->
  requested parse_int parse_float net net2 newton moving_height random_waves drawn splitext line = Parsed (JCalculate b (Some l)) ->
  exists p rs objects e, asks parse_int parse_float net net2 newton moving_height random_waves drawn line p b rs /\ rs <> [] /\
    calculate_line parse_int parse_float net net2 newton moving_height random_waves drawn splitext eig linear_solver old finite finite2 n line = Parsed (SolverList objects, e) /\
    length objects = length rs.
Proof.
  intros parse_int parse_float net net2 newton moving_height random_waves drawn splitext eig ls old finite finite2 line n b l HE Fin R.
  destruct (line_asks parse_int parse_float net net2 newton moving_height random_waves drawn splitext line b (Some l) Fin R) as [X|[p [rs [A El]]]]; [discriminate X|]. injection El as ->.
  destruct (asked_proper parse_int parse_float net net2 newton moving_height random_waves drawn splitext line p b rs A) as [PR [RN WW]].
  assert (M : exists starts, mapM (fun o : order => construct eig ls old b (snd o)) (map (ordered net net2 false) rs) = Ok starts /\ length starts = length rs).
  { clear - HE PR WW. induction WW as [|r rs H WW [ss [E1 E2]]]; [exists []; split; reflexivity|]. destruct (made_ok parse_int parse_float net net2 eig ls old p b r HE PR H) as [s Es].
    exists (s :: ss). cbn [map mapM]. rewrite Es. cbn [bind]. rewrite E1. split; [reflexivity|cbn; lia]. }
  destruct M as [ss [M1 M2]]. destruct (M_Command.solve_all (solve_any finite finite2 n) ss) as [objects e] eqn:S. exists p, rs, objects, e. split; [exact A|]. split; [exact RN|]. split.
  - unfold calculate_line. rewrite R. match goal with |- context [mapM ?f ?l] => replace (mapM f l) with (Ok ss) by (symmetry; exact M1) end. rewrite execute_all, S. reflexivity.
  - destruct (solve_all_spec finite finite2 n ss objects e S) as [F _]. rewrite <- M2. clear - F. induction F; cbn; congruence.
Qed.
Print Assumptions C84_solvers_are_built.

(** calculate always comes to an end, with or without an exception. Without one, every solver with steps from the mesh has
    reached the end time asked for. *)
Theorem C84_calculate_ends : forall parse_int parse_float net net2 newton moving_height random_waves drawn splitext eig linear_solver old finite finite2 line b l,
  eig2_works eig -> finite_words parse_float line ->
  requested parse_int parse_float net net2 newton moving_height random_waves drawn splitext line = Parsed (JCalculate b (Some l)) ->
  exists p rs N objects e, asks parse_int parse_float net net2 newton moving_height random_waves drawn line p b rs /\
    (forall n, (N <= n)%nat ->
       calculate_line parse_int parse_float net net2 newton moving_height random_waves drawn splitext eig linear_solver old finite finite2 n line = Parsed (SolverList objects, e)) /\
    (e = None -> 1 / 10 ^ 12 <= end_given b ->
       Forall2 (fun r o => steps_from_mesh r -> 1 / 10 ^ 12 <= step_asked (domain_of b) r -> end_given b - 1 / 10 ^ 12 < time_shown o <= end_given b) rs objects).
Proof.
  intros parse_int parse_float net net2 newton moving_height random_waves drawn splitext eig ls old finite finite2 line b l HE Fin R.
  destruct (line_asks parse_int parse_float net net2 newton moving_height random_waves drawn splitext line b (Some l) Fin R) as [X|[p [rs [A El]]]]; [discriminate X|]. injection El as ->.
  destruct (asked_proper parse_int parse_float net net2 newton moving_height random_waves drawn splitext line p b rs A) as [PR [RN WW]].
  assert (M : exists starts, mapM (fun o : order => construct eig ls old b (snd o)) (map (ordered net net2 false) rs) = Ok starts /\ Forall2 (fun r s => construct eig ls old b (snd (ordered net net2 false r)) = Ok s) rs starts).
  { clear - HE PR WW. induction WW as [|r rs H WW [ss [E1 E2]]]; [exists []; split; [reflexivity|constructor]|]. destruct (made_ok parse_int parse_float net net2 eig ls old p b r HE PR H) as [s Es].
    exists (s :: ss). cbn [map mapM]. rewrite Es. cbn [bind]. rewrite E1. split; [reflexivity|]. constructor; assumption. }
  destruct M as [ss [M1 M2]]. destruct (runs_end finite finite2 ss) as [N [objects [e H]]].
  assert (Tl : 1 / 10 ^ 12 = tol) by (unfold tol; lra). rewrite Tl.
  assert (Tm : exists N2, tol <= end_given b -> Forall2 (fun r s => steps_from_mesh r -> tol <= step_asked (domain_of b) r -> forall n, (N2 <= n)%nat -> forall o', solve_any finite finite2 n s = (o', None) -> end_given b - tol < time_shown o' <= end_given b) rs ss).
  { destruct (classic (tol <= end_given b)) as [HT|HT]; [|exists 0%nat; intro; contradiction].
    assert (G : exists N2, Forall2 (fun r s => steps_from_mesh r -> tol <= step_asked (domain_of b) r -> forall n, (N2 <= n)%nat -> forall o', solve_any finite finite2 n s = (o', None) -> end_given b - tol < time_shown o' <= end_given b) rs ss);
      [|destruct G as [N2 G]; exists N2; intros _; exact G].
    clear - HT PR WW M2. revert WW. induction M2 as [|r s rs ss Hs M2 IH]; intro WW; [exists 0%nat; constructor|]. inversion WW; subst. destruct (IH ltac:(assumption)) as [N2 F].
    destruct (classic (steps_from_mesh r /\ tol <= step_asked (domain_of b) r)) as [[Q1 Q2]|Q].
    - pose proof (made_paced parse_int parse_float net net2 eig ls old p b r s PR ltac:(assumption) Q1 Hs) as P.
      destruct (run_time finite finite2 s (end_given b) (step_asked (domain_of b) r) P Q2 HT) as [N1 F1].
      exists (N1 + N2)%nat. constructor; [intros _ _ n Hn; apply F1; lia|]. clear - F. induction F as [|x y xs ys Hx F IH]; constructor; [|exact IH]. intros A B n Hn. apply Hx; auto; lia.
    - exists N2. constructor; [intros A B; exfalso; auto|exact F]. }
  destruct Tm as [N2 Tm]. exists p, rs, N, objects, e. split; [exact A|]. split.
  - intros n Hn. unfold calculate_line. rewrite R. match goal with |- context [mapM ?f ?l] => replace (mapM f l) with (Ok ss) by (symmetry; exact M1) end. rewrite execute_all, (H n Hn). reflexivity.
  - intros -> HT. specialize (Tm HT). destruct (solve_all_spec finite finite2 (N + N2) ss objects None (H (N + N2)%nat ltac:(lia))) as [_ F]. specialize (F eq_refl).
    clear - Tm F. revert objects F. induction Tm as [|r s rs ss Hs Tm IH]; intros os F; inversion F; subst; constructor; [|apply IH; assumption]. intros A B. apply (Hs A B (N + N2)%nat ltac:(lia)). assumption.
Qed.
Print Assumptions C84_calculate_ends.

(** Whatever the words: with joined ends or walls the amount of water every solver shows after calculate, also after an exception and
    after any number of steps, is the one of the initial data on the mesh asked for. *)
Theorem C84_water_is_kept : forall parse_int parse_float net net2 newton moving_height random_waves drawn splitext eig linear_solver old finite finite2 line n objects e,
  eig2_works eig -> finite_words parse_float line ->
  calculate_line parse_int parse_float net net2 newton moving_height random_waves drawn splitext eig linear_solver old finite finite2 n line = Parsed (SolverList objects, e) ->
  exists p b rs, asks parse_int parse_float net net2 newton moving_height random_waves drawn line p b rs /\
    forall sb, b = BSw sb -> Forall2 (fun r o => closed_ends sb r ->
      (can_be_shown r -> water_shown o <> None) /\
      forall v, water_shown o = Some v -> amount (bm_domain sb) (map fst v) = start_amount (fun x => fst (bm_initial sb x)) (bm_domain sb) (mesh_asked r)) rs objects.
Proof.
  intros parse_int parse_float net net2 newton moving_height random_waves drawn splitext eig ls old finite finite2 line n objects e HE Fin E.
  destruct (calculated_inv parse_int parse_float net net2 newton moving_height random_waves drawn splitext eig ls old finite finite2 line n objects e Fin E) as [p [b [rs [ss [A [M [S _]]]]]]].
  exists p, b, rs. split; [exact A|]. intros sb ->. destruct (asked_proper parse_int parse_float net net2 newton moving_height random_waves drawn splitext line p _ rs A) as [PR [_ WW]].
  assert (p = M_CommandLine.Swe /\ ia (bm_domain sb) < ib (bm_domain sb)) as [-> HD].
  { destruct p; cbn [proper] in PR; [destruct PR as [u0 [T [X _]]]; discriminate|destruct PR as [T [_ [X|X]]]; discriminate|]. destruct PR as [sb' [nl [nr [X [HD _]]]]]. injection X as <-. auto. }
  destruct (solve_all_spec finite finite2 n ss objects e S) as [F _]. cbn [is_swe] in WW.
  refine (through _ _ _ _ _ _ _ _ WW M F). intros r s o W Ms HO C.
  exact (water_one parse_int parse_float net net2 newton moving_height random_waves drawn splitext eig ls old finite finite2 sb r s n o HE HD C W Ms HO).
Qed.
Print Assumptions C84_water_is_kept.

(** The same for scalar problems: all solvers but the limited finite volume solver conserve what they started with (C70_limited_solver_refuted
    shows that it does not). *)
Theorem C84_mass_is_kept : forall parse_int parse_float net net2 newton moving_height random_waves drawn splitext eig linear_solver old finite finite2 line n objects e,
  eig_ok eig 1 -> eig_ok eig 2 -> (forall k, (0 < k)%nat -> solves linear_solver k) -> finite_words parse_float line ->
  calculate_line parse_int parse_float net net2 newton moving_height random_waves drawn splitext eig linear_solver old finite finite2 n line = Parsed (SolverList objects, e) ->
  exists p b rs, asks parse_int parse_float net net2 newton moving_height random_waves drawn line p b rs /\
    forall sb, b = BScalar sb -> Forall2 (fun r o => forall l, start_mass sb r = Some l ->
      exists v, values_shown o = Some v /\ length v = mesh_asked r /\ amount (sb_domain sb) v = l) rs objects.
Proof.
  intros parse_int parse_float net net2 newton moving_height random_waves drawn splitext eig ls old finite finite2 line n objects e HE1 HE HS Fin E.
  destruct (calculated_inv parse_int parse_float net net2 newton moving_height random_waves drawn splitext eig ls old finite finite2 line n objects e Fin E) as [p [b [rs [ss [A [M [S _]]]]]]].
  exists p, b, rs. split; [exact A|]. intros sb ->. destruct (asked_proper parse_int parse_float net net2 newton moving_height random_waves drawn splitext line p _ rs A) as [PR [_ WW]].
  assert (NS : p <> M_CommandLine.Swe). { intros ->. cbn [proper] in PR. destruct PR as [sb' [nl [nr [X _]]]]. discriminate X. }
  destruct (setting p _ PR NS) as [sb' [X [Hs _]]]. injection X as <-.
  destruct (solve_all_spec finite finite2 n ss objects e S) as [F _]. replace (is_swe (CCalculate p)) with false in WW by (destruct p; reflexivity || congruence).
  refine (through _ _ _ _ _ _ _ _ WW M F). intros r s o W Ms HO l Hl.
  exact (mass_one parse_int parse_float net net2 newton moving_height random_waves drawn splitext eig ls old finite finite2 sb r s n o l HE HE1 HS Hs W Ms HO Hl).
Qed.
Print Assumptions C84_mass_is_kept.

(** Whatever the words: with suitable CFL numbers the values of Lax-Friedrichs and limited solvers of scalar problems stay between the bounds of the
    initial data. *)
Theorem C84_bounds_are_kept : forall parse_int parse_float net net2 newton moving_height random_waves drawn splitext eig linear_solver old finite finite2 line n objects e,
  eig_ok eig 1 -> eig_ok eig 2 -> finite_words parse_float line ->
  calculate_line parse_int parse_float net net2 newton moving_height random_waves drawn splitext eig linear_solver old finite finite2 n line = Parsed (SolverList objects, e) ->
  exists p b rs, asks parse_int parse_float net net2 newton moving_height random_waves drawn line p b rs /\
    forall sb lo hi, b = BScalar sb -> (forall x, ia (sb_domain sb) <= x <= ib (sb_domain sb) -> lo <= sb_initial sb x <= hi) -> (forall v, in_range lo hi v -> finite v = true) ->
    Forall2 (fun r o => keeps_bounds p r -> exists v, values_shown o = Some v /\ length v = mesh_asked r /\ forall x, In x v -> lo <= x <= hi) rs objects.
Proof.
  intros parse_int parse_float net net2 newton moving_height random_waves drawn splitext eig ls old finite finite2 line n objects e HE1 HE Fin E.
  destruct (calculated_inv parse_int parse_float net net2 newton moving_height random_waves drawn splitext eig ls old finite finite2 line n objects e Fin E) as [p [b [rs [ss [A [M [S _]]]]]]].
  exists p, b, rs. split; [exact A|]. intros sb lo hi -> Hu HF. destruct (asked_proper parse_int parse_float net net2 newton moving_height random_waves drawn splitext line p _ rs A) as [PR [_ WW]].
  assert (NS : p <> M_CommandLine.Swe). { intros ->. cbn [proper] in PR. destruct PR as [sb' [nl [nr [X _]]]]. discriminate X. }
  destruct (setting p _ PR NS) as [sb' [X [Hs Hn]]]. injection X as <-.
  destruct (solve_all_spec finite finite2 n ss objects e S) as [F _]. replace (is_swe (CCalculate p)) with false in WW by (destruct p; reflexivity || congruence).
  refine (through _ _ _ _ _ _ _ _ WW M F). intros r s o W Ms HO HB.
  exact (bounds_one parse_int parse_float net net2 newton moving_height random_waves drawn splitext eig ls old finite finite2 p sb r s n o lo hi HE HE1 Hs Hn W HB Hu HF Ms HO).
Qed.
Print Assumptions C84_bounds_are_kept.

(** ** Examples *)
(** "calculate swe -s low-order +m 20 mcl +f low-order": a wave over a periodic bottom, two solvers *)
Definition wave_wishes : list cwish := [Solvers [(Low, [MeshSize 20], [["+m"; "20"]]); (MCL, [FluxOf GLow], [["+f"; "low-order"]])]]%string.
Definition wave_words : list (list string) := [["-s"; "low-order"; "+m"; "20"; "mcl"; "+f"; "low-order"]]%string.
Lemma wave_written (value : string -> Prop) net net2 newton moving_height : (forall w, value_word w -> value w) -> Forall2 (cwritten ex_number ex_float net net2 newton moving_height value (CCalculate Swe)) wave_wishes wave_words.
Proof.
  intro V. unfold wave_wishes, wave_words. repeat (apply Forall2_cons || apply Forall2_nil); cbn [cwritten].
  exists "-s"%string. split; [reflexivity|]. split; [left; reflexivity|]. split; [discriminate|]. split.
  - repeat (apply Forall_cons || apply Forall_nil).
    + split; [eexists; reflexivity|]. split; [|repeat (apply Forall_cons || apply Forall_nil); exact I]. repeat (apply Forall2_cons || apply Forall2_nil).
      exists "+m"%string, "20"%string. split; [reflexivity|]. split; [apply solver_value; exact I|]. split; [left; reflexivity|]. exists 20%Z. split; [reflexivity|]. split; [lia|reflexivity].
    + split; [eexists; reflexivity|]. split; [|repeat (apply Forall_cons || apply Forall_nil); cbn; tauto]. repeat (apply Forall2_cons || apply Forall2_nil).
      exists "+f"%string, "low-order"%string. split; [reflexivity|]. split; [apply solver_value; exact I|]. split; [left; reflexivity|]. do 4 right. left. split; reflexivity.
  - cbn. repeat (apply Forall_cons || apply Forall_nil); apply V, plain_word; exact I.
Qed.
Lemma wave_keys : Forall (no_key_in_values (CCalculate Swe)) wave_wishes.
Proof. unfold wave_wishes. repeat (apply Forall_cons || apply Forall_nil); cbn; auto; repeat (apply Forall_cons || apply Forall_nil); intros f w E; injection E as <- <-; intros F k K; try congruence; destruct k; discriminate. Qed.
Definition wave_line : list string := ["calculate"; "swe"; "-s"; "low-order"; "+m"; "20"; "mcl"; "+f"; "low-order"]%string.
Example C84_water_ex net net2 newton moving_height random_waves drawn splitext : exists sb l,
  finite_words ex_float wave_line /\ requested ex_number ex_float net net2 newton moving_height random_waves drawn splitext wave_line = Parsed (JCalculate (BSw sb) (Some l)) /\
  1 / 10 ^ 12 <= end_given (BSw sb) /\ bm_end sb = 40 /\
  forall p b rs, p = Swe -> b = BSw sb -> requests_of wave_wishes = Some rs ->
    asks ex_number ex_float net net2 newton moving_height random_waves drawn wave_line p b rs /\
    Forall (fun r => closed_ends sb r /\ can_be_shown r /\ steps_from_mesh r /\ 1 / 10 ^ 12 <= step_asked (domain_of b) r) rs.
Proof.
  eexists. eexists. split; [apply ex_finite|]. split.
  { change wave_line with (command_words (CCalculate Swe) ++ List.concat wave_words). apply (C83_everything_granted _ _ _ _ _ _ _ _ _ (CCalculate Swe) wave_wishes wave_words).
    - discriminate.
    - apply wave_written. auto.
    - repeat constructor.
    - exact wave_keys.
    - right. intros [[H|[]]|[z [H|[]]]]; discriminate H.
    - cbn. repeat split.
    - discriminate.
    - reflexivity. }
  split; [change (1 / 10 ^ 12 <= 40); lra|]. split; [reflexivity|]. intros p b rs -> -> Er. split.
  - exists wave_wishes, wave_words. split; [reflexivity|]. split; [apply wave_written; left; assumption|]. split; [repeat constructor|].
    split; [right; intros [[H|[]]|[z [H|[]]]]; discriminate H|]. split; [reflexivity|exact Er].
  - injection Er as <-.
    assert (Nf : forall r, In r [(Low, [MeshSize 20], [["+m"; "20"]]); (MCL, [FluxOf GLow], [["+f"; "low-order"]])]%string -> ~ asks_network r).
    { intros r [<-|[<-|[]]] [H|[H|[H N]]]; try discriminate H. { destruct H as [H|[H|[H|[]]]]; discriminate H. } apply N. exact I. }
    repeat (apply Forall_cons || apply Forall_nil).
    + split; [left; split; [reflexivity|]; intro X; destruct (Nf _ ltac:(left; reflexivity) X)|]. split; [intro X; discriminate X|]. split; [split; discriminate|].
      unfold step_asked. cbn [mesh_asked cfl_asked mesh_of cfl_of chosen]. replace (INR 20) with 20 by (rewrite INR_IZR_INZ; reflexivity). change (1 / 10 ^ 12 <= (100 - 0) / 20 * (1 / 10)). lra.
    + split; [left; split; [reflexivity|]; intro X; destruct (Nf _ ltac:(right; left; reflexivity) X)|]. split; [intro X; discriminate X|]. split; [split; discriminate|].
      unfold step_asked. cbn [mesh_asked cfl_asked mesh_of cfl_of chosen]. replace (INR 400) with 400 by (rewrite INR_IZR_INZ; reflexivity). change (1 / 10 ^ 12 <= (100 - 0) / 400 * (1 / 10)). lra.
Qed.

(** "calculate advection -s llf +m 20 mcl-fem": two hills, two solvers that keep mass and bounds *)
Definition hill_wishes : list cwish := [Solvers [(ScalarLLF, [MeshSize 20], [["+m"; "20"]]); (FEMCL, [], [])]]%string.
Definition hill_words : list (list string) := [["-s"; "llf"; "+m"; "20"; "mcl-fem"]]%string.
Lemma hill_written (value : string -> Prop) net net2 newton moving_height : (forall w, value_word w -> value w) -> Forall2 (cwritten ex_number ex_float net net2 newton moving_height value (CCalculate M_CommandLine.Advection)) hill_wishes hill_words.
Proof.
  intro V. unfold hill_wishes, hill_words. repeat (apply Forall2_cons || apply Forall2_nil); cbn [cwritten].
  exists "-s"%string. split; [reflexivity|]. split; [left; reflexivity|]. split; [discriminate|]. split.
  - repeat (apply Forall_cons || apply Forall_nil).
    + split; [eexists; reflexivity|]. split; [|repeat (apply Forall_cons || apply Forall_nil); exact I]. repeat (apply Forall2_cons || apply Forall2_nil).
      exists "+m"%string, "20"%string. split; [reflexivity|]. split; [apply solver_value; exact I|]. split; [left; reflexivity|]. exists 20%Z. split; [reflexivity|]. split; [lia|reflexivity].
    + split; [eexists; reflexivity|]. split; constructor.
  - cbn. repeat (apply Forall_cons || apply Forall_nil); apply V, plain_word; exact I.
Qed.
Lemma hill_keys : Forall (no_key_in_values (CCalculate M_CommandLine.Advection)) hill_wishes.
Proof. unfold hill_wishes. repeat (apply Forall_cons || apply Forall_nil); cbn; auto; repeat (apply Forall_cons || apply Forall_nil); intros f w E; injection E as <- <-; intros F k K; try congruence; destruct k; discriminate. Qed.
Definition hill_line : list string := ["calculate"; "advection"; "-s"; "llf"; "+m"; "20"; "mcl-fem"]%string.
Example C84_scalar_ex net net2 newton moving_height random_waves drawn splitext linear_solver old finite finite2 n : exists eig sb l objects e,
  eig_ok eig 1 /\ eig_ok eig 2 /\ finite_words ex_float hill_line /\ requested ex_number ex_float net net2 newton moving_height random_waves drawn splitext hill_line = Parsed (JCalculate (BScalar sb) (Some l)) /\
  calculate_line ex_number ex_float net net2 newton moving_height random_waves drawn splitext eig linear_solver old finite finite2 n hill_line = Parsed (SolverList objects, e) /\
  length objects = 2%nat /\ (forall x, ia (sb_domain sb) <= x <= ib (sb_domain sb) -> 0 <= sb_initial sb x <= 1) /\
  forall p b rs, p = M_CommandLine.Advection -> b = BScalar sb -> requests_of hill_wishes = Some rs ->
    asks ex_number ex_float net net2 newton moving_height random_waves drawn hill_line p b rs /\ Forall (fun r => keeps_bounds p r /\ start_mass sb r <> None) rs.
Proof.
  destruct (P_Gauss.C43_decomposition_exists 2) as [eig HE]. assert (HE2 : eig2_works eig) by (apply HE; lia).
  assert (Rq : exists l, length l = 2%nat /\ requested ex_number ex_float net net2 newton moving_height random_waves drawn splitext hill_line = Parsed (JCalculate (start_benchmark (CCalculate M_CommandLine.Advection)) (Some l))).
  { eexists. split; [|change hill_line with (command_words (CCalculate M_CommandLine.Advection) ++ List.concat hill_words); apply (C83_everything_granted _ _ _ _ _ _ _ _ _ (CCalculate M_CommandLine.Advection) hill_wishes hill_words);
      [discriminate|apply hill_written; auto|repeat constructor| |right; intros [[H|[]]|[z [H|[]]]]; discriminate H|cbn; repeat split|discriminate|cbn; reflexivity]].
    - reflexivity.
    - exact hill_keys. }
  destruct Rq as [l [Ll Rq]].
  destruct (line_asks ex_number ex_float net net2 newton moving_height random_waves drawn splitext hill_line _ (Some l) (ex_finite _) Rq) as [X|[p' [rs' [_ El]]]]; [discriminate X|].
  destruct (C84_solvers_are_built ex_number ex_float net net2 newton moving_height random_waves drawn splitext eig linear_solver old finite finite2 hill_line n _ l HE2 (ex_finite _) Rq) as [p [rs [objects [e [A [_ [E L]]]]]]].
  exists eig, (advection_benchmark two_hills 1), l, objects, e. split; [apply HE; lia|]. split; [exact HE2|]. split; [apply ex_finite|]. split; [exact Rq|]. split; [exact E|]. split.
  { destruct (calculated_inv ex_number ex_float net net2 newton moving_height random_waves drawn splitext eig linear_solver old finite finite2 hill_line n objects e (ex_finite _) E) as [p2 [b2 [rs2 [ss [_ [M [S R2]]]]]]].
    rewrite Rq in R2. injection R2 as _ R2. destruct (solve_all_spec finite finite2 n ss objects e S) as [F _].
    assert (length ss = length objects) by (clear - F; induction F; cbn; congruence). assert (length rs2 = length ss) by (clear - M; induction M; cbn; congruence).
    apply (f_equal (@length _)) in R2. rewrite map_length in R2. lia. }
  split.
  { intros x _. apply (P_Benchmark.C49_advection_data two_hills 0). left. split; [right; left; reflexivity|reflexivity]. }
  intros p1 b1 rs1 -> -> Er. split.
  - exists hill_wishes, hill_words. split; [reflexivity|]. split; [apply hill_written; left; assumption|]. split; [repeat constructor|].
    split; [right; intros [[H|[]]|[z [H|[]]]]; discriminate H|]. split; [reflexivity|exact Er].
  - injection Er as <-. repeat (apply Forall_cons || apply Forall_nil); (split; [|discriminate]).
    + left. split; [reflexivity|]. left. split; [reflexivity|]. cbn [cfl_asked cfl_of chosen]. lra.
    + right. split; [right; reflexivity|]. cbn [cfl_asked mesh_asked cfl_of mesh_of chosen]. split; [lra|lia].
Qed.

(** one solver for systems of all sizes *)
Example C84_linear_solver_ex : exists linear_solver, forall k, (0 < k)%nat -> solves linear_solver k.
Proof.
  exists (fun M b => tab (length b) (L_Solve.eliminate (length b) M (fun i => nth i b 0))). intros k _ M b HM HB. rewrite HB. split; [apply tab_length|].
  intros i Hi. rewrite <- (L_Solve.definite_solution k M (fun i => nth i b 0) HM i Hi). unfold row. f_equal. apply tab_ext. intros j Hj. rewrite nth_tab by auto. reflexivity.
Qed.
