(** Lemmas about calculate: from the line to the solvers and their runs. *)
From Coq Require Import String Ascii Reals List Arith ZArith Bool Lia Lra.
From Verif Require Import Prelude L_Prelude M_Mesh L_Mesh M_Quadrature S_Quadrature M_Interpolate M_Boundary S_Boundary M_Flux L_Flux
  M_ODE S_ODE M_TimeStepping L_TimeStepping M_Coarsener M_Solution M_Solver S_Solver L_Solver M_Generate M_Scalar L_Scalar M_ShallowWater S_ShallowWater M_FVSolver S_FVSolver L_FVSolver
  M_Benchmark M_ScalarSolver S_ScalarSolver M_Misc P_FVWater P_FVLake P_ScalarSolver P_FESolver M_Command M_Series M_Parser S_Parser P_Parser M_CommandLine S_CommandLine L_CommandLine P_CommandLine P_CommandRun S_CommandRun.
Import ListNotations.
Open Scope R_scope.
Notation length := List.length.

(** ** Loops over a time stepping *)
Section Loop.
Context {W : Type} (time gen : W -> R) (update : R -> W -> W * option exn) (T : R).
Fixpoint loop (n : nat) (w : W) (s : ts_state) : W * ts_state * M_Solver.outcome :=
  match n with
  | O => (w, s, Interrupted)
  | S n' =>
      match ts_next T (gen w) s with
      | StopIter => (w, s, Completed)
      | TooSmall => (w, s, TooSmallWarning)
      | Yield dt s' => match update dt w with (w', None) => loop n' w' s' | (w', Some e) => (w', s', RaisedExn e) end
      end
  end.
Lemma next_yield g s dt s' : ts_next T g s = Yield dt s' -> ts_stop s = false /\ tol <= dt /\ ts_time s + dt <= T /\
  (ts_stop s' = true /\ T - (ts_time s + dt) < tol \/ ts_stop s' = false /\ ts_time s' = ts_time s + dt /\ tol <= T - ts_time s').
Proof.
  unfold ts_next. destruct (ts_stop s); [discriminate|]. pose proof (Rmin_r g (T - ts_time s)). set (d := Rmin g (T - ts_time s)) in *.
  destruct (Rltb_spec d tol); [discriminate|]. destruct (Rltb_spec (T - (ts_time s + d)) tol); intro E; injection E as <- <-; cbn [ts_stop ts_time].
  - split; [reflexivity|]. split; [lra|]. split; [lra|]. left. auto.
  - split; [reflexivity|]. split; [lra|]. split; [lra|]. right. split; [reflexivity|]. split; [reflexivity|]. lra.
Qed.
Lemma loop_ends : forall w s, exists N w' s' st, st <> Interrupted /\ forall n, (N <= n)%nat -> loop n w s = (w', s', st).
Proof.
  assert (G : forall K w s, ts_stop s = true \/ T - ts_time s < INR K * tol -> exists w' s' st, st <> Interrupted /\ forall n, (S K <= n)%nat -> loop n w s = (w', s', st)).
  { induction K as [|K IH]; intros w s H.
    - destruct (ts_next T (gen w) s) as [dt s'| |] eqn:E.
      + exfalso. destruct (next_yield _ _ _ _ E) as [E1 [E2 [E3 _]]]. destruct H as [H|H]; [congruence|]. cbn in H. pose proof tol_pos. lra.
      + exists w, s, Completed. split; [discriminate|]. intros [|n] Hn; [lia|]. cbn [loop]. rewrite E. reflexivity.
      + exists w, s, TooSmallWarning. split; [discriminate|]. intros [|n] Hn; [lia|]. cbn [loop]. rewrite E. reflexivity.
    - destruct (ts_next T (gen w) s) as [dt s'| |] eqn:E.
      + destruct (next_yield _ _ _ _ E) as [E1 [E2 [E3 E4]]]. destruct (update dt w) as [w1 [e|]] eqn:U.
        * exists w1, s', (RaisedExn e). split; [discriminate|]. intros [|n] Hn; [lia|]. cbn [loop]. rewrite E, U. reflexivity.
        * destruct (IH w1 s') as [w' [s2 [st [Q1 Q2]]]].
          { destruct E4 as [[E4 _]|[_ [E4 _]]]; [left; exact E4|right]. rewrite E4. destruct H as [H|H]; [congruence|]. rewrite S_INR in H. lra. }
          exists w', s2, st. split; [exact Q1|]. intros [|n] Hn; [lia|]. cbn [loop]. rewrite E, U. apply Q2. lia.
      + exists w, s, Completed. split; [discriminate|]. intros [|n] Hn; [lia|]. cbn [loop]. rewrite E. reflexivity.
      + exists w, s, TooSmallWarning. split; [discriminate|]. intros [|n] Hn; [lia|]. cbn [loop]. rewrite E. reflexivity. }
  intros w s. destruct (archimed_cor1 (tol / (Rabs (T - ts_time s) + 1))) as [K [H1 H2]].
  { pose proof tol_pos. pose proof (Rabs_pos (T - ts_time s)). apply Rdiv_lt_0_compat; lra. }
  destruct (G K w s) as [w' [s' [st [Q1 Q2]]]]; [right|exists (S K), w', s', st; auto].
  pose proof tol_pos. pose proof (Rabs_pos (T - ts_time s)). pose proof (Rle_abs (T - ts_time s)). assert (0 < INR K) by (apply lt_0_INR; lia).
  apply (Rmult_lt_compat_l (INR K)) in H1; [|assumption]. rewrite Rinv_r in H1 by lra.
  apply (Rmult_lt_compat_r (Rabs (T - ts_time s) + 1)) in H1; [|lra]. replace (INR K * (tol / (Rabs (T - ts_time s) + 1)) * (Rabs (T - ts_time s) + 1)) with (INR K * tol) in H1 by (field; lra). lra.
Qed.
Lemma loop_time : (forall dt w w', update dt w = (w', None) -> time w' = time w + dt) -> forall n w s w' s', ts_stop s = false -> loop n w s = (w', s', Completed) ->
  T - tol < time w' - time w + ts_time s <= T.
Proof.
  intros HU. induction n as [|n IH]; intros w s w' s' S E; [discriminate|]. cbn [loop] in E. destruct (ts_next T (gen w) s) as [dt s1| |] eqn:X; try discriminate E.
  - destruct (update dt w) as [w1 [e|]] eqn:U; [discriminate|]. destruct (next_yield _ _ _ _ X) as [E1 [E2 [E3 E4]]]. pose proof (HU _ _ _ U) as T1.
    destruct E4 as [[E4 E5]|[E4 [E5 _]]].
    + destruct n as [|n]; [discriminate|]. cbn [loop] in E. unfold ts_next in E. rewrite E4 in E. injection E as <- <-. lra.
    + pose proof (IH w1 s1 w' s' E4 E). lra.
  - unfold ts_next in X. rewrite S in X. destruct (Rltb _ _); [discriminate|]. destruct (Rltb _ _); discriminate.
Qed.
Lemma loop_not_small : (forall w, tol <= gen w) -> forall n w s w' s' st, ts_stop s = true \/ tol <= T - ts_time s -> loop n w s = (w', s', st) -> st <> TooSmallWarning.
Proof.
  intros HG. induction n as [|n IH]; intros w s w' s' st S E; [injection E as <- <- <-; discriminate|]. cbn [loop] in E. destruct (ts_next T (gen w) s) as [dt s1| |] eqn:X.
  - destruct (update dt w) as [w1 [e|]] eqn:U; [injection E as <- <- <-; discriminate|]. destruct (next_yield _ _ _ _ X) as [E1 [E2 [E3 E4]]].
    apply (IH w1 s1 w' s' st); [|exact E]. destruct E4 as [[E4 _]|[_ [_ E4]]]; auto.
  - injection E as <- <- <-. discriminate.
  - exfalso. unfold ts_next in X. destruct (ts_stop s) eqn:Q; [discriminate|]. destruct S as [S|S]; [discriminate|]. pose proof (HG w).
    destruct (Rltb_spec (Rmin (gen w) (T - ts_time s)) tol) as [L|L]; [|destruct (Rltb _ _); discriminate]. unfold Rmin in L. destruct Rle_dec; lra.
Qed.
End Loop.
Lemma solve_loop_is {V} `{VecOps V} fin c : forall n (w : world V) s,
  solve_loop fin c n w s = loop (fun w => call_generator (c_gen c) (w_sol_time w, w_mem w (w_sol w))) (solver_update fin c) (c_end c) n w s.
Proof. induction n as [|n IH]; intros w s; [reflexivity|]. cbn [solve_loop loop]. destruct (ts_next _ _ s); try reflexivity. destruct (solver_update fin c step w) as [w' [e|]]; [reflexivity|apply IH]. Qed.
Lemma lw_loop_is fin c : forall n w s,
  lw_loop fin c n w s = loop (fun w => call_generator (c_gen (c 0)) (w_sol_time w, w_mem w (w_sol w))) (fun dt => solver_update fin (c dt) dt) (c_end (c 0)) n w s.
Proof. induction n as [|n IH]; intros w s; [reflexivity|]. cbn [lw_loop loop]. destruct (ts_next _ _ s); try reflexivity. destruct (solver_update fin (c step) step w) as [w' [e|]]; [reflexivity|apply IH]. Qed.
Lemma coarse_loop_is fin c h d : forall n w s,
  coarse_loop fin c h d n w s = loop (fun w => call_generator (c_gen c) (w_sol_time (cw_fine w), w_mem (cw_fine w) (w_sol (cw_fine w)))) (coarse_update fin c h d) (c_end c) n w s.
Proof. induction n as [|n IH]; intros w s; [reflexivity|]. cbn [coarse_loop loop]. destruct (ts_next _ _ s); try reflexivity. destruct (coarse_update fin c h d step w) as [w' [e|]]; [reflexivity|apply IH]. Qed.
Lemma update_time {V} `{VecOps V} fin c dt (w w' : world V) : solver_update fin c dt w = (w', None) -> w_sol_time w' = w_sol_time w + dt.
Proof.
  unfold solver_update, ode_execute, sol_update. intro E. match type of E with context [foldM ?f ?l ?a] => destruct (foldM f l a) as [[[nodes stages] ks]|e] end; cbn [bind] in E; [|discriminate].
  destruct (check_cfl c dt nodes stages) as [b|e]; [|discriminate]. destruct (fin _); [|discriminate]. injection E as <-. reflexivity.
Qed.
Lemma coarse_time fin c h d dt w w' : coarse_update fin c h d dt w = (w', None) -> w_sol_time (cw_fine w') = w_sol_time (cw_fine w) + dt.
Proof.
  unfold coarse_update, ode_execute, coarse_sol_update, sol_update. intro E. match type of E with context [foldM ?f ?l ?a] => destruct (foldM f l a) as [[[nodes stages] ks]|e] end; cbn [bind] in E; [|discriminate].
  destruct (check_cfl c dt nodes stages) as [b|e]; [|discriminate]. cbn [cw_fine cw_times cw_values] in E. destruct (fin _); [|discriminate].
  destruct h; [destruct (coarsen _ _); [|discriminate]|]; injection E as <-; reflexivity.
Qed.

Section Lines.
Context (parse_int : string -> option Z) (parse_float : string -> option pyfloat) (net net2 : list state -> state).
Context (newton : (R -> R) -> R -> result R) (moving_height : R -> R) (random_waves : Z -> oscillation) (drawn : Z) (splitext : string -> string * string).
Notation request_line := (requested parse_int parse_float net net2 newton moving_height random_waves drawn splitext).
Notation job_for := (expected_job net net2 random_waves drawn splitext).
Notation asking := (asks parse_int parse_float net net2 newton moving_height random_waves drawn).
Notation order_of := (ordered net net2 false).

(** the benchmarks of calculate *)
Definition proper (p : problem_name) (b : any_benchmark) : Prop :=
  match p with
  | Advection => exists u0 T, b = BScalar (advection_benchmark u0 T) /\ 0 < T /\ (u0 = three_hills \/ u0 = two_hills \/ u0 = one_hill \/ u0 = cosine \/ u0 = gaussian_bell)
  | Burgers => exists T, 0 < T /\ (b = BScalar (burgers_benchmark (shock_benchmark T)) \/ b = BScalar (burgers_benchmark (smooth_benchmark T)))
  | Swe => exists sb nl nr, b = BSw sb /\ ia (bm_domain sb) < ib (bm_domain sb) /\ bm_start sb = 0 /\ 0 < bm_end sb /\ side_names (bm_conditions sb) nl nr /\
      In nl ["periodic"; "wall"; "outflow"; "inflow"]%string /\ In nr ["periodic"; "wall"; "outflow"; "inflow"]%string
  end.
Lemma named_proper p key b : named_benchmark newton moving_height p key b -> proper p b.
Proof.
  destruct p; cbn [named_benchmark proper].
  - intros [f [-> H]]. exists f, 1. split; [reflexivity|]. split; [lra|]. tauto.
  - intros [[_ ->]|[_ ->]]; exists burgers_default_end; (split; [unfold burgers_default_end; lra|]); tauto.
  - intro H.
    assert (P : forall a e T nm nm' ini bot g, a < e -> 0 < T -> In nm ["periodic"; "wall"; "outflow"; "inflow"]%string -> nm' = [nm] \/ nm' = [nm; nm] -> b = pool a e T nm' ini bot g ->
      exists sb nl nr, b = BSw sb /\ ia (bm_domain sb) < ib (bm_domain sb) /\ bm_start sb = 0 /\ 0 < bm_end sb /\ side_names (bm_conditions sb) nl nr /\
      In nl ["periodic"; "wall"; "outflow"; "inflow"]%string /\ In nr ["periodic"; "wall"; "outflow"; "inflow"]%string).
    { intros a e T nm nm' ini bot g H1 H2 H3 H4 ->. eexists. exists nm, nm. split; [reflexivity|]. cbn [bm_domain bm_start bm_end bm_conditions ia ib]. repeat (split; [assumption || reflexivity|]).
      split; [|tauto]. destruct H4 as [-> | ->]; split; reflexivity. }
    repeat match type of H with _ \/ _ => destruct H as [H|H] end;
    match type of H with
    | _ /\ (exists d, _) => destruct H as [_ [d [_ H]]]
    | _ => destruct H as [_ H]
    end;
    try (eapply (P _ _ _ "periodic"%string); [| | | |exact H]; [lra|lra|cbn; tauto|tauto]);
    try (eapply (P _ _ _ "outflow"%string); [| | | |exact H]; [lra|lra|cbn; tauto|tauto]);
    try (eapply (P _ _ _ "wall"%string); [| | | |exact H]; [lra|lra|cbn; tauto|tauto]).
    eexists. exists "inflow"%string, "wall"%string. split; [exact H|]. cbn. repeat (split; [lra|]). tauto.
Qed.
Lemma random_proper z : proper Swe (random_pool random_waves z).
Proof. eexists. exists "periodic"%string, "periodic"%string. split; [reflexivity|]. cbn. repeat (split; [lra|]). tauto. Qed.
Lemma start_proper p : proper p (start_benchmark (CCalculate p)).
Proof.
  destruct p; cbn [start_benchmark proper].
  - exists two_hills, 1. split; [reflexivity|]. split; [lra|tauto].
  - exists burgers_default_end. split; [unfold burgers_default_end; lra|tauto].
  - eexists. exists "periodic"%string, "periodic"%string. split; [reflexivity|]. cbn. repeat (split; [lra|]). tauto.
Qed.
Lemma end_proper p b t : proper p b -> (forall x, t = Some x -> 0 < x) -> proper p (end_of b t).
Proof.
  intros H T. destruct t as [t|]; [|exact H]. specialize (T t eq_refl). destruct p; cbn [proper] in *.
  - destruct H as [u0 [T0 [-> [_ H]]]]. exists u0, t. auto.
  - destruct H as [T0 [_ [-> | ->]]]; exists t; auto.
  - destruct H as [sb [nl [nr [-> H]]]]. eexists. exists nl, nr. split; [reflexivity|]. cbn [bm_domain bm_start bm_end bm_conditions]. tauto.
Qed.
Lemma asked_proper line p b rs : asking line p b rs -> proper p b /\ rs <> [] /\ Forall (well_written parse_int parse_float net net2 (is_swe (CCalculate p))) rs.
Proof.
  intros [xs [wss [_ [W [O [_ [-> Er]]]]]]]. pose proof (written_sound parse_int parse_float net net2 newton moving_height any_word _ _ _ W) as [S1 [_ S3]].
  assert (In_w : forall x, In x xs -> exists ws, cwritten parse_int parse_float net net2 newton moving_height any_word (CCalculate p) x ws).
  { clear - W. induction W as [|x v ws wss H W IH]; intros y []; [subst; eauto|apply IH; assumption]. }
  split; [|split].
  - apply end_proper; [|exact S1]. unfold benchmark_of.
    set (st := start_benchmark (CCalculate p)). assert (Hst : proper p st) by (apply start_proper). clearbody st.
    destruct (last_in (fun x => match x with Benchmark b => Some b | Seed z => Some (random_pool random_waves z) | AnySeed => Some (random_pool random_waves drawn) | _ => None end) xs st) as [->|[x [Hx X]]]; [exact Hst|].
    rewrite Forall_forall in O. pose proof (O x Hx) as Ox. destruct x; try discriminate X; injection X as <-.
    + destruct (In_w _ Hx) as [ws [f [w [_ [_ [_ N]]]]]]. eapply named_proper. exact N.
    + destruct p; try contradiction. apply random_proper.
    + destruct p; try contradiction. apply random_proper.
  - unfold requests_of in Er. destruct (last_in (fun x => match x with Solvers rs => Some (Some rs) | _ => None end) xs None) as [X|[x [Hx X]]]; [congruence|].
    rewrite Er in X. destruct x; try discriminate X. injection X as ->. destruct (In_w _ Hx) as [ws [f [_ [_ [H _]]]]]. exact H.
  - exact (S3 rs Er).
Qed.

(** ** From the line to the solvers *)
Context (eig : nat -> (nat -> nat -> R) -> (nat -> R) * (nat -> nat -> R)) (linear_solver : M_Misc.mat -> list R -> list R) (old : nat -> R).
Context (finite : list R -> bool) (finite2 : list state -> bool).
Notation calculated := (calculate_line parse_int parse_float net net2 newton moving_height random_waves drawn splitext eig linear_solver old finite finite2).
Notation made := (construct eig linear_solver old).
Notation run := (solve_any finite finite2).

Lemma solve_all_spec n : forall starts objects e, M_Command.solve_all (run n) starts = (objects, e) ->
  Forall2 (fun s o => o = s \/ o = fst (run n s)) starts objects /\ (e = None -> Forall2 (fun s o => run n s = (o, None)) starts objects).
Proof.
  induction starts as [|s starts IH]; intros objects e E; cbn [M_Command.solve_all] in E; [injection E as <- <-; split; constructor|].
  destruct (run n s) as [s' [e'|]] eqn:R.
  - injection E as <- <-. split; [|discriminate]. constructor; [right; rewrite R; reflexivity|]. clear. induction starts; constructor; auto.
  - destruct (M_Command.solve_all (run n) starts) as [l r]. injection E as <- <-. destruct (IH l r eq_refl) as [I1 I2]. split.
    + constructor; [right; rewrite R; reflexivity|exact I1].
    + intros ->. constructor; [exact R|apply I2; reflexivity].
Qed.
Lemma execute_all n objects : calculate_execute (run n) (SolverList objects) = let '(l, r) := M_Command.solve_all (run n) objects in (SolverList l, r).
Proof.
  destruct objects as [|o [|o2 os]]; try reflexivity. cbn [calculate_execute M_Command.solve_all]. destruct (run n o) as [o' [e|]]; reflexivity.
Qed.
Lemma mapM_made b : forall (l : list order) starts, mapM (fun o : order => made b (snd o)) l = Ok starts -> Forall2 (fun o s => made b (snd o) = Ok s) l starts.
Proof.
  induction l as [|o l IH]; intros starts E; cbn [mapM] in E; [apply Ok_inj in E; subst; constructor|].
  destruct (made b (snd o)) as [s|e] eqn:M; [|discriminate]. cbn [bind] in E. destruct (mapM (fun o : order => made b (snd o)) l) as [ss|e] eqn:M2; [|discriminate].
  cbn [bind] in E. apply Ok_inj in E. subst. constructor; [exact M|apply IH; reflexivity].
Qed.
Lemma line_asks line b l : finite_words parse_float line -> request_line line = Parsed (JCalculate b l) ->
  l = None \/ exists p rs, asking line p b rs /\ l = Some (map order_of rs).
Proof.
  intros Fin R. destruct (C83_nothing_ignored parse_int parse_float net net2 newton moving_height random_waves drawn splitext line _ Fin R) as [c [xs [wss [_ [E1 [E2 [E3 [E4 [_ E6]]]]]]]]].
  destruct c as [p|p|p|p| | |]; cbn [expected_job] in E6; try discriminate E6;
    try (destruct (requests_of xs); discriminate E6);
    try (destruct (requests_of xs) as [[|r1 [|r2 [|r3 rs]]]|]; try discriminate E6; repeat match type of E6 with match ?x with _ => _ end = _ => destruct x; try discriminate E6 end; discriminate E6);
    try (destruct (requests_of xs) as [[|r1 [|r2 [|r3 rs]]]|]; try discriminate E6; unfold option_map in E6; repeat match type of E6 with context [match ?x with _ => _ end] => destruct x; try discriminate E6 end; discriminate E6).
  injection E6 as <- <-. destruct (requests_of xs) as [rs|] eqn:Er; [right|left; reflexivity]. exists p, rs. split; [|reflexivity].
  exists xs, wss. auto 10.
Qed.
Lemma calculated_inv line n objects e : finite_words parse_float line -> calculated n line = Parsed (SolverList objects, e) ->
  exists p b rs starts, asking line p b rs /\ Forall2 (fun r s => made b (snd (order_of r)) = Ok s) rs starts /\ M_Command.solve_all (run n) starts = (objects, e) /\
    request_line line = Parsed (JCalculate b (Some (map order_of rs))).
Proof.
  intros Fin E. unfold calculate_line in E. destruct (request_line line) as [j|s l|x|] eqn:R; try discriminate E.
  destruct j as [b l| | | | | |]; try discriminate E. destruct (line_asks line b l Fin R) as [->|[p [rs [A ->]]]]; [discriminate E|].
  match type of E with context [mapM ?f ?l] => destruct (mapM f l) as [starts|x] eqn:M end; [|discriminate E].
  rewrite execute_all in E. destruct (M_Command.solve_all (run n) starts) as [l r] eqn:S. injection E as <- <-.
  exists p, b, rs, starts. split; [exact A|]. split; [|split; [exact S|reflexivity]]. apply mapM_made in M. clear - M. revert starts M. induction rs as [|r rs IH]; intros starts M; inversion M; subst; constructor; auto.
Qed.

(** *** every solver can be built *)
Lemma mesh_written r : well_written parse_int parse_float net net2 true r \/ well_written parse_int parse_float net net2 false r -> (0 < mesh_asked r)%nat /\ 0 < cfl_asked r.
Proof.
  destruct r as [[k ws] wss]. intro H. assert (W : Forall2 (written parse_int parse_float net net2) ws wss) by (destruct H as [[_ [H _]]|[_ [H _]]]; exact H). clear H.
  assert (In_w : forall x, In x ws -> exists v, written parse_int parse_float net net2 x v).
  { clear - W. induction W as [|x v ws wss H W IH]; intros y []; [subst; eauto|apply IH; assumption]. }
  unfold mesh_asked, cfl_asked. set (d1 := match k with ReducedLLF | ReducedLLF2 => 50%nat | _ => 400%nat end). set (d2 := match k with ReducedLLF => 1 / 10 / 8 | ReducedLLF2 => 1 / 10 / 40 | CGLow | FEMCL => 1 | _ => 1 / 10 end).
  assert (P1 : (0 < d1)%nat) by (unfold d1; destruct k; lia). assert (P2 : 0 < d2) by (unfold d2; destruct k; lra). clearbody d1 d2. split.
  - unfold mesh_of. destruct (chosen_in (fun x => match x with MeshSize n => Some n | _ => None end) ws d1) as [->|[x [Hx P]]]; [lia|].
    destruct x; try discriminate P. injection P as <-. destruct (In_w _ Hx) as [v [f [w [_ [_ [_ [z [_ [Z ->]]]]]]]]]. lia.
  - unfold cfl_of. destruct (chosen_in (fun x => match x with Cfl c => Some c | _ => None end) ws d2) as [->|[x [Hx P]]]; [lra|].
    destruct x; try discriminate P. injection P as <-. destruct (In_w _ Hx) as [v [f [w [_ [_ [_ [_ Z]]]]]]]. exact Z.
Qed.
(** what is built: for the shallow water equations with a scheme, Lax-Wendroff or coarsened *)
Lemma swe_call r : well_written parse_int parse_float net net2 true r -> exists T,
  (exists g, snd (order_of r) = SW g (fv (mesh_asked r) (cfl_asked r) T false)) \/
  snd (order_of r) = SWLaxWendroff (fv (mesh_asked r) (cfl_asked r) T false) \/
  exists g d, snd (order_of r) = SWCoarse g (fv (mesh_asked r) (cfl_asked r) T false) d.
Proof.
  destruct r as [[k ws] wss]. intros [[key K] _]. destruct k; try discriminate K; cbn [ordered expected snd mesh_asked cfl_asked]; eexists;
  ((left; eexists; reflexivity) || (right; left; reflexivity) || (right; right; eexists; eexists; reflexivity)).
Qed.
Lemma scalar_call r : well_written parse_int parse_float net net2 false r -> exists T,
  (exists g, snd (order_of r) = ScalarFV g (fv (mesh_asked r) (cfl_asked r) T false)) \/
  exists k, snd (order_of r) = ScalarFE k (fe (mesh_asked r) (cfl_asked r) T false).
Proof.
  destruct r as [[k ws] wss]. intros [[key K] _]. destruct k; try discriminate K; cbn [ordered expected snd mesh_asked cfl_asked]; eexists;
  ((left; eexists; reflexivity) || (right; eexists; reflexivity)).
Qed.
Lemma made_ok p b r : eig2_works eig -> proper p b -> well_written parse_int parse_float net net2 (is_swe (CCalculate p)) r -> exists s, made b (snd (order_of r)) = Ok s.
Proof.
  intros HE HP HW. destruct p; cbn [is_swe proper] in *.
  - destruct HP as [u0 [T [-> _]]]. destruct (scalar_call r HW) as [M [[g ->]|[k ->]]]; cbn [construct].
    + destruct (C69_scalar_solvers_can_be_built eig g (advection_benchmark u0 T) (fv (mesh_asked r) (cfl_asked r) M false) M_Scalar.Advection "periodic" "periodic" HE) as [c [w [-> _]]]; cbn; eauto; try tauto. lra.
    + destruct (C71_fe_solvers_can_be_built eig linear_solver old k (advection_benchmark u0 T) (fe (mesh_asked r) (cfl_asked r) M false) M_FE.Advection) as [c [w [-> _]]]; cbn; eauto. lra.
  - destruct HP as [T [_ HB]]. assert (HB' : exists bb, b = BScalar (burgers_benchmark bb) /\ ia (b_domain bb) < ib (b_domain bb)).
    { destruct HB as [-> | ->]; eexists; (split; [reflexivity|]); cbn; [lra|]. pose proof PI_RGT_0. lra. }
    clear HB. destruct HB' as [bb [-> HD]]. destruct (scalar_call r HW) as [M [[g ->]|[k ->]]]; cbn [construct].
    + destruct (C69_scalar_solvers_can_be_built eig g (burgers_benchmark bb) (fv (mesh_asked r) (cfl_asked r) M false) M_Scalar.Burgers "periodic" "periodic" HE) as [c [w [-> _]]]; cbn; eauto; tauto.
    + destruct (C71_fe_solvers_can_be_built eig linear_solver old k (burgers_benchmark bb) (fe (mesh_asked r) (cfl_asked r) M false) M_FE.Burgers) as [c [w [-> _]]]; cbn; eauto.
  - destruct HP as [sb [nl [nr [-> [HD [_ [_ [SN [S1 S2]]]]]]]]].
    destruct (swe_call r HW) as [M [[g ->]|[->|[g [d ->]]]]]; cbn [construct].
    + destruct (C64_solvers_can_be_built eig g sb (fv (mesh_asked r) (cfl_asked r) M false) nl nr HE HD SN S1 S2) as [c [w [-> _]]]. cbn [bind]. eauto.
    + destruct (C64_solvers_can_be_built eig GLow sb (fv (mesh_asked r) (cfl_asked r) M false) nl nr HE HD SN S1 S2) as [c [w [E _]]].
      destruct (sw_solver_inv _ _ _ _ _ _ E) as [m [u [nf [bc [F1 _]]]]]. unfold lw_solver. rewrite F1. cbn [bind].
      destruct (boundary_exists sb 1 nl nr ltac:(lia) SN S1 S2) as [bc' ->]. cbn [bind]. eauto.
    + unfold coarse_solver. destruct (C64_solvers_can_be_built eig g sb {| a_mesh_size := a_mesh_size (fv (mesh_asked r) (cfl_asked r) M false); a_cfl := a_cfl (fv (mesh_asked r) (cfl_asked r) M false);
        a_ode := a_ode (fv (mesh_asked r) (cfl_asked r) M false); a_history := false |} nl nr HE HD SN S1 S2) as [c [w [-> _]]]. cbn [bind fv a_history]. eauto.
Qed.

(** *** every run ends *)
Lemma run_ends o : exists N o' e, forall n, (N <= n)%nat -> run n o = (o', e).
Proof.
  destruct o as [[c w]|[c w]|[c w]|[[c d] w] h]; cbn [solve_any].
  - unfold M_Solver.solve. destruct (tqdm_len c w) as [q|e]; [|exists 0%nat, (Scalar (c, w)), (Some e); reflexivity].
    destruct (loop_ends (fun w => call_generator (c_gen c) (w_sol_time w, w_mem w (w_sol w))) (solver_update finite c) (c_end c) w (ts_iter (c_start c))) as [N [w' [s' [st [_ H]]]]].
    exists N, (Scalar (c, w')), (exception_of st). intros n Hn. rewrite solve_loop_is, H by exact Hn. reflexivity.
  - unfold M_Solver.solve. destruct (tqdm_len c w) as [q|e]; [|exists 0%nat, (Water (c, w)), (Some e); reflexivity].
    destruct (loop_ends (fun w => call_generator (c_gen c) (w_sol_time w, w_mem w (w_sol w))) (solver_update finite2 c) (c_end c) w (ts_iter (c_start c))) as [N [w' [s' [st [_ H]]]]].
    exists N, (Water (c, w')), (exception_of st). intros n Hn. rewrite solve_loop_is, H by exact Hn. reflexivity.
  - unfold lw_solve. destruct (tqdm_len (c 0) w) as [q|e]; [|exists 0%nat, (Wendroff (c, w)), (Some e); reflexivity].
    destruct (loop_ends (fun w => call_generator (c_gen (c 0)) (w_sol_time w, w_mem w (w_sol w))) (fun dt => solver_update finite2 (c dt) dt) (c_end (c 0)) w (ts_iter (c_start (c 0)))) as [N [w' [s' [st [_ H]]]]].
    exists N, (Wendroff (c, w')), (exception_of st). intros n Hn. rewrite lw_loop_is, H by exact Hn. reflexivity.
  - unfold coarse_solve. destruct (coarsen _ _) as [v|e]; [|exists 0%nat, (Coarsened (c, d, w) h), (Some e); reflexivity].
    destruct (tqdm_len c (cw_fine w)) as [q|e]; [|exists 0%nat, (Coarsened (c, d, w) h), (Some e); reflexivity].
    destruct (loop_ends (fun w => call_generator (c_gen c) (w_sol_time (cw_fine w), w_mem (cw_fine w) (w_sol (cw_fine w)))) (coarse_update finite2 c h d) (c_end c) w (ts_iter (c_start c))) as [N [w' [s' [st [_ H]]]]].
    exists N, (Coarsened (c, d, w') h), (exception_of st). intros n Hn. rewrite coarse_loop_is, H by exact Hn. reflexivity.
Qed.
Lemma runs_end : forall starts, exists N objects e, forall n, (N <= n)%nat -> M_Command.solve_all (run n) starts = (objects, e).
Proof.
  induction starts as [|o starts [N2 [os [e2 IH]]]]; [exists 0%nat, [], None; reflexivity|].
  destruct (run_ends o) as [N1 [o' [[e|] H]]].
  - exists N1, (o' :: starts), (Some e). intros n Hn. cbn [M_Command.solve_all]. rewrite H by exact Hn. reflexivity.
  - exists (N1 + N2)%nat, (o' :: os), e2. intros n Hn. cbn [M_Command.solve_all]. rewrite H by lia. rewrite IH by lia. reflexivity.
Qed.
End Lines.
