(** C47 (and the solver part of C05): Solver.solve drives time stepping, ODE solver and solution. *)
From Coq Require Import Reals List Arith ZArith Lia Lra Bool.
From Verif Require Import Prelude L_Prelude M_TimeStepping L_TimeStepping P_TimeStepping M_Solution M_ODE L_ODE L_Flux M_Solver S_Solver L_Solver.
Import ListNotations.
Open Scope R_scope.

(** A solver whose parts agree performs, for each step [dts] the time stepping yields
    (for the steps proposed from the successive solutions), exactly one Runge-Kutta step
    and one update; a too small step and the regular end leave the state reached so far. An exception
    of the right hand side leaves the last completed state. *)
Theorem C47_solve_drives_ode_solver_and_solution {V} `{VecOps V} :
  forall (finite : V -> bool) c n w w' s st, in_sync w -> solve finite c n w = (w', Some s, st) ->
  exists dts os, let o := solution_of w in let x := last os o in
  chain finite (c_rhs c) (c_tab c) o dts os /\
  (* the history, if kept, grows by exactly these states *)
  w_times w' = (if c_history c then w_times w ++ map o_time os else w_times w) /\
  w_values w' = (if c_history c then w_values w ++ map o_sol os else w_values w) /\
  match st with
  | Interrupted => ts_run (c_start c) (c_end c) (proposed c o os) n = (dts, s, Running) /\ in_sync w' /\ solution_of w' = x
  | Completed => ts_run (c_start c) (c_end c) (proposed c o os) n = (dts, s, Finished) /\ in_sync w' /\ solution_of w' = x
  | TooSmallWarning => ts_run (c_start c) (c_end c) (proposed c o os) n = (dts, s, Raised) /\ in_sync w' /\ solution_of w' = x
  | RaisedExn e => exists s1 dt,
      ts_run (c_start c) (c_end c) (proposed c o os) (length dts) = (dts, s1, Running) /\
      ts_next (c_end c) (proposed c o os (length dts)) s1 = Yield dt s /\
      ((rk_execute_e (c_rhs c) (c_tab c) dt x = Err e /\ in_sync w' /\ solution_of w' = x) \/
       (exists y, rk_execute_e (c_rhs c) (c_tab c) dt x = Ok y /\ refused finite c dt y e /\ w_sol_time w' = o_time x /\
         (* see C53_refused_step_refuted *) (os <> [] -> w_mem w' (w_sol w') = o_sol y)))
  end.
Proof.
  intros finite c n w w' s st Sy E. unfold solve in E. destruct (tqdm_len c w) as [k|e]; [|discriminate].
  destruct (solve_loop finite c n w (ts_iter (c_start c))) as [[w1 s1] st1] eqn:El. inversion E; subst.
  destruct (solve_loop_spec finite c n w _ _ _ _ Sy El) as [dts [os [C1 [[C2 C2'] [C3 [C3' [C4 [C5' C5]]]]]]]].
  exists dts, os. cbv zeta. split; [exact C1|]. split; [exact C2|]. split; [exact C2'|].
  unfold loop_ends in C5. cbv zeta in C5. destruct st; try exact C5.
  destruct C5 as [_ [s1 [dt [D1 [D2 D3]]]]]. exists s1, dt. split; [exact D1|]. split; [exact D2|].
  destruct D3 as [D3|[y [D3 [D4 [D5 D6]]]]]; [left; exact D3|right]. exists y. split; auto. split; auto. split; auto.
  intro Ho. rewrite D6. destruct (Nat.eqb (w_sol w) (w_ode w)); [reflexivity|]. destruct os; [congruence|reflexivity].
Qed.
Print Assumptions C47_solve_drives_ode_solver_and_solution.

Lemma firstn_S_nth {A} k (l : list A) d : (k < length l)%nat -> firstn (S k) l = firstn k l ++ [nth k l d].
Proof. revert l. induction k as [|k IH]; intros [|a l] Hk; cbn in *; try lia; auto. f_equal. apply IH. lia. Qed.
Lemma rsum_nonneg l : (forall x, In x l -> 0 <= x) -> 0 <= rsum l.
Proof. unfold rsum. induction l as [|a l IH]; intro P; cbn [fold_right]; [lra|]. pose proof (P a (or_introl eq_refl)). assert (0 <= fold_right Rplus 0 l) by (apply IH; intros; apply P; right; auto). lra. Qed.
(* times in a chain *)
Lemma chain_time {V} `{VecOps V} finite f T (o : ode V) dts os : chain finite f T o dts os ->
  forall k, (k <= length dts)%nat -> o_time (nth k (o :: os) o) = o_time o + rsum (firstn k dts).
Proof.
  intros [L C]. induction k as [|k IH]; intro Hk; [cbn; lra|]. destruct (C k) as [C1 _]; [lia|].
  change (nth (S k) (o :: os) o) with (nth k os o).
  assert (T1 : o_time (nth k os o) = o_time (nth k (o :: os) o) + nth k dts 0).
  { unfold rk_execute_e in C1. inv_bind C1. destruct a as [[? ?] ?]. apply Ok_inj in C1. rewrite <- C1. reflexivity. }
  rewrite T1, IH by lia. rewrite (firstn_S_nth k dts 0) by lia. rewrite rsum_app. cbn. lra.
Qed.

(** When solve ends regularly the time of the solution is the initial time plus the length
    of the time interval, up to less than 1e-12; in between it is the initial time plus the steps so far. *)
Theorem C47_time_of_the_solution {V} `{VecOps V} :
  forall (finite : V -> bool) c n w w' s st, in_sync w -> solve finite c n w = (w', Some s, st) ->
  (st = Completed -> 0 <= w_sol_time w + (c_end c - c_start c) - w_sol_time w' < 1 / 10 ^ 12) /\
  (st <> Completed -> w_sol_time w <= w_sol_time w' <= w_sol_time w + (c_end c - c_start c) \/ w_sol_time w' = w_sol_time w).
Proof.
  intros finite c n w w' s st Sy E.
  destruct (C47_solve_drives_ode_solver_and_solution _ _ _ _ _ _ _ Sy E) as [dts [os [C [_ [_ M]]]]].
  assert (TL : o_time (last os (solution_of w)) = w_sol_time w + rsum dts).
  { pose proof (chain_time _ _ _ _ _ _ C (length dts) (le_n _)) as X. rewrite firstn_all in X. cbn [solution_of o_time] in X. rewrite <- X.
    destruct C as [L _]. f_equal. rewrite <- L. clear. revert w. destruct os as [|o os]; intro w; [reflexivity|].
    cbn [length]. change (nth (S (length os)) (solution_of w :: o :: os) (solution_of w)) with (nth (length os) (o :: os) (solution_of w)).
    generalize (solution_of w) as d. revert o. induction os as [|o1 os IH]; intros o d; [reflexivity|].
    change (last (o :: o1 :: os) d) with (last (o1 :: os) d). cbn [length]. rewrite IH. reflexivity. }
  assert (Solt : in_sync w' /\ solution_of w' = last os (solution_of w) -> w_sol_time w' = w_sol_time w + rsum dts).
  { intros [_ X]. rewrite <- TL, <- X. reflexivity. }
  split.
  - intros ->. destruct M as [M1 M2]. rewrite (Solt M2).
    pose proof (C01_time_stepping_covers_interval (c_start c) (c_end c) (proposed c (solution_of w) os) n) as K. rewrite M1 in K.
    destruct K as [_ [_ [_ [K1 [_ [_ [K2 _]]]]]]]. destruct K1 as [_ K1]; [apply K2; auto|]. lra.
  - intro Hst. assert (ANY : forall m s1 r, ts_run (c_start c) (c_end c) (proposed c (solution_of w) os) m = (dts, s1, r) ->
      w_sol_time w' = w_sol_time w + rsum dts ->
      w_sol_time w <= w_sol_time w' <= w_sol_time w + (c_end c - c_start c) \/ w_sol_time w' = w_sol_time w).
    { intros m s1 r Er Ew. pose proof (C01_time_stepping_covers_interval (c_start c) (c_end c) (proposed c (solution_of w) os) m) as K. rewrite Er in K.
      destruct K as [K _]. destruct (list_eq_dec Req_EM_T dts []) as [->|Hd]; [right; cbn in Ew; lra|]. left.
      assert (Hl : (0 < length dts)%nat) by (destruct dts; [congruence|cbn; lia]).
      destruct (K (length dts - 1)%nat ltac:(lia)) as [_ K2]. replace (S (length dts - 1)) with (length dts) in K2 by lia. rewrite firstn_all in K2.
      assert (0 <= rsum dts). { apply rsum_nonneg. intros x Hx. apply (In_nth _ _ 0) in Hx as [k [Hk <-]]. destruct (K k Hk) as [[K3 _] _]. lra. }
      lra. }
    destruct st as [| | |e].
    + destruct M as [M1 M2]. eapply ANY; eauto.
    + congruence.
    + destruct M as [M1 M2]. eapply ANY; eauto.
    + destruct M as [s1 [dt [M1 [M2 M3]]]]. eapply ANY; eauto. destruct M3 as [[_ M3]|[y [_ [_ [M3 _]]]]]; auto. rewrite M3. exact TL.
Qed.
Print Assumptions C47_time_of_the_solution.

(** A freshly constructed and a reinitialized solver are in the state the theorems above ask for. *)
Theorem C47_solvers_start_in_sync {V} `{VecOps V} : forall (finite : V -> bool) c m next sol time, (sol < next)%nat ->
  in_sync (new_solver c m next sol time) /\ solution_of (new_solver c m next sol time) = {| o_time := time; o_sol := m sol |} /\
  forall w v t w', reinitialize finite c v t w = (w', None) -> in_sync w' /\ solution_of w' = {| o_time := t; o_sol := v |}.
Proof.
  intros finite c m next sol time Hs. split; [|split].
  - unfold in_sync, new_solver. cbn. rewrite store_same, store_other by lia. auto.
  - unfold solution_of, new_solver. cbn. rewrite store_other by lia. auto.
  - intros w v t w' E. unfold reinitialize, sol_update in E. cbn [w_mem w_next w_ode w_ode_time w_sol w_sol_time w_times w_values w_warnings] in E.
    rewrite store_same in E. destruct (finite v); inversion E; subst. unfold in_sync, solution_of. cbn.
    rewrite store_same, store_other, store_same by lia. split; [split; [lra|auto]|]. f_equal. lra.
Qed.
Print Assumptions C47_solvers_start_in_sync.

(** Values read from the solution are copies: later solves and reinitializations do not change them, writing to
    them changes nothing the caller sees of the solver; arrays of the caller existing before the solver are never changed. *)
Theorem C47_values_read_are_independent {V} `{VecOps V} : forall (finite : V -> bool) c us m next sol time, (sol < next)%nat ->
  let start := (new_solver c m next sol time, []) in
  seen (fst (use_run finite c us start)) = seen (fst (use_run finite c (filter (fun u => negb (is_write u)) us) start)) /\
  (forall l, (l < next)%nat -> w_mem (fst (use_run finite c us start)) l = m l) /\
  (forall us', Forall (fun u => is_write u = false) us' -> forall l, In l (snd (use_run finite c us start)) ->
     w_mem (fst (use_run finite c (us ++ us') start)) l = w_mem (fst (use_run finite c us start)) l).
Proof.
  intros finite c us m next sol time Hs start. pose proof (separate_new c m next sol time Hs) as S0. fold start in S0. split; [|split].
  - apply alike_seen. eapply unwritten_run; eauto. apply alike_refl.
  - intros l Hl. pose proof (separate_run finite next m c us start S0) as S1. destruct (use_run finite c us start) as [w o].
    destruct S1 as [_ [_ [_ [_ [_ [_ S1]]]]]]. apply S1. auto.
  - intros us' F l Hl. assert (Ra : use_run finite c (us ++ us') start = use_run finite c us' (use_run finite c us start)) by apply fold_left_app.
    rewrite Ra. clear Ra. pose proof (separate_run finite next m c us start S0) as S1. revert S1 Hl. generalize (use_run finite c us start). clear - F.
    induction us' as [|u us' IH]; intros [w o] S1 Hl; [reflexivity|]. inversion F; subst.
    destruct (copies_step finite _ _ c w o u S1 H2 l Hl) as [K1 K2]. unfold use_run in *. cbn [fold_left].
    rewrite IH; auto. apply separate_step. auto.
Qed.
Print Assumptions C47_values_read_are_independent.

(** However a solver was used before: after reinitialize it behaves like a new solver. *)
Theorem C47_reinitialized_is_like_new {V} `{VecOps V} :
  forall (finite : V -> bool) c us m next sol time v t m' next' sol',
  (sol < next)%nat -> (sol' < next')%nat -> m' sol' = v -> finite v = true ->
  t <= time -> (forall v' t', In (Reinit v' t') us -> t <= t') ->
  let w := fst (use_run finite c us (new_solver c m next sol time, [])) in
  exists w1, reinitialize finite c v t w = (w1, None) /\
  seen w1 = seen (new_solver c m' next' sol' t) /\
  forall n, let r1 := solve finite c n w1 in let r2 := solve finite c n (new_solver c m' next' sol' t) in
    seen (fst (fst r1)) = seen (fst (fst r2)) /\ snd (fst r1) = snd (fst r2) /\ snd r1 = snd r2.
Proof.
  intros finite c us m next sol time v t m' next' sol' Hs Hs' Ev Ef Ht HR w.
  assert (L : later c t w).
  { apply later_run; [|exact HR]. unfold later, new_solver. cbn. split; auto. destruct (c_history c); [|auto].
    split; [constructor; auto|discriminate]. }
  pose proof (separate_run finite next m c us _ (separate_new c m next sol time Hs)) as S1.
  destruct L as [L1 [L2 L3]]. unfold reinitialize, sol_update. cbn [w_mem w_next w_ode w_ode_time w_sol w_sol_time w_times w_values w_warnings].
  rewrite store_same, Ef. eexists. split; [reflexivity|].
  match goal with |- seen ?W = _ /\ _ => set (w1 := W) end.
  assert (A : alike w1 (new_solver c m' next' sol' t)).
  { unfold alike, w1, new_solver. cbn [w_mem w_next w_ode w_ode_time w_sol w_sol_time w_times w_values w_warnings].
    rewrite !store_same, (store_other _ (S (w_next w))), store_same, (store_other m' next') by lia. rewrite Ev.
    repeat match goal with |- _ /\ _ => split end; auto; try lra.
    - destruct (c_history c); [|apply L3; auto]. rewrite filter_none by auto. cbn. f_equal. lra.
    - destruct (c_history c); [|apply L3; auto]. rewrite mask_none by auto. reflexivity.
    - rewrite (proj2 (Nat.eqb_neq _ _)) by lia. symmetry. apply Nat.eqb_neq. lia. }
  split; [apply alike_seen; auto|]. intros n. cbv zeta.
  destruct (solve_alike finite c n _ _ A) as [B1 [B2 B3]]. split; [apply alike_seen; auto|auto].
Qed.
Print Assumptions C47_reinitialized_is_like_new.

(** What holds: an exception of the right hand side never leaves a half done step, and a refused first step of a new
    solver (which does not share an array yet) leaves the solution as it was. Missing: refused later steps. *)
Theorem C53_exceptions_keep_the_solution_partial {V} `{VecOps V} : forall (finite : V -> bool) c dt w w' e, in_sync w ->
  solver_update finite c dt w = (w', Some e) ->
  rk_execute_e (c_rhs c) (c_tab c) dt (solution_of w) = Err e \/ w_sol w <> w_ode w ->
  seen w' = seen w.
Proof.
  intros finite c dt w w' e Sy E A. destruct (solver_update_spec finite c dt w w' _ Sy E) as [U1 [U2 [U3 U4]]].
  destruct U4 as [[_ ->]|[y [Y1 [Y2 [Y3 [Y4 [Y5 [Y6 Y7]]]]]]]]; [reflexivity|].
  destruct A as [A|A]; [congruence|]. unfold seen. rewrite Y3, Y4, Y5, Y6, Y7, store_other by auto. reflexivity.
Qed.
Print Assumptions C53_exceptions_keep_the_solution_partial.

(** Finding: the solution shares the array of the ODE solver after the first step. A step whose result is not finite
    is refused with ValueError, but the solution then already shows the refused values at the old time. *)
Theorem C53_refused_step_refuted :
  exists (finite : R -> bool) c n m next sol time w' s, (sol < next)%nat /\
  solve finite c n (new_solver c m next sol time) = (w', Some s, RaisedExn ValueError) /\
  finite (w_mem w' (w_sol w')) = false /\ w_sol_time w' < w_ode_time w'.
Proof.
  set (f := fun (_ u : R) => Ok u). set (fin := fun u : R => Rltb u 10).
  set (c := {| c_rhs := f; c_tab := euler; c_gen := new_generator (fun _ => 1) 1 false (0, 0); c_start := 0; c_end := 5; c_check := None; c_history := true |}).
  set (w0 := new_solver c (fun _ => 4) 1 0 0).
  assert (EX : forall o, rk_execute_e f euler 1 o = Ok {| o_time := o_time o + 1; o_sol := 2 * o_sol o |}).
  { intro o. unfold rk_execute_e, euler. cbn. do 2 f_equal. ring. }
  assert (Sy : in_sync w0) by (split; reflexivity).
  assert (LEN : exists k, tqdm_len c w0 = Ok k).
  { unfold tqdm_len. cbn [gen_adaptive c_gen c new_generator]. unfold call_generator. cbn [gen_adaptive gen_frozen gen_cfl c_gen c new_generator c_end c_start].
    destruct (Reqb_spec (1 * 1) 0); [lra|]. assert (I : Int_part ((5 - 0) / (1 * 1)) = 5%Z).
    { apply Int_part_unique. lra. }
    rewrite I. destruct (Rltb_spec (1 * 1 * 5) (5 - 0 - tol)); cbn; eauto. }
  destruct LEN as [k LEN].
  assert (G : forall x, call_generator (c_gen c) x = 1) by (intro; unfold call_generator; cbn; lra).
  assert (tolb : 0 < tol < 1) by (unfold tol; lra).
  assert (TN : forall t cnt, t <= 3 -> ts_next (c_end c) 1 {| ts_time := t; ts_count := cnt; ts_stop := false |} = Yield 1 {| ts_time := t + 1; ts_count := S cnt; ts_stop := false |}).
  { intros t cnt Ht. unfold ts_next. cbn [ts_stop ts_time ts_count c_end c]. rewrite Rmin_left by lra. destruct (Rltb_spec 1 tol); [lra|].
    destruct (Rltb_spec (5 - (t + 1)) tol); [lra|reflexivity]. }
  destruct (solve_loop fin c 2 w0 (ts_iter 0)) as [[w' s] st] eqn:E.
  exists fin, c, 2%nat, (fun _ => 4), 1%nat, 0%nat, 0, w', s. split; [lia|].
  assert (ES : solve fin c 2 w0 = (w', Some s, st)) by (unfold solve; rewrite LEN; change (c_start c) with 0; rewrite E; reflexivity).
  cbn [solve_loop] in E. rewrite G in E. unfold ts_iter in E. rewrite TN in E by lra.
  destruct (solver_update fin c 1 w0) as [w1 r1] eqn:E1. destruct (solver_update_spec fin c 1 w0 w1 r1 Sy E1) as [U1 [U2 [U3 U4]]].
  cbn [c_rhs c_tab c] in U4. rewrite EX in U4. cbn [solution_of o_sol o_time] in U4.
  assert (V0 : w_mem w0 (w_sol w0) = 4) by reflexivity. assert (T0 : w_sol_time w0 = 0) by reflexivity. rewrite V0, T0 in U4.
  destruct r1 as [e|].
  { exfalso. destruct U4 as [[U4 _]|[y [Y1 [Y2 _]]]]; [discriminate|]. apply Ok_inj in Y1. subst y. destruct Y2 as [[? [? [? [X _]]]]|[_ X]]; [discriminate|].
    unfold fin in X. cbn in X. destruct (Rltb_spec (2 * 4) 10); [discriminate|lra]. }
  destruct U4 as [y [Y1 [Y2 [Y3 [Y4 [Y5 _]]]]]]. apply Ok_inj in Y1. subst y.
  rewrite G in E. rewrite TN in E by lra.
  destruct (solver_update fin c 1 w1) as [w2 r2] eqn:E2. destruct (solver_update_spec fin c 1 w1 w2 r2 Y3 E2) as [W1 [W2 [W3 W4]]].
  cbn [c_rhs c_tab c] in W4. rewrite EX, Y4 in W4. cbn [o_sol o_time] in W4.
  destruct r2 as [e|].
  2: { exfalso. destruct W4 as [y [Y1 [Y2' _]]]. apply Ok_inj in Y1. subst y. unfold fin in Y2'. cbn in Y2'. destruct (Rltb_spec (2 * (2 * 4)) 10); [lra|discriminate]. }
  destruct W4 as [[W4 _]|[y [Z1 [Z2 [Z3 [Z4 [Z5 _]]]]]]]; [discriminate|]. apply Ok_inj in Z1. subst y. cbn [o_sol o_time] in *.
  inversion E; subst. destruct Z2 as [[? [? [? [X _]]]]|[-> X]]; [discriminate|].
  split; [exact ES|]. rewrite Z3, Z5, Y5, U1, store_same. split; [exact X|].
  (* the ODE solver is one step ahead *)
  destruct Y3 as [Yt _]. assert (Ot : w_ode_time w' = w_ode_time w1 + 1).
  { unfold solver_update in E2. pose proof (ode_execute_spec c 1 w1) as OE. destruct (ode_execute c 1 w1) as [[[wa nodes] stages]|e0].
    - destruct OE as [y [_ [_ ->]]]. cbn [check_cfl c_check c] in E2. unfold sol_update in E2.
      cbn [warn w_mem w_next w_ode w_ode_time w_sol w_sol_time w_times w_values w_warnings] in E2. rewrite store_same in E2. destruct (fin (o_sol y)); inversion E2; subst; reflexivity.
    - inversion E2; subst. exfalso. clear - OE EX. cbn [c_rhs c_tab c] in OE. rewrite EX in OE. discriminate. }
  lra.
Qed.
Print Assumptions C53_refused_step_refuted.

(** Finding: iterating starts the time stepping anew, so solving twice without
    reinitialize runs the time interval twice: the second run starts at the end of the first one
    and ends (up to 1e-12 each) one interval length after end_time. *)
Theorem C47_solving_twice {V} `{VecOps V} : forall (finite : V -> bool) c n1 n2 w w1 w2 s1 s2, in_sync w ->
  solve finite c n1 w = (w1, Some s1, Completed) -> solve finite c n2 w1 = (w2, Some s2, Completed) ->
  Rabs (w_sol_time w2 - (w_sol_time w + 2 * (c_end c - c_start c))) < 2 / 10 ^ 12.
Proof.
  intros finite c n1 n2 w w1 w2 s1 s2 Sy E1 E2.
  destruct (C47_time_of_the_solution finite c n1 w w1 s1 _ Sy E1) as [A _]. specialize (A eq_refl).
  destruct (C47_solve_drives_ode_solver_and_solution finite c n1 w w1 s1 _ Sy E1) as [dts [os [_ [_ [_ [_ [S1 _]]]]]]].
  destruct (C47_time_of_the_solution finite c n2 w1 w2 s2 _ S1 E2) as [B _]. specialize (B eq_refl).
  apply Rabs_def1; lra.
Qed.
Print Assumptions C47_solving_twice.

(** Before the first step solve asks for the number of steps: for a fixed step size an end time before the start
    time or a zero step size make it raise with nothing changed; for step sizes that change solve always gets to the loop. *)
Theorem C47_solve_raises_before_the_first_step {V} `{VecOps V} : forall (finite : V -> bool) c n w, tol <= c_end c - c_start c ->
  let dt := call_generator (c_gen c) (w_sol_time w, w_mem w (w_sol w)) in
  (gen_adaptive (c_gen c) = true \/ 0 < dt -> exists w' s st, solve finite c n w = (w', Some s, st)) /\
  (gen_adaptive (c_gen c) = false -> dt = 0 -> solve finite c n w = (w, None, RaisedExn ZeroDivisionError)).
Proof.
  intros finite c n w Hd dt. split.
  - intro A. assert (X : exists k, tqdm_len c w = Ok k).
    { unfold tqdm_len. fold dt. destruct (gen_adaptive (c_gen c)); [eauto|]. destruct A as [A|A]; [discriminate|].
      destruct (Reqb_spec dt 0); [lra|]. pose proof tol_pos. assert (0 <= (c_end c - c_start c) / dt) by (apply Rlt_le, Rdiv_lt_0_compat; lra).
      pose proof (Int_part_nonneg _ H1). destruct (Rltb _ _); [destruct (Z.ltb_spec (Int_part ((c_end c - c_start c) / dt) + 1) 0)|destruct (Z.ltb_spec (Int_part ((c_end c - c_start c) / dt)) 0)]; try lia; eauto. }
    destruct X as [k X]. unfold solve. rewrite X. destruct (solve_loop _ _ _ _ _) as [[w' s] st]. eauto.
  - intros A D. unfold solve, tqdm_len. fold dt. rewrite A, D. destruct (Reqb_spec 0 0); [reflexivity|lra].
Qed.
Print Assumptions C47_solve_raises_before_the_first_step.

(* one Euler step of u' = -u/2 and the regular end *)
Example C47_ex : exists (c : config R) m w' s, let w := new_solver c m 1 0 0 in
  in_sync w /\ solve (fun _ => true) c 2 w = (w', Some s, Completed) /\ w_sol_time w' = 1 /\ w_mem w' (w_sol w') = 2.
Proof.
  set (c := {| c_rhs := fun _ u : R => Ok (- (u / 2)); c_tab := euler; c_gen := new_generator (fun _ => 3) 1 true (0, 0); c_start := 0; c_end := 1; c_check := None; c_history := true |}).
  assert (T : ts_next 1 3 (ts_iter 0) = Yield 1 {| ts_time := 1; ts_count := 1; ts_stop := true |}).
  { unfold ts_next, ts_iter. cbn [ts_stop ts_time ts_count]. rewrite Rmin_right by lra. replace (1 - 0) with 1 by ring.
    destruct (Rltb_spec 1 tol) as [X|X]; [unfold tol in X; lra|]. destruct (Rltb_spec (1 - (0 + 1)) tol) as [Y|Y]; [reflexivity|unfold tol in Y; lra]. }
  assert (U : exists w', solve (fun _ => true) c 2 (new_solver c (fun _ => 4) 1 0 0) = (w', Some {| ts_time := 1; ts_count := 1; ts_stop := true |}, Completed) /\
     w_sol_time w' = 0 + 1 /\ w_mem w' (w_sol w') = 4 + 1 * (1 * (- (4 / 2)))).
  { unfold solve. cbn [tqdm_len gen_adaptive c_gen c new_generator]. unfold tqdm_len. cbn [gen_adaptive c_gen c new_generator]. cbn [solve_loop].
    replace (call_generator (c_gen c) _) with 3 by (unfold call_generator; cbn; lra). change (c_end c) with 1. change (c_start c) with 0. rewrite T.
    cbn -[Rplus Rmult Ropp Rdiv Rinv IZR]. eexists. split; [reflexivity|]. cbn -[Rplus Rmult Ropp Rdiv Rinv IZR]. split; reflexivity. }
  destruct U as [w' [U1 [U2 U3]]]. exists c, (fun _ => 4), w'. eexists. split; [split; reflexivity|]. split; [exact U1|]. split; [rewrite U2|rewrite U3]; lra.
Qed.

(** ** C05: the check of the CFL condition inside the solver *)
Section C05.
Context {V : Type} `{VecOps V} (finite : V -> bool).
Lemma stages_lengths (f : R -> V -> result V) T dt o l : forall nodes stages ks nodes' stages' ks',
  length nodes = length stages -> foldM (rk_stage_e f T dt o) l (nodes, stages, ks) = Ok (nodes', stages', ks') ->
  length nodes' = length stages'.
Proof.
  induction l as [|i l IH]; intros nodes stages ks nodes' stages' ks' L E; cbn [foldM] in E.
  - apply Ok_inj in E. inversion E; subst. auto.
  - inv_bind E. destruct a as [[n1 s1] k1]. unfold rk_stage_e in E0. inv_bind E0. apply Ok_inj in E0. inversion E0; subst.
    eapply IH; [|exact E]. rewrite !app_length. cbn. lia.
Qed.

Lemma cfl_check_e_total (opt : R -> V -> R) optimal dt : (forall t u, optimal t u = Ok (opt t u)) ->
  forall nodes stages, cfl_check_e optimal dt nodes stages = cfl_check opt dt nodes stages.
Proof.
  intros E nodes stages. revert nodes. induction stages as [|u us IH]; intros [|t ts]; cbn; auto. rewrite E. cbn. rewrite IH. reflexivity.
Qed.

Definition unwarned (w : world V) : world V :=
  {| w_mem := w_mem w; w_next := w_next w; w_ode := w_ode w; w_ode_time := w_ode_time w; w_sol := w_sol w;
     w_sol_time := w_sol_time w; w_times := w_times w; w_values := w_values w; w_warnings := 0 |}.
Definition without_check (c : config V) : config V :=
  {| c_rhs := c_rhs c; c_tab := c_tab c; c_gen := c_gen c; c_start := c_start c; c_end := c_end c; c_check := None; c_history := c_history c |}.

Lemma check_bool c opt optimal dt (w : world V) w1 nodes stages : c_check c = Some optimal -> (forall t u, optimal t u = Ok (opt t u)) ->
  ode_execute c dt w = Ok (w1, nodes, stages) ->
  length nodes = length stages /\
  exists b, check_cfl c dt nodes stages = Ok b /\
  (b = true <-> exists i t u, nth_error nodes i = Some t /\ nth_error stages i = Some u /\ opt t u < dt).
Proof.
  intros C O E. unfold ode_execute in E. inv_bind E. destruct a as [[n1 s1] k1]. apply Ok_inj in E. inversion E; subst.
  pose proof (stages_lengths _ _ _ _ _ [] [] [] _ _ _ eq_refl E0) as L. split; auto. unfold check_cfl. rewrite C, (cfl_check_e_total opt) by auto.
  destruct (C05_cfl_check_exact V opt dt nodes stages L) as [I1 I2].
  destruct (cfl_check opt dt nodes stages) as [u|e] eqn:Ec.
  - destruct u. exists false. split; auto. split; [discriminate|]. intros [i [t [u [J1 [J2 J3]]]]].
    pose proof (proj1 I2 eq_refl i t u J1 J2). lra.
  - assert (e = CFLConditionViolatedError).
    { clear - Ec L. revert nodes L Ec. induction stages as [|u us IH]; intros [|t ts] L Ec; cbn in *; try discriminate.
      destruct (Rltb _ _); [congruence|]. eapply IH; [|exact Ec]. lia. }
    subst e. exists true. split; auto. split; auto. intros _. apply I1. reflexivity.
Qed.

Lemma update_without_check c opt optimal dt w1 w2 : c_check c = Some optimal -> (forall t u, optimal t u = Ok (opt t u)) ->
  unwarned w1 = unwarned w2 ->
  unwarned (fst (solver_update finite c dt w1)) = unwarned (fst (solver_update finite (without_check c) dt w2)) /\
  snd (solver_update finite c dt w1) = snd (solver_update finite (without_check c) dt w2).
Proof.
  intros C O E. destruct w1 as [m1 nx1 o1 ot1 s1 st1 ts1 vs1 wn1], w2 as [m2 nx2 o2 ot2 s2 st2 ts2 vs2 wn2]. cbn in E. inversion E; subst; clear E.
  unfold solver_update. pose proof (fun w1 n s => check_bool c opt optimal dt
     {| w_mem := m2; w_next := nx2; w_ode := o2; w_ode_time := ot2; w_sol := s2; w_sol_time := st2; w_times := ts2; w_values := vs2; w_warnings := wn1 |} w1 n s C O) as K.
  unfold ode_execute in *. cbn [w_mem w_next w_ode w_ode_time w_sol w_sol_time w_times w_values w_warnings without_check c_rhs c_tab] in *.
  destruct (foldM _ _ _) as [[[nodes stages] ks]|e]; cbn [bind fst snd] in *; [|auto].
  destruct (K _ _ _ eq_refl) as [_ [b [Eb _]]]. rewrite Eb. cbn [check_cfl without_check c_check]. unfold sol_update.
  cbn [warn w_mem w_next w_ode w_ode_time w_sol w_sol_time w_times w_values w_warnings]. destruct (finite _); cbn; auto.
Qed.

Lemma loop_without_check c opt optimal n : c_check c = Some optimal -> (forall t u, optimal t u = Ok (opt t u)) ->
  forall w1 w2 s, unwarned w1 = unwarned w2 ->
  let '(w1', s1, st1) := solve_loop finite c n w1 s in let '(w2', s2, st2) := solve_loop finite (without_check c) n w2 s in
  unwarned w1' = unwarned w2' /\ s1 = s2 /\ st1 = st2.
Proof.
  intros C O. induction n as [|n IH]; intros w1 w2 s E; cbn [solve_loop]; auto.
  assert (E1 : w_sol_time w1 = w_sol_time w2) by (apply (f_equal w_sol_time) in E; exact E).
  assert (E2 : w_mem w1 (w_sol w1) = w_mem w2 (w_sol w2)).
  { pose proof (f_equal w_mem E) as A. pose proof (f_equal w_sol E) as B. cbn in A, B. congruence. }
  rewrite E1, E2. change (c_gen (without_check c)) with (c_gen c). change (c_end (without_check c)) with (c_end c).
  destruct (ts_next _ _ _) as [dt s'| |]; auto.
  destruct (update_without_check c opt optimal dt w1 w2 C O E) as [U1 U2].
  destruct (solver_update finite c dt w1) as [w1' r1], (solver_update finite (without_check c) dt w2) as [w2' r2]. cbn [fst snd] in *. subst r2.
  destruct r1; auto. apply IH. auto.
Qed.
End C05.

(** The check never changes a run: with it and without it solve computes the same, yields the same steps and ends the same
    way (for step functions that do not raise themselves). *)
Theorem C05_check_only_warns {V} `{VecOps V} : forall (finite : V -> bool) c opt optimal n w,
  c_check c = Some optimal -> (forall t u, optimal t u = Ok (opt t u)) ->
  let '(w1, s1, st1) := solve finite c n w in let '(w2, s2, st2) := solve finite (without_check c) n w in
  seen w1 = seen w2 /\ w_mem w1 = w_mem w2 /\ s1 = s2 /\ st1 = st2.
Proof.
  intros finite c opt optimal n w C O. unfold solve. change (tqdm_len (without_check c) w) with (tqdm_len c w).
  destruct (tqdm_len c w) as [k|e]; [|auto]. change (c_start (without_check c)) with (c_start c).
  pose proof (loop_without_check finite c opt optimal n C O w w (ts_iter (c_start c)) eq_refl) as X.
  destruct (solve_loop finite c n w _) as [[w1 s1] st1], (solve_loop finite (without_check c) n w _) as [[w2 s2] st2].
  destruct X as [X1 [-> ->]]. destruct w1, w2. cbn in X1. inversion X1; subst. unfold seen. cbn. auto.
Qed.
Print Assumptions C05_check_only_warns.

(** A completed step adds one warning exactly if its length exceeds the optimal step of one of its stages. *)
Theorem C05_warns_iff_violated {V} `{VecOps V} : forall (finite : V -> bool) c opt optimal dt w w' w1 nodes stages,
  c_check c = Some optimal -> (forall t u, optimal t u = Ok (opt t u)) ->
  ode_execute c dt w = Ok (w1, nodes, stages) -> solver_update finite c dt w = (w', None) ->
  ((exists i t u, nth_error nodes i = Some t /\ nth_error stages i = Some u /\ opt t u < dt) -> w_warnings w' = S (w_warnings w)) /\
  (~ (exists i t u, nth_error nodes i = Some t /\ nth_error stages i = Some u /\ opt t u < dt) -> w_warnings w' = w_warnings w).
Proof.
  intros finite c opt optimal dt w w' w1 nodes stages C O E U. destruct (check_bool c opt optimal dt w w1 nodes stages C O E) as [_ [b [Eb Ib]]].
  unfold solver_update in U. rewrite E, Eb in U. pose proof (ode_execute_spec c dt w) as X. rewrite E in X. destruct X as [y [_ [_ ->]]].
  unfold sol_update in U. cbn [warn w_mem w_next w_ode w_ode_time w_sol w_sol_time w_times w_values w_warnings] in U.
  destruct (finite _); inversion U; subst; cbn [w_warnings]. split; intro K.
  - apply Ib in K. subst b. reflexivity.
  - destruct b; [exfalso; apply K, Ib; auto|reflexivity].
Qed.
Print Assumptions C05_warns_iff_violated.
Example C05_solver_ex : exists c : config R, c_check c = Some (fun _ _ => Ok (1 / 2)) /\
  exists w' , solver_update (fun _ => true) c 1 (new_solver c (fun _ => 4) 1 0 0) = (w', None) /\ w_warnings w' = 1%nat.
Proof.
  eexists {| c_rhs := fun _ u : R => Ok (- (u / 2)); c_tab := euler; c_gen := new_generator (fun _ => 3) 1 true (0, 0); c_start := 0; c_end := 1; c_check := Some (fun _ _ => Ok (1 / 2)); c_history := true |}.
  split; [reflexivity|]. unfold solver_update, check_cfl. cbn -[Rltb Rplus Rmult Ropp Rdiv]. destruct (Rltb_spec (1 / 2) 1); [|lra]. eexists. split; reflexivity.
Qed.

(** Only violations of the CFL condition become warnings: when the step function of the check raises another exception at the first stage that does not pass,
    the update raises it; when a step size below dt is met first, there is one more warning and no exception from the check; and when all stages pass there is none. *)
Lemma cfl_check_e_spec {V} (optimal : R -> V -> result R) dt : forall stages nodes k t u, 
  nth_error nodes k = Some t -> nth_error stages k = Some u ->
  (forall j t' u', (j < k)%nat -> nth_error nodes j = Some t' -> nth_error stages j = Some u' -> exists o, optimal t' u' = Ok o /\ dt <= o) ->
  (forall e, optimal t u = Err e -> cfl_check_e optimal dt nodes stages = Err e) /\
  (forall o, optimal t u = Ok o -> o < dt -> cfl_check_e optimal dt nodes stages = Err CFLConditionViolatedError).
Proof.
  induction stages as [|s stages IH]; intros nodes k t u Hn Hs Hj; [destruct k; discriminate|].
  destruct nodes as [|t0 nodes]; [destruct k; discriminate|]. destruct k as [|k].
  - cbn in Hn, Hs. injection Hn as ->. injection Hs as ->. cbn [cfl_check_e]. split; intros x Hx; rewrite Hx; cbn [bind]; [reflexivity|].
    intro. destruct (Rltb_spec x dt); [reflexivity|lra].
  - cbn in Hn, Hs. destruct (Hj 0%nat t0 s ltac:(lia) eq_refl eq_refl) as [o [Ho1 Ho2]]. cbn [cfl_check_e]. rewrite Ho1. cbn [bind]. destruct (Rltb_spec o dt); [lra|].
    apply (IH nodes k t u Hn Hs). intros j t' u' Hjk A B. apply (Hj (S j) t' u'); [lia|exact A|exact B].
Qed.
Theorem C53_only_cfl_violations_become_warnings {V} `{VecOps V} : forall (finite : V -> bool) c optimal dt w w1 nodes stages k t u,
  c_check c = Some optimal -> ode_execute c dt w = Ok (w1, nodes, stages) ->
  nth_error nodes k = Some t -> nth_error stages k = Some u ->
  (forall j t' u', (j < k)%nat -> nth_error nodes j = Some t' -> nth_error stages j = Some u' -> exists o, optimal t' u' = Ok o /\ dt <= o) ->
  (forall e, e <> CFLConditionViolatedError -> optimal t u = Err e -> snd (solver_update finite c dt w) = Some e) /\
  (forall o, optimal t u = Ok o -> o < dt -> w_warnings (fst (solver_update finite c dt w)) = S (w_warnings w1) /\
     (finite (w_mem w1 (w_ode w1)) = true -> snd (solver_update finite c dt w) = None)).
Proof.
  intros finite c optimal dt w w1 nodes stages k t u HC HE Hn Hs Hj. destruct (cfl_check_e_spec optimal dt stages nodes k t u Hn Hs Hj) as [A B].
  unfold solver_update. rewrite HE. unfold check_cfl. rewrite HC. split.
  - intros e Ne He. rewrite (A e He). destruct e; try reflexivity. congruence.
  - intros o Ho Lo. rewrite (B o Ho Lo). unfold sol_update. cbn [warn w_mem w_warnings].
    destruct (finite (w_mem w1 (w_ode w1))); cbn [fst snd w_warnings]; split; auto; discriminate.
Qed.
Print Assumptions C53_only_cfl_violations_become_warnings.
