From Coq Require Import Reals List Arith Lia Lra Bool.
From Verif Require Import Prelude L_Prelude M_TimeStepping L_TimeStepping M_Solution M_ODE L_ODE L_Flux M_Solver S_Solver.
Import ListNotations.
Open Scope R_scope.

Lemma ts_loop_shift e n : forall g k s, ts_loop e g (S k) n s = ts_loop e (fun j => g (S j)) k n s.
Proof.
  induction n as [|n IH]; intros g k s; cbn [ts_loop]; [reflexivity|].
  destruct (ts_next e (g (S k)) s); auto. rewrite IH. reflexivity.
Qed.

Section L.
Context {V : Type} `{VecOps V} (finite : V -> bool).
Notation solve_loop := (solve_loop finite).
Notation solver_update := (solver_update finite).
Notation chain := (chain finite).

Lemma store_same m l (v : V) : store m l v l = v.
Proof. unfold store. rewrite Nat.eqb_refl. reflexivity. Qed.
Lemma store_other m l (v : V) l' : l' <> l -> store m l v l' = m l'.
Proof. intro N. unfold store. destruct (Nat.eqb_spec l' l); congruence. Qed.

(* ode_execute against rk_execute_e *)
Lemma ode_execute_spec c dt (w : world V) :
  match ode_execute c dt w with
  | Err e => rk_execute_e (c_rhs c) (c_tab c) dt {| o_time := w_ode_time w; o_sol := w_mem w (w_ode w) |} = Err e
  | Ok (w1, nodes, stages) => exists o',
      rk_execute_e (c_rhs c) (c_tab c) dt {| o_time := w_ode_time w; o_sol := w_mem w (w_ode w) |} = Ok o' /\
      o_time o' = w_ode_time w + dt /\
      w1 = {| w_mem := store (w_mem w) (w_ode w) (o_sol o'); w_next := w_next w; w_ode := w_ode w; w_ode_time := w_ode_time w + dt;
              w_sol := w_sol w; w_sol_time := w_sol_time w; w_times := w_times w; w_values := w_values w; w_warnings := w_warnings w |}
  end.
Proof.
  unfold ode_execute, rk_execute_e. cbn [o_sol].
  destruct (foldM _ _ _) as [[[nodes stages] ks]|e]; cbn [bind]; [|reflexivity].
  eexists. split; [reflexivity|]. split; reflexivity.
Qed.

Lemma chain_nil f T o : chain f T o [] [].
Proof. split; [reflexivity|]. intros k Hk. cbn in Hk. lia. Qed.
Lemma chain_cons f T o o1 dt dts os : rk_execute_e f T dt o = Ok o1 -> finite (o_sol o1) = true -> chain f T o1 dts os ->
  chain f T o (dt :: dts) (o1 :: os).
Proof.
  intros E Ef [L C]. split; [cbn; lia|]. intros [|k] Hk; cbn [nth].
  - auto.
  - cbn [length] in Hk. destruct (C k) as [C1 C2]; [lia|].
    assert (X : forall d, nth k os d = nth k os o1) by (intro d; apply nth_indep; lia).
    rewrite (X o). split; auto. destruct k; cbn [nth] in *; auto.
    rewrite (nth_indep os o o1) by lia. auto.
Qed.

Definition appended (c : config V) (w w' : world V) (os : list (ode V)) : Prop :=
  w_times w' = (if c_history c then w_times w ++ map o_time os else w_times w) /\
  w_values w' = (if c_history c then w_values w ++ map o_sol os else w_values w).

(** why a step that could be computed is refused *)
Definition refused (c : config V) (dt : R) (y : ode V) (e : exn) : Prop :=
  (exists optimal nodes stages, c_check c = Some optimal /\ cfl_check_e optimal dt nodes stages = Err e /\ e <> CFLConditionViolatedError) \/
  (e = ValueError /\ finite (o_sol y) = false).

Lemma solver_update_spec c dt w w' r : in_sync w -> solver_update c dt w = (w', r) ->
  w_ode w' = w_ode w /\ w_next w' = w_next w /\ (forall l, l <> w_ode w -> w_mem w' l = w_mem w l) /\
  match r with
  | None => exists y, rk_execute_e (c_rhs c) (c_tab c) dt (solution_of w) = Ok y /\ finite (o_sol y) = true /\
      in_sync w' /\ solution_of w' = y /\ w_sol w' = w_ode w' /\ appended c w w' [y]
  | Some e =>
      (rk_execute_e (c_rhs c) (c_tab c) dt (solution_of w) = Err e /\ w' = w) \/
      exists y, rk_execute_e (c_rhs c) (c_tab c) dt (solution_of w) = Ok y /\ refused c dt y e /\
        w_sol w' = w_sol w /\ w_sol_time w' = w_sol_time w /\ w_mem w' = store (w_mem w) (w_ode w) (o_sol y) /\
        w_times w' = w_times w /\ w_values w' = w_values w
  end.
Proof.
  intros S E. unfold M_Solver.solver_update in E. pose proof (ode_execute_spec c dt w) as X.
  assert (Es : {| o_time := w_ode_time w; o_sol := w_mem w (w_ode w) |} = solution_of w)
    by (unfold solution_of; destruct S as [-> ->]; reflexivity).
  rewrite Es in X. destruct (ode_execute c dt w) as [[[w1 nodes] stages]|e].
  2: { inversion E; subst. repeat split; auto. }
  destruct X as [y [X1 [X2 ->]]].
  assert (FR : forall l, l <> w_ode w -> store (w_mem w) (w_ode w) (o_sol y) l = w_mem w l) by (intros; apply store_other; auto).
  destruct (check_cfl c dt nodes stages) as [b|e] eqn:Ec.
  - unfold sol_update in E. cbn [warn w_mem w_next w_ode w_ode_time w_sol w_sol_time w_times w_values w_warnings] in E. rewrite store_same in E.
    destruct (finite (o_sol y)) eqn:Ef; inversion E; subst; cbn [w_mem w_next w_ode w_ode_time w_sol w_sol_time w_times w_values w_warnings warn];
      (split; [reflexivity|]); (split; [reflexivity|]); (split; [exact FR|]).
    + exists y. split; auto. split; auto. destruct S as [S1 _].
      assert (Et : w_sol_time w + dt = o_time y) by lra.
      split; [split; cbn [w_ode_time w_sol_time w_mem w_ode w_sol]; auto; lra|].
      split; [unfold solution_of; cbn [w_sol_time w_mem w_sol]; rewrite store_same, Et; destruct y; reflexivity|].
      split; [reflexivity|]. unfold appended. cbn [w_times w_values map]. rewrite store_same || idtac. rewrite Et. auto.
    + right. exists y. split; auto. split; [right; auto|]. cbn. auto 6.
  - inversion E; subst. cbn [w_mem w_next w_ode w_ode_time w_sol w_sol_time w_times w_values w_warnings warn].
    (split; [reflexivity|]); (split; [reflexivity|]); (split; [exact FR|]).
    right. exists y. split; auto. split; [left|cbn; auto 6].
    unfold check_cfl in Ec. destruct (c_check c) as [optimal|]; [|discriminate]. exists optimal, nodes, stages. split; auto.
    destruct (cfl_check_e optimal dt nodes stages) as [|e']; [discriminate|]. destruct e'; inversion Ec; subst; split; auto; discriminate.
Qed.

Definition loop_ends (c : config V) n (w : world V) s0 (w' : world V) s st dts os : Prop :=
  let o := solution_of w in
  let x := last os o in
  let g := proposed c o os in
  match st with
  | Interrupted => ts_loop (c_end c) g 0 n s0 = (dts, s, Running) /\ in_sync w' /\ solution_of w' = x
  | Completed => ts_loop (c_end c) g 0 n s0 = (dts, s, Finished) /\ in_sync w' /\ solution_of w' = x
  | TooSmallWarning => ts_loop (c_end c) g 0 n s0 = (dts, s, Raised) /\ in_sync w' /\ solution_of w' = x
  | RaisedExn e => (length dts < n)%nat /\ exists s1 dt,
      ts_loop (c_end c) g 0 (length dts) s0 = (dts, s1, Running) /\
      ts_next (c_end c) (g (length dts)) s1 = Yield dt s /\
      ((rk_execute_e (c_rhs c) (c_tab c) dt x = Err e /\ in_sync w' /\ solution_of w' = x) \/
       exists y, rk_execute_e (c_rhs c) (c_tab c) dt x = Ok y /\ refused c dt y e /\
         w_sol_time w' = o_time x /\
         w_mem w' (w_sol w') = if Nat.eqb (w_sol w) (w_ode w) then o_sol y else match os with [] => o_sol x | _ => o_sol y end)
  end.

Lemma last_cons_cons {A} (a : A) l d : last (a :: l) d = last l a.
Proof. revert a d. induction l as [|b l IH]; intros a d; [reflexivity|]. change (last (a :: b :: l) d) with (last (b :: l) d).
  rewrite !IH. reflexivity. Qed.

Lemma ts_loop_ext e m : forall B g1 g2 k st0, (forall j, (j <= B)%nat -> g1 (k + j)%nat = g2 (k + j)%nat) ->
  forall l s' r, ts_loop e g1 k m st0 = (l, s', r) -> (length l <= B)%nat -> ts_loop e g2 k m st0 = (l, s', r).
Proof.
  induction m as [|m IH]; intros B g1 g2 k st0 G l s' r E L; cbn [ts_loop] in *; auto.
  pose proof (G 0%nat ltac:(lia)) as G0. rewrite Nat.add_0_r in G0. rewrite <- G0.
  destruct (ts_next e (g1 k) st0) as [x y| |]; auto.
  destruct (ts_loop e g1 (S k) m y) as [[l2 s2] r2] eqn:E2. inversion E; subst. cbn [length] in L.
  rewrite (IH (B - 1)%nat g1 g2 (S k) y) with (l := l2) (s' := s') (r := r); auto; [|lia].
  intros j Hj. replace (S k + j)%nat with (k + S j)%nat by lia. apply G. lia.
Qed.

Lemma solve_loop_spec c n : forall w s0 w' s st, in_sync w -> solve_loop c n w s0 = (w', s, st) ->
  exists dts os, chain (c_rhs c) (c_tab c) (solution_of w) dts os /\ appended c w w' os /\
    w_ode w' = w_ode w /\ w_next w' = w_next w /\ (forall l, l <> w_ode w -> w_mem w' l = w_mem w l) /\
    (w_sol w' = w_sol w \/ w_sol w' = w_ode w) /\
    loop_ends c n w s0 w' s st dts os.
Proof.
  induction n as [|n IH]; intros w s0 w' s st Sy E; cbn [M_Solver.solve_loop] in E;
    assert (Nil : appended c w w []) by (unfold appended; cbn; rewrite !app_nil_r; destruct (c_history c); auto).
  - inversion E; subst. exists [], []. split; [apply chain_nil|]. split; auto.
    repeat match goal with |- _ /\ _ => split end; auto. unfold loop_ends. cbn. auto.
  - set (g0 := call_generator (c_gen c) (w_sol_time w, w_mem w (w_sol w))) in *.
    destruct (ts_next (c_end c) g0 s0) as [dt s1| |] eqn:Et.
    2,3: inversion E; subst; exists [], []; split; [apply chain_nil|]; split; [auto|];
      repeat match goal with |- _ /\ _ => split end; auto; unfold loop_ends; (split; [|auto]);
      cbn [ts_loop]; unfold proposed; cbn [nth solution_of o_time o_sol]; fold g0; rewrite Et; reflexivity.
    destruct (solver_update c dt w) as [w2 [e|]] eqn:Eu;
      destruct (solver_update_spec c dt w w2 _ Sy Eu) as [U1 [U2 [U3 U4]]].
    + inversion E; subst. exists [], []. split; [apply chain_nil|].
      destruct U4 as [[U4 ->]|[y [U4 [U5 [U6 [U7 [U8 [U9 U10]]]]]]]].
      * split; auto. repeat match goal with |- _ /\ _ => split end; auto.
        unfold loop_ends. cbn [length]. split; [lia|]. exists s0, dt. split; [reflexivity|]. split; [exact Et|]. left. auto.
      * split; [unfold appended; rewrite U9, U10; exact Nil|]. split; auto. split; auto. split; auto. split; auto.
        unfold loop_ends. cbn [length]. split; [lia|]. exists s0, dt. split; [reflexivity|]. split; [exact Et|]. right.
        exists y. split; auto. split; auto. split; [rewrite U7; reflexivity|]. rewrite U6, U8. unfold store.
        destruct (Nat.eqb (w_sol w) (w_ode w)); reflexivity.
    + destruct U4 as [o' [U4 [U5 [U6 [U7 [U8 [U9 U10]]]]]]].
      destruct (IH w2 s1 w' s st U6 E) as [dts [os [C1 [[C2 C2'] [C3 [C3' [C4 [C5' C5]]]]]]]]. rewrite U7 in C1.
      exists (dt :: dts), (o' :: os). split; [apply (chain_cons _ _ _ o'); auto|].
      split. { unfold appended. rewrite C2, C2', U9, U10. destruct (c_history c); [|auto]. rewrite <- !app_assoc. auto. }
      split; [congruence|]. split; [congruence|]. split; [intros l Hl; rewrite C4 by congruence; auto|].
      split; [right; destruct C5' as [-> | ->]; congruence|].
      assert (LO : length os = length dts) by apply C1.
      assert (G : forall k, (k <= length os)%nat -> proposed c (solution_of w) (o' :: os) (S k) = proposed c o' os k).
      { intros k Hk. unfold proposed.
        assert (X : nth (S k) (solution_of w :: o' :: os) (solution_of w) = nth k (o' :: os) o').
        { change (nth (S k) (solution_of w :: o' :: os) (solution_of w)) with (nth k (o' :: os) (solution_of w)). apply nth_indep. cbn. lia. }
        rewrite X. reflexivity. }
      assert (SH : forall m l s' r, ts_loop (c_end c) (proposed c o' os) 0 m s1 = (l, s', r) -> (length l <= length os)%nat ->
         ts_loop (c_end c) (proposed c (solution_of w) (o' :: os)) 0 (S m) s0 = (dt :: l, s', r)).
      { intros m l s' r E1 L1. cbn [ts_loop]. unfold proposed at 1. cbn [nth solution_of o_time o_sol]. fold g0. rewrite Et.
        rewrite ts_loop_shift. rewrite (ts_loop_ext _ m (length os) (proposed c o' os) _ 0%nat s1) with (l := l) (s' := s') (r := r); auto.
        intros j Hj. cbn [Nat.add]. rewrite G by auto. reflexivity. }
      unfold loop_ends in *. cbv zeta in *. rewrite last_cons_cons. rewrite U7 in C5.
      destruct st as [| | |e]; try (destruct C5 as [T1 T2]; split; [apply SH; [exact T1|lia]|auto]).
      destruct C5 as [T0 [s2 [dt2 [T1 [T2 T3]]]]]. split; [cbn [length]; lia|]. exists s2, dt2.
      split; [cbn [length]; apply SH; [exact T1|lia]|].
      split. { cbn [length]. rewrite G by lia. exact T2. }
      destruct T3 as [T3|[y [T4 [T5 [T6 T7]]]]]; [left; auto|]. right. exists y. split; auto. split; auto. split; auto.
      rewrite T7, U8, Nat.eqb_refl. destruct (Nat.eqb (w_sol w) (w_ode w)); reflexivity.
Qed.

(** ** Two worlds that differ only in addresses *)
Definition alike (w1 w2 : world V) : Prop :=
  w_mem w1 (w_ode w1) = w_mem w2 (w_ode w2) /\ w_mem w1 (w_sol w1) = w_mem w2 (w_sol w2) /\
  w_ode_time w1 = w_ode_time w2 /\ w_sol_time w1 = w_sol_time w2 /\
  w_times w1 = w_times w2 /\ w_values w1 = w_values w2 /\
  Nat.eqb (w_sol w1) (w_ode w1) = Nat.eqb (w_sol w2) (w_ode w2).

Lemma alike_seen w1 w2 : alike w1 w2 -> seen w1 = seen w2.
Proof. intros [A1 [A2 [A3 [A4 [A5 [A6 A7]]]]]]. unfold seen. congruence. Qed.

Lemma update_alike c dt w1 w2 : alike w1 w2 ->
  alike (fst (solver_update c dt w1)) (fst (solver_update c dt w2)) /\
  snd (solver_update c dt w1) = snd (solver_update c dt w2).
Proof.
  intro A. pose proof A as [A1 [A2 [A3 [A4 [A5 [A6 A7]]]]]]. unfold M_Solver.solver_update, ode_execute. rewrite A1, A3. cbn [o_sol].
  destruct (foldM _ _ _) as [[[nodes stages] ks]|e]; cbn [bind fst snd]; [|auto].
  set (y := axpy (w_mem w2 (w_ode w2)) dt (wsum (rk_b (c_tab c)) ks)).
  assert (Y : forall w : world V, store (w_mem w) (w_ode w) y (w_sol w) = if Nat.eqb (w_sol w) (w_ode w) then y else w_mem w (w_sol w)) by reflexivity.
  destruct (check_cfl c dt nodes stages) as [b|e].
  - unfold sol_update. cbn [warn w_mem w_next w_ode w_ode_time w_sol w_sol_time w_times w_values w_warnings]. rewrite !store_same.
    destruct (finite y); cbn [fst snd]; (split; [|reflexivity]); unfold alike;
      cbn [w_mem w_next w_ode w_ode_time w_sol w_sol_time w_times w_values w_warnings warn]; rewrite ?store_same, ?Nat.eqb_refl, ?Y, ?A3, ?A4, ?A5, ?A6, ?A7, ?A2;
      repeat match goal with |- _ /\ _ => split end; reflexivity.
  - cbn [fst snd]. split; [|reflexivity]. unfold alike.
    cbn [w_mem w_next w_ode w_ode_time w_sol w_sol_time w_times w_values w_warnings]. rewrite ?store_same, ?Y, ?A3, ?A4, ?A5, ?A6, ?A7, ?A2.
    repeat match goal with |- _ /\ _ => split end; reflexivity.
Qed.

Lemma solve_loop_alike c n : forall w1 w2 s, alike w1 w2 ->
  let '(w1', s1, st1) := solve_loop c n w1 s in let '(w2', s2, st2) := solve_loop c n w2 s in
  alike w1' w2' /\ s1 = s2 /\ st1 = st2.
Proof.
  induction n as [|n IH]; intros w1 w2 s A; cbn [M_Solver.solve_loop]; auto.
  pose proof A as [A1 [A2 [A3 [A4 _]]]]. rewrite A2, A4.
  destruct (ts_next _ _ _) as [dt s'| |]; auto.
  destruct (update_alike c dt w1 w2 A) as [U1 U2].
  destruct (solver_update c dt w1) as [w1' r1], (solver_update c dt w2) as [w2' r2]. cbn [fst snd] in U1, U2. subst r2.
  destruct r1; auto. apply IH. exact U1.
Qed.

Lemma solve_alike c n w1 w2 : alike w1 w2 ->
  alike (fst (fst (solve finite c n w1))) (fst (fst (solve finite c n w2))) /\
  snd (fst (solve finite c n w1)) = snd (fst (solve finite c n w2)) /\ snd (solve finite c n w1) = snd (solve finite c n w2).
Proof.
  intro A. unfold solve, tqdm_len. pose proof A as [A1 [A2 [A3 [A4 _]]]]. rewrite A2, A4.
  match goal with |- context [match ?x with Ok _ => _ | Err _ => _ end] => destruct x as [k|e] end; cbn [fst snd]; auto.
  pose proof (solve_loop_alike c n w1 w2 (ts_iter (c_start c)) A) as X.
  destruct (solve_loop c n w1 _) as [[w1' s1] st1], (solve_loop c n w2 _) as [[w2' s2] st2]. cbn [fst snd].
  destruct X as [X1 [X2 X3]]. subst. auto.
Qed.

Lemma reinitialize_alike c v t w1 w2 : alike w1 w2 ->
  (w_sol w1 < w_next w1)%nat -> (w_ode w1 < w_next w1)%nat -> (w_sol w2 < w_next w2)%nat -> (w_ode w2 < w_next w2)%nat ->
  alike (fst (reinitialize finite c v t w1)) (fst (reinitialize finite c v t w2)) /\
  snd (reinitialize finite c v t w1) = snd (reinitialize finite c v t w2).
Proof.
  intros [A1 [A2 [A3 [A4 [A5 [A6 A7]]]]]] B1 B2 B3 B4. unfold reinitialize, sol_update.
  cbn [w_mem w_next w_ode w_ode_time w_sol w_sol_time w_times w_values w_warnings]. rewrite !store_same.
  destruct (finite v); cbn [fst snd w_mem w_next w_ode w_ode_time w_sol w_sol_time w_times w_values w_warnings]; (split; [|reflexivity]); unfold alike;
    cbn [fst snd w_mem w_next w_ode w_ode_time w_sol w_sol_time w_times w_values w_warnings].
  - rewrite !store_same. rewrite !(store_other _ (S _)) by lia. rewrite !store_same, A4, A5, A6.
    repeat match goal with |- _ /\ _ => split end; try reflexivity.
    rewrite (proj2 (Nat.eqb_neq _ _)) by lia. symmetry. apply Nat.eqb_neq. lia.
  - rewrite !store_other by lia. rewrite A5, A6. repeat match goal with |- _ /\ _ => split end; auto.
Qed.
End L.

Section Frame.
Context {V : Type} `{VecOps V} (finite : V -> bool).

Lemma update_frame c dt w w' r : solver_update finite c dt w = (w', r) ->
  w_ode w' = w_ode w /\ w_next w' = w_next w /\ (forall l, l <> w_ode w -> w_mem w' l = w_mem w l) /\
  (w_sol w' = w_sol w \/ w_sol w' = w_ode w) /\
  (r = None -> w_sol_time w' = w_sol_time w + dt /\ w_times w' = (if c_history c then w_times w ++ [w_sol_time w'] else w_times w) /\
               w_values w' = (if c_history c then w_values w ++ [w_mem w' (w_sol w')] else w_values w)) /\
  (r <> None -> w_sol_time w' = w_sol_time w /\ w_times w' = w_times w /\ w_values w' = w_values w).
Proof.
  intro E. unfold solver_update in E. pose proof (ode_execute_spec c dt w) as X.
  destruct (ode_execute c dt w) as [[[w1 nodes] stages]|e].
  2: { inversion E; subst. repeat split; auto; discriminate. }
  destruct X as [y [X1 [X2 ->]]].
  assert (FR : forall l, l <> w_ode w -> store (w_mem w) (w_ode w) (o_sol y) l = w_mem w l) by (intros; apply store_other; auto).
  destruct (check_cfl c dt nodes stages) as [b|e].
  - unfold sol_update in E. cbn [warn w_mem w_next w_ode w_ode_time w_sol w_sol_time w_times w_values w_warnings] in E. rewrite store_same in E.
    destruct (finite (o_sol y)); inversion E; subst; cbn [w_mem w_next w_ode w_ode_time w_sol w_sol_time w_times w_values w_warnings warn]; rewrite ?store_same;
      repeat match goal with |- _ /\ _ => split end; auto; congruence.
  - inversion E; subst; cbn [w_mem w_next w_ode w_ode_time w_sol w_sol_time w_times w_values w_warnings warn];
      repeat match goal with |- _ /\ _ => split end; auto; congruence.
Qed.

(* a property of worlds preserved by the bookkeeping of a step with positive length is preserved by solve *)
Lemma loop_preserves (P : world V -> Prop) c :
  (forall dt w w' r, tol <= dt -> P w -> solver_update finite c dt w = (w', r) -> P w') ->
  forall n w s w' s' st, P w -> solve_loop finite c n w s = (w', s', st) -> P w'.
Proof.
  intro HP. induction n as [|n IH]; intros w s w' s' st Pw E; cbn [solve_loop] in E; [inversion E; subst; auto|].
  destruct (ts_next _ _ _) as [dt s1| |] eqn:Et; try (inversion E; subst; auto; fail).
  apply ts_next_yield in Et as [_ [_ [Et _]]].
  destruct (solver_update finite c dt w) as [w1 [e|]] eqn:Eu.
  - inversion E; subst. eapply HP; eauto.
  - eapply IH; [|exact E]. eapply HP; eauto.
Qed.
Lemma solve_preserves (P : world V -> Prop) c :
  (forall dt w w' r, tol <= dt -> P w -> solver_update finite c dt w = (w', r) -> P w') ->
  forall n w, P w -> P (fst (fst (solve finite c n w))).
Proof.
  intros HP n w Pw. unfold solve. destruct (tqdm_len c w); [|exact Pw].
  destruct (solve_loop finite c n w _) as [[w' s'] st] eqn:E. cbn. eapply loop_preserves; eauto.
Qed.

(** the arrays of the caller: everything below [N] (allocated before the solver) and the copies handed out *)
Definition separate (N : nat) (m : nat -> V) (st : world V * list nat) : Prop :=
  let '(w, owned) := st in
  (N <= w_ode w < w_next w)%nat /\ (w_sol w < w_next w)%nat /\ (N <= w_next w)%nat /\
  ~ In (w_ode w) owned /\ ~ In (w_sol w) owned /\ (forall l, In l owned -> (N <= l < w_next w)%nat) /\
  forall l, (l < N)%nat -> w_mem w l = m l.

Lemma solve_frame c n w : let w' := fst (fst (solve finite c n w)) in
  w_ode w' = w_ode w /\ w_next w' = w_next w /\ (forall l, l <> w_ode w -> w_mem w' l = w_mem w l) /\ (w_sol w' = w_sol w \/ w_sol w' = w_ode w).
Proof.
  cbv zeta. set (P := fun w' : world V => w_ode w' = w_ode w /\ w_next w' = w_next w /\ (forall l, l <> w_ode w -> w_mem w' l = w_mem w l) /\
     (w_sol w' = w_sol w \/ w_sol w' = w_ode w)).
  apply (solve_preserves P); [|unfold P; auto].
  intros dt w1 w2 r _ [P1 [P2 [P3 P4]]] E. destruct (update_frame _ _ _ _ _ E) as [F1 [F2 [F3 [F4 _]]]].
  unfold P. repeat match goal with |- _ /\ _ => split end; try congruence.
  - intros l Hl. rewrite F3 by congruence. auto.
  - destruct F4 as [-> | ->]; [auto|right; auto].
Qed.

Lemma reinitialize_frame c v t w : (w_ode w < w_next w)%nat -> (w_sol w < w_next w)%nat ->
  let w' := fst (reinitialize finite c v t w) in
  (w_next w <= w_next w')%nat /\ (forall l, (l < w_next w)%nat -> w_mem w' l = w_mem w l) /\
  (w_ode w' = w_ode w \/ (w_next w <= w_ode w' < w_next w')%nat) /\ (w_sol w' = w_sol w \/ (w_next w <= w_sol w' < w_next w')%nat).
Proof.
  intros B1 B2. cbv zeta. unfold reinitialize, sol_update. cbn [w_mem w_next w_ode w_ode_time w_sol w_sol_time w_times w_values w_warnings]. rewrite store_same.
  destruct (finite v); cbn [fst w_mem w_next w_ode w_ode_time w_sol w_sol_time w_times w_values w_warnings].
  - split; [lia|]. split; [intros l Hl; rewrite !store_other by lia; reflexivity|]. split; right; lia.
  - split; [lia|]. split; [intros l Hl; rewrite store_other by lia; reflexivity|]. auto.
Qed.

Lemma separate_step N m c st u : separate N m st -> separate N m (use_step finite c st u).
Proof.
  destruct st as [w owned]. intros [S1 [S2 [S3 [S4 [S5 [S6 S7]]]]]]. destruct u as [|i v|n|v t]; cbn [use_step].
  - cbn [separate w_mem w_next w_ode w_sol]. repeat match goal with |- _ /\ _ => split end; try lia.
    + rewrite in_app_iff. cbn. intros [?|[?|[]]]; [auto|lia].
    + rewrite in_app_iff. cbn. intros [?|[?|[]]]; [auto|lia].
    + intros l Hl. rewrite in_app_iff in Hl. cbn in Hl. destruct Hl as [Hl|[Hl|[]]]; [specialize (S6 l Hl)|]; lia.
    + intros l Hl. rewrite store_other by lia. auto.
  - destruct (nth_error owned i) as [l|] eqn:E; [|cbn [separate]; auto 10].
    apply nth_error_In in E. cbn [separate w_mem w_next w_ode w_sol]. repeat match goal with |- _ /\ _ => split end; try lia; auto.
    intros k Hk. specialize (S6 l E). rewrite store_other by lia. auto.
  - destruct (solve_frame c n w) as [F1 [F2 [F3 F4]]]. set (w' := fst (fst (solve finite c n w))) in *.
    cbn [separate]. rewrite F1, F2. repeat match goal with |- _ /\ _ => split end; try lia; auto.
    + destruct F4 as [-> | ->]; auto.
    + intros l Hl. rewrite F3 by lia. auto.
  - destruct (reinitialize_frame c v t w) as [F1 [F2 [F3 F4]]]; try lia. set (w' := fst (reinitialize finite c v t w)) in *.
    cbn [separate]. repeat match goal with |- _ /\ _ => split end; try lia; auto.
    + destruct F3 as [-> | F3]; [auto|]. intro X. specialize (S6 _ X). lia.
    + destruct F4 as [-> | F4]; [auto|]. intro X. specialize (S6 _ X). lia.
    + intros l Hl. specialize (S6 l Hl). lia.
    + intros l Hl. rewrite F2 by lia. auto.
Qed.
Lemma separate_run N m c us : forall st, separate N m st -> separate N m (use_run finite c us st).
Proof. unfold use_run. induction us; intros st S; cbn; auto. apply IHus, separate_step, S. Qed.
Lemma separate_new c m next sol time : (sol < next)%nat -> separate next m (new_solver c m next sol time, []).
Proof.
  intro Hs. unfold new_solver. cbn [separate w_mem w_next w_ode w_sol]. repeat match goal with |- _ /\ _ => split end; try lia; auto.
  - intros l [].
  - intros l Hl. apply store_other. lia.
Qed.

Definition is_write (u : use V) : bool := match u with Write _ _ => true | _ => false end.

(* a step that is not a write leaves the copies alone *)
Lemma copies_step N m c w owned u : separate N m (w, owned) -> is_write u = false ->
  forall l, In l owned -> In l (snd (use_step finite c (w, owned) u)) /\ w_mem (fst (use_step finite c (w, owned) u)) l = w_mem w l.
Proof.
  intros [S1 [S2 [S3 [S4 [S5 [S6 S7]]]]]] U l Hl. specialize (S6 l Hl). assert (Hne : l <> w_ode w) by (intro; subst; auto).
  destruct u as [|i v|n|v t]; cbn [use_step fst snd]; [| discriminate | |].
  - split; [apply in_or_app; auto|]. cbn [w_mem]. apply store_other. lia.
  - split; auto. apply solve_frame; auto.
  - split; auto. apply reinitialize_frame; lia.
Qed.

Lemma unwritten_step N1 m1 N2 m2 c st1 st2 u : separate N1 m1 st1 -> separate N2 m2 st2 -> alike (fst st1) (fst st2) ->
  alike (fst (use_step finite c st1 u)) (fst (if is_write u then st2 else use_step finite c st2 u)).
Proof.
  destruct st1 as [w1 o1], st2 as [w2 o2]. cbn [fst]. intros S S' A.
  pose proof S as [S1 [S2 [S3 [S4 [S5 [S6 S7]]]]]]. pose proof S' as [T1 [T2 [T3 [T4 [T5 [T6 T7]]]]]].
  destruct u as [|i v|n|v t]; cbn [use_step is_write fst].
  - destruct A as [A1 [A2 [A3 [A4 [A5 [A6 A7]]]]]]. unfold alike. cbn [w_mem w_ode w_sol w_ode_time w_sol_time w_times w_values].
    rewrite !store_other by lia. auto 10.
  - destruct (nth_error o1 i) as [l|] eqn:E; [|exact A]. apply nth_error_In in E.
    destruct A as [A1 [A2 [A3 [A4 [A5 [A6 A7]]]]]]. unfold alike. cbn [w_mem w_ode w_sol w_ode_time w_sol_time w_times w_values fst].
    rewrite !store_other by (intro; subst; auto). auto 10.
  - apply solve_alike. exact A.
  - apply reinitialize_alike; auto; lia.
Qed.

Lemma unwritten_run N1 m1 N2 m2 c us : forall st1 st2, separate N1 m1 st1 -> separate N2 m2 st2 -> alike (fst st1) (fst st2) ->
  alike (fst (use_run finite c us st1)) (fst (use_run finite c (filter (fun u => negb (is_write u)) us) st2)).
Proof.
  unfold use_run. induction us as [|u us IH]; intros st1 st2 S1 S2 A; [exact A|].
  pose proof (unwritten_step _ _ _ _ c _ _ u S1 S2 A) as X. cbn [fold_left filter]. destruct (is_write u); cbn [negb fold_left].
  - apply IH; auto. apply separate_step. auto.
  - apply IH; auto; apply separate_step; auto.
Qed.
Lemma alike_refl (w : world V) : alike w w.
Proof. unfold alike; auto 10. Qed.

(** histories never reach back behind [t] *)
Definition later (c : config V) (t : R) (w : world V) : Prop :=
  t <= w_sol_time w /\ Forall (fun x => t <= x) (w_times w) /\ (c_history c = false -> w_times w = [] /\ w_values w = []).
Lemma filter_all {A} (P : A -> Prop) f (l : list A) : Forall P l -> Forall P (filter f l).
Proof. rewrite !Forall_forall. intros F x Hx. apply filter_In in Hx. apply F. tauto. Qed.
Lemma later_step c t st u : later c t (fst st) -> (forall v t', u = Reinit v t' -> t <= t') -> later c t (fst (use_step finite c st u)).
Proof.
  destruct st as [w owned]. cbn [fst]. intros L HR. destruct u as [|i v|n|v t']; cbn [use_step].
  - exact L.
  - destruct (nth_error owned i); exact L.
  - cbn [fst]. apply (solve_preserves (later c t)); auto. intros dt w1 w2 r Hd [L1 [L2 L3]] E.
    destruct (update_frame _ _ _ _ _ E) as [_ [_ [_ [_ [F5 F6]]]]]. pose proof tol_pos. destruct r as [e|].
    + destruct F6 as [G1 [G2 G3]]; [discriminate|]. unfold later. rewrite G1, G2, G3. auto.
    + destruct F5 as [G1 [G2 G3]]; [reflexivity|]. unfold later. rewrite G2, G3, G1. split; [lra|]. destruct (c_history c).
      * split; [|discriminate]. apply Forall_app. split; auto. constructor; [lra|constructor].
      * split; auto.
  - specialize (HR v t' eq_refl). destruct L as [L1 [L2 L3]]. cbn [fst]. unfold reinitialize, sol_update.
    cbn [w_mem w_next w_ode w_ode_time w_sol w_sol_time w_times w_values w_warnings]. rewrite store_same.
    destruct (finite v); unfold later; cbn [fst w_mem w_next w_ode w_ode_time w_sol w_sol_time w_times w_values w_warnings]; (split; [lra|]).
    + destruct (c_history c); [|auto]. split; [|discriminate]. apply Forall_app. split; [apply filter_all; auto|].
      constructor; [lra|constructor].
    + destruct (c_history c); [|auto]. split; [|discriminate]. apply filter_all; auto.
Qed.
Lemma later_run c t us : forall st, later c t (fst st) -> (forall v t', In (Reinit v t') us -> t <= t') ->
  later c t (fst (use_run finite c us st)).
Proof.
  unfold use_run. induction us as [|u us IH]; intros st L HR; [exact L|]. cbn [fold_left]. apply IH.
  - apply later_step; auto. intros v t' ->. apply (HR v t'). left. auto.
  - intros v t' Hin. apply (HR v t'). right. auto.
Qed.
Lemma filter_none t l : Forall (fun x => t <= x) l -> filter (fun t' => Rltb t' t) l = [].
Proof.
  induction 1 as [|x l Hx _ IH]; [reflexivity|]. cbn. destruct (Rltb_spec x t); [lra|auto].
Qed.
Lemma mask_none t l : Forall (fun x => t <= x) l -> forall vs : list V, mask_values t l vs = [].
Proof.
  induction 1 as [|x l Hx _ IH]; intros [|v vs]; try reflexivity. cbn. destruct (Rltb_spec x t); [lra|auto].
Qed.
End Frame.
