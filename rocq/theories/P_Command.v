(** C72: calculate. C73: plot. C74: animate. *)
From Coq Require Import Reals String List Lia Lra Arith Bool.
From Verif Require Import Prelude L_Prelude M_TimeStepping P_TimeStepping M_Mesh M_Quadrature M_Boundary L_Boundary M_ODE M_Solution M_Solver S_Solver L_Solver P_Solver L_Flux M_Interpolate S_Interpolate S_Quadrature L_Interpolate P_Interpolate M_ShallowWater M_FVSolver M_ScalarSolver M_Command S_Command L_SWMirror M_Benchmark M_Scalar S_Scalar S_ScalarSolver P_ScalarSolver P_Quadrature S_FVSolver P_FVWater P_Gauss.
Import ListNotations.
Open Scope R_scope.

(** ** C72: calculate *)
(** The solvers are solved one after the other, each from its own state: the first [k] end as if they were alone, the others
    are left untouched. If none of the first [k] raises all are solved; otherwise the last of them raises and its exception ends the command. *)
Theorem C72_calculate : forall {Sv} (solve : Sv -> Sv * option exn) l d,
  exists k r, (k <= length l)%nat /\
  calculate_execute solve (SolverList l) = (SolverList (map (fun s => fst (solve s)) (firstn k l) ++ skipn k l), r) /\
  (forall i, (S i < k)%nat -> snd (solve (nth i l d)) = None) /\
  match r with
  | None => k = length l /\ (forall s, In s l -> snd (solve s) = None)
  | Some e => (0 < k)%nat /\ snd (solve (nth (k - 1) l d)) = Some e
  end.
Proof.
  intros Sv solve l d.
  assert (G : exists k r, (k <= length l)%nat /\ solve_all solve l = (map (fun s => fst (solve s)) (firstn k l) ++ skipn k l, r) /\
    (forall i, (S i < k)%nat -> snd (solve (nth i l d)) = None) /\
    match r with None => k = length l /\ (forall s, In s l -> snd (solve s) = None) | Some e => (0 < k)%nat /\ snd (solve (nth (k - 1) l d)) = Some e end).
  { induction l as [|s l IH]; [exists 0%nat, None; cbn; repeat split; auto; intros; lia|]. cbn [solve_all].
    destruct (solve s) as [s' [e|]] eqn:E.
    - exists 1%nat, (Some e). cbn [length firstn map skipn nth]. rewrite E. cbn [fst Nat.sub]. split; [lia|]. split; [reflexivity|]. split; [intros; lia|]. rewrite E. auto.
    - destruct IH as [k [r [K1 [K2 [K3 K4]]]]]. rewrite K2. exists (S k), r. cbn [length firstn map skipn]. rewrite E. cbn [fst]. split; [lia|]. split; [reflexivity|]. split.
      + intros [|i] Hi; cbn [nth]; [rewrite E; auto|]. apply K3. lia.
      + destruct r as [e|].
        * destruct K4 as [K4 K5]. split; [lia|]. replace (S k - 1)%nat with (S (k - 1)) by lia. exact K5.
        * destruct K4 as [K4 K5]. split; [lia|]. intros x [<-|X]; [rewrite E; auto|auto]. }
  destruct G as [k [r [K1 [K2 K3]]]]. exists k, r. split; [auto|]. split; [|exact K3].
  destruct l as [|s [|s2 l]].
  - cbn in *. injection K2 as K2 <-. rewrite <- K2. reflexivity.
  - cbn [calculate_execute]. cbn [solve_all] in K2. destruct (solve s) as [s' [e|]]; injection K2 as K2 <-; rewrite <- K2; reflexivity.
  - unfold calculate_execute. rewrite K2. reflexivity.
Qed.
Print Assumptions C72_calculate.

(** A solver and a list of one solver are treated alike. *)
Theorem C72_one_solver : forall {Sv} (solve : Sv -> Sv * option exn) s,
  let '(s', r) := solve s in
  calculate_execute solve (OneSolver s) = (OneSolver s', r) /\ calculate_execute solve (SolverList [s]) = (SolverList [s'], r).
Proof. intros Sv solve s. unfold calculate_execute. destruct (solve s). auto. Qed.
Print Assumptions C72_one_solver.

(** "calculate" without solver has nothing to do; it fails: the solvers are None, of which there is no length. *)
Theorem C72_no_solver_refuted :
  ~ (forall {Sv Ar} (solve : Sv -> Sv * option exn) (new : Ar -> result Sv) g, build_solvers new None = Ok g -> snd (calculate_execute solve g) = None).
Proof. intro H. specialize (H unit unit (fun s => (s, None)) (fun _ => Ok tt) NoSolver eq_refl). discriminate. Qed.
Print Assumptions C72_no_solver_refuted.

(** what the constructors hand over to the loop *)
Definition runs_from (c : config (list R)) (w : world (list R)) (start e : R) : Prop :=
  in_sync w /\ w_sol_time w = start /\ c_start c = start /\ c_end c = e.
Lemma scalar_runs eig g b a c w : scalar_solver eig g b a = Ok (c, w) -> runs_from c w (sb_start b) (sb_end b).
Proof.
  intro E. unfold scalar_solver in E. inv_bind E. destruct a0 as [m u]. inv_bind E. inv_bind E. apply Ok_inj in E. injection E as <- <-.
  split; [apply (C47_solvers_start_in_sync (fun _ => true)); lia|]. auto.
Qed.
Lemma fe_runs eig solver old k b a c w : fe_solver eig solver old k b a = Ok (c, w) -> runs_from c w (sb_start b) (sb_end b).
Proof.
  assert (L : forall rhs ad, limited_solver eig old rhs ad b a = Ok (c, w) -> runs_from c w (sb_start b) (sb_end b)).
  { intros rhs ad E. unfold limited_solver in E. inv_bind E. destruct a0 as [m u]. inv_bind E. apply Ok_inj in E. injection E as <- <-.
    split; [apply (C47_solvers_start_in_sync (fun _ => true)); lia|]. auto. }
  destruct k; cbn [fe_solver]; try apply L. intro E. unfold cg_solver in E. inv_bind E. destruct a0 as [m u]. inv_bind E. inv_bind E. apply Ok_inj in E. injection E as <- <-.
  split; [apply (C47_solvers_start_in_sync (fun _ => true)); lia|]. auto.
Qed.

(** With the option -T every scalar solver that is not interrupted, stopped by an exception or by too small a step ends at the given time
    (up to 1e-12), and none gets beyond it; without the option it is the benchmark's end time. *)
Theorem C72_end_time : forall eig solver old finite b t n c w w' s st,
  ((exists g a, scalar_solver eig g (adjust_end_time b t) a = Ok (c, w)) \/ (exists k a, fe_solver eig solver old k (adjust_end_time b t) a = Ok (c, w))) ->
  (forall x, t = Some x -> 0 < x) ->
  solve finite c n w = (w', Some s, st) ->
  let e := match t with Some x => x | None => sb_end b end in
  (st = Completed -> e - 1 / 10 ^ 12 < o_time (solution_of w') <= e) /\
  (sb_start b <= e -> sb_start b <= o_time (solution_of w') <= e).
Proof.
  intros eig solver old finite b t n c w w' s st B Hp E e.
  assert (R : runs_from c w (sb_start b) e).
  { assert (K : sb_start (adjust_end_time b t) = sb_start b /\ sb_end (adjust_end_time b t) = e).
    { unfold e, adjust_end_time. destruct t as [x|]; [|auto]. specialize (Hp x eq_refl). destruct (Reqb_spec x 0); [lra|auto]. }
    destruct K as [<- <-]. destruct B as [[g [a B]]|[k [a B]]]; [eapply scalar_runs|eapply fe_runs]; eauto. }
  destruct R as [R1 [R2 [R3 R4]]]. destruct (C47_time_of_the_solution _ _ _ _ _ _ _ R1 E) as [T1 T2]. cbn [solution_of o_time]. rewrite R2, R3, R4 in *. split.
  - intro X. specialize (T1 X). lra.
  - intro Le. assert (D : st = Completed \/ st <> Completed) by (destruct st; auto; right; discriminate). destruct D as [->|D].
    + specialize (T1 eq_refl). split; [|lra].
      destruct (C47_solve_drives_ode_solver_and_solution _ _ _ _ _ _ _ R1 E) as [dts [os [C [_ [_ [M1 [_ M2]]]]]]].
      pose proof (chain_time _ _ _ _ _ _ C (length dts) (le_n _)) as X. rewrite firstn_all in X. cbn [solution_of o_time] in X.
      assert (0 <= rsum dts).
      { apply rsum_nonneg. intros x Hx. apply (In_nth _ _ 0) in Hx as [k [Hk <-]]. pose proof (C01_time_stepping_covers_interval (c_start c) (c_end c) (proposed c (solution_of w) os) n) as K.
        rewrite M1 in K. destruct K as [K _]. destruct (K k Hk) as [[K3 _] _]. lra. }
      assert (Y : o_time (solution_of w') = w_sol_time w + rsum dts).
      { rewrite M2, <- X. destruct C as [L _]. f_equal. rewrite <- L. clear. destruct os as [|o os]; [reflexivity|].
        cbn [length]. change (nth (S (length os)) (solution_of w :: o :: os) (solution_of w)) with (nth (length os) (o :: os) (solution_of w)).
        generalize (solution_of w) as d. revert o. induction os as [|o1 os IH]; intros o d; [reflexivity|].
        change (last (o :: o1 :: os) d) with (last (o1 :: os) d). cbn [length]. rewrite IH. reflexivity. }
      cbn [solution_of o_time] in Y. lra.
    + specialize (T2 D). lra.
Qed.
Print Assumptions C72_end_time.

Lemma solve_loop_more {V} `{VecOps V} finite (c : config V) k : forall n w s w' s', solve_loop finite c n w s = (w', s', Completed) -> solve_loop finite c (n + k) w s = (w', s', Completed).
Proof.
  induction n as [|n IH]; intros w s w' s' E; cbn [solve_loop Nat.add] in *; [discriminate|]. destruct (ts_next _ _ _); auto; [].
  destruct (solver_update _ _ _ _) as [w1 [e|]]; [discriminate|]. apply IH. exact E.
Qed.
Lemma solve_more {V} `{VecOps V} finite (c : config V) n k w w' s : solve finite c n w = (w', Some s, Completed) -> solve finite c (n + k) w = (w', Some s, Completed).
Proof.
  unfold solve. destruct (tqdm_len c w); [|discriminate]. destruct (solve_loop finite c n w _) as [[w1 s1] st] eqn:E. intro X. injection X as <- <- ->. rewrite (solve_loop_more _ _ _ _ _ _ _ _ E). reflexivity.
Qed.
(** "calculate advection -b ... -T t -s ... -s ..." with any number of the finite volume solvers with LLF or MCL fluxes and default arguments:
    the command ends without exception, every solver has reached the end time and kept the bounds of the data. *)
Theorem C72_calculate_advection : forall eig finite gs u0 lo t, eig2_works eig -> (forall g, In g gs -> bounded_scheme g) ->
  (u0 = three_hills \/ u0 = two_hills \/ u0 = one_hill \/ u0 = gaussian_bell) /\ lo = 0 \/ u0 = cosine /\ lo = -1 ->
  (forall v, in_range lo 1 v -> finite v = true) -> 1 / 10 ^ 12 <= t ->
  exists l n l', build_solvers (fun g => scalar_solver eig g (adjust_end_time (advection_benchmark u0 1) (Some t)) {| a_mesh_size := None; a_cfl := None; a_ode := None; a_history := false |}) (Some gs) = Ok (SolverList l) /\
    length l = length gs /\
    forall k, calculate_execute (solve_object finite (n + k)) (SolverList l) = (SolverList l', None) /\ length l' = length gs /\
    forall c w, In (c, w) l' -> t - 1 / 10 ^ 12 < o_time (solution_of w) <= t /\ in_range lo 1 (o_sol (solution_of w)).
Proof.
  intros eig finite gs u0 lo t HE HG Hu HF Ht.
  assert (B : adjust_end_time (advection_benchmark u0 1) (Some t) = advection_benchmark u0 t).
  { unfold adjust_end_time. destruct (Reqb_spec t 0); [lra|reflexivity]. }
  rewrite B.
  assert (G : exists l n l', mapM (fun g => scalar_solver eig g (advection_benchmark u0 t) {| a_mesh_size := None; a_cfl := None; a_ode := None; a_history := false |}) gs = Ok l /\ length l = length gs /\
    forall k, solve_all (solve_object finite (n + k)) l = (l', None) /\ length l' = length gs /\
    forall c w, In (c, w) l' -> t - 1 / 10 ^ 12 < o_time (solution_of w) <= t /\ in_range lo 1 (o_sol (solution_of w))).
  { induction gs as [|g gs IH]; [exists [], 0%nat, []; split; [reflexivity|split; [reflexivity|intro k; split; [reflexivity|split; [reflexivity|intros c w []]]]]|].
    destruct IH as [l [n [l' [I1 [I2 I3]]]]]; [intros; apply HG; right; auto|].
    destruct (C69_advection_benchmarks eig finite g u0 lo t false [] HE (HG g (or_introl eq_refl)) Hu HF Ht) as [c [w [E [_ [m [w' [s [S1 [S2 S3]]]]]]]]]; [intros v x []|].
    exists ((c, w) :: l), (m + n)%nat, ((c, w') :: l'). cbn [mapM]. rewrite E. cbn [bind]. rewrite I1. cbn [bind]. split; [reflexivity|]. split; [cbn; lia|]. intro k. cbn [solve_all].
    assert (X : solve_object finite (m + n + k) (c, w) = ((c, w'), None)).
    { unfold solve_object. rewrite <- Nat.add_assoc. rewrite (solve_more _ _ _ _ _ _ _ S1). reflexivity. }
    rewrite X. replace (m + n + k)%nat with (n + (m + k))%nat by lia. destruct (I3 (m + k)%nat) as [J1 [J2 J3]]. rewrite J1. split; [reflexivity|]. split; [cbn; lia|].
    intros c1 w1 [Q|Q]; [injection Q as <- <-; auto|eapply J3; eauto]. }
  destruct G as [l [n [l' [G1 [G2 G3]]]]]. exists l, n, l'. unfold build_solvers. rewrite G1. split; [reflexivity|]. split; [exact G2|]. intro k. destruct (G3 k) as [J1 [J2 J3]]. split; [|auto].
  destruct l as [|o1 [|o2 l]].
  - cbn in *. injection J1 as <-. reflexivity.
  - cbn [calculate_execute]. cbn [solve_all] in J1. destruct (solve_object finite (n + k) o1) as [o' [e|]]; [discriminate|]. injection J1 as <-. reflexivity.
  - unfold calculate_execute. rewrite J1. reflexivity.
Qed.
Print Assumptions C72_calculate_advection.
Example C72_ex :
  (exists eig, eig2_works eig) /\ (forall g, In g [SLLF; SMCL; SLLF] -> bounded_scheme g) /\
  (let solve := fun s : nat => (S s, if Nat.eqb s 1 then Some ValueError else None) in
   calculate_execute solve (SolverList [0; 1; 2]%nat) = (SolverList [1; 2; 2]%nat, Some ValueError) /\
   calculate_execute solve (SolverList [0; 5; 2]%nat) = (SolverList [1; 6; 3]%nat, None)).
Proof.
  split; [|split; [|split; reflexivity]].
  - destruct (C43_decomposition_exists 2) as [eig HE]. exists eig. apply HE. lia.
  - intros g [<-|[<-|[<-|[]]]]; unfold bounded_scheme; auto.
Qed.

(** ** C73: plot *)
Section Plot.
Context {Sv A : Type} (solve : Sv -> Sv * option exn) (axes : list (list R -> list A -> list R)).
Context (grid_of : Sv -> list R) (value_of : Sv -> list A) (short_of : Sv -> string).

Lemma add_lines_spec grid (values : list A) labels : forall fs old k j d f, length old = length fs -> (j < length fs)%nat ->
  nth j (add_lines k fs old grid values labels) d = nth j old d ++ [line_on (nth j fs f) (k + j) {| d_grid := grid; d_values := values; d_labels := labels |}] /\
  length (add_lines k fs old grid values labels) = length fs.
Proof.
  induction fs as [|g fs IH]; intros [|ls old] k j d f L Hj; cbn in L, Hj; try lia. cbn [add_lines].
  assert (LL : forall (fs : list (list R -> list A -> list R)) old k, length old = length fs -> length (add_lines k fs old grid values labels) = length fs).
  { clear. induction fs as [|g fs IH]; intros [|ls old] k L; cbn in *; try lia. rewrite IH; lia. }
  split; [|cbn; rewrite LL; lia]. destruct j as [|j].
  - cbn [nth]. rewrite Nat.add_0_r. f_equal. f_equal. unfold line_on. cbn [d_labels d_grid d_values]. f_equal. unfold label_of.
    destruct labels as [|x [|y labels]]; reflexivity.
  - cbn [nth]. rewrite (proj1 (IH old (S k) j d f ltac:(lia) ltac:(lia))). replace (S k + j)%nat with (k + S j)%nat by lia. reflexivity.
Qed.
Definition shows (p : plotter) (ds : list (drawing A)) : Prop :=
  length (p_axes p) = length axes /\ (forall k f d, (k < length axes)%nat -> nth k (p_axes p) d = map (line_on (nth k axes f) k) ds) /\
  p_available p = match ds with [] => false | _ => true end.
Lemma shows_new : shows (new_plotter axes) [].
Proof.
  split; [apply map_length|]. split; [|reflexivity]. intros k f d Hk. unfold new_plotter. cbn [p_axes map].
  rewrite (nth_indep _ d []) by (rewrite map_length; auto). rewrite (nth_map' _ axes k f) by auto. reflexivity.
Qed.
Lemma shows_add p ds grid values labels : shows p ds -> shows (add_function_values axes grid values labels p) (ds ++ [{| d_grid := grid; d_values := values; d_labels := labels |}]).
Proof.
  intros [L [N _]]. unfold add_function_values. split; [|split].
  - cbn [p_axes]. destruct axes as [|f fs] eqn:Ea; [cbn in *; destruct (p_axes p); [auto|discriminate]|]. rewrite <- Ea in *.
    apply (proj2 (add_lines_spec grid values labels axes (p_axes p) 0 0 [] f L ltac:(rewrite Ea; cbn; lia))).
  - intros k f d Hk. cbn [p_axes]. rewrite (proj1 (add_lines_spec grid values labels axes (p_axes p) 0 k d f L Hk)). rewrite (N k f d Hk), map_app. reflexivity.
  - cbn [p_available]. destruct ds; reflexivity.
Qed.
Lemma shows_discrete l : forall p ds, shows p ds -> shows (add_discrete_solutions axes grid_of value_of short_of l p) (ds ++ map (drawing_of grid_of value_of short_of) l).
Proof.
  induction l as [|s l IH]; intros p ds H; cbn; [rewrite app_nil_r; auto|]. unfold add_discrete_solutions in IH.
  specialize (IH _ _ (shows_add p ds (grid_of s) (value_of s) [short_of s] H)). rewrite <- app_assoc in IH. exact IH.
Qed.
Lemma mapM_all {X Y} (f : X -> result Y) g l : (forall x, In x l -> f x = Ok (g x)) -> mapM f l = Ok (map g l).
Proof. induction l as [|a l IH]; intro H; [reflexivity|]. cbn. rewrite (H a) by (left; auto). cbn. rewrite IH by (intros; apply H; right; auto). reflexivity. Qed.
Lemma mapM_some_err {X Y} (f : X -> result Y) l x e : In x l -> f x = Err e -> exists e', mapM f l = Err e'.
Proof.
  induction l as [|a l IH]; intros H E; [destruct H|]. destruct H as [->|I]; cbn.
  - rewrite E. cbn. eauto.
  - destruct (f a) as [y|e1]; cbn; [|eauto]. destruct (IH I E) as [e' ->]. cbn. eauto.
Qed.

(** What a plot shows: on every axes the exact solution, if it can be evaluated on the plot's grid, then for every solver one line with
    the solution this solver reaches on its own, also if it or another one fails, then the initial data if asked for,
    then the lines added at the end (the bathymetry). Nothing is plotted only if there is nothing of all this. *)
Theorem C73_lines : forall (i : plot_input A) l u0,
  length (pi_setup i) = length axes ->
  (forall g, pi_initial i = Some g -> forall x, In x (pi_grid i) -> g x = Ok (u0 x)) ->
  let reached := if pi_executed i then l else map (fun s => fst (solve s)) l in
  exists E, 
  (forall u, (forall x, In x (pi_grid i) -> pi_exact i x = Ok (u x)) -> E = [{| d_grid := pi_grid i; d_values := map u (pi_grid i); d_labels := pi_exact_labels i |}]) /\
  ((exists x e, In x (pi_grid i) /\ pi_exact i x = Err e) -> E = []) /\
  let I := match pi_initial i with None => [] | Some _ => [{| d_grid := pi_grid i; d_values := map u0 (pi_grid i); d_labels := pi_initial_labels i |}] end in
  let drawn := E ++ map (drawing_of grid_of value_of short_of) reached ++ I in
  (drawn = [] -> plot_execute solve axes grid_of value_of short_of i (SolverList l) = Ok (NothingToPlot (Some reached))) /\
  (drawn <> [] -> exists lines files,
     plot_execute solve axes grid_of value_of short_of i (SolverList l) = Ok (Plotted (Some reached) lines files) /\
     length lines = length axes /\
     forall k f, (k < length axes)%nat -> nth k lines [] = map (line_on (nth k axes f) k) drawn ++ nth k (pi_setup i) []).
Proof.
  intros i l u0 Ls Hi reached. set (p1 := add_exact_solution axes (pi_grid i) (pi_exact i) (pi_exact_labels i) (new_plotter axes)).
  assert (P1 : exists E, shows p1 E /\ (forall u, (forall x, In x (pi_grid i) -> pi_exact i x = Ok (u x)) -> E = [{| d_grid := pi_grid i; d_values := map u (pi_grid i); d_labels := pi_exact_labels i |}]) /\
    ((exists x e, In x (pi_grid i) /\ pi_exact i x = Err e) -> E = [])).
  { unfold p1, add_exact_solution, add_function. destruct (mapM (pi_exact i) (pi_grid i)) as [vs|e] eqn:Em; cbn [bind].
    - eexists. split; [apply shows_add, shows_new|]. split.
      + intros u Hu. rewrite (mapM_all _ u _ Hu) in Em. apply Ok_inj in Em. rewrite <- Em. reflexivity.
      + intros [x [e [I1 I2]]]. destruct (mapM_some_err _ _ _ _ I1 I2) as [e' Ee]. congruence.
    - exists []. split; [apply shows_new|]. split; [|auto]. intros u Hu. rewrite (mapM_all _ u _ Hu) in Em. discriminate. }
  destruct P1 as [E [P1 [E1 E2]]]. exists E. split; [exact E1|]. split; [exact E2|]. cbv zeta.
  set (D := E ++ map (drawing_of grid_of value_of short_of) reached ++ _).
  assert (P3 : exists p3, bind (match pi_initial i with Some g => add_function axes (pi_grid i) g (pi_initial_labels i) (add_discrete_solutions axes grid_of value_of short_of reached p1)
     | None => Ok (add_discrete_solutions axes grid_of value_of short_of reached p1) end) (fun p => Ok p) = Ok p3 /\ shows p3 D).
  { pose proof (shows_discrete reached p1 E P1) as P2. destruct (pi_initial i) as [g|] eqn:Ei.
    - unfold add_function. rewrite (mapM_all _ u0 _ (Hi g eq_refl)). cbn [bind]. eexists. split; [reflexivity|]. unfold D. rewrite app_assoc. apply shows_add. exact P2.
    - eexists. split; [reflexivity|]. unfold D. rewrite app_nil_r. exact P2. }
  destruct P3 as [p3 [X3 [S1 [S2 S3]]]].
  assert (X : plot_execute solve axes grid_of value_of short_of i (SolverList l) =
    if p_available p3 then let p4 := {| p_axes := map2 (fun a b => a ++ b) (p_axes p3) (pi_setup i); p_available := true |} in
      Ok (Plotted (Some reached) (p_axes p4) (save_results (pi_paths i) (pi_save i) p4)) else Ok (NothingToPlot (Some reached))).
  { unfold plot_execute. cbn [solvers_of]. unfold calculate_solutions. fold reached. fold p1. match type of X3 with bind ?r _ = _ => destruct r as [p|e] end; cbn [bind] in X3 |- *; [|discriminate].
    apply Ok_inj in X3. rewrite X3. reflexivity. }
  rewrite X, S3. split.
  - intros ->. reflexivity.
  - intro Dn. destruct D as [|d0 D']; [congruence|]. cbv zeta. eexists. eexists. split; [reflexivity|]. cbn [p_axes].
    assert (Lm : length (map2 (fun a b : list line => a ++ b) (p_axes p3) (pi_setup i)) = length axes) by (rewrite map2_length; lia).
    split; [exact Lm|]. intros k f Hk. rewrite (nth_map2 _ _ _ k [] []) by lia. rewrite (S2 k f [] Hk). reflexivity.
Qed.
End Plot.
Print Assumptions C73_lines.

Lemma dict_set_stored {X} k (v : X) k' : forall d, stored k' (dict_set k v d) = if String.eqb k' k then Some v else stored k' d.
Proof.
  induction d as [|[k1 v1] d IH]; cbn; [destruct (String.eqb k' k); auto|]. destruct (String.eqb_spec k k1) as [->|N]; cbn.
  - destruct (String.eqb k' k1); auto.
  - rewrite IH. destruct (String.eqb_spec k' k1) as [->|N1]; [|auto]. destruct (String.eqb_spec k1 k); [congruence|auto].
Qed.
Lemma dict_set_new {X} k (v : X) d : ~ In k (map fst d) -> dict_set k v d = d ++ [(k, v)].
Proof.
  induction d as [|[k1 v1] d IH]; intro N; cbn; [auto|]. destruct (String.eqb_spec k k1) as [->|_]; [exfalso; apply N; left; auto|]. rewrite IH; auto. intro I; apply N; right; auto.
Qed.
Lemma save_result_app ls l : save_result (ls ++ [l]) = dict_set (l_label l) (l_x l, l_y l) (save_result ls).
Proof. unfold save_result. rewrite fold_left_app. reflexivity. Qed.
(** The saved data: lines with different labels are all kept, in their order, with their x- and y-values; in any case a label leads to
    the data of the last line with this label. *)
Theorem C73_saved_data : forall ls,
  (NoDup (map l_label ls) -> save_result ls = map (fun l => (l_label l, (l_x l, l_y l))) ls) /\
  (forall k, (forall l, In l ls -> l_label l <> k) -> stored k (save_result ls) = None) /\
  (forall a l b, ls = a ++ l :: b -> (forall l', In l' b -> l_label l' <> l_label l) -> stored (l_label l) (save_result ls) = Some (l_x l, l_y l)).
Proof.
  split; [|split].
  - induction ls as [|l ls IH] using rev_ind; intro N; [reflexivity|]. rewrite map_app in N. cbn [map] in N. rewrite save_result_app.
    apply NoDup_remove in N as [N1 N2]. rewrite app_nil_r in *. rewrite IH by auto. rewrite dict_set_new, map_app; [reflexivity|]. rewrite map_map. cbn [fst]. exact N2.
  - induction ls as [|l ls IH] using rev_ind; intros k H; [reflexivity|]. rewrite save_result_app, dict_set_stored.
    destruct (String.eqb_spec k (l_label l)) as [->|_]; [exfalso; apply (H l); [apply in_or_app; right; left; auto|auto]|]. apply IH. intros l' I. apply H, in_or_app. auto.
  - intros a l b -> H. revert H. induction b as [|l1 b IH] using rev_ind; intro H.
    + rewrite save_result_app, dict_set_stored, String.eqb_refl. reflexivity.
    + replace (a ++ l :: b ++ [l1]) with ((a ++ l :: b) ++ [l1]) by (rewrite <- app_assoc; reflexivity). rewrite save_result_app, dict_set_stored.
      destruct (String.eqb_spec (l_label l) (l_label l1)) as [E|_]; [exfalso; apply (H l1); [apply in_or_app; right; left; auto|auto]|].
      apply IH. intros l' I. apply H, in_or_app. auto.
Qed.
Print Assumptions C73_saved_data.

(** A scalar plot is saved by default (option --save-data or not); the file holds the data of every line if the labels differ. *)
Theorem C73_file_of_a_scalar_plot : forall {Sv} (solve : Sv -> Sv * option exn) grid_of value_of short_of i l sv lines files splitext save_data save_plot,
  pi_paths i = scalar_paths -> pi_setup i = [[]] -> pi_save i = Some (build_save_data splitext "data/plot.pkl" save_data save_plot) ->
  save_data <> Some ""%string ->
  plot_execute solve scalar_axes grid_of value_of short_of i (SolverList l) = Ok (Plotted sv lines files) ->
  NoDup (map l_label (nth 0 lines [])) ->
  exists path, files = [(path, map (fun l => (l_label l, (l_x l, l_y l))) (nth 0 lines []))] /\
    match save_data, save_plot with
    | Some s, _ => path = s
    | None, Some s => s <> ""%string -> path = append (fst (splitext s)) ".pkl"
    | None, None => path = "data/plot.pkl"%string
    end.
Proof.
  intros Sv solve grid_of value_of short_of i l sv lines files splitext save_data save_plot Hp Hs Hd Hne E N. unfold plot_execute in E. inv_bind E.
  destruct (p_available a) eqn:Ea; [|discriminate]. apply Ok_inj in E. injection E as _ E1 E2. cbn [p_axes] in E1. rewrite E1 in E2. unfold save_results in E2. cbn [p_axes] in E2. rewrite Hd, Hp in E2.
  set (path := build_save_data splitext "data/plot.pkl" save_data save_plot) in *.
  assert (Pne : path <> ""%string).
  { unfold path, build_save_data. destruct save_data as [s|]; [congruence|]. destruct save_plot as [s|]; [|discriminate]. destruct (String.eqb s ""); [discriminate|]. destruct (fst (splitext s)); discriminate. }
  destruct (String.eqb_spec path "") as [X|_]; [congruence|]. exists path. split.
  - rewrite <- E2. unfold scalar_paths. destruct lines as [|ls lines'] eqn:El.
    + exfalso. rewrite Hs in E1. assert (La : length (p_axes a) = 1%nat).
      { assert (Lb : forall p, length (p_axes p) = 1%nat -> forall g v lb, length (p_axes (add_function_values scalar_axes g v lb p)) = 1%nat).
        { intros p L g v lb. unfold add_function_values, scalar_axes. cbn [p_axes]. destruct (p_axes p) as [|x [|y t]]; cbn in *; auto; lia. }
        assert (L1 : length (p_axes (add_exact_solution scalar_axes (pi_grid i) (pi_exact i) (pi_exact_labels i) (new_plotter scalar_axes))) = 1%nat).
        { unfold add_exact_solution, add_function. destruct (mapM (pi_exact i) (pi_grid i)); cbn [bind]; [apply Lb|]; reflexivity. }
        assert (L2 : forall l p, length (p_axes p) = 1%nat -> length (p_axes (add_discrete_solutions scalar_axes grid_of value_of short_of l p)) = 1%nat).
        { clear - Lb. induction l as [|s l IH]; intros p L; cbn; [auto|]. apply IH, Lb, L. }
        match goal with X : _ = Ok a |- _ => rename X into Hx end. cbn [solvers_of] in Hx. destruct (pi_initial i) as [g|].
        - unfold add_function in Hx. inv_bind Hx. apply Ok_inj in Hx. rewrite <- Hx. apply Lb, L2, L1.
        - apply Ok_inj in Hx. rewrite <- Hx. apply L2, L1. }
      destruct (p_axes a); cbn in *; [discriminate|congruence].
    + cbn [map combine]. cbn [nth] in N |- *. rewrite (proj1 (C73_saved_data ls) N). reflexivity.
  - unfold path, build_save_data. destruct save_data as [s|]; [auto|]. destruct save_plot as [s|]; [|auto]. intro Hn. destruct (String.eqb_spec s ""); [congruence|auto].
Qed.
Print Assumptions C73_file_of_a_scalar_plot.

(** Every line of the plot is in the file: not if two of them have the same label, as two solvers of the same kind have by default. *)
Theorem C73_equal_labels_refuted :
  ~ (forall {Sv} (solve : Sv -> Sv * option exn) grid_of value_of short_of i g sv lines files,
     pi_paths i = scalar_paths -> pi_setup i = [[]] -> pi_save i = Some "data/plot.pkl"%string ->
     plot_execute solve scalar_axes grid_of value_of short_of i g = Ok (Plotted sv lines files) ->
     forall l, In l (nth 0 lines []) -> exists k, In (k, (l_x l, l_y l)) (snd (nth 0 files (""%string, [])))).
Proof.
  intro H.
  specialize (H R (fun s => (s, None)) (fun _ => [1 / 2]) (fun s => [s]) (fun _ => "cg"%string)
    {| pi_grid := [0]; pi_exact := fun _ => Err TypeError; pi_exact_labels := []; pi_initial := None; pi_initial_labels := []; pi_setup := [[]];
       pi_paths := scalar_paths; pi_save := Some "data/plot.pkl"%string; pi_executed := true |} (SolverList [1; 2])).
  unfold plot_execute in H. cbn -[IZR] in H. specialize (H _ _ _ eq_refl eq_refl eq_refl eq_refl). cbn -[IZR] in H.
  destruct (H _ (or_introl eq_refl)) as [k [K|[]]]. cbn -[IZR] in K. injection K as _ K. lra.
Qed.
Print Assumptions C73_equal_labels_refuted.

(** The height axes of shallow water plots show the surface: a lake at rest is a horizontal line. The third axes show the quotient of
    discharge and height. *)
Theorem C73_shallow_water_axes : forall bathymetry level grid values, length values = length grid ->
  (forall i, (i < length grid)%nat -> fst (nth i values (0, 0)) + bathymetry (nth i grid 0) = level) ->
  nth 0 (swe_axes bathymetry) (fun _ _ => []) grid values = map (fun _ => level) grid /\
  (forall i, (i < length grid)%nat -> nth i (nth 1 (swe_axes bathymetry) (fun _ _ => []) grid values) 0 = snd (nth i values (0, 0)) /\
     nth i (nth 2 (swe_axes bathymetry) (fun _ _ => []) grid values) 0 = velocity (nth i values (0, 0))).
Proof.
  intros bathymetry level grid values L H. cbn [nth swe_axes]. split.
  - apply (list_ext 0); [rewrite map2_length, map_length; lia|]. intros i Hi. rewrite map2_length in Hi.
    rewrite (nth_map2 _ _ _ i 0 (0, 0)) by lia. rewrite (nth_map' _ _ _ 0) by lia. apply H. lia.
  - intros i Hi. rewrite !(nth_map' _ _ _ (0, 0)) by lia. auto.
Qed.
Print Assumptions C73_shallow_water_axes.

(** Three solvers, the second fails: its line shows what it had reached, the other ones are complete. *)
Example C73_ex :
  let solve := fun s : R * bool => if snd s then ((fst s + 1 / 2, true), Some ValueError) else ((fst s + 1, false), None) in
  let i := {| pi_grid := [0; 1]; pi_exact := fun x => Ok (10 * x); pi_exact_labels := ["$u$"%string]; pi_initial := None; pi_initial_labels := [];
              pi_setup := [[]]; pi_paths := scalar_paths; pi_save := Some "data/plot.pkl"%string; pi_executed := false |} in
  exists files, plot_execute solve scalar_axes (fun _ => [1 / 2]) (fun s => [fst s]) (fun s => if snd s then "b"%string else "a"%string) i (SolverList [(1, false); (2, true)]) =
    Ok (Plotted (Some [(1 + 1, false); (2 + 1 / 2, true)])
      [[{| l_label := "$u$"; l_x := [0; 1]; l_y := [10 * 0; 10 * 1] |}; {| l_label := "a"; l_x := [1 / 2]; l_y := [1 + 1] |}; {| l_label := "b"; l_x := [1 / 2]; l_y := [2 + 1 / 2] |}]] files) /\
    files = [("data/plot.pkl"%string, [("$u$", ([0; 1], [10 * 0; 10 * 1])); ("a", ([1 / 2], [1 + 1])); ("b", ([1 / 2], [2 + 1 / 2]))]%string)].
Proof. eexists. split; reflexivity. Qed.

(** ** C74: animate *)
Lemma increasing_cons_intro a l : increasing l -> (forall b, In b l -> a < b) -> increasing (a :: l).
Proof.
  intros I H [|i] [|j] Hij; try lia.
  - cbn [nth]. apply H, nth_In. cbn in Hij. lia.
  - cbn [nth]. apply I. cbn in Hij. lia.
Qed.
Lemma insert_unique_spec x : forall l, increasing l -> increasing (insert_unique x l) /\ (forall y, In y (insert_unique x l) <-> y = x \/ In y l).
Proof.
  induction l as [|a l IH]; intro I; cbn [insert_unique].
  - split; [intros i j Hij; cbn in Hij; lia|]. intro y. cbn. split; [intros [<-|[]]; auto|intros [->|[]]; auto].
  - destruct (increasing_cons a l I) as [I1 I2]. destruct (Rltb_spec x a) as [Lt|Ge].
    + split; [|intro y; cbn; intuition]. apply increasing_cons_intro; [auto|]. intros b [<-|Hb]; [auto|]. specialize (I2 b Hb). lra.
    + destruct (Reqb_spec x a) as [->|Ne].
      * split; [auto|]. intro y. cbn. intuition.
      * destruct (IH I1) as [J1 J2]. split.
        { apply increasing_cons_intro; [auto|]. intros b Hb. apply J2 in Hb as [->|Hb]; [lra|auto]. }
        intro y. cbn [In]. rewrite J2. intuition.
Qed.
Lemma union1d_spec a b : increasing (union1d a b) /\ (forall y, In y (union1d a b) <-> In y a \/ In y b).
Proof.
  unfold union1d. assert (G : forall l, increasing (fold_right insert_unique [] l) /\ (forall y, In y (fold_right insert_unique [] l) <-> In y l)).
  { induction l as [|x l [I1 I2]]; cbn [fold_right]; [split; [intros i j Hij; cbn in Hij; lia|tauto]|]. destruct (insert_unique_spec x _ I1) as [J1 J2]. split; [auto|].
    intro y. rewrite J2, I2. cbn. intuition. }
  destruct (G (a ++ b)) as [G1 G2]. split; [auto|]. intro y. rewrite G2. apply in_app_iff.
Qed.
Lemma unions_spec : forall gs g, increasing g -> increasing (fold_left union1d gs g) /\ (forall y, In y (fold_left union1d gs g) <-> In y g \/ exists g', In g' gs /\ In y g').
Proof.
  induction gs as [|g1 gs IH]; intros g I; cbn [fold_left]; [split; [auto|]; intro y; split; [auto|intros [H|[g' [[] _]]]; auto]|].
  destruct (union1d_spec g g1) as [U1 U2]. destruct (IH _ U1) as [J1 J2]. split; [auto|]. intro y. rewrite J2, U2. split.
  - intros [[H|H]|[g' [H1 H2]]]; [auto|right; exists g1; cbn; auto|right; exists g'; cbn; auto].
  - intros [H|[g' [[<-|H1] H2]]]; [auto|auto|right; exists g'; auto].
Qed.
Lemma first_from_spec start : forall times k i, first_from start k times = Ok i -> (k <= i < k + length times)%nat /\ start <= nth (i - k) times 0 /\ (forall j, (j < i - k)%nat -> nth j times 0 < start).
Proof.
  induction times as [|t times IH]; intros k i E; cbn [first_from] in E; [discriminate|]. destruct (Rleb_spec start t) as [Le|Gt].
  - apply Ok_inj in E as <-. replace (k - k)%nat with 0%nat by lia. cbn. split; [lia|]. split; [auto|]. intros; lia.
  - destruct (IH _ _ E) as [A [B C]]. cbn [length]. replace (i - k)%nat with (S (i - S k)) by lia. cbn [nth]. split; [lia|]. split; [auto|].
    intros [|j] Hj; [lra|]. apply C. lia.
Qed.
Lemma first_from_fails start : forall times k, (forall t, In t times -> t < start) -> first_from start k times = Err IndexError.
Proof. induction times as [|t times IH]; intros k H; cbn [first_from]; [auto|]. destruct (Rleb_spec start t); [specialize (H t (or_introl eq_refl)); lra|]. apply IH. intros; apply H; right; auto. Qed.
Lemma first_from_ok start : forall times k t, In t times -> start <= t -> exists i, first_from start k times = Ok i.
Proof. induction times as [|t0 times IH]; intros k t H Le; [destruct H|]. cbn [first_from]. destruct (Rleb_spec start t0); [eauto|]. destruct H as [->|H]; [lra|]. eapply IH; eauto. Qed.

Lemma adjust_values_spec space times0 times o : can_be_animated space times0 o ->
  exists v, adjust_values space times o = Ok v /\ length v = length times /\
  forall i, (i < length times)%nat -> shown_at space (nth i times 0) o (nth i v []).
Proof.
  destruct o as [grid old values|f]; cbn [can_be_animated adjust_values shown_at].
  - intros [I [Ne [L [k Rk]]]]. assert (Ln : (0 < length old)%nat) by (destruct old; [congruence|cbn; lia]).
    destruct (C42_temporal old values times k I Ln L Rk) as [out [E [Lo [Ro [P _]]]]]. exists out. split; [auto|]. split; [auto|].
    intros i Hi k' Rk'. assert (k' = k) as ->.
    { destruct values as [|r values']; [cbn in L; lia|]. rewrite <- (Rk' r (or_introl eq_refl)), <- (Rk r (or_introl eq_refl)). reflexivity. }
    split; [apply Ro, nth_In; lia|]. intros e He. apply (P i e Hi He).
  - intros [_ H].
    assert (G : forall t, exists vs, mapM (fun x => f x t) space = Ok vs /\ Forall2 (fun x v => f x t = Ok v) space vs).
    { intro t. clear - H. induction space as [|x space IH]; [exists []; split; [reflexivity|constructor]|].
      destruct (H x t (or_introl eq_refl)) as [v Ev]. destruct IH as [vs [E F]]; [intros; apply H; right; auto|].
      exists (v :: vs). cbn. rewrite Ev. cbn. rewrite E. split; [reflexivity|constructor; auto]. }
    induction times as [|t times IH]; [exists []; split; [reflexivity|split; [reflexivity|intros; cbn in *; lia]]|].
    destruct IH as [v [E [L P]]]. destruct (G t) as [vs [E1 F1]]. exists (concat vs :: v). cbn [mapM]. rewrite E1. cbn [bind]. rewrite E. cbn [bind]. split; [reflexivity|].
    split; [cbn; lia|]. intros [|i] Hi; cbn [nth]; [exists vs; auto|]. apply P. cbn in Hi. lia.
Qed.
Lemma mapM_spec {X Y} (f : X -> result Y) (Q : X -> Y -> Prop) l : (forall x, In x l -> exists y, f x = Ok y /\ Q x y) ->
  exists ys, mapM f l = Ok ys /\ Forall2 Q l ys.
Proof.
  induction l as [|a l IH]; intro H; [exists []; split; [reflexivity|constructor]|]. destruct (H a (or_introl eq_refl)) as [y [Ey Qy]].
  destruct IH as [ys [E F]]; [intros; apply H; right; auto|]. exists (y :: ys). cbn. rewrite Ey. cbn. rewrite E. split; [reflexivity|constructor; auto].
Qed.
Lemma Forall2_nth {X Y} (Q : X -> Y -> Prop) l1 l2 dx dy : Forall2 Q l1 l2 -> forall j, (j < length l1)%nat -> Q (nth j l1 dx) (nth j l2 dy).
Proof. induction 1; intros [|j] Hj; cbn in *; try lia; auto. apply IHForall2. lia. Qed.

(** The frames of an animation: one for every time recorded by one of the solutions (or of the time grid, if a function is shown) from
    the start time on, in increasing order, and in every frame all objects are shown at the time of this frame. *)
Theorem C74_frames : forall an objects t0, 
  (forall o, In o objects -> can_be_animated (an_space an) (an_time an) o) ->
  (exists o, In o objects /\ In t0 (temporal_grid_of (an_time an) o)) -> an_start an <= t0 ->
  exists frames, animator_show an objects = Ok (Frames frames) /\
  increasing (map fst frames) /\
  (forall t, In t (map fst frames) <-> an_start an <= t /\ exists o, In o objects /\ In t (temporal_grid_of (an_time an) o)) /\
  (forall t rows, In (t, rows) frames -> Forall2 (shown_at (an_space an) t) objects rows).
Proof.
  intros an objects t0 H [o0 [Ho0 Ht0]] Hst. unfold animator_show. assert (Eo : exists o1 objects', objects = o1 :: objects') by (destruct objects as [|o1 objects']; [destruct Ho0|eauto]).
  destruct Eo as [o1 [objects' Eo]]. replace (map (temporal_grid_of (an_time an)) objects) with (temporal_grid_of (an_time an) o1 :: map (temporal_grid_of (an_time an)) objects') by (rewrite Eo; reflexivity). set (times := fold_left union1d (map (temporal_grid_of (an_time an)) objects') (temporal_grid_of (an_time an) o1)).
  assert (I1 : increasing (temporal_grid_of (an_time an) o1)).
  { specialize (H o1 ltac:(rewrite Eo; left; auto)). destruct o1; cbn in *; tauto. }
  destruct (unions_spec (map (temporal_grid_of (an_time an)) objects') _ I1) as [U1 U2]. fold times in U1, U2.
  assert (U3 : forall t, In t times <-> exists o, In o objects /\ In t (temporal_grid_of (an_time an) o)).
  { intro t. rewrite U2, Eo. split.
    - intros [X|[g [X Y]]]; [exists o1; cbn; auto|]. apply in_map_iff in X as [o [<- X]]. exists o; cbn; auto.
    - intros [o [[<-|X] Y]]; [auto|]. right. exists (temporal_grid_of (an_time an) o). split; [apply in_map; auto|auto]. }
  destruct (mapM_spec (adjust_values (an_space an) times) (fun o v => length v = length times /\ forall i, (i < length times)%nat -> shown_at (an_space an) (nth i times 0) o (nth i v [])) objects) as [vs [E F]].
  { intros o Ho. destruct (adjust_values_spec (an_space an) (an_time an) times o (H o Ho)) as [v [E1 [E2 E3]]]. exists v. auto. }
  rewrite E. cbn [bind]. assert (In0 : In t0 times) by (apply U3; eauto).
  assert (Ln : (0 < length times)%nat) by (destruct times; [destruct In0|cbn; lia]). destruct (Nat.eqb_spec (length times) 0); [lia|].
  destruct (first_from_ok (an_start an) times 0 t0 In0 Hst) as [st Es]. rewrite Es. cbn [bind]. destruct (first_from_spec _ _ _ _ Es) as [S1 [S2 S3]]. rewrite Nat.sub_0_r in *.
  set (m := (length times - st)%nat).
  assert (Mf : map fst (map (fun i => (nth i times 0, map (fun v : list (list R) => nth i v []) vs)) (seq st m)) = skipn st times).
  { rewrite map_map. cbn [fst]. apply (list_ext 0); [rewrite map_length, seq_length, skipn_length; reflexivity|]. intros i Hi. rewrite map_length, seq_length in Hi.
    rewrite (nth_map' _ _ _ 0%nat) by (rewrite seq_length; auto). rewrite seq_nth by auto. rewrite nth_skipn. reflexivity. }
  eexists. split; [reflexivity|]. rewrite Mf. split; [|split].
  - intros i j Hij. rewrite skipn_length in Hij. rewrite !nth_skipn. apply U1. lia.
  - intro t. rewrite <- U3. split.
    + intro X. apply (In_nth _ _ 0) in X as [i [Hi Ei]]. rewrite skipn_length in Hi. rewrite nth_skipn in Ei. split; [|rewrite <- Ei; apply nth_In; lia].
      rewrite <- Ei. destruct i as [|i]; [rewrite Nat.add_0_r; auto|]. assert (nth st times 0 < nth (st + S i) times 0) by (apply U1; lia). lra.
    + intros [X1 X2]. apply (In_nth _ _ 0) in X2 as [i [Hi Ei]]. destruct (le_lt_dec st i) as [Le|Lt].
      * replace t with (nth (i - st) (skipn st times) 0) by (rewrite nth_skipn; replace (st + (i - st))%nat with i by lia; auto). apply nth_In. rewrite skipn_length. lia.
      * specialize (S3 i Lt). rewrite Ei in S3. lra.
  - intros t rows X. apply in_map_iff in X as [i [Ei Hi]]. injection Ei as <- <-. apply in_seq in Hi. clear - F Hi S1 m. 
    assert (K : (i < length times)%nat) by (unfold m in *; lia). clear Hi. induction F as [|o v objects vs [F1 F2] F IH]; cbn [map]; constructor; auto.
Qed.
Print Assumptions C74_frames.

(** At its recorded times a solution is shown as recorded, before the first as at the beginning, after its last time (if it failed, say) as it was left. *)
Theorem C74_recorded_values : forall space grid old values k t row,
  can_be_animated space [] (ASolution grid old values) -> rectangular k values -> shown_at space t (ASolution grid old values) row ->
  (forall i, (i < length old)%nat -> t = nth i old 0 -> row = nth i values []) /\
  (nth (length old - 1) old 0 <= t -> row = nth (length old - 1) values []) /\ (t <= nth 0 old 0 -> row = nth 0 values []).
Proof.
  intros space grid old values k t row [I [Ne [L _]]] Rk S. cbn [shown_at] in S. destruct (S k Rk) as [Lr P]. clear S.
  assert (Ln : (0 < length old)%nat) by (destruct old; [congruence|cbn; lia]).
  assert (N : forall e i, (i < length old)%nat -> nth i (map (fun row => nth e row 0) values) 0 = nth e (nth i values []) 0) by (intros e i Hi; apply (nth_column e values i); lia).
  assert (W : forall i, (i < length old)%nat -> (forall e, (e < k)%nat -> nth e row 0 = nth e (nth i values []) 0) -> row = nth i values []).
  { intros i Hi H. apply (list_ext 0); [rewrite Lr; symmetry; apply Rk, nth_In; lia|]. intros e He. apply H. lia. }
  assert (Last : nth (length old - 1) old 0 <= t -> row = nth (length old - 1) values []).
  { intro Le. apply W; [lia|]. intros e He. destruct (P e He) as [_ [P2 _]]. rewrite (P2 Le). apply N. lia. }
  split; [|split; [exact Last|]].
  - intros i Hi Et. destruct (Nat.eq_dec (S i) (length old)) as [e|e].
    + replace i with (length old - 1)%nat by lia. apply Last. replace (length old - 1)%nat with i by lia. lra.
    + apply W; [auto|]. intros j Hj. destruct (P j Hj) as [_ [_ P3]]. assert (nth i old 0 < nth (S i) old 0) by (apply I; lia).
      specialize (P3 i ltac:(lia) ltac:(lra)). rewrite (N j i) in P3 by lia. rewrite Et in P3. nra.
  - intro Le. apply W; [lia|]. intros e He. destruct (P e He) as [P1 _]. rewrite (P1 Le). apply N. lia.
Qed.
Print Assumptions C74_recorded_values.

Lemma step_length n f T dt (o o' : ode (list R)) : (forall t u v, length u = n -> f t u = Ok v -> length v = n) -> length (o_sol o) = n ->
  rk_execute_e f T dt o = Ok o' -> length (o_sol o') = n.
Proof.
  intros Hf L E. assert (E' : rk_run_e f T [dt] o = Ok o') by (unfold rk_run_e; cbn [foldM]; rewrite E; reflexivity).
  destruct (run_map (fun u : list R => length u = n) (fun u => u)) with (f := f) (f' := f) (T := T) (dts := [dt]) (o := o) (o' := o') as [X _]; auto.
  - intros a b La Lb. cbn [vadd list_VecOps]. rewrite map2_length. lia.
  - intros r a La. cbn [vscal list_VecOps]. rewrite map_length. auto.
  - intros t u v Hu Hv. split; [eapply Hf; eauto|auto].
Qed.
Lemma increasing_steps : forall dts t, (forall k, (k < length dts)%nat -> 0 < nth k dts 0) -> 
  increasing (t :: map (fun k => t + rsum (firstn (S k) dts)) (seq 0 (length dts))).
Proof.
  intros dts t H i j Hij.
  assert (V : forall k, (k <= length dts)%nat -> nth k (t :: map (fun k => t + rsum (firstn (S k) dts)) (seq 0 (length dts))) 0 = t + rsum (firstn k dts)).
  { intros [|k] Hk; cbn [nth]; [cbn; lra|]. rewrite (nth_map' _ _ _ 0%nat) by (rewrite seq_length; lia). rewrite seq_nth by lia. reflexivity. }
  cbn [length] in Hij. rewrite map_length, seq_length in Hij. rewrite !V by lia.
  assert (M : forall d, (i + d <= length dts)%nat -> (0 < d)%nat -> rsum (firstn i dts) < rsum (firstn (i + d) dts)).
  { induction d as [|d IH]; intros Hd Pd; [lia|]. replace (i + S d)%nat with (S (i + d)) by lia. rewrite (firstn_S_nth (i + d) dts 0) by lia. rewrite rsum_app. cbn [rsum fold_right].
    specialize (H (i + d)%nat ltac:(lia)). destruct d as [|d]; [rewrite Nat.add_0_r in *; lra|]. specialize (IH ltac:(lia) ltac:(lia)). lra. }
  specialize (M (j - i)%nat ltac:(lia) ltac:(lia)). replace (i + (j - i))%nat with j in M by lia. lra.
Qed.
(** The solutions recorded by the solvers of the program can be animated, however their runs end: the recorded times start with
    the initial time and increase, there is one row for each, all of the same length. *)
Theorem C74_histories_can_be_animated : forall finite (c : config (list R)) m next sol time n w' s st grid space times,
  c_history c = true -> (sol < next)%nat ->
  (forall t u v, length u = length (m sol) -> c_rhs c t u = Ok v -> length v = length (m sol)) ->
  solve finite c n (new_solver c m next sol time) = (w', s, st) ->
  can_be_animated space times (ASolution grid (w_times w') (w_values w')) /\ nth 0 (w_times w') 0 = time /\ nth 0 (w_values w') [] = m sol /\
  forall row, In row (w_values w') -> length row = length (m sol).
Proof.
  intros finite c m next sol time n w' s st grid space times Hh Hs Hf E. set (w := new_solver c m next sol time) in *.
  destruct (C47_solvers_start_in_sync finite c m next sol time Hs) as [Sy [So _]]. fold w in Sy, So.
  assert (W : w_times w = [time] /\ w_values w = [m sol]) by (unfold w, new_solver; cbn; rewrite Hh; auto). destruct W as [W1 W2].
  assert (G : exists dts os, chain finite (c_rhs c) (c_tab c) (solution_of w) dts os /\ w_times w' = time :: map o_time os /\ w_values w' = m sol :: map o_sol os /\ forall k, (k < length dts)%nat -> 0 < nth k dts 0).
  { destruct s as [s|].
    - destruct (C47_solve_drives_ode_solver_and_solution _ _ _ _ _ _ _ Sy E) as [dts [os [C [T1 [T2 M]]]]]. exists dts, os. rewrite Hh, W1 in T1. rewrite Hh, W2 in T2. split; [auto|]. split; [auto|]. split; [auto|].
      intros k Hk. assert (X : exists m' s1 r, ts_run (c_start c) (c_end c) (proposed c (solution_of w) os) m' = (dts, s1, r)).
      { destruct st; [| | |destruct M as [s1 [dt [M _]]]; eauto]; destruct M as [M _]; eauto. }
      destruct X as [m' [s1 [r X]]]. pose proof (C01_time_stepping_covers_interval (c_start c) (c_end c) (proposed c (solution_of w) os) m') as K. rewrite X in K. destruct K as [K _]. destruct (K k Hk) as [[K1 _] _]. 
      assert (0 < 1 / 10 ^ 12) by lra. lra.
    - exists [], []. unfold solve in E. destruct (tqdm_len c w) as [q|e]; [destruct (solve_loop _ _ _ _ _) as [[? ?] ?]; discriminate|]. injection E as <- _. split; [apply chain_nil|]. rewrite W1, W2. split; [auto|]. split; [auto|]. intros k Hk; cbn in Hk; lia. }
  destruct G as [dts [os [C [T1 [T2 P]]]]]. pose proof C as [Lc C'].
  assert (Ln : forall k, (k <= length dts)%nat -> length (o_sol (nth k (solution_of w :: os) (solution_of w))) = length (m sol)).
  { induction k as [|k IH]; intro Hk; [cbn [nth]; rewrite So; reflexivity|]. destruct (C' k ltac:(lia)) as [C1 _]. cbn [nth].
    eapply step_length; [| |exact C1]; [intros; eapply Hf; eauto|]. apply IH. lia. }
  assert (Rk : forall row, In row (w_values w') -> length row = length (m sol)).
  { intros row Hr. rewrite T2 in Hr. destruct Hr as [<-|Hr]; [auto|]. apply in_map_iff in Hr as [o [<- Ho]]. apply (In_nth _ _ (solution_of w)) in Ho as [k [Hk <-]].
    apply (Ln (S k)). lia. }
  rewrite T1, T2 in *. split; [|split; [reflexivity|split; [reflexivity|exact Rk]]]. split; [|split; [discriminate|split; [cbn; rewrite !map_length; reflexivity|exists (length (m sol)); exact Rk]]].
  replace (map o_time os) with (map (fun k => time + rsum (firstn (S k) dts)) (seq 0 (length dts))); [apply increasing_steps; auto|].
  apply (list_ext 0); [rewrite !map_length, seq_length; lia|]. intros k Hk. rewrite map_length, seq_length in Hk. rewrite (nth_map' _ _ _ 0%nat) by (rewrite seq_length; auto). rewrite seq_nth by auto.
  rewrite (nth_map' _ _ _ (solution_of w)) by lia. rewrite <- (chain_time _ _ _ _ _ _ C (S k) ltac:(lia)) || idtac.
  pose proof (chain_time _ _ _ _ _ _ C (S k) ltac:(lia)) as X. cbn [nth] in X. rewrite X, So. cbn [o_time Nat.add]. reflexivity.
Qed.
Print Assumptions C74_histories_can_be_animated.

(** An animation can be started at any time: not if no time of the animated objects is that late (the last recorded time may be
    slightly before the end time of the benchmark); nor is there an animation of the exact solution alone. *)
Theorem C74_late_start : forall an objects, objects <> [] -> (forall o, In o objects -> can_be_animated (an_space an) (an_time an) o) ->
  (forall o t, In o objects -> In t (temporal_grid_of (an_time an) o) -> t < an_start an) ->
  (exists o t, In o objects /\ In t (temporal_grid_of (an_time an) o)) ->
  animator_show an objects = Err IndexError.
Proof.
  intros an objects Ne H Hl [o2 [t2 [Ho2 Ht2]]]. unfold animator_show. assert (Eo : exists o1 objects', objects = o1 :: objects') by (destruct objects as [|o1 objects']; [congruence|eauto]).
  destruct Eo as [o1 [objects' Eo]]. replace (map (temporal_grid_of (an_time an)) objects) with (temporal_grid_of (an_time an) o1 :: map (temporal_grid_of (an_time an)) objects') by (rewrite Eo; reflexivity).
  set (times := fold_left union1d (map (temporal_grid_of (an_time an)) objects') (temporal_grid_of (an_time an) o1)).
  assert (I1 : increasing (temporal_grid_of (an_time an) o1)).
  { specialize (H o1 ltac:(rewrite Eo; left; auto)). destruct o1; cbn in *; tauto. }
  destruct (unions_spec (map (temporal_grid_of (an_time an)) objects') _ I1) as [U1 U2]. fold times in U1, U2.
  destruct (mapM_spec (adjust_values (an_space an) times) (fun _ _ => True) objects) as [vs [E _]].
  { intros o Ho. destruct (adjust_values_spec (an_space an) (an_time an) times o (H o Ho)) as [v [E1 _]]. eauto. }
  rewrite E. cbn [bind]. destruct (length times =? 0)%nat; [reflexivity|]. rewrite first_from_fails; [reflexivity|].
  intros t Ht. apply U2 in Ht as [Ht|[g [Hg Ht]]]; [apply (Hl o1); [rewrite Eo; left; auto|auto]|]. apply in_map_iff in Hg as [o [<- Ho]]. apply (Hl o); [rewrite Eo; right; auto|auto].
Qed.
Print Assumptions C74_late_start.
Theorem C74_start_time_refuted :
  ~ (forall {Sv} (solve : Sv -> Sv * option exn) history_of an exact initial l, (forall s, In s l -> can_be_animated (an_space an) (an_time an) (history_of (fst (solve s)))) ->
     exists r, animate_execute solve history_of an exact initial false (SolverList l) = Ok r).
Proof.
  intro H. destruct (H unit (fun s => (s, None)) (fun _ => ASolution [0] [0; 1] [[3]; [4]]) {| an_space := [0]; an_time := [0; 1]; an_start := 2 |} (fun _ _ => Err TypeError) None [tt]) as [r E].
  { intros s _. cbn. split; [|split; [discriminate|split; [reflexivity|]]]; [|exists 1%nat; intros row [<-|[<-|[]]]; reflexivity]. intros [|[|i]] [|[|j]] Hij; cbn in Hij; try lia. cbn. lra. }
  unfold animate_execute in E. cbn [solvers_of calculate_solutions map fst app] in E. rewrite C74_late_start in E; [discriminate|discriminate| | |].
  - intros o [<-|[]]. cbn. split; [|split; [discriminate|split; [reflexivity|]]]; [|exists 1%nat; intros row [<-|[<-|[]]]; reflexivity]. intros [|[|i]] [|[|j]] Hij; cbn in Hij; try lia. cbn. lra.
  - intros o t [<-|[]] [<-|[<-|[]]]; cbn; lra.
  - exists (ASolution [0] [0; 1] [[3]; [4]]), 0. cbn. auto.
Qed.
Print Assumptions C74_start_time_refuted.
(** The plot command shows the exact solution without any solver; the animate command fails, before anything is drawn. *)
Theorem C74_exact_solution_alone_refuted : forall {Sv Ar} (solve : Sv -> Sv * option exn) history_of an exact initial executed (set : Ar -> Ar),
  add_save_history set None = Err TypeError /\ animate_execute solve history_of an exact initial executed NoSolver = Err TypeError /\
  forall grid_of value_of short_of (i : plot_input R) u, (forall x, In x (pi_grid i) -> pi_exact i x = Ok (u x)) -> pi_initial i = None -> pi_setup i = [[]] ->
  exists files, plot_execute solve scalar_axes grid_of value_of short_of i NoSolver =
    Ok (Plotted None [[{| l_label := label_of (pi_exact_labels i) 0; l_x := pi_grid i; l_y := map u (pi_grid i) |}]] files).
Proof.
  intros. split; [reflexivity|]. split; [reflexivity|]. intros grid_of value_of short_of i u Hu Hi Hs. unfold plot_execute. cbn [solvers_of]. rewrite Hi. unfold add_exact_solution, add_function.
  rewrite (mapM_all _ u _ Hu). cbn [bind add_function_values p_available p_axes]. rewrite Hs. eexists. reflexivity.
Qed.
Print Assumptions C74_exact_solution_alone_refuted.

(** A solution recorded at 0, 1, 2 and one that failed after 1/2, started at 1: frames at 1 and 2, the failed one as it was left. *)
Example C74_ex :
  let an := {| an_space := [0; 1]; an_time := [0; 2]; an_start := 1 |} in
  let objects := [ASolution [1 / 2] [0; 1; 2] [[3]; [4]; [5]]; ASolution [1 / 2] [0; 1 / 2] [[3]; [7]]; AFunction (fun x t => Ok [x + t])] in
  (forall o, In o objects -> can_be_animated (an_space an) (an_time an) o) /\ an_start an <= 1 /\ (exists o, In o objects /\ In 1 (temporal_grid_of (an_time an) o)) /\
  (forall row, shown_at (an_space an) 2 (ASolution [1 / 2] [0; 1 / 2] [[3]; [7]]) row -> row = [7]).
Proof.
  cbn zeta. split; [|split; [cbn; lra|split; [eexists; split; [left; reflexivity|cbn; auto]|]]].
  - intros o [<-|[<-|[<-|[]]]]; cbn [can_be_animated an_time an_space].
    + split; [|split; [discriminate|split; [reflexivity|exists 1%nat; intros row [<-|[<-|[<-|[]]]]; reflexivity]]]. intros [|[|[|i]]] [|[|[|j]]] Hij; cbn in Hij; try lia; cbn; lra.
    + split; [|split; [discriminate|split; [reflexivity|exists 1%nat; intros row [<-|[<-|[]]]; reflexivity]]]. intros [|[|i]] [|[|j]] Hij; cbn in Hij; try lia; cbn; lra.
    + split; [intros [|[|i]] [|[|j]] Hij; cbn in Hij; try lia; cbn; lra|eauto].
  - intros row H. assert (Rk : rectangular 1 [[3]; [7]]) by (intros r [<-|[<-|[]]]; reflexivity).
    destruct (C74_recorded_values [0; 1] [1 / 2] [0; 1 / 2] [[3]; [7]] 1 2 row) as [_ [X _]]; auto.
    + split; [|split; [discriminate|split; [reflexivity|exists 1%nat; exact Rk]]]. intros [|[|i]] [|[|j]] Hij; cbn in Hij; try lia; cbn; lra.
    + cbn in X. apply X. lra.
Qed.
