(** C83 from the words of a command to its result: still water. *)
From Coq Require Import String Ascii Reals List Arith ZArith Bool Lia Lra.
From Verif Require Import Prelude L_Prelude M_Mesh L_Mesh M_Quadrature S_Quadrature M_Interpolate M_Boundary S_Boundary M_Flux L_Flux
  M_ODE S_ODE M_TimeStepping M_Solution M_Solver S_Solver L_Solver M_Generate M_Scalar L_Scalar M_ShallowWater S_ShallowWater M_FVSolver S_FVSolver L_FVSolver
  M_Benchmark M_ScalarSolver M_Misc P_FVWater P_FVLake M_Command M_Series M_Parser S_Parser P_Parser M_CommandLine S_CommandLine L_CommandLine P_CommandLine.
Import ListNotations.
Open Scope R_scope.
Notation length := List.length.

Lemma loop_longer {V} `{VecOps V} finite c : forall n m (w : world V) s w' s', (n <= m)%nat -> solve_loop finite c n w s = (w', s', Completed) -> solve_loop finite c m w s = (w', s', Completed).
Proof.
  induction n as [|n IH]; intros m w s w' s' L E; [discriminate|]. destruct m as [|m]; [lia|]. cbn [solve_loop] in *.
  destruct (ts_next _ _ s) as [dt ?| |]; try exact E. destruct (solver_update finite c dt w) as [w1 [e|]]; [discriminate|]. apply IH; [lia|exact E].
Qed.
Lemma solve_longer {V} `{VecOps V} finite c n m (w : world V) w' s : (n <= m)%nat -> solve finite c n w = (w', Some s, Completed) -> solve finite c m w = (w', Some s, Completed).
Proof.
  intros L E. unfold solve in *. destruct (tqdm_len c w); [|discriminate]. destruct (solve_loop finite c n w (ts_iter (c_start c))) as [[w1 s1] r] eqn:E1.
  injection E as -> -> ->. rewrite (loop_longer finite c n m w _ w' s L E1). reflexivity.
Qed.

(** still water with the given level over the given bottom, in every cell of a mesh: the cell averages are taken at the two
    Gauss points (C42) *)
Definition still_water (level : R) (bottom : R -> R) (n : nat) (v : list state) : Prop :=
  length v = n /\ forall i, (i < n)%nat -> nth i v (0, 0) = (level - mean2 bottom {| ia := 0; ib := 20 |} n i, 0).
(** the schemes that keep still water, from the words of the user *)
Definition keeps_still (r : request) : Prop :=
  let '(k, ws, _) := r in k = Low \/ k = Central \/ k = MCL /\ (flux_of ws GCentral = GCentral \/ flux_of ws GCentral = GLow).
Definition cells_of (r : request) : nat := let '(_, ws, _) := r in mesh_of ws 400.
Definition cfl_number (r : request) : R := let '(_, ws, _) := r in cfl_of ws (1 / 10).

Lemma chosen_in {A} (pick : wish -> option A) : forall ws d, chosen pick ws d = d \/ exists x, In x ws /\ pick x = Some (chosen pick ws d).
Proof.
  induction ws as [|x ws IH]; intro d; [left; reflexivity|]. cbn [chosen]. destruct (IH match pick x with Some a => a | None => d end) as [E|[y [Hy E]]].
  - rewrite E. destruct (pick x) eqn:P; [right; exists x; split; [left; reflexivity|exact P]|left; reflexivity].
  - right. exists y. split; [right; exact Hy|exact E].
Qed.
Lemma written_positive parse_int parse_float net net2 swe r : well_written parse_int parse_float net net2 swe r -> (0 < cells_of r)%nat /\ 0 < cfl_number r.
Proof.
  destruct r as [[k ws] wss]. intros [_ [W _]]. cbn [cells_of cfl_number].
  assert (In_w : forall x, In x ws -> exists v, written parse_int parse_float net net2 x v).
  { clear - W. induction W as [|x v ws wss H W IH]; intros y []; [subst; eauto|apply IH; assumption]. }
  split.
  - unfold mesh_of. destruct (chosen_in (fun x => match x with MeshSize n => Some n | _ => None end) ws 400%nat) as [->|[x [Hx P]]]; [lia|].
    destruct x; try discriminate P. injection P as <-. destruct (In_w _ Hx) as [v [f [w [_ [_ [_ [z [_ [Z ->]]]]]]]]]. lia.
  - unfold cfl_of. destruct (chosen_in (fun x => match x with Cfl c => Some c | _ => None end) ws (1 / 10)) as [->|[x [Hx P]]]; [lra|].
    destruct x; try discriminate P. injection P as <-. destruct (In_w _ Hx) as [v [f [w [_ [_ [_ [_ Z]]]]]]]. exact Z.
Qed.
Lemma kept_call net net2 r : keeps_still r -> exists g T, snd (ordered net net2 false r) = SW g (fv (cells_of r) (cfl_number r) T false) /\ keeps_lakes g.
Proof.
  destruct r as [[k ws] wss]. intros [->|[->|[-> K]]]; cbn [ordered expected snd cells_of cfl_number]; eexists; eexists; (split; [reflexivity|]); try exact I.
  cbn [keeps_lakes]. destruct K as [-> | ->]; exact I.
Qed.
Lemma lake_value eig b a g c w level n : eig2_works eig -> sw_solver eig g b a = Ok (c, w) -> bm_domain b = {| ia := 0; ib := 20 |} ->
  (forall x, bm_initial b x = (level - bm_bottom b x, 0)) -> or_default (a_mesh_size a) default_mesh_size = n -> still_water level (bm_bottom b) n (o_sol (solution_of w)).
Proof.
  intros HE E HD HI Hn. destruct (sw_solver_inv eig g b a c w E) as [m [u [nf [bc [E1 [_ [_ [_ E5]]]]]]]].
  destruct (fv_solution_inv eig b _ m u E1) as [Fm [Fu [_ [Lu Pn]]]]. rewrite Hn in *.
  assert (Su : o_sol (solution_of w) = u) by (rewrite E5; unfold solution_of, new_solver; cbn [w_mem w_sol o_sol]; rewrite store_other by lia; reflexivity).
  rewrite Su. split; [exact Lu|]. intros i Hi. unfold averages2 in Fu. rewrite HD in Fm.
  rewrite !(averages_tab eig {| ia := 0; ib := 20 |} n m _ HE Pn ltac:(cbn; lra) Fm) in Fu. cbn [bind] in Fu. apply Ok_inj in Fu. rewrite combine_tab in Fu. subst u.
  rewrite nth_tab by exact Hi. unfold mean2. rewrite !HI. cbn [fst snd]. f_equal; field.
Qed.

(** Whoever asks calculate for a lake at rest, in whatever way, with schemes that keep still water, gets still water at the end:
    on every mesh, with every CFL number, time integrator and end time, for any number of solvers. *)
Theorem C83_still_water : forall parse_int parse_float net net2 newton moving_height random_waves drawn splitext eig linear_solver old finite finite2,
  eig2_works eig -> (forall v, Forall (fun s => 0 <= fst s <= 2 /\ snd s = 0) v -> finite2 v = true) ->
  forall key b level bottom xs wss rs,
  In (key, level, bottom) [("lake-at-rest", 2, bump); ("lake-at-rest-no-bathymetry", 1, still)]%string ->
  Forall2 (cwritten parse_int parse_float net net2 newton moving_height value_word (CCalculate Swe)) xs wss -> Forall (coffered (CCalculate Swe)) xs ->
  Forall (no_key_in_values (CCalculate Swe)) xs -> exclusive xs ->
  named_benchmark newton moving_height Swe key b -> benchmark_of random_waves drawn (CCalculate Swe) xs = b -> requests_of xs = Some rs ->
  Forall keeps_still rs -> Forall (fun r => 1 / 10 ^ 12 <= 20 / INR (cells_of r) * cfl_number r) rs -> (forall t, end_time_of xs = Some t -> 1 / 10 ^ 12 <= t) ->
  let T := match end_time_of xs with Some t => t | None => 100 end in
  exists N, forall n, (N <= n)%nat -> exists objects,
    calculate_line parse_int parse_float net net2 newton moving_height random_waves drawn splitext eig linear_solver old finite finite2 n
      (["calculate"; "swe"]%string ++ List.concat wss) = Parsed (SolverList objects, None) /\
    Forall2 (fun r o => exists c w, o = Water (c, w) /\ T - 1 / 10 ^ 12 < o_time (solution_of w) <= T /\ still_water level bottom (cells_of r) (o_sol (solution_of w))) rs objects.
Proof.
  intros parse_int parse_float net net2 newton moving_height random_waves drawn splitext eig ls old finite finite2 HE HF key b level bottom xs wss rs K W O NK Ex NB Eb Er KS St Et T.
  set (c := CCalculate Swe) in *.
  pose proof (written_sound parse_int parse_float net net2 newton moving_height value_word c xs wss W) as [S1 [_ S3]].
  assert (RD : result_directories xs = []).
  { clear - O. induction O as [|x xs H O IH]; [reflexivity|]. unfold result_directories in *. cbn [flat_map]. rewrite IH. destruct x; try reflexivity. discriminate H. }
  assert (Sep : separated xs).
  { clear - RD. induction xs as [|x [|y xs] IH]; cbn [separated]; auto. unfold result_directories in *. cbn [flat_map] in *. split.
    - intros [_ [d ->]]. destruct x; discriminate RD.
    - apply IH. destruct x; try exact RD. discriminate RD. }
  assert (RN : rs <> []).
  { unfold requests_of in Er. destruct (L_CommandLine.last_in (fun x => match x with Solvers rs => Some (Some rs) | _ => None end) xs None) as [X|[x [Hx X]]]; [congruence|].
    rewrite Er in X. destruct x; try discriminate X. injection X as ->. clear - W Hx. induction W as [|y ws xs wss H W IH]; [contradiction|].
    destruct Hx as [->|Hx]; [|apply IH; exact Hx]. destruct H as [f [_ [_ [H _]]]]. exact H. }
  set (bb := end_of b (end_time_of xs)).
  assert (J : requested parse_int parse_float net net2 newton moving_height random_waves drawn splitext (["calculate"; "swe"]%string ++ List.concat wss) = Parsed (JCalculate bb (Some (map (ordered net net2 false) rs)))).
  { apply (C83_everything_granted parse_int parse_float net net2 newton moving_height random_waves drawn splitext c xs wss); auto.
    - intro H. discriminate H.
    - intro H. discriminate H.
    - cbn [expected_job c]. fold c. rewrite Eb, Er. reflexivity. }
  assert (TP : 1 / 10 ^ 12 <= T). { unfold T. destruct (end_time_of xs) as [t|]; [apply Et; reflexivity|lra]. }
  (* the benchmark *)
  assert (B : exists sb, bb = BSw sb /\ (forall n, (0 < n)%nat -> lake_setting eig sb n) /\ bm_domain sb = {| ia := 0; ib := 20 |} /\ bm_start sb = 0 /\ bm_end sb = T /\
    (forall x, bm_initial sb x = (level - bm_bottom sb x, 0)) /\ bm_bottom sb = bottom /\ (forall x, 0 <= level - bottom x <= 2) /\
    exists nl, side_names (bm_conditions sb) nl nl /\ In nl ["periodic"; "wall"; "outflow"; "inflow"]%string).
  { assert (Q : bb = end_of b (end_time_of xs)) by reflexivity. clearbody bb. cbn [In] in K. destruct K as [K|[K|[]]]; injection K as <- <- <-.
    - assert (Bb : b = pool 0 20 100 ["outflow"; "outflow"]%string lake_initial bump earth) by (cbn [named_benchmark] in NB; intuition congruence).
      exists (lake_at_rest_benchmark T earth). rewrite Q, Bb. unfold T. split; [destruct (end_time_of xs); reflexivity|].
      split; [intros n Hn; apply C65_lake_at_rest_benchmark; auto; unfold earth; lra|]. cbn [lake_at_rest_benchmark bm_domain bm_start bm_end bm_initial bm_bottom bm_conditions].
      repeat match goal with |- _ /\ _ => split end; try reflexivity.
      + intro x. pose proof (bump_bounds x). lra.
      + exists "outflow"%string. cbn. auto.
    - assert (Bb : b = pool 0 20 100 ["periodic"]%string (fun _ => (1, 0)) still earth) by (cbn [named_benchmark] in NB; intuition congruence).
      exists (lake_without_bottom_benchmark T earth). rewrite Q, Bb. unfold T. split; [destruct (end_time_of xs); reflexivity|].
      split; [intros n Hn; apply C65_lake_without_bottom_benchmark; auto; unfold earth; lra|]. cbn [lake_without_bottom_benchmark bm_domain bm_start bm_end bm_initial bm_bottom bm_conditions].
      repeat match goal with |- _ /\ _ => split end; try reflexivity.
      + intro x. f_equal. lra.
      + intro x. unfold still. lra.
      + exists "periodic"%string. cbn. auto. }
  clearbody bb T. destruct B as [sb [-> [LS [SD [SS [SE [SI [SB [LB [nl [SN SN']]]]]]]]]]].
  assert (HD : ia (bm_domain sb) < ib (bm_domain sb)) by (rewrite SD; cbn; lra).
  (* one solver *)
  assert (One : forall r, In r rs -> exists cw, construct eig ls old (BSw sb) (snd (ordered net net2 false r)) = Ok (Water cw) /\
    exists N w, (forall n, (N <= n)%nat -> solve_any finite finite2 n (Water cw) = (Water (fst cw, w), None)) /\
      T - 1 / 10 ^ 12 < o_time (solution_of w) <= T /\ still_water level bottom (cells_of r) (o_sol (solution_of w))).
  { intros r Hr. rewrite Forall_forall in KS, St. destruct (kept_call net net2 r (KS r Hr)) as [g [Tb [-> KL]]].
    pose proof (S3 rs Er) as WW. rewrite Forall_forall in WW. destruct (written_positive _ _ _ _ _ r (WW r Hr)) as [CP FP]. specialize (St r Hr).
    set (a := fv (cells_of r) (cfl_number r) Tb false) in *.
    assert (On : or_default (a_mesh_size a) default_mesh_size = cells_of r). { cbn [a fv a_mesh_size]. destruct (cells_of r); [lia|reflexivity]. }
    destruct (C64_solvers_can_be_built eig g sb a nl nl HE HD SN SN' SN') as [cc [w [E [_ Lw]]]].
    exists (cc, w). cbn [construct]. rewrite E. split; [reflexivity|]. cbn [fst].
    pose proof (lake_value eig sb a g cc w level (cells_of r) HE E SD SI On) as LV. rewrite SB in LV.
    destruct (C65_lake_run_completes eig finite2 g sb a cc w HE KL E) as [N [w' [s [E1 [E2 E3]]]]].
    - rewrite Lw, On. apply LS. exact CP.
    - apply HF. apply Forall_forall. intros v Hv. destruct LV as [L1 L2]. apply (In_nth _ _ (0, 0)) in Hv as [i [Hi <-]]. rewrite L1 in Hi. rewrite (L2 i Hi). cbn [fst snd].
      split; [|reflexivity]. unfold mean2. match goal with |- context [(bottom ?x + bottom ?y) / 2] => pose proof (LB x); pose proof (LB y) end. lra.
    - rewrite SE, SS. lra.
    - rewrite Lw, On, SD. cbn [ia ib]. replace (20 - 0) with 20 by ring. cbn [a fv a_cfl py_or]. unfold py_or. destruct (Reqb_spec (cfl_number r) 0); [lra|exact St].
    - rewrite SE in E2. exists N, w'. split; [|split; [exact E2|rewrite E3; exact LV]].
      intros n Hn. cbn [solve_any]. rewrite (solve_longer finite2 cc N n w w' s Hn E1). reflexivity. }
  (* all of them *)
  assert (All : exists objects, mapM (fun o => construct eig ls old (BSw sb) (snd o)) (map (ordered net net2 false) rs) = Ok objects /\
    exists N objects', (forall n, (N <= n)%nat -> map (solve_any finite finite2 n) objects = map (fun o => (o, None)) objects') /\
      Forall2 (fun r o => exists c w, o = Water (c, w) /\ T - 1 / 10 ^ 12 < o_time (solution_of w) <= T /\ still_water level bottom (cells_of r) (o_sol (solution_of w))) rs objects').
  { clear - One. induction rs as [|r rs IH].
    - exists []. split; [reflexivity|]. exists 0%nat, []. split; [reflexivity|constructor].
    - destruct (One r (or_introl eq_refl)) as [[cc w] [E [N [w' [E1 [E2 E3]]]]]]. destruct IH as [os [F1 [N2 [os' [F2 F3]]]]]; [intros r' H; apply One; right; exact H|].
      exists (Water (cc, w) :: os). cbn [map mapM]. rewrite E. cbn [bind]. rewrite F1. split; [reflexivity|].
      exists (N + N2)%nat, (Water (cc, w') :: os'). split.
      + intros n Hn. cbn [map]. rewrite E1, F2 by lia. reflexivity.
      + constructor; [exists cc, w'; auto|exact F3]. }
  destruct All as [os [F1 [N [os' [F2 F3]]]]]. exists N. intros n Hn. exists os'. split; [|exact F3].
  unfold calculate_line. rewrite J, F1. f_equal. specialize (F2 n Hn).
  assert (G : forall l l', map (solve_any finite finite2 n) l = map (fun o => (o, None)) l' -> M_Command.solve_all (solve_any finite finite2 n) l = (l', None)).
  { induction l as [|o l IH]; intros [|o' l'] E; try discriminate E; [reflexivity|]. cbn [map] in E. injection E as E E'. cbn [M_Command.solve_all]. rewrite E, (IH l' E'). reflexivity. }
  pose proof (G os os' F2) as R. unfold calculate_execute. destruct os as [|o [|o2 os]].
  - cbn in R. injection R as <-. reflexivity.
  - cbn [M_Command.solve_all] in R. destruct (solve_any finite finite2 n o) as [o' [e|]]; injection R as <-; [discriminate|reflexivity].
  - rewrite R. reflexivity.
Qed.
Print Assumptions C83_still_water.
