(** C76: series of error curves and their average. C77: parameter variations. *)
From Coq Require Import Reals String List ZArith Lia Lra Arith Bool.
From Verif Require Import Prelude L_Prelude M_Mesh M_Boundary L_Boundary M_Interpolate S_Interpolate S_Quadrature L_Interpolate P_Interpolate M_ShallowWater
  M_ODE M_TimeStepping M_Solution M_Solver S_Solver L_Solver P_Solver L_Flux M_FVSolver S_FVSolver L_FVSolver P_FVReinit M_Benchmark P_BenchmarkSW M_Command M_Series S_Series.
Import ListNotations.
Open Scope R_scope.
Notation length := List.length.

(** ** C76: a series is a list of independent experiments *)
Section Series.
Context {Sv B Sn E : Type} (reinit : B -> Sv -> Sv * option exn) (solve : Sv -> Sv * option exn) (seen : Sv -> Sn) (errors : Sn -> Sn -> result E).
(** the states the two solvers may be in, and the new solvers for a benchmark *)
Context (bs : list B) (usedA usedE : Sv -> Prop) (newA newE : B -> Sv).
Hypothesis reinitA : forall b s, In b bs -> usedA s -> exists s', reinit b s = (s', None) /\ usedA s' /\
  seen (fst (solve s')) = seen (fst (solve (newA b))) /\ snd (solve s') = snd (solve (newA b)).
Hypothesis reinitE : forall b s, In b bs -> usedE s -> exists s', reinit b s = (s', None) /\ usedE s' /\
  seen (fst (solve s')) = seen (fst (solve (newE b))) /\ snd (solve s') = snd (solve (newE b)).
Hypothesis solveA : forall s, usedA s -> usedA (fst (solve s)).
Hypothesis solveE : forall s, usedE s -> usedE (fst (solve s)).
(** the experiment for one benchmark with new solvers: both are solved; their errors are compared if neither raised *)
Definition experiment (b : B) : option (result E) :=
  let '(e, xe) := solve (newE b) in let '(a, xa) := solve (newA b) in
  match xe, xa with None, None => Some (errors (seen a) (seen e)) | _, _ => None end.

Lemma series_run : forall l acc a e, (forall b, In b l -> In b bs) -> usedA a -> usedE e ->
  (forall b r, In b l -> experiment b = Some r -> exists v, r = Ok v) ->
  exists a' e' out, series reinit solve seen errors false l a e acc = (a', e', acc ++ out, None) /\ map Ok out = successes experiment l /\ usedA a' /\ usedE e'.
Proof.
  induction l as [|b l IH]; intros acc a e HB UA UE HE.
  - exists a, e, []. rewrite app_nil_r. repeat split; auto.
  - cbn [series]. destruct (reinitA b a (HB b (or_introl eq_refl)) UA) as [a1 [Ra [Ua [Sa Xa]]]]. rewrite Ra.
    destruct (reinitE b e (HB b (or_introl eq_refl)) UE) as [e1 [Re [Ue [Se Xe]]]]. rewrite Re.
    cbn [calculate_execute solve_all].
    pose proof (HE b) as HEb. unfold experiment in HEb. pose proof (solveA _ Ua) as Ua2. pose proof (solveE _ Ue) as Ue2.
    cbn [successes]. unfold experiment at 1.
    destruct (solve e1) as [e2 xe] eqn:S1. cbn [fst snd] in *.
    destruct (solve (newE b)) as [e3 xe'] eqn:S2. cbn [fst snd] in *. subst xe'.
    destruct (solve (newA b)) as [a3 xa'] eqn:S3. cbn [fst snd] in *.
    destruct xe as [x|].
    + destruct (IH acc a1 e2) as [a' [e' [out [K1 [K2 [K3 K4]]]]]]; auto; [intros; apply HB; right; auto|intros; apply (HE b0); auto; right; auto|].
      exists a', e', out. auto.
    + destruct (solve a1) as [a2 xa] eqn:S4. cbn [fst snd] in *. subst xa'. destruct xa as [x|].
      * destruct (IH acc a2 e2) as [a' [e' [out [K1 [K2 [K3 K4]]]]]]; auto; [intros; apply HB; right; auto|intros; apply (HE b0); auto; right; auto|].
        exists a', e', out. auto.
      * rewrite Sa, Se. destruct (HEb _ (or_introl eq_refl) eq_refl) as [v Ev]. rewrite Ev.
        destruct (IH (acc ++ [v]) a2 e2) as [a' [e' [out [K1 [K2 [K3 K4]]]]]]; auto; [intros; apply HB; right; auto|intros; apply (HE b0); auto; right; auto|].
        exists a', e', (v :: out). rewrite K1, <- app_assoc. cbn [app map]. rewrite K2. auto.
Qed.
End Series.

(** The errors of a series are those of the benchmarks for which both solvers succeed, in order, and each is what two new solvers would give: neither earlier
    benchmarks nor failed ones matter. Stated for solvers whose re-initialisation makes them like new (reinitA, reinitE), which C76_series_of_solvers shows
    for those of the shallow water equations. *)
Theorem C76_series : forall {Sv B Sn E} (reinit : B -> Sv -> Sv * option exn) (solve : Sv -> Sv * option exn) (seen : Sv -> Sn) (errors : Sn -> Sn -> result E)
  (bs : list B) (usedA usedE : Sv -> Prop) (newA newE : B -> Sv) a e,
  (forall b s, In b bs -> usedA s -> exists s', reinit b s = (s', None) /\ usedA s' /\ seen (fst (solve s')) = seen (fst (solve (newA b))) /\ snd (solve s') = snd (solve (newA b))) ->
  (forall b s, In b bs -> usedE s -> exists s', reinit b s = (s', None) /\ usedE s' /\ seen (fst (solve s')) = seen (fst (solve (newE b))) /\ snd (solve s') = snd (solve (newE b))) ->
  (forall s, usedA s -> usedA (fst (solve s))) -> (forall s, usedE s -> usedE (fst (solve s))) -> usedA a -> usedE e ->
  (forall b r, In b bs -> experiment solve seen errors newA newE b = Some r -> exists v, r = Ok v) ->
  exists a' e' out, series reinit solve seen errors false bs a e [] = (a', e', out, None) /\
    map Ok out = successes (experiment solve seen errors newA newE) bs.
Proof.
  intros. edestruct (series_run reinit solve seen errors bs usedA usedE newA newE H H0 H1 H2 bs [] a e) as [a' [e' [out [K1 [K2 _]]]]]; auto.
  exists a', e', out. auto.
Qed.
Print Assumptions C76_series.

Section Solvers.
Context (eig : nat -> (nat -> nat -> R) -> (nat -> R) * (nat -> nat -> R)) (finite : list state -> bool) (k : nat).
(** solvers of the shallow water equations as objects, solved for at most [k] steps; the middle entry is the mesh size *)
Definition object : Type := config (list state) * nat * world (list state).
Definition object_of (s : config (list state) * world (list state)) : object := (fst s, length (o_sol (solution_of (snd s))), snd s).
Definition object_solve (o : object) : object * option exn :=
  let '(c, n, w) := o in let '((c', w'), x) := solve_object finite k (c, w) in ((c', n, w'), x).
Definition object_reinit (b : sw_benchmark) (o : object) : object * option exn :=
  let '(c, n, w) := o in let '(w', x) := sw_reinitialize eig finite c n b w in ((c, n, w'), x).
Definition object_seen (o : object) := let '(_, _, w) := o in M_Solver.seen w.

Lemma object_reinit_like_new : forall g b a s bs new, sw_solver eig g b a = Ok s ->
  (forall b', In b' bs -> same_but_initial b b' /\ sw_solver eig g b' a = Ok (new b') /\ finite (o_sol (solution_of (snd (new b')))) = true) ->
  let used := fun o : object => exists us, (forall v t, In (Reinit v t) us -> bm_start b <= t) /\
    o = (fst s, length (o_sol (solution_of (snd s))), fst (use_run finite (fst s) us (snd s, []))) in
  (forall b' o, In b' bs -> used o -> exists o', object_reinit b' o = (o', None) /\ used o' /\
     object_seen (fst (object_solve o')) = object_seen (fst (object_solve (object_of (new b')))) /\ snd (object_solve o') = snd (object_solve (object_of (new b')))) /\
  (forall o, used o -> used (fst (object_solve o))) /\ used (object_of s).
Proof.
  intros g b a [c w] bs new E H used. cbn [fst snd] in *.
  assert (St : forall u us, use_run finite c (us ++ [u]) (w, []) = use_step finite c (use_run finite c us (w, [])) u) by (intros; unfold use_run; rewrite fold_left_app; reflexivity).
  split; [|split].
  - intros b' o I [us [HU ->]]. destruct (H b' I) as [S [E' F]]. destruct (new b') as [c' w'] eqn:En. cbn [fst snd] in *.
    destruct (C68_reinitialized_is_a_new_solver eig finite g b b' a c w c' w' us E E' S F HU) as [w2 [R1 [R2 R3]]].
    unfold object_reinit. rewrite R1. eexists. split; [reflexivity|]. split.
    + unfold sw_reinitialize in R1. destruct (fv_solution eig b' (Some (length (o_sol (solution_of w))))) as [[m v]|x]; [|discriminate].
      exists (us ++ [Reinit v (bm_start b')]). split.
      * intros v0 t0 I0. apply in_app_or in I0. destruct I0 as [I0|[I0|[]]]; [eauto|]. inversion I0; subst. destruct S as [_ [S _]]. rewrite S. lra.
      * rewrite St. destruct (use_run finite c us (w, [])) as [wu owned]. cbn [use_step fst] in *. rewrite R1. reflexivity.
    + unfold object_solve, solve_object, object_of. cbn [fst snd]. specialize (R3 k).
      destruct (M_Solver.solve finite c k w2) as [[x1 x2] x3]. destruct (M_Solver.solve finite c' k w') as [[y1 y2] y3]. cbn [fst snd] in R3.
      destruct R3 as [A1 [A2 A3]]. subst y3. destruct x3; cbn [fst snd object_seen]; auto.
  - intros o [us [HU ->]]. exists (us ++ [Solve k]). split.
    + intros v0 t0 I0. apply in_app_or in I0. destruct I0 as [I0|[I0|[]]]; [eauto|discriminate].
    + rewrite St. destruct (use_run finite c us (w, [])) as [wu owned]. unfold object_solve, solve_object. cbn [use_step fst].
      destruct (M_Solver.solve finite c k wu) as [[x1 x2] x3]. destruct x3; reflexivity.
  - exists []. split; [intros ? ? []|]. reflexivity.
Qed.

(** The solvers of the shallow water equations: whatever benchmarks came before, the errors are those of new solvers. *)
Theorem C76_series_of_solvers : forall {E} (errors : _ -> _ -> result E) gA gE b aA aE sA sE bs newA newE,
  sw_solver eig gA b aA = Ok sA -> sw_solver eig gE b aE = Ok sE ->
  (forall b', In b' bs -> same_but_initial b b' /\ sw_solver eig gA b' aA = Ok (newA b') /\ finite (o_sol (solution_of (snd (newA b')))) = true /\
     sw_solver eig gE b' aE = Ok (newE b') /\ finite (o_sol (solution_of (snd (newE b')))) = true) ->
  let alone := experiment object_solve object_seen errors (fun b' => object_of (newA b')) (fun b' => object_of (newE b')) in
  (forall b' r, In b' bs -> alone b' = Some r -> exists v, r = Ok v) ->
  exists a' e' out, series object_reinit object_solve object_seen errors false bs (object_of sA) (object_of sE) [] = (a', e', out, None) /\
    map Ok out = successes alone bs.
Proof.
  intros E errors gA gE b aA aE sA sE bs newA newE EA EE H alone HR.
  destruct (object_reinit_like_new gA b aA sA bs newA EA) as [A1 [A2 A3]]; [intros b' I; destruct (H b' I) as [? [? [? _]]]; auto|].
  destruct (object_reinit_like_new gE b aE sE bs newE EE) as [B1 [B2 B3]]; [intros b' I; destruct (H b' I) as [? [? [? [? ?]]]]; auto|].
  exact (C76_series object_reinit object_solve object_seen errors bs _ _ (fun b' => object_of (newA b')) (fun b' => object_of (newE b')) _ _ A1 B1 A2 B2 A3 B3 HR).
Qed.
End Solvers.
Print Assumptions C76_series_of_solvers.

(** a series in which the first solver fails for the second benchmark: numbers as benchmarks and solvers *)
Example C76_ex :
  let reinit := fun (b : nat) (s : nat) => (b, @None exn) in
  let solve := fun s : nat => if Nat.eqb s 2 then (s, Some ValueError) else (S s, None) in
  series reinit solve (fun s => s) (fun a e => Ok (a + e)%nat) false [1; 2; 3]%nat 0%nat 0%nat [] = (4, 4, [4; 8], None)%nat /\
  successes (experiment solve (fun s => s) (fun a e => Ok (a + e)%nat) (fun b => b) (fun b => b)) [1; 2; 3]%nat = [Ok 4%nat; Ok 8%nat].
Proof. split; reflexivity. Qed.

(** Asked to save plots, the command fails at the first benchmark for which the solvers succeed. *)
Theorem C76_saving_plots_refuted : forall {Sv B Sn E} (reinit : B -> Sv -> Sv * option exn) (solve : Sv -> Sv * option exn) (seen : Sv -> Sn) (errors : Sn -> Sn -> result E) b bs a e a1 e1 a2 e2 r,
  reinit b a = (a1, None) -> reinit b e = (e1, None) -> solve e1 = (e2, None) -> solve a1 = (a2, None) -> errors (seen a2) (seen e2) = Ok r ->
  series reinit solve seen errors true (b :: bs) a e [] = (a2, e2, [r], Some TypeError).
Proof. intros. cbn [series]. rewrite H, H0. cbn [calculate_execute solve_all]. rewrite H1, H2, H3. reflexivity. Qed.
Print Assumptions C76_saving_plots_refuted.

(** ** the average of the curves *)
Lemma shortest_spec : forall times best, In (shortest best times) (best :: times) /\ forall t, In t (best :: times) -> (length (shortest best times) <= length t)%nat.
Proof.
  induction times as [|t times IH]; intro best; cbn [shortest].
  - split; [left; auto|]. intros t [->|[]]. auto.
  - destruct (Nat.ltb_spec (length t) (length best)).
    + destruct (IH t) as [I M]. split; [destruct I as [I|I]; [right; left|right; right]; auto|].
      intros x [->|[->|Hx]]; [specialize (M t (or_introl eq_refl)); lia|apply M; left; auto|apply M; right; auto].
    + destruct (IH best) as [I M]. split; [destruct I as [I|I]; [left|right; right]; auto|].
      intros x [->|[->|Hx]]; [apply M; left; auto|specialize (M best (or_introl eq_refl)); lia|apply M; right; auto].
Qed.
(** The average curves are shown on one of the time grids, none of which is coarser; at every time they are the mean and the maximum of the curves, each interpolated linearly. *)
Theorem C76_average : forall times errs k, times <> [] -> length errs = length times ->
  (forall r, (r < length times)%nat -> increasing (nth r times []) /\ (0 < length (nth r times []))%nat /\ length (nth r errs []) = length (nth r times []) /\ rectangular k (nth r errs [])) ->
  exists av, average_errors times errs = Ok av /\ In (av_time av) times /\ (forall t, In t times -> (length (av_time av) <= length t)%nat) /\
  forall i j, (i < length (av_time av))%nat -> (j < k)%nat ->
  exists y, (forall r, (r < length times)%nat -> piecewise_linear (nth r times []) (map (fun row => nth j row 0) (nth r errs [])) (nth i (av_time av) 0) (y r)) /\
    av_mean av i j = rsum (tab (length times) y) / INR (length times) /\
    (forall r, (r < length times)%nat -> y r <= av_max av i j) /\ (exists r, (r < length times)%nat /\ av_max av i j = y r) /\
    av_mean av i j <= av_max av i j.
Proof.
  intros times errs k NE Ls H. destruct times as [|t0 rest] eqn:Et; [congruence|]. rewrite <- Et in *. clear NE.
  assert (Nn : (0 < length times)%nat) by (rewrite Et; cbn; lia).
  set (t := shortest t0 rest). destruct (shortest_spec rest t0) as [T1 T2]. fold t in T1, T2. rewrite <- Et in T1, T2.
  assert (Lc : length (combine times errs) = length times) by (rewrite combine_length; lia).
  assert (Nc : forall r, (r < length times)%nat -> nth r (combine times errs) ([], []) = (nth r times [], nth r errs [])) by (intros; apply combine_nth; auto).
  destruct (mapM_exists (fun p => temporal_interpolator (fst p) (snd p) t) (combine times errs)) as [adjusted EA].
  { intros p Ip. apply (In_nth _ _ ([], [])) in Ip as [r [Hr Er]]. rewrite Lc in Hr. rewrite Nc in Er by auto. subst p. cbn [fst snd].
    destruct (H r Hr) as [H1 [H2 [H3 H4]]]. destruct (C42_temporal _ _ t k H1 H2 H3 H4) as [out [E _]]. eauto. }
  destruct (mapM_nth _ _ _ ([], []) [] EA) as [L1 V]. rewrite Lc in L1, V.
  exists {| av_time := t; av_mean := fun i j => mean_of (entries_of adjusted i j); av_max := fun i j => max_of (entries_of adjusted i j) |}.
  split; [|split; [exact T1|split; [exact T2|]]].
  { unfold average_errors, adjust_errors, minimum_time. rewrite Et at 1. fold t. cbn [bind]. rewrite EA. reflexivity. }
  cbn [av_time av_mean av_max]. intros i j Hi Hj.
  exists (fun r => entry (nth r adjusted []) i j).
  assert (En : entries_of adjusted i j = tab (length times) (fun r => entry (nth r adjusted []) i j)).
  { unfold entries_of. rewrite <- L1. apply (list_ext 0); rewrite ?map_length, ?tab_length; auto. intros r Hr. rewrite nth_tab by auto. rewrite (nth_map' _ _ r []) by auto. reflexivity. }
  rewrite En.
  assert (MX : (forall r, (r < length times)%nat -> entry (nth r adjusted []) i j <= max_of (tab (length times) (fun r => entry (nth r adjusted []) i j))) /\
    exists r, (r < length times)%nat /\ max_of (tab (length times) (fun r => entry (nth r adjusted []) i j)) = entry (nth r adjusted []) i j).
  { set (f := fun r => entry (nth r adjusted []) i j). assert (G : forall x, In x (tab (length times) f) <-> exists r, (r < length times)%nat /\ x = f r).
    { intro x. rewrite in_tab. split; intros [r [A1 B1]]; exists r; auto. }
    destruct (tab (length times) f) as [|x l] eqn:Ex; [apply (f_equal (@length R)) in Ex; rewrite tab_length in Ex; cbn in Ex; lia|]. cbn [max_of]. split.
    - intros r Hr. assert (In (f r) (x :: l)) as [->|I] by (apply G; eauto); [apply lmax1_ge|apply lmax1_ub; auto].
    - apply G. destruct (lmax1_in x l) as [->|I]; [left; auto|right; auto]. }
  destruct MX as [M1 M2]. split; [|split; [|split; [exact M1|split; [exact M2|]]]].
  - intros r Hr. specialize (V r Hr). rewrite Nc in V by auto. cbn [fst snd] in V. destruct (H r Hr) as [H1 [H2 [H3 H4]]].
    destruct (C42_temporal _ _ t k H1 H2 H3 H4) as [out [E [_ [_ [P _]]]]]. rewrite E in V. injection V as <-. apply P; auto.
  - unfold mean_of. rewrite tab_length. reflexivity.
  - unfold mean_of. rewrite tab_length. assert (0 < INR (length times)) by (apply lt_0_INR; auto).
    apply Rmult_le_reg_r with (INR (length times)); auto. unfold Rdiv. rewrite Rmult_assoc, Rinv_l, Rmult_1_r by lra.
    eapply Rle_trans; [apply (rsum_tab_le _ _ (fun _ => max_of (tab (length times) (fun r => entry (nth r adjusted []) i j)))); intros; apply M1; auto|].
    rewrite rsum_tab_const. lra.
Qed.
Print Assumptions C76_average.
Example C76_average_ex : exists av, average_errors [[0; 1; 2]; [0; 2]] [[[1; 0]; [3; 0]; [5; 0]]; [[1; 2]; [7; 2]]] = Ok av /\ av_time av = [0; 2] /\ av_mean av 1 0 = 6 /\ av_max av 1 0 = 7.
Proof.
  destruct (C76_average [[0; 1; 2]; [0; 2]] [[[1; 0]; [3; 0]; [5; 0]]; [[1; 2]; [7; 2]]] 2) as [av [E [I [M P]]]]; [discriminate|reflexivity| |].
  { intros [|[|r]] Hr; [| |cbn in Hr; lia]; cbn [nth length]; (split; [intros i j Hi; cbn [length] in Hi; destruct i as [|[|[|i]]]; destruct j as [|[|[|j]]]; try lia; cbn; lra|split; [lia|split; [reflexivity|]]]; intros row Ir; cbn in Ir; intuition subst; reflexivity). }
  exists av. split; [exact E|]. assert (T : av_time av = [0; 2]) by (unfold average_errors, adjust_errors in E; cbn [minimum_time shortest length Nat.ltb Nat.leb bind] in E; match type of E with bind (bind ?r _) _ = _ => destruct r; [|discriminate] end; cbn [bind] in E; apply Ok_inj in E; subst av; reflexivity).
  split; [exact T|]. destruct (P 1%nat 0%nat) as [y [Y1 [Y2 [Y3 [[r [Hr Y4]] _]]]]]; [rewrite T; cbn; lia|lia|]. rewrite T in Y1.
  assert (A0 : y 0%nat = 5) by (destruct (Y1 0%nat) as [_ [K _]]; [cbn; lia|]; cbn in K; apply K; lra).
  assert (A1 : y 1%nat = 7) by (destruct (Y1 1%nat) as [_ [K _]]; [cbn; lia|]; cbn in K; apply K; lra).
  rewrite Y2. split; [cbn; rewrite A0, A1; lra|]. rewrite Y4. pose proof (Y3 1%nat ltac:(cbn; lia)). destruct r as [|[|r]]; [|auto|cbn in Hr; lia]. rewrite Y4, A0, A1 in *. lra.
Qed.

(** If no benchmark succeeded, plotting the average raises. *)
Theorem C76_no_success_refuted : forall errs, average_errors [] errs = Err ValueError.
Proof. reflexivity. Qed.
Print Assumptions C76_no_success_refuted.

(** ** C77: parameter variations *)
Definition varied (v : variation) : parameter := match v with VHeight => HeightAverage | VWaveNumber => HeightWaveNumber | VAmplitude => HeightAmplitude end.
Section Variation.
Context {G : Type} (default_rng : Z -> G) (uniform : R -> R -> G -> R * G) (integers : Z -> Z -> G -> Z * G).

Ltac draws := repeat match goal with
  | |- context [let '(_, _) := ?x in _] => destruct x eqn:?
  end.
(** Two values of the same parameter are tested with the same benchmarks except for that parameter: the same seeds, and all other random parameters are equal. *)
Theorem C77_same_experiments : forall v x y seed n, x <> 0 -> y <> 0 ->
  Forall2 (fun p q => fst p = fst q /\ same_except (varied v) (snd p) (snd q) /\ parameter_of (varied v) (snd p) = x /\ parameter_of (varied v) (snd q) = y)
    (variation_benchmarks default_rng uniform integers v x seed n) (variation_benchmarks default_rng uniform integers v y seed n).
Proof.
  intros v x y seed n Hx Hy. unfold variation_benchmarks, random_benchmarks. generalize (default_rng seed) as g. induction n as [|n IH]; intro g; [constructor|].
  cbn [benchmarks_from]. unfold next_benchmark. destruct (integers 0 (10 ^ 9) g) as [s g']. constructor; [|apply IH]. cbn [fst snd]. split; [reflexivity|].
  unfold random_benchmark, variation_args.
  assert (Zx : Reqb x 0 = false) by (destruct (Reqb_spec x 0); auto; contradiction). assert (Zy : Reqb y 0 = false) by (destruct (Reqb_spec y 0); auto; contradiction).
  assert (Z2 : Reqb 2 0 = false) by (destruct (Reqb_spec 2 0); auto; lra).
  destruct v; cbn [g_h0 g_Ah g_ph g_kh g_v0 g_Av g_pv g_kv or_draw]; rewrite ?Zx, ?Zy, ?Z2; draws;
    unfold new_oscillation, same_except, parameter_of, varied; cbn [py_or if_none h0 Ah ph kh v0 Av pv kv]; rewrite ?Zx, ?Zy; intuition congruence.
Qed.

Lemma benchmarks_in : forall a n g s o, In (s, o) (benchmarks_from default_rng uniform integers a n g) -> o = random_benchmark default_rng uniform integers a s.
Proof.
  intros a. induction n as [|n IH]; intros g s o I; [destruct I|]. cbn [benchmarks_from] in I. unfold next_benchmark in I. destruct (integers 0 (10 ^ 9) g) as [s' g'].
  destruct I as [I|I]; [congruence|eapply IH; eauto].
Qed.

Hypothesis range : draws_in_range uniform integers.
Lemma uniform_range low high g x g' : uniform low high g = (x, g') -> low < high -> low <= x <= high.
Proof. intros E L. destruct range as [U _]. specialize (U low high g L). rewrite E in U. exact U. Qed.
Lemma integer_range low high g x g' : draw_integer integers low high g = (x, g') -> (low < high)%Z -> exists k, x = IZR k /\ (low <= k < high)%Z.
Proof. unfold draw_integer. intros E L. destruct range as [_ U]. specialize (U low high g L). destruct (integers low high g) as [k g1]. injection E as <- _. eauto. Qed.

(** All benchmarks, of the references and of every variation, are admissible: the water height is at least 1/2, the water flows to the right, and the data are
    periodic on the domain of length 100. *)
Theorem C77_admissible : forall seed n s o, In (s, o) (reference_benchmarks default_rng uniform integers seed n) \/
    (exists v x, In x (variation_values v) /\ In (s, o) (variation_benchmarks default_rng uniform integers v x seed n)) ->
  forall x, 1 / 2 <= fst (osc_initial o x) /\ 0 < snd (osc_initial o x) /\ osc_initial o (x + 100) = osc_initial o x.
Proof.
  assert (Q : forall o (i j : Z) x, 1 / 2 + Ah o <= h0 o -> 0 <= Ah o -> 1 <= v0 o -> 0 <= Av o <= 6 / 10 -> kh o = IZR i -> kv o = IZR j -> (0 <= i)%Z -> (0 <= j)%Z ->
     1 / 2 <= fst (osc_initial o x) /\ 0 < snd (osc_initial o x) /\ osc_initial o (x + 100) = osc_initial o x).
  { intros o i j x H1 H2 H3 H4 H5 H6 H7 H8. destruct (C49_oscillations o x) as [_ [_ [P _]]].
    rewrite <- (Z2Nat.id i) in H5 by auto. rewrite <- (Z2Nat.id j) in H6 by auto. rewrite <- INR_IZR_INZ in H5, H6. specialize (P _ _ H5 H6).
    unfold osc_initial in *. cbn [fst snd] in *.
    match goal with |- _ <= h0 o + Ah o * sin ?z /\ 0 < _ * (v0 o + Av o * sin ?y) /\ _ => pose proof (SIN_bound z) as S1; pose proof (SIN_bound y) as S2; assert (A1 : 1 / 2 <= h0 o + Ah o * sin z) by nra; assert (A2 : 0 < v0 o + Av o * sin y) by nra end.
    split; [exact A1|split; [apply Rmult_lt_0_compat; lra|exact P]]. }
  assert (W : forall a s0, g_v0 a = None -> g_Av a = None -> g_pv a = None -> g_kv a = None ->
     (forall z, (g_Ah a = None /\ 2 / 10 <= z <= 6 / 10) \/ g_Ah a = Some z -> z <> 0 -> 1 / 2 + z <= py_or (g_h0 a) 2 /\ 0 <= z) ->
     (forall z, g_kh a = Some z -> exists k, z = IZR k /\ (0 < k)%Z) -> (forall z, g_Ah a = Some z -> z <> 0) ->
     forall x, let o := random_benchmark default_rng uniform integers a s0 in 1 / 2 <= fst (osc_initial o x) /\ 0 < snd (osc_initial o x) /\ osc_initial o (x + 100) = osc_initial o x).
  { intros a s0 N1 N2 N3 N4 HA HK HZ x. unfold random_benchmark. rewrite N1, N2, N3, N4.
    destruct (or_draw (g_Ah a) (uniform (2 / 10) (6 / 10)) (default_rng s0)) as [Ah_ g1] eqn:D1.
    destruct (or_draw (g_ph a) (uniform 0 (2 * PI)) g1) as [ph_ g2]. destruct (or_draw (g_kh a) (draw_integer integers 1 6) g2) as [kh_ g3] eqn:D3. cbn [or_draw].
    destruct (uniform 1 2 g3) as [v0_ g4] eqn:D4. destruct (uniform (2 / 10) (6 / 10) g4) as [Av_ g5] eqn:D5. destruct (uniform 0 (2 * PI) g5) as [pv_ g6]. destruct (draw_integer integers 1 5 g6) as [kv_ g7] eqn:D7.
    apply uniform_range in D4; [|lra]. apply uniform_range in D5; [|lra]. apply integer_range in D7 as [j [-> Hj]]; [|lia].
    assert (B1 : 1 / 2 + Ah_ <= py_or (g_h0 a) 2 /\ 0 <= Ah_).
    { unfold or_draw in D1. destruct (g_Ah a) as [z|] eqn:Ea.
      - specialize (HZ z eq_refl). destruct (Reqb_spec z 0); [contradiction|]. injection D1 as <- _. apply HA; auto.
      - apply uniform_range in D1; [|lra]. apply HA; [left; auto|lra]. }
    assert (B2 : exists i, kh_ = IZR i /\ (0 < i)%Z).
    { unfold or_draw in D3. destruct (g_kh a) as [z|] eqn:Ea.
      - destruct (HK z eq_refl) as [i [-> Hi]]. destruct (Reqb_spec (IZR i) 0) as [e|]; [apply eq_IZR in e; lia|]. injection D3 as <- _. eauto.
      - apply integer_range in D3 as [i [-> Hi]]; [|lia]. exists i. split; [auto|lia]. }
    destruct B2 as [i [-> Hi]]. apply (Q _ i j); unfold new_oscillation; cbn [if_none h0 Ah kh v0 Av kv]; try reflexivity; try lia; lra. }
  intros seed n s0 o H x.
  assert (PO : forall y d, y <> 0 -> py_or (Some y) d = y) by (intros y d Hy; unfold py_or; destruct (Reqb_spec y 0); [contradiction|auto]).
  destruct H as [H|[v [y [Hy H]]]]; apply benchmarks_in in H; subst o; apply W; try reflexivity.
  - intros z [[_ Hz]|Hz] _; [cbn [no_args g_h0 py_or]; lra|discriminate].
  - discriminate.
  - discriminate.
  - destruct v; reflexivity.
  - destruct v; reflexivity.
  - destruct v; reflexivity.
  - destruct v; reflexivity.
  - destruct v; cbn [variation_args g_Ah g_h0]; intros z Hz N; cbn [variation_values In] in Hy.
    + rewrite PO by (intuition lra). destruct Hz as [[_ Hz]|Hz]; [|discriminate]. intuition lra.
    + destruct Hz as [[_ Hz]|Hz]; [|discriminate]. cbn [py_or]. lra.
    + destruct Hz as [[Hz _]|Hz]; [discriminate|]. injection Hz as <-. cbn [py_or]. intuition lra.
  - destruct v; cbn [variation_args g_kh]; intros z Hz; try discriminate; injection Hz as <-.
    + exists 2%Z. split; [reflexivity|lia].
    + destruct Hy as [<-|[<-|[]]]; [exists 10%Z|exists 15%Z]; (split; [reflexivity|lia]).
  - destruct v; cbn [variation_args g_Ah]; intros z Hz; try discriminate; injection Hz as <-. cbn [variation_values In] in Hy. intuition lra.
Qed.
End Variation.
Print Assumptions C77_same_experiments.
Print Assumptions C77_admissible.

(** a generator that counts its draws *)
Definition counting_uniform (low high : R) (g : nat) : R * nat := (low + (high - low) / INR (g + 2), S g).
Definition counting_integers (low high : Z) (g : nat) : Z * nat := (low, S g).
Example C77_ex : draws_in_range counting_uniform counting_integers /\
  Forall2 (fun p q => ph (snd p) = ph (snd q) /\ kh (snd p) = 10 /\ kh (snd q) = 15)
    (variation_benchmarks (fun _ => 0%nat) counting_uniform counting_integers VWaveNumber 10 1 2) (variation_benchmarks (fun _ => 0%nat) counting_uniform counting_integers VWaveNumber 15 1 2).
Proof.
  split; [split|].
  - intros low high g L. cbn [counting_uniform fst]. assert (2 <= INR (g + 2)) by (replace 2 with (INR 2) by (cbn; lra); apply le_INR; lia).
    assert (0 < / INR (g + 2) <= 1). { split; [apply Rinv_0_lt_compat; lra|]. rewrite <- Rinv_1. apply Rinv_le_contravar; lra. } unfold Rdiv. nra.
  - intros low high g L. cbn. lia.
  - pose proof (C77_same_experiments (fun _ => 0%nat) counting_uniform counting_integers VWaveNumber 10 15 1%Z 2 ltac:(lra) ltac:(lra)) as F.
    induction F as [|p q l l' [_ [[_ [_ [_ [S _]]]] [A B]]] F IH]; constructor; auto.
Qed.

(** Compared with the references more than the varied parameter changes: giving the amplitude saves a draw, so all other random parameters are other ones. *)
Theorem C77_references_refuted :
  ~ (forall {G} default_rng (uniform : R -> R -> G -> R * G) integers v x seed n, draws_in_range uniform integers -> In x (variation_values v) ->
     Forall2 (fun p q => fst p = fst q /\ same_except (varied v) (snd p) (snd q))
       (reference_benchmarks default_rng uniform integers seed n) (variation_benchmarks default_rng uniform integers v x seed n)).
Proof.
  intro H. specialize (H nat (fun _ => 0%nat) counting_uniform counting_integers VAmplitude 1 1%Z 1%nat (proj1 C77_ex) (or_intror (or_introl eq_refl))).
  inversion_clear H as [|? ? ? ? H1 _]. destruct H1 as [_ [_ [_ [_ [H1 _]]]]].
  unfold random_benchmark, no_args, variation_args in H1. cbn [g_h0 g_Ah g_ph g_kh g_v0 g_Av g_pv g_kv or_draw counting_uniform draw_integer counting_integers] in H1.
  destruct (Reqb_spec 1 0); [lra|]. cbn [new_oscillation if_none ph] in H1. cbn in H1. pose proof PI_RGT_0. nra.
Qed.
Print Assumptions C77_references_refuted.

(** The results are to be saved in the given directory; the names are put together without a separator. *)
Theorem C77_directory_refuted : forall text,
  ~ (forall directory v x, exists name, variation_directory text directory v x = append directory (append "/" name)).
Proof. intros text H. destruct (H "out"%string VHeight 1) as [name E]. unfold variation_directory in E. cbn in E. discriminate. Qed.
Print Assumptions C77_directory_refuted.

(** The variations asked for are tested, in the order given; [all] stands for all three; an unknown name raises. *)
Theorem C77_chosen : forall l,
  (In "all"%string l -> build_variations (Some l) = Ok [VHeight; VWaveNumber; VAmplitude]) /\
  (~ In "all"%string l -> (forall k, In k l -> exists v, In (k, v) all_variations) ->
     exists vs, build_variations (Some l) = Ok vs /\ Forall2 (fun k v => In (k, v) all_variations) l vs) /\
  (~ In "all"%string l -> (exists k, In k l /\ forall v, ~ In (k, v) all_variations) -> build_variations (Some l) = Err KeyError).
Proof.
  intro l. assert (EB : existsb (String.eqb "all") l = true <-> In "all"%string l).
  { rewrite existsb_exists. split; [intros [x [I E]]; apply String.eqb_eq in E; subst; auto|intro I; exists "all"%string; split; auto]. }
  assert (FI : forall k v, find_variation k all_variations = Ok v -> In (k, v) all_variations).
  { intros k v. cbn [find_variation all_variations]. repeat match goal with |- context [String.eqb k ?s] => destruct (String.eqb_spec k s); [subst; intro E; injection E as <-; cbn; auto|] end. discriminate. }
  assert (FO : forall k v, In (k, v) all_variations -> find_variation k all_variations = Ok v).
  { intros k v I. cbn [all_variations In] in I. destruct I as [I|[I|[I|[]]]]; injection I as <- <-; reflexivity. }
  assert (FE : forall k, find_variation k all_variations = Err KeyError \/ exists v, find_variation k all_variations = Ok v).
  { intro k. cbn [find_variation all_variations]. repeat match goal with |- context [String.eqb k ?s] => destruct (String.eqb k s); eauto end. }
  unfold build_variations. split; [|split].
  - intro I. apply EB in I. rewrite I. reflexivity.
  - intros N H. destruct (existsb (String.eqb "all") l) eqn:E; [destruct N; apply EB; reflexivity|]. clear - H FO.
    induction l as [|k l IH]; [exists []; split; constructor|]. destruct (H k (or_introl eq_refl)) as [v I]. destruct IH as [vs [E F]]; [intros; apply H; right; auto|].
    exists (v :: vs). cbn [mapM]. rewrite (FO _ _ I). cbn [bind]. rewrite E. cbn [bind]. split; [reflexivity|constructor; auto].
  - intros N [k [I H]]. destruct (existsb (String.eqb "all") l) eqn:E; [destruct N; apply EB; reflexivity|]. clear - I H FE FI.
    induction l as [|k' l IH]; [destruct I|]. cbn [mapM]. destruct (FE k') as [E|[v E]]; rewrite E; [reflexivity|]. cbn [bind].
    destruct I as [->|I]; [exfalso; apply (H v); apply FI; auto|]. rewrite IH by auto. reflexivity.
Qed.
Print Assumptions C77_chosen.
Example C77_chosen_ex : build_variations (Some ["amplitude"; "wave-number"]%string) = Ok [VAmplitude; VWaveNumber] /\ build_variations (Some ["wave"]%string) = Err KeyError.
Proof. split; reflexivity. Qed.
