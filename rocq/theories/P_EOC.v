(** C88: the tables of eoc, from the words to the numbers. *)
From Coq Require Import String Ascii Reals List Arith ZArith Bool Lia Lra Psatz.
From Verif Require Import Prelude L_Prelude M_Mesh M_Norm M_FE M_Quadrature S_Quadrature M_Boundary L_Boundary M_Flux L_Flux
  M_ODE S_ODE M_Solution M_Solver S_Solver M_Generate M_Scalar S_Scalar M_ShallowWater M_FVSolver
  M_Benchmark P_Benchmark M_ScalarSolver S_ScalarSolver M_Misc P_FVWater P_FVLake M_Command M_Series M_Parser S_Parser P_Parser M_CommandLine S_CommandLine L_CommandLine P_CommandLine P_CommandRun P_CommandMore S_CommandRun L_CommandRun P_FEMatrix
  P_CommandCalc M_EOC S_EOC L_EOC.
Import ListNotations.
Open Scope R_scope.
Notation length := List.length.

(** ** on another mesh *)
Lemma chosen_app {A} (pick : wish -> option A) : forall xs ys d, chosen pick (xs ++ ys) d = chosen pick ys (chosen pick xs d).
Proof. induction xs as [|x xs IH]; intros ys d; cbn [app chosen]; auto. Qed.
Lemma mesh_doubled p i : (0 < p)%Z -> Z.to_nat (2 ^ Z.of_nat i * p) = (2 ^ i * Z.to_nat p)%nat.
Proof.
  intro Hp. rewrite Z2Nat.inj_mul by (try apply Z.pow_nonneg; lia). f_equal. rewrite <- (Nat2Z.id (2 ^ i)). f_equal. rewrite Nat2Z.inj_pow. reflexivity.
Qed.
Lemma on_mesh_same net net2 n n' r : Z.to_nat n = Z.to_nat n' -> ordered net net2 false (on_mesh n r) = ordered net net2 false (on_mesh n' r).
Proof. destruct r as [[k xs] wss]. cbn [on_mesh]. intros ->. reflexivity. Qed.
Lemma title_on_mesh net net2 n r : fst (fst (ordered net net2 false (on_mesh n r))) = title net net2 r.
Proof.
  destruct r as [[k xs] wss]. unfold title. cbn [on_mesh ordered]. assert (N : forall d, name_of (xs ++ [MeshSize (Z.to_nat n)]) d = name_of xs d) by (intro d; unfold name_of; rewrite chosen_app; reflexivity).
  destruct k; cbn [expected fst]; rewrite N; reflexivity.
Qed.

(** ** the tables *)
Section Tables.
Context (eig : nat -> (nat -> nat -> R) -> (nat -> R) * (nat -> nat -> R)).
Lemma errors_three exact sp t v es : errors_at eig exact sp t v = Ok es -> exists e1 e2 e3, es = [e1; e2; e3] /\
  let difference c x := exact x - value_in sp v c x in
  l1norm eig (norm_degree sp) (mesh_in sp) difference = Ok e1 /\ l2norm eig (norm_degree sp) (mesh_in sp) difference = Ok e2 /\ linfnorm None (mesh_in sp) difference = Ok e3.
Proof.
  unfold errors_at, error_calculator. intro E. cbv zeta. destruct (l1norm _ _ _ _) as [e1|x] eqn:E1; [|discriminate E]. cbn [bind snd] in E.
  destruct (l2norm _ _ _ _) as [e2|x] eqn:E2; [|discriminate E]. cbn [bind snd] in E. destruct (linfnorm _ _ _) as [e3|x] eqn:E3; [|discriminate E]. cbn [bind snd] in E. apply Ok_inj in E. subst es. exists e1, e2, e3. auto.
Qed.
Lemma rows_spec exact : forall l before rows, table_rows eig exact before l = Ok rows ->
  Forall2 (fun x row => errors_at eig exact (fst x) (fst (snd x)) (snd (snd x)) = Ok (row_errors row) /\ row_dofs row = length (snd (snd x))) l rows /\
  forall i row, nth_error rows i = Some row -> row_orders row = match i with
    | O => match before with None => [NaN; NaN; NaN] | Some old => orders_from old (row_errors row) end
    | S j => match nth_error rows j with Some above => orders_from (row_errors above) (row_errors row) | None => [] end end.
Proof.
  induction l as [|[sp [t v]] l IH]; intros before rows E; cbn [table_rows] in E.
  - apply Ok_inj in E. subst rows. split; [constructor|]. intros [|i] row H; discriminate H.
  - inv_bind E. inv_bind E. apply Ok_inj in E. subst rows. destruct (IH _ _ E1) as [F O]. split.
    + constructor; [|exact F]. cbn [fst snd row_errors row_dofs]. auto.
    + intros [|i] row H; cbn [nth_error] in H.
      * injection H as <-. cbn [row_orders row_errors]. reflexivity.
      * specialize (O i row H). rewrite O. destruct i as [|i]; reflexivity.
Qed.
Lemma rows_orders exact l rows : table_rows eig exact None l = Ok rows -> orders_of_rows rows.
Proof.
  intro E. destruct (rows_spec exact l None rows E) as [F O].
  assert (L3 : forall i row, nth_error rows i = Some row -> length (row_errors row) = 3%nat).
  { clear - F. induction F as [|x row l rows [H _] F IH]; intros [|i] r Hr; try discriminate Hr; [|apply (IH i); exact Hr]. injection Hr as <-. destruct (errors_three _ _ _ _ _ H) as [e1 [e2 [e3 [-> _]]]]. reflexivity. }
  intros i row Hr. pose proof (O i row Hr) as Q. destruct i as [|j]; [exact Q|]. intros above Ha. rewrite Ha in Q. rewrite Q. unfold orders_from. pose proof (L3 _ _ Hr) as LR. pose proof (L3 _ _ Ha) as LA. split; [rewrite map2_length; lia|].
  intros k o nw Ho Hn Po Pn. destruct (row_errors above) as [|a1 [|a2 [|a3 [|? ?]]]]; try discriminate LA. destruct (row_errors row) as [|b1 [|b2 [|b3 [|? ?]]]]; try discriminate LR.
  assert (G : order_between o nw (log2_ratio o nw)).
  { unfold log2_ratio, order_between. destruct (Reqb_spec nw 0) as [->|N]; [destruct (Rltb_spec 0 o); lra|].
    assert (Q0 : o = 0 \/ 0 < o) by lra. destruct Q0 as [->|Q0].
    - replace (0 / nw) with 0 by (field; exact N). destruct (Reqb_spec 0 0); [lra|congruence].
    - assert (0 < o / nw) by (apply Rdiv_lt_0_compat; lra). destruct (Reqb_spec (o / nw) 0); [lra|]. destruct (Rltb_spec (o / nw) 0); [lra|].
      split; [lra|]. split; [lra|]. unfold Rpower. replace (ln (o / nw) / ln 2 * ln 2) with (ln (o / nw)) by (field; pose proof ln_lt_2; lra). apply exp_ln. assumption. }
  destruct k as [|[|[|k]]]; cbn in Ho, Hn; try discriminate Ho; try (destruct k; discriminate Ho); injection Ho as ->; injection Hn as ->; cbn [map2 nth_error]; eexists; split; try reflexivity; exact G.
Qed.
End Tables.

Section Line.
Context (parse_int : string -> option Z) (parse_float : string -> option pyfloat) (net net2 : list state -> state).
Context (newton : (R -> R) -> R -> result R) (moving_height : R -> R) (random_waves : Z -> oscillation) (drawn : Z) (splitext : string -> string * string).
Context (eig : nat -> (nat -> nat -> R) -> (nat -> R) * (nat -> nat -> R)) (linear_solver : M_Misc.mat -> list R -> list R) (old : nat -> R).
Context (finite : list R -> bool) (finite2 : list state -> bool) (burgers_solution : scalar_benchmark -> result (R -> R)).
Notation request_line := (requested parse_int parse_float net net2 newton moving_height random_waves drawn splitext).
Notation asking := (asks_tables parse_int parse_float net net2 newton moving_height random_waves drawn).
Notation order_of := (ordered net net2 false).
Notation made := (construct eig linear_solver old).
Notation run := (solve_any finite finite2).
Definition orders_for (cells meshes : nat) (r : request) : list order := map (fun i => order_of (on_mesh (Z.of_nat (2 ^ i * cells)) r)) (seq 0 meshes).

Lemma eoc_asked line b ls : finite_words parse_float line -> request_line line = Parsed (JEOC b ls) ->
  exists p rs cells meshes, asking line p b rs cells meshes /\ ls = map (orders_for cells meshes) rs /\ (0 < cells)%nat /\ (0 < meshes)%nat /\ rs <> [] /\
    Forall (well_written parse_int parse_float net net2 (is_swe (CEOC p))) rs.
Proof.
  intros Fin R. destruct (C83_nothing_ignored parse_int parse_float net net2 newton moving_height random_waves drawn splitext line _ Fin R) as [c [xs [wss [Ex [E1 [E2 [E3 [E4 [_ E6]]]]]]]]].
  destruct c as [p|p|p|p| | |]; cbn [expected_job] in E6; try discriminate E6;
    try (destruct (requests_of xs); discriminate E6);
    try (destruct (requests_of xs) as [[|r1 [|r2 [|r3 rs]]]|]; try discriminate E6; repeat match type of E6 with match ?x with _ => _ end = _ => destruct x; try discriminate E6 end; discriminate E6);
    try (destruct (requests_of xs) as [[|r1 [|r2 [|r3 rs]]]|]; try discriminate E6; unfold option_map in E6; repeat match type of E6 with context [match ?x with _ => _ end] => destruct x; try discriminate E6 end; discriminate E6).
  destruct (requests_of xs) as [rs|] eqn:Er; [|discriminate E6]. cbn [option_map] in E6. injection E6 as E5 E6.
  pose proof (written_sound parse_int parse_float net net2 newton moving_height any_word _ _ _ E2) as [S1 [_ S3]].
  assert (In_w : forall x, In x xs -> exists ws, cwritten parse_int parse_float net net2 newton moving_height any_word (CEOC p) x ws).
  { clear - E2. induction E2 as [|x v ws wss H W IH]; intros y []; [subst; eauto|apply IH; assumption]. }
  assert (Pp : (0 < points_of xs 8)%Z).
  { unfold points_of. destruct (L_CommandLine.last_in (fun x => match x with Points n => Some n | _ => None end) xs 8%Z) as [->|[x [Hx X]]]; [lia|]. destruct x; try discriminate X. destruct (In_w _ Hx) as [ws [f [w [_ [_ [_ N]]]]]]. injection X as X. destruct N as [z [_ [N1 N2]]]. rewrite <- X, N2. exact N1. }
  assert (Pr : (0 < refinements_of xs 4)%Z).
  { unfold refinements_of. destruct (L_CommandLine.last_in (fun x => match x with Refinements n => Some n | _ => None end) xs 4%Z) as [->|[x [Hx X]]]; [lia|]. destruct x; try discriminate X. destruct (In_w _ Hx) as [ws [f [w [_ [_ [_ N]]]]]]. injection X as X. destruct N as [z [_ [N1 N2]]]. rewrite <- X, N2. exact N1. }
  exists p, rs, (Z.to_nat (points_of xs 8)), (Z.to_nat (refinements_of xs 4)). split; [|split; [|split; [|split; [|split]]]].
  - exists xs, wss. auto 12.
  - rewrite <- E6. apply map_ext. intro r. unfold orders_for. apply map_ext. intro i. apply on_mesh_same. rewrite Nat2Z.id. apply mesh_doubled. exact Pp.
  - lia.
  - lia.
  - unfold requests_of in Er. destruct (L_CommandLine.last_in (fun x => match x with Solvers rs => Some (Some rs) | _ => None end) xs None) as [X|[x [Hx X]]]; [congruence|].
    rewrite Er in X. destruct x; try discriminate X. injection X as ->. destruct (In_w _ Hx) as [ws [f [_ [_ [H _]]]]]. exact H.
  - exact (S3 rs Er).
Qed.

(** *** the runs of one solver *)
Lemma solutions_spec n b : forall l objects, eoc_solutions eig linear_solver old finite finite2 n b l = Ok objects ->
  Forall2 (fun o x => exists s, made b (snd o) = Ok s /\ run n s = (x, None)) l objects.
Proof.
  induction l as [|o l IH]; intros objects E; cbn [eoc_solutions] in E; [apply Ok_inj in E; subst; constructor|]. inv_bind E. rename a into s. cbn [calculate_execute] in E.
  destruct (run n s) as [x [e|]] eqn:Ex; [discriminate E|]. inv_bind E. apply Ok_inj in E. subst objects. constructor; eauto.
Qed.
Lemma solutions_ok n b : forall l objects, Forall2 (fun o x => exists s, made b (snd o) = Ok s /\ run n s = (x, None)) l objects ->
  eoc_solutions eig linear_solver old finite finite2 n b l = Ok objects.
Proof.
  induction 1 as [|o x l objects [s [E1 E2]] F IH]; [reflexivity|]. cbn [eoc_solutions]. rewrite E1. cbn [bind calculate_execute]. rewrite E2. rewrite IH. reflexivity.
Qed.
Lemma solution_shown o t v : solution_in o = Ok (t, v) -> time_shown o = t /\ values_shown o = Some v.
Proof. destruct o as [[c w]| | |]; intro E; try discriminate E. apply Ok_inj in E. injection E as <- <-. split; reflexivity. Qed.
Lemma F2_length {A B} {P : A -> B -> Prop} {l l'} : Forall2 P l l' -> length l = length l'.
Proof. induction 1; cbn [List.length]; congruence. Qed.
Lemma mapM_F2 {A B} (f : A -> result B) : forall l r, mapM f l = Ok r -> Forall2 (fun a b => f a = Ok b) l r.
Proof. induction l as [|a l IH]; intros r E; cbn [mapM] in E; [apply Ok_inj in E; subst; constructor|]. inv_bind E. inv_bind E. apply Ok_inj in E. subst r. constructor; auto. Qed.
Lemma mapM_ok_F2 {A B} (f : A -> result B) : forall l r, Forall2 (fun a b => f a = Ok b) l r -> mapM f l = Ok r.
Proof. induction 1 as [|a b l r E F IH]; [reflexivity|]. cbn [mapM]. rewrite E. cbn [bind]. rewrite IH. reflexivity. Qed.

Lemma table_spec n b cells meshes r objects name rows : (0 < meshes)%nat -> eoc_solutions eig linear_solver old finite finite2 n (BScalar b) (orders_for cells meshes r) = Ok objects ->
  eoc_table eig burgers_solution b (orders_for cells meshes r) objects = Ok (name, rows) ->
  name = title net net2 r /\ exists exact, exact_at_end burgers_solution b = Ok exact /\ length rows = meshes /\ orders_of_rows rows /\
    forall i, (i < meshes)%nat -> exists row, nth_error rows i = Some row /\ measured_run net net2 eig linear_solver old finite finite2 n b exact r (2 ^ i * cells) row.
Proof.
  intros Hm S T. pose proof (solutions_spec n (BScalar b) _ _ S) as F. clear S. unfold eoc_table in T.
  destruct meshes as [|meshes]; [lia|]. assert (Hd : exists rest, orders_for cells (Datatypes.S meshes) r = order_of (on_mesh (Z.of_nat (2 ^ 0 * cells)) r) :: rest) by (eexists; reflexivity).
  destruct Hd as [rest Hd]. rewrite Hd in T. destruct (order_of (on_mesh (Z.of_nat (2 ^ 0 * cells)) r)) as [[nm sh] cl] eqn:En. rewrite <- Hd in T.
  inv_bind T. rename a into sps. inv_bind T. rename a into vs. inv_bind T. rename a into exact. inv_bind T. rename a into rows'. apply Ok_inj in T. injection T as <- <-.
  split. { rewrite <- (title_on_mesh net net2 (Z.of_nat (2 ^ 0 * cells)) r), En. reflexivity. }
  exists exact. split; [exact E1|]. apply mapM_F2 in E. apply mapM_F2 in E0. destruct (rows_spec eig exact _ _ _ E2) as [FR _].
  assert (L : length (orders_for cells (Datatypes.S meshes) r) = Datatypes.S meshes) by (unfold orders_for; rewrite map_length, seq_length; reflexivity).
  pose proof (F2_length F) as L1. pose proof (F2_length E) as L2. pose proof (F2_length E0) as L3. pose proof (F2_length FR) as L4. rewrite combine_length in L4.
  split; [transitivity (Nat.min (length sps) (length vs)); [symmetry; exact L4|]; rewrite <- L3; pose proof (eq_trans (eq_sym L2) L) as Q1; pose proof (eq_trans (eq_sym L1) L) as Q2; rewrite Q1, Q2; apply Nat.min_id|]. split; [exact (rows_orders eig exact _ _ E2)|]. intros i Hi.
  assert (N : nth_error (orders_for cells (Datatypes.S meshes) r) i = Some (order_of (on_mesh (Z.of_nat (2 ^ i * cells)) r))).
  { unfold orders_for. rewrite nth_error_map. rewrite (nth_error_nth' _ 0%nat) by (rewrite seq_length; exact Hi). rewrite seq_nth by exact Hi. reflexivity. }
  assert (G : forall {A B} (P : A -> B -> Prop) l l' j a, Forall2 P l l' -> nth_error l j = Some a -> exists b, nth_error l' j = Some b /\ P a b).
  { clear. intros A B P l l' j a F. revert j. induction F as [|x y l l' H F IH]; intros [|j] Hj; try discriminate Hj; [injection Hj as <-; exists y; auto|apply IH; exact Hj]. }
  destruct (G _ _ _ _ _ _ _ F N) as [o [No [s [Ms Rs]]]]. destruct (G _ _ _ _ _ _ _ E N) as [sp [Nsp Esp]]. destruct (G _ _ _ _ _ _ _ E0 No) as [[t v] [Nv Ev]].
  assert (Nc : nth_error (combine sps vs) i = Some (sp, (t, v))).
  { clear - Nsp Nv. revert vs i Nsp Nv. induction sps as [|x sps IH]; intros [|y vs] [|i] H1 H2; try discriminate; cbn in *; [congruence|apply IH; assumption]. }
  destruct (G _ _ _ _ _ _ _ FR Nc) as [row [Nr [Er Ed]]]. cbn [fst snd] in Er, Ed. exists row. split; [exact Nr|].
  destruct (errors_three eig exact sp t v _ Er) as [e1 [e2 [e3 [Ee [X1 [X2 X3]]]]]]. destruct (solution_shown o t v Ev) as [Q1 Q2].
  exists (snd (order_of (on_mesh (Z.of_nat (2 ^ i * cells)) r))), s, o, t, v, sp, e1, e2, e3. auto 20.
Qed.
Lemma table_ok ok n b u0 T cells meshes r : b = advection_benchmark u0 T -> (0 < meshes)%nat ->
  (forall i, (i < meshes)%nat -> good_row eig linear_solver old finite finite2 (ok (2 ^ i * cells)%nat) u0 T (2 ^ i * cells) (snd (order_of (on_mesh (Z.of_nat (2 ^ i * cells)) r))) n) ->
  exists objects name rows, eoc_solutions eig linear_solver old finite finite2 n (BScalar b) (orders_for cells meshes r) = Ok objects /\
    eoc_table eig burgers_solution b (orders_for cells meshes r) objects = Ok (name, rows) /\ table_with ok cells meshes rows.
Proof.
  intros Hb Hm G.
  assert (X : forall k j, (forall i, (i < k)%nat -> good_row eig linear_solver old finite finite2 (ok (2 ^ (j + i) * cells)%nat) u0 T (2 ^ (j + i) * cells) (snd (order_of (on_mesh (Z.of_nat (2 ^ (j + i) * cells)) r))) n) ->
    forall before, exists objects sps vs rows, let l := map (fun i => order_of (on_mesh (Z.of_nat (2 ^ i * cells)) r)) (seq j k) in
      Forall2 (fun o x => exists s, made (BScalar b) (snd o) = Ok s /\ run n s = (x, None)) l objects /\ mapM (fun o : order => space_of b (snd o)) l = Ok sps /\ mapM solution_in objects = Ok vs /\
      table_rows eig (fun x => advection_exact u0 x T) before (combine sps vs) = Ok rows /\ length rows = k /\
      forall i, (i < k)%nat -> exists row, nth_error rows i = Some row /\ row_dofs row = (2 ^ (j + i) * cells)%nat /\ length (row_errors row) = 3%nat /\ ok (2 ^ (j + i) * cells)%nat (row_errors row)).
  { induction k as [|k IH]; intros j GR before.
    - exists [], [], [], []. cbv zeta. cbn [seq map]. split; [constructor|]. split; [reflexivity|]. split; [reflexivity|]. split; [reflexivity|]. split; [reflexivity|]. intros i Hi. lia.
    - destruct (GR 0%nat ltac:(lia)) as [s [o [t [v [sp [es [M1 [M2 [M3 [M4 [M5 [M6 [M7 M8]]]]]]]]]]]]]. rewrite Nat.add_0_r in *.
      destruct (IH (Datatypes.S j)) with (before := Some es) as [objects [sps [vs [rows [I1 [I2 [I3 [I4 [I5 I6]]]]]]]]].
      { intros i Hi. replace (Datatypes.S j + i)%nat with (j + Datatypes.S i)%nat by lia. apply GR. lia. }
      exists (o :: objects), (sp :: sps), ((t, v) :: vs). eexists. cbv zeta. cbn [seq map]. rewrite Hb in *. split; [constructor; [exists s; auto|exact I1]|].
      split; [cbn [mapM]; rewrite M5; cbn [bind]; rewrite I2; reflexivity|]. split; [cbn [mapM]; rewrite M3; cbn [bind]; rewrite I3; reflexivity|].
      split; [cbn [combine table_rows]; rewrite M6; cbn [bind]; rewrite I4; reflexivity|]. split; [cbn [length]; lia|].
      intros [|i] Hi.
      + rewrite Nat.add_0_r. eexists. split; [reflexivity|]. cbn [row_dofs row_errors]. auto.
      + destruct (I6 i ltac:(lia)) as [row Hrow]. exists row. cbn [nth_error]. replace (j + Datatypes.S i)%nat with (Datatypes.S j + i)%nat by lia. exact Hrow. }
  destruct (X meshes 0%nat G None) as [objects [sps [vs [rows [X1 [X2 [X3 [X4 [X5 X6]]]]]]]]]. exists objects, (title net net2 r), rows.
  split; [apply solutions_ok; exact X1|]. split.
  - unfold eoc_table. fold (orders_for cells meshes r) in X1, X2. destruct meshes as [|meshes]; [lia|]. assert (Hd : exists rest, orders_for cells (Datatypes.S meshes) r = order_of (on_mesh (Z.of_nat (2 ^ 0 * cells)) r) :: rest) by (eexists; reflexivity).
    destruct Hd as [rest Hd]. pose proof (title_on_mesh net net2 (Z.of_nat (2 ^ 0 * cells)) r) as En. rewrite Hd. destruct (order_of (on_mesh (Z.of_nat (2 ^ 0 * cells)) r)) as [[nm sh] cl] eqn:En'. rewrite <- Hd. cbn [fst] in En. subst nm.
    match goal with |- context [@mapM ?A ?B ?f (orders_for ?x ?y ?z)] => replace (@mapM A B f (orders_for x y z)) with (Ok sps) by (symmetry; exact X2) end. cbn [bind]. rewrite X3. cbn [bind]. rewrite Hb in *. cbn [exact_at_end]. unfold exact_at_end. cbn [advection_benchmark sb_problem sb_initial sb_end]. rewrite String.eqb_refl. cbn [bind]. rewrite X4. reflexivity.
  - split; [exact X5|]. split; [exact (rows_orders eig _ _ _ X4)|]. exact X6.
Qed.

(** *** enough steps for every row of every table *)
Definition rows_good (ok : nat -> list R -> Prop) (u0 : R -> R) (T : R) : Prop :=
  (forall n cfl, (0 < n)%nat -> 0 < cfl <= 1 -> 1 / 10 ^ 12 <= 1 / INR n * cfl ->
    exists N, forall k, (N <= k)%nat -> good_row eig linear_solver old finite finite2 (ok n) u0 T n (ScalarFV SLLF (fv n cfl None false)) k) /\
  (forall n cfl M ad, (3 <= n)%nat -> 0 < cfl <= 1 -> 1 / 10 ^ 12 <= 1 / INR n * cfl / 2 -> In M [euler; heun; ssp3] ->
    exists N, forall k, (N <= k)%nat -> good_row eig linear_solver old finite finite2 (ok n) u0 T n (ScalarFE (FLow ad) (fe n cfl (Some M) false)) k).
Lemma smooth_rows u0 T : eig_ok eig 1 -> eig_ok eig 2 -> (forall v, in_range (-1) 1 v -> finite v = true) -> u0 = cosine \/ u0 = gaussian_bell -> 1 / 10 ^ 12 <= T -> rows_good (fun n errors => forall e, In e errors -> small_error u0 T (1 / INR n) e) u0 T.
Proof.
  intros H1 H2 HF Hu HT. split.
  - intros n cfl Hn Hc Hs. exact (fv_row eig linear_solver old finite finite2 H1 H2 HF u0 T n cfl Hu Hn Hc HT Hs).
  - intros n cfl M ad Hn Hc Hs HM. exact (fe_row eig linear_solver old finite finite2 H1 H2 HF u0 T n cfl M ad Hu Hn Hc HT Hs HM).
Qed.
Lemma row_good ok u0 T swe r cells i step : rows_good ok u0 T ->
  well_written parse_int parse_float net net2 swe r -> first_order_on cells r -> (0 < cells)%nat ->
  1 / 10 ^ 12 <= first_order_step r step -> step <= 1 / INR (2 ^ i * cells) ->
  exists N, forall n, (N <= n)%nat -> good_row eig linear_solver old finite finite2 (ok (2 ^ i * cells)%nat) u0 T (2 ^ i * cells) (snd (order_of (on_mesh (Z.of_nat (2 ^ i * cells)) r))) n.
Proof.
  intros [G1 G2] W F Hc HS Hle. assert (Pw : (1 <= 2 ^ i)%nat) by (clear; induction i; cbn; lia). set (m := (2 ^ i * cells)%nat) in *. assert (Hm : (cells <= m)%nat) by (unfold m; nia).
  assert (Hcfl : 0 < cfl_asked r) by (apply (mesh_written parse_int parse_float net net2 r); destruct swe; auto).
  destruct r as [[k ws] wss]. destruct W as [_ [W _]]. pose proof (method_asked parse_int parse_float net net2 newton moving_height random_waves drawn splitext ws wss W) as MA.
  unfold first_order_on in F. destruct F as [Fc [-> | [-> F3]]].
  - assert (E : snd (order_of (on_mesh (Z.of_nat m) (ScalarLLF, ws, wss))) = ScalarFV SLLF (fv m (cfl_asked (ScalarLLF, ws, wss)) None false)).
    { unfold on_mesh, ordered, expected, mesh_of, cfl_asked, cfl_of. cbn [snd]. rewrite !chosen_app. cbn [chosen]. rewrite Nat2Z.id. reflexivity. }
    rewrite E. cbn [first_order_step] in HS. apply G1; [lia|lra|]. nra.
  - assert (E : snd (order_of (on_mesh (Z.of_nat m) (CGLow, ws, wss))) = ScalarFE (FLow (wants AdaptiveSteps (ws ++ [MeshSize m]))) (fe m (cfl_asked (CGLow, ws, wss)) (Some (method_of ws heun)) false)).
    { unfold on_mesh, ordered, expected, mesh_of, method_of, cfl_asked, cfl_of. cbn [snd]. rewrite !chosen_app. cbn [chosen]. rewrite Nat2Z.id. reflexivity. }
    rewrite E. cbn [first_order_step] in HS. apply G2; [lia|lra| |exact MA]. nra.
Qed.
Lemma for_all_below (P : nat -> nat -> Prop) : forall m, (forall i, (i < m)%nat -> exists N, forall n, (N <= n)%nat -> P i n) -> exists N, forall n, (N <= n)%nat -> forall i, (i < m)%nat -> P i n.
Proof.
  induction m as [|m IH]; intro H; [exists 0%nat; intros; lia|]. destruct IH as [N1 H1]; [intros; apply H; lia|]. destruct (H m ltac:(lia)) as [N2 H2].
  exists (Nat.max N1 N2). intros n Hn i Hi. destruct (Nat.eq_dec i m) as [->|]; [apply H2; lia|apply H1; lia].
Qed.
Lemma for_all_in {A} (P : A -> nat -> Prop) : forall l, (forall a, In a l -> exists N, forall n, (N <= n)%nat -> P a n) -> exists N, forall n, (N <= n)%nat -> forall a, In a l -> P a n.
Proof.
  induction l as [|x l IH]; intro H; [exists 0%nat; intros n _ a []|]. destruct IH as [N1 H1]; [intros; apply H; right; assumption|]. destruct (H x (or_introl eq_refl)) as [N2 H2].
  exists (Nat.max N1 N2). intros n Hn a [<-|Ha]; [apply H2; lia|apply H1; [lia|exact Ha]].
Qed.
End Line.

(** *** C88 *)
(** Whatever is asked for, the tables that appear are those of the solvers asked for, in that order, with as many rows as meshes were asked for.
    Each row belongs to a completed run on the mesh with 2^i times as many cells, and holds the distance of its solution to the exact one in the three norms. *)
Theorem C88_what_the_tables_contain : forall parse_int parse_float net net2 newton moving_height random_waves drawn splitext eig linear_solver old finite finite2 burgers_solution line n tables,
  finite_words parse_float line ->
  eoc_line eig linear_solver old finite finite2 burgers_solution parse_int parse_float net net2 newton moving_height random_waves drawn splitext n line = Parsed (Tables tables) ->
  exists p b rs cells meshes exact, asks_tables parse_int parse_float net net2 newton moving_height random_waves drawn line p (BScalar b) rs cells meshes /\ exact_at_end burgers_solution b = Ok exact /\
    Forall2 (fun r tb => fst tb = title net net2 r /\ length (snd tb) = meshes /\ orders_of_rows (snd tb) /\
      forall i, (i < meshes)%nat -> exists row, nth_error (snd tb) i = Some row /\ measured_run net net2 eig linear_solver old finite finite2 n b exact r (2 ^ i * cells) row) rs tables.
Proof.
  intros parse_int parse_float net net2 newton moving_height random_waves drawn splitext eig linear_solver old finite finite2 burgers_solution line n tables Fin E. unfold eoc_line in E.
  destruct (requested parse_int parse_float net net2 newton moving_height random_waves drawn splitext line) as [j| | |] eqn:Rq; try discriminate E. destruct j as [| | |[b|] ls| | |]; try discriminate E.
  destruct (eoc_asked parse_int parse_float net net2 newton moving_height random_waves drawn splitext line _ _ Fin Rq) as [p [rs [cells [meshes [A [-> [Hc [Hm [Hr _]]]]]]]]].
  destruct (mapM (eoc_solutions eig linear_solver old finite finite2 n (BScalar b)) (map (orders_for net net2 cells meshes) rs)) as [objects|] eqn:Eo; [|discriminate E]. injection E as E.
  unfold eoc_execute in E. destruct rs as [|r0 rs0]; [congruence|]. cbn [map] in E. change (orders_for net net2 cells meshes r0 :: map (orders_for net net2 cells meshes) rs0) with (map (orders_for net net2 cells meshes) (r0 :: rs0)) in E. set (rs := r0 :: rs0) in *.
  destruct (mapM (fun p0 => eoc_table eig burgers_solution b (fst p0) (snd p0)) (combine (map (orders_for net net2 cells meshes) rs) objects)) as [l|] eqn:El; [|discriminate E]. injection E as <-.
  apply mapM_F2 in Eo. apply mapM_F2 in El.
  assert (G : forall rs objects l, Forall2 (fun a o => eoc_solutions eig linear_solver old finite finite2 n (BScalar b) a = Ok o) (map (orders_for net net2 cells meshes) rs) objects ->
    Forall2 (fun p0 tb => eoc_table eig burgers_solution b (fst p0) (snd p0) = Ok tb) (combine (map (orders_for net net2 cells meshes) rs) objects) l ->
    Forall2 (fun r tb => fst tb = title net net2 r /\ exists exact, exact_at_end burgers_solution b = Ok exact /\ length (snd tb) = meshes /\ orders_of_rows (snd tb) /\
      forall i, (i < meshes)%nat -> exists row, nth_error (snd tb) i = Some row /\ measured_run net net2 eig linear_solver old finite finite2 n b exact r (2 ^ i * cells) row) rs l).
  { clear - Hm. induction rs as [|r rs IH]; intros objects l F1 F2; cbn [map] in F1; inversion F1; subst; cbn [map combine] in F2; inversion F2; subst; constructor.
    - cbn [fst snd] in *. destruct y0 as [name rows]. eapply table_spec; eassumption.
    - eapply IH; eassumption. }
  pose proof (G _ _ _ Eo El) as F. assert (X : exists exact, exact_at_end burgers_solution b = Ok exact). { unfold rs in F. inversion F; subst. destruct H1 as [_ [exact [H1 _]]]. eauto. }
  destruct X as [exact X]. exists p, b, rs, cells, meshes, exact. split; [exact A|]. split; [exact X|].
  clear - F X. induction F as [|r tb rs l [H1 [e [H2 H3]]] F IH]; constructor; [|exact IH]. rewrite X in H2. injection H2 as <-. auto.
Qed.
(** the warning about missing solvers never appears for a command line: such a line is rejected before *)
Theorem C88_never_warns : forall parse_int parse_float net net2 newton moving_height random_waves drawn splitext eig linear_solver old finite finite2 burgers_solution line n,
  finite_words parse_float line ->
  eoc_line eig linear_solver old finite finite2 burgers_solution parse_int parse_float net net2 newton moving_height random_waves drawn splitext n line <> Parsed Warning.
Proof.
  intros parse_int parse_float net net2 newton moving_height random_waves drawn splitext eig linear_solver old finite finite2 burgers_solution line n Fin E. unfold eoc_line in E.
  destruct (requested parse_int parse_float net net2 newton moving_height random_waves drawn splitext line) as [j| | |] eqn:Rq; try discriminate E. destruct j as [| | |[b|] ls| | |]; try discriminate E.
  destruct (eoc_asked parse_int parse_float net net2 newton moving_height random_waves drawn splitext line _ _ Fin Rq) as [p [rs [cells [meshes [A [-> [Hc [Hm [Hr _]]]]]]]]].
  destruct (mapM _ _) as [objects|] in E; [|discriminate E]. injection E as E. unfold eoc_execute in E. destruct rs as [|r0 rs0]; [congruence|]. cbn [map] in E.
  destruct (mapM _ _) as [l|] in E; discriminate E.
Qed.
(** an error line is printed only after all solvers have been solved on all meshes: their own exceptions are not caught *)
Theorem C88_error_lines : forall parse_int parse_float net net2 newton moving_height random_waves drawn splitext eig linear_solver old finite finite2 burgers_solution line n e,
  finite_words parse_float line ->
  eoc_line eig linear_solver old finite finite2 burgers_solution parse_int parse_float net net2 newton moving_height random_waves drawn splitext n line = Parsed (ErrorLine e) ->
  exists p b rs cells meshes, asks_tables parse_int parse_float net net2 newton moving_height random_waves drawn line p (BScalar b) rs cells meshes /\
    forall r i, In r rs -> (i < meshes)%nat -> exists s o, construct eig linear_solver old (BScalar b) (snd (ordered net net2 false (on_mesh (Z.of_nat (2 ^ i * cells)) r))) = Ok s /\ solve_any finite finite2 n s = (o, None).
Proof.
  intros parse_int parse_float net net2 newton moving_height random_waves drawn splitext eig linear_solver old finite finite2 burgers_solution line n e Fin E. unfold eoc_line in E.
  destruct (requested parse_int parse_float net net2 newton moving_height random_waves drawn splitext line) as [j| | |] eqn:Rq; try discriminate E. destruct j as [| | |[b|] ls| | |]; try discriminate E.
  destruct (eoc_asked parse_int parse_float net net2 newton moving_height random_waves drawn splitext line _ _ Fin Rq) as [p [rs [cells [meshes [A [-> _]]]]]].
  destruct (mapM (eoc_solutions eig linear_solver old finite finite2 n (BScalar b)) (map (orders_for net net2 cells meshes) rs)) as [objects|] eqn:Eo; [|discriminate E]. clear E.
  exists p, b, rs, cells, meshes. split; [exact A|]. intros r i Hr Hi. apply mapM_F2 in Eo.
  assert (G : forall {A B} (P : A -> B -> Prop) l l' a, Forall2 P l l' -> In a l -> exists b, P a b).
  { clear. intros A B P l l' a F. induction F as [|x y l l' H F IH]; intros []; [subst; eauto|auto]. }
  destruct (G _ _ _ _ _ (orders_for net net2 cells meshes r) Eo (in_map _ _ _ Hr)) as [os Eos]. apply solutions_spec in Eos.
  destruct (G _ _ _ _ _ (ordered net net2 false (on_mesh (Z.of_nat (2 ^ i * cells)) r)) Eos) as [o [s H]]; [|eauto].
  unfold orders_for. apply (in_map (fun i => ordered net net2 false (on_mesh (Z.of_nat (2 ^ i * cells)) r))). apply in_seq. lia.
Qed.
Print Assumptions C88_error_lines.
Print Assumptions C88_never_warns.
Print Assumptions C88_what_the_tables_contain.

Section Made.
Context (parse_int : string -> option Z) (parse_float : string -> option pyfloat) (net net2 : list state -> state).
Context (newton : (R -> R) -> R -> result R) (moving_height : R -> R) (random_waves : Z -> oscillation) (drawn : Z) (splitext : string -> string * string).
Context (eig : nat -> (nat -> nat -> R) -> (nat -> R) * (nat -> nat -> R)) (linear_solver : M_Misc.mat -> list R -> list R) (old : nat -> R).
Context (finite : list R -> bool) (finite2 : list state -> bool) (burgers_solution : scalar_benchmark -> result (R -> R)).
Lemma tables_made ok line b rs cells meshes swe u0 T : requested parse_int parse_float net net2 newton moving_height random_waves drawn splitext line = Parsed (JEOC b (map (orders_for net net2 cells meshes) rs)) ->
  rows_good eig linear_solver old finite finite2 ok u0 T -> (0 < cells)%nat -> (0 < meshes)%nat -> rs <> [] -> Forall (well_written parse_int parse_float net net2 swe) rs ->
  b = BScalar (advection_benchmark u0 T) -> Forall (first_order_on cells) rs ->
  Forall (fun r => 1 / 10 ^ 12 <= first_order_step r (1 / INR (2 ^ (meshes - 1) * cells))) rs ->
  exists N, forall n, (N <= n)%nat -> exists tables,
    eoc_line eig linear_solver old finite finite2 burgers_solution parse_int parse_float net net2 newton moving_height random_waves drawn splitext n line = Parsed (Tables tables) /\
    Forall2 (fun r tb => fst tb = title net net2 r /\ table_with ok cells meshes (snd tb)) rs tables.
Proof.
  intros Rq RG Hc Hm Hr W Eb FO HS.
  set (good := fun r n => forall i, (i < meshes)%nat -> good_row eig linear_solver old finite finite2 (ok (2 ^ i * cells)%nat) u0 T (2 ^ i * cells) (snd (ordered net net2 false (on_mesh (Z.of_nat (2 ^ i * cells)) r))) n).
  destruct (for_all_in good rs) as [N HN].
  { intros r Hin. apply for_all_below. intros i Hi. rewrite Forall_forall in W, FO, HS.
    apply (row_good parse_int parse_float net net2 newton moving_height random_waves drawn splitext eig linear_solver old finite finite2 ok u0 T _ r cells i (1 / INR (2 ^ (meshes - 1) * cells)) RG (W _ Hin) (FO _ Hin) Hc (HS _ Hin)).
    assert (L : (2 ^ i <= 2 ^ (meshes - 1))%nat) by (apply Nat.pow_le_mono_r; lia). assert (P : (1 <= 2 ^ i)%nat) by (clear; induction i; cbn; lia).
    apply Rmult_le_compat_l; [lra|]. apply Rinv_le_contravar; [apply lt_0_INR; nia|apply le_INR; nia]. }
  exists N. intros n Hn. specialize (HN n Hn). unfold eoc_line. rewrite Rq, Eb.
  assert (G : forall rs, (forall r, In r rs -> good r n) -> exists objects tables,
    mapM (eoc_solutions eig linear_solver old finite finite2 n (BScalar (advection_benchmark u0 T))) (map (orders_for net net2 cells meshes) rs) = Ok objects /\
    mapM (fun p0 => eoc_table eig burgers_solution (advection_benchmark u0 T) (fst p0) (snd p0)) (combine (map (orders_for net net2 cells meshes) rs) objects) = Ok tables /\
    Forall2 (fun r tb => fst tb = title net net2 r /\ table_with ok cells meshes (snd tb)) rs tables).
  { clear - Hm. induction rs as [|r rs IH]; intro Hg; [exists [], []; split; [reflexivity|]; split; [reflexivity|constructor]|].
    destruct IH as [objects [tables [I1 [I2 I3]]]]; [intros; apply Hg; right; assumption|].
    destruct (table_ok net net2 eig linear_solver old finite finite2 burgers_solution ok n _ u0 T cells meshes r eq_refl Hm (Hg r (or_introl eq_refl))) as [os [name [rows [T1 [T2 T3]]]]].
    exists (os :: objects), ((name, rows) :: tables). cbn [map mapM combine]. rewrite T1. cbn [bind]. rewrite I1. split; [reflexivity|]. cbn [fst snd]. rewrite T2. cbn [bind]. rewrite I2. split; [reflexivity|].
    constructor; [|exact I3]. split; [|exact T3]. cbn [fst]. exact (proj1 (table_spec net net2 eig linear_solver old finite finite2 burgers_solution n _ cells meshes r os name rows Hm T1 T2)). }
  destruct (G rs HN) as [objects [tables [G1 [G2 G3]]]]. exists tables. split; [|exact G3]. rewrite G1. unfold eoc_execute. destruct rs as [|r0 rs]; [congruence|]. cbn [map] in *. rewrite G2. reflexivity.
Qed.
Lemma tables_asked ok p xs wss rs u0 T :
  exists_command (CEOC p) -> Forall2 (cwritten parse_int parse_float net net2 newton moving_height value_word (CEOC p)) xs wss -> Forall (coffered (CEOC p)) xs -> Forall (no_key_in_values (CEOC p)) xs -> exclusive xs -> separated xs ->
  requests_of xs = Some rs -> end_of (benchmark_of random_waves drawn (CEOC p) xs) (end_time_of xs) = BScalar (advection_benchmark u0 T) ->
  rows_good eig linear_solver old finite finite2 ok u0 T ->
  let cells := Z.to_nat (points_of xs 8%Z) in let meshes := Z.to_nat (refinements_of xs 4%Z) in
  Forall (first_order_on cells) rs -> Forall (fun r => 1 / 10 ^ 12 <= first_order_step r (1 / INR (2 ^ (meshes - 1) * cells))) rs ->
  exists N, forall n, (N <= n)%nat -> exists tables,
    eoc_line eig linear_solver old finite finite2 burgers_solution parse_int parse_float net net2 newton moving_height random_waves drawn splitext n (command_words (CEOC p) ++ List.concat wss) = Parsed (Tables tables) /\
    Forall2 (fun r tb => fst tb = title net net2 r /\ table_with ok cells meshes (snd tb)) rs tables.
Proof.
  intros Ex W O K X Sep Er Eb RG cells meshes FO HS.
  assert (P : (0 < points_of xs 8)%Z /\ (0 < refinements_of xs 4)%Z).
  { assert (In_w : forall x, In x xs -> exists ws, cwritten parse_int parse_float net net2 newton moving_height value_word (CEOC p) x ws).
    { clear - W. induction W as [|x v ws wss H W IH]; intros y []; [subst; eauto|apply IH; assumption]. }
    split.
    - unfold points_of. destruct (L_CommandLine.last_in (fun x => match x with Points n => Some n | _ => None end) xs 8%Z) as [->|[x [Hx Q]]]; [lia|]. destruct x; try discriminate Q. destruct (In_w _ Hx) as [ws [f [w [_ [_ [_ N]]]]]]. injection Q as Q. destruct N as [z [_ [N1 N2]]]. rewrite <- Q, N2. exact N1.
    - unfold refinements_of. destruct (L_CommandLine.last_in (fun x => match x with Refinements n => Some n | _ => None end) xs 4%Z) as [->|[x [Hx Q]]]; [lia|]. destruct x; try discriminate Q. destruct (In_w _ Hx) as [ws [f [w [_ [_ [_ N]]]]]]. injection Q as Q. destruct N as [z [_ [N1 N2]]]. rewrite <- Q, N2. exact N1. }
  destruct P as [P1 P2]. destruct (written_sound parse_int parse_float net net2 newton moving_height value_word _ _ _ W) as [_ [_ S3]].
  assert (Hr : rs <> []).
  { pose proof (L_CommandLine.last_in (fun x => match x with Solvers rs => Some (Some rs) | _ => None end) xs None) as [Q|[x [Hx Q]]]; fold (requests_of xs) in Q; [congruence|]. rewrite Er in Q. destruct x; try discriminate Q. injection Q as ->.
    clear - W Hx. induction W as [|y v ws wss H W IH]; [destruct Hx|]. destruct Hx as [->|Hx]; [|auto]. destruct H as [f [_ [_ [H _]]]]. exact H. }
  apply (tables_made ok _ (BScalar (advection_benchmark u0 T)) rs cells meshes (is_swe (CEOC p)) u0 T); auto; try (unfold cells, meshes; lia).
  apply (C83_everything_granted _ _ _ _ _ _ _ _ _ (CEOC p) xs wss); auto; [discriminate|]. cbn [expected_job]. rewrite Er. cbn [option_map]. rewrite Eb. do 2 f_equal. apply map_ext. intro r. unfold orders_for. apply map_ext. intro i.
  apply on_mesh_same. unfold cells. rewrite Nat2Z.id. apply mesh_doubled. exact P1.
Qed.
End Made.

(** For the smooth advection data the tables do appear, all numbers of them are there, and every error is small: of first order in the cell length for the cosine,
    of order one half for the bell. *)
Theorem C88_advection_tables : forall parse_int parse_float net net2 newton moving_height random_waves drawn splitext eig linear_solver old finite finite2 burgers_solution line b ls,
  finite_words parse_float line -> requested parse_int parse_float net net2 newton moving_height random_waves drawn splitext line = Parsed (JEOC b ls) ->
  eig_ok eig 1 -> eig_ok eig 2 -> (forall v, in_range (-1) 1 v -> finite v = true) ->
  exists p rs cells meshes, asks_tables parse_int parse_float net net2 newton moving_height random_waves drawn line p b rs cells meshes /\
    forall u0 T, b = BScalar (advection_benchmark u0 T) -> u0 = cosine \/ u0 = gaussian_bell -> Forall (first_order_on cells) rs ->
      1 / 10 ^ 12 <= T -> Forall (fun r => 1 / 10 ^ 12 <= first_order_step r (1 / INR (2 ^ (meshes - 1) * cells))) rs ->
      exists N, forall n, (N <= n)%nat -> exists tables,
        eoc_line eig linear_solver old finite finite2 burgers_solution parse_int parse_float net net2 newton moving_height random_waves drawn splitext n line = Parsed (Tables tables) /\
        Forall2 (fun r tb => fst tb = title net net2 r /\ convergence_table u0 T cells meshes (snd tb)) rs tables.
Proof.
  intros parse_int parse_float net net2 newton moving_height random_waves drawn splitext eig linear_solver old finite finite2 burgers_solution line b ls Fin Rq HE1 HE2 HF.
  destruct (eoc_asked parse_int parse_float net net2 newton moving_height random_waves drawn splitext line _ _ Fin Rq) as [p [rs [cells [meshes [A [-> [Hc [Hm [Hr W]]]]]]]]].
  exists p, rs, cells, meshes. split; [exact A|]. intros u0 T Eb Hu FO HT HS. eapply tables_made; try eassumption. apply smooth_rows; assumption.
Qed.
Print Assumptions C88_advection_tables.

(** The same for whoever writes down wishes one after the other, with words that cannot be mistaken for anything else. *)
Theorem C88_tables_asked_for : forall parse_int parse_float net net2 newton moving_height random_waves drawn splitext eig linear_solver old finite finite2 burgers_solution p xs wss rs u0 T,
  exists_command (CEOC p) -> Forall2 (cwritten parse_int parse_float net net2 newton moving_height value_word (CEOC p)) xs wss -> Forall (coffered (CEOC p)) xs -> Forall (no_key_in_values (CEOC p)) xs -> exclusive xs -> separated xs ->
  requests_of xs = Some rs -> end_of (benchmark_of random_waves drawn (CEOC p) xs) (end_time_of xs) = BScalar (advection_benchmark u0 T) ->
  eig_ok eig 1 -> eig_ok eig 2 -> (forall v, in_range (-1) 1 v -> finite v = true) ->
  let cells := Z.to_nat (points_of xs 8%Z) in let meshes := Z.to_nat (refinements_of xs 4%Z) in
  u0 = cosine \/ u0 = gaussian_bell -> Forall (first_order_on cells) rs -> 1 / 10 ^ 12 <= T -> Forall (fun r => 1 / 10 ^ 12 <= first_order_step r (1 / INR (2 ^ (meshes - 1) * cells))) rs ->
  exists N, forall n, (N <= n)%nat -> exists tables,
    eoc_line eig linear_solver old finite finite2 burgers_solution parse_int parse_float net net2 newton moving_height random_waves drawn splitext n (command_words (CEOC p) ++ List.concat wss) = Parsed (Tables tables) /\
    Forall2 (fun r tb => fst tb = title net net2 r /\ convergence_table u0 T cells meshes (snd tb)) rs tables.
Proof.
  intros parse_int parse_float net net2 newton moving_height random_waves drawn splitext eig linear_solver old finite finite2 burgers_solution p xs wss rs u0 T Ex W O K X Sep Er Eb HE1 HE2 HF cells meshes Hu FO HT HS.
  apply (tables_asked parse_int parse_float net net2 newton moving_height random_waves drawn splitext eig linear_solver old finite finite2 burgers_solution (fun n errors => forall e, In e errors -> small_error u0 T (1 / INR n) e) p xs wss rs u0 T); auto.
  apply smooth_rows; assumption.
Qed.
Print Assumptions C88_tables_asked_for.
