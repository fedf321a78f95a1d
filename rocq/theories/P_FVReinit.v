(** C68: reinitialising a finite volume solver of the shallow water equations with another benchmark. *)
From Coq Require Import Reals List ZArith Arith Lia Lra Bool String.
From Verif Require Import Prelude L_Prelude M_Mesh L_Mesh M_Quadrature S_Quadrature M_Interpolate M_Boundary S_Boundary L_Boundary M_Flux S_Flux L_Flux
  M_ODE S_ODE L_ODE M_TimeStepping L_TimeStepping M_Coarsener M_Solution M_Solver S_Solver L_Solver M_Generate
  M_Scalar L_Scalar M_ShallowWater S_ShallowWater L_ShallowWater L_SWRuns L_SWLow L_SWWater L_SWLake L_SWTotal M_FVSolver S_FVSolver L_SWWide L_FVSolver
  P_Solver P_Boundary P_Quadrature P_Gauss P_Interpolate P_ShallowWater P_FVWater P_FVLake.
Import ListNotations.
Local Open Scope nat_scope.
Open Scope R_scope.
Notation length := List.length.

(** [b'] is [b] with other initial data *)
Definition same_but_initial (b b' : sw_benchmark) : Prop :=
  bm_domain b' = bm_domain b /\ bm_start b' = bm_start b /\ bm_end b' = bm_end b /\ bm_conditions b' = bm_conditions b /\
  bm_inflow_left b' = bm_inflow_left b /\ bm_inflow_right b' = bm_inflow_right b /\ bm_bottom b' = bm_bottom b /\ bm_gravity b' = bm_gravity b.

Lemma get_flux_initial eig g b b' m : same_but_initial b b' -> forall x, get_flux eig g b' m x = get_flux eig g b m x.
Proof.
  intros [H1 [H2 [H3 [H4 [H5 [H6 [H7 H8]]]]]]].
  assert (D : discrete_bottom eig b' (m_len m) = discrete_bottom eig b (m_len m)) by (unfold discrete_bottom; rewrite H1, H7; reflexivity).
  induction g; intro x; cbn [get_flux]; rewrite ?H8, ?D, ?IHg, ?H4, ?H5, ?H6; reflexivity.
Qed.

(** However a solver was used before: reinitialised with a benchmark that differs in the
    initial data only, it is a new solver of that benchmark. *)
Theorem C68_reinitialized_is_a_new_solver : forall eig finite g b b' a c w c' w' us, sw_solver eig g b a = Ok (c, w) -> sw_solver eig g b' a = Ok (c', w') ->
  same_but_initial b b' -> finite (o_sol (solution_of w')) = true -> (forall v t, In (Reinit v t) us -> bm_start b <= t) ->
  exists w2, sw_reinitialize eig finite c (length (o_sol (solution_of w))) b' (fst (use_run finite c us (w, []))) = (w2, None) /\ seen w2 = seen w' /\
  forall k, let r := solve finite c k w2 in let r' := solve finite c' k w' in
    seen (fst (fst r)) = seen (fst (fst r')) /\ snd (fst r) = snd (fst r') /\ snd r = snd r'.
Proof.
  intros eig finite g b b' a c w c' w' us E E' S HF HU.
  destruct (sw_solver_inv eig g b a c w E) as [m [u [nf [bc [E1 [E2 [E3 [E4 E5]]]]]]]].
  destruct (sw_solver_inv eig g b' a c' w' E') as [m' [u' [nf' [bc' [F1 [F2 [F3 [F4 F5]]]]]]]].
  destruct (fv_solution_inv eig b _ m u E1) as [Em [Eu [Lm [Lu Hn]]]]. destruct (fv_solution_inv eig b' _ m' u' F1) as [Fm [Fu [Lm' [Lu' _]]]].
  rewrite (get_flux_initial eig g b b' m' S) in F2. destruct S as [H1 [H2 [H3 [H4 [H5 [H6 [H7 H8]]]]]]].
  rewrite H1 in Fm. assert (m' = m) by congruence. subst m'. assert (nf' = nf) by congruence. subst nf'.
  unfold boundary in E3, F3. rewrite H4, H5, H6 in F3. assert (bc' = bc) by congruence. subst bc'.
  assert (Cc : c' = c). { rewrite E4, F4. unfold sw_config, mesh_dependent_generator, new_generator. rewrite H2, H3. reflexivity. }
  assert (So : forall (x : config (list state)) (v : list state), o_sol (solution_of (new_solver x (fun _ => v) 1 0 (bm_start b))) = v).
  { intros x v. unfold solution_of, new_solver. cbn [w_mem w_sol o_sol]. rewrite store_other by lia. reflexivity. }
  assert (W' : w' = new_solver c (fun _ => u') 1 0 (bm_start b)) by (rewrite F5, Cc, H2; reflexivity). rewrite W', So in HF.
  assert (Ls : length (o_sol (solution_of w)) = or_default (a_mesh_size a) default_mesh_size) by (rewrite E5, So; exact Lu). rewrite Ls.
  set (n := or_default (a_mesh_size a) default_mesh_size) in *.
  destruct (C47_reinitialized_is_like_new finite c us (fun _ => u) 1 0%nat (bm_start b) u' (bm_start b) (fun _ => u') 1 0%nat) as [w2 [R1 [R2 R3]]]; auto; try lia; try lra.
  exists w2. rewrite E5. unfold sw_reinitialize, fv_solution. replace (or_default (Some n) default_mesh_size) with n by (unfold or_default; destruct n; [lia|reflexivity]).
  rewrite H1, Em. cbn [bind]. rewrite Fu. cbn [bind]. rewrite H2. split; [exact R1|]. rewrite Cc, W'. split; [exact R2|exact R3].
Qed.
Print Assumptions C68_reinitialized_is_a_new_solver.

(** For other benchmarks it is not: everything but the initial data and the start time is
    ignored, so a run ends at the end time of the old benchmark. *)
Theorem C68_new_end_time_refuted :
  ~ (forall eig finite g b b' a c w w2 k w3 s, eig2_works eig -> sw_solver eig g b a = Ok (c, w) -> bm_domain b' = bm_domain b -> bm_start b' = bm_start b ->
     sw_reinitialize eig finite c (length (o_sol (solution_of w))) b' w = (w2, None) -> solve finite c k w2 = (w3, Some s, Completed) ->
     bm_end b' - 1 / 10 ^ 12 < o_time (solution_of w3) <= bm_end b').
Proof.
  intro H. destruct (C43_decomposition_exists 2) as [eig HE]. assert (HE2 : eig2_works eig) by (apply HE; lia).
  set (b := lake_at_rest_benchmark 2 1). set (b' := lake_at_rest_benchmark 1 1).
  set (a := {| a_mesh_size := Some 32%nat; a_cfl := Some 1; a_ode := None; a_history := true |}). set (fin := fun _ : list state => true).
  assert (HD : ia (bm_domain b) < ib (bm_domain b)) by (cbn; lra).
  assert (S : side_names (bm_conditions b) "outflow" "outflow") by (cbn; auto).
  destruct (C64_solvers_can_be_built eig GLow b a _ _ HE2 HD S) as [c [w [E [_ L]]]]; [cbn; tauto|cbn; tauto|].
  assert (Hn : (0 < length (o_sol (solution_of w)))%nat) by (rewrite L; apply or_default_pos; unfold default_mesh_size; lia).
  destruct (sw_solver_inv eig GLow b a c w E) as [m [u [nf [bc [E1 [E2 [E3 [E4 E5]]]]]]]].
  destruct (fv_solution_inv eig b _ m u E1) as [Em [Eu [Lm [Lu Hn']]]].
  assert (Su : o_sol (solution_of w) = u). { rewrite E5. unfold solution_of, new_solver. cbn [w_mem w_sol o_sol]. rewrite store_other by lia. reflexivity. }
  assert (K : exists n w3 s, solve fin c n w = (w3, Some s, Completed)).
  { destruct (C65_lake_run_completes eig fin GLow b a c w HE2 I E) as [n [w3 [s [R _]]]]; eauto.
    - apply C65_lake_at_rest_benchmark; auto. lra.
    - cbn. lra.
    - rewrite L. unfold py_or. cbn [a_cfl a a_mesh_size or_default b lake_at_rest_benchmark bm_domain ia ib]. destruct (Reqb_spec 1 0); [lra|].
      replace (INR 32) with 32 by (rewrite INR_IZR_INZ; reflexivity). lra. }
  destruct K as [k [w3 [s K]]].
  destruct (C47_reinitialized_is_like_new fin c [] (fun _ => u) 1 0%nat 0 u 0 (fun _ => u) 1 0%nat) as [w2 [R1 [R2 R3]]]; auto; try lia; try lra.
  { intros v t []. }
  change (fst (use_run fin c [] (new_solver c (fun _ => u) 1 0 0, []))) with (new_solver c (fun _ => u) 1 0 0) in R1.
  assert (Ew : w = new_solver c (fun _ => u) 1 0 0) by exact E5. rewrite <- Ew in R1, R2, R3.
  destruct (R3 k) as [Q1 [Q2 Q3]]. rewrite K in Q1, Q2, Q3. destruct (solve fin c k w2) as [[w4 s4] st] eqn:Es. cbn [fst snd] in *. subst s4 st.
  assert (X := H eig fin GLow b b' a c w w2 k w4 s HE2 E eq_refl eq_refl).
  assert (RI : sw_reinitialize eig fin c (length (o_sol (solution_of w))) b' w = (w2, None)).
  { unfold sw_reinitialize, fv_solution. rewrite Su, Lu. set (n := or_default (a_mesh_size a) default_mesh_size) in *.
    replace (or_default (Some n) default_mesh_size) with n by (unfold or_default; destruct n; [lia|reflexivity]).
    change (bm_domain b') with (bm_domain b). rewrite Em. cbn [bind]. change (bm_initial b') with (bm_initial b). rewrite Eu. cbn [bind]. exact R1. }
  specialize (X RI Es). change (bm_end b') with 1 in X.
  destruct (C47_time_of_the_solution fin c k w w3 s Completed) as [T _]; auto.
  { rewrite Ew. apply (C47_solvers_start_in_sync fin c (fun _ => u) 1 0%nat 0). lia. }
  specialize (T eq_refl). assert (Tw : w_sol_time w = 0) by (rewrite Ew; reflexivity). assert (Ce : c_end c - c_start c = 2) by (rewrite E4; cbn; lra).
  assert (T4 : w_sol_time w4 = w_sol_time w3) by (unfold seen in Q1; congruence).
  unfold solution_of in X. cbn [o_time] in X. lra.
Qed.
Print Assumptions C68_new_end_time_refuted.

Example C68_ex : exists eig c w c' w', let b := lake_at_rest_benchmark 2 1 in
  let b' := {| bm_domain := bm_domain b; bm_start := bm_start b; bm_end := bm_end b; bm_conditions := bm_conditions b; bm_inflow_left := bm_inflow_left b;
               bm_inflow_right := bm_inflow_right b; bm_initial := fun x => (3, 1); bm_bottom := bm_bottom b; bm_gravity := bm_gravity b |} in
  let a := {| a_mesh_size := Some 32%nat; a_cfl := None; a_ode := None; a_history := true |} in
  sw_solver eig (GMCL GES) b a = Ok (c, w) /\ sw_solver eig (GMCL GES) b' a = Ok (c', w') /\ same_but_initial b b' /\
  (forall v t, In (Reinit v t) [Solve 3; Reinit [(1, 0)] 0; Solve 1] -> bm_start b <= t).
Proof.
  destruct (C43_decomposition_exists 2) as [eig HE]. assert (HE2 : eig2_works eig) by (apply HE; lia). exists eig. cbv zeta.
  set (b := lake_at_rest_benchmark 2 1). set (b' := {| bm_domain := _; bm_start := _; bm_end := _; bm_conditions := _; bm_inflow_left := _; bm_inflow_right := _; bm_initial := _; bm_bottom := _; bm_gravity := _ |}).
  set (a := {| a_mesh_size := _; a_cfl := _; a_ode := _; a_history := _ |}).
  assert (HD : ia (bm_domain b) < ib (bm_domain b)) by (cbn; lra).
  assert (S : side_names (bm_conditions b) "outflow" "outflow") by (cbn; auto).
  destruct (C64_solvers_can_be_built eig (GMCL GES) b a _ _ HE2 HD S) as [c [w [E _]]]; [cbn; tauto|cbn; tauto|].
  destruct (C64_solvers_can_be_built eig (GMCL GES) b' a _ _ HE2 HD S) as [c' [w' [E' _]]]; [cbn; tauto|cbn; tauto|].
  exists c, w, c', w'. split; [exact E|]. split; [exact E'|]. split; [unfold same_but_initial; cbn; tauto|].
  intros v t [X|[X|[X|[]]]]; try discriminate. injection X as <- <-. cbn. lra.
Qed.
