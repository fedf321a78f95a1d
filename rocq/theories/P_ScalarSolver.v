(** C69, C70: the finite volume solvers of scalar problems from the benchmark to the solution (finite_volume/solver.py with
    finite_volume/scalar/solver): bounds and conservation *)
From Coq Require Import Reals List ZArith Arith Lia Lra Bool String.
From Verif Require Import Prelude L_Prelude M_Mesh L_Mesh M_Quadrature M_Interpolate M_Boundary S_Boundary L_Boundary M_Flux S_Flux L_Flux
  M_ODE S_ODE L_ODE M_TimeStepping L_TimeStepping M_Solution M_Solver S_Solver L_Solver P_Solver M_Generate
  M_Neighbours S_Neighbours L_Neighbours M_Scalar S_Scalar L_Scalar P_Scalar M_ShallowWater L_SWLow M_FVSolver S_FVSolver L_FVSolver P_FVWater P_FVLake P_Quadrature
  M_FE M_FEChoice M_Benchmark P_Benchmark M_ScalarSolver S_ScalarSolver L_Invariant P_Boundary P_Flux P_Gauss.
Import ListNotations.
Local Open Scope nat_scope.
Open Scope R_scope.
Notation length := List.length.

Lemma scalar_averages_length eig m f u : cell_averages eig 2 m f = Ok u -> length u = m_len m.
Proof. intro E. unfold cell_averages in E. apply mapM_ok in E as [L _]. unfold m_len. lia. Qed.
Lemma scalar_solver_inv eig g b a c w : scalar_solver eig g b a = Ok (c, w) -> exists m u nf bc,
  let n := or_default (a_mesh_size a) default_mesh_size in
  new_mesh (sb_domain b) n = Ok m /\ cell_averages eig 2 m (sb_initial b) = Ok u /\ m_len m = n /\ length u = n /\ (1 <= n)%nat /\
  m_step m = (ib (sb_domain b) - ia (sb_domain b)) / INR n /\
  get_scalar_flux g b m = Ok nf /\ scalar_boundary b (Nat.div (nf_dim nf) 2) = Ok bc /\ c = scalar_config b a m u (fv_rhs nf (m_step m) bc) /\
  w = new_solver c (fun _ => u) 1 0 (sb_start b).
Proof.
  intro E. unfold scalar_solver, scalar_fv_solution in E. inv_bind E. destruct a0 as [m u]. inv_bind E0. inv_bind E0. apply Ok_inj in E0. injection E0 as <- <-.
  inv_bind E. inv_bind E. apply Ok_inj in E. injection E as <- <-. exists a0, a1, a2, a3. cbv zeta.
  destruct (new_mesh_length _ _ _ E1) as [L [_ L3]]. rewrite (scalar_averages_length _ _ _ _ E2), L. repeat split; auto.
  apply or_default_pos. unfold default_mesh_size. lia.
Qed.

Lemma names_parse p : parse_problem (names_problem p) = Ok p.
Proof. destruct p; reflexivity. Qed.
Lemma scalar_dim g b m nf : get_scalar_flux g b m = Ok nf -> nf_dim nf = 2%nat.
Proof.
  intro E. unfold get_scalar_flux in E. inv_bind E. destruct g; [apply Ok_inj in E; subst; reflexivity..|].
  unfold scalar_mcl_getter in E. inv_bind E. apply Ok_inj in E. subst. reflexivity.
Qed.
Lemma boundary_without_inflow b r il ir : ~ In "inflow"%string (sb_conditions b) ->
  scalar_boundary b r = get_boundary_conditions None (sb_conditions b) r (Some il) (Some ir).
Proof.
  intro N. unfold scalar_boundary, get_boundary_conditions. destruct (sb_conditions b) as [|cl cs]; [reflexivity|].
  assert (L : forall i f g, build_left (W := R) None cl i (Some f) = build_left None cl i (Some g)).
  { intros. unfold build_left. replace (if (cl =? "wall")%string then None else None) with (@None (R -> R)) by (destruct (cl =? "wall")%string; reflexivity).
    destruct (cl =? "periodic")%string, (cl =? "outflow")%string; auto. destruct (String.eqb_spec cl "inflow"); auto. exfalso. apply N. left. auto. }
  set (cr := match cs with [] => cl | c :: _ => c end).
  assert (Nr : cr <> "inflow"%string) by (intro Q; apply N; unfold cr in Q; destruct cs; [left|right; left]; auto).
  assert (Rr : forall i f g, build_right (W := R) None cr i (Some f) = build_right None cr i (Some g)).
  { intros. unfold build_right. replace (if (cr =? "wall")%string then None else None) with (@None (R -> R)) by (destruct (cr =? "wall")%string; reflexivity).
    destruct (cr =? "periodic")%string, (cr =? "outflow")%string; auto. destruct (String.eqb_spec cr "inflow"); auto. contradiction. }
  assert (ML : forall l f g, mapM (fun i => build_left (W := R) None cl i (Some f)) l = mapM (fun i => build_left None cl i (Some g)) l).
  { intros l f g. induction l as [|x l IH]; [reflexivity|]. cbn [mapM]. rewrite (L x f g), IH. reflexivity. }
  assert (MR : forall l f g, mapM (fun i => build_right (W := R) None cr i (Some f)) l = mapM (fun i => build_right None cr i (Some g)) l).
  { intros l f g. induction l as [|x l IH]; [reflexivity|]. cbn [mapM]. rewrite (Rr x f g), IH. reflexivity. }
  rewrite (ML _ (sb_inflow_left b) il). destruct (mapM _ (rev (seq 0 r))); [|reflexivity]. cbn [bind]. rewrite (MR _ (sb_inflow_right b) ir). reflexivity.
Qed.

(** the solver can be built, and the initial values are in the range of the data *)
Theorem C69_scalar_solvers_can_be_built : forall eig g b a p nl nr, eig2_works eig -> ia (sb_domain b) < ib (sb_domain b) ->
  sb_problem b = names_problem p -> side_names (sb_conditions b) nl nr ->
  In nl ["periodic"; "outflow"; "inflow"]%string -> In nr ["periodic"; "outflow"; "inflow"]%string ->
  exists c w, scalar_solver eig g b a = Ok (c, w) /\ o_time (solution_of w) = sb_start b /\
    length (o_sol (solution_of w)) = or_default (a_mesh_size a) default_mesh_size.
Proof.
  intros eig g b a p nl nr HE HD Hp S Nl Nr. set (n := or_default (a_mesh_size a) default_mesh_size).
  assert (Hn : (0 < n)%nat) by (apply or_default_pos; unfold default_mesh_size; lia).
  pose proof (new_mesh_ok (sb_domain b) n Hn HD) as Em. set (m := {| m_domain := sb_domain b; m_cells := _; m_step := _ |}) in Em.
  destruct (averages_exist eig _ n m (sb_initial b) HE Hn HD Em) as [u [Eu Lu]].
  assert (G : exists nf, get_scalar_flux g b m = Ok nf).
  { unfold get_scalar_flux. rewrite Hp, names_parse. cbn [bind]. destruct g; eauto. unfold scalar_mcl_getter.
    destruct (C35_fv_neighbours_share_a_node (m_len m + 2) (is_periodic (sb_conditions b))) as [_ X].
    destruct X as [rows [X _]]; [lia|]. rewrite X. cbn [bind]. eauto. }
  destruct G as [nf G]. pose proof (scalar_dim _ _ _ _ G) as Dm.
  assert (B : exists bc, scalar_boundary b (Nat.div (nf_dim nf) 2) = Ok bc).
  { rewrite Dm. change (2 / 2)%nat with 1%nat. unfold scalar_boundary. apply (C19_boundary_names_validated 0 _ _ 1 _ _ nl nr ltac:(lia) S).
    assert (X : forall n f, In n ["periodic"; "outflow"; "inflow"]%string -> exists c, names_cond (W := R) None n (Some f) c).
    { intros x f [<-|[<-|[<-|[]]]]; [exists Periodic|exists Outflow|exists (Inflow f)]; cbn; auto. }
    split; apply X; auto. }
  destruct B as [bc B]. unfold scalar_solver, scalar_fv_solution. fold n. rewrite Em. cbn [bind]. rewrite Eu. cbn [bind]. rewrite G. cbn [bind]. rewrite B. cbn [bind].
  eexists. eexists. split; [reflexivity|]. unfold new_solver, solution_of. cbn [w_mem w_sol w_sol_time o_time o_sol]. rewrite store_other by lia. auto.
Qed.
Print Assumptions C69_scalar_solvers_can_be_built.

Lemma mean2_between f D n i lo hi : (i < n)%nat -> ia D < ib D -> (forall x, ia D < x < ib D -> lo <= f x <= hi) -> lo <= mean2 f D n i <= hi.
Proof.
  intros Hi HD Hf. unfold mean2. pose proof (two_points_inside D n i Hi HD) as [T1 [T2 [T3 [T4 T5]]]].
  set (c := cell_centre D n i) in *. set (r := ilength D / INR n * gauss_point) in *.
  pose proof (Hf (c - r) ltac:(lra)). pose proof (Hf (c + r) ltac:(lra)). lra.
Qed.

Section Bounds.
Context (eig : nat -> (nat -> nat -> R) -> (nat -> R) * (nat -> nat -> R)) (finite : list R -> bool) (g : scalar_getter) (b : scalar_benchmark) (a : solver_args)
  (p : M_Scalar.problem) (lo hi : R) (c : config (list R)) (w : world (list R)).
Hypotheses (HE : eig2_works eig) (HD : ia (sb_domain b) < ib (sb_domain b)) (Hp : sb_problem b = names_problem p) (HG : bounded_scheme g)
  (HB : data_between b lo hi) (HR : range_ok p lo) (HM : ssp_method (a_ode a))
  (HC : 0 < py_or (a_cfl a) default_cfl /\ py_or (a_cfl a) default_cfl * max_speed p hi <= cells_per_step g)
  (HF : forall v, in_range lo hi v -> finite v = true)
  (E : scalar_solver eig g b a = Ok (c, w)).

Let n := or_default (a_mesh_size a) default_mesh_size.
Definition between (v : list R) : Prop := length v = n /\ in_range lo hi v.

Lemma bounds_setup : exists m u, w = new_solver c (fun _ => u) 1 0 (sb_start b) /\ between u /\ 0 < m_step m /\
  m_step m = (ib (sb_domain b) - ia (sb_domain b)) / INR n /\ (forall x, call_generator (c_gen c) x = m_step m * py_or (a_cfl a) default_cfl) /\
  c_start c = sb_start b /\ c_end c = sb_end b /\ quiet_check c /\ safe_steps between c.
Proof.
  destruct (scalar_solver_inv eig g b a c w E) as [m [u [nf [bc X]]]]. fold n in X. cbv zeta in X. destruct X as [Em [Eu [Lm [Lu [Hn [Ed [Enf [Ebc [Ec Ew]]]]]]]]].
  exists m, u. assert (Hn' : (0 < n)%nat) by lia.
  assert (Bu : between u).
  { rewrite (averages_tab eig _ n m _ HE Hn' HD Em) in Eu. apply Ok_inj in Eu. subst u. split; [apply tab_length|].
    intros x Hx. unfold tab in Hx. apply in_map_iff in Hx as [i [<- Hi]]. apply in_seq in Hi. apply mean2_between; [lia|exact HD|apply HB]. }
  assert (HX : 0 < m_step m). { rewrite Ed. apply Rdiv_lt_0_compat; [lra|apply lt_0_INR; lia]. }
  set (cfl := py_or (a_cfl a) default_cfl) in *.
  assert (GG : forall x, call_generator (c_gen c) x = m_step m * cfl) by (intro x; subst c; reflexivity).
  split; [exact Ew|]. split; [exact Bu|]. split; [exact HX|]. split; [exact Ed|]. split; [exact GG|]. split; [subst c; reflexivity|]. split; [subst c; reflexivity|].
  split; [subst c; intros o Q; discriminate|].
  intros dt o [Lo Ro] [D1 D2]. rewrite GG in D2. pose proof tol_pos as TP.
  assert (Sp : 0 < max_speed p hi).
  { destruct p; cbn [max_speed]; [lra|]. cbn [range_ok] in HR. destruct Bu as [L1 B1]. destruct u as [|x u]; [cbn in L1; lia|]. pose proof (B1 x (or_introl eq_refl)). lra. }
  assert (Spd : dt * max_speed p hi <= m_step m * cells_per_step g).
  { eapply Rle_trans; [apply Rmult_le_compat_r; [lra|exact D2]|]. rewrite Rmult_assoc. apply Rmult_le_compat_l; lra. }
  rewrite (scalar_dim _ _ _ _ Enf) in Ebc. change (2 / 2)%nat with 1%nat in Ebc.
  assert (HBC : exists il ir, get_boundary_conditions None (sb_conditions b) 1 il ir = Ok bc /\ inflow_in_range lo hi il /\ inflow_in_range lo hi ir).
  { destruct (in_dec string_dec "inflow"%string (sb_conditions b)) as [Y|N].
    - exists (Some (sb_inflow_left b)), (Some (sb_inflow_right b)). split; [exact Ebc|]. split; intro t; apply (proj2 HB Y t).
    - rewrite (boundary_without_inflow b 1 (fun _ => lo) (fun _ => lo) N) in Ebc. exists (Some (fun _ => lo)), (Some (fun _ => lo)). split; [exact Ebc|].
      assert (lo <= hi). { destruct Bu as [L1 B1]. destruct u as [|x u]; [cbn in L1; lia|]. pose proof (B1 x (or_introl eq_refl)). lra. }
      split; intro t; lra. }
  destruct HBC as [il [ir [Ebc' [Il Ir]]]].
  assert (HT : In (c_tab c) [euler; heun; ssp3]). { subst c. cbn [c_tab scalar_config]. destruct (a_ode a) as [T|] eqn:Ea; [apply HM; reflexivity|cbn; auto]. }
  assert (Hne : o_sol o <> []) by (intro Q; rewrite Q in Lo; cbn in Lo; lia).
  assert (OO : o = {| o_time := o_time o; o_sol := o_sol o |}) by (destruct o; reflexivity).
  assert (Run : exists o', rk_run_e (c_rhs c) (c_tab c) [dt] {| o_time := o_time o; o_sol := o_sol o |} = Ok o' /\ length (o_sol o') = length (o_sol o) /\ in_range lo hi (o_sol o')).
  { assert (Rhs : c_rhs c = fv_rhs nf (m_step m) bc) by (subst c; reflexivity). rewrite Rhs. unfold get_scalar_flux in Enf. rewrite Hp, names_parse in Enf. cbn [bind] in Enf.
    destruct HG as [-> | ->]; cbn [cells_per_step] in Spd.
    - apply Ok_inj in Enf. subst nf. destruct (llf_run_range p (sb_conditions b) il ir bc (m_step m) (c_tab c) [dt] (o_time o) (o_sol o) lo hi) as [o' [X1 [X2 [X3 _]]]]; auto; [|exists o'; auto].
      intros dt' [<-|[]]. split; lra.
    - unfold scalar_mcl_getter in Enf. inv_bind Enf. apply Ok_inj in Enf. subst nf. rename a0 into rows. 
      destruct (mcl_run_range p (neighbours_array rows) (sb_conditions b) il ir bc (m_step m) (c_tab c) [dt] (o_time o) (o_sol o) lo hi) as [o' [X1 [X2 [X3 _]]]]; auto; [| |exists o'; auto].
      + match goal with Q : fv_neighbours _ _ = Ok rows |- _ => apply fv_array_good in Q; rewrite Lm in Q; rewrite Lo; replace (S (S n)) with (n + 2)%nat by lia; exact Q end.
      + intros dt' [<-|[]]. split; lra. }
  rewrite <- OO in Run. destruct Run as [o' [X1 [X2 X3]]]. exists o'. split; [|split; [congruence|exact X3]].
  unfold rk_run_e in X1. cbn [foldM] in X1. destruct (rk_execute_e (c_rhs c) (c_tab c) dt o) as [y|e]; [|discriminate]. exact X1.
Qed.

Lemma initial_sol : o_sol (solution_of w) = w_mem w (w_sol w). Proof. reflexivity. Qed.
Lemma bounds_start : inv between w /\ length (o_sol (solution_of w)) = n /\ w_sol_time w = sb_start b.
Proof.
  destruct bounds_setup as [m [u [Ew [Bu _]]]]. rewrite Ew. split; [split|split].
  - unfold in_sync, new_solver. cbn [w_ode_time w_sol_time w_mem w_ode w_sol]. rewrite store_same, store_other by lia. auto.
  - apply new_keeps; [lia|exact Bu].
  - unfold solution_of, new_solver. cbn [w_mem w_sol o_sol]. rewrite store_other by lia. apply Bu.
  - reflexivity.
Qed.

Lemma bounds_hold us : (forall v t, In (Reinit v t) us -> length v = length (o_sol (solution_of w)) /\ in_range lo hi v) ->
  forall v, shown (fst (use_run finite c us (w, []))) v -> length v = length (o_sol (solution_of w)) /\ in_range lo hi v.
Proof.
  intros HU v HV. destruct bounds_setup as [m [u [Ew [Bu [_ [_ [_ [_ [_ [Qc Sf]]]]]]]]]]. destruct bounds_start as [I [L _]]. rewrite L in *.
  assert (K : inv between (fst (use_run finite c us (w, [])))).
  { apply (use_inv finite between c (fun v Pv => HF v (proj2 Pv)) Qc Sf us (fun _ => u) (w, []) 1); [exact HU| |exact I].
    rewrite Ew. apply separate_new. lia. }
  destruct K as [_ [K1 [K2 K3]]]. rewrite Forall_forall in K3. destruct HV as [-> |HV]; [exact K2|exact (K3 v HV)].
Qed.
Lemma bounds_complete k : let dt := (ib (sb_domain b) - ia (sb_domain b)) / INR (length (o_sol (solution_of w))) * py_or (a_cfl a) default_cfl in
  1 / 10 ^ 12 <= dt -> 1 / 10 ^ 12 <= sb_end b - sb_start b < INR k * dt ->
  exists w' s, solve finite c (S k) w = (w', Some s, Completed) /\ sb_end b - 1 / 10 ^ 12 < o_time (solution_of w') <= sb_end b /\
    length (o_sol (solution_of w')) = length (o_sol (solution_of w)) /\ in_range lo hi (o_sol (solution_of w')).
Proof.
  intros dt H1 H2. assert (T : tol = 1 / 10 ^ 12) by (unfold tol; f_equal; ring). unfold dt in *. rewrite <- T in *.
  destruct bounds_setup as [m [u [Ew [Bu [_ [Ed [Gg [Cs [Ce [Qc Sf]]]]]]]]]]. destruct bounds_start as [I [L Ts]]. rewrite L in *. rewrite <- Ed in *.
  destruct (solve_completes finite between c (fun v Pv => HF v (proj2 Pv)) Qc Sf (m_step m * py_or (a_cfl a) default_cfl) H1) with (n := k) (w := w) as [w' [s' [S1 [S2 S3]]]].
  - intros t v _. rewrite Gg. lra.
  - exact I.
  - rewrite Cs, Ce. exact H2.
  - exists w', s'. split; [exact S1|]. rewrite Cs, Ce, Ts in S3. split; [cbn [solution_of o_time]; lra|]. exact (proj1 (proj2 (proj2 S2))).
Qed.
End Bounds.

(** ** C69 *)
(** The Lax-Friedrichs and the limited solver, with a strong stability preserving method and a CFL number that lets waves cross at
    most one cell (half a cell) per step: whatever a program does with the solver, everything it can see of the solution lies in the range
    of the data of the benchmark. For advection and for Burgers' equation with positive data. *)
Theorem C69_bounds_hold : forall eig finite g b a p lo hi c w us, eig2_works eig -> ia (sb_domain b) < ib (sb_domain b) ->
  sb_problem b = names_problem p -> bounded_scheme g -> data_between b lo hi -> range_ok p lo -> ssp_method (a_ode a) ->
  0 < py_or (a_cfl a) default_cfl -> py_or (a_cfl a) default_cfl * max_speed p hi <= cells_per_step g ->
  (forall v, in_range lo hi v -> finite v = true) ->
  scalar_solver eig g b a = Ok (c, w) ->
  (forall v t, In (Reinit v t) us -> length v = length (o_sol (solution_of w)) /\ in_range lo hi v) ->
  forall v, shown (fst (use_run finite c us (w, []))) v -> length v = length (o_sol (solution_of w)) /\ in_range lo hi v.
Proof. intros eig finite g b a p lo hi c w us HE HD Hp HG HB HR HM C1 C2 HF E. exact (bounds_hold eig finite g b a p lo hi c w HE HD Hp HG HB HR HM (conj C1 C2) HF E us). Qed.
Print Assumptions C69_bounds_hold.

(** In the same setting solve ends after at most one iteration more than there are time steps, without any exception or warning, at the
    end time up to 1e-12. *)
Theorem C69_run_completes : forall eig finite g b a p lo hi c w k, eig2_works eig -> ia (sb_domain b) < ib (sb_domain b) ->
  sb_problem b = names_problem p -> bounded_scheme g -> data_between b lo hi -> range_ok p lo -> ssp_method (a_ode a) ->
  0 < py_or (a_cfl a) default_cfl -> py_or (a_cfl a) default_cfl * max_speed p hi <= cells_per_step g ->
  (forall v, in_range lo hi v -> finite v = true) ->
  scalar_solver eig g b a = Ok (c, w) ->
  let dt := (ib (sb_domain b) - ia (sb_domain b)) / INR (length (o_sol (solution_of w))) * py_or (a_cfl a) default_cfl in
  1 / 10 ^ 12 <= dt -> 1 / 10 ^ 12 <= sb_end b - sb_start b < INR k * dt ->
  exists w' s, solve finite c (S k) w = (w', Some s, Completed) /\ sb_end b - 1 / 10 ^ 12 < o_time (solution_of w') <= sb_end b /\
    length (o_sol (solution_of w')) = length (o_sol (solution_of w)) /\ in_range lo hi (o_sol (solution_of w')).
Proof. intros eig finite g b a p lo hi c w k HE HD Hp HG HB HR HM C1 C2 HF E. exact (bounds_complete eig finite g b a p lo hi c w HE HD Hp HG HB HR HM (conj C1 C2) HF E k). Qed.
Print Assumptions C69_run_completes.

(** Constant data stay constant (any value for advection, positive ones for Burgers' equation). *)
Theorem C69_constants_stay : forall eig finite g b a p k c w us, eig2_works eig -> ia (sb_domain b) < ib (sb_domain b) ->
  sb_problem b = names_problem p -> bounded_scheme g -> data_between b k k -> range_ok p k -> ssp_method (a_ode a) ->
  0 < py_or (a_cfl a) default_cfl -> py_or (a_cfl a) default_cfl * max_speed p k <= cells_per_step g ->
  (forall v, in_range k k v -> finite v = true) ->
  scalar_solver eig g b a = Ok (c, w) -> (forall v t, ~ In (Reinit v t) us) ->
  forall v, shown (fst (use_run finite c us (w, []))) v -> v = repeat k (length (o_sol (solution_of w))).
Proof.
  intros eig finite g b a p k c w us HE HD Hp HG HB HR HM C1 C2 HF E HU v HV.
  destruct (C69_bounds_hold eig finite g b a p k k c w us HE HD Hp HG HB HR HM C1 C2 HF E) with (v := v) as [L Rg]; [|exact HV|].
  { intros v' t Hin. exfalso. exact (HU v' t Hin). }
  rewrite <- L. clear - Rg. induction v as [|x v IH]; [reflexivity|]. cbn [length repeat]. pose proof (Rg x (or_introl eq_refl)).
  rewrite <- IH by (intros y Hy; apply Rg; right; exact Hy). f_equal. lra.
Qed.
Print Assumptions C69_constants_stay.

(** The advection benchmarks of the program with default arguments (any end time): all solvers can be built, the values stay in [0, 1]
    ([-1, 1] for the cosine), the run ends at the end time. *)
Theorem C69_advection_benchmarks : forall eig finite g u0 lo e history us, eig2_works eig -> bounded_scheme g ->
  (u0 = three_hills \/ u0 = two_hills \/ u0 = one_hill \/ u0 = gaussian_bell) /\ lo = 0 \/ u0 = cosine /\ lo = -1 ->
  (forall v, in_range lo 1 v -> finite v = true) -> 1 / 10 ^ 12 <= e ->
  (forall v t, In (Reinit v t) us -> length v = 400%nat /\ in_range lo 1 v) ->
  exists c w, scalar_solver eig g (advection_benchmark u0 e) {| a_mesh_size := None; a_cfl := None; a_ode := None; a_history := history |} = Ok (c, w) /\
    (forall v, shown (fst (use_run finite c us (w, []))) v -> length v = 400%nat /\ in_range lo 1 v) /\
    exists n w' s, solve finite c n w = (w', Some s, Completed) /\ e - 1 / 10 ^ 12 < o_time (solution_of w') <= e /\ in_range lo 1 (o_sol (solution_of w')).
Proof.
  intros eig finite g u0 lo e history us HE HG Hu HF He HU. set (b := advection_benchmark u0 e). set (a := {| a_mesh_size := None; a_cfl := None; a_ode := None; a_history := history |}).
  assert (HD : ia (sb_domain b) < ib (sb_domain b)) by (cbn; lra).
  assert (S : side_names (sb_conditions b) "periodic" "periodic") by (cbn; auto).
  destruct (C69_scalar_solvers_can_be_built eig g b a M_Scalar.Advection _ _ HE HD eq_refl S) as [c [w [E [T0 L]]]]; [cbn; tauto|cbn; tauto|].
  change (or_default (a_mesh_size a) default_mesh_size) with 400%nat in L.
  assert (HB : data_between b lo 1).
  { split; [intros x _; apply (C49_advection_data u0 lo Hu)|]. cbn. intros [Q|[]]. discriminate. }
  assert (C1 : py_or (a_cfl a) default_cfl = 1 / 10) by reflexivity.
  assert (C2 : 0 < py_or (a_cfl a) default_cfl) by (rewrite C1; lra).
  assert (C3 : py_or (a_cfl a) default_cfl * max_speed M_Scalar.Advection 1 <= cells_per_step g) by (rewrite C1; cbn [max_speed]; destruct g; cbn [cells_per_step]; lra).
  assert (HM : ssp_method (a_ode a)) by (intros T Q; discriminate).
  exists c, w. split; [exact E|]. split.
  - rewrite <- L in *. exact (C69_bounds_hold eig finite g b a M_Scalar.Advection lo 1 c w us HE HD eq_refl HG HB I HM C2 C3 HF E HU).
  - set (k := Z.to_nat (up (e * 4000))).
    assert (I4 : INR 400 = 400) by (rewrite INR_IZR_INZ; reflexivity).
    destruct (C69_run_completes eig finite g b a M_Scalar.Advection lo 1 c w k HE HD eq_refl HG HB I HM C2 C3 HF E) as [w' [s [X1 [X2 [_ X3]]]]].
    + rewrite L, I4, C1. cbn. lra.
    + rewrite L, I4, C1. change (sb_end b - sb_start b) with (e - 0). change (ib (sb_domain b) - ia (sb_domain b)) with (1 - 0). split; [lra|].
      unfold k. destruct (archimed (e * 4000)) as [A _]. rewrite INR_IZR_INZ, Z2Nat.id; [lra|]. apply le_IZR. assert (0 < 1 / 10 ^ 12) by (cbn; lra). lra.
    + exists (Datatypes.S k), w', s. auto.
Qed.
Print Assumptions C69_advection_benchmarks.

(** ** C70 *)
Lemma scalar_step_sum (rhs : R -> list R -> result (list R)) T n M0 dt o o' :
  (forall dt' u o1, length u = n -> rk_run_e rhs T [dt'] {| o_time := o_time o; o_sol := u |} = Ok o1 -> length (o_sol o1) = n /\ rsum (o_sol o1) = rsum u) ->
  length (o_sol o) = n /\ rsum (o_sol o) = M0 -> rk_execute_e rhs T dt o = Ok o' -> length (o_sol o') = n /\ rsum (o_sol o') = M0.
Proof.
  intros H [L M] E. destruct o as [t u]. cbn [o_sol o_time] in *. destruct (H dt u o' L) as [A B]; [|split; congruence].
  unfold rk_run_e. cbn [foldM]. rewrite E. reflexivity.
Qed.
(** On periodic domains the Lax-Friedrichs and the central solver conserve the integral of the solution: whatever is done with the solver,
    the sum of all values that can be seen is the one of the initial values; for any CFL number, also when solve is interrupted or raises. *)
Theorem C70_mass_is_conserved : forall eig finite g b a c w us, scalar_solver eig g b a = Ok (c, w) -> g = SLLF \/ g = SCentral -> known_method a ->
  sb_conditions b = ["periodic"%string] -> ia (sb_domain b) < ib (sb_domain b) ->
  (forall v t, In (Reinit v t) us -> length v = length (o_sol (solution_of w)) /\ rsum v = rsum (o_sol (solution_of w))) ->
  forall v, shown (fst (use_run finite c us (w, []))) v ->
    length v = length (o_sol (solution_of w)) /\ rsum v = rsum (o_sol (solution_of w)).
Proof.
  intros eig finite g b a c w us E HG HK HP HD HU v HV.
  destruct (scalar_solver_inv eig g b a c w E) as [m [u [nf [bc X]]]]. cbv zeta in X. destruct X as [Em [Eu [Lm [Lu [Hn [Ed [Enf [Ebc [Ec Ew]]]]]]]]].
  assert (Su : o_sol (solution_of w) = u).
  { rewrite Ew. unfold solution_of, new_solver. cbn [w_mem w_sol o_sol]. rewrite store_other by lia. reflexivity. }
  rewrite Su in *. rewrite <- Lu in Hn.
  assert (HT : In (c_tab c) [euler; heun; ssp3; rk8]).
  { subst c. cbn [c_tab scalar_config]. unfold known_method in HK. destruct (a_ode a) as [T|]; [apply HK; reflexivity|right; left; reflexivity]. }
  assert (HX : 0 < m_step m). { rewrite Ed. apply Rdiv_lt_0_compat; [lra|apply lt_0_INR; lia]. }
  set (P := fun x => length x = length u /\ rsum x = rsum u).
  assert (K : keeps P (fst (use_run finite c us (w, [])))).
  { apply (use_keeps finite P c us (fun _ => u) (w, []) 1).
    - intros dt o o'. unfold P. intros Po Eo. apply (scalar_step_sum (c_rhs c) (c_tab c) (length u) (rsum u) dt o o'); auto.
      intros dt' x o1 Lx E1. rewrite (scalar_dim _ _ _ _ Enf) in Ebc. change (2 / 2)%nat with 1%nat in Ebc. unfold scalar_boundary in Ebc. rewrite HP in Ebc.
      assert (Rhs : c_rhs c = fv_rhs nf (m_step m) bc) by (subst c; reflexivity). rewrite Rhs in E1.
      unfold get_scalar_flux in Enf. inv_bind Enf. assert (Hnf : In nf [scalar_llf a0; scalar_central a0; corrected (scalar_llf a0) (linear_antidiffusive 0 (m_step m)); corrected (scalar_central a0) (linear_antidiffusive 0 (m_step m))]).
      { destruct HG as [-> | ->]; apply Ok_inj in Enf; subst nf; cbn; auto. }
      destruct (P_Flux.C21_scalar_schemes_conserve_mass a0 0 (m_step m) None _ _ bc nf (c_tab c) [dt'] (o_time o) x o1 Hnf Ebc) as [A B]; auto.
      + intros ->. cbn in Lx. lia.
      + split; [congruence|]. apply (Rmult_eq_reg_l (m_step m)); lra.
    - exact HU.
    - rewrite Ew. apply separate_new. lia.
    - cbn [fst]. rewrite Ew. apply new_keeps; [lia|]. unfold P. auto. }
  destruct K as [K1 [K2 K3]]. rewrite Forall_forall in K3. destruct HV as [-> |HV]; [exact K2|exact (K3 v HV)].
Qed.
Print Assumptions C70_mass_is_conserved.

(** ** piecewise constant data: the averages are the given values *)
Definition box_data (u : list R) (x : R) : R := nth (Z.to_nat (Int_part x)) u 0.
Definition box_benchmark (name : string) (conds : list string) (u : list R) (e : R) : scalar_benchmark :=
  {| sb_problem := name; sb_domain := {| ia := 0; ib := INR (length u) |}; sb_start := 0; sb_end := e; sb_conditions := conds;
     sb_inflow_left := fun _ => 0; sb_inflow_right := fun _ => 0; sb_initial := box_data u |}.
Lemma box_data_at u i x : INR i <= x < INR (S i) -> box_data u x = nth i u 0.
Proof.
  intros [H1 H2]. unfold box_data. f_equal. rewrite S_INR in H2. rewrite INR_IZR_INZ in H1, H2.
  assert (Q : Int_part x = Z.of_nat i). { unfold Int_part. assert (up x = Z.of_nat i + 1)%Z; [|lia]. symmetry. apply tech_up; rewrite plus_IZR; lra. }
  rewrite Q. lia.
Qed.
Lemma box_averages eig u m : eig2_works eig -> u <> [] -> new_mesh {| ia := 0; ib := INR (length u) |} (length u) = Ok m ->
  cell_averages eig 2 m (box_data u) = Ok u /\ m_step m = 1.
Proof.
  intros HE Hu Em. assert (Hn : (0 < length u)%nat) by (destruct u; [congruence|cbn; lia]). assert (Hr : 0 < INR (length u)) by (apply lt_0_INR; lia).
  set (D := {| ia := 0; ib := INR (length u) |}) in *. assert (HD : ia D < ib D) by (cbn; lra).
  assert (One : ilength D / INR (length u) = 1). { unfold ilength. cbn [ia ib D]. field. lra. }
  split.
  - rewrite (averages_tab eig D _ m _ HE Hn HD Em). f_equal. transitivity (tab (length u) (fun i => nth i u 0)); [|symmetry; apply list_tab].
    apply tab_ext. intros i Hi. unfold mean2. pose proof (two_points_inside D (length u) i Hi HD) as [T1 [T2 [T3 _]]].
    unfold cell_centre in *. rewrite One in *. cbn [ia D] in *. rewrite S_INR in T3. rewrite !(box_data_at u i) by (rewrite S_INR; split; lra). lra.
  - destruct (new_mesh_length _ _ _ Em) as [_ [_ ->]]. exact One.
Qed.

Lemma rsum_step (x y : list R) r : length x = length y -> rsum (vadd x (vscal r (vscal 1 y))) = rsum x + r * rsum y.
Proof.
  revert y. induction x as [|x0 x IH]; intros [|y0 y] L; try discriminate; [cbn; ring|]. injection L as L. specialize (IH y L).
  change (rsum (vadd (x0 :: x) (vscal r (vscal 1 (y0 :: y))))) with ((x0 + r * (1 * y0)) + rsum (vadd x (vscal r (vscal 1 y)))). rewrite IH. cbn [rsum fold_right]. unfold rsum. ring.
Qed.
Lemma euler_one {V} `{VecOps V} (f : R -> V -> result V) t u dt v : f (t + 0 * dt) u = Ok v ->
  rk_execute_e f euler dt {| o_time := t; o_sol := u |} = Ok {| o_time := t + dt; o_sol := vadd u (vscal dt (vscal 1 v)) |}.
Proof. intro E. unfold rk_execute_e, rk_stage_e. cbn. rewrite E. reflexivity. Qed.

(** The limited solver does not conserve the integral on periodic domains (C25_periodic_mass_conservation_refuted, end to end): one step of
    Euler's method with a CFL number of 1/2. *)
Theorem C70_limited_solver_refuted :
  ~ (forall eig finite b a c w us, eig2_works eig -> scalar_solver eig SMCL b a = Ok (c, w) -> known_method a -> sb_conditions b = ["periodic"%string] ->
     ia (sb_domain b) < ib (sb_domain b) -> (forall v t, ~ In (Reinit v t) us) ->
     forall v, shown (fst (use_run finite c us (w, []))) v -> rsum v = rsum (o_sol (solution_of w))).
Proof.
  intro H. destruct C25_periodic_mass_conservation_refuted as [u [bc [nf [Ebc [Enf F]]]]].
  destruct (C43_decomposition_exists 2) as [eig HE]. assert (HE2 : eig2_works eig) by (apply HE; lia).
  assert (Hu : u <> []). { intros ->. destruct (F 0) as [v [_ B]]. destruct v; [apply B; reflexivity|].
    destruct (F 0) as [v' [A _]]. destruct (fv_rhs_extended _ _ _ _ _ _ A) as [e Ee]. injection Ebc as <-. discriminate. }
  set (b := box_benchmark "advection" ["periodic"%string] u 1). set (a := {| a_mesh_size := Some (length u); a_cfl := Some (1 / 2); a_ode := Some euler; a_history := false |}).
  assert (Hn : (0 < length u)%nat) by (destruct u; [congruence|cbn; lia]).
  assert (HD : ia (sb_domain b) < ib (sb_domain b)) by (cbn [b box_benchmark sb_domain ia ib]; apply lt_0_INR; lia).
  pose proof (new_mesh_ok (sb_domain b) (length u) Hn HD) as Em. set (m := {| m_domain := sb_domain b; m_cells := _; m_step := _ |}) in Em.
  destruct (box_averages eig u m HE2 Hu Em) as [Ea Es].
  assert (Lm : m_len m = length u) by (destruct (new_mesh_length _ _ _ Em); auto).
  assert (E : scalar_solver eig SMCL b a = Ok (scalar_config b a m u (fv_rhs nf (m_step m) bc), new_solver (scalar_config b a m u (fv_rhs nf (m_step m) bc)) (fun _ => u) 1 0 0)).
  { unfold scalar_solver, scalar_fv_solution. assert (Q : or_default (a_mesh_size a) default_mesh_size = length u) by (cbn [a a_mesh_size or_default]; destruct (length u); [lia|reflexivity]).
    rewrite Q, Em. cbn [bind]. change (sb_initial b) with (box_data u). rewrite Ea. cbn [bind].
    assert (G : get_scalar_flux SMCL b m = Ok nf). { unfold get_scalar_flux. cbn [b box_benchmark sb_problem sb_conditions]. cbn [parse_problem String.eqb bind]. rewrite Lm. exact Enf. }
    rewrite G. cbn [bind]. rewrite (scalar_dim _ _ _ _ G). change (2 / 2)%nat with 1%nat.
    assert (B : scalar_boundary b 1 = Ok bc). { rewrite <- Ebc. reflexivity. } rewrite B. reflexivity. }
  set (c := scalar_config _ _ _ _ _) in E. set (w := new_solver _ _ _ _ _) in E.
  assert (CFL : py_or (a_cfl a) default_cfl = 1 / 2). { cbn [a a_cfl py_or]. destruct (Reqb_spec (1 / 2) 0); [lra|reflexivity]. }
  destruct (F (0 + 0 * (1 / 2))) as [v [Ev Nv]].
  set (y := {| o_time := 0 + 1 / 2; o_sol := vadd u (vscal (1 / 2) (vscal 1 v)) |}).
  assert (So : solution_of w = {| o_time := 0; o_sol := u |}) by reflexivity.
  destruct (first_step (fun _ => true) c w (1 / 2) y) as [s [_ [_ X]]].
  - split; reflexivity.
  - reflexivity.
  - unfold c, call_generator. cbn [scalar_config c_gen mesh_dependent_generator new_generator gen_adaptive gen_frozen gen_cfl]. rewrite CFL, Es. ring.
  - unfold tol. lra.
  - unfold tol. cbn [c scalar_config c_end c_start b box_benchmark sb_end sb_start]. lra.
  - rewrite So. unfold c. cbn [scalar_config c_rhs c_tab a a_ode]. rewrite Es. apply euler_one. exact Ev.
  - reflexivity.
  - assert (Z : rsum (o_sol y) = rsum u).
    { rewrite <- X. apply (H eig (fun _ => true) b a c w [Solve 1] HE2 E); auto.
      - intros T HT. injection HT as <-. cbn; auto.
      - intros v' t [Q|[]]. discriminate.
      - left. reflexivity. }
    cbn [y o_sol] in Z. apply Nv. assert (Lv : length v = length u).
    { unfold scalar_mcl_getter in Enf. inv_bind Enf. apply Ok_inj in Enf. subst nf. destruct (bc_radius _ _ _ _ _ _ Ebc) as [B1 B2].
      eapply mcl_rhs_length; eauto. match goal with Q : fv_neighbours _ _ = Ok _ |- _ => apply fv_array_good in Q; replace (S (S (length u))) with (length u + 2)%nat by lia; exact Q end. }
    rewrite rsum_step in Z by auto. lra.
Qed.
Print Assumptions C70_limited_solver_refuted.

(** ** Burgers' equation with negative states *)
Lemma heun_two {V} `{VecOps V} (f : R -> V -> result V) t u dt k1 k2 : f (t + 0 * dt) u = Ok k1 -> f (t + 1 * dt) (vadd u (vscal dt (vscal 1 k1))) = Ok k2 ->
  rk_execute_e f heun dt {| o_time := t; o_sol := u |} = Ok {| o_time := t + dt; o_sol := axpy u dt (wsum [1 / 2; 1 / 2] [k1; k2]) |}.
Proof.
  intros E1 E2. unfold rk_execute_e. cbn [heun rk_b length seq foldM]. unfold rk_stage_e at 1. cbn [rk_c rk_A heun nth firstn o_time o_sol]. cbn [wsum axpy].
  rewrite E1. cbn [bind app]. unfold rk_stage_e. cbn [rk_c rk_A heun nth firstn o_time o_sol]. cbn [wsum axpy]. rewrite E2. reflexivity.
Qed.
Definition shock_kappa : R := cos (2 * PI * (1 / 6 * gauss_point)).
Lemma shock_kappa_bounds : 92 / 100 <= shock_kappa <= 1.
Proof.
  unfold shock_kappa. split; [|apply COS_bound]. destruct gauss_point_pos as [G1 G2]. assert (G3 : gauss_point < 29 / 100) by nra.
  pose proof PI_RGT_0. pose proof PI_4. set (x := 2 * PI * (1 / 6 * gauss_point)). assert (0 < x < 387 / 1000) by (unfold x; split; nra).
  destruct (pre_cos_bound x 0) as [A _]; [lra|lra|]. unfold cos_approx, cos_term in A. cbn in A. nra.
Qed.
Lemma shock_averages eig m : eig2_works eig -> new_mesh unit_interval 6 = Ok m -> let k := shock_kappa in
  cell_averages eig 2 m (fun x => sin (2 * PI * x)) = Ok [k / 2; k; k / 2; - (k / 2); - k; - (k / 2)] /\ m_step m = 1 / 6.
Proof.
  intros HE Em k. assert (I6 : INR 6 = 6) by (rewrite INR_IZR_INZ; reflexivity). split.
  - rewrite (averages_tab eig unit_interval 6 m _ HE ltac:(lia) ltac:(cbn; lra) Em). f_equal.
    assert (M : forall i, mean2 (fun x => sin (2 * PI * x)) unit_interval 6 i = sin (PI / 6 + INR i * (PI / 3)) * k).
    { intro i. unfold mean2, cell_centre, ilength, k, shock_kappa. cbn [ia ib unit_interval]. rewrite I6. replace ((1 - 0) / 6) with (1 / 6) by field.
      set (r := 1 / 6 * gauss_point). replace (2 * PI * (0 + (INR i + 1 / 2) * (1 / 6) - r)) with ((PI / 6 + INR i * (PI / 3)) - 2 * PI * r) by field.
      replace (2 * PI * (0 + (INR i + 1 / 2) * (1 / 6) + r)) with ((PI / 6 + INR i * (PI / 3)) + 2 * PI * r) by field. set (A := PI / 6 + INR i * (PI / 3)). rewrite sin_minus, sin_plus. field. }
    unfold tab. cbn [seq map]. rewrite !M. cbn [INR].
    assert (S0 : sin (PI / 6 + 0 * (PI / 3)) = 1 / 2) by (rewrite Rmult_0_l, Rplus_0_r; apply sin_PI6).
    assert (S1 : sin (PI / 6 + 1 * (PI / 3)) = 1) by (replace (PI / 6 + 1 * (PI / 3)) with (PI / 2) by field; apply sin_PI2).
    assert (S2 : sin (PI / 6 + (1 + 1) * (PI / 3)) = 1 / 2) by (replace (PI / 6 + (1 + 1) * (PI / 3)) with (PI - PI / 6) by field; rewrite sin_PI_x; apply sin_PI6).
    assert (S3 : sin (PI / 6 + (1 + 1 + 1) * (PI / 3)) = - (1 / 2)) by (replace (PI / 6 + (1 + 1 + 1) * (PI / 3)) with (PI / 6 + PI) by field; rewrite neg_sin, sin_PI6; reflexivity).
    assert (S4 : sin (PI / 6 + (1 + 1 + 1 + 1) * (PI / 3)) = - 1) by (replace (PI / 6 + (1 + 1 + 1 + 1) * (PI / 3)) with (PI / 2 + PI) by field; rewrite neg_sin, sin_PI2; reflexivity).
    assert (S5 : sin (PI / 6 + (1 + 1 + 1 + 1 + 1) * (PI / 3)) = - (1 / 2)) by (replace (PI / 6 + (1 + 1 + 1 + 1 + 1) * (PI / 3)) with ((PI - PI / 6) + PI) by field; rewrite neg_sin, sin_PI_x, sin_PI6; reflexivity).
    rewrite S0, S1, S2, S3, S4, S5. repeat (f_equal; try field).
  - destruct (new_mesh_length _ _ _ Em) as [_ [_ ->]]. cbn [ia ib unit_interval]. rewrite I6. field.
Qed.
(** one call of the Lax-Friedrichs right hand side on six periodic cells *)
Definition burgers_node (l r s : R) : R := (l * l / 2 + r * r / 2) / 2 - s / 2 * (r - l).
Lemma burgers_flux l r : speed M_Scalar.Burgers l r <> 0 -> ro_flux (llf_out M_Scalar.Burgers l r) = burgers_node l r (Rmax l r).
Proof. intro N. unfold burgers_node. cbn [llf_out ro_flux]. unfold bar, speed in *. cbn [flux_prime scalar_flux] in *. field. exact N. Qed.
Lemma six_cells bc t u0 u1 u2 u3 u4 u5 : bc = {| bc_left := [CopyCell (-1)]; bc_right := [CopyCell 0]; bc_periodic := true |} ->
  0 < u0 -> 0 < u1 -> 0 < u2 -> u3 < 0 -> u4 < u3 -> u5 < 0 -> u4 < u5 -> u2 < u1 -> u0 < u1 ->
  fv_rhs (scalar_llf M_Scalar.Burgers) (1 / 6) bc t [u0; u1; u2; u3; u4; u5] = Ok
    [6 * (burgers_node u5 u0 u0 - burgers_node u0 u1 u1); 6 * (burgers_node u0 u1 u1 - burgers_node u1 u2 u1); 6 * (burgers_node u1 u2 u1 - burgers_node u2 u3 u2);
     6 * (burgers_node u2 u3 u2 - burgers_node u3 u4 u3); 6 * (burgers_node u3 u4 u3 - burgers_node u4 u5 u5); 6 * (burgers_node u4 u5 u5 - burgers_node u5 u0 u0)].
Proof.
  intros Hbc H0 H1 H2 H3 H4 H5 H6 H7 H8. set (e := [u5; u0; u1; u2; u3; u4; u5; u0]).
  assert (N : forall i, (i <= 6)%nat -> speed M_Scalar.Burgers (nth i e 0) (nth (S i) e 0) <> 0).
  { intros i Hi. unfold speed. cbn [flux_prime]. destruct i as [|[|[|[|[|[|[|i]]]]]]]; [..|lia]; cbn [nth e]; unfold Rmax; destruct (Rle_dec _ _); lra. }
  rewrite (llf_rhs M_Scalar.Burgers bc (1 / 6) t [u0; u1; u2; u3; u4; u5] e 6) by (auto; try lra; subst bc; reflexivity).
  f_equal. unfold tab. cbn [seq map].
  pose proof (fun i Hi => burgers_flux _ _ (N i Hi)) as B.
  rewrite (B 0%nat), (B 1%nat), (B 2%nat), (B 3%nat), (B 4%nat), (B 5%nat), (B 6%nat) by lia. cbn [nth e].
  rewrite (Rmax_right u5 u0), (Rmax_right u0 u1), (Rmax_left u1 u2), (Rmax_left u2 u3), (Rmax_left u3 u4), (Rmax_right u4 u5) by lra.
  repeat (f_equal; try field).
Qed.

(** The shock benchmark of the program (initial data sin(2 pi x) in [-1, 1], so with negative states) on six cells, default method (Heun), CFL number 1/2:
    after the first step there is a value below -1. *)
Theorem C69_burgers_shock_benchmark_refuted :
  ~ (forall eig finite b a lo hi c w us, eig2_works eig -> b = burgers_benchmark (shock_benchmark burgers_default_end) \/ b = burgers_benchmark (smooth_benchmark burgers_default_end) ->
     data_between b lo hi -> ssp_method (a_ode a) -> 0 < py_or (a_cfl a) default_cfl -> py_or (a_cfl a) default_cfl * hi <= 1 / 2 ->
     scalar_solver eig SLLF b a = Ok (c, w) -> (forall v t, ~ In (Reinit v t) us) ->
     forall v, shown (fst (use_run finite c us (w, []))) v -> in_range lo hi v).
Proof.
  intro H. destruct (C43_decomposition_exists 2) as [eig HE]. assert (HE2 : eig2_works eig) by (apply HE; lia).
  set (b := burgers_benchmark (shock_benchmark burgers_default_end)). set (a := {| a_mesh_size := Some 6%nat; a_cfl := Some (1 / 2); a_ode := None; a_history := false |}).
  assert (CFL : py_or (a_cfl a) default_cfl = 1 / 2). { cbn [a a_cfl py_or]. destruct (Reqb_spec (1 / 2) 0); [lra|reflexivity]. }
  pose proof (new_mesh_ok (sb_domain b) 6 ltac:(lia) ltac:(cbn; lra)) as Em. set (m := {| m_domain := sb_domain b; m_cells := _; m_step := _ |}) in Em.
  destruct (shock_averages eig m HE2 Em) as [Ea Es]. set (k := shock_kappa) in *. pose proof shock_kappa_bounds as K. fold k in K.
  set (u := [k / 2; k; k / 2; - (k / 2); - k; - (k / 2)]) in *.
  set (bc := {| bc_left := [CopyCell (-1)]; bc_right := [CopyCell 0]; bc_periodic := true |} : bconds R).
  assert (E : scalar_solver eig SLLF b a = Ok (scalar_config b a m u (fv_rhs (scalar_llf M_Scalar.Burgers) (m_step m) bc),
     new_solver (scalar_config b a m u (fv_rhs (scalar_llf M_Scalar.Burgers) (m_step m) bc)) (fun _ => u) 1 0 0)).
  { unfold scalar_solver, scalar_fv_solution. change (or_default (a_mesh_size a) default_mesh_size) with 6%nat. rewrite Em. cbn [bind].
    change (sb_initial b) with (fun x => sin (2 * PI * x)). rewrite Ea. reflexivity. }
  set (c := scalar_config _ _ _ _ _) in E. set (w := new_solver _ _ _ _ _) in E.
  assert (So : solution_of w = {| o_time := 0; o_sol := u |}) by reflexivity.
  assert (Rhs : forall t v, c_rhs c t v = fv_rhs (scalar_llf M_Scalar.Burgers) (1 / 6) bc t v) by (intros; rewrite <- Es; reflexivity).
  set (dt := 1 / 12).
  set (k1 := [6 * (burgers_node (- (k / 2)) (k / 2) (k / 2) - burgers_node (k / 2) k k); 6 * (burgers_node (k / 2) k k - burgers_node k (k / 2) k); 6 * (burgers_node k (k / 2) k - burgers_node (k / 2) (- (k / 2)) (k / 2));
     6 * (burgers_node (k / 2) (- (k / 2)) (k / 2) - burgers_node (- (k / 2)) (- k) (- (k / 2))); 6 * (burgers_node (- (k / 2)) (- k) (- (k / 2)) - burgers_node (- k) (- (k / 2)) (- (k / 2))); 6 * (burgers_node (- k) (- (k / 2)) (- (k / 2)) - burgers_node (- (k / 2)) (k / 2) (k / 2))]).
  assert (E1 : c_rhs c (0 + 0 * dt) u = Ok k1) by (rewrite Rhs; apply six_cells; auto; lra).
  set (c0 := k / 2 - 3 / 32 * k ^ 2). set (c1 := k - k ^ 2 / 4). set (c2 := k / 2 + 3 / 32 * k ^ 2). set (c3 := - (k / 2) + 3 / 32 * k ^ 2). set (c4 := - k - k ^ 2 / 8). set (c5 := - (k / 2) + 9 / 32 * k ^ 2).
  assert (E2 : vadd u (vscal dt (vscal 1 k1)) = [c0; c1; c2; c3; c4; c5]).
  { unfold u, k1, burgers_node, c0, c1, c2, c3, c4, c5, dt. cbn [vadd vscal list_VecOps map map2 cadd cscal R_CellOps]. repeat (f_equal; try field). }
  assert (P2 : 0 < k ^ 2 <= k) by nra.
  eassert (E3 : c_rhs c (0 + 1 * dt) (vadd u (vscal dt (vscal 1 k1))) = Ok _) by (rewrite E2, Rhs; apply six_cells; auto; unfold c0, c1, c2, c3, c4, c5; lra).
  pose proof (heun_two (c_rhs c) 0 u dt k1 _ E1 E3) as E4. set (y := {| o_time := 0 + dt; o_sol := axpy u dt _ |}) in E4.
  destruct (first_step (fun _ => true) c w dt y) as [s [_ [_ X]]].
  - split; reflexivity.
  - reflexivity.
  - unfold c, call_generator. cbn [scalar_config c_gen mesh_dependent_generator new_generator gen_adaptive gen_frozen gen_cfl]. rewrite CFL, Es. unfold dt. field.
  - unfold tol, dt. lra.
  - unfold tol, dt. cbn [c scalar_config c_end c_start b burgers_benchmark sb_end sb_start shock_benchmark b_end]. unfold burgers_default_end. lra.
  - rewrite So. exact E4.
  - reflexivity.
  - assert (Z : in_range (-1) 1 (o_sol y)).
    { rewrite <- X. apply (H eig (fun _ => true) b a (-1) 1 c w [Solve 1] HE2); auto.
      - split; [intros x _; apply SIN_bound|]. cbn. intros [Q|[]]. discriminate.
      - intros T HT. discriminate.
      - rewrite CFL. lra.
      - rewrite CFL. lra.
      - intros v' t [Q|[]]. discriminate.
      - left. reflexivity. }
    assert (N4 : nth 4 (o_sol y) 0 = - k - k ^ 2 / 16 + 1 / 4 * (burgers_node c3 c4 c3 - burgers_node c4 c5 c5)).
    { unfold y. cbn [o_sol wsum axpy]. unfold u, k1. cbn [vadd vscal list_VecOps map map2 cadd cscal R_CellOps nth]. unfold dt, burgers_node. field. }
    assert (In (nth 4 (o_sol y) 0) (o_sol y)) as I4 by (apply nth_In; cbn; lia).
    destruct (Z _ I4) as [Z1 _]. rewrite N4 in Z1. unfold burgers_node, c3, c4, c5 in Z1. clear - Z1 K P2.
    assert (k ^ 3 <= k ^ 2) by nra. nra.
Qed.
Print Assumptions C69_burgers_shock_benchmark_refuted.

Example C69_ex : exists eig c w, let b := box_benchmark "burgers" ["outflow"%string] [1; 3; 2] 10 in
  let a := {| a_mesh_size := Some 3%nat; a_cfl := Some (1 / 6); a_ode := Some ssp3; a_history := true |} in
  eig2_works eig /\ scalar_solver eig SMCL b a = Ok (c, w) /\ data_between b 1 3 /\ range_ok M_Scalar.Burgers 1 /\ ssp_method (a_ode a) /\
  0 < py_or (a_cfl a) default_cfl /\ py_or (a_cfl a) default_cfl * max_speed M_Scalar.Burgers 3 <= cells_per_step SMCL.
Proof.
  destruct (C43_decomposition_exists 2) as [eig HE]. assert (HE2 : eig2_works eig) by (apply HE; lia).
  set (b := box_benchmark "burgers" ["outflow"%string] [1; 3; 2] 10). set (a := {| a_mesh_size := Some 3%nat; a_cfl := Some (1 / 6); a_ode := Some ssp3; a_history := true |}).
  destruct (C69_scalar_solvers_can_be_built eig SMCL b a M_Scalar.Burgers "outflow" "outflow" HE2) as [c [w [E _]]]; try (cbn; tauto); [cbn; lra|].
  assert (C : py_or (a_cfl a) default_cfl = 1 / 6). { cbn [a a_cfl py_or]. destruct (Reqb_spec (1 / 6) 0); [lra|reflexivity]. }
  exists eig, c, w. cbv zeta. rewrite C. split; [exact HE2|]. split; [exact E|]. split; [|split; [cbn; lra|split; [intros T HT; injection HT as <-; cbn; auto|split; [lra|cbn; lra]]]].
  split; [|cbn; intros [Q|[]]; discriminate]. intros x Hx. cbn [b box_benchmark sb_domain ia ib length] in Hx.
  assert (I3 : INR 3 = 3) by (cbn; ring). rewrite I3 in Hx. cbn [b box_benchmark sb_initial].
  destruct (Rlt_dec x 1); [rewrite (box_data_at _ 0) by (cbn; lra); cbn; lra|]. destruct (Rlt_dec x 2); [rewrite (box_data_at _ 1) by (cbn; lra); cbn; lra|].
  rewrite (box_data_at _ 2) by (cbn; lra). cbn. lra.
Qed.
Example C70_ex : exists eig c w, eig2_works eig /\
  scalar_solver eig SCentral (burgers_benchmark (smooth_benchmark burgers_default_end)) {| a_mesh_size := None; a_cfl := None; a_ode := Some rk8; a_history := true |} = Ok (c, w) /\
  sb_conditions (burgers_benchmark (smooth_benchmark burgers_default_end)) = ["periodic"%string].
Proof.
  destruct (C43_decomposition_exists 2) as [eig HE]. assert (HE2 : eig2_works eig) by (apply HE; lia). exists eig.
  destruct (C69_scalar_solvers_can_be_built eig SCentral (burgers_benchmark (smooth_benchmark burgers_default_end)) {| a_mesh_size := None; a_cfl := None; a_ode := Some rk8; a_history := true |} M_Scalar.Burgers "periodic" "periodic" HE2) as [c [w [E _]]]; try (cbn; tauto).
  - cbn. pose proof PI_RGT_0. lra.
  - exists c, w. auto.
Qed.
