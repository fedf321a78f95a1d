(** C20, C21, C22, C32: core/riemann_solver.py and finite_volume/numerical_flux.py *)
From Coq Require Import Reals List ZArith Arith String Lia Lra.
From Verif Require Import Prelude L_Prelude M_Boundary S_Boundary L_Boundary M_Flux S_Flux L_Flux
  M_ODE S_ODE L_ODE M_Scalar.
Import ListNotations.
Open Scope R_scope.
Notation length := List.length.

(** ** C20
    The right hand side of cell i is (flux in through its left node) - (flux out
    through its right node) divided by the cell length, and the sum telescopes. *)
Theorem C20_update_is_flux_balance {W} `{CellLaws W} :
  forall wall conds il ir (bc : bconds W) nf dx t (u v : list W) k,
  get_boundary_conditions wall conds (Nat.div (nf_dim nf) 2) il ir = Ok bc -> (2 <= nf_dim nf)%nat ->
  one_per_node nf -> single_valued k nf ->
  fv_rhs nf dx bc t u = Ok v ->
  length v = length u /\
  exists a fl fr, get_node_neighbours bc u (Nat.div (nf_dim nf) 2) (Some t) = Ok a /\
    nf_call nf a = Ok (fl, fr) /\
    (forall i, (i < length u)%nat ->
       ccoord k (nth i v czero) = (ccoord k (nth i fr czero) - ccoord k (nth (S i) fr czero)) / dx) /\
    dx * total k v = ccoord k (nth 0 fr czero) - ccoord k (nth (length u) fr czero).
Proof.
  intros wall conds il ir bc nf dx t u v k B Hd O S E.
  destruct (fv_rhs_inv _ _ _ _ _ _ E) as [a [fl [fr [E1 [E2 E3]]]]].
  assert (Hr : (1 <= Nat.div (nf_dim nf) 2)%nat) by (apply Nat.div_le_lower_bound; lia).
  destruct (fv_neighbours_shape _ _ _ _ _ _ _ _ B Hr _ E1) as [_ Fa].
  destruct (O _ _ _ _ Fa E2) as [L1 L2].
  destruct (cells_from_nodes_spec _ _ _ _ _ E3 L1 L2) as [Hdx [Lv Vv]]. split; auto.
  exists a, fl, fr. repeat split; auto.
  - intros i Hi. rewrite Vv by auto. rewrite ccoord_scal, ccoord_add.
    rewrite (S _ _ _ _ Fa E2 (Datatypes.S i)) by lia. field. auto.
  - apply (cells_total dx fl fr v (length u) k E3 L1 L2). intros i Hi. eapply S; eauto.
Qed.
Print Assumptions C20_update_is_flux_balance.

(** The hypotheses hold for all fluxes of numerical_flux.py *)
Theorem C20_fluxes_are_single_valued {W} `{CellLaws W} :
  (forall (rs : riemann W) k, one_per_node (lax_friedrichs rs) /\ single_valued k (lax_friedrichs rs)) /\
  (forall (f : W -> result W) k, one_per_node (central f) /\ single_valued k (central f)) /\
  (forall gamma dx k, one_per_node (linear_antidiffusive (W := W) gamma dx) /\ single_valued k (linear_antidiffusive (W := W) gamma dx)) /\
  (forall (nf : nflux W) k, one_per_node nf -> single_valued k nf ->
     one_per_node (arbitrary_input nf) /\ single_valued k (arbitrary_input nf)) /\
  (forall (nf fc : nflux W) k, one_per_node nf -> single_valued k nf -> one_per_node fc -> single_valued k fc ->
     one_per_node (corrected nf fc) /\ single_valued k (corrected nf fc)).
Proof.
  repeat match goal with |- _ /\ _ => split end.
  - intros rs k. destruct (good_ext _ _ (lax_friedrichs_two_point rs)) as [A [B _]].
    split; [apply A; apply two_point_one_per_node|apply B; apply two_point_single_valued].
  - intros f k. split; [apply (two_point_one_per_node (central_at f))|apply (two_point_single_valued (central_at f))].
  - intros gamma dx k. destruct (good_ext _ _ (antidiffusive_two_point (W:=W) gamma dx)) as [A [B _]].
    split; [apply A; apply two_point_one_per_node|apply B; apply two_point_single_valued].
  - intros nf k O S. destruct (arbitrary_good nf) as [A [B _]]. auto.
  - intros nf fc k O S O' S'. destruct (corrected_good nf fc O O') as [A [B _]]. auto.
Qed.
Print Assumptions C20_fluxes_are_single_valued.

Example C20_ex : exists bc v,
  get_boundary_conditions None ["inflow"; "outflow"]%string 1 (Some (fun t => t)) None = Ok bc /\
  fv_rhs (scalar_central Advection) (1/2) bc 4 [1; 3] = Ok v /\
  1/2 * total true v = (4 + 1) / 2 - (3 + 3) / 2.
Proof.
  eexists; eexists. split; [reflexivity|]. split.
  - unfold fv_rhs, get_node_neighbours. cbn -[rdiv Rdiv]. unfold cells_from_nodes. rewrite rdiv_ne by lra. reflexivity.
  - unfold total. cbn. field.
Qed.

(** ** C21 *)
Theorem C21_periodic_runs_conserve_mass {W} `{CellLaws W} :
  forall wall il ir (bc : bconds W) nf dx T dts t0 (u0 : list W) o k,
  get_boundary_conditions wall ["periodic"%string] (Nat.div (nf_dim nf) 2) il ir = Ok bc -> (2 <= nf_dim nf)%nat ->
  one_per_node nf -> single_valued k nf -> local_flux k nf ->
  (Nat.div (nf_dim nf) 2 <= length u0)%nat ->
  In T [euler; heun; ssp3; rk8] ->
  rk_run_e (fv_rhs nf dx bc) T dts {| o_time := t0; o_sol := u0 |} = Ok o ->
  length (o_sol o) = length u0 /\ dx * total k (o_sol o) = dx * total k u0.
Proof.
  intros wall il ir bc nf dx T dts t0 u0 o k B D O S L U HT E.
  destruct (fv_run_periodic_total wall il ir bc nf dx T dts t0 u0 o k) as [A1 A2]; auto.
  - apply tableau_rows; auto.
  - split; auto. rewrite A2. reflexivity.
Qed.
Print Assumptions C21_periodic_runs_conserve_mass.

(** nodes that see the same cells get the same flux, for all fluxes of numerical_flux.py *)
Theorem C21_fluxes_are_local {W} `{CellLaws W} :
  (forall (rs : riemann W) k, local_flux k (lax_friedrichs rs)) /\
  (forall (f : W -> result W) k, local_flux k (central f)) /\
  (forall gamma dx k, local_flux k (linear_antidiffusive (W := W) gamma dx)) /\
  (forall (nf fc : nflux W) k, one_per_node nf -> local_flux k nf -> one_per_node fc -> local_flux k fc ->
     local_flux k (corrected nf fc)).
Proof.
  repeat match goal with |- _ /\ _ => split end.
  - intros rs k. destruct (good_ext _ _ (lax_friedrichs_two_point rs)) as [_ [_ A]].
    apply A; apply two_point_local.
  - intros f k. apply (two_point_local (central_at f)).
  - intros gamma dx k. destruct (good_ext _ _ (antidiffusive_two_point (W:=W) gamma dx)) as [_ [_ A]].
    apply A; apply two_point_local.
  - intros nf fc k O S O' S'. destruct (corrected_good nf fc O O') as [_ [_ B]]. auto.
Qed.
Print Assumptions C21_fluxes_are_local.

(** The schemes the program offers for advection and Burgers: local Lax-Friedrichs,
    central, and central with linear antidiffusion, at any step sizes. *)
Theorem C21_scalar_schemes_conserve_mass :
  forall p gamma dx wall il ir (bc : bconds R) nf T dts t0 (u0 : list R) o,
  In nf [scalar_llf p; scalar_central p; corrected (scalar_llf p) (linear_antidiffusive gamma dx);
         corrected (scalar_central p) (linear_antidiffusive gamma dx)] ->
  get_boundary_conditions wall ["periodic"%string] 1 il ir = Ok bc ->
  u0 <> [] -> In T [euler; heun; ssp3; rk8] ->
  rk_run_e (fv_rhs nf dx bc) T dts {| o_time := t0; o_sol := u0 |} = Ok o ->
  length (o_sol o) = length u0 /\ dx * rsum (o_sol o) = dx * rsum u0.
Proof.
  intros p gamma dx wall il ir bc nf T dts t0 u0 o Hn B Hu HT E.
  assert (Et : forall l : list R, total true l = rsum l).
  { intro l. unfold total. simpl. rewrite map_id. reflexivity. }
  rewrite <- !Et.
  assert (D : nf_dim nf = 2%nat /\ one_per_node nf /\ single_valued true nf /\ local_flux true nf).
  { destruct (C20_fluxes_are_single_valued (W := R)) as [A1 [A2 [A3 [_ A5]]]].
    destruct (C21_fluxes_are_local (W := R)) as [B1 [B2 [B3 B4]]].
    simpl in Hn. destruct Hn as [<-|[<-|[<-|[<-|[]]]]]; (split; [reflexivity|]).
    - destruct (A1 (scalar_riemann p) true). repeat match goal with |- _ /\ _ => split end; auto. apply B1.
    - destruct (A2 (fun u => Ok (scalar_flux p u)) true). repeat match goal with |- _ /\ _ => split end; auto. apply B2.
    - destruct (A1 (scalar_riemann p) true). destruct (A3 gamma dx true).
      destruct (A5 (scalar_llf p) (linear_antidiffusive gamma dx) true); auto. repeat match goal with |- _ /\ _ => split end; auto. apply B4; auto; apply B1 || apply B3.
    - destruct (A2 (fun u => Ok (scalar_flux p u)) true). destruct (A3 gamma dx true).
      destruct (A5 (scalar_central p) (linear_antidiffusive gamma dx) true); auto. repeat match goal with |- _ /\ _ => split end; auto.
      apply B4; auto; apply B2 || apply B3. }
  destruct D as [D1 [D2 [D3 D4]]].
  eapply C21_periodic_runs_conserve_mass; eauto; rewrite ?D1; eauto.
  change (Nat.div 2 2) with 1%nat. destruct u0; [congruence|simpl; lia].
Qed.
Print Assumptions C21_scalar_schemes_conserve_mass.
(** the hypotheses can be met: the run succeeds (two steps of size 1/4 of the
    upwind scheme); see also C23 for the success of arbitrary runs. *)
Example C21_ex : exists bc v,
  get_boundary_conditions None ["periodic"%string] 1 None None = Ok bc /\
  fv_rhs (scalar_llf Advection) (1/2) bc 0 [1; 3; 5] = Ok v /\ v <> [0; 0; 0].
Proof.
  eexists; eexists. split; [reflexivity|]. split.
  - unfold fv_rhs, get_node_neighbours, scalar_llf, lax_friedrichs, rs_solve_all, rs_solve.
    cbn -[rdiv Rdiv Rmax Rmult Rplus]. unfold scalar_wave_speed. cbn -[rdiv Rdiv Rmax Rmult Rplus].
    rewrite Rmax_left by lra. rewrite rdiv_ne by lra.
    cbn -[rdiv Rdiv Rmax Rmult Rplus]. unfold cells_from_nodes.
    rewrite rdiv_ne by lra. cbn -[Rdiv Rmax Rmult Rplus]. reflexivity.
  - intro E. apply (f_equal (fun l => nth 0 l 0)) in E. cbn [nth] in E. unfold csub, copp in E. cbn in E. field_simplify in E. lra.
Qed.

(** ** C22 *)
Theorem C22_riemann_solver_relations {W} `{CellLaws W} :
  forall (rs : riemann W) ul ur o, rs_solve rs ul ur = Ok o ->
  rs_flux rs ul = Ok (ro_fl o) /\ rs_flux rs ur = Ok (ro_fr o) /\ rs_speed rs ul ur = (ro_sl o, ro_sr o) /\
  ro_sl o <> ro_sr o /\
  forall k, let F := ccoord k (ro_flux o) in let st := ccoord k (ro_state o) in
  let fl := ccoord k (ro_fl o) in let fr := ccoord k (ro_fr o) in
  let sl := ro_sl o in let sr := ro_sr o in
  (* Rankine-Hugoniot across both waves *)
  F - fl = sl * (st - ccoord k ul) /\ fr - F = sr * (ccoord k ur - st) /\
  (* the intermediate state is the average over the Riemann fan *)
  (sr - sl) * st = sr * ccoord k ur - sl * ccoord k ul - (fr - fl) /\
  (* symmetric speeds: local Lax-Friedrichs *)
  (sl = - sr -> F = (fl + fr) / 2 - sr / 2 * (ccoord k ur - ccoord k ul)) /\
  (* all waves move to one side: upwind *)
  (sl = 0 -> F = fl) /\ (sr = 0 -> F = fr).
Proof.
  intros rs ul ur o E. unfold rs_solve in E. inv_bind E. inv_bind E.
  destruct (rs_speed rs ul ur) as [sl sr] eqn:Es. inv_bind E. apply rdiv_ok in E2 as [Hd ->].
  injection E as <-. simpl. repeat match goal with |- _ /\ _ => split end; auto; try lra.
  intro k. cbv zeta. rewrite !ccoord_sub, !ccoord_scal, !ccoord_sub, !ccoord_scal, !ccoord_sub, !ccoord_scal.
  repeat match goal with |- _ /\ _ => split end; try (field; lra).
  - intros ->. assert (sr <> 0) by lra. field. auto.
  - intros ->. ring.
  - intros ->. field. lra.
Qed.
Print Assumptions C22_riemann_solver_relations.
Theorem C22_riemann_solver_consistent {W} `{CellLaws W} :
  forall (rs : riemann W) u o, rs_solve rs u u = Ok o ->
  rs_flux rs u = Ok (ro_flux o) /\ ro_state o = u.
Proof.
  intros rs u o E. destruct (C22_riemann_solver_relations rs u u o E) as [A1 [A2 [_ [Hn R]]]].
  assert (ro_fl o = ro_fr o) by congruence.
  assert (Hst : ro_state o = u).
  { apply ccoord_ext. intro k. specialize (R k). cbv zeta in R. destruct R as [_ [_ [R _]]].
    rewrite H1 in R. apply (Rmult_eq_reg_l (ro_sr o - ro_sl o)); lra. }
  split; auto. rewrite A1. f_equal. apply ccoord_ext. intro k. specialize (R k). cbv zeta in R. destruct R as [R _].
  rewrite Hst in R. lra.
Qed.
Print Assumptions C22_riemann_solver_consistent.
(** it fails only if the flux fails or the wave speeds coincide *)
Theorem C22_riemann_solver_total {W} `{CellLaws W} : forall (rs : riemann W) ul ur fl fr sl sr,
  rs_flux rs ul = Ok fl -> rs_flux rs ur = Ok fr -> rs_speed rs ul ur = (sl, sr) ->
  ((exists o, rs_solve rs ul ur = Ok o) <-> sl <> sr).
Proof.
  intros rs ul ur fl fr sl sr E1 E2 E3. unfold rs_solve. rewrite E1, E2, E3. cbn [bind]. split.
  - intros [o E] ->. rewrite Rminus_diag_eq, rdiv_0 in E by auto. discriminate.
  - intro Hn. rewrite rdiv_ne by lra. cbn [bind]. eauto.
Qed.
Print Assumptions C22_riemann_solver_total.
(** For advection the local Lax-Friedrichs flux is the exact upwind flux *)
Theorem C22_advection_upwind : forall ul ur, exists o,
  rs_solve (scalar_riemann Advection) ul ur = Ok o /\ ro_flux o = ul /\ ro_state o = ul.
Proof.
  intros ul ur. unfold rs_solve, scalar_riemann, scalar_wave_speed. cbn [rs_flux rs_speed bind flux_prime].
  rewrite Rmax_left by lra. rewrite rdiv_ne by lra. cbn [bind]. eexists. split; [reflexivity|].
  simpl. unfold scalar_flux. unfold csub, copp. simpl. split; field.
Qed.
Print Assumptions C22_advection_upwind.
Example C22_ex : exists o, rs_solve (scalar_riemann Burgers) 1 3 = Ok o /\ ro_flux o = -1/2 /\ ro_state o = 4/3.
Proof.
  unfold rs_solve, scalar_riemann, scalar_wave_speed. cbn [rs_flux rs_speed bind flux_prime].
  rewrite Rmax_right by lra. rewrite rdiv_ne by lra. cbn [bind]. eexists. split; [reflexivity|].
  simpl. unfold csub, copp. simpl. split; field.
Qed.

(** ** C32 *)
(** get_required_values: the central [dim] of the given arrays *)
Theorem C32_required_values {W} : forall dim (values : list (list W)),
  (Nat.even dim = true) ->
  (get_required_values dim values = Err AssertionError <->
     (length values < dim)%nat \/ Nat.even (length values) = false) /\
  ((dim <= length values)%nat -> Nat.even (length values) = true ->
   exists r front back, get_required_values dim values = Ok r /\ values = front ++ r ++ back /\
     length r = dim /\ length front = length back).
Proof.
  intros dim values Hd. unfold get_required_values. split.
  - destruct (Nat.leb_spec dim (length values)); cbn [negb].
    + destruct (Nat.even (length values)); cbn [negb]; split; intro; try discriminate; auto.
      destruct H0; [lia|discriminate].
    + split; auto.
  - intros Hl He. destruct (Nat.leb_spec dim (length values)); [|lia]. rewrite He. cbn [negb].
    set (dl := Nat.div (length values - dim) 2).
    assert (E2 : (length values = dim + 2 * dl)%nat).
    { apply Nat.even_spec in Hd as [a Ha]. apply Nat.even_spec in He as [b Hb].
      unfold dl. rewrite Ha, Hb. replace (2 * b - 2 * a)%nat with ((b - a) * 2)%nat by lia.
      rewrite Nat.div_mul by lia. lia. }
    exists (slice values dl (length values - dl)), (firstn dl values), (skipn (dl + dim) values).
    split; [reflexivity|]. unfold slice.
    replace (length values - dl - dl)%nat with dim by lia.
    repeat split.
    + rewrite <- (firstn_skipn dl values) at 1. f_equal.
      rewrite <- (firstn_skipn dim (skipn dl values)) at 1. f_equal.
      apply (list_ext []).
      * rewrite !skipn_length. lia.
      * intros i Hi. rewrite !nth_skipn. f_equal. lia.
    + rewrite firstn_length, skipn_length. lia.
    + rewrite firstn_length, skipn_length. lia.
Qed.
Print Assumptions C32_required_values.

(** each wrapped flux of a corrected flux sees the innermost arrays it needs, and
    the results are added entry by entry *)
Theorem C32_corrected_flux_adds {W} `{CellLaws W} : forall (nf fc : nflux W) a fl fr,
  nf_call (corrected nf fc) a = Ok (fl, fr) ->
  nf_dim (corrected nf fc) = Nat.max (nf_dim nf) (nf_dim fc) /\
  exists a1 a2 fl1 fr1 fl2 fr2,
    get_required_values (nf_dim nf) a = Ok a1 /\ get_required_values (nf_dim fc) a = Ok a2 /\
    nf_call nf a1 = Ok (fl1, fr1) /\ nf_call fc a2 = Ok (fl2, fr2) /\
    (length fl1 = length fl2 -> forall i, (i < length fl1)%nat -> nth i fl czero = cadd (nth i fl1 czero) (nth i fl2 czero)) /\
    (length fr1 = length fr2 -> forall i, (i < length fr1)%nat -> nth i fr czero = cadd (nth i fr1 czero) (nth i fr2 czero)).
Proof.
  intros nf fc a fl fr E. split; [reflexivity|]. cbn [corrected nf_call] in E.
  inv_bind E. inv_bind E. destruct a0 as [fl1 fr1], a1 as [fl2 fr2].
  cbn [arbitrary_input nf_call] in E0, E1. inv_bind E0. inv_bind E1. injection E as <- <-.
  exists a0, a1, fl1, fr1, fl2, fr2. repeat split; auto; intros El i Hi; cbn [fst snd];
    apply (nth_map2 cadd _ _ i czero czero); lia.
Qed.
Print Assumptions C32_corrected_flux_adds.
(** surplus arrays on both sides do not change the result *)
Theorem C32_arbitrary_input {W} : forall (nf : nflux W) front mid back,
  length mid = nf_dim nf -> Nat.even (nf_dim nf) = true -> length front = length back ->
  nf_call (arbitrary_input nf) (front ++ mid ++ back) = nf_call nf mid.
Proof.
  intros nf front mid back Hm He Hf. cbn [arbitrary_input nf_call].
  destruct (proj2 (C32_required_values (nf_dim nf) (front ++ mid ++ back) He)) as [r [f [b [E [Ev [Hr Hfb]]]]]].
  - rewrite !app_length. lia.
  - rewrite !app_length, Hm. apply Nat.even_spec. apply Nat.even_spec in He as [x Hx].
    exists (x + length front)%nat. lia.
  - rewrite E. cbn [bind]. f_equal.
    assert (length f = length front).
    { apply (f_equal (@List.length _)) in Ev. rewrite !app_length in Ev. lia. }
    apply (f_equal (fun l => firstn (nf_dim nf) (skipn (length front) l))) in Ev.
    rewrite <- H in Ev at 2. rewrite !skipn_app, !skipn_all, !Nat.sub_diag in Ev. cbn [app skipn] in Ev.
    rewrite !firstn_app, Hm, Hr, Nat.sub_diag in Ev. cbn [firstn] in Ev. rewrite !app_nil_r in Ev.
    rewrite !firstn_all2 in Ev by lia. auto.
Qed.
Print Assumptions C32_arbitrary_input.

(** the history wrapper changes no result and records every successful call, in order *)
Fixpoint hf_calls {W} (h : hflux W) (calls : list (list (list W))) : hflux W * list (result (list W * list W)) :=
  match calls with
  | [] => (h, [])
  | a :: l => let '(h1, r) := hf_call h a in let '(h2, rs) := hf_calls h1 l in (h2, r :: rs)
  end.
Fixpoint oks {A} (l : list (result A)) : list A :=
  match l with [] => [] | Ok a :: l' => a :: oks l' | Err _ :: l' => oks l' end.
Definition recorded {W} (h : option (list (list W))) : list (list W) := match h with None => [] | Some l => l end.
Theorem C32_history {W} : forall (nf : nflux W) calls h rs,
  hf_calls (with_history nf) calls = (h, rs) ->
  rs = map (nf_call nf) calls /\ recorded (hf_left h) = map fst (oks rs) /\ recorded (hf_right h) = map snd (oks rs).
Proof.
  intros nf calls.
  assert (G : forall l h0 h rs, hf_flux h0 = nf -> hf_calls h0 l = (h, rs) ->
    rs = map (nf_call nf) l /\ recorded (hf_left h) = recorded (hf_left h0) ++ map fst (oks rs) /\
    recorded (hf_right h) = recorded (hf_right h0) ++ map snd (oks rs)).
  { induction l as [|a l IH]; intros h0 h rs Hf E; cbn [hf_calls] in E.
    - injection E as <- <-. cbn. rewrite !app_nil_r. auto.
    - unfold hf_call in E. rewrite Hf in E. destruct (nf_call nf a) as [[fl fr]|e] eqn:Ea.
      + destruct (hf_calls _ l) as [h2 rs'] eqn:E2. injection E as <- <-.
        apply IH in E2; [|cbn; congruence]. destruct E2 as [-> [A B]]. cbn [map oks]. rewrite Ea. split; [reflexivity|].
        cbn [hf_left hf_right] in A, B. rewrite A, B. cbn [oks map fst snd].
        destruct (hf_left h0), (hf_right h0); cbn [hf_append recorded]; rewrite <- ?app_assoc; auto.
      + destruct (hf_calls _ l) as [h2 rs'] eqn:E2. injection E as <- <-.
        destruct (IH _ _ _ Hf E2) as [-> [A B]]. cbn [map oks]. rewrite Ea. auto. }
  intros h rs E. apply (G calls (with_history nf)); auto.
Qed.
Print Assumptions C32_history.

(** get_dof_vector rebuilds the extended vector from the neighbour arrays *)
Theorem C32_dof_vector_is_extended_vector {W} (d : W) : forall (b : bconds W) v time e m a,
  extended b v time = Ok e -> (1 <= m)%nat -> (2 * m <= length e)%nat ->
  get_node_neighbours b v m time = Ok a -> get_dof_vector a = Ok e.
Proof.
  intros b v time e m a E Hm Hl Ea.
  destruct (node_neighbours_of_extended d b v time e m E Hm Hl) as [a' [Ea' [La Va]]].
  rewrite Ea in Ea'. injection Ea' as <-.
  destruct a as [|v0 rest]; [simpl in La; lia|]. unfold get_dof_vector.
  destruct (mapM_exists (fun v => pyget v (-1)) rest) as [l Hlast].
  { intros w Hw. destruct (In_nth _ _ [] Hw) as [i [Hi Ei]].
    assert (Ew : w = nth (S i) (v0 :: rest) []) by (symmetry; exact Ei).
    rewrite Va in Ew by (simpl in La; lia). rewrite Ew. eexists. apply (pyget_m1 (tab _ _) d). rewrite tab_length. lia. }
  rewrite Hlast. cbn [bind]. f_equal.
  assert (L0 : length v0 = (length e - 2 * m + 1)%nat).
  { change v0 with (nth 0 (v0 :: rest) []). rewrite Va by lia. apply tab_length. }
  assert (Ll : length l = length rest) by (apply (mapM_nth _ _ _ [] d Hlast)).
  apply (list_ext d).
  - rewrite app_length, Ll. simpl in La. lia.
  - intros i Hi. rewrite app_length, Ll, L0 in Hi. simpl in La. destruct (Nat.lt_ge_cases i (length v0)).
    + rewrite app_nth1 by auto. change v0 with (nth 0 (v0 :: rest) []). rewrite Va by lia.
      rewrite nth_tab by lia. f_equal. lia.
    + rewrite app_nth2 by auto. 
      pose proof (proj2 (mapM_nth _ _ _ [] d Hlast) (i - length v0)%nat ltac:(lia)) as Hn.
      change (nth (i - length v0) rest []) with (nth (S (i - length v0)) (v0 :: rest) []) in Hn.
      rewrite Va in Hn by (simpl; lia). rewrite (pyget_m1 (tab _ _) d) in Hn by (rewrite tab_length; lia).
      rewrite tab_length in Hn. rewrite nth_tab in Hn by lia. injection Hn as <-. f_equal. lia.
Qed.
Print Assumptions C32_dof_vector_is_extended_vector.
Example C32_ex : get_required_values 2 [[1]; [2]; [3]; [4]] = Ok [[2]; [3]] /\
  get_required_values 2 [[1]; [2]; [3]] = Err AssertionError /\
  get_dof_vector [[7; 7; 1; 2]; [7; 1; 2; 3]; [1; 2; 3; 3]; [2; 3; 3; 3]] = Ok [7; 7; 1; 2; 3; 3; 3].
Proof. repeat split. Qed.
