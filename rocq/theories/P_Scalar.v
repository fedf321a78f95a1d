(** C23, C24, C25, C35: scalar conservation laws (finite_volume/scalar),
    finite_volume/time_stepping.py, core/index_mapping.py, core/local_bounds.py *)
From Coq Require Import Reals List ZArith Arith String Lia Lra.
From Verif Require Import Prelude L_Prelude M_Boundary S_Boundary L_Boundary M_Flux S_Flux L_Flux
  M_Neighbours S_Neighbours L_Neighbours M_Scalar S_Scalar L_Scalar M_ODE S_ODE L_ODE.
Import ListNotations.
Open Scope R_scope.
Notation length := List.length.

(** ** C35, finite volume part *)
Theorem C35_fv_neighbours_share_a_node : forall n periodic,
  (n = 0%nat -> fv_neighbours n periodic = Err IndexError) /\
  ((1 <= n)%nat -> exists rows, fv_neighbours n periodic = Ok rows /\ length rows = n /\
   forall i, (i < n)%nat -> exists s, neighbours_call (neighbours_array rows) (Z.of_nat i) = Ok s /\ NoDup s /\
   forall z, In z s <-> exists j, z = Z.of_nat j /\ (j < n)%nat /\ share_node n periodic i j).
Proof.
  intros n periodic. split; [intros ->; reflexivity|]. intro Hn.
  destruct (fv_neighbours n periodic) as [rows|e] eqn:E; [|destruct n; [lia|discriminate]].
  destruct (fv_neighbours_rows n periodic rows E) as [_ [Lr Vr]].
  exists rows. split; auto. split; auto. intros i Hi.
  destruct (neighbours_array_rows rows i) as [La [_ A]]; [lia|].
  unfold neighbours_call. rewrite (pyget_nonneg _ i []) by (rewrite La; lia). cbn [bind].
  eexists. split; [reflexivity|]. destruct (set_of_list_spec (nth i (neighbours_array rows) [])) as [N I].
  split; auto. intro z. rewrite I, A, Vr by auto. unfold share_node, cell_nodes.
  split.
  - intro H.
    assert (Q : (0 <= z < Z.of_nat n)%Z /\ ((Z.abs (z - Z.of_nat i) <= 1)%Z \/
      periodic = true /\ (i = 0%nat /\ z = (Z.of_nat n - 1)%Z \/ i = (n - 1)%nat /\ z = 0%Z))).
    { destruct H as [H|[-> _]]; [exact H|]. split; [lia|left; lia]. }
    clear H. exists (Z.to_nat z). split; [lia|]. split; [lia|]. destruct Q as [Q1 [Q2|[-> Q2]]].
    + assert (Z.to_nat z = i \/ Z.to_nat z = S i \/ S (Z.to_nat z) = i)%nat as [Qz|[Qz|Qz]] by lia.
      * rewrite Qz. exists i. simpl; auto.
      * rewrite Qz. exists (S i). split; [|simpl; auto]. destruct (Nat.eqb_spec (S i) n); [lia|]. rewrite Bool.andb_false_r. simpl; auto.
      * exists (S (Z.to_nat z)). rewrite <- Qz at 1. split; [simpl; auto|]. destruct (Nat.eqb_spec (S (Z.to_nat z)) n); [lia|]. rewrite Bool.andb_false_r. simpl; auto.
    + destruct Q2 as [[-> ->]|[-> ->]].
      * exists 0%nat. split; [simpl; auto|]. replace (S (Z.to_nat (Z.of_nat n - 1))) with n by lia.
        rewrite Nat.eqb_refl. simpl; auto.
      * exists 0%nat. split; [|simpl; auto]. replace (S (n - 1)) with n by lia. rewrite Nat.eqb_refl. simpl; auto.
  - intros [j [-> [Hj [k [K1 K2]]]]]. left. split; [lia|].
    cbn [In] in K1, K2. destruct periodic; cbn [andb] in K1, K2.
    + destruct (Nat.eqb_spec (S i) n), (Nat.eqb_spec (S j) n); lia.
    + left. lia.
Qed.
Print Assumptions C35_fv_neighbours_share_a_node.
Theorem C35_sharing_is_symmetric : forall n periodic i j,
  share_node n periodic i i /\ (share_node n periodic i j -> share_node n periodic j i).
Proof.
  intros. split; [exists i; simpl; auto|]. intros [k [A B]]. exists k; auto.
Qed.
(** LocalMaximum/LocalMinimum over any neighbour array with valid, non-empty rows *)
Theorem C35_local_bounds_are_extrema : forall array v,
  (forall i z, (i < length array)%nat -> In z (nth i array []) -> (0 <= z < Z.of_nat (length v))%Z) ->
  (forall i, (i < length array)%nat -> nth i array [] <> []) ->
  exists M m, local_maximum array v = Ok M /\ local_minimum array v = Ok m /\
  length M = length array /\ length m = length array /\
  forall i, (i < length array)%nat ->
    (forall z, In z (nth i array []) -> nth i m 0 <= nth (Z.to_nat z) v 0 <= nth i M 0) /\
    (exists z, In z (nth i array []) /\ nth i M 0 = nth (Z.to_nat z) v 0) /\
    (exists z, In z (nth i array []) /\ nth i m 0 = nth (Z.to_nat z) v 0).
Proof. exact local_extrema. Qed.
Print Assumptions C35_local_bounds_are_extrema.
Example C35_ex : fv_neighbours 4 true = Ok [[0; 1; 3]; [0; 1; 2]; [1; 2; 3]; [2; 3; 0]]%Z /\
  (bind (fv_neighbours 3 false) (fun r => Ok (neighbours_array r)) = Ok [[0; 1; 0]; [0; 1; 2]; [1; 2; 2]]%Z).
Proof. split; reflexivity. Qed.

(** ** C23 *)
(** dt up to OptimalTimeStep, boundary conditions that do not depend on time *)
Theorem C23_llf_local_maximum_principle :
  forall p conds (bc : bconds R) il ir dx t u e v opt dt,
  get_boundary_conditions None conds 1 il ir = Ok bc ->
  extended bc u None = Ok e -> states_ok p e -> 0 < dx ->
  optimal_time_step (scalar_riemann p) bc dx u = Ok opt -> 0 <= dt <= opt ->
  fv_rhs (scalar_llf p) dx bc t u = Ok v ->
  length v = length u /\
  forall i, (i < length u)%nat -> in_local_bounds e i (nth i (euler_update u v dt) 0).
Proof.
  intros p conds bc il ir dx t u e v opt dt B E Hst Hd Ho Hdt Ev.
  destruct (bc_radius _ _ _ _ _ _ B) as [B1 B2].
  destruct (optimal_step_bound p bc dx u e opt B1 B2 Hd E Hst Ho) as [O1 [O2 _]].
  eapply (llf_euler_bounds p bc dx t u e v dt); eauto.
  - lra.
  - apply extended_Some. auto.
  - intros i Hi. eapply Rle_trans; [|apply (O2 i Hi)]. apply Rmult_le_compat_r; [|lra].
    destruct (extended_shape bc u None e B1 B2 E) as [gl [gr He]].
    assert (Le : length e = S (S (length u))) by (rewrite He; cbn; rewrite app_length; cbn; lia).
    apply speed_nonneg; apply states_nonneg; auto; lia.
Qed.
Print Assumptions C23_llf_local_maximum_principle.
(** what the optimal time step is: the largest one with dt * speed <= dx at every node *)
Theorem C23_optimal_time_step :
  forall p conds (bc : bconds R) il ir dx u e opt,
  get_boundary_conditions None conds 1 il ir = Ok bc ->
  extended bc u None = Ok e -> states_ok p e -> 0 < dx ->
  optimal_time_step (scalar_riemann p) bc dx u = Ok opt ->
  0 < opt /\
  (forall i, (i <= length u)%nat -> opt * Rmax (flux_prime p (nth i e 0)) (flux_prime p (nth (S i) e 0)) <= dx) /\
  (exists i, (i <= length u)%nat /\ opt * Rmax (flux_prime p (nth i e 0)) (flux_prime p (nth (S i) e 0)) = dx).
Proof.
  intros p conds bc il ir dx u e opt B E Hst Hd Ho. destruct (bc_radius _ _ _ _ _ _ B) as [B1 B2].
  exact (optimal_step_bound p bc dx u e opt B1 B2 Hd E Hst Ho).
Qed.
Print Assumptions C23_optimal_time_step.
(** Whole runs with any of the three SSP schemes. The runs exist, i.e. no step fails. *)
Theorem C23_llf_runs_stay_in_range :
  forall p conds il ir bc dx T dts t0 u0 lo hi,
  get_boundary_conditions None conds 1 il ir = Ok bc -> u0 <> [] -> 0 < dx -> range_ok p lo ->
  inflow_in_range lo hi il -> inflow_in_range lo hi ir -> in_range lo hi u0 ->
  In T [euler; heun; ssp3] -> (forall dt, In dt dts -> 0 <= dt /\ dt * max_speed p hi <= dx) ->
  exists o, rk_run_e (fv_rhs (scalar_llf p) dx bc) T dts {| o_time := t0; o_sol := u0 |} = Ok o /\
    length (o_sol o) = length u0 /\ in_range lo hi (o_sol o) /\ o_time o = t0 + rsum dts.
Proof. exact llf_run_range. Qed.
Print Assumptions C23_llf_runs_stay_in_range.
Example C23_ex : exists bc, get_boundary_conditions (W := R) None ["periodic"%string] 1 None None = Ok bc /\
  exists o, rk_run_e (fv_rhs (scalar_llf Burgers) (1/2) bc) heun [1/8; 1/10] {| o_time := 0; o_sol := [1; 3; 2; 3] |} = Ok o /\
    in_range 1 3 (o_sol o).
Proof.
  eexists. split; [reflexivity|].
  destruct (C23_llf_runs_stay_in_range Burgers ["periodic"%string] None None
    {| bc_left := [CopyCell (-1)]; bc_right := [CopyCell 0]; bc_periodic := true |} (1/2) heun [1/8; 1/10] 0 [1; 3; 2; 3] 1 3)
    as [o [E [_ [Ro _]]]]; simpl; auto; try lra; try discriminate.
  - intros x Hx. simpl in Hx. lra.
  - intros dt [<-|[<-|[]]]; lra.
  - exists o. auto.
Qed.

(** Burgers' equation with negative states: the wave speed max(u_l, u_r) is negative
    and every forward Euler step, however small, creates a new maximum. *)
Theorem C23_burgers_negative_states_refuted :
  exists (u : list R) bc e, get_boundary_conditions None ["periodic"%string] 1 None None = Ok bc /\
  extended bc u None = Ok e /\
  forall t dt, 0 < dt -> exists v, fv_rhs (scalar_llf Burgers) 1 bc t u = Ok v /\
    ~ in_local_bounds e 0 (nth 0 (euler_update u v dt) 0).
Proof.
  exists [-1; -2]. eexists. exists [-2; -1; -2; -1]. split; [reflexivity|]. split; [reflexivity|].
  intros t dt Hdt. set (bc := {| bc_left := _ |}).
  assert (S1 : Rmax (-2) (-1) = -1) by (rewrite Rmax_right; lra).
  assert (S2 : Rmax (-1) (-2) = -1) by (rewrite Rmax_left; lra).
  eexists. split.
  - apply (llf_rhs Burgers bc 1 t [-1; -2] [-2; -1; -2; -1] 2); [lra|reflexivity|reflexivity|].
    intros i Hi. unfold speed. destruct i as [|[|[|i]]]; [| | |lia]; cbn; rewrite ?S1, ?S2; lra.
  - rewrite nth_euler_update by (rewrite ?tab_length; cbn; lia). rewrite nth_tab by lia.
    unfold in_local_bounds. cbn [nth llf_out ro_flux]. unfold bar, speed. cbn [flux_prime scalar_flux].
    rewrite !S1, !S2. rewrite Rmax_right by lra. intros [_ H].
    revert H. match goal with |- ?x <= _ -> _ => replace x with (-1 + dt) by field end. lra.
Qed.
Print Assumptions C23_burgers_negative_states_refuted.
(** Burgers' equation with two adjacent zero states: the wave speeds vanish and the
    solver divides by zero. *)
Theorem C23_burgers_zero_states_refuted :
  exists (u : list R) bc, get_boundary_conditions None ["periodic"%string] 1 None None = Ok bc /\
  forall t, fv_rhs (scalar_llf Burgers) 1 bc t u = Err ZeroDivisionError.
Proof.
  exists [0; 0; 1]. eexists. split; [reflexivity|]. intro t. set (bc := {| bc_left := _ |}).
  destruct (fv_rhs (scalar_llf Burgers) 1 bc t [0; 0; 1]) as [v|e] eqn:E.
  - exfalso. destruct (llf_rhs_inv Burgers bc 1 t [0; 0; 1] [1; 0; 0; 1; 0] 3 v eq_refl eq_refl E) as [_ H].
    specialize (H 1%nat ltac:(lia)). apply H. unfold speed. cbn. apply Rmax_left. lra.
  - f_equal. revert E. unfold fv_rhs. change (Nat.div (nf_dim (scalar_llf Burgers)) 2) with 1%nat.
    rewrite (neighbours_1 0 bc [0; 0; 1] (Some t) [1; 0; 0; 1; 0] 3 eq_refl eq_refl).
    cbn [bind scalar_llf lax_friedrichs nf_call]. unfold rs_solve_all. rewrite combine_tab.
    rewrite !tab_S. cbn [nth]. cbn [mapM fst snd].
    rewrite scalar_solve by (unfold speed; cbn; rewrite Rmax_left; lra). cbn [bind].
    assert (Z : rs_solve (scalar_riemann Burgers) 0 0 = Err ZeroDivisionError).
    { unfold rs_solve, scalar_riemann, scalar_wave_speed. cbn [rs_flux rs_speed bind flux_prime].
      rewrite Rmax_left by lra. rewrite Rminus_diag_eq by lra. rewrite rdiv_0. reflexivity. }
    rewrite Z. cbn [bind]. congruence.
Qed.
Print Assumptions C23_burgers_zero_states_refuted.

(** ** C24 *)
Theorem C24_limiter : forall n (f s bl br M m : list R) gl gr,
  length f = n -> length s = n -> length bl = n -> length br = n -> length M = S n -> length m = S n ->
  limit f s bl br M m = (gl, gr) ->
  length gl = n /\ length gr = n /\
  forall i, (i < n)%nat ->
    let fi := nth i f 0 in let si := nth i s 0 in let g := nth i gr 0 in
    let wl := nth i bl 0 in let wr := nth i br 0 in
    (* antisymmetric *)
    nth i gl 0 = - g /\
    (0 < si -> nth i m 0 <= wl <= nth i M 0 -> nth (S i) m 0 <= wr <= nth (S i) M 0 ->
     (* limited bar states of the right and left cell respect their bounds *)
     nth (S i) m 0 <= wr + g / si <= nth (S i) M 0 /\ nth i m 0 <= wl - g / si <= nth i M 0 /\
     (* same sign, not larger *)
     (0 <= fi -> 0 <= g <= fi) /\ (fi <= 0 -> fi <= g <= 0) /\
     (* nothing is changed without need *)
     (nth (S i) m 0 <= wr + fi / si <= nth (S i) M 0 -> nth i m 0 <= wl - fi / si <= nth i M 0 -> g = fi)).
Proof.
  intros n f s bl br M m gl gr Hf Hs Hl Hr HM Hm E. unfold limit in E.
  rewrite (list_tab 0 f), (list_tab 0 s), (list_tab 0 bl), (list_tab 0 br), (list_tab 0 M), (list_tab 0 m),
    Hf, Hs, Hl, Hr, HM, Hm, limit_arrays_tab, map_tab in E.
  injection E as <- <-. rewrite !tab_length. split; auto. split; auto.
  intros i Hi. cbv zeta. rewrite !nth_tab by auto. split; [reflexivity|].
  intros Si Bl Br.
  destruct (limit_at_spec (nth i f 0) (nth i s 0) (nth i bl 0) (nth i br 0) (nth i M 0) (nth (S i) M 0)
     (nth i m 0) (nth (S i) m 0) (Rlt_le _ _ Si) Bl Br) as [A1 [A2 [A3 [A4 A5]]]].
  set (g := limit_at _ _ _ _ _ _ _ _) in *. set (q := nth i s 0) in *. clearbody g q.
  assert (Q : forall x y, y <= x + g / q <-> q * y <= q * x + g).
  { intros x y. replace (x + g / q) with ((q * x + g) / q) by (field; lra). split; intro H.
    - apply (Rmult_le_compat_l q) in H; [|lra]. replace (q * ((q * x + g) / q)) with (q * x + g) in H by (field; lra). lra.
    - apply (Rmult_le_reg_l q); auto. replace (q * ((q * x + g) / q)) with (q * x + g) by (field; lra). lra. }
  assert (Q' : forall h x y, y <= x + h / q <-> q * y <= q * x + h).
  { intros h x y. replace (x + h / q) with ((q * x + h) / q) by (field; lra). split; intro H.
    - apply (Rmult_le_compat_l q) in H; [|lra]. replace (q * ((q * x + h) / q)) with (q * x + h) in H by (field; lra). lra.
    - apply (Rmult_le_reg_l q); auto. replace (q * ((q * x + h) / q)) with (q * x + h) by (field; lra). lra. }
  assert (P' : forall h x y, x + h / q <= y <-> q * x + h <= q * y).
  { intros h x y. specialize (Q' (-h) (-x) (-y)). replace (- x + - h / q) with (- (x + h / q)) in Q' by (field; lra).
    split; intro H; [destruct Q' as [Q' _]|destruct Q' as [_ Q']]; lra. }
  replace (nth i bl 0 - g / q) with (nth i bl 0 + (- g) / q) by (field; lra).
  replace (nth i bl 0 - nth i f 0 / q) with (nth i bl 0 + (- nth i f 0) / q) by (field; lra).
  rewrite !Q', !P'. repeat split; intros; lra.
Qed.
Print Assumptions C24_limiter.
Example C24_ex : limit [1/2] [1] [1] [1] [2; 2] [1/2; 0] = ([-(1/2)], [1/2]) /\
  limit [1/2] [1] [1] [1] [2; 2] [7/8; 0] = ([-(1/8)], [1/8]).
Proof.
  split; unfold limit; cbn [limit_arrays map]; unfold limit_at.
  - rewrite (Rmin_right (2 - 1)) by lra. rewrite (Rmax_left (0-1)) by lra.
    rewrite (Rmin_right _ (1/2)) by lra. rewrite Rmax_right by lra. reflexivity.
  - rewrite (Rmin_right (2 - 1)) by lra. rewrite (Rmax_left (0-1)) by lra.
    rewrite (Rmin_left _ (1/2)) by lra. rewrite Rmax_right by lra. replace (1 * (1 - 7/8)) with (1/8) by lra. reflexivity.
Qed.

(** ** C25 *)
(** the flux the program builds for a mesh with [length u] cells *)
Theorem C25_mcl_local_maximum_principle :
  forall p conds (bc : bconds R) il ir dx t u e v dt nf,
  get_boundary_conditions None conds 1 il ir = Ok bc ->
  scalar_mcl_getter p (length u) conds = Ok nf ->
  extended bc u (Some t) = Ok e -> states_ok p e -> 0 < dx -> 0 <= dt ->
  (* CFL condition: dt times the sum of both wave speeds of a cell *)
  (forall i, (i < length u)%nat ->
    dt * (Rmax (flux_prime p (nth i e 0)) (flux_prime p (nth (S i) e 0)) +
          Rmax (flux_prime p (nth (S i) e 0)) (flux_prime p (nth (S (S i)) e 0))) <= dx) ->
  fv_rhs nf dx bc t u = Ok v ->
  length v = length u /\
  forall i, (i < length u)%nat -> in_local_bounds e i (nth i (euler_update u v dt) 0).
Proof.
  intros p conds bc il ir dx t u e v dt nf B G E Hst Hd Hdt Hc Ev.
  destruct (bc_radius _ _ _ _ _ _ B) as [B1 B2].
  destruct (extended_shape bc u (Some t) e B1 B2 E) as [gl [gr He]].
  assert (Le : length e = S (S (length u))) by (rewrite He; cbn; rewrite app_length; cbn; lia).
  unfold scalar_mcl_getter in G. inv_bind G. apply Ok_inj in G. subst nf.
  replace (length u + 2)%nat with (S (S (length u))) in E0 by lia.
  pose proof (fv_array_good _ _ _ E0) as HA.
  destruct (mcl_bounds _ _ e HA Le) as [M [m [EM [Em [LM [Lm V]]]]]].
  destruct (mcl_euler_bounds p _ bc dx t u e M m v dt B1 B2 Hd Hdt E Hst HA EM Em Ev Hc) as [Lv Q].
  split; auto. intros i Hi. specialize (Q i Hi).
  destruct (V (S i) ltac:(lia)) as [_ [[z1 [Z1 E1]] [z2 [Z2 E2]]]].
  assert (N : forall z, In z (nth (S i) (neighbours_array a) []) -> Z.to_nat z = i \/ Z.to_nat z = S i \/ Z.to_nat z = S (S i)).
  { destruct (fv_neighbours_rows _ _ _ E0) as [_ [Lr Vr]].
    destruct (neighbours_array_rows a (S i)) as [_ [_ A]]; [lia|].
    intros z Hz. apply A in Hz as [Hz|[-> _]]; [|lia]. apply Vr in Hz; [|lia]. lia. }
  unfold in_local_bounds.
  assert (Hlo : forall k, (k = i \/ k = S i \/ k = S (S i))%nat ->
    Rmin (nth i e 0) (Rmin (nth (S i) e 0) (nth (S (S i)) e 0)) <= nth k e 0 <=
    Rmax (nth i e 0) (Rmax (nth (S i) e 0) (nth (S (S i)) e 0))).
  { intros k Hk. destruct Hk as [ -> | [ -> | -> ] ]; split.
    - apply Rmin_l.
    - apply Rmax_l.
    - eapply Rle_trans; [apply Rmin_r|apply Rmin_l].
    - eapply Rle_trans; [apply Rmax_l|apply Rmax_r].
    - eapply Rle_trans; [apply Rmin_r|apply Rmin_r].
    - eapply Rle_trans; [apply Rmax_r|apply Rmax_r]. }
  pose proof (Hlo _ (N z1 Z1)). pose proof (Hlo _ (N z2 Z2)). lra.
Qed.
Print Assumptions C25_mcl_local_maximum_principle.
Theorem C25_mcl_runs_stay_in_range :
  forall p conds il ir bc nf dx T dts t0 u0 lo hi,
  get_boundary_conditions None conds 1 il ir = Ok bc -> u0 <> [] -> 0 < dx -> range_ok p lo ->
  scalar_mcl_getter p (length u0) conds = Ok nf ->
  inflow_in_range lo hi il -> inflow_in_range lo hi ir -> in_range lo hi u0 ->
  In T [euler; heun; ssp3] -> (forall dt, In dt dts -> 0 <= dt /\ 2 * dt * max_speed p hi <= dx) ->
  exists o, rk_run_e (fv_rhs nf dx bc) T dts {| o_time := t0; o_sol := u0 |} = Ok o /\
    length (o_sol o) = length u0 /\ in_range lo hi (o_sol o) /\ o_time o = t0 + rsum dts.
Proof.
  intros p conds il ir bc nf dx T dts t0 u0 lo hi B Hu Hd Hlo G Il Ir R0 HT Hdt.
  unfold scalar_mcl_getter in G. inv_bind G. apply Ok_inj in G. subst nf.
  replace (length u0 + 2)%nat with (S (S (length u0))) in E by lia.
  eapply mcl_run_range; eauto. eapply fv_array_good; eauto.
Qed.
Print Assumptions C25_mcl_runs_stay_in_range.
(** conservative: the right hand side is a difference of node fluxes, its total is
    the flux through the boundary nodes *)
Theorem C25_mcl_flux_balance :
  forall p conds (bc : bconds R) il ir dx t u v nf,
  get_boundary_conditions None conds 1 il ir = Ok bc ->
  scalar_mcl_getter p (length u) conds = Ok nf ->
  fv_rhs nf dx bc t u = Ok v ->
  exists a fl fr, get_node_neighbours bc u 1 (Some t) = Ok a /\ nf_call nf a = Ok (fl, fr) /\
  (forall i, (i <= length u)%nat -> nth i fl 0 = - nth i fr 0) /\
  (forall i, (i < length u)%nat -> nth i v 0 = (nth i fr 0 - nth (S i) fr 0) / dx) /\
  dx * rsum v = nth 0 fr 0 - nth (length u) fr 0.
Proof.
  intros p conds bc il ir dx t u v nf B G Ev.
  destruct (bc_radius _ _ _ _ _ _ B) as [B1 B2].
  destruct (fv_rhs_extended _ _ _ _ _ _ Ev) as [e E].
  destruct (extended_shape bc u (Some t) e B1 B2 E) as [gl [gr He]].
  assert (Le : length e = S (S (length u))) by (rewrite He; cbn; rewrite app_length; cbn; lia).
  unfold scalar_mcl_getter in G. inv_bind G. apply Ok_inj in G. subst nf.
  replace (length u + 2)%nat with (S (S (length u))) in E0 by lia.
  pose proof (fv_array_good _ _ _ E0) as HA.
  destruct (mcl_bounds _ _ e HA Le) as [M [m [EM [Em [LM [Lm _]]]]]].
  destruct (mcl_rhs_inv p _ bc dx t u e _ v E Le Ev) as [Hd0 Hs].
  rewrite (mcl_rhs p _ bc dx t u e _ M m Hd0 E Le Hs EM Em LM Lm) in Ev. apply Ok_inj in Ev. subst v.
  exists [tab (S (length u)) (fun i => nth i e 0); tab (S (length u)) (fun i => nth (S i) e 0)].
  eexists; eexists. split; [apply (neighbours_1 0); auto|]. split; [apply (mcl_call_tab p _ e (length u) M m); auto|].
  split; [|split].
  - intros i Hi. rewrite !nth_tab by lia. ring.
  - intros i Hi. rewrite !nth_tab by lia. reflexivity.
  - rewrite !nth_tab by lia.
    set (F i := ro_flux (llf_out p (nth i e 0) (nth (S i) e 0)) + mcl_limited p e M m i).
    change (dx * rsum (tab (length u) (fun i => (F i - F (S i)) / dx)) = F 0%nat - F (length u)).
    rewrite (tab_ext (length u) (fun i => (F i - F (S i)) / dx) (fun i => / dx * (F i - F (S i)))).
    + rewrite rsum_tab_scal.
      assert (T : rsum (tab (length u) (fun i => F i - F (S i))) = F 0%nat - F (length u)).
      { clear. induction (length u) as [|k IH]; [cbn; lra|]. rewrite tab_snoc, rsum_snoc, IH. ring. }
      rewrite T. field. auto.
    + intros. field. auto.
Qed.
Print Assumptions C25_mcl_flux_balance.
Example C25_ex : exists bc nf, get_boundary_conditions (W := R) None ["periodic"%string] 1 None None = Ok bc /\
  scalar_mcl_getter Burgers 4 ["periodic"%string] = Ok nf /\
  exists o, rk_run_e (fv_rhs nf (1/2) bc) heun [1/16; 1/20] {| o_time := 0; o_sol := [1; 3; 2; 3] |} = Ok o /\
    in_range 1 3 (o_sol o).
Proof.
  eexists. eexists. split; [reflexivity|]. split; [reflexivity|].
  destruct (C25_mcl_runs_stay_in_range Burgers ["periodic"%string] None None
    {| bc_left := [CopyCell (-1)]; bc_right := [CopyCell 0]; bc_periodic := true |}
    (scalar_mcl Burgers (neighbours_array [[0; 1; 5]; [0; 1; 2]; [1; 2; 3]; [2; 3; 4]; [3; 4; 5]; [4; 5; 0]]%Z))
    (1/2) heun [1/16; 1/20] 0 [1; 3; 2; 3] 1 3)
    as [o [E [_ [Ro _]]]]; simpl; auto; try lra; try discriminate.
  - intros x Hx. simpl in Hx. lra.
  - intros dt [<-|[<-|[]]]; lra.
  - exists o. auto.
Qed.

(** On periodic meshes the scheme does not conserve mass: the ghost cells of the
    two end nodes get different bounds, so the first and the last node, which are
    the same point, carry different limited fluxes. *)
Theorem C25_periodic_mass_conservation_refuted :
  exists (u : list R) bc nf, get_boundary_conditions None ["periodic"%string] 1 None None = Ok bc /\
  scalar_mcl_getter Advection (length u) ["periodic"%string] = Ok nf /\
  forall t, exists v, fv_rhs nf 1 bc t u = Ok v /\ rsum v <> 0.
Proof.
  set (array := [[0; 1; 5]; [0; 1; 2]; [1; 2; 3]; [2; 3; 4]; [3; 4; 5]; [4; 5; 0]]%Z).
  exists [1; 1; -1; 0]. eexists. exists (scalar_mcl Advection array). split; [reflexivity|]. split; [reflexivity|]. intro t.
  set (bc := {| bc_left := _ |}).
  set (e := [0; 1; 1; -1; 0; 1]).
  assert (HA : good_array 6 array) by (exact (fv_array_good 6 true array eq_refl)).
  destruct (mcl_bounds 6 array e HA eq_refl) as [M [m [EM [Em [LM [Lm V]]]]]].
  assert (Hs : forall i, (i <= 4)%nat -> speed Advection (nth i e 0) (nth (S i) e 0) <> 0).
  { intros. unfold speed. cbn. rewrite Rmax_left; lra. }
  eexists. split.
  { exact (mcl_rhs Advection array bc 1 t [1; 1; -1; 0] e 4 M m R1_neq_R0 eq_refl eq_refl Hs EM Em LM Lm). }
  set (F i := ro_flux (llf_out Advection (nth i e 0) (nth (S i) e 0)) + mcl_limited Advection e M m i).
  assert (T : rsum (tab 4 (fun i => (F i - F (S i)) / 1)) = F 0%nat - F 4%nat) by (cbn; field).
  fold F. rewrite T.
  assert (F0 : forall i, ro_flux (llf_out Advection (nth i e 0) (nth (S i) e 0)) = nth i e 0).
  { intro i. cbn [llf_out ro_flux]. unfold bar, speed. cbn [flux_prime scalar_flux]. rewrite Rmax_left by lra. field. }
  unfold F, mcl_limited. cbv zeta. rewrite !F0.
  change (nth 0 e 0) with 0. change (nth 1 e 0) with 1. change (nth 4 e 0) with 0. change (nth 5 e 0) with 1.
  (* bounds *)
  assert (Row : forall k lo hi, (k < 6)%nat ->
    (forall z, In z (nth k array []) -> lo <= nth (Z.to_nat z) e 0 <= hi) ->
    (exists z, In z (nth k array []) /\ nth (Z.to_nat z) e 0 = lo) ->
    (exists z, In z (nth k array []) /\ nth (Z.to_nat z) e 0 = hi) ->
    nth k m 0 = lo /\ nth k M 0 = hi).
  { intros k lo hi Hk Hb [z1 [I1 E1]] [z2 [I2 E2]]. destruct (V k Hk) as [A [[z3 [I3 E3]] [z4 [I4 E4]]]].
    pose proof (A z1 I1). pose proof (A z2 I2). pose proof (Hb z3 I3). pose proof (Hb z4 I4). lra. }
  assert (R0 : nth 0 m 0 = 0 /\ nth 0 M 0 = 1).
  { apply Row; [lia| | exists 0%Z | exists 1%Z]; cbn; auto.
    intros z [<-|[<-|[<-|[]]]]; unfold e, Z.to_nat, Pos.to_nat; cbn; lra. }
  assert (R1 : nth 1 m 0 = 0 /\ nth 1 M 0 = 1).
  { apply Row; [lia| | exists 0%Z | exists 1%Z]; cbn; auto.
    intros z [<-|[<-|[<-|[]]]]; unfold e, Z.to_nat, Pos.to_nat; cbn; lra. }
  assert (R4 : nth 4 m 0 = -1 /\ nth 4 M 0 = 1).
  { apply Row; [lia| | exists 3%Z | exists 5%Z]; cbn; auto.
    intros z [<-|[<-|[<-|[]]]]; unfold e, Z.to_nat, Pos.to_nat; cbn; lra. }
  assert (R5 : nth 5 m 0 = 0 /\ nth 5 M 0 = 1).
  { apply Row; [lia| | exists 4%Z | exists 5%Z]; cbn; auto.
    intros z [<-|[<-|[<-|[]]]]; unfold e, Z.to_nat, Pos.to_nat; cbn; lra. }
  destruct R0 as [-> ->], R1 as [-> ->], R4 as [-> ->], R5 as [-> ->].
  assert (Sp : speed Advection 0 1 = 1) by (unfold speed; cbn; apply Rmax_left; lra).
  assert (Bar : bar Advection 0 1 = 0) by (unfold bar; rewrite Sp; cbn; field).
  rewrite Sp, Bar. unfold limit_at. cbn [scalar_flux].
  rewrite (Rmin_right (1 - 0) (0 - 0)) by lra. rewrite (Rmax_left (0 - 0) (0 - 1)) by lra.
  rewrite (Rmin_left (1 * (0 - 0))) by lra. rewrite (Rmax_left (1 * (0 - 0))) by lra.
  rewrite (Rmin_left (1 - 0)) by lra. rewrite (Rmin_right (1 * (1 - 0))) by lra.
  rewrite Rmax_right by lra. lra.
Qed.
Print Assumptions C25_periodic_mass_conservation_refuted.
