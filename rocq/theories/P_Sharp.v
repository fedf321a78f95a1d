(** C90: half a cell per step is the limit for Burgers' equation *)
From Coq Require Import Reals Lra Lia Psatz String List Arith Bool.
From Verif Require Import Prelude L_Prelude M_Boundary M_Flux S_Flux L_Flux M_ODE M_Scalar S_Scalar S_Contraction.
Import ListNotations.
Open Scope R_scope.
Local Open Scope list_scope.
Notation length := List.length.

Lemma burgers_flux l r : 0 < l -> 0 < r ->
  bind (rs_solve (scalar_riemann Burgers) l r) (fun o => Ok (ro_flux o)) = Ok ((l ^ 2 + r ^ 2) / 4 - Rmax l r / 2 * (r - l)).
Proof.
  intros Hl Hr. unfold rs_solve. cbn [rs_flux rs_speed scalar_riemann bind]. unfold scalar_wave_speed. cbn [flux_prime]. cbv zeta. assert (M : 0 < Rmax l r) by (apply Rlt_le_trans with l; [exact Hl|apply Rmax_l]).
  unfold rdiv. destruct (Reqb_spec (Rmax l r - - Rmax l r) 0) as [Z|_]; [lra|]. cbn [bind ro_flux]. f_equal. cbn [scalar_flux]. unfold csub, copp. cbn [cadd cscal R_CellOps]. field. lra.
Qed.

Lemma cons3 (a b c a' b' c' : R) : a = a' -> b = b' -> c = c' -> [a; b; c] = [a'; b'; c'].
Proof. congruence. Qed.
Lemma ode_eq (t t' : R) (u u' : list R) : t = t' -> u = u' -> {| o_time := t; o_sol := u |} = {| o_time := t'; o_sol := u' |}.
Proof. congruence. Qed.
(** Auxiliary: the flux of [burgers_flux] at the right and at the left end of a cell with value [x] between cells with value [e <= x] *)
Definition high_to_low x e := (x ^ 2 + e ^ 2) / 4 - x / 2 * (e - x).
Definition low_to_high x e := (x ^ 2 + e ^ 2) / 4 - x / 2 * (x - e).
Lemma peak_step bc x e dx dt : get_boundary_conditions (W := R) None ["periodic"%string] 1 None None = Ok bc -> 0 < e -> e <= x -> 0 < dx ->
  rk_execute_e (fv_rhs (scalar_llf Burgers) dx bc) euler dt {| o_time := 0; o_sol := [x; e; e] |} =
  Ok {| o_time := 0 + dt; o_sol := [x + dt / dx * (low_to_high x e - high_to_low x e); e + dt / dx * (high_to_low x e - e ^ 2 / 2); e + dt / dx * (e ^ 2 / 2 - low_to_high x e)] |}.
Proof.
  intros B He Hx Hdx.
  assert (NB : forall t, get_node_neighbours bc [x; e; e] 1 (Some t) = Ok [[e; x; e; e]; [x; e; e; x]]) by (intro t; cbn in B; injection B as <-; reflexivity).
  assert (RHS : forall t, fv_rhs (scalar_llf Burgers) dx bc t [x; e; e] = Ok [1 / dx * (low_to_high x e - high_to_low x e); 1 / dx * (high_to_low x e - e ^ 2 / 2); 1 / dx * (e ^ 2 / 2 - low_to_high x e)]).
  { intro t. unfold fv_rhs. change (Nat.div (nf_dim (scalar_llf Burgers)) 2) with 1%nat. rewrite NB. cbn [bind]. unfold scalar_llf. rewrite lax_friedrichs_two_point. cbn [nf_call two_point combine mapM fst snd].
    rewrite (burgers_flux e x), (burgers_flux x e), (burgers_flux e e) by lra. rewrite (Rmax_right e x), (Rmax_left x e), (Rmax_left e e) by lra. cbn [bind fst snd vneg map].
    unfold cells_from_nodes, rdiv. destruct (Reqb_spec dx 0) as [Z|_]; [lra|]. cbn [bind removelast tl map2 map].
    unfold copp. cbn [cadd cscal R_CellOps]. unfold high_to_low, low_to_high. f_equal. apply cons3; field; lra. }
  unfold rk_execute_e. cbn [euler rk_b length seq foldM]. unfold rk_stage_e. cbn [rk_A rk_c nth firstn wsum axpy o_time o_sol]. rewrite RHS.
  cbn [bind foldM app wsum axpy vadd vscal list_VecOps map map2 o_sol]. cbn [cadd cscal R_CellOps]. f_equal. apply ode_eq; [reflexivity|]. apply cons3; field; lra.
Qed.

(** For every step of more than half a cell (up to a whole one, where values stay in the range) two solutions lose their order and drift apart. *)
Theorem C90_half_a_cell_is_sharp : forall c dx, 1 / 2 < c <= 1 -> 0 < dx ->
  exists bc lo u v u' v', get_boundary_conditions (W := R) None ["periodic"%string] 1 None None = Ok bc /\
  range_ok Burgers lo /\ in_range lo 1 u /\ in_range lo 1 v /\ below u v /\
  (c * dx) * max_speed Burgers 1 = c * dx /\
  rk_execute_e (fv_rhs (scalar_llf Burgers) dx bc) euler (c * dx) {| o_time := 0; o_sol := u |} = Ok {| o_time := 0 + c * dx; o_sol := u' |} /\
  rk_execute_e (fv_rhs (scalar_llf Burgers) dx bc) euler (c * dx) {| o_time := 0; o_sol := v |} = Ok {| o_time := 0 + c * dx; o_sol := v' |} /\
  ~ below u' v' /\ distance u v < distance u' v'.
Proof.
  intros c dx Hc Hdx. set (q := / c). assert (Q : c * q = 1) by (unfold q; field; lra). assert (Q1 : 1 <= q < 2) by nra.
  set (e := 1 - q / 2). set (x := 1 / 2 + q / 4). assert (E : 0 < e <= 1 / 2) by (unfold e; lra). assert (X : 3 / 4 <= x < 1) by (unfold x; lra).
  eexists. exists e, [x; e; e], [1; e; e]. eexists. eexists. split; [reflexivity|].
  match goal with |- context [fv_rhs _ dx ?y] => set (bc := y) end. assert (B : get_boundary_conditions (W := R) None ["periodic"%string] 1 None None = Ok bc) by reflexivity.
  split; [cbn; lra|]. split; [intros y [<-|[<-|[<-|[]]]]; lra|]. split; [intros y [<-|[<-|[<-|[]]]]; lra|]. split; [repeat constructor; lra|]. split; [cbn; ring|].
  split; [apply peak_step; auto; lra|]. split; [apply peak_step; auto; lra|].
  replace (c * dx / dx) with c by (field; lra).
  assert (Peak : 1 + c * (low_to_high 1 e - high_to_low 1 e) < x + c * (low_to_high x e - high_to_low x e)).
  { unfold low_to_high, high_to_low. assert (D : (x + c * ((x ^ 2 + e ^ 2) / 4 - x / 2 * (x - e) - ((x ^ 2 + e ^ 2) / 4 - x / 2 * (e - x)))) - (1 + c * ((1 ^ 2 + e ^ 2) / 4 - 1 / 2 * (1 - e) - ((1 ^ 2 + e ^ 2) / 4 - 1 / 2 * (e - 1)))) = c * ((1 - x) * (1 - x)) + (1 - c * q) * (x - 1)).
    { unfold e, x. field. }
    rewrite Q in D. assert (0 < c * ((1 - x) * (1 - x))) by (apply Rmult_lt_0_compat; [lra|]; apply Rmult_lt_0_compat; lra). lra. }
  split.
  - intro L. inversion L; subst. lra.
  - unfold distance. cbn [map2]. unfold rsum. cbn [fold_right].
    replace (e - e) with 0 by ring. rewrite Rabs_R0. rewrite (Rabs_left1 (x - 1)) by lra.
    set (a1 := x + _ - _). set (a2 := e + _ - _). set (a3 := e + _ - _). assert (A : a1 + a2 + a3 = x - 1) by (unfold a1, a2, a3; ring). assert (P : 0 < a1) by (unfold a1; lra).
    rewrite (Rabs_pos_eq a1) by lra. pose proof (Rle_abs (- a2)) as R2. pose proof (Rle_abs (- a3)) as R3. rewrite Rabs_Ropp in R2, R3. lra.
Qed.
Print Assumptions C90_half_a_cell_is_sharp.
