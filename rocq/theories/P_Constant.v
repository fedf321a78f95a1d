(** C99: finite volume runs keep constant states exactly, also in double precision *)
From Coq Require Import Reals Lra Lia ZArith String List Arith Bool.
From Verif Require Import Prelude L_Prelude M_Boundary S_Boundary L_Boundary M_Flux S_Flux L_Flux M_ODE S_ODE L_ODE M_FloatStepping L_Floats M_FloatODE S_FloatMass L_FloatMass P_FloatMass M_Scalar S_Constant.
Import ListNotations.
Open Scope R_scope.
Local Open Scope list_scope.
Notation length := List.length.

Section Const.
Context {W : Type} (H : CellOps W) (rd clock : R -> R) (HA : arithmetic rd H) (R0 : rd 0 = 0).

Lemma nth_constant (c d : W) n i : (i < n)%nat -> nth i (repeat c n) d = c.
Proof. intro Hi. rewrite (nth_indep _ d c) by (rewrite repeat_length; exact Hi). apply nth_repeat. Qed.

Lemma constant_neighbours wall conds nl nr cl cr il ir bc c n r t a : side_names conds nl nr -> names_cond wall nl il cl -> names_cond wall nr ir cr ->
  shows_constant c cl -> shows_constant c cr -> get_boundary_conditions wall conds r il ir = Ok bc -> (1 <= r <= n)%nat ->
  get_node_neighbours bc (repeat c n) r (Some t) = Ok a -> forall v, In v a -> length v = S n /\ forall i, (i <= n)%nat -> nth i v czero = c.
Proof.
  intros SN Nl Nr Sl Sr B Hr E v Hv. destruct (node_neighbours_spec czero wall conds r il ir bc (repeat c n) (Some t) nl nr cl cr r SN Nl Nr B) as [a' [E' [La Va]]]; rewrite ?repeat_length; try lia; [discriminate|].
  rewrite E in E'. injection E' as <-. apply (In_nth _ _ []) in Hv as [k [Hk <-]]. rewrite La in Hk. destruct (Va k Hk) as [Lk Ek]. rewrite repeat_length in Lk, Ek. split; [lia|]. intros i Hi. specialize (Ek i ltac:(lia)).
  assert (OV : forall q j x, shows_constant c q -> outside_value czero (repeat c n) (Some t) q j x -> x = c).
  { intros q j x Q O. destruct q; cbn in Q, O; rewrite ?repeat_length in O.
    - rewrite O. apply nth_constant. pose proof (Z.mod_pos_bound j (Z.of_nat n) ltac:(lia)). lia.
    - rewrite O. apply nth_constant. destruct (j <? 0)%Z; lia.
    - destruct O as [s [_ ->]]. apply Q.
    - rewrite O, nth_constant; [exact Q|]. destruct (j <? 0)%Z; lia. }
  revert Ek. unfold extension_value. rewrite repeat_length.
  destruct (Z.ltb_spec (Z.of_nat i - Z.of_nat r + Z.of_nat k) 0) as [Z1|Z1]; [apply OV; assumption|].
  destruct (Z.ltb_spec (Z.of_nat i - Z.of_nat r + Z.of_nat k) (Z.of_nat n)) as [Z2|Z2]; [|apply OV; assumption]. intro Ek. rewrite Ek. apply nth_constant. lia.
Qed.

(** all components are zero *)
Definition vanishes n (v : list W) : Prop := length v = n /\ forall i k, (i < n)%nat -> ccoord k (nth i v czero) = 0.

Lemma vanishes_scal n c v : vanishes n v -> vanishes n (map (cscal c) v).
Proof.
  intros [L Z]. split; [rewrite map_length; exact L|]. intros i k Hi. rewrite (nth_map' _ _ i czero) by lia. rewrite (proj1 (proj2 HA)), Z by exact Hi. rewrite Rmult_0_r. exact R0.
Qed.
Lemma vanishes_add n v w : vanishes n v -> vanishes n w -> vanishes n (map2 cadd v w).
Proof.
  intros [L Z] [M Y]. split; [rewrite map2_length; lia|]. intros i k Hi. rewrite (nth_map2 cadd _ _ i czero czero) by lia. rewrite (proj1 HA), Z, Y, Rplus_0_l by exact Hi. exact R0.
Qed.
Lemma vanishes_lsum n cs : forall acc ks, vanishes n acc -> Forall (vanishes n) ks -> vanishes n (lsum acc cs ks).
Proof.
  induction cs as [|c cs IH]; intros acc [|v ks] Ha Hk; auto. inversion Hk; subst. cbn [lsum]. apply IH; auto. apply vanishes_add; auto. apply vanishes_scal; auto.
Qed.
Lemma constant_axpy c n dt cs ks : (forall k, rd (ccoord k c) = ccoord k c) -> Forall (vanishes n) ks -> axpy (repeat c n) dt (wsum_left cs ks) = repeat c n.
Proof.
  intros Hc Hk. destruct cs as [|b cs], ks as [|v ks]; auto. inversion Hk as [|? ? V Vs]; subst. cbn [wsum_left axpy].
  assert (Z : vanishes n (map (cscal dt) (lsum (vscal b v) cs ks))) by (apply vanishes_scal, vanishes_lsum; [apply vanishes_scal; exact V|exact Vs]).
  change (map2 cadd (repeat c n) (map (cscal dt) (lsum (vscal b v) cs ks)) = repeat c n). set (z := map _ _) in *. destruct Z as [L Z].
  apply (list_ext czero); [rewrite map2_length, repeat_length; lia|]. rewrite map2_length, repeat_length, L, Nat.min_id. intros i Hi.
  rewrite (nth_map2 cadd _ _ i czero czero) by (rewrite ?repeat_length; lia). rewrite nth_constant by exact Hi. apply (proj2 (proj2 HA)). intro k. rewrite (proj1 HA), Z, Rplus_0_r by exact Hi. apply Hc.
Qed.

Section Scheme.
Context (wall : option (W -> W)) (conds : list string) (nl nr : string) (cl cr : cond W) (il ir : option (R -> W)) (bc : bconds W) (nf : nflux W) (dx : R) (c : W) (n : nat).
Context (SN : side_names conds nl nr) (Nl : names_cond wall nl il cl) (Nr : names_cond wall nr ir cr) (Sl : shows_constant c cl) (Sr : shows_constant c cr).
Context (B : get_boundary_conditions wall conds (Nat.div (nf_dim nf) 2) il ir = Ok bc) (Hd : (2 <= nf_dim nf)%nat) (Hn : (Nat.div (nf_dim nf) 2 <= n)%nat).
Context (O : one_per_node nf) (SV : forall k, single_valued k nf) (LF : forall k, local_flux k nf) (Hc : forall k, rd (ccoord k c) = ccoord k c).

Lemma constant_rhs t v : fv_rhs nf dx bc t (repeat c n) = Ok v -> vanishes n v.
Proof.
  intro E. destruct (fv_rhs_inv _ _ _ _ _ _ E) as [a [fl [fr [E1 [E2 E3]]]]].
  assert (Hr : (1 <= Nat.div (nf_dim nf) 2)%nat) by (apply Nat.div_le_lower_bound; lia).
  assert (NB := constant_neighbours wall conds nl nr cl cr il ir bc c n _ t a SN Nl Nr Sl Sr B (conj Hr Hn) E1).
  assert (Fa : Forall (fun v => length v = S n) a) by (apply Forall_forall; intros w Hw; apply (NB w Hw)).
  destruct (O _ _ _ _ Fa E2) as [L1 L2]. destruct (cells_from_nodes_spec _ _ _ _ _ E3 L1 L2) as [_ [Lv Hv]]. split; [exact Lv|]. intros i k Hi. rewrite Hv by exact Hi.
  rewrite (proj1 (proj2 HA)), (proj1 HA), (SV k _ _ _ _ Fa E2 (S i)) by lia. rewrite (LF k _ _ _ _ i (S i) Fa E2).
  - rewrite Rplus_opp_r, R0, Rmult_0_r. exact R0.
  - lia.
  - lia.
  - intros w Hw. destruct (NB w Hw) as [_ Q]. rewrite !Q by lia. reflexivity.
Qed.

Lemma constant_stages T dt o is : o_sol o = repeat c n -> forall calls ks calls' ks', rkf_stages clock (fv_rhs nf dx bc) T dt o is calls ks = Ok (calls', ks') ->
  Forall (vanishes n) ks -> Forall (fun p => snd p = repeat c n) calls -> Forall (vanishes n) ks' /\ Forall (fun p => snd p = repeat c n) calls'.
Proof.
  intros Ho. induction is as [|i is IH]; intros calls ks calls' ks' E Hk HC; cbn [rkf_stages] in E; [injection E as <- <-; auto|].
  apply bind_ok in E as [v [Ev E]]. rewrite Ho, constant_axpy in Ev, E by auto. eapply IH; [exact E| |].
  - apply Forall_app. split; [exact Hk|]. constructor; [|constructor]. eapply constant_rhs; eauto.
  - apply Forall_app. split; [exact HC|]. constructor; [reflexivity|constructor].
Qed.

Lemma constant_run T dts : forall o o' calls, o_sol o = repeat c n -> rkf_run clock (fv_rhs nf dx bc) T dts o = Ok (o', calls) ->
  o_sol o' = repeat c n /\ Forall (fun p => snd p = repeat c n) calls.
Proof.
  induction dts as [|dt dts IH]; intros o o' calls Ho E; cbn [rkf_run] in E; [injection E as <- <-; auto|].
  apply bind_ok in E as [[o1 c1] [E1 E]]. apply bind_ok in E as [[o2 c2] [E2 E]]. cbn [fst snd] in *. injection E as <- <-.
  unfold rkf_execute in E1. apply bind_ok in E1 as [[cc ks] [E1 Q]]. cbn [fst snd] in Q. injection Q as <- <-. destruct (constant_stages _ _ _ _ Ho _ _ _ _ E1) as [F1 F2]; auto.
  assert (K : axpy (o_sol o) dt (wsum_left (rk_b T) ks) = repeat c n) by (rewrite Ho; apply constant_axpy; auto). destruct (IH {| o_time := clock (o_time o + dt); o_sol := axpy (o_sol o) dt (wsum_left (rk_b T) ks) |} _ _ K E2) as [G1 G2]. split; [exact G1|]. apply Forall_app. auto.
Qed.
End Scheme.

(** A run from a constant state stays at it, whatever the flux, the mesh, the Runge-Kutta method and the steps; all stage values are the constant, too. *)
Theorem C99_constant_states_are_kept : forall wall conds nl nr cl cr il ir bc (nf : nflux W) dx c n T dts t o' calls,
  side_names conds nl nr -> names_cond wall nl il cl -> names_cond wall nr ir cr -> shows_constant c cl -> shows_constant c cr ->
  get_boundary_conditions wall conds (Nat.div (nf_dim nf) 2) il ir = Ok bc -> (2 <= nf_dim nf)%nat -> (Nat.div (nf_dim nf) 2 <= n)%nat ->
  one_per_node nf -> (forall k, single_valued k nf) -> (forall k, local_flux k nf) -> (forall k, rd (ccoord k c) = ccoord k c) ->
  rkf_run clock (fv_rhs nf dx bc) T dts {| o_time := t; o_sol := repeat c n |} = Ok (o', calls) ->
  o_sol o' = repeat c n /\ Forall (fun call => snd call = repeat c n) calls.
Proof.
  intros wall conds nl nr cl cr il ir bc nf dx c n T dts t o' calls SN Nl Nr Sl Sr B Hd Hn O SV LF Hc E.
  exact (constant_run wall conds nl nr cl cr il ir bc nf dx c n SN Nl Nr Sl Sr B Hd Hn O SV LF Hc T dts {| o_time := t; o_sol := repeat c n |} o' calls eq_refl E).
Qed.
End Const.
Print Assumptions C99_constant_states_are_kept.

(** exact arithmetic and double precision are such arithmetics, in double precision the constants are the doubles *)
Theorem C99_arithmetics : arithmetic (fun x => x) R_CellOps /\ arithmetic (fun x => x) RR_CellOps /\ arithmetic rnd float_cells /\ arithmetic rnd float_states /\
  rnd 0 = 0 /\ (forall x, double x -> rnd x = x).
Proof.
  assert (P : forall a b : R * R, (forall k : bool, (if k then fst a else snd a) = if k then fst b else snd b) -> a = b) by (intros [a1 a2] [b1 b2] E; assert (E1 := E true); assert (E2 := E false); cbn in E1, E2; congruence).
  split; [|split; [|split; [|split; [|split; [exact (rnd_double 0 double_0)|exact rnd_double]]]]]; split; [|split| |split| |split| |split].
  all: try reflexivity; try (intros k; destruct k; reflexivity); try (intros a b E; exact (E true)); exact P.
Qed.
Print Assumptions C99_arithmetics.

(** Scalar problems in double precision: any Riemann solver, outflow on one side and inflow of the constant on the other. *)
Theorem C99_double_precision : forall (rs : riemann R) g dx c n T dts t bc o' calls, double c -> (forall s, g s = c) -> (1 <= n)%nat ->
  get_boundary_conditions None ["inflow"%string; "outflow"%string] 1 (Some g) None = Ok bc ->
  rkf_run rnd (H := list_VecOps (H := float_cells)) (fv_rhs (H := float_cells) (lax_friedrichs (H := float_cells) rs) dx bc) T dts {| o_time := t; o_sol := repeat c n |} = Ok (o', calls) ->
  o_sol o' = repeat c n.
Proof.
  intros rs g dx c n T dts t bc o' calls Dc Hg Hn B E. destruct C99_arithmetics as [_ [_ [HA [_ [Z D]]]]].
  destruct (C98_fluxes_meet_the_hypotheses float_cells (proj1 C98_arrays_round)) as [Q _].
  refine (proj1 (C99_constant_states_are_kept float_cells rnd rnd HA Z None ["inflow"%string; "outflow"%string] "inflow" "outflow" (Inflow g) Outflow (Some g) None bc (lax_friedrichs (H := float_cells) rs) dx c n T dts t o' calls _ _ _ _ _ B _ _ _ _ _ _ E)); cbn; auto.
  - apply (Q rs true).
  - intro k. apply (Q rs k).
  - intro k. apply (Q rs k).
Qed.
Print Assumptions C99_double_precision.

(** In exact arithmetic: the solvers of M_ODE. *)
Theorem C99_exact : forall (nf : nflux R) dx c n T dts t bc o', (2 <= nf_dim nf)%nat -> (Nat.div (nf_dim nf) 2 <= n)%nat ->
  one_per_node nf -> (forall k, single_valued k nf) -> (forall k, local_flux k nf) ->
  get_boundary_conditions None ["periodic"%string] (Nat.div (nf_dim nf) 2) None None = Ok bc ->
  rk_run_e (fv_rhs nf dx bc) T dts {| o_time := t; o_sol := repeat c n |} = Ok o' -> o_sol o' = repeat c n.
Proof.
  intros nf dx c n T dts t bc o' Hd Hn O SV LF B E. destruct C99_arithmetics as [HA _].
  assert (LL : forall s (u v : list R), length u = n -> fv_rhs nf dx bc s u = Ok v -> length v = n).
  { intros s u v Lu Ev. destruct (fv_rhs_inv _ _ _ _ _ _ Ev) as [a [fl [fr [E1 [E2 E3]]]]]. assert (Hr : (1 <= Nat.div (nf_dim nf) 2)%nat) by (apply Nat.div_le_lower_bound; lia).
    destruct (fv_neighbours_shape _ _ _ _ _ _ _ _ B Hr _ E1) as [_ Fa]. destruct (O _ _ _ _ Fa E2) as [L1 L2]. destruct (cells_from_nodes_spec _ _ _ _ _ E3 L1 L2) as [_ [Lv _]]. congruence. }
  assert (X := C98_exact_arithmetic (fun v : list R => length v = n) (fv_rhs nf dx bc) T dts {| o_time := t; o_sol := repeat c n |} LL (repeat_length c n)). rewrite E in X.
  apply bind_ok in X as [[o1 calls] [X1 X2]]. cbn [fst] in X2. injection X2 as <-.
  refine (proj1 (C99_constant_states_are_kept R_CellOps (fun x => x) (fun x => x) HA eq_refl None ["periodic"%string] "periodic" "periodic" Periodic Periodic None None bc nf dx c n T dts t o1 calls _ _ _ _ _ B Hd Hn O SV LF _ X1)); cbn; auto.
Qed.
Print Assumptions C99_exact.

(** Water at rest between walls in double precision: two cells of height 3, Heun steps. *)
Example C99_ex : exists bc o' calls, let nf := lax_friedrichs (H := float_states) {| rs_flux := fun u => Ok (snd u, fst u ^ 2); rs_speed := fun _ _ => (-2, 2) |} in
  get_boundary_conditions (Some (fun u : R * R => (fst u, - snd u))) ["wall"%string] 1 None None = Ok bc /\
  rkf_run rnd (H := list_VecOps (H := float_states)) (fv_rhs (H := float_states) nf (1 / 2) bc) heun [1 / 10; 1 / 5] {| o_time := 0; o_sol := [(3, 0); (3, 0)] |} = Ok (o', calls) /\
  o_sol o' = [(3, 0); (3, 0)].
Proof.
  destruct C99_arithmetics as [_ [_ [_ [HA [Z D]]]]]. set (neg := fun u : R * R => (fst u, - snd u)).
  set (rs := {| rs_flux := fun u : R * R => Ok (snd u, fst u ^ 2); rs_speed := fun _ _ => (-2, 2) |}).
  assert (FL : forall t (u : list (R * R)) bc, length u = 2%nat -> get_boundary_conditions (Some neg) ["wall"%string] 1 None None = Ok bc ->
    exists v, fv_rhs (H := float_states) (lax_friedrichs (H := float_states) rs) (1 / 2) bc t u = Ok v /\ length v = 2%nat).
  { intros t u bc Lu B. destruct u as [|u0 [|u1 [|? ?]]]; try discriminate. cbn in B. injection B as <-. unfold fv_rhs. change (nf_dim (lax_friedrichs rs) / 2)%nat with 1%nat.
    match goal with |- context [get_node_neighbours ?b ?u 1 ?t] => assert (NB : get_node_neighbours b u 1 t = Ok [[neg u0; u0; u1]; [u0; u1; neg u1]]) by reflexivity; rewrite NB end.
    cbn [bind]. rewrite (lax_friedrichs_two_point (H := float_states)). cbn [nf_call two_point combine mapM fst snd].
    assert (S : forall l r, exists f, bind (rs_solve (H := float_states) rs l r) (fun o => Ok (ro_flux o)) = Ok f).
    { intros l r. unfold rs_solve. cbn [rs_flux rs_speed rs bind]. unfold rdiv. destruct (Reqb_spec (2 - -2) 0); [lra|]. cbn [bind]. eexists. reflexivity. }
    destruct (S (neg u0) u0) as [f0 ->], (S u0 u1) as [f1 ->], (S u1 (neg u1)) as [f2 ->]. cbn [bind fst snd vneg map]. unfold cells_from_nodes, rdiv. destruct (Reqb_spec (1 / 2) 0); [lra|]. cbn [bind removelast tl map2 map]. eexists. split; reflexivity. }
  assert (B : exists bc, get_boundary_conditions (Some neg) ["wall"%string] 1 None None = Ok bc) by (eexists; reflexivity). destruct B as [bc B].
  assert (RUN : forall dts t (u : list (R * R)), length u = 2%nat -> exists o' calls, rkf_run rnd (H := list_VecOps (H := float_states)) (fv_rhs (H := float_states) (lax_friedrichs (H := float_states) rs) (1 / 2) bc) heun dts {| o_time := t; o_sol := u |} = Ok (o', calls)).
  { induction dts as [|dt dts IH]; intros t u Lu; [cbn; eauto|]. cbn [rkf_run]. unfold rkf_execute. cbn [heun rk_b length seq rkf_stages rk_A rk_c nth firstn].
    destruct (FL (rnd (t + rnd (0 * dt))) u bc Lu B) as [k1 [K1 L1]]. cbn [wsum_left axpy o_sol o_time]. rewrite K1. cbn [bind app].
    match goal with |- context [fv_rhs _ _ bc ?s ?x] => destruct (FL s x bc) as [k2 [K2 L2]]; [|exact B|] end. { apply (stage_length float_states 2 u dt [1] [k1]); [exact Lu|]. constructor; [exact L1|constructor]. }
    rewrite K2. cbn [bind fst snd]. match goal with |- context [rkf_run _ _ _ dts {| o_time := ?s; o_sol := ?x |}] => destruct (IH s x) as [o2 [c2 X]] end.
    { apply (stage_length float_states 2 u dt [1 / 2; 1 / 2] [k1; k2]); [exact Lu|]. constructor; [exact L1|]. constructor; [exact L2|constructor]. }
    rewrite X. cbn [bind]. eauto. }
  destruct (RUN [1 / 10; 1 / 5] 0 [(3, 0); (3, 0)] eq_refl) as [o' [calls E]]. exists bc, o', calls. cbv zeta. split; [exact B|]. split; [exact E|].
  destruct (C98_fluxes_meet_the_hypotheses float_states (proj2 C98_arrays_round)) as [Q _].
  refine (proj1 (C99_constant_states_are_kept float_states rnd rnd HA Z (Some neg) ["wall"%string] "wall" "wall" (Wall neg) (Wall neg) None None bc (lax_friedrichs (H := float_states) rs) (1 / 2) (3, 0) 2 heun [1 / 10; 1 / 5] 0 o' calls _ _ _ _ _ B _ _ _ _ _ _ E)); cbn; auto.
  - unfold neg. cbn. f_equal. ring.
  - unfold neg. cbn. f_equal. ring.
  - apply (Q rs true).
  - intro k. apply (Q rs k).
  - intro k. apply (Q rs k).
  - intros [|]; apply D; [apply double_Z; lia|apply double_0].
Qed.
