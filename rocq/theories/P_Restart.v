(** C99: runs can be interrupted and continued, bit for bit, and do not depend on the start time unless water flows in *)
From Coq Require Import Reals Lra Lia ZArith String List Arith Bool.
From Verif Require Import Prelude L_Prelude M_Boundary L_Boundary M_Flux S_Flux L_Flux M_ODE M_FloatStepping M_FloatODE S_FloatMass P_FloatMass.
Import ListNotations.
Open Scope R_scope.
Local Open Scope list_scope.
Notation length := List.length.

Lemma mapM_same {A B} (f h : A -> result B) l : (forall x, In x l -> f x = h x) -> mapM f l = mapM h l.
Proof. induction l as [|a l IH]; intro E; auto. cbn [mapM]. rewrite (E a), IH; auto; [intros x Hx; apply E; right; exact Hx|left; reflexivity]. Qed.
Lemma mapM_made_by {A B} (f : A -> result B) l : forall r, mapM f l = Ok r -> forall y, In y r -> exists x, f x = Ok y.
Proof.
  induction l as [|a l IH]; intros r E y Hy; cbn [mapM] in E; [injection E as <-; destruct Hy|]. apply bind_ok in E as [b [E1 E]]. apply bind_ok in E as [bs [E2 E]]. injection E as <-.
  destruct Hy as [<-|Hy]; eauto.
Qed.

Section Restart.
Context {W : Type} (H : CellOps W) (clock : R -> R) (nf : nflux W) (dx : R).
Context (wall : option (W -> W)) (conds : list string) (bc : bconds W) (B : get_boundary_conditions wall conds (Nat.div (nf_dim nf) 2) None None = Ok bc).

Lemma no_inflow_cell : forall c, In c (bc_left bc ++ bc_right bc) -> forall v t s, ghost_value c v t = ghost_value c v s.
Proof.
  intros c Hc. unfold get_boundary_conditions in B. destruct conds as [|cl rest]; [discriminate|]. cbv zeta in B. apply bind_ok in B as [l [El B1]]. apply bind_ok in B1 as [r [Er B1]].
  unfold mk_bconds in B1. destruct (Nat.even (length (l ++ r))); [|discriminate]. injection B1 as <-. cbn [bc_left bc_right] in Hc. rewrite firstn_skipn in Hc.
  assert (Q : forall f, c <> InflowCell f).
  { intros f Z. subst c. apply in_app_or in Hc as [Hc|Hc].
    - destruct (mapM_made_by _ _ _ El _ Hc) as [i Ei]. unfold build_left in Ei. destruct (if String.eqb cl "wall" then wall else None); [discriminate|]. destruct (String.eqb cl "periodic"); [discriminate|]. destruct (String.eqb cl "outflow"); [discriminate|]. destruct (String.eqb cl "inflow"); discriminate.
    - destruct (mapM_made_by _ _ _ Er _ Hc) as [i Ei]. set (cr := match rest with [] => cl | x :: _ => x end) in *. unfold build_right in Ei. destruct (if String.eqb cr "wall" then wall else None); [discriminate|]. destruct (String.eqb cr "periodic"); [discriminate|]. destruct (String.eqb cr "outflow"); [discriminate|]. destruct (String.eqb cr "inflow"); discriminate. }
  intros v t s. destruct c as [z|f|neg|neg]; auto. destruct (Q f eq_refl).
Qed.
Lemma rhs_any_time t s u : fv_rhs nf dx bc t u = fv_rhs nf dx bc s u.
Proof.
  unfold fv_rhs, get_node_neighbours. f_equal. f_equal. unfold extended.
  rewrite (mapM_same (fun g => ghost_value g u (Some t)) (fun g => ghost_value g u (Some s)) (bc_left bc)) by (intros x Hx; apply no_inflow_cell, in_or_app; auto).
  rewrite (mapM_same (fun g => ghost_value g u (Some t)) (fun g => ghost_value g u (Some s)) (bc_right bc)) by (intros x Hx; apply no_inflow_cell, in_or_app; auto). reflexivity.
Qed.
Lemma stages_any_time T dt t s u is : forall calls calls0 ks calls' ks', map snd calls = map snd calls0 ->
  rkf_stages clock (fv_rhs nf dx bc) T dt {| o_time := t; o_sol := u |} is calls ks = Ok (calls', ks') ->
  exists calls1, rkf_stages clock (fv_rhs nf dx bc) T dt {| o_time := s; o_sol := u |} is calls0 ks = Ok (calls1, ks') /\ map snd calls' = map snd calls1.
Proof.
  induction is as [|i is IH]; intros calls calls0 ks calls' ks' Hc E; cbn [rkf_stages o_time o_sol] in *; [injection E as <- <-; eauto|].
  apply bind_ok in E as [k [Ek E]]. rewrite (rhs_any_time _ (clock (t + clock (nth i (rk_c T) 0 * dt)))), Ek. cbn [bind]. eapply IH; [|exact E]. rewrite !map_app, Hc. reflexivity.
Qed.
Lemma run_any_time T dts : forall t s u t' u' calls, rkf_run clock (fv_rhs nf dx bc) T dts {| o_time := t; o_sol := u |} = Ok ({| o_time := t'; o_sol := u' |}, calls) ->
  exists s' calls1, rkf_run clock (fv_rhs nf dx bc) T dts {| o_time := s; o_sol := u |} = Ok ({| o_time := s'; o_sol := u' |}, calls1) /\ map snd calls = map snd calls1.
Proof.
  induction dts as [|dt dts IH]; intros t s u t' u' calls E; cbn [rkf_run] in *; [injection E as <- <- <-; eauto|].
  apply bind_ok in E as [[o1 c1] [E1 E]]. apply bind_ok in E as [[o2 c2] [E2 E]]. cbn [fst snd] in *. injection E as -> <-.
  unfold rkf_execute in *. apply bind_ok in E1 as [[cc ks] [E1 Q]]. cbn [fst snd o_time o_sol] in *. injection Q as <- <-.
  destruct (stages_any_time T dt t s u _ _ _ _ _ _ eq_refl E1) as [cc1 [X Y]]. rewrite X. cbn [bind fst snd]. destruct (IH _ (clock (s + dt)) _ _ _ _ E2) as [s' [c3 [K1 K2]]]. rewrite K1. cbn [bind fst snd]. exists s', (cc1 ++ c3). split; [reflexivity|]. rewrite !map_app, Y, K2. reflexivity.
Qed.
End Restart.

(** Interrupting a run: the first steps, then the others from the state that was reached, give the same state at the same time. For every right hand side. *)
Theorem C99_interrupted_runs : forall (V : Type) (H : VecOps V) (clock : R -> R) (f : R -> V -> result V) T dts1 dts2 o o2 calls,
  rkf_run clock f T (dts1 ++ dts2) o = Ok (o2, calls) <->
  exists o1 calls1 calls2, rkf_run clock f T dts1 o = Ok (o1, calls1) /\ rkf_run clock f T dts2 o1 = Ok (o2, calls2) /\ calls = calls1 ++ calls2.
Proof.
  intros V H clock f T dts1. induction dts1 as [|dt dts1 IH]; intros dts2 o o2 calls; cbn [app rkf_run].
  - split; [intro E; exists o, [], calls; auto|]. intros [o1 [c1 [c2 [E1 [E2 ->]]]]]. injection E1 as <- <-. exact E2.
  - destruct (rkf_execute clock f T dt o) as [[o1 c1]|e]; cbn [bind fst snd]; [|split; [discriminate|intros [? [? [? [E _]]]]; discriminate]]. split.
    + intro E. apply bind_ok in E as [[o3 c3] [E E3]]. cbn [fst snd] in E3. injection E3 as <- <-. apply IH in E as [oa [ca [cb [Ea [Eb ->]]]]]. exists oa, (c1 ++ ca), cb. rewrite Ea. cbn [bind fst snd]. rewrite app_assoc. auto.
    + intros [oa [ca [cb [Ea [Eb ->]]]]]. apply bind_ok in Ea as [[o3 c3] [Ea E3]]. cbn [fst snd] in E3. injection E3 as <- <-. rewrite (proj2 (IH dts2 o1 o2 (c3 ++ cb))) by (eexists; eexists; eexists; split; [exact Ea|split; [exact Eb|reflexivity]]). cbn [bind fst snd]. rewrite app_assoc. reflexivity.
Qed.
Print Assumptions C99_interrupted_runs.

(** Another start time: without inflow the same values in all stages and at the end, bit for bit. For every flux, in any arithmetic. *)
Theorem C99_start_times : forall (W : Type) (H : CellOps W) (clock : R -> R) (nf : nflux W) dx wall conds bc T dts t s u t' u' calls,
  get_boundary_conditions wall conds (Nat.div (nf_dim nf) 2) None None = Ok bc ->
  rkf_run clock (fv_rhs nf dx bc) T dts {| o_time := t; o_sol := u |} = Ok ({| o_time := t'; o_sol := u' |}, calls) ->
  exists s' calls1, rkf_run clock (fv_rhs nf dx bc) T dts {| o_time := s; o_sol := u |} = Ok ({| o_time := s'; o_sol := u' |}, calls1) /\ map snd calls = map snd calls1.
Proof. intros W H clock nf dx wall conds bc T dts t s u t' u' calls B. exact (run_any_time H clock nf dx wall conds bc B T dts t s u t' u' calls). Qed.
Print Assumptions C99_start_times.

(** the step in double precision of C98 from another time *)
Example C99_start_times_ex : exists bc s' u' calls,
  rkf_run rnd (H := list_VecOps (H := float_cells)) (fv_rhs (H := float_cells) (lax_friedrichs (H := float_cells) right_moving) 1 bc) euler ([1 / 8] ++ []) {| o_time := 7; o_sol := [3377699720527872; 1] |} = Ok ({| o_time := s'; o_sol := u' |}, calls) /\
  total (H := float_cells) true u' <> total (H := float_cells) true [3377699720527872; 1].
Proof.
  destruct C98_rounding_changes_mass as [bc [[t' u'] [calls [B [E [_ N]]]]]]. cbv zeta in *. cbn [o_sol] in N.
  assert (RUN : rkf_run rnd (H := list_VecOps (H := float_cells)) (fv_rhs (H := float_cells) (lax_friedrichs (H := float_cells) right_moving) 1 bc) euler [1 / 8] {| o_time := 0; o_sol := [3377699720527872; 1] |} = Ok ({| o_time := t'; o_sol := u' |}, calls ++ [])) by (cbn [rkf_run]; rewrite E; reflexivity).
  destruct (C99_start_times R float_cells rnd (lax_friedrichs (H := float_cells) right_moving) 1 None ["periodic"%string] bc euler [1 / 8] 0 7 _ _ _ _ B RUN) as [s' [c1 [X _]]]. exists bc, s', u', c1. split; [exact X|exact N].
Qed.
