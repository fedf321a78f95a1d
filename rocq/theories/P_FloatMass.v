(** C98: finite volume runs in double precision conserve mass up to rounding *)
From Coq Require Import Reals Lra Lia ZArith String List Arith Bool.
From Flocq Require Import Core.Core.
From Verif Require Import Prelude L_Prelude M_Boundary M_Flux S_Flux L_Flux M_ODE S_ODE L_ODE M_FloatStepping L_Floats M_FloatODE S_FloatMass L_FloatMass.
Import ListNotations.
Open Scope R_scope.
Local Open Scope list_scope.
Notation length := List.length.

(** The rounded arithmetic of numpy arrays, for scalar problems and for the shallow water equations. *)
Theorem C98_arrays_round : rounded float_cells /\ rounded float_states.
Proof. split; split; try reflexivity; intros k; destruct k; reflexivity. Qed.
Print Assumptions C98_arrays_round.

(** ** Without rounding the model is the one of M_ODE *)
Section Exact.
Context {V : Type} `{VV : VecOps V} (D : V -> Prop) `{VL : !VecLaws V D}.

Lemma lsum_wsum cs : forall acc ks, D acc -> Forall D ks ->
  match wsum cs ks with None => lsum acc cs ks = acc | Some s => D s /\ lsum acc cs ks = vadd acc s end.
Proof.
  induction cs as [|c cs IH]; intros acc [|k ks] Ha Hk; try reflexivity. inversion Hk as [|? ? Hk1 Hk2]; subst. cbn [lsum wsum].
  assert (Hc := vdom_scal c k Hk1). assert (Hac := vdom_add _ _ Ha Hc). specialize (IH (vadd acc (vscal c k)) ks Hac Hk2). destruct (wsum cs ks) as [s|].
  - destruct IH as [Ds E]. split; [apply vdom_add; auto|]. rewrite E. apply vcoord_ext; [auto using vdom_add|auto using vdom_add|]. intro p. rewrite !vcoord_add by auto using vdom_add. ring.
  - split; auto.
Qed.
Lemma wsum_left_wsum cs ks : Forall D ks -> wsum_left cs ks = wsum cs ks.
Proof.
  intro Hk. destruct cs as [|c cs], ks as [|k ks]; try reflexivity. inversion Hk as [|? ? Hk1 Hk2]; subst. cbn [wsum_left wsum].
  assert (L := lsum_wsum cs (vscal c k) ks (vdom_scal c k Hk1) Hk2). destruct (wsum cs ks) as [w|]; [destruct L as [_ L]|]; rewrite L; reflexivity.
Qed.
Lemma axpy_dom u dt cs ks : D u -> Forall D ks -> D (axpy u dt (wsum_left cs ks)).
Proof.
  intros Hu Hk. rewrite wsum_left_wsum by exact Hk. assert (L := lsum_wsum cs u ks Hu Hk). destruct (wsum cs ks); cbn [axpy]; [|exact Hu]. apply vdom_add; [exact Hu|]. apply vdom_scal, L.
Qed.

Lemma stages_exact f T dt o : (forall t u v, D u -> f t u = Ok v -> D v) -> D (o_sol o) -> forall is calls ks tns svs, Forall D ks ->
  match rkf_stages (fun x => x) f T dt o is calls ks, foldM (rk_stage_e f T dt o) is (tns, svs, ks) with
  | Ok (_, ks1), Ok (_, _, ks2) => ks1 = ks2 /\ Forall D ks1
  | Err e1, Err e2 => e1 = e2
  | _, _ => False
  end.
Proof.
  intros Hf Ho. induction is as [|i is IH]; intros calls ks tns svs Hk; cbn [rkf_stages foldM]; [auto|].
  set (st := rk_stage_e f T dt o (tns, svs, ks) i). unfold rk_stage_e in st. cbv beta iota zeta in st. subst st. rewrite <- (wsum_left_wsum _ _ Hk). assert (Hs := axpy_dom (o_sol o) dt (firstn i (nth i (rk_A T) [])) ks Ho Hk).
  destruct (f _ _) as [k|e] eqn:E; cbn [bind]; [|reflexivity]. apply IH. apply Forall_app. split; [exact Hk|]. constructor; [|constructor]. exact (Hf _ _ _ Hs E).
Qed.

Theorem C98_exact_arithmetic : forall f T dts o, (forall t u v, D u -> f t u = Ok v -> D v) -> D (o_sol o) ->
  bind (rkf_run (fun x => x) f T dts o) (fun p => Ok (fst p)) = rk_run_e f T dts o.
Proof.
  intros f T dts o Hf. revert o. unfold rk_run_e. induction dts as [|dt dts IH]; intros o Ho; [reflexivity|]. cbn [rkf_run foldM]. unfold rkf_execute, rk_execute_e at 1.
  assert (E := stages_exact f T dt o Hf Ho (seq 0 (length (rk_b T))) [] [] [] [] (Forall_nil _)).
  destruct (rkf_stages _ f T dt o _ [] []) as [[c ks1]|e1], (foldM _ _ ([], [], [])) as [[[tn sv] ks2]|e2]; cbn [bind fst snd]; try contradiction; [|subst; reflexivity].
  destruct E as [<- Hk]. rewrite <- (wsum_left_wsum _ _ Hk), <- IH by (cbn [o_sol]; apply axpy_dom; auto). destruct (rkf_run _ _ _ _ _) as [[o2 c2]|]; reflexivity.
Qed.
End Exact.
Print Assumptions C98_exact_arithmetic.
Example C98_exact_ex : exists o, bind (rkf_run (fun x => x) (fun t (u : R) => Ok (u + t)) heun [1; 2] {| o_time := 0; o_sol := 1 |}) (fun p => Ok (fst p)) = Ok o /\ o_time o = 3.
Proof.
  rewrite (C98_exact_arithmetic (fun _ : R => True)) by auto. eexists. split; [reflexivity|]. cbn [o_time]. ring.
Qed.

Section Run.
Context {W : Type} (H : CellOps W) (HR : rounded H) (r : R -> R).

Lemma lsum_length n (acc : list W) cs ks : length acc = n -> Forall (fun v => length v = n) ks -> length (lsum acc cs ks) = n.
Proof.
  revert acc ks. induction cs as [|c cs IH]; intros acc [|v ks] La Hk; auto. inversion Hk; subst. cbn [lsum]. apply IH; auto.
  unfold vadd, vscal; cbn. rewrite map2_length, map_length. lia.
Qed.
Lemma stage_length n (u : list W) dt cs ks : length u = n -> Forall (fun v => length v = n) ks -> length (axpy u dt (wsum_left cs ks)) = n.
Proof.
  intros Lu Hk. destruct cs as [|c cs], ks as [|v ks]; auto. inversion Hk; subst. cbn [wsum_left axpy].
  assert (L : length (lsum (vscal c v) cs ks) = length u). { apply lsum_length; auto. unfold vscal; cbn. rewrite map_length. exact H2. }
  generalize dependent (lsum (vscal c v) cs ks). intros l L. change (length (map2 cadd u (map (cscal dt) l)) = length u). rewrite map2_length, map_length, L. lia.
Qed.

Lemma stages_calls f T dt (o : ode (list W)) is : forall calls ks calls' ks', rkf_stages r f T dt o is calls ks = Ok (calls', ks') -> exists more, calls' = calls ++ more.
Proof.
  induction is as [|i is IH]; intros calls ks calls' ks' E; cbn [rkf_stages] in E.
  - injection E as <- <-. exists []. symmetry. apply app_nil_r.
  - apply bind_ok in E as [v [Ev E]]. destruct (IH _ _ _ _ E) as [m ->]. eexists. rewrite <- app_assoc. reflexivity.
Qed.

Lemma stages_property f T dt (o : ode (list W)) (Q : list W -> Prop) n is : length (o_sol o) = n -> (forall v, Q v -> length v = n) ->
  forall calls ks calls' ks', rkf_stages r f T dt o is calls ks = Ok (calls', ks') ->
  (forall t u v, In (t, u) calls' -> length u = n -> f t u = Ok v -> Q v) -> Forall Q ks -> Forall Q ks' /\ length ks' = (length ks + length is)%nat.
Proof.
  intros Lo HQ. induction is as [|i is IH]; intros calls ks calls' ks' E Hf Hk; cbn [rkf_stages] in E.
  - injection E as <- <-. split; auto.
  - apply bind_ok in E as [v [Ev E]]. destruct (stages_calls _ _ _ _ _ _ _ _ _ E) as [m Em].
    destruct (IH _ _ _ _ E Hf) as [F L]. { apply Forall_app. split; auto. constructor; auto. eapply Hf; [|apply stage_length; [exact Lo|]|exact Ev].
      - rewrite Em. apply in_or_app; left. apply in_or_app; right. left. reflexivity.
      - eapply Forall_impl; [|exact Hk]. exact HQ. }
    split; auto. rewrite L, app_length. cbn. lia.
Qed.

(** ** One step *)
Theorem C98_step_conserves_mass_up_to_rounding : forall wall il ir bc (nf : nflux W) k dx T dt M F o o' calls,
  get_boundary_conditions wall ["periodic"%string] (Nat.div (nf_dim nf) 2) il ir = Ok bc -> (2 <= nf_dim nf)%nat -> (Nat.div (nf_dim nf) 2 <= length (o_sol o))%nat ->
  one_per_node nf -> single_valued k nf -> local_flux k nf ->
  (1 <= length (rk_b T) <= 1000)%nat -> Forall (fun w => Rabs w <= 1) (rk_b T) ->
  0 < dx -> 0 < dt -> smallest_normal <= 2 * F -> smallest_normal <= 2 * F / dx -> smallest_normal <= dt * (2 * F / dx) ->
  rkf_execute r (fv_rhs nf dx bc) T dt o = Ok (o', calls) ->
  Forall (call_within H nf bc k M F) calls ->
  let s := INR (length (rk_b T)) in
  length (o_sol o') = length (o_sol o) /\
  Rabs (total k (o_sol o') - total k (o_sol o)) <= INR (length (o_sol o)) * unit_roundoff * (M + 4 * s * (s + 4) * F * dt / dx).
Proof.
  intros wall il ir bc nf k dx T dt M F o o' calls B Hd Hn O SV LF HT Hw Hdx Hdt HF HS HS2 E HC. cbv zeta.
  set (n := length (o_sol o)) in *. set (Q := 2 * F / dx) in *. assert (P := small_pos). assert (Ep := eps_pos).
  unfold rkf_execute in E. apply bind_ok in E as [[c ks] [E1 E]]. cbn [fst snd] in E. injection E as <- <-. cbn [o_sol].
  destruct (stages_property _ _ _ _ (near H k n Q 2) n _ eq_refl (fun v N => proj1 N) _ _ _ _ E1) as [Nk Lk]; auto.
  { intros t u v Hin Lu Ev. rewrite Forall_forall in HC. eapply rhs_near; eauto; exact (HC _ Hin). }
  rewrite seq_length in Lk. cbn in Lk.
  assert (HM : (forall x, In x (o_sol o) -> Rabs (ccoord k x) <= M)).
  { destruct (rk_b T) as [|b bs] eqn:Eb; [cbn in HT; lia|]. cbn [length seq rkf_stages] in E1. apply bind_ok in E1 as [v [Ev E1]]. destruct (stages_calls _ _ _ _ _ _ _ _ _ E1) as [m Em].
    rewrite Forall_forall in HC. cbn [firstn wsum_left axpy app] in Em. assert (C := HC _ ltac:(rewrite Em; left; reflexivity)). exact (proj1 C). }
  destruct (wsum_left (rk_b T) ks) as [s|] eqn:Es.
  2:{ destruct (rk_b T), ks; cbn in *; try lia; discriminate. }
  assert (Ns := wsum_left_near H HR k n Q (rk_b T) ks s HS Hw Nk (eq_sym Lk) Es).
  set (S0 := INR (length (rk_b T))) in *. assert (S1 : 1 <= S0) by (apply (le_INR 1); lia). assert (S2 : S0 <= 1000). { replace 1000 with (INR 1000) by (rewrite INR_IZR_INZ; reflexivity). apply le_INR. lia. }
  assert (M0 : 0 <= M). { destruct (o_sol o) as [|x l] eqn:Eo. { cbn in n. subst n. assert (1 <= nf_dim nf / 2)%nat by (apply Nat.div_le_lower_bound; lia). lia. } eapply Rle_trans; [apply Rabs_pos|apply (HM x); left; reflexivity]. }
  destruct (axpy_near H HR k n dt (S0 * Q) (length (rk_b T) + 2) s (o_sol o) M) as [LL TT]; auto; try nra.
  split; [exact LL|]. eapply Rle_trans; [exact TT|]. rewrite (Rmult_assoc (INR n) unit_roundoff). apply Rmult_le_compat_l; [apply pos_INR|].
  assert (PL := pow_linear (length (rk_b T) + 2 + 2)). replace (INR (length (rk_b T) + 2 + 2)) with (S0 + 4) in PL by (rewrite !plus_INR; unfold S0; simpl; ring).
  assert (ES := eps_small). assert (PL' : (1 + unit_roundoff) ^ (length (rk_b T) + 2 + 2) - 1 <= 2 * (S0 + 4) * unit_roundoff) by (apply PL; nra).
  assert (A0 : 0 <= dt * (S0 * Q)) by nra. assert (K := Rmult_le_compat_l _ _ _ A0 PL'). unfold Q in K at 2. unfold Rdiv in *. lra.
Qed.

(** ** Runs *)
Theorem C98_runs_conserve_mass_up_to_rounding : forall wall il ir bc (nf : nflux W) k dx T dts M F o o' calls,
  get_boundary_conditions wall ["periodic"%string] (Nat.div (nf_dim nf) 2) il ir = Ok bc -> (2 <= nf_dim nf)%nat -> (Nat.div (nf_dim nf) 2 <= length (o_sol o))%nat ->
  one_per_node nf -> single_valued k nf -> local_flux k nf ->
  (1 <= length (rk_b T) <= 1000)%nat -> Forall (fun w => Rabs w <= 1) (rk_b T) ->
  0 < dx -> smallest_normal <= 2 * F -> smallest_normal <= 2 * F / dx -> Forall (fun dt => 0 < dt /\ smallest_normal <= dt * (2 * F / dx)) dts ->
  rkf_run r (fv_rhs nf dx bc) T dts o = Ok (o', calls) ->
  Forall (call_within H nf bc k M F) calls ->
  let s := INR (length (rk_b T)) in
  length (o_sol o') = length (o_sol o) /\
  Rabs (total k (o_sol o') - total k (o_sol o)) <= INR (length (o_sol o)) * unit_roundoff * (INR (length dts) * M + 4 * s * (s + 4) * F * rsum dts / dx).
Proof.
  intros wall il ir bc nf k dx T dts M F o o' calls B Hd Hn O SV LF HT Hw Hdx HF HS Hdts. revert o o' calls Hn.
  induction Hdts as [|dt dts [D1 D2] _ IH]; intros o o' calls Hn E HC; cbn [rkf_run] in E; cbv zeta in *.
  - injection E as <- <-. split; auto. replace (total k (o_sol o) - total k (o_sol o)) with 0 by ring. rewrite Rabs_R0. cbn [length INR]. unfold rsum. cbn [fold_right]. right. unfold Rdiv. ring.
  - apply bind_ok in E as [[o1 c1] [E1 E]]. apply bind_ok in E as [[o2 c2] [E2 E]]. cbn [fst snd] in *. injection E as <- <-. apply Forall_app in HC as [HC1 HC2].
    destruct (C98_step_conserves_mass_up_to_rounding wall il ir bc nf k dx T dt M F o o1 c1) as [L1 R1]; auto.
    destruct (IH o1 o2 c2) as [L2 R2]; auto; [lia|]. split; [lia|]. rewrite L1 in R2.
    replace (total k (o_sol o2) - total k (o_sol o)) with ((total k (o_sol o2) - total k (o_sol o1)) + (total k (o_sol o1) - total k (o_sol o))) by ring.
    eapply Rle_trans; [apply Rabs_triang|]. cbn [length]. rewrite S_INR. change (rsum (dt :: dts)) with (dt + rsum dts). unfold Rdiv in *. lra.
Qed.

(** ** The fluxes of numerical_flux.py meet the hypotheses also in double precision *)
Lemma rnd_opp x : rnd (- x) = - rnd x. Proof. apply round_NE_opp. Qed.
Lemma two_point_single g k : (forall l r v, g l r = Ok v -> double (ccoord k v)) -> single_valued k (two_point g).
Proof.
  intros D a fl fr m Ha E i Hi. destruct (two_point_call g a fl fr m Ha E) as [vl [vr [_ [_ [_ [-> [Hf Hg]]]]]]].
  unfold vneg. rewrite (nth_map' _ _ i czero) by lia. unfold copp. rewrite (proj2 HR). replace (-1 * ccoord k (nth i fr czero)) with (- ccoord k (nth i fr czero)) by ring.
  rewrite rnd_opp, rnd_double; [reflexivity|]. eapply D. exact (Hg i Hi).
Qed.
Theorem C98_fluxes_meet_the_hypotheses :
  (forall (rs : riemann W) k, one_per_node (lax_friedrichs rs) /\ single_valued k (lax_friedrichs rs) /\ local_flux k (lax_friedrichs rs)) /\
  (forall (f : W -> result W) k, one_per_node (central f) /\ single_valued k (central f) /\ local_flux k (central f)) /\
  (forall gamma dx k, one_per_node (linear_antidiffusive (W := W) gamma dx) /\ single_valued k (linear_antidiffusive (W := W) gamma dx) /\ local_flux k (linear_antidiffusive (W := W) gamma dx)) /\
  (forall (nf : nflux W) k, one_per_node nf -> single_valued k nf -> local_flux k nf ->
     one_per_node (arbitrary_input nf) /\ single_valued k (arbitrary_input nf) /\ local_flux k (arbitrary_input nf)) /\
  (forall (nf fc : nflux W) k, one_per_node nf -> single_valued k nf -> local_flux k nf -> one_per_node fc -> single_valued k fc -> local_flux k fc ->
     one_per_node (corrected nf fc) /\ single_valued k (corrected nf fc) /\ local_flux k (corrected nf fc)).
Proof.
  repeat match goal with |- _ /\ _ => split end.
  - intros rs k. destruct (good_ext _ _ (lax_friedrichs_two_point rs)) as [A [B C]]. split; [|split]; [apply A; apply two_point_one_per_node|apply B|apply C; apply two_point_local].
    apply two_point_single. intros l rr v E. apply bind_ok in E as [o [Eo E]]. injection E as <-. unfold rs_solve in Eo. apply bind_ok in Eo as [fl [_ Eo]]. apply bind_ok in Eo as [fr [_ Eo]].
    destruct (rs_speed rs l rr) as [sl sr]. apply bind_ok in Eo as [fa [_ Eo]]. injection Eo as <-. cbn [ro_flux]. unfold csub. rewrite (proj1 HR). apply double_rnd.
  - intros f k. split; [|split]; [apply (two_point_one_per_node (central_at f))|apply (two_point_single (central_at f))|apply (two_point_local (central_at f))].
    intros l rr v E. unfold central_at in E. apply bind_ok in E as [fl [_ E]]. apply bind_ok in E as [fr [_ E]]. injection E as <-. rewrite (proj2 HR). apply double_rnd.
  - intros gamma dx k. destruct (good_ext _ _ (antidiffusive_two_point (W := W) gamma dx)) as [A [B C]]. split; [|split]; [apply A; apply two_point_one_per_node|apply B|apply C; apply two_point_local].
    apply two_point_single. intros l rr v E. apply bind_ok in E as [fa [_ E]]. injection E as <-. rewrite (proj2 HR). apply double_rnd.
  - intros nf k O S L. destruct (arbitrary_good nf) as [A [B C]]. auto.
  - intros nf fc k O1 S1 L1 O2 S2 L2. apply (proj1 (arbitrary_good nf)) in O1. apply (proj1 (proj2 (arbitrary_good nf))) in S1. apply (proj2 (proj2 (arbitrary_good nf))) in L1.
    apply (proj1 (arbitrary_good fc)) in O2. apply (proj1 (proj2 (arbitrary_good fc))) in S2. apply (proj2 (proj2 (arbitrary_good fc))) in L2.
    assert (P : forall a fl fr m, Forall (fun v => length v = m) a -> nf_call (corrected nf fc) a = Ok (fl, fr) ->
      exists fl1 fr1 fl2 fr2, nf_call (arbitrary_input nf) a = Ok (fl1, fr1) /\ nf_call (arbitrary_input fc) a = Ok (fl2, fr2) /\
        length fl1 = m /\ length fr1 = m /\ length fl2 = m /\ length fr2 = m /\ fl = map2 cadd fl1 fl2 /\ fr = map2 cadd fr1 fr2).
    { intros a fl fr m Ha C. cbn [corrected nf_call] in C. apply bind_ok in C as [[fl1 fr1] [E1 C]]. apply bind_ok in C as [[fl2 fr2] [E2 C]]. cbn [fst snd] in C. injection C as <- <-.
      exists fl1, fr1, fl2, fr2. destruct (O1 a fl1 fr1 m Ha E1), (O2 a fl2 fr2 m Ha E2). repeat split; auto. }
    split; [|split].
    + intros a fl fr m Ha C. destruct (P _ _ _ _ Ha C) as [fl1 [fr1 [fl2 [fr2 [E1 [E2 [A1 [A2 [A3 [A4 [-> ->]]]]]]]]]]]. rewrite !map2_length. lia.
    + intros a fl fr m Ha C i Hi. destruct (P _ _ _ _ Ha C) as [fl1 [fr1 [fl2 [fr2 [E1 [E2 [A1 [A2 [A3 [A4 [-> ->]]]]]]]]]]].
      rewrite (nth_map2 cadd fl1 fl2 i czero czero), (nth_map2 cadd fr1 fr2 i czero czero) by lia. rewrite !(proj1 HR), (S1 a fl1 fr1 m Ha E1 i Hi), (S2 a fl2 fr2 m Ha E2 i Hi), <- rnd_opp. f_equal. ring.
    + intros a fl fr m i j Ha C Hi Hj Hv. destruct (P _ _ _ _ Ha C) as [fl1 [fr1 [fl2 [fr2 [E1 [E2 [A1 [A2 [A3 [A4 [-> ->]]]]]]]]]]].
      rewrite !(nth_map2 cadd fr1 fr2 _ czero czero) by lia. rewrite !(proj1 HR), (L1 a fl1 fr1 m i j Ha E1 Hi Hj Hv), (L2 a fl2 fr2 m i j Ha E2 Hi Hj Hv). reflexivity.
Qed.
End Run.
Print Assumptions C98_step_conserves_mass_up_to_rounding.
Print Assumptions C98_runs_conserve_mass_up_to_rounding.
Print Assumptions C98_fluxes_meet_the_hypotheses.

(** the weights of the time stepping methods, as doubles *)
Theorem C98_methods_meet_the_hypotheses : forall T, In T [euler; heun; ssp3; rk8] ->
  (1 <= length (map rnd (rk_b T)) <= 1000)%nat /\ Forall (fun w => Rabs w <= 1) (map rnd (rk_b T)).
Proof.
  assert (W : forall w, Rabs w <= 1 -> Rabs (rnd w) <= 1).
  { intros w A. apply Rabs_le_inv in A as [A1 A2]. assert (D1 : double 1) by (apply double_Z; lia). apply Rabs_le. split.
    - change (-1) with (-(1)). rewrite <- (rnd_double (-(1)) (double_opp 1 D1)). apply rnd_le. lra.
    - rewrite <- (rnd_double 1 D1). apply rnd_le. exact A2. }
  intros T HT. cbn [In] in HT. split.
  - rewrite map_length. repeat destruct HT as [<-|HT]; try (cbn; lia); contradiction.
  - rewrite Forall_map. repeat destruct HT as [<-|HT]; try contradiction; cbn [euler heun ssp3 rk8 rk_b]; try unfold rk8_b; repeat (apply Forall_cons; [apply W, Rabs_le; lra|]); apply Forall_nil.
Qed.
Print Assumptions C98_methods_meet_the_hypotheses.

(** ** The bound is not zero
    Upwind advection of two cells by Euler steps: all intermediate results but one are doubles. *)
Definition right_moving : riemann R := {| rs_flux := fun u => Ok u; rs_speed := fun _ _ => (-1, 1) |}.
Lemma right_moving_flux x y : double x -> double y -> double (x + y) -> double (y - x) -> double (2 * x) ->
  bind (rs_solve (H := float_cells) right_moving x y) (fun o => Ok (ro_flux o)) = Ok x.
Proof.
  intros Dx Dy Ds Dd D2. unfold rs_solve. cbn [rs_flux rs_speed right_moving bind]. unfold rdiv. destruct (Reqb_spec (1 - -1) 0) as [Z|_]; [lra|]. cbn [bind ro_flux]. f_equal.
  unfold csub, copp. cbn [cadd cscal float_cells].
  replace (1 * y) with y by ring. replace (-1 * x) with (- x) by ring. rewrite (rnd_double y Dy), (rnd_double _ (double_opp _ Dx)).
  replace (-1 * - x) with x by ring. rewrite (rnd_double x Dx). replace (y + x) with (x + y) by ring. rewrite (rnd_double _ Ds).
  replace (y + - x) with (y - x) by ring. rewrite (rnd_double _ Dd). replace (-1 * (y - x)) with (- (y - x)) by ring. rewrite (rnd_double _ (double_opp _ Dd)).
  replace (x + y + - (y - x)) with (2 * x) by ring. rewrite (rnd_double _ D2). replace (1 / (1 - -1) * (2 * x)) with x by lra. rewrite (rnd_double x Dx).
  replace (-1 * x) with (- x) by ring. rewrite (rnd_double _ (double_opp _ Dx)). replace (x + - x) with 0 by ring. rewrite (rnd_double 0 double_0).
  replace (-1 * 0) with 0 by ring. rewrite !(rnd_double 0 double_0). replace (-1 * 0) with 0 by ring. rewrite !(rnd_double 0 double_0), Rplus_0_r. apply rnd_double, Dx.
Qed.

Lemma big_doubles_halves x : double x -> 2251799813685248 <= x -> exists z, x * 2 = IZR z.
Proof.
  intros D B. apply FLT_format_generic in D; [|reflexivity]. destruct D as [[m e] D1 D2 D3]. cbn in D2, D3. unfold F2R in D1; cbn [Fnum Fexp] in D1.
  destruct (Z_lt_le_dec e (-1)) as [E|E].
  - exfalso. assert (Rabs x < 2251799813685248); [|rewrite Rabs_pos_eq in H; lra]. rewrite D1, Rabs_mult, (Rabs_pos_eq (bpow _ _)) by apply bpow_ge_0. rewrite <- abs_IZR.
    assert (A : IZR (Z.abs m) < 9007199254740992) by (apply IZR_lt; exact D2). assert (C : bpow radix2 e <= / 4) by (apply (bpow_le radix2 e (-2)); lia).
    assert (P := bpow_gt_0 radix2 e). assert (0 <= IZR (Z.abs m)) by (apply IZR_le, Z.abs_nonneg). nra.
  - exists (m * Zpower radix2 (e + 1))%Z. rewrite mult_IZR, IZR_Zpower, D1, bpow_plus by lia. change (bpow radix2 1) with 2. ring.
Qed.

Theorem C98_rounding_changes_mass : exists bc o' calls,
  let nf := lax_friedrichs (H := float_cells) right_moving in
  let o := {| o_time := 0; o_sol := [3377699720527872; 1] |} in
  get_boundary_conditions (W := R) None ["periodic"%string] (Nat.div (nf_dim nf) 2) None None = Ok bc /\
  rkf_execute rnd (H := list_VecOps (H := float_cells)) (fv_rhs (H := float_cells) nf 1 bc) euler (1 / 8) o = Ok (o', calls) /\
  Forall (call_within float_cells nf bc true 3377699720527872 3377699720527872) calls /\
  total (H := float_cells) true (o_sol o') <> total (H := float_cells) true (o_sol o).
Proof.
  set (b := 3377699720527872). assert (Db : double b) by (apply double_Z; lia). assert (D1 : double 1) by (apply double_Z; lia).
  assert (Ds : double (b + 1)) by (unfold b; replace (3377699720527872 + 1) with (IZR 3377699720527873) by lra; apply double_Z; lia).
  assert (Dd : double (b - 1)) by (unfold b; replace (3377699720527872 - 1) with (IZR 3377699720527871) by lra; apply double_Z; lia).
  assert (D2 : double (2 * b)) by (unfold b; replace (2 * 3377699720527872) with (IZR 6755399441055744) by lra; apply double_Z; lia).
  assert (D3 : double (2 * 1)) by (replace (2 * 1) with (IZR 2) by lra; apply double_Z; lia).
  assert (Dd' : double (1 - b)) by (replace (1 - b) with (- (b - 1)) by ring; apply double_opp, Dd).
  assert (Ds' : double (1 + b)) by (rewrite Rplus_comm; exact Ds).
  assert (FL : nf_call (lax_friedrichs (H := float_cells) right_moving) [[1; b; 1]; [b; 1; b]] = Ok ([-1; - b; -1], [1; b; 1])).
  { rewrite (lax_friedrichs_two_point (H := float_cells)). cbn [nf_call two_point combine mapM fst snd]. 
    rewrite (right_moving_flux 1 b), (right_moving_flux b 1) by assumption. cbn [bind vneg map]. unfold copp. cbn [cscal float_cells].
    replace (-1 * 1) with (-1) by ring. replace (-1 * b) with (- b) by ring. rewrite (rnd_double _ (double_opp _ Db)). rewrite (rnd_double (-1)); [reflexivity|]. apply (double_opp 1 D1). }
  eexists. eexists. eexists. cbv zeta. split; [reflexivity|].
  match goal with |- context [fv_rhs _ 1 ?x] => set (bc := x) end.
  assert (NB : get_node_neighbours bc [b; 1] 1 (Some (rnd (0 + rnd (0 * (1 / 8))))) = Ok [[1; b; 1]; [b; 1; b]]) by reflexivity.
  assert (RHS : fv_rhs (H := float_cells) (lax_friedrichs (H := float_cells) right_moving) 1 bc (rnd (0 + rnd (0 * (1 / 8)))) [b; 1] = Ok [1 - b; b - 1]).
  { unfold fv_rhs. change (nf_dim (lax_friedrichs right_moving) / 2)%nat with 1%nat. rewrite NB. cbn [bind]. rewrite FL. cbn [bind fst snd]. unfold cells_from_nodes, rdiv. destruct (Reqb_spec 1 0) as [Z|_]; [lra|]. cbn [bind removelast tl map2 map].
    cbn [cadd cscal float_cells]. replace (1 + - b) with (1 - b) by ring. replace (b + -1) with (b - 1) by ring. rewrite (rnd_double _ Dd), (rnd_double _ Dd'). replace (1 / 1 * (1 - b)) with (1 - b) by field. replace (1 / 1 * (b - 1)) with (b - 1) by field. rewrite (rnd_double _ Dd), (rnd_double _ Dd'). reflexivity. }
  unfold rkf_execute. cbn [euler rk_b length seq rkf_stages rk_c rk_A nth firstn wsum_left axpy o_time o_sol app]. rewrite RHS. cbn [bind fst snd].
  cbn [wsum_left lsum axpy vadd vscal list_VecOps map map2 o_sol]. cbn [cadd cscal float_cells].
  split; [reflexivity|]. split.
  - constructor; [|constructor]. split.
    + cbn [In]. intros x [<-|[<-|[]]]; cbn [ccoord float_cells]; rewrite Rabs_pos_eq; unfold b; lra.
    + change (nf_dim (lax_friedrichs right_moving) / 2)%nat with 1%nat. intros a fl fr E1 E2. rewrite NB in E1. injection E1 as <-. rewrite FL in E2. injection E2 as _ <-. intros x [<-|[<-|[<-|[]]]]; cbn [ccoord float_cells]; rewrite Rabs_pos_eq; unfold b; lra.
  - cbn [o_sol]. unfold total. cbn [map ccoord float_cells]. unfold rsum. cbn [fold_right].
    replace (1 * (1 - b)) with (1 - b) by ring. replace (1 * (b - 1)) with (b - 1) by ring. rewrite (rnd_double _ Dd), (rnd_double _ Dd').
    assert (D8 : double (1 / 8 * (b - 1))) by (apply (double_small 3377699720527871 3); [lia|lia|]; change (Z.pow_pos 2 3) with 8%Z; unfold b; lra).
    rewrite (rnd_double _ D8). replace (1 / 8 * (1 - b)) with (- (1 / 8 * (b - 1))) by ring. rewrite (rnd_double _ (double_opp _ D8)).
    rewrite (rnd_double (1 + 1 / 8 * (b - 1))). 2:{ apply (double_small 3377699720527879 3); [lia|lia|]. change (Z.pow_pos 2 3) with 8%Z. unfold b. lra. }
    intro E. assert (X : rnd (b + - (1 / 8 * (b - 1))) = b - 1 / 8 * (b - 1)) by lra.
    destruct (big_doubles_halves (b - 1 / 8 * (b - 1))) as [z Z]. { rewrite <- X. apply double_rnd. } { unfold b. lra. }
    assert (Z4 : IZR (z * 4) = IZR 23643898043695105) by (rewrite mult_IZR, <- Z; unfold b; lra). apply eq_IZR in Z4. lia.
Qed.
Print Assumptions C98_rounding_changes_mass.

(** the hypotheses of the theorems hold in that step *)
Example C98_ex : exists bc o' calls, let nf := lax_friedrichs (H := float_cells) right_moving in
  rkf_execute rnd (H := list_VecOps (H := float_cells)) (fv_rhs (H := float_cells) nf 1 bc) euler (1 / 8) {| o_time := 0; o_sol := [3377699720527872; 1] |} = Ok (o', calls) /\
  0 < Rabs (total (H := float_cells) true (o_sol o') - (3377699720527872 + 1)) <= 2 * unit_roundoff * (3377699720527872 + 4 * 1 * (1 + 4) * 3377699720527872 * (1 / 8) / 1).
Proof.
  destruct C98_rounding_changes_mass as [bc [o' [calls [B [E [C N]]]]]]. exists bc, o', calls. cbv zeta in *. split; [exact E|].
  destruct (proj1 (C98_fluxes_meet_the_hypotheses float_cells (proj1 C98_arrays_round)) right_moving true) as [O1 [O2 O3]].
  assert (P := small_pos). assert (SN : smallest_normal <= 1). { unfold smallest_normal. rewrite <- Rinv_1. apply Rinv_le_contravar; [lra|]. apply pow_R1_Rle. lra. }
  destruct (C98_step_conserves_mass_up_to_rounding float_cells (proj1 C98_arrays_round) rnd None None None bc _ true 1 euler (1 / 8) 3377699720527872 3377699720527872 {| o_time := 0; o_sol := [3377699720527872; 1] |} o' calls B) as [_ Q]; auto; try lra; try (cbn; lia); try (constructor; [rewrite Rabs_R1; lra|constructor]).
  assert (T0 : total (H := float_cells) true [3377699720527872; 1] = 3377699720527872 + 1) by (unfold total, rsum; cbn [map ccoord float_cells fold_right]; ring).
  cbn [o_sol length rk_b euler INR] in Q, N. rewrite T0 in Q, N. split; [apply Rabs_pos_lt; lra|]. eapply Rle_trans; [exact Q|]. right. simpl. ring.
Qed.
