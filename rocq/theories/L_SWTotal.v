From Coq Require Import Reals List ZArith Arith Lia Lra Psatz Bool String.
From Verif Require Import Prelude L_Prelude M_Boundary S_Boundary L_Boundary M_Flux S_Flux L_Flux
  M_Neighbours L_Neighbours M_Scalar S_Scalar L_Scalar M_ODE S_ODE L_ODE M_ShallowWater S_ShallowWater L_ShallowWater L_SWRuns L_SWLow
  L_SWWater L_SWLake.
Import ListNotations.
Local Open Scope nat_scope.
Open Scope R_scope.
Notation length := List.length.
Notation z2 := (0, 0) (only parsing).

Lemma nodes_of {W} (d : W) wall conds il ir bc (u : list W) t :
  get_boundary_conditions wall conds 1 il ir = Ok bc -> u <> [] ->
  exists nl nr cl cr x e, side_names conds nl nr /\ names_cond wall nl il cl /\ names_cond wall nr ir cr /\
    get_node_neighbours bc u 1 (Some t) = Ok [tab (S (length u)) x; tab (S (length u)) (fun i => x (S i))] /\
    (forall i, (i <= S (length u))%nat -> extension_value d u (Some t) cl cr (Z.of_nat i - 1) (x i)) /\
    extended bc u (Some t) = Ok e /\ (forall i, (i <= S (length u))%nat -> In (x i) e).
Proof.
  intros B Hu. assert (Hn : (1 <= length u)%nat) by (destruct u; [congruence|cbn; lia]).
  assert (HE : exists a, get_node_neighbours bc u 1 (Some t) = Ok a).
  { destruct conds as [|c cs]; [discriminate|].
    assert (Sn := side_names_cons c cs). set (nr := match cs with [] => c | c2 :: _ => c2 end) in *.
    destruct (proj1 (get_bc_ok_iff d wall (c :: cs) 1 il ir c nr ltac:(lia) Sn) (ex_intro _ bc B)) as [[cl Nl] [cr Nr]].
    destruct (node_neighbours_spec d wall (c :: cs) 1 il ir bc u (Some t) c nr cl cr 1) as [a [Ea _]]; auto; try lia; [discriminate|eauto]. }
  destruct HE as [a Ea].
  destruct (inner_nodes d wall conds 1 il ir bc u t a B ltac:(lia) Ea)
    as [nl [nr [cl [cr [x [e [Sn [Nl [Nr [La [Fa [Rq [Vx [Ee Hx]]]]]]]]]]]]]].
  rewrite (required_two a 1) in Rq by lia. apply Ok_inj in Rq.
  destruct a as [|vl [|vr [|? ?]]]; try (cbn in La; lia). cbn [nth Nat.sub] in Rq. injection Rq as -> ->.
  exists nl, nr, cl, cr, x, e. auto 10.
Qed.

(* a property of cells kept by reflection and met by the inflow values holds for all node values *)
Lemma nodes_all (P : state -> Prop) conds il ir bc u t :
  get_boundary_conditions (Some reflect) conds 1 il ir = Ok bc -> u <> [] ->
  (forall x, P x -> P (reflect x)) -> (forall f, il = Some f \/ ir = Some f -> forall t, P (f t)) -> (forall x, In x u -> P x) ->
  exists x e, get_node_neighbours bc u 1 (Some t) = Ok [tab (S (length u)) x; tab (S (length u)) (fun i => x (S i))] /\
    extended bc u (Some t) = Ok e /\
    (forall i, (i < length u)%nat -> x (S i) = nth i u z2) /\ (forall i, (i <= S (length u))%nat -> P (x i)).
Proof.
  intros B Hu PR PI PU. assert (Hn : (1 <= length u)%nat) by (destruct u; [congruence|cbn; lia]).
  destruct (nodes_of z2 (Some reflect) conds il ir bc u t B Hu) as [nl [nr [cl [cr [x [e [Sn [Nl [Nr [Ea [Vx [Ee Hx]]]]]]]]]]]].
  exists x, e. split; auto. split; auto.
  assert (Xi : forall i, (i < length u)%nat -> x (S i) = nth i u z2).
  { intros i Hi. eapply inner_cell; [apply Vx; lia|auto]. }
  split; auto.
  pose proof (left_cell z2 u (Some t) _ _ _ (Vx 0%nat ltac:(lia)) Hn) as X0.
  pose proof (right_cell z2 u (Some t) _ _ _ (Vx (S (length u)) ltac:(lia)) Hn) as Xn.
  assert (PN : forall i, (i < length u)%nat -> P (nth i u z2)) by (intros; apply PU, nth_In; auto).
  intros i Hi. destruct i as [|i].
  - destruct cl; cbn in Nl.
    + rewrite X0. apply PN. lia.
    + rewrite X0. apply PN. lia.
    + destruct X0 as [t' [_ ->]]. apply PI. left. tauto.
    + destruct Nl as [_ Nl]. injection Nl as <-. rewrite X0. apply PR, PN. lia.
  - destruct (Nat.eq_dec i (length u)) as [->|]; [|rewrite Xi by lia; apply PN; lia].
    destruct cr; cbn in Nr.
    + rewrite Xn. apply PN. lia.
    + rewrite Xn. apply PN. lia.
    + destruct Xn as [t' [_ ->]]. apply PI. right. tauto.
    + destruct Nr as [_ Nr]. injection Nr as <-. rewrite Xn. apply PR, PN. lia.
Qed.

Section G.
Context (gravity : option R).
Let g := py_or gravity default_gravity.

Lemma hll_height_pos l r fl fr : 0 < g -> 0 < fst l -> 0 < fst r -> sw_flux g l = Ok fl -> sw_flux g r = Ok fr ->
  0 < sw_max_speed g l r /\ 0 < fst (hll gravity l r fl fr).
Proof.
  intros Hg Pl Pr E1 E2.
  pose proof (mass_flux_bound g l fl E1) as B1. pose proof (mass_flux_bound g r fr E2) as B2.
  pose proof (max_speed_l g l r) as Sl. pose proof (max_speed_r g l r) as Sr.
  assert (Q1 : 0 < sqrt (g * fst l)) by (apply sqrt_lt_R0, Rmult_lt_0_compat; auto).
  assert (Q2 : 0 < sqrt (g * fst r)) by (apply sqrt_lt_R0, Rmult_lt_0_compat; auto).
  pose proof (Rabs_pos (velocity l)). pose proof (Rabs_pos (velocity r)).
  unfold hll. fold g. cbn [fst]. set (s := sw_max_speed g l r) in *. split; [lra|].
  assert (A1 : Rabs (fst fl) < fst l * s). { eapply Rle_lt_trans; [exact B1|]. apply Rmult_lt_compat_l; lra. }
  assert (A2 : Rabs (fst fr) < fst r * s). { eapply Rle_lt_trans; [exact B2|]. apply Rmult_lt_compat_l; lra. }
  apply Rabs_def2 in A1. apply Rabs_def2 in A2.
  apply (Rmult_lt_reg_r (2 * s)); [lra|]. rewrite Rmult_0_l.
  replace (((fst l + fst r) / 2 - (fst fr - fst fl) / (2 * s)) * (2 * s))
    with (fst l * s + fst fl + (fst r * s - fst fr)) by (field; lra). lra.
Qed.
Lemma sw_flux_total u : 0 <= fst u -> exists f, sw_flux g u = Ok f.
Proof.
  destruct u as [h q]. cbn [fst]. intro Hh. unfold sw_flux, sw_flux_eps. destruct (Rltb_spec h 0); [lra|]. destruct (Rltb_spec h epsilon); eauto.
Qed.
Lemma low_at_total l r d : 0 < g -> 0 < fst l -> 0 < fst r -> exists o, low_at gravity l r d = Ok o /\ 0 < lo_s o /\ 0 < lo_h o.
Proof.
  intros Hg Pl Pr. destruct (sw_flux_total l ltac:(lra)) as [fl El]. destruct (sw_flux_total r ltac:(lra)) as [fr Er].
  destruct (hll_height_pos l r fl fr Hg Pl Pr El Er) as [A1 A2].
  exists (low_out gravity l r fl fr d). split; [apply low_at_ok; auto; fold g; lra|].
  unfold low_out. cbn [lo_s lo_h]. auto.
Qed.
Lemma low_all_total step n x st : 0 < g -> broadcast (S n) step = Ok st -> (forall i, (i <= S n)%nat -> 0 < fst (x i)) ->
  exists lo, low_all gravity step (tab (S n) x) (tab (S n) (fun i => x (S i))) = Ok (tab (S n) lo) /\
  forall i, (i <= n)%nat -> 0 < lo_s (lo i) /\ 0 < lo_h (lo i) /\ lo_hl (lo i) + lo_hr (lo i) = 2 * lo_h (lo i).
Proof.
  intros Hg Hs X.
  set (lo := fun i => match low_at gravity (x i) (x (S i)) (nth i st 0) with Ok o => o | Err _ => low0 end).
  assert (A : forall i, (i <= n)%nat -> exists o, low_at gravity (x i) (x (S i)) (nth i st 0) = Ok o /\ lo i = o /\ 
     0 < lo_s o /\ 0 < lo_h o /\ lo_hl o + lo_hr o = 2 * lo_h o).
  { intros i Hi. destruct (low_at_total (x i) (x (S i)) (nth i st 0) Hg (X i ltac:(lia)) (X (S i) ltac:(lia))) as [o [Eo [A1 A2]]].
    exists o. split; auto. split; [unfold lo; rewrite Eo; reflexivity|]. split; auto. split; auto.
    apply (low_heights _ _ _ _ _ Eo). }
  exists lo. split.
  - apply (low_all_ok gravity step st (S n) x lo Hs). intros i Hi. destruct (A i ltac:(lia)) as [o [E1 [E2 _]]]. rewrite E2. auto.
  - intros i Hi. destruct (A i Hi) as [o [_ [-> Ho]]]. exact Ho.
Qed.

Definition wet_total (nf : nflux state) (N : nat) : Prop :=
  nf_dim nf = 2%nat /\ forall x, (forall i, (i <= S N)%nat -> 0 < fst (x i)) ->
  exists fl fr, nf_call nf [tab (S N) x; tab (S N) (fun i => x (S i))] = Ok (fl, fr) /\ length fl = S N /\ length fr = S N.

Lemma low_total b nf N p st : 0 < g -> sw_low gravity b = Ok nf -> build_bathymetry b = Ok p -> broadcast (S N) (snd p) = Ok st ->
  wet_total nf N.
Proof.
  intros Hg E Ep Es. unfold sw_low in E. rewrite Ep in E. cbn [bind] in E. apply Ok_inj in E. subst nf. split; [reflexivity|].
  intros x X. cbn [nf_call]. unfold low_call. destruct (low_all_total _ _ _ _ Hg Es X) as [lo [-> _]]. cbn [bind].
  eexists. eexists. split; [reflexivity|]. rewrite !map_length, tab_length. auto.
Qed.
Lemma mcl_total b nf N p st conds il ir high : 0 < g -> (1 <= N)%nat -> sw_mcl gravity b conds il ir high = Ok nf ->
  build_bathymetry b = Ok p -> broadcast (S N) (snd p) = Ok st -> wet_total high N -> wet_total nf N.
Proof.
  intros Hg Hn E Ep Es [D T]. unfold sw_mcl in E. rewrite Ep in E. inv_bind E. cbn [bind] in E. apply Ok_inj in E. subst nf. split; [exact D|].
  intros x X. cbn [nf_call]. unfold sw_mcl_call. rewrite (required_two _ 1) by (cbn; lia). cbn [nth Nat.sub bind].
  destruct (low_all_total _ _ _ _ Hg Es X) as [lo [-> V]]. cbn [bind]. destruct (T x X) as [hl [hr [-> [_ Lr]]]]. cbn [bind snd].
  rewrite (list_tab z2 hr), Lr. rewrite (mcl_limit_ok (bc_periodic a) N lo (fun i => nth i hr z2) a); auto.
  - cbn [bind mp_fh mp_fq]. eexists. eexists. split; [reflexivity|].
    rewrite combine_tab, !map_tab, !map2_tab, !tab_length. auto.
  - eapply bc_radius; eauto.
  - intros i Hi. destruct (V i Hi) as [A1 [A2 A3]]. repeat split; lra.
Qed.
Lemma wet_rhs nf conds il ir bc dx t u : wet_total nf (length u) ->
  get_boundary_conditions (Some reflect) conds 1 il ir = Ok bc -> u <> [] -> dx <> 0 ->
  (forall f, il = Some f \/ ir = Some f -> forall t, 0 < fst (f t)) -> (forall x, In x u -> 0 < fst x) ->
  exists v, fv_rhs nf dx bc t u = Ok v.
Proof.
  intros [D T] B Hu Hdx PI PU.
  destruct (nodes_all (fun x => 0 < fst x) conds il ir bc u t B Hu) as [x [e [Ea [Ee [Xi PX]]]]]; auto.
  unfold fv_rhs. rewrite D. change (2 / 2)%nat with 1%nat. rewrite Ea. cbn [bind].
  destruct (T x PX) as [fl [fr [-> [L1 L2]]]]. cbn [bind fst snd].
  unfold cells_from_nodes. rewrite rdiv_ne by auto. cbn [bind]. eauto.
Qed.
Lemma bathymetry_array b n : (1 <= n)%nat -> (forall l, b = BArray l -> length l = n) ->
  exists p st, build_bathymetry b = Ok p /\ broadcast (S n) (snd p) = Ok st.
Proof.
  intros Hn HB. destruct b as [| y | l]; [| |apply bathymetry_total; auto]; exists ([0], [0]); cbn [snd]; unfold broadcast;
  destruct (Nat.eqb_spec (length [0]) (S n)); eauto.
Qed.
End G.
