From Coq Require Import Reals List ZArith Arith Lia Lra Psatz Bool String.
From Verif Require Import Prelude L_Prelude M_Boundary S_Boundary L_Boundary M_Flux S_Flux L_Flux
  M_Neighbours L_Neighbours M_Scalar S_Scalar L_Scalar M_ODE S_ODE L_ODE M_ShallowWater S_ShallowWater L_ShallowWater L_SWRuns L_SWLow
  L_SWWater.
Import ListNotations.
Local Open Scope nat_scope.
Open Scope R_scope.
Notation length := List.length.
Notation z2 := (0, 0) (only parsing).

Section G.
Context (gravity : option R).
Let g := py_or gravity default_gravity.

(** ** positivity *)
Definition mflux (u : state) : R := match sw_flux g u with Ok f => fst f | Err _ => 0 end.
(* the height fluxes are those of an approximate Riemann solver with non-negative states *)
Definition bar_form (nf : nflux state) : Prop :=
  nf_dim nf = 2%nat /\
  forall n x fl fr, (1 <= n)%nat -> nf_call nf [tab (S n) x; tab (S n) (fun i => x (S i))] = Ok (fl, fr) ->
  length fl = S n /\ length fr = S n /\ exists wl wr, forall i, (i <= n)%nat ->
    let s := sw_max_speed g (x i) (x (S i)) in
    0 <= wl i /\ 0 <= wr i /\
    fst (nth i fr z2) = s * (wr i - fst (x (S i))) + mflux (x (S i)) /\
    fst (nth i fl z2) = s * (wl i - fst (x i)) - mflux (x i).

Lemma low_bar l r d o : low_at gravity l r d = Ok o ->
  lo_s o = sw_max_speed g l r /\
  fst (lo_outr o) = lo_s o * (lo_hr o - fst r) + mflux r /\ fst (lo_outl o) = lo_s o * (lo_hl o - fst l) - mflux l.
Proof.
  intro E. destruct (low_at_inv gravity l r d o E) as [fl [fr [F1 [F2 [Hs ->]]]]].
  unfold mflux. fold g in F1, F2. rewrite F1, F2. unfold low_out. cbn [lo_s lo_outr lo_outl lo_hr lo_hl fst]. fold g. repeat split; ring.
Qed.

Lemma bar_low b nf : sw_low gravity b = Ok nf -> bar_form nf.
Proof.
  intro E. unfold sw_low in E. inv_bind E. apply Ok_inj in E. subst nf. split; [reflexivity|].
  cbn [nf_call]. intros n x fl fr Hn E. unfold low_call in E. inv_bind E. apply Ok_inj in E. injection E as <- <-.
  destruct (low_all_nth _ _ n _ _ _ (tab_length _ _) (tab_length _ _) E1) as [st [Hst [Lo V]]].
  rewrite !map_length. split; auto. split; auto.
  exists (fun i => lo_hl (nth i a0 low0)), (fun i => lo_hr (nth i a0 low0)). intros i Hi. cbv zeta. set (s := sw_max_speed g (x i) (x (S i))).
  specialize (V i Hi). rewrite !nth_tab in V by lia. destruct (low_heights _ _ _ _ _ V) as [_ [_ [A1 [A2 _]]]].
  destruct (low_bar _ _ _ _ V) as [B0 [B1 B2]].
  rewrite !(nth_map' _ _ _ low0) by lia. fold s in B0. rewrite B1, B2, B0. auto.
Qed.
Lemma bar_mcl b conds il ir high nf : nf_dim high = 2%nat ->
  (forall vl vr fl fr, (2 <= length vl)%nat -> length vl = length vr -> nf_call high [vl; vr] = Ok (fl, fr) -> length fr = length vl) ->
  sw_mcl gravity b conds il ir high = Ok nf -> bar_form nf.
Proof.
  intros D LH E. unfold sw_mcl in E. inv_bind E. inv_bind E. apply Ok_inj in E. subst nf. split; [exact D|].
  cbn [nf_call]. intros n x fl fr Hn E.
  assert (B : length (bc_left a) = 1%nat) by (eapply bc_radius; eauto).
  destruct (mcl_call_inv gravity (snd a0) a high n (tab (S n) x) (tab (S n) (fun i => x (S i))) fl fr B Hn (tab_length _ _) (tab_length _ _)) as [o [hl [hr [Eo [Lo [Eh [G [-> ->]]]]]]]].
  { intros fl0 fr0 X. apply LH in X; rewrite ?tab_length in *; auto; lia. }
  { exact E. }
  destruct (low_all_nth _ _ n _ _ _ (tab_length _ _) (tab_length _ _) Eo) as [st [Hst [_ V]]].
  set (lo := fun i => nth i o low0) in *. set (H := fun i => nth i hr z2) in *.
  rewrite !tab_length. split; auto. split; auto.
  set (fh := fh_ (bc_periodic a) n lo H).
  exists (fun i => lo_hl (lo i) - fh i / lo_s (lo i)), (fun i => lo_hr (lo i) + fh i / lo_s (lo i)).
  intros i Hi. cbv zeta. set (s := sw_max_speed g (x i) (x (S i))). rewrite !nth_tab by lia. change (nth i o low0) with (lo i).
  assert (Vi : forall j, (j <= n)%nat -> 0 < lo_s (lo j) /\ 0 <= lo_hl (lo j) /\ 0 <= lo_hr (lo j)).
  { intros j Hj. destruct (low_heights _ _ _ _ _ (V j Hj)) as [A0 [_ [A1 [A2 _]]]]. auto. }
  destruct (Vi i Hi) as [S0 _].
  destruct (fh_bounds (bc_periodic a) n lo H i Hi ltac:(lra)) as [[F1 _] [[F2 _] _]]. fold fh in F1, F2.
  assert (M : forall j, (j < S (S n))%nat -> 0 <= hmin_ (bc_periodic a) n lo j).
  { intros j Hj. unfold hmin_. apply Rmin_glb; apply Vi; [apply cl_idx_le|apply cr_idx_le]; auto. }
  assert (P : forall z, 0 <= lo_s (lo i) * z -> 0 <= z).
  { intros z Hz. apply (Rmult_le_reg_l (lo_s (lo i))); auto. lra. }
  assert (0 <= lo_s (lo i) * hmin_ (bc_periodic a) n lo (S i)) by (apply Rmult_le_pos; [lra|apply M; lia]).
  assert (0 <= lo_s (lo i) * hmin_ (bc_periodic a) n lo i) by (apply Rmult_le_pos; [lra|apply M; lia]).
  pose proof (V i Hi) as Vl. rewrite !nth_tab in Vl by lia. destruct (low_bar _ _ _ _ Vl) as [B0 [B1 B2]].
  change (nth i o low0) with (lo i) in B0, B1, B2. fold s in B0. unfold copp. cbn [cadd cscal RR_CellOps fst]. rewrite B1, B2, <- B0.
  change (fh_ (bc_periodic a) n lo H i) with (fh i).
  repeat split.
  - apply P. replace (lo_s (lo i) * (lo_hl (lo i) - fh i / lo_s (lo i))) with (lo_s (lo i) * lo_hl (lo i) - fh i) by (field; lra). lra.
  - apply P. replace (lo_s (lo i) * (lo_hr (lo i) + fh i / lo_s (lo i))) with (lo_s (lo i) * lo_hr (lo i) + fh i) by (field; lra). lra.
  - field. lra.
  - field. lra.
Qed.

Lemma bar_rhs nf conds il ir bc dx dt t u v e : bar_form nf ->
  get_boundary_conditions (Some reflect) conds 1 il ir = Ok bc -> u <> [] -> 0 < dx -> 0 <= dt ->
  heights_nonneg u -> extended bc u (Some t) = Ok e -> half_cfl g dx dt e ->
  fv_rhs nf dx bc t u = Ok v -> length v = length u /\ heights_nonneg (map2 cadd u (map (cscal dt) v)).
Proof.
  intros [D T] B Hu Hdx Hdt Hh Ee C E. destruct (fv_rhs_inv _ _ _ _ _ _ E) as [a [fl [fr [E1 [E2 E3]]]]].
  rewrite D in E1. change (2 / 2)%nat with 1%nat in E1.
  assert (Hn : (1 <= length u)%nat) by (destruct u; [congruence|cbn; lia]).
  destruct (inner_nodes z2 (Some reflect) conds 1 il ir bc u t a B ltac:(lia) E1)
    as [nl [nr [cl [cr [x [e' [Sn [Nl [Nr [La [Fa [Rq [Vx [Ee' Hx]]]]]]]]]]]]]].
  rewrite Ee in Ee'. apply Ok_inj in Ee'. subst e'.
  rewrite (required_two a 1) in Rq by lia. apply Ok_inj in Rq.
  destruct a as [|vl [|vr [|? ?]]]; try (cbn in La; lia). cbn [nth Nat.sub] in Rq. injection Rq as -> ->.
  set (n := length u) in *.
  destruct (T n x fl fr Hn E2) as [L1 [L2 [wl [wr V]]]]. cbv zeta in V.
  destruct (bar_state_heights n x (fun i => mflux (x i)) (fun i => sw_max_speed g (x i) (x (S i))) wl wr fl fr v dx dt E3 L1 L2 Hdx Hdt) as [Lv P].
  - intros i Hi. apply V; auto.
  - intros i Hi. apply V; auto.
  - intros i Hi. destruct (V i Hi) as [W1 [W2 _]]. split; [apply max_speed_nonneg|]. split; auto. split; auto.
    unfold sw_max_speed. unfold Rmax. destruct (Rle_dec _ _); apply C; apply Hx; lia.
  - split; auto. intros y Hy. apply (In_nth _ _ z2) in Hy as [i [Hi <-]].
    rewrite map2_length, map_length in Hi. fold n in Hi.
    rewrite (nth_map2 _ _ _ i z2 z2) by (rewrite ?map_length; fold n; lia).
    rewrite (nth_map' _ _ _ z2) by lia. cbn [cadd cscal RR_CellOps fst].
    assert (X : x (S i) = nth i u z2) by (eapply inner_cell; [apply Vx; fold n; lia|fold n; lia]).
    rewrite <- X. apply P; [lia|]. rewrite X. apply Hh. apply nth_In. fold n. lia.
Qed.

(** ** lake at rest *)
Lemma lake_low hl hr : 0 < g -> epsilon <= hl -> epsilon <= hr ->
  exists o, low_at gravity (hl, 0) (hr, 0) (hl - hr) = Ok o /\ 0 < lo_s o /\ lo_h o = (hl + hr) / 2 /\ lo_hl o = hl /\ lo_hr o = hr /\
    lo_ql o = 0 /\ lo_qr o = 0 /\ lo_outl o = (0, - (g * hl ^ 2 / 2)) /\ lo_outr o = (0, g * hr ^ 2 / 2).
Proof.
  intros Hg Hl Hr. pose proof epsilon_pos as He.
  assert (F : forall h, epsilon <= h -> sw_flux g (h, 0) = Ok (0, g * h ^ 2 / 2)).
  { intros h Hh. rewrite sw_flux_wet by auto. do 2 f_equal. field. lra. }
  assert (S0 : 0 < sw_max_speed g (hl, 0) (hr, 0)).
  { eapply Rlt_le_trans; [|apply max_speed_l]. cbn [fst]. unfold velocity. rewrite velocity_q0, Rabs_R0.
    assert (0 < sqrt (g * hl)) by (apply sqrt_lt_R0; apply Rmult_lt_0_compat; lra). lra. }
  eexists. split; [apply (low_at_ok gravity); [apply F; auto|apply F; auto|fold g; lra]|].
  unfold low_out. fold g. unfold hll. fold g. cbn [lo_s lo_h lo_hl lo_hr lo_ql lo_qr lo_outl lo_outr fst snd].
  set (s := sw_max_speed g (hl, 0) (hr, 0)) in *.
  replace ((hl + hr) / 2 - (0 - 0) / (2 * s)) with ((hl + hr) / 2) by (field; lra).
  rewrite fix_exact. 2:{ apply Rmult_le_reg_r with 2; [lra|]. unfold Rdiv. rewrite !Rmult_assoc, !Rinv_l, !Rmult_1_r by lra.
    apply Rabs_le_iff. lra. }
  unfold velocity. rewrite !velocity_q0. unfold average.
  repeat match goal with |- _ /\ _ => split end; auto; try (f_equal; field; lra); try (field; lra).
Qed.

(* the node values of a lake at rest *)
Definition lake_nodes (n : nat) (x : nat -> state) (st : list R) (Hf : nat -> R) : Prop :=
  length st = S n /\
  (forall i, (i <= S n)%nat -> x i = (Hf i, 0) /\ epsilon <= Hf i) /\ (forall i, (i <= n)%nat -> nth i st 0 = Hf i - Hf (S i)).
Definition balanced (b : bathymetry) (nf : nflux state) : Prop :=
  nf_dim nf = 2%nat /\
  forall n x st Hf, (1 <= n)%nat -> (exists p, build_bathymetry b = Ok p /\ broadcast (S n) (snd p) = Ok st) ->
    lake_nodes n x st Hf ->
    nf_call nf [tab (S n) x; tab (S n) (fun i => x (S i))] =
      Ok (tab (S n) (fun i => (0, - (g * Hf i ^ 2 / 2))), tab (S n) (fun i => (0, g * Hf (S i) ^ 2 / 2))).

Lemma lake_low_all step n x st Hf : 0 < g -> broadcast (S n) step = Ok st -> lake_nodes n x st Hf ->
  exists lo, low_all gravity step (tab (S n) x) (tab (S n) (fun i => x (S i))) = Ok (tab (S n) lo) /\
  forall i, (i <= n)%nat -> 0 < lo_s (lo i) /\ lo_h (lo i) = (Hf i + Hf (S i)) / 2 /\ lo_hl (lo i) = Hf i /\ lo_hr (lo i) = Hf (S i) /\
    lo_ql (lo i) = 0 /\ lo_qr (lo i) = 0 /\ lo_outl (lo i) = (0, - (g * Hf i ^ 2 / 2)) /\ lo_outr (lo i) = (0, g * Hf (S i) ^ 2 / 2).
Proof.
  intros Hg Hs [Ls [X St]].
  set (lo := fun i => match low_at gravity (x i) (x (S i)) (nth i st 0) with Ok o => o | Err _ => low0 end).
  assert (A : forall i, (i <= n)%nat -> exists o, low_at gravity (x i) (x (S i)) (nth i st 0) = Ok o /\ lo i = o /\ 
     0 < lo_s o /\ lo_h o = (Hf i + Hf (S i)) / 2 /\ lo_hl o = Hf i /\ lo_hr o = Hf (S i) /\
    lo_ql o = 0 /\ lo_qr o = 0 /\ lo_outl o = (0, - (g * Hf i ^ 2 / 2)) /\ lo_outr o = (0, g * Hf (S i) ^ 2 / 2)).
  { intros i Hi. destruct (X i ltac:(lia)) as [X1 P1]. destruct (X (S i) ltac:(lia)) as [X2 P2].
    destruct (lake_low (Hf i) (Hf (S i)) Hg P1 P2) as [o [Eo Ho]]. exists o. rewrite <- St, <- X1, <- X2 in Eo by lia.
    split; auto. split; auto. unfold lo. rewrite Eo. reflexivity. }
  exists lo. split.
  - apply (low_all_ok gravity step st (S n) x lo Hs). intros i Hi. destruct (A i ltac:(lia)) as [o [E1 [E2 _]]]. rewrite E2. auto.
  - intros i Hi. destruct (A i Hi) as [o [_ [-> Ho]]]. exact Ho.
Qed.

Lemma balanced_low b nf : 0 < g -> sw_low gravity b = Ok nf -> balanced b nf.
Proof.
  intros Hg E. unfold sw_low in E. inv_bind E. apply Ok_inj in E. subst nf. split; [reflexivity|].
  cbn [nf_call]. intros n x st Hf Hn [p [Ep Hs]] HL. rewrite E0 in Ep. apply Ok_inj in Ep. subst p.
  unfold low_call. destruct (lake_low_all _ _ _ _ _ Hg Hs HL) as [lo [-> V]]. cbn [bind]. rewrite !map_tab. do 2 f_equal;
  apply tab_ext; intros i Hi; apply V; lia.
Qed.
Lemma balanced_central b nf : sw_central gravity b = Ok nf -> balanced b nf.
Proof.
  intro E. unfold sw_central, with_source in E. inv_bind E. apply Ok_inj in E. subst nf. split; [reflexivity|].
  cbn [nf_call]. intros n x st Hf Hn [p [Ep Hs]] [Ls [X St]]. rewrite E0 in Ep. apply Ok_inj in Ep. subst p. pose proof epsilon_pos as He.
  unfold wrapped_call. cbn [nf_call central]. rewrite combine_tab.
  rewrite (mapM_tab_ok _ _ _ (fun i => (0, (g * Hf i ^ 2 / 2 + g * Hf (S i) ^ 2 / 2) / 2))).
  2:{ intros i Hi. cbn [fst snd]. destruct (X i ltac:(lia)) as [-> P1]. destruct (X (S i) ltac:(lia)) as [-> P2].
      unfold central_at. fold g. rewrite !sw_flux_wet by auto. cbn [bind cadd cscal RR_CellOps fst snd]. do 2 f_equal; field; lra. }
  cbn [bind]. rewrite (required_two _ 1) by (cbn; lia). cbn [nth Nat.sub bind]. unfold source_term. rewrite tab_length, Hs. cbn [bind fst snd].
  rewrite (list_tab 0 st), Ls, combine_tab, map2_tab. unfold vneg. rewrite map_tab, !map2_tab. fold g. do 2 f_equal; apply tab_ext; intros i Hi;
  destruct (X i ltac:(lia)) as [-> P1]; destruct (X (S i) ltac:(lia)) as [-> P2]; rewrite St by lia; unfold csub, copp, average;
  cbn [cadd cscal RR_CellOps fst snd]; f_equal; field.
Qed.
Lemma balanced_mcl b conds il ir high nf : 0 < g -> balanced b high -> sw_mcl gravity b conds il ir high = Ok nf -> balanced b nf.
Proof.
  intros Hg [D T] E. unfold sw_mcl in E. inv_bind E. inv_bind E. apply Ok_inj in E. subst nf. split; [exact D|].
  cbn [nf_call]. intros n x st Hf Hn HS HL. pose proof (T n x st Hf Hn HS HL) as EH.
  destruct HS as [p [Ep Hs]]. rewrite E1 in Ep. apply Ok_inj in Ep. subst p. pose proof epsilon_pos as He.
  assert (B : length (bc_left a) = 1%nat) by (eapply bc_radius; eauto).
  destruct (lake_low_all _ _ _ _ _ Hg Hs HL) as [lo [El V]]. destruct HL as [Ls [X St]].
  unfold sw_mcl_call. rewrite (required_two _ 1) by (cbn; lia). cbn [nth Nat.sub bind]. rewrite El. cbn [bind]. rewrite EH. cbn [bind snd].
  set (H := fun i => (0, g * Hf (S i) ^ 2 / 2)).
  assert (HP : forall i, (i <= S n)%nat -> 0 < Hf i) by (intros i Hi; destruct (X i Hi); lra).
  rewrite (mcl_limit_ok (bc_periodic a) n lo H a B Hn eq_refl).
  2:{ intros i Hi. destruct (V i Hi) as [V1 [-> [-> [-> _]]]]. pose proof (HP i ltac:(lia)). pose proof (HP (S i) ltac:(lia)). repeat split; lra. }
  cbn [bind mp_fh mp_fq]. rewrite combine_tab, !map_tab, !map2_tab.
  assert (FH : forall i, (i <= n)%nat -> fh_ (bc_periodic a) n lo H i = 0).
  { intros i Hi. destruct (V i Hi) as [V1 [_ [_ [_ [_ [_ [_ V8]]]]]]].
    destruct (fh_bounds (bc_periodic a) n lo H i Hi ltac:(lra)) as [_ [_ Z]]. apply Z. rewrite V8. unfold H, csub, copp.
    cbn [cadd cscal RR_CellOps fst]. ring. }
  assert (VB : forall i, (i <= n)%nat -> vb_ lo i = 0).
  { intros i Hi. unfold vb_. destruct (V i Hi) as [_ [_ [-> [-> [-> [-> _]]]]]]. pose proof (HP i ltac:(lia)). pose proof (HP (S i) ltac:(lia)). field. lra. }
  assert (WL : forall j, (j < S (S n))%nat -> wl_ (bc_periodic a) n lo j = 0).
  { intros j Hj. unfold wl_. pose proof (cl_idx_le (bc_periodic a) n j Hn Hj) as Hc. destruct (V _ Hc) as [_ [-> [_ [_ [_ [-> _]]]]]].
    pose proof (HP (cl_idx (bc_periodic a) n j) ltac:(lia)). pose proof (HP (S (cl_idx (bc_periodic a) n j)) ltac:(lia)). field. lra. }
  assert (WR : forall j, (j < S (S n))%nat -> wr_ (bc_periodic a) n lo j = 0).
  { intros j Hj. unfold wr_. pose proof (cr_idx_le (bc_periodic a) n j Hn Hj) as Hc. destruct (V _ Hc) as [_ [-> [_ [_ [-> _]]]]].
    pose proof (HP (cr_idx (bc_periodic a) n j) ltac:(lia)). pose proof (HP (S (cr_idx (bc_periodic a) n j)) ltac:(lia)). field. lra. }
  assert (VM : forall j, (j < S (S n))%nat -> vmax_ (bc_periodic a) n lo j = 0 /\ vmin_ (bc_periodic a) n lo j = 0).
  { intros j Hj. unfold vmax_, vmin_. rewrite !VB, WL, WR by (auto; try (apply cl_idx_le; auto); apply cr_idx_le; auto).
    unfold max4, min4. rewrite !Rmax_left, !Rmin_left by (rewrite ?Rmax_left, ?Rmin_left by (rewrite ?Rmax_left, ?Rmin_left by lra; lra); lra). auto. }
  assert (FQ : forall i, (i <= n)%nat -> fq_ (bc_periodic a) n lo H i = 0).
  { intros i Hi. unfold fq_. destruct (VM i ltac:(lia)) as [-> ->]. destruct (VM (S i) ltac:(lia)) as [-> ->]. unfold corr_. rewrite VB by auto.
    destruct (V i Hi) as [V1 [_ [_ [_ [_ [-> [_ ->]]]]]]]. unfold H, csub, copp. cbn [cadd cscal RR_CellOps snd].
    set (lh := lh_ _ _ _ _ _). set (s := lo_s (lo i)).
    replace (g * Hf (S i) ^ 2 / 2 + -1 * (g * Hf (S i) ^ 2 / 2) + s * (0 + - (lh * 0))) with 0 by ring.
    unfold vlimit_at. replace (lh * (0 - 0)) with 0 by ring. rewrite (Rmin_left 0 0), (Rmax_left 0 0), Rmult_0_r, (Rmin_left 0 0), (Rmax_left 0 0) by lra.
    ring. }
  do 2 f_equal; apply tab_ext; intros i Hi; rewrite FH, FQ by lia; destruct (V i ltac:(lia)) as [_ [_ [_ [_ [_ [_ [V7 V8]]]]]]]; rewrite ?V7, ?V8;
  unfold copp, H; apply injective_projections; cbn [cadd cscal RR_CellOps fst snd]; ring.
Qed.

Lemma balanced_rhs b nf conds il ir bc dx t u bot : balanced b nf ->
  get_boundary_conditions (Some reflect) conds 1 il ir = Ok bc ->
  ((exists nl nr, side_names conds nl nr /\ In nl ["wall"; "outflow"]%string /\ In nr ["wall"; "outflow"]%string) \/
   conds = ["periodic"%string] /\ nth 0 bot 0 = nth (length bot - 1) bot 0) ->
  b = BArray bot \/ (forall l, b <> BArray l) /\ (forall i, (i < length bot)%nat -> nth i bot 0 = nth 0 bot 0) ->
  u <> [] -> lake_at_rest bot u -> resolved bot -> dx <> 0 ->
  fv_rhs nf dx bc t u = Ok (repeat (0, 0) (length u)).
Proof.
  intros [D T] B HC HB Hu [Lb [level HL]] HR Hdx.
  assert (Hn : (1 <= length u)%nat) by (destruct u; [congruence|cbn; lia]).
  set (n := length u) in *.
  assert (HE : exists a, get_node_neighbours bc u 1 (Some t) = Ok a).
  { assert (exists nl nr cl cr, side_names conds nl nr /\ names_cond (Some reflect) nl il cl /\ names_cond (Some reflect) nr ir cr /\
      (forall f, cl <> Inflow f) /\ (forall f, cr <> Inflow f)) as [nl [nr [cl [cr [Sn [N1 [N2 [I1 I2]]]]]]]].
    { destruct HC as [[nl [nr [Sn [I1 I2]]]]|[-> _]].
      - assert (Q : forall s io, In s ["wall"; "outflow"]%string -> exists c, names_cond (Some reflect) s io c /\ forall f, c <> Inflow f).
        { intros s io [<-|[<-|[]]]; [exists (Wall reflect)|exists Outflow]; cbn; split; auto; discriminate. }
        destruct (Q nl il I1) as [cl [Ncl Icl]]. destruct (Q nr ir I2) as [cr [Ncr Icr]].
        exists nl, nr, cl, cr. auto.
      - exists "periodic"%string, "periodic"%string, Periodic, Periodic. cbn. repeat split; auto; discriminate. }
    destruct (node_neighbours_spec z2 (Some reflect) conds 1 il ir bc u (Some t) nl nr cl cr 1) as [a [Ea _]]; auto; try lia; [discriminate|eauto].
    }
  destruct HE as [a Ea].
  destruct (inner_nodes z2 (Some reflect) conds 1 il ir bc u t a B ltac:(lia) Ea)
    as [nl [nr [cl [cr [x [e [Sn [Nl [Nr [La [Fa [Rq [Vx [Ee _]]]]]]]]]]]]]].
  rewrite (required_two a 1) in Rq by lia. apply Ok_inj in Rq.
  destruct a as [|vl [|vr [|? ?]]]; try (cbn in La; lia). cbn [nth Nat.sub] in Rq. injection Rq as -> ->. fold n in Ea, Vx.
  pose proof (left_cell z2 u (Some t) _ _ _ (Vx 0%nat ltac:(lia)) Hn) as X0.
  pose proof (right_cell z2 u (Some t) _ _ _ (Vx (S n) ltac:(lia)) Hn) as Xn. fold n in X0, Xn.
  assert (Xi : forall i, (i < n)%nat -> x (S i) = nth i u z2).
  { intros i Hi. eapply inner_cell; [apply Vx; lia|auto]. }
  set (hh := fun i => fst (nth i u z2)).
  assert (Ui : forall i, (i < n)%nat -> nth i u z2 = (hh i, 0) /\ epsilon <= hh i /\ hh i + nth i bot 0 = level).
  { intros i Hi. destruct (HL i Hi) as [A1 [A2 A3]]. unfold hh. destruct (nth i u z2) as [h q]. cbn [fst snd] in *. subst q. auto. }
  assert (X0' : x 0%nat = (hh 0%nat, 0)).
  { destruct HC as [[ml [mr [Sm [I1 I2]]]]|[-> Hp]].
    - assert (nl = ml) by (destruct conds as [|c1 [|c2 cs]]; cbn in Sn, Sm; intuition congruence). subst ml.
      destruct (Ui 0%nat ltac:(lia)) as [U0 _].
      destruct cl; cbn in Nl; [|rewrite X0; exact U0| |].
      + subst nl. cbn in I1. destruct I1 as [|[|[]]]; discriminate.
      + destruct Nl as [-> _]. cbn in I1. destruct I1 as [|[|[]]]; discriminate.
      + destruct Nl as [_ Nl]. injection Nl as <-. rewrite X0, U0. unfold reflect. cbn [fst snd]. f_equal. ring.
    - destruct Sn as [-> ->]. destruct cl; cbn in Nl; try discriminate; try (destruct Nl; discriminate).
      rewrite X0. destruct (Ui (n - 1)%nat ltac:(lia)) as [U1 [_ L1]]. destruct (Ui 0%nat ltac:(lia)) as [U0 [_ L0]].
      rewrite U1. f_equal. rewrite Lb in Hp. fold n in Hp. lra. }
  assert (Xn' : x (S n) = (hh (n - 1)%nat, 0)).
  { destruct HC as [[ml [mr [Sm [I1 I2]]]]|[-> Hp]].
    - assert (nr = mr) by (destruct conds as [|c1 [|c2 cs]]; cbn in Sn, Sm; intuition congruence). subst mr.
      destruct (Ui (n - 1)%nat ltac:(lia)) as [U0 _].
      destruct cr; cbn in Nr; [|rewrite Xn; exact U0| |].
      + subst nr. cbn in I2. destruct I2 as [|[|[]]]; discriminate.
      + destruct Nr as [-> _]. cbn in I2. destruct I2 as [|[|[]]]; discriminate.
      + destruct Nr as [_ Nr]. injection Nr as <-. rewrite Xn, U0. unfold reflect. cbn [fst snd]. f_equal. ring.
    - destruct Sn as [-> ->]. destruct cr; cbn in Nr; try discriminate; try (destruct Nr; discriminate).
      rewrite Xn. destruct (Ui (n - 1)%nat ltac:(lia)) as [U1 [_ L1]]. destruct (Ui 0%nat ltac:(lia)) as [U0 [_ L0]].
      rewrite U0. f_equal. rewrite Lb in Hp. fold n in Hp. lra. }
  set (Hf := fun i => fst (x i)).
  assert (Q : exists p st, build_bathymetry b = Ok p /\ broadcast (S n) (snd p) = Ok st).
  { destruct HB as [->|[HB _]].
    - apply bathymetry_total; auto.
    - destruct b as [| y | l]; [| |destruct (HB l eq_refl)]; exists ([0], [0]); cbn [snd]; unfold broadcast;
      destruct (Nat.eqb_spec (length [0]) (S n)); eauto. }
  destruct Q as [p [st [Ep Est]]].
  destruct (bathymetry_steps _ _ _ _ Ep Est) as [Ls [S0 [Sn' HS]]].
  assert (LN : lake_nodes n x st Hf).
  { split; auto. split.
    - intros i Hi. unfold Hf. destruct i as [|i]; [rewrite X0'; cbn [fst]; split; auto; apply Ui; lia|].
      destruct (Nat.eq_dec i n) as [->|]; [rewrite Xn'; cbn [fst]; split; auto; apply Ui; lia|].
      rewrite Xi by lia. destruct (Ui i ltac:(lia)) as [-> [P _]]. auto.
    - intros i Hi. unfold Hf. destruct i as [|i].
      { rewrite S0, X0', Xi by lia. destruct (Ui 0%nat ltac:(lia)) as [-> _]. cbn [fst]. ring. }
      destruct (Nat.eq_dec (S i) n) as [Ei|].
      { rewrite Ei, Sn', Xn'. rewrite <- Ei, Xi by lia. destruct (Ui i ltac:(lia)) as [-> _]. cbn [fst].
        replace (S i - 1)%nat with i by lia. ring. }
      rewrite !Xi by lia. destruct (Ui i ltac:(lia)) as [-> [_ L1]]. destruct (Ui (S i) ltac:(lia)) as [-> [_ L2]]. cbn [fst].
      assert (F : (forall i, (i < length bot)%nat -> nth i bot 0 = nth 0 bot 0) -> nth i bot 0 = nth (S i) bot 0).
      { intro F. rewrite (F i), (F (S i)); auto; lia. }
      destruct HS as [[HZ HZ']|[l [El [Ll [Ec HZ]]]]].
      + rewrite HZ. rewrite F in L1; [lra|]. destruct HB as [->|[_ HB]]; auto.
        destruct HR as [HR|[k [Hk1 Hk2]]]; auto. pose proof (is_constant_true bot (HZ' _ eq_refl) k Hk1). lra.
      + destruct HB as [->|[HB _]]; [|destruct (HB _ El)]. injection El as <-. rewrite HZ by lia. lra. }
  unfold fv_rhs. rewrite D. change (2 / 2)%nat with 1%nat. rewrite Ea. cbn [bind].
  rewrite (T n x st Hf Hn (ex_intro _ p (conj Ep Est)) LN). cbn [bind fst snd].
  unfold cells_from_nodes. rewrite rdiv_ne by auto. cbn [bind]. f_equal.
  rewrite removelast_tab, tl_tab, map2_tab, map_tab. apply (list_ext z2); [rewrite tab_length, repeat_length; reflexivity|].
  intros i Hi. rewrite tab_length in Hi. rewrite nth_tab by auto.
  assert (RZ : nth i (repeat z2 n) z2 = z2) by (clear; revert i; induction n; destruct i; simpl; auto).
  rewrite RZ. cbn [cadd cscal RR_CellOps fst snd]. f_equal; ring.
Qed.
End G.
