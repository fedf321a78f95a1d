(** C80: results do not depend on the units of length and time, except for the schemes
    called energy stable of first order and Lax-Wendroff. *)
From Coq Require Import Reals List ZArith Arith Lia Lra Psatz Bool String.
From Verif Require Import Prelude L_Prelude M_Boundary S_Boundary L_Boundary M_Flux S_Flux L_Flux
  M_Neighbours L_Neighbours M_Scalar S_Scalar L_Scalar M_ODE S_ODE L_ODE M_ShallowWater S_ShallowWater L_ShallowWater L_SWRuns L_SWLow
  L_SWWater L_SWLake L_SWTotal S_Symmetry L_SWNodes L_SWMirror S_Units L_Units S_SWBounds L_SWBounds P_SWSymmetry.
Import ListNotations.
Local Open Scope nat_scope.
Open Scope R_scope.
Notation length := List.length.
Notation z2 := (0, 0) (only parsing).

Lemma unit_free_builds k gravity b nf : unit_free k -> scheme k gravity b = Ok nf -> exists p, build_bathymetry b = Ok p.
Proof.
  revert nf; induction k; cbn [scheme unit_free]; unfold sw_low, sw_central, sw_llf, sw_es, with_source; intros nf U E; try contradiction; try (inv_bind E; eauto; fail).
Qed.

(** The problem in other units has the same solution in these units: the right hand side
    of every scheme (limited or not) and all runs of every Runge-Kutta method with
    correspondingly rescaled steps. *)
Theorem C80_units : forall limited k gravity b conditions il ir nf bc c d,
  0 < c -> 0 < d -> 0 < py_or gravity default_gravity -> unit_free k ->
  flux_of limited k gravity b conditions il ir = Ok nf -> get_boundary_conditions (Some reflect) conditions 1 il ir = Ok bc ->
  exists nf' bc',
  flux_of limited (units_kind c d k) (units_gravity c gravity) b conditions (units_inflow c d il) (units_inflow c d ir) = Ok nf' /\
  get_boundary_conditions (Some reflect) conditions 1 (units_inflow c d il) (units_inflow c d ir) = Ok bc' /\
  (forall dx t u v, fv_rhs nf dx bc t u = Ok v ->
    fv_rhs nf' (d * dx) bc' (d / c * t) (map (in_units c) u) = Ok (map (times (c / d)) (map (in_units c) v))) /\
  (forall T dx dts t0 u0 t1 u1,
    rk_run_e (fv_rhs nf dx bc) T dts {| o_time := t0; o_sol := u0 |} = Ok {| o_time := t1; o_sol := u1 |} ->
    rk_run_e (fv_rhs nf' (d * dx) bc') T (map (Rmult (d / c)) dts) {| o_time := d / c * t0; o_sol := map (in_units c) u0 |} =
    Ok {| o_time := d / c * t1; o_sol := map (in_units c) u1 |}).
Proof.
  intros limited k gravity b conditions il ir nf bc c d Hc Hd Hg U E B.
  destruct (units_conditions c d Hc Hd _ _ _ _ B) as [bc' [B' [L [P X]]]].
  unfold flux_of in *. inv_bind E. destruct (unit_free_builds _ _ _ _ U E0) as [p Hp].
  destruct (scheme_ok (units_kind c d k) (units_gravity c gravity) b p Hp) as [high' H'].
  pose proof (units_scheme c d Hc Hd k gravity b a high' Hg U E0 H') as UF.
  assert (N : exists nf', (if limited then sw_mcl (units_gravity c gravity) b conditions (units_inflow c d il) (units_inflow c d ir) high' else Ok high') = Ok nf' /\
    units_flux c nf nf').
  { destruct limited.
    - assert (Y : exists nf', sw_mcl (units_gravity c gravity) b conditions (units_inflow c d il) (units_inflow c d ir) high' = Ok nf').
      { unfold sw_mcl. rewrite B'. cbn [bind]. rewrite Hp. cbn [bind]. eauto. }
      destruct Y as [nf' Y]. exists nf'. split; auto. eapply (units_mcl c d Hc Hd); eauto.
    - apply Ok_inj in E. subst a. eauto. }
  destruct N as [nf' [N1 N2]]. exists nf', bc'. rewrite H'. cbn [bind]. split; auto. split; auto.
  assert (R : forall dx t u v, fv_rhs nf dx bc t u = Ok v -> fv_rhs nf' (d * dx) bc' (d / c * t) (map (in_units c) u) = Ok (slope c d v)).
  { intros dx t u v Ev. eapply units_rhs; eauto. }
  split; [exact R|]. intros T dx dts t0 u0 t1 u1 ER.
  apply (units_run c d Hc Hd (fv_rhs nf dx bc) (fv_rhs nf' (d * dx) bc') T dts {| o_time := t0; o_sol := u0 |} {| o_time := t1; o_sol := u1 |}); auto.
Qed.
Print Assumptions C80_units.
(* the hypotheses are met: two cells, a wall on the left, inflow on the right; minutes instead of seconds, kilometres instead of metres *)
Example C80_ex : exists nf bc v, 0 < 6 / 100 /\ 0 < / 1000 /\ 0 < py_or (Some 1) default_gravity /\
  unit_free (Antidiffusion Central 1 1) /\
  flux_of false (Antidiffusion Central 1 1) (Some 1) BNone ["wall"; "inflow"]%string None (Some (fun t => (1 + t ^ 2, 1))) = Ok nf /\
  get_boundary_conditions (Some reflect) ["wall"; "inflow"]%string 1 None (Some (fun t => (1 + t ^ 2, 1))) = Ok bc /\
  fv_rhs nf 1 bc 0 [(2, 1); (1, -1)] = Ok v /\ length v = 2%nat.
Proof.
  assert (G1 : py_or (Some 1) default_gravity = 1) by (cbn; destruct (Reqb_spec 1 0); [lra|reflexivity]).
  eexists. eexists.
  edestruct (C62_wet_states (Antidiffusion Central 1 1) (Some 1) BNone ["wall"; "inflow"]%string None (Some (fun t => (1 + t ^ 2, 1)))) with (t := 0) (dx := 1)
    (u := [(2, 1); (1, -1)]) as [v [E1 E2]]; [reflexivity|rewrite G1; lra|cbn; lra|left; exact I|intros l E; discriminate|reflexivity| | |discriminate|lra|].
  - intros f [|E] t; [discriminate|]. injection E as <-. cbn [fst]. nra.
  - intros x [<-|[<-|[]]]; cbn [fst]; lra.
  - exists v. rewrite G1. split; [lra|]. split; [lra|]. split; [lra|]. split; [exact I|]. split; [reflexivity|]. split; [reflexivity|]. split; [exact E1|exact E2].
Qed.

(** ** schemes that depend on the units *)
Lemma open_pair b nf G l r dx t v : nodewise_sw b nf G -> flat_bottom b ->
  fv_rhs nf dx {| bc_left := [CopyCell 0]; bc_right := [CopyCell (-1)]; bc_periodic := false |} t [l; r] = Ok v ->
  exists fl fr fl0 fr0, G l r 0 0 = Ok (fl, fr) /\ G l l 0 0 = Ok (fl0, fr0) /\ nth 0 v z2 = cscal (1 / dx) (cadd fr0 fl).
Proof.
  intros N F E. pose proof (padded_flat b 2 (flat_constant b F)) as P.
  destruct (proj1 (rhs_iff b nf G 2 _ (CopyCell 0) (CopyCell (-1)) false dx t [l; r] [l; l; r; r] v N eq_refl ltac:(lia) P eq_refl) E) as [_ [_ [fl [fr [Y V]]]]].
  exists (fl 1%nat), (fr 1%nat), (fl 0%nat), (fr 0%nat). split; [apply (Y 1%nat); lia|]. split; [apply (Y 0%nat); lia|]. apply V. lia.
Qed.

(** Two cells at rest with heights 1 and 3, gravity 1/2, open ends: water enters the
    left cell at rate 1. With half the unit of time (all velocities twice as large) the
    first order energy stable scheme still says 1 instead of 2. *)
Theorem C80_energy_stable_refuted : exists nf nf' bc v v',
  scheme EnergyStable1 (Some (1 / 2)) BNone = Ok nf /\ scheme EnergyStable1 (units_gravity 2 (Some (1 / 2))) BNone = Ok nf' /\
  get_boundary_conditions (Some reflect) ["outflow"%string] 1 None None = Ok bc /\
  fv_rhs nf 1 bc 0 [(1, 0); (3, 0)] = Ok v /\ fv_rhs nf' 1 bc 0 (map (in_units 2) [(1, 0); (3, 0)]) = Ok v' /\
  fst (nth 0 v (0, 0)) = 1 /\ fst (nth 0 v' (0, 0)) = 1 /\ v' <> map (times 2) (map (in_units 2) v).
Proof.
  pose proof epsilon_lt as He.
  assert (G1 : py_or (Some (1 / 2)) default_gravity = 1 / 2) by (cbn; destruct (Reqb_spec (1 / 2) 0); [lra|reflexivity]).
  assert (G2 : py_or (units_gravity 2 (Some (1 / 2))) default_gravity = 2) by (rewrite units_gravity_value by (rewrite ?G1; lra); rewrite G1; lra).
  assert (U2 : map (in_units 2) [(1, 0); (3, 0)] = [(1, 0); (3, 0)]) by (cbn [map]; unfold in_units; cbn [fst snd]; repeat f_equal; ring).
  set (bc := {| bc_left := [CopyCell (W := R * R) 0]; bc_right := [CopyCell (-1)]; bc_periodic := false |}).
  assert (B : get_boundary_conditions (Some reflect) ["outflow"%string] 1 None None = Ok bc) by reflexivity.
  assert (X : forall gr g, py_or gr default_gravity = g -> 0 < g -> exists nf v, scheme EnergyStable1 gr BNone = Ok nf /\
    fv_rhs nf 1 bc 0 [(1, 0); (3, 0)] = Ok v /\ length v = 2%nat /\ forall s k, s = sqrt (g * 2) -> k = sqrt (2 * g) ->
    fst (nth 0 v z2) = 2 * g * s / k ^ 3).
  { intros gr g <- Hg. set (g := py_or gr default_gravity) in *.
    destruct (scheme_ok EnergyStable1 gr BNone ([0], [0]) eq_refl) as [nf E].
    destruct (C62_wet_states EnergyStable1 gr BNone ["outflow"%string] None None nf bc 1 0 [(1, 0); (3, 0)]) as [v [E1 E2]];
      [exact E|exact Hg|exact I|left; exact I|intros ? Z; discriminate|exact B|intros f [|]; discriminate| |discriminate|lra|].
    { intros x [<-|[<-|[]]]; cbn [fst]; lra. }
    exists nf, v. split; auto. split; auto. split; auto. intros s k Hs Hk.
    assert (Kp : 0 < k) by (subst k; apply sqrt_lt_R0; lra).
    destruct (open_pair BNone nf (es1_law g) (1, 0) (3, 0) 1 0 v (nodewise_es1 gr BNone nf E) I E1) as [fl [fr [fl0 [fr0 [Y1 [Y2 V]]]]]].
    pose proof (consistent_es1 gr (1, 0) 0 fl0 fr0 Y2) as C. fold g in C. unfold sw_flux, sw_flux_eps in C.
    destruct (Rltb_spec 1 0); [lra|]. destruct (Rltb_spec 1 epsilon); [lra|]. apply Ok_inj in C. subst fr0.
    rewrite V. unfold es1_law, es1_at in Y1. inv_bind Y1. inv_bind Y1. apply Ok_inj in Y1. injection Y1 as <- _.
    assert (CA : cavg (1, 0) (3, 0) = (2, 0)) by (unfold cavg, average; cbn [fst snd]; f_equal; field).
    rewrite CA in E0. unfold sw_flux, sw_flux_eps in E0. destruct (Rltb_spec 2 0); [lra|]. destruct (Rltb_spec 2 epsilon); [lra|]. apply Ok_inj in E0. subst a.
    unfold diffusion_matrix in E3. rewrite CA in E3. cbn [fst] in E3. rewrite <- Hs, <- Hk in E3. rewrite rdiv_ne in E3 by lra. cbn [bind] in E3. apply Ok_inj in E3. subst a0.
    assert (VZ : forall h, velocity (h, 0) = 0) by (intro h; unfold velocity, velocity_eps; cbn [fst snd]; unfold Rdiv; ring).
    rewrite VZ. assert (Sp : 0 <= s) by (subst s; apply sqrt_pos). 
    replace (0 - s) with (- s) by ring. replace (0 + s) with s by ring. rewrite Rabs_Ropp, (Rabs_pos_eq s) by auto.
    unfold sw_entropy. rewrite !VZ.
    unfold mat_vec, mat_mul, mat_scal, mat_transpose, csub, copp. cbn [cadd cscal RR_CellOps fst snd]. field. lra. }
  destruct (X _ _ G1 ltac:(lra)) as [nf [v [E1 [E2 [Lv V]]]]]. destruct (X _ _ G2 ltac:(lra)) as [nf' [v' [E1' [E2' [Lv' V']]]]].
  assert (Q1 : sqrt 1 = 1) by apply sqrt_1. assert (Q2 : sqrt (2 * 2) = 2) by (apply sqrt_square; lra).
  assert (A1 : fst (nth 0 v (0, 0)) = 1).
  { rewrite (V 1 1); [lra|replace (1 / 2 * 2) with 1 by field; auto|replace (2 * (1 / 2)) with 1 by field; auto]. }
  assert (A2 : fst (nth 0 v' (0, 0)) = 1) by (rewrite (V' 2 2); [lra|auto|auto]).
  exists nf, nf', bc, v, v'. rewrite U2. repeat match goal with |- _ /\ _ => split end; auto.
  intro Z. rewrite Z in A2. destruct v as [|x v]; [discriminate Lv|]. cbn [map nth] in A2. unfold times, in_units in A2. cbn [nth fst] in A1, A2. lra.
Qed.
Print Assumptions C80_energy_stable_refuted.

(** What the scheme called Lax-Wendroff computes for wet states: the mean of the fluxes
    minus the jump times the fraction 1/2 - dt/dx of the speed, i.e. the flux of Lax and
    Friedrichs with its viscosity lowered by dt/dx. *)
Theorem C80_lax_wendroff_viscosity : forall g dt dx vl vr, 0 < g -> dx <> 0 -> length vl = length vr ->
  (forall x, In x vl \/ In x vr -> epsilon <= fst x) ->
  exists fl fr, nf_call (lw_flux (Some g) dt dx) [vl; vr] = Ok (fl, fr) /\ length fl = length vl /\ length fr = length vl /\
  forall i, (i < length vl)%nat -> let l := nth i vl (0, 0) in let r := nth i vr (0, 0) in
    nth i fr (0, 0) = minus (mean (phys_flux g l) (phys_flux g r)) (times ((1 / 2 - dt / dx) * speed g l r) (minus r l)) /\
    nth i fl (0, 0) = times (-1) (nth i fr (0, 0)).
Proof.
  intros g dt dx vl vr Hg Hd L W.
  assert (G1 : py_or (Some g) default_gravity = g) by (cbn; destruct (Reqb_spec g 0); [lra|reflexivity]).
  set (F := fun p : state * state => minus (mean (phys_flux g (fst p)) (phys_flux g (snd p))) (times ((1 / 2 - dt / dx) * speed g (fst p) (snd p)) (minus (snd p) (fst p)))).
  assert (A : forall l r, epsilon <= fst l -> epsilon <= fst r -> lw_at (Some g) dt dx l r = Ok (F (l, r))).
  { intros l r Hl Hr. pose proof epsilon_pos as He. unfold lw_at.
    pose proof (hll_height_pos (Some g) l r (wet_flux g l) (wet_flux g r)) as HP. rewrite !G1 in HP.
    destruct (HP Hg ltac:(lra) ltac:(lra) (wet_sw_flux g l Hl) (wet_sw_flux g r Hr)) as [S1 _].
    rewrite (sw_solve (Some g) l r (wet_flux g l) (wet_flux g r)) by (rewrite ?G1; try apply wet_sw_flux; auto; lra).
    cbn [bind]. rewrite rdiv_ne by auto. cbn [bind]. f_equal. unfold sw_out. cbn [ro_flux]. unfold hll. rewrite !G1.
    assert (SE : sw_max_speed g l r = speed g l r) by (rewrite wet_max_speed by auto; reflexivity). rewrite SE in *.
    unfold F, minus, mean, times, csub, copp. cbn [cadd cscal RR_CellOps fst snd].
    change (wet_flux g l) with (phys_flux g l). change (wet_flux g r) with (phys_flux g r). f_equal; field; split; auto; lra. }
  assert (M : mapM (fun p => lw_at (Some g) dt dx (fst p) (snd p)) (combine vl vr) = Ok (map F (combine vl vr))).
  { clear L. revert vr W; induction vl as [|x vl IH]; intros [|y vr] W; try reflexivity. cbn [combine mapM map fst snd].
    rewrite A by (apply W; cbn; auto). cbn [bind]. rewrite IH; [reflexivity|]. intros z Hz. apply W. cbn. tauto. }
  exists (vneg (map F (combine vl vr))), (map F (combine vl vr)). cbn [lw_flux nf_call]. rewrite M. cbn [bind].
  assert (LC : length (map F (combine vl vr)) = length vl) by (rewrite map_length, combine_length; lia).
  split; auto. split; [unfold vneg; rewrite map_length; auto|]. split; auto. intros i Hi. set (l := nth i vl z2). set (r := nth i vr z2).
  assert (E : nth i (map F (combine vl vr)) z2 = F (l, r)).
  { rewrite (nth_map' F _ _ (z2, z2)) by (rewrite combine_length; lia). rewrite combine_nth by auto. reflexivity. }
  split; [exact E|]. unfold vneg. rewrite nth_map_copp by lia. unfold copp, times. cbn [cscal RR_CellOps]. reflexivity.
Qed.
Print Assumptions C80_lax_wendroff_viscosity.
Example C80_lax_wendroff_ex : 0 < 1 /\ 1 <> 0 /\ length [(1, 0); (2, 1)] = length [(2, 1); (4, 0)] /\
  forall x, In x [(1, 0); (2, 1)] \/ In x [(2, 1); (4, 0)] -> epsilon <= fst x.
Proof.
  pose proof epsilon_lt. repeat split; try lra. intros x [[<-|[<-|[]]]|[<-|[<-|[]]]]; cbn [fst]; lra.
Qed.

(** It is not the scheme of Lax and Wendroff: between the resting states with heights 1
    and 4 their flux of water vanishes with the time step, that of the program does not;
    for all steps below a quarter of the cell length the two differ. *)
Theorem C80_lax_wendroff_refuted : forall dt dx, 0 < dt -> dt < dx / 4 -> exists fl f,
  nf_call (lw_flux (Some 1) dt dx) [[(1, 0)]; [(4, 0)]] = Ok ([fl], [f]) /\
  fst (textbook_lax_wendroff 1 dt dx (1, 0) (4, 0)) = - (15 / 4) * (dt / dx) /\
  fst f = - 3 + 6 * (dt / dx) /\ f <> textbook_lax_wendroff 1 dt dx (1, 0) (4, 0).
Proof.
  intros dt dx H0 H1. pose proof epsilon_lt as He.
  destruct (C80_lax_wendroff_viscosity 1 dt dx [(1, 0)] [(4, 0)]) as [fl [fr [E [L1 [L2 V]]]]]; try reflexivity; try lra.
  { intros x [[<-|[]]|[<-|[]]]; cbn [fst]; lra. }
  destruct fl as [|fl [|]]; try discriminate. destruct fr as [|f [|]]; try discriminate. exists fl, f. split; [exact E|].
  destruct (V 0%nat ltac:(cbn; lia)) as [V1 _]. cbn [nth] in V1.
  assert (S : speed 1 (1, 0) (4, 0) = 2).
  { unfold speed. cbn [fst snd]. replace (0 / 1) with 0 by field. replace (0 / 4) with 0 by field. rewrite Rabs_R0.
    replace (1 * 1) with 1 by ring. rewrite sqrt_1. replace (1 * 4) with (2 * 2) by ring. rewrite sqrt_square by lra. rewrite Rmax_right; lra. }
  rewrite S in V1.
  assert (F1 : fst f = - 3 + 6 * (dt / dx)).
  { rewrite V1. unfold minus, mean, phys_flux, times. cbn [fst snd]. field. lra. }
  assert (F2 : fst (textbook_lax_wendroff 1 dt dx (1, 0) (4, 0)) = - (15 / 4) * (dt / dx)).
  { unfold textbook_lax_wendroff, minus, mean, phys_flux, times, jacobian_times. cbn [fst snd]. field. lra. }
  split; auto. split; auto. intro Z. rewrite <- Z, F1 in F2.
  assert (K : dt / dx < 1 / 4) by (apply (Rmult_lt_reg_r dx); [lra|]; unfold Rdiv at 1; rewrite Rmult_assoc, Rinv_l by lra; lra). lra.
Qed.
Print Assumptions C80_lax_wendroff_refuted.

(** It depends on the units, too: in the same situation, with step 1/4 on cells of length
    1, water enters the left cell at rate 3/2; in units with velocities twice as large at
    rate 9/2 instead of 3. *)
Theorem C80_lax_wendroff_units_refuted : exists nf nf' bc v v',
  scheme (LaxWendroff (1 / 4) 1) (Some 1) BNone = Ok nf /\
  scheme (units_kind 2 1 (LaxWendroff (1 / 4) 1)) (units_gravity 2 (Some 1)) BNone = Ok nf' /\
  get_boundary_conditions (Some reflect) ["outflow"%string] 1 None None = Ok bc /\
  fv_rhs nf 1 bc 0 [(1, 0); (4, 0)] = Ok v /\ fv_rhs nf' 1 bc 0 (map (in_units 2) [(1, 0); (4, 0)]) = Ok v' /\
  fst (nth 0 v (0, 0)) = 3 / 2 /\ fst (nth 0 v' (0, 0)) = 9 / 2 /\ v' <> map (times 2) (map (in_units 2) v).
Proof.
  pose proof epsilon_lt as He.
  assert (U2 : map (in_units 2) [(1, 0); (4, 0)] = [(1, 0); (4, 0)]) by (cbn [map]; unfold in_units; cbn [fst snd]; repeat f_equal; ring).
  assert (G1 : py_or (Some 1) default_gravity = 1) by (cbn; destruct (Reqb_spec 1 0); [lra|reflexivity]).
  assert (G2 : units_gravity 2 (Some 1) = Some (2 * 2)) by (unfold units_gravity; rewrite G1; f_equal; ring).
  set (bc := {| bc_left := [CopyCell (W := R * R) 0]; bc_right := [CopyCell (-1)]; bc_periodic := false |}).
  assert (B : get_boundary_conditions (Some reflect) ["outflow"%string] 1 None None = Ok bc) by reflexivity.
  assert (X : forall w dt dx, 0 < w -> dx = 1 -> exists v, fv_rhs (lw_flux (Some (w * w)) dt dx) 1 bc 0 [(1, 0); (4, 0)] = Ok v /\ length v = 2%nat /\
    fst (nth 0 v z2) = (1 / 2 - dt) * (2 * w) * 3).
  { intros w dt dx Hw ->.
    assert (Gw : py_or (Some (w * w)) default_gravity = w * w) by (cbn; destruct (Reqb_spec (w * w) 0); [nra|reflexivity]).
    destruct (C62_wet_states (LaxWendroff dt 1) (Some (w * w)) BNone ["outflow"%string] None None (lw_flux (Some (w * w)) dt 1) bc 1 0 [(1, 0); (4, 0)]) as [v [E1 E2]];
      [reflexivity|rewrite Gw; nra|split; [discriminate|lra]|left; exact I|intros ? Z; discriminate|exact B|intros f [|]; discriminate| |discriminate|lra|].
    { intros x [<-|[<-|[]]]; cbn [fst]; lra. }
    exists v. split; auto. split; auto.
    destruct (open_pair BNone (lw_flux (Some (w * w)) dt 1) (plain_law (lw_at (Some (w * w)) dt 1)) (1, 0) (4, 0) 1 0 v) as [fl [fr [fl0 [fr0 [Y1 [Y2 V]]]]]];
      [apply nodewise_two_point; [reflexivity|intro; reflexivity]|exact I|exact E1|].
    unfold plain_law in Y1, Y2. inv_bind Y1. inv_bind Y2. apply Ok_inj in Y1, Y2. injection Y1 as <- <-. injection Y2 as <- <-.
    pose proof (consistent_lw _ _ _ _ _ E0) as C. rewrite Gw in C. unfold sw_flux, sw_flux_eps in C.
    destruct (Rltb_spec 1 0); [lra|]. destruct (Rltb_spec 1 epsilon); [lra|]. apply Ok_inj in C. subst a0.
    destruct (C80_lax_wendroff_viscosity (w * w) dt 1 [(1, 0)] [(4, 0)]) as [fl [fr [E3 [L1 [L2 VV]]]]]; try reflexivity; try nra.
    { intros x [[<-|[]]|[<-|[]]]; cbn [fst]; lra. }
    cbn [lw_flux nf_call combine mapM fst snd] in E3. rewrite E in E3. cbn [bind] in E3. apply Ok_inj in E3. injection E3 as <- <-.
    destruct (VV 0%nat ltac:(cbn; lia)) as [V1 _]. cbn [nth] in V1. rewrite V, V1.
    assert (S : speed (w * w) (1, 0) (4, 0) = 2 * w).
    { unfold speed. cbn [fst snd]. replace (0 / 1) with 0 by field. replace (0 / 4) with 0 by field. rewrite Rabs_R0.
      replace (w * w * 1) with (w * w) by ring. replace (w * w * 4) with ((2 * w) * (2 * w)) by ring. rewrite !sqrt_square by lra. rewrite Rmax_right; lra. }
    rewrite S. unfold minus, mean, phys_flux, times, copp. cbn [cadd cscal RR_CellOps fst snd]. field. }
  destruct (X 1 (1 / 4) 1 ltac:(lra) eq_refl) as [v [E1 [L1 V1]]]. destruct (X 2 (1 / 2 * (1 / 4)) (1 * 1) ltac:(lra) ltac:(lra)) as [v' [E2 [L2 V2]]].
  replace (1 * 1) with 1 in E1 by ring.
  exists (lw_flux (Some 1) (1 / 4) 1), (lw_flux (Some (2 * 2)) (1 / 2 * (1 / 4)) (1 * 1)), bc, v, v'. rewrite U2, G2.
  assert (A1 : fst (nth 0 v (0, 0)) = 3 / 2) by (rewrite V1; lra). assert (A2 : fst (nth 0 v' (0, 0)) = 9 / 2) by (rewrite V2; lra).
  repeat match goal with |- _ /\ _ => split end; auto.
  intro Z. rewrite Z in A2. destruct v as [|x v]; [discriminate L1|]. cbn [map nth] in A2. unfold times, in_units in A2. cbn [nth fst] in A1, A2. lra.
Qed.
Print Assumptions C80_lax_wendroff_units_refuted.
