(** C79: local bounds of the low order and of the limited shallow water scheme *)
From Coq Require Import Reals List ZArith Arith Lia Lra Psatz Bool String.
From Verif Require Import Prelude L_Prelude M_Boundary S_Boundary L_Boundary M_Flux S_Flux L_Flux
  M_Neighbours L_Neighbours M_Scalar S_Scalar L_Scalar M_ODE S_ODE L_ODE M_ShallowWater S_ShallowWater L_ShallowWater L_SWRuns L_SWLow
  L_SWWater L_SWLake L_SWTotal S_Symmetry L_SWNodes L_SWMirror P_SWLimiter S_SWBounds L_SWBounds.
Import ListNotations.
Local Open Scope nat_scope.
Open Scope R_scope.
Notation length := List.length.
Notation z2 := (0, 0) (only parsing).

(* new value of cell i *)
Lemma new_cell nf dx bc dt t u v e conds il ir : nf_dim nf = 2%nat ->
  get_boundary_conditions (Some reflect) conds 1 il ir = Ok bc -> u <> [] -> extended bc u (Some t) = Ok e ->
  (forall fl fr, nf_call nf (sides e) = Ok (fl, fr) -> length fl = S (length u) /\ length fr = S (length u)) ->
  fv_rhs nf dx bc t u = Ok v ->
  exists fl fr, nf_call nf (sides e) = Ok (fl, fr) /\ dx <> 0 /\ length v = length u /\
  forall i, (i < length u)%nat ->
    nth i (map2 cadd u (map (cscal dt) v)) z2 =
    (fst (nth i u z2) + dt / dx * (fst (nth i fr z2) + fst (nth (S i) fl z2)),
     snd (nth i u z2) + dt / dx * (snd (nth i fr z2) + snd (nth (S i) fl z2))).
Proof.
  intros D B Hu Ee LF E. destruct (extended_cells _ _ _ _ _ _ _ _ B Hu Ee) as [Le [Ve Ne]].
  destruct (fv_rhs_inv _ _ _ _ _ _ E) as [a [fl [fr [E1 [E2 E3]]]]]. rewrite D in E1. change (2 / 2)%nat with 1%nat in E1.
  rewrite Ne in E1. apply Ok_inj in E1. subst a. rewrite <- sides_tab in E2 by auto.
  destruct (LF fl fr E2) as [L1 L2]. destruct (cells_from_nodes_spec _ _ _ _ _ E3 L1 L2) as [Hd [Lv Vv]].
  change (@czero (R * R) RR_CellOps) with z2 in Vv.
  exists fl, fr. repeat split; auto. intros i Hi.
  rewrite (nth_map2 _ _ _ i z2 z2) by (rewrite ?map_length; lia). rewrite (nth_map' _ _ _ z2) by lia. rewrite Vv by auto.
  cbn [cadd cscal RR_CellOps fst snd]. f_equal; field; auto.
Qed.

Lemma cfl_speed g dx dt e l r : all_wet e -> half_cfl g dx dt e -> In l e -> In r e -> dt * wet_speed g l r <= dx / 2.
Proof.
  intros W C Hl Hr. unfold wet_speed. pose proof (C l Hl) as A1. pose proof (C r Hr) as A2.
  rewrite wet_velocity in A1, A2 by auto. unfold Rmax. destruct (Rle_dec _ _); auto.
Qed.
Lemma cfl_weights dx dt s1 s2 : 0 < dx -> 0 <= dt -> 0 <= s1 -> 0 <= s2 -> dt * s1 <= dx / 2 -> dt * s2 <= dx / 2 ->
  0 <= 1 - dt / dx * (s1 + s2) /\ 0 <= dt / dx * s1 <= 1 / 2 /\ 0 <= dt / dx * s2 <= 1 / 2.
Proof.
  intros Hd Ht H1 H2 C1 C2.
  assert (A : forall s, 0 <= s -> dt * s <= dx / 2 -> 0 <= dt / dx * s <= 1 / 2).
  { intros s Hs C. split.
    - apply Rmult_le_pos; auto. apply Rmult_le_pos; auto. left. apply Rinv_0_lt_compat; auto.
    - apply (Rmult_le_reg_r dx); auto. replace (dt / dx * s * dx) with (dt * s) by (field; lra). lra. }
  pose proof (A s1 H1 C1). pose proof (A s2 H2 C2). split; [|auto]. rewrite Rmult_plus_distr_l. lra.
Qed.

(** the high order flux has one value per face *)
Definition one_per_face (high : nflux (R * R)) : Prop := nf_dim high = 2%nat /\
  forall vl vr fl fr, (2 <= length vl)%nat -> length vl = length vr -> nf_call high [vl; vr] = Ok (fl, fr) -> length fr = length vl.

(* the low order flux and the limited one for wet cells *)
Lemma low_faces gravity b nf e n fl fr : sw_low gravity b = Ok nf -> length e = S (S n) -> nf_call nf (sides e) = Ok (fl, fr) ->
  exists st o, bottom_steps b n st /\ length fl = S n /\ length fr = S n /\
  (forall i, (i <= n)%nat -> low_at gravity (nth i e z2) (nth (S i) e z2) (nth i st 0) = Ok (o i)) /\
  (forall i, (i <= n)%nat -> nth i fl z2 = lo_outl (o i) /\ nth i fr z2 = lo_outr (o i)).
Proof.
  intros E Le C. rewrite (sides_tab e n) in C by auto. unfold sw_low in E. inv_bind E. apply Ok_inj in E. subst nf. cbn [nf_call] in C.
  unfold low_call in C. inv_bind C. apply Ok_inj in C. injection C as <- <-.
  destruct (low_all_nth _ _ n _ _ _ (tab_length _ _) (tab_length _ _) E) as [st [Hst [Lo V]]].
  exists st, (fun i => nth i a0 low0). rewrite !map_length. split; [eapply bathymetry_steps; eauto|]. split; auto. split; auto. split.
  - intros i Hi. specialize (V i Hi). rewrite !nth_tab in V by lia. exact V.
  - intros i Hi. rewrite !(nth_map' _ _ _ low0) by lia. auto.
Qed.
Lemma mcl_faces gravity b conds il ir bc high nf e n fl fr : one_per_face high -> sw_mcl gravity b conds il ir high = Ok nf -> (1 <= n)%nat ->
  get_boundary_conditions (Some reflect) conds 1 il ir = Ok bc ->
  length e = S (S n) -> nf_call nf (sides e) = Ok (fl, fr) ->
  exists st o hl hr, bottom_steps b n st /\ length fl = S n /\ length fr = S n /\ nf_call high (sides e) = Ok (hl, hr) /\
  (forall i, (i <= n)%nat -> low_at gravity (nth i e z2) (nth (S i) e z2) (nth i st 0) = Ok (o i)) /\ mcl_well n o /\
  let H := fun i => nth i hr z2 in
  (forall i, (i <= n)%nat ->
    nth i fl z2 = (fst (lo_outl (o i)) - fh_ (bc_periodic bc) n o H i, snd (lo_outl (o i)) - fq_ (bc_periodic bc) n o H i) /\
    nth i fr z2 = (fst (lo_outr (o i)) + fh_ (bc_periodic bc) n o H i, snd (lo_outr (o i)) + fq_ (bc_periodic bc) n o H i)).
Proof.
  intros [_ LH] E Hn B Le C. rewrite (sides_tab e n) in * by auto. unfold sw_mcl in E. inv_bind E. inv_bind E. apply Ok_inj in E. subst nf. cbn [nf_call] in C.
  rewrite B in E0. apply Ok_inj in E0. subst a.
  assert (Bl : length (bc_left bc) = 1%nat) by (eapply bc_radius; eauto).
  destruct (mcl_call_inv gravity (snd a0) bc high n (tab (S n) (fun i => nth i e z2)) (tab (S n) (fun i => nth (S i) e z2)) fl fr Bl Hn (tab_length _ _) (tab_length _ _))
    as [o [hl [hr [Eo [Lo [Eh [G [-> ->]]]]]]]].
  { intros fl0 fr0 X. apply LH in X; rewrite ?tab_length in *; auto; lia. }
  { exact C. }
  destruct (low_all_nth _ _ n _ _ _ (tab_length _ _) (tab_length _ _) Eo) as [st [Hst [_ V]]].
  exists st, (fun i => nth i o low0), hl, hr. rewrite !tab_length. split; [eapply bathymetry_steps; eauto|].
  do 3 (split; [auto|]). split; [|split; [exact G|]].
  - intros i Hi. specialize (V i Hi). rewrite !nth_tab in V by lia. exact V.
  - cbv zeta. intros i Hi. rewrite !nth_tab by lia. unfold copp. cbn [cadd cscal RR_CellOps fst snd]. split; f_equal; ring.
Qed.
Lemma scheme_lengths gravity b conds il ir bc nf e n : (1 <= n)%nat -> get_boundary_conditions (Some reflect) conds 1 il ir = Ok bc ->
  (sw_low gravity b = Ok nf \/ exists high, one_per_face high /\ sw_mcl gravity b conds il ir high = Ok nf) -> length e = S (S n) ->
  nf_dim nf = 2%nat /\ forall fl fr, nf_call nf (sides e) = Ok (fl, fr) -> length fl = S n /\ length fr = S n.
Proof.
  intros Hn B [E|[high [O E]]] Le; split.
  - unfold sw_low in E. inv_bind E. apply Ok_inj in E. subst nf. reflexivity.
  - intros fl fr C. destruct (low_faces _ _ _ _ n _ _ E Le C) as [st [o [_ [L1 [L2 _]]]]]. auto.
  - unfold sw_mcl in E. inv_bind E. inv_bind E. apply Ok_inj in E. subst nf. apply O.
  - intros fl fr C. destruct (mcl_faces _ _ _ _ _ _ _ _ _ n _ _ O E Hn B Le C) as [st [o [hl [hr [_ [L1 [L2 _]]]]]]]. auto.
Qed.

(** ** heights: any bottom, the low order scheme and the limited one with any high order flux *)
Theorem C79_heights : forall gravity b nf conds il ir bc dx dt t u v e,
  sw_low gravity b = Ok nf \/ (exists high, one_per_face high /\ sw_mcl gravity b conds il ir high = Ok nf) ->
  (forall l, b = BArray l -> length l = length u /\ resolved l) ->
  get_boundary_conditions (Some reflect) conds 1 il ir = Ok bc -> u <> [] -> 0 < dx -> 0 <= dt ->
  let g := py_or gravity default_gravity in
  extended bc u (Some t) = Ok e -> all_wet e -> half_cfl g dx dt e ->
  fv_rhs nf dx bc t u = Ok v ->
  let bar := fun j => fst (bar_state g (nth j e (0, 0)) (nth (S j) e (0, 0))) in
  let cut := fun j => half_step (bar j) (bottom_step b (length u) j) in
  length v = length u /\
  forall i, (i < length u)%nat ->
    between (fst (nth i u (0, 0))) (bar i - cut i) (bar (S i) + cut (S i)) (fst (nth i (map2 cadd u (map (cscal dt) v)) (0, 0))).
Proof.
  intros gravity b nf conds il ir bc dx dt t u v e HS HB B Hu Hdx Hdt g Ee W C E bar cut.
  assert (Hn : (1 <= length u)%nat) by (destruct u; [congruence|cbn; lia]).
  destruct (extended_cells _ _ _ _ _ _ _ _ B Hu Ee) as [Le [Ve _]]. set (n := length u) in *.
  destruct (scheme_lengths gravity b conds il ir bc nf e n Hn B HS Le) as [D LF].
  destruct (new_cell nf dx bc dt t u v e conds il ir D B Hu Ee LF E) as [fl [fr [EC [_ [Lv VN]]]]]. split; auto. fold n in VN.
  assert (WN : forall j, (j <= S n)%nat -> epsilon <= fst (nth j e z2)) by (intros; apply W, nth_In; lia).
  assert (F : exists wl wr, forall j, (j <= n)%nat ->
     let s := wet_speed g (nth j e z2) (nth (S j) e z2) in
     fst (nth j fr z2) = s * (wr j - fst (nth (S j) e z2)) + fst (wet_flux g (nth (S j) e z2)) /\
     fst (nth j fl z2) = s * (wl j - fst (nth j e z2)) - fst (wet_flux g (nth j e z2)) /\ 0 < s /\
     forall i, ((j = i)%nat -> (i < n)%nat -> Rmin (bar i - cut i) (bar (S i) + cut (S i)) <= wr j <= Rmax (bar i - cut i) (bar (S i) + cut (S i))) /\
        ((j = S i)%nat -> Rmin (bar i - cut i) (bar (S i) + cut (S i)) <= wl j <= Rmax (bar i - cut i) (bar (S i) + cut (S i)))).
  { destruct HS as [HS|[high [O HS]]].
    - destruct (low_faces _ _ _ _ n _ _ HS Le EC) as [st [o [BS [_ [_ [V Q]]]]]].
      exists (fun j => bar j + cut j), (fun j => bar j - cut j). intros j Hj. cbv zeta.
      destruct (low_wet gravity _ _ _ _ (WN j ltac:(lia)) (WN (S j) ltac:(lia)) (V j Hj)) as [A0 [_ [A2 [A3 [A4 [A5 [_ [A7 A8]]]]]]]]. fold g in A0, A2, A4, A5, A7, A8.
      rewrite (steps_resolved b n st j Hn BS HB Hj) in A4, A5. change (lo_hl (o j) = bar j + cut j) in A4. change (lo_hr (o j) = bar j - cut j) in A5.
      destruct (Q j Hj) as [-> ->]. rewrite A7, A8. cbn [fst]. rewrite A2, A4, A5. repeat split; auto; subst j.
      + apply Rmin_l. + apply Rmax_l. + apply Rmin_r. + apply Rmax_r.
    - destruct (mcl_faces _ _ _ _ _ _ _ _ _ n _ _ O HS Hn B Le EC) as [st [o [hl [hr [BS [_ [_ [_ [V [WELL Q]]]]]]]]]]. cbv zeta in Q.
      set (H := fun i => nth i hr z2) in *. set (fh := fh_ (bc_periodic bc) n o H) in *.
      assert (A : forall j, (j <= n)%nat -> let s := wet_speed g (nth j e z2) (nth (S j) e z2) in
        0 < s /\ lo_s (o j) = s /\ lo_hl (o j) = bar j + cut j /\ lo_hr (o j) = bar j - cut j /\
        fst (lo_outl (o j)) = s * (bar j + cut j - fst (nth j e z2)) - fst (wet_flux g (nth j e z2)) /\
        fst (lo_outr (o j)) = s * (bar j - cut j - fst (nth (S j) e z2)) + fst (wet_flux g (nth (S j) e z2))).
      { intros j Hj. cbv zeta.
        destruct (low_wet gravity _ _ _ _ (WN j ltac:(lia)) (WN (S j) ltac:(lia)) (V j Hj)) as [A0 [_ [A2 [A3 [A4 [A5 [_ [A7 A8]]]]]]]]. fold g in A0, A2, A4, A5, A7, A8.
        rewrite (steps_resolved b n st j Hn BS HB Hj) in A4, A5. change (lo_hl (o j) = bar j + cut j) in A4. change (lo_hr (o j) = bar j - cut j) in A5.
        rewrite A7, A8. cbn [fst]. rewrite A2, A4, A5. repeat split; auto. }
      exists (fun j => bar j + cut j - fh j / wet_speed g (nth j e z2) (nth (S j) e z2)), (fun j => bar j - cut j + fh j / wet_speed g (nth j e z2) (nth (S j) e z2)).
      intros j Hj. cbv zeta. destruct (A j Hj) as [A0 [A1 [A2 [A3 [A4 A5]]]]]. set (s := wet_speed g (nth j e z2) (nth (S j) e z2)) in *.
      destruct (Q j Hj) as [-> ->]. cbn [fst]. rewrite A4, A5. fold (fh j). split; [field; lra|]. split; [field; lra|]. split; auto.
      destruct (fh_bounds (bc_periodic bc) n o H j Hj ltac:(lra)) as [F1 [F2 _]]. fold fh in F1, F2. rewrite A1, A2 in F2. rewrite A1, A3 in F1.
      assert (E1 : s * (bar j - cut j) + fh j = s * (bar j - cut j + fh j / s)) by (field; lra). rewrite E1 in F1.
      assert (E2 : s * (bar j + cut j) - fh j = s * (bar j + cut j - fh j / s)) by (field; lra). rewrite E2 in F2.
      intro i. split; [intros -> Hi|intros ->].
      + assert (K : hmin_ (bc_periodic bc) n o (S i) = Rmin (bar i - cut i) (bar (S i) + cut (S i)) /\ hmax_ (bc_periodic bc) n o (S i) = Rmax (bar i - cut i) (bar (S i) + cut (S i))).
        { unfold hmin_, hmax_. rewrite cl_S, cr_le by lia. destruct (A i ltac:(lia)) as [_ [_ [_ [-> _]]]]. destruct (A (S i) ltac:(lia)) as [_ [_ [-> _]]]. auto. }
        destruct K as [K1 K2]. rewrite K1, K2 in F1. split; apply (Rmult_le_reg_l s); lra.
      + assert (K : hmin_ (bc_periodic bc) n o (S i) = Rmin (bar i - cut i) (bar (S i) + cut (S i)) /\ hmax_ (bc_periodic bc) n o (S i) = Rmax (bar i - cut i) (bar (S i) + cut (S i))).
        { unfold hmin_, hmax_. rewrite cl_S, cr_le by lia. destruct (A i ltac:(lia)) as [_ [_ [_ [-> _]]]]. destruct (A (S i) ltac:(lia)) as [_ [_ [-> _]]]. auto. }
        destruct K as [K1 K2]. rewrite K1, K2 in F2. split; apply (Rmult_le_reg_l s); lra. }
  destruct F as [wl [wr F]]. intros i Hi. rewrite (VN i Hi). cbn [fst].
  destruct (F i ltac:(lia)) as [Fr [_ [S1 F1]]]. destruct (F (S i) ltac:(lia)) as [_ [Fl [S2 F2]]].
  destruct (F1 i) as [G1 _]. specialize (G1 eq_refl Hi). destruct (F2 i) as [_ G2]. specialize (G2 eq_refl).
  rewrite Fr, Fl. rewrite (Ve i Hi). set (h := fst (nth i u z2)). set (f := fst (wet_flux g (nth i u z2))). 
  rewrite (Ve i Hi) in S1, S2. set (s1 := wet_speed g (nth i e z2) (nth i u z2)) in *. set (s2 := wet_speed g (nth i u z2) (nth (S (S i)) e z2)) in *.
  assert (I : forall j, (j <= S n)%nat -> In (nth j e z2) e) by (intros; apply nth_In; lia).
  assert (Iu : In (nth i u z2) e) by (rewrite <- (Ve i Hi); apply I; lia).
  destruct (cfl_weights dx dt s1 s2 Hdx Hdt ltac:(lra) ltac:(lra)
    (cfl_speed g dx dt e _ _ W C (I i ltac:(lia)) Iu) (cfl_speed g dx dt e _ _ W C Iu (I (S (S i)) ltac:(lia)))) as [W0 [W1 W2]].
  set (lam := dt / dx) in *.
  replace (h + lam * (s1 * (wr i - h) + f + (s2 * (wl (S i) - h) - f))) with ((1 - lam * (s1 + s2)) * h + lam * s1 * wr i + lam * s2 * wl (S i)) by ring.
  set (m := Rmin (bar i - cut i) (bar (S i) + cut (S i))) in *. set (M := Rmax (bar i - cut i) (bar (S i) + cut (S i))) in *.
  unfold between. fold m M. pose proof (Rmin_l h m). pose proof (Rmin_r h m). pose proof (Rmax_l h M). pose proof (Rmax_r h M).
  pose proof (combo (h - Rmin h m) (wr i - Rmin h m) (wl (S i) - Rmin h m) _ _ _ W0 (proj1 W1) (proj1 W2) ltac:(lra) ltac:(lra) ltac:(lra)).
  pose proof (combo (Rmax h M - h) (Rmax h M - wr i) (Rmax h M - wl (S i)) _ _ _ W0 (proj1 W1) (proj1 W2) ltac:(lra) ltac:(lra) ltac:(lra)).
  split; nra.
Qed.
Print Assumptions C79_heights.

(** ** flat bottom: one step of the low order scheme averages the cell and its two bar states *)
Theorem C79_low_order_average : forall gravity b nf conds il ir bc dx dt t u v e,
  sw_low gravity b = Ok nf -> flat b ->
  get_boundary_conditions (Some reflect) conds 1 il ir = Ok bc -> u <> [] -> 0 < dx -> 0 <= dt ->
  let g := py_or gravity default_gravity in
  extended bc u (Some t) = Ok e -> all_wet e -> half_cfl g dx dt e ->
  fv_rhs nf dx bc t u = Ok v ->
  length v = length u /\
  forall i, (i < length u)%nat -> exists w0 w1 w2, 0 <= w0 /\ 0 <= w1 /\ 0 <= w2 /\ w0 + w1 + w2 = 1 /\
    let old := nth i u (0, 0) in
    let left := bar_state g (nth i e (0, 0)) (nth (S i) e (0, 0)) in
    let right := bar_state g (nth (S i) e (0, 0)) (nth (S (S i)) e (0, 0)) in
    nth i (map2 cadd u (map (cscal dt) v)) (0, 0) =
      (w0 * fst old + w1 * fst left + w2 * fst right, w0 * snd old + w1 * snd left + w2 * snd right).
Proof.
  intros gravity b nf conds il ir bc dx dt t u v e HS HB B Hu Hdx Hdt g Ee W C E.
  assert (Hn : (1 <= length u)%nat) by (destruct u; [congruence|cbn; lia]).
  destruct (extended_cells _ _ _ _ _ _ _ _ B Hu Ee) as [Le [Ve _]]. set (n := length u) in *.
  destruct (scheme_lengths gravity b conds il ir bc nf e n Hn B (or_introl HS) Le) as [D LF].
  destruct (new_cell nf dx bc dt t u v e conds il ir D B Hu Ee LF E) as [fl [fr [EC [_ [Lv VN]]]]]. split; auto. fold n in VN.
  assert (WN : forall j, (j <= S n)%nat -> epsilon <= fst (nth j e z2)) by (intros; apply W, nth_In; lia).
  destruct (low_faces _ _ _ _ n _ _ HS Le EC) as [st [o [BS [_ [_ [V Q]]]]]].
  assert (A : forall j, (j <= n)%nat -> let s := wet_speed g (nth j e z2) (nth (S j) e z2) in let bar := bar_state g (nth j e z2) (nth (S j) e z2) in
    0 < s /\
    nth j fl z2 = (s * (fst bar - fst (nth j e z2)) - fst (wet_flux g (nth j e z2)), s * (snd bar - snd (nth j e z2)) - snd (wet_flux g (nth j e z2))) /\
    nth j fr z2 = (s * (fst bar - fst (nth (S j) e z2)) + fst (wet_flux g (nth (S j) e z2)), s * (snd bar - snd (nth (S j) e z2)) + snd (wet_flux g (nth (S j) e z2)))).
  { intros j Hj. cbv zeta.
    destruct (low_wet gravity _ _ _ _ (WN j ltac:(lia)) (WN (S j) ltac:(lia)) (V j Hj)) as [A0 [AP [A2 [A3 [A4 [A5 [A6 [A7 A8]]]]]]]]. fold g in A0, AP, A2, A4, A5, A6, A7, A8.
    destruct (A6 (steps_flat b n st j BS HB)) as [A9 A10]. rewrite (steps_flat b n st j BS HB), <- fix_half_step, fix_0 in A4, A5 by auto.
    destruct (Q j Hj) as [-> ->]. split; auto. rewrite A7, A8, A2, A4, A5, A9, A10. split; f_equal; ring. }
  intros i Hi. rewrite (VN i Hi). destruct (A i ltac:(lia)) as [S1 [_ ->]]. destruct (A (S i) ltac:(lia)) as [S2 [-> _]].
  cbv zeta. cbn [fst snd]. assert (I : forall j, (j <= S n)%nat -> In (nth j e z2) e) by (intros; apply nth_In; lia).
  destruct (cfl_weights dx dt _ _ Hdx Hdt (Rlt_le _ _ S1) (Rlt_le _ _ S2)
    (cfl_speed g dx dt e _ _ W C (I i ltac:(lia)) (I (S i) ltac:(lia))) (cfl_speed g dx dt e _ _ W C (I (S i) ltac:(lia)) (I (S (S i)) ltac:(lia)))) as [W0 [W1 W2]].
  exists (1 - dt / dx * (wet_speed g (nth i e z2) (nth (S i) e z2) + wet_speed g (nth (S i) e z2) (nth (S (S i)) e z2))),
    (dt / dx * wet_speed g (nth i e z2) (nth (S i) e z2)), (dt / dx * wet_speed g (nth (S i) e z2) (nth (S (S i)) e z2)).
  split; auto. split; [tauto|]. split; [tauto|]. split; [ring|]. rewrite (Ve i Hi). f_equal; ring.
Qed.
Print Assumptions C79_low_order_average.

Lemma velocity_combo a b c u0 u1 u2 w0 w1 w2 : 0 <= w0 -> 0 <= w1 -> 0 <= w2 ->
  velocity_between a b c u0 -> velocity_between a b c u1 -> velocity_between a b c u2 ->
  velocity_between a b c (w0 * fst u0 + w1 * fst u1 + w2 * fst u2, w0 * snd u0 + w1 * snd u1 + w2 * snd u2).
Proof.
  unfold velocity_between. cbn [fst snd]. set (m := Rmin a (Rmin b c)). set (M := Rmax a (Rmax b c)). intros P0 P1 P2 [A1 A2] [B1 B2] [C1 C2].
  pose proof (combo (snd u0 - m * fst u0) (snd u1 - m * fst u1) (snd u2 - m * fst u2) w0 w1 w2 P0 P1 P2 ltac:(lra) ltac:(lra) ltac:(lra)).
  pose proof (combo (M * fst u0 - snd u0) (M * fst u1 - snd u1) (M * fst u2 - snd u2) w0 w1 w2 P0 P1 P2 ltac:(lra) ltac:(lra) ltac:(lra)).
  split; nra.
Qed.
Lemma velocity_own a b c u v : 0 < fst u -> v = snd u / fst u -> v = a \/ v = b \/ v = c -> velocity_between a b c u.
Proof.
  intros P E H. unfold velocity_between. destruct (min3 a b c) as [A1 [A2 A3]]. destruct (max3 a b c) as [B1 [B2 B3]].
  set (m := Rmin a (Rmin b c)) in *. set (M := Rmax a (Rmax b c)) in *.
  assert (K : snd u = v * fst u) by (rewrite E; field; lra). rewrite K. destruct H as [H|[H|H]]; rewrite H; split; apply Rmult_le_compat_r; lra.
Qed.

(** the bar state of two wet cells has a positive height as soon as gravity acts *)
Lemma bar_wet gravity l r : 0 < py_or gravity default_gravity -> epsilon <= fst l -> epsilon <= fst r ->
  0 < fst (bar_state (py_or gravity default_gravity) l r).
Proof.
  set (g := py_or gravity default_gravity). intros Hg Hl Hr. pose proof epsilon_pos as He.
  destruct l as [hl ql], r as [hr qr]. cbn [fst] in *.
  unfold bar_state, wet_flux. cbn [fst snd]. set (s := wet_speed g (hl, ql) (hr, qr)).
  assert (S1 : Rabs (ql / hl) + sqrt (g * hl) <= s) by apply Rmax_l.
  assert (S2 : Rabs (qr / hr) + sqrt (g * hr) <= s) by apply Rmax_r.
  assert (Q1 : 0 < sqrt (g * hl)) by (apply sqrt_lt_R0, Rmult_lt_0_compat; lra).
  assert (Q2 : 0 < sqrt (g * hr)) by (apply sqrt_lt_R0, Rmult_lt_0_compat; lra).
  pose proof (Rabs_pos (ql / hl)). 
  pose proof (Rle_abs (- (ql / hl))) as B1. rewrite Rabs_Ropp in B1. pose proof (Rle_abs (qr / hr)) as B2.
  assert (0 < hl * (s + ql / hl)) by (apply Rmult_lt_0_compat; lra).
  assert (0 < hr * (s - qr / hr)) by (apply Rmult_lt_0_compat; lra).
  replace ((hl + hr) / 2 - (qr - ql) / (2 * s)) with ((hl * (s + ql / hl) + hr * (s - qr / hr)) / (2 * s)) by (field; lra).
  apply Rdiv_lt_0_compat; lra.
Qed.

Theorem C79_low_order_velocities : forall gravity b nf conds il ir bc dx dt t u v e,
  sw_low gravity b = Ok nf -> flat b ->
  get_boundary_conditions (Some reflect) conds 1 il ir = Ok bc -> u <> [] -> 0 < dx -> 0 <= dt ->
  let g := py_or gravity default_gravity in 0 < g ->
  extended bc u (Some t) = Ok e -> all_wet e -> half_cfl g dx dt e ->
  fv_rhs nf dx bc t u = Ok v ->
  forall i, (i < length u)%nat ->
    velocity_between (snd (nth i u (0, 0)) / fst (nth i u (0, 0)))
      (bar_velocity g (nth i e (0, 0)) (nth (S i) e (0, 0))) (bar_velocity g (nth (S i) e (0, 0)) (nth (S (S i)) e (0, 0)))
      (nth i (map2 cadd u (map (cscal dt) v)) (0, 0)).
Proof.
  intros gravity b nf conds il ir bc dx dt t u v e HS HB B Hu Hdx Hdt g Hg Ee W C E i Hi.
  destruct (extended_cells _ _ _ _ _ _ _ _ B Hu Ee) as [Le [Ve _]]. 
  destruct (C79_low_order_average gravity b nf conds il ir bc dx dt t u v e HS HB B Hu Hdx Hdt Ee W C E) as [_ A].
  destruct (A i Hi) as [w0 [w1 [w2 [P0 [P1 [P2 [_ EQ]]]]]]]. cbv zeta in EQ. rewrite EQ. fold g.
  assert (WN : forall j, (j <= S (length u))%nat -> epsilon <= fst (nth j e z2)) by (intros; apply W, nth_In; lia).
  apply velocity_combo; auto.
  - eapply velocity_own; [|reflexivity|auto]. rewrite <- (Ve i Hi). pose proof epsilon_pos. pose proof (WN (S i) ltac:(lia)). lra.
  - eapply velocity_own; [apply bar_wet; auto; apply WN; lia|reflexivity|]. auto.
  - eapply velocity_own; [apply bar_wet; auto; apply WN; lia|reflexivity|]. auto.
Qed.
Print Assumptions C79_low_order_velocities.

(** ** the limited scheme over a flat bottom *)
(** Cells through whose right face the limited flux moves at most as much water to the
    right as the low order flux. The full statement - without the last hypothesis - is
    refuted below. *)
Theorem C79_limited_velocities_partial : forall gravity b nf0 high nf conds il ir bc dx dt t u v e fl0 fr0 fl fr,
  sw_low gravity b = Ok nf0 -> one_per_face high -> sw_mcl gravity b conds il ir high = Ok nf -> flat b ->
  get_boundary_conditions (Some reflect) conds 1 il ir = Ok bc -> u <> [] -> 0 < dx -> 0 <= dt ->
  let g := py_or gravity default_gravity in
  extended bc u (Some t) = Ok e -> all_wet e -> half_cfl g dx dt e ->
  fv_rhs nf dx bc t u = Ok v ->
  nf_call nf0 (sides e) = Ok (fl0, fr0) -> nf_call nf (sides e) = Ok (fl, fr) ->
  forall i, (i < length u)%nat -> fst (nth (S i) fr (0, 0)) <= fst (nth (S i) fr0 (0, 0)) ->
    velocity_between (snd (nth i u (0, 0)) / fst (nth i u (0, 0)))
      (bar_velocity g (nth i e (0, 0)) (nth (S i) e (0, 0))) (bar_velocity g (nth (S i) e (0, 0)) (nth (S (S i)) e (0, 0)))
      (nth i (map2 cadd u (map (cscal dt) v)) (0, 0)).
Proof.
  intros gravity b nf0 high nf conds il ir bc dx dt t u v e fl0 fr0 fl fr HL O HS HB B Hu Hdx Hdt g Ee W C E EC0 EC i Hi LE.
  assert (Hn : (1 <= length u)%nat) by (destruct u; [congruence|cbn; lia]).
  destruct (extended_cells _ _ _ _ _ _ _ _ B Hu Ee) as [Le [Ve _]]. set (n := length u) in *.
  destruct (scheme_lengths gravity b conds il ir bc nf e n Hn B (or_intror (ex_intro _ high (conj O HS))) Le) as [D LF].
  destruct (new_cell nf dx bc dt t u v e conds il ir D B Hu Ee LF E) as [fl' [fr' [EC' [_ [Lv VN]]]]]. fold n in VN.
  rewrite EC in EC'. apply Ok_inj in EC'. injection EC' as <- <-.
  assert (WN : forall j, (j <= S n)%nat -> epsilon <= fst (nth j e z2)) by (intros; apply W, nth_In; lia).
  destruct (low_faces _ _ _ _ n _ _ HL Le EC0) as [st0 [o0 [BS0 [_ [_ [V0 Q0]]]]]].
  destruct (mcl_faces _ _ _ _ _ _ _ _ _ n _ _ O HS Hn B Le EC) as [st [o [hl [hr [BS [_ [_ [_ [V [WELL Q]]]]]]]]]]. cbv zeta in Q.
  set (H := fun i => nth i hr z2) in *. set (per := bc_periodic bc) in *. set (x := fun i => nth i e z2).
  pose proof (fun j => steps_flat b n st j BS HB) as FL.
  pose proof (fun j => steps_flat b n st0 j BS0 HB) as FL0.
  assert (OO : o0 (S i) = o (S i)).
  { pose proof (V0 (S i) ltac:(lia)) as K. pose proof (V (S i) ltac:(lia)) as K'. rewrite FL0 in K. rewrite FL, K in K'. apply Ok_inj in K'. auto. }
  destruct (Q0 (S i) ltac:(lia)) as [_ K0]. destruct (Q (S i) ltac:(lia)) as [K2 K1]. rewrite K0, K1, OO in LE. cbn [fst] in LE.
  assert (FN : fh_ per n o H (S i) <= 0) by lra.
  assert (WX : forall j, (j <= S n)%nat -> epsilon <= fst (x j)) by exact WN.
  destruct (face_low gravity n x o st Hn WX V WELL FL i ltac:(lia)) as [P1 [P2 [P3 [P4 [P5 [P6 [P7 [P8 P9]]]]]]]].
  destruct (face_low gravity n x o st Hn WX V WELL FL (S i) ltac:(lia)) as [R1 [R2 [R3 [R4 [R5 [R6 [R7 [R8 R9]]]]]]]].
  pose proof (right_state gravity per n x o H st Hn WX V WELL FL i ltac:(lia)) as RS. cbv zeta in RS.
  pose proof (left_state gravity per n x o H st Hn WX V WELL FL (S i) ltac:(lia) FN) as LS. cbv zeta in LS.
  destruct (face_v gravity per n x o st Hn WX V WELL FL (S i) ltac:(lia)) as [VM [Vm _]].
  rewrite cl_S, cr_le in VM, Vm by lia. rewrite VM, Vm in RS, LS.
  fold g in P1, P2, P3, P4, P5, P6, P7, P8, R1, R2, R3, R4, R5, R6, R7, R8, RS, LS.
  destruct (face_bounds gravity per n x o H st Hn WX V WELL FL i ltac:(lia)) as [_ [_ [L1 _]]].
  destruct (face_bounds gravity per n x o H st Hn WX V WELL FL (S i) ltac:(lia)) as [_ [_ [_ L2]]]. fold g in L1, L2.
  destruct (low_wet gravity _ _ _ _ (WN i ltac:(lia)) (WN (S i) ltac:(lia)) (V i ltac:(lia))) as [_ [_ [_ [_ [_ [_ [_ [_ A8]]]]]]]].
  destruct (low_wet gravity _ _ _ _ (WN (S i) ltac:(lia)) (WN (S (S i)) ltac:(lia)) (V (S i) ltac:(lia))) as [_ [_ [_ [_ [_ [_ [_ [A7 _]]]]]]]].
  fold g in A7, A8. destruct (Q i ltac:(lia)) as [_ K3].
  rewrite (VN i Hi), K3, K2, A7, A8. cbn [fst snd]. rewrite P3, P6, P8, R3, R5, R7.
  change (nth i e z2) with (x i). change (nth (S i) e z2) with (x (S i)). change (nth (S (S i)) e z2) with (x (S (S i))).
  set (s1 := wet_speed g (x i) (x (S i))) in *. set (s2 := wet_speed g (x (S i)) (x (S (S i)))) in *.
  set (B1 := bar_state g (x i) (x (S i))) in *. set (B2 := bar_state g (x (S i)) (x (S (S i)))) in *.
  set (a := bar_velocity g (x i) (x (S i))) in *. set (c := bar_velocity g (x (S i)) (x (S (S i)))) in *.
  set (fh1 := fh_ per n o H i) in *. set (fq1 := fq_ per n o H i) in *. set (fh2 := fh_ per n o H (S i)) in *. set (fq2 := fq_ per n o H (S i)) in *.
  assert (I : forall j, (j <= S n)%nat -> In (nth j e z2) e) by (intros; apply nth_In; lia).
  destruct (cfl_weights dx dt s1 s2 Hdx Hdt ltac:(lra) ltac:(lra)
    (cfl_speed g dx dt e _ _ W C (I i ltac:(lia)) (I (S i) ltac:(lia))) (cfl_speed g dx dt e _ _ W C (I (S i) ltac:(lia)) (I (S (S i)) ltac:(lia)))) as [W0 [W1 W2]].
  assert (EX : x (S i) = nth i u z2) by (apply Ve; auto). rewrite EX.
  set (own := nth i u z2) in *. set (lam := dt / dx) in *. 
  assert (G : (fst own + lam * (s1 * (fst B1 - fst own) + fst (wet_flux g own) + fh1 + (s2 * (fst B2 - fst own) - fst (wet_flux g own) - fh2)),
    snd own + lam * (s1 * (snd B1 - snd own) + snd (wet_flux g own) + fq1 + (s2 * (snd B2 - snd own) - snd (wet_flux g own) - fq2))) =
    ((1 - lam * (s1 + s2)) * fst own + lam * s1 * fst (fst B1 + fh1 / s1, snd B1 + fq1 / s1) + lam * s2 * fst (fst B2 - fh2 / s2, snd B2 - fq2 / s2),
     (1 - lam * (s1 + s2)) * snd own + lam * s1 * snd (fst B1 + fh1 / s1, snd B1 + fq1 / s1) + lam * s2 * snd (fst B2 - fh2 / s2, snd B2 - fq2 / s2))).
  { cbn [fst snd]. f_equal; field; lra. }
  rewrite G. apply velocity_combo; try tauto.
  - eapply velocity_own; [|reflexivity|auto]. rewrite <- EX. pose proof epsilon_pos. pose proof (WX (S i) ltac:(lia)). lra.
  - unfold velocity_between. cbn [fst snd]. set (w := snd own / fst own). pose proof (Rmin_r w (Rmin a c)). pose proof (Rmax_r w (Rmax a c)).
    split; [eapply Rle_trans; [|apply RS]|eapply Rle_trans; [apply RS|]]; rewrite (Rmult_comm (fst B1 + fh1 / s1)); apply Rmult_le_compat_r; lra.
  - unfold velocity_between. cbn [fst snd]. set (w := snd own / fst own). pose proof (Rmin_r w (Rmin a c)). pose proof (Rmax_r w (Rmax a c)).
    replace (fst B2 - fh2 / s2) with (2 * fst B2 - (fst B2 + fh2 / s2)) by ring.
    split; [eapply Rle_trans; [|apply LS]|eapply Rle_trans; [apply LS|]]; rewrite (Rmult_comm (2 * fst B2 - (fst B2 + fh2 / s2))); apply Rmult_le_compat_r; lra.
Qed.
Print Assumptions C79_limited_velocities_partial.

(** Between two inner cells the high order flux is kept if the states it stands for lie
    between the neighbouring bar states and if it moves at least as much water to the
    right as the low order flux. *)
Theorem C79_high_order_kept : forall gravity b nf0 high nf conds il ir bc t u e fl0 fr0 hl hr fl fr,
  sw_low gravity b = Ok nf0 -> one_per_face high -> sw_mcl gravity b conds il ir high = Ok nf -> flat b ->
  get_boundary_conditions (Some reflect) conds 1 il ir = Ok bc -> u <> [] ->
  let g := py_or gravity default_gravity in
  extended bc u (Some t) = Ok e -> all_wet e ->
  nf_call nf0 (sides e) = Ok (fl0, fr0) -> nf_call high (sides e) = Ok (hl, hr) -> nf_call nf (sides e) = Ok (fl, fr) ->
  forall j, (S j < length u)%nat ->
    let c := fun k => nth (j + k) e (0, 0) in
    let bar := fun k => bar_state g (c k) (c (S k)) in
    let f := nth (S j) hr (0, 0) in
    state_between (bar 0%nat) (bar 1%nat) (left_of g (c 1%nat) (c 2%nat) f) ->
    state_between (bar 1%nat) (bar 2%nat) (right_of g (c 1%nat) (c 2%nat) f) ->
    fst (nth (S j) fr0 (0, 0)) <= fst f ->
    nth (S j) fr (0, 0) = f /\ nth (S j) fl (0, 0) = (- fst f, - snd f).
Proof.
  intros gravity b nf0 high nf conds il ir bc t u e fl0 fr0 hl hr fl fr HL O HS HB B Hu g Ee W EC0 EH EC j Hj c bar f HLeft HRight HW.
  assert (Hn : (1 <= length u)%nat) by (destruct u; [congruence|cbn; lia]).
  destruct (extended_cells _ _ _ _ _ _ _ _ B Hu Ee) as [Le [Ve _]]. set (n := length u) in *.
  assert (WX : forall j, (j <= S n)%nat -> epsilon <= fst (nth j e z2)) by (intros; apply W, nth_In; lia).
  destruct (low_faces _ _ _ _ n _ _ HL Le EC0) as [st0 [o0 [BS0 [_ [_ [V0 Q0]]]]]].
  destruct (mcl_faces _ _ _ _ _ _ _ _ _ n _ _ O HS Hn B Le EC) as [st [o [hl' [hr' [BS [_ [_ [EH' [V [WELL Q]]]]]]]]]]. cbv zeta in Q.
  rewrite EH in EH'. apply Ok_inj in EH'. injection EH' as <- <-.
  set (H := fun i => nth i hr z2) in *. set (per := bc_periodic bc) in *. set (x := fun i => nth i e z2) in *.
  pose proof (fun j => steps_flat b n st j BS HB) as FL.
  pose proof (fun j => steps_flat b n st0 j BS0 HB) as FL0.
  assert (OO : o0 (S j) = o (S j)).
  { pose proof (V0 (S j) ltac:(lia)) as K. pose proof (V (S j) ltac:(lia)) as K'. rewrite FL0 in K. rewrite FL, K in K'. apply Ok_inj in K'. auto. }
  assert (C : forall k, c k = x (j + k)%nat) by reflexivity.
  assert (Bk : forall k, bar k = bar_state g (x (j + k)%nat) (x (S (j + k)))).
  { intro k. unfold bar. rewrite !C. replace (j + S k)%nat with (S (j + k)) by lia. reflexivity. }
  rewrite !Bk in HLeft, HRight. rewrite !C in HLeft, HRight.
  replace (j + 0)%nat with j in * by lia. replace (j + 1)%nat with (S j) in * by lia. replace (j + 2)%nat with (S (S j)) in * by lia.
  destruct (Q0 (S j) ltac:(lia)) as [_ K0]. destruct (Q (S j) ltac:(lia)) as [K2 K1]. rewrite K0, OO in HW. rewrite K1, K2. clear K0 K1 K2.
  destruct (face_low gravity n x o st Hn WX V WELL FL (S j) ltac:(lia)) as [P1 [P2 [P3 [P4 [P5 [P6 [P7 [P8 P9]]]]]]]].
  destruct (low_wet gravity _ _ _ _ (WX (S j) ltac:(lia)) (WX (S (S j)) ltac:(lia)) (V (S j) ltac:(lia))) as [_ [_ [_ [_ [_ [_ [_ [A7 A8]]]]]]]].
  rewrite P3, P5, P7 in A7. rewrite P3, P6, P8 in A8. fold g in A7, A8, P1.
  change (nth (S j) e z2) with (x (S j)) in A7, A8. change (nth (S (S j)) e z2) with (x (S (S j))) in A7, A8.
  set (l := x (S j)) in *. set (r := x (S (S j))) in *. set (s := wet_speed g l r) in *. set (Bm := bar_state g l r) in *.
  pose proof (recovers gravity per n x o H st Hn WX V WELL FL (S j) ltac:(lia)) as RC. cbv zeta in RC. fold g in RC.
  fold l r in RC. fold s Bm in RC. change (H (S j)) with f in RC. rewrite A8 in RC, HW. cbn [fst snd] in RC, HW.
  destruct (face_v gravity per n x o st Hn WX V WELL FL (S j) ltac:(lia)) as [VM1 [Vm1 [HM1 Hm1]]].
  destruct (face_v gravity per n x o st Hn WX V WELL FL (S (S j)) ltac:(lia)) as [VM2 [Vm2 [HM2 Hm2]]].
  rewrite cl_S, cr_le in VM1, Vm1, HM1, Hm1, VM2, Vm2, HM2, Hm2 by lia.
  rewrite VM1, Vm1, HM1, Hm1, VM2, Vm2, HM2, Hm2 in RC. unfold bar_velocity in RC. fold g in RC. fold l r in RC. fold Bm in RC.
  unfold state_between in HLeft, HRight. fold l r in HLeft, HRight. fold Bm in HLeft, HRight.
  unfold left_of, right_of in HLeft, HRight. fold s in HLeft, HRight. cbn [fst snd] in HLeft, HRight.
  (* the states of the flux are the bar state plus or minus the antidiffusive part *)
  assert (M1 : s * fst Bm - s * fst r + fst (wet_flux g r) = - (s * fst Bm - s * fst l - fst (wet_flux g l))).
  { unfold Bm, bar_state. fold s. cbn [fst]. field. lra. }
  assert (M2 : s * snd Bm - s * snd r + snd (wet_flux g r) = - (s * snd Bm - s * snd l - snd (wet_flux g l))).
  { unfold Bm, bar_state. fold s. cbn [snd]. field. lra. }
  assert (D1 : fst Bm + (fst f - (s * (fst Bm - fst r) + fst (wet_flux g r))) / s = fst r + (fst f - fst (wet_flux g r)) / s) by (field; lra).
  assert (D2 : fst Bm - (fst f - (s * (fst Bm - fst r) + fst (wet_flux g r))) / s = fst l - (fst f - fst (wet_flux g l)) / s).
  { replace (s * (fst Bm - fst r) + fst (wet_flux g r)) with (- (s * fst Bm - s * fst l - fst (wet_flux g l))) by lra. field. lra. }
  assert (D3 : snd Bm + (snd f - (s * (snd Bm - snd r) + snd (wet_flux g r))) / s = snd r + (snd f - snd (wet_flux g r)) / s) by (field; lra).
  assert (D4 : snd Bm - (snd f - (s * (snd Bm - snd r) + snd (wet_flux g r))) / s = snd l - (snd f - snd (wet_flux g l)) / s).
  { replace (s * (snd Bm - snd r) + snd (wet_flux g r)) with (- (s * snd Bm - s * snd l - snd (wet_flux g l))) by lra. field. lra. }
  change (wet_speed g l r) with s in RC.
  rewrite D1, D2, D3, D4 in RC.
  destruct RC as [F1 F2]; try tauto.
  { apply Rmult_le_pos; [lra|]. left. apply Rinv_0_lt_compat. lra. }
  change (bc_periodic bc) with per. rewrite F1, F2, A7, A8. cbn [fst snd]. destruct f as [f1 f2]. cbn [fst snd]. split; f_equal; lra.
Qed.
Print Assumptions C79_high_order_kept.

(** ** the velocity bound of the limited scheme is false *)
(** Two cells with open ends, gravity 1: height 1 with velocity -2 next to height 9 with
    velocity 2. All velocities, also those of the bar states, lie between -2 and 2. A
    step that meets the time step restriction leads to the velocity -26/5 in the first cell:
    the limiter multiplies the velocity bounds of both neighbours of a face with the
    limited height on its right (solver/mcl.py L147-172). *)
Definition jump2 : list (R * R) := [(1, -2); (9, 18)].
Theorem C79_limited_velocities_refuted : exists high nf bc e v,
  sw_central (Some 1) BNone = Ok high /\ sw_mcl (Some 1) BNone ["outflow"%string] None None high = Ok nf /\
  get_boundary_conditions (Some reflect) ["outflow"%string] 1 None None = Ok bc /\
  extended bc jump2 (Some 0) = Ok e /\ all_wet e /\ half_cfl 1 1 (1 / 10) e /\ one_per_face high /\
  fv_rhs nf 1 bc 0 jump2 = Ok v /\
  nth 0 (map2 cadd jump2 (map (cscal (1 / 10)) v)) (0, 0) = (1, - 26 / 5) /\
  bar_velocity 1 (nth 0 e (0, 0)) (nth 1 e (0, 0)) = - 2 /\ bar_velocity 1 (nth 1 e (0, 0)) (nth 2 e (0, 0)) = 4 / 15 /\
  ~ velocity_between (- 2) (bar_velocity 1 (nth 0 e (0, 0)) (nth 1 e (0, 0))) (bar_velocity 1 (nth 1 e (0, 0)) (nth 2 e (0, 0)))
      (nth 0 (map2 cadd jump2 (map (cscal (1 / 10)) v)) (0, 0)).
Proof.
  pose proof epsilon_lt as He. pose proof epsilon_pos as He0.
  assert (G1 : py_or (Some 1) default_gravity = 1) by (cbn; destruct (Reqb_spec 1 0); [lra|reflexivity]).
  set (bc := {| bc_left := [CopyCell (W := R * R) 0]; bc_right := [CopyCell (-1)]; bc_periodic := false |}).
  assert (FX : forall h q, 1 <= h -> sw_flux 1 (h, q) = Ok (q, q * q / h + h * h / 2)).
  { intros h0 q0 Hh. unfold sw_flux, sw_flux_eps. destruct (Rltb_spec h0 0); [lra|]. destruct (Rltb_spec h0 epsilon); [lra|]. f_equal. f_equal. field. lra. }
  set (high := {| nf_dim := 2; nf_call := wrapped_call 1 [0] (central (sw_flux 1)) |}).
  set (nf := {| nf_dim := 2; nf_call := sw_mcl_call (Some 1) [0] bc high |}).
  assert (CH : forall x (h q : nat -> R), (forall i, (i <= 3)%nat -> x i = (h i, q i) /\ 1 <= h i) -> exists hl,
     nf_call high [tab 3 x; tab 3 (fun i => x (S i))] = Ok (hl, tab 3 (fun i => (average (q i) (q (S i)),
       average (q i * q i / h i + h i * h i / 2) (q (S i) * q (S i) / h (S i) + h (S i) * h (S i) / 2))))).
  { intros x h q X.
    assert (N : nodewise_sw BNone high (add_source 1 (central_at (sw_flux 1)))).
    { pose proof (nodewise_source (Some 1) BNone (central (sw_flux 1)) high (central_at (sw_flux 1))) as Q. rewrite G1 in Q. apply Q; [reflexivity|intro; reflexivity|].
      unfold with_source. rewrite G1. reflexivity. }
    destruct N as [_ N]. eexists.
    apply (N 2%nat x (fun _ => 0) (tab 3 (fun i => copp (average (q i) (q (S i)),
       average (q i * q i / h i + h i * h i / 2) (q (S i) * q (S i) / h (S i) + h (S i) * h (S i) / 2)))) _ ltac:(lia) (padded_flat BNone 2 ltac:(intros l El; discriminate El))).
    rewrite !tab_length. split; auto. split; auto. intros i Hi. rewrite !nth_tab by lia.
    destruct (X i ltac:(lia)) as [-> H1]. destruct (X (S i) ltac:(lia)) as [-> H2]. unfold add_source, central_at. rewrite !FX by auto. cbn [bind].
    unfold csub, copp, average. cbn [cadd cscal RR_CellOps fst snd]. do 2 f_equal; f_equal; field; lra. }
  assert (A : exists v, fv_rhs nf 1 bc 0 [(1 * 1, -2); (3 * 3, 18)] = Ok v /\ length v = 2%nat /\ nth 0 v (0, 0) = (0, - 32)).
  { destruct (node_low 1 1 (-2) (-2) 3 1 (-2)) as [o0 [E0 [S0 [H0 [HL0 [HR0 [QL0 [QR0 [R0 L0]]]]]]]]]; try lra;
      [replace (-2 / (1 * 1)) with (-2) by field; rewrite Rabs_left by lra; rewrite Rmax_left; lra|].
    destruct (node_low 1 3 (-2) 18 5 3 (4/5)) as [o1 [E1 [S1 [H1 [HL1 [HR1 [QL1 [QR1 [R1 L1]]]]]]]]]; try lra;
      [replace (-2 / (1 * 1)) with (-2) by field; replace (18 / (3 * 3)) with 2 by field; rewrite Rabs_left, Rabs_pos_eq by lra; rewrite Rmax_right; lra|].
    destruct (node_low 3 3 18 18 5 9 18) as [o2 [E2 [S2 [H2 [HL2 [HR2 [QL2 [QR2 [R2 L2]]]]]]]]]; try lra;
      [replace (18 / (3 * 3)) with 2 by field; rewrite Rabs_pos_eq by lra; rewrite Rmax_left; lra|].
    set (lo := fun i => match i with O => o0 | S O => o1 | _ => o2 end).
    destruct (CH (nodes4 1 3 (-2) 18) (fun i => match i with O | S O => 1 * 1 | _ => 3 * 3 end) (fun i => match i with O | S O => -2 | _ => 18 end)) as [hl EH].
    { intros i Hi. destruct i as [|[|[|[|i]]]]; [| | | |lia]; (split; [reflexivity|lra]). }
    match type of EH with _ = Ok (_, tab 3 ?f) => set (H := f) in EH end.
    eexists. split; [|split].
    - apply (two_cells 1 3 (-2) 18 nf bc eq_refl); [reflexivity|]. apply (limited_call bc lo H high); auto.
      + intros i Hi. destruct i as [|[|[|i]]]; [exact E0|exact E1|exact E2|lia].
      + intros i Hi. destruct i as [|[|[|i]]]; [| | |lia]; cbn [lo]; rewrite ?S0, ?HL0, ?HR0, ?H0, ?S1, ?HL1, ?HR1, ?H1, ?S2, ?HL2, ?HR2, ?H2; repeat split; lra.
      + exists hl. exact EH.
    - reflexivity.
    - cbn [nth].
      assert (FH0 : fh_ false 2 lo H 0 = 0).
      { unfold fh_, hmax_, hmin_, cl_idx, cr_idx. cbn [Nat.leb lo]. rewrite HR0, HL0, HL1, S0, R0. unfold H, csub, copp, average.
        cbn [cadd cscal RR_CellOps fst snd]. unfold limit_at. repeat minmax1. lra. }
      assert (FQ0 : fq_ false 2 lo H 0 = 0).
      { unfold fq_, vmax_, vmin_, wl_, wr_, corr_, lh_. rewrite FH0. unfold vb_, cl_idx, cr_idx. cbn [Nat.leb lo].
        rewrite HR0, HL0, HR1, HL1, QL0, QR0, QL1, QR1, H0, H1, S0, R0. unfold H, csub, copp, average.
        cbn [cadd cscal RR_CellOps fst snd]. unfold vlimit_at, max4, min4. repeat minmax1. lra. }
      assert (FH1 : fh_ false 2 lo H 1 = 10).
      { unfold fh_, hmax_, hmin_, cl_idx, cr_idx. cbn [Nat.leb lo]. rewrite HR0, HR1, HL1, HL2, S1, R1. unfold H, csub, copp, average.
        cbn [cadd cscal RR_CellOps fst snd]. unfold limit_at. repeat minmax1. lra. }
      assert (FQ1 : fq_ false 2 lo H 1 = 46).
      { unfold fq_, vmax_, vmin_, wl_, wr_, corr_, lh_. rewrite FH1. unfold vb_, cl_idx, cr_idx. cbn [Nat.leb lo].
        rewrite HR0, HL0, HR1, HL1, HR2, HL2, QL0, QR0, QL1, QR1, QL2, QR2, H0, H1, H2, S1, R1. unfold H, csub, copp, average.
        cbn [cadd cscal RR_CellOps fst snd]. unfold vlimit_at, max4, min4. repeat minmax1. lra. }
      rewrite FH0, FQ0, FH1, FQ1. cbn [lo]. rewrite R0, L1, R1. unfold copp. cbn [cadd cscal RR_CellOps fst snd]. f_equal; lra. }
  destruct A as [v [EA [La VA]]]. replace (1 * 1) with 1 in EA by ring. replace (3 * 3) with 9 in EA by ring.
  exists high, nf, bc, [(1, -2); (1, -2); (9, 18); (9, 18)], v.
  assert (NEW : nth 0 (map2 cadd jump2 (map (cscal (1 / 10)) v)) (0, 0) = (1, - 26 / 5)).
  { rewrite (nth_map2 _ _ _ 0%nat z2 z2) by (rewrite ?map_length, ?La; cbn; lia). rewrite (nth_map' _ _ _ z2) by lia. rewrite VA.
    cbn. f_equal; lra. }
  assert (Q1 : sqrt (1 * 1) = 1) by (rewrite sqrt_square; lra).
  assert (Q9 : sqrt (1 * 9) = 3) by (replace (1 * 9) with (3 * 3) by ring; rewrite sqrt_square; lra).
  assert (A1 : Rabs (-2 / 1) = 2) by (replace (-2 / 1) with (-2) by field; rewrite Rabs_left; lra).
  assert (A9 : Rabs (18 / 9) = 2) by (replace (18 / 9) with 2 by field; rewrite Rabs_pos_eq; lra).
  assert (B0 : bar_velocity 1 (1, -2) (1, -2) = - 2).
  { unfold bar_velocity, bar_state, wet_flux, wet_speed. cbn [fst snd]. rewrite A1, Q1. rewrite Rmax_left by lra. lra. }
  assert (B1 : bar_velocity 1 (1, -2) (9, 18) = 4 / 15).
  { unfold bar_velocity, bar_state, wet_flux, wet_speed. cbn [fst snd]. rewrite A1, Q1, A9, Q9. rewrite Rmax_right by lra. lra. }
  split; [unfold sw_central, with_source; rewrite G1; reflexivity|]. split; [reflexivity|]. split; [reflexivity|]. split; [reflexivity|].
  split. { intros x [<-|[<-|[<-|[<-|[]]]]]; cbn [fst]; lra. }
  split. { intros x Hx. assert (W : epsilon <= fst x) by (destruct Hx as [<-|[<-|[<-|[<-|[]]]]]; cbn [fst]; lra).
    rewrite wet_velocity by auto. destruct Hx as [<-|[<-|[<-|[<-|[]]]]]; cbn [fst snd]; rewrite ?A1, ?A9, ?Q1, ?Q9; lra. }
  split. { split; [reflexivity|]. intros vl vr fl fr L1 L2 E. cbn [nf_call high] in E.
    destruct (tight_source True (Some 1) BNone (central (sw_flux 1)) high) as [_ T].
    - unfold with_source. rewrite G1. reflexivity.
    - apply tight_two_point. intros r f Ef. eapply (central_wall (Some 1)). rewrite G1. exact Ef.
    - destruct (T (length vl - 1)%nat vl vr fl fr) as [_ [T2 _]]; auto; lia. }
  split; [exact EA|]. split; [exact NEW|]. cbn [nth]. split; [exact B0|]. split; [exact B1|].
  cbn [nth] in NEW. rewrite NEW, B0, B1. unfold velocity_between. cbn [fst snd]. unfold Rmin. repeat destruct (Rle_dec _ _); lra.
Qed.
Print Assumptions C79_limited_velocities_refuted.

(** ** examples *)
(* the low order scheme for the same data meets the hypotheses of the bounds *)
Example C79_low_ex : exists nf bc e v,
  sw_low (Some 1) BNone = Ok nf /\ flat BNone /\
  get_boundary_conditions (Some reflect) ["outflow"%string] 1 None None = Ok bc /\
  extended bc jump2 (Some 0) = Ok e /\ all_wet e /\ half_cfl (py_or (Some 1) default_gravity) 1 (1 / 10) e /\ fv_rhs nf 1 bc 0 jump2 = Ok v /\
  - 2 * fst (nth 0 (map2 cadd jump2 (map (cscal (1 / 10)) v)) (0, 0)) <= snd (nth 0 (map2 cadd jump2 (map (cscal (1 / 10)) v)) (0, 0)).
Proof.
  assert (G1 : py_or (Some 1) default_gravity = 1) by (cbn; destruct (Reqb_spec 1 0); [lra|reflexivity]).
  destruct C79_limited_velocities_refuted as [high [nf' [bc [e [v' [_ [_ [B [Ee [W [C [_ [_ [_ [B0 [B1 _]]]]]]]]]]]]]]]].
  destruct (sw_low (Some 1) BNone) as [nf|] eqn:E; [|discriminate].
  assert (X : exists v, fv_rhs nf 1 bc 0 jump2 = Ok v).
  { destruct (bathymetry_array BNone 2 ltac:(lia)) as [p [st [Ep Es]]]; [intros l El; discriminate|].
    apply (wet_rhs nf ["outflow"%string] None None bc); auto; try lra; try discriminate.
    - eapply (low_total (Some 1)); eauto. rewrite G1. lra.
    - intros f [|]; discriminate.
    - intros x [<-|[<-|[]]]; cbn; lra. }
  destruct X as [v Ev]. exists nf, bc, e, v.
  assert (C' : half_cfl (py_or (Some 1) default_gravity) 1 (1 / 10) e) by (rewrite G1; exact C). clear C. rename C' into C. repeat split; auto.
  destruct (C79_low_order_velocities (Some 1) BNone nf _ _ _ bc 1 (1 / 10) 0 jump2 v e E I B ltac:(discriminate) ltac:(lra) ltac:(lra) ltac:(rewrite G1; lra) Ee W C Ev 0%nat ltac:(cbn; lia)) as [L _].
  rewrite G1, B0, B1 in L. unfold jump2 in L at 1 2. cbn [nth fst snd] in L. 
  replace (Rmin (-2 / 1) (Rmin (- 2) (4 / 15))) with (- 2) in L; [exact L|]. unfold Rmin. repeat destruct (Rle_dec _ _); lra.
Qed.

(* A standing hydraulic jump: height 1 next to height 49, discharge 35, gravity 1. The
   high order flux is that of the jump, and the limiter keeps it. *)
Example C79_kept_ex : exists nf0 high nf bc e fl0 fr0 hl hr fl fr,
  let u := [(1, 35); (49, 35)] in
  sw_low (Some 1) BNone = Ok nf0 /\ one_per_face high /\ sw_mcl (Some 1) BNone ["outflow"%string] None None high = Ok nf /\
  get_boundary_conditions (Some reflect) ["outflow"%string] 1 None None = Ok bc /\
  extended bc u (Some 0) = Ok e /\ all_wet e /\
  nf_call nf0 (sides e) = Ok (fl0, fr0) /\ nf_call high (sides e) = Ok (hl, hr) /\ nf_call nf (sides e) = Ok (fl, fr) /\
  nth 1 fr0 (0, 0) <> nth 1 fr (0, 0) /\ nth 1 fr (0, 0) = (35, 2451 / 2).
Proof.
  pose proof epsilon_lt as He. pose proof epsilon_pos as He0.
  assert (G1 : py_or (Some 1) default_gravity = 1) by (cbn; destruct (Reqb_spec 1 0); [lra|reflexivity]).
  set (bc := {| bc_left := [CopyCell (W := R * R) 0]; bc_right := [CopyCell (-1)]; bc_periodic := false |}).
  set (F := fun _ : nat => (35, 2451 / 2) : R * R).
  set (high := two_point (fun l r => Ok ((35, 2451 / 2) : R * R))).
  set (nf := {| nf_dim := 2; nf_call := sw_mcl_call (Some 1) [0] bc high |}).
  assert (OP : one_per_face high).
  { split; [reflexivity|]. intros vl vr fl fr L1 L2 E.
    destruct (two_point_call (fun _ _ : state => Ok ((35, 2451 / 2) : state)) [vl; vr] fl fr (length vl)) as [vl' [vr' [Ea [_ [_ [_ [Lf _]]]]]]]; auto. }
  set (e := [(1 * 1, 35); (1 * 1, 35); (7 * 7, 35); (7 * 7, 35)]).
  set (x := nodes4 1 7 35 35).
  assert (SD : sides e = [tab 3 x; tab 3 (fun i => x (S i))]) by reflexivity.
  destruct (node_low 1 1 35 35 36 1 35) as [o0 [E0 [S0 [H0 [HL0 [HR0 [QL0 [QR0 [R0 L0]]]]]]]]]; try lra;
      [replace (35 / (1 * 1)) with 35 by field; rewrite Rabs_pos_eq by lra; rewrite Rmax_left; lra|].
  destruct (node_low 1 7 35 35 36 25 35) as [o1 [E1 [S1 [H1 [HL1 [HR1 [QL1 [QR1 [R1 L1]]]]]]]]]; try lra;
      [replace (35 / (1 * 1)) with 35 by field; rewrite !Rabs_pos_eq by lra; rewrite Rmax_left; lra|].
  destruct (node_low 7 7 35 35 (54 / 7) 49 35) as [o2 [E2 [S2 [H2 [HL2 [HR2 [QL2 [QR2 [R2 L2]]]]]]]]]; try lra;
      [rewrite !Rabs_pos_eq by lra; rewrite Rmax_left; lra|].
  set (lo := fun i => match i with O => o0 | S O => o1 | _ => o2 end).
  assert (EL : forall i, (i < 3)%nat -> low_at (Some 1) (x i) (x (S i)) 0 = Ok (lo i)).
  { intros i Hi. destruct i as [|[|[|i]]]; [exact E0|exact E1|exact E2|lia]. }
  destruct (sw_low (Some 1) BNone) as [nf0|] eqn:EL0; [|discriminate].
  assert (C0 : nf_call nf0 (sides e) = Ok (map lo_outl (tab 3 lo), map lo_outr (tab 3 lo))).
  { rewrite SD. unfold sw_low in EL0. cbn [build_bathymetry bind] in EL0. apply Ok_inj in EL0. subst nf0. cbn [nf_call snd]. unfold low_call.
    rewrite (low_all_ok (Some 1) [0] (repeat 0 3) 3 x lo); [reflexivity|reflexivity|]. intros i Hi. rewrite nth_repeat0. apply EL. auto. }
  assert (CH : exists hl, nf_call high (sides e) = Ok (hl, tab 3 F)) by (eexists; reflexivity).
  destruct CH as [hl CH].
  assert (WELL : mcl_well 2 lo).
  { intros i Hi. destruct i as [|[|[|i]]]; [| | |lia]; cbn [lo]; rewrite ?S0, ?HL0, ?HR0, ?H0, ?S1, ?HL1, ?HR1, ?H1, ?S2, ?HL2, ?HR2, ?H2; repeat split; lra. }
  pose proof (limited_call bc lo F high x eq_refl eq_refl EL WELL (ex_intro _ hl CH)) as CM.
  match type of CM with _ = Ok (?a, ?b) => set (fl := a) in *; set (fr := b) in * end.
  exists nf0, high, nf, bc, e, (map lo_outl (tab 3 lo)), (map lo_outr (tab 3 lo)), hl, (tab 3 F), fl, fr. cbv zeta.
  assert (EE : extended bc [(1, 35); (49, 35)] (Some 0) = Ok e).
  { replace 1 with (1 * 1) by ring. replace 49 with (7 * 7) by ring. reflexivity. }
  assert (WE : all_wet e) by (intros y [<-|[<-|[<-|[<-|[]]]]]; cbn [fst]; lra).
  assert (K : nth 1 fr (0, 0) = nth 1 (tab 3 F) (0, 0)).
  { assert (Q1 : sqrt (1 * 1) = 1) by (rewrite sqrt_square; lra).
    assert (Q9 : sqrt (1 * 49) = 7) by (replace (1 * 49) with (7 * 7) by ring; rewrite sqrt_square; lra).
    assert (A1 : Rabs (35 / 1) = 35) by (rewrite Rabs_pos_eq; lra).
    assert (A9 : Rabs (35 / 49) = 5 / 7) by (rewrite Rabs_pos_eq; lra).
    assert (SP : wet_speed 1 (1, 35) (49, 35) = 36) by (unfold wet_speed; cbn [fst snd]; rewrite A1, A9, Q1, Q9; rewrite Rmax_left; lra).
    assert (SP0 : wet_speed 1 (1, 35) (1, 35) = 36) by (unfold wet_speed; cbn [fst snd]; rewrite A1, Q1; rewrite Rmax_left; lra).
    assert (SP2 : wet_speed 1 (49, 35) (49, 35) = 54 / 7) by (unfold wet_speed; cbn [fst snd]; rewrite A9, Q9; rewrite Rmax_left; lra).
    assert (BB : bar_state 1 (1, 35) (49, 35) = (25, 35)) by (unfold bar_state; rewrite SP; unfold wet_flux; cbn [fst snd]; f_equal; lra).
    assert (BB0 : bar_state 1 (1, 35) (1, 35) = (1, 35)) by (unfold bar_state; rewrite SP0; unfold wet_flux; cbn [fst snd]; f_equal; lra).
    assert (BB2 : bar_state 1 (49, 35) (49, 35) = (49, 35)) by (unfold bar_state; rewrite SP2; unfold wet_flux; cbn [fst snd]; f_equal; lra).
    refine (proj1 (C79_high_order_kept (Some 1) BNone nf0 high nf ["outflow"%string] None None bc 0 [(1, 35); (49, 35)] e _ _ hl (tab 3 F) fl fr
      EL0 OP eq_refl I eq_refl ltac:(discriminate) EE WE C0 CH CM 0%nat ltac:(cbn; lia) _ _ _)); rewrite ?G1; change (nth 1 (tab 3 F) (0, 0)) with (35, 2451 / 2); cbn [nth Nat.add e].
    all: replace (1 * 1) with 1 by ring; replace (7 * 7) with 49 by ring.
    - rewrite BB, BB0. unfold left_of. rewrite SP. unfold state_between, wet_flux. cbn [fst snd nth]. repeat minmax1. lra.
    - rewrite BB, BB2. unfold right_of. rewrite SP. unfold state_between, wet_flux. cbn [fst snd nth]. repeat minmax1. lra.
    - change (nth 1 (map lo_outr (tab 3 lo)) (0, 0)) with (lo_outr o1). rewrite R1. cbn [fst]. lra. }
  repeat match goal with |- _ /\ _ => split end; auto.
  - rewrite K. change (nth 1 (map lo_outr (tab 3 lo)) (0, 0)) with (lo_outr o1). change (nth 1 (tab 3 F) (0, 0)) with (35, 2451 / 2). rewrite R1. intro E. apply (f_equal fst) in E. cbn [fst] in E. lra.
Qed.
