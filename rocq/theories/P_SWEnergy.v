(** C60: energy balance of the shallow water schemes of finite_volume/shallow_water/solver on periodic domains with flat bottom *)
From Coq Require Import Reals List ZArith Arith Lia Lra Psatz Bool String.
From Coquelicot Require Import Coquelicot.
From Verif Require Import Prelude L_Prelude M_Boundary S_Boundary L_Boundary M_Flux S_Flux L_Flux M_Neighbours L_Neighbours
  M_ShallowWater S_ShallowWater L_ShallowWater L_SWRuns L_SWLow L_SWWater L_SWTotal S_Waves P_ShallowWater S_Symmetry L_SWNodes L_SWMirror P_SWWaves P_SWSymmetry.
Import ListNotations.
Open Scope R_scope.
Notation length := List.length.

(** ** at one node *)
Definition wet (x : state) : Prop := epsilon <= fst x.
Lemma wet_flux g x : wet x -> sw_flux g x = Ok (snd x, snd x ^ 2 / fst x + g * fst x ^ 2 / 2).
Proof.
  destruct x as [h q]. unfold wet. cbn [fst snd]. intro H. rewrite sw_flux_wet by auto. pose proof epsilon_pos. reflexivity.
Qed.
Lemma wet_vel x : wet x -> velocity x = snd x / fst x.
Proof. destruct x as [h q]. apply wet_velocity. Qed.
Definition jump (g : R) (l r : state) : state := csub (sw_entropy g r 0) (sw_entropy g l 0).
Definition production (g : R) (l r F : state) : R := dot (jump g l r) F - (sw_potential g r - sw_potential g l).

Lemma production_minus g l r F d : production g l r (csub F d) = production g l r F - dot (jump g l r) d.
Proof. unfold production, dot. set (j := jump g l r). unfold csub, copp. cbn [cadd cscal RR_CellOps fst snd]. ring. Qed.

Lemma production_central g l r F : wet l -> wet r -> central_at (sw_flux g) l r = Ok F ->
  let V := velocity r - velocity l in let H := fst r - fst l in
  production g l r F = V / 4 * (g * H ^ 2 + average (fst l) (fst r) * V ^ 2 + average (velocity l) (velocity r) * V * H).
Proof.
  intros Wl Wr E. pose proof epsilon_pos as He. unfold central_at in E. rewrite !wet_flux in E by auto. cbn [bind] in E. apply Ok_inj in E. subst F.
  cbv zeta. unfold production, jump, sw_entropy, sw_potential. rewrite !wet_vel by auto. destruct l as [hl ql], r as [hr qr]. unfold wet in *. cbn [fst snd] in *.
  unfold dot, average, csub, copp. cbn [cadd cscal RR_CellOps fst snd]. field. lra.
Qed.
Lemma jump_state g l r : wet l -> wet r -> dot (jump g l r) (csub r l) = g * (fst r - fst l) ^ 2 + average (fst l) (fst r) * (velocity r - velocity l) ^ 2.
Proof.
  intros Wl Wr. pose proof epsilon_pos as He. unfold jump, sw_entropy. rewrite !wet_vel by auto. destruct l as [hl ql], r as [hr qr]. unfold wet in *. cbn [fst snd] in *.
  unfold dot, average, csub, copp. cbn [cadd cscal RR_CellOps fst snd]. field. lra.
Qed.

(** flux of the Lax-Friedrichs type: average minus speed times half the jump *)
Lemma llf_node gravity l r fl fr : sw_flux (py_or gravity default_gravity) l = Ok fl -> sw_flux (py_or gravity default_gravity) r = Ok fr ->
  sw_max_speed (py_or gravity default_gravity) l r <> 0 ->
  ro_flux (sw_out gravity l r fl fr) = csub (cscal (1 / 2) (cadd fl fr)) (cscal (sw_max_speed (py_or gravity default_gravity) l r / 2) (csub r l)) /\
  lo_outr (low_out gravity l r fl fr 0) = ro_flux (sw_out gravity l r fl fr) /\
  lo_outl (low_out gravity l r fl fr 0) = copp (ro_flux (sw_out gravity l r fl fr)).
Proof.
  intros _ _ Hs. unfold low_out, sw_out. cbn [ro_flux lo_outl lo_outr]. set (hl := hll gravity l r fl fr).
  assert (Z : positivity_fix (fst hl) 0 = 0).
  { unfold positivity_fix, rsign. destruct (Rltb_spec 0 0); [lra|]. ring. }
  rewrite Z. unfold hl, hll. set (s := sw_max_speed (py_or gravity default_gravity) l r) in *. destruct l as [hl' ql], r as [hr qr], fl as [f1 f2], fr as [f3 f4].
  unfold csub, copp. cbn [cadd cscal RR_CellOps fst snd]. repeat split; f_equal; field; auto.
Qed.
Lemma production_llf g l r Fc : 0 < g -> wet l -> wet r -> central_at (sw_flux g) l r = Ok Fc ->
  production g l r (csub Fc (cscal (sw_max_speed g l r / 2) (csub r l))) <= 0.
Proof.
  intros Hg Wl Wr E. pose proof (production_central g l r Fc Wl Wr E) as P. cbv zeta in P. pose proof (jump_state g l r Wl Wr) as J.
  set (s := sw_max_speed g l r).
  assert (X : production g l r (csub Fc (cscal (s / 2) (csub r l))) = production g l r Fc - s / 2 * dot (jump g l r) (csub r l)).
  { rewrite production_minus. unfold dot. set (j := jump g l r). set (d := csub r l). cbn [cadd cscal RR_CellOps fst snd]. ring. }
  rewrite X, P, J. clear X P J E Fc.
  pose proof epsilon_pos as He. unfold wet in *.
  assert (S1 : Rabs (velocity l) <= s).
  { unfold s, sw_max_speed. eapply Rle_trans; [|apply Rmax_l]. pose proof (sqrt_pos (g * fst l)). lra. }
  assert (S2 : Rabs (velocity r) <= s).
  { unfold s, sw_max_speed. eapply Rle_trans; [|apply Rmax_r]. pose proof (sqrt_pos (g * fst r)). lra. }
  clearbody s. set (hl := fst l) in *. set (hr := fst r) in *. set (a := velocity l) in *. set (b := velocity r) in *. clearbody hl hr a b.
  unfold average. set (V := b - a). set (H := hr - hl). set (m := (hl + hr) / 2). set (w := (a + b) / 2).
  assert (A : Rabs w <= s - V / 2).
  { unfold w, V. apply Rabs_le. revert S1 S2. unfold Rabs. repeat destruct Rcase_abs; lra. }
  assert (M : 0 < m) by (unfold m; lra). assert (HM : Rabs H <= 2 * m) by (unfold H, m; apply Rabs_le; lra).
  assert (B : w * H <= Rabs w * (2 * m)).
  { apply (Rle_trans _ (Rabs (w * H))); [apply Rle_abs|]. rewrite Rabs_mult. apply Rmult_le_compat_l; [apply Rabs_pos|auto]. }
  pose proof (Rabs_pos w) as Pw.
  assert (Q : 0 <= (s / 2 - V / 4) * (g * H ^ 2)).
  { apply Rmult_le_pos; [lra|]. apply Rmult_le_pos; [lra|apply pow2_ge_0]. }
  assert (Q2 : 0 <= ((s / 2 - V / 4) - Rabs w / 2) * (m * V ^ 2)).
  { apply Rmult_le_pos; [lra|]. apply Rmult_le_pos; [lra|apply pow2_ge_0]. }
  assert (Q3 : 0 <= (Rabs w * (2 * m) - w * H) / 4 * V ^ 2).
  { apply Rmult_le_pos; [lra|apply pow2_ge_0]. }
  clearbody V H m w. nra.
Qed.

(** ** sums over a periodic vector *)
Lemma rate_sum g u v : length v = length u -> (forall x, In x u -> wet x) ->
  energy_rate g u v (rsum (tab (length u) (fun i => dot (sw_entropy g (nth i u z2) 0) (nth i v z2)))).
Proof.
  pose proof epsilon_pos as He. unfold energy_rate, total_energy. revert v. induction u as [|[h q] u IH]; intros [|[x y] v] L W; try discriminate.
  - cbn. apply (is_derive_ext (fun _ => 0)); [reflexivity|]. apply is_derive_Reals, derivable_pt_lim_const.
  - cbn [length] in *. rewrite rsum_tab_S'. cbn [nth map map2].
    apply (is_derive_ext (fun s => energy g 0 (h + s * x) (q + s * y) + rsum (map (fun x => energy g 0 (fst x) (snd x)) (map2 cadd u (map (cscal s) v))))).
    { intro s. reflexivity. }
    apply @is_derive_plus; [|apply IH; [lia|intros; apply W; right; auto]].
    assert (Wh : wet (h, q)) by (apply W; left; auto). unfold sw_entropy. rewrite wet_vel by auto. unfold wet in Wh. cbn [fst] in *. unfold energy, dot. cbn [fst snd].
    auto_derive; [rewrite Rmult_0_l, Rplus_0_r; lra|]. rewrite !Rmult_0_l, !Rplus_0_r. field. lra.
Qed.
Lemma parts (a F : nat -> state) n :
  rsum (tab n (fun i => dot (a i) (csub (F i) (F (S i))))) =
  rsum (tab n (fun i => dot (csub (a (S i)) (a i)) (F (S i)))) + dot (a 0%nat) (F 0%nat) - dot (a n) (F n).
Proof.
  induction n as [|n IH]; [cbn; ring|]. rewrite !rsum_tab_S, IH. unfold dot, csub, copp. cbn [cadd cscal RR_CellOps fst snd]. ring.
Qed.
(** the cells, followed by the first one *)
Definition closed (u : list state) : list state := u ++ [nth 0 u z2].
Definition periodic_bc : bconds state := {| bc_left := [CopyCell (-1)]; bc_right := [CopyCell 0]; bc_periodic := true |}.
Lemma balance b nf G g dx t u v : nodewise_sw b nf G -> flat_bottom b -> u <> [] -> (forall x, In x u -> wet x) ->
  (forall l r p, G l r 0 0 = Ok p -> fst p = copp (snd p)) ->
  fv_rhs nf dx periodic_bc t u = Ok v ->
  dx <> 0 /\ exists F : nat -> state, (forall i, (i < length u)%nat -> G (nth i (closed u) z2) (nth (S i) (closed u) z2) 0 0 = Ok (copp (F i), F i)) /\
    energy_rate g u v (1 / dx * rsum (tab (length u) (fun i => production g (nth i (closed u) z2) (nth (S i) (closed u) z2) (F i)))).
Proof.
  intros N Fl Hu W A E. remember (length u) as n eqn:Ln. assert (Hn : (1 <= n)%nat) by (destruct u; [congruence|cbn in Ln; lia]).
  assert (X : extended periodic_bc u (Some t) = Ok (nth (n - 1) u z2 :: u ++ [nth 0 u z2])).
  { apply extended_one. exists (nth (n - 1) u z2), (nth 0 u z2). cbn [ghost_value]. rewrite (pyget_m1 u z2), (pyget_0 u z2) by lia. rewrite <- Ln. auto. }
  destruct (proj1 (rhs_iff b nf G n _ _ _ _ dx t u _ v N (eq_sym Ln) Hn (padded_flat b n (flat_constant b Fl)) X) E) as [Hd [Lv [fl [fr [Y V]]]]].
  split; auto. change (u ++ [nth 0 u z2]) with (closed u) in *.
  assert (C0 : nth 0 (closed u) z2 = nth 0 u z2) by (unfold closed; rewrite app_nth1 by lia; reflexivity).
  assert (Cn : nth n (closed u) z2 = nth 0 u z2) by (unfold closed; rewrite app_nth2, <- Ln, Nat.sub_diag by lia; reflexivity).
  assert (Ci : forall i, (i < n)%nat -> nth i (closed u) z2 = nth i u z2) by (intros; unfold closed; rewrite app_nth1 by lia; reflexivity).
  assert (FL : forall i, (i <= n)%nat -> fl i = copp (fr i)) by (intros i Hi; apply (A _ _ _ (Y i Hi))).
  assert (F0 : fr 0%nat = fr n).
  { pose proof (Y 0%nat ltac:(lia)) as Y0. pose proof (Y n ltac:(lia)) as Yn. cbn [nth] in Y0, Yn. destruct n as [|m]; [lia|]. cbn [nth] in Yn.
    rewrite C0 in Y0. rewrite Cn, Ci in Yn by lia. replace (S m - 1)%nat with m in Y0 by lia. rewrite Y0 in Yn. apply Ok_inj in Yn. injection Yn as _ Yn. exact Yn. }
  exists (fun i => fr (S i)). split.
  - intros i Hi. rewrite <- FL by lia. apply (Y (S i)). lia.
  - pose proof (rate_sum g u v ltac:(lia) W) as R. rewrite <- Ln in R.
    match goal with |- energy_rate _ _ _ ?r => match type of R with energy_rate _ _ _ ?q => replace r with q; [exact R|] end end.
    set (a := fun i => sw_entropy g (nth i (closed u) z2) 0).
    transitivity (1 / dx * rsum (tab n (fun i => dot (a i) (csub (fr i) (fr (S i)))))).
    { rewrite <- rsum_tab_scal. f_equal. apply tab_ext. intros i Hi. rewrite V, FL by lia. unfold a. rewrite Ci by auto.
      unfold dot, csub, copp. cbn [cadd cscal RR_CellOps fst snd]. ring. }
    f_equal. rewrite parts. replace (a n) with (a 0%nat) by (unfold a; rewrite C0, Cn; reflexivity). rewrite F0.
    rewrite (tab_ext n (fun i => production g (nth i (closed u) z2) (nth (S i) (closed u) z2) (fr (S i)))
      (fun i => dot (csub (a (S i)) (a i)) (fr (S i)) - (sw_potential g (nth (S i) (closed u) z2) - sw_potential g (nth i (closed u) z2)))) by reflexivity.
    rewrite rsum_tab_minus, (rsum_tab_telescope n (fun i => sw_potential g (nth i (closed u) z2))), C0, Cn. ring.
Qed.

(** ** C60 *)
Lemma in_closed u i : (i <= length u)%nat -> u <> [] -> In (nth i (closed u) z2) u.
Proof.
  intros Hi Hu. assert (0 < length u)%nat by (destruct u; [congruence|cbn; lia]). unfold closed. destruct (Nat.eq_dec i (length u)) as [->|].
  - rewrite app_nth2, Nat.sub_diag by lia. cbn [nth]. apply nth_In. auto.
  - rewrite app_nth1 by lia. apply nth_In. lia.
Qed.
Lemma source_free g F l r p : add_source g F l r 0 0 = Ok p -> F l r = Ok (snd p) /\ fst p = copp (snd p).
Proof.
  unfold add_source. intro E. inv_bind E. apply Ok_inj in E. subst p. cbn [fst snd]. rewrite E0. 
  unfold csub, copp. cbn [cadd cscal RR_CellOps fst snd]. destruct a as [x y]. cbn [fst snd]. split; [|f_equal; ring].
  do 2 f_equal; ring.
Qed.
Lemma source_nodes gravity b nf0 nf F : nf_dim nf0 = 2%nat -> (forall a, nf_call nf0 a = nf_call (two_point F) a) ->
  with_source gravity b nf0 = Ok nf -> nodewise_sw b nf (add_source (py_or gravity default_gravity) F).
Proof. intros. eapply nodewise_source; eauto. Qed.

(** The energy of the low order and of the local Lax-Friedrichs scheme never grows: on a periodic domain with flat bottom, for every
    vector of wet states, the right-hand side points to states of at most the same energy. *)
Theorem C60_energy_decays : forall k gravity b nf bc dx t u v,
  k = LowOrder \/ k = LaxFriedrichs -> scheme k gravity b = Ok nf -> 0 < py_or gravity default_gravity -> flat_bottom b ->
  get_boundary_conditions (Some reflect) ["periodic"%string] 1 None None = Ok bc ->
  u <> [] -> (forall x, In x u -> epsilon <= fst x) -> 0 < dx -> fv_rhs nf dx bc t u = Ok v ->
  exists r, energy_rate (py_or gravity default_gravity) u v r /\ r <= 0.
Proof.
  intros k gravity b nf bc dx t u v Hk E Hg Fl B Hu W Hd R. apply Ok_inj in B. subst bc. set (g := py_or gravity default_gravity) in *.
  assert (X : exists G, nodewise_sw b nf G /\ forall l r p, G l r 0 0 = Ok p -> fst p = copp (snd p) /\ (wet l -> wet r -> production g l r (snd p) <= 0)).
  { destruct Hk as [-> | ->].
    - exists (low_law gravity). split; [apply nodewise_low; auto|]. intros l r p Y. unfold low_law in Y. rewrite Rminus_0_r in Y. inv_bind Y. apply Ok_inj in Y. subst p.
      destruct (low_at_inv gravity _ _ _ _ E0) as [fl [fr [F1 [F2 [Hs ->]]]]]. destruct (llf_node gravity l r fl fr F1 F2 Hs) as [L1 [L2 L3]].
      cbn [fst snd]. rewrite L2, L3. split; auto. intros Wl Wr. rewrite L1. fold g in F1, F2 |- *. apply production_llf; auto. unfold central_at. rewrite F1, F2. reflexivity.
    - cbn [scheme] in E. unfold sw_llf in E. eexists. split; [eapply source_nodes; [| |exact E]; [reflexivity|intro; apply lax_friedrichs_two_point]|].
      intros l r p Y. apply source_free in Y as [Y ->]. split; auto. intros Wl Wr. inv_bind Y. apply Ok_inj in Y. rewrite <- Y.
      destruct (sw_solve_inv gravity _ _ _ E0) as [fl [fr [F1 [F2 [Hs ->]]]]]. destruct (llf_node gravity l r fl fr F1 F2 Hs) as [-> _].
      fold g in F1, F2 |- *. apply production_llf; auto. unfold central_at. rewrite F1, F2. reflexivity. }
  destruct X as [G [N P]]. destruct (balance b nf G g dx t u v N Fl Hu W (fun l r p Y => proj1 (P l r p Y)) R) as [_ [F [Y Z]]].
  eexists. split; [exact Z|].
  assert (Q : 0 <= 1 / dx) by (apply Rlt_le; unfold Rdiv; rewrite Rmult_1_l; apply Rinv_0_lt_compat; auto).
  assert (S : rsum (tab (length u) (fun i => production g (nth i (closed u) z2) (nth (S i) (closed u) z2) (F i))) <= rsum (tab (length u) (fun _ => 0))).
  { apply rsum_tab_le. intros i Hi. apply (P _ _ _ (Y i Hi)); apply W, in_closed; auto; lia. }
  rewrite rsum_tab_const in S. nra.
Qed.
Print Assumptions C60_energy_decays.

(** The energy of the central scheme changes by V/4 (g H^2 + h V^2 + w V H) per node, with the jumps V, H of velocity and height and
    their means w, h. *)
Theorem C60_central_energy : forall gravity b nf bc dx t u v,
  sw_central gravity b = Ok nf -> flat_bottom b ->
  get_boundary_conditions (Some reflect) ["periodic"%string] 1 None None = Ok bc ->
  u <> [] -> (forall x, In x u -> epsilon <= fst x) -> fv_rhs nf dx bc t u = Ok v ->
  let g := py_or gravity default_gravity in
  let cell i := nth i (u ++ [nth 0 u (0, 0)]) (0, 0) in
  let height i := fst (cell i) in
  let speed i := snd (cell i) / fst (cell i) in
  energy_rate g u v (1 / dx * rsum (tab (length u) (fun i =>
    let V := speed (S i) - speed i in let H := height (S i) - height i in
    V / 4 * (g * H ^ 2 + (height i + height (S i)) / 2 * V ^ 2 + (speed i + speed (S i)) / 2 * V * H)))).
Proof.
  intros gravity b nf bc dx t u v E Fl B Hu W R g cell height speed. apply Ok_inj in B. subst bc.
  unfold sw_central in E. assert (N : nodewise_sw b nf (add_source g (central_at (sw_flux g)))) by (eapply source_nodes; [| |exact E]; [reflexivity|intro; reflexivity]).
  destruct (balance b nf _ g dx t u v N Fl Hu W (fun l r p Y => proj2 (source_free _ _ l r p Y)) R) as [_ [F [Y Z]]].
  match goal with |- energy_rate _ _ _ (_ * ?a) => match type of Z with energy_rate _ _ _ (_ * ?c) => replace a with c; [exact Z|] end end.
  f_equal. apply tab_ext. intros i Hi. destruct (source_free _ _ _ _ _ (Y i Hi)) as [Y' _]. cbn [snd] in Y'.
  assert (W0 : wet (nth i (closed u) z2)) by (apply W, in_closed; auto; lia). assert (W1 : wet (nth (S i) (closed u) z2)) by (apply W, in_closed; auto; lia).
  rewrite (production_central g _ _ _ W0 W1 Y'). rewrite !wet_vel by auto. reflexivity.
Qed.
Print Assumptions C60_central_energy.

(** When the water moves with the same velocity everywhere, the central and the energy stable scheme keep the energy, and the first order
    energy stable scheme does not increase it. *)
Theorem C60_equal_velocities : forall k gravity b nf bc dx t u v w,
  k = Central \/ k = EnergyStable \/ k = EnergyStable1 -> scheme k gravity b = Ok nf -> 0 < py_or gravity default_gravity -> flat_bottom b ->
  get_boundary_conditions (Some reflect) ["periodic"%string] 1 None None = Ok bc ->
  u <> [] -> (forall x, In x u -> epsilon <= fst x /\ snd x = w * fst x) -> 0 < dx -> fv_rhs nf dx bc t u = Ok v ->
  exists r, energy_rate (py_or gravity default_gravity) u v r /\ r <= 0 /\ (k <> EnergyStable1 -> r = 0).
Proof.
  intros k gravity b nf bc dx t u v w Hk E Hg Fl B Hu W Hd R. apply Ok_inj in B. subst bc. set (g := py_or gravity default_gravity) in *.
  pose proof epsilon_pos as He.
  assert (X : exists G, nodewise_sw b nf G /\ forall l r p, G l r 0 0 = Ok p -> fst p = copp (snd p) /\
    (wet l -> wet r -> snd l = w * fst l -> snd r = w * fst r -> production g l r (snd p) <= 0 /\ (k <> EnergyStable1 -> production g l r (snd p) = 0))).
  { assert (A : forall l r f, wet l -> wet r -> snd l = w * fst l -> snd r = w * fst r -> sw_flux g (cavg l r) = Ok f -> production g l r f = 0).
    { intros [hl ql] [hr qr] f Wl Wr Q1 Q2 Y. unfold wet in Wl, Wr. cbn [fst snd] in *. rewrite wet_flux in Y by (unfold wet, cavg, average; cbn [fst]; lra).
      apply Ok_inj in Y. subst f ql qr. unfold production, jump, sw_entropy, sw_potential. rewrite !wet_vel by (unfold wet; cbn [fst]; lra).
      unfold cavg, average, dot, csub, copp. cbn [cadd cscal RR_CellOps fst snd]. field. lra. }
    destruct Hk as [-> | [-> | ->]].
    - cbn [scheme] in E. unfold sw_central in E. eexists. split; [eapply source_nodes; [| |exact E]; [reflexivity|intro; reflexivity]|].
      intros l r p Y. apply source_free in Y as [Y ->]. split; auto. intros Wl Wr Q1 Q2. pose proof (production_central g l r _ Wl Wr Y) as P. cbv zeta in P.
      rewrite !wet_vel in P by auto. unfold wet in *. replace (snd r / fst r - snd l / fst l) with 0 in P by (rewrite Q1, Q2; field; lra). split; [|intro]; rewrite P; lra.
    - cbn [scheme] in E. unfold sw_es in E. exists (add_source g (fun l r => sw_flux g (cavg l r))). split; [eapply source_nodes; [| |exact E]; [reflexivity|intro; reflexivity]|].
      intros l r p Y. apply source_free in Y as [Y ->]. split; auto. intros Wl Wr Q1 Q2. cbv beta in Y. split; [|intro]; rewrite (A l r _ Wl Wr Q1 Q2 Y); lra.
    - exists (es1_law g). split; [apply nodewise_es1; auto|]. intros l r p Y. unfold es1_law in Y. rewrite Rminus_0_r in Y.
      destruct (C33_diffusion_removes_energy g l r 0 0 0 p Hg Y) as [f [d [Ef [P1 [P2 [P3 _]]]]]].
      assert (Z : snd p = csub f d) by (rewrite P2; unfold csub, copp; cbn [cadd cscal RR_CellOps fst snd]; f_equal; ring). split.
      + rewrite Z, P1. unfold csub, copp. cbn [cadd cscal RR_CellOps fst snd]. f_equal; ring.
      + intros Wl Wr Q1 Q2. split; [|congruence]. rewrite Z, production_minus, (A l r f) by auto. change (csub (sw_entropy g r 0) (sw_entropy g l 0)) with (jump g l r) in P3. lra. }
  destruct X as [G [N P]].
  destruct (balance b nf G g dx t u v N Fl Hu (fun x Hx => proj1 (W x Hx)) (fun l r p Y => proj1 (P l r p Y)) R) as [_ [F [Y Z]]].
  eexists. split; [exact Z|].
  assert (Q : 0 <= 1 / dx) by (apply Rlt_le; unfold Rdiv; rewrite Rmult_1_l; apply Rinv_0_lt_compat; auto).
  assert (I : forall i, (i < length u)%nat -> production g (nth i (closed u) z2) (nth (S i) (closed u) z2) (F i) <= 0 /\
    (k <> EnergyStable1 -> production g (nth i (closed u) z2) (nth (S i) (closed u) z2) (F i) = 0)).
  { intros i Hi. destruct (W _ (in_closed u i ltac:(lia) Hu)), (W _ (in_closed u (S i) ltac:(lia) Hu)). apply (P _ _ _ (Y i Hi)); auto. }
  split.
  - assert (S : rsum (tab (length u) (fun i => production g (nth i (closed u) z2) (nth (S i) (closed u) z2) (F i))) <= rsum (tab (length u) (fun _ => 0))).
    { apply rsum_tab_le. intros i Hi. apply I; auto. }
    rewrite rsum_tab_const in S. nra.
  - intro K. rewrite rsum_tab_0; [ring|]. intros i Hi. apply I; auto.
Qed.
Print Assumptions C60_equal_velocities.

Definition es_law (k : kind) : node_law := match k with EnergyStable => add_source 2 (fun l r => sw_flux 2 (cavg l r)) | _ => es1_law 2 end.
Lemma es_node (k : kind) l r p c : k = EnergyStable \/ k = EnergyStable1 -> wet l -> wet r -> 0 <= c -> c * c = 2 * fst (cavg l r) ->
  es_law k l r 0 0 = Ok p ->
  fst p = copp (snd p) /\
  let m := cavg l r in let v := snd m / fst m in let x := jump 2 l r in
  dot x (snd m, snd m ^ 2 / fst m + 2 * fst m ^ 2 / 2) - (sw_potential 2 r - sw_potential 2 l) -
    (Rabs (v - c) * (fst x + (v - c) * snd x) ^ 2 + Rabs (v + c) * (fst x + (v + c) * snd x) ^ 2) / 16 <= production 2 l r (snd p).
Proof.
  intros Hk Wl Wr Hc C Y. cbv zeta. assert (Wm : wet (cavg l r)) by (unfold wet, cavg, average in *; cbn [fst]; lra).
  set (f := (snd (cavg l r), snd (cavg l r) ^ 2 / fst (cavg l r) + 2 * fst (cavg l r) ^ 2 / 2)).
  assert (Ef : sw_flux 2 (cavg l r) = Ok f) by (apply wet_flux; auto).
  assert (S4 : sqrt (2 * 2) = 2) by (apply sqrt_square; lra).
  assert (Sc : sqrt (2 * fst (cavg l r)) = c) by (rewrite <- C; apply sqrt_square; auto).
  set (v := snd (cavg l r) / fst (cavg l r)). set (x := jump 2 l r).
  pose proof (Rabs_pos (v - c)) as A1. pose proof (Rabs_pos (v + c)) as A2.
  pose proof (pow2_ge_0 (fst x + (v - c) * snd x)) as A3. pose proof (pow2_ge_0 (fst x + (v + c) * snd x)) as A4.
  destruct Hk as [-> | ->].
  - destruct (source_free _ _ _ _ _ Y) as [Y1 Y2]. split; auto. rewrite Ef in Y1. apply Ok_inj in Y1. rewrite <- Y1. unfold production. fold x.
    pose proof (Rmult_le_pos _ _ A1 A3). pose proof (Rmult_le_pos _ _ A2 A4). lra.
  - unfold es_law, es1_law, es1_at in Y. rewrite Ef in Y. cbn [bind] in Y. unfold diffusion_matrix in Y. rewrite S4, rdiv_ne in Y by lra. cbn [bind] in Y. apply Ok_inj in Y.
    rewrite Sc, (wet_vel (cavg l r)) in Y by auto. fold v in Y. change (csub (sw_entropy 2 r 0) (sw_entropy 2 l 0)) with x in Y. subst p. cbn [fst snd].
    split.
    + clearbody x v f. unfold mat_mul, mat_scal, mat_transpose, mat_vec, csub, copp. cbn [cadd cscal RR_CellOps fst snd]. f_equal; ring.
    + rewrite !production_minus. unfold production. fold x. clearbody x v f. unfold mat_mul, mat_scal, mat_transpose, mat_vec, dot. cbn [cadd cscal RR_CellOps fst snd]. lra.
Qed.

(** The two energy stable schemes are not energy stable: with gravity 2, the vector below has growing energy. (The flux at the mean of
    the conserved variables is not the flux that keeps the energy; the diffusion of the first order scheme does not make up for it.) *)
Theorem C60_energy_stable_refuted : forall k, k = EnergyStable \/ k = EnergyStable1 ->
  exists nf bc v r, scheme k (Some 2) BNone = Ok nf /\
    get_boundary_conditions (Some reflect) ["periodic"%string] 1 None None = Ok bc /\
    fv_rhs nf 1 bc 0 [(2, -7); (7, -7); (2, -20)] = Ok v /\ energy_rate 2 [(2, -7); (7, -7); (2, -20)] v r /\ 0 < r.
Proof.
  intros k Hk. pose proof epsilon_lt as He. pose proof epsilon_pos as He0. set (u := [(2, -7); (7, -7); (2, -20)]).
  assert (G2 : py_or (Some 2) default_gravity = 2) by (cbn; destruct (Reqb_spec 2 0); [lra|reflexivity]).
  destruct (scheme_ok k (Some 2) BNone ([0], [0]) eq_refl) as [nf E].
  assert (N : nodewise_sw BNone nf (es_law k)).
  { destruct Hk as [-> | ->]; cbn [scheme es_law] in *.
    - unfold sw_es in E. pose proof (source_nodes (Some 2) BNone (es_flux (Some 2)) nf (fun l r => sw_flux 2 (cavg l r)) eq_refl) as Q. rewrite G2 in Q.
      apply Q; auto. intro. unfold es_flux. rewrite G2. reflexivity.
    - pose proof (nodewise_es1 _ _ _ E) as Q. rewrite G2 in Q. exact Q. }
  assert (W : forall x, In x u -> wet x) by (unfold wet; intros x [<-|[<-|[<-|[]]]]; cbn [fst]; lra).
  destruct (C62_wet_states k (Some 2) BNone ["periodic"%string] None None nf periodic_bc 1 0 u E) as [v [R _]]; auto; try lra.
  { destruct Hk as [-> | ->]; exact I. }
  { left. exact I. }
  { discriminate. }
  { intros f [Q|Q]; discriminate. }
  { intros x Hx. specialize (W x Hx). unfold wet in W. lra. }
  { discriminate. }
  assert (A : forall l r p, es_law k l r 0 0 = Ok p -> fst p = copp (snd p)).
  { intros l r p Y. destruct Hk as [-> | ->]; cbn [es_law] in Y; [apply source_free in Y; tauto|]. unfold es1_law in Y. rewrite Rminus_0_r in Y.
    destruct (C33_diffusion_removes_energy 2 l r 0 0 0 p ltac:(lra) Y) as [f [d [Ef [P1 [P2 [P3 _]]]]]]. rewrite P1, P2.
    unfold csub, copp. cbn [cadd cscal RR_CellOps fst snd]. f_equal; ring. }
  destruct (balance BNone nf _ 2 1 0 u v N I ltac:(discriminate) W A R) as [_ [F [Y Z]]].
  exists nf, periodic_bc, v. eexists. split; [exact E|]. split; [reflexivity|]. split; [exact R|]. split; [exact Z|].
  assert (B : forall l r f c, In l u -> In r u -> 0 <= c -> c * c = 2 * fst (cavg l r) -> es_law k l r 0 0 = Ok (copp f, f) ->
    let m := cavg l r in let v := snd m / fst m in let x := jump 2 l r in
    dot x (snd m, snd m ^ 2 / fst m + 2 * fst m ^ 2 / 2) - (sw_potential 2 r - sw_potential 2 l) -
    (Rabs (v - c) * (fst x + (v - c) * snd x) ^ 2 + Rabs (v + c) * (fst x + (v + c) * snd x) ^ 2) / 16 <= production 2 l r f).
  { intros l r f c Hl Hr Hc C Q. exact (proj2 (es_node k l r (copp f, f) c Hk (W l Hl) (W r Hr) Hc C Q)). }
  unfold u in *. clear A R Z E N. cbn [length] in Y |- *. rewrite !rsum_tab_S. cbn [tab map seq rsum fold_right]. unfold closed in *. cbn [app nth] in Y |- *.
  pose proof (Y 0%nat ltac:(lia)) as Y0. pose proof (Y 1%nat ltac:(lia)) as Y1. pose proof (Y 2%nat ltac:(lia)) as Y2. cbn [nth] in Y0, Y1, Y2.
  apply (B _ _ _ 3) in Y0; [|left; auto|right; left; auto|lra|unfold cavg, average; cbn [fst snd]; lra].
  apply (B _ _ _ 3) in Y1; [|right; left; auto|right; right; left; auto|lra|unfold cavg, average; cbn [fst snd]; lra].
  apply (B _ _ _ 2) in Y2; [|right; right; left; auto|left; auto|lra|unfold cavg, average; cbn [fst snd]; lra].
  clear B Y. cbv zeta in Y0, Y1, Y2. unfold jump, sw_entropy, sw_potential in Y0, Y1, Y2. rewrite !wet_vel in Y0, Y1, Y2 by (unfold wet; cbn [fst]; lra).
  unfold cavg, average, dot, csub, copp in Y0, Y1, Y2. cbn [cadd cscal RR_CellOps fst snd] in Y0, Y1, Y2.
  revert Y0 Y1 Y2. set (p0 := production _ _ _ (F 0%nat)). set (p1 := production _ _ _ (F 1%nat)). set (p2 := production _ _ _ (F 2%nat)). clearbody p0 p1 p2.
  unfold Rabs. repeat destruct Rcase_abs; try lra; intros Y0 Y1 Y2; field_simplify in Y0; field_simplify in Y1; field_simplify in Y2; lra.
Qed.
Print Assumptions C60_energy_stable_refuted.

(** the hypotheses are met: two cells of different height moving with velocity 1, for all these schemes *)
Example C60_ex : forall k, In k [LowOrder; LaxFriedrichs; Central; EnergyStable; EnergyStable1] ->
  exists nf bc v, scheme k None BNone = Ok nf /\ 0 < py_or None default_gravity /\ flat_bottom BNone /\
  get_boundary_conditions (Some reflect) ["periodic"%string] 1 None None = Ok bc /\
  (forall x, In x [(1, 1); (4, 4)] -> epsilon <= fst x /\ snd x = 1 * fst x) /\ fv_rhs nf 1 bc 0 [(1, 1); (4, 4)] = Ok v.
Proof.
  intros k Hk. pose proof epsilon_lt as He. pose proof epsilon_pos as He0. assert (Hg : 0 < py_or None default_gravity) by (unfold py_or, default_gravity; lra).
  destruct (scheme_ok k None BNone ([0], [0]) eq_refl) as [nf E].
  destruct (C62_wet_states k None BNone ["periodic"%string] None None nf periodic_bc 1 0 [(1, 1); (4, 4)] E) as [v [R _]]; auto; try lra.
  { repeat (destruct Hk as [<-|Hk]; [exact I|]). destruct Hk. }
  { left. exact I. }
  { discriminate. }
  { intros f [Q|Q]; discriminate. }
  { intros x [<-|[<-|[]]]; cbn [fst]; lra. }
  { discriminate. }
  exists nf, periodic_bc, v. split; auto. split; auto. split; [exact I|]. split; [reflexivity|]. split; auto.
  intros x [<-|[<-|[]]]; cbn [fst snd]; lra.
Qed.
