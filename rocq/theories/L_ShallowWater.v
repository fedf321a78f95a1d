From Coq Require Import Reals List ZArith Arith Lia Lra Psatz Bool String.
From Verif Require Import Prelude L_Prelude M_Boundary S_Boundary L_Boundary M_Flux S_Flux L_Flux
  M_Neighbours L_Neighbours M_Scalar S_Scalar L_Scalar M_ODE S_ODE L_ODE M_ShallowWater S_ShallowWater.
Import ListNotations.
Local Open Scope nat_scope.
Open Scope R_scope.
Notation length := List.length.

Lemma epsilon_pos : 0 < epsilon.
Proof. unfold epsilon. apply Rinv_0_lt_compat. apply pow_lt. lra. Qed.
Lemma epsilon_lt : epsilon < 1 / 2.
Proof.
  unfold epsilon. replace (1/2) with (/2) by lra. apply Rinv_lt_contravar.
  - apply Rmult_lt_0_compat; [lra|apply pow_lt; lra].
  - simpl. lra.
Qed.

(** ** velocity *)
Lemma velocity_den eps h : 0 < eps -> 0 < h ^ 2 + Rmax h eps ^ 2.
Proof.
  intro He. assert (eps <= Rmax h eps) by apply Rmax_r.
  assert (0 < Rmax h eps ^ 2) by (apply pow_lt; lra). pose proof (pow2_ge_0 h). lra.
Qed.
Lemma velocity_wet eps h q : 0 < eps -> eps <= h -> velocity_eps eps (h, q) = q / h.
Proof.
  intros He Hh. unfold velocity_eps. cbn [fst snd]. rewrite Rmax_left by lra. field. split; [lra|intro; nra].
Qed.
Lemma velocity_q0 eps h : velocity_eps eps (h, 0) = 0.
Proof. unfold velocity_eps. cbn [fst snd]. unfold Rdiv. ring. Qed.
Lemma velocity_opp eps h q : velocity_eps eps (h, - q) = - velocity_eps eps (h, q).
Proof. unfold velocity_eps. cbn [fst snd]. unfold Rdiv. ring. Qed.
Lemma Rabs_velocity eps h q : 0 < eps -> 0 <= h ->
  Rabs (velocity_eps eps (h, q)) = (2 * h * Rabs q) / (h ^ 2 + Rmax h eps ^ 2).
Proof.
  intros He Hh. unfold velocity_eps. cbn [fst snd]. pose proof (velocity_den eps h He) as Hd.
  unfold Rdiv. rewrite Rabs_mult. rewrite (Rabs_pos_eq (/ _)) by (left; apply Rinv_0_lt_compat; auto).
  rewrite Rabs_mult. rewrite (Rabs_pos_eq (2 * h)) by lra. reflexivity.
Qed.
Lemma velocity_dry eps h q : 0 < eps -> 0 <= h <= eps -> Rabs (velocity_eps eps (h, q)) <= Rabs q / eps.
Proof.
  intros He Hh. rewrite Rabs_velocity by lra. rewrite Rmax_right by lra.
  pose proof (Rabs_pos q). set (a := Rabs q) in *. clearbody a.
  apply (Rmult_le_reg_r (eps * (h ^ 2 + eps ^ 2))); [apply Rmult_lt_0_compat; nra|].
  replace (2 * h * a / (h ^ 2 + eps ^ 2) * (eps * (h ^ 2 + eps ^ 2))) with (a * (2 * h * eps)) by (field; intro; nra).
  replace (a / eps * (eps * (h ^ 2 + eps ^ 2))) with (a * (h ^ 2 + eps ^ 2)) by (field; lra).
  apply Rmult_le_compat_l; auto. nra.
Qed.
Lemma velocity_bound eps h q : 0 < eps -> 0 <= h -> h * Rabs (velocity_eps eps (h, q)) <= Rabs q.
Proof.
  intros He Hh. rewrite Rabs_velocity by auto. pose proof (velocity_den eps h He) as Hd.
  assert (M : h <= Rmax h eps) by apply Rmax_l. set (m := Rmax h eps) in *. clearbody m.
  pose proof (Rabs_pos q). set (a := Rabs q) in *. clearbody a.
  replace (h * (2 * h * a / (h ^ 2 + m ^ 2))) with (a * (2 * h ^ 2 / (h ^ 2 + m ^ 2))) by (field; lra).
  rewrite <- (Rmult_1_r a) at 2. apply Rmult_le_compat_l; auto.
  apply (Rmult_le_reg_r (h ^ 2 + m ^ 2)); auto.
  replace (2 * h ^ 2 / (h ^ 2 + m ^ 2) * (h ^ 2 + m ^ 2)) with (2 * h ^ 2) by (field; lra). nra.
Qed.

(** ** positivity fix *)
Lemma rsign_mult x : Rabs x * rsign x = x.
Proof.
  unfold rsign. destruct (Rltb_spec 0 x); [rewrite Rabs_pos_eq; lra|].
  destruct (Rltb_spec x 0); [rewrite Rabs_left; lra|]. assert (x = 0) by lra. subst. rewrite Rabs_R0. ring.
Qed.
Lemma rsign_0 : rsign 0 = 0.
Proof. unfold rsign. destruct (Rltb_spec 0 0); [lra|]. reflexivity. Qed.
Lemma rsign_abs x : Rabs (rsign x) <= 1.
Proof.
  unfold rsign. destruct (Rltb_spec 0 x); [rewrite Rabs_pos_eq; lra|].
  destruct (Rltb_spec x 0); [rewrite Rabs_left; lra|]. rewrite Rabs_R0. lra.
Qed.
Lemma fix_bound h d : 0 <= h -> Rabs (positivity_fix h d) <= h.
Proof.
  intro Hh. unfold positivity_fix. rewrite Rabs_mult.
  assert (A : 0 <= Rmin (Rabs d / 2) h <= h).
  { split; [apply Rmin_glb; auto; pose proof (Rabs_pos d); lra|apply Rmin_r]. }
  rewrite (Rabs_pos_eq (Rmin _ _)) by lra. pose proof (rsign_abs d). pose proof (Rabs_pos (rsign d)). nra.
Qed.
Lemma fix_exact h d : Rabs d / 2 <= h -> positivity_fix h d = d / 2.
Proof.
  intro Hh. unfold positivity_fix. rewrite Rmin_left by auto.
  replace (Rabs d / 2 * rsign d) with (Rabs d * rsign d / 2) by field. rewrite rsign_mult. reflexivity.
Qed.
Lemma fix_0 h : positivity_fix h 0 = 0.
Proof. unfold positivity_fix. rewrite rsign_0. ring. Qed.
Lemma Rabs_le_iff x y : Rabs x <= y <-> - y <= x <= y.
Proof. unfold Rabs. destruct (Rcase_abs x); lra. Qed.

(** ** flux *)
Lemma sw_flux_ok eps g h q f : sw_flux_eps eps g (h, q) = Ok f ->
  0 <= h /\ (h < eps -> f = (0, 0)) /\ (eps <= h -> f = (q, q ^ 2 / h + g * h ^ 2 / 2)).
Proof.
  unfold sw_flux_eps. destruct (Rltb_spec h 0); [discriminate|].
  destruct (Rltb_spec h eps); intro E; apply Ok_inj in E; subst f; repeat split; auto; lra.
Qed.
Lemma sw_flux_wet g h q : epsilon <= h -> sw_flux g (h, q) = Ok (q, q ^ 2 / h + g * h ^ 2 / 2).
Proof.
  intro Hh. pose proof epsilon_pos. unfold sw_flux, sw_flux_eps.
  destruct (Rltb_spec h 0); [lra|]. destruct (Rltb_spec h epsilon); [lra|]. reflexivity.
Qed.
(* the mass flux is bounded by the speed *)
Lemma mass_flux_bound g u f : sw_flux g u = Ok f -> Rabs (fst f) <= fst u * Rabs (velocity u).
Proof.
  destruct u as [h q]. intro E. apply sw_flux_ok in E as [H0 [H1 H2]]. pose proof epsilon_pos as He.
  destruct (Rlt_le_dec h epsilon) as [Hh|Hh].
  - rewrite H1 by auto. cbn [fst]. rewrite Rabs_R0. apply Rmult_le_pos; auto. apply Rabs_pos.
  - rewrite H2 by auto. cbn [fst]. unfold velocity. rewrite velocity_wet by auto.
    unfold Rdiv. rewrite Rabs_mult. rewrite (Rabs_pos_eq (/ h)) by (left; apply Rinv_0_lt_compat; lra).
    right. field. lra.
Qed.

(** ** speeds *)
Lemma max_speed_l g l r : Rabs (velocity l) + sqrt (g * fst l) <= sw_max_speed g l r.
Proof. apply Rmax_l. Qed.
Lemma max_speed_r g l r : Rabs (velocity r) + sqrt (g * fst r) <= sw_max_speed g l r.
Proof. apply Rmax_r. Qed.
Lemma max_speed_nonneg g l r : 0 <= sw_max_speed g l r.
Proof.
  eapply Rle_trans; [|apply max_speed_l]. pose proof (Rabs_pos (velocity l)). pose proof (sqrt_pos (g * fst l)). lra.
Qed.

(** ** Riemann solver *)
Section G.
Context (gravity : option R).
Let g := py_or gravity default_gravity.

Definition hll (l r fl fr : state) : state :=
  let s := sw_max_speed g l r in
  ((fst l + fst r) / 2 - (fst fr - fst fl) / (2 * s), (snd l + snd r) / 2 - (snd fr - snd fl) / (2 * s)).
Definition sw_out (l r fl fr : state) : rs_out state :=
  let s := sw_max_speed g l r in
  {| ro_flux := cadd fl (cscal s (csub l (hll l r fl fr)));
     ro_state := hll l r fl fr; ro_fl := fl; ro_fr := fr; ro_sl := - s; ro_sr := s |}.
Lemma sw_solve l r fl fr : sw_flux g l = Ok fl -> sw_flux g r = Ok fr -> sw_max_speed g l r <> 0 ->
  rs_solve (sw_riemann gravity) l r = Ok (sw_out l r fl fr).
Proof.
  intros E1 E2 Hs. unfold rs_solve, sw_riemann, sw_max_wave_speed. fold g. cbn [rs_flux rs_speed].
  rewrite E1, E2. cbn [bind]. rewrite rdiv_ne by lra. cbn [bind]. unfold sw_out, hll, csub, copp.
  set (s := sw_max_speed g l r) in *. destruct l as [hl ql], r as [hr qr], fl as [fl1 fl2], fr as [fr1 fr2].
  cbn [cadd cscal RR_CellOps fst snd]. f_equal. f_equal; f_equal; field; lra.
Qed.
Lemma sw_solve_inv l r o : rs_solve (sw_riemann gravity) l r = Ok o ->
  exists fl fr, sw_flux g l = Ok fl /\ sw_flux g r = Ok fr /\ sw_max_speed g l r <> 0 /\ o = sw_out l r fl fr.
Proof.
  intro E. pose proof E as E'. unfold rs_solve, sw_riemann, sw_max_wave_speed in E. fold g in E. cbn [rs_flux rs_speed] in E.
  inv_bind E. inv_bind E. cbn [bind] in E. inv_bind E. apply rdiv_ok in E2 as [Hs _].
  exists a, a0. assert (sw_max_speed g l r <> 0) by lra. repeat split; auto.
  rewrite (sw_solve l r a a0) in E' by auto. apply Ok_inj in E'. auto.
Qed.

Lemma hll_height_nonneg l r fl fr : sw_flux g l = Ok fl -> sw_flux g r = Ok fr -> sw_max_speed g l r <> 0 ->
  0 <= fst (hll l r fl fr).
Proof.
  intros E1 E2 Hs. pose proof (max_speed_nonneg g l r) as S0.
  pose proof (mass_flux_bound g l fl E1) as B1. pose proof (mass_flux_bound g r fr E2) as B2.
  assert (Hl : 0 <= fst l) by (destruct l; apply sw_flux_ok in E1; tauto).
  assert (Hr : 0 <= fst r) by (destruct r; apply sw_flux_ok in E2; tauto).
  pose proof (max_speed_l g l r) as Sl. pose proof (max_speed_r g l r) as Sr.
  pose proof (sqrt_pos (g * fst l)). pose proof (sqrt_pos (g * fst r)).
  unfold hll. cbn [fst]. set (s := sw_max_speed g l r) in *.
  assert (A1 : Rabs (fst fl) <= fst l * s).
  { eapply Rle_trans; [exact B1|]. apply Rmult_le_compat_l; lra. }
  assert (A2 : Rabs (fst fr) <= fst r * s).
  { eapply Rle_trans; [exact B2|]. apply Rmult_le_compat_l; lra. }
  apply Rabs_le_iff in A1. apply Rabs_le_iff in A2.
  apply (Rmult_le_reg_r (2 * s)); [lra|]. rewrite Rmult_0_l.
  replace (((fst l + fst r) / 2 - (fst fr - fst fl) / (2 * s)) * (2 * s))
    with (fst l * s + fst fl + (fst r * s - fst fr)) by (field; lra). lra.
Qed.

(** ** low order flux at one node *)
Definition low_out (l r fl fr : state) (d : R) : low :=
  let s := sw_max_speed g l r in
  let h := fst (hll l r fl fr) in let q := snd (hll l r fl fr) in
  let fx := positivity_fix h d in
  let v := average (velocity l) (velocity r) in
  let src := - (g * average (fst l) (fst r) * fx / s) in
  {| lo_s := s; lo_h := h; lo_q := q; lo_fix := fx; lo_hl := h + fx; lo_hr := h + - fx;
     lo_ql := q + v * fx + src; lo_qr := q + - v * fx + src;
     lo_outl := (s * (h + fx - fst l) - fst fl, s * (q + v * fx + src - snd l) - snd fl);
     lo_outr := (s * (h + - fx - fst r) + fst fr, s * (q + - v * fx + src - snd r) + snd fr) |}.
Lemma low_at_ok l r fl fr d : sw_flux g l = Ok fl -> sw_flux g r = Ok fr -> sw_max_speed g l r <> 0 ->
  low_at gravity l r d = Ok (low_out l r fl fr d).
Proof.
  intros E1 E2 Hs. unfold low_at. fold g. rewrite (sw_solve l r fl fr) by auto. cbn [bind sw_out ro_sr ro_state ro_fl ro_fr].
  unfold low_out. set (s := sw_max_speed g l r) in *. destruct (hll l r fl fr) as [h q]. cbn [fst snd].
  rewrite rdiv_ne by auto. cbn [bind]. f_equal. destruct l as [hl ql], r as [hr qr], fl as [fl1 fl2], fr as [fr1 fr2].
  unfold copp. cbn [cadd cscal RR_CellOps fst snd]. f_equal; f_equal; ring.
Qed.
Lemma low_at_inv l r d o : low_at gravity l r d = Ok o ->
  exists fl fr, sw_flux g l = Ok fl /\ sw_flux g r = Ok fr /\ sw_max_speed g l r <> 0 /\ o = low_out l r fl fr d.
Proof.
  intro E. pose proof E as E'. unfold low_at in E. inv_bind E. destruct (sw_solve_inv l r a E0) as [fl [fr [F1 [F2 [Hs _]]]]].
  exists fl, fr. repeat split; auto. rewrite (low_at_ok l r fl fr d) in E' by auto. apply Ok_inj in E'. auto.
Qed.
Lemma low_heights l r d o : low_at gravity l r d = Ok o ->
  0 < lo_s o /\ 0 <= lo_h o /\ 0 <= lo_hl o /\ 0 <= lo_hr o /\ lo_hl o + lo_hr o = 2 * lo_h o /\
  fst (lo_outl o) = - fst (lo_outr o).
Proof.
  intro E. destruct (low_at_inv l r d o E) as [fl [fr [F1 [F2 [Hs ->]]]]].
  pose proof (hll_height_nonneg l r fl fr F1 F2 Hs) as Hh. pose proof (max_speed_nonneg g l r).
  unfold low_out; cbn [lo_s lo_h lo_hl lo_hr lo_outl lo_outr fst].
  set (h := fst (hll l r fl fr)) in *. pose proof (fix_bound h d Hh) as F. apply Rabs_le_iff in F.
  repeat split; try lra.
  unfold h, hll. cbn [fst]. field. auto.
Qed.
End G.
