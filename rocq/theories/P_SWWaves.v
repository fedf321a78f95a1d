(** C59, C60: wave speeds, entropy variables, potential and energy balance of finite_volume/shallow_water *)
From Coq Require Import Reals List ZArith Arith Lia Lra Psatz Bool String.
From Coquelicot Require Import Coquelicot.
From Verif Require Import Prelude L_Prelude M_Boundary S_Boundary L_Boundary M_Flux S_Flux L_Flux M_ShallowWater S_ShallowWater
  L_ShallowWater L_SWRuns L_SWLow L_SWWater L_SWTotal S_Waves P_ShallowWater.
Import ListNotations.
Open Scope R_scope.
Notation length := List.length.

(** ** C59 *)
Lemma wet_velocity h q : epsilon <= h -> velocity (h, q) = q / h.
Proof. intro H. apply velocity_wet; auto. apply epsilon_pos. Qed.

Lemma flux2_direction g h q x y : 0 < h ->
  is_derive (fun s => physical_flux2 g (h + s * x) (q + s * y)) 0 ((g * h - (q / h) ^ 2) * x + 2 * (q / h) * y).
Proof.
  intro H. unfold physical_flux2. auto_derive.
  - rewrite Rmult_0_l, Rplus_0_r. lra.
  - rewrite !Rmult_0_l, !Rplus_0_r. field. lra.
Qed.
Lemma flux1_direction h q x y : is_derive (fun s => physical_flux1 (h + s * x) (q + s * y)) 0 y.
Proof. unfold physical_flux1. auto_derive; auto. ring. Qed.

Lemma speed_iff g h q lam : 0 < g -> 0 < h ->
  characteristic_speed g h q lam <-> lam = q / h - sqrt (g * h) \/ lam = q / h + sqrt (g * h).
Proof.
  intros Hg H. assert (Q : sqrt (g * h) * sqrt (g * h) = g * h) by (apply sqrt_sqrt; nra).
  set (c := sqrt (g * h)) in *. set (v := q / h).
  assert (K : characteristic_speed g h q lam <-> (lam - v) * (lam - v) = c * c).
  { split.
    - intros [x [y [N [D1 D2]]]].
      pose proof (is_derive_unique _ _ _ D1) as U1. rewrite (is_derive_unique _ _ _ (flux1_direction h q x y)) in U1.
      pose proof (is_derive_unique _ _ _ D2) as U2. rewrite (is_derive_unique _ _ _ (flux2_direction g h q x y H)) in U2.
      fold v in U2. subst y. assert (Nx : x <> 0) by (destruct N as [N|N]; [auto|intros ->; apply N; ring]).
      apply (Rmult_eq_reg_l x); auto. rewrite Q. lra.
    - intro E. exists 1, lam. split; [left; lra|]. split.
      + rewrite Rmult_1_r. apply flux1_direction.
      + replace (lam * lam) with ((g * h - (q / h) ^ 2) * 1 + 2 * (q / h) * lam) by (fold v; lra).
        apply flux2_direction; auto. }
  rewrite K. split.
  - intro E. assert (P : (lam - v - c) * (lam - v + c) = 0) by lra. apply Rmult_integral in P. destruct P; [right|left]; lra.
  - intros [->| ->]; ring.
Qed.

(** For wet states (heights at least EPSILON): the pair returned by WaveSpeed encloses every characteristic speed of both states and 0;
    each end is 0 or attained. MaximumWaveSpeed returns (-s, s) with the largest modulus s of the characteristic speeds. *)
Theorem C59_wave_speeds : forall g hl ql hr qr, 0 < g -> epsilon <= hl -> epsilon <= hr ->
  let speed lam := characteristic_speed g hl ql lam \/ characteristic_speed g hr qr lam in
  let '(a, b) := sw_wave_speed g (hl, ql) (hr, qr) in
  let '(m, s) := sw_max_wave_speed g (hl, ql) (hr, qr) in
  (forall lam, speed lam -> a <= lam <= b) /\ a <= 0 <= b /\ (a = 0 \/ speed a) /\ (b = 0 \/ speed b) /\
  m = - s /\ 0 < s /\ (forall lam, speed lam -> Rabs lam <= s) /\ (speed s \/ speed (- s)).
Proof.
  intros g hl ql hr qr Hg El Er. pose proof epsilon_pos as He. cbv zeta. unfold sw_wave_speed, sw_max_wave_speed, sw_max_speed. cbn [fst].
  rewrite !wet_velocity by auto. set (vl := ql / hl). set (vr := qr / hr). set (cl := sqrt (g * hl)). set (cr := sqrt (g * hr)).
  assert (Cl : 0 < cl) by (apply sqrt_lt_R0; nra). assert (Cr : 0 < cr) by (apply sqrt_lt_R0; nra).
  assert (I : forall lam, characteristic_speed g hl ql lam \/ characteristic_speed g hr qr lam <->
    (lam = vl - cl \/ lam = vl + cl) \/ (lam = vr - cr \/ lam = vr + cr)).
  { intro lam. rewrite !speed_iff by lra. reflexivity. }
  assert (J : forall lam, characteristic_speed g hl ql lam \/ characteristic_speed g hr qr lam ->
    (lam = vl - cl \/ lam = vl + cl) \/ (lam = vr - cr \/ lam = vr + cr)) by (intros; apply I; auto).
  split; [|split; [|split; [|split; [|split; [reflexivity|split; [|split]]]]]].
  - intros lam HH. apply J in HH. unfold Rmin, Rmax. repeat destruct (Rle_dec _ _); lra.
  - unfold Rmin, Rmax. repeat destruct (Rle_dec _ _); lra.
  - rewrite I. unfold Rmin. repeat destruct (Rle_dec _ _); lra.
  - rewrite I. unfold Rmax. repeat destruct (Rle_dec _ _); lra.
  - unfold Rmax, Rabs. repeat destruct (Rle_dec _ _); repeat destruct (Rcase_abs _); lra.
  - intros lam HH. apply J in HH. unfold Rmax, Rabs. repeat destruct (Rle_dec _ _); repeat destruct (Rcase_abs _); lra.
  - rewrite !I. unfold Rmax, Rabs. repeat destruct (Rle_dec _ _); repeat destruct (Rcase_abs _); lra.
Qed.
Print Assumptions C59_wave_speeds.
Example C59_ex : sw_wave_speed 1 (1, 3) (4, 0) = (-2, 4) /\ snd (sw_max_wave_speed 1 (1, 3) (4, 0)) = 4 /\ epsilon <= 1.
Proof.
  pose proof epsilon_lt. unfold sw_wave_speed, sw_max_wave_speed, sw_max_speed. cbn [fst snd]. rewrite !wet_velocity by lra.
  replace (1 * 4) with (2 * 2) by ring. rewrite Rmult_1_l, sqrt_1, sqrt_square by lra.
  replace (3 / 1) with 3 by field. replace (0 / 4) with 0 by field.
  unfold Rmin, Rmax, Rabs. repeat destruct (Rle_dec _ _); repeat destruct (Rcase_abs _); try lra; repeat split; try f_equal; lra.
Qed.

(** ** C60 *)
(** For wet states the entropy variables are the partial derivatives of the energy over the bottom b. *)
Theorem C60_entropy_is_energy_gradient : forall g b h q, epsilon <= h ->
  is_derive (fun x => energy g b x q) h (fst (sw_entropy g (h, q) b)) /\
  is_derive (fun y => energy g b h y) q (snd (sw_entropy g (h, q) b)).
Proof.
  intros g b h q H. pose proof epsilon_pos. unfold energy, sw_entropy. cbn [fst snd]. rewrite wet_velocity by auto. split.
  - auto_derive; [lra|]. field. lra.
  - auto_derive; [lra|]. field. lra.
Qed.
Print Assumptions C60_entropy_is_energy_gradient.

(** The potential is entropy variables times flux minus the energy flux, for any bottom; the energy flux belongs to the energy: its partial
    derivatives are the entropy variables (over b) times those of the flux. *)
Theorem C60_potential : forall g b h q f, epsilon <= h -> sw_flux g (h, q) = Ok f ->
  sw_potential g (h, q) = dot (sw_entropy g (h, q) b) f - energy_flux g b h q /\
  forall x y dh dq, is_derive (fun s => physical_flux1 (h + s * x) (q + s * y)) 0 dh ->
    is_derive (fun s => physical_flux2 g (h + s * x) (q + s * y)) 0 dq ->
    is_derive (fun s => energy_flux g b (h + s * x) (q + s * y)) 0 (dot (sw_entropy g (h, q) b) (dh, dq)).
Proof.
  intros g b h q f H E. pose proof epsilon_pos. rewrite sw_flux_wet in E by auto. apply Ok_inj in E. subst f.
  unfold sw_potential, sw_entropy, dot, energy_flux. cbn [fst snd]. rewrite wet_velocity by auto. split.
  - field. lra.
  - intros x y dh dq D1 D2. pose proof (is_derive_unique _ _ _ D1) as U1. rewrite (is_derive_unique _ _ _ (flux1_direction h q x y)) in U1.
    pose proof (is_derive_unique _ _ _ D2) as U2. rewrite (is_derive_unique _ _ _ (flux2_direction g h q x y ltac:(lra))) in U2. subst dh dq.
    auto_derive.
    + rewrite Rmult_0_l, Rplus_0_r. repeat split; auto; lra.
    + rewrite !Rmult_0_l, !Rplus_0_r. field. lra.
Qed.
Print Assumptions C60_potential.
