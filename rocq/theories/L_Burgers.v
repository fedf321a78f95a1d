(** Burgers' equation: the exact solution before shocks appear, and the scheme with the flux of Rusanov. *)
From Coq Require Import Reals List ZArith Arith Lia Lra Psatz.
From Verif Require Import Prelude L_Prelude M_Mesh M_ODE S_ODE L_ODE M_TimeStepping L_TimeStepping M_Solution M_Solver S_Solver L_Solver P_Solver L_Flux L_FVSolver L_Invariant L_Timed L_Convergence S_Burgers S_Convergence.
Import ListNotations.
Local Open Scope nat_scope.
Open Scope R_scope.
Local Open Scope list_scope.
Notation length := List.length.

Ltac pull_abs := repeat match goal with H : Rabs _ <= _ |- _ => apply abs_inv in H end.

Lemma abs_mul a b A B : Rabs a <= A -> Rabs b <= B -> Rabs (a * b) <= A * B.
Proof. intros. rewrite Rabs_mult. apply Rmult_le_compat; auto using Rabs_pos. Qed.

(** ** the exact solution *)
Section Exact.
Context (u0 u1 u2 : R -> R) (K K2 M T : R) (v : R -> R -> R).
Hypotheses (D1 : forall x, derivable_pt_lim u0 x (u1 x)) (D2 : forall x, derivable_pt_lim u1 x (u2 x)) (B2 : forall x, Rabs (u2 x) <= K2)
  (HL : lipschitz K u0) (HK : 0 < K) (HT : 0 <= T) (HKT : K * T < 1) (HM : forall x, Rabs (u0 x) <= M).
Let d := 1 - K * T.
Let L := K / d.
Let A := K2 / 2 / (d * d * d).
Let B := L * L * M + A * M * M.
Lemma ex_d : 0 < d. Proof. unfold d. lra. Qed.
Lemma ex_L : 0 < L. Proof. unfold L. apply Rdiv_lt_0_compat; [lra|exact ex_d]. Qed.
Lemma ex_K2 : 0 <= K2. Proof. pose proof (B2 0). pose proof (Rabs_pos (u2 0)). lra. Qed.
Lemma ex_M : 0 <= M. Proof. pose proof (HM 0). pose proof (Rabs_pos (u0 0)). lra. Qed.
Lemma ex_A : 0 <= A. Proof. unfold A. pose proof ex_d. pose proof ex_K2. apply Rmult_le_pos; [lra|]. left. apply Rinv_0_lt_compat. apply Rmult_lt_0_compat; [apply Rmult_lt_0_compat; lra|lra]. Qed.
Lemma slope_bound y : Rabs (u1 y) <= K.
Proof.
  apply Rnot_lt_le. intro N. set (e := (Rabs (u1 y) - K) / (K2 + 1)). pose proof ex_K2. assert (He : 0 < e) by (unfold e; apply Rdiv_lt_0_compat; lra).
  pose proof (taylor K2 u0 u1 u2 D1 D2 B2 y (y + e)) as X. pose proof (HL (y + e) y) as Y. replace (y + e - y) with e in X, Y by ring. rewrite (Rabs_right e) in Y by lra.
  assert (Z : Rabs (u1 y * e) <= K * e + K2 / 2 * e ^ 2). { apply abs_inv in X. apply abs_inv in Y. apply Rabs_le. lra. }
  rewrite Rabs_mult, (Rabs_right e) in Z by lra. assert (Q : Rabs (u1 y) <= K + K2 / 2 * e) by (apply (Rmult_le_reg_r e); [lra|]; nra).
  assert (E : e * (K2 + 1) = Rabs (u1 y) - K) by (unfold e; field; lra). nra.
Qed.
Lemma foot t x : 0 <= t -> { y | y + t * u0 y = x }.
Proof.
  intro Ht. pose proof ex_M. assert (C : continuity (fun y => y + t * u0 y - x)).
  { intro y. apply derivable_continuous_pt. exists (1 + t * u1 y - 0). apply derivable_pt_lim_minus; [|apply derivable_pt_lim_const].
    apply derivable_pt_lim_plus; [apply derivable_pt_lim_id|]. apply (derivable_pt_lim_scal u0 t y (u1 y) (D1 y)). }
  destruct (IVT_cor (fun y => y + t * u0 y - x) (x - t * M) (x + t * M) C) as [z [_ Z]]; [nra| |exists z; lra].
  pose proof (HM (x - t * M)) as X. pose proof (HM (x + t * M)) as Y. apply abs_inv in X. apply abs_inv in Y.
  assert (P : 0 <= t * (M - u0 (x - t * M))) by (apply Rmult_le_pos; lra). assert (Q : 0 <= t * (M + u0 (x + t * M))) by (apply Rmult_le_pos; lra).
  apply Ropp_le_cancel. rewrite Ropp_0, Ropp_mult_distr_l. apply Rmult_le_pos; lra.
Qed.
Lemma feet t y y' : 0 <= t <= T -> d * Rabs (y' - y) <= Rabs (y' + t * u0 y' - (y + t * u0 y)).
Proof.
  intro Ht. pose proof (HL y' y) as X. pose proof (Rabs_pos (y' - y)) as P.
  assert (Y : Rabs (y' - y) - t * (K * Rabs (y' - y)) <= Rabs (y' + t * u0 y' - (y + t * u0 y))).
  { replace (y' + t * u0 y' - (y + t * u0 y)) with (y' - y - - (t * (u0 y' - u0 y))) by ring.
    eapply Rle_trans; [|apply Rabs_triang_inv]. rewrite Rabs_Ropp, Rabs_mult, (Rabs_right t) by lra. assert (t * Rabs (u0 y' - u0 y) <= t * (K * Rabs (y' - y))) by (apply Rmult_le_compat_l; lra). lra. }
  eapply Rle_trans; [|exact Y]. unfold d. assert (t * K <= T * K) by (apply Rmult_le_compat_r; lra). nra.
Qed.
Lemma exact_exists : exists w, carried u0 T w.
Proof.
  exists (fun t x => match Rle_dec 0 t with left H => u0 (proj1_sig (foot t x H)) | right _ => 0 end). intros t y Ht.
  destruct (Rle_dec 0 t) as [H|H]; [|lra]. destruct (foot t (y + t * u0 y) H) as [z Z]. cbn [proj1_sig]. pose proof (feet t y z Ht) as X. rewrite Z in X.
  replace (y + t * u0 y - (y + t * u0 y)) with 0 in X by ring. rewrite Rabs_R0 in X. pose proof ex_d. pose proof (Rabs_pos (z - y)).
  assert (Rabs (z - y) = 0) by nra. destruct (Req_dec (z - y) 0) as [Q|Q]; [|apply Rabs_no_R0 in Q; lra]. replace z with y by lra. reflexivity.
Qed.
Hypothesis HV : carried u0 T v.
Lemma exact_unique w t x : carried u0 T w -> 0 <= t <= T -> w t x = v t x.
Proof. intros HW Ht. destruct (foot t x (proj1 Ht)) as [y <-]. rewrite HV, HW by auto. reflexivity. Qed.
Lemma exact_start x : v 0 x = u0 x.
Proof. rewrite <- (HV 0 x) by lra. f_equal. ring. Qed.
Lemma exact_bound t x : 0 <= t <= T -> Rabs (v t x) <= M.
Proof. intro Ht. destruct (foot t x (proj1 Ht)) as [y <-]. rewrite HV by auto. apply HM. Qed.
Lemma exact_attained t : 0 <= t <= T -> (exists x, Rabs (u0 x) = M) -> exists x, Rabs (v t x) = M.
Proof. intros Ht [y Hy]. exists (y + t * u0 y). rewrite HV by auto. exact Hy. Qed.
Lemma exact_lipschitz t : 0 <= t <= T -> lipschitz L (v t).
Proof.
  intros Ht x x'. destruct (foot t x (proj1 Ht)) as [y <-]. destruct (foot t x' (proj1 Ht)) as [y' <-]. rewrite !HV by auto. eapply Rle_trans; [apply HL|]. pose proof (feet t y' y Ht) as F. pose proof ex_d as Hd.
  apply Rle_trans with (K * / d * (d * Rabs (y - y'))); [apply Req_le; field; lra|]. unfold L, Rdiv. apply Rmult_le_compat_l; [apply Rmult_le_pos; [lra|left; apply Rinv_0_lt_compat; lra]|exact F].
Qed.
Lemma exact_repeats D t : 0 <= t <= T -> repeats D u0 -> repeats D (v t).
Proof.
  intros Ht HR x. destruct (foot t x (proj1 Ht)) as [y <-]. rewrite (HV t y) by auto. replace (y + t * u0 y + (ib D - ia D)) with (y + (ib D - ia D) + t * u0 (y + (ib D - ia D))) by (rewrite HR; ring). rewrite HV by auto. apply HR.
Qed.
Lemma exact_facts t x y : 0 <= t <= T -> y + t * u0 y = x -> let p := u1 y / (1 + t * u1 y) in Rabs p <= L /\ (forall e, Rabs (v t (x + e) - v t x - e * p) <= A * (e * e)) /\
  forall s, 0 <= s <= T -> Rabs (v s x - v t x + (s - t) * (v t x * p)) <= B * ((s - t) * (s - t)).
Proof.
  intros Ht Hy p0. pose proof ex_d as Hd. pose proof ex_M as PM. pose proof ex_K2 as PK2. pose proof ex_L as PL. set (q := u1 y). assert (Hq : Rabs q <= K) by apply slope_bound.
  set (g := 1 + t * q). assert (Hg : d <= g).
  { apply abs_inv in Hq. unfold g, d. assert (0 <= t * (q + K)) by (apply Rmult_le_pos; lra). assert (0 <= K * (T - t)) by (apply Rmult_le_pos; lra). lra. }
  assert (Ig : / g <= / d) by (apply Rinv_le_contravar; lra). assert (Pg : 0 < / g) by (apply Rinv_0_lt_compat; lra). assert (Pd : 0 < / d) by (apply Rinv_0_lt_compat; lra).
  set (p := q / g). assert (Hp : Rabs p <= L). { unfold p, L, Rdiv. apply abs_mul; [exact Hq|]. rewrite Rabs_right by lra. exact Ig. }
  assert (TR : forall y', Rabs (u0 y' - u0 y - q * (y' - y)) <= K2 / 2 * (y' - y) ^ 2) by (intro y'; apply (taylor K2 u0 u1 u2 D1 D2 B2)).
  assert (RR : forall y' e, d * Rabs (y' - y) <= e -> Rabs ((u0 y' - u0 y - q * (y' - y)) * / g) <= A * (e * e)).
  { intros y' e He. apply Rle_trans with (K2 / 2 * ((e * / d) * (e * / d)) * / d); [|apply Req_le; unfold A; field; lra].
    apply abs_mul; [|rewrite Rabs_right by lra; exact Ig]. eapply Rle_trans; [apply TR|]. apply Rmult_le_compat_l; [lra|].
    assert (X : Rabs (y' - y) <= e * / d). { apply (Rmult_le_reg_l d); [lra|]. replace (d * (e * / d)) with e by (field; lra). exact He. }
    replace ((y' - y) ^ 2) with (Rabs (y' - y) * Rabs (y' - y)) by (rewrite <- Rabs_mult, Rabs_right; [ring|]; pose proof (Rle_0_sqr (y' - y)) as Q; unfold Rsqr in Q; lra).
    apply Rmult_le_compat; auto using Rabs_pos. }
  change p0 with p. split; [exact Hp|]. rewrite <- Hy, (HV t y) by auto. split.
  - intro e. rewrite Hy. destruct (foot t (x + e) (proj1 Ht)) as [y' Hy']. rewrite <- Hy', (HV t y') by auto.
    assert (E : e = y' + t * u0 y' - (y + t * u0 y)) by lra.
    replace (u0 y' - u0 y - e * p) with ((u0 y' - u0 y - q * (y' - y)) * / g) by (rewrite E; unfold p, g; field; fold g; lra).
    replace (e * e) with (Rabs e * Rabs e) by (rewrite <- Rabs_mult, Rabs_right; [reflexivity|]; pose proof (Rle_0_sqr e) as Q; unfold Rsqr in Q; lra).
    apply RR. rewrite E. apply feet. exact Ht.
  - intros s Hs. rewrite Hy. destruct (foot s x (proj1 Hs)) as [y' Hy']. rewrite <- Hy' at 1. rewrite (HV s y') by auto.
    assert (F : d * Rabs (y' - y) <= M * Rabs (s - t)).
    { eapply Rle_trans; [apply (feet s y y' Hs)|]. rewrite Hy', <- Hy. replace (y + t * u0 y - (y + s * u0 y)) with (u0 y * - (s - t)) by ring.
      apply abs_mul; [apply HM|]. rewrite Rabs_Ropp. lra. }
    assert (Q2 : Rabs (s - t) * Rabs (s - t) = (s - t) * (s - t)) by (rewrite <- Rabs_mult, Rabs_right; [reflexivity|]; pose proof (Rle_0_sqr (s - t)) as Q; unfold Rsqr in Q; lra).
    replace (u0 y' - u0 y + (s - t) * (u0 y * p)) with ((t - s) * p * (u0 y' - u0 y) + (u0 y' - u0 y - q * (y' - y)) * / g).
    2: { assert (E : y' - y = t * u0 y - s * u0 y') by lra. assert (E' : u0 y' - u0 y - q * (y' - y) = (u0 y' - u0 y) * g - q * (t - s) * u0 y').
      { unfold g. replace (q * (y' - y)) with (q * (t * u0 y - s * u0 y')) by (rewrite E; ring). ring. }
      rewrite E'. unfold p. field. lra. }
    eapply Rle_trans; [apply Rabs_triang|]. replace (B * ((s - t) * (s - t))) with (Rabs (s - t) * L * (L * M * Rabs (s - t)) + A * (M * Rabs (s - t) * (M * Rabs (s - t)))) by (unfold B; rewrite <- Q2; ring).
    apply Rplus_le_compat; [|apply RR; exact F]. apply abs_mul; [apply abs_mul; [rewrite Rabs_minus_sym; lra|exact Hp]|].
    eapply Rle_trans; [apply HL|]. apply Rle_trans with (K * / d * (d * Rabs (y' - y))); [apply Req_le; field; lra|]. replace (L * M * Rabs (s - t)) with (K * / d * (M * Rabs (s - t))) by (unfold L, Rdiv; ring).
    apply Rmult_le_compat_l; [apply Rmult_le_pos; lra|exact F].
Qed.
End Exact.

(** the exact solution solves the equation *)
Lemma quadratic_derivative f x p A : 0 <= A -> forall r, 0 < r -> (forall e, Rabs e < r -> Rabs (f (x + e) - f x - e * p) <= A * (e * e)) -> derivable_pt_lim f x p.
Proof.
  intros HA r Hr H eps He. assert (Hd : 0 < Rmin r (eps / (A + 1))) by (apply Rmin_pos; [exact Hr|apply Rdiv_lt_0_compat; lra]).
  exists (mkposreal _ Hd). cbn. intros e He0 Hlt. assert (He1 : Rabs e < r) by (eapply Rlt_le_trans; [exact Hlt|apply Rmin_l]). assert (He2 : Rabs e < eps / (A + 1)) by (eapply Rlt_le_trans; [exact Hlt|apply Rmin_r]).
  specialize (H e He1). assert (Pe : 0 < Rabs e) by (apply Rabs_pos_lt; exact He0).
  replace ((f (x + e) - f x) / e - p) with ((f (x + e) - f x - e * p) / e) by (field; exact He0). unfold Rdiv. rewrite Rabs_mult, Rabs_inv.
  apply (Rmult_lt_reg_r (Rabs e)); [exact Pe|]. rewrite Rmult_assoc, Rinv_l, Rmult_1_r by lra. eapply Rle_lt_trans; [exact H|].
  replace (e * e) with (Rabs e * Rabs e) by (rewrite <- Rabs_mult, Rabs_right; [reflexivity|]; pose proof (Rle_0_sqr e) as Q; unfold Rsqr in Q; lra).
  rewrite <- Rmult_assoc. apply Rmult_lt_compat_r; [exact Pe|]. assert (X : Rabs e * (A + 1) < eps) by (apply (Rmult_lt_compat_r (A + 1)) in He2; [|lra]; unfold Rdiv in He2; rewrite Rmult_assoc, Rinv_l in He2 by lra; lra).
  nra.
Qed.

(** ** the flux *)
Definition ru (a b : R) : R := (a * a + b * b) / 4 - Rmax (Rabs a) (Rabs b) / 2 * (b - a).
Lemma max_abs_lip a b a' b' : Rabs (Rmax (Rabs a) (Rabs b) - Rmax (Rabs a') (Rabs b')) <= Rmax (Rabs (a - a')) (Rabs (b - b')).
Proof. unfold Rmax, Rabs. repeat destruct (Rcase_abs _); repeat destruct (Rle_dec _ _); repeat destruct (Rcase_abs _); lra. Qed.
Lemma ru_mirror a b : ru a b = ru (- b) (- a).
Proof. unfold ru. rewrite !Rabs_Ropp, Rmax_comm. field. Qed.
Lemma ru_left a a' b : a <= a' -> ru a b <= ru a' b.
Proof. intro H. unfold ru, Rmax, Rabs. repeat destruct (Rcase_abs _); repeat destruct (Rle_dec _ _); nra. Qed.
Lemma ru_right a b b' : b <= b' -> ru a b' <= ru a b.
Proof. intro H. rewrite (ru_mirror a b'), (ru_mirror a b). apply ru_left. lra. Qed.
Lemma ru_left_rate S a a' b : Rabs a <= S -> Rabs a' <= S -> Rabs b <= S -> a <= a' -> ru a' b - ru a b <= 2 * S * (a' - a).
Proof.
  intros Ha Ha' Hb H. pull_abs. unfold ru, Rmax, Rabs. repeat destruct (Rcase_abs _); repeat destruct (Rle_dec _ _); nra.
Qed.
Lemma ru_right_rate S a b b' : Rabs a <= S -> Rabs b <= S -> Rabs b' <= S -> b <= b' -> ru a b - ru a b' <= 2 * S * (b' - b).
Proof.
  intros Ha Hb Hb' H. rewrite (ru_mirror a b'), (ru_mirror a b). eapply Rle_trans; [apply (ru_left_rate S); rewrite ?Rabs_Ropp; auto; lra|]. lra.
Qed.
Lemma ru_lip S a b a' b' s : Rabs a <= S -> Rabs b <= S -> Rabs a' <= S -> Rabs b' <= S -> Rabs (a' - a) <= s -> Rabs (b' - b) <= s ->
  Rabs (ru a' b' - ru a b) <= 4 * S * s.
Proof.
  intros Ha Hb Ha' Hb' H1 H2. assert (PS : 0 <= S) by (pose proof (Rabs_pos a); lra).
  assert (X : Rabs (ru a' b' - ru a b') <= 2 * S * s).
  { apply abs_inv in H1. apply Rabs_le. destruct (Rle_lt_dec a a') as [Q|Q].
    - pose proof (ru_left_rate S a a' b' Ha Ha' Hb' Q). pose proof (ru_left a a' b' Q). nra.
    - pose proof (ru_left_rate S a' a b' Ha' Ha Hb' ltac:(lra)). pose proof (ru_left a' a b' ltac:(lra)). nra. }
  assert (Y : Rabs (ru a b' - ru a b) <= 2 * S * s).
  { apply abs_inv in H2. apply Rabs_le. destruct (Rle_lt_dec b b') as [Q|Q].
    - pose proof (ru_right_rate S a b b' Ha Hb Hb' Q). pose proof (ru_right a b b' Q). nra.
    - pose proof (ru_right_rate S a b' b Ha Hb' Hb ltac:(lra)). pose proof (ru_right a b' b ltac:(lra)). nra. }
  pull_abs. apply Rabs_le. lra.
Qed.

(** ** one forward step of the scheme *)
Definition forward (lam l w r : R) : R := w + lam * (ru l w - ru w r).
Lemma up_mono lam S l w r l' w' r' : 0 <= lam -> lam * S <= 1 / 4 -> Rabs l <= S -> Rabs w <= S -> Rabs r <= S -> Rabs l' <= S -> Rabs w' <= S -> Rabs r' <= S ->
  l <= l' -> w <= w' -> r <= r' -> forward lam l w r <= forward lam l' w' r'.
Proof.
  intros H0 HS A1 A2 A3 A4 A5 A6 B1 B2 B3. unfold forward.
  pose proof (ru_left l l' w' B1) as X1. pose proof (ru_right w' r r' B3) as X2. pose proof (ru_right_rate S l w w' A1 A2 A5 B2) as X3. pose proof (ru_left_rate S w w' r A2 A5 A3 B2) as X4.
  assert (Y : lam * (4 * S * (w' - w)) <= w' - w) by (replace (lam * (4 * S * (w' - w))) with (4 * (lam * S) * (w' - w)) by ring; nra).
  assert (Z : lam * (ru l w - ru w r - (ru l' w' - ru w' r')) <= lam * (4 * S * (w' - w))) by (apply Rmult_le_compat_l; lra). lra.
Qed.
(** adding a constant *)
Lemma up_shift lam l w r c k : 0 <= lam -> Rabs (l - w) <= k -> Rabs (r - w) <= k -> Rabs (forward lam (l + c) (w + c) (r + c) - forward lam l w r - c) <= 2 * lam * k * Rabs c.
Proof.
  intros H0 A1 A2. unfold forward, ru.
  pose proof (max_abs_lip (l + c) (w + c) l w) as M1. pose proof (max_abs_lip (w + c) (r + c) w r) as M2.
  replace (l + c - l) with c in M1 by ring. replace (w + c - w) with c in M1, M2 by ring. replace (r + c - r) with c in M2 by ring. rewrite (Rmax_left (Rabs c) (Rabs c)) in M1, M2 by lra.
  set (m1 := Rmax (Rabs (l + c)) (Rabs (w + c))) in *. set (m2 := Rmax (Rabs (w + c)) (Rabs (r + c))) in *. set (m3 := Rmax (Rabs l) (Rabs w)) in *. set (m4 := Rmax (Rabs w) (Rabs r)) in *.
  match goal with |- Rabs ?x <= _ => replace x with (lam * (c * ((l - w) - (r - w)) / 2 + ((m1 - m3) * (l - w) + (m2 - m4) * (r - w)) / 2)) by field end.
  replace (2 * lam * k * Rabs c) with (lam * (2 * k * Rabs c)) by ring. rewrite Rabs_mult, (Rabs_right lam) by lra. apply Rmult_le_compat_l; [exact H0|].
  pose proof (abs_mul _ _ _ _ M1 A1) as X1. pose proof (abs_mul _ _ _ _ M2 A2) as X2.
  assert (X3 : Rabs (c * (l - w - (r - w))) <= Rabs c * (2 * k)) by (apply abs_mul; [lra|]; pull_abs; apply Rabs_le; lra).
  apply abs_inv in X1. apply abs_inv in X2. apply abs_inv in X3. apply Rabs_le. lra.
Qed.
(** adding nearly constant values *)
Lemma up_nearly lam S l w r a b c k s : 0 <= lam -> lam * S <= 1 / 4 -> Rabs (l - w) <= k -> Rabs (r - w) <= k -> Rabs (a - b) <= s -> Rabs (c - b) <= s ->
  Rabs (l + a) <= S -> Rabs (w + b) <= S -> Rabs (r + c) <= S -> Rabs (l + b) <= S -> Rabs (r + b) <= S ->
  Rabs (forward lam (l + a) (w + b) (r + c) - forward lam l w r - b) <= 2 * lam * k * Rabs b + 2 * s.
Proof.
  intros H0 HS A1 A2 A3 A4 B1 B2 B3 B4 B5. pose proof (up_shift lam l w r b k H0 A1 A2) as X.
  pose proof (ru_lip S (l + b) (w + b) (l + a) (w + b) s B4 B2 B1 B2) as Y1. pose proof (ru_lip S (w + b) (r + b) (w + b) (r + c) s B2 B5 B2 B3) as Y2.
  assert (Ps : 0 <= s) by (pose proof (Rabs_pos (a - b)); lra).
  assert (Z : Rabs (w + b - (w + b)) <= s) by (replace (w + b - (w + b)) with 0 by ring; rewrite Rabs_R0; exact Ps).
  replace (l + a - (l + b)) with (a - b) in Y1 by ring. replace (r + c - (r + b)) with (c - b) in Y2 by ring. specialize (Y1 A3 Z). specialize (Y2 Z A4).
  assert (E : forward lam (l + a) (w + b) (r + c) - forward lam (l + b) (w + b) (r + b) = lam * (ru (l + a) (w + b) - ru (l + b) (w + b) - (ru (w + b) (r + c) - ru (w + b) (r + b)))) by (unfold forward; ring).
  assert (F : Rabs (lam * (ru (l + a) (w + b) - ru (l + b) (w + b) - (ru (w + b) (r + c) - ru (w + b) (r + b)))) <= lam * (8 * S * s)).
  { rewrite Rabs_mult, (Rabs_right lam) by lra. apply Rmult_le_compat_l; [exact H0|]. pull_abs. apply Rabs_le. lra. }
  assert (G : lam * (8 * S * s) <= 2 * s) by (replace (lam * (8 * S * s)) with (8 * (lam * S) * s) by ring; nra).
  rewrite <- E in F. apply abs_inv in X. apply abs_inv in F. apply Rabs_le. lra.
Qed.
(** how well the scheme follows the equation *)
Lemma up_consistent lam l w r p h L A M : 0 <= lam -> 0 <= h -> Rabs l <= M -> Rabs w <= M -> Rabs r <= M -> Rabs (l - w) <= L * h -> Rabs (r - w) <= L * h ->
  Rabs (l - w + h * p) <= A * (h * h) -> Rabs (r - w - h * p) <= A * (h * h) ->
  Rabs (forward lam l w r - w + lam * h * (w * p)) <= lam * (h * h) * (2 * A * M + 2 * (L * L)).
Proof.
  intros H0 Hh B1 B2 B3 A1 A2 A3 A4. unfold forward, ru. pose proof (max_abs_lip w r l w) as M1.
  assert (B4 : Rabs (Rmax (Rabs l) (Rabs w)) <= M). { rewrite Rabs_right by (apply Rle_ge; eapply Rle_trans; [apply Rabs_pos|apply Rmax_l]). apply Rmax_lub; auto. }
  assert (M2 : Rabs (Rmax (Rabs w) (Rabs r) - Rmax (Rabs l) (Rabs w)) <= L * h). { eapply Rle_trans; [exact M1|]. apply Rmax_lub; [rewrite Rabs_minus_sym; exact A1|exact A2]. }
  set (m1 := Rmax (Rabs l) (Rabs w)) in *. set (m2 := Rmax (Rabs w) (Rabs r)) in *.
  match goal with |- Rabs ?x <= _ => replace x with (lam * (w * ((l - w + h * p) - (r - w - h * p)) / 2 + ((l - w) - (r - w)) * ((l - w) + (r - w)) / 4 + (m1 * ((l - w + h * p) + (r - w - h * p)) + (m2 - m1) * (r - w)) / 2)) by field end.
  rewrite Rmult_assoc. rewrite Rabs_mult, (Rabs_right lam) by lra. apply Rmult_le_compat_l; [exact H0|].
  assert (X1 : Rabs (w * (l - w + h * p - (r - w - h * p))) <= M * (2 * (A * (h * h)))) by (apply abs_mul; [exact B2|]; apply abs_inv in A3; apply abs_inv in A4; apply Rabs_le; lra).
  assert (X2 : Rabs ((l - w - (r - w)) * (l - w + (r - w))) <= 2 * (L * h) * (2 * (L * h))) by (apply abs_mul; apply abs_inv in A1; apply abs_inv in A2; apply Rabs_le; lra).
  assert (X3 : Rabs (m1 * (l - w + h * p + (r - w - h * p))) <= M * (2 * (A * (h * h)))) by (apply abs_mul; [exact B4|]; apply abs_inv in A3; apply abs_inv in A4; apply Rabs_le; lra).
  pose proof (abs_mul _ _ _ _ M2 A2) as X4. apply abs_inv in X1. apply abs_inv in X2. apply abs_inv in X3. apply abs_inv in X4. apply Rabs_le.
  assert (0 <= L * h * (L * h)) by (pose proof (Rle_0_sqr (L * h)) as Q; exact Q). lra.
Qed.

(** ** one stage of a step near the exact solution *)
Section Stage.
Context (V p : Z -> R) (h dt L A M S cm : R).
Hypotheses (Hh : 0 < h) (Hdt : 0 <= dt) (PL : 0 <= L) (PA : 0 <= A) (PM : 0 <= M) (Pc : 0 <= cm) (HS : dt * S <= h / 4) (HdL : dt * L <= 1 / 12) (HA : A * h <= L) (HMS : M * (7 / 6) + cm <= S)
  (V1 : forall j, Rabs (V j) <= M) (V2 : forall j, Rabs (p j) <= L) (V3 : forall j, Rabs (V (j - 1)%Z - V j + h * p j) <= A * (h * h))
  (V4 : forall j, Rabs (V (j + 1)%Z - V j - h * p j) <= A * (h * h)) (V5 : forall j, Rabs (V (j + 1)%Z - V j) <= L * h).
Definition ahead (tau : R) (j : Z) : R := V j - tau * (V j * p j).
Definition near (tau c : R) (u : Z -> R) : Prop := forall j, Rabs (u j - ahead tau j) <= c.
Let lam := dt / h.
Let e := dt * h * (7 * (L * L) + 10 * A * M).
Lemma st_lam : 0 <= lam /\ lam * h = dt /\ lam * S <= 1 / 4.
Proof.
  unfold lam. split; [apply Rmult_le_pos; [lra|left; apply Rinv_0_lt_compat; lra]|]. split; [field; lra|].
  apply (Rmult_le_reg_r h); [lra|]. replace (dt / h * S * h) with (dt * S) by (field; lra). lra.
Qed.
Lemma st_V5 j : Rabs (V (j - 1)%Z - V j) <= L * h.
Proof. rewrite Rabs_minus_sym. pose proof (V5 (j - 1)) as X. replace (j - 1 + 1)%Z with j in X by lia. exact X. Qed.
Lemma slope_step j : Rabs (p (j + 1)%Z - p j) <= 2 * A * h.
Proof.
  pose proof (V4 j) as X. pose proof (V3 (j + 1)) as Y. replace (j + 1 - 1)%Z with j in Y by lia. apply abs_inv in X. apply abs_inv in Y.
  apply Rabs_le. split; apply (Rmult_le_reg_l h); auto; nra.
Qed.
Lemma product_step j : Rabs (V (j + 1)%Z * p (j + 1)%Z - V j * p j) <= h * (L * L + 2 * A * M).
Proof.
  replace (V (j + 1)%Z * p (j + 1)%Z - V j * p j) with ((V (j + 1)%Z - V j) * p (j + 1)%Z + V j * (p (j + 1)%Z - p j)) by ring.
  eapply Rle_trans; [apply Rabs_triang|]. pose proof (abs_mul _ _ _ _ (V5 j) (V2 (j + 1))). pose proof (abs_mul _ _ _ _ (V1 j) (slope_step j)). lra.
Qed.
Lemma product_step' j : Rabs (V (j - 1)%Z * p (j - 1)%Z - V j * p j) <= h * (L * L + 2 * A * M).
Proof. rewrite Rabs_minus_sym. pose proof (product_step (j - 1)) as X. replace (j - 1 + 1)%Z with j in X by lia. exact X. Qed.
Lemma st_dM : dt * M <= h / 4. Proof. assert (M <= S) by lra. nra. Qed.
Lemma st_MS : 0 <= S. Proof. lra. Qed.
Lemma correction tau j : 0 <= tau <= 2 * dt -> Rabs (tau * (V j * p j)) <= M / 6.
Proof.
  intro Ht. rewrite Rabs_mult, (Rabs_right tau) by lra. apply Rle_trans with (2 * dt * (M * L)).
  - apply Rmult_le_compat; [lra|apply Rabs_pos|lra|]. apply abs_mul; auto.
  - replace (2 * dt * (M * L)) with (2 * M * (dt * L)) by ring. nra.
Qed.
Lemma ahead_bound tau j : 0 <= tau <= 2 * dt -> Rabs (ahead tau j) <= M * (7 / 6).
Proof. intro Ht. unfold ahead. pose proof (correction tau j Ht) as X. pose proof (V1 j) as Y. apply abs_inv in X. apply abs_inv in Y. apply Rabs_le. lra. Qed.
Lemma spare : h * (L * L + 2 * A * M) * (2 * dt) <= 2 * L * h.
Proof.
  pose proof st_dM as X. replace (h * (L * L + 2 * A * M) * (2 * dt)) with (h * (2 * L * (dt * L) + 4 * A * (dt * M))) by ring.
  assert (L * (dt * L) <= L * (1 / 12)) by (apply Rmult_le_compat_l; lra). assert (A * (dt * M) <= A * (h / 4)) by (apply Rmult_le_compat_l; lra). 
  replace (2 * L * h) with (h * (2 * L)) by ring. apply Rmult_le_compat_l; lra.
Qed.
Lemma diff_step tau a b : 0 <= tau <= 2 * dt -> Rabs (a - b) <= h * (L * L + 2 * A * M) -> Rabs (- (tau * a) - - (tau * b)) <= tau * (h * (L * L + 2 * A * M)).
Proof. intros Ht X. replace (- (tau * a) - - (tau * b)) with (tau * - (a - b)) by ring. apply abs_mul; [rewrite Rabs_right; lra|rewrite Rabs_Ropp; exact X]. Qed.
Lemma ahead_step tau j k : 0 <= tau <= 2 * dt -> k = (j - 1)%Z \/ k = (j + 1)%Z -> Rabs (ahead tau k - ahead tau j) <= 3 * L * h.
Proof.
  intros Ht Hk. pose proof spare as SP. assert (Q : 0 <= h * (L * L + 2 * A * M)) by (pose proof (product_step 0); pose proof (Rabs_pos (V (0 + 1)%Z * p (0 + 1)%Z - V 0%Z * p 0%Z)); lra).
  assert (SQ : tau * (h * (L * L + 2 * A * M)) <= 2 * L * h) by (eapply Rle_trans; [apply Rmult_le_compat_r; [exact Q|apply Ht]|]; lra).
  unfold ahead. destruct Hk as [-> | ->].
  - pose proof (diff_step tau _ _ Ht (product_step' j)) as X. pose proof (st_V5 j) as Y. apply abs_inv in X. apply abs_inv in Y. apply Rabs_le. lra.
  - pose proof (diff_step tau _ _ Ht (product_step j)) as X. pose proof (V5 j) as Y. apply abs_inv in X. apply abs_inv in Y. apply Rabs_le. lra.
Qed.
Lemma ahead_scheme tau j : 0 <= tau <= 2 * dt -> Rabs (forward lam (ahead tau (j - 1)%Z) (ahead tau j) (ahead tau (j + 1)%Z) - ahead (tau + dt) j) <= e.
Proof.
  intro Ht. destruct st_lam as [L0 [L1 L2]]. pose proof (ahead_bound tau) as AB. pose proof (correction tau j Ht) as CT.
  pose proof (up_consistent lam _ _ _ (p j) h L A M L0 ltac:(lra) (V1 (j - 1)) (V1 j) (V1 (j + 1)) (st_V5 j) (V5 j) (V3 j) (V4 j)) as X.
  assert (W : forall k, Rabs (V k + - (tau * (V j * p j))) <= S).
  { intro k. pose proof (V1 k) as Y. apply abs_inv in Y. apply abs_inv in CT. apply Rabs_le. lra. }
  assert (W' : forall k, Rabs (V k + - (tau * (V k * p k))) <= S) by (intro k; eapply Rle_trans; [apply (AB k Ht)|lra]).
  pose proof (up_nearly lam S (V (j - 1)%Z) (V j) (V (j + 1)%Z) (- (tau * (V (j - 1)%Z * p (j - 1)%Z))) (- (tau * (V j * p j))) (- (tau * (V (j + 1)%Z * p (j + 1)%Z))) (L * h) (tau * (h * (L * L + 2 * A * M)))
    L0 L2 (st_V5 j) (V5 j) (diff_step tau _ _ Ht (product_step' j)) (diff_step tau _ _ Ht (product_step j)) (W' _) (W _) (W' _) (W _) (W _)) as Y.
  rewrite L1 in X. replace (lam * (h * h)) with (dt * h) in X by (rewrite <- L1; ring). rewrite Rabs_Ropp in Y.
  assert (CT' : Rabs (tau * (V j * p j)) <= tau * (M * L)) by (apply abs_mul; [rewrite Rabs_right; lra|apply abs_mul; auto]).
  assert (Z : 2 * lam * (L * h) * Rabs (tau * (V j * p j)) + 2 * (tau * (h * (L * L + 2 * A * M))) + dt * h * (2 * A * M + 2 * (L * L)) <= e).
  { replace (2 * lam * (L * h)) with (2 * L * dt) by (rewrite <- L1; ring). pose proof st_dM as DM.
    assert (Q1 : 2 * L * dt * Rabs (tau * (V j * p j)) <= 2 * L * dt * (tau * (M * L))) by (apply Rmult_le_compat_l; [|exact CT']; apply Rmult_le_pos; lra).
    assert (Q2 : 2 * L * dt * (tau * (M * L)) <= dt * h * (L * L)).
    { replace (2 * L * dt * (tau * (M * L))) with (L * L * (2 * tau) * (dt * M)) by ring. apply Rle_trans with (L * L * (4 * dt) * (h / 4)); [|apply Req_le; field].
      apply Rmult_le_compat; [apply Rmult_le_pos; [apply Rmult_le_pos; lra|lra]|apply Rmult_le_pos; lra| |exact DM]. apply Rmult_le_compat_l; [apply Rmult_le_pos; lra|lra]. }
    assert (Q3 : tau * (h * (L * L + 2 * A * M)) <= 2 * dt * (h * (L * L + 2 * A * M))).
    { apply Rmult_le_compat_r; [|lra]. apply Rmult_le_pos; [lra|]. assert (0 <= L * L) by (apply Rmult_le_pos; lra). assert (0 <= A * M) by (apply Rmult_le_pos; lra). lra. }
    unfold e. lra. }
  unfold ahead. fold (Rminus (V (j - 1)%Z) (tau * (V (j - 1)%Z * p (j - 1)%Z))) in Y. change (V j + - (tau * (V j * p j))) with (V j - tau * (V j * p j)) in Y. change (V (j + 1)%Z + - (tau * (V (j + 1)%Z * p (j + 1)%Z))) with (V (j + 1)%Z - tau * (V (j + 1)%Z * p (j + 1)%Z)) in Y.
  change (V (j - 1)%Z + - (tau * (V (j - 1)%Z * p (j - 1)%Z))) with (V (j - 1)%Z - tau * (V (j - 1)%Z * p (j - 1)%Z)) in Y.
  apply abs_inv in X. apply abs_inv in Y. apply Rabs_le. lra.
Qed.
Lemma near_stage tau c u u' : 0 <= tau <= 2 * dt -> 0 <= c <= cm -> near tau c u -> (forall j, Rabs (u j) <= S) -> (forall j, u' j = forward lam (u (j - 1)%Z) (u j) (u (j + 1)%Z)) ->
  near (tau + dt) ((1 + 6 * L * dt) * c + e) u'.
Proof.
  intros Ht Hc HN HB HU j. rewrite HU. destruct st_lam as [L0 [L1 L2]]. pose proof (ahead_scheme tau j Ht) as X. set (W := ahead tau) in *.
  assert (WB : forall k x, Rabs x <= c -> Rabs (W k + x) <= S).
  { intros k x Hx. pose proof (ahead_bound tau k Ht) as Y. fold W in Y. apply abs_inv in Y. apply abs_inv in Hx. apply Rabs_le. lra. }
  assert (Cc : Rabs c <= c) by (rewrite Rabs_right; lra). assert (Cc' : Rabs (- c) <= c) by (rewrite Rabs_Ropp; exact Cc).
  assert (N : forall k, W k + - c <= u k <= W k + c) by (intro k; pose proof (HN k) as Y; fold W in Y; apply abs_inv in Y; lra).
  pose proof (up_mono lam S _ _ _ _ _ _ L0 L2 (HB (j - 1)%Z) (HB j) (HB (j + 1)%Z) (WB (j - 1)%Z c Cc) (WB j c Cc) (WB (j + 1)%Z c Cc) (proj2 (N _)) (proj2 (N _)) (proj2 (N _))) as U1.
  pose proof (up_mono lam S _ _ _ _ _ _ L0 L2 (WB (j - 1)%Z (- c) Cc') (WB j (- c) Cc') (WB (j + 1)%Z (- c) Cc') (HB (j - 1)%Z) (HB j) (HB (j + 1)%Z) (proj1 (N _)) (proj1 (N _)) (proj1 (N _))) as U2.
  pose proof (ahead_step tau j _ Ht (or_introl eq_refl)) as K1. pose proof (ahead_step tau j _ Ht (or_intror eq_refl)) as K2. fold W in K1, K2.
  pose proof (up_shift lam _ _ _ c _ L0 K1 K2) as S1. pose proof (up_shift lam _ _ _ (- c) _ L0 K1 K2) as S2. rewrite Rabs_Ropp in S2. rewrite (Rabs_right c) in S1, S2 by lra.
  replace (2 * lam * (3 * L * h) * c) with (6 * L * dt * c) in S1, S2 by (rewrite <- L1; ring). apply abs_inv in X. apply abs_inv in S1. apply abs_inv in S2. apply Rabs_le. lra.
Qed.
Lemma near_mixed r t1 c1 u1 t2 c2 u2 : 0 <= r <= 1 -> near t1 c1 u1 -> near t2 c2 u2 -> near (r * t1 + (1 - r) * t2) (r * c1 + (1 - r) * c2) (fun j => r * u1 j + (1 - r) * u2 j).
Proof.
  intros Hr N1 N2 j. specialize (N1 j). specialize (N2 j). unfold ahead in *. apply abs_inv in N1. apply abs_inv in N2. apply Rabs_le.
  set (x1 := u1 j - (V j - t1 * (V j * p j))) in *. set (x2 := u2 j - (V j - t2 * (V j * p j))) in *.
  replace (r * u1 j + (1 - r) * u2 j - (V j - (r * t1 + (1 - r) * t2) * (V j * p j))) with (r * x1 + (1 - r) * x2) by (unfold x1, x2; ring). nra.
Qed.
Lemma near_weak tau c c' u : near tau c u -> c <= c' -> near tau c' u.
Proof. intros N H j. eapply Rle_trans; [apply N|exact H]. Qed.
End Stage.

(** ** steps of the Runge-Kutta methods *)
Definition rusanov (ok : list R -> Prop) (n : nat) (h : R) (f : R -> list R -> result (list R)) : Prop := forall t u, length u = n -> ok u ->
  exists v, f t u = Ok v /\ length v = n /\ forall i, (i < n)%nat -> nth i v 0 = (ru (at_ u (Z.of_nat i - 1)) (nth i u 0) - ru (nth i u 0) (at_ u (Z.of_nat i + 1))) / h.
Lemma at_some u z : (0 < length u)%nat -> exists i, (i < length u)%nat /\ (z mod Z.of_nat (length u))%Z = Z.of_nat i /\ at_ u z = nth i u 0.
Proof.
  intro Hn. exists (Z.to_nat (z mod Z.of_nat (length u))). pose proof (Z.mod_pos_bound z (Z.of_nat (length u)) ltac:(lia)) as B. split; [lia|]. split; [lia|]. reflexivity.
Qed.
Lemma at_congr u z z' : (z mod Z.of_nat (length u) = z' mod Z.of_nat (length u))%Z -> at_ u z = at_ u z'.
Proof. intro E. unfold at_. rewrite E. reflexivity. Qed.
Lemma at_step (u v : list R) a r z : length v = length u -> (0 < length u)%nat -> at_ (vadd (vscal a u) (vscal r v)) z = a * at_ u z + r * at_ v z.
Proof.
  intros Lv Hn. unfold at_. rewrite step_length by exact Lv. rewrite Lv. apply nth_step; [exact Lv|]. pose proof (Z.mod_pos_bound z (Z.of_nat (length u)) ltac:(lia)). lia.
Qed.
Lemma at_step1 (u v : list R) r z : length v = length u -> (0 < length u)%nat -> at_ (vadd u (vscal r v)) z = at_ u z + r * at_ v z.
Proof.
  intros Lv Hn. unfold at_. rewrite step1_length by exact Lv. rewrite Lv. apply nth_step1; [exact Lv|]. pose proof (Z.mod_pos_bound z (Z.of_nat (length u)) ltac:(lia)). lia.
Qed.
Lemma at_rusanov n h u v z : length u = n -> length v = n -> (0 < n)%nat ->
  (forall i, (i < n)%nat -> nth i v 0 = (ru (at_ u (Z.of_nat i - 1)) (nth i u 0) - ru (nth i u 0) (at_ u (Z.of_nat i + 1))) / h) ->
  at_ v z = (ru (at_ u (z - 1)) (at_ u z) - ru (at_ u z) (at_ u (z + 1))) / h.
Proof.
  intros Lu Lv Hn H. destruct (at_some v z ltac:(lia)) as [i [Hi [E ->]]]. rewrite Lv in *. rewrite H by exact Hi.
  assert (Q : forall k, ((Z.of_nat i + k) mod Z.of_nat n = (z + k) mod Z.of_nat n)%Z) by (intro k; rewrite <- E; rewrite Zplus_mod_idemp_l; reflexivity).
  rewrite <- (at_nth u i) by lia. rewrite (at_congr u (Z.of_nat i) z) by (rewrite Lu; pose proof (Q 0%Z) as Q0; rewrite !Z.add_0_r in Q0; exact Q0).
  rewrite (at_congr u (Z.of_nat i - 1) (z - 1)) by (rewrite Lu; apply (Q (-1)%Z)). rewrite (at_congr u (Z.of_nat i + 1) (z + 1)) by (rewrite Lu; apply Q). reflexivity.
Qed.

Section Execute.
Context (V p : Z -> R) (h dt L A M S cm : R) (ok : list R -> Prop) (n : nat) (f : R -> list R -> result (list R)).
Hypotheses (Hh : 0 < h) (Hdt : 0 <= dt) (PL : 0 <= L) (PA : 0 <= A) (PM : 0 <= M) (Pc : 0 <= cm) (HS : dt * S <= h / 4) (HdL : dt * L <= 1 / 12) (HA : A * h <= L) (HMS : M * (7 / 6) + cm <= S)
  (V1 : forall j, Rabs (V j) <= M) (V2 : forall j, Rabs (p j) <= L) (V3 : forall j, Rabs (V (j - 1)%Z - V j + h * p j) <= A * (h * h))
  (V4 : forall j, Rabs (V (j + 1)%Z - V j - h * p j) <= A * (h * h)) (V5 : forall j, Rabs (V (j + 1)%Z - V j) <= L * h)
  (Hn : (0 < n)%nat) (HR : rusanov ok n h f) (HO : forall tau u, length u = n -> 0 <= tau <= 2 * dt -> near V p tau cm (at_ u) -> ok u).
Let e := dt * h * (7 * (L * L) + 10 * A * M).
Let g := 1 + 6 * L * dt.
Definition stays (tau c : R) (u : list R) : Prop := length u = n /\ near V p tau c (at_ u).
Lemma ex_e : 0 <= e.
Proof. unfold e. apply Rmult_le_pos; [apply Rmult_le_pos; lra|]. assert (0 <= L * L) by (apply Rmult_le_pos; lra). assert (0 <= A * M) by (apply Rmult_le_pos; lra). lra. Qed.
Lemma ex_g : 1 <= g. Proof. unfold g. assert (0 <= L * dt) by (apply Rmult_le_pos; lra). lra. Qed.
Lemma stays_stage d tau c t u : length d = n -> 0 <= tau <= 2 * dt -> 0 <= c <= cm -> stays tau c u ->
  (exists v, f t u = Ok v) /\ length (totalise d f t u) = n /\ stays (tau + dt) (g * c + e) (vadd u (vscal dt (totalise d f t u))).
Proof.
  intros Ld Ht Hc [Lu N]. assert (O : ok u) by (apply (HO tau u Lu Ht); eapply near_weak; [exact N|lra]).
  destruct (HR t u Lu O) as [v [Ev [Lv Hv]]]. unfold totalise. rewrite Ev. split; [eauto|]. split; [exact Lv|]. split; [rewrite step1_length by congruence; exact Lu|].
  apply (near_stage V p h dt L A M S cm) with (u := at_ u); auto.
  - intro j. pose proof (N j) as X. pose proof (ahead_bound V p dt L M PM HdL V1 V2 tau j Ht) as Y. apply abs_inv in X. apply abs_inv in Y. apply Rabs_le. lra.
  - intro j. rewrite at_step1 by congruence || lia. rewrite (at_rusanov n h u v j) by auto. unfold forward. field. lra.
Qed.
Lemma stays_mixed r t1 c1 u1 t2 c2 u2 : 0 <= r <= 1 -> stays t1 c1 u1 -> stays t2 c2 u2 -> stays (r * t1 + (1 - r) * t2) (r * c1 + (1 - r) * c2) (vadd (vscal r u1) (vscal (1 - r) u2)).
Proof.
  intros Hr [L1 N1] [L2 N2]. split; [rewrite step_length; congruence|]. intro j. rewrite at_step by congruence || lia. exact (near_mixed V p r t1 c1 (at_ u1) t2 c2 (at_ u2) Hr N1 N2 j).
Qed.
Lemma stays_execute T c o o' : In T [euler; heun; ssp3] -> 0 <= c -> g * (g * (g * (c + 3 * e))) <= cm -> stays 0 c (o_sol o) -> (forall t u v, length u = n -> f t u = Ok v -> length v = n) ->
  rk_execute_e f T dt o = Ok o' -> stays dt (g * (g * (g * (c + 3 * e)))) (o_sol o').
Proof.
  intros HT Pcc Hc H0 LF RK. set (d := repeat 0 n : list R). assert (Ld : length d = n) by apply repeat_length. pose proof ex_e as Pe. pose proof ex_g as Pg.
  assert (LT' : forall t u, (fun l : list R => length l = n) u -> (fun l : list R => length l = n) (totalise d f t u)).
  { intros t u Lu. unfold totalise. destruct (f t u) eqn:Q; [eapply LF; eauto|exact Ld]. }
  assert (Lo : length (o_sol o) = n) by apply H0.
  pose proof (rk_execute_e_total f d T dt o o' RK) as EX.
  assert (ST : forall tau c t u, 0 <= tau <= 2 * dt -> 0 <= c <= cm -> stays tau c u -> stays (tau + dt) (g * c + e) (vadd u (vscal dt (totalise d f t u)))).
  { intros tau c' t u A1 A2 A3. apply (stays_stage d tau c' t u); auto. }
  assert (WK : forall tau tau' c c' u, stays tau c u -> tau = tau' -> c <= c' -> stays tau' c' u) by (intros tau tau' c1 c2 u [A1 A2] <- A3; split; [exact A1|eapply near_weak; eauto]).
  assert (M1 : forall x y, 0 <= x -> x <= y -> x <= g * y) by (intros; nra).
  assert (G0 : forall y, 0 <= y -> y <= g * y) by (intros; nra).
  assert (GM : forall x y, x <= y -> g * x <= g * y) by (intros; apply Rmult_le_compat_l; lra).
  set (c1 := g * c + e). set (c2 := g * c1 + e). set (c3 := g * c2 + e).
  assert (P1 : c <= c1) by (unfold c1; pose proof (G0 c Pcc); lra). assert (P2 : c1 <= c2) by (unfold c2; pose proof (G0 c1 ltac:(lra)); lra). assert (P3 : c2 <= c3) by (unfold c3; pose proof (G0 c2 ltac:(lra)); lra).
  assert (C3 : c3 <= g * (g * (g * (c + 3 * e)))).
  { unfold c3, c2, c1. pose proof (G0 e Pe) as Q1. pose proof (G0 (g * e) ltac:(apply Rmult_le_pos; lra)) as Q2. pose proof (G0 (g * (g * e)) ltac:(apply Rmult_le_pos; [lra|apply Rmult_le_pos; lra])) as Q3. nra. }
  apply (WK dt dt c3); auto. clear C3.
  assert (C3 : c3 <= cm) by (eapply Rle_trans; [|exact Hc]; unfold c3, c2, c1; pose proof (G0 e Pe) as Q1; pose proof (G0 (g * e) ltac:(apply Rmult_le_pos; lra)) as Q2; pose proof (G0 (g * (g * e)) ltac:(apply Rmult_le_pos; [lra|apply Rmult_le_pos; lra])) as Q3; nra).
  pose proof (ST 0 c (o_time o) (o_sol o) ltac:(lra) ltac:(lra) H0) as S1. rewrite Rplus_0_l in S1. fold c1 in S1. set (u1 := vadd (o_sol o) (vscal dt (totalise d f (o_time o) (o_sol o)))) in *.
  pose proof (ST dt c1 (o_time o + dt) u1 ltac:(lra) ltac:(lra) S1) as S2. fold c2 in S2. set (u2 := vadd u1 (vscal dt (totalise d f (o_time o + dt) u1))) in *.
  cbn in HT. destruct HT as [<- | [<- | [<- |[]]]].
  - rewrite (euler_step (fun l : list R => length l = n)) in EX by auto. rewrite <- EX. cbn [o_sol]. apply (WK dt dt c1); auto. lra.
  - rewrite (heun_step (fun l : list R => length l = n)) in EX by auto. cbv zeta in EX. rewrite <- EX. cbn [o_sol]. fold u1 u2.
    eapply WK; [apply stays_mixed; [split; lra|exact H0|exact S2]|lra|lra].
  - rewrite (ssp3_step (fun l : list R => length l = n)) in EX by auto. cbv zeta in EX. rewrite <- EX. cbn [o_sol]. fold u1 u2.
    assert (S3 : stays (1 / 2 * dt) c2 (vadd (vscal (3 / 4) (o_sol o)) (vscal (1 - 3 / 4) u2))) by (eapply WK; [apply stays_mixed; [split; lra|exact H0|exact S2]|lra|lra]).
    pose proof (ST (1 / 2 * dt) c2 (o_time o + 1 / 2 * dt) _ ltac:(lra) ltac:(lra) S3) as S4. fold c3 in S4. eapply WK; [apply stays_mixed; [split; lra|exact H0|exact S4]|lra|lra].
Qed.
End Execute.

(** ** runs *)
Section Run.
Context (u0 u1 u2 : R -> R) (K K2 M T : R) (v : R -> R -> R) (D : interval) (n : nat) (a : R).
Hypotheses (D1 : forall x, derivable_pt_lim u0 x (u1 x)) (D2 : forall x, derivable_pt_lim u1 x (u2 x)) (B2 : forall x, Rabs (u2 x) <= K2)
  (HL : lipschitz K u0) (HK : 0 < K) (HT : 0 <= T) (HKT : K * T < 1) (HM : largest M u0) (HV : carried u0 T v) (HR : repeats D u0) (Hn : (0 < n)%nat) (HD : ia D < ib D).
Definition ex_lip := K / (1 - K * T).
Definition ex_curve := K2 / 2 / ((1 - K * T) * (1 - K * T) * (1 - K * T)).
Definition ex_rate := 22 * (ex_lip * ex_lip) + 31 * ex_curve * M.
Let L := ex_lip. Let A := ex_curve.
Let h := (ib D - ia D) / INR n.
Context (c0 cm : R).
Definition err_bound (s : R) : R := (c0 + ex_rate * ((ib D - ia D) / INR n) * s) * exp (18 * ex_lip * s).
Hypotheses (C0 : 0 <= c0) (HA : A * h <= L) (Hcm : err_bound T <= cm) (Hsmall : err_bound T + L * h <= M / 9) (HcM : cm <= M / 6).
Context (finite : list R -> bool) (c : config (list R)) (w0 : list R) (I : list R -> Prop) (ok : list R -> Prop) (t0 : R).
Hypotheses (HRU : rusanov ok n h (c_rhs c)) (HTb : In (c_tab c) [euler; heun; ssp3]) (HQ : quiet_check c) (HF : forall u, I u -> finite u = true) (I0 : I w0) (IL : forall u, I u -> length u = n)
  (HSafe : safe_steps I c) (LF : forall t u x, length u = n -> c_rhs c t u = Ok x -> length x = n)
  (HG : forall t u dt m, length u = n -> 0 <= dt <= call_generator (c_gen c) (t, u) -> m <= M -> (exists j, m <= Rabs (at_ u j)) -> (exists j, m <= Rabs (at_ w0 j)) -> dt * m <= h / 6)
  (HOk : forall u, length u = n -> (forall j, exists t x q, 0 <= t <= T /\ Rabs q <= 1 / 6 /\ Rabs (at_ u j - v t x * (1 - q)) <= cm) -> ok u)
  (Hw0 : forall j, Rabs (at_ w0 j - u0 (a + IZR j * h)) <= c0).
Lemma run_h : 0 < h. Proof. unfold h. apply Rdiv_lt_0_compat; [lra|]. apply lt_0_INR. exact Hn. Qed.
Lemma run_facts : 0 < L /\ 0 <= A /\ 0 <= M /\ 0 <= ex_rate.
Proof.
  assert (X : 0 < L) by (apply (ex_L K T); auto). assert (Y : 0 <= A) by (apply (ex_A u2 K K2 T); auto). assert (Z : 0 <= M) by (apply (ex_M u0 M); apply HM).
  split; [exact X|]. split; [exact Y|]. split; [exact Z|]. unfold ex_rate. fold L A. assert (0 <= L * L) by (apply Rmult_le_pos; lra). assert (0 <= A * M) by (apply Rmult_le_pos; lra). lra.
Qed.
Lemma err_mono s s' : 0 <= s <= s' -> err_bound s <= err_bound s'.
Proof.
  intro Hs. destruct run_facts as [PL [PA [PM PR]]]. pose proof run_h as Hh. unfold err_bound. fold h L.
  assert (0 <= ex_rate * h) by (apply Rmult_le_pos; lra). assert (0 <= ex_rate * h * s) by (apply Rmult_le_pos; lra). assert (ex_rate * h * s <= ex_rate * h * s') by (apply Rmult_le_compat_l; lra).
  apply Rmult_le_compat; [lra|left; apply exp_pos|lra|]. destruct (proj2 Hs) as [Q|Q]; [left; apply exp_increasing; apply Rmult_lt_compat_l; lra|rewrite Q; lra].
Qed.
Lemma err_nonneg s : 0 <= s -> 0 <= err_bound s.
Proof.
  intro Hs. destruct run_facts as [PL [PA [PM PR]]]. pose proof run_h as Hh. unfold err_bound. fold h. apply Rmult_le_pos; [|left; apply exp_pos].
  assert (0 <= ex_rate * h) by (apply Rmult_le_pos; lra). assert (0 <= ex_rate * h * s) by (apply Rmult_le_pos; lra). lra.
Qed.
Lemma grid_near x : exists j, Rabs (a + IZR j * h - x) <= h.
Proof.
  pose proof run_h as Hh. exists (up ((x - a) / h)). destruct (archimed ((x - a) / h)) as [X1 X2]. set (j := IZR (up ((x - a) / h))) in *. set (q := (x - a) / h) in *.
  assert (E : x = a + q * h) by (unfold q; field; lra). rewrite E. replace (a + j * h - (a + q * h)) with ((j - q) * h) by ring. rewrite Rabs_right; nra.
Qed.
Definition follows (t : R) (u : list R) : Prop := forall j, Rabs (at_ u j - v (t - t0) (a + IZR j * h)) <= err_bound (t - t0).
Lemma large_node t u : 0 <= t - t0 <= T -> follows t u -> exists j, M * (8 / 9) <= Rabs (at_ u j).
Proof.
  intros Ht F. destruct (exact_attained u0 M T v HV (t - t0) Ht (proj2 HM)) as [x Hx]. destruct (grid_near x) as [j Hj]. exists j.
  pose proof (exact_lipschitz u0 u1 K M T v D1 HL HK HKT (proj1 HM) HV (t - t0) Ht (a + IZR j * h) x) as X. fold ex_lip in X. fold L in X. destruct run_facts as [PL _]. pose proof (F j) as Y.
  assert (X' : Rabs (v (t - t0) (a + IZR j * h) - v (t - t0) x) <= L * h) by (eapply Rle_trans; [exact X|]; apply Rmult_le_compat_l; lra).
  pose proof (err_mono (t - t0) T Ht). pose proof (Rabs_triang_inv (v (t - t0) x) (v (t - t0) x - at_ u j)) as Q. replace (v (t - t0) x - (v (t - t0) x - at_ u j)) with (at_ u j) in Q by ring.
  assert (Rabs (v (t - t0) x - at_ u j) <= L * h + err_bound (t - t0)) by (apply abs_inv in X'; apply abs_inv in Y; apply Rabs_le; lra). lra.
Qed.
Lemma follows_step dt o o' : t0 <= o_time o -> follows (o_time o) (o_sol o) -> length (o_sol o) = n -> tol <= dt <= call_generator (c_gen c) (o_time o, o_sol o) -> o_time o + dt - t0 <= T ->
  rk_execute_e (c_rhs c) (c_tab c) dt o = Ok o' -> follows (o_time o + dt) (o_sol o').
Proof.
  intros Ht F Lo Hdt HT' R1. pose proof tol_pos as TP. destruct run_facts as [PL [PA [PM PR]]]. pose proof run_h as Hh. set (s := o_time o - t0) in *. assert (Hs : 0 <= s <= T) by (unfold s; lra).
  assert (F0 : follows t0 w0). { intro j. unfold err_bound. replace (t0 - t0) with 0 by ring. rewrite Rmult_0_r, Rplus_0_r, Rmult_0_r, exp_0, Rmult_1_r. rewrite (exact_start u0 T v HT HV). apply Hw0. }
  pose proof (HG (o_time o) (o_sol o) dt (M * (8 / 9)) Lo ltac:(lra) ltac:(lra) (large_node _ _ Hs F) (large_node t0 w0 ltac:(lra) F0)) as DM.
  pose proof (err_nonneg T HT) as E0. assert (MP : 0 < M) by (assert (0 < L * h) by (apply Rmult_lt_0_compat; lra); lra).
  assert (DM' : dt * M <= 3 * h / 16) by lra. assert (DL : dt * L <= 1 / 12).
  { apply (Rmult_le_reg_r M); [exact MP|]. replace (dt * L * M) with (L * (dt * M)) by ring. apply Rle_trans with (L * (3 * h / 16)); [apply Rmult_le_compat_l; lra|]. lra. }
  set (V := fun j => v s (a + IZR j * h)).
  assert (EP : exists p : Z -> R, (forall j, Rabs (p j) <= L) /\ (forall j e, Rabs (v s (a + IZR j * h + e) - V j - e * p j) <= A * (e * e)) /\
    forall j s', 0 <= s' <= T -> Rabs (v s' (a + IZR j * h) - V j + (s' - s) * (V j * p j)) <= (L * L * M + A * M * M) * ((s' - s) * (s' - s))).
  { pose proof (fun x y => exact_facts u0 u1 u2 K K2 M T v D1 D2 B2 HL HK HKT (proj1 HM) HV s x y Hs) as X. fold ex_lip ex_curve in X. fold L A in X.
    set (y := fun j => proj1_sig (foot u0 u1 M D1 (proj1 HM) s (a + IZR j * h) (proj1 Hs))).
    assert (Y : forall j, y j + s * u0 (y j) = a + IZR j * h) by (intro j; unfold y; destruct (foot u0 u1 M D1 (proj1 HM) s (a + IZR j * h) (proj1 Hs)) as [z Z]; exact Z).
    exists (fun j => u1 (y j) / (1 + s * u1 (y j))). split; [|split]; intro j; destruct (X _ _ (Y j)) as [Q1 [Q2 Q3]]; auto. }
  destruct EP as [p [P1 [P2 P3]]].
  assert (V1 : forall j, Rabs (V j) <= M) by (intro j; apply (exact_bound u0 u1 M T v D1 (proj1 HM) HV); exact Hs).
  assert (V3 : forall j, Rabs (V (j - 1)%Z - V j + h * p j) <= A * (h * h)).
  { intro j. pose proof (P2 j (- h)) as X. replace (a + IZR j * h + - h) with (a + IZR (j - 1) * h) in X by (rewrite minus_IZR; ring). replace (- h * - h) with (h * h) in X by ring. replace (- h * p j) with (- (h * p j)) in X by ring.
    unfold Rminus in X at 1. rewrite Ropp_involutive in X. exact X. }
  assert (V4 : forall j, Rabs (V (j + 1)%Z - V j - h * p j) <= A * (h * h)).
  { intro j. pose proof (P2 j h) as X. replace (a + IZR j * h + h) with (a + IZR (j + 1) * h) in X by (rewrite plus_IZR; ring). exact X. }
  assert (V5 : forall j, Rabs (V (j + 1)%Z - V j) <= L * h).
  { intro j. eapply Rle_trans; [apply (exact_lipschitz u0 u1 K M T v D1 HL HK HKT (proj1 HM) HV s Hs)|]. fold ex_lip. fold L. apply Rmult_le_compat_l; [lra|].
    rewrite plus_IZR. replace (a + (IZR j + 1) * h - (a + IZR j * h)) with h by ring. rewrite Rabs_right; lra. }
  set (cc := err_bound s). pose proof (err_nonneg s ltac:(lra)) as Pc. fold cc in Pc.
  set (e := dt * h * (7 * (L * L) + 10 * A * M)). set (g := 1 + 6 * L * dt).
  assert (Pe : 0 <= e) by (apply ex_e; lra). assert (G1 : 1 <= g) by (apply ex_g; lra).
  assert (Pq : 0 <= (L * L + A * M) * dt * h). { assert (0 <= L * L) by (apply Rmult_le_pos; lra). assert (0 <= A * M) by (apply Rmult_le_pos; lra). apply Rmult_le_pos; [apply Rmult_le_pos; lra|lra]. }
  assert (GE : g * (g * g) <= exp (18 * L * dt)).
  { replace (18 * L * dt) with (6 * L * dt + (6 * L * dt + 6 * L * dt)) by ring. rewrite !exp_plus. assert (ge : g <= exp (6 * L * dt)) by (destruct (Req_dec (6 * L * dt) 0) as [Q|Q]; [unfold g; rewrite Q, exp_0; lra|left; apply exp_ineq1; exact Q]).
    apply Rmult_le_compat; [lra|nra|exact ge|apply Rmult_le_compat; lra]. }
  assert (NX : g * (g * (g * (cc + 3 * e))) + (L * L + A * M) * dt * h <= err_bound (s + dt)).
  { apply Rle_trans with (exp (18 * L * dt) * (cc + 3 * e + (L * L + A * M) * dt * h)).
    - assert (E1 : 1 <= exp (18 * L * dt)) by nra. replace (g * (g * (g * (cc + 3 * e)))) with (g * (g * g) * (cc + 3 * e)) by ring.
      assert (g * (g * g) * (cc + 3 * e) <= exp (18 * L * dt) * (cc + 3 * e)) by (apply Rmult_le_compat_r; lra). assert ((L * L + A * M) * dt * h <= exp (18 * L * dt) * ((L * L + A * M) * dt * h)) by nra. lra.
    - unfold cc, err_bound. fold h L. rewrite (Rmult_plus_distr_l (18 * L) s dt), exp_plus. set (x := exp (18 * L * s)). set (y := exp (18 * L * dt)).
      assert (X1 : 1 <= x). { unfold x. destruct (Req_dec (18 * L * s) 0) as [Q|Q]; [rewrite Q, exp_0; lra|]. pose proof (exp_ineq1 _ Q). assert (0 <= L * s) by (apply Rmult_le_pos; lra). lra. }
      assert (Y1 : 0 < y) by apply exp_pos. replace (3 * e + (L * L + A * M) * dt * h) with (ex_rate * h * dt) by (unfold e, ex_rate; fold L A; ring).
      rewrite Rplus_assoc. replace (3 * e + (L * L + A * M) * dt * h) with (ex_rate * h * dt) by (unfold e, ex_rate; fold L A; ring).
      assert (0 <= ex_rate * h * dt) by (apply Rmult_le_pos; [apply Rmult_le_pos; lra|lra]).
      replace ((c0 + ex_rate * h * (s + dt)) * (x * y)) with (y * ((c0 + ex_rate * h * s) * x + ex_rate * h * dt * x)) by ring. apply Rmult_le_compat_l; [lra|]. nra. }
  assert (TT : s + dt <= T) by (unfold s; lra). pose proof (err_mono (s + dt) T ltac:(lra)) as EM.
  assert (ST : stays V p n dt (g * (g * (g * (cc + 3 * e)))) (o_sol o')).
  { apply (stays_execute V p h dt L A M (M * (4 / 3)) cm ok n (c_rhs c)) with (o := o) (T := c_tab c); auto; try lra.
    - intros tau u Lu Htau NN. apply HOk; [exact Lu|]. intro j. exists s, (a + IZR j * h), (tau * p j). split; [lra|]. split.
      + apply Rle_trans with (2 * dt * L); [|lra]. apply abs_mul; [rewrite Rabs_right; lra|apply P1].
      + pose proof (NN j) as X. unfold ahead, V in X. replace (v s (a + IZR j * h) * (1 - tau * p j)) with (v s (a + IZR j * h) - tau * (v s (a + IZR j * h) * p j)) by ring. exact X.
    - change (g * (g * (g * (cc + 3 * e))) <= cm). lra.
    - split; [exact Lo|]. intro j. pose proof (F j) as X. unfold ahead. rewrite Rmult_0_l, Rminus_0_r. exact X. }
  intro j. destruct ST as [_ ST]. specialize (ST j). pose proof (P3 j (s + dt) ltac:(lra)) as X. replace (s + dt - s) with dt in X by ring. replace (o_time o + dt - t0) with (s + dt) by (unfold s; ring).
  assert (Y : (L * L * M + A * M * M) * (dt * dt) <= (L * L + A * M) * dt * h).
  { replace ((L * L * M + A * M * M) * (dt * dt)) with ((L * L + A * M) * dt * (dt * M)) by ring. apply Rmult_le_compat_l; [|lra].
    assert (0 <= L * L) by (apply Rmult_le_pos; lra). assert (0 <= A * M) by (apply Rmult_le_pos; lra). apply Rmult_le_pos; lra. }
  unfold ahead in ST. apply abs_inv in ST. apply abs_inv in X. apply Rabs_le. lra.
Qed.
Lemma burgers_run us t u : (forall x s, ~ In (Reinit x s) us) -> shown (fst (use_run finite c us (new_solver c (fun _ => w0) 1 0 t0, []))) t u ->
  t0 <= t /\ I u /\ (t - t0 <= T -> follows t u).
Proof.
  intros NR SH. set (P := fun t u => t0 <= t /\ I u /\ (t - t0 <= T -> follows t u)). change (P t u).
  apply (timed_shown P (fst (use_run finite c us (new_solver c (fun _ => w0) 1 0 t0, [])))); [|exact SH].
  apply (use_timed finite P c) with (m := fun _ => w0) (N := 1%nat).
  - intros t' u' [_ [X _]]. auto.
  - exact HQ.
  - intros dt o [A1 [A2 A3]] Hdt. destruct (HSafe dt o A2 Hdt) as [o' [E1 E2]]. exists o'. split; [exact E1|]. pose proof tol_pos as TP.
    assert (T1 : o_time o' = o_time o + dt) by (rewrite <- (rk_execute_e_total _ [] _ _ _ _ E1); unfold rk_execute; destruct (rk_stages _ _ _ _) as [[? ?] ?]; reflexivity). unfold P. rewrite T1. split; [lra|]. split; [exact E2|]. intro Q. eapply follows_step; eauto. apply A3. lra.
  - exact NR.
  - apply separate_new. lia.
  - apply new_timed; [lia|]. unfold P. split; [lra|]. split; [exact I0|]. intros _ j. unfold err_bound. replace (t0 - t0) with 0 by ring. rewrite Rmult_0_r, Rplus_0_r, Rmult_0_r, exp_0, Rmult_1_r. rewrite (exact_start u0 T v HT HV). apply Hw0.
Qed.
End Run.

(** ** the error bound vanishes with the cells *)
Lemma large_count X Y : 0 < Y -> exists n0, (0 < n0)%nat /\ forall n, (n0 <= n)%nat -> X / INR n <= Y.
Proof.
  intro HY. destruct (archimed (X / Y)) as [A1 _]. set (k := Z.to_nat (Z.max 0 (Rdefinitions.up (X / Y)))). assert (Hk : X / Y < INR k).
  { eapply Rlt_le_trans; [apply Rgt_lt, A1|]. rewrite INR_IZR_INZ. apply IZR_le. unfold k. rewrite Z2Nat.id; lia. } exists (S k). split; [lia|]. intros n Hn. assert (P : 0 < INR n) by (apply lt_0_INR; lia).
  assert (INR k <= INR n) by (apply le_INR; lia). apply (Rmult_le_reg_r (INR n)); [exact P|]. unfold Rdiv. rewrite Rmult_assoc, Rinv_l, Rmult_1_r by lra.
  apply (Rmult_le_reg_r (/ Y)); [apply Rinv_0_lt_compat; exact HY|]. replace (Y * INR n * / Y) with (INR n) by (field; lra). unfold Rdiv in Hk. lra.
Qed.
Lemma bound_vanishes (u0 u2 : R -> R) K K2 M T D q : (forall x, Rabs (u2 x) <= K2) -> 0 < K -> K * T < 1 -> largest M u0 -> ia D < ib D -> 0 <= T -> 0 <= q ->
  exists C, 0 <= C /\ forall n, (0 < n)%nat -> forall s, 0 <= s <= T -> let h := (ib D - ia D) / INR n in err_bound K K2 M T D n (q * (h * h)) s <= C / INR n.
Proof.
  intros B2 HK HKT HM HD HT Hq. set (len := ib D - ia D). assert (HL : 0 < len) by (unfold len; lra).
  assert (PR : 0 <= ex_rate K K2 M T).
  { pose proof (ex_L K T HK HKT) as X. fold (ex_lip K T) in X. pose proof (ex_A u2 K K2 T B2 HKT) as Y. fold (ex_curve K K2 T) in Y. pose proof (ex_M u0 M (proj1 HM)). unfold ex_rate.
    assert (0 <= ex_lip K T * ex_lip K T) by (apply Rmult_le_pos; lra). assert (0 <= ex_curve K K2 T * M) by (apply Rmult_le_pos; lra). lra. }
  pose proof (exp_pos (18 * ex_lip K T * T)) as PE. assert (0 <= q * (len * len)) by (apply Rmult_le_pos; [lra|apply Rmult_le_pos; lra]). assert (0 <= ex_rate K K2 M T * len * T) by (apply Rmult_le_pos; [apply Rmult_le_pos; lra|lra]).
  exists ((q * (len * len) + ex_rate K K2 M T * len * T) * exp (18 * ex_lip K T * T)). split; [apply Rmult_le_pos; lra|]. intros n Hn s Hs h.
  assert (N1 : 1 <= INR n) by (change 1 with (INR 1); apply le_INR; lia). assert (Hh : 0 <= h) by (unfold h; fold len; apply Rmult_le_pos; [lra|left; apply Rinv_0_lt_compat; lra]).
  assert (HH : 0 <= q * (h * h)) by (apply Rmult_le_pos; [lra|apply Rmult_le_pos; lra]).
  eapply Rle_trans; [apply (err_mono u0 u2 K K2 M T D n B2 HK HKT HM Hn HD (q * (h * h)) HH s T Hs)|]. unfold err_bound. fold len.
  match goal with |- _ <= ?a * ?b / ?c => replace (a * b / c) with (a * / c * b) by (unfold Rdiv; ring) end. apply Rmult_le_compat_r; [lra|].
  rewrite Rmult_plus_distr_r. apply Rplus_le_compat; [|apply Req_le; unfold Rdiv; ring]. unfold h. fold len. replace (q * (len / INR n * (len / INR n))) with (q * (len * len) * (/ INR n * / INR n)) by (field; lra).
  apply Rmult_le_compat_l; [lra|]. assert (0 < / INR n) by (apply Rinv_0_lt_compat; lra). assert (/ INR n <= 1) by (rewrite <- Rinv_1; apply Rinv_le_contravar; lra). nra.
Qed.
(** enough cells for every condition at once *)
Lemma enough_cells (u0 u2 : R -> R) K K2 M T D q lo : (forall x, Rabs (u2 x) <= K2) -> 0 < K -> K * T < 1 -> largest M u0 -> ia D < ib D -> 0 <= T -> 0 <= q -> 0 < M -> 0 < lo ->
  exists C n0, (3 <= n0)%nat /\ forall n, (n0 <= n)%nat -> let h := (ib D - ia D) / INR n in
    ex_curve K K2 T * h <= ex_lip K T /\ err_bound K K2 M T D n (q * (h * h)) T + ex_lip K T * h <= M / 9 /\ err_bound K K2 M T D n (q * (h * h)) T <= lo /\
    forall s, 0 <= s <= T -> err_bound K K2 M T D n (q * (h * h)) s <= C / INR n.
Proof.
  intros B2 HK HKT HM HD HT Hq PM Hlo. destruct (bound_vanishes u0 u2 K K2 M T D q B2 HK HKT HM HD HT Hq) as [C [PC HC]]. pose proof (ex_L K T HK HKT) as X. fold (ex_lip K T) in X.
  set (len := ib D - ia D) in *.
  destruct (large_count (ex_curve K K2 T * len) (ex_lip K T) X) as [n1 [_ H1]]. destruct (large_count (C + ex_lip K T * len) (M / 9) ltac:(lra)) as [n2 [_ H2]]. destruct (large_count C lo Hlo) as [n3 [_ H3]].
  exists C, (3 + n1 + n2 + n3)%nat. split; [lia|]. intros n Hn h. specialize (H1 n ltac:(lia)). specialize (H2 n ltac:(lia)). specialize (H3 n ltac:(lia)). specialize (HC n ltac:(lia)). cbv zeta in HC. fold h in HC.
  pose proof (HC T ltac:(lra)) as XT. unfold h. split; [unfold Rdiv in *; lra|]. fold h. split; [|split; [lra|exact HC]]. replace ((C + ex_lip K T * len) / INR n) with (C / INR n + ex_lip K T * h) in H2 by (unfold h; field; apply not_0_INR; lia). lra.
Qed.
