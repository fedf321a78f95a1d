(** Lemmas for convergence of data with jumps: shifted copies, mean shifts, hills. *)
From Coq Require Import Reals List ZArith Arith Lia Lra Psatz Bool String.
From Verif Require Import Prelude L_Prelude M_Mesh S_Convergence L_Convergence S_Jumps.
Import ListNotations.
Local Open Scope nat_scope.
Open Scope R_scope.
Notation length := List.length.

Lemma rsum_abs n f : Rabs (rsum (tab n f)) <= rsum (tab n (fun i => Rabs (f i))).
Proof. induction n as [|n IH]; [cbn; rewrite Rabs_R0; lra|]. rewrite !rsum_tab_S. eapply Rle_trans; [apply Rabs_triang|]. lra. Qed.
Lemma rsum_mean n l (g : nat -> Z -> R) : rsum (tab n (fun i => mean l (g i))) = mean l (fun k => rsum (tab n (fun i => g i k))).
Proof.
  induction n as [|n IH].
  - cbn. induction l as [|p l IHl]; [reflexivity|]. rewrite mean_cons, <- IHl. ring.
  - rewrite rsum_tab_S, IH. rewrite <- mean_plus. apply mean_ext. intro z. rewrite rsum_tab_S. reflexivity.
Qed.
Lemma varies_nonneg D V f : ia D < ib D -> varies D V f -> 0 <= V.
Proof. intros HD H. exact (H (fun _ => 0) O (fun k Hk => match Nat.nlt_0_r k Hk with end) ltac:(lra)). Qed.
Lemma rsum_pairs n (f : nat -> R) : rsum (tab (2 * n) f) = rsum (tab n (fun i => f (2 * i)%nat)) + rsum (tab n (fun i => f (2 * i + 1)%nat)).
Proof.
  induction n as [|n IH]; [cbn; ring|]. replace (2 * S n)%nat with (S (S (2 * n))) by lia. rewrite !rsum_tab_S, IH. replace (S (2 * n)) with (2 * n + 1)%nat by lia. ring.
Qed.

(** ** a copy shifted by less than a cell *)
Section Shift.
Context (D : interval) (V : R) (f : R -> R) (n : nat).
Let h := (ib D - ia D) / INR n.
Hypotheses (HD : ia D < ib D) (Hn : (0 < n)%nat) (HV : varies D V f).
Lemma jumps_h : 0 < h. Proof. unfold h. apply Rdiv_lt_0_compat; [lra|]. apply lt_0_INR. exact Hn. Qed.
Definition off (c d : R) : R := rsum (tab n (fun i => Rabs (f (c + INR i * h + d) - f (c + INR i * h)))).
Lemma off_cell c d : 0 <= d <= h -> off c d <= V.
Proof.
  intro Hd. pose proof jumps_h as Hh. set (x := fun k => c + INR (Nat.div2 k) * h + (if Nat.odd k then d else 0)).
  assert (X0 : forall i, x (2 * i)%nat = c + INR i * h). { intro i. unfold x. rewrite Nat.div2_double, Nat.odd_mul. cbn [Nat.odd Nat.even negb andb]. ring. }
  assert (X1 : forall i, x (2 * i + 1)%nat = c + INR i * h + d). { intro i. unfold x. replace (2 * i + 1)%nat with (S (2 * i)) by lia. rewrite Nat.div2_succ_double, Nat.odd_succ, Nat.even_mul. reflexivity. }
  assert (M : forall k, x k <= x (S k)).
  { intro k. destruct (Nat.even k) eqn:Ek.
    - apply Nat.even_spec in Ek as [i ->]. replace (S (2 * i)) with (2 * i + 1)%nat by lia. rewrite X0, X1. lra.
    - assert (Ok : Nat.odd k = true) by (unfold Nat.odd; rewrite Ek; reflexivity). apply Nat.odd_spec in Ok as [i ->]. replace (S (2 * i + 1)) with (2 * S i)%nat by lia. rewrite X0, X1, S_INR. lra. }
  pose proof (HV x (2 * n)%nat (fun k _ => M k)) as Q. rewrite X0 in Q. change O with (2 * 0)%nat in Q at 1. rewrite X0 in Q. cbn [INR] in Q.
  assert (NH : INR n * h = ib D - ia D) by (unfold h; field; apply not_0_INR; lia). specialize (Q ltac:(lra)). rewrite rsum_pairs in Q.
  assert (P : 0 <= rsum (tab n (fun i => Rabs (f (x (S (2 * i + 1))) - f (x (2 * i + 1)%nat))))) by (apply rsum_tab_nonneg; intros; apply Rabs_pos).
  unfold off. rewrite (tab_ext n (fun i => Rabs (f (c + INR i * h + d) - f (c + INR i * h))) (fun i => Rabs (f (x (S (2 * i))) - f (x (2 * i)%nat)))); [lra|].
  intros i Hi. replace (S (2 * i)) with (2 * i + 1)%nat by lia. rewrite X0, X1. reflexivity.
Qed.
Lemma off_cells : forall N c d, 0 <= d <= INR N * h -> off c d <= INR N * V.
Proof.
  pose proof jumps_h as Hh. pose proof (varies_nonneg D V f HD HV) as V0.
  induction N as [|N IH]; intros c d Hd.
  - cbn in *. assert (d = 0) by lra. subst d. unfold off. rewrite rsum_tab_0; [lra|]. intros i _. rewrite Rplus_0_r. unfold Rminus. rewrite Rplus_opp_r. apply Rabs_R0.
  - rewrite S_INR in *. destruct (Rle_lt_dec d h) as [Q|Q].
    + pose proof (off_cell c d ltac:(lra)). pose proof (pos_INR N). nra.
    + pose proof (IH c (d - h) ltac:(lra)) as A. pose proof (off_cell (c + (d - h)) h ltac:(lra)) as B.
      assert (off c d <= off (c + (d - h)) h + off c (d - h)); [|lra]. unfold off. rewrite <- rsum_tab_plus. apply rsum_tab_le. intros i Hi.
      replace (c + (d - h) + INR i * h + h) with (c + INR i * h + d) by ring. replace (c + (d - h) + INR i * h) with (c + INR i * h + (d - h)) by ring.
      eapply Rle_trans; [|apply Rabs_triang]. right. f_equal. ring.
Qed.
(** any shift *)
Lemma off_any c d : h * off c d <= V * (Rabs d + h).
Proof.
  pose proof jumps_h as Hh. pose proof (varies_nonneg D V f HD HV) as V0.
  assert (P : forall c d, 0 <= d -> h * off c d <= V * (d + h)).
  { clear c d. intros c d Hd. set (N := Z.to_nat (up (d / h))). destruct (archimed (d / h)) as [U1 U2].
    assert (Q0 : 0 <= d / h) by (apply Rmult_le_pos; [exact Hd|left; apply Rinv_0_lt_compat; exact Hh]).
    assert (UN : INR N = IZR (up (d / h))). { unfold N. rewrite INR_IZR_INZ, Z2Nat.id; [reflexivity|]. apply le_IZR. lra. }
    assert (Ed : d = d / h * h) by (field; lra).
    pose proof (off_cells N c d ltac:(split; [exact Hd|]; rewrite Ed, UN; apply Rmult_le_compat_r; lra)) as X.
    apply (Rle_trans _ (h * (INR N * V))); [apply Rmult_le_compat_l; lra|]. replace (h * (INR N * V)) with (V * (INR N * h)) by ring. apply Rmult_le_compat_l; [exact V0|].
    rewrite UN. replace (d + h) with ((d / h + 1) * h) by (field; lra). apply Rmult_le_compat_r; lra. }
  destruct (Rle_lt_dec 0 d) as [Hd|Hd]; [rewrite (Rabs_right d) by lra; apply P; exact Hd|]. rewrite (Rabs_left d) by lra.
  replace (off c d) with (off (c + d) (- d)); [apply P; lra|]. unfold off. f_equal. apply tab_ext. intros i _. rewrite Rabs_minus_sym.
  replace (c + d + INR i * h + - d) with (c + INR i * h) by ring. replace (c + d + INR i * h) with (c + INR i * h + d) by ring. reflexivity.
Qed.
End Shift.

(** ** the mean distance of a shift from its mean *)
Lemma mean_distance l m1 m2 h : 0 < h -> weights_ok l -> mean l IZR = m1 -> mean l (fun z => IZR z * IZR z) = m2 -> m2 - m1 * m1 <= m1 ->
  mean l (fun k => Rabs (IZR k * h - m1 * h)) <= sqrt (m1 * h * h).
Proof.
  intros Hh [A0 A1] A2 A3 V.
  assert (SM := second_moment h l m1 m2 A1 A2 A3).
  assert (P2 : 0 <= mean l (fun z => (IZR z * h - m1 * h) ^ 2)) by (apply mean_nonneg; [exact A0|]; intro k; apply pow2_ge_0).
  assert (Q : mean l (fun z => (IZR z * h - m1 * h) ^ 2) <= m1 * h * h) by (rewrite SM; assert (0 < h * h) by nra; nra).
  set (s := sqrt (m1 * h * h)). assert (Ss : s * s = m1 * h * h) by (apply sqrt_sqrt; lra). assert (S0 : 0 <= s) by apply sqrt_pos.
  assert (G : forall e, 0 < e -> mean l (fun k => Rabs (IZR k * h - m1 * h)) <= s + e).
  { intros e He. set (r := s + e). assert (Hr : 0 < r) by (unfold r; lra). eapply Rle_trans; [apply (mean_le l _ (fun k => / (2 * r) * (IZR k * h - m1 * h) ^ 2 + (r / 2) * 1) A0)|].
    - intro k. set (y := IZR k * h - m1 * h). apply (Rmult_le_reg_l (2 * r)); [lra|]. replace (2 * r * (/ (2 * r) * y ^ 2 + r / 2 * 1)) with (y ^ 2 + r * r) by (field; lra).
      rewrite <- (pow2_abs y). pose proof (pow2_ge_0 (Rabs y - r)) as Q2. cbn [pow] in *. lra.
    - rewrite mean_plus, !mean_scal, A1. apply (Rmult_le_reg_l (2 * r)); [lra|].
      replace (2 * r * (/ (2 * r) * mean l (fun z0 => (IZR z0 * h - m1 * h) ^ 2) + r / 2 * 1)) with (mean l (fun z0 => (IZR z0 * h - m1 * h) ^ 2) + r * r) by (field; lra).
      assert (s * s <= r * r) by (unfold r; nra). lra. }
  apply le_epsilon. exact G.
Qed.

(** ** the area between the averages of shifted copies and the data moved by the mean shift and, beyond that, by e *)
Lemma error_area D V f n c d e u0 m1 m2 u : let h := (ib D - ia D) / INR n in ia D < ib D -> (0 < n)%nat -> varies D V f -> 0 <= d ->
  (forall z, at_ u0 z = two_points f d (c + IZR z * h)) -> spread u0 m1 m2 u -> length u = n -> m2 - m1 * m1 <= m1 ->
  h * rsum (tab n (fun i => Rabs (nth i u 0 - f (c + INR i * h + e - m1 * h)))) <= V * (sqrt (m1 * h * h) + Rabs e + d + h).
Proof.
  intros h HD Hn HV Hd HW [_ [l [W [A2 [A3 A4]]]]] Lu Hm. pose proof (jumps_h D n HD Hn) as Hh. fold h in Hh. pose proof (varies_nonneg D V f HD HV) as V0. pose proof W as [A0 A1].
  set (y := c + e - m1 * h).
  assert (S1 : forall k s, s = d \/ s = - d -> h * off D f n y (m1 * h - IZR k * h - e + s) <= V * (Rabs (IZR k * h - m1 * h) + Rabs e + d + h)).
  { intros k s Hs. eapply Rle_trans; [apply (off_any D V f n HD Hn HV)|]. apply Rmult_le_compat_l; [exact V0|]. fold h. apply Rplus_le_compat_r.
    replace (m1 * h - IZR k * h - e + s) with (- (IZR k * h - m1 * h) + (- e) + s) by ring.
    eapply Rle_trans; [apply Rabs_triang|]. pose proof (Rabs_triang (- (IZR k * h - m1 * h)) (- e)) as T. rewrite !Rabs_Ropp in T.
    assert (Rabs s = d) by (destruct Hs as [-> | ->]; [|rewrite Rabs_Ropp]; apply Rabs_right; lra). lra. }
  assert (S2 : forall i, (i < n)%nat -> Rabs (nth i u 0 - f (c + INR i * h + e - m1 * h)) <=
     mean l (fun k => 1 / 2 * Rabs (f (y + INR i * h + (m1 * h - IZR k * h - e + d)) - f (y + INR i * h)) + 1 / 2 * Rabs (f (y + INR i * h + (m1 * h - IZR k * h - e + - d)) - f (y + INR i * h)))).
  { intros i Hi. rewrite <- at_nth, A4 by lia. replace (c + INR i * h + e - m1 * h) with (y + INR i * h) by (unfold y; ring). set (w := f (y + INR i * h)).
    replace (mean l (fun k => at_ u0 (Z.of_nat i - k)) - w) with (mean l (fun k => at_ u0 (Z.of_nat i - k) + (- w) * 1)) by (rewrite mean_plus, mean_scal, A1; ring).
    eapply Rle_trans; [apply mean_abs; exact A0|]. apply mean_le; [exact A0|]. intro k. rewrite HW. unfold two_points. rewrite minus_IZR, <- INR_IZR_INZ.
    replace (y + INR i * h + (m1 * h - IZR k * h - e + d)) with (c + (INR i - IZR k) * h + d) by (unfold y; ring).
    replace (y + INR i * h + (m1 * h - IZR k * h - e + - d)) with (c + (INR i - IZR k) * h - d) by (unfold y; ring).
    set (p := f (_ - d)). set (q := f (_ + d)). replace ((p + q) / 2 + - w * 1) with (1 / 2 * (q - w) + 1 / 2 * (p - w)) by field.
    eapply Rle_trans; [apply Rabs_triang|]. rewrite !Rabs_mult, !(Rabs_right (1 / 2)) by lra. lra. }
  apply (Rle_trans _ (mean l (fun k => V * (Rabs (IZR k * h - m1 * h) + Rabs e + d + h)))).
  - apply (Rle_trans _ (h * rsum (tab n (fun i => mean l (fun k => 1 / 2 * Rabs (f (y + INR i * h + (m1 * h - IZR k * h - e + d)) - f (y + INR i * h)) + 1 / 2 * Rabs (f (y + INR i * h + (m1 * h - IZR k * h - e + - d)) - f (y + INR i * h))))))).
    { apply Rmult_le_compat_l; [lra|]. apply rsum_tab_le. exact S2. }
    rewrite rsum_mean, <- mean_scal. apply mean_le; [exact A0|]. intro k. rewrite rsum_tab_plus, !rsum_tab_scal.
    pose proof (S1 k d (or_introl eq_refl)) as Y1. pose proof (S1 k (- d) (or_intror eq_refl)) as Y2. unfold off in Y1, Y2. fold h in Y1, Y2. lra.
  - rewrite mean_scal. apply Rmult_le_compat_l; [exact V0|].
    rewrite (mean_ext l _ (fun k => Rabs (IZR k * h - m1 * h) + (Rabs e + d + h) * 1)) by (intro; ring). rewrite mean_plus, mean_scal, A1.
    pose proof (mean_distance l m1 m2 h Hh W A2 A3 Hm). lra.
Qed.
Lemma two_points_0 f x : two_points f 0 x = f x.
Proof. unfold two_points. rewrite Rminus_0_r, Rplus_0_r. field. Qed.
