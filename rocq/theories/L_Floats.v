(** Facts about double precision numbers. *)
From Coq Require Import Reals List Lia Lra Arith ZArith Bool.
From Flocq Require Import Core.Core.
From Verif Require Import Prelude L_Prelude M_TimeStepping M_FloatStepping.
Import ListNotations.
Open Scope R_scope.

#[global] Instance valid_double : Valid_exp (FLT_exp (-1074) 53).
Proof. apply FLT_exp_valid. reflexivity. Qed.
#[global] Instance monotone_double : Monotone_exp (FLT_exp (-1074) 53).
Proof. apply FLT_exp_monotone. Qed.

Lemma rnd_double x : double x -> rnd x = x.
Proof. intro H. apply round_generic; [apply valid_rnd_N|exact H]. Qed.
Lemma double_rnd x : double (rnd x).
Proof. apply generic_format_round; [apply valid_double|apply valid_rnd_N]. Qed.
Lemma rnd_le x y : x <= y -> rnd x <= rnd y.
Proof. intro H. apply round_le; [apply valid_double|apply valid_rnd_N|exact H]. Qed.
Lemma double_0 : double 0. Proof. apply generic_format_0. Qed.
Lemma double_opp x : double x -> double (- x). Proof. apply generic_format_opp. Qed.
(** [rnd x] is a closest double *)
Lemma rnd_near x y : double y -> Rabs (rnd x - x) <= Rabs (y - x).
Proof. intro H. destruct (round_N_pt radix2 (FLT_exp (-1074) 53) (fun n => negb (Z.even n)) x) as [_ Q]. apply Q. exact H. Qed.
Lemma double_scaled (m k : Z) : (Z.abs m < 2 ^ 53)%Z -> (-1074 <= k)%Z -> double (IZR m * bpow radix2 k).
Proof. intros H K. apply generic_format_FLT. exists (Float radix2 m k); [reflexivity|exact H|exact K]. Qed.
Lemma rnd_error x (k : Z) : (-1021 <= k)%Z -> Rabs x < bpow radix2 k -> Rabs (rnd x - x) <= bpow radix2 (k - 54).
Proof.
  intros K H. destruct (Req_dec x 0) as [->|Z].
  - rewrite (rnd_double 0 double_0), Rminus_0_r, Rabs_R0. apply bpow_ge_0.
  - assert (E := error_le_half_ulp radix2 (FLT_exp (-1074) 53) (fun n => negb (Z.even n)) x). change (Rabs (rnd x - x) <= / 2 * ulp radix2 (FLT_exp (-1074) 53) x) in E.
    rewrite ulp_neq_0 in E by exact Z. eapply Rle_trans; [exact E|]. replace (k - 54)%Z with (-(1) + (k - 53))%Z by lia. rewrite bpow_plus. change (bpow radix2 (- (1))) with (/ 2).
    apply Rmult_le_compat_l; [lra|]. apply bpow_le. unfold cexp, FLT_exp. pose proof (mag_le_bpow radix2 x k Z H). lia.
Qed.
(** times below 8192 *)
Lemma rnd_error_time x : Rabs x < 8192 -> Rabs (rnd x - x) <= / 2199023255552.
Proof. intro H. assert (E := rnd_error x 13 ltac:(lia)). change (bpow radix2 13) with 8192 in E. change (bpow radix2 (13 - 54)) with (/ 2199023255552) in E. auto. Qed.
Lemma double_small (m : Z) (k : positive) (q : R) : (Z.abs m < 2 ^ 53)%Z -> (Z.pos k <= 1074)%Z -> q * IZR (Z.pow_pos 2 k) = IZR m -> double q.
Proof.
  intros H K E. assert (P : 0 < IZR (Z.pow_pos 2 k)) by (apply IZR_lt; rewrite Z.pow_pos_fold; apply Z.pow_pos_nonneg; lia).
  replace q with (IZR m * bpow radix2 (Z.neg k)). { apply double_scaled; [exact H|lia]. }
  rewrite <- E. cbn [bpow]. change (radix_val radix2) with 2%Z. field. lra.
Qed.
Lemma double_Z m : (Z.abs m < 2 ^ 53)%Z -> double (IZR m).
Proof. intro H. replace (IZR m) with (IZR m * bpow radix2 0) by (cbn; ring). apply double_scaled; [exact H|lia]. Qed.
Lemma tol_bounds : 562 / 562949953421312 <= f_tol rnd <= 563 / 562949953421312.
Proof.
  unfold f_tol. split.
  - rewrite <- (rnd_double (562 / 562949953421312)). { apply rnd_le. lra. } apply (double_small 562 49); [lia|lia|]. change (Z.pow_pos 2 49) with 562949953421312%Z. lra.
  - rewrite <- (rnd_double (563 / 562949953421312)). { apply rnd_le. lra. } apply (double_small 563 49); [lia|lia|]. change (Z.pow_pos 2 49) with 562949953421312%Z. lra.
Qed.
