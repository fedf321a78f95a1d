(** C97: time stepping in double precision *)
From Coq Require Import Reals List Lia Lra Arith ZArith Bool.
From Flocq Require Import Core.Core.
From Verif Require Import Prelude L_Prelude M_TimeStepping L_TimeStepping M_FloatStepping L_Floats.
Import ListNotations.
Open Scope R_scope.

(** Without rounding the model is the one of C01 to C04. *)
Theorem C97_exact_arithmetic : forall start e g n, f_run (fun x => x) start e g n = ts_run start e g n.
Proof.
  intros start e g n. unfold f_run, ts_run. generalize (ts_iter start), 0%nat. induction n as [|n IH]; intros s k; [reflexivity|].
  cbn [f_loop ts_loop]. change (f_next (fun x => x) e (g k) s) with (ts_next e (g k) s). destruct (ts_next e (g k) s); try reflexivity.
Qed.
Print Assumptions C97_exact_arithmetic.

Notation tol' := (f_tol rnd).
Notation small := (/ 2199023255552).

Lemma rsum_cons x l : rsum (x :: l) = x + rsum l.
Proof. reflexivity. Qed.
Lemma abs_bounds x y : Rabs x <= y -> - y <= x <= y.
Proof. intro H. unfold Rabs in H. destruct (Rcase_abs x); lra. Qed.
Lemma rnd_nonneg x : 0 <= x -> 0 <= rnd x.
Proof. intro H. rewrite <- (rnd_double 0 double_0). apply rnd_le. exact H. Qed.
Lemma tol_double : double tol'. Proof. apply double_rnd. Qed.
Lemma tol_positive : 0 < tol'. Proof. pose proof tol_bounds. lra. Qed.

(** the remaining time in front of a step *)
Lemma remaining_positive e t : tol' <= rnd (e - t) -> t < e.
Proof. intro H. destruct (Rlt_le_dec t e) as [|Q]; [assumption|]. assert (rnd (e - t) <= rnd 0) by (apply rnd_le; lra). rewrite (rnd_double 0 double_0) in H0. pose proof tol_positive. lra. Qed.
Lemma remaining_small e t : rnd (e - t) < tol' -> e - t < tol'.
Proof. intro H. destruct (Rlt_le_dec (e - t) tol') as [|Q]; [assumption|]. apply rnd_le in Q. rewrite (rnd_double _ tol_double) in Q. lra. Qed.

Section Step.
Context (start e : R).
Hypothesis De : double e.
Hypothesis B : -4096 < start /\ start <= e < 4096.

(** a step that fits into the remaining time hardly leads beyond the end *)
Lemma no_overshoot t dt : start <= t <= e -> dt <= rnd (e - t) -> rnd (t + dt) <= e + 2 * small.
Proof.
  intros Ht Hd. assert (E1 := rnd_error_time (e - t) ltac:(apply Rabs_def1; lra)). apply abs_bounds in E1.
  eapply Rle_trans; [apply rnd_le, Rplus_le_compat_l, Hd|]. assert (Q := rnd_near (t + rnd (e - t)) e De).
  assert (Rabs (e - (t + rnd (e - t))) <= small) by (apply Rabs_le; lra). assert (X := Rle_trans _ _ _ Q H). apply abs_bounds in X. lra.
Qed.
(** the whole remaining time leads to the end *)
Lemma last_step t : start <= t <= e -> rnd (e - rnd (t + rnd (e - t))) < tol'.
Proof.
  intro Ht. assert (E1 := rnd_error_time (e - t) ltac:(apply Rabs_def1; lra)). apply abs_bounds in E1. assert (Q := rnd_near (t + rnd (e - t)) e De).
  assert (Rabs (e - (t + rnd (e - t))) <= small) by (apply Rabs_le; lra). assert (X := Rle_trans _ _ _ Q H). apply abs_bounds in X.
  apply Rle_lt_trans with (rnd (2 * small)); [apply rnd_le; lra|]. rewrite rnd_double by (apply (double_small 1 40); [lia|lia|change (Z.pow_pos 2 40) with 1099511627776%Z; lra]).
  pose proof tol_bounds. lra.
Qed.
Lemma step_error t dt : start <= t <= e -> 0 <= dt <= rnd (e - t) -> Rabs (rnd (t + dt) - (t + dt)) <= small.
Proof. intros Ht Hd. assert (E1 := rnd_error_time (e - t) ltac:(apply Rabs_def1; lra)). apply abs_bounds in E1. apply rnd_error_time. apply Rabs_def1; lra. Qed.

Definition at_work (s : ts_state) : Prop := ts_stop s = false /\ double (ts_time s) /\ start <= ts_time s /\ tol' <= rnd (e - ts_time s).

(** one call of __next__ *)
Lemma next_cases g s : at_work s -> double g ->
  (f_next rnd e g s = TooSmall /\ g < tol') \/
  exists dt s', f_next rnd e g s = Yield dt s' /\ tol' <= dt <= g /\ double dt /\ dt <= rnd (e - ts_time s) /\ ts_count s' = S (ts_count s) /\ Rabs (rnd (ts_time s + dt) - (ts_time s + dt)) <= small /\
    rnd (ts_time s + dt) <= e + 2 * small /\
    ((at_work s' /\ ts_time s' = rnd (ts_time s + dt) /\ dt = g) \/ (ts_stop s' = true /\ ts_time s' = e /\ e - rnd (ts_time s + dt) < tol')).
Proof.
  intros [S1 [S2 [S3 S4]]] Dg. assert (Te := remaining_positive _ _ S4). unfold f_next. rewrite S1. pose proof tol_positive as Tp.
  set (dt := Rmin g (rnd (e - ts_time s))). destruct (Rltb_spec dt tol') as [H|H].
  - left. split; [reflexivity|]. unfold dt in H. destruct (Rmin_cases g (rnd (e - ts_time s))) as [[Q _]|[Q _]]; rewrite Q in H; lra.
  - right. exists dt. assert (D1 : dt <= g) by apply Rmin_l. assert (D2 : dt <= rnd (e - ts_time s)) by apply Rmin_r.
    assert (Dd : double dt) by (unfold dt; destruct (Rmin_cases g (rnd (e - ts_time s))) as [[Q _]|[Q _]]; rewrite Q; [exact Dg|apply double_rnd]).
    assert (Er := step_error (ts_time s) dt ltac:(lra) ltac:(lra)). assert (No := no_overshoot (ts_time s) dt ltac:(lra) D2).
    destruct (Rltb_spec (rnd (e - rnd (ts_time s + dt))) tol') as [L|L]; eexists; (split; [reflexivity|]); cbn [ts_time ts_count ts_stop];
      (split; [lra|]); (split; [exact Dd|]); (split; [exact D2|]); (split; [reflexivity|]); (split; [exact Er|]); (split; [exact No|]).
    + right. split; [reflexivity|]. split; [reflexivity|]. apply remaining_small. exact L.
    + left. split.
      * split; [reflexivity|]. split; [apply double_rnd|]. cbn [ts_time]. split; [|lra]. apply Rle_trans with (ts_time s); [exact S3|]. rewrite <- (rnd_double _ S2) at 1. apply rnd_le. lra.
      * split; [reflexivity|]. unfold dt in *. destruct (Rmin_cases g (rnd (e - ts_time s))) as [[Q _]|[Q _]]; [exact Q|]. exfalso. rewrite Q in L. pose proof (last_step (ts_time s) ltac:(lra)). lra.
Qed.

(** the whole loop *)
Lemma loop_cases (g : nat -> R) n : (forall k, double (g k)) -> forall k s, at_work s -> let '(steps, s', st) := f_loop rnd e g k n s in
  (forall i, (i < length steps)%nat -> tol' <= nth i steps 0 <= g (k + i)%nat) /\
  (forall i, (i <= length steps)%nat -> f_clock rnd (ts_time s) (firstn i steps) <= e + 2 * small /\
     Rabs (f_clock rnd (ts_time s) (firstn i steps) - (ts_time s + rsum (firstn i steps))) <= INR i * small) /\
  ts_count s' = (ts_count s + length steps)%nat /\
  (ts_stop s' = false -> ts_time s' = f_clock rnd (ts_time s) steps /\ at_work s' /\ forall i, (i < length steps)%nat -> nth i steps 0 = g (k + i)%nat) /\
  (ts_stop s' = true -> ts_time s' = e /\ e - f_clock rnd (ts_time s) steps < tol') /\
  (st = Running -> length steps = n) /\ (st = Finished -> ts_stop s' = true) /\
  (st = Raised -> ts_stop s' = false /\ g (k + length steps)%nat < tol').
Proof.
  intro Dg. induction n as [|n IH]; intros k s W.
  - cbn [f_loop length]. assert (Te := remaining_positive _ _ (proj2 (proj2 (proj2 W)))). split; [intros i Hi; lia|]. split.
    + intros i Hi. replace i with 0%nat by lia. cbn [firstn f_clock rsum INR]. rewrite Rmult_0_l. split; [lra|]. replace (ts_time s - (ts_time s + _)) with 0 by (cbn; ring). rewrite Rabs_R0. lra.
    + split; [lia|]. destruct W as [W1 W2]. split; [intros _; split; [reflexivity|split; [split; assumption|intros i Hi; lia]]|]. split; [rewrite W1; discriminate|]. split; [reflexivity|]. split; discriminate.
  - cbn [f_loop]. assert (Te := remaining_positive _ _ (proj2 (proj2 (proj2 W)))). destruct (next_cases (g k) s W (Dg k)) as [[-> Q]|[dt [s1 [-> [H1 [H2 [H3 [H4 [H5 [H6 H7]]]]]]]]]].
    + cbn [length]. split; [intros i Hi; lia|]. split.
      * intros i Hi. replace i with 0%nat by lia. cbn [firstn f_clock INR]. rewrite Rmult_0_l. split; [lra|]. replace (ts_time s - (ts_time s + _)) with 0 by (cbn; ring). rewrite Rabs_R0. lra.
      * split; [lia|]. destruct W as [W1 W2]. split; [intros _; split; [reflexivity|split; [split; assumption|intros i Hi; lia]]|]. split; [rewrite W1; discriminate|]. split; [discriminate|]. split; [discriminate|].
        intros _. rewrite Nat.add_0_r. auto.
    + destruct H7 as [[W' [T' G']]|[St [Et Rm]]].
      * specialize (IH (S k) s1 W'). destruct (f_loop rnd e g (S k) n s1) as [[steps s'] st]. destruct IH as [I1 [I2 [I3 [I4 [I5 [I6 [I7 I8]]]]]]]. cbn [length f_clock].
        rewrite T' in *. split; [|split; [|split; [|split; [|split; [|split; [|split]]]]]].
        -- intros [|i] Hi; cbn [nth]; [rewrite Nat.add_0_r; exact H1|]. replace (k + S i)%nat with (S k + i)%nat by lia. apply I1. lia.
        -- intros [|i] Hi; [cbn [firstn f_clock INR]; rewrite Rmult_0_l; split; [lra|]; replace (ts_time s - (ts_time s + _)) with 0 by (cbn; ring); rewrite Rabs_R0; lra|].
           cbn [firstn f_clock]. destruct (I2 i ltac:(lia)) as [J1 J2]. split; [exact J1|]. rewrite S_INR. rewrite rsum_cons. apply abs_bounds in J2. apply abs_bounds in H5. apply Rabs_le. lra.
        -- lia.
        -- intro Q. destruct (I4 Q) as [J1 [J2 J3]]. split; [exact J1|]. split; [exact J2|]. intros [|i] Hi; cbn [nth]; [rewrite Nat.add_0_r; exact G'|]. replace (k + S i)%nat with (S k + i)%nat by lia. apply J3. lia.
        -- exact I5.
        -- intro Q. rewrite (I6 Q). reflexivity.
        -- exact I7.
        -- intro Q. replace (k + S (length steps))%nat with (S k + length steps)%nat by lia. apply I8. exact Q.
      * assert (F : exists st, f_loop rnd e g (S k) n s1 = ([], s1, st) /\ (st = Running -> n = 0%nat) /\ st <> Raised).
        { destruct n; [exists Running; repeat split; discriminate|]. exists Finished. cbn [f_loop]. unfold f_next. rewrite St. repeat split; discriminate. }
        destruct F as [st [-> [F1 F2]]]. cbn [length f_clock]. split; [|split; [|split; [|split; [|split; [|split; [|split]]]]]].
        -- intros [|i] Hi; [|lia]. cbn [nth]. rewrite Nat.add_0_r. exact H1.
        -- intros [|[|i]] Hi; [cbn [firstn f_clock INR]; rewrite Rmult_0_l; split; [lra|]; replace (ts_time s - (ts_time s + _)) with 0 by (cbn; ring); rewrite Rabs_R0; lra| |lia].
           cbn [firstn f_clock INR]. split; [exact H6|]. rewrite rsum_cons. change (rsum []) with 0. rewrite Rplus_0_r, Rmult_1_l. exact H5.
        -- lia.
        -- rewrite St. discriminate.
        -- intros _. split; [exact Et|exact Rm].
        -- intro Q. rewrite (F1 Q). reflexivity.
        -- intros _. exact St.
        -- intro Q. contradiction.
Qed.
End Step.

(** Doubles for the start and the end whose absolute value is below 4096 and that are at least 1e-12 apart (the difference and 1e-12 are rounded). *)
Definition times_ok (start e : R) : Prop := double start /\ double e /\ -4096 < start /\ e < 4096 /\ f_tol rnd <= rnd (e - start).

Lemma work_begins start e : times_ok start e -> -4096 < start /\ start <= e < 4096 /\ at_work start e (ts_iter start).
Proof. intros [D1 [D2 [B1 [B2 T]]]]. assert (L := remaining_positive _ _ T). split; [lra|]. split; [lra|]. unfold at_work, ts_iter. cbn [ts_stop ts_time]. split; [reflexivity|]. split; [exact D1|]. split; [lra|exact T]. Qed.

(** C01 in double precision. Every step is at least 1e-12 and at most the generated one. The clock of the solution never is more than 2^-40 beyond the end and is
    the start plus the sum of the steps up to 2^-41 for each step. As long as the loop runs, the time of the time stepping is the clock; when it has stopped,
    it is exactly the end and the clock differs from it by less than 1.001e-12. *)
Theorem C97_steps_cover_interval : forall start e g n, times_ok start e -> (forall k, double (g k)) ->
  let '(steps, s, st) := f_run rnd start e g n in
  (forall k, (k < length steps)%nat -> f_tol rnd <= nth k steps 0 <= g k) /\
  (forall k, (k <= length steps)%nat -> f_clock rnd start (firstn k steps) <= e + 1 / 2 ^ 40 /\
     Rabs (f_clock rnd start (firstn k steps) - (start + rsum (firstn k steps))) <= INR k * (1 / 2 ^ 41)) /\
  ts_count s = length steps /\
  (ts_stop s = false -> ts_time s = f_clock rnd start steps /\ ts_time s < e /\ forall k, (k < length steps)%nat -> nth k steps 0 = g k) /\
  (ts_stop s = true -> ts_time s = e /\ Rabs (f_clock rnd start steps - e) < 1001 / 1000 / 10 ^ 12) /\
  (st = Finished -> ts_stop s = true) /\ (st = Running -> length steps = n).
Proof.
  intros start e g n H Dg. destruct (work_begins start e H) as [B1 [B2 W]]. destruct H as [_ [De _]]. assert (L := loop_cases start e De (conj B1 B2) g n Dg 0 (ts_iter start) W).
  unfold f_run. destruct (f_loop rnd e g 0 n (ts_iter start)) as [[steps s] st]. destruct L as [L1 [L2 [L3 [L4 [L5 [L6 [L7 _]]]]]]]. change (ts_time (ts_iter start)) with start in *. cbn [Nat.add ts_count ts_iter] in *.
  assert (P0 : 1 / 2 ^ 40 = 2 * small) by (simpl; lra). assert (P1 : 1 / 2 ^ 41 = small) by (simpl; lra). assert (P2 : 1001 / 1000 / 10 ^ 12 = 1001 / 1000000000000000) by (simpl; lra). rewrite P0, P1, P2.
  split; [exact L1|]. split; [exact L2|]. split; [exact L3|]. split; [intro Q; destruct (L4 Q) as [J1 [J2 J3]]; split; [exact J1|]; split; [apply remaining_positive, J2|exact J3]|]. split; [|auto].
  intro Q. destruct (L5 Q) as [J1 J2]. split; [exact J1|]. destruct (L2 (length steps) ltac:(lia)) as [J3 _]. rewrite firstn_all in J3. pose proof tol_bounds. apply Rabs_def1; lra.
Qed.
Print Assumptions C97_steps_cover_interval.

(** In double precision, too, TimeStepTooSmallError is a matter of the generated steps alone: rounding never leaves a remainder that is too small for a step. *)
Theorem C97_rounding_never_raises : forall start e g n steps s, times_ok start e -> (forall k, double (g k)) -> f_run rnd start e g n = (steps, s, Raised) -> g (length steps) < f_tol rnd.
Proof.
  intros start e g n steps s H Dg E. destruct (work_begins start e H) as [B1 [B2 W]]. destruct H as [_ [De _]]. assert (L := loop_cases start e De (conj B1 B2) g n Dg 0 (ts_iter start) W).
  unfold f_run in E. rewrite E in L. destruct L as [_ [_ [_ [_ [_ [_ [_ L]]]]]]]. apply L. reflexivity.
Qed.
Print Assumptions C97_rounding_never_raises.

Lemma loop_ends start e (De : double e) (B : -4096 < start /\ start <= e < 4096) (g : nat -> R) eps (Dg : forall k, double (g k)) (G : forall k, eps <= g k) (T : f_tol rnd <= eps) : forall N k s, at_work start e s ->
  e - ts_time s < INR N * (eps - small) -> exists m steps s', (m <= N)%nat /\ length steps = m /\ f_loop rnd e g k (S m) s = (steps, s', Finished).
Proof.
  induction N as [|N IH]; intros k s W HN.
  - cbn [INR] in HN. pose proof (remaining_positive _ _ (proj2 (proj2 (proj2 W)))). lra.
  - destruct (next_cases start e De B (g k) s W (Dg k)) as [[_ Q]|[dt [s1 [E [H1 [H2 [H3 [H4 [H5 [H6 H7]]]]]]]]]]; [specialize (G k); lra|]. destruct H7 as [[W' [T' G']]|[St [Et Rm]]].
    + destruct (IH (S k) s1 W') as [m [steps [s' [M1 [M2 M3]]]]].
      * rewrite T'. rewrite S_INR in HN. apply abs_bounds in H5. specialize (G k). rewrite <- G' in G. lra.
      * exists (S m), (dt :: steps), s'. split; [lia|]. split; [cbn [length]; lia|]. change (f_loop rnd e g k (S (S m)) s) with (match f_next rnd e (g k) s with StopIter => ([], s, Finished) | TooSmall => ([], s, Raised)
          | Yield step s' => let '(l, s'', st) := f_loop rnd e g (S k) (S m) s' in (step :: l, s'', st) end). rewrite E, M3. reflexivity.
    + exists 1%nat, [dt], s1. split; [lia|]. split; [reflexivity|]. cbn [f_loop]. rewrite E. unfold f_next. rewrite St. reflexivity.
Qed.

(** C02 in double precision: if the generated steps have a positive lower bound eps >= 1e-12, the loop ends after at most (e - start) / (eps - 2^-41) + 1 steps. *)
Theorem C97_terminates : forall start e g eps, times_ok start e -> (forall k, double (g k)) -> (forall k, eps <= g k) -> f_tol rnd <= eps ->
  exists n steps s, (n <= Z.to_nat (Int_part ((e - start) / (eps - 1 / 2 ^ 41))) + 1)%nat /\ length steps = n /\ f_run rnd start e g (S n) = (steps, s, Finished).
Proof.
  intros start e g eps H Dg G T. destruct (work_begins start e H) as [B1 [B2 W]]. destruct H as [_ [De _]]. replace (1 / 2 ^ 41) with small by (simpl; lra). pose proof tol_bounds as TB.
  apply (loop_ends start e De (conj B1 B2) g eps Dg G T _ 0 (ts_iter start) W). change (ts_time (ts_iter start)) with start.
  assert (P : 0 < eps - small) by lra. set (q := (e - start) / (eps - small)). assert (Q : e - start = q * (eps - small)) by (unfold q; field; lra). assert (Q0 : 0 <= q) by (apply Rmult_le_pos; [lra|left; apply Rinv_0_lt_compat; exact P]).
  destruct (base_Int_part q) as [I1 I2]. assert (0 <= Int_part q)%Z by (assert (-1 < Int_part q)%Z by (apply lt_IZR; lra); lia). rewrite plus_INR, INR_IZR_INZ, Z2Nat.id by assumption. change (INR 1) with 1. rewrite Q. apply Rmult_lt_compat_r; lra.
Qed.
Print Assumptions C97_terminates.

(** Without the bound on the times this is false: at 32768 a step of 1e-12 is lost in the rounding of the clock, and a loop over a time stepping with this step never ends,
    although it should end after 10^12 steps, as it does in exact arithmetic (C02). *)
Theorem C97_late_times_refuted : exists start e eps, double start /\ double e /\ double eps /\ 1 <= e - start /\ f_tol rnd <= eps /\ 1 / 10 ^ 12 <= eps /\
  forall n, f_run rnd start e (fun _ => eps) n = (repeat eps n, {| ts_time := start; ts_count := n; ts_stop := false |}, Running).
Proof.
  assert (T := tol_bounds). set (eps := 563 / 562949953421312) in *. assert (De : double eps) by (apply (double_small 563 49); [lia|lia|]; change (Z.pow_pos 2 49) with 562949953421312%Z; unfold eps; lra).
  assert (Ds : double 32768) by (apply double_Z; lia). assert (D1 : rnd (32769 - 32768) = 1) by (replace (32769 - 32768) with 1 by lra; apply rnd_double, double_Z; lia).
  assert (St : rnd (32768 + eps) = 32768).
  { apply Rle_antisym; [|rewrite <- (rnd_double 32768 Ds) at 1; apply rnd_le; unfold eps; lra].
    (* the next double is 32768 + 2^-37 *)
    destruct (Rle_lt_dec (rnd (32768 + eps)) 32768) as [|Q]; [assumption|exfalso].
    assert (N1 := rnd_near (32768 + eps) 32768 Ds). replace (Rabs (32768 - (32768 + eps))) with eps in N1 by (replace (32768 - (32768 + eps)) with (- eps) by ring; rewrite Rabs_Ropp, Rabs_pos_eq; unfold eps; lra).
    apply abs_bounds in N1. assert (S1 := succ_le_lt radix2 (FLT_exp (-1074) 53) 32768 (rnd (32768 + eps)) Ds (double_rnd _) Q).
    rewrite succ_eq_pos in S1 by lra. change 32768 with (bpow radix2 15) in S1 at 2. rewrite ulp_bpow in S1. change (bpow radix2 (FLT_exp (-1074) 53 (15 + 1))) with (/ 137438953472) in S1. unfold eps in *. lra. }
  exists 32768, 32769, eps. split; [exact Ds|]. split; [apply double_Z; lia|]. split; [exact De|]. split; [lra|]. split; [lra|]. split; [simpl; unfold eps; lra|].
  assert (L : forall n k c, f_loop rnd 32769 (fun _ => eps) k n {| ts_time := 32768; ts_count := c; ts_stop := false |} = (repeat eps n, {| ts_time := 32768; ts_count := (c + n)%nat; ts_stop := false |}, Running)).
  { induction n as [|n IH]; intros k c; [cbn [f_loop repeat]; rewrite Nat.add_0_r; reflexivity|]. cbn [f_loop repeat]. unfold f_next. cbn [ts_stop ts_time ts_count]. rewrite D1, Rmin_left by (unfold eps; lra).
    destruct (Rltb_spec eps (f_tol rnd)) as [Q|_]; [lra|]. rewrite St, D1. destruct (Rltb_spec 1 (f_tol rnd)) as [Q|_]; [unfold eps in T; lra|]. rewrite IH. rewrite Nat.add_succ_r. reflexivity. }
  intro n. unfold f_run, ts_iter. rewrite L. reflexivity.
Qed.
Print Assumptions C97_late_times_refuted.

(** From 0 to 1 in steps of 0.1: as a double this is not 1/10. *)
Example C97_ex : times_ok 0 1 /\ double (rnd (1 / 10)) /\ rnd (1 / 10) <> 1 / 10 /\ f_tol rnd <= rnd (1 / 10).
Proof.
  assert (T := tol_bounds). split; [|split; [apply double_rnd|split]].
  - split; [apply double_0|]. split; [apply (double_Z 1); lia|]. split; [lra|]. split; [lra|]. rewrite Rminus_0_r, (rnd_double 1) by (apply (double_Z 1); lia). lra.
  - intro Q. assert (D := double_rnd (1 / 10)). rewrite Q in D. unfold double, generic_format, F2R in D. cbn [Fnum Fexp] in D. set (z := Ztrunc _) in D.
    assert (M : mag radix2 (1 / 10) = (-3)%Z :> Z) by (apply mag_unique; rewrite Rabs_pos_eq by lra; cbn; lra). unfold cexp in D. rewrite M in D. change (bpow radix2 (FLT_exp (-1074) 53 (-3))) with (/ 72057594037927936) in D.
    assert (E : 10 * IZR z = 72057594037927936) by lra. rewrite <- mult_IZR in E. apply eq_IZR in E. lia.
  - apply Rle_trans with (rnd (1 / 16)); [|apply rnd_le; lra]. rewrite rnd_double by (apply (double_small 1 4); [lia|lia|change (Z.pow_pos 2 4) with 16%Z; lra]). lra.
Qed.
Print Assumptions C97_ex.
