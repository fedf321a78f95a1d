(** C01 - C05: core/time_stepping.py *)
From Coq Require Import Reals List Lia Lra Arith ZArith.
From Verif Require Import Prelude L_Prelude M_TimeStepping L_TimeStepping.
Import ListNotations.
Open Scope R_scope.

(** C01: everything a caller of [for time_step in time_stepping] can observe
    after [n] calls of next, for every stream [g] of generated step sizes. *)
Theorem C01_time_stepping_covers_interval :
  forall (start e : R) (g : nat -> R) (n : nat),
  let '(steps, s, st) := ts_run start e g n in
  (* each step is at least 1e-12, at most the generated one, and does not overshoot *)
  (forall k, (k < length steps)%nat ->
     1 / 10 ^ 12 <= nth k steps 0 <= g k /\ start + rsum (firstn (S k) steps) <= e) /\
  ts_count s = length steps /\
  (* the time is start + sum of steps until the end is reached, then exactly e *)
  (ts_stop s = false -> ts_time s = start + rsum steps) /\
  (ts_stop s = true -> ts_time s = e /\ 0 <= (e - start) - rsum steps < 1 / 10 ^ 12) /\
  (start <= e -> start <= ts_time s <= e) /\
  (st = Running -> length steps = n) /\
  (st = Finished -> ts_stop s = true) /\
  (st = Raised -> ts_stop s = false /\
                  Rmin (g (length steps)) (e - ts_time s) < 1 / 10 ^ 12).
Proof.
  intros start e g n. assert (1 / 10 ^ 12 = tol) as -> by (unfold tol; field).
  exact (ts_run_spec start e g n).
Qed.
Print Assumptions C01_time_stepping_covers_interval.

(** C01: TimeStepTooSmallError is raised by the next call exactly if the step
    asked for, clipped to the remaining time, is below 1e-12. *)
Theorem C01_too_small_iff :
  forall (start e : R) (g : nat -> R) (n : nat) steps s,
  ts_run start e g n = (steps, s, Running) ->
  ((exists l s', ts_run start e g (S n) = (l, s', Raised)) <->
   ts_stop s = false /\ Rmin (g n) (e - ts_time s) < 1 / 10 ^ 12).
Proof.
  intros start e g n. assert (1 / 10 ^ 12 = tol) as -> by (unfold tol; field).
  exact (ts_raise_iff start e g n).
Qed.
Print Assumptions C01_too_small_iff.

(** C02 *)
Theorem C02_time_stepping_terminates :
  forall (start e eps : R) (g : nat -> R),
  1 / 10 ^ 12 <= eps -> (forall k, eps <= g k) -> 1 / 10 ^ 12 <= e - start ->
  exists n steps s,
    (n <= Z.to_nat (Int_part ((e - start) / eps)) + 1)%nat /\
    length steps = n /\ ts_run start e g (S n) = (steps, s, Finished).
Proof.
  intros start e eps g. assert (1 / 10 ^ 12 = tol) as -> by (unfold tol; field).
  exact (ts_terminates start e g eps).
Qed.
Print Assumptions C02_time_stepping_terminates.

(* test/core/test_time_stepping.py: step 0.375 on [0,1] yields .375 .375 .25 *)
Example C01_ex :
  exists s, ts_run 0 1 (fun _ => 375 / 1000) 4
            = ([375 / 1000; 375 / 1000; 1 / 4], s, Finished) /\ ts_time s = 1.
Proof.
  destruct (ts_run_const 0 1 (375 / 1000)) as [_ [s E]]; try (unfold tol; lra).
  assert (F : Int_part ((1 - 0) / (375 / 1000)) = 2%Z).
  { apply Int_part_unique. simpl. lra. }
  rewrite F in E. change (Z.to_nat 2) with 2%nat in E. simpl INR in E.
  rewrite (Rltb_false _ tol) in E by (unfold tol; lra).
  exists s. split.
  - etransitivity; [exact E|]. simpl.
    replace (1 - 0 - (1 + 1) * (375 / 1000)) with (1 / 4) by lra. reflexivity.
  - pose proof (ts_run_spec 0 1 (fun _ => 375 / 1000) (S (2 + 1))) as Q. rewrite E in Q.
    destruct Q as [_ [_ [_ [Q1 [_ [_ [Q2 _]]]]]]]. apply Q1. auto.
Qed.
Example C02_ex : 1 / 10 ^ 12 <= 375 / 1000 /\ 1 / 10 ^ 12 <= 1 - 0.
Proof. lra. Qed.

(** C03: the number of steps of a non-adaptive time stepping is its length,
    unless the remainder of the interval length by the step is exactly 1e-12. *)
Theorem C03_len_is_number_of_steps_partial :
  forall (start e dt : R) steps s (n : nat),
  1 / 10 ^ 12 <= dt -> 1 / 10 ^ 12 <= e - start ->
  (e - start) - INR (Z.to_nat (Int_part ((e - start) / dt))) * dt <> 1 / 10 ^ 12 ->
  ts_run start e (fun _ => dt) n = (steps, s, Finished) ->
  ts_len start e dt false = length steps.
Proof.
  intros start e dt steps s n. assert (1 / 10 ^ 12 = tol) as -> by (unfold tol; field).
  exact (ts_len_correct start e dt steps s n).
Qed.
Print Assumptions C03_len_is_number_of_steps_partial.

(** C03, finding: without that exclusion the claim is false. *)
Theorem C03_len_refuted :
  exists (start e dt : R) steps s (n : nat),
  1 / 10 ^ 12 <= dt /\ 1 / 10 ^ 12 <= e - start /\
  ts_run start e (fun _ => dt) n = (steps, s, Finished) /\
  ts_len start e dt false <> length steps.
Proof.
  assert (T : 1 / 10 ^ 12 = tol) by (unfold tol; field). rewrite T.
  assert (Tp : 0 < tol < 1) by (unfold tol; lra).
  exists 0, (1 + tol), 1.
  destruct (ts_run_const 0 (1 + tol) 1) as [H1 [s H2]]; try lra.
  assert (F : Int_part ((1 + tol - 0) / 1) = 1%Z).
  { apply Int_part_unique. simpl. lra. }
  rewrite F in H1, H2. change (Z.to_nat 1) with 1%nat in *. simpl INR in *.
  rewrite (Rltb_false (1 + tol - 0 - 1 * 1) tol) in H2 by lra.
  eexists. exists s. eexists.
  split; [lra|split; [lra|split; [exact H2|]]].
  unfold ts_len. rewrite F. change (Z.to_nat 1) with 1%nat. simpl INR.
  rewrite (Rltb_false (1 * 1) (1 + tol - 0 - tol)) by lra. simpl. lia.
Qed.
Print Assumptions C03_len_refuted.

Theorem C03_len_adaptive_is_zero :
  forall start e dt, ts_len start e dt true = 0%nat.
Proof. reflexivity. Qed.
Print Assumptions C03_len_adaptive_is_zero.

Example C03_ex : 1 - 0 - INR (Z.to_nat (Int_part ((1 - 0) / (375 / 1000)))) * (375 / 1000)
                 <> 1 / 10 ^ 12.
Proof.
  assert (F : Int_part ((1 - 0) / (375 / 1000)) = 2%Z).
  { apply Int_part_unique. simpl. lra. }
  rewrite F. change (Z.to_nat 2) with 2%nat. simpl INR. lra.
Qed.

(** C04: values returned by a generator constructed in world [w0] and then
    called in the worlds [ws] (any history of state changes). *)
Theorem C04_generator_history :
  forall (World : Type) (f : World -> R) (cfl : R) (adaptive : bool) (w0 : World) (ws : list World),
  map (call_generator (new_generator f cfl adaptive w0)) ws =
  if adaptive then map (fun w => f w * cfl) ws else repeat (f w0 * cfl) (length ws).
Proof.
  intros. destruct adaptive; [reflexivity|].
  induction ws; simpl; [reflexivity|]. rewrite <- IHws. reflexivity.
Qed.
Print Assumptions C04_generator_history.

(** C04: however the world evolves during the run, a non-adaptive time stepping
    repeats the step fixed at construction (all steps but the last one), an
    adaptive one takes the step of the current world. *)
Theorem C04_steps_follow_generator :
  forall (World : Type) (f : World -> R) (cfl : R) (adaptive : bool) (w0 : World)
         (world : nat -> World) (start e : R) (n : nat) steps s st,
  ts_run start e (fun k => call_generator (new_generator f cfl adaptive w0) (world k)) n
    = (steps, s, st) ->
  forall i, (S i < length steps)%nat ->
  nth i steps 0 = (if adaptive then f (world i) else f w0) * cfl.
Proof.
  intros World f cfl adaptive w0 world start e n steps s st E i Hi.
  rewrite (ts_loop_all_but_last _ _ _ _ _ _ _ _ E i Hi).
  unfold call_generator, new_generator; simpl. destruct adaptive; reflexivity.
Qed.
Print Assumptions C04_steps_follow_generator.

Theorem C04_mesh_dependent_steps :
  forall (World : Type) (w0 : World) (world : nat -> World) (dx cfl start e : R) (n : nat) steps s st,
  ts_run start e (fun k => call_generator (mesh_dependent_generator dx cfl w0) (world k)) n
    = (steps, s, st) ->
  gen_adaptive (mesh_dependent_generator dx cfl w0) = false /\
  forall i, (S i < length steps)%nat -> nth i steps 0 = dx * cfl.
Proof.
  intros World w0 world dx cfl start e n steps s st E. split; [reflexivity|]. intros i Hi.
  exact (C04_steps_follow_generator World (fun _ => dx) cfl false w0 world start e n steps s st E i Hi).
Qed.
Print Assumptions C04_mesh_dependent_steps.

(* an adaptive generator does follow a changing world *)
Example C04_ex : map (call_generator (new_generator (fun w : R => w) 2 true 5)) [1; 3] = [2; 6]
              /\ map (call_generator (new_generator (fun w : R => w) 2 false 5)) [1; 3] = [10; 10].
Proof. unfold call_generator, new_generator; simpl; split; repeat f_equal; lra. Qed.

(** C05: the check raises iff some stage violates the CFL condition (and accepts
    iff none does). *)
Theorem C05_cfl_check_exact :
  forall (V : Type) (optimal : R -> V -> R) (dt : R) (nodes : list R) (stages : list V),
  length nodes = length stages ->
  (cfl_check optimal dt nodes stages = Err CFLConditionViolatedError <->
   exists i t u, nth_error nodes i = Some t /\ nth_error stages i = Some u /\ optimal t u < dt) /\
  (cfl_check optimal dt nodes stages = Ok tt <->
   forall i t u, nth_error nodes i = Some t -> nth_error stages i = Some u -> dt <= optimal t u).
Proof. intros; apply cfl_check_iff; auto. Qed.
Print Assumptions C05_cfl_check_exact.

Example C05_ex : cfl_check (fun t u => u) 1 [0; 1/2] [2; 1/2] = Err CFLConditionViolatedError.
Proof.
  simpl. rewrite (Rltb_false 2 1), (Rltb_true (1/2) 1) by lra. reflexivity.
Qed.
