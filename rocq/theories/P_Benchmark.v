(** C49: the benchmarks. *)
From Coq Require Import Reals List Lia Lra Arith Bool ZArith.
From Coquelicot Require Import Coquelicot.
From Verif Require Import Prelude L_Prelude M_Mesh M_Flux L_Flux M_ShallowWater M_Benchmark S_Benchmark.
Import ListNotations.
Open Scope R_scope.

(** ** advection *)
Lemma int_part_unique r z : IZR z <= r < IZR z + 1 -> Int_part r = z.
Proof.
  intros [H1 H2]. destruct (base_Int_part r) as [B1 B2].
  assert (A1 : IZR (Int_part r) < IZR (z + 1)) by (rewrite plus_IZR; lra).
  assert (A2 : IZR z < IZR (Int_part r + 1)) by (rewrite plus_IZR; lra). apply lt_IZR in A1. apply lt_IZR in A2. lia.
Qed.
Lemma py_mod_shift x k : py_mod (x + IZR k) 1 = py_mod x 1.
Proof.
  unfold py_mod. rewrite !Rdiv_1, (int_part_unique (x + IZR k) (Int_part x + k)).
  - rewrite plus_IZR. ring.
  - destruct (base_Int_part x). rewrite plus_IZR. lra.
Qed.
Lemma py_mod_range x : 0 <= py_mod x 1 < 1.
Proof. unfold py_mod. rewrite Rdiv_1. destruct (base_Int_part x). lra. Qed.
Lemma py_mod_id x : 0 <= x < 1 -> py_mod x 1 = x.
Proof. intro H. unfold py_mod. rewrite Rdiv_1, (int_part_unique x 0); lra. Qed.

(** The exact solution transports the initial data with speed one on the periodic unit interval: constant along characteristics,
    periodic in space and time with the length of the domain, initial data at t = 0 (on the half open domain; on the closed one if the data are periodic). *)
Theorem C49_advection : forall (u0 : R -> R) x t s (k : Z),
  advection_exact u0 (x + s) (t + s) = advection_exact u0 x t /\
  advection_exact u0 (x + IZR k) t = advection_exact u0 x t /\
  advection_exact u0 x (t + IZR k) = advection_exact u0 x t /\
  (0 <= x < 1 -> advection_exact u0 x 0 = u0 x) /\
  (u0 0 = u0 1 -> 0 <= x <= 1 -> advection_exact u0 x 0 = u0 x) /\
  (forall lo hi, (forall y, 0 <= y < 1 -> lo <= u0 y <= hi) -> lo <= advection_exact u0 x t <= hi).
Proof.
  intros u0 x t s k. unfold advection_exact, ilength, unit_interval. cbn [ia ib]. rewrite Rminus_0_r.
  split; [f_equal; f_equal; ring|]. split; [replace (x + IZR k - t) with ((x - t) + IZR k) by ring; rewrite py_mod_shift; auto|].
  split; [replace (x - (t + IZR k)) with ((x - t) + IZR (- k)) by (rewrite opp_IZR; ring); rewrite py_mod_shift; auto|].
  split; [intro H; rewrite py_mod_id by lra; f_equal; ring|]. split.
  - intros P H. destruct (Req_dec x 1) as [->|Ne]; [|rewrite py_mod_id by lra; f_equal; ring].
    rewrite <- P. f_equal. replace (1 - 0) with (0 + IZR 1) by (cbn; ring). rewrite py_mod_shift. apply py_mod_id. lra.
  - intros lo hi B. apply B, py_mod_range.
Qed.
Print Assumptions C49_advection.

Ltac cmp := repeat match goal with
  | |- context [Rltb ?a ?b] => destruct (Rltb_spec a b)
  | |- context [Rleb ?a ?b] => destruct (Rleb_spec a b) end; cbn [andb]; try lra.
Lemma exp_le_1 x : x <= 0 -> 0 < exp x <= 1.
Proof. intro H. split; [apply exp_pos|]. rewrite <- exp_0. destruct H as [H| ->]; [left; apply exp_increasing; auto|right; auto]. Qed.
(** All initial data of the advection benchmarks are periodic; the hills lie between 0 and 1, the cosine between -1 and 1.
    So do the exact solutions at all times, and they start at the initial data on the closed domain. *)
Theorem C49_advection_data : forall u0 lo, (u0 = three_hills \/ u0 = two_hills \/ u0 = one_hill \/ u0 = gaussian_bell) /\ lo = 0 \/ u0 = cosine /\ lo = -1 ->
  u0 0 = u0 1 /\ (forall x, lo <= u0 x <= 1) /\ (forall x t, lo <= advection_exact u0 x t <= 1) /\ (forall x, 0 <= x <= 1 -> advection_exact u0 x 0 = u0 x).
Proof.
  intros u0 lo H.
  assert (P : u0 0 = u0 1 /\ (forall x, lo <= u0 x <= 1)).
  { destruct H as [[[-> |[-> |[-> | ->]]] ->]|[-> ->]].
    - split; [unfold three_hills; cmp|]. intro x. unfold three_hills. cmp;
      (match goal with |- _ <= exp _ <= _ => pose proof (exp_le_1 (-300 * (2 * x - 3 / 10) ^ 2)); pose proof (pow2_ge_0 (2 * x - 3 / 10)); lra | _ => idtac end);
      assert (Q : 0 <= 1 - ((x - 8 / 10) / (1 / 10)) ^ 2 <= 1) by (replace ((x - 8 / 10) / (1 / 10)) with (10 * x - 8) by field; split; [|pose proof (pow2_ge_0 (10 * x - 8)); lra]; assert (0 <= (10 * x - 7) * (9 - 10 * x)) by (apply Rmult_le_pos; lra); lra);
        split; [apply sqrt_pos|]; apply Rle_trans with (sqrt 1); [apply sqrt_le_1_alt; lra|rewrite sqrt_1; lra].
    - split; [unfold two_hills; cmp|]. intro x. unfold two_hills. cmp;
      rewrite <- !exp_plus; pose proof (exp_le_1 (10 + -1 / (x - 1 / 2) + 1 / (x - 9 / 10))) as E;
        assert (X : 10 + -1 / (x - 1 / 2) + 1 / (x - 9 / 10) <= 0); [|lra];
        replace (10 + -1 / (x - 1 / 2) + 1 / (x - 9 / 10)) with (- (10 * (x - 7 / 10) ^ 2) / ((x - 1 / 2) * (9 / 10 - x))) by (field; repeat split; lra);
        assert (D : 0 < (x - 1 / 2) * (9 / 10 - x)) by (apply Rmult_lt_0_compat; lra);
        apply Rmult_le_reg_r with ((x - 1 / 2) * (9 / 10 - x)); [exact D|]; unfold Rdiv; rewrite Rmult_assoc, Rinv_l by lra; pose proof (pow2_ge_0 (x - 7 / 10)); lra.
    - split; [unfold one_hill; cmp|]. intro x. unfold one_hill. cmp.
    - split; [unfold gaussian_bell; apply (f_equal exp); field|]. intro x. unfold gaussian_bell. pose proof (exp_le_1 (-100 * (x - 1 / 2) ^ 2)). pose proof (pow2_ge_0 (x - 1 / 2)). lra.
    - split; [unfold cosine; replace (2 * PI * (0 - 1 / 2)) with (- PI) by field; replace (2 * PI * (1 - 1 / 2)) with PI by field; apply cos_neg|]. intro x. apply COS_bound. }
  destruct P as [P1 P2]. split; [auto|]. split; [auto|]. split.
  - intros x t. apply (C49_advection u0 x t 0 0%Z). intros; apply P2.
  - intros x Hx. apply (C49_advection u0 x 0 0 0%Z); auto.
Qed.
Print Assumptions C49_advection_data.
Example C49_advection_ex : advection_exact one_hill (7 / 10) (1 / 2) = 1.
Proof. unfold advection_exact, ilength, unit_interval. cbn [ia ib]. replace (7 / 10 - 1 / 2) with (1 / 5) by field. rewrite Rminus_0_r, py_mod_id by lra. unfold one_hill. cmp. Qed.

(** ** Burgers *)
Section Burgers.
Context (u0 du0 : R -> R) (t : R).
Hypothesis Hd : forall y, is_derive u0 y (du0 y).
Hypothesis Hc : forall y, -1 < t * du0 y.
Lemma func_derive x u : is_derive (burgers_func u0 x t) u (burgers_fprime du0 x t u).
Proof.
  unfold burgers_func, burgers_fprime. apply is_derive_Reals. apply derivable_pt_lim_minus; [|apply derivable_pt_lim_id].
  replace (- t * du0 (x - u * t)) with (du0 (x - u * t) * - t) by ring.
  apply (derivable_pt_lim_comp (fun u => x - u * t) u0 u (- t) (du0 (x - u * t))).
  - apply is_derive_Reals. auto_derive; [auto|ring].
  - apply is_derive_Reals. apply Hd.
Qed.
Lemma func_unique x u v : burgers_func u0 x t u = 0 -> burgers_func u0 x t v = 0 -> u = v.
Proof.
  intros Hu Hv. destruct (Rtotal_order u v) as [L|[E|L]]; [|exact E|].
  - exfalso. destruct (MVT_gen (burgers_func u0 x t) u v (burgers_fprime du0 x t)) as [c [_ E]]; [intros; apply func_derive|intros; apply continuity_pt_filterlim; apply @ex_derive_continuous; eexists; apply func_derive|].
    rewrite Hu, Hv in E. specialize (Hc (x - c * t)). unfold burgers_fprime in E. nra.
  - exfalso. destruct (MVT_gen (burgers_func u0 x t) v u (burgers_fprime du0 x t)) as [c [_ E]]; [intros; apply func_derive|intros; apply continuity_pt_filterlim; apply @ex_derive_continuous; eexists; apply func_derive|].
    rewrite Hu, Hv in E. specialize (Hc (x - c * t)). unfold burgers_fprime in E. nra.
Qed.
Lemma func_root M x : (forall y, Rabs (u0 y) <= M) -> exists u, burgers_func u0 x t u = 0.
Proof.
  intro B. assert (M0 : 0 <= M) by (specialize (B 0); pose proof (Rabs_pos (u0 0)); lra).
  destruct (IVT_cor (burgers_func u0 x t) (- M) M) as [u [_ E]]; [|lra| |exists u; exact E].
  - intro u. apply continuity_pt_filterlim, @ex_derive_continuous. eexists. apply func_derive.
  - unfold burgers_func. assert (B1 := B (x - - M * t)). assert (B2 := B (x - M * t)). apply Rabs_le_between in B1. apply Rabs_le_between in B2. nra.
Qed.
End Burgers.

Definition finds_roots (newton : (R -> R) -> R -> result R) : Prop := forall f x r, newton f x = Ok r -> f r = 0.
Lemma newton_exists : exists newton, finds_roots newton.
Proof. exists (fun _ _ => Err ValueError). intros f x r. discriminate. Qed.

Lemma shock_derive y : is_derive (fun x => sin (2 * PI * x)) y (2 * PI * cos (2 * PI * y)).
Proof. auto_derive; [auto|ring]. Qed.
Lemma smooth_derive y : is_derive (fun x => sin x + 1 / 2) y (cos y).
Proof. auto_derive; [auto|ring]. Qed.

(** The derivative handed to newton is the derivative of the function. Before the critical time the exact solution is defined by exactly one
    root; the value transported along the characteristic of x0 is what exact_solution returns at its position, whenever newton returns a root. *)
Theorem C49_burgers : forall newton e b, finds_roots newton -> b = shock_benchmark e \/ b = smooth_benchmark e -> e <= b_critical b ->
  (forall x t u, is_derive (burgers_func (b_u0 b) x t) u (burgers_fprime (b_du0 b) x t u)) /\
  forall t, 0 <= t < b_critical b ->
    (forall x, exists! x0, x0 + b_u0 b x0 * t = x) /\
    (forall x0 r, burgers_exact newton b (x0 + b_u0 b x0 * t) t = Ok r -> r = b_u0 b x0) /\
    (forall x r, t = 0 -> burgers_exact newton b x t = Ok r -> r = b_u0 b x).
Proof.
  intros newton e b HN Hb He.
  assert (K : (forall y, is_derive (b_u0 b) y (b_du0 b y)) /\ (exists M, forall y, Rabs (b_u0 b y) <= M) /\ forall t, 0 <= t < b_critical b -> forall y, -1 < t * b_du0 b y).
  { pose proof PI_RGT_0. destruct Hb as [-> | ->]; cbn [shock_benchmark smooth_benchmark b_u0 b_du0 b_critical].
    - split; [apply shock_derive|]. split; [exists 1; intro; apply Rabs_le, SIN_bound|]. intros t Ht y.
      assert (T : t * (2 * PI) < 1) by (apply (Rmult_lt_reg_r (/ (2 * PI))); [apply Rinv_0_lt_compat; lra|]; rewrite Rmult_assoc, Rinv_r by lra; lra).
      pose proof (COS_bound (2 * PI * y)). assert (0 <= t * (2 * PI)) by (apply Rmult_le_pos; lra). replace (t * (2 * PI * cos (2 * PI * y))) with (t * (2 * PI) * cos (2 * PI * y)) by ring. nra.
    - split; [apply smooth_derive|]. split; [exists 2; intro y; pose proof (SIN_bound y); apply Rabs_le; lra|]. intros t Ht y. pose proof (COS_bound y). nra. }
  destruct K as [K1 [[M K2] K3]].
  assert (X : forall t x0 u, 0 <= t < b_critical b -> burgers_func (b_u0 b) (x0 + b_u0 b x0 * t) t u = 0 -> u = b_u0 b x0).
  { intros t x0 u Ht Hu. apply (func_unique (b_u0 b) (b_du0 b) t K1 (K3 t Ht) (x0 + b_u0 b x0 * t)); [auto|].
    unfold burgers_func. replace (x0 + b_u0 b x0 * t - b_u0 b x0 * t) with x0 by ring. ring. }
  assert (Y : forall x t r, burgers_exact newton b x t = Ok r -> burgers_func (b_u0 b) x t r = 0).
  { intros x t r E. unfold burgers_exact in E. destruct (Rltb_spec (b_critical b + / 10 ^ 15) (b_end b)); [discriminate|]. apply HN in E. exact E. }
  split; [intros; apply func_derive; apply K1|]. intros t Ht. split; [|split].
  - intro x. destruct (func_root (b_u0 b) (b_du0 b) t K1 M x K2) as [u Hu]. exists (x - u * t). assert (U : b_u0 b (x - u * t) = u) by (unfold burgers_func in Hu; lra).
    split; [rewrite U; ring|]. intros x1 H1. rewrite <- H1 in Hu. apply X in Hu; [|auto]. rewrite Hu, <- H1. ring.
  - intros x0 r E. apply Y in E. apply (X t x0 r Ht E).
  - intros x r -> E. apply Y in E. unfold burgers_func in E. rewrite Rmult_0_r, Rminus_0_r in E. lra.
Qed.
Print Assumptions C49_burgers.

(** The critical times are right: later characteristics with different values cross. An end time after the critical one makes exact_solution
    raise AttributeError at every point and time; the default end time of the shock benchmark is such a one. *)
Theorem C49_burgers_critical : forall newton e b, b = shock_benchmark e \/ b = smooth_benchmark e ->
  (forall t, b_critical b < t -> exists x0 x1, x0 + b_u0 b x0 * t = x1 + b_u0 b x1 * t /\ b_u0 b x0 <> b_u0 b x1) /\
  (b_critical b + / 10 ^ 15 < e -> forall x t, burgers_exact newton b x t = Err AttributeError) /\
  (forall x t, burgers_exact newton (shock_benchmark burgers_default_end) x t = Err AttributeError).
Proof.
  intros newton e b Hb. pose proof PI_RGT_0 as Ppi. pose proof PI2_1 as P2.
  assert (Cross : forall T, 1 < T -> exists s, 0 < s < PI /\ s = T * sin s).
  { intros T HT. (* on (0, s1) with sin s1 close to s1 the right hand side is larger, at PI it is zero *)
    assert (Hloc : exists s1, 0 < s1 < PI /\ 0 <= T * sin s1 - s1).
    { assert (D : is_derive (fun s => T * sin s - s) 0 (T * cos 0 - 1)) by (auto_derive; [auto|ring]). rewrite cos_0 in D.
      apply is_derive_Reals in D. destruct (D (T - 1)) as [dl Hdl]; [lra|]. set (h := Rmin (dl / 2) 1). pose proof (cond_pos dl).
      assert (Hh : 0 < h) by (unfold h; apply Rmin_glb_lt; lra). assert (h <= dl / 2) by apply Rmin_l. assert (h <= 1) by apply Rmin_r.
      specialize (Hdl h ltac:(lra) ltac:(rewrite Rabs_pos_eq; lra)). rewrite Rplus_0_l, sin_0 in Hdl. apply Rabs_def2 in Hdl. destruct Hdl as [_ Hdl].
      exists h. split; [lra|]. apply Rmult_le_reg_r with (/ h); [apply Rinv_0_lt_compat; lra|]. unfold Rdiv in Hdl. lra. }
    destruct Hloc as [s1 [S1 S2]]. destruct (IVT_cor (fun s => T * sin s - s) s1 PI) as [s [S3 S4]]; [|lra|rewrite sin_PI; nra|].
    - reg.
    - exists s. split; [|lra]. split; [lra|]. destruct (Rlt_or_le s PI) as [L|L]; [auto|]. assert (s = PI) by lra. subst s. rewrite sin_PI in S4. lra. }
  split; [|split].
  - intros t Ht. destruct Hb as [-> | ->]; cbn [shock_benchmark smooth_benchmark b_u0 b_critical] in *.
    + assert (T : 1 < 2 * PI * t). { apply (Rmult_lt_reg_r (/ (2 * PI))); [apply Rinv_0_lt_compat; lra|]. replace (2 * PI * t * / (2 * PI)) with t by (field; lra). lra. }
      destruct (Cross _ T) as [s [Hs E]]. exists (1 / 2 - s / (2 * PI)), (1 / 2 + s / (2 * PI)).
      replace (2 * PI * (1 / 2 - s / (2 * PI))) with (PI - s) by (field; lra). replace (2 * PI * (1 / 2 + s / (2 * PI))) with (s + PI) by (field; lra).
      rewrite sin_PI_x, neg_sin. assert (0 < sin s) by (apply sin_gt_0; lra). split; [|lra].
      rewrite E at 1 3. field. lra.
    + destruct (Cross t Ht) as [s [Hs E]]. exists (PI - s), (s + PI). rewrite sin_PI_x, neg_sin. assert (0 < sin s) by (apply sin_gt_0; lra). split; lra.
  - intros L x t. unfold burgers_exact. replace (b_end b) with e by (destruct Hb as [-> | ->]; reflexivity). destruct (Rltb_spec (b_critical b + / 10 ^ 15) e); [reflexivity|lra].
  - intros x t. unfold burgers_exact. cbn [shock_benchmark b_critical b_end]. unfold burgers_default_end.
    destruct (Rltb_spec (1 / (2 * PI) + / 10 ^ 15) (1 / 2)) as [|N]; [reflexivity|]. exfalso. apply N.
    assert (1 / (2 * PI) < 1 / 4) by (unfold Rdiv; rewrite !Rmult_1_l; apply Rinv_lt_contravar; lra).
    assert (/ 10 ^ 15 < / 4). { apply Rinv_lt_contravar; [|]; cbn; lra. } lra.
Qed.
Print Assumptions C49_burgers_critical.
Example C49_burgers_ex : 1 / 10 < b_critical (shock_benchmark (1 / 10)).
Proof. cbn. pose proof PI_4. pose proof PI2_1. unfold Rdiv. rewrite !Rmult_1_l. apply Rinv_lt_contravar; lra. Qed.
