(** C49: the shallow water benchmarks. *)
From Coq Require Import Reals List Lia Lra Arith Bool ZArith.
From Coquelicot Require Import Coquelicot.
From Verif Require Import Prelude L_Prelude M_Mesh M_Flux L_Flux M_ShallowWater M_Benchmark S_Benchmark P_Benchmark.
Import ListNotations.
Open Scope R_scope.

Lemma locally_pos (f : R -> R) x : ex_derive f x -> 0 < f x -> locally x (fun y => 0 < f y).
Proof.
  intros D H. apply ex_derive_continuous in D. apply D. exists (mkposreal (f x) H). intros y Hy. cbn in Hy. unfold ball in Hy. cbn in Hy. unfold AbsRing_ball, abs, minus, plus, opp in Hy. cbn in Hy.
  apply Rabs_def2 in Hy. lra.
Qed.
Lemma locally_and2 (P Q : R -> Prop) x : locally x P -> locally x Q -> locally x (fun y => P y /\ Q y).
Proof. intros; apply filter_and; auto. Qed.

Ltac der D := match type of D with is_derive ?f ?x ?l => replace (Derive (fun y : R => f y) x) with l by (symmetry; apply is_derive_unique; exact D) end.
Ltac ib H a E := apply bind_ok in H as [a [E H]].
(** Only the values near the point matter. *)
Lemma solves_loc g b b' w w' x t :
  locally t (fun s => w' x s = w x s) -> locally x (fun y => w' y t = w y t) -> locally x (fun y => b' y = b y) ->
  solves_at g b' w' x t -> solves_at g b w x t.
Proof.
  intros Ht Hx Hb [ht [qx [qt [fx [bx [D1 [D2 [D3 [D4 [D5 [E1 E2]]]]]]]]]]]. exists ht, qx, qt, fx, bx.
  split; [apply (is_derive_ext_loc (fun s => fst (w' x s))); [|exact D1]; revert Ht; apply filter_imp; intros y ->; reflexivity|].
  split; [apply (is_derive_ext_loc (fun y => snd (w' y t))); [|exact D2]; revert Hx; apply filter_imp; intros y ->; reflexivity|].
  split; [apply (is_derive_ext_loc (fun s => snd (w' x s))); [|exact D3]; revert Ht; apply filter_imp; intros y ->; reflexivity|].
  split; [apply (is_derive_ext_loc (fun y => snd (w' y t) ^ 2 / fst (w' y t) + g * fst (w' y t) ^ 2 / 2)); [|exact D4]; revert Hx; apply filter_imp; intros y ->; reflexivity|].
  split; [apply (is_derive_ext_loc b'); [exact Hb|exact D5]|]. split; [exact E1|]. rewrite <- (locally_singleton _ _ Hx). exact E2.
Qed.
(** steady solutions: constant discharge q0 and, where it flows, constant energy *)
Lemma steady_solves g b h q0 x t hx bx : h x <> 0 -> is_derive h x hx -> is_derive b x bx ->
  (g * (hx + bx) = q0 ^ 2 / h x ^ 3 * hx) -> solves_at g b (fun y _ => (h y, q0)) x t.
Proof.
  intros Hp Dh Db E. exists 0, 0, 0, (- q0 ^ 2 / h x ^ 2 * hx + g * h x * hx), bx. cbn [fst snd].
  split; [apply @is_derive_const|]. split; [apply @is_derive_const|]. split; [apply @is_derive_const|]. split; [|split; [exact Db|split; [ring|]]].
  - auto_derive; [split; [exists hx; exact Dh|split; [exact Hp|split; [exists hx; exact Dh|auto]]]|]. der Dh. field. exact Hp.
  - assert (X : g * h x * (hx + bx) = q0 ^ 2 / h x ^ 2 * hx). { replace (g * h x * (hx + bx)) with (h x * (g * (hx + bx))) by ring. rewrite E. field. exact Hp. } lra.
Qed.

(** Lakes at rest: non-negative bottom below the surface, constant surface, no flow; they solve the equations at all times
    (everywhere but at the two kinks of the bottom). *)
Theorem C49_lake_at_rest : forall x t g,
  0 <= bump x <= 2 / 10 /\ fst (lake_exact x t) + bump x = 2 /\ snd (lake_exact x t) = 0 /\ 18 / 10 <= fst (lake_exact x t) /\
  8 / 10 <= fst (perturbed_lake_initial x) /\ snd (perturbed_lake_initial x) = 0 /\
  (x < 575 / 100 \/ 625 / 100 <= x -> fst (perturbed_lake_initial x) + bump x = 1) /\
  (x <> 8 -> x <> 12 -> solves_at g bump lake_exact x t).
Proof.
  intros x t g. assert (B : 0 <= bump x <= 2 / 10). { unfold bump. cmp. assert (0 <= (x - 8) * (12 - x)) by (apply Rmult_le_pos; lra). pose proof (pow2_ge_0 (x - 10)). nra. }
  unfold lake_exact, lake_initial, perturbed_lake_initial. cbn [fst snd]. split; [auto|]. split; [ring|]. split; [auto|]. split; [lra|].
  split; [cmp; cbn [fst]; lra|]. split; [cmp; reflexivity|]. split; [intro; cmp; cbn [fst]; lra|].
  intros N8 N12.
  assert (G : forall b' bx, is_derive b' x bx -> locally x (fun y => b' y = bump y) -> solves_at g bump (fun y _ => (2 - bump y, 0)) x t).
  { intros b' bx Db Hl. assert (D : is_derive bump x bx) by (apply (is_derive_ext_loc b'); auto). apply (steady_solves g bump (fun y => 2 - bump y) 0 x t (- bx) bx).
    - lra.
    - auto_derive; [exists bx; exact D|]. der D. ring.
    - exact D.
    - field. lra. }
  destruct (Rlt_dec x 8) as [L|L]; [|destruct (Rlt_dec x 12) as [L'|L']].
  - apply (G (fun _ => 0) 0); [apply @is_derive_const|]. assert (A := locally_pos (fun y => 8 - y) x ltac:(auto_derive; auto) ltac:(lra)). revert A. apply filter_imp. intros y Hy. unfold bump. cmp.
  - apply (G (fun y => (4 - (y - 10) ^ 2) / 20) (- 2 * (x - 10) / 20)); [auto_derive; [auto|field]|].
    assert (A := locally_and2 _ _ x (locally_pos (fun y => 12 - y) x ltac:(auto_derive; auto) ltac:(lra)) (locally_pos (fun y => y - 8) x ltac:(auto_derive; auto) ltac:(lra))). revert A. apply filter_imp. intros y [H1 H2]. unfold bump. cmp.
  - apply (G (fun _ => 0) 0); [apply @is_derive_const|]. assert (A := locally_pos (fun y => y - 12) x ltac:(auto_derive; auto) ltac:(lra)). revert A. apply filter_imp. intros y Hy. unfold bump. cmp.
Qed.
Print Assumptions C49_lake_at_rest.

(** Moving water over a bump: whatever root newton returns, discharge and energy have the given values; where the height is
    differentiable and the bottom is, this is a steady solution. *)
Theorem C49_moving_water : forall newton g K1 K2, finds_roots newton ->
  (forall x h q, moving_initial newton g K1 K2 x = Ok (h, q) -> q = K1 /\ (h <> 0 -> (q / h) ^ 2 / 2 + g * (h + cos_bump x) = K2)) /\
  (forall x, 0 <= cos_bump x <= 1 / 2) /\ cos_bump (1 / 10) = 0 /\ cos_bump (-1 / 10) = 0 /\
  (forall h x t hx bx, (forall y, moving_initial newton g K1 K2 y = Ok (h y, K1)) -> (forall y, h y <> 0) -> is_derive h x hx -> is_derive cos_bump x bx ->
     solves_at g cos_bump (fun y _ => (h y, K1)) x t).
Proof.
  intros newton g K1 K2 HN.
  assert (E : forall x h q, moving_initial newton g K1 K2 x = Ok (h, q) -> q = K1 /\ (h <> 0 -> (q / h) ^ 2 / 2 + g * (h + cos_bump x) = K2)).
  { intros x h q H. unfold moving_initial in H. ib H r E0. apply HN in E0. apply Ok_inj in H. injection H as -> <-. split; [auto|]. intro Nz. unfold moving_func in E0.
    replace ((K1 / h) ^ 2 / 2) with (K1 ^ 2 / (2 * h ^ 2)) by (field; auto). lra. }
  split; [exact E|]. split; [intro x; unfold cos_bump; cmp; pose proof (COS_bound (10 * PI * (x + 1))); lra|].
  assert (P : forall z, cos (PI + 2 * IZR z * PI) = -1). { intro z. rewrite <- cos_PI. pose proof (cos_period PI). destruct z as [|p|p].
    - f_equal. ring.
    - rewrite <- (positive_nat_Z p), <- INR_IZR_INZ. apply cos_period.
    - rewrite <- (cos_period (PI + 2 * IZR (Z.neg p) * PI) (Pos.to_nat p)). f_equal. rewrite INR_IZR_INZ, positive_nat_Z. change (Z.neg p) with (- Z.pos p)%Z. rewrite opp_IZR. ring. }
  split; [unfold cos_bump; cmp; replace (10 * PI * (1 / 10 + 1)) with (PI + 2 * IZR 5 * PI) by (cbn; field); rewrite P; field|].
  split; [unfold cos_bump; cmp; replace (10 * PI * (-1 / 10 + 1)) with (PI + 2 * IZR 4 * PI) by (cbn; field); rewrite P; field|].
  intros h x t hx bx Hh Nz Dh Db. apply (steady_solves g cos_bump h K1 x t hx bx); auto.
  assert (D : is_derive (fun y => (K1 / h y) ^ 2 / 2 + g * (h y + cos_bump y)) x (- K1 ^ 2 / h x ^ 3 * hx + g * (hx + bx))).
  { auto_derive; [repeat split; auto; [exists hx; auto|exists hx; auto|exists bx; auto]|]. der Dh; der Db. field. auto. }
  assert (D0 : is_derive (fun y => (K1 / h y) ^ 2 / 2 + g * (h y + cos_bump y)) x 0).
  { apply (is_derive_ext (fun _ => K2)); [intro y; symmetry; apply (E y (h y) K1); auto|apply @is_derive_const]. }
  apply is_derive_unique in D. apply is_derive_unique in D0. rewrite D0 in D. unfold Rdiv in *. lra.
Qed.
Print Assumptions C49_moving_water.

(** Oscillations: with integer wave numbers the initial data are periodic on the domain [0, 100]; the height lies between average minus and
    plus amplitude. Random benchmarks have positive height and periodic data for all random numbers. *)
Lemma sin_shift x n : sin (x + 2 * INR n * PI) = sin x.
Proof. apply sin_period. Qed.
Theorem C49_oscillations : forall o x,
  Rabs (fst (osc_initial o x) - h0 o) <= Rabs (Ah o) /\
  snd (osc_initial o x) = fst (osc_initial o x) * (v0 o + Av o * sin (kv o * 2 * PI * x / 100 + pv o)) /\
  (forall i j : nat, kh o = INR i -> kv o = INR j -> osc_initial o (x + 100) = osc_initial o x) /\
  (forall d, 2 / 10 <= d_Ah d <= 6 / 10 -> let o := random_oscillation None None None None None None None None d in
     14 / 10 <= fst (osc_initial o x) <= 26 / 10 /\ osc_initial o (x + 100) = osc_initial o x).
Proof.
  assert (P : forall o x, forall i j : nat, kh o = INR i -> kv o = INR j -> osc_initial o (x + 100) = osc_initial o x).
  { intros o x i j Hi Hj. unfold osc_initial, osc_length. rewrite Hi, Hj.
    assert (S : forall k p, sin (INR k * 2 * PI * (x + 100) / 100 + p) = sin (INR k * 2 * PI * x / 100 + p)).
    { intros k p. rewrite <- (sin_period (INR k * 2 * PI * x / 100 + p) k). apply (f_equal sin). field. } rewrite !S. reflexivity. }
  intros o x. split; [|split; [reflexivity|split; [apply P|]]].
  - unfold osc_initial. cbn [fst]. match goal with |- Rabs (h0 o + Ah o * sin ?z - h0 o) <= _ => replace (h0 o + Ah o * sin z - h0 o) with (Ah o * sin z) by ring; pose proof (SIN_bound z) as S end.
    rewrite Rabs_mult. rewrite <- (Rmult_1_r (Rabs (Ah o))) at 2. apply Rmult_le_compat_l; [apply Rabs_pos|]. apply Rabs_le. lra.
  - intros d Hd o'. split; [|apply (P o' x (d_kh d) (d_kv d)); reflexivity]. unfold osc_initial, o', random_oscillation, new_oscillation. cbn [fst h0 Ah if_none py_or].
    match goal with |- _ <= 2 + d_Ah d * sin ?z <= _ => pose proof (SIN_bound z) as S end. nra.
Qed.
Print Assumptions C49_oscillations.
(** A given amplitude, phase shift, wave number or velocity of zero is ignored by random benchmarks. *)
Theorem C49_random_zero_parameters_ignored : forall d, 
  Ah (random_oscillation None (Some 0) None None None None None None d) = d_Ah d /\ v0 (random_oscillation None None None None (Some 0) None None None d) = d_v0 d.
Proof. intro d. unfold random_oscillation, new_oscillation, py_or. cbn [Ah v0 if_none]. destruct (Reqb_spec 0 0); [auto|lra]. Qed.
Print Assumptions C49_random_zero_parameters_ignored.

(** ** the dam break *)
Section Dam.
Context (newton : (R -> R) -> R -> result R) (hl hr xd g : R) (d : dam).
Hypothesis Hg : 0 < g.
Hypothesis Hr : 0 < hr.
Hypothesis Hlr : hr < hl.
Hypothesis HN : forall r, newton (dam_func (sqrt (g * hl)) (sqrt (g * hr))) ((sqrt (g * hl) + sqrt (g * hr)) / 2) = Ok r ->
  dam_func (sqrt (g * hl)) (sqrt (g * hr)) r = 0 /\ sqrt (g * hr) < r < sqrt (g * hl).
Hypothesis Hd : new_dam newton hl hr xd g = Ok d.
Lemma dam_facts : dam_g d = g /\ dam_x d = xd /\ dam_hl d = hl /\ dam_hr d = hr /\ 0 < dam_cr d < dam_cm d /\ dam_cm d < dam_cl d /\
  dam_cl d ^ 2 = g * hl /\ dam_cr d ^ 2 = g * hr /\ dam_cm d ^ 2 = g * dam_hm d /\ dam_um d = 2 * (dam_cl d - dam_cm d) /\
  dam_v d * (dam_hm d - hr) = dam_hm d * dam_um d /\ hr < dam_hm d < hl /\
  dam_hm d * hr * dam_um d ^ 2 * 2 = g * (dam_hm d - hr) ^ 2 * (dam_hm d + hr).
Proof.
  unfold new_dam in Hd. destruct (Rltb_spec hr hl) as [_|]; [|lra]. ib Hd cm E0. destruct (HN _ E0) as [Rt [C1 C2]].
  set (cl := sqrt (g * hl)) in *. set (cr := sqrt (g * hr)) in *.
  assert (Scl : cl ^ 2 = g * hl) by (unfold cl; apply pow2_sqrt; nra). assert (Scr : cr ^ 2 = g * hr) by (unfold cr; apply pow2_sqrt; nra).
  assert (Pcr : 0 < cr) by (apply sqrt_lt_R0; nra).
  ib Hd hm Eq1. unfold rdiv in Eq1. destruct (Reqb_spec g 0); [lra|]. apply Ok_inj in Eq1. ib Hd v Eq2. unfold rdiv in Eq2. destruct (Reqb_spec (hm - hr) 0) as [|Nz]; [discriminate|]. apply Ok_inj in Eq2.
  apply Ok_inj in Hd. rewrite <- Hd. cbn [dam_g dam_x dam_hl dam_hr dam_cl dam_cr dam_cm dam_hm dam_um dam_v].
  assert (Sm : cm ^ 2 = g * hm) by (rewrite <- Eq1; field; lra).
  split; [auto|]. split; [auto|]. split; [auto|]. split; [auto|]. split; [auto|]. split; [auto|]. split; [auto|]. split; [auto|]. split; [auto|]. split; [auto|].
  split; [rewrite <- Eq2; field; auto|].
  assert (A1 : cr ^ 2 < cm ^ 2) by nra. assert (A2 : cm ^ 2 < cl ^ 2) by nra. split; [split; apply (Rmult_lt_reg_l g); lra|].
  (* the polynomial *)
  assert (Pol : (cm ^ 2 - cr ^ 2) ^ 2 * (cm ^ 2 + cr ^ 2) = 8 * cr ^ 2 * cm ^ 2 * (cl - cm) ^ 2) by (unfold dam_func in Rt; nra || (apply Rminus_diag_uniq; rewrite <- Rt; ring)).
  rewrite Sm, Scr in Pol. apply (Rmult_eq_reg_l (g ^ 2)); [|apply pow_nonzero; lra].
  apply (Rmult_eq_reg_l 1); [|lra]. transitivity (8 * (g * hr) * (g * hm) * (cl - cm) ^ 2); [ring|]. rewrite <- Pol. ring.
Qed.
End Dam.

(** The dam break: with the intermediate speed found as a root between the two others, the exact solution is defined at all times t >= 0 and points,
    starts at the initial data, has a height between the two given ones, is continuous at both ends of the rarefaction, solves the
    equations between the waves, and at the shock satisfies the Rankine-Hugoniot conditions and the Lax entropy condition. *)
Theorem C49_dam_break : forall newton hl hr xd g d, 0 < g -> 0 < hr -> hr < hl ->
  (forall r, newton (dam_func (sqrt (g * hl)) (sqrt (g * hr))) ((sqrt (g * hl) + sqrt (g * hr)) / 2) = Ok r ->
     dam_func (sqrt (g * hl)) (sqrt (g * hr)) r = 0 /\ sqrt (g * hr) < r < sqrt (g * hl)) ->
  new_dam newton hl hr xd g = Ok d ->
  exists w, (forall x t, 0 <= t -> dam_exact d x t = Ok (w x t)) /\
  (forall x, w x 0 = dam_initial d x) /\
  (forall x t, 0 <= t -> hr <= fst (w x t) <= hl) /\
  forall t, 0 < t ->
    dam_xA d t < dam_xB d t < dam_xC d t /\
    (forall x, x < dam_xA d t -> w x t = (hl, 0)) /\ (forall x, dam_xC d t < x -> w x t = (hr, 0)) /\
    (forall x, x = dam_xA d t \/ x = dam_xB d t -> continuous (fun y => fst (w y t)) x /\ continuous (fun y => snd (w y t)) x) /\
    (forall x, x <> dam_xA d t -> x <> dam_xB d t -> x <> dam_xC d t -> solves_at g (fun _ => 0) w x t) /\
    rankine_hugoniot g (dam_v d) (fst (w (dam_xC d t) t)) (snd (w (dam_xC d t) t)) hr 0 /\
    sqrt (g * hr) < dam_v d < snd (w (dam_xC d t) t) / fst (w (dam_xC d t) t) + sqrt (g * fst (w (dam_xC d t) t)).
Proof.
  intros newton hl hr xd g d Hg Hr Hlr HN Hd.
  destruct (dam_facts newton hl hr xd g d Hg Hr Hlr HN Hd) as [F1 [F2 [F3 [F4 [[F5 F6] [F7 [F8 [F9 [F10 [F11 [F12 [[F13 F14] F15]]]]]]]]]]]].
  set (cl := dam_cl d) in *. set (cr := dam_cr d) in *. set (cm := dam_cm d) in *. set (hm := dam_hm d) in *. set (um := dam_um d) in *. set (v := dam_v d) in *.
  assert (Pum : 0 < um) by lra.
  assert (Pv : um < v). { apply (Rmult_lt_reg_r (hm - hr)); [lra|]. rewrite F12. nra. }
  set (fan := fun x t : R => (4 / (9 * g) * (cl - (x - xd) / (2 * t)) ^ 2, 4 / (9 * g) * (cl - (x - xd) / (2 * t)) ^ 2 * (2 / 3 * ((x - xd) / t + cl)))).
  set (w := fun x t : R => if Rleb x (dam_xA d t) then (hl, 0) else if Rleb x (dam_xB d t) then fan x t else if Rleb x (dam_xC d t) then (hm, hm * um) else (hr, 0)).
  assert (XA : forall t, dam_xA d t = xd - t * cl) by (intro; unfold dam_xA; rewrite F2; auto).
  assert (XB : forall t, dam_xB d t = xd + t * (2 * cl - 3 * cm)) by (intro; unfold dam_xB; rewrite F2; auto).
  assert (XC : forall t, dam_xC d t = xd + v * t) by (intro; unfold dam_xC; rewrite F2; auto).
  assert (Ord : forall t, 0 < t -> dam_xA d t < dam_xB d t < dam_xC d t) by (intros t Ht; rewrite XA, XB, XC; split; nra).
  exists w.
  assert (Fh : forall x t, 0 < t -> fst (fan x t) = hl -> True) by auto.
  assert (FanA : forall t, 0 < t -> fan (dam_xA d t) t = (hl, 0)).
  { intros t Ht. unfold fan. rewrite XA. replace ((xd - t * cl - xd) / (2 * t)) with (- cl / 2) by (field; lra). replace ((xd - t * cl - xd) / t) with (- cl) by (field; lra).
    f_equal; [|ring]. replace (4 / (9 * g) * (cl - - cl / 2) ^ 2) with (cl ^ 2 / g) by (field; lra). rewrite F8. field. lra. }
  assert (FanB : forall t, 0 < t -> fan (dam_xB d t) t = (hm, hm * um)).
  { intros t Ht. unfold fan. rewrite XB. replace ((xd + t * (2 * cl - 3 * cm) - xd) / (2 * t)) with (cl - 3 * cm / 2) by (field; lra). replace ((xd + t * (2 * cl - 3 * cm) - xd) / t) with (2 * cl - 3 * cm) by (field; lra).
    replace (4 / (9 * g) * (cl - (cl - 3 * cm / 2)) ^ 2) with hm; [f_equal; rewrite F11; field|]. replace (4 / (9 * g) * (cl - (cl - 3 * cm / 2)) ^ 2) with (cm ^ 2 / g) by (field; lra). rewrite F10. field. lra. }
  assert (Fanr : forall x t, 0 < t -> dam_xA d t <= x <= dam_xB d t -> hm <= fst (fan x t) <= hl).
  { intros x t Ht Hx. rewrite XA, XB in Hx. unfold fan. cbn [fst]. set (y := (x - xd) / (2 * t)).
    assert (Y : (x - xd) = 2 * t * y) by (unfold y; field; lra). assert (- cl / 2 <= y) by nra. assert (y <= cl - 3 / 2 * cm) by nra.
    assert (Z : 9 / 4 * cm ^ 2 <= (cl - y) ^ 2 <= 9 / 4 * cl ^ 2) by (split; nra). rewrite F10, F8 in Z.
    assert (I : 0 < 4 / (9 * g)) by (apply Rdiv_lt_0_compat; lra).
    split.
    - replace hm with (4 / (9 * g) * (9 / 4 * (g * hm))) by (field; lra). apply Rmult_le_compat_l; lra.
    - replace hl with (4 / (9 * g) * (9 / 4 * (g * hl))) by (field; lra). apply Rmult_le_compat_l; lra. }
  split.
  { intros x t Ht. unfold dam_exact, w. rewrite F3, F4. destruct (Rleb_spec x (dam_xA d t)); [reflexivity|]. destruct (Rleb_spec x (dam_xB d t)) as [L|]; [|destruct (Rleb_spec x (dam_xC d t)); reflexivity].
    assert (Pt : 0 < t). { destruct Ht as [|<-]; [auto|]. rewrite XA in *. rewrite XB in L. lra. }
    unfold rdiv. destruct (Reqb_spec (2 * t) 0); [lra|]. cbn [bind]. destruct (Reqb_spec t 0); [lra|]. cbn [bind]. unfold fan. rewrite F1, F2. reflexivity. }
  split.
  { intro x. unfold w, dam_initial. rewrite F3, F4, F2, XA, XB, XC. cmp; reflexivity. }
  split.
  { intros x t Ht. unfold w. destruct (Rleb_spec x (dam_xA d t)); [cbn [fst]; lra|]. destruct (Rleb_spec x (dam_xB d t)) as [L|]; [|destruct (Rleb_spec x (dam_xC d t)); cbn [fst]; lra].
    assert (Pt : 0 < t). { destruct Ht as [|<-]; [auto|]. rewrite XA in *. rewrite XB in L. lra. } assert (X := Fanr x t Pt ltac:(lra)). lra. }
  intros t Ht. specialize (Ord t Ht) as Or. split; [exact Or|].
  split; [intros x Hx; unfold w; cmp; reflexivity|]. split; [intros x Hx; unfold w; cmp; reflexivity|].
  assert (Cf : forall x, continuous (fun y => fst (fan y t)) x /\ continuous (fun y => snd (fan y t)) x).
  { intro x. split; apply (@ex_derive_continuous R_AbsRing R_NormedModule); unfold fan; cbn [fst snd]; auto_derive; repeat split; lra. }
  split.
  { (* one continuous formula near each end *)
    assert (Glue : forall (f f1 f2 : R -> R) z, continuous f1 z -> continuous f2 z -> f1 z = f z -> f2 z = f z -> locally z (fun y => (y <= z -> f y = f1 y) /\ (z <= y -> f y = f2 y)) -> continuous f z).
    { intros f f1 f2 z C1 C2 E1 E2 Hl P [eps He].
      assert (N1 : locally z (fun y => ball (f z) eps (f1 y))). { rewrite <- E1. apply C1. exists eps. auto. }
      assert (N2 : locally z (fun y => ball (f z) eps (f2 y))). { rewrite <- E2. apply C2. exists eps. auto. }
      unfold filtermap; generalize (filter_and _ _ Hl (filter_and _ _ N1 N2)). apply filter_imp. intros y [[A B] [N1' N2']]. apply He. destruct (Rle_dec y z) as [L|L]; [rewrite A by auto; exact N1'|rewrite B by lra; exact N2']. }
    assert (LA : locally (dam_xA d t) (fun y => y < dam_xB d t)). { assert (A := locally_pos (fun y => dam_xB d t - y) (dam_xA d t) ltac:(auto_derive; auto) ltac:(lra)). revert A. apply filter_imp. intros; lra. }
    assert (LB : locally (dam_xB d t) (fun y => dam_xA d t < y < dam_xC d t)). { assert (A := locally_and2 _ _ _ (locally_pos (fun y => dam_xC d t - y) (dam_xB d t) ltac:(auto_derive; auto) ltac:(lra)) (locally_pos (fun y => y - dam_xA d t) (dam_xB d t) ltac:(auto_derive; auto) ltac:(lra))). revert A. apply filter_imp. intros y [? ?]; lra. }
    assert (VA : w (dam_xA d t) t = (hl, 0)) by (unfold w; cmp; reflexivity). assert (VB : w (dam_xB d t) t = (hm, hm * um)) by (unfold w; cmp; apply FanB; auto).
    intros x [-> | ->]; split.
    - apply (Glue _ (fun _ => hl) (fun y => fst (fan y t))); [apply continuous_const|apply Cf|rewrite VA; auto|rewrite VA, FanA; auto|].
      revert LA. apply filter_imp. intros y Hy. split; intro; unfold w; cmp; try reflexivity. assert (y = dam_xA d t) by lra. subst y. rewrite FanA; auto.
    - apply (Glue _ (fun _ => 0) (fun y => snd (fan y t))); [apply continuous_const|apply Cf|rewrite VA; auto|rewrite VA, FanA; auto|].
      revert LA. apply filter_imp. intros y Hy. split; intro; unfold w; cmp; try reflexivity. assert (y = dam_xA d t) by lra. subst y. rewrite FanA; auto.
    - apply (Glue _ (fun y => fst (fan y t)) (fun _ => hm)); [apply Cf|apply continuous_const|rewrite VB, FanB; auto|rewrite VB; auto|].
      revert LB. apply filter_imp. intros y Hy. split; intro; unfold w; cmp; try reflexivity. assert (y = dam_xB d t) by lra. subst y. rewrite FanB; auto.
    - apply (Glue _ (fun y => snd (fan y t)) (fun _ => hm * um)); [apply Cf|apply continuous_const|rewrite VB, FanB; auto|rewrite VB; auto|].
      revert LB. apply filter_imp. intros y Hy. split; intro; unfold w; cmp; try reflexivity. assert (y = dam_xB d t) by lra. subst y. rewrite FanB; auto. }
  assert (Const : forall hc qc x, hc <> 0 -> solves_at g (fun _ => 0) (fun _ _ => (hc, qc)) x t).
  { intros hc qc x Nz. apply (steady_solves g (fun _ => 0) (fun _ => hc) qc x t 0 0); auto; [apply @is_derive_const|apply @is_derive_const|ring]. }
  split.
  { intros x N1 N2 N3. destruct (Rlt_dec x (dam_xA d t)) as [L|L]; [|destruct (Rlt_dec x (dam_xB d t)) as [L'|L']; [|destruct (Rlt_dec x (dam_xC d t)) as [L''|L'']]].
    - apply (solves_loc g _ (fun _ => 0) w (fun _ _ => (hl, 0))); [| |apply filter_forall; auto|apply Const; lra].
      + assert (A := locally_pos (fun s => dam_xA d s - x) t ltac:(unfold dam_xA; auto_derive; auto) ltac:(lra)). revert A. apply filter_imp. intros s Hs. unfold w. cmp. reflexivity.
      + assert (A := locally_pos (fun y => dam_xA d t - y) x ltac:(auto_derive; auto) ltac:(lra)). revert A. apply filter_imp. intros s Hs. unfold w. cmp. reflexivity.
    - apply (solves_loc g _ (fun _ => 0) w fan); [| |apply filter_forall; auto|].
      + assert (A := locally_and2 _ _ _ (locally_pos (fun s => x - dam_xA d s) t ltac:(unfold dam_xA; auto_derive; auto) ltac:(lra)) (locally_pos (fun s => dam_xB d s - x) t ltac:(unfold dam_xB; auto_derive; auto) ltac:(lra))).
        revert A. apply filter_imp. intros s [? ?]. unfold w. cmp. reflexivity.
      + assert (A := locally_and2 _ _ _ (locally_pos (fun y => y - dam_xA d t) x ltac:(auto_derive; auto) ltac:(lra)) (locally_pos (fun y => dam_xB d t - y) x ltac:(auto_derive; auto) ltac:(lra))).
        revert A. apply filter_imp. intros s [? ?]. unfold w. cmp. reflexivity.
      + assert (Pf : 0 < cl - (x - xd) / (2 * t)). { rewrite XB in L'. apply (Rmult_lt_reg_r (2 * t)); [lra|]. replace ((cl - (x - xd) / (2 * t)) * (2 * t)) with (2 * t * cl - (x - xd)) by (field; lra). nra. }
        set (y := (x - xd) / (2 * t)) in *.
        exists (4 / (9 * g) * (2 * (cl - y) * (y / t))), (4 / (9 * g) * (2 * (cl - y) * (- / (2 * t)) * (2 / 3 * (2 * y + cl)) + (cl - y) ^ 2 * (2 / 3 * / t))),
          (4 / (9 * g) * (2 * (cl - y) * (y / t) * (2 / 3 * (2 * y + cl)) + (cl - y) ^ 2 * (2 / 3 * (- 2 * y / t)))),
          (- (4 / (9 * g) * (2 * (cl - y) * (y / t) * (2 / 3 * (2 * y + cl)) + (cl - y) ^ 2 * (2 / 3 * (- 2 * y / t))))), 0.
        unfold fan. cbn [fst snd].
        split; [auto_derive; [repeat split; lra|unfold y; field; repeat split; lra]|].
        split; [auto_derive; [repeat split; lra|unfold y; field; repeat split; lra]|].
        split; [auto_derive; [repeat split; lra|unfold y; field; repeat split; lra]|].
        split; [|split; [apply @is_derive_const|split; [unfold y; field; repeat split; lra|ring]]].
        assert (Nz : 4 / (9 * g) * (cl - (x - xd) / (2 * t)) ^ 2 <> 0). { apply Rmult_integral_contrapositive; split; [apply Rgt_not_eq, Rdiv_lt_0_compat; lra|apply pow_nonzero; fold y; lra]. }
        apply (is_derive_ext_loc (fun z => 4 / (9 * g) * (cl - (z - xd) / (2 * t)) ^ 2 * (2 / 3 * ((z - xd) / t + cl)) ^ 2 + g * (4 / (9 * g) * (cl - (z - xd) / (2 * t)) ^ 2) ^ 2 / 2)).
        * assert (A := locally_pos (fun z => cl - (z - xd) / (2 * t)) x ltac:(auto_derive; auto) Pf). revert A. apply filter_imp. intros z Hz.
          assert (Nz' : 4 / (9 * g) * (cl - (z - xd) / (2 * t)) ^ 2 <> 0). { apply Rmult_integral_contrapositive; split; [apply Rgt_not_eq, Rdiv_lt_0_compat; lra|apply pow_nonzero; lra]. }
          set (H := 4 / (9 * g) * (cl - (z - xd) / (2 * t)) ^ 2) in *. set (U := 2 / 3 * ((z - xd) / t + cl)). f_equal. field. exact Nz'.
        * auto_derive; [repeat split; lra|unfold y; field; repeat split; lra].
    - apply (solves_loc g _ (fun _ => 0) w (fun _ _ => (hm, hm * um))); [| |apply filter_forall; auto|apply Const; lra].
      + assert (A := locally_and2 _ _ _ (locally_pos (fun s => x - dam_xB d s) t ltac:(unfold dam_xB; auto_derive; auto) ltac:(lra)) (locally_pos (fun s => dam_xC d s - x) t ltac:(unfold dam_xC; auto_derive; auto) ltac:(lra))).
        assert (A' := locally_and2 _ _ _ A (locally_pos (fun s => s) t ltac:(auto_derive; auto) Ht)). revert A'. apply filter_imp. intros s [[? ?] Ps]. specialize (Ord s Ps). unfold w. cmp. reflexivity.
      + assert (A := locally_and2 _ _ _ (locally_pos (fun y => y - dam_xB d t) x ltac:(auto_derive; auto) ltac:(lra)) (locally_pos (fun y => dam_xC d t - y) x ltac:(auto_derive; auto) ltac:(lra))).
        revert A. apply filter_imp. intros s [? ?]. unfold w. cmp. reflexivity.
    - apply (solves_loc g _ (fun _ => 0) w (fun _ _ => (hr, 0))); [| |apply filter_forall; auto|apply Const; lra].
      + assert (A := locally_and2 _ _ _ (locally_pos (fun s => x - dam_xC d s) t ltac:(unfold dam_xC; auto_derive; auto) ltac:(lra)) (locally_pos (fun s => s) t ltac:(auto_derive; auto) Ht)). revert A. apply filter_imp. intros s [Hs Ps]. specialize (Ord s Ps). unfold w. cmp. reflexivity.
      + assert (A := locally_pos (fun y => y - dam_xC d t) x ltac:(auto_derive; auto) ltac:(lra)). revert A. apply filter_imp. intros s Hs. unfold w. cmp. reflexivity. }
  assert (VC : w (dam_xC d t) t = (hm, hm * um)) by (unfold w; cmp; reflexivity). rewrite VC. cbn [fst snd].
  assert (Phm : 0 < hm) by lra.
  (* v^2 = g hm (hm + hr) / (2 hr) *)
  assert (V2 : v ^ 2 * (2 * hr) = g * hm * (hm + hr)).
  { apply (Rmult_eq_reg_r ((hm - hr) ^ 2)); [|apply pow_nonzero; lra]. transitivity (hm * (hm * hr * um ^ 2 * 2)); [|rewrite F15; ring].
    transitivity ((v * (hm - hr)) ^ 2 * (2 * hr)); [ring|]. rewrite F12. ring. }
  assert (Vu : (v - um) * hm = v * hr) by (rewrite Rmult_minus_distr_r; lra).
  split.
  - split; [rewrite F12; ring|]. rewrite Rminus_0_r. replace ((hm * um) ^ 2 / hm) with (hm * um ^ 2) by (field; lra). replace (0 ^ 2 / hr) with 0 by (field; lra).
    (* v hm um - hm um^2 = hm um (v - um) = um v hr *)
    assert (E : hm * um * (v - um) = g * (hm ^ 2 - hr ^ 2) / 2).
    { apply (Rmult_eq_reg_r (hm - hr)); [|lra]. transitivity (um * (v - um) * hm * (hm - hr)); [ring|]. transitivity (um * ((v - um) * hm) * (hm - hr)); [ring|]. rewrite Vu.
      transitivity (um * hr * (v * (hm - hr))); [ring|]. rewrite F12. transitivity (hm * hr * um ^ 2 * 2 / 2); [field|]. rewrite F15. field. }
    lra.
  - replace (hm * um / hm) with um by (field; lra). rewrite <- F10. rewrite sqrt_pow2 by lra.
    split.
    + apply Rsqr_incrst_0; [|apply sqrt_pos|lra]. rewrite Rsqr_sqrt by nra. unfold Rsqr. apply (Rmult_lt_reg_r (2 * hr)); [lra|]. replace (v * v * (2 * hr)) with (v ^ 2 * (2 * hr)) by ring. rewrite V2.
      assert (hr * hr < hm * hm) by nra. nra.
    + assert (Q : (v - um) ^ 2 * (2 * hm) = g * hr * (hm + hr)).
      { apply (Rmult_eq_reg_r hm); [|lra]. transitivity (2 * ((v - um) * hm) ^ 2); [ring|]. rewrite Vu. transitivity (v ^ 2 * (2 * hr) * hr); [ring|]. rewrite V2. ring. }
      assert (Lt : (v - um) ^ 2 < cm ^ 2). { rewrite F10. apply (Rmult_lt_reg_r (2 * hm)); [lra|]. rewrite Q. assert (hr * hr < hm * hm) by nra. assert (hr * hm < hm * hm) by nra. nra. }
      assert (v - um < cm); [|lra]. apply Rnot_le_lt. intro. nra.
Qed.
Print Assumptions C49_dam_break.

(** There is exactly one root between the two given speeds, so a solver that finds it exists; unordered heights are refused. *)
Theorem C49_dam_break_root : forall cl cr, 0 < cr < cl ->
  (exists c, cr < c < cl /\ dam_func cl cr c = 0) /\
  forall c c', cr < c < cl -> cr < c' < cl -> dam_func cl cr c = 0 -> dam_func cl cr c' = 0 -> c = c'.
Proof.
  intros cl cr [H0 H1]. split.
  - assert (C : continuity (dam_func cl cr)) by (unfold dam_func; reg).
    destruct (IVT (dam_func cl cr) cr cl C H1) as [c [[Hc1 Hc2] Hc]].
    + unfold dam_func. replace (_ + cr ^ 6) with (- (8 * cr ^ 4 * (cl - cr) ^ 2)) by ring. assert (0 < 8 * cr ^ 4 * (cl - cr) ^ 2); [|lra].
      apply Rmult_lt_0_compat; [|apply pow_lt; lra]. apply Rmult_lt_0_compat; [lra|apply pow_lt; lra].
    + unfold dam_func. replace (_ + cr ^ 6) with ((cl ^ 2 - cr ^ 2) ^ 2 * (cl ^ 2 + cr ^ 2)) by ring. apply Rmult_lt_0_compat; [apply pow_lt; nra|nra].
    + exists c. split; [|exact Hc]. split.
      * destruct Hc1 as [|<-]; [auto|]. exfalso. unfold dam_func in Hc. replace (_ + cr ^ 6) with (- (8 * cr ^ 4 * (cl - cr) ^ 2)) in Hc by ring.
        assert (0 < 8 * cr ^ 4 * (cl - cr) ^ 2); [|lra]. apply Rmult_lt_0_compat; [|apply pow_lt; lra]. apply Rmult_lt_0_compat; [lra|apply pow_lt; lra].
      * destruct Hc2 as [ | -> ]; [auto|]. exfalso. unfold dam_func in Hc. replace (_ + cr ^ 6) with ((cl ^ 2 - cr ^ 2) ^ 2 * (cl ^ 2 + cr ^ 2)) in Hc by ring.
        assert (0 < (cl ^ 2 - cr ^ 2) ^ 2 * (cl ^ 2 + cr ^ 2)); [|lra]. apply Rmult_lt_0_compat; [apply pow_lt; nra|nra].
  - assert (W : forall c c', cr < c < cl -> cr < c' < cl -> dam_func cl cr c = 0 -> dam_func cl cr c' = 0 -> ~ c < c').
    { intros c c' A B Ec Ec' L.
      assert (F : forall c, 0 < c -> dam_func cl cr c = 0 -> (1 - cr ^ 2 / c ^ 2) * (c ^ 4 - cr ^ 4) = 8 * cr ^ 2 * (cl - c) ^ 2).
      { intros z Pz Hz; apply (Rmult_eq_reg_l (z ^ 2)); [|apply pow_nonzero; lra]. transitivity ((z ^ 2 - cr ^ 2) * (z ^ 4 - cr ^ 4)); [field; lra|]. unfold dam_func in Hz. apply Rminus_diag_uniq. rewrite <- Hz. ring. }
      assert (X := F c ltac:(lra) Ec); assert (Y := F c' ltac:(lra) Ec').
      assert (8 * cr ^ 2 * (cl - c') ^ 2 < 8 * cr ^ 2 * (cl - c) ^ 2). { apply Rmult_lt_compat_l; [assert (0 < cr ^ 2) by (apply pow_lt; lra); lra|]. nra. }
      assert (Q : cr ^ 2 / c' ^ 2 < cr ^ 2 / c ^ 2). { apply Rmult_lt_compat_l; [apply pow_lt; lra|]. apply Rinv_lt_contravar; [|nra]. apply Rmult_lt_0_compat; apply pow_lt; lra. }
      assert (Q1 : cr ^ 2 / c ^ 2 < 1). { apply (Rmult_lt_reg_r (c ^ 2)); [apply pow_lt; lra|]. replace (cr ^ 2 / c ^ 2 * c ^ 2) with (cr ^ 2) by (field; lra). nra. }
      assert (P1 : cr ^ 4 < c ^ 4). { replace (c ^ 4) with ((c ^ 2) ^ 2) by ring. replace (cr ^ 4) with ((cr ^ 2) ^ 2) by ring. assert (0 < cr ^ 2) by (apply pow_lt; lra). assert (cr ^ 2 < c ^ 2) by nra. nra. }
      assert (P2 : c ^ 4 < c' ^ 4). { replace (c ^ 4) with ((c ^ 2) ^ 2) by ring. replace (c' ^ 4) with ((c' ^ 2) ^ 2) by ring. assert (0 < c ^ 2) by (apply pow_lt; lra). assert (c ^ 2 < c' ^ 2) by nra. nra. }
      assert ((1 - cr ^ 2 / c ^ 2) * (c ^ 4 - cr ^ 4) < (1 - cr ^ 2 / c' ^ 2) * (c' ^ 4 - cr ^ 4)); [|lra].
      apply Rmult_gt_0_lt_compat; lra. }
    intros c c' A B Ec Ec'. destruct (Rtotal_order c c') as [L|[E|L]]; [exfalso; apply (W c c'); auto|auto|exfalso; apply (W c' c); auto].
Qed.
Print Assumptions C49_dam_break_root.
Theorem C49_dam_break_refused : forall newton hl hr xd g, hl <= hr -> new_dam newton hl hr xd g = Err AssertionError.
Proof. intros. unfold new_dam. destruct (Rltb_spec hr hl); [lra|reflexivity]. Qed.
Print Assumptions C49_dam_break_refused.

(** for all ordered positive heights a solver as required exists and a benchmark is made with it *)
Example C49_dam_break_ex : forall hl hr xd g, 0 < g -> 0 < hr -> hr < hl -> exists newton d,
  (forall r, newton (dam_func (sqrt (g * hl)) (sqrt (g * hr))) ((sqrt (g * hl) + sqrt (g * hr)) / 2) = Ok r ->
     dam_func (sqrt (g * hl)) (sqrt (g * hr)) r = 0 /\ sqrt (g * hr) < r < sqrt (g * hl)) /\
  new_dam newton hl hr xd g = Ok d.
Proof.
  intros hl hr xd g Hg Hr Hlr. assert (P : 0 < sqrt (g * hr)) by (apply sqrt_lt_R0; nra). assert (L : sqrt (g * hr) < sqrt (g * hl)) by (apply sqrt_lt_1; nra).
  destruct (C49_dam_break_root _ _ (conj P L)) as [[c [Hc Rc]] _]. exists (fun _ _ => Ok c). unfold new_dam. destruct (Rltb_spec hr hl); [|lra]. cbn [bind]. unfold rdiv. destruct (Reqb_spec g 0); [lra|]. cbn [bind].
  destruct (Reqb_spec (c ^ 2 / g - hr) 0) as [E|]; [|cbn [bind]; eexists; split; [intros z H; apply Ok_inj in H; subst z; auto|reflexivity]].
  exfalso. assert (S : sqrt (g * hr) ^ 2 = g * hr) by (apply pow2_sqrt; nra). assert (sqrt (g * hr) ^ 2 < c ^ 2) by nra. assert (c ^ 2 = g * hr); [|lra].
  apply (Rmult_eq_reg_r (/ g)); [|apply Rinv_neq_0_compat; lra]. replace (g * hr * / g) with hr by (field; lra). unfold Rdiv in E. lra.
Qed.
(** moving water with a constant height: no flow *)
Example C49_moving_water_ex : exists newton, finds_roots newton /\ forall x, moving_initial newton 1 0 2 x = Ok (2 - cos_bump x, 0).
Proof.
  exists (fun f x0 => if Reqb (f (- f 0)) 0 then Ok (- f 0) else Err ValueError). split.
  - intros f x r H. destruct (Reqb_spec (f (- f 0)) 0) as [E|]; [|discriminate]. apply Ok_inj in H. subst r. exact E.
  - intro x. assert (E : forall h, moving_func 1 0 2 x h = h + cos_bump x - 2) by (intro h; unfold moving_func; rewrite pow_i by lia; unfold Rdiv; ring).
    unfold moving_initial. rewrite !E. destruct (Reqb_spec (- (0 + cos_bump x - 2) + cos_bump x - 2) 0) as [|N]; [|exfalso; apply N; ring]. cbn [bind]. do 2 f_equal. ring.
Qed.
