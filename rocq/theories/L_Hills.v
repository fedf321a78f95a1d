(** Lemmas: how much the initial data of the advection benchmarks vary. *)
From Coq Require Import String Reals List Arith ZArith Bool Lia Lra Psatz.
From Verif Require Import Prelude L_Prelude M_Mesh M_Benchmark P_Benchmark S_Convergence L_Convergence S_Jumps L_Jumps P_ConvergenceBench.
Import ListNotations.
Open Scope R_scope.

(** a function that counts how much f has varied so far *)
Definition climbs (V : R) (f : R -> R) : Prop := exists G, (forall x y, x <= y -> Rabs (f y - f x) <= G y - G x) /\ forall x, G (x + 1) = G x + V.
Lemma climbs_varies V f : climbs V f -> varies unit_interval V f.
Proof.
  intros [G [H P]] x m M B. cbn [unit_interval ia ib] in B.
  apply (Rle_trans _ (rsum (tab m (fun k => G (x (S k)) - G (x k))))); [apply rsum_tab_le; intros k Hk; apply H, M; exact Hk|].
  rewrite (rsum_tab_telescope m (fun k => G (x k))). assert (Q := H (x m) (x O + 1) ltac:(lra)). rewrite P in Q. pose proof (Rabs_pos (f (x O + 1) - f (x m))). lra.
Qed.
Lemma climbs_plus V W f g : climbs V f -> climbs W g -> climbs (V + W) (fun x => f x + g x).
Proof.
  intros [F [F1 F2]] [G [G1 G2]]. exists (fun x => F x + G x). split.
  - intros x y Hxy. replace (f y + g y - (f x + g x)) with ((f y - f x) + (g y - g x)) by ring. pose proof (Rabs_triang (f y - f x) (g y - g x)). pose proof (F1 x y Hxy). pose proof (G1 x y Hxy). lra.
  - intro x. rewrite F2, G2. ring.
Qed.
Lemma climbs_ext V f g : (forall x, f x = g x) -> climbs V f -> climbs V g.
Proof. intros E [F [F1 F2]]. exists F. split; [|exact F2]. intros x y Hxy. rewrite <- !E. apply F1. exact Hxy. Qed.
Lemma climbs_affine V f a b : 0 <= a -> climbs V f -> climbs (a * V) (fun x => a * f x + b).
Proof.
  intros Ha [F [F1 F2]]. exists (fun x => a * F x). split; [|intro x; rewrite F2; ring]. intros x y Hxy. replace (a * f y + b - (a * f x + b)) with (a * (f y - f x)) by ring.
  rewrite Rabs_mult, (Rabs_right a) by lra. pose proof (F1 x y Hxy). nra.
Qed.
Lemma fractional x : exists k y, x = y + IZR k /\ 0 <= y < 1 /\ Int_part x = k.
Proof.
  exists (Int_part x), (frac_part x). unfold frac_part. pose proof (base_fp x) as [B1 B2]. unfold frac_part in *. split; [lra|]. split; [lra|reflexivity].
Qed.
(** one hill *)
Lemma hill_climbs (u : R -> R) p : (forall x, 0 <= x < 1 -> 0 <= u x <= 1) -> (forall x y, 0 <= x <= y -> y <= p -> y < 1 -> u x <= u y) -> (forall x y, p < x -> 0 <= x <= y -> y < 1 -> u y <= u x) ->
  climbs 2 (line_data u).
Proof.
  intros B U Dn. set (g := fun y => if Rle_dec y p then u y else 2 - u y).
  exists (fun x => 2 * IZR (Int_part x) + g (x - IZR (Int_part x))). split.
  - intros x y Hxy. destruct (fractional x) as [k [a [Ea [Ba ->]]]]. destruct (fractional y) as [l [b [Eb [Bb ->]]]].
    replace (x - IZR k) with a by lra. replace (y - IZR l) with b by lra. rewrite Ea, Eb, !line_data_Z, <- !line_inside by assumption.
    assert (Kl : (k <= l)%Z). { assert (IZR k < IZR (l + 1)) by (rewrite plus_IZR; lra). apply lt_IZR in H. lia. }
    pose proof (B a Ba) as Ua. pose proof (B b Bb) as Ub.
    destruct (Z.eq_dec k l) as [<-|Nk].
    + assert (Hab : a <= b) by lra. unfold g. destruct (Rle_dec a p) as [Pa|Pa]; destruct (Rle_dec b p) as [Pb|Pb].
      * pose proof (U a b ltac:(lra) Pb ltac:(lra)). rewrite Rabs_right; lra.
      * apply Rabs_le. lra.
      * lra.
      * pose proof (Dn a b ltac:(lra) ltac:(lra) ltac:(lra)). rewrite Rabs_left1; lra.
    + assert (Q : IZR k + 1 <= IZR l) by (rewrite <- plus_IZR; apply IZR_le; lia).
      assert (G1 : u b <= g b) by (unfold g; destruct (Rle_dec b p); lra). assert (G2 : g a <= 2 - u a) by (unfold g; destruct (Rle_dec a p); lra).
      apply Rabs_le. lra.
  - intro x. destruct (fractional x) as [k [a [Ea [Ba Ek]]]]. destruct (fractional (x + 1)) as [l [b [Eb [Bb El]]]]. rewrite Ek, El.
    assert (L : l = (k + 1)%Z).
    { assert (IZR k < IZR (l - 1 + 1)) by (rewrite plus_IZR, minus_IZR; lra). assert (IZR (l - 1) < IZR (k + 1)) by (rewrite plus_IZR, minus_IZR; lra). apply lt_IZR in H, H0. lia. }
    rewrite L, plus_IZR. replace (x + 1 - (IZR k + 1)) with (x - IZR k) by lra. lra.
Qed.

(** ** the data *)
Ltac cmp2 := repeat match goal with
  | |- context [Rleb ?a ?b] => destruct (Rleb_spec a b); cbn [andb]
  | |- context [Rltb ?a ?b] => destruct (Rltb_spec a b); cbn [andb] end; try lra.
Lemma exp_mono a b : a <= b -> exp a <= exp b.
Proof. intros [H | ->]; [left; apply exp_increasing; exact H|right; reflexivity]. Qed.
Lemma one_hill_climbs : climbs 2 (line_data one_hill).
Proof.
  apply (hill_climbs one_hill (3 / 10)).
  - intros x _. unfold one_hill. cmp2.
  - intros x y H1 H2 _. unfold one_hill. cmp2.
  - intros x y H1 H2 _. unfold one_hill. cmp2.
Qed.
Lemma bell_climbs : climbs 2 (line_data gaussian_bell).
Proof.
  apply (hill_climbs gaussian_bell (1 / 2)).
  - intros x _. apply (C49_advection_data gaussian_bell 0). tauto.
  - intros x y H1 H2 _. unfold gaussian_bell. apply exp_mono. nra.
  - intros x y H1 H2 _. unfold gaussian_bell. apply exp_mono. nra.
Qed.
Lemma cosine_climbs : climbs 4 (line_data cosine).
Proof.
  assert (H : climbs 2 (line_data (fun x => (cosine x + 1) / 2))).
  { assert (P := PI_RGT_0). apply (hill_climbs _ (1 / 2)).
    - intros x _. pose proof (COS_bound (2 * PI * (x - 1 / 2))). unfold cosine. lra.
    - intros x y H1 H2 _. unfold cosine. assert (C : cos (2 * PI * (x - 1 / 2)) <= cos (2 * PI * (y - 1 / 2))); [|lra].
      destruct (Req_dec x y) as [->|N]; [lra|]. rewrite <- (cos_neg (_ * _)), <- (cos_neg (2 * PI * (y - _))). left. apply cos_decreasing_1; nra.
    - intros x y H1 H2 Hy. unfold cosine. assert (C : cos (2 * PI * (y - 1 / 2)) <= cos (2 * PI * (x - 1 / 2))); [|lra].
      destruct (Req_dec x y) as [->|N]; [lra|]. left. apply cos_decreasing_1; nra. }
  pose proof (climbs_affine _ _ 2 (-1) ltac:(lra) H) as Q. replace (2 * 2) with 4 in Q by ring. eapply climbs_ext; [|exact Q]. intro x. unfold line_data, advection_exact. field.
Qed.

(** the second of the two hills *)
Definition round_hill (x : R) : R := if Rltb (1 / 2) x && Rltb x (9 / 10) then exp 10 * exp (-1 / (x - 1 / 2)) * exp (1 / (x - 9 / 10)) else 0.
Lemma round_value x : 1 / 2 < x < 9 / 10 -> exp 10 * exp (-1 / (x - 1 / 2)) * exp (1 / (x - 9 / 10)) = exp (10 - 4 / 10 * / ((x - 1 / 2) * (9 / 10 - x))).
Proof. intro H. rewrite <- !exp_plus. f_equal. field. lra. Qed.
Lemma round_mono x y : 0 < (x - 1 / 2) * (9 / 10 - x) <= (y - 1 / 2) * (9 / 10 - y) -> exp (10 - 4 / 10 * / ((x - 1 / 2) * (9 / 10 - x))) <= exp (10 - 4 / 10 * / ((y - 1 / 2) * (9 / 10 - y))).
Proof. intros H. apply exp_mono. assert (/ ((y - 1 / 2) * (9 / 10 - y)) <= / ((x - 1 / 2) * (9 / 10 - x))) by (apply Rinv_le_contravar; lra). lra. Qed.
Lemma round_climbs : climbs 2 (line_data round_hill).
Proof.
  apply (hill_climbs round_hill (7 / 10)).
  - intros x _. unfold round_hill. cmp2. rewrite round_value by lra. split; [left; apply exp_pos|]. apply Rle_trans with (exp 0); [apply exp_mono|right; exact exp_0].
    set (q := (x - 1 / 2) * (9 / 10 - x)). assert (Q : 0 < q <= 4 / 100) by (unfold q; split; [apply Rmult_lt_0_compat; lra|pose proof (Rle_0_sqr (x - 7 / 10)) as W; unfold Rsqr in W; lra]). assert (/ (4 / 100) <= / q) by (apply Rinv_le_contravar; lra). replace (/ (4 / 100)) with 25 in H by field. lra.
  - intros x y H1 H2 _. unfold round_hill. cmp2; try (left; rewrite round_value by lra; apply exp_pos).
    rewrite !round_value by lra. apply round_mono. split; [apply Rmult_lt_0_compat; lra|nra].
  - intros x y H1 H2 _. unfold round_hill. cmp2; try (left; rewrite round_value by lra; apply exp_pos).
    rewrite !round_value by lra. apply round_mono. split; [apply Rmult_lt_0_compat; lra|nra].
Qed.
Definition block (a b x : R) : R := if Rleb a x && Rleb x b then 1 else 0.
Lemma block_climbs a b : climbs 2 (line_data (block a b)).
Proof. apply (hill_climbs (block a b) b); [intros x _|intros x y H1 H2 _|intros x y H1 H2 _]; unfold block; cmp2. Qed.
Lemma two_hills_climbs : climbs 4 (line_data two_hills).
Proof.
  pose proof (climbs_plus _ _ _ _ round_climbs (block_climbs (2 / 10) (4 / 10))) as Q. replace (2 + 2) with 4 in Q by ring. eapply climbs_ext; [|exact Q].
  intro x. unfold line_data, advection_exact. set (y := py_mod _ _). unfold round_hill, block, two_hills. cmp2.
Qed.
Definition narrow_hill (x : R) : R := if Rleb (25 / 1000) x && Rltb x (275 / 1000) then exp (-300 * (2 * x - 3 / 10) ^ 2) else 0.
Lemma narrow_climbs : climbs 2 (line_data narrow_hill).
Proof.
  apply (hill_climbs narrow_hill (15 / 100)).
  - intros x _. unfold narrow_hill. cmp2. split; [left; apply exp_pos|]. apply Rle_trans with (exp 0); [apply exp_mono|right; exact exp_0]. pose proof (pow2_ge_0 (2 * x - 3 / 10)). lra.
  - intros x y H1 H2 _. unfold narrow_hill. cmp2; try (left; apply exp_pos). apply exp_mono. nra.
  - intros x y H1 H2 _. unfold narrow_hill. cmp2; try (left; apply exp_pos). apply exp_mono. nra.
Qed.
Definition circle_hill (x : R) : R := if Rltb (7 / 10) x && Rltb x (9 / 10) then sqrt (1 - ((x - 8 / 10) / (1 / 10)) ^ 2) else 0.
Lemma circle_climbs : climbs 2 (line_data circle_hill).
Proof.
  assert (E : forall x, ((x - 8 / 10) / (1 / 10)) ^ 2 = (10 * x - 8) * (10 * x - 8)) by (intro x; field).
  apply (hill_climbs circle_hill (8 / 10)).
  - intros x _. unfold circle_hill. cmp2. split; [apply sqrt_pos|]. apply Rle_trans with (sqrt 1); [apply sqrt_le_1_alt|right; exact sqrt_1]. pose proof (pow2_ge_0 ((x - 8 / 10) / (1 / 10))). lra.
  - intros x y H1 H2 _. unfold circle_hill. cmp2; try apply sqrt_pos. apply sqrt_le_1_alt. rewrite !E. nra.
  - intros x y H1 H2 _. unfold circle_hill. cmp2; try apply sqrt_pos. apply sqrt_le_1_alt. rewrite !E. nra.
Qed.
Lemma three_hills_climbs : climbs 6 (line_data three_hills).
Proof.
  pose proof (climbs_plus _ _ _ _ (climbs_plus _ _ _ _ narrow_climbs (block_climbs (35 / 100) (55 / 100))) circle_climbs) as Q. replace (2 + 2 + 2) with 6 in Q by ring. eapply climbs_ext; [|exact Q].
  intro x. unfold line_data, advection_exact. set (y := py_mod _ _). unfold narrow_hill, block, circle_hill, three_hills. cmp2.
Qed.
