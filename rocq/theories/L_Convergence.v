(** Lemmas for convergence: random shifts, Taylor's formula, upwind steps. *)
From Coq Require Import Reals List ZArith Arith Lia Lra Psatz Bool String.
From Verif Require Import Prelude L_Prelude M_Mesh M_ODE S_ODE L_ODE M_Boundary L_Flux M_Flux L_Scalar S_Convergence.
Import ListNotations.
Local Open Scope nat_scope.
Open Scope R_scope.
Notation length := List.length.

(** ** Finite distributions of shifts *)
Definition mean (l : list (R * Z)) (g : Z -> R) : R := rsum (map (fun p => fst p * g (snd p)) l).
Definition weights_ok (l : list (R * Z)) : Prop := Forall (fun p => 0 <= fst p) l /\ mean l (fun _ => 1) = 1.
Definition scaled (r : R) (l : list (R * Z)) : list (R * Z) := map (fun p => (r * fst p, snd p)) l.
Definition later (l : list (R * Z)) : list (R * Z) := map (fun p => (fst p, (snd p + 1)%Z)) l.
Definition mixed (r : R) (l1 l2 : list (R * Z)) : list (R * Z) := (scaled r l1 ++ scaled (1 - r) l2)%list.

Lemma mean_nil g : mean [] g = 0. Proof. reflexivity. Qed.
Lemma mean_cons p l g : mean (p :: l) g = fst p * g (snd p) + mean l g. Proof. reflexivity. Qed.
Lemma mean_app a b g : mean (a ++ b)%list g = mean a g + mean b g.
Proof. unfold mean. rewrite map_app. apply rsum_app. Qed.
Lemma mean_scaled r l g : mean (scaled r l) g = r * mean l g.
Proof. induction l as [|p l IH]; [cbn; unfold mean; cbn; ring|]. cbn [scaled map]. fold (scaled r l). rewrite !mean_cons, IH. cbn. ring. Qed.
Lemma mean_later l g : mean (later l) g = mean l (fun z => g (z + 1)%Z).
Proof. induction l as [|p l IH]; [reflexivity|]. cbn [later map]. fold (later l). rewrite !mean_cons, IH. reflexivity. Qed.
Lemma mean_mixed r l1 l2 g : mean (mixed r l1 l2) g = r * mean l1 g + (1 - r) * mean l2 g.
Proof. unfold mixed. rewrite mean_app, !mean_scaled. reflexivity. Qed.
Lemma mean_plus l g h : mean l (fun z => g z + h z) = mean l g + mean l h.
Proof. induction l as [|p l IH]; [unfold mean; cbn; ring|]. rewrite !mean_cons, IH. ring. Qed.
Lemma mean_scal l r g : mean l (fun z => r * g z) = r * mean l g.
Proof. induction l as [|p l IH]; [unfold mean; cbn; ring|]. rewrite !mean_cons, IH. ring. Qed.
Lemma mean_ext l g h : (forall z, g z = h z) -> mean l g = mean l h.
Proof. intro H. induction l as [|p l IH]; [reflexivity|]. rewrite !mean_cons, IH, H. reflexivity. Qed.
Lemma mean_le l g h : Forall (fun p => 0 <= fst p) l -> (forall z, g z <= h z) -> mean l g <= mean l h.
Proof. intros F H. induction F as [|p l Hp F IH]; [apply Rle_refl|]. rewrite !mean_cons. pose proof (H (snd p)). nra. Qed.
Lemma mean_nonneg l g : Forall (fun p => 0 <= fst p) l -> (forall z, 0 <= g z) -> 0 <= mean l g.
Proof. intros F H. induction F as [|p l Hp F IH]; [apply Rle_refl|]. rewrite mean_cons. pose proof (Rmult_le_pos _ _ Hp (H (snd p))). lra. Qed.
Lemma mean_abs l g : Forall (fun p => 0 <= fst p) l -> Rabs (mean l g) <= mean l (fun z => Rabs (g z)).
Proof.
  intros F. apply Rabs_le. split.
  - replace (- mean l (fun z => Rabs (g z))) with (mean l (fun z => -1 * Rabs (g z))) by (rewrite mean_scal; ring). apply mean_le; auto. intro z. unfold Rabs. destruct Rcase_abs; lra.
  - apply mean_le; auto. intro z. apply Rle_abs.
Qed.
Lemma scaled_ok r l : 0 <= r -> Forall (fun p => 0 <= fst p) l -> Forall (fun p => 0 <= fst p) (scaled r l).
Proof. intros Hr F. unfold scaled. apply Forall_map. eapply Forall_impl; [|exact F]. cbn. intros p Hp. apply Rmult_le_pos; auto. Qed.
Lemma mixed_ok r l1 l2 : 0 <= r <= 1 -> weights_ok l1 -> weights_ok l2 -> weights_ok (mixed r l1 l2).
Proof.
  intros Hr [A1 A2] [B1 B2]. split; [|rewrite mean_mixed, A2, B2; ring]. unfold mixed. apply Forall_app. split; apply scaled_ok; auto; lra.
Qed.
Lemma later_ok l : weights_ok l -> weights_ok (later l).
Proof. intros [A1 A2]. split; [|rewrite mean_later; exact A2]. unfold later. apply Forall_map. exact A1. Qed.

(** ** Values on a ring *)
Definition at_ (u : list R) (z : Z) : R := nth (Z.to_nat (z mod Z.of_nat (length u))) u 0.
Lemma at_nth u i : (i < length u)%nat -> at_ u (Z.of_nat i) = nth i u 0.
Proof. intro H. unfold at_. rewrite Z.mod_small by (clear - H; lia). rewrite Nat2Z.id. reflexivity. Qed.
Lemma at_mod u z : (0 < length u)%nat -> at_ u z = at_ u (Z.of_nat (Z.to_nat (z mod Z.of_nat (length u)))).
Proof. intro H. unfold at_. rewrite Z2Nat.id by (apply Z.mod_pos_bound; lia). rewrite Zmod_mod. reflexivity. Qed.
Lemma at_index (u : list R) z : (0 < length u)%nat -> (Z.to_nat (z mod Z.of_nat (length u)) < length u)%nat.
Proof. intro H. assert (P : (0 < Z.of_nat (length u))%Z) by lia. assert (X := Z.mod_pos_bound z (Z.of_nat (length u)) P). lia. Qed.

(** u is the average of shifted copies of u0; first and second moment of the shifts *)
Definition spread (u0 : list R) (m1 m2 : R) (u : list R) : Prop := length u = length u0 /\ exists l, weights_ok l /\
  mean l IZR = m1 /\ mean l (fun z => IZR z * IZR z) = m2 /\ forall z, at_ u z = mean l (fun k => at_ u0 (z - k)).

Lemma spread_start u0 : spread u0 0 0 u0.
Proof.
  split; [reflexivity|]. exists [(1, 0%Z)]. unfold mean. cbn. split; [split; [constructor; [cbn; lra|constructor]|unfold mean; cbn; ring]|].
  split; [ring|]. split; [ring|]. intro z. rewrite Z.sub_0_r. ring.
Qed.
Lemma spread_mixed u0 r a1 a2 b1 b2 u v x : (0 < length u0)%nat -> 0 <= r <= 1 -> spread u0 a1 a2 u -> spread u0 b1 b2 v -> length x = length u0 ->
  (forall i, (i < length u0)%nat -> nth i x 0 = r * nth i u 0 + (1 - r) * nth i v 0) ->
  spread u0 (r * a1 + (1 - r) * b1) (r * a2 + (1 - r) * b2) x.
Proof.
  intros H0 Hr [Lu [l [A1 [A2 [A3 A4]]]]] [Lv [k [B1 [B2 [B3 B4]]]]] Lx Hx. split; [exact Lx|]. exists (mixed r l k). split; [apply mixed_ok; auto|].
  rewrite !mean_mixed, A2, A3, B2, B3. do 2 (split; [reflexivity|]). intro z. rewrite mean_mixed, <- A4, <- B4.
  rewrite (at_mod x), (at_mod u), (at_mod v) by lia. assert (I := at_index x z ltac:(lia)). rewrite Lu, Lv, Lx in *. rewrite !at_nth by lia. auto.
Qed.
(** one upwind step: a part of every value moves on *)
Lemma spread_upwind u0 r a1 a2 u x : (0 < length u0)%nat -> 0 <= r <= 1 -> spread u0 a1 a2 u -> length x = length u0 ->
  (forall i, (i < length u0)%nat -> nth i x 0 = (1 - r) * nth i u 0 + r * at_ u (Z.of_nat i - 1)) ->
  spread u0 (a1 + r) (a2 + 2 * r * a1 + r) x.
Proof.
  intros H0 Hr [Lu [l [A1 [A2 [A3 A4]]]]] Lx Hx. split; [exact Lx|]. exists (mixed (1 - r) l (later l)). split; [apply mixed_ok; [lra|exact A1|apply later_ok; exact A1]|].
  rewrite !mean_mixed, !mean_later. destruct A1 as [A0 A1]. split; [|split].
  - rewrite (mean_ext l (fun z => IZR (z + 1)) (fun z => IZR z + 1)) by (intro z; rewrite plus_IZR; ring). rewrite mean_plus, A1, A2. ring.
  - rewrite (mean_ext l (fun z => IZR (z + 1) * IZR (z + 1)) (fun z => (IZR z * IZR z + 2 * IZR z) + 1)) by (intro z; rewrite plus_IZR; ring).
    rewrite !mean_plus, mean_scal, A1, A2, A3. ring.
  - intro z. rewrite mean_mixed, mean_later. rewrite (mean_ext l (fun z0 => at_ u0 (z - (z0 + 1))) (fun k => at_ u0 (z - 1 - k))) by (intro k; f_equal; lia).
    rewrite <- !A4. rewrite (at_mod x) by lia. assert (I := at_index x z ltac:(lia)). rewrite Lx in *. rewrite at_nth by lia. rewrite Hx by lia.
    replace (1 - (1 - r)) with r by ring. f_equal.
    + f_equal. unfold at_. rewrite Lu. reflexivity.
    + f_equal. unfold at_. rewrite Lu. do 2 f_equal. rewrite Z2Nat.id by (apply Z.mod_pos_bound; lia). rewrite Zminus_mod_idemp_l. reflexivity.
Qed.

(** ** Consequences *)
Lemma spread_bounds u0 m1 m2 u lo hi : (0 < length u0)%nat -> spread u0 m1 m2 u -> (forall x, In x u0 -> lo <= x <= hi) -> forall x, In x u -> lo <= x <= hi.
Proof.
  intros H0 [Lu [l [[A0 A1] [_ [_ A4]]]]] B x Hx. apply (In_nth _ _ 0) in Hx as [i [Hi <-]]. rewrite <- at_nth by auto. rewrite A4.
  assert (V : forall z, lo <= at_ u0 z <= hi). { intro z. apply B. unfold at_. apply nth_In. apply at_index. exact H0. }
  split.
  - replace lo with (mean l (fun _ => lo)) by (rewrite (mean_ext l (fun _ => lo) (fun _ => lo * 1)) by (intro; ring); rewrite mean_scal, A1; ring). apply mean_le; auto. intro z. apply V.
  - replace hi with (mean l (fun _ => hi)) by (rewrite (mean_ext l (fun _ => hi) (fun _ => hi * 1)) by (intro; ring); rewrite mean_scal, A1; ring). apply mean_le; auto. intro z. apply V.
Qed.

Lemma smooth_nonneg M f : smooth M f -> 0 <= M.
Proof. intros [f1 [f2 [_ [_ B]]]]. pose proof (B 0). pose proof (Rabs_pos (f2 0)). lra. Qed.
Lemma mvt_bound g g' K : 0 <= K -> (forall x, derivable_pt_lim g x (g' x)) -> (forall x, Rabs (g' x) <= K) -> forall x y, Rabs (g y - g x) <= K * Rabs (y - x).
Proof.
  intros HK D B. assert (W : forall x y, x < y -> Rabs (g y - g x) <= K * Rabs (y - x)).
  { intros x y H. destruct (MVT_cor2 g g' x y H (fun z _ => D z)) as [z [E _]]. rewrite E, Rabs_mult. apply Rmult_le_compat_r; [apply Rabs_pos|apply B]. }
  intros x y. destruct (Rtotal_order x y) as [H|[->|H]]; [auto| |].
  - unfold Rminus. rewrite !Rplus_opp_r, Rabs_R0. lra.
  - rewrite Rabs_minus_sym, (Rabs_minus_sym y x). auto.
Qed.
(** Taylor's formula *)
Lemma taylor M f f1 f2 : (forall x, derivable_pt_lim f x (f1 x)) -> (forall x, derivable_pt_lim f1 x (f2 x)) -> (forall x, Rabs (f2 x) <= M) ->
  forall x y, Rabs (f y - f x - f1 x * (y - x)) <= M / 2 * (y - x) ^ 2.
Proof.
  intros D1 D2 B x y. assert (HM : 0 <= M) by (pose proof (B 0); pose proof (Rabs_pos (f2 0)); lra).
  assert (L := mvt_bound f1 f2 M HM D2 B).
  assert (S : forall s, s = 1 \/ s = -1 -> s * (f y - f x - f1 x * (y - x)) <= M / 2 * (y - x) ^ 2).
  { intros s Hs.
    set (g := fun z => s * (f z - f x - f1 x * (z - x)) - M / 2 * (z - x) ^ 2).
    set (g' := fun z => s * (f1 z - f1 x) - M * (z - x)).
    assert (Dg : forall z, derivable_pt_lim g z (g' z)).
    { intro z. unfold g, g'.
      replace (s * (f1 z - f1 x) - M * (z - x)) with (s * (f1 z - 0 - f1 x * (1 - 0)) - M / 2 * ((1 - 0) * (z - x) + (z - x) * (1 - 0))) by field.
      assert (X0 : derivable_pt_lim (fun z0 => z0 - x) z (1 - 0)) by (apply (derivable_pt_lim_minus (fun z0 => z0) (fun _ => x)); [apply derivable_pt_lim_id|apply derivable_pt_lim_const]).
      apply (derivable_pt_lim_minus (fun z0 => s * (f z0 - f x - f1 x * (z0 - x))) (fun z0 => M / 2 * (z0 - x) ^ 2)).
      - apply (derivable_pt_lim_scal (fun z0 => f z0 - f x - f1 x * (z0 - x))).
        apply (derivable_pt_lim_minus (fun z0 => f z0 - f x) (fun z0 => f1 x * (z0 - x))).
        + apply (derivable_pt_lim_minus f (fun _ => f x)); [apply D1|apply derivable_pt_lim_const].
        + apply (derivable_pt_lim_scal (fun z0 => z0 - x)). exact X0.
      - apply (derivable_pt_lim_scal (fun z0 => (z0 - x) ^ 2)).
        apply (derivable_pt_lim_ext (fun z0 => (z0 - x) * (z0 - x))); [intro; ring|]. apply (derivable_pt_lim_mult (fun z0 => z0 - x) (fun z0 => z0 - x)); exact X0. }
    assert (G0 : g x = 0) by (unfold g; ring).
    assert (Sg : forall z, x <= z -> g' z <= 0).
    { intros z Hz. unfold g'. pose proof (L x z) as Lz. rewrite (Rabs_right (z - x)) in Lz by lra. pose proof (Rle_abs (f1 z - f1 x)). pose proof (Rle_abs (- (f1 z - f1 x))) as Q. rewrite Rabs_Ropp in Q.
      destruct Hs as [-> | ->]; lra. }
    assert (Sg' : forall z, z <= x -> 0 <= g' z).
    { intros z Hz. unfold g'. pose proof (L x z) as Lz. rewrite (Rabs_left1 (z - x)) in Lz by lra. pose proof (Rle_abs (f1 z - f1 x)). pose proof (Rle_abs (- (f1 z - f1 x))) as Q. rewrite Rabs_Ropp in Q.
      destruct Hs as [-> | ->]; lra. }
    assert (Gy : g y <= 0).
    { destruct (Rtotal_order x y) as [H|[<-|H]]; [|lra|].
      - destruct (MVT_cor2 g g' x y H (fun z _ => Dg z)) as [z [E Hz]]. pose proof (Sg z ltac:(lra)). nra.
      - destruct (MVT_cor2 g g' y x H (fun z _ => Dg z)) as [z [E Hz]]. pose proof (Sg' z ltac:(lra)). nra. }
    unfold g in Gy. lra. }
  pose proof (S 1 (or_introl eq_refl)). pose proof (S (-1) (or_intror eq_refl)). apply Rabs_le. lra.
Qed.

(** the values of u0 are those of a function W at equidistant points *)
Section Errors.
Context (u0 : list R) (W : R -> R) (c h : R).
Hypothesis Hh : 0 < h.
Hypothesis HW : forall z, at_ u0 z = W (c + IZR z * h).

Lemma second_moment l m1 m2 : mean l (fun _ => 1) = 1 -> mean l IZR = m1 -> mean l (fun z => IZR z * IZR z) = m2 ->
  mean l (fun z => (IZR z * h - m1 * h) ^ 2) = (m2 - m1 * m1) * (h * h).
Proof.
  intros A1 A2 A3. rewrite (mean_ext l _ (fun z => (h * h * (IZR z * IZR z) + (-2 * m1 * (h * h)) * IZR z) + (m1 * m1 * (h * h)) * 1)) by (intro; ring).
  rewrite !mean_plus, !mean_scal, A1, A2, A3. ring.
Qed.
Lemma error_smooth M m1 m2 u z : smooth M W -> spread u0 m1 m2 u -> m2 - m1 * m1 <= m1 ->
  Rabs (at_ u z - W (c + IZR z * h - m1 * h)) <= M / 2 * (m1 * h) * h.
Proof.
  intros HM [_ [l [[A0 A1] [A2 [A3 A4]]]]] V. pose proof (smooth_nonneg M W HM) as PM. destruct HM as [f1 [f2 [D1 [D2 B]]]]. rewrite A4. set (x := c + IZR z * h - m1 * h).
  assert (E : mean l (fun k => at_ u0 (z - k)) - W x = mean l (fun k => W (c + IZR (z - k) * h) - W x - f1 x * (c + IZR (z - k) * h - x))).
  { rewrite (mean_ext l (fun k => W (c + IZR (z - k) * h) - W x - f1 x * (c + IZR (z - k) * h - x)) (fun k => ((at_ u0 (z - k) + (- W x) * 1) + (f1 x * h) * IZR k) + (- (f1 x * m1 * h)) * 1)).
    2:{ intro k. rewrite HW, minus_IZR. unfold x. ring. }
    rewrite !mean_plus, !mean_scal, A1, A2. ring. }
  rewrite E. eapply Rle_trans; [apply mean_abs; exact A0|].
  eapply Rle_trans; [apply (mean_le l _ (fun k => M / 2 * (IZR k * h - m1 * h) ^ 2) A0)|].
  - intro k. eapply Rle_trans; [apply (taylor M W f1 f2 D1 D2 B)|]. rewrite minus_IZR. unfold x. apply Req_le. ring.
  - rewrite mean_scal, (second_moment l m1 m2 A1 A2 A3). assert (0 <= h * h) by nra. replace (M / 2 * (m1 * h) * h) with (M / 2 * (m1 * (h * h))) by ring. apply Rmult_le_compat_l; [lra|]. nra.
Qed.
Lemma error_lipschitz K m1 m2 u z : lipschitz K W -> spread u0 m1 m2 u -> m2 - m1 * m1 <= m1 ->
  Rabs (at_ u z - W (c + IZR z * h - m1 * h)) <= K * sqrt (m1 * h * h).
Proof.
  intros HL [_ [l [[A0 A1] [A2 [A3 A4]]]]] V. rewrite A4. set (x := c + IZR z * h - m1 * h).
  assert (PK : 0 <= K). { pose proof (HL 1 0) as Q. rewrite Rminus_0_r, Rabs_R1 in Q. pose proof (Rabs_pos (W 1 - W 0)). lra. }
  assert (E : mean l (fun k => at_ u0 (z - k)) - W x = mean l (fun k => W (c + IZR (z - k) * h) - W x)).
  { rewrite (mean_ext l (fun k => W (c + IZR (z - k) * h) - W x) (fun k => at_ u0 (z - k) + (- W x) * 1)) by (intro k; rewrite HW; ring).
    rewrite mean_plus, mean_scal, A1. ring. }
  assert (SM := second_moment l m1 m2 A1 A2 A3).
  assert (P2 : 0 <= mean l (fun z => (IZR z * h - m1 * h) ^ 2)).
  { apply mean_nonneg; [exact A0|]. intro k. apply pow2_ge_0. }
  assert (Q : mean l (fun z => (IZR z * h - m1 * h) ^ 2) <= m1 * h * h) by (rewrite SM; assert (0 < h * h) by nra; nra).
  set (s := sqrt (m1 * h * h)). assert (Ss : s * s = m1 * h * h) by (apply sqrt_sqrt; lra). assert (S0 : 0 <= s) by apply sqrt_pos.
  rewrite E. eapply Rle_trans; [apply mean_abs; exact A0|].
  eapply Rle_trans; [apply (mean_le l _ (fun k => K * Rabs (IZR k * h - m1 * h)) A0)|].
  { intro k. eapply Rle_trans; [apply HL|]. apply Req_le. f_equal. rewrite <- Rabs_Ropp. f_equal. rewrite minus_IZR. unfold x. ring. }
  rewrite mean_scal. apply Rmult_le_compat_l; [exact PK|].
  destruct (Rle_lt_or_eq_dec 0 s S0) as [Ps|Zs].
  - eapply Rle_trans; [apply (mean_le l _ (fun k => / (2 * s) * (IZR k * h - m1 * h) ^ 2 + (s / 2) * 1) A0)|].
    + intro k. set (y := IZR k * h - m1 * h). apply (Rmult_le_reg_l (2 * s)); [lra|]. replace (2 * s * (/ (2 * s) * y ^ 2 + s / 2 * 1)) with (y ^ 2 + s * s) by (field; lra).
      rewrite <- (pow2_abs y). pose proof (pow2_ge_0 (Rabs y - s)) as Q2. cbn [pow] in *. lra.
    + rewrite mean_plus, !mean_scal, A1. apply (Rmult_le_reg_l (2 * s)); [lra|].
      replace (2 * s * (/ (2 * s) * mean l (fun z0 => (IZR z0 * h - m1 * h) ^ 2) + s / 2 * 1)) with (mean l (fun z0 => (IZR z0 * h - m1 * h) ^ 2) + s * s) by (field; lra). lra.
  - (* no time has passed *) rewrite <- Zs in *. assert (Z2 : mean l (fun z => (IZR z * h - m1 * h) ^ 2) = 0) by lra.
    clear - A0 Z2. induction A0 as [|p l Hp A0 IH]; [unfold mean; cbn; lra|]. rewrite mean_cons in *.
    assert (P2 : 0 <= mean l (fun z => (IZR z * h - m1 * h) ^ 2)).
    { apply mean_nonneg; [exact A0|]. intro k. apply pow2_ge_0. }
    set (y := IZR (snd p) * h - m1 * h) in *. assert (0 <= fst p * y ^ 2) by (apply Rmult_le_pos; [exact Hp|apply pow2_ge_0]).
    assert (Y : fst p * y ^ 2 = 0) by lra. assert (fst p * Rabs y = 0).
    { apply Rmult_integral in Y as [Y|Y]; [rewrite Y; ring|]. assert (y = 0) by nra. rewrite H0, Rabs_R0. ring. }
    rewrite H0. specialize (IH ltac:(lra)). lra.
Qed.
End Errors.

(** ** Upwind steps of the Runge-Kutta methods *)
(** the right-hand side takes from every value what it gives to the next one *)
Definition upwind (n : nat) (h : R) (f : R -> list R -> result (list R)) : Prop := forall t u, length u = n ->
  exists v, f t u = Ok v /\ length v = n /\ forall i, (i < n)%nat -> nth i v 0 = (at_ u (Z.of_nat i - 1) - nth i u 0) / h.

Lemma nth_step (u v : list R) a r i : length v = length u -> (i < length u)%nat -> nth i (vadd (vscal a u) (vscal r v)) 0 = a * nth i u 0 + r * nth i v 0.
Proof.
  intros L Hi. cbn [vadd vscal list_VecOps cadd cscal R_CellOps]. rewrite (nth_map2 _ _ _ _ 0 0) by (rewrite map_length; lia).
  rewrite !(nth_map' _ _ _ 0) by lia. reflexivity.
Qed.
Lemma nth_step1 (u v : list R) r i : length v = length u -> (i < length u)%nat -> nth i (vadd u (vscal r v)) 0 = nth i u 0 + r * nth i v 0.
Proof.
  intros L Hi. cbn [vadd vscal list_VecOps cadd cscal R_CellOps]. rewrite (nth_map2 _ _ _ _ 0 0) by (rewrite ?map_length; lia).
  rewrite !(nth_map' _ _ _ 0) by lia. reflexivity.
Qed.
Lemma step_length (u v : list R) a r : length v = length u -> length (vadd (vscal a u) (vscal r v)) = length u.
Proof. intro L. cbn [vadd vscal list_VecOps]. rewrite map2_length, !map_length. lia. Qed.
Lemma step1_length (u v : list R) r : length v = length u -> length (vadd u (vscal r v)) = length u.
Proof. intro L. cbn [vadd vscal list_VecOps]. rewrite map2_length, !map_length. lia. Qed.

Lemma upwind_execute n h f T dt o u0 m1 m2 : upwind n h f -> (0 < n)%nat -> length u0 = n -> 0 < h -> 0 <= dt <= h -> T = euler \/ T = heun \/ T = ssp3 ->
  spread u0 m1 m2 (o_sol o) ->
  exists o' m2', rk_execute_e f T dt o = Ok o' /\ o_time o' = o_time o + dt /\ spread u0 (m1 + dt / h) m2' (o_sol o') /\
    m2' - (m1 + dt / h) * (m1 + dt / h) <= m2 - m1 * m1 + dt / h.
Proof.
  intros HU Hn L0 Hh Hdt HT HS. set (d := repeat 0 n : list R). assert (Ld : length d = n) by apply repeat_length.
  assert (Lo : length (o_sol o) = n) by (destruct HS; congruence).
  assert (LF : forall t u v, length u = n -> f t u = Ok v -> length v = n) by (intros t u v Lu Ef; destruct (HU t u Lu) as [v' [E' [Lv _]]]; congruence).
  assert (LT : forall t u, length u = n -> length (totalise d f t u) = n).
  { intros t u Lu. unfold totalise. destruct (HU t u Lu) as [v [-> [Lv _]]]. exact Lv. }
  destruct (ssp_convex_run_e (fun l : list R => length l = n) f d (fun l => length l = n) [dt] T o) as [o' [R1 [R2 R3]]]; auto.
  { intros a b r Ha Hb Hr. rewrite step_length by congruence. exact Ha. }
  { intros t u Lu. destruct (HU t u Lu) as [v [Ev _]]. eauto. }
  { intros dt' t u v _ Lu Ev. rewrite step1_length; [exact Lu|]. rewrite Lu. eapply LF; eauto. }
  assert (R1' : rk_execute_e f T dt o = Ok o'). { unfold rk_run_e in R1. cbn [foldM] in R1. destruct (rk_execute_e f T dt o); [|discriminate]. exact R1. }
  cbn in R3. rewrite Rplus_0_r in R3. exists o'.
  set (lam := dt / h). assert (Hl : 0 <= lam <= 1).
  { unfold lam. split; [apply Rmult_le_pos; [lra|left; apply Rinv_0_lt_compat; lra]|]. apply (Rmult_le_reg_r h); [lra|]. unfold Rdiv. rewrite Rmult_assoc, Rinv_l by lra. lra. }
  assert (ST : forall t u a b, spread u0 a b u -> spread u0 (a + lam) (b + 2 * lam * a + lam) (vadd u (vscal dt (totalise d f t u)))).
  { intros t u a b Su. pose proof (proj1 Su) as Lu. assert (Lu' : length u = n) by congruence. apply (spread_upwind u0 lam a b u); [lia|exact Hl|exact Su| |].
    - rewrite step1_length; [exact Lu|]. rewrite LT; lia.
    - intros i Hi. rewrite nth_step1 by (rewrite ?LT; lia). unfold totalise. destruct (HU t u Lu') as [v [-> [_ Hv]]]. rewrite Hv by lia. unfold lam. field. lra. }
  assert (MX : forall r u v a1 a2 b1 b2, 0 <= r <= 1 -> spread u0 a1 a2 u -> spread u0 b1 b2 v ->
    spread u0 (r * a1 + (1 - r) * b1) (r * a2 + (1 - r) * b2) (vadd (vscal r u) (vscal (1 - r) v))).
  { intros r u v a1 a2 b1 b2 Hr Su Sv. pose proof (proj1 Su) as Lu. pose proof (proj1 Sv) as Lv. apply (spread_mixed u0 r _ _ _ _ u v); auto; [lia| |].
    - rewrite step_length; congruence.
    - intros i Hi. apply nth_step; [congruence|lia]. }
  assert (LT' : forall t u, (fun l : list R => length l = n) u -> (fun l : list R => length l = n) (totalise d f t u)) by exact LT.
  pose proof (rk_execute_e_total f d T dt o o' R1') as EX.
  destruct HT as [-> | [-> | ->]].
  - rewrite (euler_step (fun l : list R => length l = n)) in EX by auto. exists (m2 + 2 * lam * m1 + lam). split; [exact R1'|]. split; [exact R3|]. rewrite <- EX. cbn [o_sol].
    split; [apply ST; exact HS|]. nra.
  - rewrite (heun_step (fun l : list R => length l = n)) in EX by auto. cbv zeta in EX. eexists. split; [exact R1'|]. split; [exact R3|]. rewrite <- EX. cbn [o_sol].
    split.
    + match goal with |- spread _ ?x ?e _ => replace x with (1 / 2 * m1 + (1 - 1 / 2) * (m1 + lam + lam)) by field end. apply MX; [lra|exact HS|]. apply ST. apply ST. exact HS.
    + nra.
  - rewrite (ssp3_step (fun l : list R => length l = n)) in EX by auto. cbv zeta in EX. eexists. split; [exact R1'|]. split; [exact R3|]. rewrite <- EX. cbn [o_sol].
    split.
    + match goal with |- spread _ ?x ?e _ => replace x with (1 / 3 * m1 + (1 - 1 / 3) * (3 / 4 * m1 + (1 - 3 / 4) * (m1 + lam + lam) + lam)) by field end.
      apply MX; [lra|exact HS|]. apply ST. apply MX; [lra|exact HS|]. apply ST. apply ST. exact HS.
    + nra.
Qed.

(** ** The points of the initial values *)
Lemma abs_inv x a : Rabs x <= a -> - a <= x <= a.
Proof. intro H. pose proof (Rle_abs x). pose proof (Rle_abs (- x)) as Q. rewrite Rabs_Ropp in Q. lra. Qed.
Lemma repeats_z D f : repeats D f -> forall q x, f (x + IZR q * (ib D - ia D)) = f x.
Proof.
  intros HR. assert (P : forall k x, f (x + INR k * (ib D - ia D)) = f x).
  { induction k as [|k IH]; intro x; [f_equal; cbn; ring|]. rewrite S_INR. rewrite <- (IH x), <- (HR (x + INR k * _)). f_equal. ring. }
  intros q x. destruct (Z_le_gt_dec 0 q) as [Hq|Hq].
  - rewrite <- (Z2Nat.id q) by lia. rewrite <- INR_IZR_INZ. apply P.
  - rewrite <- (P (Z.to_nat (- q)) (x + IZR q * (ib D - ia D))). f_equal. rewrite INR_IZR_INZ, Z2Nat.id, opp_IZR by lia. ring.
Qed.
Lemma at_period (u : list R) g (n : nat) D : (0 < n)%nat -> repeats D g -> length u = n ->
  forall c, (forall i, (i < n)%nat -> nth i u 0 = g (c + INR i * ((ib D - ia D) / INR n))) ->
  forall z, at_ u z = g (c + IZR z * ((ib D - ia D) / INR n)).
Proof.
  intros Hn HR Lu c H z. assert (I := at_index u z ltac:(lia)). unfold at_. rewrite Lu in *. rewrite H by exact I. rewrite INR_IZR_INZ, Z2Nat.id by (apply Z.mod_pos_bound; lia).
  rewrite <- (repeats_z D g HR (z / Z.of_nat n)). f_equal. pose proof (Z_div_mod_eq_full z (Z.of_nat n)) as Q. apply (f_equal IZR) in Q. rewrite plus_IZR, mult_IZR, <- INR_IZR_INZ in Q.
  assert (INR n <> 0) by (apply not_0_INR; lia). rewrite Q. field. auto.
Qed.
Definition two_points (f : R -> R) (d : R) : R -> R := fun x => (f (x - d) + f (x + d)) / 2.
Lemma two_points_repeat D f d : repeats D f -> repeats D (two_points f d).
Proof. intros H x. unfold two_points. replace (x + (ib D - ia D) - d) with (x - d + (ib D - ia D)) by ring. replace (x + (ib D - ia D) + d) with (x + d + (ib D - ia D)) by ring. rewrite !H. reflexivity. Qed.
Lemma two_points_lipschitz K f d : lipschitz K f -> lipschitz K (two_points f d).
Proof.
  intros H x y. unfold two_points. replace ((f (x - d) + f (x + d)) / 2 - (f (y - d) + f (y + d)) / 2) with (((f (x - d) - f (y - d)) + (f (x + d) - f (y + d))) / 2) by field.
  pose proof (H (x - d) (y - d)) as H1. pose proof (H (x + d) (y + d)) as H2. replace (x - d - (y - d)) with (x - y) in H1 by ring. replace (x + d - (y + d)) with (x - y) in H2 by ring.
  unfold Rdiv. rewrite Rabs_mult, (Rabs_right (/ 2)) by lra. pose proof (Rabs_triang (f (x - d) - f (y - d)) (f (x + d) - f (y + d))). lra.
Qed.
Lemma shift_deriv g g' d : (forall x, derivable_pt_lim g x (g' x)) -> forall x, derivable_pt_lim (fun x => g (x + d)) x (g' (x + d)).
Proof.
  intros H x. replace (g' (x + d)) with (g' (x + d) * (1 + 0)) by ring. apply (derivable_pt_lim_comp (fun x => x + d) g); [|apply H].
  apply (derivable_pt_lim_plus (fun x => x) (fun _ => d)); [apply derivable_pt_lim_id|apply derivable_pt_lim_const].
Qed.
Lemma two_points_deriv g g' d : (forall x, derivable_pt_lim g x (g' x)) -> forall x, derivable_pt_lim (two_points g d) x (two_points g' d x).
Proof.
  intros H x. unfold two_points, Rdiv. rewrite (Rmult_comm _ (/ 2)). apply (derivable_pt_lim_ext (fun x => / 2 * (g (x + - d) + g (x + d)))); [intro; unfold Rminus; ring|].
  apply (derivable_pt_lim_scal (fun x => g (x + - d) + g (x + d))). apply (derivable_pt_lim_plus (fun x => g (x + - d)) (fun x => g (x + d))); apply shift_deriv; exact H.
Qed.
Lemma two_points_smooth M f d : smooth M f -> smooth M (two_points f d).
Proof.
  intros [f1 [f2 [D1 [D2 B]]]]. exists (two_points f1 d), (two_points f2 d). split; [apply two_points_deriv; exact D1|]. split; [apply two_points_deriv; exact D2|].
  intro x. unfold two_points, Rdiv. rewrite Rabs_mult, (Rabs_right (/ 2)) by lra. pose proof (Rabs_triang (f2 (x - d)) (f2 (x + d))). pose proof (B (x - d)). pose proof (B (x + d)). lra.
Qed.
Lemma two_points_near M f d x : smooth M f -> Rabs (two_points f d x - f x) <= M / 2 * d ^ 2.
Proof.
  intros [f1 [f2 [D1 [D2 B]]]]. unfold two_points. pose proof (taylor M f f1 f2 D1 D2 B x (x - d)) as T1. pose proof (taylor M f f1 f2 D1 D2 B x (x + d)) as T2.
  replace (x - d - x) with (- d) in T1 by ring. replace (x + d - x) with d in T2 by ring. replace ((- d) ^ 2) with (d ^ 2) in T1 by ring.
  apply abs_inv in T1, T2. apply Rabs_le. lra.
Qed.
Lemma two_points_close K f d x : lipschitz K f -> 0 <= d -> Rabs (two_points f d x - f x) <= K * d.
Proof.
  intros H Hd. pose proof (H (x - d) x) as H1. pose proof (H (x + d) x) as H2. unfold two_points.
  replace (x - d - x) with (- d) in H1 by ring. replace (x + d - x) with d in H2 by ring. rewrite Rabs_Ropp in H1. rewrite (Rabs_right d) in H1, H2 by lra.
  apply abs_inv in H1, H2. apply Rabs_le. lra.
Qed.

(** ** Continuous data *)
Definition modulus (e d : R) (f : R -> R) : Prop := forall x y, Rabs (x - y) < d -> Rabs (f x - f y) <= e.
Lemma error_modulus u0 W c h e d B m1 m2 u z : 0 < h -> (forall z, at_ u0 z = W (c + IZR z * h)) -> 0 < d -> 0 <= e -> modulus e d W -> (forall x, Rabs (W x) <= B) ->
  spread u0 m1 m2 u -> m2 - m1 * m1 <= m1 -> Rabs (at_ u z - W (c + IZR z * h - m1 * h)) <= e + 2 * B / (d * d) * (m1 * h * h).
Proof.
  intros Hh HW Hd He HM HB [_ [l [[A0 A1] [A2 [A3 A4]]]]] V. rewrite A4. set (x := c + IZR z * h - m1 * h).
  assert (PB : 0 <= B) by (pose proof (HB 0); pose proof (Rabs_pos (W 0)); lra).
  assert (C0 : 0 <= 2 * B / (d * d)) by (apply Rmult_le_pos; [lra|left; apply Rinv_0_lt_compat; nra]).
  assert (E : mean l (fun k => at_ u0 (z - k)) - W x = mean l (fun k => W (c + IZR (z - k) * h) - W x)).
  { rewrite (mean_ext l (fun k => W (c + IZR (z - k) * h) - W x) (fun k => at_ u0 (z - k) + (- W x) * 1)) by (intro k; rewrite HW; ring).
    rewrite mean_plus, mean_scal, A1. ring. }
  rewrite E. eapply Rle_trans; [apply mean_abs; exact A0|].
  eapply Rle_trans; [apply (mean_le l _ (fun k => e * 1 + 2 * B / (d * d) * (IZR k * h - m1 * h) ^ 2) A0)|].
  - intro k. set (y := c + IZR (z - k) * h). assert (Exy : (IZR k * h - m1 * h) ^ 2 = Rabs (y - x) ^ 2) by (rewrite pow2_abs; unfold y, x; rewrite minus_IZR; ring). rewrite Exy.
    pose proof (pow2_ge_0 (Rabs (y - x))) as P2. destruct (Rlt_le_dec (Rabs (y - x)) d) as [L|L].
    + pose proof (HM y x L). pose proof (Rmult_le_pos _ _ C0 P2). lra.
    + assert (2 * B <= 2 * B / (d * d) * Rabs (y - x) ^ 2).
      { replace (2 * B) with (2 * B / (d * d) * (d * d)) at 1 by (field; lra). apply Rmult_le_compat_l; [exact C0|]. cbn [pow]. nra. }
      pose proof (HB x) as Bx. pose proof (HB y) as By. pose proof (Rabs_triang (W y) (- W x)) as Tr. rewrite Rabs_Ropp in Tr. change (W y - W x) with (W y + - W x). lra.
  - rewrite mean_plus, !mean_scal, A1, (second_moment h l m1 m2 A1 A2 A3). assert (0 < h * h) by nra.
    assert (2 * B / (d * d) * ((m2 - m1 * m1) * (h * h)) <= 2 * B / (d * d) * (m1 * h * h)); [|lra]. apply Rmult_le_compat_l; [exact C0|]. nra.
Qed.
Lemma two_points_modulus e d f r : modulus e d f -> modulus e d (two_points f r).
Proof.
  intros H x y Hxy. unfold two_points. pose proof (H (x - r) (y - r)) as H1. pose proof (H (x + r) (y + r)) as H2.
  replace (x - r - (y - r)) with (x - y) in H1 by ring. replace (x + r - (y + r)) with (x - y) in H2 by ring.
  specialize (H1 Hxy). specialize (H2 Hxy). apply abs_inv in H1, H2. apply Rabs_le. lra.
Qed.
Lemma two_points_modulus_near e d f r x : modulus e d f -> 0 <= r < d -> Rabs (two_points f r x - f x) <= e.
Proof.
  intros H Hr. pose proof (H (x - r) x) as H1. pose proof (H (x + r) x) as H2. unfold two_points.
  replace (x - r - x) with (- r) in H1 by ring. replace (x + r - x) with r in H2 by ring. rewrite Rabs_Ropp in H1. rewrite (Rabs_right r) in H1, H2 by lra.
  specialize (H1 (proj2 Hr)). specialize (H2 (proj2 Hr)). apply abs_inv in H1, H2. apply Rabs_le. lra.
Qed.
Lemma two_points_bounded B f r : (forall x, Rabs (f x) <= B) -> forall x, Rabs (two_points f r x) <= B.
Proof. intros H x. pose proof (abs_inv _ _ (H (x - r))). pose proof (abs_inv _ _ (H (x + r))). unfold two_points. apply Rabs_le. lra. Qed.

(** periodic continuous functions are bounded and uniformly continuous *)
Lemma into_domain D x : ia D < ib D -> exists q, ia D <= x + IZR q * (ib D - ia D) < ib D.
Proof.
  intro H. exists (- Int_part ((x - ia D) / (ib D - ia D)))%Z. rewrite opp_IZR. set (L := ib D - ia D). assert (0 < L) by (unfold L; lra).
  pose proof (base_Int_part ((x - ia D) / L)) as [B1 B2]. set (k := IZR (Int_part ((x - ia D) / L))) in *.
  assert (E : (x - ia D) = (x - ia D) / L * L) by (field; lra). split.
  - assert (k * L <= x - ia D) by (rewrite E; apply Rmult_le_compat_r; lra). lra.
  - assert (x - ia D < (k + 1) * L) by (rewrite E; apply Rmult_lt_compat_r; lra). unfold L in *. lra.
Qed.
Lemma repeats_bounded D f : ia D < ib D -> repeats D f -> (forall x, continuity_pt f x) -> exists B, forall x, Rabs (f x) <= B.
Proof.
  intros HD HR HC. destruct (continuity_ab_maj f (ia D) (ib D) ltac:(lra) (fun x _ => HC x)) as [X [HX _]]. destruct (continuity_ab_min f (ia D) (ib D) ltac:(lra) (fun x _ => HC x)) as [Y [HY _]].
  exists (Rmax (Rabs (f X)) (Rabs (f Y))). intro x. destruct (into_domain D x HD) as [q Hq]. rewrite <- (repeats_z D f HR q x). pose proof (HX _ (conj (proj1 Hq) (Rlt_le _ _ (proj2 Hq)))). pose proof (HY _ (conj (proj1 Hq) (Rlt_le _ _ (proj2 Hq)))).
  pose proof (Rmax_l (Rabs (f X)) (Rabs (f Y))). pose proof (Rmax_r (Rabs (f X)) (Rabs (f Y))). pose proof (Rle_abs (f X)). pose proof (Rle_abs (- f Y)) as Q. rewrite Rabs_Ropp in Q. apply Rabs_le. lra.
Qed.
Lemma repeats_uniform D f e : ia D < ib D -> repeats D f -> (forall x, continuity_pt f x) -> 0 < e -> exists d, 0 < d /\ modulus e d f.
Proof.
  intros HD HR HC He. set (L := ib D - ia D). assert (HL : 0 < L) by (unfold L; lra).
  destruct (Heine f (fun x => ia D - L <= x <= ib D + L) (compact_P3 _ _) (fun x _ => HC x) (mkposreal e He)) as [d Hd].
  exists (Rmin d L). split; [apply Rmin_pos; [apply cond_pos|exact HL]|]. intros x y Hxy. pose proof (Rmin_l d L). pose proof (Rmin_r d L).
  destruct (into_domain D x HD) as [q Hq]. rewrite <- (repeats_z D f HR q x), <- (repeats_z D f HR q y). fold L in Hq |- *.
  assert (Ed : x + IZR q * L - (y + IZR q * L) = x - y) by ring. pose proof (abs_inv _ _ (Rlt_le _ _ Hxy)).
  left. apply Hd; [lra..|]. rewrite Ed. lra.
Qed.
