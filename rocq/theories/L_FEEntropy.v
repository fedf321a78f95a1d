(** Lemmas: the low order continuous Galerkin scheme and distances to constants. *)
From Coq Require Import Reals List Lia Lra Arith Bool ZArith.
From Verif Require Import Prelude L_Prelude M_Mesh M_Flux M_Boundary L_Boundary L_Neighbours S_Quadrature L_Quadrature L_Flux M_Misc M_FE L_Lagrange L_FE S_FELow L_FELow S_Contraction L_Contraction.
Import ListNotations.
Open Scope R_scope.

(** the Kruzkov flux of |. - k| *)
Definition kflux (pr : problem) (k z : R) : R := if Rlt_dec z k then - (flux_of pr z - flux_of pr k) else flux_of pr z - flux_of pr k.
Lemma secant pr x y a b : Rmin x y <= a <= Rmax x y -> Rmin x y <= b <= Rmax x y ->
  exists q, flux_of pr a - flux_of pr b = q * (a - b) /\ Rabs q <= Rmax (wave_speed pr x) (wave_speed pr y).
Proof.
  intros Ha Hb. destruct pr; cbn [flux_of wave_speed].
  - exists 1. split; [ring|]. rewrite Rmax_left by lra. rewrite Rabs_R1. lra.
  - exists ((a + b) / 2). split; [field|]. revert Ha Hb. unfold Rmin, Rmax. destruct (Rle_dec x y), (Rle_dec (Rabs x) (Rabs y)); unfold Rabs in *; repeat destruct Rcase_abs; lra.
Qed.
Lemma secant_scaled pr c d x y a b : d = Rabs c * Rmax (wave_speed pr x) (wave_speed pr y) -> Rmin x y <= a <= Rmax x y -> Rmin x y <= b <= Rmax x y -> b <= a ->
  - (d * (a - b)) <= c * (flux_of pr a - flux_of pr b) <= d * (a - b).
Proof.
  intros Hd Ha Hb Hab. destruct (secant pr x y a b Ha Hb) as [q [E Q]]. rewrite E.
  assert (B : Rabs (c * q) <= d) by (rewrite Rabs_mult, Hd; apply Rmult_le_compat_l; [apply Rabs_pos|exact Q]).
  assert (B1 := Rle_abs (c * q)). assert (B2 := Rle_abs (- (c * q))). rewrite Rabs_Ropp in B2.
  assert (H1 : (c * q) * (a - b) <= d * (a - b)) by (apply Rmult_le_compat_r; lra).
  assert (H2 : - (c * q) * (a - b) <= d * (a - b)) by (apply Rmult_le_compat_r; lra). lra.
Qed.
Lemma pair_kruzkov pr c d x y k : d = Rabs c * Rmax (wave_speed pr x) (wave_speed pr y) ->
  Rabs (d * (x + y - 2 * k) - c * (flux_of pr y - flux_of pr x)) <= d * (Rabs (x - k) + Rabs (y - k)) - c * (kflux pr k y - kflux pr k x).
Proof.
  intro Hd. assert (D0 : 0 <= d).
  { rewrite Hd. apply Rmult_le_pos; [apply Rabs_pos|]. eapply Rle_trans; [|apply Rmax_l]. destruct pr; cbn; [lra|apply Rabs_pos]. }
  assert (Sx : Rmin x y <= x <= Rmax x y) by (split; [apply Rmin_l|apply Rmax_l]).
  assert (Sy : Rmin x y <= y <= Rmax x y) by (split; [apply Rmin_r|apply Rmax_r]).
  unfold kflux. destruct (Rlt_dec x k) as [A|A], (Rlt_dec y k) as [B|B].
  - rewrite (Rabs_left1 (x - k)), (Rabs_left1 (y - k)) by lra. apply Rabs_le.
    assert (P : 0 <= d * (k - x)) by (apply Rmult_le_pos; lra). assert (Q : 0 <= d * (k - y)) by (apply Rmult_le_pos; lra).
    destruct (Rle_dec x y) as [O|O].
    + destruct (secant_scaled pr c d x y y x Hd Sy Sx O). lra.
    + destruct (secant_scaled pr c d x y x y Hd Sx Sy ltac:(lra)). lra.
  - rewrite (Rabs_left1 (x - k)), (Rabs_right (y - k)) by lra. apply Rabs_le.
    assert (Sk : Rmin x y <= k <= Rmax x y) by (rewrite Rmin_left, Rmax_right by lra; lra).
    destruct (secant_scaled pr c d x y k x Hd Sk Sx ltac:(lra)). destruct (secant_scaled pr c d x y y k Hd Sy Sk ltac:(lra)). lra.
  - rewrite (Rabs_right (x - k)), (Rabs_left1 (y - k)) by lra. apply Rabs_le.
    assert (Sk : Rmin x y <= k <= Rmax x y) by (rewrite Rmin_right, Rmax_left by lra; lra).
    destruct (secant_scaled pr c d x y k y Hd Sk Sy ltac:(lra)). destruct (secant_scaled pr c d x y x k Hd Sx Sk ltac:(lra)). lra.
  - rewrite (Rabs_right (x - k)), (Rabs_right (y - k)) by lra. apply Rabs_le.
    assert (P : 0 <= d * (x - k)) by (apply Rmult_le_pos; lra). assert (Q : 0 <= d * (y - k)) by (apply Rmult_le_pos; lra).
    destruct (Rle_dec x y) as [O|O].
    + destruct (secant_scaled pr c d x y y x Hd Sy Sx O). lra.
    + destruct (secant_scaled pr c d x y x y Hd Sx Sy ltac:(lra)). lra.
Qed.

Definition weighted (mass : list R) (phi : R -> R) (u : list R) : R := rsum (map2 Rmult mass (map phi u)).
Lemma weighted_tab mass phi u N : length mass = N -> length u = N -> weighted mass phi u = rsum (tab N (fun i => nth i mass 0 * phi (nth i u 0))).
Proof.
  intros LM LU. unfold weighted. rewrite (list_tab 0 (map2 Rmult mass (map phi u))), map2_length, map_length, LM, LU, Nat.min_id. f_equal. apply tab_ext. intros i Hi.
  rewrite (nth_map2 _ _ _ _ 0 0 0) by (rewrite ?map_length; lia). rewrite (nth_map' _ _ _ 0 0) by lia. reflexivity.
Qed.

Section Step.
Context (N : nat) (c : mat) (skew : forall i j, c i j = - c j i) (rows : forall i, rsum (tab N (c i)) = 0) (cols : forall j, rsum (tab N (fun i => c i j)) = 0).
Context (pr : problem) (u : list R) (mass r : list R) (dt : R) (Hdt : 0 <= dt).
Let d := diffusion pr N c u.
Hypothesis Hm : forall i, (i < N)%nat -> 0 < nth i mass 0 /\ 2 * dt * Rabs (d i i) <= nth i mass 0.
Hypothesis Hr : forall i, (i < N)%nat -> nth i mass 0 * dof r i = off N (fun j => d i j * (dof u j - dof u i) - c i j * (flux_of pr (dof u j) - flux_of pr (dof u i))) i.
Lemma off_abs f i : Rabs (off N f i) <= off N (fun j => Rabs (f j)) i.
Proof.
  unfold off. rewrite (tab_ext N (fun j => if Nat.eqb i j then 0 else Rabs (f j)) (fun j => Rabs (if Nat.eqb i j then 0 else f j))) by (intros j Hj; destruct (Nat.eqb i j); [rewrite Rabs_R0|]; reflexivity).
  assert (G : forall (g : nat -> R) k, Rabs (rsum (tab k g)) <= rsum (tab k (fun j => Rabs (g j)))).
  { clear. intros g k. induction k as [|k IH]; [cbn; rewrite Rabs_R0; lra|]. rewrite !rsum_tab_S. eapply Rle_trans; [apply Rabs_triang|]. lra. }
  apply (G (fun j => if Nat.eqb i j then 0 else f j)).
Qed.
Lemma node_kruzkov k i : (i < N)%nat -> nth i mass 0 * Rabs (dof u i + dt * dof r i - k) <=
  nth i mass 0 * Rabs (dof u i - k) + dt * off N (fun j => d i j * (Rabs (dof u j - k) - Rabs (dof u i - k)) - c i j * (kflux pr k (dof u j) - kflux pr k (dof u i))) i.
Proof.
  intro Hi. destruct (Hm i Hi) as [M0 M1]. unfold d in M1. rewrite (diffusion_abs_diag N c skew) in M1 by auto. fold d in M1.
  set (D := off N (d i) i) in *.
  set (X := fun j => d i j * (dof u i + dof u j - 2 * k) - c i j * (flux_of pr (dof u j) - flux_of pr (dof u i))).
  assert (E : nth i mass 0 * (dof u i + dt * dof r i - k) = (nth i mass 0 - 2 * dt * D) * (dof u i - k) + dt * off N X i).
  { replace (nth i mass 0 * (dof u i + dt * dof r i - k)) with (nth i mass 0 * (dof u i - k) + dt * (nth i mass 0 * dof r i)) by ring. rewrite Hr by auto.
    rewrite (off_ext N X (fun j => (2 * (dof u i - k)) * d i j + (d i j * (dof u j - dof u i) - c i j * (flux_of pr (dof u j) - flux_of pr (dof u i)))) i) by (intros; unfold X; ring).
    rewrite off_plus, off_scal. fold D. ring. }
  assert (A : Rabs (off N X i) <= off N (fun j => d i j * (Rabs (dof u i - k) + Rabs (dof u j - k)) - c i j * (kflux pr k (dof u j) - kflux pr k (dof u i))) i).
  { eapply Rle_trans; [apply off_abs|]. apply off_le. intros j Hj Hij. apply pair_kruzkov. apply (diffusion_entry N c skew). exact Hij. }
  rewrite (off_ext N (fun j => d i j * (Rabs (dof u i - k) + Rabs (dof u j - k)) - c i j * (kflux pr k (dof u j) - kflux pr k (dof u i))) (fun j => (2 * Rabs (dof u i - k)) * d i j + (d i j * (Rabs (dof u j - k) - Rabs (dof u i - k)) - c i j * (kflux pr k (dof u j) - kflux pr k (dof u i)))) i) in A by (intros; ring).
  rewrite off_plus, off_scal in A. fold D in A.
  replace (nth i mass 0 * Rabs (dof u i + dt * dof r i - k)) with (Rabs (nth i mass 0 * (dof u i + dt * dof r i - k))) by (rewrite Rabs_mult, (Rabs_right (nth i mass 0)) by lra; reflexivity).
  rewrite E. eapply Rle_trans; [apply Rabs_triang|]. rewrite !Rabs_mult, (Rabs_right (nth i mass 0 - 2 * dt * D)), (Rabs_right dt) by lra.
  apply (Rmult_le_compat_l dt) in A; [|exact Hdt]. lra.
Qed.
Lemma sum_diffusion_zero a : rsum (tab N (fun i => off N (fun j => d i j * (a j - a i)) i)) = 0.
Proof.
  assert (E : forall i, (i < N)%nat -> off N (fun j => d i j * (a j - a i)) i = rsum (tab N (fun j => d i j * a j)) - a i * rsum (tab N (d i))).
  { intros i Hi. transitivity (rsum (tab N (fun j => d i j * (a j - a i)))); [rewrite (off_split N _ i Hi); ring|].
    rewrite <- rsum_tab_scal, <- rsum_tab_minus. apply sum_ext. intros; ring. }
  rewrite (sum_ext N _ _ E). rewrite (sum_ext N _ (fun i => rsum (tab N (fun j => d i j * a j)))).
  - rewrite rsum_tab_swap. apply rsum_tab_0. intros j Hj. rewrite sum_scal_r.
    rewrite (sum_ext N (fun i => d i j) (d j)) by (intros; apply diffusion_sym; exact skew). unfold d. rewrite diffusion_rows by auto. ring.
  - intros i Hi. unfold d. rewrite (diffusion_rows N c skew) by auto. ring.
Qed.
Lemma sum_gradient_zero a : rsum (tab N (fun i => off N (fun j => c i j * (a j - a i)) i)) = 0.
Proof.
  assert (E : forall i, (i < N)%nat -> off N (fun j => c i j * (a j - a i)) i = rsum (tab N (fun j => c i j * a j)) - a i * rsum (tab N (c i))).
  { intros i Hi. transitivity (rsum (tab N (fun j => c i j * (a j - a i)))); [rewrite (off_split N _ i Hi); ring|].
    rewrite <- rsum_tab_scal, <- rsum_tab_minus. apply sum_ext. intros; ring. }
  rewrite (sum_ext N _ _ E). rewrite (sum_ext N _ (fun i => rsum (tab N (fun j => c i j * a j)))).
  - rewrite rsum_tab_swap. apply rsum_tab_0. intros j Hj. rewrite sum_scal_r, cols. ring.
  - intros i Hi. rewrite rows. ring.
Qed.
Lemma all_kruzkov k : rsum (tab N (fun i => nth i mass 0 * Rabs (dof u i + dt * dof r i - k))) <= rsum (tab N (fun i => nth i mass 0 * Rabs (dof u i - k))).
Proof.
  eapply Rle_trans; [apply rsum_tab_le; intros i Hi; apply (node_kruzkov k i Hi)|].
  rewrite rsum_tab_plus, rsum_tab_scal.
  rewrite (sum_ext N (fun i => off N (fun j => d i j * (Rabs (dof u j - k) - Rabs (dof u i - k)) - c i j * (kflux pr k (dof u j) - kflux pr k (dof u i))) i)
    (fun i => off N (fun j => d i j * (Rabs (dof u j - k) - Rabs (dof u i - k))) i + (-1) * off N (fun j => c i j * (kflux pr k (dof u j) - kflux pr k (dof u i))) i)).
  - rewrite rsum_tab_plus, rsum_tab_scal, (sum_diffusion_zero (fun i => Rabs (dof u i - k))), (sum_gradient_zero (fun i => kflux pr k (dof u i))). lra.
  - intros i Hi. rewrite <- off_scal, <- off_plus. apply off_ext. intros; ring.
Qed.
End Step.

(** ** convex functions, weighted sums *)
Lemma weighted_cone mass x y : length x = length mass -> length y = length mass -> weighted mass (fun z => z) x = weighted mass (fun z => z) y ->
  (forall k, weighted mass (fun z => Rabs (z - k)) x <= weighted mass (fun z => Rabs (z - k)) y) -> forall g, cone g -> weighted mass g x <= weighted mass g y.
Proof.
  intros Lx Ly T K g. set (n := length mass) in *.
  assert (W : forall phi w, length w = n -> weighted mass phi w = rsum (tab n (fun i => nth i mass 0 * phi (nth i w 0)))) by (intros; apply weighted_tab; auto).
  assert (Af : forall a b w, length w = n -> rsum (tab n (fun i => nth i mass 0 * (a + b * nth i w 0))) = a * rsum (tab n (fun i => nth i mass 0)) + b * weighted mass (fun z => z) w).
  { intros a b w Lw. rewrite W by auto. rewrite <- !rsum_tab_scal, <- rsum_tab_plus. apply sum_ext. intros; ring. }
  induction 1 as [a b|g a b c q G IH Hc].
  - rewrite !W by auto. rewrite !Af by auto. rewrite T. lra.
  - specialize (K q).
    assert (Q : forall w, length w = n -> weighted mass (fun p => g p + (a + b * p + c * Rabs (p - q))) w =
      weighted mass g w + (a * rsum (tab n (fun i => nth i mass 0)) + b * weighted mass (fun z => z) w) + c * weighted mass (fun z => Rabs (z - q)) w).
    { intros w Lw. rewrite <- Af by auto. rewrite !W by auto. rewrite <- rsum_tab_scal, <- !rsum_tab_plus. apply sum_ext. intros; ring. }
    rewrite (Q x Lx), (Q y Ly), T. apply (Rmult_le_compat_l c) in K; [|exact Hc]. lra.
Qed.
Lemma weighted_ext mass f g u : (forall z, In z u -> f z = g z) -> weighted mass f u = weighted mass g u.
Proof. intro H. unfold weighted. f_equal. f_equal. apply map_ext_in. exact H. Qed.
Lemma weighted_majorised lo hi phi mass x y : convex_on lo hi phi -> (forall z, In z x -> lo <= z <= hi) -> (forall z, In z y -> lo <= z <= hi) -> length x = length mass -> length y = length mass ->
  weighted mass (fun z => z) x = weighted mass (fun z => z) y ->
  (forall k, weighted mass (fun z => Rabs (z - k)) x <= weighted mass (fun z => Rabs (z - k)) y) -> weighted mass phi x <= weighted mass phi y.
Proof.
  intros C Rx Ry Lx Ly T K. destruct (increasing_exists (x ++ y)) as [l [I1 I2]]. destruct l as [|p l].
  - destruct x as [|z x]; [|exfalso; apply (I2 z); left; reflexivity]. destruct y; [apply Rle_refl|cbn in *; lia].
  - assert (B : forall z, In z (p :: l) -> lo <= z <= hi). { intros z Hz. apply I2, in_app_or in Hz as [Hz|Hz]; auto. }
    destruct (cone_interpolates lo hi phi C l p p I1 B ltac:(pose proof (B p (or_introl eq_refl)); lra)) as [g [s [G1 [G2 _]]]].
    rewrite (weighted_ext mass phi g x), (weighted_ext mass phi g y).
    + apply weighted_cone; auto.
    + intros z Hz. symmetry. apply G2, I2, in_or_app. auto.
    + intros z Hz. symmetry. apply G2, I2, in_or_app. auto.
Qed.
