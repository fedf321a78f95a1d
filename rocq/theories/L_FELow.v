(** Lemmas: artificial diffusion and bar states. *)
From Coq Require Import Reals List Lia Lra Arith Bool ZArith.
From Verif Require Import Prelude L_Prelude M_Mesh M_Flux M_Boundary L_Boundary L_Neighbours S_Quadrature L_Quadrature L_Flux M_Misc M_FE L_Lagrange L_FE S_FELow.
Import ListNotations.
Open Scope R_scope.

Section Diffusion.
Context (N : nat) (c : mat).
Hypothesis skew : forall i j, c i j = - c j i.
Lemma skew_diag i : c i i = 0.
Proof. assert (X := skew i i). lra. Qed.
Lemma diffusion_entry pr u i j : i <> j -> diffusion pr N c u i j = Rabs (c i j) * Rmax (wave_speed pr (dof u i)) (wave_speed pr (dof u j)).
Proof.
  intro Hij. assert (A : Rabs (c j i) = Rabs (c i j)) by (rewrite (skew j i), Rabs_Ropp; reflexivity).
  destruct pr; cbn [diffusion wave_speed]; unfold discrete_upwind, burgers_diffusion, set_diagonal; destruct (Nat.eqb_spec i j); try contradiction.
  - rewrite Rmax_left by lra. ring.
  - rewrite !Rabs_mult, A, Rmax_comm. rewrite RmaxRmult; [reflexivity|apply Rabs_pos].
Qed.
Lemma diffusion_nonneg pr u i j : i <> j -> 0 <= diffusion pr N c u i j.
Proof.
  intro H. rewrite diffusion_entry by auto. apply Rmult_le_pos; [apply Rabs_pos|]. eapply Rle_trans; [|apply Rmax_l]. destruct pr; cbn; [lra|apply Rabs_pos].
Qed.
Lemma diffusion_sym pr u i j : diffusion pr N c u i j = diffusion pr N c u j i.
Proof.
  destruct (Nat.eq_dec i j) as [->|H]; [reflexivity|]. rewrite !diffusion_entry by auto. rewrite (skew j i), Rabs_Ropp, Rmax_comm. reflexivity.
Qed.
Lemma offdiag_sum (v : mat) i : (i < N)%nat -> rsum (tab N (set_diagonal N v i)) = - v i i.
Proof.
  intro Hi. transitivity (rsum (tab N (fun j => v i j + delta j i * (- rsum (tab N (v i)) - v i j)))).
  - apply sum_ext. intros j Hj. unfold set_diagonal, delta. rewrite (Nat.eqb_sym j i). destruct (Nat.eqb_spec i j) as [->|]; ring.
  - rewrite rsum_tab_plus, (sum_delta N i (fun j => - rsum (tab N (v i)) - v i j)) by auto. change (rsum (tab N (fun j => v i j))) with (rsum (tab N (v i))). ring.
Qed.
Lemma diffusion_rows pr u i : (i < N)%nat -> rsum (tab N (diffusion pr N c u i)) = 0.
Proof.
  intro Hi. destruct pr; cbn [diffusion]; unfold discrete_upwind, burgers_diffusion; rewrite offdiag_sum by auto; rewrite skew_diag; rewrite ?Rmult_0_l, Rabs_R0; [ring|rewrite Rmax_left by lra; ring].
Qed.
(** the diagonal is minus the sum of the others *)
Definition off (f : nat -> R) (i : nat) : R := rsum (tab N (fun j => if Nat.eqb i j then 0 else f j)).
Lemma off_split f i : (i < N)%nat -> rsum (tab N f) = f i + off f i.
Proof.
  intro Hi. unfold off. transitivity (rsum (tab N (fun j => delta j i * f j + (if Nat.eqb i j then 0 else f j)))).
  - apply sum_ext. intros j Hj. unfold delta. rewrite (Nat.eqb_sym j i). destruct (Nat.eqb i j); ring.
  - rewrite rsum_tab_plus, (sum_delta N i f) by auto. reflexivity.
Qed.
Lemma diffusion_diag pr u i : (i < N)%nat -> diffusion pr N c u i i = - off (diffusion pr N c u i) i.
Proof. intro Hi. assert (X := diffusion_rows pr u i Hi). rewrite (off_split _ i Hi) in X. lra. Qed.
Lemma off_nonneg f i : (forall j, (j < N)%nat -> i <> j -> 0 <= f j) -> 0 <= off f i.
Proof. intro H. unfold off. apply rsum_tab_nonneg. intros j Hj. destruct (Nat.eqb_spec i j); [lra|auto]. Qed.
Lemma off_le f g i : (forall j, (j < N)%nat -> i <> j -> f j <= g j) -> off f i <= off g i.
Proof. intro H. unfold off. apply rsum_tab_le. intros j Hj. destruct (Nat.eqb_spec i j); [lra|auto]. Qed.
Lemma off_ext f g i : (forall j, (j < N)%nat -> i <> j -> f j = g j) -> off f i = off g i.
Proof. intro H. unfold off. apply sum_ext. intros j Hj. destruct (Nat.eqb_spec i j); [lra|auto]. Qed.
Lemma off_scal k f i : off (fun j => k * f j) i = k * off f i.
Proof. unfold off. rewrite <- rsum_tab_scal. apply sum_ext. intros j Hj. destruct (Nat.eqb i j); ring. Qed.
Lemma off_plus f g i : off (fun j => f j + g j) i = off f i + off g i.
Proof. unfold off. rewrite <- rsum_tab_plus. apply sum_ext. intros j Hj. destruct (Nat.eqb i j); ring. Qed.
Lemma diffusion_abs_diag pr u i : (i < N)%nat -> Rabs (diffusion pr N c u i i) = off (diffusion pr N c u i) i.
Proof.
  intro Hi. rewrite diffusion_diag by auto. rewrite Rabs_Ropp. apply Rabs_right, Rle_ge, off_nonneg. intros j Hj H. apply diffusion_nonneg. auto.
Qed.
(** |c_ij (f_j - f_i)| <= d_ij |u_j - u_i| *)
Lemma flux_bound pr u i j : i <> j -> exists e, 0 <= e <= 2 * diffusion pr N c u i j /\
  diffusion pr N c u i j * (dof u j - dof u i) - c i j * (flux_of pr (dof u j) - flux_of pr (dof u i)) = e * (dof u j - dof u i).
Proof.
  intro H. rewrite diffusion_entry by auto. set (x := dof u i). set (y := dof u j).
  assert (K : exists q, flux_of pr y - flux_of pr x = q * (y - x) /\ Rabs q <= Rmax (wave_speed pr x) (wave_speed pr y)).
  { destruct pr; cbn.
    - exists 1. split; [ring|]. rewrite Rmax_left by lra. rewrite Rabs_R1. lra.
    - exists ((x + y) / 2). split; [field|]. unfold Rabs. repeat destruct Rcase_abs; unfold Rmax; destruct Rle_dec; lra. }
  destruct K as [q [Eq Bq]]. set (W := Rmax _ _) in *.
  assert (B : Rabs (c i j * q) <= Rabs (c i j) * W) by (rewrite Rabs_mult; apply Rmult_le_compat_l; [apply Rabs_pos|exact Bq]).
  exists (Rabs (c i j) * W - c i j * q). split; [assert (X := Rle_abs (c i j * q)); assert (Y := Rle_abs (- (c i j * q))); rewrite Rabs_Ropp in Y; lra|]. rewrite Eq. ring.
Qed.
Lemma diffusion_zero pr u i j : i <> j -> c i j = 0 -> diffusion pr N c u i j = 0.
Proof. intros H E. rewrite diffusion_entry, E, Rabs_R0 by auto. ring. Qed.

(** d u - c f at dof i in terms of differences *)
Hypothesis rows : forall i, (i < N)%nat -> rsum (tab N (c i)) = 0.
Lemma low_term pr u i : (i < N)%nat -> length u = N ->
  nth i (mat_dot N (diffusion pr N c u) u) 0 + nth i (flux_gradient_approximation pr N c u) 0 =
  off (fun j => diffusion pr N c u i j * (dof u j - dof u i) - c i j * (flux_of pr (dof u j) - flux_of pr (dof u i))) i.
Proof.
  intros Hi Lu.
  assert (F : nth i (flux_gradient_approximation pr N c u) 0 = - rsum (tab N (fun j => c i j * flux_of pr (dof u j)))).
  { destruct pr; cbn [flux_gradient_approximation].
    - unfold mat_dot. rewrite map_tab, nth_tab by auto. reflexivity.
    - unfold mat_dot. rewrite map_tab, nth_tab by auto. f_equal. apply sum_ext. intros j Hj. unfold dof at 1. rewrite (nth_map' _ _ _ 0) by lia. reflexivity. }
  rewrite F. unfold mat_dot. rewrite nth_tab by auto.
  set (d := diffusion pr N c u).
  transitivity (rsum (tab N (fun j => d i j * (dof u j - dof u i) - c i j * (flux_of pr (dof u j) - flux_of pr (dof u i))))).
  - rewrite (sum_ext N (fun j => d i j * (dof u j - dof u i) - c i j * (flux_of pr (dof u j) - flux_of pr (dof u i)))
      (fun j => (d i j * dof u j - c i j * flux_of pr (dof u j)) - (dof u i * d i j - flux_of pr (dof u i) * c i j))) by (intros; ring).
    rewrite !rsum_tab_minus, !rsum_tab_scal. change (rsum (tab N (fun j => d i j))) with (rsum (tab N (d i))). change (rsum (tab N (fun j => c i j))) with (rsum (tab N (c i))).
    assert (R1 : rsum (tab N (d i)) = 0) by (apply diffusion_rows; auto). rewrite R1, rows by auto. ring.
  - rewrite (off_split _ i Hi). ring.
Qed.
(** conservation *)
Hypothesis cols : forall j, (j < N)%nat -> rsum (tab N (fun i => c i j)) = 0.
Lemma low_conserves pr u : length u = N -> rsum (tab N (fun i => nth i (mat_dot N (diffusion pr N c u) u) 0 + nth i (flux_gradient_approximation pr N c u) 0)) = 0.
Proof.
  intro Lu.
  assert (Z : forall (v : mat) w, (forall j, (j < N)%nat -> rsum (tab N (fun i => v i j)) = 0) -> rsum (tab N (fun i => rsum (tab N (fun j => v i j * w j)))) = 0).
  { intros v w H. rewrite rsum_tab_swap. apply rsum_tab_0. intros j Hj. rewrite sum_scal_r, H by auto. ring. }
  rewrite rsum_tab_plus.
  replace (rsum (tab N (fun i => nth i (mat_dot N (diffusion pr N c u) u) 0))) with 0.
  - replace (rsum (tab N (fun i => nth i (flux_gradient_approximation pr N c u) 0))) with 0; [ring|]. symmetry.
    rewrite (sum_ext N _ (fun i => (-1) * rsum (tab N (fun j => c i j * flux_of pr (dof u j))))).
    + rewrite rsum_tab_scal, Z by auto. ring.
    + intros i Hi. destruct pr; cbn [flux_gradient_approximation]; unfold mat_dot; rewrite map_tab, nth_tab by auto.
      * unfold flux_of. ring.
      * rewrite (sum_ext N _ (fun j => c i j * flux_of Burgers (dof u j))); [ring|]. intros j Hj. unfold dof at 1. rewrite (nth_map' _ _ _ 0) by lia. reflexivity.
  - symmetry. rewrite (sum_ext N _ (fun i => rsum (tab N (fun j => diffusion pr N c u i j * dof u j)))) by (intros i Hi; unfold mat_dot; rewrite nth_tab by auto; reflexivity).
    apply Z. intros j Hj. rewrite (sum_ext N _ (diffusion pr N c u j)) by (intros; apply diffusion_sym). apply diffusion_rows. auto.
Qed.

(** a step that is a combination of values between lo and hi *)
Lemma convex_step (x lo hi k : R) (e y : nat -> R) i : 0 <= k -> (forall j, (j < N)%nat -> i <> j -> 0 <= e j) -> lo <= x <= hi -> k * off e i <= 1 ->
  (forall j, (j < N)%nat -> i <> j -> e j = 0 \/ lo <= y j <= hi) ->
  lo <= x + k * off (fun j => e j * (y j - x)) i <= hi.
Proof.
  intros Hk He Hx Hs Hy.
  assert (U : off (fun j => e j * (y j - x)) i <= (hi - x) * off e i).
  { rewrite <- off_scal. apply off_le. intros j Hj H. assert (P := He j Hj H). destruct (Hy j Hj H) as [->|B]; [lra|]. nra. }
  assert (L : (lo - x) * off e i <= off (fun j => e j * (y j - x)) i).
  { rewrite <- off_scal. apply off_le. intros j Hj H. assert (P := He j Hj H). destruct (Hy j Hj H) as [->|B]; [lra|]. nra. }
  assert (0 <= off e i) by (apply off_nonneg; auto).
  assert (0 <= k * off e i) by (apply Rmult_le_pos; auto).
  split.
  - assert (k * ((lo - x) * off e i) <= k * off (fun j => e j * (y j - x)) i) by (apply Rmult_le_compat_l; auto). nra.
  - assert (k * off (fun j => e j * (y j - x)) i <= k * ((hi - x) * off e i)) by (apply Rmult_le_compat_l; auto). nra.
Qed.
End Diffusion.

(** running minimum of the quotients *)
Lemma step_min_le l x : In x l -> forall dt, step_allows (fold_right step_min None l) dt -> step_allows x dt.
Proof.
  induction l as [|y l IH]; intros Hx dt H; [destruct Hx|]. cbn [fold_right] in H. destruct Hx as [->|Hx].
  - destruct x as [a|]; [|exact I]. destruct (fold_right step_min None l) as [b|]; cbn in *; [|exact H]. eapply Rle_trans; [exact H|apply Rmin_l].
  - apply IH; [exact Hx|]. destruct y as [a|]; [|exact H]. destruct (fold_right step_min None l) as [b|]; cbn in *; [|exact I]. eapply Rle_trans; [exact H|apply Rmin_r].
Qed.
Lemma step_min_pos l : (forall x, In (Some x) l -> 0 < x) -> forall x, fold_right step_min None l = Some x -> 0 < x.
Proof.
  induction l as [|y l IH]; intros H x E; [discriminate|]. cbn [fold_right] in E. specialize (IH (fun z Hz => H z (or_intror Hz))).
  destruct y as [a|]; [|auto]. assert (0 < a) by (apply H; left; auto). destruct (fold_right step_min None l) as [b|]; cbn in E; injection E as <-; [|auto].
  specialize (IH b eq_refl). unfold Rmin. destruct Rle_dec; auto.
Qed.
