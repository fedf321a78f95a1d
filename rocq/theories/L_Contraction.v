(** Lemmas: monotone conservative schemes preserve the order, contract distances and decrease convex totals. *)
From Coq Require Import Reals List ZArith Arith Lia Lra Psatz Bool String.
From Verif Require Import Prelude L_Prelude M_Boundary S_Boundary L_Boundary M_Flux S_Flux L_Flux
  M_Neighbours L_Neighbours M_Scalar S_Scalar L_Scalar M_ODE S_ODE L_ODE S_Variation L_Variation S_Contraction.
Import ListNotations.
Local Open Scope nat_scope.
Open Scope R_scope.
Notation length := List.length.

(** ** the Lax-Friedrichs flux is monotone *)
Definition lf (p : problem) (l r : R) : R := (scalar_flux p l + scalar_flux p r) / 2 - speed p l r / 2 * (r - l).
Lemma lf_flux p l r : speed p l r <> 0 -> ro_flux (llf_out p l r) = lf p l r.
Proof. intro S. cbn [llf_out ro_flux]. unfold bar, lf. field. exact S. Qed.
(** the new value of a cell *)
Definition cell_update (p : problem) (lam l w r : R) : R := w + lam * (lf p l w - lf p w r).

Lemma lf_constant p w : lf p w w = scalar_flux p w.
Proof. unfold lf. field. Qed.
Lemma lf_left p l l' r : nonneg p l -> nonneg p r -> l <= l' -> lf p l r <= lf p l' r.
Proof.
  unfold lf, speed, nonneg. destruct p; cbn [flux_prime scalar_flux]; intros H1 H2 H3; [rewrite Rmax_left; lra|].
  unfold Rmax. destruct (Rle_dec l r), (Rle_dec l' r); nra.
Qed.
Lemma lf_right p l r r' : nonneg p l -> nonneg p r -> r <= r' -> lf p l r' <= lf p l r.
Proof.
  unfold lf, speed, nonneg. destruct p; cbn [flux_prime scalar_flux]; intros H1 H2 H3; [rewrite Rmax_left; lra|].
  unfold Rmax. destruct (Rle_dec l r), (Rle_dec l r'); nra.
Qed.
(** the part of a cell in its own update *)
Lemma product_le a b c : 0 <= a -> b <= c -> a * b <= a * c.
Proof. intros. apply Rmult_le_compat_l; assumption. Qed.
Lemma burgers_left_rate l l' r hi : 0 <= l -> 0 <= r <= hi -> l <= l' <= hi -> lf Burgers l' r - lf Burgers l r <= 3 / 2 * hi * (l' - l).
Proof.
  intros H1 H2 [H3 H4]. unfold lf, speed. cbn [flux_prime scalar_flux].
  assert (A : forall x y, 0 <= x <= y -> y <= r -> (1 / 2 * y ^ 2 + 1 / 2 * r ^ 2) / 2 - r / 2 * (r - y) - ((1 / 2 * x ^ 2 + 1 / 2 * r ^ 2) / 2 - r / 2 * (r - x)) <= 3 / 2 * hi * (y - x)).
  { intros x y Hx Hy. pose proof (product_le (y - x) ((y + x + 2 * r) / 4) (3 / 2 * hi) ltac:(lra) ltac:(lra)). nra. }
  assert (B : forall x y, r <= x <= y -> y <= hi -> (1 / 2 * y ^ 2 + 1 / 2 * r ^ 2) / 2 - y / 2 * (r - y) - ((1 / 2 * x ^ 2 + 1 / 2 * r ^ 2) / 2 - x / 2 * (r - x)) <= 3 / 2 * hi * (y - x)).
  { intros x y Hx Hy. pose proof (product_le (y - x) ((3 * y + 3 * x - 2 * r) / 4) (3 / 2 * hi) ltac:(lra) ltac:(lra)). nra. }
  destruct (Rle_dec l' r) as [C|C].
  - rewrite !Rmax_right by lra. apply A; lra.
  - destruct (Rle_dec l r) as [D|D].
    + rewrite (Rmax_left l' r), (Rmax_right l r) by lra. pose proof (A l r ltac:(lra) ltac:(lra)). pose proof (B r l' ltac:(lra) ltac:(lra)). lra.
    + rewrite !Rmax_left by lra. apply B; lra.
Qed.
Lemma burgers_right_rate l r r' hi : 0 <= l <= hi -> 0 <= r -> r <= r' <= hi -> lf Burgers l r - lf Burgers l r' <= 1 / 2 * hi * (r' - r).
Proof.
  intros H1 H2 [H3 H4]. unfold lf, speed. cbn [flux_prime scalar_flux].
  assert (A : forall x y, 0 <= x <= y -> y <= l -> (1 / 2 * l ^ 2 + 1 / 2 * x ^ 2) / 2 - l / 2 * (x - l) - ((1 / 2 * l ^ 2 + 1 / 2 * y ^ 2) / 2 - l / 2 * (y - l)) <= 1 / 2 * hi * (y - x)).
  { intros x y Hx Hy. pose proof (product_le (y - x) ((2 * l - x - y) / 4) (1 / 2 * hi) ltac:(lra) ltac:(lra)). nra. }
  assert (B : forall x y, l <= x <= y -> y <= hi -> (1 / 2 * l ^ 2 + 1 / 2 * x ^ 2) / 2 - x / 2 * (x - l) - ((1 / 2 * l ^ 2 + 1 / 2 * y ^ 2) / 2 - y / 2 * (y - l)) <= 1 / 2 * hi * (y - x)).
  { intros x y Hx Hy. pose proof (product_le (y - x) ((x + y - 2 * l) / 4) (1 / 2 * hi) ltac:(lra) ltac:(lra)). nra. }
  destruct (Rle_dec r' l) as [C|C].
  - rewrite !Rmax_left by lra. apply A; lra.
  - destruct (Rle_dec r l) as [D|D].
    + rewrite (Rmax_right l r'), (Rmax_left l r) by lra. pose proof (A r l ltac:(lra) ltac:(lra)). pose proof (B l r' ltac:(lra) ltac:(lra)). lra.
    + rewrite !Rmax_right by lra. apply B; lra.
Qed.

Lemma update_monotone p lam lo hi l w r l' w' r' : range_ok p lo -> 0 <= lam -> lam * max_speed p hi <= monotone_cells_per_step p ->
  lo <= l <= hi -> lo <= w <= hi -> lo <= r <= hi -> lo <= l' <= hi -> lo <= w' <= hi -> lo <= r' <= hi -> l <= l' -> w <= w' -> r <= r' ->
  cell_update p lam l w r <= cell_update p lam l' w' r'.
Proof.
  intros Hlo HL HC H1 H2 H3 H4 H5 H6 L W R. assert (NN : forall x, lo <= x <= hi -> nonneg p x) by (intros x Hx; destruct p; cbn in *; lra).
  apply Rle_trans with (cell_update p lam l' w r').
  - unfold cell_update. pose proof (lf_left p l l' w (NN _ H1) (NN _ H2) L). pose proof (lf_right p w r r' (NN _ H2) (NN _ H3) R).
    apply Rplus_le_compat_l, Rmult_le_compat_l; lra.
  - unfold cell_update. destruct p; cbn [max_speed monotone_cells_per_step] in HC.
    + unfold lf, speed. cbn [flux_prime scalar_flux]. rewrite !Rmax_left by lra. pose proof (product_le (w' - w) lam 1 ltac:(lra) ltac:(lra)). nra.
    + cbn in Hlo. pose proof (burgers_left_rate w w' r' hi ltac:(lra) ltac:(lra) ltac:(lra)) as A. pose proof (burgers_right_rate l' w w' hi ltac:(lra) ltac:(lra) ltac:(lra)) as B.
      assert (C : lam * (lf Burgers l' w - lf Burgers w r' - (lf Burgers l' w' - lf Burgers w' r')) <= lam * (2 * hi * (w' - w))) by (apply Rmult_le_compat_l; lra).
      pose proof (product_le (w' - w) (lam * hi) (1 / 2) ltac:(lra) ltac:(lra)). lra.
Qed.
Lemma update_constant p lam w : cell_update p lam w w w = w.
Proof. unfold cell_update. ring. Qed.

(** ** lists *)
Lemma below_nth u v : below u v <-> length u = length v /\ forall i, (i < length u)%nat -> nth i u 0 <= nth i v 0.
Proof.
  unfold below. split.
  - induction 1 as [|x y u v H F [L IH]]; [split; [reflexivity|cbn; intros; lia]|]. split; [cbn; congruence|]. intros [|i] Hi; cbn in *; [exact H|apply IH; lia].
  - revert v. induction u as [|x u IH]; intros [|y v] [L H]; try discriminate L; constructor; [exact (H 0%nat ltac:(cbn; lia))|]. apply IH. split; [cbn in L; lia|]. intros i Hi. exact (H (S i) ltac:(cbn; lia)).
Qed.
Lemma distance_tab u v n : length u = n -> length v = n -> distance u v = rsum (tab n (fun i => Rabs (nth i u 0 - nth i v 0))).
Proof.
  intros <-. unfold distance. revert v. induction u as [|x u IH]; intros [|y v] L; try discriminate L; [reflexivity|]. cbn [map2 rsum fold_right List.length]. rewrite tab_S. cbn [rsum fold_right nth]. unfold rsum in IH. rewrite IH by (cbn in L; lia). reflexivity.
Qed.
Lemma total_tab phi u n : length u = n -> total phi u = rsum (tab n (fun i => phi (nth i u 0))).
Proof.
  intros <-. unfold total. induction u as [|x u IH]; [reflexivity|]. cbn [map rsum fold_right List.length]. rewrite tab_S. cbn [rsum fold_right nth]. unfold rsum in IH. rewrite IH. reflexivity.
Qed.

(** [x] is one step of the scheme *)
Definition stepped (p : problem) (lam : R) (u x : list R) : Prop := length x = length u /\
  forall i, (i < length u)%nat -> nth i x 0 = cell_update p lam (cyc u (i + length u - 1)) (cyc u i) (cyc u (S i)).
Lemma cyc_range lo hi u : in_range lo hi u -> (0 < length u)%nat -> forall i, lo <= cyc u i <= hi.
Proof. intros R H i. apply R. apply nth_In. apply Nat.mod_upper_bound. lia. Qed.
Lemma cyc_below u v i : below u v -> (0 < length u)%nat -> cyc u i <= cyc v i.
Proof. intros B H. apply below_nth in B as [L B]. unfold cyc. rewrite <- L. apply B. apply Nat.mod_upper_bound. lia. Qed.

Section Steps.
Context (p : problem) (lam lo hi : R) (Hlo : range_ok p lo) (Hlam : 0 <= lam) (HC : lam * max_speed p hi <= monotone_cells_per_step p).
Lemma step_below u v x y : in_range lo hi u -> in_range lo hi v -> (0 < length u)%nat -> stepped p lam u x -> stepped p lam v y -> below u v -> below x y.
Proof.
  intros Ru Rv Hn [Lx X] [Ly Y] B. pose proof B as B'. apply below_nth in B' as [L _]. apply below_nth. split; [congruence|]. intros i Hi. rewrite Lx in Hi.
  rewrite X, Y by lia. rewrite <- L. pose proof (cyc_range lo hi u Ru Hn) as Cu. pose proof (cyc_range lo hi v Rv ltac:(lia)) as Cv.
  apply (update_monotone p lam lo hi); auto; apply cyc_below; auto.
Qed.
Lemma step_total u x : (0 < length u)%nat -> stepped p lam u x -> rsum x = rsum u.
Proof.
  intros Hn [Lx X]. set (n := length u) in *. rewrite (list_tab 0 x), (list_tab 0 u). fold n. rewrite Lx.
  assert (P : forall k, cyc u (k + n) = cyc u k) by (apply cyc_periodic; auto).
  set (F := fun i => lf p (cyc u (i + n - 1)) (cyc u i)).
  rewrite (tab_ext n (fun i => nth i x 0) (fun i => nth i u 0 + lam * (F i + -1 * F (S i)))).
  - rewrite rsum_tab_plus, rsum_tab_scal, rsum_tab_plus, rsum_tab_scal, (rsum_shift n F); [ring|]. unfold F. rewrite <- (P 0%nat). replace (0 + n)%nat with n by lia. replace (n + n - 1)%nat with (n - 1 + n)%nat by lia. rewrite P. reflexivity.
  - intros i Hi. rewrite X by exact Hi. unfold cell_update, F. replace (S i + n - 1)%nat with (i + n)%nat by lia. rewrite P. rewrite <- (cyc_inside u i Hi). ring.
Qed.
Definition upper (u v : list R) : list R := map2 Rmax u v.
Lemma stepped_exists u : exists x, stepped p lam u x.
Proof. exists (tab (length u) (fun i => cell_update p lam (cyc u (i + length u - 1)) (cyc u i) (cyc u (S i)))). split; [apply tab_length|]. intros i Hi. rewrite nth_tab by auto. reflexivity. Qed.
Lemma step_contracts u v x y : in_range lo hi u -> in_range lo hi v -> (0 < length u)%nat -> length u = length v -> stepped p lam u x -> stepped p lam v y -> distance x y <= distance u v.
Proof.
  intros Ru Rv Hn L Sx Sy. set (n := length u) in *. set (m := upper u v). assert (Lm : length m = n) by (unfold m, upper; rewrite map2_length; fold n; lia).
  assert (Nm : forall i, (i < n)%nat -> nth i m 0 = Rmax (nth i u 0) (nth i v 0)) by (intros i Hi; unfold m, upper; apply (nth_map2 _ _ _ i 0 0); fold n; lia).
  assert (Rm : in_range lo hi m).
  { intros z Hz. apply (In_nth _ _ 0) in Hz as [i [Hi <-]]. rewrite Lm in Hi. rewrite Nm by exact Hi. assert (lo <= nth i u 0 <= hi) by (apply Ru, nth_In; fold n; lia). assert (lo <= nth i v 0 <= hi) by (apply Rv, nth_In; lia). unfold Rmax. destruct (Rle_dec _ _); lra. }
  destruct (stepped_exists m) as [z Sz].
  assert (B1 : below x z) by (apply (step_below u m); auto; apply below_nth; split; [rewrite Lm; reflexivity|]; intros i Hi; rewrite Nm by exact Hi; apply Rmax_l).
  assert (B2 : below y z) by (apply (step_below v m); auto; [rewrite <- L; exact Hn|]; apply below_nth; split; [rewrite Lm, <- L; reflexivity|]; intros i Hi; rewrite Nm by (rewrite <- L in Hi; exact Hi); apply Rmax_r).
  pose proof (step_total u x ltac:(fold n; lia) Sx) as T1. pose proof (step_total v y ltac:(lia) Sy) as T2. pose proof (step_total m z ltac:(lia) Sz) as T3.
  destruct Sx as [Lx _]. destruct Sy as [Ly _]. destruct Sz as [Lz _]. fold n in Lx. rewrite <- L in Ly. fold n in Ly. rewrite Lm in Lz. apply below_nth in B1 as [_ B1]. apply below_nth in B2 as [_ B2].
  rewrite (distance_tab x y n Lx Ly), (distance_tab u v n eq_refl (eq_sym L)).
  apply Rle_trans with (rsum (tab n (fun i => (2 * nth i z 0 + -1 * nth i x 0) + -1 * nth i y 0))).
  - apply rsum_tab_le. intros i Hi. specialize (B1 i ltac:(lia)). specialize (B2 i ltac:(lia)). unfold Rabs. destruct Rcase_abs; lra.
  - assert (S : forall w, length w = n -> rsum (tab n (fun i => nth i w 0)) = rsum w) by (intros w <-; rewrite <- (list_tab 0); reflexivity).
    rewrite !rsum_tab_plus, !rsum_tab_scal, (S x Lx), (S y Ly), (S z Lz), T1, T2, T3, <- (S u eq_refl), <- (S v (eq_sym L)), <- (S m Lm).
    rewrite <- !rsum_tab_scal, <- !rsum_tab_plus. apply rsum_tab_le. intros i Hi. rewrite Nm by exact Hi. unfold Rmax, Rabs. destruct (Rle_dec _ _), Rcase_abs; lra.
Qed.
Lemma constant_stepped k n : stepped p lam (repeat k n) (repeat k n).
Proof.
  split; [reflexivity|]. rewrite repeat_length. intros i Hi. assert (C : forall j, cyc (repeat k n) j = k). { intro j. unfold cyc. rewrite repeat_length. rewrite (nth_indep _ 0 k) by (rewrite repeat_length; apply Nat.mod_upper_bound; lia). apply nth_repeat. }
  rewrite !C, update_constant. rewrite <- (cyc_inside (repeat k n) i) by (rewrite repeat_length; exact Hi). apply C.
Qed.
(** distances to constants *)
Lemma step_kruzkov u x k : in_range lo hi u -> (0 < length u)%nat -> stepped p lam u x -> in_range lo hi x -> total (fun z => Rabs (z - k)) x <= total (fun z => Rabs (z - k)) u.
Proof.
  intros Ru Hn Sx Rx. set (n := length u) in *. pose proof Sx as [Lx _]. fold n in Lx.
  assert (T : rsum x = rsum u) by (apply step_total; auto).
  assert (Out : forall s, (forall z, lo <= z <= hi -> Rabs (z - k) = s * (z + -1 * k)) -> total (fun z => Rabs (z - k)) x <= total (fun z => Rabs (z - k)) u).
  { intros s Hs. rewrite (total_tab _ x n Lx), (total_tab _ u n eq_refl).
    assert (Q : forall w, length w = n -> in_range lo hi w -> rsum (tab n (fun i => Rabs (nth i w 0 - k))) = s * (rsum w + -1 * (INR n * k))).
    { intros w Lw Rw. replace (rsum w) with (rsum (tab n (fun i => nth i w 0))) by (rewrite <- Lw, <- (list_tab 0); reflexivity). rewrite (tab_ext n (fun i => Rabs (nth i w 0 - k)) (fun i => s * (nth i w 0 + -1 * k))).
      - rewrite rsum_tab_scal, rsum_tab_plus, rsum_tab_const. ring.
      - intros i Hi. apply Hs. apply Rw, nth_In. lia. }
    rewrite (Q x Lx Rx), (Q u eq_refl Ru), T. lra. }
  destruct (Rlt_dec k lo) as [A|A]; [apply (Out 1); intros z Hz; rewrite Rabs_right by lra; ring|].
  destruct (Rlt_dec hi k) as [B|B]; [apply (Out (-1)); intros z Hz; rewrite Rabs_left1 by lra; ring|].
  assert (Lr : length (repeat k n) = n) by apply repeat_length.
  assert (D : forall w, length w = n -> total (fun z => Rabs (z - k)) w = distance w (repeat k n)).
  { intros w Lw. rewrite (total_tab _ w n Lw), (distance_tab w _ n Lw Lr). f_equal. apply tab_ext. intros i Hi. assert (K : nth i (repeat k n) 0 = k) by (apply (repeat_spec n), nth_In; lia). rewrite K. reflexivity. }
  rewrite (D x Lx), (D u eq_refl). apply step_contracts; auto; [|apply constant_stepped]. intros z Hz. apply repeat_spec in Hz. lra.
Qed.
End Steps.

(** ** convex functions and distances to constants *)
Inductive cone : (R -> R) -> Prop :=
| cone_affine a b : cone (fun p => a + b * p)
| cone_add g a b c q : cone g -> 0 <= c -> cone (fun p => g p + (a + b * p + c * Rabs (p - q))).
Lemma rsum_affine a b n u : length u = n -> rsum (tab n (fun i => a + b * nth i u 0)) = a * INR n + b * rsum u.
Proof. intros <-. rewrite rsum_tab_plus, rsum_tab_const, rsum_tab_scal, <- (list_tab 0). ring. Qed.
Lemma cone_total x y : length x = length y -> rsum x = rsum y -> (forall k, total (fun z => Rabs (z - k)) x <= total (fun z => Rabs (z - k)) y) ->
  forall g, cone g -> total g x <= total g y.
Proof.
  intros L T K g. set (n := length y) in *. induction 1 as [a b|g a b c q G IH Hc].
  - rewrite (total_tab _ x n L), (total_tab _ y n eq_refl), !rsum_affine by auto. rewrite T. lra.
  - specialize (K q). rewrite (total_tab _ x n L), (total_tab _ y n eq_refl) in IH. rewrite (total_tab _ x n L), (total_tab _ y n eq_refl) in K. rewrite (total_tab _ x n L), (total_tab _ y n eq_refl).
    assert (Q : forall w, length w = n -> rsum (tab n (fun i => g (nth i w 0) + (a + b * nth i w 0 + c * Rabs (nth i w 0 - q)))) =
      rsum (tab n (fun i => g (nth i w 0))) + (a * INR n + b * rsum w + c * rsum (tab n (fun i => Rabs (nth i w 0 - q))))).
    { intros w Lw. rewrite rsum_tab_plus, rsum_tab_plus, rsum_affine, rsum_tab_scal by auto. reflexivity. }
    rewrite (Q x L), (Q y eq_refl), T. pose proof (product_le c _ _ Hc K). lra.
Qed.

(** increasing lists *)
Fixpoint increasing (l : list R) : Prop := match l with [] => True | p :: l' => (forall q, In q l' -> p < q) /\ increasing l' end.
Lemma increasing_insert x l : increasing l -> exists l', increasing l' /\ forall q, In q l' <-> q = x \/ In q l.
Proof.
  induction l as [|p l IH]; intro H.
  - exists [x]. split; [cbn; tauto|]. intro q. cbn. intuition.
  - destruct H as [H1 H2]. destruct (Rtotal_order x p) as [C|[C|C]].
    + exists (x :: p :: l). split; [|intro q; cbn; intuition]. cbn. split; [|auto]. intros q [<-|Hq]; [exact C|]. specialize (H1 q Hq). lra.
    + exists (p :: l). split; [cbn; auto|]. intro q. cbn. subst x. intuition.
    + destruct (IH H2) as [l' [I1 I2]]. exists (p :: l'). split.
      * cbn. split; [|exact I1]. intros q Hq. apply I2 in Hq as [->|Hq]; auto.
      * intro q. cbn. rewrite I2. intuition.
Qed.
Lemma increasing_exists l : exists l', increasing l' /\ forall q, In q l' <-> In q l.
Proof.
  induction l as [|x l [l' [I1 I2]]]; [exists []; split; [exact I|tauto]|]. destruct (increasing_insert x l' I1) as [k [K1 K2]]. exists k. split; [exact K1|].
  intro q. rewrite K2, I2. cbn. intuition.
Qed.
Lemma three_points lo hi phi a b c : convex_on lo hi phi -> lo <= a -> a < b -> b < c -> c <= hi -> (phi b - phi a) * (c - b) <= (phi c - phi b) * (b - a).
Proof.
  intros H Ha Hab Hbc Hc. specialize (H a c ((c - b) / (c - a)) ltac:(lra) ltac:(lra)).
  assert (Q : 0 <= (c - b) / (c - a) <= 1). { split; [apply Rmult_le_pos; [lra|left; apply Rinv_0_lt_compat; lra]|]. apply (Rmult_le_reg_r (c - a)); [lra|]. unfold Rdiv. rewrite Rmult_assoc, Rinv_l by lra. lra. }
  specialize (H Q). replace ((c - b) / (c - a) * a + (1 - (c - b) / (c - a)) * c) with b in H by (field; lra).
  apply (Rmult_le_compat_r (c - a)) in H; [|lra]. replace (((c - b) / (c - a) * phi a + (1 - (c - b) / (c - a)) * phi c) * (c - a)) with ((c - b) * phi a + (b - a) * phi c) in H by (field; lra). lra.
Qed.
Lemma cone_interpolates lo hi phi : convex_on lo hi phi -> forall l p q, increasing (p :: l) -> (forall z, In z (p :: l) -> lo <= z <= hi) -> lo <= q <= p ->
  exists g s, cone g /\ (forall z, In z (p :: l) -> g z = phi z) /\ (forall z, z <= p -> g z = phi p + s * (z - p)) /\ phi p - phi q <= s * (p - q).
Proof.
  intro C. induction l as [|p1 l IH]; intros p q I In_ Hq.
  - destruct (Req_dec q p) as [->|N].
    + exists (fun z => phi p + 0 * z), 0. split; [constructor|]. split; [intros z [<-|[]]; ring|]. split; [intros; ring|lra].
    + set (s := (phi p - phi q) / (p - q)). exists (fun z => (phi p - s * p) + s * z), s. split; [constructor|]. split; [intros z [<-|[]]; ring|]. split; [intros; ring|].
      unfold s. right. field. lra.
  - destruct I as [I1 I2]. assert (P1 : p < p1) by (apply I1; left; reflexivity). assert (B0 : lo <= p <= hi) by (apply In_; left; reflexivity). assert (B1 : lo <= p1 <= hi) by (apply In_; right; left; reflexivity).
    destruct (IH p1 p I2 (fun z Hz => In_ z (or_intror Hz)) ltac:(lra)) as [g [s [G1 [G2 [G3 G4]]]]].
    set (s0 := (phi p1 - phi p) / (p1 - p)). assert (S0 : s0 * (p1 - p) = phi p1 - phi p) by (unfold s0; field; lra).
    assert (S1 : s0 <= s). { apply (Rmult_le_reg_r (p1 - p)); lra. }
    exists (fun z => g z + ((s - s0) / 2 * p1 + - ((s - s0) / 2) * z + (s - s0) / 2 * Rabs (z - p1))), s0.
    assert (Lf : forall z, z <= p1 -> g z + ((s - s0) / 2 * p1 + - ((s - s0) / 2) * z + (s - s0) / 2 * Rabs (z - p1)) = phi p1 + s0 * (z - p1)).
    { intros z Hz. rewrite (G3 z Hz), Rabs_left1 by lra. field. }
    split; [constructor; [exact G1|lra]|]. split; [|split].
    + intros z [<-|Hz]; [rewrite Lf by lra; lra|]. rewrite (G2 z Hz). assert (p1 <= z). { destruct Hz as [<-|Hz]; [lra|]. left. apply I2, Hz. }
      rewrite Rabs_right by lra. field.
    + intros z Hz. rewrite Lf by lra. lra.
    + destruct (Req_dec q p) as [->|N]; [lra|]. pose proof (three_points lo hi phi q p p1 C ltac:(lra) ltac:(lra) P1 ltac:(lra)) as T.
      apply (Rmult_le_reg_r (p1 - p)); [lra|]. replace (s0 * (p - q) * (p1 - p)) with (s0 * (p1 - p) * (p - q)) by ring. rewrite S0. exact T.
Qed.
Lemma total_ext f g u : (forall z, In z u -> f z = g z) -> total f u = total g u.
Proof. intro H. unfold total. f_equal. apply map_ext_in. exact H. Qed.
Lemma majorised lo hi phi x y : convex_on lo hi phi -> in_range lo hi x -> in_range lo hi y -> length x = length y -> rsum x = rsum y ->
  (forall k, total (fun z => Rabs (z - k)) x <= total (fun z => Rabs (z - k)) y) -> total phi x <= total phi y.
Proof.
  intros C Rx Ry L T K. destruct (increasing_exists (x ++ y)) as [l [I1 I2]]. destruct l as [|p l].
  - destruct x as [|z x]; [|exfalso; apply (I2 z); left; reflexivity]. destruct y; [apply Rle_refl|discriminate L].
  - assert (B : forall z, In z (p :: l) -> lo <= z <= hi). { intros z Hz. apply I2, in_app_or in Hz as [Hz|Hz]; auto. }
    destruct (cone_interpolates lo hi phi C l p p I1 B ltac:(pose proof (B p (or_introl eq_refl)); lra)) as [g [s [G1 [G2 _]]]].
    rewrite (total_ext phi g x), (total_ext phi g y).
    + apply cone_total; auto.
    + intros z Hz. symmetry. apply G2, I2, in_or_app. auto.
    + intros z Hz. symmetry. apply G2, I2, in_or_app. auto.
Qed.
Lemma step_convex p lam lo hi phi u x : range_ok p lo -> 0 <= lam -> lam * max_speed p hi <= monotone_cells_per_step p -> convex_on lo hi phi ->
  in_range lo hi u -> (0 < length u)%nat -> stepped p lam u x -> in_range lo hi x -> total phi x <= total phi u.
Proof.
  intros H1 H2 H3 C Ru Hn Sx Rx. apply (majorised lo hi); auto; [apply Sx|eapply step_total; eauto|]. intro k. eapply step_kruzkov; eauto.
Qed.

(** ** the Euler step of the solver *)
Lemma llf_stepped p bc dx t u e v dt : length (bc_left bc) = 1%nat -> length (bc_right bc) = 1%nat ->
  0 < dx -> (0 < length u)%nat -> extended bc u (Some t) = Ok e -> wrapped u e ->
  fv_rhs (scalar_llf p) dx bc t u = Ok v -> stepped p (dt / dx) u (euler_update u v dt).
Proof.
  intros B1 B2 Hd Hn E [Le We] Hv. set (n := length u) in *.
  destruct (llf_rhs_inv p bc dx t u e n v E Le Hv) as [Hd0 Hs].
  rewrite (llf_rhs p bc dx t u e n Hd0 E Le Hs) in Hv. apply Ok_inj in Hv. subst v.
  assert (Q : forall k, cyc u (k + n) = cyc u k) by (apply cyc_periodic; auto).
  assert (W0 : forall i, (i < n)%nat -> nth i e 0 = cyc u (i + n - 1)) by (intros; apply We; lia).
  assert (W1 : forall i, (i <= n)%nat -> nth (S i) e 0 = cyc u i). { intros i Hi. rewrite We by lia. replace (S i + n - 1)%nat with (i + n)%nat by lia. apply Q. }
  split; [unfold euler_update; rewrite map2_length, tab_length; fold n; lia|].
  intros i Hi. fold n in Hi. rewrite nth_euler_update by (rewrite ?tab_length; auto). rewrite nth_tab by auto.
  rewrite !lf_flux by (apply Hs; lia). rewrite (W0 i), (W1 i), (W1 (S i)) by lia. rewrite <- (cyc_inside u i) by auto. unfold cell_update. fold n. field. lra.
Qed.

(** ** two computations at once *)
#[local] Instance pair_VecOps : VecOps (list R * list R) := {
  vadd := fun a b => (vadd (fst a) (fst b), vadd (snd a) (snd b));
  vscal := fun r a => (vscal r (fst a), vscal r (snd a));
  vcoord := fun p a => if snd p then vcoord (fst p, true) (fst a) else vcoord (fst p, true) (snd a) }.
#[local] Instance pair_VecLaws (n : nat) : VecLaws (list R * list R) (fun a => length (fst a) = n /\ length (snd a) = n).
Proof.
  constructor.
  - intros a b [A1 A2] [B1 B2]. split; apply (vdom_add (D := fun l : list R => length l = n)); auto.
  - intros r a [A1 A2]. split; apply (vdom_scal (D := fun l : list R => length l = n)); auto.
  - intros [k s] a b [A1 A2] [B1 B2]. destruct s; cbn [vcoord pair_VecOps snd fst vadd]; apply (vcoord_add (D := fun l : list R => length l = n)); auto.
  - intros [k s] r a [A1 A2]. destruct s; cbn [vcoord pair_VecOps snd fst vscal]; apply (vcoord_scal (D := fun l : list R => length l = n)); auto.
  - intros [a1 a2] [b1 b2] [A1 A2] [B1 B2] E. cbn [fst snd] in *. f_equal; apply (vcoord_ext (D := fun l : list R => length l = n)); auto; intros [k s].
    + specialize (E (k, true)). cbn in E |- *. exact E.
    + specialize (E (k, false)). cbn in E |- *. exact E.
Qed.
Section Projection.
Context {V W : Type} `{VecOps V} `{VecOps W} (pi : V -> W) (F : R -> V -> result V) (f : R -> W -> result W).
Hypotheses (Padd : forall a b, pi (vadd a b) = vadd (pi a) (pi b)) (Pscal : forall r a, pi (vscal r a) = vscal r (pi a))
  (PF : forall t x y, F t x = Ok y -> f t (pi x) = Ok (pi y)).
Lemma wsum_projection cs ks : wsum cs (map pi ks) = option_map pi (wsum cs ks).
Proof.
  revert ks. induction cs as [|c cs IH]; intros [|k ks]; try reflexivity. cbn [wsum map]. rewrite IH. destruct (wsum cs ks); cbn; rewrite ?Padd, ?Pscal; reflexivity.
Qed.
Lemma axpy_projection u dt k : axpy (pi u) dt (option_map pi k) = pi (axpy u dt k).
Proof. destruct k; cbn; rewrite ?Padd, ?Pscal; reflexivity. Qed.
Lemma execute_projection T dt o o' : rk_execute_e F T dt o = Ok o' ->
  rk_execute_e f T dt {| o_time := o_time o; o_sol := pi (o_sol o) |} = Ok {| o_time := o_time o'; o_sol := pi (o_sol o') |}.
Proof.
  unfold rk_execute_e. intro E. inv_bind E. destruct a as [[tns svs] ks]. apply Ok_inj in E. subst o'. cbn [o_time o_sol].
  assert (G : forall l tns svs ks st, foldM (rk_stage_e F T dt o) l (tns, svs, ks) = Ok st ->
    foldM (rk_stage_e f T dt {| o_time := o_time o; o_sol := pi (o_sol o) |}) l (tns, map pi svs, map pi ks) = Ok (fst (fst st), map pi (snd (fst st)), map pi (snd st))).
  { clear - Padd Pscal PF. induction l as [|i l IH]; intros tns svs ks st E; [apply Ok_inj in E; subst st; reflexivity|].
    cbn [foldM] in E |- *. inv_bind E. unfold rk_stage_e in E0 |- *. inv_bind E0. apply Ok_inj in E0. subst a. apply IH in E.
    cbn [o_time o_sol]. rewrite wsum_projection, axpy_projection. rewrite (PF _ _ _ E1). cbn [bind]. rewrite !map_app in E. exact E. }
  match goal with Q : foldM _ _ _ = Ok _ |- _ => apply G in Q; cbn [map fst snd] in Q; rewrite Q end.
  cbn [bind]. rewrite wsum_projection, axpy_projection. reflexivity.
Qed.
End Projection.
Definition both (f : R -> list R -> result (list R)) (t : R) (x : list R * list R) : result (list R * list R) :=
  bind (f t (fst x)) (fun a => bind (f t (snd x)) (fun b => Ok (a, b))).
Lemma both_inv f t x y : both f t x = Ok y -> f t (fst x) = Ok (fst y) /\ f t (snd x) = Ok (snd y).
Proof. unfold both. intro E. inv_bind E. inv_bind E. apply Ok_inj in E. subst y. auto. Qed.
Lemma pair_step (f : R -> list R -> result (list R)) (K : list R * list R -> Prop) n dt T t u v :
  (forall x, K x -> length (fst x) = n /\ length (snd x) = n) -> (forall t u w, length u = n -> f t u = Ok w -> length w = n) -> convex_set K ->
  (forall t x, K x -> exists a b, f t (fst x) = Ok a /\ f t (snd x) = Ok b) ->
  (forall t x a b, K x -> f t (fst x) = Ok a -> f t (snd x) = Ok b -> K (euler_update (fst x) a dt, euler_update (snd x) b dt)) ->
  In T [euler; heun; ssp3] -> K (u, v) ->
  exists u' v', rk_execute_e f T dt {| o_time := t; o_sol := u |} = Ok {| o_time := t + dt; o_sol := u' |} /\
    rk_execute_e f T dt {| o_time := t; o_sol := v |} = Ok {| o_time := t + dt; o_sol := v' |} /\ K (u', v').
Proof.
  intros KD FD KC KF KE HT K0.
  destruct (ssp_convex_run_e (fun a : list R * list R => length (fst a) = n /\ length (snd a) = n) (both f) (repeat 0 n, repeat 0 n) K [dt] T {| o_time := t; o_sol := (u, v) |}) as [o [E [Ko To]]]; try assumption.
  - cbn. rewrite repeat_length. auto.
  - intros z x y [D1 D2] E. apply both_inv in E as [E1 E2]. split; [exact (FD _ _ _ D1 E1)|exact (FD _ _ _ D2 E2)].
  - intros z x Kx. destruct (KF z x Kx) as [a [b [A B]]]. exists (a, b). unfold both. rewrite A. cbn [bind]. rewrite B. reflexivity.
  - intros dt' z x y [<-|[]] Kx E. apply both_inv in E as [E1 E2]. pose proof (KE z x _ _ Kx E1 E2) as Q. rewrite <- !euler_update_vadd in Q. exact Q.
  - cbn in HT. intuition.
  - unfold rk_run_e in E. cbn [foldM] in E. inv_bind E. apply Ok_inj in E. subst a. cbn [o_time rsum fold_right] in To. rewrite Rplus_0_r in To.
    pose proof (execute_projection fst (both f) f (fun _ _ => eq_refl) (fun _ _ => eq_refl) (fun s x y Q => proj1 (both_inv f s x y Q)) T dt _ _ E0) as P1.
    pose proof (execute_projection snd (both f) f (fun _ _ => eq_refl) (fun _ _ => eq_refl) (fun s x y Q => proj2 (both_inv f s x y Q)) T dt _ _ E0) as P2.
    cbn [o_time o_sol fst snd] in P1, P2. rewrite To in P1, P2. exists (fst (o_sol o)), (snd (o_sol o)). rewrite <- surjective_pairing. auto.
Qed.

(** ** the scheme: one step for two data, and for one *)
Section Scheme.
Context (p : problem) (conds : list string) (il ir : option (R -> R)) (bc : bconds R) (dx dt lo hi : R) (T : tableau).
Hypotheses (SN : side_names conds "periodic" "periodic") (B : get_boundary_conditions None conds 1 il ir = Ok bc) (Hdx : 0 < dx) (Hlo : range_ok p lo)
  (Il : inflow_in_range lo hi il) (Ir : inflow_in_range lo hi ir) (HT : In T [euler; heun; ssp3]) (Hdt : 0 <= dt) (HC : dt * max_speed p hi <= dx * monotone_cells_per_step p).
Let rhs := fv_rhs (scalar_llf p) dx bc.
Lemma mono_small : monotone_cells_per_step p <= 1. Proof. destruct p; cbn; lra. Qed.
Lemma mono_lam : 0 <= dt / dx /\ dt / dx * max_speed p hi <= monotone_cells_per_step p.
Proof.
  split; [apply Rmult_le_pos; [lra|left; apply Rinv_0_lt_compat; lra]|]. apply (Rmult_le_reg_r dx); [lra|]. replace (dt / dx * max_speed p hi * dx) with (dt * max_speed p hi) by (field; lra). lra.
Qed.
Lemma euler_facts t u : u <> [] -> in_range lo hi u -> exists v, rhs t u = Ok v.
Proof.
  intros Hu Ru. destruct (ext_range conds il ir bc u (Some t) lo hi B Hu Il Ir Ru t eq_refl) as [e [E [Le Re]]].
  eexists. eapply llf_rhs; eauto; [lra|]. intros i Hi. pose proof (in_range_speed p lo hi e i Hlo Re ltac:(lia)). lra.
Qed.
Lemma euler_step t u v : u <> [] -> in_range lo hi u -> rhs t u = Ok v ->
  stepped p (dt / dx) u (euler_update u v dt) /\ in_range lo hi (euler_update u v dt) /\ length (euler_update u v dt) = length u.
Proof.
  intros Hu Ru Ev. destruct (bc_radius _ _ _ _ _ _ B) as [B1 B2]. destruct (ext_range conds il ir bc u (Some t) lo hi B Hu Il Ir Ru t eq_refl) as [e [E [Le Re]]].
  assert (Hn : (0 < length u)%nat) by (destruct u; [congruence|cbn; lia]).
  assert (St : stepped p (dt / dx) u (euler_update u v dt)) by (eapply llf_stepped; eauto; eapply wrapped_extension; eauto).
  split; [exact St|]. split; [|apply St]. intros x Hx. apply (In_nth _ _ 0) in Hx as [i [Hi <-]]. rewrite (proj1 St) in Hi.
  assert (SP : forall i, (S i < length e)%nat -> dt * speed p (nth i e 0) (nth (S i) e 0) <= dx).
  { intros j Hj. pose proof (in_range_speed p lo hi e j Hlo Re Hj). pose proof mono_small. apply Rle_trans with (dt * max_speed p hi); [apply Rmult_le_compat_l; lra|]. nra. }
  destruct (llf_euler_bounds p bc dx t u e v dt) as [_ X]; auto; [eapply in_range_ok; eauto|intros j Hj; apply SP; lia|]. eapply local_in_range; [exact Re| |apply X; auto]. lia.
Qed.
Lemma rhs_length n t u w : length u = n -> rhs t u = Ok w -> length w = n.
Proof. intros <- E. destruct (bc_radius _ _ _ _ _ _ B) as [B1 B2]. eapply llf_rhs_length; eauto. Qed.

Lemma pair_scheme (Q : list R -> list R -> Prop) t u v : u <> [] -> length u = length v -> in_range lo hi u -> in_range lo hi v ->
  convex_set (fun x => (length (fst x) = length u /\ length (snd x) = length u) /\ Q (fst x) (snd x)) ->
  (forall x y x' y', length x = length u -> length y = length u -> in_range lo hi x -> in_range lo hi y -> stepped p (dt / dx) x x' -> stepped p (dt / dx) y y' -> Q x y -> Q x' y') ->
  Q u v ->
  exists u' v', rk_execute_e rhs T dt {| o_time := t; o_sol := u |} = Ok {| o_time := t + dt; o_sol := u' |} /\
    rk_execute_e rhs T dt {| o_time := t; o_sol := v |} = Ok {| o_time := t + dt; o_sol := v' |} /\
    length u' = length u /\ length v' = length u /\ in_range lo hi u' /\ in_range lo hi v' /\ Q u' v'.
Proof.
  intros Hu L Ru Rv QC QS Quv. assert (NE : forall x : list R, length x = length u -> x <> []) by (intros x Lx ->; destruct u; [congruence|discriminate]).
  destruct (pair_step rhs (fun x => ((length (fst x) = length u /\ length (snd x) = length u) /\ Q (fst x) (snd x)) /\ in_range lo hi (fst x) /\ in_range lo hi (snd x)) (length u) dt T t u v) as [u' [v' [E1 [E2 K]]]]; auto.
  - intros x Kx. apply Kx.
  - intros s x w Lx E. eapply rhs_length; eauto.
  - intros x y r [X1 [X2 X3]] [Y1 [Y2 Y3]] Hr. split; [apply QC; auto|]. destruct X1 as [[LX1 LX2] _]. destruct Y1 as [[LY1 LY2] _].
    split; [apply (in_range_convex (length u) lo hi (fst x) (fst y) r); auto|apply (in_range_convex (length u) lo hi (snd x) (snd y) r); auto].
  - intros s x [[[L1 L2] _] [R1 R2]]. destruct (euler_facts s (fst x) (NE _ L1) R1) as [a A]. destruct (euler_facts s (snd x) (NE _ L2) R2) as [b B']. eauto.
  - intros s x a b [[[L1 L2] Qx] [R1 R2]] Ea Eb. destruct (euler_step s (fst x) a (NE _ L1) R1 Ea) as [S1 [S2 S3]]. destruct (euler_step s (snd x) b (NE _ L2) R2 Eb) as [S4 [S5 S6]].
    cbn [fst snd]. split; [split; [split; congruence|]|auto]. exact (QS _ _ _ _ L1 L2 R1 R2 S1 S4 Qx).
  - cbn [fst snd] in K. destruct K as [[[K1 K2] K3] [K4 K5]]. exists u', v'. auto 8.
Qed.

Lemma below_scheme t u v : u <> [] -> in_range lo hi u -> in_range lo hi v -> below u v ->
  exists u' v', rk_execute_e rhs T dt {| o_time := t; o_sol := u |} = Ok {| o_time := t + dt; o_sol := u' |} /\
    rk_execute_e rhs T dt {| o_time := t; o_sol := v |} = Ok {| o_time := t + dt; o_sol := v' |} /\
    length u' = length u /\ length v' = length u /\ in_range lo hi u' /\ in_range lo hi v' /\ below u' v'.
Proof.
  intros Hu Ru Rv Huv. destruct mono_lam as [M1 M2]. apply pair_scheme; auto; [apply below_nth in Huv; apply Huv| |].
  - intros [x1 x2] [y1 y2] r [[X1 X2] QX] [[Y1 Y2] QY] Hr. cbn [fst snd] in *. cbn [vadd vscal pair_VecOps fst snd list_VecOps].
    assert (LL : forall a b : list R, length a = length u -> length b = length u -> length (map2 cadd (map (cscal r) a) (map (cscal (1 - r)) b)) = length u) by (intros; rewrite map2_length, !map_length; lia).
    split; [split; apply LL; auto|]. apply below_nth in QX as [_ QX]. apply below_nth in QY as [_ QY]. apply below_nth. rewrite !LL by auto. split; [reflexivity|].
    intros i Hi. rewrite !(nth_map2 _ _ _ i 0 0) by (rewrite map_length; lia). rewrite !(nth_map' _ _ i 0) by lia. cbn. specialize (QX i ltac:(lia)). specialize (QY i ltac:(lia)). nra.
  - intros x y x' y' Lx Ly Rx Ry Sx Sy Q. apply (step_below p (dt / dx) lo hi Hlo M1 M2 x y); auto. rewrite Lx. destruct u; [congruence|cbn; lia].
Qed.
Lemma distance_scheme t u v D : u <> [] -> length u = length v -> in_range lo hi u -> in_range lo hi v -> distance u v <= D ->
  exists u' v', rk_execute_e rhs T dt {| o_time := t; o_sol := u |} = Ok {| o_time := t + dt; o_sol := u' |} /\
    rk_execute_e rhs T dt {| o_time := t; o_sol := v |} = Ok {| o_time := t + dt; o_sol := v' |} /\
    length u' = length u /\ length v' = length u /\ in_range lo hi u' /\ in_range lo hi v' /\ distance u' v' <= D.
Proof.
  intros Hu L Ru Rv Huv. destruct mono_lam as [M1 M2]. apply (pair_scheme (fun x y => distance x y <= D)); auto.
  - intros [x1 x2] [y1 y2] r [[X1 X2] QX] [[Y1 Y2] QY] Hr. cbn [fst snd] in *. cbn [vadd vscal pair_VecOps fst snd list_VecOps].
    assert (LL : forall a b : list R, length a = length u -> length b = length u -> length (map2 cadd (map (cscal r) a) (map (cscal (1 - r)) b)) = length u) by (intros; rewrite map2_length, !map_length; lia).
    split; [split; apply LL; auto|]. rewrite (distance_tab _ _ (length u)) in QX by auto. rewrite (distance_tab _ _ (length u)) in QY by auto. rewrite (distance_tab _ _ (length u)) by auto.
    apply Rle_trans with (r * rsum (tab (length u) (fun i => Rabs (nth i x1 0 - nth i x2 0))) + (1 - r) * rsum (tab (length u) (fun i => Rabs (nth i y1 0 - nth i y2 0)))); [|nra].
    rewrite <- !rsum_tab_scal, <- rsum_tab_plus. apply rsum_tab_le. intros i Hi. rewrite !(nth_map2 _ _ _ i 0 0) by (rewrite map_length; lia). rewrite !(nth_map' _ _ i 0) by lia. cbn [cadd cscal R_CellOps].
    replace (r * nth i x1 0 + (1 - r) * nth i y1 0 - (r * nth i x2 0 + (1 - r) * nth i y2 0)) with (r * (nth i x1 0 - nth i x2 0) + (1 - r) * (nth i y1 0 - nth i y2 0)) by ring.
    eapply Rle_trans; [apply Rabs_triang|]. rewrite !Rabs_mult, (Rabs_right r), (Rabs_right (1 - r)) by lra. lra.
  - intros x y x' y' Lx Ly Rx Ry Sx Sy Q. eapply Rle_trans; [|exact Q]. apply (step_contracts p (dt / dx) lo hi Hlo M1 M2 x y); auto; [|congruence]. rewrite Lx. destruct u; [congruence|cbn; lia].
Qed.
Lemma convex_scheme phi t u : convex_on lo hi phi -> u <> [] -> in_range lo hi u ->
  exists u', rk_execute_e rhs T dt {| o_time := t; o_sol := u |} = Ok {| o_time := t + dt; o_sol := u' |} /\
    length u' = length u /\ in_range lo hi u' /\ total phi u' <= total phi u.
Proof.
  intros C Hu Ru. destruct mono_lam as [M1 M2].
  destruct (pair_scheme (fun x y => in_range lo hi x /\ total phi x <= total phi u) t u u) as [u' [v' [E1 [_ [L [_ [R [_ [_ D]]]]]]]]]; auto; [| |split; [auto|lra]|exists u'; auto].
  - intros [x1 x2] [y1 y2] r [[X1 X2] [RX QX]] [[Y1 Y2] [RY QY]] Hr. cbn [fst snd] in *. cbn [vadd vscal pair_VecOps fst snd list_VecOps].
    assert (LL : forall a b : list R, length a = length u -> length b = length u -> length (map2 cadd (map (cscal r) a) (map (cscal (1 - r)) b)) = length u) by (intros; rewrite map2_length, !map_length; lia).
    split; [split; apply LL; auto|]. split; [apply (in_range_convex (length u) lo hi x1 y1 r); auto|].
    rewrite (total_tab _ _ (length u)) in QX by auto. rewrite (total_tab _ _ (length u)) in QY by auto. rewrite (total_tab phi (map2 _ _ _) (length u)) by auto.
    apply Rle_trans with (r * rsum (tab (length u) (fun i => phi (nth i x1 0))) + (1 - r) * rsum (tab (length u) (fun i => phi (nth i y1 0)))); [|nra].
    rewrite <- !rsum_tab_scal, <- rsum_tab_plus. apply rsum_tab_le. intros i Hi. rewrite !(nth_map2 _ _ _ i 0 0) by (rewrite map_length; lia). rewrite !(nth_map' _ _ i 0) by lia. cbn [cadd cscal R_CellOps].
    apply C; auto; [apply RX, nth_In; lia|apply RY, nth_In; lia].
  - intros x y x' y' Lx Ly Rx Ry Sx Sy [_ Q]. assert (0 < length x)%nat by (rewrite Lx; destruct u; [congruence|cbn; lia]).
    assert (Rx' : in_range lo hi x').
    { assert (X : forall k, lo <= k <= hi -> forall z, z = k -> lo <= z <= hi) by (intros; lra). intros z Hz. apply (In_nth _ _ 0) in Hz as [i [Hi <-]]. destruct Sx as [L1 S1]. rewrite L1 in Hi. rewrite S1 by exact Hi.
      pose proof (cyc_range lo hi x Rx H) as Cx. assert (lo <= hi) by (pose proof (Cx 0%nat); lra).
      rewrite <- (update_constant p (dt / dx) lo), <- (update_constant p (dt / dx) hi). split; apply (update_monotone p (dt / dx) lo hi); auto; try apply Cx; lra. }
    split; [exact Rx'|]. eapply Rle_trans; [|exact Q]. eapply step_convex; eauto.
Qed.
End Scheme.
