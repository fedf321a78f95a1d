(** The Golub-Welsch matrix has an orthogonal eigen decomposition for every size: Legendre polynomials have n real roots. *)
From Coq Require Import Reals List Lia Lra Arith Bool.
From Coquelicot Require Import Coquelicot.
From Verif Require Import Prelude L_Prelude M_Mesh M_Quadrature S_Poly L_Poly S_Quadrature L_Quadrature L_Lagrange L_FE.
Import ListNotations.
Open Scope R_scope.

Lemma finite_choice {A} (d : A) n (P : nat -> A -> Prop) : (forall k, (k < n)%nat -> exists y, P k y) -> exists f, forall k, (k < n)%nat -> P k (f k).
Proof.
  induction n as [|n IH]; intro H; [exists (fun _ => d); intros; lia|]. destruct IH as [f Hf]; [intros; apply H; lia|]. destruct (H n ltac:(lia)) as [y Hy].
  exists (fun k => if Nat.eqb k n then y else f k). intros k Hk. destruct (Nat.eqb_spec k n) as [->|]; [exact Hy|apply Hf; lia].
Qed.
(** products of root factors *)
Fixpoint rprod (n : nat) (x : nat -> R) (y : R) : R := match n with O => 1 | S k => rprod k x y * (y - x k) end.
Lemma rprod_lead n x : exists r, deg_lt n r /\ forall y, rprod n x y = y ^ n + r y.
Proof.
  induction n as [|n [r [D E]]]; [exists (fun _ => 0); split; [apply deg_zero|intro; cbn; ring]|].
  exists (fun y => (- x n) * y ^ n + (y * r y - x n * r y)). split.
  - apply deg_plus; [apply deg_scal, deg_pow|]. apply deg_minus; [apply deg_shift; exact D|]. apply deg_scal. apply (deg_mono n); [lia|exact D].
  - intro y. cbn [rprod]. rewrite E. cbn [pow]. ring.
Qed.
Lemma rprod_root n x i : (i < n)%nat -> rprod n x (x i) = 0.
Proof. induction n as [|n IH]; intro H; [lia|]. cbn [rprod]. destruct (Nat.eq_dec i n) as [->|]; [ring|rewrite IH by lia; ring]. Qed.
Lemma rprod_sign n x y k : (k <= n)%nat -> (forall j, (j < k)%nat -> x j < y) -> (forall j, (k <= j < n)%nat -> y < x j) -> 0 < (-1) ^ (n - k) * rprod n x y.
Proof.
  induction n as [|n IH]; intros Hk H1 H2; [replace k with 0%nat by lia; cbn; lra|]. cbn [rprod].
  destruct (Nat.eq_dec k (S n)) as [->|N].
  - replace (S n - S n)%nat with 0%nat by lia. cbn [pow].
    assert (B : forall m, (m <= n)%nat -> 0 < rprod m x y).
    { intros m. induction m as [|m IHm]; intro Hm; cbn [rprod]; [lra|]. apply Rmult_lt_0_compat; [apply IHm; lia|]. assert (C := H1 m ltac:(lia)). lra. }
    assert (C := H1 n ltac:(lia)). specialize (B n ltac:(lia)). apply Rmult_lt_0_compat; [lra|]. apply Rmult_lt_0_compat; lra.
  - assert (A := IH ltac:(lia) H1 (fun j Hj => H2 j ltac:(lia))). replace (S n - k)%nat with (S (n - k)) by lia. cbn [pow]. assert (B := H2 n ltac:(lia)).
    replace (-1 * (-1) ^ (n - k) * (rprod n x y * (y - x n))) with (((-1) ^ (n - k) * rprod n x y) * (x n - y)) by ring. apply Rmult_lt_0_compat; lra.
Qed.
Lemma pow_not_lower n f : deg_lt n f -> ~ (forall x, x ^ n = f x).
Proof.
  intros D E. destruct (rprod_lead n (fun i => INR i)) as [r [Dr Er]].
  assert (Z := roots_zero n (fun y => f y + r y) (fun i => INR i) (deg_plus n f r D Dr) (fun i j _ _ H => INR_eq i j H)).
  assert (Z' : forall y, f y + r y = 0). { apply Z. intros i Hi. rewrite <- E, <- Er. apply rprod_root; auto. }
  assert (S := rprod_sign n (fun i => INR i) (-1) 0 ltac:(lia) ltac:(intros; lia)).
  assert (T : rprod n (fun i => INR i) (-1) = 0) by (rewrite Er, E; apply Z'). rewrite T in S. assert (0 < (-1) ^ (n - 0) * 0). { apply S. intros j _. assert (X := pos_INR j). lra. } lra.
Qed.
Lemma L_factor n x : (forall i j, (i < n)%nat -> (j < n)%nat -> x i = x j -> i = j) -> (forall i, (i < n)%nat -> L n (x i) = 0) ->
  exists c, 0 < c /\ forall y, L n y = c * rprod n x y.
Proof.
  intros Inj Z. destruct (L_lead n) as [c [r [Hc [D E]]]]. destruct (rprod_lead n x) as [r' [D' E']]. exists c. split; [exact Hc|]. intro y.
  assert (X := roots_zero n (fun y => r y - c * r' y) x (deg_minus n r _ D (deg_scal n c r' D')) Inj).
  assert (Y : r y - c * r' y = 0). { apply X. intros i Hi. assert (A := Z i Hi). assert (B := rprod_root n x i Hi). rewrite E in A. rewrite E' in B. replace (x i ^ n) with (- r' (x i)) in A by lra. lra. }
  rewrite E, E'. lra.
Qed.
Lemma pm_sq k : (-1) ^ k * (-1) ^ k = 1.
Proof. induction k as [|k IH]; cbn [pow]; [ring|]. replace (-1 * (-1) ^ k * (-1 * (-1) ^ k)) with ((-1) ^ k * (-1) ^ k) by ring. exact IH. Qed.
Lemma L_continuity n c : continuity (fun x => c * L n x).
Proof.
  intro x. apply continuity_pt_filterlim. apply (@continuous_scal_r R_UniformSpace R_AbsRing R_NormedModule c (L n) x). apply continuous_peval.
Qed.
Lemma L_between n a b c : a < b -> c * L n a < 0 -> 0 < c * L n b -> exists y, a < y < b /\ L n y = 0.
Proof.
  intros Hab Ha Hb. destruct (IVT (fun x => c * L n x) a b (L_continuity n c) Hab Ha Hb) as [z [Hz E]]. cbv beta in E. exists z.
  assert (c <> 0) by (intro X; subst c; lra). split; [|apply Rmult_integral in E; destruct E; [contradiction|auto]].
  split; [destruct (Req_dec a z) as [->|]; [rewrite E in Ha|]|destruct (Req_dec z b) as [->|]; [rewrite E in Hb|]]; lra.
Qed.
(** n roots in increasing order inside (-1, 1), with the sign of the previous polynomial *)
Lemma L_roots n : exists x, (forall i, (i < S n)%nat -> -1 < x i < 1 /\ L (S n) (x i) = 0 /\ 0 < (-1) ^ (n - i) * L n (x i)) /\ (forall i j, (i < j < S n)%nat -> x i < x j).
Proof.
  induction n as [|n [x [Hx Inc]]].
  - exists (fun _ => 0). split; [|intros; lia]. intros i Hi. rewrite L_1, L_0. replace (0 - i)%nat with 0%nat by lia. cbn. lra.
  - set (t := fun k => if Nat.eqb k 0 then -1 else if Nat.eqb k (S (S n)) then 1 else x (k - 1)%nat).
    assert (Tm : forall k, (k <= S n)%nat -> t k < t (S k)).
    { intros k Hk. unfold t. cbn [Nat.eqb]. destruct (Nat.eqb_spec k 0) as [->|]; [destruct (Nat.eqb_spec 0 (S n)); [lia|]; apply (Hx 0%nat); lia|].
      destruct (Nat.eqb_spec k (S (S n))); [lia|]. destruct (Nat.eqb_spec k (S n)) as [->|]; [apply Hx; lia|]. apply Inc. lia. }
    assert (Ts : forall k, (k <= S (S n))%nat -> 0 < (-1) ^ (S (S n) - k) * L (S (S n)) (t k)).
    { intros k Hk. unfold t. destruct (Nat.eqb_spec k 0) as [->|]; [rewrite L_at_m1, Nat.sub_0_r, pm_sq; lra|].
      destruct (Nat.eqb_spec k (S (S n))) as [->|]; [rewrite (proj1 (L_at_1 (S (S n)))), Nat.sub_diag; cbn; lra|].
      destruct (Hx (k - 1)%nat ltac:(lia)) as [_ [Z Sg]]. assert (Rc := L_rec n (x (k - 1)%nat)). rewrite Z in Rc. assert (P := pos_INR n).
      replace (S (S n) - k)%nat with (S (n - (k - 1))) by lia. cbn [pow].
      apply (Rmult_lt_reg_l (INR n + 2)); [lra|]. rewrite Rmult_0_r.
      replace ((INR n + 2) * (-1 * (-1) ^ (n - (k - 1)) * L (S (S n)) (x (k - 1)%nat))) with ((INR n + 1) * ((-1) ^ (n - (k - 1)) * L n (x (k - 1)%nat))).
      - apply Rmult_lt_0_compat; lra.
      - replace ((INR n + 2) * (-1 * (-1) ^ (n - (k - 1)) * L (S (S n)) (x (k - 1)%nat))) with (- (-1) ^ (n - (k - 1)) * ((INR n + 2) * L (S (S n)) (x (k - 1)%nat))) by ring. rewrite Rc. ring. }
    destruct (finite_choice 0 (S (S n)) (fun k y => t k < y < t (S k) /\ L (S (S n)) y = 0)) as [y Hy].
    { intros k Hk. apply (L_between (S (S n)) (t k) (t (S k)) ((-1) ^ (S (S n) - S k))); [apply Tm; lia| |apply Ts; lia].
      assert (A := Ts k ltac:(lia)). replace (S (S n) - k)%nat with (S (S (S n) - S k)) in A by lia. cbn [pow] in A. lra. }
    assert (Tmono : forall a b, (a <= b <= S (S n))%nat -> t a <= t b).
    { intros a b [H1 H2]. induction b as [|b IHb]; [replace a with 0%nat by lia; lra|]. destruct (Nat.eq_dec a (S b)) as [->|]; [lra|]. assert (A := IHb ltac:(lia) ltac:(lia)). assert (B := Tm b ltac:(lia)). lra. }
    exists y. split.
    + intros i Hi. destruct (Hy i ltac:(lia)) as [[A B] Z]. assert (T0 : t 0%nat = -1) by reflexivity. assert (T1 : t (S (S n)) = 1) by (unfold t; cbn [Nat.eqb]; rewrite Nat.eqb_refl; reflexivity).
      assert (C := Tmono 0%nat i ltac:(lia)). assert (D := Tmono (S i) (S (S n)) ltac:(lia)). split; [lra|]. split; [exact Z|].
      destruct (L_factor (S n) x) as [c [Hc F]].
      { intros a b Ha Hb E. destruct (Nat.lt_total a b) as [Q|[Q|Q]]; [|exact Q|]; [assert (X := Inc a b ltac:(lia))|assert (X := Inc b a ltac:(lia))]; lra. }
      { intros a Ha. apply Hx; auto. }
      rewrite F. replace ((-1) ^ (S n - i) * (c * rprod (S n) x (y i))) with (c * ((-1) ^ (S n - i) * rprod (S n) x (y i))) by ring.
      apply Rmult_lt_0_compat; [exact Hc|]. apply rprod_sign; [lia| |].
      * intros j Hj. assert (X := Tmono (S j) i ltac:(lia)). assert (t (S j) = x j). { unfold t. destruct (Nat.eqb_spec (S j) 0); [lia|]. destruct (Nat.eqb_spec (S j) (S (S n))); [lia|]. f_equal. lia. } lra.
      * intros j Hj. assert (X := Tmono (S i) (S j) ltac:(lia)). assert (t (S j) = x j). { unfold t. destruct (Nat.eqb_spec (S j) 0); [lia|]. destruct (Nat.eqb_spec (S j) (S (S n))); [lia|]. f_equal. lia. } lra.
    + intros i j Hij. destruct (Hy i ltac:(lia)) as [[A B] _]. destruct (Hy j ltac:(lia)) as [[C D] _]. assert (X := Tmono (S i) j ltac:(lia)). lra.
Qed.

(** linear independence of the orthonormal Legendre polynomials *)
Lemma q_independent n a : (forall y, rsum (tab n (fun k => a k * q k y)) = 0) -> forall k, (k < n)%nat -> a k = 0.
Proof.
  induction n as [|n IH]; intros H k Hk; [lia|]. assert (An : a n = 0).
  { destruct (Req_dec (a n) 0) as [E|E]; [exact E|]. exfalso. destruct (L_lead n) as [c [r [Hc [D X]]]]. assert (Sq := sqrt_pos_k n).
    set (A := a n * sqrt (2 * INR n + 1) * c). assert (NA : A <> 0) by (unfold A; repeat apply Rmult_integral_contrapositive_currified; lra).
    apply (pow_not_lower n (fun y => (- / A) * (rsum (tab n (fun k => a k * q k y)) + a n * sqrt (2 * INR n + 1) * r y))).
    - apply deg_scal, deg_plus; [|apply deg_scal; exact D]. apply (deg_sum n n (fun k y => a k * q k y)). intros i Hi. apply deg_scal. unfold q. apply deg_scal. apply (deg_mono (S i)); [lia|apply L_deg].
    - intro y. assert (Y := H y). rewrite rsum_tab_S in Y. unfold q at 2 in Y. rewrite X in Y.
      replace (rsum (tab n (fun k => a k * q k y)) + a n * sqrt (2 * INR n + 1) * r y) with (- (A * y ^ n)) by (unfold A; lra). field. exact NA. }
  destruct (Nat.eq_dec k n) as [->|]; [exact An|]. apply IH; [|lia]. intro y. assert (Y := H y). rewrite rsum_tab_S, An in Y. lra.
Qed.
Theorem eigen_exists : forall n, (0 < n)%nat -> exists d, eigen_decomposition n (gw_matrix n) d.
Proof.
  intros [|n0] Hn; [lia|]. destruct (L_roots n0) as [x [Hx Inc]]. set (n := S n0) in *.
  set (K := fun a b => rsum (tab n (fun k => q k a * q k b))).
  assert (Kp : forall a, 1 <= K a a).
  { intro a. unfold K, n. rewrite rsum_tab_S'. rewrite q_0. assert (0 <= rsum (tab n0 (fun i => q (S i) a * q (S i) a))) by (apply rsum_tab_nonneg; intros; nra). lra. }
  set (sw := fun i => / sqrt (K (x i) (x i))). assert (SW : forall i, sw i * sw i * K (x i) (x i) = 1).
  { intro i. unfold sw. assert (P := Kp (x i)). assert (0 < sqrt (K (x i) (x i))) by (apply sqrt_lt_R0; lra). rewrite <- (sqrt_sqrt (K (x i) (x i))) at 3 by lra. field. lra. }
  assert (SP : forall i, 0 < sw i) by (intro i; apply Rinv_0_lt_compat, sqrt_lt_R0; assert (P := Kp (x i)); lra).
  set (v := fun k i => sw i * q k (x i)).
  assert (Qn : forall i, (i < n)%nat -> q n (x i) = 0) by (intros i Hi; unfold q; rewrite (proj1 (proj2 (Hx i Hi))); ring).
  assert (EV : forall k i, (k < n)%nat -> (i < n)%nat -> rsum (tab n (fun j => gw_matrix n k j * v j i)) = x i * v k i).
  { intros k i Hk Hi. rewrite (gw_row n k (fun j => v j i) Hk). unfold v.
    assert (T : forall k, (k < n)%nat -> (if Nat.ltb (S k) n then gw_beta k * (sw i * q (S k) (x i)) else 0) = gw_beta k * (sw i * q (S k) (x i))).
    { intros l Hl. destruct (Nat.ltb_spec (S l) n); [reflexivity|]. replace (S l) with n by lia. rewrite Qn by auto. ring. }
    rewrite (T k Hk). destruct k as [|k].
    - assert (E := q_1 (x i)). rewrite Rplus_0_l. replace (gw_beta 0 * (sw i * q 1 (x i))) with (sw i * (gw_beta 0 * q 1 (x i))) by ring. rewrite E. ring.
    - assert (E := q_rec k (x i)). replace (gw_beta k * (sw i * q k (x i)) + gw_beta (S k) * (sw i * q (S (S k)) (x i))) with (sw i * (gw_beta k * q k (x i) + gw_beta (S k) * q (S (S k)) (x i))) by ring. rewrite E. ring. }
  assert (Sym : forall k l, gw_matrix n k l = gw_matrix n l k).
  { intros k l. unfold gw_matrix. destruct (Nat.eqb_spec l (S k)), (Nat.eqb_spec k (S l)); cbn [andb]; try lia; try reflexivity;
    repeat match goal with |- context [Nat.ltb ?a ?b] => destruct (Nat.ltb_spec a b) end; reflexivity || lia. }
  assert (CO : forall i j, (i < n)%nat -> (j < n)%nat -> rsum (tab n (fun k => v k i * v k j)) = delta i j).
  { intros i j Hi Hj. destruct (Nat.eq_dec i j) as [->|N].
    - rewrite delta_same. rewrite (sum_ext n _ (fun k => (sw j * sw j) * (q k (x j) * q k (x j)))) by (intros; unfold v; ring). rewrite rsum_tab_scal. apply SW.
    - rewrite delta_diff by auto.
      assert (NX : x i <> x j) by (destruct (Nat.lt_total i j) as [Q|[Q|Q]]; [assert (X := Inc i j ltac:(lia)); lra|contradiction|assert (X := Inc j i ltac:(lia)); lra]).
      assert (E : x i * rsum (tab n (fun k => v k i * v k j)) = x j * rsum (tab n (fun k => v k i * v k j))).
      { transitivity (rsum (tab n (fun k => rsum (tab n (fun l => gw_matrix n k l * v l i * v k j))))).
        - rewrite <- rsum_tab_scal. apply sum_ext. intros k Hk. rewrite <- Rmult_assoc, <- (EV k i Hk Hi). rewrite Rmult_comm, <- rsum_tab_scal. apply sum_ext. intros. ring.
        - rewrite rsum_tab_swap. rewrite <- rsum_tab_scal. apply sum_ext. intros l Hl. transitivity (v l i * (x j * v l j)); [|ring]. rewrite <- (EV l j Hl Hj). rewrite <- rsum_tab_scal. apply sum_ext. intros k Hk. rewrite (Sym k l). ring. }
      apply (Rmult_eq_reg_l (x i - x j)); lra. }
  exists (x, v). split; [exact EV|]. split; [exact CO|].
  intros k l Hk Hl. assert (G := q_independent n (fun k => rsum (tab n (fun i => v k i * v l i)) - delta k l)). cbv beta in G.
  assert (Z : rsum (tab n (fun i => v k i * v l i)) - delta k l = 0); [|lra]. apply G; [|exact Hk]. clear k Hk G.
  intro y. transitivity (rsum (tab n (fun i => (sw i * v l i) * K (x i) y)) - q l y).
  - rewrite (sum_ext n _ (fun k => rsum (tab n (fun i => v k i * v l i)) * q k y - delta k l * q k y)) by (intros; ring).
    rewrite rsum_tab_minus, (sum_delta n l (fun k => q k y) Hl). f_equal.
    transitivity (rsum (tab n (fun k => rsum (tab n (fun i => v k i * v l i * q k y))))).
    + apply sum_ext. intros k Hk. rewrite Rmult_comm, <- rsum_tab_scal. apply sum_ext. intros; ring.
    + rewrite rsum_tab_swap. apply sum_ext. intros i Hi. unfold K. rewrite <- rsum_tab_scal. apply sum_ext. intros k Hk. unfold v. ring.
  - apply (roots_zero n (fun y => rsum (tab n (fun i => (sw i * v l i) * K (x i) y)) - q l y) x).
    + apply deg_minus.
      * apply (deg_sum n n (fun i y => sw i * v l i * K (x i) y)). intros i Hi. apply deg_scal. unfold K. apply (deg_sum n n (fun k y => q k (x i) * q k y)). intros k Hk. apply deg_scal. unfold q. apply deg_scal. apply (deg_mono (S k)); [lia|apply L_deg].
      * unfold q. apply deg_scal. apply (deg_mono (S l)); [lia|apply L_deg].
    + intros a b Ha Hb E. destruct (Nat.lt_total a b) as [Q|[Q|Q]]; [|exact Q|]; [assert (X := Inc a b ltac:(lia))|assert (X := Inc b a ltac:(lia))]; lra.
    + intros j Hj. rewrite (sum_ext n _ (fun i => delta i j * (v l i / sw j))).
      * rewrite (sum_delta n j (fun i => v l i / sw j) Hj). unfold v. assert (P := SP j). field. lra.
      * intros i Hi. assert (C := CO i j Hi Hj). assert (D : sw i * sw j * K (x i) (x j) = delta i j).
        { rewrite <- C. unfold K. rewrite <- rsum_tab_scal. apply sum_ext. intros. unfold v. ring. }
        rewrite <- D. assert (P := SP j). field. lra.
Qed.
(** a solver that is right for all sizes up to any bound *)
Lemma eig_exists N : exists eig, forall n, (0 < n <= N)%nat -> eigen_decomposition n (gw_matrix n) (eig n (gw_matrix n)).
Proof.
  destruct (finite_choice (fun _ => 0, fun _ _ => 0) (S N) (fun n d => (0 < n)%nat -> eigen_decomposition n (gw_matrix n) d)) as [f Hf].
  - intros k _. destruct k as [|k]; [exists (fun _ => 0, fun _ _ => 0); intro; lia|]. destruct (eigen_exists (S k) ltac:(lia)) as [d Hd]. exists d. auto.
  - exists (fun n _ => f n). intros n Hn. apply Hf; lia.
Qed.
