(** Lemmas about Lagrange interpolation. *)
From Coq Require Import Reals List Lia Lra Arith Bool.
From Coquelicot Require Import Coquelicot.
From Verif Require Import Prelude L_Prelude M_Mesh M_Quadrature S_Poly L_Poly S_Quadrature M_FE.
Import ListNotations.
Open Scope R_scope.

Lemma delta_same i : delta i i = 1. Proof. unfold delta. rewrite Nat.eqb_refl. reflexivity. Qed.
Lemma delta_diff i j : i <> j -> delta i j = 0. Proof. intro. unfold delta. destruct (Nat.eqb_spec i j); [contradiction|reflexivity]. Qed.
Lemma delta_sym i j : delta i j = delta j i. Proof. unfold delta. rewrite Nat.eqb_sym. reflexivity. Qed.
Lemma sum_delta n k f : (k < n)%nat -> rsum (tab n (fun i => delta i k * f i)) = f k.
Proof. intro H. rewrite (rsum_tab_single n _ k H); [rewrite delta_same; ring|]. intros i Hi Nk. rewrite delta_diff by auto. ring. Qed.
Lemma sum_delta' n k f : (k < n)%nat -> rsum (tab n (fun i => delta k i * f i)) = f k.
Proof. intro H. rewrite <- (sum_delta n k f H). f_equal. apply tab_ext. intros i Hi. rewrite delta_sym. reflexivity. Qed.

(** polynomials with more roots than degree vanish *)
Lemma factor_root : forall p r, (0 < length p)%nat -> exists g, length g = (length p - 1)%nat /\ forall x, peval p x = peval p r + (x - r) * peval g x.
Proof.
  induction p as [|a p IH]; intros r H; [cbn in H; lia|]. destruct p as [|b p].
  - exists []. split; [reflexivity|]. intro x. cbn. ring.
  - destruct (IH r ltac:(cbn; lia)) as [g [Lg Eg]]. exists (peval (b :: p) r :: g). split; [cbn in *; lia|].
    intro x. rewrite (peval_cons a (b :: p) x), (peval_cons a (b :: p) r), (peval_cons _ g). rewrite (Eg x). ring.
Qed.
Lemma roots_zero : forall n f (x : nat -> R), deg_lt n f -> (forall i j, (i < n)%nat -> (j < n)%nat -> x i = x j -> i = j) ->
  (forall i, (i < n)%nat -> f (x i) = 0) -> forall y, f y = 0.
Proof.
  induction n as [|n IH]; intros f x [p [Lp Ep]] Inj Z y.
  - destruct p; [|cbn in Lp; lia]. rewrite Ep. reflexivity.
  - destruct p as [|a p]; [rewrite Ep; reflexivity|]. destruct (factor_root (a :: p) (x n) ltac:(cbn; lia)) as [g [Lg Eg]].
    assert (Zn : peval (a :: p) (x n) = 0) by (rewrite <- Ep; apply Z; lia).
    assert (G : forall y, peval g y = 0).
    { apply (IH (peval g) x).
      - exists g. split; [cbn in *; lia|auto].
      - intros i j Hi Hj. apply Inj; lia.
      - intros i Hi. assert (Y := Z i ltac:(lia)). rewrite Ep, Eg, Zn, Rplus_0_l in Y. apply Rmult_integral in Y. destruct Y as [Y|Y]; [|exact Y].
        exfalso. assert (x i = x n) as X by lra. apply Inj in X; lia. }
    rewrite Ep, Eg, Zn, G. ring.
Qed.
Lemma deg_derivative n p : (length p <= S n)%nat -> deg_lt n (peval (pderiv p)).
Proof.
  revert n. induction p as [|a p IH]; intros n H; cbn [pderiv].
  - apply (deg_ext n (fun _ => 0)); [intro; reflexivity|apply deg_zero].
  - apply (deg_ext n (fun x => peval p x + x * peval (pderiv p) x)).
    + intro x. rewrite peval_add, peval_cons. ring.
    + cbn in H. destruct n as [|n].
      * destruct p; [|cbn in H; lia]. apply (deg_ext 0 (fun _ => 0)); [intro; cbn; ring|apply deg_zero].
      * apply deg_plus; [exists p; split; [lia|auto]|apply deg_shift, IH; lia].
Qed.

(** products of factors *)
Definition rprod (l : list R) : R := fold_right Rmult 1 l.
Lemma fold_pmul {A} (F : A -> list R) l : forall acc x, peval (fold_left (fun pt k => pmul pt (F k)) l acc) x = peval acc x * rprod (map (fun k => peval (F k) x) l).
Proof. induction l as [|k l IH]; intros acc x; cbn [fold_left map rprod fold_right]; [ring|]. rewrite IH, peval_mul. unfold rprod. ring. Qed.
Lemma fold_pmul_length {A} (F : A -> list R) (w : A -> nat) l : (forall k, (length (F k) <= S (w k))%nat) ->
  forall acc, (length (fold_left (fun pt k => pmul pt (F k)) l acc) <= length acc + list_sum (map w l))%nat.
Proof.
  intro Hw. induction l as [|k l IH]; intro acc; cbn [fold_left map list_sum fold_right]; [lia|]. eapply Nat.le_trans; [apply IH|]. specialize (Hw k).
  assert (length (pmul acc (F k)) <= length acc + w k)%nat; [|unfold list_sum in *; lia].
  destruct (pmul_length acc (F k)) as [H|[-> | H]]; [lia|cbn; lia|]. rewrite H. clear. induction acc as [|a acc IH]; [cbn; lia|].
  cbn [pmul pscal map]. rewrite padd_length. cbn [length]. lia.
Qed.
Lemma fold_padd {A} (F : A -> list R) l : forall acc x, peval (fold_left (fun p j => padd p (F j)) l acc) x = peval acc x + rsum (map (fun j => peval (F j) x) l).
Proof. induction l as [|k l IH]; intros acc x; cbn [fold_left map]; [unfold rsum; cbn; ring|]. rewrite IH, peval_add. unfold rsum. cbn [fold_right]. ring. Qed.
Lemma fold_padd_length {A} (F : A -> list R) l N : (forall k, In k l -> (length (F k) <= N)%nat) ->
  forall acc, (length acc <= N)%nat -> (length (fold_left (fun p j => padd p (F j)) l acc) <= N)%nat.
Proof.
  intro H. induction l as [|k l IH]; intros acc Ha; cbn [fold_left]; [auto|]. apply IH; [intros; apply H; right; auto|].
  rewrite padd_length. specialize (H k (or_introl eq_refl)). lia.
Qed.
Lemma rprod_zero l : In 0 l -> rprod l = 0.
Proof. induction l as [|a l IH]; [intros []|]. intros [-> | H]; unfold rprod; cbn [fold_right]; [ring|]. unfold rprod in IH. rewrite (IH H). ring. Qed.
Lemma rprod_one l : (forall x, In x l -> x = 1) -> rprod l = 1.
Proof. induction l as [|a l IH]; intro H; [reflexivity|]. unfold rprod in *. cbn [fold_right]. rewrite IH by (intros; apply H; right; auto). rewrite (H a) by (left; auto). ring. Qed.

Lemma lagrange_eval x w y : peval (lagrange x w) y =
  rsum (tab (length x) (fun j => nth j w 0 * rprod (tab (length x) (fun k => if Nat.eqb k j then 1 else (y - nth k x 0) / (nth j x 0 - nth k x 0))))).
Proof.
  unfold lagrange. rewrite fold_padd. replace (peval [] y) with 0 by reflexivity. rewrite Rplus_0_l. fold (tab (length x) (fun j => peval (fold_left (fun pt k => pmul pt (lagrange_factor x j k)) (seq 0 (length x)) [nth j w 0]) y)).
  f_equal. apply tab_ext. intros j Hj. rewrite fold_pmul. replace (peval [nth j w 0] y) with (nth j w 0) by (cbn; ring). f_equal.
  unfold tab. f_equal. apply map_ext_in. intros k _. unfold lagrange_factor. destruct (Nat.eqb k j); [cbn; ring|]. rewrite peval_scal. cbn. unfold Rdiv. ring.
Qed.
Lemma lagrange_length x w : (length (lagrange x w) <= length x)%nat.
Proof.
  unfold lagrange. apply fold_padd_length; [|cbn; lia]. intros j Hj. apply in_seq in Hj.
  eapply Nat.le_trans; [apply (fold_pmul_length (lagrange_factor x j) (fun k => if Nat.eqb k j then 0%nat else 1%nat)); intro k; unfold lagrange_factor; destruct (Nat.eqb k j); cbn; lia|].
  cbn [length]. assert (G : forall n s, (j < s)%nat -> list_sum (map (fun k => if Nat.eqb k j then 0 else 1)%nat (seq s n)) = n).
  { clear. induction n as [|n IH]; intros s H; [reflexivity|]. cbn [seq map]. change (list_sum ?l) with (fold_right Nat.add 0%nat l). cbn [fold_right]. destruct (Nat.eqb_spec s j); [lia|].
    change (fold_right Nat.add 0%nat ?l) with (list_sum l). rewrite IH by lia. lia. }
  assert (K : forall n s, (s <= j < s + n)%nat -> (list_sum (map (fun k => if Nat.eqb k j then 0 else 1)%nat (seq s n)) = n - 1)%nat).
  { clear - G. induction n as [|n IH]; intros s H; [lia|]. cbn [seq map]. change (list_sum ?l) with (fold_right Nat.add 0%nat l). cbn [fold_right].
    change (fold_right Nat.add 0%nat ?l) with (list_sum l). destruct (Nat.eqb_spec s j) as [->|]; [rewrite G by lia; lia|]. rewrite IH by lia. lia. }
  rewrite K by lia. lia.
Qed.
Lemma lagrange_at x w i : (forall i j, (i < length x)%nat -> (j < length x)%nat -> nth i x 0 = nth j x 0 -> i = j) ->
  (i < length x)%nat -> peval (lagrange x w) (nth i x 0) = nth i w 0.
Proof.
  intros Inj Hi. rewrite lagrange_eval. rewrite (rsum_tab_single _ _ i Hi).
  - rewrite rprod_one; [ring|]. intros z Hz. apply in_tab in Hz. destruct Hz as [k [Hk <-]]. destruct (Nat.eqb_spec k i) as [|Nk]; [reflexivity|]. field. intro E. apply Nk. symmetry. apply Inj; auto. lra.
  - intros j Hj Nj. rewrite rprod_zero; [ring|]. apply in_tab. exists i. split; [auto|]. destruct (Nat.eqb_spec i j); [congruence|]. unfold Rdiv. ring.
Qed.

(** the local basis *)
Lemma local_nodes_length p : length (local_nodes p) = S p.
Proof. apply tab_length. Qed.
Lemma local_nodes_nth p i d : (i <= p)%nat -> nth i (local_nodes p) d = INR i / INR p.
Proof. intro H. unfold local_nodes. rewrite nth_tab by lia. reflexivity. Qed.
Lemma local_nodes_inj p i j : (0 < p)%nat -> INR i / INR p = INR j / INR p -> i = j.
Proof. intros Hp E. assert (P : 0 < INR p) by (apply lt_0_INR; lia). apply INR_eq. apply (Rmult_eq_reg_r (/ INR p)); [exact E|]. apply Rinv_neq_0_compat. lra. Qed.
Lemma basis_nodal p a b : (0 < p)%nat -> (a <= p)%nat -> (b <= p)%nat -> basis_value p a (INR b / INR p) = delta a b.
Proof.
  intros Hp Ha Hb. unfold basis_value, basis_poly. rewrite <- (local_nodes_nth p b 0 Hb). rewrite lagrange_at.
  - unfold unit_vector. rewrite nth_tab by lia. unfold delta. rewrite Nat.eqb_sym. reflexivity.
  - rewrite local_nodes_length. intros i j Hi Hj. rewrite !local_nodes_nth by lia. apply local_nodes_inj; auto.
  - rewrite local_nodes_length. lia.
Qed.
Lemma basis_length p a : (length (basis_poly p a) <= S p)%nat.
Proof. unfold basis_poly. rewrite <- (local_nodes_length p). apply lagrange_length. Qed.
Lemma basis_deg p a : deg_lt (S p) (basis_value p a).
Proof. exists (basis_poly p a). split; [apply basis_length|reflexivity]. Qed.
Lemma basis_deriv p a x : is_derive (basis_value p a) x (basis_derivative p a x).
Proof. apply is_derive_peval. Qed.
Lemma basis_deriv_deg p a : deg_lt p (basis_derivative p a).
Proof. apply deg_derivative, basis_length. Qed.
Lemma deg_sum n k (F : nat -> R -> R) : (forall i, (i < k)%nat -> deg_lt n (F i)) -> deg_lt n (fun x => rsum (tab k (fun i => F i x))).
Proof.
  induction k as [|k IH]; intro H; [apply (deg_ext n (fun _ => 0)); [reflexivity|apply deg_zero]|].
  apply (deg_ext n (fun x => rsum (tab k (fun i => F i x)) + F k x)); [intro; rewrite rsum_tab_S; reflexivity|]. apply deg_plus; [apply IH; intros; apply H; lia|apply H; lia].
Qed.
Lemma basis_reproduces p f x : (0 < p)%nat -> deg_lt (S p) f -> rsum (tab (S p) (fun a => f (INR a / INR p) * basis_value p a x)) = f x.
Proof.
  intros Hp Df. apply Rminus_diag_uniq.
  apply (roots_zero (S p) (fun y => rsum (tab (S p) (fun a => f (INR a / INR p) * basis_value p a y)) - f y) (fun i => INR i / INR p)).
  - apply deg_minus; [|exact Df]. apply (deg_sum (S p) (S p) (fun a y => f (INR a / INR p) * basis_value p a y)). intros i Hi. apply deg_scal, basis_deg.
  - intros i j _ _. apply local_nodes_inj; auto.
  - intros i Hi. rewrite (tab_ext _ _ (fun a => delta a i * f (INR a / INR p))).
    + rewrite sum_delta by lia. ring.
    + intros a Ha. rewrite basis_nodal by lia. ring.
Qed.
Lemma basis_partition p x : (0 < p)%nat -> rsum (tab (S p) (fun a => basis_value p a x)) = 1.
Proof. intro Hp. assert (E := basis_reproduces p (fun _ => 1) x Hp (deg_const (S p) 1 ltac:(lia))). cbv beta in E. transitivity (rsum (tab (S p) (fun a => 1 * basis_value p a x))); [|exact E]. f_equal. apply tab_ext. intros. ring. Qed.
Lemma sum_derive n (F F' : nat -> R -> R) x : (forall i, (i < n)%nat -> is_derive (F i) x (F' i x)) ->
  is_derive (fun y => rsum (tab n (fun i => F i y))) x (rsum (tab n (fun i => F' i x))).
Proof.
  induction n as [|n IH]; intro H; [apply (@is_derive_const R_AbsRing R_NormedModule 0 x)|].
  apply (is_derive_ext (fun y => rsum (tab n (fun i => F i y)) + F n y)); [intro; rewrite rsum_tab_S; reflexivity|]. rewrite rsum_tab_S.
  apply @is_derive_plus; [apply IH; intros; apply H; lia|apply H; lia].
Qed.
Lemma basis_reproduces_derivative p f f' x : (0 < p)%nat -> deg_lt (S p) f -> is_derive f x f' ->
  rsum (tab (S p) (fun a => f (INR a / INR p) * basis_derivative p a x)) = f'.
Proof.
  intros Hp Df D. assert (X := sum_derive (S p) (fun a y => f (INR a / INR p) * basis_value p a y) (fun a y => f (INR a / INR p) * basis_derivative p a y) x).
  assert (Y : is_derive (fun y => rsum (tab (S p) (fun a => f (INR a / INR p) * basis_value p a y))) x f') by (apply (is_derive_ext f); [intro; symmetry; apply basis_reproduces; auto|exact D]).
  apply is_derive_unique in Y. rewrite <- Y. symmetry. apply is_derive_unique. apply X. intros i Hi. apply @is_derive_scal. apply basis_deriv.
Qed.
Lemma basis_derivative_sum p x : (0 < p)%nat -> rsum (tab (S p) (fun a => basis_derivative p a x)) = 0.
Proof.
  intro Hp. assert (E := basis_reproduces_derivative p (fun _ => 1) 0 x Hp (deg_const (S p) 1 ltac:(lia)) ltac:(apply @is_derive_const)). cbv beta in E.
  transitivity (rsum (tab (S p) (fun a => 1 * basis_derivative p a x))); [|exact E]. f_equal. apply tab_ext. intros. ring.
Qed.
Lemma basis_at_0 p a : (0 < p)%nat -> (a <= p)%nat -> basis_value p a 0 = delta a 0.
Proof. intros Hp Ha. rewrite <- (basis_nodal p a 0 Hp Ha) by lia. f_equal. cbn. unfold Rdiv. ring. Qed.
Lemma basis_at_1 p a : (0 < p)%nat -> (a <= p)%nat -> basis_value p a 1 = delta a p.
Proof. intros Hp Ha. rewrite <- (basis_nodal p a p Hp Ha) by lia. f_equal. field. apply not_0_INR. lia. Qed.
