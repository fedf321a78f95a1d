(** Lemmas about polynomials, and the Legendre polynomials. *)
From Coq Require Import Reals List Lia Lra Arith.
From Coquelicot Require Import Coquelicot.
From Verif Require Import Prelude L_Prelude S_Poly.
Import ListNotations.
Open Scope R_scope.

Fixpoint padd (p q : list R) : list R :=
  match p, q with [], _ => q | _, [] => p | a :: p', b :: q' => (a + b) :: padd p' q' end.
Definition pscal (c : R) (p : list R) : list R := map (Rmult c) p.
Fixpoint pderiv (p : list R) : list R := match p with [] => [] | _ :: p' => padd p' (0 :: pderiv p') end.
Fixpoint pmul (p q : list R) : list R := match p with [] => [] | a :: p' => padd (pscal a q) (0 :: pmul p' q) end.

Lemma peval_cons a p x : peval (a :: p) x = a + x * peval p x.
Proof. reflexivity. Qed.
Lemma peval_add : forall p q x, peval (padd p q) x = peval p x + peval q x.
Proof.
  induction p as [|a p IH]; intros [|b q] x; cbn [padd]; rewrite ?peval_cons, ?IH; try (cbn [peval fold_right]; ring).
Qed.
Lemma peval_scal c p x : peval (pscal c p) x = c * peval p x.
Proof. induction p as [|a p IH]; unfold pscal in *; cbn [map]; [cbn; ring|]. rewrite !peval_cons, IH. ring. Qed.
Lemma peval_mul : forall p q x, peval (pmul p q) x = peval p x * peval q x.
Proof.
  induction p as [|a p IH]; intros q x; cbn [pmul]; [cbn; ring|]. rewrite peval_add, peval_scal, !peval_cons, IH. ring.
Qed.
Lemma padd_length p q : length (padd p q) = Nat.max (length p) (length q).
Proof. revert q. induction p as [|a p IH]; intros [|b q]; cbn; auto. Qed.
Lemma pscal_length c p : length (pscal c p) = length p.
Proof. apply map_length. Qed.
Lemma pmul_length p q : (length (pmul p q) <= length p + length q - 1)%nat \/ p = [] \/ q = [].
Proof.
  induction p as [|a p IH]; [auto|]. destruct q as [|b q]; [auto|]. left. cbn [pmul]. rewrite padd_length, pscal_length. cbn [length].
  destruct IH as [IH|[->|IH]]; [cbn [length] in IH|cbn|discriminate]; lia.
Qed.

Lemma is_derive_peval p : forall x, is_derive (peval p) x (peval (pderiv p) x).
Proof.
  induction p as [|a p IH]; intro x.
  - apply (is_derive_ext (fun _ => 0)); [reflexivity|]. apply @is_derive_const.
  - apply (is_derive_ext (fun x => a + x * peval p x)); [intro; reflexivity|]. cbn [pderiv]. rewrite peval_add, peval_cons.
    apply is_derive_Reals. replace (peval p x + (0 + x * peval (pderiv p) x)) with (0 + (1 * peval p x + x * peval (pderiv p) x)) by ring.
    apply (derivable_pt_lim_plus (fun _ => a) (fun x => x * peval p x)); [apply derivable_pt_lim_const|].
    apply (derivable_pt_lim_mult (fun x => x) (peval p)); [apply derivable_pt_lim_id|]. apply is_derive_Reals, IH.
Qed.
Lemma continuous_peval p x : continuous (peval p) x.
Proof. apply @ex_derive_continuous. exists (peval (pderiv p) x). apply is_derive_peval. Qed.
Lemma is_RInt_antiderivative P p a b : (forall x, peval (pderiv P) x = peval p x) -> is_RInt (peval p) a b (peval P b - peval P a).
Proof.
  intro E. apply (is_RInt_derive (peval P) (peval p)).
  - intros x _. rewrite <- E. apply is_derive_peval.
  - intros x _. apply continuous_peval.
Qed.
Lemma ex_RInt_peval p a b : ex_RInt (peval p) a b.
Proof. apply @ex_RInt_continuous. intros x _. apply continuous_peval. Qed.

(** degree *)
Lemma deg_ext n f g : (forall x, f x = g x) -> deg_lt n f -> deg_lt n g.
Proof. intros E [p [L P]]. exists p. split; auto. intro x. rewrite <- E. auto. Qed.
Lemma deg_mono n m f : (n <= m)%nat -> deg_lt n f -> deg_lt m f.
Proof. intros H [p [L P]]. exists p. split; auto. lia. Qed.
Lemma deg_0 f : deg_lt 0 f -> forall x, f x = 0.
Proof. intros [p [L P]] x. rewrite P. destruct p; [reflexivity|cbn in L; lia]. Qed.
Lemma deg_const n c : (0 < n)%nat -> deg_lt n (fun _ => c).
Proof. intro H. exists [c]. split; [cbn; lia|]. intro x. cbn. ring. Qed.
Lemma deg_zero n : deg_lt n (fun _ => 0).
Proof. exists []. split; [cbn; lia|]. reflexivity. Qed.
Lemma deg_id n : (1 < n)%nat -> deg_lt n (fun x => x).
Proof. intro H. exists [0; 1]. split; [cbn; lia|]. intro x. cbn. ring. Qed.
Lemma deg_plus n f g : deg_lt n f -> deg_lt n g -> deg_lt n (fun x => f x + g x).
Proof.
  intros [p [L P]] [q [L' Q]]. exists (padd p q). split; [rewrite padd_length; lia|]. intro x. rewrite peval_add, P, Q. reflexivity.
Qed.
Lemma deg_scal n c f : deg_lt n f -> deg_lt n (fun x => c * f x).
Proof. intros [p [L P]]. exists (pscal c p). split; [rewrite pscal_length; lia|]. intro x. rewrite peval_scal, P. reflexivity. Qed.
Lemma deg_minus n f g : deg_lt n f -> deg_lt n g -> deg_lt n (fun x => f x - g x).
Proof.
  intros F G. apply (deg_ext n (fun x => f x + (-1) * g x)); [intro; ring|]. apply deg_plus; auto. apply deg_scal; auto.
Qed.
Lemma deg_shift n f : deg_lt n f -> deg_lt (S n) (fun x => x * f x).
Proof. intros [p [L P]]. exists (0 :: p). split; [cbn; lia|]. intro x. rewrite peval_cons, P. ring. Qed.
Lemma deg_mult n m f g : deg_lt (S n) f -> deg_lt (S m) g -> deg_lt (S (n + m)) (fun x => f x * g x).
Proof.
  intros [p [L P]] [q [L' Q]]. exists (pmul p q). split.
  - destruct (pmul_length p q) as [H|[-> | ->]]; [lia|cbn; lia|].
    assert (X : (length (pmul p []) <= length p)%nat).
    { clear. induction p as [|a p IH]; [cbn; lia|]. cbn [pmul]. rewrite padd_length. cbn [pscal map length] in *. lia. }
    lia.
  - intro x. rewrite peval_mul, P, Q. reflexivity.
Qed.
Lemma deg_pow n : deg_lt (S n) (fun x => x ^ n).
Proof.
  induction n as [|n IH]; [apply (deg_ext _ (fun _ => 1)); [reflexivity|]; apply deg_const; lia|].
  apply (deg_ext _ (fun x => x * x ^ n)); [reflexivity|]. apply deg_shift. exact IH.
Qed.
(* a polynomial with n+1 coefficients splits off its leading monomial *)
Lemma deg_split n f : deg_lt (S n) f -> exists c g, deg_lt n g /\ forall x, f x = c * x ^ n + g x.
Proof.
  intros [p [L P]]. exists (nth n p 0), (peval (firstn n p)). split.
  - exists (firstn n p). split; [rewrite firstn_length; lia|reflexivity].
  - intro x. rewrite P. clear P. revert p L. induction n as [|n IH]; intros [|a p] L; cbn [length] in L; try (cbn; ring).
    + assert (p = []) by (destruct p; [auto|cbn in L; lia]). subst. cbn. ring.
    + cbn [nth firstn]. rewrite !peval_cons, (IH p) by lia. cbn [pow]. ring.
Qed.

(** A linear property that holds for one polynomial of each degree below N holds for all polynomials of degree below N. *)
Definition linear_prop (E : (R -> R) -> Prop) : Prop :=
  (forall f g, (forall x, f x = g x) -> E f -> E g) /\ (forall f g, E f -> E g -> E (fun x => f x + g x)) /\ (forall c f, E f -> E (fun x => c * f x)).
Lemma all_degrees (E : (R -> R) -> Prop) N : linear_prop E ->
  (forall k, (k < N)%nat -> exists g c r, E g /\ c <> 0 /\ deg_lt k r /\ forall x, g x = c * x ^ k + r x) ->
  forall f, deg_lt N f -> E f \/ N = 0%nat.
Proof.
  intros [E1 [E2 E3]] H. induction N as [|N IH]; intros f F; [auto|]. left.
  destruct (deg_split N f F) as [a [g [G Eq]]]. destruct (H N ltac:(lia)) as [h [c [r [Hh [Hc [Hr Hx]]]]]].
  (* f = (a/c) h + (g - (a/c) r) *)
  apply (E1 (fun x => a / c * h x + (g x - a / c * r x))).
  - intro x. rewrite Eq, Hx. field. exact Hc.
  - destruct N as [|N'].
    + apply (E1 (fun x => a / c * h x)); [|apply E3; auto]. intro x. rewrite (deg_0 _ G), (deg_0 _ Hr). ring.
    + apply E2; [apply E3; auto|]. destruct (IH (fun k Hk => H k ltac:(lia)) (fun x => g x - a / c * r x)) as [X|X]; [|exact X|discriminate].
      apply deg_minus; auto. apply deg_scal. auto.
Qed.

(** * Legendre polynomials *)
Fixpoint leg2 (n : nat) : list R * list R :=   (* (P_n, P_{n+1}) *)
  match n with
  | O => ([1], [0; 1])
  | S k => let '(p, q) := leg2 k in
           (q, padd (pscal ((2 * INR k + 3) / (INR k + 2)) (0 :: q)) (pscal (- (INR k + 1) / (INR k + 2)) p))
  end.
Definition leg (n : nat) : list R := fst (leg2 n).
Definition L (n : nat) (x : R) : R := peval (leg n) x.
Definition L' (n : nat) (x : R) : R := peval (pderiv (leg n)) x.
Lemma leg2_snd n : snd (leg2 n) = leg (S n).
Proof. unfold leg. cbn [leg2]. destruct (leg2 n). reflexivity. Qed.
Lemma leg_SS n : leg (S (S n)) = padd (pscal ((2 * INR n + 3) / (INR n + 2)) (0 :: leg (S n))) (pscal (- (INR n + 1) / (INR n + 2)) (leg n)).
Proof. rewrite <- leg2_snd. cbn [leg2]. rewrite <- leg2_snd. unfold leg. destruct (leg2 n). reflexivity. Qed.
Lemma L_0 x : L 0 x = 1. Proof. unfold L; cbn. ring. Qed.
Lemma L_1 x : L 1 x = x. Proof. unfold L; cbn. ring. Qed.
Lemma INR_pos2 n : 0 < INR n + 2. Proof. pose proof (pos_INR n). lra. Qed.
(* (n+2) P_{n+2} = (2n+3) x P_{n+1} - (n+1) P_n *)
Lemma L_rec n x : (INR n + 2) * L (S (S n)) x = (2 * INR n + 3) * x * L (S n) x - (INR n + 1) * L n x.
Proof.
  unfold L. rewrite leg_SS, peval_add, !peval_scal, peval_cons. pose proof (INR_pos2 n). field. lra.
Qed.
Lemma pderiv_add : forall p q x, peval (pderiv (padd p q)) x = peval (pderiv p) x + peval (pderiv q) x.
Proof.
  induction p as [|a p IH]; intros [|b q] x; cbn [padd pderiv]; try (cbn; ring).
  rewrite !peval_add, !peval_cons, IH. ring.
Qed.
Lemma pderiv_scal c p x : peval (pderiv (pscal c p)) x = c * peval (pderiv p) x.
Proof.
  induction p as [|a p IH]; [cbn; ring|]. unfold pscal in *. cbn [map pderiv]. rewrite !peval_add, !peval_cons, IH.
  change (map (Rmult c) p) with (pscal c p). rewrite peval_scal. ring.
Qed.
Lemma L'_rec n x : (INR n + 2) * L' (S (S n)) x = (2 * INR n + 3) * (L (S n) x + x * L' (S n) x) - (INR n + 1) * L' n x.
Proof.
  unfold L, L'. rewrite leg_SS, pderiv_add, !pderiv_scal. cbn [pderiv]. rewrite peval_add, peval_cons. pose proof (INR_pos2 n). field. lra.
Qed.
Lemma L'_0 x : L' 0 x = 0. Proof. unfold L'; cbn. ring. Qed.
Lemma L'_1 x : L' 1 x = 1. Proof. unfold L'; cbn. ring. Qed.
(* a: P'_{n+1} = x P'_n + (n+1) P_n ;  b: x P'_{n+1} - P'_n = (n+1) P_{n+1} *)
Lemma L'_ab n x : L' (S n) x = x * L' n x + (INR n + 1) * L n x /\ x * L' (S n) x - L' n x = (INR n + 1) * L (S n) x.
Proof.
  induction n as [|n [A B]].
  - rewrite L'_0, L'_1, L_0, L_1. cbn. split; ring.
  - pose proof (L'_rec n x) as D. pose proof (L_rec n x) as Rc. pose proof (INR_pos2 n) as P. rewrite S_INR.
    assert (A' : L' (S (S n)) x = x * L' (S n) x + (INR n + 1 + 1) * L (S n) x).
    { apply (Rmult_eq_reg_l (INR n + 2)); [|lra]. rewrite D. replace (L' n x) with (x * L' (S n) x - (INR n + 1) * L (S n) x) by lra. ring. }
    split; [exact A'|].
    (* (x^2-1) P'_{n+1} = (n+1) x P_{n+1} - (n+1) P_n *)
    assert (C : x * (x * L' (S n) x) = L' (S n) x - (INR n + 1) * L n x + (INR n + 1) * x * L (S n) x).
    { replace (x * L' (S n) x) with (L' n x + (INR n + 1) * L (S n) x) by lra. rewrite Rmult_plus_distr_l.
      replace (x * L' n x) with (L' (S n) x - (INR n + 1) * L n x) by lra. ring. }
    rewrite A'. rewrite Rmult_plus_distr_l, C. replace (INR n + 1 + 1) with (INR n + 2) by ring. lra.
Qed.
(* P'_{n+2} - P'_n = (2n+3) P_{n+1} *)
Lemma L'_diff n x : L' (S (S n)) x - L' n x = (2 * INR n + 3) * L (S n) x.
Proof.
  destruct (L'_ab n x) as [A B]. destruct (L'_ab (S n) x) as [A' _]. rewrite S_INR in A'. rewrite A'. lra.
Qed.
Lemma L_at_1 n : L n 1 = 1 /\ L (S n) 1 = 1.
Proof.
  induction n as [|n [A B]]; [rewrite L_0, L_1; auto|]. split; auto. pose proof (L_rec n 1) as Rc. rewrite A, B in Rc. pose proof (INR_pos2 n).
  apply (Rmult_eq_reg_l (INR n + 2)); lra.
Qed.
Lemma L_parity n x : L n (- x) = (-1) ^ n * L n x /\ L (S n) (- x) = (-1) ^ (S n) * L (S n) x.
Proof.
  induction n as [|n [A B]]; [rewrite !L_0, !L_1; cbn; split; ring|]. split; auto. pose proof (L_rec n (- x)) as Rc. pose proof (L_rec n x) as Rd.
  rewrite A, B in Rc. pose proof (INR_pos2 n). apply (Rmult_eq_reg_l (INR n + 2)); [|lra]. rewrite Rc. cbn [pow].
  replace ((INR n + 2) * (-1 * (-1 * (-1) ^ n) * L (S (S n)) x)) with ((-1) ^ n * ((INR n + 2) * L (S (S n)) x)) by ring. rewrite Rd. ring.
Qed.
Lemma L_at_m1 n : L n (-1) = (-1) ^ n.
Proof. replace (-1) with (- (1)) at 1 by ring. rewrite (proj1 (L_parity n 1)), (proj1 (L_at_1 n)). ring. Qed.
(* beyond the interval the polynomials do not vanish *)
Lemma L_ge_1 n x : 1 <= x -> 1 <= L n x /\ L n x <= L (S n) x.
Proof.
  intro H. induction n as [|n [A B]]; [rewrite L_0, L_1; lra|]. split; [lra|]. pose proof (L_rec n x) as Rc. pose proof (pos_INR n).
  apply (Rmult_le_reg_l (INR n + 2)); [lra|]. rewrite Rc.
  assert (L (S n) x <= x * L (S n) x) by nra. nra.
Qed.
Lemma L_nonzero n x : 1 <= Rabs x -> L n x <> 0.
Proof.
  intro H. destruct (Rle_dec 0 x) as [P|P].
  - rewrite Rabs_right in H by lra. destruct (L_ge_1 n x H). lra.
  - rewrite Rabs_left in H by lra. destruct (L_ge_1 n (- x) H) as [G _]. intro Z. rewrite (proj1 (L_parity n x)), Z in G. lra.
Qed.
(* leading coefficient *)
Lemma L_lead n : exists c r, 0 < c /\ deg_lt n r /\ forall x, L n x = c * x ^ n + r x.
Proof.
  assert (H : forall n, (exists c r, 0 < c /\ deg_lt n r /\ forall x, L n x = c * x ^ n + r x) /\
                        (exists c r, 0 < c /\ deg_lt (S n) r /\ forall x, L (S n) x = c * x ^ (S n) + r x)).
  { clear n. induction n as [|n [A B]].
    - split; [exists 1, (fun _ => 0)|exists 1, (fun _ => 0)]; (split; [lra|]); (split; [apply deg_zero|]); intro x; [rewrite L_0|rewrite L_1]; cbn; ring.
    - split; auto. destruct A as [c [r [C [D E]]]]. destruct B as [c' [r' [C' [D' E']]]]. pose proof (INR_pos2 n) as P. pose proof (pos_INR n) as P0.
      exists ((2 * INR n + 3) / (INR n + 2) * c'), (fun x => (2 * INR n + 3) / (INR n + 2) * (x * r' x) - (INR n + 1) / (INR n + 2) * L n x).
      split; [apply Rmult_lt_0_compat; auto; apply Rdiv_lt_0_compat; lra|]. split.
      + apply deg_minus; apply deg_scal; [apply deg_shift; auto|]. apply (deg_ext _ (fun x => c * x ^ n + r x)); [intro; auto|].
        apply deg_plus; [apply deg_scal, (deg_mono (S n)); [lia|apply deg_pow]|apply (deg_mono n); [lia|auto]].
      + intro x. apply (Rmult_eq_reg_l (INR n + 2)); [|lra]. rewrite L_rec, E'. cbn [pow]. field. lra. }
  apply H.
Qed.
Lemma L_deg n : deg_lt (S n) (L n).
Proof.
  destruct (L_lead n) as [c [r [_ [D E]]]]. apply (deg_ext _ (fun x => c * x ^ n + r x)); [intro; auto|].
  apply deg_plus; [apply deg_scal, deg_pow|apply (deg_mono n); [lia|auto]].
Qed.

(** orthogonality to the monomials *)
Lemma L_integral n : is_RInt (L (S n)) (-1) 1 0.
Proof.
  pose proof (pos_INR n) as P.
  set (A := pscal (/ (2 * INR n + 3)) (padd (leg (S (S n))) (pscal (-1) (leg n)))).
  assert (X := is_RInt_antiderivative A (leg (S n)) (-1) 1).
  assert (HA : forall x, peval (pderiv A) x = peval (leg (S n)) x).
  { intro x. unfold A. rewrite pderiv_scal, pderiv_add, pderiv_scal. fold (L' (S (S n)) x) (L' n x) (L (S n) x).
    pose proof (L'_diff n x). replace (L' (S (S n)) x + -1 * L' n x) with ((2 * INR n + 3) * L (S n) x) by lra. field. lra. }
  specialize (X HA). assert (V : peval A 1 - peval A (-1) = 0).
  { unfold A. rewrite !peval_scal, !peval_add, !peval_scal. fold (L (S (S n)) 1) (L n 1) (L (S (S n)) (-1)) (L n (-1)).
    rewrite !L_at_m1, (proj1 (L_at_1 n)), (proj2 (L_at_1 (S n))). cbn [pow]. ring. }
  rewrite V in X. exact X.
Qed.
Lemma L_orth m : forall n, (m < n)%nat -> is_RInt (fun x => x ^ m * L n x) (-1) 1 0.
Proof.
  induction m as [|m IH]; intros n H.
  - destruct n as [|n]; [lia|]. apply (is_RInt_ext (L (S n))); [|apply L_integral]. intros x _. cbn. ring.
  - destruct n as [|n]; [lia|]. assert (H1 := IH n ltac:(lia)). assert (H2 := IH (S (S n)) ltac:(lia)). pose proof (pos_INR n) as P.
    (* x P_{n+1} = ((n+2) P_{n+2} + (n+1) P_n)/(2n+3) *)
    apply (is_RInt_ext (fun x => plus (scal ((INR n + 2) / (2 * INR n + 3)) (x ^ m * L (S (S n)) x)) (scal ((INR n + 1) / (2 * INR n + 3)) (x ^ m * L n x)))).
    + intros x _. unfold plus, scal; cbn. unfold mult; cbn.
      replace ((INR n + 2) / (2 * INR n + 3) * (x ^ m * L (S (S n)) x)) with (x ^ m / (2 * INR n + 3) * ((INR n + 2) * L (S (S n)) x)) by (field; lra).
      rewrite L_rec. field. lra.
    + evar_last. { apply @is_RInt_plus; apply @is_RInt_scal; eassumption. } unfold plus, scal; cbn. unfold mult; cbn. ring.
Qed.
