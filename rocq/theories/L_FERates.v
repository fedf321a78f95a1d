(** Row sums of the absolute values of the discrete gradient and lumped masses: the rates of the nodes. *)
From Coq Require Import Reals List Lia Lra Arith Bool ZArith QArith Qabs Qreals.
From Coquelicot Require Import Coquelicot.
From Verif Require Import Prelude L_Prelude M_Mesh M_Flux M_Boundary L_Boundary M_Quadrature S_Poly L_Poly S_Quadrature L_Quadrature M_Misc M_FE L_Lagrange L_FE L_NewtonCotes P_FE P_FEMatrix P_FELow.
Import ListNotations.
Close Scope Q_scope.
Open Scope R_scope.

Lemma delta_eq i : delta i i = 1. Proof. unfold delta. rewrite Nat.eqb_refl. reflexivity. Qed.
Lemma delta_ne i j : i <> j -> delta i j = 0. Proof. intro H. unfold delta. destruct (Nat.eqb_spec i j); [contradiction|reflexivity]. Qed.
Lemma delta_cases i j : delta i j = 0 \/ delta i j = 1. Proof. unfold delta. destruct (Nat.eqb i j); auto. Qed.
Lemma sum_abs_le k f : Rabs (rsum (tab k f)) <= rsum (tab k (fun i => Rabs (f i))).
Proof. induction k as [|k IH]; [unfold tab; cbn; rewrite Rabs_R0; lra|]. rewrite !rsum_tab_S. eapply Rle_trans; [apply Rabs_triang|]. lra. Qed.
(** at most one summand is not zero *)
Lemma sum_abs_inj k (f g : nat -> nat) (G : nat -> R) j : (forall a b, (a < k)%nat -> (b < k)%nat -> g a = g b -> a = b) ->
  Rabs (rsum (tab k (fun b => delta j (g b) * G b))) = rsum (tab k (fun b => delta j (g b) * Rabs (G b))).
Proof.
  induction k as [|k IH]; intro H; [unfold tab; cbn; apply Rabs_R0|]. rewrite !rsum_tab_S. destruct (Nat.eq_dec j (g k)) as [E|E].
  - rewrite !rsum_tab_0.
    + rewrite E, delta_eq, !Rplus_0_l, !Rmult_1_l. reflexivity.
    + intros b Hb. rewrite delta_ne; [ring|]. intro Q. assert (b = k) by (apply H; [lia|lia|congruence]). lia.
    + intros b Hb. rewrite delta_ne; [ring|]. intro Q. assert (b = k) by (apply H; [lia|lia|congruence]). lia.
  - rewrite !(delta_ne j (g k)), !Rmult_0_l, !Rplus_0_r by auto. apply IH. intros. apply H; auto; lia.
Qed.
Lemma sum_ge_two k (f : nat -> R) a b : (forall i, (i < k)%nat -> 0 <= f i) -> (a < k)%nat -> (b < k)%nat -> a <> b -> f a + f b <= rsum (tab k f).
Proof.
  intros Hf Ha Hb Hab. apply Rle_trans with (rsum (tab k (fun i => delta i a * f i + delta i b * f i))).
  - rewrite rsum_tab_plus, (sum_delta k a f), (sum_delta k b f) by auto. lra.
  - apply rsum_tab_le. intros i Hi. specialize (Hf i Hi). destruct (Nat.eq_dec i a) as [->|N1]; [rewrite delta_eq, (delta_ne a b) by auto; lra|].
    destruct (Nat.eq_dec i b) as [->|N2]; [rewrite delta_eq, (delta_ne b a) by auto; lra|]. rewrite !delta_ne by auto. lra.
Qed.

Lemma sum_first k g : (0 < k)%nat -> rsum (tab k g) = g 0%nat + rsum (tab (k - 1) (fun i => g (S i))).
Proof. destruct k as [|k]; [lia|]. intros _. rewrite rsum_tab_S'. cbn [Nat.sub]. rewrite Nat.sub_0_r. reflexivity. Qed.

Section Rates.
Context (D : interval) (n : nat) (m : mesh) (p : nat) (s : fespace).
Hypothesis Hn : (2 <= n)%nat.
Hypothesis HD : ia D < ib D.
Hypothesis Hp : (0 < p)%nat.
Hypothesis Em : new_mesh D n = Ok m.
Hypothesis Es : new_fespace m p = Ok s.
Let Hn' : (0 < n)%nat. Proof. lia. Qed.
Let num c a := fs_number s c a.
Lemma num_is c a : (c < n)%nat -> (a <= p)%nat -> num c a = if Nat.eqb (c * p + a) (n * p) then 0%nat else (c * p + a)%nat.
Proof. apply (num_val D n m p s Hn' HD Hp Em Es). Qed.
Definition prev (c : nat) : nat := match c with O => (n - 1)%nat | S c => c end.
Lemma prev_lt c : (c < n)%nat -> (prev c < n)%nat. Proof. destruct c; cbn; lia. Qed.
Lemma prev_ne c : (c < n)%nat -> prev c <> c. Proof. destruct c; cbn; lia. Qed.
Lemma num_prev c : (c < n)%nat -> num (prev c) p = (c * p)%nat.
Proof.
  intro Hc. rewrite num_is by (auto using prev_lt). destruct c as [|c]; cbn [prev].
  - replace ((n - 1) * p + p)%nat with (n * p)%nat by nia. rewrite Nat.eqb_refl. reflexivity.
  - destruct (Nat.eqb_spec (c * p + p) (n * p)); [nia|nia].
Qed.
Lemma num_first c : (c < n)%nat -> num c 0 = (c * p)%nat.
Proof. intro Hc. rewrite num_is by lia. destruct (Nat.eqb_spec (c * p + 0) (n * p)); nia. Qed.
Lemma unique_pos c a c' a' : (c * p + a = c' * p + a')%nat -> (a < p)%nat -> (a' < p)%nat -> c = c' /\ a = a'.
Proof.
  intros E Ha Ha'. assert (C : c = c'). { destruct (lt_eq_lt_dec c c') as [[Q|Q]|Q]; [exfalso; nia|auto|exfalso; nia]. } subst. split; lia.
Qed.
Lemma delta_interior c a c' a' : (c < n)%nat -> (0 < a < p)%nat -> (c' < n)%nat -> (a' <= p)%nat -> delta (c * p + a) (num c' a') = delta c' c * delta a' a.
Proof.
  intros Hc Ha Hc' Ha'. rewrite num_is by auto.
  destruct (Nat.eq_dec a' p) as [->|Np].
  { rewrite (delta_ne p a), Rmult_0_r by lia. apply delta_ne. destruct (Nat.eqb_spec (c' * p + p) (n * p)); [lia|]. intro Q.
    replace (c' * p + p)%nat with (S c' * p + 0)%nat in Q by nia. apply unique_pos in Q; lia. }
  destruct (Nat.eqb_spec (c' * p + a') (n * p)); [nia|].
  destruct (Nat.eq_dec c' c) as [->|N1]; [destruct (Nat.eq_dec a' a) as [->|N2]|].
  - rewrite !delta_eq. ring.
  - rewrite (delta_ne a' a) by auto. rewrite delta_ne by lia. ring.
  - rewrite (delta_ne c' c) by auto. rewrite delta_ne; [ring|]. intro Q. apply unique_pos in Q; lia.
Qed.
Lemma delta_vertex c c' a' : (c < n)%nat -> (c' < n)%nat -> (a' <= p)%nat -> delta (c * p) (num c' a') = delta c' c * delta a' 0 + delta c' (prev c) * delta a' p.
Proof.
  intros Hc Hc' Ha'.
  destruct (Nat.eq_dec a' p) as [->|Np].
  - rewrite (delta_ne p 0), delta_eq by lia. destruct (Nat.eq_dec c' (prev c)) as [->|N].
    + rewrite num_prev, !delta_eq by auto. ring.
    + rewrite (delta_ne c' (prev c)) by auto. rewrite delta_ne; [ring|]. rewrite num_is by auto. destruct (Nat.eqb_spec (c' * p + p) (n * p)) as [Q|Q].
      * destruct c as [|c]; [exfalso; apply N; cbn; nia|nia].
      * destruct c as [|c]; [nia|]. cbn [prev] in N. intro Q'. apply N. nia.
  - rewrite (delta_ne a' p), Rmult_0_r, Rplus_0_r by auto. rewrite num_is by auto. destruct (Nat.eqb_spec (c' * p + a') (n * p)); [nia|].
    destruct (Nat.eq_dec c' c) as [->|N1]; [destruct (Nat.eq_dec a' 0) as [->|N2]|].
    + rewrite Nat.add_0_r, !delta_eq. ring.
    + rewrite (delta_ne a' 0) by auto. rewrite delta_ne by lia. ring.
    + rewrite (delta_ne c' c) by auto. rewrite delta_ne; [ring|]. intro Q. replace (c * p)%nat with (c * p + 0)%nat in Q by lia. apply unique_pos in Q; lia.
Qed.
Lemma num_inj c a b : (c < n)%nat -> (a <= p)%nat -> (b <= p)%nat -> num c a = num c b -> a = b.
Proof.
  intros Hc Ha Hb. rewrite !num_is by auto. destruct (Nat.eqb_spec (c * p + a) (n * p)), (Nat.eqb_spec (c * p + b) (n * p)); intro; nia.
Qed.
Lemma pick_interior c a F : (c < n)%nat -> (0 < a < p)%nat -> rsum (tab n (fun c' => rsum (tab (S p) (fun a' => delta (c * p + a) (num c' a') * F c' a')))) = F c a.
Proof.
  intros Hc Ha. rewrite (sum_ext _ _ (fun c' => delta c' c * F c' a)).
  - apply (sum_delta n c (fun c' => F c' a)). exact Hc.
  - intros c' Hc'. rewrite (sum_ext _ _ (fun a' => delta c' c * (delta a' a * F c' a'))); [|intros a' Ha'; rewrite delta_interior by (auto; lia); ring].
    rewrite rsum_tab_scal, (sum_delta (S p) a (fun a' => F c' a')) by lia. reflexivity.
Qed.
Lemma pick_vertex c F : (c < n)%nat -> rsum (tab n (fun c' => rsum (tab (S p) (fun a' => delta (c * p) (num c' a') * F c' a')))) = F c 0%nat + F (prev c) p.
Proof.
  intro Hc. rewrite (sum_ext _ _ (fun c' => delta c' c * F c' 0%nat + delta c' (prev c) * F c' p)).
  - rewrite rsum_tab_plus, (sum_delta n c (fun c' => F c' 0%nat)), (sum_delta n (prev c) (fun c' => F c' p)) by auto using prev_lt. reflexivity.
  - intros c' Hc'. rewrite (sum_ext _ _ (fun a' => delta c' c * (delta a' 0 * F c' a') + delta c' (prev c) * (delta a' p * F c' a'))); [|intros a' Ha'; rewrite delta_vertex by (auto; lia); ring].
    rewrite rsum_tab_plus, !rsum_tab_scal, (sum_delta (S p) 0 (fun a' => F c' a')), (sum_delta (S p) p (fun a' => F c' a')) by lia. reflexivity.
Qed.

Context (G : nat -> nat -> R) (C : mat).
Hypothesis HC : forall i j, C i j = rsum (tab n (fun c => rsum (tab (S p) (fun a => delta i (num c a) * rsum (tab (S p) (fun b => delta j (num c b) * G a b)))))).
Hypothesis SK : forall i j, C i j = - C j i.
Hypothesis ENDS : G 0%nat 0%nat + G p p = 0.
Lemma row_interior c a j : (c < n)%nat -> (0 < a < p)%nat -> C (c * p + a)%nat j = rsum (tab (S p) (fun b => delta j (num c b) * G a b)).
Proof. intros. rewrite HC. apply (pick_interior c a (fun c a => rsum (tab (S p) (fun b => delta j (num c b) * G a b)))); auto. Qed.
Lemma row_vertex c j : (c < n)%nat -> C (c * p)%nat j = rsum (tab (S p) (fun b => delta j (num c b) * G 0%nat b)) + rsum (tab (S p) (fun b => delta j (num (prev c) b) * G p b)).
Proof. intros. rewrite HC. apply (pick_vertex c (fun c a => rsum (tab (S p) (fun b => delta j (num c b) * G a b)))); auto. Qed.
Lemma sum_nodes k (f : nat -> R) c : (c < n)%nat -> (forall b, (b < k)%nat -> (f b = f b)) -> (k <= S p)%nat ->
  rsum (tab (n * p) (fun j => rsum (tab k (fun b => delta j (num c b) * f b)))) = rsum (tab k f).
Proof.
  intros Hc _ Hk. rewrite rsum_tab_swap. apply sum_ext. intros b Hb. apply (sum_delta (n * p) (num c b) (fun _ => f b)).
  apply (num_lt D n m p s Hn' HD Hp Em Es); [exact Hc|lia].
Qed.
Lemma interior_sum c a : (c < n)%nat -> (0 < a < p)%nat -> rsum (tab (n * p) (fun j => Rabs (C (c * p + a)%nat j))) = rsum (tab (S p) (fun b => Rabs (G a b))).
Proof.
  intros Hc Ha. rewrite (sum_ext _ _ (fun j => rsum (tab (S p) (fun b => delta j (num c b) * Rabs (G a b))))).
  - apply (sum_nodes (S p) (fun b => Rabs (G a b))); auto.
  - intros j Hj. rewrite row_interior by auto. apply (sum_abs_inj (S p) (fun x => x) (num c) (G a) j). intros x y Hx Hy. apply num_inj; auto; lia.
Qed.
Lemma vertex_upper c : (c < n)%nat -> rsum (tab (n * p) (fun j => Rabs (C (c * p)%nat j))) <= rsum (tab p (fun b => Rabs (G 0%nat (S b)))) + rsum (tab p (fun b => Rabs (G p b))).
Proof.
  intro Hc. assert (Hc' := prev_lt c Hc).
  apply Rle_trans with (rsum (tab (n * p) (fun j => rsum (tab p (fun b => delta j (num c (S b)) * Rabs (G 0%nat (S b)))) + rsum (tab p (fun b => delta j (num (prev c) b) * Rabs (G p b)))))).
  - apply rsum_tab_le. intros j Hj. rewrite row_vertex by auto. rewrite (rsum_tab_S' p), (rsum_tab_S p).
    rewrite num_first, num_prev by auto.
    replace (delta j (c * p) * G 0%nat 0%nat + rsum (tab p (fun i => delta j (num c (S i)) * G 0%nat (S i))) + (rsum (tab p (fun i => delta j (num (prev c) i) * G p i)) + delta j (c * p) * G p p))
      with (rsum (tab p (fun i => delta j (num c (S i)) * G 0%nat (S i))) + rsum (tab p (fun i => delta j (num (prev c) i) * G p i)) + delta j (c * p) * (G 0%nat 0%nat + G p p)) by ring.
    rewrite ENDS, Rmult_0_r, Rplus_0_r. eapply Rle_trans; [apply Rabs_triang|]. apply Rplus_le_compat; (eapply Rle_trans; [apply sum_abs_le|]; apply rsum_tab_le; intros b Hb; rewrite Rabs_mult);
    (match goal with |- context [Rabs (delta ?x ?y)] => destruct (delta_cases x y) as [-> | ->] end; rewrite ?Rabs_R0, ?Rabs_R1; lra).
  - rewrite rsum_tab_plus. right. f_equal.
    + rewrite rsum_tab_swap. apply sum_ext. intros b Hb. apply (sum_delta (n * p) (num c (S b)) (fun _ => Rabs (G 0%nat (S b)))). apply (num_lt D n m p s Hn' HD Hp Em Es); [exact Hc|lia].
    + apply (sum_nodes p (fun b => Rabs (G p b))); auto.
Qed.
Lemma vertex_lower c : (c < n)%nat -> rsum (tab (p - 1) (fun b => Rabs (G (S b) 0%nat) + Rabs (G (S b) p))) <= rsum (tab (n * p) (fun j => Rabs (C (c * p)%nat j))).
Proof.
  intro Hc. assert (Hc' := prev_lt c Hc). rewrite rsum_tab_block.
  set (f := fun c'' => rsum (tab p (fun a => Rabs (C (c * p)%nat (c'' * p + a)%nat)))).
  assert (F0 : forall i, (i < n)%nat -> 0 <= f i) by (intros; apply rsum_tab_nonneg; intros; apply Rabs_pos).
  eapply Rle_trans; [|apply (sum_ge_two n f c (prev c) F0 Hc Hc'); intro Q; apply (prev_ne c Hc); auto].
  rewrite rsum_tab_plus.
  assert (X : forall c'', rsum (tab (p - 1) (fun b => Rabs (C (c'' * p + S b)%nat (c * p)%nat))) <= f c'').
  { intro c''. unfold f. rewrite (sum_first p) by auto. pose proof (Rabs_pos (C (c * p)%nat (c'' * p + 0)%nat)).
    assert (Y : rsum (tab (p - 1) (fun b => Rabs (C (c'' * p + S b)%nat (c * p)%nat))) = rsum (tab (p - 1) (fun i => Rabs (C (c * p)%nat (c'' * p + S i)%nat)))); [|lra].
    apply sum_ext. intros b Hb. rewrite (SK (c * p)%nat), Rabs_Ropp. reflexivity. }
  apply Rplus_le_compat.
  - eapply Rle_trans; [|apply X]. right. apply sum_ext. intros b Hb. rewrite row_interior by (auto; lia). f_equal.
    rewrite (sum_ext _ _ (fun b' => delta b' 0 * G (S b) b')).
    + symmetry. apply (sum_delta (S p) 0 (fun b' => G (S b) b')). lia.
    + intros b' Hb'. rewrite delta_vertex by (auto; lia). rewrite delta_eq, (delta_ne c (prev c)) by (intro Q; apply (prev_ne c Hc); auto). ring.
  - eapply Rle_trans; [|apply X]. right. apply sum_ext. intros b Hb. rewrite row_interior by (auto; lia). f_equal.
    rewrite (sum_ext _ _ (fun b' => delta b' p * G (S b) b')).
    + symmetry. apply (sum_delta (S p) p (fun b' => G (S b) b')). lia.
    + intros b' Hb'. rewrite delta_vertex by (auto; lia). rewrite delta_eq, (delta_ne (prev c) c) by (apply prev_ne; auto). ring.
Qed.

(** all rates lie between L/h and U/h *)
Context (W : nat -> R) (mass : list R) (h U L : R).
Hypothesis Hh : 0 < h.
Hypothesis HW : forall a, (a <= p)%nat -> 0 < W a.
Hypothesis LM : length mass = (n * p)%nat.
Hypothesis HM : forall i, (i < n * p)%nat -> nth i mass 0 = rsum (tab n (fun c => rsum (tab (S p) (fun a => delta i (num c a) * (h * W a))))).
Hypothesis B1 : forall a, (0 < a < p)%nat -> L * W a <= rsum (tab (S p) (fun b => Rabs (G a b))) <= U * W a.
Hypothesis B2 : rsum (tab p (fun b => Rabs (G 0%nat (S b)))) + rsum (tab p (fun b => Rabs (G p b))) <= U * (W 0%nat + W p).
Hypothesis B3 : L * (W 0%nat + W p) <= rsum (tab (p - 1) (fun b => Rabs (G (S b) 0%nat) + Rabs (G (S b) p))).
Lemma rate_between i : (i < n * p)%nat -> L / h <= rsum (tab (length mass) (fun j => Rabs (C i j))) / nth i mass 0 <= U / h.
Proof.
  intro Hi. rewrite LM.
  assert (X : exists w, 0 < w /\ nth i mass 0 = h * w /\ L * w <= rsum (tab (n * p) (fun j => Rabs (C i j))) <= U * w).
  { rewrite HM by auto. set (c := (i / p)%nat). set (a := (i mod p)%nat).
    assert (Ep : p <> 0%nat) by lia. assert (Hi' := Nat.div_mod i p Ep). assert (Ha := Nat.mod_upper_bound i p Ep). fold c a in Hi', Ha.
    assert (Hc : (c < n)%nat) by (apply Nat.div_lt_upper_bound; lia). rewrite Nat.mul_comm in Hi'.
    destruct (Nat.eq_dec a 0) as [Z|Z].
    - replace i with (c * p)%nat by lia. exists (W 0%nat + W p). split; [assert (0 < W 0%nat) by (apply HW; lia); assert (0 < W p) by (apply HW; lia); lra|].
      split; [rewrite (pick_vertex c (fun _ a => h * W a)) by auto; ring|]. split; [eapply Rle_trans; [exact B3|apply vertex_lower; auto]|eapply Rle_trans; [apply vertex_upper; auto|exact B2]].
    - rewrite Hi'. exists (W a). split; [apply HW; lia|]. split; [rewrite (pick_interior c a (fun _ a => h * W a)) by (auto; lia); ring|].
      rewrite interior_sum by (auto; lia). apply B1. lia. }
  destruct X as [w [Pw [-> [X1 X2]]]]. assert (0 < h * w) by (apply Rmult_lt_0_compat; auto). split.
  - apply (Rmult_le_reg_r (h * w)); [auto|]. replace (L / h * (h * w)) with (L * w) by (field; lra). unfold Rdiv. rewrite Rmult_assoc, Rinv_l by lra. lra.
  - apply (Rmult_le_reg_r (h * w)); [auto|]. replace (U / h * (h * w)) with (U * w) by (field; lra). unfold Rdiv. rewrite Rmult_assoc, Rinv_l by lra. lra.
Qed.
End Rates.

(** ** The integrals of the products of basis functions and derivatives as rational numbers *)
Definition qlin (x y : Q) : list Q := [Qred (- x / (y - x)); Qred (1 / (y - x))]%Q.   (* (X - x) / (y - x) *)
Fixpoint qadd (l k : list Q) : list Q := match l, k with [], _ => k | _, [] => l | a :: l, b :: k => Qred (a + b) :: qadd l k end.
Fixpoint qmul (l k : list Q) : list Q := match l with [] => [] | a :: l => qadd (map (fun b => Qred (a * b)) k) (0%Q :: qmul l k) end.
Definition qnode (p a : nat) : Q := Qred (inject_Z (Z.of_nat a) / inject_Z (Z.of_nat p)).
Definition qbasis (p a : nat) : list Q := fold_left (fun l k => if Nat.eqb k a then l else qmul l (qlin (qnode p k) (qnode p a))) (seq 0 (S p)) [1%Q].
Definition qeval (l : list Q) (x : Q) : Q := fold_right (fun a r => Qred (a + x * r)) 0%Q l.
Definition qsum (k : nat) (f : nat -> Q) : Q := fold_right (fun i r => Qred (f i + r)) 0%Q (seq 0 k).
Definition qinv (k : nat) : Q := (1 # Pos.of_nat k)%Q.
(** integral over [0, 1] of a polynomial; of a product of a polynomial and the derivative of another *)
Definition qint (l : list Q) : Q := qsum (length l) (fun i => (nth i l 0 * qinv (S i))%Q).
Definition qG (l k : list Q) : Q := qsum (length l) (fun i => qsum (length k - 1) (fun j => (nth i l 0 * (inject_Z (Z.of_nat (S j)) * nth (S j) k 0) * qinv (S (i + j)))%Q)).

Lemma Q2R_red x : Q2R (Qred x) = Q2R x. Proof. apply Qeq_eqR, Qred_correct. Qed.
Lemma Q2R_nat k : Q2R (inject_Z (Z.of_nat k)) = INR k. Proof. unfold Q2R, inject_Z. cbn [Qnum Qden]. rewrite <- INR_IZR_INZ. change (IZR (Z.pos 1)) with 1. rewrite Rinv_1. ring. Qed.
Lemma Q2R_qinv k : (0 < k)%nat -> Q2R (qinv k) = 1 / INR k.
Proof. intro H. unfold qinv, Q2R. cbn [Qnum Qden]. rewrite INR_IZR_INZ. rewrite <- (positive_nat_Z (Pos.of_nat k)), Nat2Pos.id by lia. reflexivity. Qed.
Lemma qsum_fold (l : list nat) f : Q2R (fold_right (fun i r => Qred (f i + r)) 0%Q l) = rsum (map (fun i => Q2R (f i)) l).
Proof. induction l as [|i l IH]; cbn [fold_right map]; [unfold Q2R, rsum; cbn; lra|]. rewrite Q2R_red, Q2R_plus, IH. reflexivity. Qed.
Lemma Q2R_sum k f : Q2R (qsum k f) = rsum (tab k (fun i => Q2R (f i))).
Proof. apply qsum_fold. Qed.
Lemma Q2R_nth i l : Q2R (nth i l 0%Q) = nth i (map Q2R l) 0.
Proof. rewrite <- (map_nth Q2R). f_equal. unfold Q2R. cbn. lra. Qed.
Lemma Q2R_eval l x : Q2R (qeval l x) = peval (map Q2R l) (Q2R x).
Proof. induction l as [|a l IH]; cbn [qeval fold_right map]; [unfold Q2R; cbn; lra|]. fold (qeval l x). rewrite Q2R_red, Q2R_plus, Q2R_mult, IH. reflexivity. Qed.
Lemma Q2R_node p a : (0 < p)%nat -> Q2R (qnode p a) = INR a / INR p.
Proof.
  intro Hp. unfold qnode. rewrite Q2R_red, Q2R_div; [rewrite !Q2R_nat; reflexivity|].
  intro Z. apply Qeq_eqR in Z. rewrite Q2R_nat in Z. unfold Q2R in Z. cbn in Z. assert (0 < INR p) by (apply lt_0_INR; lia). lra.
Qed.
Lemma Q2R_abs x : Q2R (Qabs x) = Rabs (Q2R x).
Proof.
  apply Qabs_case; intro H; apply Qle_Rle in H; replace (Q2R 0) with 0 in H by (unfold Q2R; cbn; lra).
  - rewrite Rabs_right by lra. reflexivity.
  - rewrite Q2R_opp, Rabs_left1 by lra. reflexivity.
Qed.

Lemma peval_sum l x : peval l x = rsum (tab (length l) (fun k => nth k l 0 * x ^ k)).
Proof.
  induction l as [|a l IH]; [reflexivity|]. cbn [length]. rewrite rsum_tab_S', peval_cons, IH. cbn [nth pow]. rewrite <- rsum_tab_scal. f_equal; [ring|]. apply sum_ext. intros. ring.
Qed.
Lemma is_RInt_sum k (f : nat -> R -> R) (I : nat -> R) a b : (forall i, (i < k)%nat -> is_RInt (f i) a b (I i)) -> is_RInt (fun x => rsum (tab k (fun i => f i x))) a b (rsum (tab k I)).
Proof.
  induction k as [|k IH]; intro H.
  - apply (is_RInt_ext (fun _ => 0)); [reflexivity|]. unfold tab. cbn [seq map]. change (rsum []) with 0. assert (Y := @is_RInt_const R_NormedModule a b 0). match type of Y with is_RInt _ _ _ ?v => assert (Z : v = 0) by (unfold scal; cbn; unfold mult; cbn; ring); rewrite Z in Y end. exact Y.
  - rewrite rsum_tab_S. apply (is_RInt_ext (fun x => rsum (tab k (fun i => f i x)) + f k x)); [intros; rewrite rsum_tab_S; reflexivity|].
    apply @is_RInt_plus; [apply IH; intros; apply H; lia|apply H; lia].
Qed.
Lemma peval_deriv_sum l x : peval (pderiv l) x = rsum (tab (length l - 1) (fun j => INR (S j) * nth (S j) l 0 * x ^ j)).
Proof.
  assert (A := is_derive_peval l x).
  assert (B : is_derive (peval l) x (rsum (tab (length l) (fun k => nth k l 0 * (INR k * x ^ pred k))))).
  { apply (is_derive_ext (fun x => rsum (tab (length l) (fun k => nth k l 0 * x ^ k)))); [intro; symmetry; apply peval_sum|].
    apply (sum_derive (length l) (fun k x => nth k l 0 * x ^ k) (fun k x => nth k l 0 * (INR k * x ^ pred k)) x). intros i Hi. auto_derive; [auto|]. ring. }
  apply is_derive_unique in A. apply is_derive_unique in B. rewrite A in B. rewrite B. destruct l as [|a l]; [reflexivity|]. cbn [length]. rewrite rsum_tab_S'. cbn [Nat.sub]. rewrite Nat.sub_0_r.
  cbn [INR]. rewrite Rmult_0_l, Rmult_0_r, Rplus_0_l. apply sum_ext. intros j Hj. cbn [pred]. ring.
Qed.

Definition qbasis_ok (p : nat) : bool := forallb (fun a => Nat.eqb (length (qbasis p a)) (S p) && forallb (fun b => Qeq_bool (qeval (qbasis p a) (qnode p b)) (if Nat.eqb a b then 1 else 0)%Q) (seq 0 (S p))) (seq 0 (S p)).
Section Basis.
Context (p : nat).
Hypothesis Hp : (0 < p)%nat.
Hypothesis OK : qbasis_ok p = true.
Lemma ok_at a : (a <= p)%nat -> length (qbasis p a) = S p /\ forall b, (b <= p)%nat -> Q2R (qeval (qbasis p a) (qnode p b)) = delta a b.
Proof.
  intro Ha. unfold qbasis_ok in OK. rewrite forallb_forall in OK. specialize (OK a ltac:(apply in_seq; lia)). apply andb_true_iff in OK as [A B]. apply Nat.eqb_eq in A. split; [exact A|].
  intros b Hb. rewrite forallb_forall in B. specialize (B b ltac:(apply in_seq; lia)). apply Qeq_bool_eq in B. apply Qeq_eqR in B. rewrite B. unfold delta.
  destruct (Nat.eqb a b); unfold Q2R; cbn; lra.
Qed.
Lemma basis_is a x : (a <= p)%nat -> basis_value p a x = peval (map Q2R (qbasis p a)) x.
Proof.
  intro Ha. destruct (ok_at a Ha) as [La Va].
  assert (X := roots_zero (S p) (fun y => basis_value p a y - peval (map Q2R (qbasis p a)) y) (fun i => INR i / INR p)). cbv beta in X.
  assert (Y : basis_value p a x - peval (map Q2R (qbasis p a)) x = 0); [|lra]. apply X.
  - apply deg_minus; [apply basis_deg|]. exists (map Q2R (qbasis p a)). split; [rewrite map_length; lia|reflexivity].
  - intros i j _ _. apply local_nodes_inj. lia.
  - intros i Hi. rewrite basis_nodal by lia. rewrite <- Q2R_node, <- Q2R_eval, Va by lia. lra.
Qed.
Lemma basis_derivative_is a x : (a <= p)%nat -> basis_derivative p a x = peval (pderiv (map Q2R (qbasis p a))) x.
Proof.
  intro Ha. assert (A := basis_deriv p a x). assert (B := is_derive_peval (map Q2R (qbasis p a)) x).
  apply (is_derive_ext _ (basis_value p a)) in B; [|intro; symmetry; apply basis_is; auto].
  apply is_derive_unique in A. apply is_derive_unique in B. congruence.
Qed.
Lemma qint_integral a : (a <= p)%nat -> is_RInt (basis_value p a) 0 1 (Q2R (qint (qbasis p a))).
Proof.
  intro Ha. set (l := qbasis p a). apply (is_RInt_ext (fun x => rsum (tab (length (map Q2R l)) (fun k => nth k (map Q2R l) 0 * x ^ k)))).
  - intros x _. rewrite basis_is, peval_sum by auto. reflexivity.
  - unfold qint. rewrite Q2R_sum, map_length. apply is_RInt_sum. intros i Hi. rewrite Q2R_mult, Q2R_qinv, Q2R_nth by lia. apply @is_RInt_scal. apply pow_integral.
Qed.
Lemma qG_integral a b : (a <= p)%nat -> (b <= p)%nat -> is_RInt (fun x => basis_value p a x * basis_derivative p b x) 0 1 (Q2R (qG (qbasis p a) (qbasis p b))).
Proof.
  intros Ha Hb. set (l := qbasis p a). set (k := qbasis p b).
  apply (is_RInt_ext (fun x => rsum (tab (length l) (fun i => rsum (tab (length k - 1) (fun j => nth i (map Q2R l) 0 * (INR (S j) * nth (S j) (map Q2R k) 0) * x ^ (i + j))))))).
  - intros x _. rewrite basis_is, basis_derivative_is, peval_sum, peval_deriv_sum, !map_length by auto. rewrite sum_prod. apply sum_ext. intros i Hi. apply sum_ext. intros j Hj. rewrite pow_add. fold l k. ring.
  - unfold qG. rewrite Q2R_sum. apply is_RInt_sum. intros i Hi. rewrite Q2R_sum. apply is_RInt_sum. intros j Hj. rewrite !Q2R_mult, Q2R_qinv, !Q2R_nth, Q2R_nat by lia.
    apply @is_RInt_scal. apply pow_integral.
Qed.
End Basis.

(** upper and lower bounds of the rates for the degrees 2 to 7, see [rate_between] *)
Definition rate_max (p : nat) : Q := match p with 2%nat => 5 | 3%nat => 44 # 5 | 4%nat => 162 # 7 | 5%nat => 5296 # 171 | 6%nat => 5333 # 33 | _ => 850754368 # 8054475 end%Q.
Definition rate_min (p : nat) : Q := match p with 2%nat => 2 | 3%nat => 27 # 5 | 4%nat => 52 # 7 | 5%nat => 10025 # 756 | 6%nat => 3380 # 187 | _ => 626017189 # 18790200 end%Q.
Definition rates_ok (p : nat) : bool :=
  let B := map (qbasis p) (seq 0 (S p)) in let W := map qint B in let w a := nth a W 0%Q in
  let M := map (fun l => map (qG l) B) B in let G a b := nth b (nth a M []) 0%Q in
  forallb (fun a => Qle_bool (rate_min p * w a) (qsum (S p) (fun b => Qabs (G a b))) && Qle_bool (qsum (S p) (fun b => Qabs (G a b))) (rate_max p * w a)) (seq 1 (p - 1)) &&
  Qle_bool (qsum p (fun b => Qabs (G 0%nat (S b))) + qsum p (fun b => Qabs (G p b))) (rate_max p * (w 0%nat + w p)) &&
  Qle_bool (rate_min p * (w 0%nat + w p)) (qsum (p - 1) (fun b => Qabs (G (S b) 0%nat) + Qabs (G (S b) p)))%Q &&
  Qeq_bool (G 0%nat 0%nat + G p p)%Q 0%Q.
Lemma basis_checked p : (2 <= p <= 7)%nat -> qbasis_ok p = true.
Proof. intro H. do 8 (destruct p as [|p]; [try lia; vm_compute; reflexivity|]). lia. Qed.
Lemma rates_checked p : (2 <= p <= 7)%nat -> rates_ok p = true.
Proof. intro H. do 8 (destruct p as [|p]; [try lia; vm_compute; reflexivity|]). lia. Qed.

(** ** Degree 1: all rates are the same *)
Lemma rate_degree_1 D n m s (G : nat -> nat -> R) (C : mat) (W : nat -> R) mass h i j : (2 <= n)%nat -> ia D < ib D -> new_mesh D n = Ok m -> new_fespace m 1 = Ok s ->
  (forall i j, C i j = rsum (tab n (fun c => rsum (tab 2 (fun a => delta i (fs_number s c a) * rsum (tab 2 (fun b => delta j (fs_number s c b) * G a b))))))) ->
  G 0%nat 0%nat + G 1%nat 1%nat = 0 -> G 0%nat 1%nat + G 1%nat 0%nat = 0 -> length mass = (n * 1)%nat ->
  (forall i, (i < n * 1)%nat -> nth i mass 0 = rsum (tab n (fun c => rsum (tab 2 (fun a => delta i (fs_number s c a) * (h * W a)))))) ->
  (i < n * 1)%nat -> (j < n * 1)%nat ->
  rsum (tab (length mass) (fun k => Rabs (C i k))) / nth i mass 0 = rsum (tab (length mass) (fun k => Rabs (C j k))) / nth j mass 0.
Proof.
  intros Hn HD Em Es HC D0 D1 LM HM Hi Hj. set (g := G 0%nat 1%nat) in *.
  assert (A : forall i, (i < n * 1)%nat -> nth i mass 0 = h * W 0%nat + h * W 1%nat).
  { intros k Hk. rewrite HM by auto. assert (PV := pick_vertex D n m 1 s Hn HD ltac:(lia) Em Es k (fun _ a => h * W a) ltac:(lia)). rewrite Nat.mul_1_r in PV. exact PV. }
  assert (B : forall c, (c < n)%nat -> rsum (tab (length mass) (fun k => Rabs (C c k))) = if Nat.eqb n 2 then 0 else 2 * Rabs g).
  { intros c Hc. rewrite LM. set (x := fs_number s c 1). set (y := prev n c).
    assert (X : x = if Nat.eqb (S c) n then 0%nat else S c).
    { unfold x. rewrite (num_val D n m 1 s ltac:(lia) HD ltac:(lia) Em Es) by lia. rewrite !Nat.mul_1_r, Nat.add_1_r. reflexivity. }
    assert (Hx : (x < n * 1)%nat) by (rewrite X; destruct (Nat.eqb_spec (S c) n); lia).
    assert (Hy : (y < n * 1)%nat) by (unfold y; destruct c; cbn; lia).
    assert (RV : forall k, C c k = delta k x * g - delta k y * g).
    { intro k. assert (RV := row_vertex D n m 1 s Hn HD ltac:(lia) Em Es G C HC c k Hc). rewrite Nat.mul_1_r in RV. rewrite RV.
      rewrite !(rsum_tab_S 1), !(rsum_tab_S 0). change (rsum (tab 0 _)) with 0. fold x. 
      rewrite (num_first D n m 1 s Hn HD ltac:(lia) Em Es c Hc). rewrite (num_prev D n m 1 s Hn HD ltac:(lia) Em Es c Hc), Nat.mul_1_r.
      rewrite (num_first D n m 1 s Hn HD ltac:(lia) Em Es (prev n c)) by (unfold y in Hy; lia). rewrite Nat.mul_1_r. fold y g.
      replace (G 1%nat 0%nat) with (- g) by lra. replace (G 1%nat 1%nat) with (- G 0%nat 0%nat) by lra. ring. }
    rewrite (sum_ext _ _ (fun k => Rabs (delta k x * g - delta k y * g))) by (intros; rewrite RV; reflexivity).
    destruct (Nat.eqb_spec n 2) as [E|E].
    - assert (x = y). { rewrite X. unfold y. destruct c as [|c]; cbn [prev];
      match goal with |- context[Nat.eqb ?q n] => destruct (Nat.eqb_spec q n) end; lia. }
      apply rsum_tab_0. intros k Hk. replace y with x by auto. rewrite Rminus_eq_0, Rabs_R0. reflexivity.
    - assert (NE : x <> y). { rewrite X. unfold y. destruct c as [|c]; cbn [prev];
      match goal with |- context[Nat.eqb ?q n] => destruct (Nat.eqb_spec q n) end; lia. }
      rewrite (sum_ext _ _ (fun k => delta k x * Rabs g + delta k y * Rabs g)).
      + rewrite rsum_tab_plus, (sum_delta (n * 1) x (fun _ => Rabs g)), (sum_delta (n * 1) y (fun _ => Rabs g)) by auto. ring.
      + intros k Hk. destruct (Nat.eq_dec k x) as [->|N1]; [rewrite delta_eq, (delta_ne x y) by auto; rewrite Rmult_0_l, Rminus_0_r, !Rmult_1_l; ring|].
        rewrite (delta_ne k x) by auto. destruct (delta_cases k y) as [-> | ->]; [rewrite !Rmult_0_l, Rminus_0_r, Rabs_R0; ring|]. rewrite Rmult_0_l, Rmult_1_l, Rminus_0_l, Rabs_Ropp. ring. }
  rewrite !A, !B by lia. reflexivity.
Qed.

(** ** The ratio of the rates of two nodes *)
(** a lower bound of the quotient of the rates of any two nodes *)
Definition rate_ratio (p : nat) : R := match p with 1%nat => 1 | 2%nat => 2 / 5 | 3%nat => 3 / 5 | 4%nat => 8 / 25 | 5%nat => 2 / 5 | 6%nat => 11 / 100 | _ => 3 / 10 end.
Lemma ratio_of_bounds p : (2 <= p <= 7)%nat -> rate_ratio p * Q2R (rate_max p) <= Q2R (rate_min p) /\ 0 < Q2R (rate_max p).
Proof. intro H. do 8 (destruct p as [|p]; [try lia; cbn [rate_ratio rate_max rate_min]; unfold Q2R; cbn [Qnum Qden]; lra|]). lia. Qed.

Theorem rates_ratio : forall eig D n m p s mass C i j, (2 <= n)%nat -> (1 <= p <= 7)%nat -> ia D < ib D -> new_mesh D n = Ok m -> new_fespace m p = Ok s -> eig_ok eig p -> eig_ok eig (p + 1) ->
  lumped_mass eig s = Ok mass -> discrete_gradient eig s = Ok C -> (i < fs_dimension s)%nat -> (j < fs_dimension s)%nat ->
  0 <= rsum (tab (length mass) (fun k => Rabs (C i k))) / nth i mass 0 /\
  rate_ratio p * (rsum (tab (length mass) (fun k => Rabs (C i k))) / nth i mass 0) <= rsum (tab (length mass) (fun k => Rabs (C j k))) / nth j mass 0.
Proof.
  intros eig D n m p s mass C i j Hn Hp HD Em Es HE HE1 EL EC Hi Hj. assert (Hn' : (0 < n)%nat) by lia. assert (Hp' : (0 < p)%nat) by lia.
  assert (Hi0 := Hi). rewrite (s_dim D n m p s Hn' HD Hp' Em Es) in Hi, Hj.
  destruct (lumped_value eig D n m p s (fun a => nth a (weights p) 0) mass Hn' HD Em Es HE1 (fun a Ha => weights_integral p a ltac:(lia) Ha) EL) as [LM HM].
  assert (MP := C37_lumped_masses_positive eig D n m p s mass Hn' HD Em Es HE1 ltac:(lia) EL i Hi0).
  split; [apply Rmult_le_pos; [apply rsum_tab_nonneg; intros; apply Rabs_pos|left; apply Rinv_0_lt_compat; exact MP]|].
  destruct (rule_full eig p Hp' HE) as [Q [EQ [LN [LW [INC [POS EX]]]]]].
  unfold discrete_gradient in EC. rewrite (s_degree D n m p s Hn' HD Hp' Em Es), EQ in EC. injection EC as EC.
  set (G := fun a b => integrate Q (fun x => basis_value p a x * basis_derivative p b x)).
  assert (HC : forall i j, C i j = rsum (tab n (fun c => rsum (tab (S p) (fun a => delta i (fs_number s c a) * rsum (tab (S p) (fun b => delta j (fs_number s c b) * G a b))))))).
  { intros x y. rewrite <- EC. rewrite (asm_matrix D n m p s Hn' HD Hp' Em Es). apply sum_ext. intros c Hc. apply sum_ext. intros a Ha. rewrite <- rsum_tab_scal.
    apply sum_ext. intros b Hb. rewrite (gradient_entry_val D n m p s Hn' HD Hp' Em Es). reflexivity. }
  assert (IG : forall a b, (a <= p)%nat -> (b <= p)%nat -> is_RInt (fun x => basis_value p a x * basis_derivative p b x) 0 1 (G a b)).
  { intros a b Ha Hb. apply EX. apply (deg_mono (S p + p - 1)); [lia|]. apply (deg_prod (S p) p); [apply basis_deg|apply basis_deriv_deg|lia|lia]. }
  assert (GS : forall a b, (a <= p)%nat -> (b <= p)%nat -> G a b + G b a = delta a p * delta b p - delta a 0 * delta b 0).
  { intros a b Ha Hb. assert (X := is_RInt_plus _ _ _ _ _ _ (IG a b Ha Hb) (IG b a Hb Ha)).
    assert (Y : is_RInt (fun x => plus (basis_value p a x * basis_derivative p b x) (basis_value p b x * basis_derivative p a x)) 0 1 (minus (basis_value p a 1 * basis_value p b 1) (basis_value p a 0 * basis_value p b 0))).
    { apply (is_RInt_derive (fun x => basis_value p a x * basis_value p b x)).
      - intros x _. apply (is_derive_ext _ _ _ _ (fun _ => eq_refl)). replace (plus (basis_value p a x * basis_derivative p b x) (basis_value p b x * basis_derivative p a x)) with (basis_derivative p a x * basis_value p b x + basis_value p a x * basis_derivative p b x) by (unfold plus; cbn; ring).
        apply (is_derive_mult (basis_value p a) (basis_value p b)); [apply basis_deriv|apply basis_deriv|intros; apply Rmult_comm].
      - intros x _. apply (@ex_derive_continuous R_AbsRing R_NormedModule).
        assert (DP : forall q, ex_derive (basis_value p q) x) by (intro q; eexists; apply basis_deriv).
        assert (DP' : forall q, ex_derive (basis_derivative p q) x) by (intro q; eexists; apply is_derive_peval).
        apply (@ex_derive_plus R_AbsRing R_NormedModule); apply ex_derive_mult; auto. }
    assert (U := is_RInt_unique _ _ _ _ X). assert (V := is_RInt_unique _ _ _ _ Y). clear X Y. assert (Y := eq_trans (eq_sym U) V). change (G a b + G b a = basis_value p a 1 * basis_value p b 1 - basis_value p a 0 * basis_value p b 0) in Y.
    rewrite Y. rewrite !basis_at_0, !basis_at_1 by lia. unfold delta. reflexivity. }
  assert (ENDS : G 0%nat 0%nat + G p p = 0).
  { assert (X := GS 0%nat 0%nat ltac:(lia) ltac:(lia)). assert (Y := GS p p ltac:(lia) ltac:(lia)). rewrite !delta_eq, (delta_ne 0 p) in X by lia. rewrite !delta_eq, (delta_ne p 0) in Y by lia. lra. }
  destruct (C37_discrete_gradient eig D n m p s Hn' HD Em Es HE) as [C' [EC' [SK _]]].
  assert (QC : C' = C). { unfold discrete_gradient in EC'. rewrite (s_degree D n m p s Hn' HD Hp' Em Es), EQ in EC'. injection EC' as EC'. congruence. } subst C'.
  destruct (Nat.eq_dec p 1) as [->|P1].
  - cbn [rate_ratio]. rewrite Rmult_1_l. right. apply (rate_degree_1 D n m s G C (fun a => nth a (weights 1) 0) mass ((ib D - ia D) / INR n)); auto.
    assert (X := GS 0%nat 1%nat ltac:(lia) ltac:(lia)). rewrite !delta_eq, (delta_ne 0 1), (delta_ne 1 0) in X by lia. lra.
  - assert (P2 : (2 <= p <= 7)%nat) by lia. assert (OB := basis_checked p P2). assert (OR := rates_checked p P2).
    set (B := map (qbasis p) (seq 0 (S p))) in OR. unfold rates_ok in OR. cbv zeta in OR. fold B in OR.
    assert (NB : forall a, (a <= p)%nat -> nth a B [] = qbasis p a).
    { intros a Ha. unfold B. rewrite (nth_map' _ _ _ 0%nat []) by (rewrite seq_length; lia). rewrite seq_nth by lia. reflexivity. }
    assert (LB : length B = S p) by (unfold B; rewrite map_length, seq_length; reflexivity).
    set (w := fun a => nth a (map qint B) 0%Q) in OR. set (g := fun a b => nth b (nth a (map (fun l => map (qG l) B) B) []) 0%Q) in OR.
    assert (Ww : forall a, (a <= p)%nat -> Q2R (w a) = nth a (weights p) 0).
    { intros a Ha. unfold w. rewrite (nth_map' _ _ _ [] 0%Q) by lia. rewrite NB by auto. assert (X := qint_integral p Hp' OB a Ha). assert (Y := weights_integral p a ltac:(lia) Ha).
      apply (@is_RInt_unique R_CompleteNormedModule) in X. apply (@is_RInt_unique R_CompleteNormedModule) in Y. congruence. }
    assert (Gg : forall a b, (a <= p)%nat -> (b <= p)%nat -> Q2R (g a b) = G a b).
    { intros a b Ha Hb. unfold g. rewrite (nth_map' _ _ _ [] []) by lia. rewrite (nth_map' _ _ _ [] 0%Q) by lia. rewrite !NB by auto. assert (X := qG_integral p Hp' OB a b Ha Hb).
      assert (Y := IG a b Ha Hb). apply (@is_RInt_unique R_CompleteNormedModule) in X. apply (@is_RInt_unique R_CompleteNormedModule) in Y. congruence. }
    change (forallb (fun a => Qle_bool (rate_min p * w a) (qsum (S p) (fun b => Qabs (g a b))) && Qle_bool (qsum (S p) (fun b => Qabs (g a b))) (rate_max p * w a)) (seq 1 (p - 1)) &&
      Qle_bool (qsum p (fun b => Qabs (g 0%nat (S b))) + qsum p (fun b => Qabs (g p b))) (rate_max p * (w 0%nat + w p)) &&
      Qle_bool (rate_min p * (w 0%nat + w p)) (qsum (p - 1) (fun b => Qabs (g (S b) 0%nat) + Qabs (g (S b) p)))%Q && Qeq_bool (g 0%nat 0%nat + g p p)%Q 0%Q = true) in OR.
    apply andb_true_iff in OR as [OR _]. apply andb_true_iff in OR as [OR R3]. apply andb_true_iff in OR as [R1 R2].
    assert (SG : forall k a, (a <= p)%nat -> (k <= S p)%nat -> Q2R (qsum k (fun b => Qabs (g a b))) = rsum (tab k (fun b => Rabs (G a b)))).
    { intros k a Ha Hk. rewrite Q2R_sum. apply sum_ext. intros b Hb. rewrite Q2R_abs, Gg by lia. reflexivity. }
    destruct (ratio_of_bounds p P2) as [RB RP].
    set (h := (ib D - ia D) / INR n) in *. assert (Hh : 0 < h) by (apply Rdiv_lt_0_compat; [lra|apply lt_0_INR; lia]).
    assert (RT : forall k, (k < n * p)%nat -> Q2R (rate_min p) / h <= rsum (tab (length mass) (fun j => Rabs (C k j))) / nth k mass 0 <= Q2R (rate_max p) / h).
    { intros k Hk. apply (rate_between D n m p s Hn HD Hp' Em Es G C HC SK ENDS (fun a => nth a (weights p) 0) mass h (Q2R (rate_max p)) (Q2R (rate_min p)) Hh); auto.
      - intros a Ha. apply weights_positive; lia.
      - intros a Ha. rewrite forallb_forall in R1. specialize (R1 a ltac:(apply in_seq; lia)). apply andb_true_iff in R1 as [X Y]. apply Qle_bool_iff in X, Y. apply Qle_Rle in X, Y.
        rewrite Q2R_mult, Ww, SG in X by lia. rewrite Q2R_mult, Ww, SG in Y by lia. auto.
      - apply Qle_bool_iff in R2. apply Qle_Rle in R2. rewrite Q2R_mult, !Q2R_plus, !Ww, (SG p p) in R2 by lia. rewrite Q2R_sum in R2.
        rewrite (sum_ext p (fun i => Q2R (Qabs (g 0%nat (S i)))) (fun b => Rabs (G 0%nat (S b)))) in R2 by (intros b Hb; rewrite Q2R_abs, Gg by lia; reflexivity). exact R2.
      - apply Qle_bool_iff in R3. apply Qle_Rle in R3. rewrite Q2R_mult, Q2R_plus, !Ww, Q2R_sum in R3 by lia.
        rewrite (sum_ext (p - 1) _ (fun b => Rabs (G (S b) 0%nat) + Rabs (G (S b) p))) in R3 by (intros b Hb; rewrite Q2R_plus, !Q2R_abs, !Gg by lia; reflexivity). exact R3. }
    destruct (RT i Hi) as [_ X]. destruct (RT j Hj) as [Y _].
    assert (R0 : 0 < rate_ratio p) by (clear - P2; do 8 (destruct p as [|p]; [try lia; cbn [rate_ratio]; lra|]); lia).
    apply Rle_trans with (rate_ratio p * (Q2R (rate_max p) / h)); [apply Rmult_le_compat_l; lra|]. eapply Rle_trans; [|exact Y].
    unfold Rdiv. rewrite <- Rmult_assoc. apply Rmult_le_compat_r; [left; apply Rinv_0_lt_compat; auto|exact RB].
Qed.
