(** Positive definite systems of linear equations have exactly one solution. *)
From Coq Require Import Reals List Lra Lia Arith.
From Verif Require Import Prelude L_Prelude S_Solve.
Import ListNotations.
Open Scope R_scope.

Lemma tab_sum_S n f : rsum (tab (S n) f) = f 0%nat + rsum (tab n (fun i => f (S i))).
Proof. rewrite tab_S. reflexivity. Qed.
Lemma sum_ext' n (f g : nat -> R) : (forall i, (i < n)%nat -> f i = g i) -> rsum (tab n f) = rsum (tab n g).
Proof. intro H. f_equal. apply tab_ext. exact H. Qed.

Lemma definite_diagonal n M : definite (S n) M -> 0 < M 0%nat 0%nat.
Proof.
  intros [_ H]. specialize (H (fun i => match i with O => 1 | _ => 0 end) 0%nat ltac:(lia) ltac:(lra)).
  unfold form, row in H. rewrite tab_sum_S in H. rewrite tab_sum_S in H.
  rewrite (rsum_tab_0 n (fun i => M 0%nat (S i) * 0)) in H by (intros; ring).
  rewrite (rsum_tab_0 n (fun i => 0 * _)) in H by (intros; ring). lra.
Qed.

(** elimination of the first unknown *)
Definition schur (M : nat -> nat -> R) : nat -> nat -> R := fun i j => M (S i) (S j) - M (S i) 0%nat * M 0%nat (S j) / M 0%nat 0%nat.
Definition back (n : nat) (M : nat -> nat -> R) (b : R) (y : nat -> R) : nat -> R :=
  fun i => match i with O => (b - rsum (tab n (fun j => M 0%nat (S j) * y j))) / M 0%nat 0%nat | S i => y i end.
Lemma back_first n M b y : M 0%nat 0%nat <> 0 -> row (S n) M (back n M b y) 0 = b.
Proof. intro H. unfold row. rewrite tab_sum_S. cbn [back]. field. exact H. Qed.
Lemma back_next n M b y i : M 0%nat 0%nat <> 0 -> row (S n) M (back n M b y) (S i) = M (S i) 0%nat * b / M 0%nat 0%nat + row n (schur M) y i.
Proof.
  intro H. unfold row. rewrite tab_sum_S. cbn [back].
  rewrite (sum_ext' n (fun j => schur M i j * y j) (fun j => M (S i) (S j) * y j + (- M (S i) 0%nat / M 0%nat 0%nat) * (M 0%nat (S j) * y j))).
  - rewrite rsum_tab_plus, rsum_tab_scal. field. exact H.
  - intros j _. unfold schur. field. exact H.
Qed.
Lemma definite_schur n M : definite (S n) M -> definite n (schur M).
Proof.
  intro H. assert (P := definite_diagonal n M H). destruct H as [SY H]. split.
  - intros i j Hi Hj. unfold schur. rewrite (SY (S i) (S j)), (SY (S i) 0%nat), (SY 0%nat (S j)) by lia. field. lra.
  - intros y i Hi Hy. specialize (H (back n M 0 y) (S i) ltac:(lia) Hy). unfold form in H. rewrite tab_sum_S in H. rewrite back_first in H by lra.
    eapply Rlt_eq_compat; [reflexivity|exact H|]. unfold form. rewrite Rmult_0_r, Rplus_0_l. apply sum_ext'. intros k Hk. rewrite back_next by lra. cbn [back]. f_equal. field. lra.
Qed.
Fixpoint eliminate (n : nat) (M : nat -> nat -> R) (b : nat -> R) : nat -> R :=
  match n with
  | O => fun _ => 0
  | S n => back n M (b 0%nat) (eliminate n (schur M) (fun i => b (S i) - M (S i) 0%nat * b 0%nat / M 0%nat 0%nat))
  end.
Lemma definite_solution n : forall M b, definite n M -> forall i, (i < n)%nat -> row n M (eliminate n M b) i = b i.
Proof.
  induction n as [|n IH]; intros M b H i Hi; [lia|]. assert (P := definite_diagonal n M H). cbn [eliminate].
  destruct i as [|i]; [apply back_first; lra|]. rewrite back_next by lra. rewrite IH by (try apply definite_schur; auto; lia). field. lra.
Qed.
Lemma definite_unique n M x y : definite n M -> (forall i, (i < n)%nat -> row n M x i = row n M y i) -> forall i, (i < n)%nat -> x i = y i.
Proof.
  intros [_ H] E i Hi. destruct (Req_dec (x i - y i) 0) as [Z|Z]; [lra|]. exfalso.
  specialize (H (fun k => x k - y k) i Hi Z). unfold form in H. rewrite (rsum_tab_0 n _) in H; [lra|]. intros k Hk.
  replace (row n M (fun k => x k - y k) k) with (row n M x k - row n M y k); [rewrite E by auto; ring|].
  unfold row. rewrite <- rsum_tab_minus. apply sum_ext'. intros. ring.
Qed.
