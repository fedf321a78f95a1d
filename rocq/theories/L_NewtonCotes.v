(** The integrals of the Lagrange basis functions of degree at most 8 (closed Newton-Cotes weights). *)
From Coq Require Import Reals List Lia Lra Arith Bool ZArith.
From Coquelicot Require Import Coquelicot.
From Verif Require Import Prelude L_Prelude M_Mesh M_Quadrature S_Poly L_Poly S_Quadrature L_Quadrature M_FE L_Lagrange L_FE.
Import ListNotations.
Open Scope R_scope.

Lemma pow_integral k : is_RInt (fun x => x ^ k) 0 1 (1 / INR (S k)).
Proof.
  assert (INR (S k) <> 0) by (apply not_0_INR; lia).
  replace (1 / INR (S k)) with (/ INR (S k) * 1 ^ S k - / INR (S k) * 0 ^ S k) by (rewrite pow1, pow_i by lia; field; auto).
  apply (is_RInt_derive (fun x => / INR (S k) * x ^ S k) (fun x => x ^ k)).
  - intros x _. auto_derive; [auto|]. cbn [pred]. change (match k with 0%nat => 1 | S _ => INR k + 1 end) with (INR (S k)). field. auto.
  - intros x _. apply (@ex_derive_continuous R_AbsRing R_NormedModule). auto_derive. auto.
Qed.
Lemma newton_cotes p w : (0 < p)%nat -> length w = S p ->
  (forall k, (k < S p)%nat -> rsum (tab (S p) (fun a => nth a w 0 * (INR a / INR p) ^ k)) = 1 / INR (S k)) ->
  forall a, (a <= p)%nat -> is_RInt (basis_value p a) 0 1 (nth a w 0).
Proof.
  intros Hp Lw H a Ha.
  destruct (all_degrees (fun f => is_RInt f 0 1 (rsum (tab (S p) (fun b => nth b w 0 * f (INR b / INR p))))) (S p)) with (f := basis_value p a) as [X|X]; [| | |rewrite (sum_ext _ _ (fun b => delta b a * nth b w 0)) in X|discriminate].
  - split; [|split].
    + intros f g E F. rewrite (sum_ext _ _ (fun b => nth b w 0 * f (INR b / INR p))) by (intros; rewrite E; ring). apply (is_RInt_ext f); auto.
    + intros f g F G. rewrite (sum_ext _ _ (fun b => nth b w 0 * f (INR b / INR p) + nth b w 0 * g (INR b / INR p))) by (intros; ring). rewrite rsum_tab_plus. apply @is_RInt_plus; auto.
    + intros c f F. rewrite (sum_ext _ _ (fun b => c * (nth b w 0 * f (INR b / INR p)))) by (intros; ring). rewrite rsum_tab_scal. apply @is_RInt_scal; auto.
  - intros k Hk. exists (fun x => x ^ k), 1, (fun _ => 0). split; [rewrite H by auto; apply pow_integral|]. split; [lra|]. split; [apply deg_zero|]. intro; ring.
  - apply basis_deg.
  - rewrite (sum_delta (S p) a (fun b => nth b w 0)) in X by lia. exact X.
  - intros b Hb. rewrite basis_nodal by lia. unfold delta. rewrite (Nat.eqb_sym a b). ring.
Qed.
Definition weights (p : nat) : list R :=
  match p with
  | 1%nat => [1/2; 1/2]
  | 2%nat => [1/6; 4/6; 1/6]
  | 3%nat => [1/8; 3/8; 3/8; 1/8]
  | 4%nat => [7/90; 32/90; 12/90; 32/90; 7/90]
  | 5%nat => [19/288; 75/288; 50/288; 50/288; 75/288; 19/288]
  | 6%nat => [41/840; 216/840; 27/840; 272/840; 27/840; 216/840; 41/840]
  | 7%nat => [751/17280; 3577/17280; 1323/17280; 2989/17280; 2989/17280; 1323/17280; 3577/17280; 751/17280]
  | _ => [989/28350; 5888/28350; -928/28350; 10496/28350; -4540/28350; 10496/28350; -928/28350; 5888/28350; 989/28350]
  end.
Ltac nc k := repeat (destruct k as [|k]; [unfold rsum; cbn [tab map seq fold_right nth pow]; rewrite !INR_IZR_INZ; cbn [Z.of_nat Pos.of_succ_nat Pos.succ]; lra|]); lia.
Lemma weights_integral p a : (0 < p <= 8)%nat -> (a <= p)%nat -> is_RInt (basis_value p a) 0 1 (nth a (weights p) 0).
Proof.
  intros Hp Ha. apply newton_cotes; [lia| | |exact Ha].
  - do 9 (destruct p as [|p]; [reflexivity || lia|]); lia.
  - destruct p as [|p]; [lia|]. intros k Hk.
    destruct p as [|p]; [cbn [weights]; nc k|]. destruct p as [|p]; [cbn [weights]; nc k|]. destruct p as [|p]; [cbn [weights]; nc k|]. destruct p as [|p]; [cbn [weights]; nc k|].
    destruct p as [|p]; [cbn [weights]; nc k|]. destruct p as [|p]; [cbn [weights]; nc k|]. destruct p as [|p]; [cbn [weights]; nc k|]. destruct p as [|p]; [cbn [weights]; nc k|]. lia.
Qed.
Lemma weights_positive p a : (0 < p <= 7)%nat -> (a <= p)%nat -> 0 < nth a (weights p) 0.
Proof.
  intros Hp Ha. do 8 (destruct p as [|p]; [try lia; do 9 (destruct a as [|a]; [try lia; cbn [weights nth]; lra|]); lia|]). lia.
Qed.
