(** Lemmas: the integral of piecewise linear functions whose ends are joined. *)
From Coq Require Import Reals List Arith Lia Lra.
From Coquelicot Require Import Coquelicot.
From Verif Require Import Prelude L_Prelude M_Mesh M_Flux M_Boundary L_Boundary M_Quadrature S_Poly L_Poly S_Quadrature L_Quadrature M_Misc M_FE S_FE L_Lagrange L_FE L_NewtonCotes P_FE P_FEMatrix P_FELow P_FECG P_FERun L_FERates.
Import ListNotations.
Open Scope R_scope.

Lemma linear_mass eig D n m s mass : (0 < n)%nat -> ia D < ib D -> new_mesh D n = Ok m -> new_fespace m 1 = Ok s -> eig_ok eig (1 + 1) -> lumped_mass eig s = Ok mass ->
  length mass = n /\ forall i, (i < n)%nat -> nth i mass 0 = (ib D - ia D) / INR n.
Proof.
  intros Hn HD Em Es HE EL. destruct (C37_lumped_masses eig D n m 1 s Hn HD Em Es HE) as [M [mass' [_ [EL' [LM [_ SM]]]]]]. rewrite EL in EL'. injection EL' as <-.
  rewrite (s_dim D n m 1 s Hn HD ltac:(lia) Em Es), Nat.mul_1_r in LM. split; [exact LM|].
  assert (P : 0 < INR n) by (apply lt_0_INR; lia).
  destruct (Nat.eq_dec n 1) as [->|N1].
  - intros i Hi. replace i with 0%nat by lia. destruct mass as [|x [|y mass]]; try discriminate LM. cbn in SM |- *. rewrite Rplus_0_r in SM. rewrite SM. field.
  - destruct (lumped_value eig D n m 1 s (fun a => nth a (weights 1) 0) mass Hn HD Em Es HE (fun a Ha => weights_integral 1 a ltac:(lia) Ha) EL) as [_ HM].
    assert (A : exists q, forall i, (i < n)%nat -> nth i mass 0 = q).
    { eexists. intros k Hk. rewrite HM by lia.
      assert (PV := pick_vertex D n m 1 s ltac:(lia) HD ltac:(lia) Em Es k (fun _ a => (ib D - ia D) / INR n * nth a (weights 1) 0) Hk). rewrite Nat.mul_1_r in PV. exact PV. }
    destruct A as [q A]. intros i Hi. rewrite (A i Hi). rewrite (list_tab 0 mass), LM in SM.
    rewrite (tab_ext n _ (fun _ => q)) in SM by exact A. rewrite rsum_tab_const in SM. rewrite <- SM. field. lra.
Qed.
Lemma linear_integral eig D n m s v l : (0 < n)%nat -> ia D < ib D -> new_mesh D n = Ok m -> new_fespace m 1 = Ok s -> eig_ok eig (1 + 1) -> length v = n ->
  integral_over (m_cells m) (element s v) l -> l = (ib D - ia D) / INR (length v) * rsum v.
Proof.
  intros Hn HD Em Es HE Lv I. destruct (C37_lumped_masses eig D n m 1 s Hn HD Em Es HE) as [M [mass [_ [EL _]]]].
  destruct (linear_mass eig D n m s mass Hn HD Em Es HE EL) as [LM HM].
  assert (X := element_integral eig D n m 1 s mass v Hn HD Em Es HE EL ltac:(rewrite (s_dim D n m 1 s Hn HD ltac:(lia) Em Es), Nat.mul_1_r; exact Lv)).
  rewrite (integral_unique _ _ _ _ I X). rewrite weighted_sum by lia. rewrite LM, Lv. replace (rsum v) with (rsum (tab n (fun i => nth i v 0))) by (rewrite <- Lv; rewrite <- (list_tab 0 v); reflexivity). rewrite <- rsum_tab_scal. apply sum_ext. intros i Hi. rewrite (HM i Hi). reflexivity.
Qed.
