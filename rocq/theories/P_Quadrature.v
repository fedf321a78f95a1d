(** C43: Gaussian quadrature. *)
From Coq Require Import Reals List Lia Lra Arith Bool.
From Coquelicot Require Import Coquelicot.
From Verif Require Import Prelude L_Prelude S_Poly L_Poly M_Mesh M_Quadrature S_Quadrature L_Flux L_Quadrature.
Import ListNotations.
Open Scope R_scope.

Lemma deg_comp_affine u v n f : deg_lt n f -> deg_lt n (fun x => f (u * x + v)).
Proof.
  intros [p [Lp P]]. apply (deg_ext n (fun x => peval p (u * x + v))); [intro; symmetry; auto|]. clear f P. revert n Lp.
  induction p as [|a p IH]; intros n Lp.
  - apply (deg_ext n (fun _ => 0)); [reflexivity|apply deg_zero].
  - cbn [length] in Lp. destruct n as [|n]; [lia|]. specialize (IH n ltac:(lia)).
    apply (deg_ext (S n) (fun x => a + (u * (x * peval p (u * x + v)) + v * peval p (u * x + v)))).
    + intro x. rewrite peval_cons. ring.
    + apply deg_plus; [apply deg_const; lia|]. apply deg_plus; apply deg_scal; [apply deg_shift; exact IH|apply (deg_mono n); [lia|exact IH]].
Qed.
Lemma integrate_affine q f factor shift : length (q_nodes q) = length (q_weights q) ->
  rsum (map2 Rmult (map (fun w => factor * w) (q_weights q)) (map f (map (fun x => factor * x + shift) (q_nodes q)))) =
  factor * integrate q (fun x => f (factor * x + shift)).
Proof.
  unfold integrate. generalize (q_nodes q) (q_weights q). intros l l'. revert l'.
  induction l as [|x l IH]; intros [|w l'] E; cbn in E; try discriminate; [cbn; ring|]. cbn [map map2]. unfold rsum in *. cbn [fold_right].
  rewrite IH by lia. ring.
Qed.

(** The rule on any interval: n nodes strictly inside in increasing order, positive weights that add
    up to the length, and the integral of every polynomial of degree less than 2n is exact. The
    only hypothesis is that np.linalg.eig diagonalises the given symmetric matrix. *)
Theorem C43_gauss_exact : forall eig n D, (0 < n)%nat -> ia D < ib D ->
  eigen_decomposition n (gw_matrix n) (eig n (gw_matrix n)) ->
  exists Q, gaussian eig n D = Ok Q /\ ieqb (q_domain Q) D = true /\ q_degree Q = n /\ length (q_weights Q) = n /\
  increasing (q_nodes Q) /\ (forall x, In x (q_nodes Q) -> ia D < x < ib D) /\ (forall w, In w (q_weights Q) -> 0 < w) /\
  rsum (q_weights Q) = ib D - ia D /\
  (forall f, deg_lt (2 * n) f -> is_RInt f (ia D) (ib D) (integrate Q f)).
Proof.
  intros eig n D Hn HD HE.
  assert (G : exists Q, gaussian eig n D = Ok Q /\ ieqb (q_domain Q) D = true /\ q_degree Q = n /\ length (q_weights Q) = n /\
    increasing (q_nodes Q) /\ (forall x, In x (q_nodes Q) -> ia D < x < ib D) /\ (forall w, In w (q_weights Q) -> 0 < w) /\
    (forall f, deg_lt (2 * n) f -> is_RInt f (ia D) (ib D) (integrate Q f))).
  { destruct (specific_spec eig n Hn HE) as [Q [E [Q1 [Q2 [Q3 [Q4 [Q5 [Q6 Q7]]]]]]]]. unfold gaussian. rewrite E. cbn [bind].
    destruct (ieqb (q_domain Q) D) eqn:Eq.
    - exists Q. rewrite Q1 in Eq. unfold ieqb in Eq. apply andb_true_iff in Eq. destruct Eq as [Ea Eb].
      destruct (Reqb_spec (ia reference_interval) (ia D)) as [Fa|]; [|discriminate]. destruct (Reqb_spec (ib reference_interval) (ib D)) as [Fb|]; [|discriminate].
      cbn in Fa, Fb. split; [reflexivity|]. split.
      { rewrite Q1. unfold ieqb. cbn [ia ib reference_interval]. rewrite <- Fa, <- Fb. destruct (Reqb_spec (-1) (-1)), (Reqb_spec 1 1); try reflexivity; congruence. }
      
      rewrite <- Fa, <- Fb. split; [exact Q2|]. repeat match goal with |- _ /\ _ => split end; auto.
    - eexists. split; [reflexivity|]. cbn [q_domain q_nodes q_weights]. set (u := (ib D - ia D) / 2). set (s := (ia D + ib D) / 2).
      assert (U : 0 < u) by (unfold u; lra).
      split; [unfold ieqb; destruct (Reqb_spec (ia D) (ia D)), (Reqb_spec (ib D) (ib D)); try reflexivity; congruence|].
      split; [unfold q_degree; cbn [q_nodes]; rewrite map_length; exact Q2|]. split; [rewrite map_length; exact Q3|]. split; [|split; [|split]].
      + intros i j Hij. rewrite map_length in Hij. rewrite !(nth_map' (fun x => u * x + s) (q_nodes Q) _ 0) by lia. pose proof (Q4 i j Hij). nra.
      + intros x Hx. apply in_map_iff in Hx. destruct Hx as [y [<- Hy]]. apply Q5 in Hy. unfold u, s in *. nra.
      + intros x Hx. apply in_map_iff in Hx. destruct Hx as [y [<- Hy]]. apply Q6 in Hy. nra.
      + intros f Df. unfold integrate. cbn [q_nodes q_weights]. rewrite integrate_affine by lia.
        pose proof (Q7 _ (deg_comp_affine u s _ f Df)) as X.
        assert (Ex : exists l, is_RInt f (ia D) (ib D) l).
        { destruct Df as [p [_ P]]. destruct (ex_RInt_peval p (ia D) (ib D)) as [l Hl]. exists l. apply (is_RInt_ext (peval p)); [intros; symmetry; apply P|exact Hl]. }
        destruct Ex as [l Hl].
        assert (Y : is_RInt (fun y => u * f (u * y + s)) (-1) 1 l).
        { apply (is_RInt_comp_lin f u s (-1) 1). replace (u * -1 + s) with (ia D) by (unfold u, s; lra). replace (u * 1 + s) with (ib D) by (unfold u, s; lra). exact Hl. }
        assert (Z : is_RInt (fun y => u * f (u * y + s)) (-1) 1 (u * integrate Q (fun x => f (u * x + s)))) by exact (@is_RInt_scal R_NormedModule _ _ _ u _ X).
        apply (@is_RInt_unique R_CompleteNormedModule) in Y. apply (@is_RInt_unique R_CompleteNormedModule) in Z.
        rewrite Y in Z. rewrite <- Z. exact Hl. }
  destruct G as [Q [G1 [G2 [G3 [G4 [G5 [G6 [G7 G8]]]]]]]]. exists Q. repeat match goal with |- _ /\ _ => split end; auto.
  pose proof (G8 (fun _ => 1) (deg_const (2 * n) 1 ltac:(lia))) as X. apply (@is_RInt_unique R_CompleteNormedModule) in X. rewrite RInt_const in X.
  unfold scal in X; cbn in X; unfold mult in X; cbn in X. unfold integrate in X.
  rewrite Rmult_1_r in X. rewrite X. unfold q_degree in G3. revert G3 G4. generalize (q_nodes Q) (q_weights Q). clear. intros l l' E E'.
  rewrite <- E in E'. clear E. revert l E'. induction l' as [|w l' IH]; intros [|x l] E; cbn in E; try discriminate; [reflexivity|].
  cbn [map map2]. unfold rsum in *. cbn [fold_right]. rewrite (IH l) by lia. ring.
Qed.
Print Assumptions C43_gauss_exact.

(** A quadrature without nodes is refused. *)
Theorem C43_degree_zero_refused : forall eig D, gaussian eig 0 D = Err AssertionError.
Proof. reflexivity. Qed.
Print Assumptions C43_degree_zero_refused.

(* For n = 2 a decomposition exists: eigenvalues -1/sqrt 3 and 1/sqrt 3. *)
Example C43_ex : exists d, eigen_decomposition 2 (gw_matrix 2) d.
Proof.
  set (r := / sqrt 2). assert (R2 : r * r = / 2).
  { unfold r. rewrite <- Rinv_mult. rewrite sqrt_sqrt by lra. reflexivity. }
  exists (fun i => if Nat.eqb i 0 then - gw_beta 0 else gw_beta 0, fun k i => if Nat.eqb k 0 then r else if Nat.eqb i 0 then - r else r).
  split; [|split].
  - intros [|[|k]] [|[|i]] H1 H2; try lia; cbn; ring.
  - intros [|[|k]] [|[|i]] H1 H2; try lia; unfold delta; cbn; nra.
  - intros [|[|k]] [|[|i]] H1 H2; try lia; unfold delta; cbn; nra.
Qed.
