(** C43, continued: the contract of the eigenvalue solver can be met for every size, and the rule does not depend on which
    decomposition the solver returns. *)
From Coq Require Import Reals List Lia Lra Arith Bool.
From Coquelicot Require Import Coquelicot.
From Verif Require Import Prelude L_Prelude M_Mesh M_Quadrature S_Poly L_Poly S_Quadrature L_Flux L_Quadrature P_Quadrature L_Lagrange L_FE L_GaussExist.
Import ListNotations.
Open Scope R_scope.

Theorem C43_decomposition_exists : forall N, exists eig, forall n, (0 < n <= N)%nat -> eigen_decomposition n (gw_matrix n) (eig n (gw_matrix n)).
Proof.
  exact eig_exists.
Qed.

Lemma integrate_tab Q f : length (q_nodes Q) = length (q_weights Q) ->
  integrate Q f = rsum (tab (length (q_nodes Q)) (fun i => nth i (q_weights Q) 0 * f (nth i (q_nodes Q) 0))).
Proof.
  intro H. unfold integrate. rewrite (list_tab 0 (q_weights Q)) at 1. rewrite (list_tab 0 (q_nodes Q)) at 1. rewrite map_tab, <- H, map2_tab. reflexivity.
Qed.
Lemma rprod_nonzero n x y : (forall i, (i < n)%nat -> y <> x i) -> rprod n x y <> 0.
Proof.
  induction n as [|n IH]; intro H; cbn [rprod]; [lra|]. apply Rmult_integral_contrapositive_currified; [apply IH; intros; apply H; lia|]. assert (A := H n ltac:(lia)). lra.
Qed.
Lemma rprod_zero n x y : rprod n x y = 0 -> exists i, (i < n)%nat /\ y = x i.
Proof.
  induction n as [|n IH]; cbn [rprod]; intro H; [lra|]. apply Rmult_integral in H. destruct H as [H|H]; [destruct (IH H) as [i [Hi E]]; exists i; split; [lia|auto]|]. exists n. split; [lia|lra].
Qed.
(** n strictly increasing numbers all among n strictly increasing numbers *)
Lemma increasing_onto n : forall x y : nat -> R, (forall i j, (i < j < n)%nat -> x i < x j) -> (forall i j, (i < j < n)%nat -> y i < y j) ->
  (forall i, (i < n)%nat -> exists j, (j < n)%nat /\ x i = y j) -> forall i, (i < n)%nat -> x i = y i.
Proof.
  intros x y Ix Iy H. destruct (finite_choice 0%nat n (fun i j => (j < n)%nat /\ x i = y j) H) as [s Hs].
  assert (Mono : forall i j, (i < j < n)%nat -> (s i < s j)%nat).
  { intros i j Hij. destruct (Hs i ltac:(lia)) as [A B]. destruct (Hs j ltac:(lia)) as [C D]. assert (X := Ix i j Hij). destruct (Nat.lt_total (s i) (s j)) as [Q|[Q|Q]]; [exact Q| |].
    - rewrite Q in B. lra.
    - assert (Y := Iy (s j) (s i) ltac:(lia)). lra. }
  assert (Lo : forall i, (i < n)%nat -> (i <= s i)%nat).
  { induction i as [|i IH]; intro Hi; [lia|]. assert (A := IH ltac:(lia)). assert (B := Mono i (S i) ltac:(lia)). lia. }
  assert (Up : forall k i, (i < n)%nat -> (k = n - 1 - i)%nat -> (s i <= i)%nat).
  { induction k as [|k IH]; intros i Hi E; [assert (A := proj1 (Hs i Hi)); lia|]. assert (A := IH (S i) ltac:(lia) ltac:(lia)). assert (B := Mono i (S i) ltac:(lia)). lia. }
  intros i Hi. destruct (Hs i Hi) as [A B]. rewrite B. f_equal. assert (C := Lo i Hi). assert (D := Up (n - 1 - i)%nat i Hi eq_refl). lia.
Qed.

(** Gaussian rules are unique *)
Lemma gauss_unique n D Q Q' : (0 < n)%nat ->
  length (q_nodes Q) = n -> length (q_weights Q) = n -> increasing (q_nodes Q) -> (forall w, In w (q_weights Q) -> 0 < w) ->
  length (q_nodes Q') = n -> length (q_weights Q') = n -> increasing (q_nodes Q') ->
  (forall f, deg_lt (2 * n) f -> is_RInt f (ia D) (ib D) (integrate Q f)) -> (forall f, deg_lt (2 * n) f -> is_RInt f (ia D) (ib D) (integrate Q' f)) ->
  q_nodes Q = q_nodes Q' /\ q_weights Q = q_weights Q'.
Proof.
  intros Hn LN LW IN PW LN' LW' IN' EX EX'.
  set (x := fun i => nth i (q_nodes Q) 0). set (x' := fun i => nth i (q_nodes Q') 0). set (w := fun i => nth i (q_weights Q) 0). set (w' := fun i => nth i (q_weights Q') 0).
  assert (Same : forall f, deg_lt (2 * n) f -> rsum (tab n (fun i => w i * f (x i))) = rsum (tab n (fun i => w' i * f (x' i)))).
  { intros f Df. assert (A := EX f Df). assert (B := EX' f Df). rewrite integrate_tab in A, B by congruence. rewrite LN in A. rewrite LN' in B.
    apply (@is_RInt_unique R_CompleteNormedModule) in A. apply (@is_RInt_unique R_CompleteNormedModule) in B. unfold x, x', w, w'. congruence. }
  destruct (rprod_lead n x) as [r [Dr Er]]. destruct (rprod_lead n x') as [r' [Dr' Er']].
  set (h := fun y => r y - r' y). assert (Dh : deg_lt n h) by (apply deg_minus; auto).
  assert (Dx : deg_lt (S n) (rprod n x')) by (apply (deg_ext _ (fun y => y ^ n + r' y)); [intro; auto|]; apply deg_plus; [apply deg_pow|apply (deg_mono n); [lia|auto]]).
  assert (Z : rsum (tab n (fun i => w i * (h (x i) * h (x i)))) = 0).
  { assert (A := Same (fun y => rprod n x' y * h y) ltac:(apply (deg_mono (S n + n - 1)); [lia|]; apply deg_prod; auto; lia)).
    cbv beta in A. rewrite (rsum_tab_0 n (fun i => w' i * (rprod n x' (x' i) * h (x' i)))) in A by (intros i Hi; rewrite rprod_root by auto; ring).
    transitivity (- rsum (tab n (fun i => w i * (rprod n x' (x i) * h (x i))))); [|rewrite A; ring].
    transitivity ((-1) * rsum (tab n (fun i => w i * (rprod n x' (x i) * h (x i))))); [|ring]. rewrite <- rsum_tab_scal. apply sum_ext. intros i Hi.
    assert (B := rprod_root n x i Hi). rewrite Er in B. rewrite Er'. unfold h. replace (x i ^ n) with (- r (x i)) by lra. ring. }
  assert (Wp : forall i, (i < n)%nat -> 0 < w i) by (intros i Hi; apply PW, nth_In; lia).
  assert (Hz : forall i, (i < n)%nat -> h (x i) = 0).
  { intros i Hi. assert (G : w i * (h (x i) * h (x i)) <= rsum (tab n (fun i => w i * (h (x i) * h (x i))))).
    { rewrite <- (sum_delta n i (fun i => w i * (h (x i) * h (x i))) Hi). apply rsum_tab_le. intros k Hk. assert (P := Wp k Hk). unfold delta. assert (0 <= w k * (h (x k) * h (x k))) by (apply Rmult_le_pos; nra). destruct (Nat.eqb k i); lra. }
    rewrite Z in G. assert (P := Wp i Hi). assert (h (x i) * h (x i) <= 0) by nra. nra. }
  assert (XX : forall i, (i < n)%nat -> x i = x' i).
  { apply increasing_onto; [intros; apply IN; lia|intros; apply IN'; lia|]. intros i Hi. apply rprod_zero. rewrite Er'. assert (A := Hz i Hi). unfold h in A. assert (B := rprod_root n x i Hi). rewrite Er in B. lra. }
  assert (WW : forall i, (i < n)%nat -> w i = w' i).
  { intros i Hi. set (z := fun j => if Nat.ltb j i then x j else x (S j)).
    destruct (rprod_lead (n - 1) z) as [rz [Dz Ez]].
    assert (A := Same (rprod (n - 1) z) ltac:(apply (deg_mono n); [lia|]; apply (deg_ext _ (fun y => y ^ (n - 1) + rz y)); [intro; auto|]; replace n with (S (n - 1)) at 1 by lia; apply deg_plus; [apply deg_pow|apply (deg_mono (n - 1)); [lia|auto]])).
    assert (K : forall u : nat -> R, rsum (tab n (fun k => u k * rprod (n - 1) z (x k))) = u i * rprod (n - 1) z (x i)).
    { intro u. rewrite (rsum_tab_single n _ i Hi); [reflexivity|]. intros k Hk Nk. replace (x k) with (z (if Nat.ltb k i then k else k - 1)%nat).
      - rewrite rprod_root; [ring|]. destruct (Nat.ltb_spec k i); lia.
      - unfold z. destruct (Nat.ltb_spec k i); [destruct (Nat.ltb_spec k i); [auto|lia]|]. destruct (Nat.ltb_spec (k - 1) i); [lia|]. f_equal. lia. }
    rewrite K in A. rewrite (sum_ext n _ (fun k => w' k * rprod (n - 1) z (x k))) in A by (intros k Hk; rewrite XX by auto; reflexivity). rewrite K in A.
    apply (Rmult_eq_reg_r (rprod (n - 1) z (x i))); [exact A|]. apply rprod_nonzero. intros k Hk E. unfold z in E. destruct (Nat.ltb_spec k i).
    - assert (B := IN k i ltac:(lia)). unfold x in E. lra.
    - assert (B := IN i (S k) ltac:(lia)). unfold x in E. lra. }
  split; apply (nth_ext _ _ 0 0); try congruence; intros i Hi; [apply XX|apply WW]; lia.
Qed.
Theorem C43_rule_independent_of_solver : forall eig eig' n D, (0 < n)%nat -> ia D < ib D ->
  eigen_decomposition n (gw_matrix n) (eig n (gw_matrix n)) -> eigen_decomposition n (gw_matrix n) (eig' n (gw_matrix n)) ->
  exists Q Q', gaussian eig n D = Ok Q /\ gaussian eig' n D = Ok Q' /\ q_nodes Q = q_nodes Q' /\ q_weights Q = q_weights Q'.
Proof.
  intros eig eig' n D Hn HD HE HE'.
  destruct (C43_gauss_exact eig n D Hn HD HE) as [Q [E [_ [Q2 [Q3 [Q4 [_ [Q6 [_ Q8]]]]]]]]].
  destruct (C43_gauss_exact eig' n D Hn HD HE') as [Q' [E' [_ [P2 [P3 [P4 [_ [P6 [_ P8]]]]]]]]].
  exists Q, Q'. split; [exact E|]. split; [exact E'|]. apply (gauss_unique n D Q Q'); auto.
Qed.
Print Assumptions C43_decomposition_exists.
Print Assumptions C43_rule_independent_of_solver.
