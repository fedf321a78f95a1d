(** C55: the continuous Galerkin scheme (finite_element/scalar/solver/cg.py). *)
From Coq Require Import Reals List Lra Lia Arith.
From Coquelicot Require Import Coquelicot.
From Verif Require Import Prelude L_Prelude M_Mesh M_Quadrature M_FE S_Poly S_Quadrature S_FE S_Solve L_Flux L_Poly L_Lagrange L_Solve L_FE P_FE P_FEMatrix.
Import ListNotations.
Open Scope R_scope.

(** the flux entering the scheme: of the finite element with exact quadrature, the interpolated flux otherwise *)
Definition scheme_flux (pr : problem) (exact : bool) (s : fespace) (u : list R) (c : nat) (x : R) : R :=
  match pr, exact with
  | Burgers, true => flux_of Burgers (element s u c x)
  | _, _ => element s (map (flux_of pr) u) c x
  end.

Lemma nth_repeat_lt (x d : R) n i : (i < n)%nat -> nth i (repeat x n) d = x.
Proof. revert i. induction n as [|n IH]; intros [|i] H; try lia; cbn; [reflexivity|apply IH; lia]. Qed.
Lemma integral_change cs f g l : integral_over cs f l -> (forall c x, (c < length cs)%nat -> f c x = g c x) -> integral_over cs g l.
Proof.
  intro H. revert g. induction H as [f|c cs f l1 l2 H H' IH]; intros g E; [constructor|]. constructor.
  - apply (is_RInt_ext (f 0%nat)); [intros; apply E; cbn; lia|exact H].
  - apply IH. intros k x Hk. apply E. cbn. lia.
Qed.
Lemma integral_unique cs f l l' : integral_over cs f l -> integral_over cs f l' -> l = l'.
Proof.
  intro H. revert l'. induction H as [f|c cs f l1 l2 H H' IH]; intros l' K; inversion K as [|? ? ? k1 k2 J J']; subst; [reflexivity|]. f_equal; [|apply IH; assumption].
  apply (@is_RInt_unique R_CompleteNormedModule) in H. apply (@is_RInt_unique R_CompleteNormedModule) in J. congruence.
Qed.

Section Space.
Context (D : interval) (n : nat) (m : mesh) (p : nat) (s : fespace).
Hypothesis Hn : (0 < n)%nat.
Hypothesis HD : ia D < ib D.
Hypothesis Hp : (0 < p)%nat.
Hypothesis Em : new_mesh D n = Ok m.
Hypothesis Es : new_fespace m p = Ok s.
Notation NP := (n * p)%nat.

Lemma fast_local points v c k : (k < length points)%nat -> fast_value s points v c k = local_fun p s v c (nth k points 0).
Proof.
  intro Hk. unfold fast_value, local_dofs, fast_basis, local_fun. rewrite (s_locals D n m p s Hn HD Hp Em Es), (s_degree D n m p s Hn HD Hp Em Es).
  rewrite map_tab. fold (tab (S p) (fun a => dof v (fs_number s c a))). rewrite map2_tab. apply sum_ext. intros a Ha. f_equal. rewrite (nth_map' _ _ _ 0 _) by exact Hk. reflexivity.
Qed.
Lemma flux_entry Q f u c a : length (q_weights Q) = length (q_nodes Q) -> (a <= p)%nat ->
  flux_gradient_entry s Q f u c a = integrate Q (fun x => f (local_fun p s u c x) * basis_derivative p a x).
Proof.
  intros HL Ha. unfold flux_gradient_entry, integrate. do 2 f_equal. rewrite (list_tab 0 (map _ (q_nodes Q))), map_length. apply tab_ext. intros k Hk.
  rewrite fast_local by auto. rewrite (nth_map' _ _ _ 0 _) by exact Hk. f_equal.
  unfold fast_basis_derivative. rewrite (s_degree D n m p s Hn HD Hp Em Es), nth_tab by lia. rewrite (nth_map' _ _ _ 0 _) by exact Hk. reflexivity.
Qed.
Lemma flux_form Q f u v : length (q_weights Q) = length (q_nodes Q) ->
  rsum (tab NP (fun i => dof v i * nth i (assemble_vector s (flux_gradient_entry s Q f u)) 0)) =
  rsum (tab n (fun c => integrate Q (fun x => f (local_fun p s u c x) * local_der p s v c x))).
Proof.
  intro HL.
  rewrite (sum_ext _ _ (fun i => rsum (tab n (fun c => rsum (tab (S p) (fun a => delta i (fs_number s c a) * (dof v i * flux_gradient_entry s Q f u c a))))))).
  2:{ intros i Hi. rewrite (asm_vector D n m p s Hn HD Hp Em Es) by auto. rewrite <- rsum_tab_scal. apply sum_ext. intros c Hc. rewrite <- rsum_tab_scal. apply sum_ext. intros; ring. }
  rewrite rsum_tab_swap. apply sum_ext. intros c Hc. rewrite rsum_tab_swap.
  rewrite (sum_ext _ _ (fun a => integrate Q (fun x => f (local_fun p s u c x) * (dof v (fs_number s c a) * basis_derivative p a x)))).
  - rewrite <- integrate_sum. apply integrate_ext. intros x _. rewrite rsum_tab_scal. reflexivity.
  - intros a Ha. rewrite (dof_sum D n m p s Hn HD Hp Em Es c a (fun i => dof v i * flux_gradient_entry s Q f u c a)) by (auto; lia).
    rewrite flux_entry by (auto; lia). rewrite <- integrate_scal. apply integrate_ext. intros; ring.
Qed.
Lemma constant_element c x : (c < n)%nat -> element s (repeat 1 NP) c x = 1.
Proof.
  intro Hc. rewrite (element_val D n m p s Hn HD Hp Em Es). unfold local_fun. transitivity (rsum (tab (S p) (fun a => basis_value p a (affine_inverse x (fs_cell s c))))); [|apply (basis_partition p _ Hp)]. apply sum_ext. intros a Ha.
  unfold dof. rewrite nth_repeat_lt by (apply (num_lt D n m p s Hn HD Hp Em Es); auto; lia). ring.
Qed.
Lemma constant_derivative c x : (c < n)%nat -> element_derivative s (repeat 1 NP) c x = 0.
Proof.
  intro Hc. rewrite (element_der_val D n m p s Hn HD Hp Em Es). unfold local_der.
  rewrite (sum_ext _ _ (fun a => basis_derivative p a (affine_inverse x (fs_cell s c)))).
  - rewrite basis_derivative_sum by auto. ring.
  - intros a Ha. unfold dof. rewrite nth_repeat_lt by (apply (num_lt D n m p s Hn HD Hp Em Es); auto; lia). ring.
Qed.
Lemma zero_integral cs : integral_over cs (fun _ _ => 0) 0.
Proof.
  induction cs as [|c cs IH]; [constructor|]. assert (X := integral_cell c cs (fun _ _ => 0) 0 0). rewrite Rplus_0_r in X. apply X; [|exact IH].
  assert (Y := @is_RInt_const R_NormedModule (ia c) (ib c) 0). unfold scal in Y. cbn in Y. unfold mult in Y. cbn in Y. rewrite Rmult_0_r in Y. exact Y.
Qed.
(** Burgers' flux of a finite element is integrated exactly *)
Lemma burgers_degree v c : deg_lt (2 * p + 1) (fun x => flux_of Burgers (local_fun p s v c x)).
Proof.
  cbn [flux_of]. assert (A : deg_lt (S p + S p - 1) (fun x => local_fun p s v c x * local_fun p s v c x)) by (apply deg_prod; try lia; apply local_deg).
  apply (deg_scal _ (1/2)) in A. destruct A as [l [L E]]. exists l. split; [lia|]. intro x. rewrite <- E. ring.
Qed.
Lemma pow_enough : (3 * p <= 2 * 2 ^ p)%nat.
Proof. destruct p as [|q]; [lia|]. clear. induction q as [|q IH]; [cbn; lia|]. change (2 ^ S (S q))%nat with (2 * 2 ^ S q)%nat. destruct q; [cbn; lia|]. lia. Qed.
Lemma exact_integral Q v u (HQ : forall f, deg_lt (2 * 2 ^ p) f -> is_RInt f 0 1 (integrate Q f)) :
  integral_over (m_cells m) (fun c x => element_derivative s v c x * flux_of Burgers (element s u c x))
    (rsum (tab n (fun c => integrate Q (fun x => flux_of Burgers (local_fun p s u c x) * local_der p s v c x)))).
Proof.
  rewrite (cells_tab D n m p s Hn HD Hp Em Es). apply integral_tab. intros c Hc. destruct (s_step D n m p s Hn HD Hp Em Es c Hc) as [_ HL].
  set (f := fun y => flux_of Burgers (local_fun p s u c y)). set (g := fun y => / ilength (fs_cell s c) * local_der p s v c y).
  apply (is_RInt_ext (fun x => f (affine_inverse x (fs_cell s c)) * g (affine_inverse x (fs_cell s c)))).
  { intros x _. unfold f, g. rewrite (element_val D n m p s Hn HD Hp Em Es), (element_der_val D n m p s Hn HD Hp Em Es). apply Rmult_comm. }
  replace (integrate Q (fun x => flux_of Burgers (local_fun p s u c x) * local_der p s v c x)) with (ilength (fs_cell s c) * integrate Q (fun x => f x * g x)).
  - apply (cell_product D n m p s Hn HD Hp Em Es Q (2 * 2 ^ p) HQ c f g Hc). apply (deg_mono (2 * p + 1 + p - 1)); [assert (X := pow_enough); lia|].
    apply deg_prod; try lia; [apply burgers_degree|apply deg_scal, local_der_deg].
  - rewrite <- integrate_scal. apply integrate_ext. intros x _. unfold f, g. field. lra.
Qed.
Lemma energy_cell Q u c (HQ : forall f, deg_lt (2 * 2 ^ p) f -> is_RInt f 0 1 (integrate Q f)) :
  integrate Q (fun x => flux_of Burgers (local_fun p s u c x) * local_der p s u c x) = dof u (fs_number s c p) ^ 3 / 6 - dof u (fs_number s c 0) ^ 3 / 6.
Proof.
  apply (integrate_unique Q (2 * 2 ^ p)); [exact HQ| |].
  - apply (deg_mono (2 * p + 1 + p - 1)); [assert (X := pow_enough); lia|]. apply deg_prod; try lia; [apply burgers_degree|apply local_der_deg].
  - rewrite <- (local_at_1 n p s Hn Hp), <- (local_at_0 n p s Hn Hp).
    assert (C : forall h k, deg_lt k h -> forall x, continuous h x).
    { intros h k [l [_ El]] x. apply (continuous_ext (peval l)); [intro; symmetry; auto|apply continuous_peval]. }
    apply (is_RInt_derive (fun x => local_fun p s u c x ^ 3 / 6)).
    + intros x _. assert (X := local_derive p s u c x). cbn [flux_of]. auto_derive; [exists (local_der p s u c x); exact X|]. apply is_derive_unique in X. replace (Derive (fun x0 : R => local_fun p s u c x0) x) with (local_der p s u c x) by (symmetry; exact X). field.
    + intros x _. apply @continuous_mult; [apply (C _ _ (burgers_degree u c))|apply (C _ _ (local_der_deg p s u c))].
Qed.
End Space.

Lemma mass_definite eig D n m p s M : (0 < n)%nat -> ia D < ib D -> new_mesh D n = Ok m -> new_fespace m p = Ok s -> eig_ok eig (p + 1) ->
  mass_matrix eig s = Ok M -> definite (fs_dimension s) M.
Proof.
  intros Hn HD Em Es HE EM. destruct (C37_mass_matrix eig D n m p s Hn HD Em Es HE) as [M' [E [SY [_ [_ PD]]]]]. rewrite EM in E. apply Ok_inj in E. subst M'.
  split; [auto|]. intros x i Hi Hx. specialize (PD (tab (fs_dimension s) x) i Hi). unfold dof in PD. rewrite nth_tab in PD by auto. specialize (PD Hx).
  eapply Rlt_eq_compat; [reflexivity|exact PD|]. unfold form, row. apply sum_ext. intros k Hk. rewrite nth_tab by auto. f_equal. apply sum_ext. intros j Hj. rewrite nth_tab by auto. reflexivity.
Qed.

(** The scheme is the weak form of the equation tested with every finite element; whatever solver is used, the result is the same. *)
Theorem C55_cg_weak_form : forall eig solver D n m p s pr exact u,
  (0 < n)%nat -> ia D < ib D -> new_mesh D n = Ok m -> new_fespace m p = Ok s -> eig_ok eig p -> eig_ok eig (p + 1) -> eig_ok eig (2 ^ p) ->
  solves solver (fs_dimension s) -> length u = fs_dimension s ->
  exists r, cg_rhs eig solver pr s exact u = Ok r /\ length r = fs_dimension s /\
  (forall v, exists l, integral_over (m_cells m) (fun c x => element s v c x * element s r c x) l /\
     integral_over (m_cells m) (fun c x => element_derivative s v c x * scheme_flux pr exact s u c x) l) /\
  (forall solver', solves solver' (fs_dimension s) -> cg_rhs eig solver' pr s exact u = Ok r).
Proof.
  intros eig solver D n m p s pr exact u Hn HD Em Es HE HE1 HE2 HS HU. assert (Hp := space_degree m p s Es).
  destruct (C37_mass_matrix eig D n m p s Hn HD Em Es HE1) as [M [EM [_ [_ [FORM _]]]]].
  assert (PD := mass_definite eig D n m p s M Hn HD Em Es HE1 EM).
  assert (DM := s_dim D n m p s Hn HD Hp Em Es).
  assert (R0 : exists a, build_flux_gradient eig pr s exact u = Ok a /\ length a = fs_dimension s /\
    forall v, integral_over (m_cells m) (fun c x => element_derivative s v c x * scheme_flux pr exact s u c x) (rsum (tab (fs_dimension s) (fun i => dof v i * nth i a 0)))).
  { assert (APP : forall w, exists C, discrete_gradient eig s = Ok C /\ forall v,
      integral_over (m_cells m) (fun c x => element_derivative s v c x * element s w c x) (rsum (tab (fs_dimension s) (fun i => dof v i * nth i (map Ropp (mat_dot (fs_dimension s) C w)) 0)))).
    { intro w. destruct (C37_discrete_gradient eig D n m p s Hn HD Em Es HE) as [C [EC [SK [_ [_ [_ GF]]]]]]. exists C. split; [exact EC|]. intro v.
      specialize (GF w v). apply (integral_change _ _ (fun c x => element_derivative s v c x * element s w c x)) in GF; [|intros; ring].
      eassert (X : rsum _ = _); [|rewrite X in GF; exact GF]. cbv beta.
      rewrite (sum_ext _ _ (fun i => rsum (tab (fs_dimension s) (fun j => dof w i * (C i j * dof v j))))) by (intros; rewrite <- rsum_tab_scal; reflexivity).
      rewrite rsum_tab_swap. apply sum_ext. intros j Hj. rewrite (nth_map' _ _ _ 0 _) by (unfold mat_dot; rewrite tab_length; exact Hj). unfold mat_dot. rewrite nth_tab by auto.
      rewrite (sum_ext _ _ (fun i => (- dof v j) * (C j i * dof w i))) by (intros i Hi; rewrite (SK i j); ring). rewrite rsum_tab_scal. ring. }
    assert (LEN : forall C w, length (map Ropp (mat_dot (fs_dimension s) C w)) = fs_dimension s) by (intros; rewrite map_length; unfold mat_dot; apply tab_length).
    destruct pr; [|destruct exact].
    - destruct (APP u) as [C [EC H]]. eexists. unfold build_flux_gradient, scheme_flux. rewrite EC. cbn [bind flux_gradient_approximation]. split; [reflexivity|]. split; [apply LEN|].
      intro v. replace (map (flux_of Advection) u) with u by (symmetry; apply map_id). apply H.
    - destruct (rule_full eig (2 ^ p) ltac:(clear; induction p; cbn; lia) HE2) as [Q [EQ [LN [LW [_ [_ EX]]]]]].
      eexists. unfold build_flux_gradient, flux_gradient. rewrite (s_degree D n m p s Hn HD Hp Em Es), EQ. cbn [bind]. split; [reflexivity|].
      split; [unfold assemble_vector; apply tab_length|]. intro v. rewrite DM. rewrite (flux_form D n m p s Hn HD Hp Em Es) by lia.
      apply (exact_integral D n m p s Hn HD Hp Em Es Q v u EX).
    - destruct (APP (map (flux_of Burgers) u)) as [C [EC H]]. eexists. unfold build_flux_gradient, scheme_flux. rewrite EC. cbn [bind flux_gradient_approximation]. split; [reflexivity|]. split; [apply LEN|]. exact H. }
  destruct R0 as [a [EA [LA HA]]].
  assert (SOL : forall sv, solves sv (fs_dimension s) -> cg_rhs eig sv pr s exact u = Ok (sv M a) /\ length (sv M a) = fs_dimension s /\
     forall i, (i < fs_dimension s)%nat -> row (fs_dimension s) M (fun j => nth j (sv M a) 0) i = nth i a 0).
  { intros sv Hsv. unfold cg_rhs. rewrite EM, EA. cbn [bind]. split; [reflexivity|]. apply (Hsv M a PD LA). }
  destruct (SOL solver HS) as [E0 [L0 R0]]. exists (solver M a). split; [exact E0|]. split; [exact L0|]. split.
  - intro v. exists (rsum (tab (fs_dimension s) (fun i => dof v i * nth i a 0))). split; [|apply HA].
    assert (X := FORM v (solver M a)). eassert (Y : rsum _ = _); [|rewrite Y in X; exact X]. apply sum_ext. intros i Hi. f_equal. apply (R0 i Hi).
  - intros sv Hsv. destruct (SOL sv Hsv) as [E1 [L1 R1]]. rewrite E1. f_equal. rewrite (list_tab 0 (sv M a)), (list_tab 0 (solver M a)), L0, L1.
    apply tab_ext. apply (definite_unique (fs_dimension s) M (fun j => nth j (sv M a) 0) (fun j => nth j (solver M a) 0) PD). intros i Hi. rewrite R0, R1 by auto. reflexivity.
Qed.

(** The integral of the time derivative of the solution is zero. *)
Theorem C55_cg_conserves : forall eig solver D n m p s pr exact u r,
  (0 < n)%nat -> ia D < ib D -> new_mesh D n = Ok m -> new_fespace m p = Ok s -> eig_ok eig p -> eig_ok eig (p + 1) -> eig_ok eig (2 ^ p) ->
  solves solver (fs_dimension s) -> length u = fs_dimension s -> cg_rhs eig solver pr s exact u = Ok r ->
  integral_over (m_cells m) (element s r) 0.
Proof.
  intros eig solver D n m p s pr exact u r Hn HD Em Es HE HE1 HE2 HS HU ER. assert (Hp := space_degree m p s Es).
  destruct (C55_cg_weak_form eig solver D n m p s pr exact u Hn HD Em Es HE HE1 HE2 HS HU) as [r' [E [_ [W _]]]]. rewrite ER in E. apply Ok_inj in E. subst r'.
  assert (LC : length (m_cells m) = n) by (rewrite (cells_tab D n m p s Hn HD Hp Em Es); apply tab_length).
  destruct (W (repeat 1 (n * p))) as [l [A B]].
  apply (integral_change _ _ (element s r)) in A; [|intros c x Hc; rewrite (constant_element D n m p s Hn HD Hp Em Es) by lia; ring].
  apply (integral_change _ _ (fun _ _ => 0)) in B; [|intros c x Hc; rewrite (constant_derivative D n m p s Hn HD Hp Em Es) by lia; ring].
  rewrite (integral_unique _ _ _ _ B (zero_integral _)) in A. exact A.
Qed.
(** The derivative of half the squared L2 norm is zero for advection and for Burgers with exact quadrature. *)
Theorem C55_cg_energy : forall eig solver D n m p s pr exact u r,
  (0 < n)%nat -> ia D < ib D -> new_mesh D n = Ok m -> new_fespace m p = Ok s -> eig_ok eig p -> eig_ok eig (p + 1) -> eig_ok eig (2 ^ p) ->
  solves solver (fs_dimension s) -> length u = fs_dimension s -> cg_rhs eig solver pr s exact u = Ok r ->
  pr = Advection \/ exact = true ->
  integral_over (m_cells m) (fun c x => element s u c x * element s r c x) 0.
Proof.
  intros eig solver D n m p s pr exact u r Hn HD Em Es HE HE1 HE2 HS HU ER HC. assert (Hp := space_degree m p s Es).
  destruct (C55_cg_weak_form eig solver D n m p s pr exact u Hn HD Em Es HE HE1 HE2 HS HU) as [r' [E [_ [W _]]]]. rewrite ER in E. apply Ok_inj in E. subst r'.
  destruct (W u) as [l [A B]]. assert (Z : l = 0); [|rewrite Z in A; exact A].
  destruct pr; [|destruct HC as [HC|HC]; [discriminate|subst exact]].
  - destruct (C37_discrete_gradient eig D n m p s Hn HD Em Es HE) as [C [EC [SK [_ [_ [_ GF]]]]]].
    apply (integral_change _ _ (fun c x => element s u c x * element_derivative s u c x)) in B.
    2:{ intros c x _. unfold scheme_flux. replace (map (flux_of Advection) u) with u by (symmetry; apply map_id). ring. }
    rewrite (integral_unique _ _ _ _ B (GF u u)). set (X := rsum _). assert (Y : X = - X); [|lra].
    unfold X at 1. rewrite (sum_ext _ _ (fun i => rsum (tab (fs_dimension s) (fun j => dof u i * (C i j * dof u j))))) by (intros; rewrite <- rsum_tab_scal; reflexivity).
    rewrite rsum_tab_swap. replace (- X) with (-1 * X) by ring. unfold X. rewrite <- rsum_tab_scal. apply sum_ext. intros j Hj. rewrite <- !rsum_tab_scal. apply sum_ext. intros i Hi. rewrite (SK i j). ring.
  - destruct (rule_full eig (2 ^ p) ltac:(clear; induction p; cbn; lia) HE2) as [Q [EQ [LN [LW [_ [_ EX]]]]]].
    rewrite (integral_unique _ _ _ _ B (exact_integral D n m p s Hn HD Hp Em Es Q u u EX)).
    rewrite (sum_ext _ _ (fun c => dof u (fs_number s c p) ^ 3 / 6 - dof u (fs_number s c 0) ^ 3 / 6)) by (intros c Hc; apply (energy_cell n m p s Hn Hp Es Q u c EX)).
    apply (ends_cancel D n m p s Hn HD Hp Em Es (fun i => dof u i ^ 3 / 6)).
Qed.

(** The hypotheses can be met for every mesh, degree and state: positive definite systems have solutions. *)
Example C55_ex : forall D n p, (0 < n)%nat -> (0 < p)%nat -> ia D < ib D -> exists eig solver m s,
  new_mesh D n = Ok m /\ new_fespace m p = Ok s /\ eig_ok eig p /\ eig_ok eig (p + 1) /\ eig_ok eig (2 ^ p) /\ solves solver (fs_dimension s).
Proof.
  intros D n p Hn Hp HD. destruct (C37_ex D n p Hn Hp HD) as [eig [m [s [Em [Es [ED [H1 [H2 H3]]]]]]]].
  exists eig, (fun M b => tab (fs_dimension s) (eliminate (fs_dimension s) M (fun i => nth i b 0))), m, s. repeat (split; [assumption|]). intros M b HM HB. split; [apply tab_length|].
  intros i Hi. rewrite <- (definite_solution (fs_dimension s) M (fun i => nth i b 0) HM i Hi). unfold row. apply sum_ext. intros j Hj. rewrite nth_tab by auto. reflexivity.
Qed.
Print Assumptions C55_cg_weak_form.
Print Assumptions C55_cg_conserves.
Print Assumptions C55_cg_energy.
