(** C37: the assembled mass matrix, lumped masses and discrete gradient. *)
From Coq Require Import Reals List Lia Lra Arith Bool ZArith.
From Coquelicot Require Import Coquelicot.
From Verif Require Import Prelude L_Prelude M_Mesh L_Mesh M_Boundary M_Quadrature S_Poly L_Poly S_Quadrature L_Flux L_Quadrature P_Quadrature M_Norm L_Norm P_Norm M_Misc M_FE L_Lagrange L_FE L_GaussExist S_FE P_FE.
Import ListNotations.
Open Scope R_scope.

(** the contract of np.linalg.eig for the quadrature rule with n nodes *)
Definition eig_ok (eig : nat -> (nat -> nat -> R) -> (nat -> R) * (nat -> nat -> R)) (n : nat) : Prop :=
  eigen_decomposition n (gw_matrix n) (eig n (gw_matrix n)).
Definition share (s : fespace) (i j : nat) : Prop := share_cell (fs_number s) (m_len (fs_mesh s)) (fs_degree s) i j.

Lemma share_dec s i j : share s i j \/ ~ share s i j.
Proof.
  assert (B : forall P k, (forall x, P x \/ ~ P x) -> (exists x, (x < k)%nat /\ P x) \/ ~ (exists x, (x < k)%nat /\ P x)).
  { intros P k H. induction k as [|k IH]; [right; intros [x [Hx _]]; lia|]. destruct IH as [[x [Hx Px]]|IH]; [left; exists x; split; [lia|auto]|].
    destruct (H k) as [Hk|Hk]; [left; exists k; auto|]. right. intros [x [Hx Px]]. destruct (Nat.eq_dec x k) as [->|]; [auto|]. apply IH. exists x. split; [lia|auto]. }
  destruct (B (fun c => exists a, (a < S (fs_degree s))%nat /\ exists b, (b < S (fs_degree s))%nat /\ (fs_number s c a = i /\ fs_number s c b = j)) (m_len (fs_mesh s))) as [H|H].
  - intro c. apply B. intro a. apply B. intro b. destruct (Nat.eq_dec (fs_number s c a) i), (Nat.eq_dec (fs_number s c b) j); tauto.
  - left. destruct H as [c [Hc [a [Ha [b [Hb [E1 E2]]]]]]]. exists c, a, b. repeat (split; [auto; lia|]). auto.
  - right. intros [c [a [b [Hc [Ha [Hb [E1 E2]]]]]]]. apply H. exists c. split; [auto|]. exists a. split; [lia|]. exists b. split; [lia|auto].
Qed.
Lemma integral_tab n : forall cell f l, (forall c, (c < n)%nat -> is_RInt (f c) (ia (cell c)) (ib (cell c)) (l c)) -> integral_over (tab n cell) f (rsum (tab n l)).
Proof.
  induction n as [|n IH]; intros cell f l H; [apply integral_none|]. rewrite !tab_S. unfold rsum at 1. cbn [fold_right]. fold (rsum (tab n (fun i => l (S i)))).
  apply integral_cell; [apply H; lia|]. apply (IH (fun i => cell (S i)) (fun i => f (S i))). intros c Hc. apply H. lia.
Qed.
Lemma weighted_zero : forall ws l, length ws = length l -> (forall w, In w ws -> 0 < w) -> (forall x, In x l -> 0 <= x) ->
  0 <= rsum (map2 Rmult ws l) /\ (rsum (map2 Rmult ws l) = 0 -> forall x, In x l -> x = 0).
Proof.
  induction ws as [|w ws IH]; intros [|y l] L Hw Hl; try discriminate; [split; [unfold rsum; cbn; lra|intros _ x []]|].
  cbn [map2]. unfold rsum. cbn [fold_right]. fold (rsum (map2 Rmult ws l)).
  destruct (IH l ltac:(cbn in L; lia) (fun v Hv => Hw v (or_intror Hv)) (fun v Hv => Hl v (or_intror Hv))) as [A B].
  assert (0 < w) by (apply Hw; left; auto). assert (0 <= y) by (apply Hl; left; auto). split; [nra|]. intros E.
  assert (rsum (map2 Rmult ws l) = 0) by nra. assert (w * y = 0) by nra. intros x [->|Hx]; [|auto]. apply Rmult_integral in H2. lra.
Qed.
Lemma increasing_nth l : increasing l -> forall i j, (i < length l)%nat -> (j < length l)%nat -> nth i l 0 = nth j l 0 -> i = j.
Proof.
  intros H i j Hi Hj E. destruct (Nat.lt_trichotomy i j) as [A|[A|A]]; auto; exfalso.
  - assert (X := H i j (conj A Hj)). lra.
  - assert (X := H j i (conj A Hi)). lra.
Qed.
Lemma rule_full eig n : (0 < n)%nat -> eig_ok eig n -> exists Q, local_quadrature eig n = Ok Q /\
  length (q_nodes Q) = n /\ length (q_weights Q) = n /\ increasing (q_nodes Q) /\ (forall w, In w (q_weights Q) -> 0 < w) /\
  (forall f, deg_lt (2 * n) f -> is_RInt f 0 1 (integrate Q f)).
Proof.
  intros Hn HE. destruct (C43_gauss_exact eig n {| ia := 0; ib := 1 |} Hn ltac:(cbn; lra) HE) as [Q [E [Q1 [Q2 [Q3 [Q4 [Q5 [Q6 [Q7 Q8]]]]]]]]].
  exists Q. unfold q_degree in Q2. repeat (split; [auto|]). exact Q8.
Qed.

Section Space.
Context (D : interval) (n : nat) (m : mesh) (p : nat) (s : fespace).
Hypothesis Hn : (0 < n)%nat.
Hypothesis HD : ia D < ib D.
Hypothesis Hp : (0 < p)%nat.
Hypothesis Em : new_mesh D n = Ok m.
Hypothesis Es : new_fespace m p = Ok s.
Lemma cells_tab : m_cells m = tab n (fs_cell s).
Proof. destruct (mesh_cells D n m Hn HD Em) as [_ [-> _]]. apply tab_ext. intros c Hc. symmetry. apply (s_cell D n m p s Hn HD Hp Em Es). auto. Qed.
Lemma asm_local e i j : ~ share s i j -> assemble_matrix s e i j = 0.
Proof.
  intro H. rewrite (asm_matrix D n m p s Hn HD Hp Em Es). apply rsum_tab_0. intros c Hc. apply rsum_tab_0. intros a Ha. apply rsum_tab_0. intros b Hb.
  destruct (Nat.eq_dec i (fs_number s c a)) as [E|E]; [|unfold delta; destruct (Nat.eqb_spec i (fs_number s c a)); [congruence|ring]].
  destruct (Nat.eq_dec j (fs_number s c b)) as [F|F]; [|unfold delta at 2; destruct (Nat.eqb_spec j (fs_number s c b)); [congruence|ring]].
  exfalso. apply H. exists c, a, b. rewrite (s_len D n m p s Hn HD Hp Em Es), (s_degree D n m p s Hn HD Hp Em Es). repeat (split; [auto; lia|]). auto.
Qed.
Lemma cell_product Q N (HQ : forall f, deg_lt N f -> is_RInt f 0 1 (integrate Q f)) c f g : (c < n)%nat -> deg_lt N (fun x => f x * g x) ->
  is_RInt (fun x => f (affine_inverse x (fs_cell s c)) * g (affine_inverse x (fs_cell s c))) (ia (fs_cell s c)) (ib (fs_cell s c)) (ilength (fs_cell s c) * integrate Q (fun x => f x * g x)).
Proof.
  intros Hc Hd. destruct (s_step D n m p s Hn HD Hp Em Es c Hc) as [_ HL]. apply cell_integral; [exact HL|].
  apply (is_RInt_ext (fun x => f x * g x)); [|apply HQ; exact Hd]. intros x _. rewrite affine_cancel by lra. reflexivity.
Qed.
End Space.

Theorem C37_mass_matrix : forall eig D n m p s,
  (0 < n)%nat -> ia D < ib D -> new_mesh D n = Ok m -> new_fespace m p = Ok s -> eig_ok eig (p + 1) ->
  exists M, mass_matrix eig s = Ok M /\
  (forall i j, M i j = M j i) /\
  (forall i j, ~ share s i j -> M i j = 0) /\
  (* the bilinear form of the matrix is the L2 product of the elements *)
  (forall v w, integral_over (m_cells m) (fun c x => element s v c x * element s w c x)
     (rsum (tab (fs_dimension s) (fun i => dof v i * rsum (tab (fs_dimension s) (fun j => M i j * dof w j)))))) /\
  (* positive definite *)
  (forall v i, (i < fs_dimension s)%nat -> dof v i <> 0 ->
     0 < rsum (tab (fs_dimension s) (fun i => dof v i * rsum (tab (fs_dimension s) (fun j => M i j * dof v j))))).
Proof.
  intros eig D n m p s Hn HD Em Es HE. assert (Hp := space_degree m p s Es).
  destruct (rule_full eig (p + 1) ltac:(lia) HE) as [Q [EQ [LN [LW [INC [POS EX]]]]]].
  exists (assemble_matrix s (mass_entry s Q)). unfold mass_matrix. rewrite (s_degree D n m p s Hn HD Hp Em Es), EQ. split; [reflexivity|].
  split; [intros; apply (mass_sym D n m p s Hn HD Hp Em Es)|]. split; [intros i j; apply (asm_local D n m p s Hn HD Hp Em Es)|].
  rewrite (s_dim D n m p s Hn HD Hp Em Es). split.
  - intros v w. rewrite (mass_form D n m p s Hn HD Hp Em Es). rewrite (cells_tab D n m p s Hn HD Hp Em Es). apply integral_tab. intros c Hc.
    apply (is_RInt_ext (fun x => local_fun p s v c (affine_inverse x (fs_cell s c)) * local_fun p s w c (affine_inverse x (fs_cell s c)))).
    { intros x _. rewrite !(element_val D n m p s Hn HD Hp Em Es). reflexivity. }
    apply (cell_product D n m p s Hn HD Hp Em Es Q _ EX); [exact Hc|]. apply (deg_mono (S p + S p - 1)); [lia|]. apply deg_prod; try lia; apply local_deg.
  - intros v i Hi Hv. rewrite (mass_form D n m p s Hn HD Hp Em Es).
    assert (NN : forall c, 0 <= integrate Q (fun x => local_fun p s v c x * local_fun p s v c x) /\
       (integrate Q (fun x => local_fun p s v c x * local_fun p s v c x) = 0 -> forall x, In x (q_nodes Q) -> local_fun p s v c x = 0)).
    { intro c. destruct (weighted_zero (q_weights Q) (map (fun x => local_fun p s v c x * local_fun p s v c x) (q_nodes Q))) as [A B].
      - rewrite map_length. lia.
      - exact POS.
      - intros y Hy. apply in_map_iff in Hy. destruct Hy as [x [<- _]]. nra.
      - split; [exact A|]. intros E x Hx. specialize (B E (local_fun p s v c x * local_fun p s v c x) (in_map _ _ _ Hx)). apply Rmult_integral in B. tauto. }
    destruct (num_onto D n m p s Hn HD Hp Em Es i Hi) as [c [a [Hc [Ha E]]]].
    destruct (s_step D n m p s Hn HD Hp Em Es c Hc) as [_ HL].
    assert (T : 0 < ilength (fs_cell s c) * integrate Q (fun x => local_fun p s v c x * local_fun p s v c x)).
    { apply Rmult_lt_0_compat; [exact HL|]. destruct (NN c) as [[A|A] B]; [exact A|]. exfalso. apply Hv.
      assert (Z : forall y, local_fun p s v c y = 0).
      { apply (roots_zero (S p) (local_fun p s v c) (fun k => nth k (q_nodes Q) 0)); [apply local_deg| |].
        - intros j k Hj Hk. apply (increasing_nth _ INC); lia.
        - intros k Hk. apply (B (eq_sym A)). apply nth_In. lia. }
      specialize (Z (INR a / INR p)). unfold local_fun in Z. rewrite (sum_ext _ _ (fun b => delta b a * dof v (fs_number s c b))) in Z by (intros b Hb; rewrite basis_nodal by lia; ring).
      rewrite (sum_delta (S p) a (fun b => dof v (fs_number s c b))) in Z by lia. rewrite <- E. exact Z. }
    assert (G : forall k, (forall c, (c < k)%nat -> (c < n)%nat) -> 0 <= rsum (tab k (fun c => ilength (fs_cell s c) * integrate Q (fun x => local_fun p s v c x * local_fun p s v c x))) /\
      ((c < k)%nat -> 0 < rsum (tab k (fun c => ilength (fs_cell s c) * integrate Q (fun x => local_fun p s v c x * local_fun p s v c x))))).
    { induction k as [|k IH]; intro Hk; [unfold rsum; cbn; split; [lra|lia]|]. rewrite rsum_tab_S.
      assert (Hk' := Hk k (Nat.lt_succ_diag_r k)). destruct (s_step D n m p s Hn HD Hp Em Es k Hk') as [_ HLk]. destruct (IH (fun c H => Hk c (Nat.lt_lt_succ_r _ _ H))) as [A B]. destruct (NN k) as [C _].
      split; [nra|]. intro Hck. destruct (Nat.eq_dec c k) as [->|Nk]; [lra|]. assert (0 < rsum (tab k (fun c => ilength (fs_cell s c) * integrate Q (fun x => local_fun p s v c x * local_fun p s v c x)))) by (apply B; lia). nra. }
    apply (G n); auto.
Qed.

Theorem C37_lumped_masses : forall eig D n m p s,
  (0 < n)%nat -> ia D < ib D -> new_mesh D n = Ok m -> new_fespace m p = Ok s -> eig_ok eig (p + 1) ->
  exists M mass, mass_matrix eig s = Ok M /\ lumped_mass eig s = Ok mass /\ length mass = fs_dimension s /\
  (forall i, (i < fs_dimension s)%nat -> nth i mass 0 = rsum (tab (fs_dimension s) (M i)) /\
     (* the integral of the basis function with number i *)
     integral_over (m_cells m) (element s (unit_vector (fs_dimension s) i)) (nth i mass 0)) /\
  rsum mass = ib D - ia D.
Proof.
  intros eig D n m p s Hn HD Em Es HE. assert (Hp := space_degree m p s Es).
  destruct (C37_mass_matrix eig D n m p s Hn HD Em Es HE) as [M [EM [SYM [_ [FORM _]]]]].
  exists M, (tab (fs_dimension s) (fun i => rsum (tab (fs_dimension s) (M i)))).
  split; [exact EM|]. unfold lumped_mass. rewrite EM. split; [reflexivity|]. split; [apply tab_length|].
  assert (DM := s_dim D n m p s Hn HD Hp Em Es).
  set (one := tab (n * p) (fun _ => 1)).
  assert (D1 : forall j, (j < n * p)%nat -> dof one j = 1).
  { intros j Hj. unfold dof, one. apply (nth_tab (n * p) (fun _ => 1) j 0 Hj). }
  assert (E1 : forall c x, (c < n)%nat -> element s one c x = 1).
  { intros c x Hc. rewrite (element_val D n m p s Hn HD Hp Em Es). unfold local_fun. rewrite <- (basis_partition p (affine_inverse x (fs_cell s c)) Hp). apply sum_ext. intros a Ha.
    rewrite D1 by (apply (num_lt D n m p s Hn HD Hp Em Es); auto; lia). ring. }
  assert (IEXT : forall l f g, integral_over (m_cells m) f l -> (forall c x, (c < n)%nat -> f c x = g c x) -> integral_over (m_cells m) g l).
  { intros l f g H. rewrite (cells_tab D n m p s Hn HD Hp Em Es) in *. revert f g l H. generalize (fs_cell s). clear. induction n as [|k IH]; intros cell f g l H E.
    - inversion H; subst. apply integral_none.
    - rewrite tab_S in *. inversion H; subst. apply integral_cell; [apply (is_RInt_ext (f 0%nat)); [intros; apply E; lia|auto]|]. eapply IH; [eassumption|]. intros c x Hc. apply E. lia. }
  assert (IUNI : forall l l' f, integral_over (m_cells m) f l -> integral_over (m_cells m) f l' -> l = l').
  { generalize (m_cells m). clear. induction l as [|c cs IH]; intros l l' f H H'; inversion H; inversion H'; subst; [reflexivity|]. f_equal; [|eapply IH; eauto].
    match goal with A : is_RInt _ _ _ l1, B : is_RInt _ _ _ l0 |- _ => apply (@is_RInt_unique R_CompleteNormedModule) in A; apply (@is_RInt_unique R_CompleteNormedModule) in B; congruence end. }
  split.
  - intros i Hi. rewrite nth_tab by auto. split; [reflexivity|].
    apply (IEXT _ (fun c x => element s (unit_vector (fs_dimension s) i) c x * element s one c x)).
    + assert (X := FORM (unit_vector (fs_dimension s) i) one). eassert (Y : rsum _ = rsum (tab (fs_dimension s) (M i))); [|rewrite Y in X; exact X].
      rewrite (sum_ext _ _ (fun k => delta k i * rsum (tab (fs_dimension s) (M k)))).
      * apply (sum_delta (fs_dimension s) i (fun k => rsum (tab (fs_dimension s) (M k)))). auto.
      * intros k Hk. unfold dof at 1. unfold unit_vector. rewrite nth_tab by auto. unfold delta. f_equal. apply sum_ext. intros j Hj. rewrite D1 by lia. ring.
    + intros c x Hc. rewrite E1 by auto. ring.
  - assert (X := FORM one one). apply (IEXT _ _ (fun c x => 1)) in X; [|intros; rewrite !E1 by auto; ring].
    transitivity (rsum (tab (fs_dimension s) (fun i => dof one i * rsum (tab (fs_dimension s) (fun j => M i j * dof one j))))).
    { apply sum_ext. intros i Hi. rewrite D1 by lia. rewrite Rmult_1_l. apply sum_ext. intros j Hj. rewrite D1 by lia. ring. }
    apply (IUNI _ _ _ X). rewrite (cells_tab D n m p s Hn HD Hp Em Es).
    replace (ib D - ia D) with (rsum (tab n (fun c => ib (fs_cell s c) - ia (fs_cell s c)))).
    + apply integral_tab. intros c Hc. replace (ib (fs_cell s c) - ia (fs_cell s c)) with (scal (ib (fs_cell s c) - ia (fs_cell s c)) 1) by (unfold scal; cbn; unfold mult; cbn; ring). apply @is_RInt_const.
    + rewrite (sum_ext _ _ (fun _ => (ib D - ia D) / INR n)); [rewrite rsum_tab_const; field; apply not_0_INR; lia|]. intros c Hc. apply (s_step D n m p s Hn HD Hp Em Es c Hc).
Qed.

Theorem C37_discrete_gradient : forall eig D n m p s,
  (0 < n)%nat -> ia D < ib D -> new_mesh D n = Ok m -> new_fespace m p = Ok s -> eig_ok eig p ->
  exists C, discrete_gradient eig s = Ok C /\
  (forall i j, C i j = - C j i) /\
  (forall i, rsum (tab (fs_dimension s) (fun j => C i j)) = 0) /\
  (forall j, rsum (tab (fs_dimension s) (fun i => C i j)) = 0) /\
  (forall i j, ~ share s i j -> C i j = 0) /\
  (* the bilinear form of the matrix is the L2 product of an element with the derivative of another *)
  (forall v w, integral_over (m_cells m) (fun c x => element s v c x * element_derivative s w c x)
     (rsum (tab (fs_dimension s) (fun i => dof v i * rsum (tab (fs_dimension s) (fun j => C i j * dof w j)))))).
Proof.
  intros eig D n m p s Hn HD Em Es HE. assert (Hp := space_degree m p s Es).
  destruct (rule_full eig p Hp HE) as [Q [EQ [LN [LW [INC [POS EX]]]]]].
  exists (assemble_matrix s (gradient_entry s Q)). unfold discrete_gradient. rewrite (s_degree D n m p s Hn HD Hp Em Es), EQ. split; [reflexivity|].
  assert (SK : forall i j, assemble_matrix s (gradient_entry s Q) i j = - assemble_matrix s (gradient_entry s Q) j i) by (intros; apply (gradient_skew D n m p s Hn HD Hp Em Es Q (2 * p) EX); lia).
  split; [exact SK|]. rewrite (s_dim D n m p s Hn HD Hp Em Es).
  assert (RS := gradient_rows D n m p s Hn HD Hp Em Es Q).
  split; [exact RS|]. split.
  { intro j. rewrite (sum_ext _ _ (fun i => (-1) * assemble_matrix s (gradient_entry s Q) j i)) by (intros; rewrite SK; ring). rewrite rsum_tab_scal, RS. ring. }
  split; [intros i j; apply (asm_local D n m p s Hn HD Hp Em Es)|].
  intros v w. rewrite (gradient_form D n m p s Hn HD Hp Em Es). rewrite (cells_tab D n m p s Hn HD Hp Em Es). apply integral_tab. intros c Hc.
  destruct (s_step D n m p s Hn HD Hp Em Es c Hc) as [_ HL].
  apply (is_RInt_ext (fun x => local_fun p s v c (affine_inverse x (fs_cell s c)) * (fun y => / ilength (fs_cell s c) * local_der p s w c y) (affine_inverse x (fs_cell s c)))).
  { intros x _. rewrite (element_val D n m p s Hn HD Hp Em Es), (element_der_val D n m p s Hn HD Hp Em Es). reflexivity. }
  replace (integrate Q (fun x => local_fun p s v c x * local_der p s w c x)) with (ilength (fs_cell s c) * integrate Q (fun x => local_fun p s v c x * (fun y => / ilength (fs_cell s c) * local_der p s w c y) x)).
  - apply (cell_product D n m p s Hn HD Hp Em Es Q _ EX c (local_fun p s v c) (fun y => / ilength (fs_cell s c) * local_der p s w c y)); [exact Hc|]. apply (deg_mono (S p + p - 1)); [lia|].
    apply deg_prod; try lia; [apply local_deg|apply deg_scal, local_der_deg].
  - rewrite <- integrate_scal. apply integrate_ext. intros x _. field. lra.
Qed.

(* The hypotheses can be met on every interval, for every number of cells and every degree. *)
Example C37_ex : forall D n p, (0 < n)%nat -> (0 < p)%nat -> ia D < ib D -> exists eig m s,
  new_mesh D n = Ok m /\ new_fespace m p = Ok s /\ fs_dimension s = (n * p)%nat /\ eig_ok eig p /\ eig_ok eig (p + 1) /\ eig_ok eig (2 ^ p).
Proof.
  intros D n p Hn Hp HD. destruct (eig_exists (p + 1 + 2 ^ p)) as [eig HE]. assert (P2 : (0 < 2 ^ p)%nat) by (clear; induction p; cbn; lia).
  assert (Em := new_mesh_ok D n Hn HD). match type of Em with _ = Ok ?x => set (m := x) in Em end.
  clearbody m.
  assert (ES : exists s, new_fespace m p = Ok s) by (unfold new_fespace, new_gindex; destruct (Nat.ltb_spec 0 p); [|lia]; cbn [bind]; eexists; reflexivity).
  destruct ES as [s Es]. exists eig, m, s. split; [exact Em|]. split; [exact Es|]. split; [apply (s_dim D n m p s Hn HD Hp Em Es)|].
  unfold eig_ok. split; [|split]; apply HE; lia.
Qed.
Print Assumptions C37_mass_matrix.
Print Assumptions C37_lumped_masses.
Print Assumptions C37_discrete_gradient.
