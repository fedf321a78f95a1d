(** Lemmas about finite element spaces and assembly. *)
From Coq Require Import Reals List Lia Lra Arith Bool ZArith.
From Coquelicot Require Import Coquelicot.
From Verif Require Import Prelude L_Prelude M_Mesh L_Mesh M_Quadrature S_Poly L_Poly S_Quadrature L_Flux L_Quadrature P_Quadrature M_Norm L_Norm M_Misc M_FE L_Lagrange.
Import ListNotations.
Open Scope R_scope.

(** ** sums and loops *)
Lemma fold_add_at {A} (g : A -> nat) (e : A -> R) l : forall v k, fold_left (fun v x => add_at v (g x) (e x)) l v k = v k + rsum (map (fun x => delta k (g x) * e x) l).
Proof.
  induction l as [|x l IH]; intros v k; cbn [fold_left map]; [unfold rsum; cbn; ring|]. rewrite IH. unfold add_at at 1, rsum, delta. cbn [fold_right].
  destruct (Nat.eqb k (g x)); ring.
Qed.
Lemma fold_nested {A V} (step : V -> A -> V) (view : V -> nat -> R) (e : A -> nat -> R) l :
  (forall v x k, In x l -> view (step v x) k = view v k + e x k) -> forall v k, view (fold_left step l v) k = view v k + rsum (map (fun x => e x k) l).
Proof.
  intro H. induction l as [|x l IH]; intros v k; cbn [fold_left map]; [unfold rsum; cbn; ring|]. rewrite IH by (intros; apply H; right; auto). rewrite (H v x k) by (left; auto). unfold rsum. cbn [fold_right]. ring.
Qed.
Lemma fold_add_at2 {A} (g h : A -> nat) (e : A -> R) l : forall m i j, fold_left (fun m x => add_at2 m (g x) (h x) (e x)) l m i j = m i j + rsum (map (fun x => delta i (g x) * (delta j (h x) * e x)) l).
Proof.
  induction l as [|x l IH]; intros m i j; cbn [fold_left map]; [unfold rsum; cbn; ring|]. rewrite IH. unfold add_at2 at 1, rsum, delta. cbn [fold_right].
  destruct (Nat.eqb i (g x)), (Nat.eqb j (h x)); cbn [andb]; ring.
Qed.
Lemma sum_scal_r n c f : rsum (tab n (fun i => f i * c)) = rsum (tab n f) * c.
Proof. rewrite Rmult_comm, <- rsum_tab_scal. f_equal. apply tab_ext. intros; ring. Qed.
Lemma sum_prod n m f g : rsum (tab n f) * rsum (tab m g) = rsum (tab n (fun i => rsum (tab m (fun j => f i * g j)))).
Proof. rewrite <- sum_scal_r. f_equal. apply tab_ext. intros i Hi. rewrite rsum_tab_scal. reflexivity. Qed.
Lemma sum_ext n f g : (forall i, (i < n)%nat -> f i = g i) -> rsum (tab n f) = rsum (tab n g).
Proof. intro H. f_equal. apply tab_ext, H. Qed.

Lemma delta_subst a q (F : nat -> R) : delta a q * F q = delta a q * F a.
Proof. unfold delta. destruct (Nat.eqb_spec a q) as [->|]; ring. Qed.

(** ** quadrature *)
Lemma integrate_ext Q f g : (forall x, In x (q_nodes Q) -> f x = g x) -> integrate Q f = integrate Q g.
Proof. intro H. unfold integrate. do 2 f_equal. apply map_ext_in. auto. Qed.
Lemma integrate_scal Q c f : integrate Q (fun x => c * f x) = c * integrate Q f.
Proof.
  unfold integrate. generalize (q_weights Q). induction (q_nodes Q) as [|x l IH]; intros [|w l']; cbn [map map2]; unfold rsum in *; cbn [fold_right]; try ring. rewrite IH. ring.
Qed.
Lemma integrate_plus Q f g : integrate Q (fun x => f x + g x) = integrate Q f + integrate Q g.
Proof.
  unfold integrate. generalize (q_weights Q). induction (q_nodes Q) as [|x l IH]; intros [|w l']; cbn [map map2]; unfold rsum in *; cbn [fold_right]; try ring. rewrite IH. ring.
Qed.
Lemma integrate_zero Q : integrate Q (fun _ => 0) = 0.
Proof. rewrite (integrate_ext Q _ (fun _ => 0 * 0)) by (intros; ring). rewrite integrate_scal. ring. Qed.
Lemma integrate_sum Q n F : integrate Q (fun x => rsum (tab n (fun i => F i x))) = rsum (tab n (fun i => integrate Q (F i))).
Proof.
  induction n as [|n IH]; [apply integrate_zero|]. rewrite rsum_tab_S, <- IH, <- integrate_plus. apply integrate_ext. intros. apply rsum_tab_S.
Qed.
Lemma rule_local eig n : (0 < n)%nat -> eigen_decomposition n (gw_matrix n) (eig n (gw_matrix n)) -> exists Q, local_quadrature eig n = Ok Q /\
  length (q_weights Q) = length (q_nodes Q) /\ (forall w, In w (q_weights Q) -> 0 < w) /\
  (forall f, deg_lt (2 * n) f -> is_RInt f 0 1 (integrate Q f)).
Proof.
  intros Hn HE. destruct (C43_gauss_exact eig n {| ia := 0; ib := 1 |} Hn ltac:(cbn; lra) HE) as [Q [E [Q1 [Q2 [Q3 [Q4 [Q5 [Q6 [Q7 Q8]]]]]]]]].
  exists Q. unfold q_degree in Q2. split; [exact E|]. split; [lia|]. split; [auto|]. exact Q8.
Qed.
Lemma integrate_unique Q N f l : (forall f, deg_lt N f -> is_RInt f 0 1 (integrate Q f)) -> deg_lt N f -> is_RInt f 0 1 l -> integrate Q f = l.
Proof. intros H D I. apply H in D. apply (@is_RInt_unique R_CompleteNormedModule) in D. apply (@is_RInt_unique R_CompleteNormedModule) in I. congruence. Qed.
(** on a cell *)
Lemma affine_cancel c x : ilength c <> 0 -> affine_inverse (affine x c) c = x.
Proof. intro H. unfold affine_inverse, affine. field. exact H. Qed.
Lemma affine_cancel' c x : ilength c <> 0 -> affine (affine_inverse x c) c = x.
Proof. intro H. unfold affine_inverse, affine. field. exact H. Qed.
Lemma cell_integral c f l : 0 < ilength c -> is_RInt (fun x => f (affine x c)) 0 1 l -> is_RInt f (ia c) (ib c) (ilength c * l).
Proof.
  intros Hc H.
  assert (X := @is_RInt_comp_lin R_NormedModule (fun x => f (affine x c)) (/ ilength c) (- ia c / ilength c) (ia c) (ib c) l).
  replace (/ ilength c * ia c + - ia c / ilength c) with 0 in X by (field; lra). replace (/ ilength c * ib c + - ia c / ilength c) with 1 in X by (unfold ilength in *; field; lra).
  specialize (X H). apply (@is_RInt_scal R_NormedModule _ _ _ (ilength c)) in X. cbn in X. unfold scal in X; cbn in X; unfold mult in X; cbn in X.
  revert X. apply is_RInt_ext. intros x _. unfold affine.
  replace (ilength c * (/ ilength c * x + - ia c / ilength c) + ia c) with x by (field; lra). unfold scal; cbn; unfold mult; cbn. field. lra.
Qed.

Lemma deg_prod a b f g : deg_lt a f -> deg_lt b g -> (0 < a)%nat -> (0 < b)%nat -> deg_lt (a + b - 1) (fun x => f x * g x).
Proof. intros Hf Hg Ha Hb. destruct a as [|a], b as [|b]; try lia. apply (deg_mono (S (a + b))); [lia|]. apply deg_mult; auto. Qed.

(** ** the space *)
Section Space.
Context (D : interval) (n : nat) (m : mesh) (p : nat) (s : fespace).
Hypothesis Hn : (0 < n)%nat.
Hypothesis HD : ia D < ib D.
Hypothesis Hp : (0 < p)%nat.
Hypothesis Em : new_mesh D n = Ok m.
Hypothesis Es : new_fespace m p = Ok s.

Lemma s_val : s = {| fs_mesh := m; fs_degree := p; fs_index := {| gi_cells := n; gi_degree := p; gi_periodic := true |} |}.
Proof.
  unfold new_fespace, new_gindex in Es. destruct (Nat.ltb_spec 0 p); [|lia]. cbn [bind] in Es. apply Ok_inj in Es. rewrite <- Es.
  destruct (mesh_cells D n m Hn HD Em) as [-> _]. reflexivity.
Qed.
Lemma s_len : m_len (fs_mesh s) = n.
Proof. rewrite s_val. cbn. apply (mesh_cells D n m Hn HD Em). Qed.
Lemma s_degree : fs_degree s = p. Proof. rewrite s_val. reflexivity. Qed.
Lemma s_dim : fs_dimension s = (n * p)%nat.
Proof. unfold fs_dimension. rewrite s_len, s_degree. reflexivity. Qed.
Lemma s_cells : cells_of s = seq 0 n.
Proof. unfold cells_of. rewrite s_len. reflexivity. Qed.
Lemma s_locals : locals_of s = seq 0 (S p).
Proof. unfold locals_of. rewrite s_degree. f_equal. lia. Qed.
Lemma s_domain : m_domain (fs_mesh s) = D.
Proof. rewrite s_val. cbn. rewrite new_mesh_ok in Em by auto. apply Ok_inj in Em. rewrite <- Em. reflexivity. Qed.
Lemma s_cell c : (c < n)%nat -> fs_cell s c = unif_cell D n c.
Proof. intro H. unfold fs_cell. rewrite s_val. cbn. destruct (mesh_cells D n m Hn HD Em) as [_ [-> _]]. apply nth_tab; auto. Qed.
Lemma s_step c : (c < n)%nat -> ilength (fs_cell s c) = (ib D - ia D) / INR n /\ 0 < ilength (fs_cell s c).
Proof.
  intro H. destruct (mesh_cells D n m Hn HD Em) as [A [B C]]. apply C. rewrite s_cell, B by auto. apply in_tab. exists c. auto.
Qed.
Lemma num_val c a : (c < n)%nat -> (a <= p)%nat -> fs_number s c a = if Nat.eqb (c * p + a) (n * p) then 0%nat else (c * p + a)%nat.
Proof.
  intros Hc Ha. rewrite s_val. unfold fs_number, gi_number. cbn [fs_index gi_cells gi_degree gi_periodic].
  destruct (Nat.eqb_spec (S c) n) as [E|E], (Nat.eqb_spec (a + 1) (p + 1)) as [E'|E'], (Nat.eqb_spec (c * p + a) (n * p)) as [E''|E'']; cbn [andb]; auto; exfalso; try nia.
Qed.
Lemma num_small c a : (c < n)%nat -> (a < p)%nat -> fs_number s c a = (c * p + a)%nat.
Proof. intros Hc Ha. rewrite num_val by lia. destruct (Nat.eqb_spec (c * p + a) (n * p)); [nia|reflexivity]. Qed.
Lemma num_last c : (c < n)%nat -> fs_number s c p = if Nat.eqb (S c) n then 0%nat else fs_number s (S c) 0.
Proof.
  intro Hc. rewrite num_val by lia. destruct (Nat.eqb_spec (S c) n) as [E|E].
  - subst n. destruct (Nat.eqb_spec (c * p + p) (S c * p)); [reflexivity|lia].
  - rewrite num_small by lia. destruct (Nat.eqb_spec (c * p + p) (n * p)); nia.
Qed.
Lemma num_lt c a : (c < n)%nat -> (a <= p)%nat -> (fs_number s c a < n * p)%nat.
Proof. intros Hc Ha. rewrite num_val by lia. destruct (Nat.eqb_spec (c * p + a) (n * p)); nia. Qed.
(** every dof is a node with local number below p of exactly one cell *)
Lemma num_onto i : (i < n * p)%nat -> exists c a, (c < n)%nat /\ (a < p)%nat /\ fs_number s c a = i.
Proof.
  intro H. exists (i / p)%nat, (i mod p)%nat. assert (p <> 0)%nat by lia. pose proof (Nat.mod_upper_bound i p H0). pose proof (Nat.div_mod i p H0).
  assert (i / p < n)%nat by (apply Nat.div_lt_upper_bound; lia). split; [auto|]. split; [auto|]. rewrite num_small by auto. lia.
Qed.

(** sums over dofs against the numbering *)
Lemma dof_sum c a f : (c < n)%nat -> (a <= p)%nat -> rsum (tab (n * p) (fun i => delta i (fs_number s c a) * f i)) = f (fs_number s c a).
Proof. intros. apply sum_delta, num_lt; auto. Qed.

Lemma asm_vector e k : (k < n * p)%nat ->
  nth k (assemble_vector s e) 0 = rsum (tab n (fun c => rsum (tab (S p) (fun a => delta k (fs_number s c a) * e c a)))).
Proof.
  intro Hk. unfold assemble_vector. rewrite s_dim, nth_tab by auto. rewrite s_cells, s_locals.
  rewrite (fold_nested _ (fun v => v) (fun c k => rsum (tab (S p) (fun a => delta k (fs_number s c a) * e c a)))).
  - rewrite Rplus_0_l. reflexivity.
  - intros v c k' _. rewrite fold_add_at. reflexivity.
Qed.
Lemma asm_matrix e i j :
  assemble_matrix s e i j = rsum (tab n (fun c => rsum (tab (S p) (fun a => rsum (tab (S p) (fun b => delta i (fs_number s c a) * (delta j (fs_number s c b) * e c a b))))))).
Proof.
  unfold assemble_matrix. rewrite s_cells, s_locals.
  rewrite (fold_nested _ (fun M k => M k j) (fun c k => rsum (tab (S p) (fun a => rsum (tab (S p) (fun b => delta k (fs_number s c a) * (delta j (fs_number s c b) * e c a b))))))).
  - rewrite Rplus_0_l. reflexivity.
  - intros M c k _. rewrite (fold_nested _ (fun M k => M k j) (fun a k => rsum (tab (S p) (fun b => delta k (fs_number s c a) * (delta j (fs_number s c b) * e c a b))))).
    + reflexivity.
    + intros M' a k' _. rewrite fold_add_at2. reflexivity.
Qed.
(** entries summed against vectors *)
Lemma asm_row e i w : rsum (tab (n * p) (fun j => assemble_matrix s e i j * w j)) =
  rsum (tab n (fun c => rsum (tab (S p) (fun a => delta i (fs_number s c a) * rsum (tab (S p) (fun b => e c a b * w (fs_number s c b))))))).
Proof.
  rewrite (sum_ext _ _ (fun j => rsum (tab n (fun c => rsum (tab (S p) (fun a => rsum (tab (S p) (fun b => delta i (fs_number s c a) * (e c a b * (delta j (fs_number s c b) * w j)))))))))).
  2:{ intros j Hj. rewrite asm_matrix. rewrite <- sum_scal_r. apply sum_ext. intros c Hc. rewrite <- sum_scal_r. apply sum_ext. intros a Ha. rewrite <- sum_scal_r. apply sum_ext. intros b Hb. ring. }
  rewrite rsum_tab_swap. apply sum_ext. intros c Hc. rewrite rsum_tab_swap. apply sum_ext. intros a Ha. rewrite rsum_tab_swap, <- rsum_tab_scal. apply sum_ext. intros b Hb.
  rewrite rsum_tab_scal, rsum_tab_scal, dof_sum by (auto; lia). reflexivity.
Qed.
Lemma asm_form e v w : rsum (tab (n * p) (fun i => v i * rsum (tab (n * p) (fun j => assemble_matrix s e i j * w j)))) =
  rsum (tab n (fun c => rsum (tab (S p) (fun a => rsum (tab (S p) (fun b => v (fs_number s c a) * (e c a b * w (fs_number s c b)))))))).
Proof.
  rewrite (sum_ext _ _ (fun i => rsum (tab n (fun c => rsum (tab (S p) (fun a => delta i (fs_number s c a) * (v i * rsum (tab (S p) (fun b => e c a b * w (fs_number s c b))))))))) ).
  2:{ intros i Hi. rewrite asm_row, <- rsum_tab_scal. apply sum_ext. intros c Hc. rewrite <- rsum_tab_scal. apply sum_ext. intros a Ha. ring. }
  rewrite rsum_tab_swap. apply sum_ext. intros c Hc. rewrite rsum_tab_swap. apply sum_ext. intros a Ha.
  rewrite (dof_sum c a (fun i => v i * rsum (tab (S p) (fun b => e c a b * w (fs_number s c b))))) by (auto; lia). rewrite rsum_tab_scal. reflexivity.
Qed.
(** inter-element telescoping *)
Lemma ends_cancel F : rsum (tab n (fun c => F (fs_number s c p) - F (fs_number s c 0))) = 0.
Proof.
  rewrite (sum_ext _ _ (fun c => (if Nat.eqb (S c) n then F 0%nat else F (S c * p)%nat) - (if Nat.eqb c n then F 0%nat else F (c * p)%nat))).
  - rewrite (rsum_tab_telescope n (fun c => if Nat.eqb c n then F 0%nat else F (c * p)%nat)). rewrite Nat.eqb_refl. destruct (Nat.eqb_spec 0 n); [lia|]. cbn [Nat.mul]. ring.
  - intros c Hc. rewrite num_last by auto. rewrite (num_small c 0) by lia. destruct (Nat.eqb_spec c n); [lia|]. destruct (Nat.eqb_spec (S c) n); [rewrite Nat.add_0_r; reflexivity|].
    rewrite num_small by lia. rewrite !Nat.add_0_r. reflexivity.
Qed.

(** ** finite elements *)
Definition local_fun (v : list R) (c : nat) (x : R) : R := rsum (tab (S p) (fun a => dof v (fs_number s c a) * basis_value p a x)).
Definition local_der (v : list R) (c : nat) (x : R) : R := rsum (tab (S p) (fun a => dof v (fs_number s c a) * basis_derivative p a x)).
Lemma fold_plus_sum (f : nat -> R) l : forall acc, fold_left (fun v a => v + f a) l acc = acc + rsum (map f l).
Proof. induction l as [|x l IH]; intro acc; cbn [fold_left map]; [unfold rsum; cbn; ring|]. rewrite IH. unfold rsum. cbn [fold_right]. ring. Qed.
Lemma element_val v c x : element s v c x = local_fun v c (affine_inverse x (fs_cell s c)).
Proof. unfold element. rewrite (fold_plus_sum (fun a => dof v (fs_number s c a) * basis_value (fs_degree s) a (affine_inverse x (fs_cell s c)))), Rplus_0_l, s_locals, s_degree. reflexivity. Qed.
Lemma element_der_val v c x : element_derivative s v c x = / ilength (fs_cell s c) * local_der v c (affine_inverse x (fs_cell s c)).
Proof.
  unfold element_derivative. rewrite (fold_plus_sum (fun a => dof v (fs_number s c a) * basis_derivative (fs_degree s) a (affine_inverse x (fs_cell s c)))), Rplus_0_l, s_locals, s_degree.
  unfold affine_inverse_derivative. unfold local_der, Rdiv. rewrite Rmult_1_l. reflexivity.
Qed.
Lemma local_deg v c : deg_lt (S p) (local_fun v c).
Proof. apply (deg_sum (S p) (S p) (fun a x => dof v (fs_number s c a) * basis_value p a x)). intros. apply deg_scal, basis_deg. Qed.
Lemma local_der_deg v c : deg_lt p (local_der v c).
Proof. apply (deg_sum p (S p) (fun a x => dof v (fs_number s c a) * basis_derivative p a x)). intros. apply deg_scal, basis_deriv_deg. Qed.
Lemma local_derive v c x : is_derive (local_fun v c) x (local_der v c x).
Proof. apply (sum_derive (S p) (fun a x => dof v (fs_number s c a) * basis_value p a x) (fun a x => dof v (fs_number s c a) * basis_derivative p a x)). intros. apply @is_derive_scal, basis_deriv. Qed.
Lemma local_at_0 v c : local_fun v c 0 = dof v (fs_number s c 0).
Proof. unfold local_fun. rewrite (sum_ext _ _ (fun a => delta a 0 * dof v (fs_number s c a))) by (intros; rewrite basis_at_0 by lia; ring). apply (sum_delta (S p) 0 (fun a => dof v (fs_number s c a))). lia. Qed.
Lemma local_at_1 v c : local_fun v c 1 = dof v (fs_number s c p).
Proof. unfold local_fun. rewrite (sum_ext _ _ (fun a => delta a p * dof v (fs_number s c a))) by (intros; rewrite basis_at_1 by lia; ring). apply (sum_delta (S p) p (fun a => dof v (fs_number s c a))). lia. Qed.

(** ** mass *)
Section Rule.
Context (Q : quadrature) (N : nat).
Hypothesis HQ : forall f, deg_lt N f -> is_RInt f 0 1 (integrate Q f).
Lemma mass_entry_val c a b : mass_entry s Q c a b = ilength (fs_cell s c) * integrate Q (fun x => basis_value p a x * basis_value p b x).
Proof. rewrite <- integrate_scal. unfold mass_entry, integrate. rewrite s_degree. do 2 f_equal. apply map_ext. intro. ring. Qed.
Lemma gradient_entry_val c a b : gradient_entry s Q c a b = integrate Q (fun x => basis_value p a x * basis_derivative p b x).
Proof. unfold gradient_entry, integrate. rewrite s_degree. reflexivity. Qed.
Lemma form_local (F G : nat -> R -> R) (v w : nat -> R) c K :
  rsum (tab (S p) (fun a => rsum (tab (S p) (fun b => v (fs_number s c a) * (K * integrate Q (fun x => F a x * G b x) * w (fs_number s c b)))))) =
  K * integrate Q (fun x => rsum (tab (S p) (fun a => v (fs_number s c a) * F a x)) * rsum (tab (S p) (fun b => w (fs_number s c b) * G b x))).
Proof.
  rewrite (integrate_ext Q _ (fun x => rsum (tab (S p) (fun a => rsum (tab (S p) (fun b => (v (fs_number s c a) * w (fs_number s c b)) * (F a x * G b x))))))).
  2:{ intros x _. rewrite sum_prod. apply sum_ext. intros a Ha. apply sum_ext. intros b Hb. ring. }
  rewrite integrate_sum, <- rsum_tab_scal. apply sum_ext. intros a Ha. rewrite integrate_sum, <- rsum_tab_scal. apply sum_ext. intros b Hb. rewrite integrate_scal. ring.
Qed.
Lemma mass_form v w : rsum (tab (n * p) (fun i => dof v i * rsum (tab (n * p) (fun j => assemble_matrix s (mass_entry s Q) i j * dof w j)))) =
  rsum (tab n (fun c => ilength (fs_cell s c) * integrate Q (fun x => local_fun v c x * local_fun w c x))).
Proof.
  rewrite asm_form. apply sum_ext. intros c Hc. unfold local_fun.
  rewrite <- (form_local (basis_value p) (basis_value p) (dof v) (dof w) c (ilength (fs_cell s c))). apply sum_ext. intros a Ha. apply sum_ext. intros b Hb. rewrite mass_entry_val. reflexivity.
Qed.
Lemma gradient_form v w : rsum (tab (n * p) (fun i => dof v i * rsum (tab (n * p) (fun j => assemble_matrix s (gradient_entry s Q) i j * dof w j)))) =
  rsum (tab n (fun c => integrate Q (fun x => local_fun v c x * local_der w c x))).
Proof.
  rewrite asm_form. apply sum_ext. intros c Hc. unfold local_fun, local_der.
  rewrite <- (Rmult_1_l (integrate Q _)).
  rewrite <- (form_local (basis_value p) (basis_derivative p) (dof v) (dof w) c 1). apply sum_ext. intros a Ha. apply sum_ext. intros b Hb. rewrite gradient_entry_val. ring.
Qed.
Lemma grad_parts f g f' g' : (2 * p <= N)%nat -> deg_lt (S p) f -> deg_lt (S p) g -> deg_lt p f' -> deg_lt p g' -> (forall x, is_derive f x (f' x)) -> (forall x, is_derive g x (g' x)) ->
  integrate Q (fun x => f x * g' x) + integrate Q (fun x => g x * f' x) = f 1 * g 1 - f 0 * g 0.
Proof.
  intros HN Df Dg Df' Dg' If Ig. rewrite <- integrate_plus. apply (integrate_unique Q N); [exact HQ| |].
  - apply (deg_mono (2 * p)); [exact HN|]. apply deg_plus.
    + apply (deg_mono (S p + p - 1)); [lia|]. apply deg_prod; auto; lia.
    + apply (deg_mono (S p + p - 1)); [lia|]. apply deg_prod; auto; lia.
  - apply (is_RInt_ext (fun x => f' x * g x + f x * g' x)); [intros x _; assert (A : f' x * g x + f x * g' x = f x * g' x + g x * f' x) by ring; exact A|].
    assert (C : forall h k, deg_lt k h -> forall x, continuous h x).
    { intros h k [l [_ El]] x. apply (continuous_ext (peval l)); [intro; symmetry; auto|apply continuous_peval]. }
    apply (is_RInt_derive (fun x => f x * g x)).
    + intros x _. apply (is_derive_mult f g x (f' x) (g' x)); [apply If|apply Ig|intros; apply Rmult_comm].
    + intros x _. apply @continuous_plus; apply @continuous_mult; [apply (C f' p)|apply (C g (S p))|apply (C f (S p))|apply (C g' p)]; auto.
Qed.
Lemma gradient_skew i j : (2 * p <= N)%nat -> assemble_matrix s (gradient_entry s Q) i j = - assemble_matrix s (gradient_entry s Q) j i.
Proof.
  intro HN. apply Rplus_opp_r_uniq. rewrite Rplus_comm. rewrite !asm_matrix. rewrite <- rsum_tab_plus.
  rewrite (sum_ext _ _ (fun c => (delta i (fs_number s c p) * delta j (fs_number s c p)) - (delta i (fs_number s c 0) * delta j (fs_number s c 0)))).
  - apply (ends_cancel (fun k => delta i k * delta j k)).
  - intros c Hc. rewrite (rsum_tab_swap (S p) (S p) (fun a b => delta j (fs_number s c a) * (delta i (fs_number s c b) * gradient_entry s Q c a b))).
    rewrite <- rsum_tab_plus.
    rewrite (sum_ext _ _ (fun a => delta a p * (delta i (fs_number s c a) * delta j (fs_number s c a)) - delta a 0 * (delta i (fs_number s c a) * delta j (fs_number s c a)))).
    + rewrite rsum_tab_minus. rewrite (sum_delta (S p) p (fun a => delta i (fs_number s c a) * delta j (fs_number s c a))) by lia.
      rewrite (sum_delta (S p) 0 (fun a => delta i (fs_number s c a) * delta j (fs_number s c a))) by lia. reflexivity.
    + intros a Ha. rewrite <- rsum_tab_plus.
      rewrite (sum_ext _ _ (fun b => delta b p * (delta a p * (delta i (fs_number s c a) * delta j (fs_number s c b))) - delta b 0 * (delta a 0 * (delta i (fs_number s c a) * delta j (fs_number s c b))))).
      * rewrite rsum_tab_minus. rewrite (sum_delta (S p) p (fun b => delta a p * (delta i (fs_number s c a) * delta j (fs_number s c b)))) by lia.
        rewrite (sum_delta (S p) 0 (fun b => delta a 0 * (delta i (fs_number s c a) * delta j (fs_number s c b)))) by lia.
        rewrite (delta_subst a p (fun b => delta i (fs_number s c a) * delta j (fs_number s c b))), (delta_subst a 0 (fun b => delta i (fs_number s c a) * delta j (fs_number s c b))). reflexivity.
      * intros b Hb. rewrite !gradient_entry_val.
        assert (X := grad_parts (basis_value p a) (basis_value p b) (basis_derivative p a) (basis_derivative p b) HN (basis_deg p a) (basis_deg p b) (basis_deriv_deg p a) (basis_deriv_deg p b) (basis_deriv p a) (basis_deriv p b)).
        rewrite !basis_at_1, !basis_at_0 in X by lia.
        transitivity (delta i (fs_number s c a) * delta j (fs_number s c b) * (integrate Q (fun x => basis_value p a x * basis_derivative p b x) + integrate Q (fun x => basis_value p b x * basis_derivative p a x))); [ring|].
        rewrite X. ring.
Qed.
Lemma gradient_rows i : rsum (tab (n * p) (fun j => assemble_matrix s (gradient_entry s Q) i j)) = 0.
Proof.
  rewrite (sum_ext _ _ (fun j => assemble_matrix s (gradient_entry s Q) i j * 1)) by (intros; ring). rewrite (asm_row _ i (fun _ => 1)). apply rsum_tab_0. intros c Hc. apply rsum_tab_0. intros a Ha.
  rewrite (sum_ext _ _ (fun b => integrate Q (fun x => basis_value p a x * basis_derivative p b x))) by (intros; rewrite gradient_entry_val; ring).
  rewrite <- integrate_sum. rewrite (integrate_ext Q _ (fun _ => 0)); [rewrite integrate_zero; ring|]. intros x _. rewrite rsum_tab_scal, basis_derivative_sum by auto. ring.
Qed.
Lemma mass_sym i j : assemble_matrix s (mass_entry s Q) i j = assemble_matrix s (mass_entry s Q) j i.
Proof.
  rewrite !asm_matrix. apply sum_ext. intros c Hc. rewrite rsum_tab_swap. apply sum_ext. intros a Ha. apply sum_ext. intros b Hb. rewrite !mass_entry_val.
  rewrite (integrate_ext Q (fun x => basis_value p b x * basis_value p a x) (fun x => basis_value p a x * basis_value p b x)) by (intros; ring). ring.
Qed.
End Rule.
End Space.
