(** Golub-Welsch: the eigenvalues are the roots of the Legendre polynomial and the rule is exact. *)
From Coq Require Import Reals List Lia Lra Arith Bool Permutation Sorted.
From Coquelicot Require Import Coquelicot.
From Verif Require Import Prelude L_Prelude S_Poly L_Poly M_Mesh M_Quadrature S_Quadrature L_Flux.
Import ListNotations.
Open Scope R_scope.

(** orthonormal Legendre polynomials *)
Definition q (k : nat) (x : R) : R := sqrt (2 * INR k + 1) * L k x.
Lemma gw_beta_val i : gw_beta i = (INR i + 1) / (sqrt (2 * INR i + 1) * sqrt (2 * INR i + 3)).
Proof.
  unfold gw_beta. pose proof (pos_INR i) as P.
  assert (E : 1 - / (2 * (INR i + 1)) ^ 2 = (2 * INR i + 1) * (2 * INR i + 3) / (2 * (INR i + 1)) ^ 2) by (field; lra).
  rewrite E, sqrt_div; [|apply Rmult_le_pos; lra|apply pow_lt; lra]. rewrite sqrt_mult by lra.
  rewrite sqrt_pow2 by lra. assert (0 < sqrt (2 * INR i + 1)) by (apply sqrt_lt_R0; lra). assert (0 < sqrt (2 * INR i + 3)) by (apply sqrt_lt_R0; lra).
  field. repeat split; lra.
Qed.
Lemma gw_beta_pos i : 0 < gw_beta i.
Proof.
  rewrite gw_beta_val. pose proof (pos_INR i). apply Rdiv_lt_0_compat; [lra|]. apply Rmult_lt_0_compat; apply sqrt_lt_R0; lra.
Qed.
Lemma q_0 x : q 0 x = 1.
Proof. unfold q. rewrite L_0. cbn. replace (2 * 0 + 1) with 1 by ring. rewrite sqrt_1. ring. Qed.
Lemma q_1 x : gw_beta 0 * q 1 x = x * q 0 x.
Proof.
  rewrite q_0, gw_beta_val. unfold q. rewrite L_1. cbn [INR]. replace (2 * 0 + 1) with 1 by ring. replace (2 * 0 + 3) with 3 by ring.
  replace (2 * 1 + 1) with 3 by ring. rewrite sqrt_1. assert (0 < sqrt 3) by (apply sqrt_lt_R0; lra). field. lra.
Qed.
Lemma q_rec k x : gw_beta k * q k x + gw_beta (S k) * q (S (S k)) x = x * q (S k) x.
Proof.
  rewrite !gw_beta_val. unfold q. pose proof (pos_INR k) as P. rewrite !S_INR.
  replace (2 * (INR k + 1) + 1) with (2 * INR k + 3) by ring. replace (2 * (INR k + 1) + 3) with (2 * INR k + 5) by ring.
  replace (2 * (INR k + 1 + 1) + 1) with (2 * INR k + 5) by ring.
  set (a := sqrt (2 * INR k + 1)). set (b := sqrt (2 * INR k + 3)). set (c := sqrt (2 * INR k + 5)).
  assert (A : 0 < a) by (apply sqrt_lt_R0; lra). assert (B : 0 < b) by (apply sqrt_lt_R0; lra). assert (C : 0 < c) by (apply sqrt_lt_R0; lra).
  assert (B2 : b * b = 2 * INR k + 3) by (apply sqrt_sqrt; lra).
  pose proof (L_rec k x) as Rc.
  replace ((INR k + 1) / (a * b) * (a * L k x) + (INR k + 1 + 1) / (b * c) * (c * L (S (S k)) x))
    with (/ b * ((INR k + 1) * L k x + (INR k + 2) * L (S (S k)) x)) by (field; lra).
  rewrite Rc. replace ((INR k + 1) * L k x + ((2 * INR k + 3) * x * L (S k) x - (INR k + 1) * L k x)) with ((b * b) * x * L (S k) x) by (rewrite B2; ring).
  field. lra.
Qed.

(** one column of T V = V D *)
Lemma rsum_pick n c f : rsum (tab n (fun j => if Nat.eqb j c then f j else 0)) = if Nat.ltb c n then f c else 0.
Proof.
  destruct (Nat.ltb_spec c n).
  - rewrite (rsum_tab_single n _ c); [rewrite Nat.eqb_refl; reflexivity|auto|]. intros i Hi Hc. destruct (Nat.eqb_spec i c); [congruence|reflexivity].
  - rewrite (tab_ext n _ (fun _ => 0)); [rewrite rsum_tab_const; ring|]. intros i Hi. destruct (Nat.eqb_spec i c); [lia|reflexivity].
Qed.
Lemma gw_row n k v : (k < n)%nat ->
  rsum (tab n (fun j => gw_matrix n k j * v j)) =
  (match k with O => 0 | S k' => gw_beta k' * v k' end) + (if Nat.ltb (S k) n then gw_beta k * v (S k) else 0).
Proof.
  intro Hk.
  rewrite (tab_ext n _ (fun j => (match k with O => 0 | S k' => if Nat.eqb j k' then gw_beta j * v j else 0 end) + (if Nat.eqb j (S k) then gw_beta k * v j else 0))).
  - rewrite rsum_tab_plus. f_equal.
    + destruct k as [|k]; [rewrite rsum_tab_const; ring|]. rewrite (rsum_pick n k (fun j => gw_beta j * v j)).
      destruct (Nat.ltb_spec k n); [reflexivity|lia].
    + apply (rsum_pick n (S k) (fun j => gw_beta k * v j)).
  - intros j Hj. unfold gw_matrix. destruct (Nat.eqb_spec j (S k)) as [->|N].
    + destruct (Nat.ltb_spec k (n - 1)); [|lia]. cbn [andb]. destruct k as [|k]; [ring|]. destruct (Nat.eqb_spec (S (S k)) k); [lia|ring].
    + cbn [andb]. destruct k as [|k]; [destruct (Nat.eqb_spec 0 (S j)); [lia|cbn [andb]; ring]|].
      destruct (Nat.eqb_spec j k) as [->|M].
      * rewrite Nat.eqb_refl. destruct (Nat.ltb_spec k (n - 1)); [cbn [andb]; ring|lia].
      * destruct (Nat.eqb_spec (S k) (S j)); [lia|cbn [andb]; ring].
Qed.

Section Column.
Context (n : nat) (x : R) (v : nat -> R) (Hn : (0 < n)%nat).
Context (HT : forall k, (k < n)%nat -> rsum (tab n (fun j => gw_matrix n k j * v j)) = x * v k).
Lemma column k : (k < n)%nat -> v k = q k x * v 0%nat /\ ((S k < n)%nat -> v (S k) = q (S k) x * v 0%nat).
Proof.
  induction k as [|k IH]; intro Hk.
  - rewrite q_0. split; [ring|]. intro H1. pose proof (HT 0 Hk) as E. rewrite gw_row in E by auto. destruct (Nat.ltb_spec 1 n); [|lia].
    pose proof (gw_beta_pos 0). apply (Rmult_eq_reg_l (gw_beta 0)); [|lra]. rewrite <- Rmult_assoc, q_1, q_0. lra.
  - destruct (IH ltac:(lia)) as [A B]. specialize (B Hk). split; [exact B|]. intro H2. pose proof (HT (S k) Hk) as E. rewrite gw_row in E by auto.
    destruct (Nat.ltb_spec (S (S k)) n); [|lia]. pose proof (gw_beta_pos (S k)). apply (Rmult_eq_reg_l (gw_beta (S k))); [|lra].
    rewrite <- Rmult_assoc. replace (gw_beta (S k) * q (S (S k)) x) with (x * q (S k) x - gw_beta k * q k x) by (rewrite <- q_rec; ring).
    rewrite A, B in E. lra.
Qed.
Lemma column_root : q n x * v 0%nat = 0.
Proof.
  pose proof column as Co. revert HT Co. generalize Hn. clear Hn. destruct n as [|[|m]]; intros Hn' HT Co; [lia| |].
  - pose proof (HT 0 ltac:(lia)) as E. rewrite gw_row in E by lia. cbn [Nat.ltb Nat.leb] in E.
    pose proof (gw_beta_pos 0). apply (Rmult_eq_reg_l (gw_beta 0)); [|lra]. rewrite <- Rmult_assoc, q_1, q_0. lra.
  - pose proof (HT (S m) ltac:(lia)) as E. rewrite gw_row in E by lia. destruct (Nat.ltb_spec (S (S m)) (S (S m))); [lia|].
    destruct (Co m ltac:(lia)) as [A B]. specialize (B ltac:(lia)).
    pose proof (gw_beta_pos (S m)). apply (Rmult_eq_reg_l (gw_beta (S m))); [|lra].
    rewrite <- Rmult_assoc. replace (gw_beta (S m) * q (S (S m)) x) with (x * q (S m) x - gw_beta m * q m x) by (rewrite <- q_rec; ring).
    rewrite A, B in E. lra.
Qed.
End Column.

Lemma sqrt_pos_k k : 0 < sqrt (2 * INR k + 1).
Proof. apply sqrt_lt_R0. pose proof (pos_INR k). lra. Qed.

Section Rule.
Context (n : nat) (nodes : nat -> R) (v : nat -> nat -> R) (Hn : (0 < n)%nat).
Context (HE : eigen_decomposition n (gw_matrix n) (nodes, v)).
Let w (i : nat) : R := 2 * (v 0%nat i) ^ 2.
Let Q (f : R -> R) : R := rsum (tab n (fun i => w i * f (nodes i))).
Lemma col i k : (i < n)%nat -> (k < n)%nat -> v k i = q k (nodes i) * v 0%nat i.
Proof.
  intros Hi Hk. destruct HE as [HT _]. apply (column n (nodes i) (fun k => v k i) Hn (fun k Hk => HT k i Hk Hi) k Hk).
Qed.
Lemma col_root i : (i < n)%nat -> L n (nodes i) * v 0%nat i = 0.
Proof.
  intro Hi. destruct HE as [HT _]. pose proof (column_root n (nodes i) (fun k => v k i) Hn (fun k Hk => HT k i Hk Hi)) as E. cbn beta in E.
  unfold q in E. pose proof (sqrt_pos_k n). nra.
Qed.
Lemma v0_nonzero i : (i < n)%nat -> v 0%nat i <> 0.
Proof.
  intros Hi Z. destruct HE as [_ [HC _]]. specialize (HC i i Hi Hi). unfold delta in HC. rewrite Nat.eqb_refl in HC.
  rewrite (tab_ext n _ (fun _ => 0)) in HC; [rewrite rsum_tab_const in HC; lra|].
  intros k Hk. rewrite (col i k Hi Hk), Z. ring.
Qed.
Lemma node_root i : (i < n)%nat -> L n (nodes i) = 0.
Proof. intro Hi. pose proof (col_root i Hi). pose proof (v0_nonzero i Hi). nra. Qed.
Lemma node_inside i : (i < n)%nat -> -1 < nodes i < 1.
Proof.
  intro Hi. pose proof (node_root i Hi) as E. destruct (Rlt_dec (Rabs (nodes i)) 1) as [H|H].
  - apply Rabs_def2 in H. lra.
  - exfalso. apply (L_nonzero n (nodes i)); [lra|exact E].
Qed.
Lemma nodes_distinct i j : (i < n)%nat -> (j < n)%nat -> i <> j -> nodes i <> nodes j.
Proof.
  intros Hi Hj N E. destruct HE as [_ [HC _]]. specialize (HC i j Hi Hj). unfold delta in HC. destruct (Nat.eqb_spec i j); [congruence|].
  rewrite (tab_ext n _ (fun k => (v 0%nat i * v 0%nat j) * (q k (nodes i)) ^ 2)) in HC.
  - rewrite rsum_tab_scal in HC. assert (P : 0 < rsum (tab n (fun k => q k (nodes i) ^ 2))).
    { destruct n as [|m]; [lia|]. rewrite rsum_tab_S'. rewrite q_0. assert (0 <= rsum (tab m (fun k => q (S k) (nodes i) ^ 2))).
      { replace 0 with (rsum (tab m (fun _ => 0))) by (rewrite rsum_tab_const; ring). apply rsum_tab_le. intros; apply pow2_ge_0. }
      lra. }
    pose proof (v0_nonzero i Hi). pose proof (v0_nonzero j Hj). apply Rmult_integral in HC. destruct HC as [HC|HC]; [|lra].
    apply Rmult_integral in HC. tauto.
  - intros k Hk. rewrite (col i k Hi Hk), (col j k Hj Hk), <- E. ring.
Qed.
Lemma w_pos i : (i < n)%nat -> 0 < w i.
Proof. intro Hi. unfold w. pose proof (v0_nonzero i Hi). assert (0 < v 0%nat i ^ 2) by (apply pow2_gt_0; auto). lra. Qed.
Let E (f : R -> R) : Prop := is_RInt f (-1) 1 (Q f).
Lemma E_linear : linear_prop E.
Proof.
  unfold linear_prop, E, Q. split; [|split].
  - intros f g H X. apply (is_RInt_ext f); [intros x _; apply H|]. rewrite (tab_ext n _ (fun i => w i * f (nodes i))); [exact X|]. intros i _. rewrite H. reflexivity.
  - intros f g F G. rewrite (tab_ext n _ (fun i => w i * f (nodes i) + w i * g (nodes i))) by (intros; ring). rewrite rsum_tab_plus.
    apply (@is_RInt_plus R_NormedModule f g); auto.
  - intros c f F. rewrite (tab_ext n _ (fun i => c * (w i * f (nodes i)))) by (intros; ring). rewrite rsum_tab_scal.
    apply (@is_RInt_scal R_NormedModule f _ _ c); auto.
Qed.
Lemma Q_q k : (k < n)%nat -> Q (q k) = 2 * delta 0 k.
Proof.
  intro Hk. unfold Q, w. rewrite (tab_ext n _ (fun i => 2 * (v 0%nat i * v k i))).
  - rewrite rsum_tab_scal. f_equal. destruct HE as [_ [_ HR]]. apply HR; lia.
  - intros i Hi. rewrite (col i k Hi Hk). ring.
Qed.
Lemma rule_exact f : deg_lt (2 * n) f -> is_RInt f (-1) 1 (Q f).
Proof.
  intro D. destruct (all_degrees E (2 * n) E_linear) with (f := f) as [X|X]; [|exact D|exact X|lia].
  clear f D. intros k Hk. destruct (Nat.lt_ge_cases k n) as [H|H].
  - destruct (L_lead k) as [c [r [C [D R]]]]. exists (L k), c, r. split; [|split; [lra|auto]].
    assert (X : E (q k)).
    { unfold E. rewrite Q_q by auto. unfold delta. destruct k as [|k].
      - cbn [Nat.eqb]. apply (is_RInt_ext (fun _ => 1)); [intros x _; rewrite q_0; reflexivity|].
        evar_last; [apply @is_RInt_const|]. unfold scal; cbn; unfold mult; cbn. ring.
      - cbn [Nat.eqb]. unfold q. evar_last; [apply @is_RInt_scal, L_integral|]. unfold scal; cbn; unfold mult; cbn. ring. }
    destruct E_linear as [E1 [_ E3]]. pose proof (sqrt_pos_k k).
    apply (E1 (fun x => / sqrt (2 * INR k + 1) * q k x)); [|apply E3, X]. intro x. unfold q. field. lra.
  - destruct (L_lead n) as [c [r [C [D R]]]]. exists (fun x => x ^ (k - n) * L n x), c, (fun x => x ^ (k - n) * r x).
    split; [|split; [lra|split]].
    + unfold E, Q. rewrite (tab_ext n _ (fun _ => 0)); [rewrite rsum_tab_const|intros i Hi; rewrite (node_root i Hi); ring].
      replace (INR n * 0) with 0 by ring. apply L_orth. lia.
    + destruct n as [|m]; [lia|]. destruct D as [p [Lp Hp]]. destruct (Nat.eq_dec (length p) 0) as [Z|Z].
      * apply (deg_ext _ (fun _ => 0)); [|apply deg_zero]. intro x. rewrite Hp. destruct p; [cbn; ring|discriminate].
      * assert (D' : deg_lt (S m) r) by (exists p; auto).
        apply (deg_mono (S ((k - S m) + m))); [lia|]. apply deg_mult; [apply deg_pow|exact D'].
    + intro x. rewrite R. replace k with ((k - n) + n)%nat at 2 by lia. rewrite pow_add. ring.
Qed.
End Rule.

(** sorting *)
Lemma insert_perm p l : Permutation (p :: l) (insert p l).
Proof.
  induction l as [|a l IH]; cbn [insert]; [reflexivity|]. destruct (pair_leb p a); [reflexivity|].
  apply (Permutation_trans (perm_swap a p l)). constructor. exact IH.
Qed.
Lemma sort_perm l : Permutation l (sort_pairs l).
Proof. induction l as [|a l IH]; cbn [sort_pairs fold_right]; [constructor|]. apply (Permutation_trans (l' := a :: sort_pairs l)); [constructor; exact IH|apply insert_perm]. Qed.
Definition fst_le (p q : R * R) : Prop := fst p <= fst q.
Lemma pair_leb_le p q : pair_leb p q = true -> fst_le p q.
Proof.
  unfold pair_leb, fst_le. destruct (Rltb_spec (fst p) (fst q)); [intros; lra|]. destruct (Reqb_spec (fst p) (fst q)); [intros; lra|discriminate].
Qed.
Lemma pair_leb_total p q : pair_leb p q = false -> fst_le q p.
Proof.
  unfold pair_leb, fst_le. destruct (Rltb_spec (fst p) (fst q)); [discriminate|]. intros; lra.
Qed.
Lemma insert_sorted p l : StronglySorted fst_le l -> StronglySorted fst_le (insert p l).
Proof.
  induction 1 as [|a l S IH F]; cbn [insert]; [repeat constructor|]. destruct (pair_leb p a) eqn:E.
  - constructor; [constructor; auto|]. apply pair_leb_le in E. constructor; [exact E|]. eapply Forall_impl; [|exact F].
    intros b Hb. unfold fst_le in *. lra.
  - constructor; [exact IH|]. apply (Permutation_Forall (insert_perm p l)). constructor; [apply pair_leb_total; exact E|exact F].
Qed.
Lemma sort_sorted l : StronglySorted fst_le (sort_pairs l).
Proof. induction l as [|a l IH]; cbn [sort_pairs fold_right]; [constructor|]. apply insert_sorted, IH. Qed.
Lemma rsum_perm l l' : Permutation l l' -> rsum l = rsum l'.
Proof. induction 1; cbn [rsum fold_right]; unfold rsum in *; cbn [fold_right]; lra. Qed.
Lemma map2_pairs f (l : list (R * R)) : map2 Rmult (map snd l) (map f (map fst l)) = map (fun p => snd p * f (fst p)) l.
Proof. induction l as [|a l IH]; cbn; [reflexivity|]. rewrite IH. reflexivity. Qed.

(** sorted lists of distinct nodes increase strictly *)
Lemma sorted_increasing l : StronglySorted fst_le l -> NoDup (map fst l) -> increasing (map fst l).
Proof.
  intros S N i j H. rewrite map_length in H.
  assert (Le : nth i (map fst l) 0 <= nth j (map fst l) 0).
  { revert i j H. induction S as [|a l S IH F]; intros i j H; [cbn in H; lia|]. cbn [map length] in *. destruct j as [|j]; [lia|].
    destruct i as [|i].
    - cbn [nth]. rewrite Forall_forall in F. assert (X : In (nth j l (0, 0)) l) by (apply nth_In; lia). apply F in X. unfold fst_le in X.
      rewrite (nth_map' fst l j (0, 0)) by lia. exact X.
    - cbn [nth]. apply IH; [inversion N; auto|lia]. }
  assert (Ne : nth i (map fst l) 0 <> nth j (map fst l) 0).
  { intro E. apply (NoDup_nth (map fst l) 0) in E; try lia; auto; rewrite map_length; lia. }
  lra.
Qed.

Lemma specific_spec eig n : (0 < n)%nat -> eigen_decomposition n (gw_matrix n) (eig n (gw_matrix n)) ->
  exists Q, specific_gaussian eig n = Ok Q /\ q_domain Q = reference_interval /\ length (q_nodes Q) = n /\ length (q_weights Q) = n /\
  increasing (q_nodes Q) /\ (forall x, In x (q_nodes Q) -> -1 < x < 1) /\ (forall x, In x (q_weights Q) -> 0 < x) /\
  (forall f, deg_lt (2 * n) f -> is_RInt f (-1) 1 (integrate Q f)).
Proof.
  intros Hn HE. unfold specific_gaussian. destruct (Nat.ltb_spec 0 n); [|lia]. eexists. split; [reflexivity|]. cbn [q_domain q_nodes q_weights]. split; [reflexivity|].
  unfold nodes_weights. destruct (eig n (gw_matrix n)) as [nodes v].
  set (l := tab n (fun i => (nodes i, 2 * v 0%nat i ^ 2))). pose proof (sort_perm l) as P.
  assert (Len : length (sort_pairs l) = n) by (rewrite <- (Permutation_length P); unfold l; apply tab_length).
  assert (HIn : forall a, In a (sort_pairs l) -> exists i, (i < n)%nat /\ a = (nodes i, 2 * v 0%nat i ^ 2)).
  { intros a Ha. apply (Permutation_in _ (Permutation_sym P)) in Ha. unfold l in Ha. apply in_tab in Ha. destruct Ha as [i [Hi Ea]]. eauto. }
  split; [rewrite map_length; auto|]. split; [rewrite map_length; auto|]. split; [|split; [|split]].
  - apply sorted_increasing; [apply sort_sorted|]. apply (Permutation_NoDup (Permutation_map fst P)). unfold l. rewrite map_tab. cbn [fst].
    apply (NoDup_nth _ 0). intros i j Hi Hj E. rewrite tab_length in Hi, Hj. rewrite !nth_tab in E by auto.
    destruct (Nat.eq_dec i j) as [|N]; auto. exfalso. exact (nodes_distinct n nodes v Hn HE i j Hi Hj N E).
  - intros x Hx. apply in_map_iff in Hx. destruct Hx as [a [<- Ha]]. destruct (HIn a Ha) as [i [Hi ->]]. exact (node_inside n nodes v Hn HE i Hi).
  - intros x Hx. apply in_map_iff in Hx. destruct Hx as [a [<- Ha]]. destruct (HIn a Ha) as [i [Hi ->]]. exact (w_pos n nodes v Hn HE i Hi).
  - intros f D. unfold integrate. cbn [q_nodes q_weights]. rewrite map2_pairs.
    rewrite <- (rsum_perm _ _ (Permutation_map (fun p => snd p * f (fst p)) P)). unfold l. rewrite map_tab. cbn [fst snd].
    exact (rule_exact n nodes v Hn HE f D).
Qed.
