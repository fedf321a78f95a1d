(** C41: norms. C44: errors and experimental orders of convergence. *)
From Coq Require Import Reals List Lia Lra Arith Bool.
From Coquelicot Require Import Coquelicot.
From Verif Require Import Prelude L_Prelude M_Mesh L_Mesh M_Quadrature S_Poly L_Poly S_Quadrature L_Flux L_Quadrature P_Quadrature M_Boundary L_Boundary M_Neighbours M_Norm S_Norm L_Norm.
Import ListNotations.
Open Scope R_scope.

(** The contract of np.linalg.eig for the quadrature a norm uses. *)
Definition eig_works (eig : nat -> (nat -> nat -> R) -> (nat -> R) * (nat -> nat -> R)) (degree : option nat) : Prop :=
  let n := or_default degree 1 in eigen_decomposition n (gw_matrix n) (eig n (gw_matrix n)).
Lemma eig_works_1 : exists eig, eig_works eig None.
Proof.
  exists (fun _ _ => (fun _ => 0, fun _ _ => 1)). unfold eig_works, eigen_decomposition. cbn [or_default].
  split; [|split]; intros [|i] [|j] H1 H2; try lia; unfold delta, gw_matrix; cbn; ring.
Qed.

Lemma rule_of eig degree : eig_works eig degree -> exists Q, local_quadrature eig (or_default degree 1) = Ok Q /\
  length (q_nodes Q) = or_default degree 1 /\ length (q_weights Q) = length (q_nodes Q) /\ (forall x, In x (q_nodes Q) -> 0 < x < 1) /\
  (forall w, In w (q_weights Q) -> 0 < w) /\ rsum (q_weights Q) = 1 /\
  (forall f, deg_lt (2 * or_default degree 1) f -> is_RInt f 0 1 (integrate Q f)).
Proof.
  intro HE. destruct (C43_gauss_exact eig (or_default degree 1) {| ia := 0; ib := 1 |} (or_default_pos degree 1 ltac:(lia)) ltac:(cbn; lra) HE)
    as [Q [E [Q1 [Q2 [Q3 [Q4 [Q5 [Q6 [Q7 Q8]]]]]]]]]. exists Q. unfold local_quadrature. unfold q_degree in Q2. cbn [ia ib] in *.
  split; [exact E|]. split; [auto|]. split; [lia|]. split; [auto|]. split; [auto|]. split; [lra|auto].
Qed.

Lemma l2_value eig degree m Q f : local_quadrature eig (or_default degree 1) = Ok Q ->
  l2norm eig degree m f = Ok (sqrt (cell_sum Q m (fun i x => f i x ^ 2))).
Proof. intro E. unfold l2norm. rewrite E. reflexivity. Qed.
Lemma l1_value eig degree m Q f : local_quadrature eig (or_default degree 1) = Ok Q ->
  l1norm eig degree m f = Ok (cell_sum Q m (fun i x => Rabs (f i x))).
Proof. intro E. unfold l1norm. rewrite E. reflexivity. Qed.

(** L2Norm and L1Norm of every uniform mesh are seminorms on the cell dependent functions, whatever the quadrature degree. *)
Theorem C41_integral_norms_are_seminorms : forall eig degree D n m, eig_works eig degree ->
  (0 < n)%nat -> ia D < ib D -> new_mesh D n = Ok m ->
  (exists N, (forall f, l2norm eig degree m f = Ok (N f)) /\ is_seminorm N) /\
  (exists N, (forall f, l1norm eig degree m f = Ok (N f)) /\ is_seminorm N).
Proof.
  intros eig degree D n m HE Hn HD Em. destruct (rule_of eig degree HE) as [Q [E [Q1 [Q2 [Q3 [Q4 [Q5 Q6]]]]]]].
  destruct (mesh_cells D n m Hn HD Em) as [M1 [M2 M3]].
  assert (PF : positive_functional (cell_sum Q m)) by (apply cell_sum_positive; auto; intros c Hc; apply M3; exact Hc).
  split; eexists; (split; [intro f|]).
  - apply (l2_value eig degree m Q f E).
  - apply (l2_seminorm (cell_sum Q m) PF (cell_sum_ext Q m)).
  - apply (l1_value eig degree m Q f E).
  - apply (l1_seminorm (cell_sum Q m) PF (cell_sum_ext Q m)).
Qed.
Print Assumptions C41_integral_norms_are_seminorms.

(** For piecewise polynomials of degree less than the number of quadrature nodes L2Norm is the root of the integral of the square. *)
Theorem C41_L2_is_the_integral : forall eig degree D n m f, eig_works eig degree ->
  (0 < n)%nat -> ia D < ib D -> new_mesh D n = Ok m ->
  (forall c, (c < n)%nat -> deg_lt (or_default degree 1) (f c)) ->
  exists I, length I = n /\ l2norm eig degree m f = Ok (sqrt (rsum I)) /\
  forall c cell, nth_error (m_cells m) c = Some cell -> is_RInt (fun x => f c x ^ 2) (ia cell) (ib cell) (nth c I 0).
Proof.
  intros eig degree D n m f HE Hn HD Em HP. destruct (rule_of eig degree HE) as [Q [E [Q1 [Q2 [Q3 [Q4 [Q5 Q6]]]]]]].
  destruct (mesh_cells D n m Hn HD Em) as [M1 [M2 M3]].
  exists (over_cells m (fun c cell => norm_on_cell Q (fun x => f c x ^ 2) cell)). rewrite over_cells_tab, tab_length, M1.
  split; [auto|]. split; [unfold l2norm; rewrite E; cbn [bind]; rewrite over_cells_tab, M1; reflexivity|].
  intros c cell Hc. assert (Lc : (c < n)%nat) by (rewrite <- M1; apply nth_error_Some; congruence). rewrite nth_tab by auto.
  assert (Ec : nth c (m_cells m) dcell = cell) by (apply nth_error_nth; auto). rewrite Ec. destruct (M3 cell (nth_error_In _ _ Hc)) as [_ Pos].
  set (h := ilength cell) in *. assert (Dq : deg_lt (2 * or_default degree 1) (fun x => f c x ^ 2)).
  { assert (P := or_default_pos degree 1 ltac:(lia)). specialize (HP c Lc). destruct (or_default degree 1) as [|k]; [lia|].
    apply (deg_ext _ (fun x => f c x * f c x)); [intro; ring|]. apply (deg_mono (S (k + k))); [lia|]. apply deg_mult; exact HP. }
  pose proof (Q6 _ (deg_comp_affine h (ia cell) _ _ Dq)) as X.
  assert (Ex : exists l, is_RInt (fun x => f c x ^ 2) (ia cell) (ib cell) l).
  { destruct Dq as [p [_ P]]. destruct (ex_RInt_peval p (ia cell) (ib cell)) as [l Hl]. exists l. apply (is_RInt_ext (peval p)); [intros; symmetry; apply P|exact Hl]. }
  destruct Ex as [l Hl].
  assert (Y : is_RInt (fun y => h * f c (h * y + ia cell) ^ 2) 0 1 l).
  { apply (is_RInt_comp_lin (fun x => f c x ^ 2) h (ia cell) 0 1). replace (h * 0 + ia cell) with (ia cell) by ring.
    replace (h * 1 + ia cell) with (ib cell) by (unfold h, ilength; ring). exact Hl. }
  assert (Z : is_RInt (fun y => h * f c (h * y + ia cell) ^ 2) 0 1 (h * integrate Q (fun x => f c (h * x + ia cell) ^ 2))) by exact (@is_RInt_scal R_NormedModule _ _ _ h _ X).
  apply (@is_RInt_unique R_CompleteNormedModule) in Y. apply (@is_RInt_unique R_CompleteNormedModule) in Z. rewrite Y in Z.
  unfold norm_on_cell, affine_derivative, affine. fold h. unfold integrate in Z. rewrite <- Z. exact Hl.
Qed.
Print Assumptions C41_L2_is_the_integral.

(** The finite volume function with the values u: L2 is sqrt(dx * sum u_i^2), L1 is dx * sum |u_i|; with these two only zero has norm zero. *)
Theorem C41_finite_volume_norms : forall eig degree D n m u, eig_works eig degree ->
  (0 < n)%nat -> ia D < ib D -> new_mesh D n = Ok m -> length u = n ->
  let dx := (ib D - ia D) / INR n in
  l2norm eig degree m (fv_element u) = Ok (sqrt (dx * rsum (map (fun x => x ^ 2) u))) /\
  l1norm eig degree m (fv_element u) = Ok (dx * rsum (map Rabs u)) /\
  (l2norm eig degree m (fv_element u) = Ok 0 <-> u = repeat 0 n) /\
  (l1norm eig degree m (fv_element u) = Ok 0 <-> u = repeat 0 n).
Proof.
  intros eig degree D n m u HE Hn HD Em Lu dx. destruct (rule_of eig degree HE) as [Q [E [Q1 [Q2 [Q3 [Q4 [Q5 Q6]]]]]]].
  destruct (mesh_cells D n m Hn HD Em) as [M1 [M2 M3]].
  assert (Pdx : 0 < dx). { unfold dx. apply Rdiv_lt_0_compat; [lra|]. apply lt_0_INR; lia. }
  assert (G : forall g : R -> R, cell_sum Q m (fun i x => g (fv_element u i x)) = dx * rsum (map g u)).
  { intro g. rewrite cell_sum_tab by auto. rewrite M1. transitivity (rsum (tab n (fun c => dx * g (nth c u 0)))).
    - f_equal. apply tab_ext. intros c Hc. assert (Hin : In (nth c (m_cells m) dcell) (m_cells m)) by (apply nth_In; unfold m_len in M1; lia).
      destruct (M3 _ Hin) as [-> _]. fold dx. f_equal. unfold fv_element.
      rewrite (tab_ext _ _ (fun j => g (nth c u 0) * nth j (q_weights Q) 0)) by (intros; ring). rewrite rsum_tab_scal, <- Q2.
      rewrite <- (list_tab 0 (q_weights Q)), Q5. ring.
    - rewrite rsum_tab_scal. f_equal. f_equal. rewrite (list_tab 0 (map g u)), map_length, Lu. apply tab_ext. intros i Hi. symmetry. apply nth_map'. lia. }
  assert (Z0 : forall g, (forall x, 0 <= g x) -> (forall x, g x = 0 <-> x = 0) -> (rsum (map g u) = 0 <-> u = repeat 0 n)).
  { intros g P1 P2. clear G. revert n Lu Hn M1 M2 M3 Em dx Pdx. intros n0 Lu _ _ _ _ _ _ _. revert n0 Lu. induction u as [|a u IH]; intros n0 Lu; subst n0; [cbn; tauto|].
    cbn [map length repeat]. unfold rsum. cbn [fold_right]. fold (rsum (map g u)).
    assert (N : 0 <= rsum (map g u)). { clear - P1. induction u as [|b u IH]; unfold rsum in *; cbn; [lra|]. specialize (P1 b). lra. }
    specialize (P1 a). split.
    - intro S. assert (g a = 0) by lra. assert (rsum (map g u) = 0) by lra. f_equal; [apply P2; auto|apply (IH _ eq_refl); auto].
    - intro S. injection S as -> S. apply (IH _ eq_refl) in S. rewrite S. replace (g 0) with 0 by (symmetry; apply P2; auto). ring. }
  rewrite (l2_value eig degree m Q _ E), (l1_value eig degree m Q _ E). rewrite (G (fun x => x ^ 2)), (G Rabs).
  split; [reflexivity|]. split; [reflexivity|]. split.
  - rewrite <- (Z0 (fun x => x ^ 2)); [|intro; apply pow2_ge_0|intro x; split; [intro H; nra|intro; subst; ring]].
    assert (N : 0 <= rsum (map (fun x => x ^ 2) u)).
    { clear. induction u as [|b u IH]; unfold rsum in *; cbn [map fold_right]; [lra|]. pose proof (pow2_ge_0 b). lra. }
    split; intro H.
    + apply Ok_inj in H. apply sqrt_eq_0 in H; [|nra]. nra.
    + rewrite H, Rmult_0_r, sqrt_0. reflexivity.
  - rewrite <- (Z0 Rabs); [|intro; apply Rabs_pos|intro x; split; [intro H; destruct (Req_dec x 0); auto; exfalso; apply (Rabs_no_R0 x); auto|intro; subst; apply Rabs_R0]].
    split; intro H; [apply Ok_inj in H; nra|rewrite H, Rmult_0_r; reflexivity].
Qed.
Print Assumptions C41_finite_volume_norms.

(** the maximum norm *)
Lemma amax_spec l M : amax l = Ok M -> (forall x, In x l -> x <= M) /\ In M l.
Proof.
  destruct l as [|a l]; cbn [amax]; [discriminate|]. intro E. apply Ok_inj in E. subst M. split.
  - intros x [<-|Hx]; [apply lmax1_ge|apply lmax1_ub; exact Hx].
  - destruct (lmax1_in a l) as [-> |H]; [left|right]; auto.
Qed.
Lemma linf_spec points D n m f : (0 < n)%nat -> ia D < ib D -> new_mesh D n = Ok m ->
  exists M, linfnorm points m f = Ok M /\
  (forall c cell x, nth_error (m_cells m) c = Some cell -> In x (linf_points points cell) -> Rabs (f c x) <= M) /\
  (exists c cell x, nth_error (m_cells m) c = Some cell /\ In x (linf_points points cell) /\ Rabs (f c x) = M).
Proof.
  intros Hn HD Em. destruct (mesh_cells D n m Hn HD Em) as [M1 [M2 M3]]. unfold linfnorm. rewrite over_cells_tab, M1.
  set (g := fun c => amax (map (fun x => Rabs (f c x)) (linf_points points (nth c (m_cells m) dcell)))).
  destruct (mapM_exists (fun r => r) (tab n g)) as [bs Hb].
  { intros a Ha. apply in_tab in Ha. destruct Ha as [i [Hi <-]]. unfold g. unfold linf_points, linspace. rewrite map_tab. cbn [tab seq map]. eexists. reflexivity. }
  rewrite Hb. cbn [bind]. apply mapM_nth with (da := Err ValueError) (db := 0) in Hb. rewrite tab_length in Hb. destruct Hb as [Lb Hb].
  destruct (amax bs) as [M|e] eqn:EM; [|destruct bs; [cbn in Lb; lia|discriminate]]. exists M. split; [reflexivity|]. apply amax_spec in EM. destruct EM as [U In1].
  split.
  - intros c cell x Hc Hx. assert (Lc : (c < n)%nat) by (rewrite <- M1; apply nth_error_Some; congruence).
    specialize (Hb c Lc). rewrite nth_tab in Hb by auto. unfold g in Hb. apply amax_spec in Hb. destruct Hb as [B _].
    rewrite (nth_error_nth _ _ dcell Hc) in B. apply Rle_trans with (nth c bs 0); [apply B, in_map_iff; eauto|apply U, nth_In; lia].
  - apply (In_nth _ _ 0) in In1. destruct In1 as [c [Lc Ec]]. rewrite Lb in Lc. specialize (Hb c Lc). rewrite nth_tab in Hb by auto.
    unfold g in Hb. apply amax_spec in Hb. destruct Hb as [_ B]. apply in_map_iff in B. destruct B as [x [Hx Hin]].
    exists c, (nth c (m_cells m) dcell), x. split; [apply nth_error_nth'; unfold m_len in M1; lia|]. split; [auto|lra].
Qed.
(** The maximum norm is a seminorm; it is the maximum of the modulus over the sample points of the cells (both end points among them from two points on). *)
Theorem C41_maximum_norm : forall points D n m, (0 < n)%nat -> ia D < ib D -> new_mesh D n = Ok m ->
  exists N, (forall f, linfnorm points m f = Ok (N f)) /\ is_seminorm N /\
  (forall f B, (forall c cell x, nth_error (m_cells m) c = Some cell -> ia cell <= x <= ib cell -> Rabs (f c x) <= B) -> N f <= B) /\
  (forall f c cell, or_default points 10 <> 1%nat -> nth_error (m_cells m) c = Some cell -> Rabs (f c (ia cell)) <= N f /\ Rabs (f c (ib cell)) <= N f).
Proof.
  intros points D n m Hn HD Em. destruct (mesh_cells D n m Hn HD Em) as [M1 [M2 M3]].
  exists (fun f => match linfnorm points m f with Ok v => v | Err _ => 0 end).
  assert (V : forall f, exists M, linfnorm points m f = Ok M /\
    (forall c cell x, nth_error (m_cells m) c = Some cell -> In x (linf_points points cell) -> Rabs (f c x) <= M) /\
    (exists c cell x, nth_error (m_cells m) c = Some cell /\ In x (linf_points points cell) /\ Rabs (f c x) = M)) by (intro f; eapply linf_spec; eauto).
  assert (P0 := or_default_pos points 10 ltac:(lia)).
  split; [intro f; destruct (V f) as [M [-> _]]; reflexivity|]. split; [split; [|split; [|split]]|split].
  - intro f. destruct (V f) as [M [-> [_ [c [cell [x [_ [_ <-]]]]]]]]. apply Rabs_pos.
  - intros k f. destruct (V f) as [M [-> [U [c [cell [x [A1 [A2 A3]]]]]]]]. destruct (V (fun i x => k * f i x)) as [M' [-> [U' [c' [cell' [x' [B1 [B2 B3]]]]]]]].
    rewrite Rabs_mult in B3. apply Rle_antisym.
    + rewrite <- B3. apply Rmult_le_compat_l; [apply Rabs_pos|eapply U; eauto].
    + rewrite <- A3, <- Rabs_mult. apply (U' c cell x); auto.
  - intros f g. destruct (V f) as [M [-> [U _]]]. destruct (V g) as [M' [-> [U' _]]]. destruct (V (fun i x => f i x + g i x)) as [M'' [-> [_ [c [cell [x [A1 [A2 A3]]]]]]]].
    rewrite <- A3. eapply Rle_trans; [apply Rabs_triang|]. specialize (U c cell x A1 A2). specialize (U' c cell x A1 A2). lra.
  - destruct (V (fun _ _ => 0)) as [M [-> [_ [c [cell [x [_ [_ <-]]]]]]]]. apply Rabs_R0.
  - intros f B HB. destruct (V f) as [M [-> [_ [c [cell [x [A1 [A2 <-]]]]]]]]. apply (HB c cell); auto.
    destruct (M3 cell (nth_error_In _ _ A1)) as [_ Pos]. unfold ilength in Pos. unfold linf_points in A2.
    destruct (Nat.eq_dec (or_default points 10) 1) as [e|e].
    + rewrite e in A2. cbn in A2. destruct A2 as [<-|[]]. lra.
    + apply (In_nth _ _ 0) in A2. destruct A2 as [i [Hi <-]]. unfold linspace in Hi. rewrite tab_length in Hi. rewrite linspace_nth by lia.
      set (k := (or_default points 10 - 1)%nat) in *. assert (0 < INR k) by (apply lt_0_INR; lia). assert (INR i <= INR k) by (apply le_INR; lia).
      pose proof (pos_INR i). assert (Q1 : 0 < (ib cell - ia cell) / INR k) by (apply Rdiv_lt_0_compat; lra).
      assert (INR k * ((ib cell - ia cell) / INR k) = ib cell - ia cell) by (field; lra). nra.
  - intros f c cell Ne A1. destruct (V f) as [M [-> [U _]]]. destruct (M3 cell (nth_error_In _ _ A1)) as [_ Pos]. unfold ilength in Pos.
    set (k := (or_default points 10 - 1)%nat). assert (0 < k)%nat by lia. assert (0 < INR k) by (apply lt_0_INR; lia).
    split; apply (U c cell); auto; unfold linf_points; fold k.
    + replace (ia cell) with (nth 0 (linspace (ia cell) (ib cell) k) 0) at 1 by (rewrite linspace_nth by lia; cbn; ring). apply nth_In. unfold linspace. rewrite tab_length. lia.
    + replace (ib cell) with (nth k (linspace (ia cell) (ib cell) k) 0) at 1 by (rewrite linspace_nth by lia; field; lra). apply nth_In. unfold linspace. rewrite tab_length. lia.
Qed.
Print Assumptions C41_maximum_norm.

Example C41_ex : exists eig D n m u, eig_works eig None /\ (0 < n)%nat /\ ia D < ib D /\ new_mesh D n = Ok m /\ length u = n /\ u <> repeat 0 n.
Proof.
  destruct eig_works_1 as [eig HE]. exists eig, {| ia := -1; ib := 1 |}, 4%nat.
  eexists. exists [1; 2; 3; 4]. split; [exact HE|]. split; [lia|]. split; [cbn; lra|]. split; [apply new_mesh_ok; [lia|cbn; lra]|]. split; [reflexivity|].
  cbn. intro X. injection X. lra.
Qed.

(** ** C44 *)
(** The error is the norm of the difference, tagged with the time of the discrete solution; it is zero for equal
    functions, symmetric and satisfies the triangle inequality. *)
Theorem C44_error_is_a_distance : forall norm N time, (forall f, norm f = Ok (N f)) -> (forall f g, (forall i x, f i x = g i x) -> N f = N g) -> is_seminorm N ->
  forall u v w, exists e, error_calculator norm time u v = Ok (time, e) /\ 0 <= e /\
  ((forall i x, u i x = v i x) -> e = 0) /\
  error_calculator norm time v u = Ok (time, e) /\
  exists e1 e2, error_calculator norm time u w = Ok (time, e1) /\ error_calculator norm time w v = Ok (time, e2) /\ e <= e1 + e2.
Proof.
  intros norm N time HN Hext [P1 [P2 [P3 P4]]] u v w. unfold error_calculator. rewrite !HN. cbn [bind]. eexists. split; [reflexivity|]. split; [apply P1|]. split.
  - intro H. rewrite <- P4. apply Hext. intros. rewrite H. ring.
  - split.
    + do 2 f_equal. rewrite (Hext _ (fun i x => (-1) * (u i x - v i x))) by (intros; ring). rewrite P2. rewrite (Rabs_left (-1)) by lra. ring.
    + eexists. eexists. split; [reflexivity|]. split; [reflexivity|]. eapply Rle_trans; [|apply P3]. right. apply Hext. intros; ring.
Qed.
Print Assumptions C44_error_is_a_distance.

(** Row i of the table holds the dimension and the three errors of refinement i in order; the first row has no order (nan),
    every later one log2(previous error / error). *)
Theorem C44_table : forall V (dim : V -> nat) (error_of : V -> list R) solvers i s, nth_error solvers i = Some s ->
  exists eocs, nth_error (eoc_calculator dim error_of solvers) i = Some (dim s, error_of s, eocs) /\ length eocs = 3%nat /\
  length (eoc_calculator dim error_of solvers) = length solvers /\
  forall k, (k < 3)%nat -> (i = 0%nat -> nth_error eocs k = Some None) /\
    (forall j s', i = S j -> nth_error solvers j = Some s' -> nth_error eocs k = Some (Some (ln (nth k (error_of s') 0 / nth k (error_of s) 0) / ln 2))).
Proof.
  intros V dim error_of. unfold eoc_calculator.
  assert (G : forall solvers index done i s, length done = index -> nth_error solvers i = Some s ->
    exists eocs, nth_error (eoc_rows dim error_of index done solvers) i = Some (dim s, error_of s, eocs) /\ length eocs = 3%nat /\
    length (eoc_rows dim error_of index done solvers) = length solvers /\
    forall k, (k < 3)%nat -> ((index + i)%nat = 0%nat -> nth_error eocs k = Some None) /\
      (forall j, (index + i)%nat = S j -> nth_error eocs k = Some (Some (ln (nth k (nth j (done ++ map error_of solvers) []) 0 / nth k (error_of s) 0) / ln 2)))).
  { induction solvers as [|v solvers IH]; intros index done i s Ld Hi; [destruct i; discriminate|]. cbn [eoc_rows].
    assert (Len : length (eoc_rows dim error_of (S index) (done ++ [error_of v]) solvers) = length solvers).
    { clear. generalize (S index), (done ++ [error_of v]). induction solvers as [|a l IH]; intros; cbn; auto. }
    destruct i as [|i].
    - injection Hi as ->. eexists. split; [reflexivity|]. split; [rewrite map_length, seq_length; reflexivity|]. split; [cbn; rewrite Len; reflexivity|].
      intros k Hk. rewrite Nat.add_0_r.
      assert (X : forall h : nat -> option R, nth_error (map h (seq 0 3)) k = Some (h k)) by (intro h; destruct k as [|[|[|k]]]; [reflexivity|reflexivity|reflexivity|lia]).
      rewrite X. split.
      + intros ->. reflexivity.
      + intros j Ej. rewrite Ej. cbn [calculate_eoc]. unfold log2. do 5 f_equal.
        * rewrite (nth_map' (fun e => nth k e 0) _ j []) by (rewrite app_length; cbn; lia). rewrite !app_nth1 by lia. reflexivity.
        * rewrite (nth_map' (fun e => nth k e 0) _ (S j) []) by (rewrite app_length; cbn; lia). rewrite app_nth2 by lia. rewrite Ld, Ej, Nat.sub_diag. reflexivity.
    - destruct (IH (S index) (done ++ [error_of v]) i s) as [eocs [A [B [C K]]]]; [rewrite app_length; cbn; lia|exact Hi|].
      exists eocs. split; [exact A|]. split; [exact B|]. split; [cbn; rewrite Len; reflexivity|].
      intros k Hk. destruct (K k Hk) as [K1 K2]. split; [intro; lia|]. intros j Ej. rewrite (K2 j) by lia. rewrite <- app_assoc. reflexivity. }
  intros solvers i s Hi. destruct (G solvers 0%nat [] i s eq_refl Hi) as [eocs [A [B [C K]]]]. exists eocs. split; [exact A|]. split; [exact B|]. split; [exact C|].
  intros k Hk. destruct (K k Hk) as [K1 K2]. split; [exact K1|]. intros j s' -> Hj. rewrite (K2 j) by lia. cbn [app].
  rewrite (nth_error_nth (map error_of solvers) j [] (x := error_of s')); [reflexivity|]. apply map_nth_error. exact Hj.
Qed.
Print Assumptions C44_table.

(** If the errors are C h^p on the refined meshes, every order after the first is exactly p. The meshes are the given one refined by 2^i. *)
Theorem C44_exact_order : forall (C p length : R) mesh_size refine (dim : nat -> nat) k i,
  0 < C -> 0 < length -> (0 < mesh_size)%nat -> (k < 3)%nat -> (S i < refine)%nat ->
  let error_of := fun size : nat => repeat (C * Rpower (length / INR size) p) 3 in
  exists row, nth_error (eoc_calculator dim error_of (eoc_mesh_sizes mesh_size refine)) (S i) = Some row /\ nth_error (snd row) k = Some (Some p) /\
  nth_error (eoc_mesh_sizes mesh_size refine) (S i) = Some (2 ^ (S i) * mesh_size)%nat.
Proof.
  intros C p len mesh_size refine dim k i HC HL Hm Hk Hi error_of.
  assert (N : forall j, (j < refine)%nat -> nth_error (eoc_mesh_sizes mesh_size refine) j = Some (2 ^ j * mesh_size)%nat).
  { intros j Hj. unfold eoc_mesh_sizes. apply (map_nth_error (fun i => (2 ^ i * mesh_size)%nat)). rewrite nth_error_nth' with (d := 0%nat) by (rewrite seq_length; lia). rewrite seq_nth by lia. reflexivity. }
  destruct (C44_table nat dim error_of (eoc_mesh_sizes mesh_size refine) (S i) _ (N (S i) Hi)) as [eocs [A [B [_ K]]]].
  eexists. split; [exact A|]. split; [|apply N; auto]. cbn [snd]. destruct (K k Hk) as [_ K2]. rewrite (K2 i _ eq_refl (N i ltac:(lia))). do 2 f_equal.
  unfold error_of. assert (Rp : forall a : R, nth k (repeat a 3) 0 = a) by (intro a; destruct k as [|[|[|k]]]; [reflexivity|reflexivity|reflexivity|lia]). rewrite !Rp.
  assert (P2 : (0 < 2 ^ i)%nat) by (apply Nat.neq_0_lt_0, Nat.pow_nonzero; lia). cbn [Nat.pow].
  set (s := INR (2 ^ i * mesh_size)). assert (Ps : 0 < s) by (apply lt_0_INR; nia).
  replace (INR ((2 * 2 ^ i) * mesh_size)) with (2 * s) by (unfold s; rewrite <- Nat.mul_assoc, (mult_INR 2); reflexivity).
  set (x := len / s). assert (Px : 0 < x) by (apply Rdiv_lt_0_compat; auto).
  replace (len / (2 * s)) with (x / 2) by (unfold x; field; lra).
  assert (Pr : forall y, 0 < Rpower y p) by (intro; apply exp_pos).
  replace (C * Rpower x p / (C * Rpower (x / 2) p)) with (Rpower x p / Rpower (x / 2) p) by (field; split; [apply Rgt_not_eq, Pr|lra]).
  rewrite ln_div by apply Pr. unfold Rpower. rewrite !ln_exp. rewrite (ln_div x 2) by lra.
  assert (L2 : ln 2 <> 0). { pose proof ln_lt_2. lra. } field. exact L2.
Qed.
Print Assumptions C44_exact_order.
Example C44_ex : eoc_mesh_sizes 16 4 = [16; 32; 64; 128]%nat.
Proof. reflexivity. Qed.
