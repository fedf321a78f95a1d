(** Lemmas about the norms. *)
From Coq Require Import Reals List Lia Lra Arith Bool.
From Coquelicot Require Import Coquelicot.
From Verif Require Import Prelude L_Prelude M_Mesh L_Mesh M_Quadrature S_Poly L_Poly S_Quadrature L_Flux L_Quadrature P_Quadrature M_Boundary L_Boundary M_Neighbours M_Norm S_Norm.
Import ListNotations.
Open Scope R_scope.

Definition dcell : interval := {| ia := 0; ib := 0 |}.
Lemma over_cells_tab {A} m (f : nat -> interval -> A) : over_cells m f = tab (m_len m) (fun c => f c (nth c (m_cells m) dcell)).
Proof.
  unfold over_cells, m_len, tab.
  assert (G : forall l k, map2 f (seq k (length l)) l = map (fun c => f c (nth (c - k) l dcell)) (seq k (length l))).
  { clear. induction l as [|a l IH]; intro k; [reflexivity|]. cbn [length seq map2 map]. rewrite Nat.sub_diag. cbn [nth]. f_equal.
    rewrite IH. apply map_ext_in. intros c Hc. apply in_seq in Hc. replace (c - k)%nat with (S (c - S k)) by lia. reflexivity. }
  rewrite G. apply map_ext. intro c. rewrite Nat.sub_0_r. reflexivity.
Qed.
Lemma map2_weights w x (g : R -> R) : length w = length x -> rsum (map2 Rmult w (map g x)) = rsum (tab (length x) (fun j => nth j w 0 * g (nth j x 0))).
Proof.
  intro E. f_equal. apply (list_ext 0); [rewrite map2_length, map_length, tab_length; lia|]. intros i Hi. rewrite map2_length, map_length in Hi.
  rewrite (nth_map2 Rmult w (map g x) i 0 0) by (rewrite ?map_length; lia). rewrite nth_tab by lia. rewrite (nth_map' g x i 0) by lia. reflexivity.
Qed.

(** positive linear functionals *)
Definition positive_functional (S : cfun -> R) : Prop :=
  (forall f g, S (fun i x => f i x + g i x) = S f + S g) /\ (forall c f, S (fun i x => c * f i x) = c * S f) /\ (forall f, (forall i x, 0 <= f i x) -> 0 <= S f).
Section Functional.
Context (F : cfun -> R) (PF : positive_functional F).
Context (Fext : forall f g, (forall i x, f i x = g i x) -> F f = F g).
Lemma F_mono f g : (forall i x, f i x <= g i x) -> F f <= F g.
Proof.
  intro H. destruct PF as [A [B C]]. assert (0 <= F (fun i x => g i x + (-1) * f i x)) as X by (apply C; intros i x; specialize (H i x); lra).
  rewrite A, B in X. lra.
Qed.
Lemma cauchy_schwarz f g : (F (fun i x => f i x * g i x)) ^ 2 <= F (fun i x => f i x ^ 2) * F (fun i x => g i x ^ 2).
Proof.
  destruct PF as [A [B C]]. set (a := F (fun i x => f i x ^ 2)). set (b := F (fun i x => f i x * g i x)). set (c := F (fun i x => g i x ^ 2)).
  assert (P : forall s t, 0 <= s ^ 2 * a + 2 * s * t * b + t ^ 2 * c).
  { intros s t. assert (X : 0 <= F (fun i x => (s * f i x + t * g i x) ^ 2)) by (apply C; intros; apply pow2_ge_0).
    rewrite (Fext _ (fun i x => s ^ 2 * (f i x ^ 2) + (2 * s * t * (f i x * g i x) + t ^ 2 * (g i x ^ 2)))) in X by (intros; ring).
    rewrite !A, !B in X. fold a b c in X. lra. }
  assert (0 <= a) by (apply C; intros; apply pow2_ge_0). assert (0 <= c) by (apply C; intros; apply pow2_ge_0).
  destruct (Req_dec c 0) as [Z|Z].
  - rewrite Z in *. destruct (Req_dec b 0) as [Y|Y]; [rewrite Y; lra|]. exfalso.
    specialize (P 1 (- (a + 1) / (2 * b))). replace (1 ^ 2 * a + 2 * 1 * (- (a + 1) / (2 * b)) * b + (- (a + 1) / (2 * b)) ^ 2 * 0) with (-1) in P by (field; auto). lra.
  - specialize (P c (- b)). assert (0 < c) by lra. replace (c ^ 2 * a + 2 * c * - b * b + (- b) ^ 2 * c) with (c * (a * c - b ^ 2)) in P by ring.
    destruct (Rle_dec (b ^ 2) (a * c)); auto. exfalso. assert (a * c - b ^ 2 < 0) by lra. nra.
Qed.
Lemma l2_seminorm : is_seminorm (fun f => sqrt (F (fun i x => f i x ^ 2))).
Proof.
  destruct PF as [A [B C]]. split; [|split; [|split]].
  - intro f. apply sqrt_pos.
  - intros c f. rewrite (Fext _ (fun i x => c ^ 2 * f i x ^ 2)) by (intros; ring). rewrite B, sqrt_mult; [|apply pow2_ge_0|apply C; intros; apply pow2_ge_0].
    rewrite <- sqrt_Rsqr_abs. unfold Rsqr. cbn [pow]. rewrite Rmult_1_r. reflexivity.
  - intros f g. pose proof (cauchy_schwarz f g) as CS.
    rewrite (Fext (fun i x => (f i x + g i x) ^ 2) (fun i x => f i x ^ 2 + (2 * (f i x * g i x) + g i x ^ 2))) by (intros; ring). rewrite !A, B.
    set (a := F (fun i x => f i x ^ 2)) in *. set (b := F (fun i x => f i x * g i x)) in *. set (c := F (fun i x => g i x ^ 2)) in *.
    assert (Ha : 0 <= a) by (apply C; intros; apply pow2_ge_0). assert (Hc : 0 <= c) by (apply C; intros; apply pow2_ge_0).
    assert (b <= sqrt a * sqrt c).
    { rewrite <- sqrt_mult by auto. apply Rle_trans with (Rabs b); [apply Rle_abs|]. rewrite <- sqrt_Rsqr_abs. apply sqrt_le_1_alt. unfold Rsqr. lra. }
    rewrite <- (sqrt_pow2 (sqrt a + sqrt c)) by (pose proof (sqrt_pos a); pose proof (sqrt_pos c); lra). apply sqrt_le_1_alt.
    pose proof (sqrt_sqrt a Ha). pose proof (sqrt_sqrt c Hc). nra.
  - rewrite (Fext _ (fun i x => 0 * 0)) by (intros; ring). rewrite B, Rmult_0_l. apply sqrt_0.
Qed.
Lemma l1_seminorm : is_seminorm (fun f => F (fun i x => Rabs (f i x))).
Proof.
  destruct PF as [A [B C]]. split; [|split; [|split]].
  - intro f. apply C. intros; apply Rabs_pos.
  - intros c f. rewrite (Fext _ (fun i x => Rabs c * Rabs (f i x))) by (intros; apply Rabs_mult). apply B.
  - intros f g. rewrite <- A. apply F_mono. intros; apply Rabs_triang.
  - rewrite (Fext _ (fun i x => 0 * 0)) by (intros; rewrite Rabs_R0; ring). rewrite B. ring.
Qed.
End Functional.

Definition cell_sum (Q : quadrature) (m : mesh) (g : cfun) : R :=
  rsum (over_cells m (fun c cell => norm_on_cell Q (g c) cell)).
Lemma cell_sum_tab Q m g : length (q_weights Q) = length (q_nodes Q) ->
  cell_sum Q m g = rsum (tab (m_len m) (fun c => ilength (nth c (m_cells m) dcell) *
    rsum (tab (length (q_nodes Q)) (fun j => nth j (q_weights Q) 0 * g c (affine (nth j (q_nodes Q) 0) (nth c (m_cells m) dcell)))))).
Proof.
  intro E. unfold cell_sum. rewrite over_cells_tab. f_equal. apply tab_ext. intros c Hc. unfold norm_on_cell, affine_derivative. f_equal.
  rewrite (map2_weights _ _ (fun node => g c (affine node (nth c (m_cells m) dcell)))) by auto. reflexivity.
Qed.
Lemma cell_sum_ext Q m f g : (forall i x, f i x = g i x) -> cell_sum Q m f = cell_sum Q m g.
Proof.
  intro H. unfold cell_sum, over_cells. f_equal. generalize (seq 0 (m_len m)). generalize (m_cells m). intros l l'. revert l.
  induction l' as [|a l' IH]; intros [|b l]; cbn [map2]; auto. rewrite IH. f_equal. unfold norm_on_cell. do 3 f_equal. apply map_ext. intro; apply H.
Qed.
Lemma cell_sum_positive Q m : length (q_weights Q) = length (q_nodes Q) -> (forall w, In w (q_weights Q) -> 0 < w) ->
  (forall c, In c (m_cells m) -> 0 < ilength c) -> positive_functional (cell_sum Q m).
Proof.
  intros E W P. split; [|split].
  - intros f g. rewrite !cell_sum_tab by auto. rewrite <- rsum_tab_plus. f_equal. apply tab_ext. intros c Hc. rewrite <- Rmult_plus_distr_l, <- rsum_tab_plus.
    do 2 f_equal. apply tab_ext. intros j Hj. ring.
  - intros k f. rewrite !cell_sum_tab by auto. rewrite <- rsum_tab_scal. f_equal. apply tab_ext. intros c Hc.
    rewrite (tab_ext _ (fun j => nth j (q_weights Q) 0 * (k * f c (affine (nth j (q_nodes Q) 0) (nth c (m_cells m) dcell)))) (fun j => k * (nth j (q_weights Q) 0 * f c (affine (nth j (q_nodes Q) 0) (nth c (m_cells m) dcell))))) by (intros; ring).
    rewrite rsum_tab_scal. ring.
  - intros f H. rewrite cell_sum_tab by auto. 
    assert (Z : forall k, rsum (tab k (fun _ => 0)) = 0) by (intro k; rewrite rsum_tab_const; ring).
    rewrite <- (Z (m_len m)). apply rsum_tab_le. intros c Hc. apply Rmult_le_pos.
    + left. apply P, nth_In. exact Hc.
    + rewrite <- (Z (length (q_nodes Q))). apply rsum_tab_le. intros j Hj. apply Rmult_le_pos; [left; apply W, nth_In; lia|apply H].
Qed.

(** the mesh of a domain has cells of positive length *)
Lemma mesh_cells D n m : (0 < n)%nat -> ia D < ib D -> new_mesh D n = Ok m ->
  m_len m = n /\ m_cells m = tab n (unif_cell D n) /\ (forall c, In c (m_cells m) -> ilength c = (ib D - ia D) / INR n /\ 0 < ilength c).
Proof.
  intros Hn HD E. rewrite new_mesh_ok in E by auto. apply Ok_inj in E. subst m. unfold m_len. cbn [m_cells]. rewrite tab_length.
  split; [auto|]. split; [auto|]. intros c Hc. apply in_tab in Hc. destruct Hc as [i [Hi <-]].
  pose proof (unif_cell_step D n Hn HD). unfold unif_cell, ilength in *. cbn [ia ib] in *. rewrite S_INR.
  assert (X : ia D + (INR i + 1) * ((ib D - ia D) / INR n) - (ia D + INR i * ((ib D - ia D) / INR n)) = (ib D - ia D) / INR n) by ring. rewrite X. auto.
Qed.
Lemma or_default_pos o d : (0 < d)%nat -> (0 < or_default o d)%nat.
Proof. destruct o as [[|k]|]; cbn; lia. Qed.
