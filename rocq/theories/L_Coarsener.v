From Coq Require Import Reals List Lia Lra Arith Bool.
From Verif Require Import Prelude L_Prelude M_Coarsener S_Coarsener.
Import ListNotations.
Open Scope R_scope.

Section C.
Context {W : Type} `{CellLaws W}.

Lemma coarsen_fold d n (v : list W) m :
  (0 < d)%nat -> length v = (n * d)%nat -> (m < d)%nat ->
  exists f,
  fold_left (fun acc i => map2 cadd acc (stride i d v)) (seq 1 m) (stride 0 d v)
  = tab n f /\
  forall i k, ccoord k (f i) = rsum (tab (S m) (fun j => ccoord k (nth (i * d + j) v czero))).
Proof.
  intros Hd Hl. induction m; intro Hm.
  - exists (fun i => nth (i * d) v czero). split.
    + simpl. rewrite (stride_tab d n v czero) by (auto; lia).
      apply tab_ext. intros. f_equal. lia.
    + intros. rewrite rsum_tab_S. simpl. rewrite Nat.add_0_r. lra.
  - destruct IHm as [f [E F]]; [lia|].
    exists (fun i => cadd (f i) (nth (i * d + S m) v czero)). split.
    + rewrite seq_S, fold_left_app, E. simpl fold_left.
      rewrite (stride_tab d n v czero) by (auto; lia).
      rewrite map2_tab. reflexivity.
    + intros. rewrite ccoord_add, F, (rsum_tab_S (S m)). reflexivity.
Qed.

Lemma coarsen_vector_tab d n (v : list W) :
  (0 < d)%nat -> length v = (n * d)%nat ->
  exists f, coarsen_vector d v = tab n f /\
  forall i k, ccoord k (f i) =
    rsum (tab d (fun j => ccoord k (nth (i * d + j) v czero))) / INR d.
Proof.
  intros Hd Hl. unfold coarsen_vector.
  destruct (coarsen_fold d n v (d - 1) Hd Hl) as [f [E F]]; [lia|].
  exists (fun i => cscal (1 / INR d) (f i)). split.
  - rewrite E. apply map_tab.
  - intros. rewrite ccoord_scal, F. replace (S (d - 1)) with d by lia.
    assert (INR d <> 0) by (apply not_0_INR; lia). field; auto.
Qed.

Lemma block_average_unique d (fine c1 c2 : list W) :
  (0 < d)%nat -> block_average d fine c1 -> block_average d fine c2 -> c1 = c2.
Proof.
  intros Hd [L1 E1] [L2 E2].
  assert (length c1 = length c2) by nia.
  apply (list_ext czero); auto. intros i Hi. ceq.
  rewrite E1, E2 by congruence. reflexivity.
Qed.

Lemma coarsen_vector_spec d (v : list W) :
  (0 < d)%nat -> (length v mod d = 0)%nat -> block_average d v (coarsen_vector d v).
Proof.
  intros Hd Hm. apply Nat.mod_divides in Hm; [|lia]. destruct Hm as [n Hn].
  rewrite Nat.mul_comm in Hn.
  destruct (coarsen_vector_tab d n v Hd Hn) as [f [E F]].
  split; rewrite E, tab_length; auto.
  intros. rewrite nth_tab by auto. apply F.
Qed.

Lemma coarsen_ok_iff d (v c : list W) :
  (0 < d)%nat -> (coarsen d v = Ok c <-> block_average d v c).
Proof.
  intro Hd. unfold coarsen. destruct d as [|d']; [lia|]. set (d := S d') in *.
  split.
  - destruct (Nat.eqb_spec (length v mod d) 0) as [e|e]; [|discriminate].
    intro E; inversion E; subst. apply coarsen_vector_spec; auto.
  - intro B. destruct (Nat.eqb_spec (length v mod d) 0) as [e|e].
    + f_equal. eapply block_average_unique; eauto. apply coarsen_vector_spec; auto.
    + exfalso. apply e. destruct B as [L _]. rewrite L. apply Nat.mod_mul. lia.
Qed.

Lemma coarsen_err_iff d (v : list W) :
  (0 < d)%nat -> (coarsen d v = Err ValueError <-> ~ exists n, length v = (n * d)%nat).
Proof.
  intro Hd. unfold coarsen. destruct d as [|d']; [lia|]. set (d := S d') in *.
  destruct (Nat.eqb_spec (length v mod d) 0) as [e|e]; split; intro E.
  - discriminate.
  - exfalso. apply E. apply Nat.mod_divides in e; [|lia]. destruct e as [n e].
    exists n. lia.
  - intros [n Hn]. apply e. rewrite Hn. apply Nat.mod_mul. lia.
  - reflexivity.
Qed.

Lemma coarsen_total d (v : list W) :
  (0 < d)%nat -> (exists c, coarsen d v = Ok c) \/ coarsen d v = Err ValueError.
Proof.
  intro Hd. unfold coarsen. destruct d; [lia|].
  destruct (Nat.eqb _ _); eauto.
Qed.

Lemma coarsen_correct d (v : list W) :
  (0 < d)%nat ->
  (forall c, coarsen d v = Ok c <-> block_average d v c) /\
  ((exists n, length v = (n * d)%nat) -> exists c, coarsen d v = Ok c) /\
  (~ (exists n, length v = (n * d)%nat) <-> coarsen d v = Err ValueError).
Proof.
  intro Hd. split; [|split].
  - intro c. apply coarsen_ok_iff; auto.
  - intros [n Hn]. destruct (coarsen_total d v Hd) as [|E]; auto.
    apply coarsen_err_iff in E; auto. exfalso; eauto.
  - symmetry. apply coarsen_err_iff; auto.
Qed.

(* conservation of the sum *)
Lemma coarsen_sum d (v c : list W) k :
  (0 < d)%nat -> coarsen d v = Ok c ->
  INR d * rsum (map (ccoord k) c) = rsum (map (ccoord k) v).
Proof.
  intros Hd E. apply coarsen_ok_iff in E; auto. destruct E as [L E].
  assert (INR d <> 0) by (apply not_0_INR; lia).
  rewrite (list_tab czero v) at 1. rewrite (list_tab czero c) at 1.
  rewrite !map_tab, L, rsum_tab_block, <- rsum_tab_scal.
  f_equal. apply tab_ext. intros i Hi. rewrite E by auto. field; auto.
Qed.

Lemma coarsen_bounds d (v c : list W) k lo hi :
  (0 < d)%nat -> coarsen d v = Ok c ->
  forall i, (i < length c)%nat ->
  (forall j, (j < d)%nat -> lo <= ccoord k (nth (i * d + j) v czero) <= hi) ->
  lo <= ccoord k (nth i c czero) <= hi.
Proof.
  intros Hd E i Hi HB. apply coarsen_ok_iff in E; auto. destruct E as [L E].
  rewrite E by auto. assert (0 < INR d) by (apply lt_0_INR; lia).
  assert (INR d * lo <= rsum (tab d (fun j => ccoord k (nth (i * d + j) v czero))) <= INR d * hi).
  { rewrite <- !rsum_tab_const. split; apply rsum_tab_le; intros; apply HB; auto. }
  split.
  - apply Rmult_le_reg_l with (INR d); auto. unfold Rdiv. field_simplify; lra.
  - apply Rmult_le_reg_l with (INR d); auto. unfold Rdiv. field_simplify; lra.
Qed.

Lemma coarsen_compose d e (v c1 c2 : list W) :
  (0 < d)%nat -> (0 < e)%nat ->
  coarsen d v = Ok c1 -> coarsen e c1 = Ok c2 -> coarsen (e * d) v = Ok c2.
Proof.
  intros Hd He E1 E2.
  assert (INR d <> 0) by (apply not_0_INR; lia).
  assert (INR e <> 0) by (apply not_0_INR; lia).
  apply coarsen_ok_iff in E1; auto. apply coarsen_ok_iff in E2; auto.
  apply coarsen_ok_iff; [nia|]. destruct E1 as [L1 E1], E2 as [L2 E2]. split; [nia|].
  intros i k Hi. rewrite E2 by auto. rewrite rsum_tab_block.
  rewrite (tab_ext e _ (fun j => / INR d * rsum (tab d (fun l => ccoord k (nth (i * (e * d) + (j * d + l)) v czero))))).
  - rewrite rsum_tab_scal, mult_INR. field; auto.
  - intros j Hj. rewrite E1 by nia. unfold Rdiv. rewrite Rmult_comm. f_equal. f_equal.
    apply tab_ext. intros. do 2 f_equal. nia.
Qed.

Lemma coarsen_linear d (v w cv cw : list W) a b :
  (0 < d)%nat -> length v = length w ->
  coarsen d v = Ok cv -> coarsen d w = Ok cw ->
  coarsen d (map2 (fun x y => cadd (cscal a x) (cscal b y)) v w)
  = Ok (map2 (fun x y => cadd (cscal a x) (cscal b y)) cv cw).
Proof.
  intros Hd Hl E1 E2.
  assert (INR d <> 0) by (apply not_0_INR; lia).
  apply coarsen_ok_iff in E1; auto. apply coarsen_ok_iff in E2; auto.
  apply coarsen_ok_iff; auto. destruct E1 as [L1 E1], E2 as [L2 E2].
  assert (length cv = length cw) by nia.
  split.
  - rewrite !map2_length. rewrite <- Hl, <- H2, !Nat.min_id. auto.
  - intros i k Hi. rewrite map2_length, <- H2, Nat.min_id in Hi.
    rewrite (nth_map2 _ cv cw i czero czero) by congruence.
    rewrite ccoord_add, !ccoord_scal, E1, E2 by congruence.
    rewrite (tab_ext d (fun j => ccoord k (nth (i * d + j) (map2 _ v w) czero))
             (fun j => a * ccoord k (nth (i * d + j) v czero)
                       + b * ccoord k (nth (i * d + j) w czero))).
    2:{ intros j Hj. rewrite (nth_map2 _ v w _ czero czero) by nia.
        rewrite ccoord_add, !ccoord_scal. reflexivity. }
    rewrite rsum_tab_plus, !rsum_tab_scal. field; auto.
Qed.

Lemma coarsen_mono d (v w cv cw : list W) k :
  (0 < d)%nat -> length v = length w ->
  coarsen d v = Ok cv -> coarsen d w = Ok cw ->
  (forall i, (i < length v)%nat -> ccoord k (nth i v czero) <= ccoord k (nth i w czero)) ->
  forall i, (i < length cv)%nat -> ccoord k (nth i cv czero) <= ccoord k (nth i cw czero).
Proof.
  intros Hd Hl E1 E2 HM i Hi.
  assert (0 < INR d) by (apply lt_0_INR; lia).
  apply coarsen_ok_iff in E1; auto. apply coarsen_ok_iff in E2; auto.
  destruct E1 as [L1 E1], E2 as [L2 E2].
  rewrite E1, E2 by nia. unfold Rdiv.
  apply Rmult_le_compat_r; [left; apply Rinv_0_lt_compat; auto|].
  apply rsum_tab_le. intros. apply HM. nia.
Qed.

Lemma coarsen_const d n (x : W) :
  (0 < d)%nat -> coarsen d (repeat x (n * d)) = Ok (repeat x n).
Proof.
  intro Hd. apply coarsen_ok_iff; auto. split; rewrite !repeat_length; auto.
  intros i k Hi. assert (INR d <> 0) by (apply not_0_INR; lia).
  assert (R0 : forall m j, (j < m)%nat -> nth j (repeat x m) czero = x).
  { intros m j Hj. rewrite (nth_indep _ czero x) by (rewrite repeat_length; auto).
    apply nth_repeat. }
  rewrite R0 by auto.
  erewrite tab_ext; [|intros; rewrite R0 by nia; reflexivity].
  rewrite rsum_tab_const. field; auto.
Qed.
End C.
