From Coq Require Import Reals List Lia Lra Arith Bool ZArith.
From Verif Require Import Prelude L_Prelude M_Mesh L_TimeStepping.
Import ListNotations.
Open Scope R_scope.

Lemma linspace_nth a b n i d :
  (0 < n)%nat -> (i <= n)%nat -> nth i (linspace a b n) d = a + INR i * ((b - a) / INR n).
Proof.
  intros Hn Hi. unfold linspace. rewrite nth_tab by lia.
  assert (INR n <> 0) by (apply not_0_INR; lia).
  destruct (Nat.eqb_spec i n); destruct (Nat.eqb_spec n 0); try lia; simpl.
  - subst. field; auto.
  - ring.
Qed.

Lemma build_cells_ok grid :
  (forall i, (S i < length grid)%nat -> nth i grid 0 < nth (S i) grid 0) ->
  build_cells grid = Ok (tab (length grid - 1) (fun i => {| ia := nth i grid 0; ib := nth (S i) grid 0 |})).
Proof.
  induction grid as [|x rest IH]; intro H; [reflexivity|].
  destruct rest as [|y rest]; [reflexivity|].
  change (build_cells (x :: y :: rest)) with
    (bind (new_interval x y) (fun c => bind (build_cells (y :: rest)) (fun cs => Ok (c :: cs)))).
  rewrite IH.
  - unfold new_interval. rewrite Rltb_true by (apply (H 0%nat); simpl; lia).
    simpl bind. simpl length. rewrite Nat.sub_0_r.
    change (S (S (length rest)) - 1)%nat with (S (length rest)).
    rewrite tab_S. reflexivity.
  - intros i Hi. apply (H (S i)). simpl in *. lia.
Qed.

Definition unif_cell (D : interval) (n i : nat) : interval :=
  {| ia := ia D + INR i * (ilength D / INR n); ib := ia D + INR (S i) * (ilength D / INR n) |}.

Lemma new_mesh_ok (D : interval) n :
  (0 < n)%nat -> ia D < ib D ->
  new_mesh D n = Ok {| m_domain := D; m_cells := tab n (unif_cell D n); m_step := ilength D / INR n |}.
Proof.
  intros Hn HD. unfold new_mesh.
  assert (L : length (linspace (ia D) (ib D) n) = S n) by (unfold linspace; apply tab_length).
  assert (0 < (ib D - ia D) / INR n).
  { apply Rmult_lt_0_compat; [lra|]. apply Rinv_0_lt_compat. apply lt_0_INR; lia. }
  rewrite build_cells_ok.
  - rewrite L. cbn [bind]. f_equal. f_equal. change (S n - 1)%nat with (n - 0)%nat.
    rewrite ?Nat.sub_0_r. apply tab_ext. intros i Hi.
    rewrite !linspace_nth by lia. reflexivity.
  - rewrite L. intros i Hi. rewrite !linspace_nth by lia. rewrite S_INR. lra.
Qed.

Lemma unif_cell_step (D : interval) n : (0 < n)%nat -> ia D < ib D -> 0 < ilength D / INR n.
Proof.
  intros. unfold ilength. apply Rmult_lt_0_compat; [lra|]. apply Rinv_0_lt_compat.
  apply lt_0_INR; lia.
Qed.

Lemma cover (D : interval) n x :
  (0 < n)%nat -> ia D < ib D -> ia D <= x <= ib D ->
  exists i, (i < n)%nat /\ ia (unif_cell D n i) <= x <= ib (unif_cell D n i).
Proof.
  intros Hn HD Hx. pose proof (unif_cell_step D n Hn HD) as Hs.
  unfold unif_cell; cbn [ia ib].
  set (h := ilength D / INR n) in *.
  assert (Hnh : INR n * h = ib D - ia D).
  { unfold h, ilength. field. apply not_0_INR; lia. }
  clearbody h.
  assert (exists i, (i < n)%nat /\ ia D + INR i * h <= x <= ia D + INR (S i) * h).
  { assert (G : forall m, (m <= n)%nat -> x <= ia D + INR m * h -> (0 < m)%nat ->
        exists i, (i < m)%nat /\ ia D + INR i * h <= x <= ia D + INR (S i) * h).
    { induction m; intros Hm H1 H2; [lia|].
      destruct (Rle_dec (ia D + INR m * h) x).
      - exists m. split; [lia|]. split; auto.
      - destruct m.
        + simpl in n0. lra.
        + destruct IHm as [i [Hi Hi2]]; try lia; try lra. exists i. split; [lia|auto]. }
    apply G; auto. lra. }
  exact H.
Qed.

Lemma unif_len (D : interval) n : rsum (map ilength (tab n (unif_cell D n))) =
   INR n * (ilength D / INR n).
Proof.
  rewrite map_tab. rewrite (tab_ext n _ (fun _ => ilength D / INR n)).
  - apply rsum_tab_const.
  - intros. unfold unif_cell, ilength at 1; cbn [ia ib]. rewrite S_INR. ring.
Qed.

Lemma unif_disjoint (D : interval) n i j x :
  (0 < n)%nat -> ia D < ib D -> (i < j)%nat ->
  x <= ib (unif_cell D n i) -> ia (unif_cell D n j) <= x ->
  j = S i /\ x = ia (unif_cell D n j).
Proof.
  intros Hn HD Hij H1 H2. pose proof (unif_cell_step D n Hn HD) as Hs.
  simpl in *. set (h := ilength D / INR n) in *. clearbody h.
  change (match i with O => 1 | S _ => INR i + 1 end) with (INR (S i)) in *.
  assert (INR (S i) <= INR j) by (apply le_INR; lia).
  destruct (Nat.eq_dec j (S i)).
  - subst. split; auto. change (match i with O => 1 | S _ => INR i + 1 end) with (INR (S i)) in *. lra.
  - exfalso. assert (INR (S (S i)) <= INR j) by (apply le_INR; lia).
    rewrite (S_INR (S i)) in H0. nra.
Qed.

Lemma ieqb_true c d : ieqb c d = true <-> c = d.
Proof.
  destruct c as [a b], d as [a' b']. unfold ieqb; simpl.
  destruct (Reqb_spec a a'); destruct (Reqb_spec b b'); simpl; split; intro E; try congruence;
  inversion E; contradiction.
Qed.

Lemma icontains_spec c x : icontains c x = true <-> ia c <= x <= ib c.
Proof.
  unfold icontains. destruct (Rleb_spec (ia c) x), (Rleb_spec x (ib c)); simpl; split; intro; try lra;
  try discriminate; auto.
Qed.

Lemma cell_index_tab n f i :
  (i < n)%nat -> (forall a b, f a = f b -> a = b) -> cell_index (tab n f) (f i) = i.
Proof.
  revert f i; induction n; intros f i Hi Hf; [lia|].
  rewrite tab_S. simpl. destruct (ieqb (f O) (f i)) eqn:E.
  - apply ieqb_true in E. apply Hf. auto.
  - destruct i. { assert (ieqb (f O) (f O) = true) by (apply ieqb_true; auto). congruence. }
    f_equal. apply (IHn (fun i => f (S i))); [lia|]. intros a b Hab. apply Hf in Hab. lia.
Qed.

Lemma unif_inj (D : interval) n a b :
  (0 < n)%nat -> ia D < ib D -> unif_cell D n a = unif_cell D n b -> a = b.
Proof.
  intros Hn HD E. pose proof (unif_cell_step D n Hn HD) as Hs.
  assert (ia (unif_cell D n a) = ia (unif_cell D n b)) by (rewrite E; auto).
  simpl in H. apply INR_eq. nra.
Qed.

Lemma flat_map_filter_tab n (f : nat -> interval) (P : nat -> bool) (cs : list interval) x :
  (forall i, (i < n)%nat -> cell_index cs (f i) = i) ->
  (forall i, (i < n)%nat -> icontains (f i) x = P i) ->
  flat_map (fun c => if icontains c x then [cell_index cs c] else []) (tab n f)
  = filter P (seq 0 n).
Proof.
  intros H1 H2.
  assert (forall l, (forall i, In i l -> (i < n)%nat) ->
     flat_map (fun c => if icontains c x then [cell_index cs c] else []) (map f l) = filter P l).
  { induction l as [|a l IH]; intro Hl; [reflexivity|]. simpl.
    rewrite H2 by (apply Hl; left; auto). rewrite IH by (intros; apply Hl; right; auto).
    rewrite H1 by (apply Hl; left; auto). destruct (P a); reflexivity. }
  apply H. intros i Hi. apply in_seq in Hi. lia.
Qed.

Lemma find_cell_indices_spec (D : interval) n m x :
  (0 < n)%nat -> ia D < ib D -> new_mesh D n = Ok m ->
  find_cell_indices m x = filter (fun i => icontains (unif_cell D n i) x) (seq 0 n).
Proof.
  intros Hn HD E. rewrite new_mesh_ok in E by auto. inversion E; subst; clear E.
  unfold find_cell_indices; simpl m_cells. apply flat_map_filter_tab; auto.
  intros i Hi. apply cell_index_tab; auto. intros a b. apply unif_inj; auto.
Qed.

Lemma filter_seq_none P a n : (forall i, (a <= i < a + n)%nat -> P i = false) -> filter P (seq a n) = [].
Proof.
  revert a; induction n; intros a H; [reflexivity|]. simpl. rewrite H by lia.
  apply IHn. intros; apply H; lia.
Qed.

Lemma filter_seq_one P n k : (k < n)%nat ->
  (forall i, (i < n)%nat -> (P i = true <-> i = k)) -> filter P (seq 0 n) = [k].
Proof.
  intros Hk H. replace n with (k + (1 + (n - k - 1)))%nat by lia.
  rewrite seq_app, filter_app, (filter_seq_none P 0 k).
  - rewrite seq_app, filter_app. cbn [plus seq filter]. assert (P k = true) as -> by (apply H; auto).
    rewrite filter_seq_none; [reflexivity|]. intros i Hi.
    destruct (P i) eqn:E; auto. apply H in E; lia.
  - intros i Hi. destruct (P i) eqn:E; auto. apply H in E; lia.
Qed.

Lemma filter_seq_two P n k : (S k < n)%nat ->
  (forall i, (i < n)%nat -> (P i = true <-> i = k \/ i = S k)) -> filter P (seq 0 n) = [k; S k].
Proof.
  intros Hk H. replace n with (k + (2 + (n - k - 2)))%nat by lia.
  rewrite seq_app, filter_app, (filter_seq_none P 0 k).
  - rewrite seq_app, filter_app. cbn [plus seq filter].
    assert (P k = true) as -> by (apply H; lia). assert (P (S k) = true) as -> by (apply H; lia).
    rewrite filter_seq_none; [reflexivity|]. intros i Hi.
    destruct (P i) eqn:E; auto. apply H in E; lia.
  - intros i Hi. destruct (P i) eqn:E; auto. apply H in E; lia.
Qed.

Lemma find_outside D n m x :
  (0 < n)%nat -> ia D < ib D -> new_mesh D n = Ok m -> ~ (ia D <= x <= ib D) ->
  find_cell_indices m x = [].
Proof.
  intros Hn HD E Hx. rewrite (find_cell_indices_spec D n m x) by auto.
  pose proof (unif_cell_step D n Hn HD) as Hs.
  apply filter_seq_none. intros i Hi. destruct (icontains _ _) eqn:Q; auto.
  apply icontains_spec in Q. simpl ia in Q. cbn [ib unif_cell] in Q.
  exfalso. apply Hx. set (h := ilength D / INR n) in *.
  assert (INR n * h = ib D - ia D).
  { unfold h, ilength. field. apply not_0_INR; lia. }
  assert (INR (S i) <= INR n) by (apply le_INR; lia).
  pose proof (pos_INR i). nra.
Qed.

Lemma find_node D n m k :
  ia D < ib D -> new_mesh D n = Ok m -> (0 < k < n)%nat ->
  find_cell_indices m (ia D + INR k * (ilength D / INR n)) = [(k - 1)%nat; k].
Proof.
  intros HD E Hk. assert (Hn : (0 < n)%nat) by lia.
  rewrite (find_cell_indices_spec D n m) by auto.
  pose proof (unif_cell_step D n Hn HD) as Hs.
  assert (E2 : [(k - 1)%nat; k] = [(k - 1)%nat; S (k - 1)]) by (f_equal; f_equal; lia).
  rewrite E2. apply filter_seq_two; [lia|]. intros i Hi.
  rewrite icontains_spec. cbn [ia ib unif_cell]. set (h := ilength D / INR n) in *. split.
  - intros [H1 H2].
    assert (INR i <= INR k) by nra. assert (INR k <= INR (S i)) by nra.
    apply INR_le in H. apply INR_le in H0. lia.
  - intros [->| ->].
    + replace (S (k - 1)) with k by lia. assert (INR (k - 1) <= INR k) by (apply le_INR; lia). nra.
    + replace (S (k - 1)) with k by lia. assert (INR k <= INR (S k)) by (apply le_INR; lia). nra.
Qed.

Lemma find_inner D n m k x :
  ia D < ib D -> new_mesh D n = Ok m -> (k < n)%nat ->
  ia D + INR k * (ilength D / INR n) < x < ia D + INR (S k) * (ilength D / INR n) ->
  find_cell_indices m x = [k].
Proof.
  intros HD E Hk Hx. assert (Hn : (0 < n)%nat) by lia.
  rewrite (find_cell_indices_spec D n m) by auto.
  pose proof (unif_cell_step D n Hn HD) as Hs.
  apply filter_seq_one; [lia|]. intros i Hi.
  rewrite icontains_spec. cbn [ia ib unif_cell]. set (h := ilength D / INR n) in *. split.
  - intros [H1 H2].
    assert (INR i < INR (S k)) by nra. assert (INR k < INR (S i)) by nra.
    apply INR_lt in H. apply INR_lt in H0. lia.
  - intros ->. lra.
Qed.

Lemma find_cells_spec D n m x :
  (0 < n)%nat -> ia D < ib D -> new_mesh D n = Ok m ->
  find_cells m x = filter (fun c => icontains c x) (m_cells m).
Proof.
  intros Hn HD E. unfold find_cells. rewrite (find_cell_indices_spec D n m) by auto.
  rewrite new_mesh_ok in E by auto. inversion E; subst; clear E. simpl m_cells.
  unfold tab.
  assert (forall l, (forall i, In i l -> (i < n)%nat) ->
   map (fun i => nth i (map (unif_cell D n) (seq 0 n)) {| ia := 0; ib := 0 |})
     (filter (fun i => icontains (unif_cell D n i) x) l)
   = filter (fun c => icontains c x) (map (unif_cell D n) l)).
  { induction l as [|a l IH]; intro Hl; [reflexivity|]. simpl.
    destruct (icontains (unif_cell D n a) x) eqn:Q; simpl.
    - rewrite IH by (intros; apply Hl; right; auto). f_equal.
      fold (tab n (unif_cell D n)). apply nth_tab. apply Hl; left; auto.
    - apply IH. intros; apply Hl; right; auto. }
  apply H. intros i Hi. apply in_seq in Hi. lia.
Qed.

Lemma find_complete D n m x :
  (0 < n)%nat -> ia D < ib D -> new_mesh D n = Ok m ->
  forall i, In i (find_cell_indices m x) <->
     exists c, nth_error (m_cells m) i = Some c /\ ia c <= x <= ib c.
Proof.
  intros Hn HD E i. rewrite (find_cell_indices_spec D n m) by auto.
  rewrite new_mesh_ok in E by auto. inversion E; subst; clear E. simpl m_cells.
  rewrite filter_In, in_seq, icontains_spec, nth_error_tab. split.
  - intros [H1 H2]. exists (unif_cell D n i). destruct (Nat.ltb_spec i n); [auto|lia].
  - intros [c [H1 H2]]. destruct (Nat.ltb_spec i n); [|discriminate].
    inversion H1; subst. split; [lia|auto].
Qed.

(* refine / coarsen *)
Lemma mesh_len D n m : (0 < n)%nat -> ia D < ib D -> new_mesh D n = Ok m ->
  m_len m = n /\ m_domain m = D /\ m_step m = ilength D / INR n.
Proof.
  intros Hn HD E. rewrite new_mesh_ok in E by auto. inversion E; subst. simpl.
  unfold m_len; simpl. rewrite tab_length. auto.
Qed.

Lemma refine_coarsen D n m d :
  (0 < n)%nat -> (0 < d)%nat -> ia D < ib D -> new_mesh D n = Ok m ->
  exists f, m_refine m d = Ok f /\ m_len f = (d * n)%nat /\ m_coarsen f d = Ok m.
Proof.
  intros Hn Hd HD E. destruct (mesh_len D n m Hn HD E) as [L [Q1 Q2]].
  unfold m_refine. rewrite L, Q1.
  assert (Hdn : (0 < d * n)%nat) by nia.
  pose proof (new_mesh_ok D (d * n) Hdn HD) as F. eexists. split; [exact F|].
  destruct (mesh_len D (d * n) _ Hdn HD F) as [L' [Q1' Q2']].
  split; [exact L'|]. unfold m_coarsen. rewrite L'. destruct d; [lia|].
  rewrite Nat.mul_comm, Nat.mod_mul by lia. simpl Nat.eqb. cbv iota.
  rewrite Nat.div_mul by lia. simpl m_domain. exact E.
Qed.

Lemma coarsen_err D n m d :
  (0 < n)%nat -> (0 < d)%nat -> ia D < ib D -> new_mesh D n = Ok m ->
  ((exists c, m_coarsen m d = Ok c /\ (m_len c * d)%nat = n /\ m_domain c = D) \/
   m_coarsen m d = Err AssertionError) /\
  (m_coarsen m d = Err AssertionError <-> ~ exists k, n = (k * d)%nat).
Proof.
  intros Hn Hd HD E. destruct (mesh_len D n m Hn HD E) as [L [Q1 Q2]].
  unfold m_coarsen. rewrite L, Q1. destruct d as [|d']; [lia|]. set (d := S d') in *.
  destruct (Nat.eqb_spec (n mod d) 0) as [e|e].
  - apply Nat.mod_divides in e; [|lia]. destruct e as [k e].
    assert (n / d = k)%nat as -> by (rewrite e, Nat.mul_comm; apply Nat.div_mul; lia).
    assert (Hk : (0 < k)%nat) by nia.
    pose proof (new_mesh_ok D k Hk HD) as F. rewrite F. split.
    + left. eexists. split; [reflexivity|]. destruct (mesh_len D k _ Hk HD F) as [L' [Q1' _]].
      split; [|auto]. unfold m_len in L'. unfold m_len; simpl in *. rewrite L'. nia.
    + split; [discriminate|]. intro Q. exfalso. apply Q. exists k. lia.
  - split; [right; auto|]. split; auto. intros _ [k Hk]. apply e. rewrite Hk. apply Nat.mod_mul. lia.
Qed.

Lemma fine_in_coarse D n d c j :
  (0 < n)%nat -> (0 < d)%nat -> ia D < ib D -> (c < n)%nat -> (j < n * d)%nat ->
  (In j (fine_grid_indices d c) <->
   ia (unif_cell D n c) <= ia (unif_cell D (n * d) j) /\
   ib (unif_cell D (n * d) j) <= ib (unif_cell D n c)).
Proof.
  intros Hn Hd HD Hc Hj. unfold fine_grid_indices. rewrite in_tab.
  assert (Hnd : (0 < n * d)%nat) by nia.
  pose proof (unif_cell_step D (n * d) Hnd HD) as Hs. cbn [ia ib unif_cell].
  assert (INR n <> 0) by (apply not_0_INR; lia).
  assert (INR d <> 0) by (apply not_0_INR; lia).
  assert (ilength D / INR n = INR d * (ilength D / INR (n * d))) as ->.
  { rewrite mult_INR. field; auto. }
  set (h := ilength D / INR (n * d)) in *. clearbody h.
  rewrite <- !Rmult_assoc, <- !mult_INR. split.
  - intros [i [Hi <-]].
    assert (INR (c * d) <= INR (d * c + i)) by (apply le_INR; nia).
    assert (INR (S (d * c + i)) <= INR (S c * d)) by (apply le_INR; nia). nra.
  - intros [H1 H2].
    assert (INR (c * d) <= INR j) by nra. assert (INR (S j) <= INR (S c * d)) by nra.
    apply INR_le in H3. apply INR_le in H4. exists (j - d * c)%nat. nia.
Qed.

Lemma fine_partition n d j :
  (0 < d)%nat -> (j < n * d)%nat ->
  exists! c, (c < n)%nat /\ In j (fine_grid_indices d c).
Proof.
  intros Hd Hj. exists (j / d)%nat. split.
  - split; [apply Nat.div_lt_upper_bound; lia|].
    unfold fine_grid_indices. rewrite in_tab. exists (j mod d)%nat. split.
    + apply Nat.mod_upper_bound. lia.
    + symmetry. apply Nat.div_mod. lia.
  - intros c [Hc Hin]. unfold fine_grid_indices in Hin. rewrite in_tab in Hin.
    destruct Hin as [i [Hi E]]. symmetry. apply Nat.div_unique with i; lia.
Qed.
