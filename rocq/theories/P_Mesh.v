(** C11 - C14: core/mesh.py and FineGridIndicesMapping *)
From Coq Require Import Reals List Lia Lra Arith Bool.
From Verif Require Import Prelude L_Prelude M_Mesh L_TimeStepping L_Mesh.
Import ListNotations.
Open Scope R_scope.

(** C11: a uniform mesh with n > 0 cells on a proper interval exists and
    partitions it into cells of equal length. *)
Theorem C11_uniform_mesh_partitions_domain :
  forall (D : interval) (n : nat), ia D < ib D -> (0 < n)%nat ->
  exists m, new_mesh D n = Ok m /\ m_domain m = D /\ m_len m = n /\
  m_step m = (ib D - ia D) / INR n /\
  m_space_steps m = repeat ((ib D - ia D) / INR n) n /\
  (* first and last cell *)
  (exists c0 c1, nth_error (m_cells m) 0 = Some c0 /\ ia c0 = ia D /\
                 nth_error (m_cells m) (n - 1) = Some c1 /\ ib c1 = ib D) /\
  (* every cell has the step length; neighbours share a node *)
  (forall i c, nth_error (m_cells m) i = Some c -> ib c - ia c = m_step m /\ 0 < m_step m) /\
  (forall i c c', nth_error (m_cells m) i = Some c -> nth_error (m_cells m) (S i) = Some c' ->
                  ib c = ia c') /\
  rsum (map ilength (m_cells m)) = ib D - ia D /\
  (* covering and non-overlapping *)
  (forall x, ia D <= x <= ib D <->
             exists i c, nth_error (m_cells m) i = Some c /\ ia c <= x <= ib c) /\
  (forall i j ci cj x, nth_error (m_cells m) i = Some ci -> nth_error (m_cells m) j = Some cj ->
     ia ci < x < ib ci -> ia cj < x < ib cj -> i = j).
Proof.
  intros D n HD Hn. pose proof (new_mesh_ok D n Hn HD) as E.
  pose proof (unif_cell_step D n Hn HD) as Hs.
  assert (Hnz : INR n <> 0) by (apply not_0_INR; lia).
  eexists. split; [exact E|]. cbn [m_domain m_cells m_step m_len m_space_steps].
  unfold m_space_steps, m_len; cbn [m_cells m_step]. rewrite tab_length.
  split; [reflexivity|]. split; [reflexivity|]. split; [reflexivity|]. split; [reflexivity|].
  assert (NE : forall i c, nth_error (tab n (unif_cell D n)) i = Some c -> (i < n)%nat /\ c = unif_cell D n i).
  { intros i c H. rewrite nth_error_tab in H. destruct (Nat.ltb_spec i n); inversion H; auto. }
  split.
  { exists (unif_cell D n 0), (unif_cell D n (n - 1)). rewrite !nth_error_tab.
    destruct (Nat.ltb_spec 0 n); [|lia]. destruct (Nat.ltb_spec (n - 1) n); [|lia].
    split; [reflexivity|]. split; [simpl; ring|]. split; [reflexivity|].
    cbn [ib unif_cell]. replace (S (n - 1)) with n by lia. unfold ilength. field; auto. }
  split.
  { intros i c H. apply NE in H as [H ->]. cbn [ia ib unif_cell]. rewrite S_INR. split; [ring|auto]. }
  split.
  { intros i c c' H H'. apply NE in H as [H ->]. apply NE in H' as [H' ->]. reflexivity. }
  split.
  { rewrite unif_len. unfold ilength. field; auto. }
  split.
  { intro x. split.
    - intro Hx. destruct (cover D n x Hn HD Hx) as [i [Hi Hx']].
      exists i, (unif_cell D n i). rewrite nth_error_tab. destruct (Nat.ltb_spec i n); [auto|lia].
    - intros [i [c [H Hx]]]. apply NE in H as [H ->]. cbn [ia ib unif_cell] in Hx.
      set (h := ilength D / INR n) in *.
      assert (INR n * h = ib D - ia D) by (unfold h, ilength; field; auto).
      assert (INR (S i) <= INR n) by (apply le_INR; lia). pose proof (pos_INR i). nra. }
  { intros i j ci cj x H1 H2 X1 X2. apply NE in H1 as [H1 ->]. apply NE in H2 as [H2 ->].
    destruct (Nat.lt_trichotomy i j) as [L|[L|L]]; auto.
    - destruct (unif_disjoint D n i j x Hn HD L); lra.
    - destruct (unif_disjoint D n j i x Hn HD L); lra. }
Qed.
Print Assumptions C11_uniform_mesh_partitions_domain.
Example C11_ex : ia {| ia := -1; ib := 3 |} < ib {| ia := -1; ib := 3 |} /\ (0 < 4)%nat.
Proof. simpl; split; [lra|lia]. Qed.

(** The Interval constructor enforces a < b. *)
Theorem C11_interval_constructor :
  forall a b, (a < b -> exists c, new_interval a b = Ok c /\ ia c = a /\ ib c = b) /\
              (~ a < b -> new_interval a b = Err AssertionError).
Proof.
  intros a b. unfold new_interval. destruct (Rltb_spec a b); split; intro; try lra; eauto.
Qed.
Print Assumptions C11_interval_constructor.

(** Membership, inner points, boundary points, centre and equality of intervals mean what they say. *)
Theorem C11_interval_geometry :
  forall a b c, new_interval a b = Ok c ->
  ilength c = b - a /\ 0 < ilength c /\
  a < icenter c < b /\ icenter c - a = b - icenter c /\
  forall x, (icontains c x = true <-> a <= x <= b) /\
            (iin_inner c x = true <-> a < x < b) /\
            (iin_boundary c x = true <-> x = a \/ x = b) /\
            icontains c x = (iin_inner c x || iin_boundary c x) /\
            (forall d, ieqb c d = true <-> c = d).
Proof.
  intros a b c E. unfold new_interval in E. destruct (Rltb_spec a b); [|discriminate]. inversion E; subst c; clear E.
  unfold ilength, icenter, icontains, iin_inner, iin_boundary, ieqb. cbn [ia ib].
  split; [reflexivity|]. split; [lra|]. split; [lra|]. split; [lra|]. intro x.
  destruct (Rleb_spec a x), (Rleb_spec x b), (Rltb_spec a x), (Rltb_spec x b), (Reqb_spec x a), (Reqb_spec x b); cbn [andb orb];
    try (exfalso; lra);
    (split; [split; intro; try discriminate; try reflexivity; lra|]);
    (split; [split; intro; try discriminate; try reflexivity; lra|]);
    (split; [split; intro; try discriminate; try reflexivity; lra|]);
    (split; [reflexivity|]);
    intro d; destruct d as [da db]; cbn [ia ib]; destruct (Reqb_spec a da), (Reqb_spec b db); cbn [andb]; subst;
      split; intro Q; try discriminate; try reflexivity; injection Q; intros; subst; congruence.
Qed.
Print Assumptions C11_interval_geometry.
Example C11_geometry_ex : exists c, new_interval (-1) 3 = Ok c.
Proof. unfold new_interval. destruct (Rltb_spec (-1) 3); [eauto|lra]. Qed.

(** C12 *)
Theorem C12_coarsen_undoes_refine :
  forall (D : interval) (n d : nat) (m : mesh),
  (0 < n)%nat -> (0 < d)%nat -> ia D < ib D -> new_mesh D n = Ok m ->
  exists f, m_refine m d = Ok f /\ m_len f = (d * n)%nat /\ m_coarsen f d = Ok m.
Proof. intros D n d m. exact (refine_coarsen D n m d). Qed.
Print Assumptions C12_coarsen_undoes_refine.

Theorem C12_coarsen_rejects_exactly_nonmultiples :
  forall (D : interval) (n d : nat) (m : mesh),
  (0 < n)%nat -> (0 < d)%nat -> ia D < ib D -> new_mesh D n = Ok m ->
  ((exists c, m_coarsen m d = Ok c /\ (m_len c * d)%nat = n /\ m_domain c = D) \/
   m_coarsen m d = Err AssertionError) /\
  (m_coarsen m d = Err AssertionError <-> ~ exists k, n = (k * d)%nat).
Proof. intros D n d m. exact (coarsen_err D n m d). Qed.
Print Assumptions C12_coarsen_rejects_exactly_nonmultiples.

(** The fine cells listed for a coarse cell are exactly those inside it. *)
Theorem C12_fine_grid_indices_exact :
  forall (D : interval) (n d : nat) (coarse fine : mesh) (c j : nat) (cc cj : interval),
  (0 < n)%nat -> (0 < d)%nat -> ia D < ib D ->
  new_mesh D n = Ok coarse -> m_refine coarse d = Ok fine ->
  nth_error (m_cells coarse) c = Some cc -> nth_error (m_cells fine) j = Some cj ->
  (In j (fine_grid_indices d c) <-> ia cc <= ia cj /\ ib cj <= ib cc).
Proof.
  intros D n d coarse fine c j cc cj Hn Hd HD E1 E2 H1 H2.
  destruct (mesh_len D n coarse Hn HD E1) as [L [Q _]].
  unfold m_refine in E2. rewrite L, Q, Nat.mul_comm in E2.
  rewrite new_mesh_ok in E1 by auto. rewrite new_mesh_ok in E2 by (auto; nia).
  inversion E1; subst coarse. inversion E2; subst fine. simpl in H1, H2.
  rewrite nth_error_tab in H1, H2.
  destruct (Nat.ltb_spec c n); [|discriminate]. destruct (Nat.ltb_spec j (n * d)); [|discriminate].
  inversion H1. inversion H2. apply fine_in_coarse; auto.
Qed.
Print Assumptions C12_fine_grid_indices_exact.

Theorem C12_fine_cells_partitioned :
  forall (n d j : nat), (0 < d)%nat -> (j < n * d)%nat ->
  exists! c, (c < n)%nat /\ In j (fine_grid_indices d c).
Proof. exact fine_partition. Qed.
Print Assumptions C12_fine_cells_partitioned.

Theorem C12_fine_grid_mapping_validation :
  forall (size d : nat), (0 < d)%nat ->
  ((exists k, size = (k * d)%nat) <-> new_fine_grid_indices size d = Ok d) /\
  ((~ exists k, size = (k * d)%nat) <-> new_fine_grid_indices size d = Err ValueError).
Proof.
  intros size d Hd. unfold new_fine_grid_indices. destruct d as [|d']; [lia|]. set (d := S d') in *.
  destruct (Nat.eqb_spec (size mod d) 0) as [e|e].
  - assert (exists k, size = (k * d)%nat).
    { apply Nat.mod_divides in e; [|lia]. destruct e as [k e]. exists k; lia. }
    split; split; intro; try tauto; discriminate.
  - assert (~ exists k, size = (k * d)%nat).
    { intros [k Hk]. apply e. rewrite Hk. apply Nat.mod_mul; lia. }
    split; split; intro; try tauto; discriminate.
Qed.
Print Assumptions C12_fine_grid_mapping_validation.
Example C12_ex : fine_grid_indices 3 2 = [6; 7; 8]%nat.
Proof. reflexivity. Qed.

(** C13 *)
Theorem C13_find_cell_indices_sound_complete :
  forall (D : interval) (n : nat) (m : mesh) (x : R),
  (0 < n)%nat -> ia D < ib D -> new_mesh D n = Ok m ->
  NoDup (find_cell_indices m x) /\
  (forall i, In i (find_cell_indices m x) <->
     exists c, nth_error (m_cells m) i = Some c /\ ia c <= x <= ib c).
Proof.
  intros D n m x Hn HD E. split; [|exact (find_complete D n m x Hn HD E)].
  rewrite (find_cell_indices_spec D n m x Hn HD E). apply NoDup_filter, seq_NoDup.
Qed.
Print Assumptions C13_find_cell_indices_sound_complete.

Theorem C13_find_cells_exact :
  forall (D : interval) (n : nat) (m : mesh) (x : R),
  (0 < n)%nat -> ia D < ib D -> new_mesh D n = Ok m ->
  find_cells m x = filter (fun c => icontains c x) (m_cells m).
Proof. intros; eapply find_cells_spec; eauto. Qed.
Print Assumptions C13_find_cells_exact.

Theorem C13_number_of_cells_found :
  forall (D : interval) (n : nat) (m : mesh), (0 < n)%nat -> ia D < ib D -> new_mesh D n = Ok m ->
  (forall x, ~ (ia D <= x <= ib D) -> find_cell_indices m x = []) /\
  (forall k, (0 < k < n)%nat ->
     find_cell_indices m (ia D + INR k * ((ib D - ia D) / INR n)) = [(k - 1)%nat; k]) /\
  (forall k x, (k < n)%nat ->
     ia D + INR k * ((ib D - ia D) / INR n) < x < ia D + INR (S k) * ((ib D - ia D) / INR n) ->
     find_cell_indices m x = [k]).
Proof.
  intros D n m Hn HD E. split; [|split].
  - intros x Hx. exact (find_outside D n m x Hn HD E Hx).
  - intros k Hk. exact (find_node D n m k HD E Hk).
  - intros k x Hk Hx. exact (find_inner D n m k x HD E Hk Hx).
Qed.
Print Assumptions C13_number_of_cells_found.
Example C13_ex : exists m, new_mesh {| ia := 0; ib := 1 |} 2 = Ok m /\ find_cell_indices m (1/2) = [0; 1]%nat.
Proof.
  destruct (C11_uniform_mesh_partitions_domain {| ia := 0; ib := 1 |} 2) as [m [E _]];
    [simpl; lra|lia|]. exists m. split; auto.
  replace (1/2) with (0 + INR 1 * ((1 - 0) / INR 2)) by (simpl; lra).
  apply (proj1 (proj2 (C13_number_of_cells_found {| ia := 0; ib := 1 |} 2 m ltac:(lia) ltac:(simpl; lra) E)) 1%nat).
  lia.
Qed.

(** C14 *)
Theorem C14_affine_bijection :
  forall (c : interval), ia c < ib c ->
  affine 0 c = ia c /\ affine 1 c = ib c /\
  (forall x, affine_inverse (affine x c) c = x) /\
  (forall y, affine (affine_inverse y c) c = y) /\
  (forall x, 0 <= x <= 1 <-> ia c <= affine x c <= ib c) /\
  (forall x1 x2, affine x2 c - affine x1 c = affine_derivative c * (x2 - x1)) /\
  (forall y1 y2, affine_inverse y2 c - affine_inverse y1 c = affine_inverse_derivative c * (y2 - y1)) /\
  affine_derivative c * affine_inverse_derivative c = 1.
Proof.
  intros [a b] H; unfold affine, affine_inverse, affine_derivative, affine_inverse_derivative, ilength;
    simpl in *.
  split; [lra|]. split; [lra|]. split; [intro; field; lra|]. split; [intro; field; lra|].
  split; [intro; split; intro; nra|]. split; [intros; ring|]. split; [intros; field; lra|field; lra].
Qed.
Print Assumptions C14_affine_bijection.
Example C14_ex : affine (1/2) {| ia := 2; ib := 4 |} = 3.
Proof. unfold affine, ilength; simpl; lra. Qed.
