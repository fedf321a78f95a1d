From Coq Require Import Reals List ZArith Arith Lia Lra Psatz Bool String.
From Verif Require Import Prelude L_Prelude M_Boundary S_Boundary L_Boundary M_Flux S_Flux L_Flux
  M_Neighbours L_Neighbours M_Scalar S_Scalar L_Scalar M_ODE S_ODE L_ODE M_ShallowWater S_ShallowWater L_ShallowWater L_SWRuns.
Import ListNotations.
Local Open Scope nat_scope.
Open Scope R_scope.
Notation length := List.length.

Definition low0 : low := {| lo_s := 0; lo_h := 0; lo_q := 0; lo_fix := 0; lo_hl := 0; lo_hr := 0; lo_ql := 0; lo_qr := 0;
  lo_outl := (0, 0); lo_outr := (0, 0) |}.

Lemma mapM_tab_inv {A B} (f : A -> result B) n (h : nat -> A) bs (db : B) : mapM f (tab n h) = Ok bs ->
  bs = tab n (fun i => nth i bs db) /\ forall i, (i < n)%nat -> f (h i) = Ok (nth i bs db).
Proof.
  intro E. destruct n as [|n].
  { simpl in E. apply Ok_inj in E. subst. split; [reflexivity|intros; lia]. }
  destruct (mapM_nth f _ bs (h 0%nat) db E) as [L V]. rewrite tab_length in L, V. split.
  - rewrite (list_tab db bs) at 1. rewrite L. reflexivity.
  - intros i Hi. specialize (V i Hi). rewrite nth_tab in V by auto. exact V.
Qed.
Lemma mapM_tab_ok {A B} (f : A -> result B) n (h : nat -> A) (k : nat -> B) :
  (forall i, (i < n)%nat -> f (h i) = Ok (k i)) -> mapM f (tab n h) = Ok (tab n k).
Proof.
  revert h k; induction n; intros h k E; [reflexivity|]. rewrite !tab_S. cbn [mapM].
  rewrite (E 0%nat) by lia. cbn [bind]. rewrite (IHn (fun i => h (S i)) (fun i => k (S i))); [reflexivity|].
  intros; apply E; lia.
Qed.

Lemma broadcast_length m l st : broadcast m l = Ok st -> length st = m.
Proof.
  unfold broadcast. destruct (Nat.eqb_spec (length l) m); [intro E; apply Ok_inj in E; congruence|].
  destruct l as [|x [|]]; try discriminate. intro E. apply Ok_inj in E. subst. apply repeat_length.
Qed.

Lemma low_all_inv gravity step n (x : nat -> state) o :
  low_all gravity step (tab n x) (tab n (fun i => x (S i))) = Ok o ->
  exists st, broadcast n step = Ok st /\ o = tab n (fun i => nth i o low0) /\
  forall i, (i < n)%nat -> low_at gravity (x i) (x (S i)) (nth i st 0) = Ok (nth i o low0).
Proof.
  intro E. unfold low_all in E. inv_bind E. rewrite tab_length in E0. exists a. split; auto.
  pose proof (broadcast_length _ _ _ E0) as La.
  rewrite combine_tab, (list_tab 0 a), La, combine_tab in E. apply (mapM_tab_inv _ n _ _ low0) in E as [E1 E2].
  split; auto.
Qed.
Lemma low_all_ok gravity step st n (x : nat -> state) (o : nat -> low) : broadcast n step = Ok st ->
  (forall i, (i < n)%nat -> low_at gravity (x i) (x (S i)) (nth i st 0) = Ok (o i)) ->
  low_all gravity step (tab n x) (tab n (fun i => x (S i))) = Ok (tab n o).
Proof.
  intros E H. unfold low_all. rewrite tab_length, E. cbn [bind]. pose proof (broadcast_length _ _ _ E) as La.
  rewrite combine_tab, (list_tab 0 st), La, combine_tab. apply mapM_tab_ok. exact H.
Qed.

(** ** non-negative heights from bar states *)
Lemma bar_step h s1 s2 w1 w2 lam : 0 <= h -> 0 <= w1 -> 0 <= w2 -> 0 <= s1 -> 0 <= s2 -> 0 <= lam -> lam * (s1 + s2) <= 1 ->
  0 <= h + lam * (s1 * (w1 - h) + s2 * (w2 - h)).
Proof.
  intros. replace (h + lam * (s1 * (w1 - h) + s2 * (w2 - h)))
    with (h * (1 - lam * (s1 + s2)) + (lam * s1 * w1 + lam * s2 * w2)) by ring.
  assert (0 <= h * (1 - lam * (s1 + s2))) by (apply Rmult_le_pos; lra).
  assert (0 <= lam * s1 * w1) by (repeat apply Rmult_le_pos; auto).
  assert (0 <= lam * s2 * w2) by (repeat apply Rmult_le_pos; auto). lra.
Qed.
Lemma bar_state_heights n (x : nat -> state) (F s wl wr : nat -> R) (fl fr v : list state) dx dt :
  cells_from_nodes dx fl fr = Ok v -> length fl = S n -> length fr = S n -> 0 < dx -> 0 <= dt ->
  (forall i, (i <= n)%nat -> fst (nth i fr (0, 0)) = s i * (wr i - fst (x (S i))) + F (S i)) ->
  (forall i, (i <= n)%nat -> fst (nth i fl (0, 0)) = s i * (wl i - fst (x i)) - F i) ->
  (forall i, (i <= n)%nat -> 0 <= s i /\ 0 <= wl i /\ 0 <= wr i /\ dt * s i <= dx / 2) ->
  length v = n /\ forall i, (i < n)%nat -> 0 <= fst (x (S i)) -> 0 <= fst (x (S i)) + dt * fst (nth i v (0, 0)).
Proof.
  intros E Ll Lr Hd Ht Vr Vl C. destruct (cells_from_nodes_spec _ _ _ _ n E Ll Lr) as [_ [Lv Vv]].
  split; auto. intros i Hi Hx. change (@czero (R * R) RR_CellOps) with (0, 0) in Vv. rewrite Vv by auto. cbn [cscal cadd RR_CellOps fst].
  rewrite Vr, Vl by lia. destruct (C i ltac:(lia)) as [S1 [_ [W1 C1]]]. destruct (C (S i) ltac:(lia)) as [S2 [W2 [_ C2]]].
  replace (fst (x (S i)) + dt * (1 / dx * (s i * (wr i - fst (x (S i))) + F (S i) + (s (S i) * (wl (S i) - fst (x (S i))) - F (S i)))))
    with (fst (x (S i)) + dt / dx * (s i * (wr i - fst (x (S i))) + s (S i) * (wl (S i) - fst (x (S i))))) by (field; lra).
  apply bar_step; auto.
  - apply Rmult_le_pos; auto. left. apply Rinv_0_lt_compat; auto.
  - apply (Rmult_le_reg_r dx); auto. replace (dt / dx * (s i + s (S i)) * dx) with (dt * s i + dt * s (S i)) by (field; lra). lra.
Qed.

(** ** cell neighbours of node values *)
Definition cl_idx (per : bool) (n i : nat) : nat := match i with O => if per then (n - 1)%nat else O | S j => j end.
Definition cr_idx (per : bool) (n i : nat) : nat := if Nat.leb i n then i else if per then 1%nat else n.

Lemma no_nans_some l : no_nans (map Some l) = Ok l.
Proof. induction l as [|x l IH]; [reflexivity|]. unfold no_nans in *. cbn [map mapM]. rewrite IH. reflexivity. Qed.
Lemma replace_nans_some l : l <> [] -> replace_nans (map Some l) = Ok (map Some l).
Proof.
  intro H. unfold replace_nans. destruct l as [|x l]; [congruence|]. cbn [map bind].
  rewrite (pyget_m1 (Some x :: map Some l) None) by (cbn; lia). cbn [bind].
  change (Some x :: map Some l) with (map Some (x :: l)).
  rewrite (nth_map' Some _ _ 0) by (rewrite map_length; cbn; lia). reflexivity.
Qed.
Lemma replace_nans_right l : l <> [] ->
  replace_nans (map Some l ++ [None]) = Ok (map Some (l ++ [nth (length l - 1) l 0])).
Proof.
  intro H. destruct l as [|x l']; [congruence|]. unfold replace_nans. cbn [map List.app bind].
  change (Some x :: map Some l' ++ [None]) with (map Some (x :: l') ++ [None]). set (l := x :: l') in *.
  assert (Ll : (1 <= length l)%nat) by (unfold l; cbn; lia).
  assert (LX : length (map Some l ++ [None]) = S (length l)) by (rewrite app_length, map_length; cbn; lia).
  rewrite (pyget_m1 _ None) by lia. rewrite LX. cbn [bind].
  rewrite app_nth2 by (rewrite map_length; lia). rewrite map_length.
  replace (S (length l) - 1 - length l)%nat with 0%nat by lia. cbn [nth].
  change (-2)%Z with (- Z.of_nat 1 - 1)%Z. rewrite (pyget_neg _ 1 None) by lia. rewrite LX. cbn [bind].
  rewrite removelast_last. rewrite app_nth1 by (rewrite map_length; lia). rewrite (nth_map' Some _ _ 0) by lia.
  rewrite map_app. cbn [map]. reflexivity.
Qed.
Lemma cell_values_tab {W} (bc : bconds W) n Lf Rf : length (bc_left bc) = 1%nat -> (1 <= n)%nat ->
  cell_values bc (tab (S n) Lf) (tab (S n) Rf) =
  Ok (tab (S (S n)) (fun i => Rf (cl_idx (bc_periodic bc) n i)), tab (S (S n)) (fun i => Lf (cr_idx (bc_periodic bc) n i))).
Proof.
  intros B Hn. unfold cell_values, get_cell_neighbours, bc_number. cbn [bc_left bc_periodic]. rewrite map_length, B.
  assert (TL : forall y, y :: tab (S n) Rf = tab (S (S n)) (fun i => match i with O => y | S j => Rf j end)).
  { intro y. rewrite (tab_S (S n)). reflexivity. }
  assert (TR : forall y, tab (S n) Lf ++ [y] = tab (S (S n)) (fun i => if Nat.leb i n then Lf i else y)).
  { intro y. rewrite (tab_snoc (S n)). destruct (Nat.leb_spec (S n) n); [lia|]. f_equal. apply tab_ext. intros i Hi.
    destruct (Nat.leb_spec i n); [reflexivity|lia]. }
  assert (NE : forall m (f : nat -> R), tab (S m) f <> []). { intros m f. rewrite tab_S. discriminate. }
  destruct (bc_periodic bc).
  - change (-2 * Z.of_nat 1)%Z with (- Z.of_nat 1 - 1)%Z. rewrite (pyget_neg (tab (S n) Rf) 1 0) by (rewrite tab_length; lia).
    change (2 * Z.of_nat 1 - 1)%Z with (Z.of_nat 1). cbn [bind]. rewrite (pyget_nonneg (tab (S n) Lf) 1 0) by (rewrite tab_length; lia).
    cbn [bind fst snd]. rewrite TL, TR. rewrite !replace_nans_some by apply NE. cbn [bind]. rewrite !no_nans_some. cbn [bind].
    rewrite tab_length. rewrite !nth_tab by lia. f_equal. f_equal.
    + apply tab_ext. intros [|i] Hi; cbn [cl_idx]; f_equal. lia.
    + apply tab_ext. intros i Hi. unfold cr_idx. destruct (Nat.leb_spec i n); reflexivity.
  - cbn [bind fst snd].
    assert (E1 : replace_nans (None :: map Some (tab (S n) Rf)) = Ok (map Some (Rf 0%nat :: tab (S n) Rf))).
    { unfold replace_nans. change 1%Z with (Z.of_nat 1).
      rewrite (pyget_nonneg (None :: map Some (tab (S n) Rf)) 1 None) by (cbn [List.length]; rewrite map_length, tab_length; lia).
      cbn [bind nth]. rewrite (nth_map' Some _ _ 0) by (rewrite tab_length; lia). rewrite nth_tab by lia.
      change (Some (Rf 0%nat) :: map Some (tab (S n) Rf)) with (map Some (Rf 0%nat :: tab (S n) Rf)).
      rewrite (pyget_m1 _ None) by (rewrite map_length; cbn [List.length]; lia). cbn [bind].
      rewrite (nth_map' Some _ _ 0) by (rewrite map_length; cbn [List.length]; lia). reflexivity. }
    assert (E2 : replace_nans (map Some (tab (S n) Lf) ++ [None]) = Ok (map Some (tab (S n) Lf ++ [Lf n]))).
    { rewrite replace_nans_right by apply NE. rewrite tab_length, nth_tab by lia. do 5 f_equal. lia. }
    rewrite E1, E2. cbn [bind]. rewrite !no_nans_some. cbn [bind]. rewrite TL, TR. f_equal. f_equal.
    + apply tab_ext. intros [|i] Hi; reflexivity.
    + apply tab_ext. intros i Hi. unfold cr_idx. destruct (Nat.leb_spec i n); reflexivity.
Qed.

Lemma vdiv_tab n a b : (forall i, (i < n)%nat -> b i <> 0) -> vdiv (tab n a) (tab n b) = Ok (tab n (fun i => a i / b i)).
Proof. intro H. unfold vdiv. rewrite combine_tab. apply mapM_tab_ok. intros i Hi. apply rdiv_ne; auto. Qed.
Lemma vdiv_tab_inv n a b c : vdiv (tab n a) (tab n b) = Ok c -> (forall i, (i < n)%nat -> b i <> 0) /\ c = tab n (fun i => a i / b i).
Proof.
  intro E. assert (H : forall i, (i < n)%nat -> b i <> 0).
  { unfold vdiv in E. rewrite combine_tab in E. apply (mapM_tab_inv _ _ _ _ 0) in E as [_ E]. intros i Hi.
    apply E in Hi. cbn [fst snd] in Hi. apply rdiv_ok in Hi. tauto. }
  split; auto. rewrite vdiv_tab in E by auto. apply Ok_inj in E. auto.
Qed.
Lemma map4_tab n f a b c d : map4 f (tab n a) (tab n b) (tab n c) (tab n d) = tab n (fun i => f (a i) (b i) (c i) (d i)).
Proof.
  revert a b c d; induction n; intros; [reflexivity|]. rewrite (tab_S n a), (tab_S n b), (tab_S n c), (tab_S n d), (tab_S n (fun i => f _ _ _ _)).
  cbn [map4]. rewrite IHn. reflexivity.
Qed.
Lemma vlimit_arrays_tab n f s h v M m :
  vlimit_arrays (tab n f) (tab n s) (tab n h) (tab n v) (tab (S n) M) (tab (S n) m) =
  tab n (fun i => vlimit_at (f i) (s i) (h i) (v i) (M i) (M (S i)) (m i) (m (S i))).
Proof.
  revert f s h v M m; induction n; intros; [reflexivity|].
  rewrite (tab_S n f), (tab_S n s), (tab_S n h), (tab_S n v), (tab_S (S n) M), (tab_S (S n) m).
  rewrite (tab_S n (fun i => vlimit_at _ _ _ _ _ _ _ _)).
  rewrite (tab_S n (fun i => M (S i))), (tab_S n (fun i => m (S i))). cbn [vlimit_arrays].
  rewrite <- (tab_S n (fun i => M (S i))), <- (tab_S n (fun i => m (S i))). f_equal.
  rewrite (IHn (fun i => f (S i)) (fun i => s (S i)) (fun i => h (S i)) (fun i => v (S i)) (fun i => M (S i)) (fun i => m (S i))).
  reflexivity.
Qed.

(** ** the limited fluxes *)
Section MCL.
Context (per : bool) (n : nat) (lo : nat -> low) (H : nat -> state).
Definition hmax_ (j : nat) : R := Rmax (lo_hr (lo (cl_idx per n j))) (lo_hl (lo (cr_idx per n j))).
Definition hmin_ (j : nat) : R := Rmin (lo_hr (lo (cl_idx per n j))) (lo_hl (lo (cr_idx per n j))).
Definition fh_ (i : nat) : R :=
  limit_at (fst (csub (H i) (lo_outr (lo i)))) (lo_s (lo i)) (lo_hl (lo i)) (lo_hr (lo i))
    (hmax_ i) (hmax_ (S i)) (hmin_ i) (hmin_ (S i)).
Definition lh_ (i : nat) : R := lo_h (lo i) + fh_ i / lo_s (lo i).
Definition vb_ (i : nat) : R := (lo_ql (lo i) + lo_qr (lo i)) / (lo_hl (lo i) + lo_hr (lo i)).
Definition corr_ (i : nat) : R := lo_s (lo i) * (lo_qr (lo i) + - (lh_ i * vb_ i)).
Definition wl_ (j : nat) : R := lo_qr (lo (cl_idx per n j)) / lo_h (lo (cl_idx per n j)).
Definition wr_ (j : nat) : R := lo_ql (lo (cr_idx per n j)) / lo_h (lo (cr_idx per n j)).
Definition vmax_ (j : nat) : R := max4 (vb_ (cl_idx per n j)) (vb_ (cr_idx per n j)) (wl_ j) (wr_ j).
Definition vmin_ (j : nat) : R := min4 (vb_ (cl_idx per n j)) (vb_ (cr_idx per n j)) (wl_ j) (wr_ j).
Definition fq_ (i : nat) : R :=
  vlimit_at (snd (csub (H i) (lo_outr (lo i))) + corr_ i) (lo_s (lo i)) (lh_ i) (vb_ i)
    (vmax_ i) (vmax_ (S i)) (vmin_ i) (vmin_ (S i)) + - corr_ i.
Definition mcl_well : Prop := forall i, (i <= n)%nat -> lo_s (lo i) <> 0 /\ lo_hl (lo i) + lo_hr (lo i) <> 0 /\ lo_h (lo i) <> 0.

Lemma cl_idx_le i : (1 <= n)%nat -> (i < S (S n))%nat -> (cl_idx per n i <= n)%nat.
Proof. destruct i; cbn; [destruct per; lia|lia]. Qed.
Lemma cr_idx_le i : (1 <= n)%nat -> (i < S (S n))%nat -> (cr_idx per n i <= n)%nat.
Proof. unfold cr_idx. destruct (Nat.leb_spec i n); [lia|]. destruct per; lia. Qed.

Lemma mcl_limit_ok {W} (bc : bconds W) : length (bc_left bc) = 1%nat -> (1 <= n)%nat -> bc_periodic bc = per ->
  mcl_well ->
  sw_mcl_limit bc (tab (S n) lo) (tab (S n) H) =
  Ok {| mp_fh := tab (S n) fh_; mp_lh := tab (S n) lh_; mp_vb := tab (S n) vb_; mp_fq := tab (S n) fq_ |}.
Proof.
  intros B Hn Hp G. unfold sw_mcl_limit. cbv zeta. rewrite map2_tab, !map_tab.
  rewrite cell_values_tab by auto. rewrite Hp. cbn [bind fst snd]. rewrite !map2_tab. unfold limit. cbn [snd].
  rewrite limit_arrays_tab. rewrite (vdiv_tab (S n)) by (intros i Hi; apply G; lia). cbn [bind]. rewrite map2_tab.
  rewrite (vdiv_tab (S n)) by (intros i Hi; apply G; lia). cbn [bind]. rewrite !map2_tab.
  rewrite !cell_values_tab by auto. rewrite Hp. cbn [bind fst snd].
  assert (G1 : forall j, (j < S (S n))%nat -> lo_h (lo (cl_idx per n j)) <> 0).
  { intros j Hj. apply G. apply cl_idx_le; auto. }
  assert (G2 : forall j, (j < S (S n))%nat -> lo_h (lo (cr_idx per n j)) <> 0).
  { intros j Hj. apply G. apply cr_idx_le; auto. }
  rewrite (vdiv_tab (S (S n))) by exact G1. cbn [bind]. rewrite (vdiv_tab (S (S n))) by exact G2. cbn [bind].
  rewrite !map4_tab, vlimit_arrays_tab, map2_tab. 
  reflexivity.
Qed.
Lemma mcl_limit_inv {W} (bc : bconds W) m : length (bc_left bc) = 1%nat -> (1 <= n)%nat -> bc_periodic bc = per ->
  sw_mcl_limit bc (tab (S n) lo) (tab (S n) H) = Ok m -> mcl_well.
Proof.
  intros B Hn Hp E. unfold sw_mcl_limit in E. cbv zeta in E. rewrite map2_tab, !map_tab in E.
  rewrite cell_values_tab in E by auto. rewrite Hp in E. cbn [bind fst snd] in E. rewrite !map2_tab in E. unfold limit in E. cbn [snd] in E.
  rewrite limit_arrays_tab in E. inv_bind E. apply vdiv_tab_inv in E0 as [G1 ->]. rewrite map2_tab in E.
  inv_bind E. apply vdiv_tab_inv in E0 as [G2 ->]. rewrite !map2_tab in E.
  rewrite !cell_values_tab in E by auto. rewrite Hp in E. cbn [bind fst snd] in E.
  inv_bind E. apply vdiv_tab_inv in E0 as [G3 _].
  intros i Hi. split; [apply G1; lia|]. split; [apply G2; lia|]. apply (G3 (S i)). lia.
Qed.

(* the limited height fluxes keep the bar states between the bounds *)
Lemma fh_bounds i : (i <= n)%nat -> 0 <= lo_s (lo i) -> 
  lo_s (lo i) * hmin_ (S i) <= lo_s (lo i) * lo_hr (lo i) + fh_ i <= lo_s (lo i) * hmax_ (S i) /\
  lo_s (lo i) * hmin_ i <= lo_s (lo i) * lo_hl (lo i) - fh_ i <= lo_s (lo i) * hmax_ i /\
  (fst (csub (H i) (lo_outr (lo i))) = 0 -> fh_ i = 0).
Proof.
  intros Hi Hs.
  assert (Bl : hmin_ i <= lo_hl (lo i) <= hmax_ i).
  { unfold hmin_, hmax_. replace (cr_idx per n i) with i by (unfold cr_idx; destruct (Nat.leb_spec i n); auto; lia).
    split; [apply Rmin_r|apply Rmax_r]. }
  assert (Br : hmin_ (S i) <= lo_hr (lo i) <= hmax_ (S i)).
  { unfold hmin_, hmax_. change (cl_idx per n (S i)) with i. split; [apply Rmin_l|apply Rmax_l]. }
  destruct (limit_at_spec (fst (csub (H i) (lo_outr (lo i)))) (lo_s (lo i)) (lo_hl (lo i)) (lo_hr (lo i))
    (hmax_ i) (hmax_ (S i)) (hmin_ i) (hmin_ (S i)) Hs Bl Br) as [A1 [A2 [A3 [A4 _]]]].
  fold (fh_ i) in A1, A2, A3, A4. repeat split; try lra.
Qed.
End MCL.
