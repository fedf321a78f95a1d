From Coq Require Import Reals List ZArith Arith Lia Lra Bool.
From Verif Require Import Prelude L_Prelude M_Boundary L_Boundary M_Neighbours.
Import ListNotations.
Open Scope R_scope.

Lemma update_nth_length {A} i (f : A -> A) l : length (update_nth i f l) = length l.
Proof. revert i; induction l; intros [|i]; simpl; auto. Qed.
Lemma nth_update {A} i (f : A -> A) l j d : (j < length l)%nat ->
  nth j (update_nth i f l) d = if Nat.eqb j i then f (nth j l d) else nth j l d.
Proof.
  revert i j; induction l; intros i j Hj; [simpl in Hj; lia|].
  destruct i, j; simpl; auto. rewrite IHl by (simpl in Hj; lia). reflexivity.
Qed.

Lemma in_set_add x y s : In x (set_add y s) <-> x = y \/ In x s.
Proof.
  unfold set_add. destruct (existsb (Z.eqb y) s) eqn:E.
  - apply existsb_exists in E as [z [Hz Ez]]. apply Z.eqb_eq in Ez. subst z.
    split; auto. intros [->|H]; auto.
  - rewrite in_app_iff. simpl. intuition congruence.
Qed.
Lemma in_set_remove x y s : In x (set_remove y s) <-> In x s /\ x <> y.
Proof.
  unfold set_remove. rewrite filter_In. destruct (Z.eqb_spec y x); simpl; intuition congruence.
Qed.
Lemma nodup_set_add y s : NoDup s -> NoDup (set_add y s).
Proof.
  intro H. unfold set_add. destruct (existsb (Z.eqb y) s) eqn:E; auto.
  assert (~ In y s).
  { intro Hy. assert (existsb (Z.eqb y) s = true); [|congruence].
    apply existsb_exists. exists y. split; auto. apply Z.eqb_refl. }
  clear E. induction s; simpl.
  - constructor; [simpl; tauto|constructor].
  - inversion H; subst. constructor.
    + rewrite in_app_iff. simpl. intros [Q|[Q|[]]]; [tauto|subst; apply H0; simpl; auto].
    + apply IHs; auto. intro; apply H0; simpl; auto.
Qed.
Lemma set_of_list_spec l : NoDup (set_of_list l) /\ forall x, In x (set_of_list l) <-> In x l.
Proof.
  unfold set_of_list.
  assert (G : forall l s, NoDup s -> NoDup (fold_left (fun s x => set_add x s) l s) /\
     forall x, In x (fold_left (fun s x => set_add x s) l s) <-> In x s \/ In x l).
  { clear l. induction l as [|a l IH]; intros s Hs; simpl.
    - split; auto. intro; tauto.
    - destruct (IH (set_add a s) (nodup_set_add a s Hs)) as [A B]. split; auto.
      intro x. rewrite B, in_set_add. intuition congruence. }
  destruct (G l [] (NoDup_nil _)) as [A B]. split; auto. intro x. rewrite B. simpl. tauto.
Qed.

(* the rows *)
Lemma fv_neighbours_rows n periodic rows : fv_neighbours n periodic = Ok rows ->
  (1 <= n)%nat /\ length rows = n /\
  forall i z, (i < n)%nat -> (In z (nth i rows []) <->
    (0 <= z < Z.of_nat n)%Z /\
    (Z.abs (z - Z.of_nat i) <= 1 \/
     (periodic = true /\ ((i = 0%nat /\ z = Z.of_nat n - 1) \/ (i = (n - 1)%nat /\ z = 0))))%Z).
Proof.
  intro E. unfold fv_neighbours in E. destruct n as [|m]; [discriminate|].
  cbv zeta in E. split; [lia|].
  match type of E with Ok ?x = _ => assert (Er : rows = x) by congruence end. clear E. subst rows.
  set (s0 := tab (S m) (fun i => [Z.of_nat i - 1; Z.of_nat i; Z.of_nat i + 1]%Z)).
  set (s2 := update_nth m (set_remove (Z.of_nat (S m))) (update_nth 0 (set_remove (-1)) s0)).
  assert (L2 : length s2 = S m) by (unfold s2, s0; rewrite !update_nth_length, tab_length; auto).
  assert (V2 : forall i z, (i < S m)%nat -> (In z (nth i s2 []) <->
     (0 <= z < Z.of_nat (S m))%Z /\ (Z.abs (z - Z.of_nat i) <= 1)%Z)).
  { intros i z Hi. unfold s2, s0. rewrite !nth_update by (rewrite ?update_nth_length, tab_length; lia).
    rewrite nth_tab by lia.
    assert (Hin : forall z, In z [Z.of_nat i - 1; Z.of_nat i; Z.of_nat i + 1]%Z <-> (Z.abs (z - Z.of_nat i) <= 1)%Z).
    { intro y. cbn [In]. lia. }
    destruct (Nat.eqb_spec i m), (Nat.eqb_spec i 0); rewrite ?in_set_remove, Hin; lia. }
  split.
  - destruct periodic; rewrite ?update_nth_length; auto; apply tab_length.
  - intros i z Hi. destruct periodic.
    + rewrite !nth_update by (rewrite ?update_nth_length; lia).
      destruct (Nat.eqb_spec i m), (Nat.eqb_spec i 0); rewrite ?in_set_add, V2 by lia; intuition lia.
    + rewrite V2 by auto. intuition (try discriminate; lia).
Qed.

Lemma list_max_nat_le l x : In x l -> (x <= list_max_nat l)%nat.
Proof. induction l; simpl; [tauto|]. intros [->|H]; [lia|]. apply IHl in H. lia. Qed.

Lemma neighbours_array_rows rows i : (i < length rows)%nat ->
  length (neighbours_array rows) = length rows /\
  length (nth i (neighbours_array rows) []) = list_max_nat (map (@length Z) rows) /\
  forall z, In z (nth i (neighbours_array rows) []) <->
    In z (nth i rows []) \/ (z = Z.of_nat i /\ (length (nth i rows []) < list_max_nat (map (@length Z) rows))%nat).
Proof.
  intro Hi. unfold neighbours_array. split; [|split].
  - rewrite map2_length, seq_length. lia.
  - rewrite (nth_map2 _ _ _ i 0%nat []) by (rewrite ?seq_length; lia). rewrite seq_nth by lia.
    unfold fill_row. rewrite app_length, repeat_length.
    assert (length (nth i rows []) <= list_max_nat (map (@length Z) rows))%nat.
    { apply list_max_nat_le. apply in_map. apply nth_In. auto. }
    lia.
  - intro z. rewrite (nth_map2 _ _ _ i 0%nat []) by (rewrite ?seq_length; lia). rewrite seq_nth by lia.
    unfold fill_row. rewrite in_app_iff. simpl plus. split; intros [H|H]; auto.
    + right. split; [apply repeat_spec in H; auto|].
      destruct (list_max_nat (map (length (A:=Z)) rows) - length (nth i rows []))%nat eqn:E; [destruct H|]. lia.
    + right. destruct H as [-> H].
      destruct (list_max_nat (map (length (A:=Z)) rows) - length (nth i rows []))%nat eqn:E; [lia|]. left; auto.
Qed.

(* pointwise maxima *)
Lemma row_values_spec v row :
  (forall z, In z row -> (0 <= z < Z.of_nat (length v))%Z) ->
  row_values v row = Ok (map (fun z => nth (Z.to_nat z) v 0) row).
Proof.
  unfold row_values. induction row as [|z row IH]; intro H; [reflexivity|]. simpl.
  rewrite IH by (intros; apply H; simpl; auto).
  assert (Hz : (0 <= z < Z.of_nat (length v))%Z) by (apply H; simpl; auto).
  rewrite <- (Z2Nat.id z) at 1 by lia. rewrite (pyget_nonneg v (Z.to_nat z) 0) by lia. reflexivity.
Qed.

Lemma mapM_tab {A B} (f : A -> result B) n g h :
  (forall i, (i < n)%nat -> f (g i) = Ok (h i)) -> mapM f (tab n g) = Ok (tab n h).
Proof.
  revert g h; induction n; intros g h H; [reflexivity|].
  rewrite !tab_S. simpl. rewrite (H 0%nat) by lia. simpl. rewrite (IHn _ (fun i => h (S i))); auto.
  intros i Hi. apply H. lia.
Qed.

Lemma local_extrema array v : 
  (forall i z, (i < length array)%nat -> In z (nth i array []) -> (0 <= z < Z.of_nat (length v))%Z) ->
  (forall i, (i < length array)%nat -> nth i array [] <> []) ->
  exists M m, local_maximum array v = Ok M /\ local_minimum array v = Ok m /\
  length M = length array /\ length m = length array /\
  forall i, (i < length array)%nat ->
    (forall z, In z (nth i array []) -> nth i m 0 <= nth (Z.to_nat z) v 0 <= nth i M 0) /\
    (exists z, In z (nth i array []) /\ nth i M 0 = nth (Z.to_nat z) v 0) /\
    (exists z, In z (nth i array []) /\ nth i m 0 = nth (Z.to_nat z) v 0).
Proof.
  intros Hr Hne.
  set (vals i := map (fun z => nth (Z.to_nat z) v 0) (nth i array [])).
  exists (tab (length array) (fun i => match vals i with [] => 0 | x :: l => lmax1 x l end)),
         (tab (length array) (fun i => match vals i with [] => 0 | x :: l => lmin1 x l end)).
  unfold local_maximum, local_minimum. rewrite (list_tab [] array) at 1 3.
  split; [|split; [|split; [|split]]]; try apply tab_length.
  - apply mapM_tab. intros i Hi. rewrite row_values_spec by (intros; apply (Hr i); auto). cbn [bind].
    fold (vals i). unfold vals. pose proof (Hne i Hi). destruct (nth i array []); [congruence|reflexivity].
  - apply mapM_tab. intros i Hi. rewrite row_values_spec by (intros; apply (Hr i); auto). cbn [bind].
    fold (vals i). unfold vals. pose proof (Hne i Hi). destruct (nth i array []); [congruence|reflexivity].
  - intros i Hi. rewrite !nth_tab by auto. pose proof (Hne i Hi). unfold vals.
    destruct (nth i array []) as [|z0 l] eqn:E; [congruence|]. cbn [map].
    set (g := fun z => nth (Z.to_nat z) v 0).
    assert (Q : forall z, In z (z0 :: l) -> In (g z) (g z0 :: map g l)).
    { intros z [->|Hz]; [left; auto|right; apply in_map; auto]. }
    split; [|split].
    + intros z Hz. change (lmin1 (g z0) (map g l) <= g z <= lmax1 (g z0) (map g l)). split.
      * destruct (Q z Hz) as [<-|Hq]; [apply lmin1_le|apply lmin1_lb; exact Hq].
      * destruct (Q z Hz) as [<-|Hq]; [apply lmax1_ge|apply lmax1_ub; exact Hq].
    + destruct (lmax1_in (g z0) (map g l)) as [G|G].
      * exists z0. split; [left; auto|]. auto.
      * apply in_map_iff in G as [z [E1 Hz]]. exists z. split; [right; auto|auto].
    + destruct (lmin1_in (g z0) (map g l)) as [G|G].
      * exists z0. split; [left; auto|]. auto.
      * apply in_map_iff in G as [z [E1 Hz]]. exists z. split; [right; auto|auto].
Qed.
