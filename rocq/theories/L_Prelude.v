(** Lemmas about the shared vocabulary. *)
From Coq Require Import Reals List Lia Lra Arith Bool.
From Verif Require Import Prelude.
Import ListNotations.
Open Scope R_scope.

#[export] Instance R_CellLaws : CellLaws R.
Proof.
  constructor; simpl; intros; try reflexivity.
  apply (H true).
Qed.

#[export] Instance RR_CellLaws : CellLaws (R * R).
Proof.
  constructor.
  - intros [a1 a2] [b1 b2] H. pose proof (H true); pose proof (H false).
    simpl in *. congruence.
  - intros []; reflexivity.
  - intros [] [] []; reflexivity.
  - intros [] r []; reflexivity.
Qed.

Lemma Rltb_spec x y : reflect (x < y) (Rltb x y).
Proof. unfold Rltb; destruct (Rlt_dec x y); constructor; auto. Qed.
Lemma Rleb_spec x y : reflect (x <= y) (Rleb x y).
Proof. unfold Rleb; destruct (Rle_dec x y); constructor; auto. Qed.
Lemma Reqb_spec x y : reflect (x = y) (Reqb x y).
Proof. unfold Reqb; destruct (Req_EM_T x y); constructor; auto. Qed.

Lemma Rltb_true x y : x < y -> Rltb x y = true.
Proof. destruct (Rltb_spec x y); auto; lra. Qed.
Lemma Rltb_false x y : ~ x < y -> Rltb x y = false.
Proof. destruct (Rltb_spec x y); auto; lra. Qed.
Lemma Rleb_true x y : x <= y -> Rleb x y = true.
Proof. destruct (Rleb_spec x y); auto; lra. Qed.
Lemma Rleb_false x y : ~ x <= y -> Rleb x y = false.
Proof. destruct (Rleb_spec x y); auto; lra. Qed.

(** ** cells *)
Section Cells.
Context {W : Type} `{CellLaws W}.

Lemma ccoord_opp k a : ccoord k (copp a) = - ccoord k a.
Proof. unfold copp. rewrite ccoord_scal. ring. Qed.
Lemma ccoord_sub k a b : ccoord k (csub a b) = ccoord k a - ccoord k b.
Proof. unfold csub. rewrite ccoord_add, ccoord_opp. ring. Qed.
Lemma ccoord_sum k l : ccoord k (csum l) = rsum (map (ccoord k) l).
Proof.
  induction l as [|a l IH].
  - apply ccoord_zero.
  - change (csum (a :: l)) with (cadd a (csum l)).
    rewrite ccoord_add, IH. reflexivity.
Qed.
End Cells.

Ltac ceq := apply ccoord_ext; let k := fresh "k" in intro k;
  repeat first [rewrite ccoord_add | rewrite ccoord_scal | rewrite ccoord_sub
               | rewrite ccoord_opp | rewrite ccoord_zero | rewrite ccoord_sum].

(** ** lists *)
Lemma tab_length {A} n (f : nat -> A) : length (tab n f) = n.
Proof. unfold tab. rewrite map_length, seq_length. reflexivity. Qed.

Lemma nth_tab {A} n (f : nat -> A) i d : (i < n)%nat -> nth i (tab n f) d = f i.
Proof.
  intro Hi. unfold tab.
  rewrite (nth_indep _ d (f O)) by (rewrite map_length, seq_length; lia).
  rewrite map_nth. f_equal. rewrite seq_nth; lia.
Qed.

Lemma tab_S {A} n (f : nat -> A) : tab (S n) f = f O :: tab n (fun i => f (S i)).
Proof. unfold tab. simpl. f_equal. rewrite <- seq_shift, map_map. reflexivity. Qed.

Lemma tab_snoc {A} n (f : nat -> A) : tab (S n) f = tab n f ++ [f n].
Proof. unfold tab. rewrite seq_S, map_app. reflexivity. Qed.

Lemma tab_ext {A} n (f g : nat -> A) :
  (forall i, (i < n)%nat -> f i = g i) -> tab n f = tab n g.
Proof.
  intros E. unfold tab. apply map_ext_in. intros i Hi. apply E.
  apply in_seq in Hi. lia.
Qed.

Lemma in_tab {A} n (f : nat -> A) x : In x (tab n f) <-> exists i, (i < n)%nat /\ f i = x.
Proof.
  unfold tab. rewrite in_map_iff. split; intros [i [Hi Hj]].
  - exists i. rewrite in_seq in Hj. split; [lia | auto].
  - exists i. rewrite in_seq. split; [auto | lia].
Qed.

Lemma map_tab {A B} (g : A -> B) n f : map g (tab n f) = tab n (fun i => g (f i)).
Proof. unfold tab. apply map_map. Qed.

Lemma nth_error_tab {A} n (f : nat -> A) i :
  nth_error (tab n f) i = if Nat.ltb i n then Some (f i) else None.
Proof.
  destruct (Nat.ltb_spec i n).
  - rewrite (nth_error_nth' _ (f O)) by (rewrite tab_length; auto).
    rewrite nth_tab; auto.
  - apply nth_error_None. rewrite tab_length; auto.
Qed.

Lemma list_ext {A} (d : A) (l1 l2 : list A) :
  length l1 = length l2 ->
  (forall i, (i < length l1)%nat -> nth i l1 d = nth i l2 d) -> l1 = l2.
Proof. intros. eapply nth_ext; eauto. Qed.

Lemma list_tab {A} (d : A) (l : list A) : l = tab (length l) (fun i => nth i l d).
Proof.
  apply (list_ext d); rewrite ?tab_length; auto.
  intros. rewrite nth_tab; auto.
Qed.

Lemma map2_length {A B C} (f : A -> B -> C) l1 l2 :
  length (map2 f l1 l2) = Nat.min (length l1) (length l2).
Proof. revert l2; induction l1; destruct l2; simpl; auto. Qed.

Lemma nth_map2 {A B C} (f : A -> B -> C) l1 l2 i da db dc :
  (i < length l1)%nat -> (i < length l2)%nat ->
  nth i (map2 f l1 l2) dc = f (nth i l1 da) (nth i l2 db).
Proof.
  revert l2 i; induction l1; destruct l2; simpl; intros; try lia.
  destruct i; auto. apply IHl1; lia.
Qed.

Lemma map2_tab {A B C} (f : A -> B -> C) n g h :
  map2 f (tab n g) (tab n h) = tab n (fun i => f (g i) (h i)).
Proof.
  revert g h; induction n; intros; [reflexivity|].
  rewrite !tab_S. simpl. f_equal. apply IHn.
Qed.

Lemma nth_map' {A B} (f : A -> B) l i da db :
  (i < length l)%nat -> nth i (map f l) db = f (nth i l da).
Proof.
  intros. rewrite (nth_indep _ db (f da)) by (rewrite map_length; auto).
  apply map_nth.
Qed.

Lemma slice_length {A} (l : list A) i j :
  length (slice l i j) = Nat.min (j - i) (length l - i).
Proof. unfold slice. rewrite firstn_length, skipn_length. reflexivity. Qed.

Lemma nth_skipn {A} (l : list A) i k d : nth k (skipn i l) d = nth (i + k) l d.
Proof.
  revert i; induction l; intros; [rewrite skipn_nil; destruct k, i; auto|].
  destruct i; simpl; auto.
Qed.

Lemma nth_firstn {A} (l : list A) i k d :
  (k < i)%nat -> nth k (firstn i l) d = nth k l d.
Proof.
  revert i k; induction l; intros; [rewrite firstn_nil; auto|].
  destruct i; [lia|]. destruct k; simpl; auto. apply IHl; lia.
Qed.

Lemma nth_slice {A} (l : list A) i j k d :
  (k < j - i)%nat -> nth k (slice l i j) d = nth (i + k) l d.
Proof. intros. unfold slice. rewrite nth_firstn by auto. apply nth_skipn. Qed.

Lemma skipn_tab {A} k n (f : nat -> A) :
  skipn k (tab n f) = tab (n - k) (fun i => f (k + i)%nat).
Proof.
  revert n f; induction k; intros; simpl.
  - rewrite Nat.sub_0_r. apply tab_ext; auto.
  - destruct n; [reflexivity|]. rewrite tab_S. simpl. rewrite IHk.
    apply tab_ext; auto.
Qed.

Lemma firstn_tab {A} k n (f : nat -> A) :
  firstn k (tab n f) = tab (Nat.min k n) f.
Proof.
  revert n f; induction k; intros; [reflexivity|].
  destruct n; [reflexivity|]. rewrite tab_S. simpl. rewrite IHk, tab_S. reflexivity.
Qed.

(** ** sums *)
Lemma rsum_app l1 l2 : rsum (l1 ++ l2) = rsum l1 + rsum l2.
Proof. unfold rsum. induction l1; simpl; lra. Qed.

Lemma rsum_snoc l x : rsum (l ++ [x]) = rsum l + x.
Proof. rewrite rsum_app. simpl. lra. Qed.

Lemma rsum_tab_S n f : rsum (tab (S n) f) = rsum (tab n f) + f n.
Proof. rewrite tab_snoc, rsum_snoc. reflexivity. Qed.

Lemma rsum_tab_S' n f : rsum (tab (S n) f) = f O + rsum (tab n (fun i => f (S i))).
Proof. rewrite tab_S. reflexivity. Qed.

Lemma rsum_tab_plus n f g :
  rsum (tab n (fun i => f i + g i)) = rsum (tab n f) + rsum (tab n g).
Proof. induction n; rewrite ?rsum_tab_S; simpl; lra. Qed.

Lemma rsum_tab_minus n f g :
  rsum (tab n (fun i => f i - g i)) = rsum (tab n f) - rsum (tab n g).
Proof. induction n; rewrite ?rsum_tab_S; simpl; lra. Qed.

Lemma rsum_tab_scal n c f : rsum (tab n (fun i => c * f i)) = c * rsum (tab n f).
Proof. induction n; rewrite ?rsum_tab_S; simpl; lra. Qed.

Lemma rsum_tab_const n c : rsum (tab n (fun _ => c)) = INR n * c.
Proof.
  induction n; rewrite ?rsum_tab_S; [simpl; lra|]. rewrite IHn, S_INR. lra.
Qed.

Lemma rsum_tab_0 n f : (forall i, (i < n)%nat -> f i = 0) -> rsum (tab n f) = 0.
Proof.
  intros. rewrite (tab_ext _ _ (fun _ => 0)) by auto. rewrite rsum_tab_const. lra.
Qed.

Lemma rsum_tab_le n f g :
  (forall i, (i < n)%nat -> f i <= g i) -> rsum (tab n f) <= rsum (tab n g).
Proof.
  induction n; intros; rewrite ?rsum_tab_S; [simpl; lra|].
  assert (f n <= g n) by (apply H; lia).
  assert (rsum (tab n f) <= rsum (tab n g)) by (apply IHn; auto). lra.
Qed.

Lemma rsum_tab_nonneg n f :
  (forall i, (i < n)%nat -> 0 <= f i) -> 0 <= rsum (tab n f).
Proof.
  intros. rewrite <- (rsum_tab_0 n (fun _ => 0)) by auto. apply rsum_tab_le. auto.
Qed.

Lemma rsum_tab_telescope n f :
  rsum (tab n (fun i => f (S i) - f i)) = f n - f O.
Proof. induction n; rewrite ?rsum_tab_S; [simpl; lra|]. rewrite IHn. lra. Qed.

Lemma rsum_tab_swap n m (f : nat -> nat -> R) :
  rsum (tab n (fun i => rsum (tab m (fun j => f i j)))) =
  rsum (tab m (fun j => rsum (tab n (fun i => f i j)))).
Proof.
  induction n.
  - simpl. symmetry. apply rsum_tab_0. auto.
  - rewrite rsum_tab_S, IHn, <- rsum_tab_plus. f_equal. apply tab_ext; intros.
    rewrite rsum_tab_S. reflexivity.
Qed.

Lemma rsum_tab_add n m f :
  rsum (tab (n + m) f) = rsum (tab n f) + rsum (tab m (fun i => f (n + i)%nat)).
Proof.
  induction m.
  - rewrite Nat.add_0_r. simpl. lra.
  - rewrite Nat.add_succ_r, !rsum_tab_S, IHm. lra.
Qed.

(* a sum over n*d indices as a double sum over blocks *)
Lemma rsum_tab_block n d f :
  rsum (tab (n * d) f) =
  rsum (tab n (fun i => rsum (tab d (fun j => f (i * d + j)%nat)))).
Proof.
  induction n; [reflexivity|].
  rewrite rsum_tab_S, <- IHn.
  replace (S n * d)%nat with (n * d + d)%nat by (simpl; lia).
  apply rsum_tab_add.
Qed.

Lemma rsum_tab_single n f k :
  (k < n)%nat -> (forall i, (i < n)%nat -> i <> k -> f i = 0) ->
  rsum (tab n f) = f k.
Proof.
  induction n; intros; [lia|]. rewrite rsum_tab_S.
  destruct (Nat.eq_dec k n).
  - subst. rewrite rsum_tab_0; [lra|]. intros; apply H0; lia.
  - rewrite IHn by (intros; try apply H0; lia).
    rewrite (H0 n) by lia. lra.
Qed.

Lemma rsum_list_tab l : rsum l = rsum (tab (length l) (fun i => nth i l 0)).
Proof. rewrite <- list_tab. reflexivity. Qed.

(** ** list extrema *)
Lemma lmax1_ge x l : x <= lmax1 x l.
Proof.
  revert x; induction l; simpl; intros; [lra|].
  eapply Rle_trans; [|apply IHl]. apply Rmax_l.
Qed.
Lemma lmax1_ub x l y : In y l -> y <= lmax1 x l.
Proof.
  revert x; induction l; simpl; intros; [tauto|]. destruct H.
  - subst. eapply Rle_trans; [|apply lmax1_ge]. apply Rmax_r.
  - apply IHl; auto.
Qed.
Lemma lmax1_in x l : lmax1 x l = x \/ In (lmax1 x l) l.
Proof.
  revert x; induction l; simpl; intros; auto.
  destruct (IHl (Rmax x a)) as [->|]; auto.
  unfold Rmax. destruct (Rle_dec x a); auto.
Qed.
Lemma lmin1_le x l : lmin1 x l <= x.
Proof.
  revert x; induction l; simpl; intros; [lra|].
  eapply Rle_trans; [apply IHl|]. apply Rmin_l.
Qed.
Lemma lmin1_lb x l y : In y l -> lmin1 x l <= y.
Proof.
  revert x; induction l; simpl; intros; [tauto|]. destruct H.
  - subst. eapply Rle_trans; [apply lmin1_le|]. apply Rmin_r.
  - apply IHl; auto.
Qed.
Lemma lmin1_in x l : lmin1 x l = x \/ In (lmin1 x l) l.
Proof.
  revert x; induction l; simpl; intros; auto.
  destruct (IHl (Rmin x a)) as [->|]; auto.
  unfold Rmin. destruct (Rle_dec x a); auto.
Qed.

(** ** strides *)
Lemma skipn_skipn' {A} i j (l : list A) : skipn i (skipn j l) = skipn (j + i) l.
Proof.
  revert l; induction j; intros; [reflexivity|].
  destruct l; [rewrite !skipn_nil; reflexivity|]. simpl. apply IHj.
Qed.

Lemma stride_fuel_tab {A} d n (l : list A) fuel dflt :
  (0 < d)%nat -> length l = (n * d)%nat -> (n <= fuel)%nat ->
  forall i, (i < d)%nat ->
  stride_fuel fuel d (skipn i l) = tab n (fun k => nth (k * d + i) l dflt).
Proof.
  revert l fuel; induction n; intros l fuel Hd Hl Hf i Hi.
  - destruct l; [|simpl in Hl; lia]. rewrite skipn_nil. destruct fuel; reflexivity.
  - destruct fuel; [lia|]. simpl stride_fuel.
    destruct (skipn i l) eqn:E.
    { assert (length (skipn i l) = 0)%nat by (rewrite E; auto).
      rewrite skipn_length, Hl in H. simpl in H. nia. }
    rewrite tab_S. f_equal.
    + simpl. replace i with (i + 0)%nat by lia. rewrite <- nth_skipn, E. reflexivity.
    + rewrite <- E, skipn_skipn'. replace (i + d)%nat with (d + i)%nat by lia.
      rewrite <- (skipn_skipn' i d).
      rewrite (IHn (skipn d l) fuel); auto; try lia.
      * apply tab_ext. intros. rewrite nth_skipn. f_equal. simpl. lia.
      * rewrite skipn_length, Hl. simpl. lia.
Qed.

Lemma stride_tab {A} d n (l : list A) dflt i :
  (0 < d)%nat -> length l = (n * d)%nat -> (i < d)%nat ->
  stride i d l = tab n (fun k => nth (k * d + i) l dflt).
Proof.
  intros Hd Hl Hi. unfold stride. apply stride_fuel_tab; auto.
  rewrite skipn_length, Hl. destruct n; [lia|]. nia.
Qed.
