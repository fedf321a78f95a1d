From Coq Require Import Reals List Arith Lia Lra Bool.
From Verif Require Import Prelude L_Prelude M_Mesh M_Quadrature S_Quadrature M_Boundary L_Boundary L_Flux M_Interpolate S_Interpolate.
Import ListNotations.
Open Scope R_scope.

Lemma increasing_cons a l : increasing (a :: l) -> increasing l /\ (forall b, In b l -> a < b).
Proof.
  intro H. split.
  - intros i j Hi. apply (H (S i) (S j)). cbn. lia.
  - intros b Hb. apply (In_nth _ _ 0) in Hb. destruct Hb as [j [Hj <-]]. apply (H 0%nat (S j)). cbn. lia.
Qed.

Lemma interp_from_nodes xp : forall a u fp x, increasing (a :: xp) -> length fp = length xp -> a <= x ->
  (nth (length xp) (a :: xp) 0 <= x -> interp_from a u xp fp x = nth (length xp) (u :: fp) 0) /\
  (forall i, (i < length xp)%nat -> nth i (a :: xp) 0 <= x < nth (S i) (a :: xp) 0 ->
    interp_from a u xp fp x = (nth (S i) (u :: fp) 0 - nth i (u :: fp) 0) / (nth (S i) (a :: xp) 0 - nth i (a :: xp) 0) * (x - nth i (a :: xp) 0) + nth i (u :: fp) 0).
Proof.
  induction xp as [|b xp IH]; intros a u fp x Inc Lf Hx.
  - destruct fp; [|discriminate]. split; [reflexivity|]. intros i Hi. cbn in Hi. lia.
  - destruct fp as [|w fp]; [discriminate|]. injection Lf as Lf. destruct (increasing_cons _ _ Inc) as [Inc' Lt]. cbn [interp_from length].
    change (nth (S (length xp)) (a :: b :: xp) 0) with (nth (length xp) (b :: xp) 0). change (nth (S (length xp)) (u :: w :: fp) 0) with (nth (length xp) (w :: fp) 0).
    destruct (Rltb_spec x b) as [Hb|Hb].
    + split.
      * intro H. exfalso. destruct (increasing_cons _ _ Inc') as [_ Lt']. destruct xp as [|c xp]; [cbn in H; lra|].
        assert (In (nth (length (c :: xp)) (b :: c :: xp) 0) (c :: xp)) as Hin by (cbn [length]; change (nth (S (length xp)) (b :: c :: xp) 0) with (nth (length xp) (c :: xp) 0); apply nth_In; cbn; lia).
        specialize (Lt' _ Hin). lra.
      * intros [|i] Hi Hr; [reflexivity|]. exfalso. change (nth (S i) (a :: b :: xp) 0) with (nth i (b :: xp) 0) in Hr.
        destruct i as [|i]; [cbn in Hr; lra|]. destruct (increasing_cons _ _ Inc') as [_ Lt'].
        assert (In (nth (S i) (b :: xp) 0) xp) as Hin by (change (nth (S i) (b :: xp) 0) with (nth i xp 0); apply nth_In; cbn in Hi; lia). specialize (Lt' _ Hin). lra.
    + destruct (IH b w fp x Inc' Lf ltac:(lra)) as [A B]. split; [exact A|]. intros [|i] Hi Hr.
      * exfalso. change (nth 1 (a :: b :: xp) 0) with b in Hr. lra.
      * apply (B i); [lia|exact Hr].
Qed.

Lemma increasing_le xp i j : increasing xp -> (i <= j < length xp)%nat -> nth i xp 0 <= nth j xp 0.
Proof.
  intros Inc [Hij Hj]. destruct (Nat.eq_dec i j) as [->|]; [lra|]. apply Rlt_le, Inc. lia.
Qed.

Lemma interp1_spec xp fp x : increasing xp -> (0 < length xp)%nat -> length fp = length xp -> piecewise_linear xp fp x (interp1 xp fp x).
Proof.
  intros Inc Hn Lf. destruct xp as [|a xp]; [cbn in Hn; lia|]. destruct fp as [|u fp]; [discriminate|]. assert (Lf' : length fp = length xp) by (cbn in Lf; lia).
  unfold interp1, piecewise_linear. cbn [length]. replace (S (length xp) - 1)%nat with (length xp) by lia.
  assert (HL : a <= nth (length xp) (a :: xp) 0) by (change a with (nth 0 (a :: xp) 0) at 1; apply increasing_le; [auto|cbn; lia]).
  destruct (Rltb_spec x a) as [Ha|Ha].
  - split; [reflexivity|]. split; [intro; lra|]. intros i Hi Hr. exfalso. assert (a <= nth i (a :: xp) 0) by (change a with (nth 0 (a :: xp) 0) at 1; apply increasing_le; [auto|cbn in *; lia]). lra.
  - destruct (interp_from_nodes xp a u fp x Inc Lf' ltac:(lra)) as [A B]. split; [|split; [exact A|]].
    + cbn [nth]. intro H. assert (x = a) by lra. subst x. destruct xp as [|b xp]; [apply A; cbn; lra|].
      rewrite (B 0%nat ltac:(cbn; lia) ltac:(split; [cbn; lra|apply (Inc 0%nat 1%nat); cbn; lia])). cbn [nth]. rewrite (Rminus_diag_eq a a) by auto. rewrite Rmult_0_r. ring.
    + intros i Hi Hr. assert (Hd : nth i (a :: xp) 0 < nth (S i) (a :: xp) 0) by (apply Inc; cbn in *; lia).
      destruct (Rle_lt_or_eq_dec x (nth (S i) (a :: xp) 0)) as [Hl|He]; [lra| |].
      * rewrite (B i) by (try lia; lra). field. lra.
      * assert (X : interp_from a u xp fp x = nth (S i) (u :: fp) 0).
        { destruct (Nat.eq_dec (S i) (length xp)) as [E|E]; [rewrite E; apply A; rewrite <- E; lra|].
          assert (nth (S i) (a :: xp) 0 < nth (S (S i)) (a :: xp) 0) by (apply Inc; cbn in *; lia).
          rewrite (B (S i)) by (try lia; lra). rewrite He, (Rminus_diag_eq (nth (S i) (a :: xp) 0) (nth (S i) (a :: xp) 0)) by auto. rewrite Rmult_0_r. ring. }
        rewrite X, He. ring.
Qed.

Lemma interp_from_weights xp : forall a x, increasing (a :: xp) -> a <= x -> exists j t, 0 <= t <= 1 /\ (j <= length xp)%nat /\ (j = length xp -> t = 0) /\
  forall u fp, length fp = length xp -> interp_from a u xp fp x = (1 - t) * nth j (u :: fp) 0 + t * nth (S j) (u :: fp) 0.
Proof.
  induction xp as [|b xp IH]; intros a x Inc Hx.
  - exists 0%nat, 0. split; [lra|]. split; [cbn; lia|]. split; [auto|]. intros u [|w fp] L; [cbn; ring|discriminate].
  - destruct (increasing_cons _ _ Inc) as [Inc' Lt]. specialize (Lt b (or_introl eq_refl)). destruct (Rltb_spec x b) as [Hb|Hb].
    + exists 0%nat, ((x - a) / (b - a)). split.
      { split; [apply Rmult_le_pos; [lra|apply Rlt_le, Rinv_0_lt_compat; lra]|]. apply (Rmult_le_reg_r (b - a)); [lra|]. unfold Rdiv. rewrite Rmult_assoc, Rinv_l by lra. lra. }
      split; [cbn; lia|]. split; [discriminate|]. intros u [|w fp] L; [discriminate|]. cbn [interp_from nth]. destruct (Rltb_spec x b); [|lra]. field. lra.
    + destruct (IH b x Inc' ltac:(lra)) as [j [t [T1 [T2 [T3 T4]]]]]. exists (S j), t. split; [auto|]. split; [cbn; lia|]. split; [cbn; intro; apply T3; lia|].
      intros u [|w fp] L; [discriminate|]. cbn [interp_from]. destruct (Rltb_spec x b); [lra|]. apply T4. cbn in L. lia.
Qed.
Lemma interp1_weights xp x : increasing xp -> (0 < length xp)%nat -> exists j t, 0 <= t <= 1 /\ (j < length xp)%nat /\ (S j = length xp -> t = 0) /\
  forall fp, length fp = length xp -> interp1 xp fp x = (1 - t) * nth j fp 0 + t * nth (S j) fp 0.
Proof.
  intros Inc Hn. destruct xp as [|a xp]; [cbn in Hn; lia|]. destruct (Rltb_spec x a) as [Ha|Ha].
  - exists 0%nat, 0. split; [lra|]. split; [cbn; lia|]. split; [auto|]. intros [|u fp] L; [discriminate|]. cbn [interp1 nth]. destruct (Rltb_spec x a); [|lra]. ring.
  - destruct (interp_from_weights xp a x Inc ltac:(lra)) as [j [t [T1 [T2 [T3 T4]]]]]. exists j, t. split; [auto|]. split; [cbn; lia|]. split; [cbn; intro; apply T3; lia|].
    intros [|u fp] L; [discriminate|]. cbn [interp1]. destruct (Rltb_spec x a); [lra|]. apply T4. cbn in L. lia.
Qed.

Lemma column_length j rows : length (column j rows) = length rows.
Proof. apply map_length. Qed.
Lemma nth_column j rows i : (i < length rows)%nat -> nth i (column j rows) 0 = entry rows i j.
Proof. intro H. unfold column, entry. rewrite (nth_map' (fun row => nth j row 0) rows i []) by auto. reflexivity. Qed.
Lemma nth_firstn_lt {A} n (l : list A) i d : (i < n)%nat -> nth i (firstn n l) d = nth i l d.
Proof. revert l i. induction n as [|n IH]; intros [|a l] [|i] H; cbn; auto; try lia. apply IH. lia. Qed.

(** the common loop of the two interpolators: columns 0..k-1 of [values] at the points [x] *)
Lemma columns_spec k xp values x : (0 < length xp <= length values)%nat ->
  exists cols, mapM (fun j => np_interp x xp (column j (firstn (length xp) values))) (seq 0 k) = Ok cols /\ length cols = k /\
  let out := tab (length x) (fun i => map (fun col => nth i col 0) cols) in
  length out = length x /\ rectangular k out /\
  forall i j, (i < length x)%nat -> (j < k)%nat -> entry out i j = interp1 xp (column j (firstn (length xp) values)) (nth i x 0).
Proof.
  intros [Hn Hl]. assert (S1 : forall j, np_interp x xp (column j (firstn (length xp) values)) = Ok (map (interp1 xp (column j (firstn (length xp) values))) x)).
  { intro j. unfold np_interp. destruct (length xp =? 0)%nat eqn:E; [apply Nat.eqb_eq in E; lia|]. rewrite column_length, firstn_length, Nat.min_l, Nat.eqb_refl by lia. reflexivity. }
  destruct (mapM_exists (fun j => np_interp x xp (column j (firstn (length xp) values))) (seq 0 k)) as [cols Hc]; [intros; eauto|].
  exists cols. split; [auto|]. apply mapM_nth with (da := 0%nat) (db := []) in Hc. rewrite seq_length in Hc. destruct Hc as [Lc Hc]. split; [auto|]. cbv zeta.
  split; [apply tab_length|]. split.
  - intros row Hr. apply in_tab in Hr. destruct Hr as [i [_ <-]]. rewrite map_length. auto.
  - intros i j Hi Hj. unfold entry. rewrite nth_tab by auto. rewrite (nth_map' (fun col => nth i col 0) cols j []) by lia.
    specialize (Hc j Hj). rewrite seq_nth, S1 in Hc by auto. apply Ok_inj in Hc. rewrite <- Hc. cbn [plus]. apply nth_map'. auto.
Qed.
