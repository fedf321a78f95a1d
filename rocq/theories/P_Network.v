(** C75: curvature. C78: training data, scaling and saved networks. *)
From Coq Require Import Reals String List Lia Lra Arith Bool.
From Verif Require Import Prelude L_Prelude M_Boundary L_Boundary M_ShallowWater M_Network S_Network.
Import ListNotations.
Open Scope R_scope.

(** ** C75: the formula *)
Lemma pow32_sqrt x : 0 <= x -> pow32 x = sqrt x ^ 3.
Proof.
  intro H. unfold pow32. destruct (Rltb_spec 0 x) as [L|L].
  - replace (3 / 2) with (/ 2 + 1) by lra. rewrite Rpower_plus, Rpower_1, Rpower_sqrt by auto. rewrite <- (sqrt_sqrt x) at 2 by lra. ring.
  - replace x with 0 by lra. rewrite sqrt_0. ring.
Qed.
Lemma sqrt_factor h x : 0 < h -> 0 <= x -> sqrt (h ^ 2 * x) = h * sqrt x.
Proof. intros. rewrite sqrt_mult by nra. rewrite sqrt_pow2 by lra. reflexivity. Qed.

(** The curvature of three values at distance h is that of the parabola through them, at the middle. *)
Theorem C75_curvature_of_the_parabola : forall h u0 u1 u2 a b c, 0 < h ->
  parabola a b c (- h) = u0 -> parabola a b c 0 = u1 -> parabola a b c h = u2 -> curvature1 h u0 u1 u2 = curvature_at_0 a b.
Proof.
  unfold parabola. intros h u0 u1 u2 a b c Hh E0 E1 E2. unfold curvature1, curvature_at_0.
  replace (u0 - 2 * u1 + u2) with (h ^ 2 * (2 * a)) by (subst; ring). replace (h ^ 2 + 1 / 4 * (u0 - u2) ^ 2) with (h ^ 2 * (1 + b ^ 2)) by (subst; field).
  rewrite pow32_sqrt by nra. rewrite sqrt_factor by nra. rewrite Rabs_mult, (Rabs_pos_eq (h ^ 2)) by nra.
  assert (0 < sqrt (1 + b ^ 2)) by (apply sqrt_lt_R0; nra). field. split; lra.
Qed.
Print Assumptions C75_curvature_of_the_parabola.
(** there is always exactly one such parabola *)
Theorem C75_the_parabola : forall h u0 u1 u2, 0 < h -> exists a b c, parabola a b c (- h) = u0 /\ parabola a b c 0 = u1 /\ parabola a b c h = u2 /\
  forall a' b' c', parabola a' b' c' (- h) = u0 -> parabola a' b' c' 0 = u1 -> parabola a' b' c' h = u2 -> a' = a /\ b' = b /\ c' = c.
Proof.
  unfold parabola. intros h u0 u1 u2 Hh. exists ((u0 - 2 * u1 + u2) / (2 * h ^ 2)), ((u2 - u0) / (2 * h)), u1. split; [field; lra|split; [ring|split; [field; lra|]]].
  intros a b c E0 E1 E2. subst. split; [|split]; field; lra.
Qed.
Print Assumptions C75_the_parabola.

Lemma denominator_pos h d : 0 < h -> h ^ 3 <= pow32 (h ^ 2 + 1 / 4 * d ^ 2).
Proof.
  intro Hh. rewrite pow32_sqrt by nra. apply pow_incr. split; [lra|]. rewrite <- (sqrt_pow2 h) at 1 by lra. apply sqrt_le_1_alt. nra.
Qed.
(** It is zero exactly on lines, otherwise positive; it does not depend on the direction, the sign or the reference height of the data; it is at most the second difference. *)
Theorem C75_properties : forall h u0 u1 u2 z, 0 < h ->
  0 <= curvature1 h u0 u1 u2 /\ (curvature1 h u0 u1 u2 = 0 <-> on_a_line u0 u1 u2) /\
  curvature1 h u2 u1 u0 = curvature1 h u0 u1 u2 /\ curvature1 h (- u0) (- u1) (- u2) = curvature1 h u0 u1 u2 /\
  curvature1 h (u0 + z) (u1 + z) (u2 + z) = curvature1 h u0 u1 u2 /\
  curvature1 h u0 u1 u2 <= Rabs (u0 - 2 * u1 + u2) / h ^ 2.
Proof.
  intros h u0 u1 u2 z Hh. unfold curvature1, on_a_line.
  pose proof (denominator_pos h (u0 - u2) Hh) as D. assert (H3 : 0 < h ^ 3) by (apply pow_lt; auto). set (q := pow32 (h ^ 2 + 1 / 4 * (u0 - u2) ^ 2)) in *.
  assert (Q : 0 < / q) by (apply Rinv_0_lt_compat; lra). pose proof (Rabs_pos (u0 - 2 * u1 + u2)) as A. unfold Rdiv.
  split; [apply Rmult_le_pos; [nra|lra]|split; [|split; [|split; [|split]]]].
  - split.
    + intro E. apply Rmult_integral in E as [E|E]; [|lra]. apply Rmult_integral in E as [E|E]; [|lra].
      destruct (Req_dec (u0 - 2 * u1 + u2) 0) as [|N]; [lra|]. apply Rabs_no_R0 in N. lra.
    + intro E. replace (u0 - 2 * u1 + u2) with 0 by lra. rewrite Rabs_R0. ring.
  - unfold q. replace (u2 - 2 * u1 + u0) with (u0 - 2 * u1 + u2) by ring. replace ((u2 - u0) ^ 2) with ((u0 - u2) ^ 2) by ring. reflexivity.
  - unfold q. replace (- u0 - 2 * - u1 + - u2) with (- (u0 - 2 * u1 + u2)) by ring. rewrite Rabs_Ropp. replace ((- u0 - - u2) ^ 2) with ((u0 - u2) ^ 2) by ring. reflexivity.
  - unfold q. replace (u0 + z - 2 * (u1 + z) + (u2 + z)) with (u0 - 2 * u1 + u2) by ring. replace (u0 + z - (u2 + z)) with (u0 - u2) by ring. reflexivity.
  - replace (Rabs (u0 - 2 * u1 + u2) * / h ^ 2) with (Rabs (u0 - 2 * u1 + u2) * h * / h ^ 3) by (field; lra).
    apply Rmult_le_compat_l; [nra|]. apply Rinv_le_contravar; auto.
Qed.
Print Assumptions C75_properties.
Example C75_ex : curvature1 2 1 1 5 = curvature_at_0 (1 / 2) 1 /\ parabola (1 / 2) 1 1 (- 2) = 1 /\ parabola (1 / 2) 1 1 2 = 5.
Proof. assert (parabola (1 / 2) 1 1 (- 2) = 1 /\ parabola (1 / 2) 1 1 2 = 5) as [A B] by (unfold parabola; lra). split; auto. apply (C75_curvature_of_the_parabola _ _ _ _ _ _ 1); auto; [lra|unfold parabola; lra]. Qed.

(** The transformation keeps the four states and appends the two mean curvatures, which do not depend on the direction in which the four states are read. *)
Theorem C75_transform : forall h X, (forall row, In row X -> length row = 8%nat) ->
  exists Y, curvature_transform h X = Ok Y /\ map (firstn 8) Y = X /\ (forall row, In row Y -> length row = 10%nat) /\
  forall i, (i < length X)%nat -> forall h0 q0 h1 q1 h2 q2 h3 q3, nth i X [] = [h0; q0; h1; q1; h2; q2; h3; q3] ->
    skipn 8 (nth i Y []) = [(curvature1 h h0 h1 h2 + curvature1 h h1 h2 h3) / 2; (curvature1 h q0 q1 q2 + curvature1 h q1 q2 q3) / 2].
Proof.
  intros h X HX. exists (map (fun row => row ++ [curvature h row 0; curvature h row 1]) X). split; [|split; [|split]].
  - unfold curvature_transform. replace (forallb (fun row => (length row =? 8)%nat) X) with true; auto. symmetry. apply forallb_forall. intros row I. apply Nat.eqb_eq. auto.
  - rewrite map_map. rewrite <- (map_id X) at 2. apply map_ext_in. intros row I. rewrite firstn_app, (firstn_all2 row) by (rewrite HX; auto). rewrite HX by auto. rewrite Nat.sub_diag. apply app_nil_r.
  - intros row I. apply in_map_iff in I as [r [<- I]]. rewrite app_length, HX by auto. reflexivity.
  - intros i Hi h0 q0 h1 q1 h2 q2 h3 q3 E. rewrite (nth_map' _ _ i []) by auto. rewrite E. reflexivity.
Qed.
Print Assumptions C75_transform.

(** ** delete-curvature: exactly the rows whose mean curvatures are below both thresholds are kept, in their order and unchanged; doing it again changes nothing *)
Definition keeps (th : thresholds) (row : list R) : bool :=
  Rltb (curvature (py_or (th_step th) 2) (firstn 8 row) 0) (py_or (th_height th) (1 / 4)) && Rltb (curvature (py_or (th_step th) 2) (firstn 8 row) 1) (py_or (th_discharge th) (1 / 2)).
Lemma without_curvature_filter th data : (forall row, In row data -> (8 <= length row)%nat) -> without_curvature th data = Ok (filter (keeps th) data).
Proof.
  intro H. unfold without_curvature.
  destruct (C75_transform (py_or (th_step th) 2) (map (firstn 8) data)) as [Y [E _]].
  { intros row I. apply in_map_iff in I as [r [<- I]]. rewrite firstn_length. specialize (H r I). lia. }
  unfold curvature_transform in *. destruct (forallb (fun row => (length row =? 8)%nat) (map (firstn 8) data)); [|discriminate]. clear E. cbn [bind]. f_equal. rewrite !map_map.
  induction data as [|row data IH]; [reflexivity|]. cbn [map map2 combine filter].
  assert (L : length (firstn 8 row) = 8%nat) by (rewrite firstn_length; specialize (H row (or_introl eq_refl)); lia).
  assert (K : forall c, nth c (skipn 8 (firstn 8 row ++ [curvature (py_or (th_step th) 2) (firstn 8 row) 0; curvature (py_or (th_step th) 2) (firstn 8 row) 1])) 0 = nth c [curvature (py_or (th_step th) 2) (firstn 8 row) 0; curvature (py_or (th_step th) 2) (firstn 8 row) 1] 0).
  { intro c. rewrite skipn_app, L, (skipn_all2 (firstn 8 row)) by lia. reflexivity. }
  rewrite !K. cbn [nth]. fold (keeps th row). destruct (keeps th row); cbn [map snd fst]; [f_equal|]; apply IH; intros; apply H; right; auto.
Qed.
Theorem C75_deleted_rows : forall th data, (forall row, In row data -> (8 <= length row)%nat) ->
  exists kept, without_curvature th data = Ok kept /\ without_curvature th kept = Ok kept /\
  (exists keep : list bool, length keep = length data /\ kept = map snd (filter fst (combine keep data))) /\
  forall row, In row kept <-> In row data /\ forall h0 q0 h1 q1 h2 q2 h3 q3 rest, row = h0 :: q0 :: h1 :: q1 :: h2 :: q2 :: h3 :: q3 :: rest ->
    let h := py_or (th_step th) 2 in
    (curvature1 h h0 h1 h2 + curvature1 h h1 h2 h3) / 2 < py_or (th_height th) (1 / 4) /\ (curvature1 h q0 q1 q2 + curvature1 h q1 q2 q3) / 2 < py_or (th_discharge th) (1 / 2).
Proof.
  intros th data H. exists (filter (keeps th) data). split; [apply without_curvature_filter; auto|]. split; [|split].
  - rewrite without_curvature_filter; [|intros row I; apply filter_In in I as [I _]; auto]. f_equal. clear H. induction data as [|row data IH]; [reflexivity|]. cbn [filter].
    destruct (keeps th row) eqn:E; [|exact IH]. cbn [filter]. rewrite E, IH. reflexivity.
  - exists (map (keeps th) data). split; [apply map_length|]. clear H. induction data as [|row data IH]; [reflexivity|]. cbn [map combine filter fst]. destruct (keeps th row); cbn [map snd]; rewrite IH; reflexivity.
  - intro row. rewrite filter_In. split; intros [I K]; (split; [exact I|]).
    + intros h0 q0 h1 q1 h2 q2 h3 q3 rest -> h. unfold keeps in K. apply andb_prop in K as [K1 K2].
      split; [destruct (Rltb_spec (curvature (py_or (th_step th) 2) (firstn 8 (h0 :: q0 :: h1 :: q1 :: h2 :: q2 :: h3 :: q3 :: rest)) 0) (py_or (th_height th) (1 / 4))) as [L|]; [exact L|discriminate]|].
      destruct (Rltb_spec (curvature (py_or (th_step th) 2) (firstn 8 (h0 :: q0 :: h1 :: q1 :: h2 :: q2 :: h3 :: q3 :: rest)) 1) (py_or (th_discharge th) (1 / 2))) as [L|]; [exact L|discriminate].
    + specialize (H row I). do 8 (destruct row as [|? row]; [cbn in H; lia|]). destruct (K _ _ _ _ _ _ _ _ _ eq_refl) as [K1 K2].
      unfold keeps. apply andb_true_intro. split; apply Rltb_true; [exact K1|exact K2].
Qed.
Print Assumptions C75_deleted_rows.
Lemma curvature_sqrt h u0 u1 u2 : curvature1 h u0 u1 u2 = Rabs (u0 - 2 * u1 + u2) * h / sqrt (h ^ 2 + 1 / 4 * (u0 - u2) ^ 2) ^ 3.
Proof. unfold curvature1. rewrite pow32_sqrt; [reflexivity|]. pose proof (pow2_ge_0 h). pose proof (pow2_ge_0 (u0 - u2)). lra. Qed.
(** water at rest is kept, a jump from 1 to 3 is not; a higher jump from 1 to 9 is: its curve is steep *)
Example C75_deleted_rows_ex : without_curvature {| th_step := None; th_height := None; th_discharge := None |}
  [[1;0;1;0;1;0;1;0; 5;6]; [1;0;1;0;3;0;3;0; 5;6]; [1;0;1;0;9;0;9;0; 5;6]] = Ok [[1;0;1;0;1;0;1;0; 5;6]; [1;0;1;0;9;0;9;0; 5;6]].
Proof.
  rewrite without_curvature_filter; [|intros row [<-|[<-|[<-|[]]]]; cbn; lia]. f_equal.
  assert (Z : forall u, curvature1 2 u u u = 0) by (intro u; apply C75_properties; [exact 0|lra|unfold on_a_line; lra]).
  assert (A : 1 / 4 < curvature1 2 1 1 3 /\ curvature1 2 1 3 3 = curvature1 2 1 1 3).
  { rewrite !curvature_sqrt. replace (1 - 2 * 3 + 3) with (- (1 - 2 * 1 + 3)) by ring. rewrite Rabs_Ropp. split; [|reflexivity]. replace (1 - 2 * 1 + 3) with 2 by ring. rewrite Rabs_pos_eq by lra.
    replace (2 ^ 2 + 1 / 4 * (1 - 3) ^ 2) with 5 by lra. assert (S : 0 < sqrt 5 < 5 / 2). { split; [apply sqrt_lt_R0; lra|]. rewrite <- (sqrt_pow2 (5 / 2)) by lra. apply sqrt_lt_1_alt. lra. }
    assert (0 < sqrt 5 ^ 3 < 16). { replace (sqrt 5 ^ 3) with (sqrt 5 * sqrt 5 * sqrt 5) by ring. rewrite sqrt_sqrt by lra. lra. }
    apply Rmult_lt_reg_r with (sqrt 5 ^ 3); [lra|]. unfold Rdiv at 2. rewrite Rmult_assoc, Rinv_l by lra. lra. }
  assert (B : curvature1 2 1 1 9 < 1 / 4 /\ curvature1 2 1 9 9 = curvature1 2 1 1 9).
  { rewrite !curvature_sqrt. replace (1 - 2 * 9 + 9) with (- (1 - 2 * 1 + 9)) by ring. rewrite Rabs_Ropp. split; [|reflexivity]. replace (1 - 2 * 1 + 9) with 8 by ring. rewrite Rabs_pos_eq by lra.
    replace (2 ^ 2 + 1 / 4 * (1 - 9) ^ 2) with 20 by lra. assert (S : 4 < sqrt 20). { rewrite <- (sqrt_pow2 4) by lra. apply sqrt_lt_1_alt. lra. }
    assert (80 < sqrt 20 ^ 3). { replace (sqrt 20 ^ 3) with (sqrt 20 * sqrt 20 * sqrt 20) by ring. rewrite sqrt_sqrt by lra. lra. }
    apply Rmult_lt_reg_r with (sqrt 20 ^ 3); [lra|]. unfold Rdiv at 1. rewrite Rmult_assoc, Rinv_l by lra. lra. }
  destruct A as [A1 A2], B as [B1 B2].
  cbn [filter]. unfold keeps, curvature. cbn [th_step th_height th_discharge py_or firstn nth Nat.mul Nat.add]. rewrite !Z, A2, B2.
  rewrite !(Rltb_true ((0 + 0) / 2)) by lra. rewrite (Rltb_true ((curvature1 2 1 1 9 + _) / 2)) by lra. rewrite (Rltb_false ((curvature1 2 1 1 3 + _) / 2)) by lra. reflexivity.
Qed.

(** The command, however, never gets that far: the functions for reading and writing data do not exist. *)
Theorem C75_command_refuted : forall th data_path target_path, delete_curvature th data_path target_path = Err AttributeError.
Proof. reflexivity. Qed.
Print Assumptions C75_command_refuted.

(** ** C78: training *)
Lemma every_nth {A} (d : A) : forall s l i, (0 < s)%nat ->
  (forall j, (i + j * s < length l)%nat -> (j < length (every s i l))%nat /\ nth j (every s i l) d = nth (i + j * s) l d) /\
  (forall j, (j < length (every s i l))%nat -> (i + j * s < length l)%nat).
Proof.
  intros s l. induction l as [|x l IH]; intros i Hs; cbn [every length]; [split; intros; lia|]. destruct i as [|i].
  - destruct (IH (s - 1)%nat Hs) as [A1 A2]. cbn [length]. split; intros j Hj.
    + destruct j as [|j]; [cbn; split; [lia|reflexivity]|]. destruct (A1 j) as [B1 B2]; [lia|]. split; [lia|]. cbn [nth]. rewrite B2.
      replace (0 + S j * s)%nat with (S (s - 1 + j * s)) by lia. reflexivity.
    + destruct j as [|j]; [lia|]. specialize (A2 j ltac:(lia)). lia.
  - destruct (IH i Hs) as [A1 A2]. split; intros j Hj.
    + destruct (A1 j) as [B1 B2]; [lia|]. split; [auto|]. rewrite B2. reflexivity.
    + specialize (A2 j Hj). lia.
Qed.
(** Every skip-th row of the table is used, from the first on: its last two numbers are the target, the others the input. *)
Theorem C78_training_data : forall s df k, (0 < s)%nat -> df <> [] -> (forall row, In row df -> length row = (k + 2)%nat) ->
  let '(X, y) := training_data (Some s) df in length X = length y /\ (forall j, (j < length X)%nat <-> (j * s < length df)%nat) /\
  forall j, (j < length X)%nat -> nth j X [] ++ nth j y [] = nth (j * s) df [] /\ length (nth j X []) = k /\ length (nth j y []) = 2%nat.
Proof.
  intros s df k Hs Nd Hr. unfold training_data. destruct s as [|s']; [lia|]. set (s := S s') in *. set (rows := every s 0 df).
  assert (D : (columns df - 2 = k)%nat). { destruct df as [|r df']; [congruence|]. cbn [columns]. rewrite (Hr r) by (left; auto). lia. } rewrite D.
  destruct (every_nth [] s df 0 Hs) as [A1 A2]. fold rows in A1, A2. rewrite !map_length. split; [reflexivity|split].
  - intro j. split; [apply A2|]. intro H. apply A1. exact H.
  - intros j Hj. rewrite !(nth_map' _ _ j []) by auto. destruct (A1 j (A2 j Hj)) as [_ B]. rewrite B. cbn [Nat.add]. rewrite firstn_skipn. split; [reflexivity|].
    assert (L : length (nth (j * s) df []) = (k + 2)%nat) by (apply Hr, nth_In, A2, Hj). rewrite firstn_length, skipn_length, L. split; lia.
Qed.
Print Assumptions C78_training_data.
Example C78_training_data_ex : training_data (Some 2%nat) [[1; 2; 3]; [4; 5; 6]; [7; 8; 9]] = ([[1]; [7]], [[2; 3]; [8; 9]]).
Proof. reflexivity. Qed.

Lemma rsum_cons x l : rsum (x :: l) = x + rsum l.
Proof. reflexivity. Qed.
Lemma mean_shift l m : (0 < length l)%nat -> rsum (map (fun x => x - m) l) = rsum l - INR (length l) * m.
Proof. intros _. induction l as [|x l IH]; cbn [map length]; [cbn; lra|]. rewrite !rsum_cons. rewrite IH, S_INR. lra. Qed.
Lemma rsum_scale l c : rsum (map (fun x => x * c) l) = rsum l * c.
Proof. induction l as [|x l IH]; cbn [map]; [cbn; lra|]. rewrite !rsum_cons, IH. lra. Qed.
Lemma rsum_squares_zero l : rsum (map (fun x => x ^ 2) l) = 0 -> forall x, In x l -> x = 0.
Proof.
  assert (P : forall l, 0 <= rsum (map (fun x => x ^ 2) l)) by (induction l0 as [|y l0 IH]; cbn [map]; [cbn; lra|rewrite rsum_cons; pose proof (pow2_ge_0 y); lra]).
  induction l as [|y l IH]; cbn [map]; intros E x []; rewrite rsum_cons in E; pose proof (P l); pose proof (pow2_ge_0 y).
  - subst. assert (y0 : x ^ 2 = 0) by lra. nra.
  - apply IH; [lra|auto].
Qed.
Lemma scale_pos l : 0 <= variance l -> 0 < scale l.
Proof. intro H. unfold scale. destruct (Reqb_spec (variance l) 0); [lra|]. apply sqrt_lt_R0. lra. Qed.
Lemma variance_nonneg l : 0 <= variance l.
Proof.
  unfold variance. assert (0 <= rsum (map (fun x => (x - mean l) ^ 2) l)).
  { induction l as [|y l0 IH]; [cbn; lra|]. generalize (mean (y :: l0)) as m. intro m. clear IH. generalize (y :: l0) as q. induction q as [|z q IH]; cbn [map]; [cbn; lra|]. rewrite rsum_cons. pose proof (pow2_ge_0 (z - m)). lra. }
  destruct (length l); [cbn; unfold Rdiv; rewrite Rinv_0; lra|]. apply Rmult_le_pos; [auto|]. left. apply Rinv_0_lt_compat. apply lt_0_INR. lia.
Qed.
(** Scaled columns have mean zero and variance one, unless they are constant: then they become zero. *)
Lemma standardise_column : forall l, (0 < length l)%nat ->
  let l' := map (fun x => (x - mean l) / scale l) l in
  (standardised l' /\ ~ constant l) \/ (constant l /\ forall x, In x l' -> x = 0).
Proof.
  intros l Hl l'. assert (N : 0 < INR (length l)) by (apply lt_0_INR; auto).
  assert (V : variance l * INR (length l) = rsum (map (fun x => (x - mean l) ^ 2) l)) by (unfold variance; field; lra).
  assert (SQ : forall x, map (fun x => x ^ 2) (map (fun x => x - mean l) x) = map (fun x => (x - mean l) ^ 2) x) by (intro; rewrite map_map; reflexivity).
  destruct (Req_dec (variance l) 0) as [Z|Z].
  - right. rewrite Z, Rmult_0_l in V. rewrite <- SQ in V. symmetry in V.
    assert (C : forall x, In x l -> x = mean l). { intros x I. pose proof (rsum_squares_zero _ V (x - mean l) ltac:(apply (in_map (fun x => x - mean l)); auto)). lra. }
    split; [intros x y Ix Iy; rewrite (C x), (C y); auto|]. intros x I. apply in_map_iff in I as [y [<- I]]. rewrite (C y I). unfold Rdiv. ring.
  - left. pose proof (variance_nonneg l) as P. assert (S : scale l = sqrt (variance l)) by (unfold scale; destruct (Reqb_spec (variance l) 0); [contradiction|auto]).
    assert (SP : 0 < scale l) by (apply scale_pos; auto). split; [split|].
    + unfold l', Rdiv. rewrite <- (map_map (fun x => x - mean l) (fun y => y * / scale l)). rewrite rsum_scale, mean_shift by auto. unfold mean. field. lra.
    + unfold l'. rewrite map_length, map_map. rewrite (map_ext _ (fun x => (x - mean l) ^ 2 * / variance l)).
      * rewrite <- (map_map (fun x => (x - mean l) ^ 2) (fun y => y * / variance l)). rewrite rsum_scale, <- V. field. auto.
      * intro x. assert (Q : scale l ^ 2 = variance l) by (rewrite S; simpl; rewrite Rmult_1_r; apply sqrt_sqrt; auto). rewrite <- Q. field. lra.
    + intro C. apply Z. unfold variance. assert (forall x, In x l -> x = mean l).
      { intros x I. unfold mean. assert (E : rsum l = INR (length l) * x). { clear - C I. assert (forall y, In y l -> y = x) by (intros; apply C; auto). clear - H. induction l as [|y l IH]; [cbn; lra|]. cbn [length]. rewrite rsum_cons, S_INR, IH by (intros; apply H; right; auto). rewrite (H y) by (left; auto). lra. } rewrite E. field. lra. }
      replace (map (fun x => (x - mean l) ^ 2) l) with (map (fun _ : R => 0) l); [|apply map_ext_in; intros x I; rewrite (H x I) at 1; ring].
      assert (rsum (map (fun _ : R => 0) l) = 0) by (clear; induction l; cbn [map]; [reflexivity|rewrite rsum_cons; lra]). rewrite H0. unfold Rdiv. ring.
Qed.

Lemma scaler_rows_ok f ms rows : (forall row, In row rows -> length row = length ms) -> scaler_rows f (Some ms) rows = Ok (map (f ms) rows).
Proof. intro H. unfold scaler_rows. replace (forallb _ rows) with true; auto. symmetry. apply forallb_forall. intros row I. apply Nat.eqb_eq. auto. Qed.
Lemma unscale_scale ms row : (forall p, In p ms -> snd p <> 0) -> length row = length ms -> unscale_row ms (scale_row ms row) = row /\ length (scale_row ms row) = length ms.
Proof.
  revert row. induction ms as [|p ms IH]; intros row H L; destruct row as [|x row]; try (cbn in L; lia); [split; reflexivity|]. cbn in L. destruct (IH row) as [A B]; [intros; apply H; right; auto|lia|].
  unfold unscale_row, scale_row in *. cbn [map2 length]. rewrite A, B. split; [|reflexivity]. f_equal. field. apply H. left. auto.
Qed.
Lemma fit_scaler_spec rows k : rows <> [] -> (forall row, In row rows -> length row = k) ->
  exists ms, fit_scaler rows = Ok (Some ms) /\ length ms = k /\ (forall p, In p ms -> snd p <> 0) /\ forall j, (j < k)%nat -> nth j ms (0, 1) = (mean (col j rows), scale (col j rows)).
Proof.
  intros N H. destruct rows as [|r rows'] eqn:E; [congruence|]. rewrite <- E in *. exists (tab k (fun j => (mean (col j rows), scale (col j rows)))). split; [|split; [|split]].
  - unfold fit_scaler. rewrite E at 1. rewrite (H r) by (rewrite E; left; auto). reflexivity.
  - apply tab_length.
  - intros p I. apply in_tab in I as [j [_ <-]]. cbn [snd]. pose proof (scale_pos (col j rows) (variance_nonneg _)). lra.
  - intros j Hj. rewrite nth_tab by auto. reflexivity.
Qed.
(** The scaler: every column of the data it is fitted to gets mean zero and variance one, or becomes zero if it is constant; on any data it can be undone. *)
Theorem C78_scaling : forall rows k, rows <> [] -> (forall row, In row rows -> length row = k) ->
  exists s scaled, fit_scaler rows = Ok s /\ transform s rows = Ok scaled /\ length scaled = length rows /\
  (forall j, (j < k)%nat -> let before := map (fun row => nth j row 0) rows in let after := map (fun row => nth j row 0) scaled in
     (standardised after /\ ~ constant before) \/ (constant before /\ forall x, In x after -> x = 0)) /\
  forall other, (forall row, In row other -> length row = k) -> exists q, transform s other = Ok q /\ inverse_transform s q = Ok other.
Proof.
  intros rows k N H. destruct (fit_scaler_spec rows k N H) as [ms [E [L [P V]]]].
  exists (Some ms), (map (scale_row ms) rows). split; [exact E|]. split; [apply scaler_rows_ok; intros; rewrite L; auto|]. split; [apply map_length|]. split.
  - intros j Hj before after. replace after with (map (fun x => (x - mean before) / scale before) before).
    + apply standardise_column. unfold before. rewrite map_length. destruct rows; [congruence|cbn; lia].
    + unfold after, before. rewrite !map_map. apply map_ext_in. intros row I. unfold scale_row.
      rewrite (nth_map2 _ _ _ j (0, 1) 0) by (rewrite ?L, ?H; auto). rewrite V by auto. reflexivity.
  - intros other HO. exists (map (scale_row ms) other). split; [apply scaler_rows_ok; intros; rewrite L; auto|].
    unfold inverse_transform. rewrite scaler_rows_ok.
    + f_equal. rewrite map_map. rewrite <- (map_id other) at 2. apply map_ext_in. intros row I. apply unscale_scale; [exact P|rewrite L; auto].
    + intros row I. apply in_map_iff in I as [r [<- I]]. apply unscale_scale; [exact P|rewrite L; auto].
Qed.
Print Assumptions C78_scaling.

Section Networks.
Context {P Op Hi : Type} (initial : P * Op * Hi) (train : list (list R) -> list (list R) -> P * Op * Hi -> P * Op * Hi) (forward : P -> list R -> list R).

(** A network that has learned its scaled training data exactly predicts the training data: scaling is transparent. *)
Theorem C78_perfect_network : forall X y k m n, X <> [] -> length y = length X -> (forall row, In row X -> length row = k) -> (forall row, In row y -> length row = m) ->
  exists n', fit train X y n = (n', None) /\
  (forall X' y', transform (n_in n') X = Ok X' -> transform (n_out n') y = Ok y' -> map (forward (fst (fst (n_inner n')))) X' = y' -> predict forward n' X = Ok y) /\
  (* a method of training that reproduces every table without repeated inputs makes the network reproduce the data *)
  ((forall A B s, length A = length B -> NoDup A -> map (forward (fst (fst (train A B s)))) A = B) -> NoDup X -> predict forward n' X = Ok y).
Proof.
  intros X y k m n NX Ly HX Hy. assert (NY : y <> []) by (destruct X, y; cbn in *; congruence).
  destruct (C78_scaling X k NX HX) as [si [X1 [A1 [A2 [A3 [_ A4]]]]]]. destruct (C78_scaling y m NY Hy) as [so [y1 [B1 [B2 [B4 [_ B3]]]]]].
  unfold fit. rewrite A1, A2, B1, B2. eexists. split; [reflexivity|]. cbn [n_in n_out n_inner].
  assert (G : forall X' y', transform si X = Ok X' -> transform so y = Ok y' -> map (forward (fst (fst (train X1 y1 (n_inner n))))) X' = y' -> predict forward {| n_inner := train X1 y1 (n_inner n); n_in := si; n_out := so |} X = Ok y).
  { intros X' y' E1 E2 E3. rewrite A2 in E1. injection E1 as <-.
    unfold predict. cbn [n_in n_out n_inner]. rewrite A2. cbn [bind]. rewrite E3. destruct (B3 y Hy) as [q [Q1 Q2]]. rewrite E2 in Q1. injection Q1 as <-. exact Q2. }
  split; [exact G|]. intros HT ND. apply (G X1 y1 A2 B2). apply HT; [rewrite A3, B4; symmetry; exact Ly|].
  destruct (A4 X HX) as [q [Q1 Q2]]. rewrite A2 in Q1. injection Q1 as <-. unfold inverse_transform, scaler_rows in Q2.
  destruct si as [ms|]; [|discriminate]. destruct (forallb _ X1); [|discriminate]. injection Q2 as Q2. rewrite <- Q2 in ND. exact (NoDup_map_inv _ _ ND).
Qed.

(** A saved network can be loaded again: it predicts the same, and with its history it is the same. *)
Definition different (q : paths) : Prop := NoDup [f_network q; f_optimizer q; f_history q; f_input q; f_output q].
Theorem C78_saved_networks : forall q n fs other, different q ->
  let fs' := save_params q n fs in
  load_params initial q true fs' other = n /\
  (forall h, n_in (load_params initial q h fs' other) = n_in n /\ n_out (load_params initial q h fs' other) = n_out n /\
     forall X, predict forward (load_params initial q h fs' other) X = predict forward n X) /\
  (forall p, ~ In p [f_network q; f_optimizer q; f_history q; f_input q; f_output q] -> fs' p = fs p).
Proof.
  intros q n fs other D fs'. destruct n as [[[p o] h] si so].
  assert (W : fs' (f_network q) = Some (CParams p) /\ fs' (f_optimizer q) = Some (COptimizer o) /\ fs' (f_history q) = Some (CHistory h) /\ fs' (f_input q) = Some (CScaler si) /\ fs' (f_output q) = Some (CScaler so) /\
    forall x, ~ In x [f_network q; f_optimizer q; f_history q; f_input q; f_output q] -> fs' x = fs x).
  { unfold fs', save_params, write. cbn [n_inner n_in n_out]. unfold different in D. inversion_clear D as [|? ? D1 D']. inversion_clear D' as [|? ? D2 D'']. inversion_clear D'' as [|? ? D3 D']. inversion_clear D' as [|? ? D4 _].
    cbn [In] in *.
    repeat split; try (intros x Nx);
    repeat match goal with |- context [String.eqb ?a ?b] => destruct (String.eqb_spec a b); try (exfalso; intuition congruence) end; try reflexivity; try congruence. }
  destruct W as [W1 [W2 [W3 [W4 [W5 W6]]]]].
  assert (L : forall hh, exists o' h', load_params initial q hh fs' other = {| n_inner := (p, o', h'); n_in := si; n_out := so |} /\ (hh = true -> o' = o /\ h' = h)).
  { intro hh. unfold load_params. rewrite W1, W2, W3, W4, W5. destruct hh; cbn [andb n_inner n_in n_out]; [exists o, h; auto|exists (snd (fst initial)), (snd initial); split; [reflexivity|discriminate]]. }
  split; [|split; [|exact W6]].
  - destruct (L true) as [o' [h' [E F]]]. destruct (F eq_refl) as [-> ->]. exact E.
  - intro hh. destruct (L hh) as [o' [h' [E _]]]. rewrite E. repeat split; reflexivity.
Qed.

(** Without its files a network is said to be used untrained; but its scalers were never fitted, so it cannot predict anything. *)
Theorem C78_untrained_networks_refuted : forall q h X, predict forward (load_params initial q h (fun _ => None) (new_network initial)) X = Err ValueError.
Proof. intros q h X. unfold load_params. cbn. reflexivity. Qed.

(** The files are written unless the user is asked and declines first; an invalid answer is asked for again. *)
Theorem C78_confirmation : forall q skip confirm answers df n fs n' fs' r, train_network train q skip confirm answers df n fs = Some (n', fs', r) ->
  fit train (fst (training_data skip df)) (snd (training_data skip df)) n = (n', r) /\
  ((fs' = save_params q n' fs /\ r = None /\ (confirm = true -> exists a b x, answers = a ++ x :: b /\ (x = "y" \/ x = "yes")%string /\ forall z, In z a -> ~ In z ["y"; "yes"; "n"; "no"]%string)) \/
   (fs' = fs /\ (r <> None \/ (confirm = true /\ exists a b x, answers = a ++ x :: b /\ (x = "n" \/ x = "no")%string /\ forall z, In z a -> ~ In z ["y"; "yes"; "n"; "no"]%string)))).
Proof.
  intros q skip confirm answers df n fs n' fs' r E. unfold train_network in E. destruct (training_data skip df) as [X y]. cbn [fst snd].
  assert (A : forall l b, ask l = Some b -> exists a c x, l = a ++ x :: c /\ (if b then x = "y" \/ x = "yes" else x = "n" \/ x = "no")%string /\ forall z, In z a -> ~ In z ["y"; "yes"; "n"; "no"]%string).
  { induction l as [|x l IH]; intros b Eb; [discriminate|]. cbn [ask] in Eb.
    destruct (String.eqb_spec x "y"); [injection Eb as <-; exists [], l, x; repeat split; auto; intros z []|]. destruct (String.eqb_spec x "yes"); [injection Eb as <-; exists [], l, x; repeat split; auto; intros z []|]. cbn [orb] in Eb.
    destruct (String.eqb_spec x "n"); [injection Eb as <-; exists [], l, x; repeat split; auto; intros z []|]. destruct (String.eqb_spec x "no"); [injection Eb as <-; exists [], l, x; repeat split; auto; intros z []|]. cbn [orb] in Eb.
    destruct (IH b Eb) as [a [c [w [-> [B C]]]]]. exists (x :: a), c, w. split; [reflexivity|split; [exact B|]]. intros z [<-|I]; [cbn [In]; intuition congruence|auto]. }
  destruct (fit train X y n) as [n1 [x|]]; [injection E as <- <- <-; split; [reflexivity|right; split; [reflexivity|left; discriminate]]|].
  unfold save_answer in E. destruct confirm.
  - destruct (ask answers) as [[|]|] eqn:Ea; [| |discriminate]; injection E as <- <- <-; (split; [reflexivity|]); [left|right]; [split; [reflexivity|split; [reflexivity|]]; intros _|split; [reflexivity|right; split; [reflexivity|]]]; exact (A _ _ Ea).
  - injection E as <- <- <-. split; [reflexivity|]. left. repeat split. discriminate.
Qed.
End Networks.
Print Assumptions C78_perfect_network.
Print Assumptions C78_saved_networks.
Print Assumptions C78_untrained_networks_refuted.
Print Assumptions C78_confirmation.
(** a network that remembers what it was trained on *)
Fixpoint look (table : list (list R * list R)) (row : list R) : list R :=
  match table with [] => [] | (x, y) :: t => if list_eq_dec Req_EM_T x row then y else look t row end.
Example C78_memory_ex : let train := fun (A B : list (list R)) (_ : list (list R * list R) * unit * unit) => (combine A B, tt, tt) in
  (forall A B s, length A = length B -> NoDup A -> map (look (fst (fst (train A B s)))) A = B) /\ NoDup [[0]; [2]].
Proof.
  cbn zeta. split.
  - intros A B _. cbn [fst]. revert B. induction A as [|a A IH]; intros [|b B] L N; try discriminate L; [reflexivity|]. inversion_clear N as [|? ? N1 N2]. cbn [combine map look].
    destruct (list_eq_dec Req_EM_T a a); [|congruence]. f_equal. etransitivity; [|exact (IH B ltac:(injection L; auto) N2)]. apply map_ext_in. intros x Hx.
    destruct (list_eq_dec Req_EM_T a x) as [<-|]; [contradiction|reflexivity].
  - constructor; [|constructor; [intros []|constructor]]. intros [E|[]]. injection E as E. lra.
Qed.
(** a network with one parameter: the slope of a linear function; trained it is 1 *)
Example C78_ex :
  let initial := (0, tt, tt) in let train := fun (_ _ : list (list R)) (s : R * unit * unit) => (1, tt, tt) in let forward := fun (p : R) row => map (fun x => p * x) row in
  let q := {| f_network := "n"; f_optimizer := "o"; f_history := "h"; f_input := "i"; f_output := "u" |}%string in
  different q /\ exists n', fit train [[0]; [2]] [[1]; [7]] (new_network initial) = (n', None) /\ predict forward n' [[0]; [2]] = Ok [[1]; [7]].
Proof.
  cbn zeta. split; [unfold different; cbn; repeat constructor; cbn; intuition congruence|].
  destruct (C78_perfect_network (fun (_ _ : list (list R)) (_ : R * unit * unit) => (1, tt, tt)) (fun p row => map (fun x => p * x) row) [[0]; [2]] [[1]; [7]] 1 1 (new_network (0, tt, tt))) as [n' [E [K _]]];
    [discriminate|reflexivity|intros row [<-|[<-|[]]]; reflexivity|intros row [<-|[<-|[]]]; reflexivity|].
  exists n'. split; [exact E|].
  assert (Ni : n_in n' = Some [(1, 1)] /\ n_out n' = Some [(4, 3)] /\ n_inner n' = (1, tt, tt)).
  { assert (S1 : fit_scaler [[0]; [2]] = Ok (Some [(1, 1)])).
    { change (fit_scaler [[0]; [2]]) with (@Ok scaler (Some [(mean (col 0 [[0]; [2]]), scale (col 0 [[0]; [2]]))])). assert (M : mean (col 0 [[0]; [2]]) = 1) by (unfold mean; cbn; lra). assert (W : variance (col 0 [[0]; [2]]) = 1) by (unfold variance; rewrite M; cbn; lra).
      assert (W2 : scale (col 0 [[0]; [2]]) = 1) by (unfold scale; rewrite W; destruct (Reqb_spec 1 0); [lra|apply sqrt_1]). rewrite M, W2. reflexivity. }
    assert (S2 : fit_scaler [[1]; [7]] = Ok (Some [(4, 3)])).
    { change (fit_scaler [[1]; [7]]) with (@Ok scaler (Some [(mean (col 0 [[1]; [7]]), scale (col 0 [[1]; [7]]))])). assert (M : mean (col 0 [[1]; [7]]) = 4) by (unfold mean; cbn; lra). assert (W : variance (col 0 [[1]; [7]]) = 9) by (unfold variance; rewrite M; cbn; lra).
      assert (W2 : scale (col 0 [[1]; [7]]) = 3) by (unfold scale; rewrite W; destruct (Reqb_spec 9 0); [lra|replace 9 with (3 ^ 2) by lra; apply sqrt_pow2; lra]). rewrite M, W2. reflexivity. }
    unfold fit in E. rewrite S1, S2 in E. unfold transform, scaler_rows in E. cbn [forallb length Nat.eqb andb] in E. injection E as <-. repeat split. }
  destruct Ni as [Ni [No Nn]]. rewrite Ni, No, Nn in K. eapply K; [reflexivity|reflexivity|]. cbn. apply f_equal2; [apply f_equal2; [field|reflexivity]|apply f_equal2; [apply f_equal2; [field|reflexivity]|reflexivity]].
Qed.
