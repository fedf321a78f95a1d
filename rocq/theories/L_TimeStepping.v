From Coq Require Import Reals List Lia Lra Arith ZArith Bool.
From Verif Require Import Prelude L_Prelude M_TimeStepping.
Import ListNotations.
Open Scope R_scope.

Lemma tol_pos : 0 < tol.
Proof. unfold tol; lra. Qed.

Lemma Rmin_cases a b : (Rmin a b = a /\ a <= b) \/ (Rmin a b = b /\ b <= a).
Proof. unfold Rmin; destruct (Rle_dec a b); [left|right]; split; auto; lra. Qed.

(* one call of __next__ *)
Lemma ts_next_yield e g s step s' :
  ts_next e g s = Yield step s' ->
  ts_stop s = false /\ step = Rmin g (e - ts_time s) /\ tol <= step /\
  ts_count s' = S (ts_count s) /\
  ((ts_stop s' = false /\ ts_time s' = ts_time s + step /\ tol <= e - ts_time s') \/
   (ts_stop s' = true /\ ts_time s' = e /\ 0 <= e - (ts_time s + step) < tol)).
Proof.
  unfold ts_next. destruct (ts_stop s); [discriminate|].
  destruct (Rltb_spec (Rmin g (e - ts_time s)) tol) as [H|H]; [discriminate|].
  destruct (Rltb_spec (e - (ts_time s + Rmin g (e - ts_time s))) tol) as [H1|H1];
  intro E; inversion E; subst; clear E; cbn [ts_count ts_time ts_stop];
  (split; [reflexivity|split; [reflexivity|split; [lra|split; [reflexivity|]]]]).
  - right. split; [reflexivity|split; [reflexivity|]].
    pose proof (Rmin_r g (e - ts_time s)). lra.
  - left. split; [reflexivity|split; [reflexivity|lra]].
Qed.

Lemma ts_next_stop e g s : ts_next e g s = StopIter <-> ts_stop s = true.
Proof.
  unfold ts_next. destruct (ts_stop s); [tauto|].
  destruct (Rltb _ _); [split; discriminate|].
  destruct (Rltb _ _); split; discriminate.
Qed.

Lemma ts_next_toosmall e g s :
  ts_next e g s = TooSmall <-> ts_stop s = false /\ Rmin g (e - ts_time s) < tol.
Proof.
  unfold ts_next. destruct (ts_stop s); [split; [discriminate|intros []; discriminate]|].
  destruct (Rltb_spec (Rmin g (e - ts_time s)) tol).
  - tauto.
  - destruct (Rltb _ _); (split; [discriminate|lra]).
Qed.

(* the whole loop started in state s at call k *)
Definition loop_inv (e : R) (g : nat -> R) (k : nat) (s0 : ts_state)
  (r : list R * ts_state * ts_status) (n : nat) : Prop :=
  let '(steps, s, st) := r in
  (forall i, (i < length steps)%nat ->
     tol <= nth i steps 0 <= g (k + i)%nat /\
     ts_time s0 + rsum (firstn (S i) steps) <= e) /\
  ts_count s = (ts_count s0 + length steps)%nat /\
  (ts_stop s = false -> ts_time s = ts_time s0 + rsum steps) /\
  (ts_stop s = true -> ts_stop s0 = false ->
     ts_time s = e /\ 0 <= e - (ts_time s0 + rsum steps) < tol) /\
  (ts_stop s0 = true -> s = s0 /\ steps = []) /\
  (st = Running -> length steps = n) /\
  (st <> Running -> (length steps < n)%nat) /\
  (st = Finished -> ts_stop s = true) /\
  (st = Raised -> ts_stop s = false /\ Rmin (g (k + length steps)%nat) (e - ts_time s) < tol) /\
  (ts_stop s = false -> steps <> [] -> tol <= e - ts_time s).

Lemma ts_loop_inv e g n : forall k s0, loop_inv e g k s0 (ts_loop e g k n s0) n.
Proof.
  induction n; intros k s0.
  - simpl. repeat split; simpl; intros; simpl in *; try lia; try lra; try congruence; auto.
  - simpl. destruct (ts_next e (g k) s0) as [step s'| |] eqn:E.
    + specialize (IHn (S k) s'). apply ts_next_yield in E.
      destruct E as [Es [Estep [Etol [Ec Ecase]]]].
      destruct (ts_loop e g (S k) n s') as [[l s''] st]. unfold loop_inv in *.
      destruct IHn as [I1 [I2 [I3 [I4 [I5 [I6 [I6' [I7 [I8 I9]]]]]]]]].
      assert (Hle : step <= g k) by (subst step; apply Rmin_l).
      assert (Hle2 : ts_time s0 + step <= e).
      { subst step. pose proof (Rmin_r (g k) (e - ts_time s0)). lra. }
      split; [|split; [|split; [|split; [|split; [|split; [|split; [|split; [|split]]]]]]]].
      * intros [|i] Hi.
        { simpl. rewrite Nat.add_0_r. split; [split; auto|]. lra. }
        { destruct Ecase as [[Es' [Et' Ee']]|[Es' _]].
          - simpl in Hi. destruct (I1 i) as [J1 J2]; [lia|].
            split; [simpl; replace (k + S i)%nat with (S k + i)%nat by lia; exact J1|].
            change (firstn (S (S i)) (step :: l)) with (step :: firstn (S i) l).
            change (rsum (step :: firstn (S i) l)) with (step + rsum (firstn (S i) l)).
            rewrite Et' in J2. lra.
          - destruct (I5 Es') as [_ El]. subst l. simpl in Hi; lia. }
      * rewrite I2, Ec. simpl. lia.
      * intro Hs. simpl. destruct Ecase as [[Es' [Et' Ee']]|[Es' _]].
        { rewrite (I3 Hs), Et'. unfold rsum. lra. }
        { destruct (I5 Es') as [Hx _]. subst s''. congruence. }
      * intros Hs _. simpl. destruct Ecase as [[Es' [Et' Ee']]|[Es' [Et' Ee']]].
        { destruct (I4 Hs Es') as [J1 J2]. rewrite Et' in J2. unfold rsum in *. split; auto. lra. }
        { destruct (I5 Es') as [Hx El]. subst s'' l. simpl. split; auto. lra. }
      * congruence.
      * intro Hr. simpl. rewrite I6; auto.
      * intro Hr. simpl. specialize (I6' Hr). lia.
      * auto.
      * intro Hr. simpl. replace (k + S (length l))%nat with (S k + length l)%nat by lia. auto.
      * intros Hs _. destruct Ecase as [[Es' [Et' Ee']]|[Es' [Et' Ee']]].
        { destruct l as [|a l']; [|apply I9; auto; discriminate].
          specialize (I3 Hs). simpl in I3. rewrite I3. lra. }
        { destruct (I5 Es') as [Hx _]. subst s''. congruence. }
    + apply ts_next_stop in E. unfold loop_inv.
      repeat split; simpl; intros; simpl in *; try lia; try congruence; auto.
    + apply ts_next_toosmall in E. destruct E as [E1 E2]. unfold loop_inv.
      repeat split; simpl; intros; simpl in *; try lia; try lra; try congruence; auto.
      rewrite Nat.add_0_r. auto.
Qed.

Lemma ts_run_spec start e g n :
  let '(steps, s, st) := ts_run start e g n in
  (forall k, (k < length steps)%nat ->
     tol <= nth k steps 0 <= g k /\ start + rsum (firstn (S k) steps) <= e) /\
  ts_count s = length steps /\
  (ts_stop s = false -> ts_time s = start + rsum steps) /\
  (ts_stop s = true -> ts_time s = e /\ 0 <= (e - start) - rsum steps < tol) /\
  (start <= e -> start <= ts_time s <= e) /\
  (st = Running -> length steps = n) /\
  (st = Finished -> ts_stop s = true) /\
  (st = Raised -> ts_stop s = false /\ Rmin (g (length steps)) (e - ts_time s) < tol).
Proof.
  pose proof (ts_loop_inv e g n 0 (ts_iter start)) as I.
  unfold ts_run. destruct (ts_loop e g 0 n (ts_iter start)) as [[steps s] st].
  unfold loop_inv in I. simpl in I.
  destruct I as [I1 [I2 [I3 [I4 [I5 [I6 [I6' [I7 [I8 I9]]]]]]]]].
  split; [exact I1|]. split; [exact I2|]. split; [exact I3|].
  split; [intro Hs; destruct (I4 Hs eq_refl); split; auto; lra|].
  split.
  { intro Hse. destruct (ts_stop s) eqn:Hs.
    - destruct (I4 eq_refl eq_refl). lra.
    - rewrite I3 by auto. destruct steps as [|a l]; [simpl; lra|].
      destruct (I1 (length l)) as [J1 J2]; [simpl; lia|].
      rewrite firstn_all2 in J2 by (simpl; lia). split; [|lra].
      assert (0 <= rsum (a :: l)); [|lra].
      rewrite rsum_list_tab. apply rsum_tab_nonneg. intros i Hi.
      destruct (I1 i Hi). pose proof tol_pos. lra. }
  split; [exact I6|]. split; [exact I7|]. exact I8.
Qed.

(* raising happens exactly when the clipped step is below the tolerance *)
Lemma ts_loop_snoc e g n : forall k s0 steps s,
  ts_loop e g k n s0 = (steps, s, Running) ->
  ts_loop e g k (S n) s0 =
    match ts_next e (g (k + n)%nat) s with
    | StopIter => (steps, s, Finished)
    | TooSmall => (steps, s, Raised)
    | Yield step s' => (steps ++ [step], s', Running)
    end.
Proof.
  induction n; intros k s0 steps s E.
  - simpl in E. inversion E; subst. simpl. rewrite Nat.add_0_r.
    destruct (ts_next e (g k) s); reflexivity.
  - simpl in E. remember (S n) as m. simpl. subst m.
    destruct (ts_next e (g k) s0) as [st s'| |]; try discriminate.
    destruct (ts_loop e g (S k) n s') as [[l s''] stt] eqn:E2. inversion E; subst.
    rewrite (IHn _ _ _ _ E2). replace (k + S n)%nat with (S k + n)%nat by lia.
    destruct (ts_next e (g (S k + n)%nat) s); reflexivity.
Qed.

Lemma ts_raise_iff start e g n steps s :
  ts_run start e g n = (steps, s, Running) ->
  ((exists l s', ts_run start e g (S n) = (l, s', Raised)) <->
   ts_stop s = false /\ Rmin (g n) (e - ts_time s) < tol).
Proof.
  intro E. unfold ts_run in *. rewrite (ts_loop_snoc _ _ _ _ _ _ _ E). simpl plus.
  split.
  - intros [l [s' Q]]. apply ts_next_toosmall. destruct (ts_next e (g n) s); congruence.
  - intro Q. apply ts_next_toosmall in Q. rewrite Q. eauto.
Qed.

(* termination *)
Lemma ts_loop_terminates e g eps :
  tol <= eps -> (forall k, eps <= g k) ->
  forall m k s, ts_stop s = false -> tol <= e - ts_time s ->
  e - ts_time s < INR m * eps ->
  exists n steps s', (n <= m)%nat /\ length steps = n /\
    ts_loop e g k (S n) s = (steps, s', Finished).
Proof.
  intros Heps Hg. pose proof tol_pos. induction m; intros k s Hs Ht Hm.
  - simpl in Hm. lra.
  - destruct (ts_next e (g k) s) as [step s'| |] eqn:E.
    + pose proof E as E'. apply ts_next_yield in E'.
      destruct E' as [_ [Estep [Etol [Ec [[Es' [Et' Ee']]|[Es' [Et' Ee']]]]]]].
      * destruct (IHm (S k) s') as [n [l [s'' [Hn [Hl HL]]]]]; auto.
        { rewrite Et'. rewrite S_INR in Hm.
          destruct (Rmin_cases (g k) (e - ts_time s)) as [[Q1 Q2]|[Q1 Q2]]; specialize (Hg k); lra. }
        exists (S n), (step :: l), s''. split; [lia|]. split; [simpl; lia|].
        remember (S n) as m'. simpl. rewrite E. rewrite HL. reflexivity.
      * exists 1%nat, [step], s'. split; [lia|]. split; [reflexivity|].
        cbn [ts_loop]. rewrite E.
        assert (ts_next e (g (S k)) s' = StopIter) as -> by (apply ts_next_stop; auto).
        reflexivity.
    + apply ts_next_stop in E. congruence.
    + apply ts_next_toosmall in E. destruct E as [_ E].
      destruct (Rmin_cases (g k) (e - ts_time s)) as [[Q1 Q2]|[Q1 Q2]]; specialize (Hg k); lra.
Qed.

Lemma Int_part_bounds r : IZR (Int_part r) <= r < IZR (Int_part r) + 1.
Proof. pose proof (base_Int_part r). lra. Qed.

Lemma Int_part_unique r z : IZR z <= r < IZR z + 1 -> Int_part r = z.
Proof.
  intro H. pose proof (Int_part_bounds r).
  assert (IZR (Int_part r) < IZR (z + 1)) by (rewrite plus_IZR; simpl; lra).
  assert (IZR z < IZR (Int_part r + 1)) by (rewrite plus_IZR; simpl; lra).
  apply lt_IZR in H1. apply lt_IZR in H2. lia.
Qed.

Lemma Int_part_nonneg r : 0 <= r -> (0 <= Int_part r)%Z.
Proof.
  intro H. pose proof (Int_part_bounds r).
  assert (IZR (-1) < IZR (Int_part r)) by (simpl; lra).
  apply lt_IZR in H1. lia.
Qed.

Lemma INR_floor r : 0 <= r ->
  INR (Z.to_nat (Int_part r)) <= r < INR (Z.to_nat (Int_part r)) + 1.
Proof.
  intro H. rewrite INR_IZR_INZ, Z2Nat.id by (apply Int_part_nonneg; auto).
  apply Int_part_bounds.
Qed.

Lemma ts_terminates start e g eps :
  tol <= eps -> (forall k, eps <= g k) -> tol <= e - start ->
  exists n steps s,
    (n <= Z.to_nat (Int_part ((e - start) / eps)) + 1)%nat /\
    length steps = n /\ ts_run start e g (S n) = (steps, s, Finished).
Proof.
  intros Heps Hg Hd. pose proof tol_pos.
  apply (ts_loop_terminates e g eps Heps Hg); simpl; auto.
  assert (0 <= (e - start) / eps).
  { apply Rmult_le_pos; [lra|]. left. apply Rinv_0_lt_compat. lra. }
  pose proof (INR_floor _ H0). rewrite plus_INR. simpl (INR 1).
  apply Rmult_lt_reg_r with (/ eps); [apply Rinv_0_lt_compat; lra|].
  rewrite Rmult_assoc, Rinv_r by lra. unfold Rdiv in H1. lra.
Qed.

(* constant steps *)
Lemma ts_loop_const e dt :
  tol <= dt -> forall m k s, ts_stop s = false -> 0 <= e - ts_time s - INR m * dt ->
  (e - ts_time s - INR m * dt < dt) -> tol <= e - ts_time s ->
  let r := e - ts_time s - INR m * dt in
  exists s',
  ts_loop e (fun _ => dt) k (S (m + (if Rltb r tol then 0 else 1))%nat) s =
   (repeat dt m ++ (if Rltb r tol then [] else [r]), s', Finished).
Proof.
  intros Hdt. pose proof tol_pos. induction m; intros k s Hs H1 H2 H3 r.
  - simpl INR in *. assert (Hr : r = e - ts_time s) by (unfold r; simpl; ring).
    rewrite (Rltb_false r tol) by lra. cbn [plus repeat app].
    cbn [ts_loop].
    destruct (ts_next e dt s) as [step s'| |] eqn:E.
    + apply ts_next_yield in E. destruct E as [_ [Estep [Etol [Ec Ecase]]]].
      assert (step = r).
      { rewrite Estep. rewrite Rmin_right; lra. }
      destruct Ecase as [[Es' [Et' Ee']]|[Es' [Et' Ee']]]; [lra|].
      assert (ts_next e dt s' = StopIter) as -> by (apply ts_next_stop; auto).
      exists s'. subst step. congruence.
    + apply ts_next_stop in E; congruence.
    + apply ts_next_toosmall in E. destruct E as [_ E].
      rewrite Rmin_right in E by lra. lra.
  - unfold r. clear r. rewrite S_INR in *. set (r := e - ts_time s - (INR m + 1) * dt) in *.
    assert (Hr : r = e - ts_time s - (INR m + 1) * dt) by reflexivity.
    assert (0 <= INR m * dt) by (apply Rmult_le_pos; [apply pos_INR|lra]).
    cbn [plus]. set (M := (m + (if Rltb r tol then 0 else 1))%nat).
    change (ts_loop e (fun _ : nat => dt) k (S (S M)) s) with
      (match ts_next e dt s with
      | StopIter => ([], s, Finished)
      | TooSmall => ([], s, Raised)
      | Yield step s' =>
          let '(l, s'', st) := ts_loop e (fun _ => dt) (S k) (S M) s' in (step :: l, s'', st)
      end).
    destruct (ts_next e dt s) as [step s'| |] eqn:E.
    + apply ts_next_yield in E. destruct E as [_ [Estep [Etol [Ec Ecase]]]].
      assert (step = dt).
      { rewrite Estep. rewrite Rmin_left; lra. }
      destruct Ecase as [[Es' [Et' Ee']]|[Es' [Et' Ee']]].
      * destruct (IHm (S k) s') as [s'' HH]; auto.
        { rewrite Et'; lra. }
        { rewrite Et'; lra. }
        rewrite Et' in HH. replace (e - (ts_time s + step) - INR m * dt) with r in HH by (unfold r; lra).
        fold M in HH. rewrite HH. exists s''. rewrite H4. reflexivity.
      * assert (r < tol) by (unfold r in *; lra).
        assert (INR m * dt < tol) by lra.
        assert (m = 0)%nat.
        { destruct m; auto. rewrite S_INR in H6. pose proof (pos_INR m). nra. }
        subst m. unfold M. rewrite (Rltb_true r tol) by auto. cbn [plus ts_loop].
        assert (ts_next e dt s' = StopIter) as -> by (apply ts_next_stop; auto).
        exists s'. rewrite H4. reflexivity.
    + apply ts_next_stop in E; congruence.
    + apply ts_next_toosmall in E. destruct E as [_ E].
      rewrite Rmin_left in E by lra. lra.
Qed.

Lemma ts_run_const start e dt :
  tol <= dt -> tol <= e - start ->
  let n := Z.to_nat (Int_part ((e - start) / dt)) in
  let r := (e - start) - INR n * dt in
  0 <= r < dt /\
  exists s, ts_run start e (fun _ => dt) (S (n + (if Rltb r tol then 0 else 1))%nat) =
     (repeat dt n ++ (if Rltb r tol then [] else [r]), s, Finished).
Proof.
  intros Hdt Hd n r. pose proof tol_pos.
  assert (0 <= (e - start) / dt).
  { apply Rmult_le_pos; [lra|]. left. apply Rinv_0_lt_compat. lra. }
  pose proof (INR_floor _ H0) as F. fold n in F.
  assert (FF : INR n * dt <= e - start < (INR n + 1) * dt).
  { assert (e - start = ((e - start) / dt) * dt) by (field; lra). split; nra. }
  split; [unfold r; lra|].
  apply (ts_loop_const e dt Hdt n 0 (ts_iter start)); simpl; auto; lra.
Qed.

Lemma ts_loop_fin e g n : forall m k s0 steps s st,
  st <> Running ->
  ts_loop e g k n s0 = (steps, s, st) -> (n <= m)%nat ->
  ts_loop e g k m s0 = (steps, s, st).
Proof.
  induction n; intros m k0 s0 steps s st Hst E Hm.
  - simpl in E. congruence.
  - destruct m; [lia|]. simpl in *. destruct (ts_next e (g k0) s0) as [stp s'| |]; try congruence.
    destruct (ts_loop e g (S k0) n s') as [[l s''] stt] eqn:E2.
    inversion E; subst. rewrite (IHn m _ _ _ _ _ Hst E2) by lia. reflexivity.
Qed.

Lemma ts_run_fin start e g n m steps s :
  ts_run start e g n = (steps, s, Finished) -> (n <= m)%nat ->
  ts_run start e g m = (steps, s, Finished).
Proof. intros. eapply ts_loop_fin; eauto. discriminate. Qed.

Lemma ts_len_correct start e dt steps s n :
  tol <= dt -> tol <= e - start ->
  (e - start) - INR (Z.to_nat (Int_part ((e - start) / dt))) * dt <> tol ->
  ts_run start e (fun _ => dt) n = (steps, s, Finished) ->
  ts_len start e dt false = length steps.
Proof.
  intros Hdt Hd Hne E.
  destruct (ts_run_const start e dt Hdt Hd) as [Hr [s' E']].
  set (k := Z.to_nat (Int_part ((e - start) / dt))) in *.
  set (r := (e - start) - INR k * dt) in *.
  (* both runs finish, hence they agree *)
  pose proof (fun n m => ts_run_fin start e (fun _ => dt) n m) as Hfin.
  assert (steps = repeat dt k ++ (if Rltb r tol then [] else [r])).
  { pose proof (Hfin _ (Nat.max n (S (k + (if Rltb r tol then 0 else 1))%nat)) _ _ E (Nat.le_max_l _ _)).
    pose proof (Hfin _ (Nat.max n (S (k + (if Rltb r tol then 0 else 1))%nat)) _ _ E' (Nat.le_max_r _ _)).
    congruence. }
  subst steps. rewrite app_length, repeat_length.
  unfold ts_len. fold k.
  destruct (Rltb_spec r tol) as [Q|Q]; simpl.
  - rewrite (Rltb_false (dt * INR k)) by (unfold r in Q; lra). lia.
  - rewrite (Rltb_true (dt * INR k)) by (unfold r in *; lra). lia.
Qed.

(* frozen generators: all steps but the last are equal *)
Lemma ts_loop_all_but_last e g : forall n k s0 steps s st,
  ts_loop e g k n s0 = (steps, s, st) ->
  forall i, (S i < length steps)%nat -> nth i steps 0 = g (k + i)%nat.
Proof.
  induction n; intros k s0 steps s st E i Hi.
  - simpl in E. inversion E; subst. simpl in Hi. lia.
  - simpl in E. destruct (ts_next e (g k) s0) as [step s'| |] eqn:E1;
      try (inversion E; subst; simpl in Hi; lia).
    destruct (ts_loop e g (S k) n s') as [[l s''] stt] eqn:E2.
    inversion E; subst. simpl in Hi.
    destruct i; simpl.
    + apply ts_next_yield in E1. destruct E1 as [_ [Estep [Etol [Ec Ecase]]]].
      rewrite Nat.add_0_r. rewrite Estep.
      destruct Ecase as [[Es' [Et' Ee']]|[Es' [Et' Ee']]].
      * destruct (Rmin_cases (g k) (e - ts_time s0)) as [[Q1 Q2]|[Q1 Q2]]; auto.
        exfalso. pose proof tol_pos. lra.
      * pose proof (ts_loop_inv e g n (S k) s') as I. rewrite E2 in I.
        destruct I as [_ [_ [_ [_ [I5 _]]]]]. destruct (I5 Es') as [_ El].
        subst l. simpl in Hi. lia.
    + rewrite (IHn _ _ _ _ _ E2 i) by lia. f_equal. lia.
Qed.

Lemma cfl_check_iff {V} (opt : R -> V -> R) dt : forall nodes stages,
  length nodes = length stages ->
  (cfl_check opt dt nodes stages = Err CFLConditionViolatedError <->
   exists i t u, nth_error nodes i = Some t /\ nth_error stages i = Some u /\ opt t u < dt) /\
  (cfl_check opt dt nodes stages = Ok tt <->
   forall i t u, nth_error nodes i = Some t -> nth_error stages i = Some u -> dt <= opt t u).
Proof.
  induction nodes as [|t nodes IH]; destruct stages as [|u us]; simpl; intro L; try discriminate.
  - split; split; intro H; try discriminate; auto.
    + destruct H as [[|i] [t [u [H _]]]]; discriminate.
    + intros [|i] t u H1; discriminate.
  - injection L as L. destruct (IH us L) as [I1 I2].
    destruct (Rltb_spec (opt t u) dt) as [H|H].
    + split; split; intro Q; try discriminate; auto.
      * exists 0%nat, t, u. auto.
      * exfalso. specialize (Q 0%nat t u eq_refl eq_refl). lra.
    + split; split; intro Q.
      * apply I1 in Q. destruct Q as [i Q]. exists (S i). exact Q.
      * apply I1. destruct Q as [[|i] [t' [u' [Q1 [Q2 Q3]]]]].
        { simpl in *. congruence. }
        { exists i, t', u'. auto. }
      * pose proof (proj1 I2 Q) as Q0. intros [|i] t' u' Q1 Q2; simpl in *.
        { inversion Q1; inversion Q2; subst. lra. }
        { eapply Q0; eauto. }
      * apply I2. intros i t' u' Q1 Q2. apply (Q (S i)); auto.
Qed.
