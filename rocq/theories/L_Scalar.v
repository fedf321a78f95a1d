From Coq Require Import Reals List ZArith Arith Lia Lra Psatz Bool.
From Verif Require Import Prelude L_Prelude M_Boundary S_Boundary L_Boundary M_Flux S_Flux L_Flux
  M_Neighbours L_Neighbours M_Scalar S_Scalar M_ODE S_ODE L_ODE.
Import ListNotations.
Local Open Scope nat_scope.
Open Scope R_scope.
Notation length := List.length.

Lemma extended_shape {W} (bc : bconds W) u time e :
  length (bc_left bc) = 1%nat -> length (bc_right bc) = 1%nat -> extended bc u time = Ok e ->
  exists gl gr, e = gl :: u ++ [gr].
Proof.
  intros Hl Hr E. unfold extended in E. inv_bind E. inv_bind E. injection E as <-.
  pose proof (proj1 (mapM_ok _ _ _) E0) as [La _]. pose proof (proj1 (mapM_ok _ _ _) E1) as [Lb _].
  rewrite Hl in La. rewrite Hr in Lb.
  destruct a as [|x [|? ?]]; try discriminate. destruct a0 as [|y [|? ?]]; try discriminate.
  exists x, y. reflexivity.
Qed.
Lemma bc_radius {W} wall conds r il ir (bc : bconds W) :
  get_boundary_conditions wall conds r il ir = Ok bc ->
  length (bc_left bc) = r /\ length (bc_right bc) = r.
Proof.
  intro B. unfold get_boundary_conditions in B. destruct conds as [|c cs]; [discriminate|].
  inv_bind B. inv_bind B.
  apply mapM_ok in E as [M1 _]. apply mapM_ok in E0 as [M2 _].
  rewrite rev_length, seq_length in M1. rewrite seq_length in M2.
  unfold mk_bconds in B. rewrite app_length, M1, M2, even_double, div2_double in B.
  inversion B; simpl. rewrite firstn_length, skipn_length, app_length. lia.
Qed.
Lemma extended_Some {W} (bc : bconds W) u e t :
  extended bc u None = Ok e -> extended bc u (Some t) = Ok e.
Proof.
  assert (G : forall gs l, mapM (fun g : ghost W => ghost_value g u None) gs = Ok l -> mapM (fun g => ghost_value g u (Some t)) gs = Ok l).
  { induction gs as [|g gs IH]; intros l E; [exact E|]. simpl in *. inv_bind E. inv_bind E.
    assert (Eg : ghost_value g u (Some t) = Ok a).
    { destruct g; simpl in *; auto. discriminate. }
    rewrite Eg. cbn [bind]. rewrite (IH _ E1). exact E. }
  intro E. unfold extended in *. inv_bind E. inv_bind E. rewrite (G _ _ E0), (G _ _ E1). exact E.
Qed.

Lemma neighbours_1 {W} (d : W) (bc : bconds W) u time e n :
  extended bc u time = Ok e -> length e = S (S n) ->
  get_node_neighbours bc u 1 time =
  Ok [tab (S n) (fun i => nth i e d); tab (S n) (fun i => nth (S i) e d)].
Proof.
  intros E Le. destruct (node_neighbours_of_extended d bc u time e 1 E) as [a [A1 [A2 A3]]]; try lia.
  rewrite A1. f_equal. destruct a as [|x [|y [|? ?]]]; try (simpl in A2; lia).
  pose proof (A3 0%nat ltac:(lia)) as P0. pose proof (A3 1%nat ltac:(lia)) as P1. cbn [nth] in P0, P1.
  rewrite P0, P1, Le. replace (S (S n) - 2 * 1 + 1)%nat with (S n) by lia. f_equal; [|f_equal].
  - apply tab_ext. intros. f_equal. lia.
  - apply tab_ext. intros. f_equal. lia.
Qed.

Lemma combine_tab {A B} n (f : nat -> A) (g : nat -> B) : combine (tab n f) (tab n g) = tab n (fun i => (f i, g i)).
Proof.
  revert f g; induction n; intros; [reflexivity|]. rewrite !tab_S. simpl. f_equal. apply IHn.
Qed.

(* the Riemann solver for scalar problems *)
Definition speed (p : problem) (l r : R) : R := Rmax (flux_prime p l) (flux_prime p r).
Definition bar (p : problem) (l r : R) : R := (l + r) / 2 - (scalar_flux p r - scalar_flux p l) / (2 * speed p l r).
Definition nonneg (p : problem) (x : R) : Prop := match p with Advection => True | Burgers => 0 <= x end.

Definition llf_out (p : problem) (l r : R) : rs_out R :=
  {| ro_flux := scalar_flux p l + speed p l r * (l - bar p l r);
     ro_state := bar p l r; ro_fl := scalar_flux p l; ro_fr := scalar_flux p r;
     ro_sl := - speed p l r; ro_sr := speed p l r |}.
Lemma scalar_solve p l r : speed p l r <> 0 -> rs_solve (scalar_riemann p) l r = Ok (llf_out p l r).
Proof.
  intro Hs. unfold rs_solve, scalar_riemann, scalar_wave_speed. cbn [rs_flux rs_speed bind]. fold (speed p l r).
  rewrite rdiv_ne by lra. cbn [bind]. unfold llf_out, csub, copp, bar. cbn [cadd cscal R_CellOps].
  f_equal. f_equal; field; lra.
Qed.
Lemma scalar_solve_inv p l r o : rs_solve (scalar_riemann p) l r = Ok o -> speed p l r <> 0.
Proof.
  intros E Hs. unfold rs_solve, scalar_riemann, scalar_wave_speed in E. cbn [rs_flux rs_speed bind] in E. fold (speed p l r) in E.
  rewrite Hs, Rminus_diag_eq, rdiv_0 in E by lra. discriminate.
Qed.
Lemma speed_nonneg p l r : nonneg p l -> nonneg p r -> 0 <= speed p l r.
Proof.
  unfold speed, nonneg. destruct p; simpl; intros.
  - rewrite Rmax_left; lra.
  - eapply Rle_trans; [|apply Rmax_l]; auto.
Qed.
Lemma flux_alt p l r : speed p l r <> 0 ->
  scalar_flux p l + speed p l r * (l - bar p l r) = scalar_flux p r - speed p l r * (r - bar p l r).
Proof. intro. unfold bar. field. auto. Qed.

Lemma bar_between p l r : nonneg p l -> nonneg p r -> speed p l r <> 0 ->
  Rmin l r <= bar p l r <= Rmax l r.
Proof.
  intros Hl Hr Hs. pose proof (speed_nonneg p l r Hl Hr).
  assert (S0 : 0 < speed p l r) by lra. unfold bar.
  assert (A : exists a, scalar_flux p r - scalar_flux p l = a * (r - l) /\ - speed p l r <= a <= speed p l r).
  { destruct p; simpl in *.
    - exists 1. split; [ring|]. unfold speed. simpl. rewrite Rmax_left; lra.
    - exists ((l + r) / 2). split; [field|]. unfold speed. simpl.
      pose proof (Rmax_l l r). pose proof (Rmax_r l r). lra. }
  destruct A as [a [-> Ha]].
  replace ((l + r) / 2 - a * (r - l) / (2 * speed p l r)) with
    ((1 + a / speed p l r) / 2 * l + (1 - a / speed p l r) / 2 * r) by (field; lra).
  assert (B : -1 <= a / speed p l r <= 1).
  { split; apply (Rmult_le_reg_r (speed p l r)); auto; unfold Rdiv; rewrite Rmult_assoc, Rinv_l by lra; lra. }
  set (q := a / speed p l r) in *.
  unfold Rmin, Rmax. destruct (Rle_dec l r); split; nra.
Qed.

(* convex combination *)
Lemma convex3 c1 c2 x w1 w2 m M : 0 <= c1 -> 0 <= c2 -> c1 + c2 <= 1 ->
  m <= x <= M -> m <= w1 <= M -> m <= w2 <= M ->
  m <= x + c1 * (w1 - x) + c2 * (w2 - x) <= M.
Proof. intros. split; nra. Qed.

(* local Lax-Friedrichs update with the full time step *)
Lemma llf_burgers_bounds l u r lam : 0 <= l -> 0 <= u -> 0 <= r -> 0 <= lam ->
  lam * Rmax (Rmax l u) (Rmax u r) <= 1 ->
  let cr := (Rmax u r - (u + r) / 2) / 2 in
  let cl := (Rmax l u + (l + u) / 2) / 2 in
  Rmin l (Rmin u r) <= u + lam * (cr * (r - u) + cl * (l - u)) <= Rmax l (Rmax u r).
Proof.
  intros Hl Hu Hr Hlam HS. cbv zeta.
  set (S := Rmax (Rmax l u) (Rmax u r)) in *.
  assert (HSl : l <= S) by (unfold S; eapply Rle_trans; [apply (Rmax_l l u)|apply Rmax_l]).
  assert (HSu : u <= S) by (unfold S; eapply Rle_trans; [apply (Rmax_r l u)|apply Rmax_l]).
  assert (HSr : r <= S) by (unfold S; eapply Rle_trans; [apply (Rmax_r u r)|apply Rmax_r]).
  set (X := (Rmax u r - (u + r) / 2) / 2 * (r - u) + (Rmax l u + (l + u) / 2) / 2 * (l - u)).
  set (m := Rmin l (Rmin u r)). set (M := Rmax l (Rmax u r)).
  assert (Hm : m <= u) by (unfold m; eapply Rle_trans; [apply Rmin_r|apply Rmin_l]).
  assert (HM : u <= M) by (unfold M; eapply Rle_trans; [|apply Rmax_r]; apply Rmax_l).
  assert (A : 0 <= S * (u - m) + X /\ 0 <= S * (M - u) - X).
  { clearbody S. unfold X, m, M, Rmin, Rmax.
    repeat match goal with |- context [Rle_dec ?a ?b] => destruct (Rle_dec a b) end; try lra; split; nra. }
  split.
  - replace (u + lam * X) with (m + ((1 - lam * S) * (u - m) + lam * (S * (u - m) + X))) by ring.
    assert (0 <= (1 - lam * S) * (u - m)) by (apply Rmult_le_pos; lra).
    assert (0 <= lam * (S * (u - m) + X)) by (apply Rmult_le_pos; lra). lra.
  - replace (u + lam * X) with (M - ((1 - lam * S) * (M - u) + lam * (S * (M - u) - X))) by ring.
    assert (0 <= (1 - lam * S) * (M - u)) by (apply Rmult_le_pos; lra).
    assert (0 <= lam * (S * (M - u) - X)) by (apply Rmult_le_pos; lra). lra.
Qed.

Lemma llf_update_bounds p l u r lam : nonneg p l -> nonneg p u -> nonneg p r ->
  speed p l u <> 0 -> speed p u r <> 0 -> 0 <= lam ->
  lam * speed p l u <= 1 -> lam * speed p u r <= 1 ->
  Rmin l (Rmin u r) <= u + lam * (ro_flux (llf_out p l u) - ro_flux (llf_out p u r)) <= Rmax l (Rmax u r).
Proof.
  intros Hl Hu Hr S1 S2 Hlam L1 L2. cbn [llf_out ro_flux].
  destruct p; simpl in *.
  - unfold bar, speed in *. simpl in *. rewrite Rmax_left in * by lra.
    replace (u + lam * (l + 1 * (l - ((l + u) / 2 - (u - l) / (2 * 1))) - (u + 1 * (u - ((u + r) / 2 - (r - u) / (2 * 1))))))
      with (u + lam * (l - u) + 0 * (r - u)) by field.
    apply convex3; try lra; split; try apply Rmin_l; try apply Rmax_l.
    + eapply Rle_trans; [apply Rmin_r|apply Rmin_l].
    + eapply Rle_trans; [apply Rmax_l|apply Rmax_r].
    + eapply Rle_trans; [apply Rmin_r|apply Rmin_r].
    + eapply Rle_trans; [apply Rmax_r|apply Rmax_r].
  - pose proof (llf_burgers_bounds l u r lam Hl Hu Hr Hlam) as G.
    unfold bar, speed in *. simpl in *.
    replace (u + lam * (1 / 2 * (l * (l * 1)) + Rmax l u * (l - ((l + u) / 2 - (1 / 2 * (u * (u * 1)) - 1 / 2 * (l * (l * 1))) / (2 * Rmax l u)))
       - (1 / 2 * (u * (u * 1)) + Rmax u r * (u - ((u + r) / 2 - (1 / 2 * (r * (r * 1)) - 1 / 2 * (u * (u * 1))) / (2 * Rmax u r))))))
      with (u + lam * ((Rmax u r - (u + r) / 2) / 2 * (r - u) + (Rmax l u + (l + u) / 2) / 2 * (l - u))) by (field; auto).
    apply G. destruct (Rle_dec (Rmax l u) (Rmax u r)).
    + rewrite Rmax_right; auto.
    + rewrite Rmax_left; auto. lra.
Qed.

Lemma solve_all_tab p n e :
  (forall i, (i < n)%nat -> speed p (nth i e 0) (nth (S i) e 0) <> 0) ->
  rs_solve_all (scalar_riemann p) (tab n (fun i => nth i e 0)) (tab n (fun i => nth (S i) e 0)) =
  Ok (tab n (fun i => llf_out p (nth i e 0) (nth (S i) e 0))).
Proof.
  intro H. unfold rs_solve_all. rewrite combine_tab. apply mapM_tab. intros i Hi. cbn [fst snd].
  apply scalar_solve. auto.
Qed.
Lemma solve_all_tab_inv p n e o :
  rs_solve_all (scalar_riemann p) (tab n (fun i => nth i e 0)) (tab n (fun i => nth (S i) e 0)) = Ok o ->
  forall i, (i < n)%nat -> speed p (nth i e 0) (nth (S i) e 0) <> 0.
Proof.
  intros E i Hi. unfold rs_solve_all in E. rewrite combine_tab in E.
  destruct (mapM_nth _ _ _ (0, 0) (llf_out p 0 0) E) as [_ G]. rewrite tab_length in G. specialize (G i Hi).
  rewrite nth_tab in G by auto. cbn [fst snd] in G. eapply scalar_solve_inv; eauto.
Qed.

Lemma removelast_tab {A} n (f : nat -> A) : removelast (tab (S n) f) = tab n f.
Proof. rewrite tab_snoc. apply removelast_last. Qed.
Lemma tl_tab {A} n (f : nat -> A) : tl (tab (S n) f) = tab n (fun i => f (S i)).
Proof. rewrite tab_S. reflexivity. Qed.
Lemma cells_tab n (fl fr : nat -> R) dx : dx <> 0 ->
  cells_from_nodes dx (tab (S n) fl) (tab (S n) fr) = Ok (tab n (fun i => (fr i + fl (S i)) / dx)).
Proof.
  intro H. unfold cells_from_nodes. rewrite rdiv_ne by auto. cbn [bind]. f_equal.
  rewrite removelast_tab, tl_tab, map2_tab, map_tab. apply tab_ext. intros i Hi. cbn. field. auto.
Qed.

(* local Lax-Friedrichs right hand side, explicitly *)
Lemma llf_rhs p bc dx t u e n : dx <> 0 -> extended bc u (Some t) = Ok e -> length e = S (S n) ->
  (forall i, (i <= n)%nat -> speed p (nth i e 0) (nth (S i) e 0) <> 0) ->
  let F i := ro_flux (llf_out p (nth i e 0) (nth (S i) e 0)) in
  fv_rhs (scalar_llf p) dx bc t u = Ok (tab n (fun i => (F i - F (S i)) / dx)).
Proof.
  intros Hd E Le Hs F. unfold fv_rhs. change (Nat.div (nf_dim (scalar_llf p)) 2) with 1%nat.
  rewrite (neighbours_1 0 bc u (Some t) e n E Le). cbn [bind scalar_llf lax_friedrichs nf_call].
  rewrite solve_all_tab by (intros; apply Hs; lia). cbn [bind fst snd]. unfold vneg. rewrite !map_tab.
  rewrite cells_tab by auto. f_equal. apply tab_ext. intros i Hi. unfold F, copp. cbn [cscal R_CellOps]. f_equal. ring.
Qed.
Lemma llf_rhs_inv p bc dx t u e n v : extended bc u (Some t) = Ok e -> length e = S (S n) ->
  fv_rhs (scalar_llf p) dx bc t u = Ok v ->
  dx <> 0 /\ (forall i, (i <= n)%nat -> speed p (nth i e 0) (nth (S i) e 0) <> 0).
Proof.
  intros E Le H. unfold fv_rhs in H. change (Nat.div (nf_dim (scalar_llf p)) 2) with 1%nat in H.
  rewrite (neighbours_1 0 bc u (Some t) e n E Le) in H. cbn [bind scalar_llf lax_friedrichs nf_call] in H.
  inv_bind H. inv_bind E0. split.
  - destruct a as [x y]. unfold cells_from_nodes in H. inv_bind H. apply rdiv_ok in E2. tauto.
  - intros i Hi. eapply solve_all_tab_inv; eauto. lia.
Qed.

Lemma nth_euler_update u v dt i : length u = length v -> (i < length u)%nat ->
  nth i (euler_update u v dt) 0 = nth i u 0 + dt * nth i v 0.
Proof. intros Hl Hi. unfold euler_update. apply (nth_map2 (fun x y => x + dt * y) u v i 0 0); lia. Qed.

Lemma states_nonneg p e i : states_ok p e -> (i < length e)%nat -> nonneg p (nth i e 0).
Proof. destruct p; simpl; auto. intros H Hi. apply H. apply nth_In. auto. Qed.

Lemma llf_euler_bounds p bc dx t u e v dt :
  length (bc_left bc) = 1%nat -> length (bc_right bc) = 1%nat ->
  0 < dx -> 0 <= dt -> extended bc u (Some t) = Ok e -> states_ok p e ->
  fv_rhs (scalar_llf p) dx bc t u = Ok v ->
  (forall i, (i <= length u)%nat -> dt * speed p (nth i e 0) (nth (S i) e 0) <= dx) ->
  length v = length u /\
  forall i, (i < length u)%nat -> in_local_bounds e i (nth i (euler_update u v dt) 0).
Proof.
  intros B1 B2 Hd Hdt E Hst Hv Hc.
  destruct (extended_shape bc u (Some t) e B1 B2 E) as [gl [gr He]].
  assert (Le : length e = S (S (length u))) by (rewrite He; cbn; rewrite app_length; cbn; lia).
  destruct (llf_rhs_inv p bc dx t u e _ v E Le Hv) as [Hd0 Hs].
  rewrite (llf_rhs p bc dx t u e _ Hd0 E Le Hs) in Hv. apply Ok_inj in Hv. subst v. rewrite tab_length. split; auto.
  intros i Hi. rewrite nth_euler_update by (rewrite ?tab_length; auto). rewrite nth_tab by auto.
  assert (Eu : nth i u 0 = nth (S i) e 0) by (rewrite He; cbn [nth]; rewrite app_nth1; auto).
  rewrite Eu. unfold in_local_bounds.
  set (l := nth i e 0). set (w := nth (S i) e 0). set (r := nth (S (S i)) e 0).
  replace (w + dt * ((ro_flux (llf_out p l w) - ro_flux (llf_out p w r)) / dx))
    with (w + dt / dx * (ro_flux (llf_out p l w) - ro_flux (llf_out p w r))) by (field; lra).
  assert (Q : forall s, dt * s <= dx -> dt / dx * s <= 1).
  { intros s Hq. apply (Rmult_le_reg_r dx); auto. replace (dt / dx * s * dx) with (dt * s) by (field; lra). lra. }
  apply llf_update_bounds; try (apply states_nonneg; auto; lia); try apply Hs; try lia.
  - apply Rmult_le_pos; [lra|]. left. apply Rinv_0_lt_compat. auto.
  - apply Q. apply Hc. lia.
  - apply Q. apply Hc. lia.
Qed.

(* the time step estimate *)
Lemma optimal_step_bound p bc dx u e opt : length (bc_left bc) = 1%nat -> length (bc_right bc) = 1%nat ->
  0 < dx -> extended bc u None = Ok e -> states_ok p e ->
  optimal_time_step (scalar_riemann p) bc dx u = Ok opt ->
  0 < opt /\ (forall i, (i <= length u)%nat -> opt * speed p (nth i e 0) (nth (S i) e 0) <= dx) /\
  (exists i, (i <= length u)%nat /\ opt * speed p (nth i e 0) (nth (S i) e 0) = dx).
Proof.
  intros B1 B2 Hd E Hst H.
  destruct (extended_shape bc u None e B1 B2 E) as [gl [gr He]].
  assert (Le : length e = S (S (length u))) by (rewrite He; cbn; rewrite app_length; cbn; lia).
  unfold optimal_time_step in H. rewrite (neighbours_1 0 bc u None e _ E Le) in H. cbn [bind] in H.
  inv_bind H. pose proof (solve_all_tab_inv _ _ _ _ E0) as Hs.
  rewrite solve_all_tab in E0 by auto. apply Ok_inj in E0. subst a. inv_bind H.
  apply rdiv_ok in H as [Ha ->].
  set (sp i := speed p (nth i e 0) (nth (S i) e 0)) in *.
  assert (Hsp : forall i, (i < S (length u))%nat -> 0 < sp i).
  { intros i Hi. specialize (Hs i Hi). fold (sp i) in Hs.
    assert (0 <= sp i) by (apply speed_nonneg; apply states_nonneg; auto; lia). lra. }
  assert (Em : amax (tab (S (length u)) sp ++ tab (S (length u)) sp) = Ok a).
  { rewrite <- E0. rewrite !map_tab. f_equal. f_equal. apply tab_ext. intros i Hi. cbn [llf_out ro_sl].
    fold (sp i). rewrite Rabs_Ropp, Rabs_right; auto. left. apply Hsp; auto. }
  clear E0. unfold amax in Em. 
  destruct (tab (S (length u)) sp ++ tab (S (length u)) sp) as [|x l] eqn:El; [discriminate|].
  injection Em as <-.
  assert (Hin : forall y, In y (x :: l) <-> exists i, (i < S (length u))%nat /\ y = sp i).
  { intro y. rewrite <- El, in_app_iff, in_tab. firstorder. }
  assert (Hub : forall i, (i < S (length u))%nat -> sp i <= lmax1 x l).
  { intros i Hi. assert (In (sp i) (x :: l)) by (apply Hin; eauto).
    destruct H as [<-|H]; [apply lmax1_ge|apply lmax1_ub; auto]. }
  assert (Hpos : 0 < lmax1 x l).
  { eapply Rlt_le_trans; [apply (Hsp 0%nat); lia|apply Hub; lia]. }
  split; [|split].
  - apply Rdiv_lt_0_compat; auto.
  - intros i Hi. specialize (Hub i ltac:(lia)).
    apply (Rmult_le_reg_r (lmax1 x l)); auto.
    replace (dx / lmax1 x l * speed p (nth i e 0) (nth (S i) e 0) * lmax1 x l) with (dx * sp i) by (unfold sp; field; lra).
    nra.
  - assert (In (lmax1 x l) (x :: l)).
    { destruct (lmax1_in x l) as [->|G]; [left; auto|right; auto]. }
    apply Hin in H as [i [Hi Ei]]. exists i. split; [lia|]. fold (sp i). rewrite <- Ei. field. lra.
Qed.

(** ** monolithic convex limiting *)
Lemma limit_at_spec f s bl br maxl maxr minl minr :
  0 <= s -> minl <= bl <= maxl -> minr <= br <= maxr ->
  let g := limit_at f s bl br maxl maxr minl minr in
  s * minr <= s * br + g <= s * maxr /\ s * minl <= s * bl - g <= s * maxl /\
  (0 <= f -> 0 <= g <= f) /\ (f <= 0 -> f <= g <= 0) /\
  (s * minr <= s * br + f <= s * maxr -> s * minl <= s * bl - f <= s * maxl -> g = f).
Proof.
  intros Hs Hl Hr. cbv zeta. unfold limit_at.
  assert (0 <= s * (maxr - br)) by (apply Rmult_le_pos; lra).
  assert (0 <= s * (br - minr)) by (apply Rmult_le_pos; lra).
  assert (0 <= s * (maxl - bl)) by (apply Rmult_le_pos; lra).
  assert (0 <= s * (bl - minl)) by (apply Rmult_le_pos; lra).
  rewrite <- (RmaxRmult _ _ s) by auto.
  assert (Em : s * Rmin (maxr - br) (bl - minl) = Rmin (s * (maxr - br)) (s * (bl - minl))).
  { unfold Rmin. destruct (Rle_dec (maxr - br) (bl - minl)), (Rle_dec (s * (maxr - br)) (s * (bl - minl))); auto; nra. }
  rewrite Em.
  set (A := s * (maxr - br)) in *. set (B := s * (bl - minl)) in *.
  set (C := s * (minr - br)). set (D := s * (bl - maxl)).
  assert (HC : C <= 0) by (unfold C; lra). assert (HD : D <= 0) by (unfold D; lra).
  replace (s * minr) with (s * br + C) by (unfold C; ring).
  replace (s * maxr) with (s * br + A) by (unfold A; ring).
  replace (s * minl) with (s * bl - B) by (unfold B; ring).
  replace (s * maxl) with (s * bl - D) by (unfold D; ring).
  clearbody A B C D. clear Em. unfold Rmin, Rmax.
  destruct (Rle_dec A B), (Rle_dec C D), (Rle_dec A f), (Rle_dec B f);
  repeat match goal with |- context [Rle_dec ?a ?b] => destruct (Rle_dec a b) end;
    repeat split; intros; lra.
Qed.

Lemma limit_arrays_tab n f s bl br M m :
  limit_arrays (tab n f) (tab n s) (tab n bl) (tab n br) (tab (S n) M) (tab (S n) m) =
  tab n (fun i => limit_at (f i) (s i) (bl i) (br i) (M i) (M (S i)) (m i) (m (S i))).
Proof.
  revert f s bl br M m; induction n; intros; [reflexivity|].
  rewrite (tab_S n f), (tab_S n s), (tab_S n bl), (tab_S n br), (tab_S (S n) M), (tab_S (S n) m).
  rewrite (tab_S n (fun i => limit_at _ _ _ _ _ _ _ _)).
  pose proof (IHn (fun i => f (S i)) (fun i => s (S i)) (fun i => bl (S i)) (fun i => br (S i)) (fun i => M (S i)) (fun i => m (S i))) as IH.
  rewrite (tab_S n (fun i => M (S i))), (tab_S n (fun i => m (S i))) in *.
  cbn [limit_arrays]. f_equal. exact IH.
Qed.

Lemma central_tab p n e :
  mapM (fun q => central_at (rs_flux (scalar_riemann p)) (fst q) (snd q))
    (combine (tab n (fun i => nth i e 0)) (tab n (fun i => nth (S i) e 0))) =
  Ok (tab n (fun i => 1 / 2 * (scalar_flux p (nth i e 0) + scalar_flux p (nth (S i) e 0)))).
Proof. rewrite combine_tab. apply mapM_tab. intros i Hi. reflexivity. Qed.

(* the limited antidiffusive flux at node i *)
Definition mcl_limited (p : problem) (e M m : list R) (i : nat) : R :=
  let l := nth i e 0 in let r := nth (S i) e 0 in
  limit_at (1 / 2 * (scalar_flux p l + scalar_flux p r) - ro_flux (llf_out p l r)) (speed p l r) (bar p l r) (bar p l r)
    (nth i M 0) (nth (S i) M 0) (nth i m 0) (nth (S i) m 0).

Lemma mcl_call_tab p array e n M m : length e = S (S n) ->
  (forall i, (i <= n)%nat -> speed p (nth i e 0) (nth (S i) e 0) <> 0) ->
  local_maximum array e = Ok M -> local_minimum array e = Ok m ->
  length M = S (S n) -> length m = S (S n) ->
  let F i := ro_flux (llf_out p (nth i e 0) (nth (S i) e 0)) in
  mcl_call (scalar_riemann p) array [tab (S n) (fun i => nth i e 0); tab (S n) (fun i => nth (S i) e 0)] =
  Ok (tab (S n) (fun i => - F i - mcl_limited p e M m i), tab (S n) (fun i => F i + mcl_limited p e M m i)).
Proof.
  intros Le Hs EM Em LM Lm F. unfold mcl_call.
  rewrite solve_all_tab by (intros; apply Hs; lia). cbn [bind]. rewrite central_tab. cbn [bind].
  assert (Ed : get_dof_vector [tab (S n) (fun i => nth i e 0); tab (S n) (fun i => nth (S i) e 0)] = Ok e).
  { unfold get_dof_vector. cbn [mapM]. rewrite (pyget_m1 (tab _ _) 0) by (rewrite tab_length; lia).
    cbn [bind]. f_equal. rewrite tab_length, nth_tab by lia.
    replace (S n - 1)%nat with n by lia. symmetry. etransitivity; [apply (list_tab 0 e)|]. rewrite Le, (tab_snoc (S n)). reflexivity. }
  rewrite Ed. cbn [bind]. rewrite EM, Em. cbn [bind]. rewrite !map_tab, map2_tab. unfold limit.
  rewrite (list_tab 0 M), (list_tab 0 m), LM, Lm, limit_arrays_tab, !map_tab, !map2_tab.
  f_equal. f_equal; apply tab_ext; intros i Hi; cbn [llf_out ro_flux ro_sr ro_state]; unfold F, mcl_limited; cbn [llf_out ro_flux].
  all: try (rewrite <- !(list_tab 0)); rewrite !nth_tab by lia; ring.
Qed.

(* rows of the neighbour array of the extended mesh: every row contains the cell and
   its direct neighbours, and only valid indices *)
Definition good_array (n : nat) (array : list (list Z)) : Prop :=
  length array = n /\
  forall i, (i < n)%nat ->
    (forall z, In z (nth i array []) -> (0 <= z < Z.of_nat n)%Z) /\
    (forall j, (j < n)%nat -> (Z.abs (Z.of_nat j - Z.of_nat i) <= 1)%Z -> In (Z.of_nat j) (nth i array [])).

Lemma fv_array_good n periodic rows : fv_neighbours n periodic = Ok rows -> good_array n (neighbours_array rows).
Proof.
  intro E. destruct (fv_neighbours_rows n periodic rows E) as [Hn [Lr Vr]].
  assert (La : length (neighbours_array rows) = n).
  { rewrite <- Lr. apply (neighbours_array_rows rows 0). lia. }
  split; auto. intros i Hi. destruct (neighbours_array_rows rows i) as [_ [_ A]]; [lia|]. split.
  - intros z Hz. apply A in Hz as [Hz|[-> _]]; [|lia]. apply Vr in Hz; auto. tauto.
  - intros j Hj Hij. apply A. left. apply Vr; auto. split; [lia|]. left. auto.
Qed.

Lemma mcl_bounds n array e : good_array n array -> length e = n -> exists M m,
  local_maximum array e = Ok M /\ local_minimum array e = Ok m /\ length M = n /\ length m = n /\
  forall i, (i < n)%nat ->
    (forall z, In z (nth i array []) -> nth i m 0 <= nth (Z.to_nat z) e 0 <= nth i M 0) /\
    (exists z, In z (nth i array []) /\ nth i M 0 = nth (Z.to_nat z) e 0) /\
    (exists z, In z (nth i array []) /\ nth i m 0 = nth (Z.to_nat z) e 0).
Proof.
  intros [La G] Le. destruct (local_extrema array e) as [M [m Q]].
  - intros i z Hi Hz. rewrite Le. rewrite La in Hi. destruct (G i Hi) as [A _]. auto.
  - intros i Hi Hc. rewrite La in Hi. destruct (G i Hi) as [_ A]. specialize (A i Hi).
    rewrite Hc in A. apply A. lia.
  - rewrite La in Q. exists M, m. exact Q.
Qed.

Lemma mcl_rhs p array bc dx t u e n M m : dx <> 0 -> extended bc u (Some t) = Ok e -> length e = S (S n) ->
  (forall i, (i <= n)%nat -> speed p (nth i e 0) (nth (S i) e 0) <> 0) ->
  local_maximum array e = Ok M -> local_minimum array e = Ok m ->
  length M = S (S n) -> length m = S (S n) ->
  let F i := ro_flux (llf_out p (nth i e 0) (nth (S i) e 0)) + mcl_limited p e M m i in
  fv_rhs (scalar_mcl p array) dx bc t u = Ok (tab n (fun i => (F i - F (S i)) / dx)).
Proof.
  intros Hd E Le Hs EM Em LM Lm F. unfold fv_rhs. change (Nat.div (nf_dim (scalar_mcl p array)) 2) with 1%nat.
  rewrite (neighbours_1 0 bc u (Some t) e n E Le). cbn [bind scalar_mcl nf_call].
  rewrite (mcl_call_tab p array e n M m) by auto. cbn [bind fst snd].
  rewrite cells_tab by auto. f_equal. apply tab_ext. intros i Hi. unfold F. f_equal. ring.
Qed.
Lemma mcl_rhs_inv p array bc dx t u e n v : extended bc u (Some t) = Ok e -> length e = S (S n) ->
  fv_rhs (scalar_mcl p array) dx bc t u = Ok v ->
  dx <> 0 /\ (forall i, (i <= n)%nat -> speed p (nth i e 0) (nth (S i) e 0) <> 0).
Proof.
  intros E Le H. unfold fv_rhs in H. change (Nat.div (nf_dim (scalar_mcl p array)) 2) with 1%nat in H.
  rewrite (neighbours_1 0 bc u (Some t) e n E Le) in H. cbn [bind scalar_mcl nf_call mcl_call] in H.
  inv_bind H. inv_bind E0. split.
  - destruct a as [x y]. unfold cells_from_nodes in H. inv_bind H. apply rdiv_ok in E2. tauto.
  - intros i Hi. eapply solve_all_tab_inv; eauto. lia.
Qed.

(* each update is a convex combination of limited bar states *)
Lemma mcl_euler_bounds p array bc dx t u e M m v dt :
  length (bc_left bc) = 1%nat -> length (bc_right bc) = 1%nat ->
  0 < dx -> 0 <= dt -> extended bc u (Some t) = Ok e -> states_ok p e ->
  good_array (S (S (length u))) array ->
  local_maximum array e = Ok M -> local_minimum array e = Ok m ->
  fv_rhs (scalar_mcl p array) dx bc t u = Ok v ->
  (forall i, (i < length u)%nat ->
    dt * (speed p (nth i e 0) (nth (S i) e 0) + speed p (nth (S i) e 0) (nth (S (S i)) e 0)) <= dx) ->
  length v = length u /\
  forall i, (i < length u)%nat -> nth (S i) m 0 <= nth i (euler_update u v dt) 0 <= nth (S i) M 0.
Proof.
  intros B1 B2 Hd Hdt E Hst HA EM Em Hv Hc.
  destruct (extended_shape bc u (Some t) e B1 B2 E) as [gl [gr He]].
  assert (Le : length e = S (S (length u))) by (rewrite He; cbn; rewrite app_length; cbn; lia).
  destruct (mcl_rhs_inv p array bc dx t u e _ v E Le Hv) as [Hd0 Hs].
  destruct (mcl_bounds _ array e HA Le) as [M' [m' [EM' [Em' [LM [Lm V]]]]]].
  rewrite EM in EM'. apply Ok_inj in EM'. subst M'. rewrite Em in Em'. apply Ok_inj in Em'. subst m'.
  rewrite (mcl_rhs p array bc dx t u e _ M m Hd0 E Le Hs EM Em LM Lm) in Hv. apply Ok_inj in Hv. subst v.
  rewrite tab_length. split; auto.
  intros i Hi. rewrite nth_euler_update by (rewrite ?tab_length; auto). rewrite nth_tab by auto.
  assert (Eu : nth i u 0 = nth (S i) e 0) by (rewrite He; cbn [nth]; rewrite app_nth1; auto).
  rewrite Eu.
  assert (Vb : forall j k, (j < S (S (length u)))%nat -> (k < S (S (length u)))%nat ->
     (Z.abs (Z.of_nat k - Z.of_nat j) <= 1)%Z -> nth j m 0 <= nth k e 0 <= nth j M 0).
  { intros j k Hj Hk Hjk. destruct (V j Hj) as [A _]. specialize (A (Z.of_nat k)). rewrite Nat2Z.id in A.
    apply A. apply HA; auto. }
  assert (Bar : forall k, (k <= length u)%nat ->
     let b := bar p (nth k e 0) (nth (S k) e 0) in
     nth k m 0 <= b <= nth k M 0 /\ nth (S k) m 0 <= b <= nth (S k) M 0).
  { intros k Hk b.
    assert (Hb : Rmin (nth k e 0) (nth (S k) e 0) <= b <= Rmax (nth k e 0) (nth (S k) e 0)).
    { apply bar_between; try (apply states_nonneg; auto; lia). apply Hs; auto. }
    pose proof (Vb k k ltac:(lia) ltac:(lia) ltac:(lia)). pose proof (Vb k (S k) ltac:(lia) ltac:(lia) ltac:(lia)).
    pose proof (Vb (S k) k ltac:(lia) ltac:(lia) ltac:(lia)). pose proof (Vb (S k) (S k) ltac:(lia) ltac:(lia) ltac:(lia)).
    revert Hb. unfold Rmin, Rmax. destruct (Rle_dec _ _); lra. }
  assert (Sp : forall k, (k <= length u)%nat -> 0 < speed p (nth k e 0) (nth (S k) e 0)).
  { intros k Hk. assert (0 <= speed p (nth k e 0) (nth (S k) e 0)) by (apply speed_nonneg; apply states_nonneg; auto; lia).
    specialize (Hs k Hk). lra. }
  assert (Lim : forall k, (k <= length u)%nat ->
     let s := speed p (nth k e 0) (nth (S k) e 0) in let b := bar p (nth k e 0) (nth (S k) e 0) in
     let g := mcl_limited p e M m k in
     nth (S k) m 0 <= b + g / s <= nth (S k) M 0 /\ nth k m 0 <= b - g / s <= nth k M 0).
  { intros k Hk s b g. destruct (Bar k Hk) as [Q1 Q2]. fold b in Q1, Q2.
    assert (Hsk : 0 < s) by (apply Sp; auto).
    destruct (limit_at_spec (1 / 2 * (scalar_flux p (nth k e 0) + scalar_flux p (nth (S k) e 0)) -
      ro_flux (llf_out p (nth k e 0) (nth (S k) e 0))) s b b _ _ _ _ (Rlt_le _ _ Hsk) Q1 Q2) as [G1 [G2 _]].
    fold s in G1, G2. change (limit_at _ _ _ _ _ _ _ _) with g in G1, G2.
    replace (b + g / s) with ((s * b + g) / s) by (field; lra).
    replace (b - g / s) with ((s * b - g) / s) by (field; lra).
    repeat split; apply (Rmult_le_reg_l s); auto; unfold Rdiv; 
      try replace (s * ((s * b + g) * / s)) with (s * b + g) by (field; lra);
      try replace (s * ((s * b - g) * / s)) with (s * b - g) by (field; lra); lra. }
  destruct (Lim i ltac:(lia)) as [W1 _]. destruct (Lim (S i) ltac:(lia)) as [_ W2].
  set (l := nth i e 0) in *. set (w := nth (S i) e 0) in *. set (r := nth (S (S i)) e 0) in *.
  set (gL := mcl_limited p e M m i) in *. set (gR := mcl_limited p e M m (S i)) in *.
  pose proof (Sp i ltac:(lia)) as SL. pose proof (Sp (S i) ltac:(lia)) as SR. fold l w in SL. fold w r in SR.
  pose proof (Hs i ltac:(lia)) as SL'. fold l w in SL'.
  assert (EL : ro_flux (llf_out p l w) = scalar_flux p w - speed p l w * (w - bar p l w)).
  { cbn [llf_out ro_flux]. apply flux_alt; auto. }
  rewrite EL. cbn [llf_out ro_flux].
  replace (w + dt * ((scalar_flux p w - speed p l w * (w - bar p l w) + gL -
      (scalar_flux p w + speed p w r * (w - bar p w r) + gR)) / dx))
    with (w + (dt / dx * speed p l w) * ((bar p l w + gL / speed p l w) - w)
            + (dt / dx * speed p w r) * ((bar p w r - gR / speed p w r) - w)) by (field; lra).
  assert (0 <= dt / dx) by (apply Rmult_le_pos; [lra|left; apply Rinv_0_lt_compat; auto]).
  apply convex3; auto.
  - apply Rmult_le_pos; lra.
  - apply Rmult_le_pos; lra.
  - rewrite <- Rmult_plus_distr_l. apply (Rmult_le_reg_r dx); auto.
    replace (dt / dx * (speed p l w + speed p w r) * dx) with (dt * (speed p l w + speed p w r)) by (field; lra).
    specialize (Hc i Hi). fold l w r in Hc. lra.
  - apply (Vb (S i) (S i)); lia.
Qed.

Lemma ext_range conds il ir bc u time lo hi :
  get_boundary_conditions None conds 1 il ir = Ok bc -> u <> [] ->
  inflow_in_range lo hi il -> inflow_in_range lo hi ir -> in_range lo hi u ->
  forall t, time = Some t ->
  exists e, extended bc u time = Ok e /\ length e = S (S (length u)) /\ in_range lo hi e.
Proof.
  intros B Hu Hl Hr Hin t Et. destruct conds as [|c cs]; [discriminate|].
  pose proof (side_names_cons c cs) as SN.
  destruct (proj1 (get_bc_ok_iff 0 None (c :: cs) 1 il ir _ _ ltac:(lia) SN) (ex_intro _ bc B)) as [[cl Cl] [cr Cr]].
  assert (Hlen : (1 <= length u)%nat) by (destruct u; [congruence|simpl; lia]).
  destruct (extended_spec 0 None (c :: cs) 1 il ir bc u time _ _ cl cr SN Cl Cr B Hlen) as [e [E [Le [_ [_ V]]]]].
  { intros; congruence. }
  exists e. split; auto. split; [lia|]. intros x Hx. apply (In_nth _ _ 0) in Hx as [j [Hj <-]].
  rewrite Le in Hj. specialize (V j Hj). unfold extension_value in V.
  assert (Hin' : forall k, (k < length u)%nat -> lo <= nth k u 0 <= hi) by (intros; apply Hin; apply nth_In; auto).
  assert (HO : forall (cn : cond R) nm inf z y, names_cond None nm inf cn -> inflow_in_range lo hi inf ->
     outside_value 0 u time cn z y -> lo <= y <= hi).
  { intros cn nm inf z y N I O. destruct cn; simpl in *.
    - subst y. apply Hin'. apply Nat2Z.inj_lt. rewrite Z2Nat.id by (apply Z.mod_pos_bound; lia).
      apply Z.mod_pos_bound. lia.
    - subst y. apply Hin'. destruct (z <? 0)%Z; lia.
    - destruct N as [_ ->]. destruct O as [s [_ ->]]. apply I.
    - destruct N; discriminate. }
  destruct (Z.of_nat j - Z.of_nat 1 <? 0)%Z eqn:E1.
  - eapply (HO cl); eauto.
  - destruct (Z.of_nat j - Z.of_nat 1 <? Z.of_nat (length u))%Z eqn:E2.
    + rewrite V. apply Hin'. apply Z.ltb_ge in E1. apply Z.ltb_lt in E2. lia.
    + eapply (HO cr); eauto.
Qed.

Lemma fv_rhs_extended {W} (nf : nflux W) `{CellOps W} dx bc t u v :
  fv_rhs nf dx bc t u = Ok v -> exists e, extended bc u (Some t) = Ok e.
Proof. intro E. unfold fv_rhs in E. inv_bind E. unfold get_node_neighbours in E0. inv_bind E0. eauto. Qed.

Lemma in_range_ok p lo hi e : range_ok p lo -> in_range lo hi e -> states_ok p e.
Proof. intros H R. destruct p; simpl in *; auto. intros x Hx. apply R in Hx. lra. Qed.
Lemma in_range_speed p lo hi e i : range_ok p lo -> in_range lo hi e -> (S i < length e)%nat ->
  0 < speed p (nth i e 0) (nth (S i) e 0) <= max_speed p hi.
Proof.
  intros H R Hi. assert (A : lo <= nth i e 0 <= hi) by (apply R; apply nth_In; lia).
  assert (B : lo <= nth (S i) e 0 <= hi) by (apply R; apply nth_In; lia).
  unfold speed. destruct p; simpl in *.
  - rewrite Rmax_left; lra.
  - split; [eapply Rlt_le_trans; [|apply Rmax_l]; lra|]. apply Rmax_lub; lra.
Qed.
Lemma local_in_range lo hi e i x : in_range lo hi e -> (S (S i) < length e)%nat -> in_local_bounds e i x -> lo <= x <= hi.
Proof.
  intros R Hi [A B].
  assert (lo <= nth i e 0 <= hi) by (apply R; apply nth_In; lia).
  assert (lo <= nth (S i) e 0 <= hi) by (apply R; apply nth_In; lia).
  assert (lo <= nth (S (S i)) e 0 <= hi) by (apply R; apply nth_In; lia).
  split.
  - eapply Rle_trans; [|exact A]. repeat apply Rmin_glb; lra.
  - eapply Rle_trans; [exact B|]. repeat apply Rmax_lub; lra.
Qed.

Lemma euler_update_vadd u v dt : vadd u (vscal dt v) = euler_update u v dt.
Proof.
  unfold euler_update. simpl. revert v; induction u; destruct v; simpl; auto. f_equal. apply IHu.
Qed.

Lemma in_range_convex n lo hi : convex_set (fun u : list R => length u = n /\ in_range lo hi u).
Proof.
  intros u v th [Lu Ru] [Lv Rv] Hth. simpl. split.
  - rewrite map2_length, !map_length. lia.
  - intros x Hx. apply (In_nth _ _ 0) in Hx as [i [Hi <-]]. rewrite map2_length, !map_length in Hi.
    rewrite (nth_map2 _ _ _ i 0 0) by (rewrite map_length; lia).
    rewrite !(nth_map' _ _ i 0) by lia. cbn.
    assert (lo <= nth i u 0 <= hi) by (apply Ru; apply nth_In; lia).
    assert (lo <= nth i v 0 <= hi) by (apply Rv; apply nth_In; lia). split; nra.
Qed.

(* a right hand side whose Euler steps stay in range: whole runs stay in range *)
Lemma range_run conds il ir bc (nf : nflux R) dx T dts t0 u0 lo hi :
  get_boundary_conditions None conds 1 il ir = Ok bc -> u0 <> [] ->
  inflow_in_range lo hi il -> inflow_in_range lo hi ir -> in_range lo hi u0 ->
  In T [euler; heun; ssp3] ->
  (forall t u v, fv_rhs nf dx bc t u = Ok v -> length u = length u0 -> length v = length u0) ->
  (forall t u e, length u = length u0 -> in_range lo hi u -> extended bc u (Some t) = Ok e -> in_range lo hi e ->
     length e = S (S (length u)) -> exists v, fv_rhs nf dx bc t u = Ok v) ->
  (forall t u e v dt, In dt dts -> length u = length u0 -> in_range lo hi u -> extended bc u (Some t) = Ok e -> in_range lo hi e ->
     length e = S (S (length u)) -> fv_rhs nf dx bc t u = Ok v ->
     forall i, (i < length u)%nat -> lo <= nth i (euler_update u v dt) 0 <= hi) ->
  exists o, rk_run_e (fv_rhs nf dx bc) T dts {| o_time := t0; o_sol := u0 |} = Ok o /\
    length (o_sol o) = length u0 /\ in_range lo hi (o_sol o) /\ o_time o = t0 + rsum dts.
Proof.
  intros B Hu0 Il Ir R0 HT HL HX HE.
  destruct (ssp_convex_run_e (fun l : list R => length l = length u0) (fv_rhs nf dx bc) (repeat 0 (length u0))
    (fun u => length u = length u0 /\ in_range lo hi u) dts T {| o_time := t0; o_sol := u0 |}) as [o [E [[Lo Ro] To]]].
  - apply repeat_length.
  - tauto.
  - intros t u v Du Ev. eapply HL; eauto.
  - apply in_range_convex.
  - intros t u [Lu Ru]. assert (u <> []) by (intros ->; destruct u0; [congruence|discriminate]).
    destruct (ext_range conds il ir bc u (Some t) lo hi B H Il Ir Ru t eq_refl) as [e [E [Le Re]]].
    eapply HX; eauto.
  - intros dt t u v Hdt [Lu Ru] Ev. assert (u <> []) by (intros ->; destruct u0; [congruence|discriminate]).
    destruct (ext_range conds il ir bc u (Some t) lo hi B H Il Ir Ru t eq_refl) as [e [E [Le Re]]].
    rewrite euler_update_vadd. pose proof (HL _ _ _ Ev Lu) as Lv.
    assert (Lw : length (euler_update u v dt) = length u0) by (unfold euler_update; rewrite map2_length; lia).
    split; auto. intros x Hx. apply (In_nth _ _ 0) in Hx as [i [Hi <-]].
    eapply HE; eauto. lia.
  - simpl in HT. destruct HT as [<-|[<-|[<-|[]]]]; auto.
  - cbn. auto.
  - exists o. auto.
Qed.

Lemma llf_rhs_length p bc dx t u v : length (bc_left bc) = 1%nat -> length (bc_right bc) = 1%nat ->
  fv_rhs (scalar_llf p) dx bc t u = Ok v -> length v = length u.
Proof.
  intros B1 B2 Ev. destruct (fv_rhs_extended _ _ _ _ _ _ Ev) as [e E].
  destruct (extended_shape bc u (Some t) e B1 B2 E) as [gl [gr He]].
  assert (Le : length e = S (S (length u))) by (rewrite He; cbn; rewrite app_length; cbn; lia).
  destruct (llf_rhs_inv p bc dx t u e _ v E Le Ev) as [Hd0 Hs].
  rewrite (llf_rhs p bc dx t u e _ Hd0 E Le Hs) in Ev. apply Ok_inj in Ev. subst v. apply tab_length.
Qed.
Lemma mcl_rhs_length p array bc dx t u v : length (bc_left bc) = 1%nat -> length (bc_right bc) = 1%nat ->
  good_array (S (S (length u))) array ->
  fv_rhs (scalar_mcl p array) dx bc t u = Ok v -> length v = length u.
Proof.
  intros B1 B2 HA Ev. destruct (fv_rhs_extended _ _ _ _ _ _ Ev) as [e E].
  destruct (extended_shape bc u (Some t) e B1 B2 E) as [gl [gr He]].
  assert (Le : length e = S (S (length u))) by (rewrite He; cbn; rewrite app_length; cbn; lia).
  destruct (mcl_rhs_inv p array bc dx t u e _ v E Le Ev) as [Hd0 Hs].
  destruct (mcl_bounds _ array e HA Le) as [M [m [EM [Em [LM [Lm _]]]]]].
  rewrite (mcl_rhs p array bc dx t u e _ M m Hd0 E Le Hs EM Em LM Lm) in Ev. apply Ok_inj in Ev. subst v. apply tab_length.
Qed.

Lemma llf_run_range p conds il ir bc dx T dts t0 u0 lo hi :
  get_boundary_conditions None conds 1 il ir = Ok bc -> u0 <> [] -> 0 < dx -> range_ok p lo ->
  inflow_in_range lo hi il -> inflow_in_range lo hi ir -> in_range lo hi u0 ->
  In T [euler; heun; ssp3] -> (forall dt, In dt dts -> 0 <= dt /\ dt * max_speed p hi <= dx) ->
  exists o, rk_run_e (fv_rhs (scalar_llf p) dx bc) T dts {| o_time := t0; o_sol := u0 |} = Ok o /\
    length (o_sol o) = length u0 /\ in_range lo hi (o_sol o) /\ o_time o = t0 + rsum dts.
Proof.
  intros B Hu Hdx Hlo Il Ir R0 HT Hdt. destruct (bc_radius _ _ _ _ _ _ B) as [B1 B2].
  apply (range_run conds il ir bc (scalar_llf p) dx T dts t0 u0 lo hi); auto.
  - intros t u v Ev Lu. rewrite <- Lu. eapply llf_rhs_length; eauto.
  - intros t u e Lu Ru E Re Le. eexists. apply (llf_rhs p bc dx t u e (length u)); auto; try lra.
    intros i Hi. pose proof (in_range_speed p lo hi e i Hlo Re ltac:(lia)). lra.
  - intros t u e v dt Hd Lu Ru E Re Le Ev i Hi. destruct (Hdt dt Hd) as [D1 D2].
    eapply local_in_range; [exact Re| |]; [|eapply (llf_euler_bounds p bc dx t u e v dt)]; eauto; try lia.
    + eapply in_range_ok; eauto.
    + intros j Hj. pose proof (in_range_speed p lo hi e j Hlo Re ltac:(lia)).
      eapply Rle_trans; [|exact D2]. apply Rmult_le_compat_l; lra.
Qed.
Lemma mcl_run_range p array conds il ir bc dx T dts t0 u0 lo hi :
  get_boundary_conditions None conds 1 il ir = Ok bc -> u0 <> [] -> 0 < dx -> range_ok p lo ->
  good_array (S (S (length u0))) array ->
  inflow_in_range lo hi il -> inflow_in_range lo hi ir -> in_range lo hi u0 ->
  In T [euler; heun; ssp3] -> (forall dt, In dt dts -> 0 <= dt /\ 2 * dt * max_speed p hi <= dx) ->
  exists o, rk_run_e (fv_rhs (scalar_mcl p array) dx bc) T dts {| o_time := t0; o_sol := u0 |} = Ok o /\
    length (o_sol o) = length u0 /\ in_range lo hi (o_sol o) /\ o_time o = t0 + rsum dts.
Proof.
  intros B Hu Hdx Hlo HA Il Ir R0 HT Hdt. destruct (bc_radius _ _ _ _ _ _ B) as [B1 B2].
  apply (range_run conds il ir bc (scalar_mcl p array) dx T dts t0 u0 lo hi); auto.
  - intros t u v Ev Lu. rewrite <- Lu. eapply mcl_rhs_length; eauto. rewrite Lu. auto.
  - intros t u e Lu Ru E Re Le. rewrite <- Lu in HA.
    destruct (mcl_bounds _ array e HA Le) as [M [m [EM [Em [LM [Lm _]]]]]].
    eexists. apply (mcl_rhs p array bc dx t u e (length u) M m); auto; try lra.
    intros i Hi. pose proof (in_range_speed p lo hi e i Hlo Re ltac:(lia)). lra.
  - intros t u e v dt Hd Lu Ru E Re Le Ev i Hi. destruct (Hdt dt Hd) as [D1 D2].
    rewrite <- Lu in HA.
    destruct (mcl_bounds _ array e HA Le) as [M [m [EM [Em [LM [Lm V]]]]]].
    destruct (mcl_euler_bounds p array bc dx t u e M m v dt) as [_ G]; auto.
    + eapply in_range_ok; eauto.
    + intros j Hj. pose proof (in_range_speed p lo hi e j Hlo Re ltac:(lia)).
      pose proof (in_range_speed p lo hi e (S j) Hlo Re ltac:(lia)).
      eapply Rle_trans; [|exact D2]. replace (2 * dt * max_speed p hi) with (dt * (2 * max_speed p hi)) by ring.
      apply Rmult_le_compat_l; lra.
    + specialize (G i Hi). destruct (V (S i) ltac:(lia)) as [_ [[z1 [Z1 E1]] [z2 [Z2 E2]]]].
      destruct HA as [_ HA]. destruct (HA (S i) ltac:(lia)) as [HA' _].
      assert (lo <= nth (Z.to_nat z1) e 0 <= hi) by (apply Re; apply nth_In; apply HA' in Z1; lia).
      assert (lo <= nth (Z.to_nat z2) e 0 <= hi) by (apply Re; apply nth_In; apply HA' in Z2; lia).
      lra.
Qed.
