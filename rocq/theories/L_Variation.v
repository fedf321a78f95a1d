(** Harten's argument: incremental form with bounded coefficients does not increase the total variation; schemes whose
    doubled step satisfies a local maximum principle have that form. *)
From Coq Require Import Reals List ZArith Arith Lia Lra Psatz Bool String.
From Verif Require Import Prelude L_Prelude M_Boundary S_Boundary L_Boundary M_Flux S_Flux L_Flux
  M_Neighbours L_Neighbours M_Scalar S_Scalar L_Scalar M_ODE S_ODE L_ODE S_Variation.
Import ListNotations.
Local Open Scope nat_scope.
Open Scope R_scope.
Notation length := List.length.

(** ** sums of periodic sequences *)
Lemma rsum_shift n f : f n = f 0%nat -> rsum (tab n (fun i => f (S i))) = rsum (tab n f).
Proof.
  intro P. assert (X : rsum (tab (S n) f) = f 0%nat + rsum (tab n (fun i => f (S i)))).
  { rewrite tab_S. reflexivity. }
  rewrite rsum_tab_S in X. lra.
Qed.
Definition periodic_seq (n : nat) (f : nat -> R) : Prop := forall i, f (i + n)%nat = f i.

(** C i: weight of the forward difference of cell i, D i of the backward difference *)
Lemma harten n (e x C D : nat -> R) : periodic_seq n e -> periodic_seq n x -> periodic_seq n C -> periodic_seq n D ->
  (forall i, 0 <= C i) -> (forall i, 0 <= D i) -> (forall i, C i + D (S i) <= 1) ->
  (forall i, x (S i) = e (S i) + C (S i) * (e (S (S i)) - e (S i)) - D (S i) * (e (S i) - e i)) ->
  rsum (tab n (fun i => Rabs (x (S i) - x i))) <= rsum (tab n (fun i => Rabs (e (S i) - e i))).
Proof.
  intros Pe Px PC PD HC HD HS HX.
  set (d := fun i => e (S i) - e i).
  assert (Pd : periodic_seq n d) by (intro i; unfold d; change (S (i + n)) with (S i + n)%nat; rewrite !Pe; reflexivity).
  assert (Z : forall f, periodic_seq n f -> forall k, rsum (tab n (fun i => f (k + i)%nat)) = rsum (tab n f)).
  { intros f Pf k. induction k as [|k IH]; [reflexivity|]. rewrite <- IH.
    rewrite <- (rsum_shift n (fun i => f (k + i)%nat)).
    - f_equal. apply tab_ext. intros i _. f_equal. lia.
    - rewrite Pf, Nat.add_0_r. reflexivity. }
  set (y := fun i => Rabs (x (S i) - x i)).
  assert (Py : periodic_seq n y) by (intro i; unfold y; change (S (i + n)) with (S i + n)%nat; rewrite !Px; reflexivity).
  rewrite <- (Z y Py 1%nat).
  set (A := fun i => C i * Rabs (d i)). set (B := fun i => D (S i) * Rabs (d i)).
  assert (PA : periodic_seq n A) by (intro i; unfold A; rewrite PC, Pd; reflexivity).
  assert (PB : periodic_seq n B) by (intro i; unfold B; change (S (i + n)) with (S i + n)%nat; rewrite PD, Pd; reflexivity).
  set (G := fun i => Rabs (d i)). assert (PG : periodic_seq n G) by (intro i; unfold G; rewrite Pd; reflexivity).
  assert (L : rsum (tab n (fun i => y (1 + i)%nat)) <= rsum (tab n (fun i => (G (1 + i)%nat + (- A (1 + i)%nat)) + (- B (1 + i)%nat + (A (2 + i)%nat + B (0 + i)%nat))))).
  { apply rsum_tab_le. intros i _. unfold y, A, B, G. cbn [Nat.add].
    replace (x (S (S i)) - x (S i)) with ((1 - C (S i) - D (S (S i))) * d (S i) + C (S (S i)) * d (S (S i)) + D (S i) * d i)
      by (rewrite (HX (S i)), (HX i); unfold d; ring).
    pose proof (HC (S (S i))) as H1. pose proof (HD (S i)) as H2. pose proof (HS (S i)) as H3.
    eapply Rle_trans; [apply Rabs_triang|]. eapply Rle_trans; [apply Rplus_le_compat_r; apply Rabs_triang|].
    rewrite !Rabs_mult, (Rabs_right (1 - C (S i) - D (S (S i)))), (Rabs_right (C (S (S i)))), (Rabs_right (D (S i))) by lra.
    lra. }
  eapply Rle_trans; [exact L|]. rewrite !rsum_tab_plus.
  assert (N : forall f, rsum (tab n (fun i => - f i)) = - rsum (tab n f)).
  { intro f. replace (- rsum (tab n f)) with (-1 * rsum (tab n f)) by ring. rewrite <- rsum_tab_scal. f_equal. apply tab_ext. intros. ring. }
  rewrite (N (fun i => A (1 + i)%nat)), (N (fun i => B (1 + i)%nat)), !Z by assumption. unfold G, d. lra.
Qed.

(** ** lists *)
Definition cyc (u : list R) (i : nat) : R := nth (i mod length u) u 0.
Lemma cyc_periodic u n : length u = n -> (0 < n)%nat -> periodic_seq n (cyc u).
Proof. intros L Hn i. unfold cyc. rewrite L. f_equal. rewrite <- (Nat.mul_1_l n) at 1. rewrite Nat.mod_add by lia. reflexivity. Qed.
Lemma cyc_inside u i : (i < length u)%nat -> cyc u i = nth i u 0.
Proof. intro H. unfold cyc. rewrite Nat.mod_small by auto. reflexivity. Qed.
Lemma variation_cyc u : variation u = rsum (tab (length u) (fun i => Rabs (cyc u (S i) - cyc u i))).
Proof. unfold variation. f_equal. apply tab_ext. intros i Hi. rewrite (cyc_inside u i Hi). reflexivity. Qed.

Lemma variation_nonneg u : 0 <= variation u.
Proof.
  rewrite variation_cyc. apply rsum_tab_nonneg. intros. apply Rabs_pos.
Qed.
Lemma variation_convex n B : (0 < n)%nat -> convex_set (fun u : list R => length u = n /\ variation u <= B).
Proof.
  intros Hn u v r [Lu Vu] [Lv Vv] Hr. set (z := vadd (vscal r u) (vscal (1 - r) v)). assert (Lz : length z = n) by (unfold z; cbn; rewrite map2_length, !map_length; lia). split; [exact Lz|].
  assert (Cz : forall i, cyc z i = r * cyc u i + (1 - r) * cyc v i).
  { intro i. unfold cyc. rewrite Lz, Lu, Lv. set (j := (i mod n)%nat). assert (j < n)%nat by (apply Nat.mod_upper_bound; lia).
    unfold z. cbn [vadd vscal list_VecOps]. rewrite (nth_map2 _ _ _ j 0 0) by (rewrite map_length; lia). rewrite !(nth_map' _ _ j 0) by lia. reflexivity. }
  rewrite variation_cyc, Lz. rewrite variation_cyc, Lu in Vu. rewrite variation_cyc, Lv in Vv.
  eapply Rle_trans with (r * rsum (tab n (fun i => Rabs (cyc u (S i) - cyc u i))) + (1 - r) * rsum (tab n (fun i => Rabs (cyc v (S i) - cyc v i)))); [|nra].
  clear - Cz Hr. rewrite <- !rsum_tab_scal, <- rsum_tab_plus. apply rsum_tab_le. intros i _. rewrite !Cz.
  replace (r * cyc u (S i) + (1 - r) * cyc v (S i) - (r * cyc u i + (1 - r) * cyc v i)) with (r * (cyc u (S i) - cyc u i) + (1 - r) * (cyc v (S i) - cyc v i)) by ring.
  eapply Rle_trans; [apply Rabs_triang|]. rewrite !Rabs_mult, (Rabs_right r), (Rabs_right (1 - r)) by lra. lra.
Qed.

(** ** the incremental form of an update *)
Lemma finite_choice2 n (P : nat -> R -> R -> Prop) : (forall i, (i < n)%nat -> exists a b, P i a b) -> exists A B : nat -> R, forall i, (i < n)%nat -> P i (A i) (B i).
Proof.
  induction n as [|n IH]; intro H; [exists (fun _ => 0), (fun _ => 0); intros; lia|].
  destruct IH as [A [B X]]; [intros; apply H; lia|]. destruct (H n ltac:(lia)) as [a [b Y]].
  exists (fun i => if Nat.eqb i n then a else A i), (fun i => if Nat.eqb i n then b else B i). intros i Hi.
  destruct (Nat.eqb_spec i n) as [->|N]; [exact Y|apply X; lia].
Qed.
Lemma incremental u x n C D : length u = n -> length x = n -> (0 < n)%nat ->
  (forall i, (i < n)%nat -> 0 <= C i /\ 0 <= D i) -> (forall i, (i < n)%nat -> C i + D (S i mod n)%nat <= 1) ->
  (forall i, (i < n)%nat -> nth i x 0 = cyc u i + C i * (cyc u (S i) - cyc u i) - D i * (cyc u i - cyc u (i + n - 1))) ->
  variation x <= variation u.
Proof.
  intros Lu Lx Hn Pos Sum Upd. rewrite !variation_cyc, Lu, Lx.
  assert (Pm : forall f : nat -> R, periodic_seq n (fun i => f (i mod n)%nat)).
  { intros f i. rewrite <- (Nat.mul_1_l n) at 1. rewrite Nat.mod_add by lia. reflexivity. }
  apply (harten n (cyc u) (cyc x) (fun i => C (i mod n)%nat) (fun i => D (i mod n)%nat)); try apply cyc_periodic; auto.
  - intro i. apply Pos. apply Nat.mod_upper_bound. lia.
  - intro i. apply Pos. apply Nat.mod_upper_bound. lia.
  - intro i. assert (Hi : (i mod n < n)%nat) by (apply Nat.mod_upper_bound; lia). pose proof (Sum (i mod n)%nat Hi) as X.
    replace (S i mod n)%nat with (S (i mod n) mod n)%nat; [exact X|]. rewrite <- (Nat.add_1_r (i mod n)), <- (Nat.add_1_r i). apply Nat.add_mod_idemp_l. lia.
  - intro i. unfold cyc at 1. rewrite Lx. set (j := (S i mod n)%nat). assert (Hj : (j < n)%nat) by (apply Nat.mod_upper_bound; lia).
    rewrite (Upd j Hj).
    assert (Q : forall k l, (k mod n = l mod n)%nat -> cyc u k = cyc u l) by (intros k l H; unfold cyc; rewrite Lu, H; reflexivity).
    rewrite (Q j (S i)) by (unfold j; apply Nat.mod_mod; lia).
    rewrite (Q (S j) (S (S i))) by (unfold j; rewrite <- (Nat.add_1_r (S i mod n)), Nat.add_mod_idemp_l by lia; f_equal; lia).
    rewrite (Q (j + n - 1)%nat i); [reflexivity|].
    replace (j + n - 1)%nat with (j + (n - 1))%nat by lia. unfold j. rewrite Nat.add_mod_idemp_l by lia.
    replace (S i + (n - 1))%nat with (i + 1 * n)%nat by lia. apply Nat.mod_add. lia.
Qed.

(** a value in the hull of three values is reached by part of one of the jumps *)
Lemma hull_increment l w r z : Rmin l (Rmin w r) <= z <= Rmax l (Rmax w r) ->
  exists c d, 0 <= c /\ 0 <= d /\ c + d <= 1 /\ z - w = c * (r - w) - d * (w - l).
Proof.
  intros [A B].
  assert (T : forall x, (w < z <= x \/ x <= z < w) -> exists c, 0 <= c <= 1 /\ z - w = c * (x - w)).
  { intros x [H|H]; exists ((z - w) / (x - w)); (split; [|field; lra]); split.
    - apply Rmult_le_pos; [lra|]. left. apply Rinv_0_lt_compat. lra.
    - apply (Rmult_le_reg_r (x - w)); [lra|]. unfold Rdiv. rewrite Rmult_assoc, Rinv_l by lra. lra.
    - replace ((z - w) / (x - w)) with ((w - z) / (w - x)) by (field; lra). apply Rmult_le_pos; [lra|]. left. apply Rinv_0_lt_compat. lra.
    - replace ((z - w) / (x - w)) with ((w - z) / (w - x)) by (field; lra). apply (Rmult_le_reg_r (w - x)); [lra|]. unfold Rdiv. rewrite Rmult_assoc, Rinv_l by lra. lra. }
  destruct (Rtotal_order z w) as [H|[->|H]].
  - assert (l <= z \/ r <= z) as [X|X].
    { destruct (Rle_dec l z); [auto|]. destruct (Rle_dec r z); [auto|]. exfalso. revert A. apply Rlt_not_le. repeat apply Rmin_glb_lt; lra. }
    + destruct (T l) as [c [C1 C2]]; [lra|]. exists 0, c. repeat split; lra.
    + destruct (T r) as [c [C1 C2]]; [lra|]. exists c, 0. repeat split; lra.
  - exists 0, 0. repeat split; lra.
  - assert (z <= l \/ z <= r) as [X|X].
    { destruct (Rle_dec z l); [auto|]. destruct (Rle_dec z r); [auto|]. exfalso. revert B. apply Rlt_not_le. repeat apply Rmax_lub_lt; lra. }
    + destruct (T l) as [c [C1 C2]]; [lra|]. exists 0, c. repeat split; lra.
    + destruct (T r) as [c [C1 C2]]; [lra|]. exists c, 0. repeat split; lra.
Qed.

(** [e] is [u] with one periodic ghost cell on each side *)
Definition wrapped (u e : list R) : Prop := length e = S (S (length u)) /\ forall j, (j < S (S (length u)))%nat -> nth j e 0 = cyc u (j + length u - 1).
Lemma half_step_variation u x e n : length u = n -> length x = n -> (0 < n)%nat -> wrapped u e ->
  (forall i, (i < n)%nat -> in_local_bounds e i (nth i u 0 + 2 * (nth i x 0 - nth i u 0))) -> variation x <= variation u.
Proof.
  intros Lu Lx Hn [Le We] HB. rewrite Lu in *.
  assert (Q : forall k, cyc u (k + n) = cyc u k) by (apply cyc_periodic; auto).
  destruct (finite_choice2 n (fun i c d => 0 <= c /\ 0 <= d /\ c + d <= 1 / 2 /\ nth i x 0 = cyc u i + c * (cyc u (S i) - cyc u i) - d * (cyc u i - cyc u (i + n - 1)))) as [C [D X]].
  - intros i Hi. specialize (HB i Hi). unfold in_local_bounds in HB. rewrite !We in HB by lia. rewrite <- (cyc_inside u i) in HB by lia.
    replace (S i + n - 1)%nat with (i + n)%nat in HB by lia. replace (S (S i) + n - 1)%nat with (S i + n)%nat in HB by lia. rewrite !Q in HB.
    destruct (hull_increment _ _ _ _ HB) as [c [d [H1 [H2 [H3 H4]]]]]. exists (c / 2), (d / 2). repeat split; lra.
  - apply (incremental u x n C D Lu Lx Hn).
    + intros i Hi. destruct (X i Hi) as [? [? _]]. auto.
    + intros i Hi. destruct (X i Hi) as [A1 [A2 [A3 _]]]. assert (Hj : (S i mod n < n)%nat) by (apply Nat.mod_upper_bound; lia).
      destruct (X _ Hj) as [B1 [B2 [B3 _]]]. lra.
    + intros i Hi. apply (X i Hi).
Qed.
Lemma wrapped_extension wall il ir (bc : bconds R) conds u time e : side_names conds "periodic" "periodic" ->
  get_boundary_conditions wall conds 1 il ir = Ok bc -> (0 < length u)%nat -> extended bc u time = Ok e -> wrapped u e.
Proof.
  intros SN B Hu E. destruct (extended_spec 0 wall conds 1 il ir bc u time "periodic" "periodic" Periodic Periodic SN eq_refl eq_refl B) as [e' [E' [Le [_ [_ X]]]]]; [lia|intros h [Q|Q]; discriminate|].
  rewrite E in E'. apply Ok_inj in E'. subst e'. split; [lia|]. intros j Hj. specialize (X j ltac:(lia)). unfold extension_value, outside_value in X.
  assert (G : nth j e 0 = nth (Z.to_nat ((Z.of_nat j - Z.of_nat 1) mod Z.of_nat (length u))) u 0).
  { destruct (Z.ltb_spec (Z.of_nat j - Z.of_nat 1) 0); [exact X|]. destruct (Z.ltb_spec (Z.of_nat j - Z.of_nat 1) (Z.of_nat (length u))); [|exact X].
    rewrite Z.mod_small by lia. exact X. }
  rewrite G. unfold cyc. f_equal. apply Nat2Z.inj. rewrite Nat2Z.inj_mod, Z2Nat.id by (apply Z.mod_pos_bound; lia).
  replace (Z.of_nat (j + length u - 1)) with (Z.of_nat j - Z.of_nat 1 + 1 * Z.of_nat (length u))%Z by lia. rewrite Z.mod_add by lia. reflexivity.
Qed.

(** ** the schemes *)
Definition slope (p : problem) (l r : R) : R := match p with Advection => 1 | Burgers => (l + r) / 2 end.
Lemma llf_increment p l w r : speed p l w <> 0 -> speed p w r <> 0 ->
  ro_flux (llf_out p l w) - ro_flux (llf_out p w r) =
  (speed p w r - slope p w r) / 2 * (r - w) - (speed p l w + slope p l w) / 2 * (w - l).
Proof.
  intros S1 S2. cbn [llf_out ro_flux]. unfold bar. set (a := speed p l w) in *. set (b := speed p w r) in *. destruct p; cbn [scalar_flux slope]; field; auto.
Qed.
Lemma slope_speed p l r : nonneg p l -> nonneg p r -> - speed p l r <= slope p l r <= speed p l r.
Proof.
  unfold nonneg, speed, slope. destruct p; cbn; intros; [rewrite Rmax_left; lra|]. pose proof (Rmax_l l r). pose proof (Rmax_r l r). lra.
Qed.

Lemma llf_step_variation p bc dx t u e v dt : length (bc_left bc) = 1%nat -> length (bc_right bc) = 1%nat ->
  0 < dx -> 0 <= dt -> (0 < length u)%nat -> extended bc u (Some t) = Ok e -> wrapped u e -> states_ok p e ->
  fv_rhs (scalar_llf p) dx bc t u = Ok v -> (forall i, (i <= length u)%nat -> dt * speed p (nth i e 0) (nth (S i) e 0) <= dx) ->
  variation (euler_update u v dt) <= variation u.
Proof.
  intros B1 B2 Hd Hdt Hn E [Le We] Hst Hv Hc. set (n := length u) in *.
  destruct (llf_rhs_inv p bc dx t u e n v E Le Hv) as [Hd0 Hs].
  rewrite (llf_rhs p bc dx t u e n Hd0 E Le Hs) in Hv. apply Ok_inj in Hv. subst v.
  assert (Q : forall k, cyc u (k + n) = cyc u k) by (apply cyc_periodic; auto).
  set (lam := dt / dx). assert (Hl : 0 <= lam) by (apply Rmult_le_pos; [lra|left; apply Rinv_0_lt_compat; lra]).
  assert (W0 : forall i, (i < n)%nat -> nth i e 0 = cyc u (i + n - 1)) by (intros; apply We; lia).
  assert (W1 : forall i, (i <= n)%nat -> nth (S i) e 0 = cyc u i). { intros i Hi. rewrite We by lia. replace (S i + n - 1)%nat with (i + n)%nat by lia. apply Q. }
  assert (NN : forall i, (i <= n)%nat -> nonneg p (cyc u i)). { intros i Hi. rewrite <- W1 by lia. apply states_nonneg; [auto|lia]. }
  assert (SL : forall i, (i < n)%nat -> 0 <= lam * speed p (cyc u i) (cyc u (S i)) <= 1).
  { intros i Hi. specialize (Hc (S i) ltac:(lia)). rewrite !W1 in Hc by lia. pose proof (speed_nonneg p (cyc u i) (cyc u (S i)) (NN i ltac:(lia)) (NN (S i) ltac:(lia))). split; [apply Rmult_le_pos; lra|].
    unfold lam. apply (Rmult_le_reg_r dx); [lra|]. replace (dt / dx * speed p (cyc u i) (cyc u (S i)) * dx) with (dt * speed p (cyc u i) (cyc u (S i))) by (field; lra). lra. }
  assert (PR : forall i, (i < n)%nat -> exists k, (k < n)%nat /\ cyc u (i + n - 1) = cyc u k /\ cyc u i = cyc u (S k)).
  { intros i Hi. destruct i as [|i].
    - exists (n - 1)%nat. split; [lia|]. split; [f_equal; lia|]. replace (S (n - 1)) with (0 + n)%nat by lia. symmetry. apply Q.
    - exists i. split; [lia|]. split; [|reflexivity]. replace (S i + n - 1)%nat with (i + n)%nat by lia. apply Q. }
  apply (incremental u _ n (fun i => lam * ((speed p (cyc u i) (cyc u (S i)) - slope p (cyc u i) (cyc u (S i))) / 2))
    (fun i => lam * ((speed p (cyc u (i + n - 1)) (cyc u i) + slope p (cyc u (i + n - 1)) (cyc u i)) / 2))); auto.
  - unfold euler_update. rewrite map2_length, tab_length. fold n. lia.
  - intros i Hi. split; (apply Rmult_le_pos; [exact Hl|]).
    + pose proof (slope_speed p (cyc u i) (cyc u (S i)) (NN i ltac:(lia)) (NN (S i) ltac:(lia))). lra.
    + destruct (PR i Hi) as [k [Hk [K1 K2]]]. rewrite K1, K2. pose proof (slope_speed p (cyc u k) (cyc u (S k)) (NN k ltac:(lia)) (NN (S k) ltac:(lia))). lra.
  - intros i Hi. assert (A : cyc u (S i mod n + n - 1) = cyc u i /\ cyc u (S i mod n) = cyc u (S i)).
    { destruct (Nat.eq_dec (S i) n) as [Z|Z].
      - rewrite Z, Nat.mod_same by lia. split; [f_equal; lia|]. rewrite <- (Q 0%nat). f_equal.
      - rewrite Nat.mod_small by lia. split; [|reflexivity]. replace (S i + n - 1)%nat with (i + n)%nat by lia. apply Q. }
    destruct A as [-> ->]. pose proof (SL i Hi). lra.
  - intros i Hi. rewrite nth_euler_update by (rewrite ?tab_length; auto). rewrite nth_tab by auto.
    rewrite (llf_increment p (nth i e 0) (nth (S i) e 0) (nth (S (S i)) e 0)) by (apply Hs; lia).
    rewrite (W0 i), (W1 i), (W1 (S i)) by lia. rewrite <- (cyc_inside u i) by auto. unfold lam. field. lra.
Qed.

(** limited scheme: a quarter of a cell per step *)
Lemma euler_double u v dt i : length u = length v -> (i < length u)%nat ->
  nth i (euler_update u v (2 * dt)) 0 = nth i u 0 + 2 * (nth i (euler_update u v dt) 0 - nth i u 0).
Proof. intros L Hi. rewrite !nth_euler_update by auto. ring. Qed.

Lemma variation_run conds il ir bc (nf : nflux R) dx T dt t0 u0 lo hi :
  get_boundary_conditions None conds 1 il ir = Ok bc -> u0 <> [] ->
  inflow_in_range lo hi il -> inflow_in_range lo hi ir -> in_range lo hi u0 ->
  In T [euler; heun; ssp3] ->
  (forall t u v, fv_rhs nf dx bc t u = Ok v -> length u = length u0 -> length v = length u0) ->
  (forall t u e, length u = length u0 -> in_range lo hi u -> extended bc u (Some t) = Ok e -> in_range lo hi e ->
     length e = S (S (length u)) -> exists v, fv_rhs nf dx bc t u = Ok v) ->
  (forall t u e v, length u = length u0 -> in_range lo hi u -> extended bc u (Some t) = Ok e -> in_range lo hi e ->
     length e = S (S (length u)) -> fv_rhs nf dx bc t u = Ok v ->
     (forall i, (i < length u)%nat -> lo <= nth i (euler_update u v dt) 0 <= hi) /\ variation (euler_update u v dt) <= variation u) ->
  exists o, rk_run_e (fv_rhs nf dx bc) T [dt] {| o_time := t0; o_sol := u0 |} = Ok o /\
    length (o_sol o) = length u0 /\ in_range lo hi (o_sol o) /\ variation (o_sol o) <= variation u0.
Proof.
  intros B Hu0 Il Ir R0 HT HL HX HE.
  destruct (ssp_convex_run_e (fun l : list R => length l = length u0) (fv_rhs nf dx bc) (repeat 0 (length u0))
    (fun u => (length u = length u0 /\ in_range lo hi u) /\ (length u = length u0 /\ variation u <= variation u0)) [dt] T {| o_time := t0; o_sol := u0 |}) as [o [E [[[Lo Ro] [_ Vo]] To]]].
  - apply repeat_length.
  - tauto.
  - intros t u v Du Ev. eapply HL; eauto.
  - intros x y r [X1 X2] [Y1 Y2] Hr. split; [apply in_range_convex; auto|]. apply variation_convex; auto. destruct u0; [congruence|cbn; lia].
  - intros t u [[Lu Ru] _]. assert (u <> []) by (intros ->; destruct u0; [congruence|discriminate]).
    destruct (ext_range conds il ir bc u (Some t) lo hi B H Il Ir Ru t eq_refl) as [e [E [Le Re]]].
    eapply HX; eauto.
  - intros dt' t u v Hdt [[Lu Ru] [_ Vu]] Ev. destruct Hdt as [<-|[]]. assert (u <> []) by (intros ->; destruct u0; [congruence|discriminate]).
    destruct (ext_range conds il ir bc u (Some t) lo hi B H Il Ir Ru t eq_refl) as [e [E [Le Re]]].
    rewrite euler_update_vadd. pose proof (HL _ _ _ Ev Lu) as Lv.
    assert (Lw : length (euler_update u v dt) = length u0) by (unfold euler_update; rewrite map2_length; lia).
    destruct (HE t u e v Lu Ru E Re Le Ev) as [H1 H2].
    split; [|split; [auto|lra]]. split; auto. intros x Hx. apply (In_nth _ _ 0) in Hx as [i [Hi <-]]. apply H1. lia.
  - simpl in HT. destruct HT as [<-|[<-|[<-|[]]]]; auto.
  - split; [split; [reflexivity|exact R0]|split; [reflexivity|apply Rle_refl]].
  - exists o. auto.
Qed.

Lemma llf_variation p conds il ir bc dx T dt t0 u0 lo hi : side_names conds "periodic" "periodic" ->
  get_boundary_conditions None conds 1 il ir = Ok bc -> u0 <> [] -> 0 < dx -> range_ok p lo ->
  inflow_in_range lo hi il -> inflow_in_range lo hi ir -> in_range lo hi u0 ->
  In T [euler; heun; ssp3] -> 0 <= dt -> dt * max_speed p hi <= dx ->
  exists o, rk_run_e (fv_rhs (scalar_llf p) dx bc) T [dt] {| o_time := t0; o_sol := u0 |} = Ok o /\
    length (o_sol o) = length u0 /\ in_range lo hi (o_sol o) /\ variation (o_sol o) <= variation u0.
Proof.
  intros SN B Hu Hdx Hlo Il Ir R0 HT Hdt Hc. destruct (bc_radius _ _ _ _ _ _ B) as [B1 B2].
  assert (SP : forall e i, in_range lo hi e -> (S i < length e)%nat -> dt * speed p (nth i e 0) (nth (S i) e 0) <= dx).
  { intros e i Re Hi. eapply Rle_trans; [|exact Hc]. apply Rmult_le_compat_l; [exact Hdt|]. apply (in_range_speed p lo hi); auto. }
  apply (variation_run conds il ir bc (scalar_llf p) dx T dt t0 u0 lo hi); auto.
  - intros t u v Ev Lu. rewrite <- Lu. eapply llf_rhs_length; eauto.
  - intros t u e Lu Ru E Re Le. eexists. eapply llf_rhs; eauto; [lra|]. intros i Hi.
    pose proof (in_range_speed p lo hi e i Hlo Re ltac:(lia)). lra.
  - intros t u e v Lu Ru E Re Le Ev. assert (Hn : (0 < length u)%nat) by (rewrite Lu; destruct u0; [congruence|cbn; lia]). split.
    + intros i Hi. destruct (llf_euler_bounds p bc dx t u e v dt) as [_ X]; auto; [eapply in_range_ok; eauto|intros j Hj; apply SP; auto; lia|].
      eapply local_in_range; [exact Re| |apply X; auto]. lia.
    + eapply llf_step_variation; eauto; [eapply wrapped_extension; eauto|eapply in_range_ok; eauto|]. intros i Hi. apply SP; auto. lia.
Qed.
