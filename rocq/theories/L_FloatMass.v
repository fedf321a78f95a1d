(** Rounding errors of a Runge-Kutta step of a finite volume scheme. *)
From Coq Require Import Reals Lra Lia ZArith String List Arith.
From Flocq Require Import Core Relative.
From Verif Require Import Prelude L_Prelude M_Boundary M_Flux S_Flux L_Flux M_ODE M_FloatStepping L_Floats M_FloatODE S_FloatMass.
Import ListNotations.
Open Scope R_scope.
Local Open Scope list_scope.
Notation length := List.length.

Notation eps := unit_roundoff.
Lemma eps_pos : 0 < eps. Proof. unfold unit_roundoff. apply Rinv_0_lt_compat, pow_lt. lra. Qed.
Lemma eps_small : eps * 4000 <= 1.
Proof. unfold unit_roundoff. assert (0 < 2 ^ 53) by (apply pow_lt; lra). apply (Rmult_le_reg_l (2 ^ 53)); auto. rewrite <- Rmult_assoc, Rinv_r by lra. assert (4096 <= 2 ^ 53); [|lra]. replace 4096 with (2 ^ 12) by ring. apply Rle_pow; [lra|lia]. Qed.
Lemma small_pos : 0 < smallest_normal. Proof. unfold smallest_normal. apply Rinv_0_lt_compat, pow_lt. lra. Qed.
Lemma bpow_inv n : bpow radix2 (- Z.of_nat n) = / 2 ^ n.
Proof. rewrite bpow_opp. f_equal. rewrite <- IZR_Zpower by lia. rewrite (pow_IZR 2 n). reflexivity. Qed.

Lemma rnd_relative x A : Rabs x <= A -> smallest_normal <= A -> Rabs (rnd x - x) <= eps * A.
Proof.
  intros HA HS. assert (Es := eps_pos).
  destruct (Rle_or_lt smallest_normal (Rabs x)) as [N|N].
  - assert (E : Rabs (rnd x - x) <= / 2 * bpow radix2 (- 53 + 1) * Rabs x).
    { apply (relative_error_N_FLT radix2 (-1074) 53); [reflexivity|]. change (-1074 + 53 - 1)%Z with (- Z.of_nat 1022)%Z. rewrite bpow_inv. exact N. }
    replace (/ 2 * bpow radix2 (- 53 + 1)) with eps in E. { eapply Rle_trans; [exact E|]. apply Rmult_le_compat_l; lra. }
    unfold unit_roundoff. change (- 53 + 1)%Z with (- Z.of_nat 52)%Z. rewrite bpow_inv. replace (2 ^ 53) with (2 * 2 ^ 52) by (symmetry; apply (tech_pow_Rmult 2 52)). rewrite Rinv_mult. reflexivity.
  - assert (E := rnd_error x (-1021) ltac:(lia)). assert (B : Rabs x < bpow radix2 (-1021)). { apply Rlt_trans with smallest_normal; auto. unfold smallest_normal. rewrite <- bpow_inv. apply bpow_lt. lia. }
    specialize (E B). eapply Rle_trans; [exact E|]. change (-1021 - 54)%Z with (- Z.of_nat 53 + - Z.of_nat 1022)%Z. rewrite bpow_plus, !bpow_inv. apply Rmult_le_compat_l; [|exact HS]. apply Rlt_le. exact Es.
Qed.

Section Near.
Context {W : Type} (H : CellOps W) (HR : rounded H) (k : bool) (n : nat).
Notation X l i := (ccoord k (nth i l czero)).
Notation q := (1 + eps).

Lemma q_ge p : 1 <= q ^ p. Proof. apply pow_R1_Rle. pose proof eps_pos. lra. Qed.

(** the component of [l] is, up to p roundings of numbers of size A, one that sums to zero *)
Definition near (A : R) (p : nat) (l : list W) : Prop :=
  length l = n /\ exists x : nat -> R, rsum (tab n x) = 0 /\ forall i, (i < n)%nat -> Rabs (x i) <= A /\ Rabs (X l i - x i) <= A * (q ^ p - 1).

Lemma near_size A p l x i : 0 <= A -> Rabs (x i) <= A -> Rabs (X l i - x i) <= A * (q ^ p - 1) -> Rabs (X l i) <= A * q ^ p.
Proof. intros _ H1 H2. replace (X l i) with (x i + (X l i - x i)) by ring. eapply Rle_trans; [apply Rabs_triang|]. lra. Qed.

Lemma near_more A p p' l : 0 <= A -> (p <= p')%nat -> near A p l -> near A p' l.
Proof.
  intros HA Hp [L [x [S0 Q]]]. split; auto. exists x. split; auto. intros i Hi. destruct (Q i Hi) as [Q1 Q2]. split; auto.
  eapply Rle_trans; [exact Q2|]. apply Rmult_le_compat_l; auto. assert (q ^ p <= q ^ p') by (apply Rle_pow; [pose proof eps_pos; lra|exact Hp]). lra.
Qed.

Lemma near_scal c C A p l : Rabs c <= C -> 0 <= A -> smallest_normal <= C * A -> near A p l -> near (C * A) (S p) (map (cscal c) l).
Proof.
  intros Hc HA HS [L [x [S0 Q]]]. split; [rewrite map_length; exact L|]. exists (fun i => c * x i). split; [rewrite rsum_tab_scal, S0; ring|].
  intros i Hi. destruct (Q i Hi) as [Q1 Q2]. assert (Z := near_size A p l x i HA Q1 Q2). assert (C0 : 0 <= C) by (eapply Rle_trans; [apply Rabs_pos|exact Hc]). split.
  - rewrite Rabs_mult. apply Rmult_le_compat; auto using Rabs_pos.
  - rewrite (nth_map' _ _ i czero) by lia. rewrite (proj2 HR).
    assert (E1 : Rabs (c * X l i) <= C * A * q ^ p). { rewrite Rabs_mult, Rmult_assoc. apply Rmult_le_compat; auto using Rabs_pos. }
    assert (E2 : smallest_normal <= C * A * q ^ p). { pose proof (q_ge p). pose proof small_pos. nra. }
    assert (E3 := rnd_relative _ _ E1 E2).
    assert (E4 : Rabs (c * X l i - c * x i) <= C * (A * (q ^ p - 1))). { rewrite <- Rmult_minus_distr_l, Rabs_mult. apply Rmult_le_compat; auto using Rabs_pos. }
    replace (rnd (c * X l i) - c * x i) with ((rnd (c * X l i) - c * X l i) + (c * X l i - c * x i)) by ring. eapply Rle_trans; [apply Rabs_triang|].
    rewrite <- tech_pow_Rmult. lra.
Qed.

Lemma near_add A B p a b : 0 <= A -> 0 <= B -> smallest_normal <= A + B -> near A p a -> near B p b -> near (A + B) (S p) (map2 cadd a b).
Proof.
  intros HA HB HS [La [x [Sx Qx]]] [Lb [y [Sy Qy]]]. split; [rewrite map2_length; lia|]. exists (fun i => x i + y i). split; [rewrite rsum_tab_plus; lra|].
  intros i Hi. destruct (Qx i Hi) as [X1 X2]. destruct (Qy i Hi) as [Y1 Y2]. assert (ZX := near_size A p a x i HA X1 X2). assert (ZY := near_size B p b y i HB Y1 Y2). split.
  - eapply Rle_trans; [apply Rabs_triang|]. lra.
  - rewrite (nth_map2 cadd _ _ i czero czero) by lia. rewrite (proj1 HR).
    assert (E1 : Rabs (X a i + X b i) <= (A + B) * q ^ p). { eapply Rle_trans; [apply Rabs_triang|]. lra. }
    assert (E2 : smallest_normal <= (A + B) * q ^ p). { pose proof (q_ge p). pose proof small_pos. nra. }
    assert (E3 := rnd_relative _ _ E1 E2).
    replace (rnd (X a i + X b i) - (x i + y i)) with ((rnd (X a i + X b i) - (X a i + X b i)) + ((X a i - x i) + (X b i - y i))) by ring.
    eapply Rle_trans; [apply Rabs_triang|]. eapply Rle_trans; [apply Rplus_le_compat_l, Rabs_triang|]. rewrite <- tech_pow_Rmult. lra.
Qed.

(** the sum over the stages *)
Lemma lsum_near Q cs ks acc j : smallest_normal <= Q -> Forall (fun c => Rabs c <= 1) cs -> Forall (near Q 2) ks -> length cs = length ks -> (1 <= j)%nat ->
  near (INR j * Q) (j + 2) acc -> near (INR (j + length cs) * Q) (j + length cs + 2) (lsum acc cs ks).
Proof.
  intros HQ Hc. revert ks acc j. induction Hc as [|c cs Hc1 Hc IH]; intros [|kk ks] acc j Hk L Hj HA; cbn [length] in *; try discriminate.
  - rewrite Nat.add_0_r. exact HA.
  - inversion Hk; subst. replace (j + S (length cs))%nat with (S j + length cs)%nat by lia. cbn [lsum]. apply IH; auto; try lia.
    assert (P := small_pos). assert (J1 := le_INR _ _ Hj). simpl INR in J1.
    assert (N1 : near (1 * Q) 3 (vscal c kk)). { apply near_scal; auto; lra. }
    rewrite S_INR. replace ((INR j + 1) * Q) with (INR j * Q + 1 * Q) by ring. change (S j + 2)%nat with (S (j + 2)). apply near_add; auto; try nra.
    apply (near_more _ 3); auto; [lra|lia].
Qed.
Lemma wsum_left_near Q cs ks s : smallest_normal <= Q -> Forall (fun c => Rabs c <= 1) cs -> Forall (near Q 2) ks -> length cs = length ks -> wsum_left cs ks = Some s ->
  near (INR (length cs) * Q) (length cs + 2) s.
Proof.
  intros HQ Hc Hk L E. destruct cs as [|c cs], ks as [|kk ks]; cbn in L; try discriminate. cbn [wsum_left] in E. injection E as <-. inversion Hc; subst. inversion Hk; subst.
  change (length (c :: cs)) with (1 + length cs)%nat. apply lsum_near; auto. assert (P := small_pos).
  replace (INR 1 * Q) with (1 * Q) by (simpl; ring). apply near_scal; auto; lra.
Qed.

(** the update with the time step *)
Lemma axpy_near dt A p s u M : length u = n -> 0 <= dt -> 0 <= A -> 0 <= M -> smallest_normal <= dt * A -> near A p s -> (forall x, In x u -> Rabs (ccoord k x) <= M) ->
  length (axpy u dt (Some s)) = n /\ Rabs (total k (axpy u dt (Some s)) - total k u) <= INR n * (eps * M + dt * A * (q ^ (p + 2) - 1)).
Proof.
  intros Lu Hdt HA HM HS Hs Hu. assert (P := near_scal dt dt A p s ltac:(rewrite Rabs_pos_eq; lra) HA HS Hs). destruct P as [Lp [x [Sx Qx]]].
  set (v := map (cscal dt) s) in *. assert (LV : length (axpy u dt (Some s)) = n). { unfold axpy. cbn. change (length (map2 cadd u v) = n). rewrite map2_length. lia. } split; [exact LV|].
  change (axpy u dt (Some s)) with (map2 cadd u v) in *. unfold total.
  rewrite (list_tab 0 (map _ (map2 _ _ _))), (list_tab 0 (map _ u)), !map_length, LV, Lu.
  replace (rsum (tab n (fun i => nth i (map (ccoord k) (map2 cadd u v)) 0)) - rsum (tab n (fun i => nth i (map (ccoord k) u) 0))) with (rsum (tab n (fun i => X (map2 cadd u v) i - X u i - x i))).
  2:{ rewrite !rsum_tab_minus, Sx, Rminus_0_r. f_equal; f_equal; apply tab_ext; intros i Hi; symmetry; apply nth_map'; lia. }
  assert (Each : forall i, (i < n)%nat -> Rabs (X (map2 cadd u v) i - X u i - x i) <= eps * M + dt * A * (q ^ (p + 2) - 1)).
  { intros i Hi. destruct (Qx i Hi) as [X1 X2]. assert (B0 : 0 <= dt * A) by nra. assert (Z := near_size (dt * A) (S p) v x i B0 X1 X2). rewrite (nth_map2 cadd _ _ i czero czero) by lia. rewrite (proj1 HR).
    assert (U : Rabs (X u i) <= M) by (apply Hu, nth_In; lia).
    assert (E1 : Rabs (X u i + X v i) <= M + dt * A * q ^ S p). { eapply Rle_trans; [apply Rabs_triang|]. lra. }
    assert (E2 : smallest_normal <= M + dt * A * q ^ S p). { pose proof (q_ge (S p)). nra. }
    assert (E3 := rnd_relative _ _ E1 E2).
    replace (rnd (X u i + X v i) - X u i - x i) with ((rnd (X u i + X v i) - (X u i + X v i)) + (X v i - x i)) by ring.
    eapply Rle_trans; [apply Rabs_triang|]. replace (p + 2)%nat with (S (S p)) by lia. rewrite <- (tech_pow_Rmult _ (S p)). lra. }
  rewrite <- rsum_tab_const. apply Rabs_le. split.
  - replace (- rsum (tab n (fun _ => eps * M + dt * A * (q ^ (p + 2) - 1)))) with (rsum (tab n (fun _ => -1 * (eps * M + dt * A * (q ^ (p + 2) - 1))))) by (rewrite rsum_tab_scal; ring).
    apply rsum_tab_le. intros i Hi. assert (E := Each i Hi). apply Rabs_le_inv in E. lra.
  - apply rsum_tab_le. intros i Hi. assert (E := Each i Hi). apply Rabs_le_inv in E. lra.
Qed.

Lemma pow_linear p : INR p * 2 * eps <= 1 -> q ^ p - 1 <= 2 * INR p * eps.
Proof.
  assert (E := eps_pos). induction p; intro Hp; [simpl; lra|]. rewrite S_INR in *. assert (I := IHp ltac:(lra)). rewrite <- tech_pow_Rmult. pose proof (pos_INR p).
  assert (q * q ^ p <= q * (1 + 2 * INR p * eps)) by (apply Rmult_le_compat_l; lra). nra.
Qed.

(** the right hand side of the scheme *)
Lemma rhs_near wall il ir bc nf dx M F t u v : get_boundary_conditions wall ["periodic"%string] (Nat.div (nf_dim nf) 2) il ir = Ok bc -> (2 <= nf_dim nf)%nat ->
  (Nat.div (nf_dim nf) 2 <= n)%nat -> one_per_node nf -> single_valued k nf -> local_flux k nf -> 0 < dx -> smallest_normal <= 2 * F -> smallest_normal <= 2 * F / dx ->
  call_within H nf bc k M F (t, u) -> length u = n -> fv_rhs nf dx bc t u = Ok v -> near (2 * F / dx) 2 v.
Proof.
  intros B Hd Hn O SV LF Hdx HF HS [CW1 CW2] Lu E. destruct (fv_rhs_inv _ _ _ _ _ _ E) as [a [fl [fr [E1 [E2 E3]]]]].
  assert (Hr : (1 <= Nat.div (nf_dim nf) 2)%nat) by (apply Nat.div_le_lower_bound; lia).
  destruct (fv_neighbours_shape _ _ _ _ _ _ _ _ B Hr _ E1) as [_ Fa]. destruct (O _ _ _ _ Fa E2) as [L1 L2].
  destruct (cells_from_nodes_spec _ _ _ _ _ E3 L1 L2) as [Hdx' [Lv Hv]]. rewrite Lu in *.
  assert (Hb : forall i, (i < S n)%nat -> Rabs (X fr i) <= F) by (intros i Hi; apply (CW2 a fl fr E1 E2), nth_In; lia).
  assert (F0 : 0 <= F). { eapply Rle_trans; [apply Rabs_pos|]. apply (Hb 0%nat). lia. }
  set (d := tab n (fun i => cadd (nth i fr czero) (nth (S i) fl czero))).
  assert (D : near (2 * F) 1 d).
  { split; [apply tab_length|]. exists (fun i => X fr i - X fr (S i)). split.
    - rewrite (tab_ext _ _ (fun i => (- X fr (S i)) - (- X fr i))) by (intros; ring). rewrite (rsum_tab_telescope n (fun i => - X fr i)).
      rewrite (LF _ _ _ _ 0%nat n Fa E2); [ring|lia|lia|]. intros w Hw. rewrite <- Lu. eapply periodic_ends_agree; eauto. lia.
    - intros i Hi. assert (B1 := Hb i ltac:(lia)). assert (B2 := Hb (S i) ltac:(lia)).
      assert (Z : Rabs (X fr i - X fr (S i)) <= 2 * F). { unfold Rminus. eapply Rle_trans; [apply Rabs_triang|]. rewrite Rabs_Ropp. lra. } split; [exact Z|].
      unfold d. rewrite nth_tab by exact Hi. rewrite (proj1 HR), (SV _ _ _ _ Fa E2) by lia. replace (X fr i + - X fr (S i)) with (X fr i - X fr (S i)) by ring.
      replace (2 * F * (q ^ 1 - 1)) with (eps * (2 * F)) by ring. apply rnd_relative; auto. }
  replace v with (map (cscal (1 / dx)) d).
  2:{ apply (list_ext czero); [rewrite map_length; unfold d; rewrite tab_length; lia|]. rewrite map_length. unfold d at 1. rewrite tab_length. intros i Hi. rewrite (nth_map' _ _ i czero) by (unfold d; rewrite tab_length; lia). unfold d. rewrite nth_tab by lia. symmetry. apply Hv. exact Hi. }
  replace (2 * F / dx) with (1 / dx * (2 * F)) in * by (field; lra). apply near_scal; auto; [|lra]. rewrite Rabs_pos_eq; [lra|]. apply Rlt_le, Rdiv_lt_0_compat; lra.
Qed.
End Near.
