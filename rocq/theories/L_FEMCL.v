(** Lemmas: limited fluxes of the finite element MCL scheme. *)
From Coq Require Import Reals List Lia Lra Arith Bool ZArith.
From Verif Require Import Prelude L_Prelude M_Mesh L_Mesh M_Flux M_Boundary L_Boundary M_Neighbours L_Neighbours S_Quadrature L_Quadrature L_Flux M_Misc M_FE L_Lagrange L_FE S_FELow L_FELow.
Import ListNotations.
Open Scope R_scope.

(** ** combinations *)
Lemma rsum_flat_map {A} (F : A -> R) (g : nat -> list A) l : rsum (map F (flat_map g l)) = rsum (map (fun a => rsum (map F (g a))) l).
Proof. induction l as [|x l IH]; [reflexivity|]. cbn [flat_map map]. rewrite map_app, rsum_app, IH. unfold rsum. cbn [fold_right]. reflexivity. Qed.
Lemma sum_from (F : nat -> R) a k : rsum (map F (seq a (k - a))) = rsum (tab k (fun b => if Nat.leb a b then F b else 0)).
Proof.
  destruct (Nat.le_gt_cases a k) as [H|H].
  - replace k with (a + (k - a))%nat at 2 by lia. rewrite rsum_tab_add. rewrite (rsum_tab_0 a); [|intros i Hi; destruct (Nat.leb_spec a i); [lia|reflexivity]].
    rewrite Rplus_0_l. generalize (k - a)%nat. intro l. transitivity (rsum (tab l (fun i => F (a + i)%nat))).
    + unfold tab. f_equal. clear. revert a. induction l as [|l IH]; intro a; [reflexivity|]. cbn [seq map]. rewrite Nat.add_0_r. f_equal. rewrite IH, <- seq_shift, map_map. apply map_ext. intro; f_equal; lia.
    + apply sum_ext. intros i Hi. destruct (Nat.leb_spec a (a + i)); [reflexivity|lia].
  - replace (k - a)%nat with 0%nat by lia. symmetry. apply rsum_tab_0. intros i Hi. destruct (Nat.leb_spec a i); [lia|reflexivity].
Qed.
Lemma sum_combinations (F : nat * nat -> R) k : rsum (map F (combinations k)) = rsum (tab k (fun a => rsum (tab k (fun b => if Nat.ltb a b then F (a, b) else 0)))).
Proof.
  unfold combinations. rewrite rsum_flat_map. unfold tab at 1. f_equal. apply map_ext. intro a. rewrite map_map, (sum_from (fun b => F (a, b)) (S a) k). apply sum_ext. intros b Hb. reflexivity.
Qed.

(** ** limited fluxes *)
Record pair_ok (x : pair_data) : Prop := {
  po_d : 0 <= pd_d x;
  po_flux : Rabs (pd_c x * (pd_fj x - pd_fi x)) <= pd_d x * Rabs (pd_uj x - pd_ui x);
  po_ii : pd_mini x <= pd_ui x <= pd_maxi x;
  po_ij : pd_mini x <= pd_uj x <= pd_maxi x;
  po_ji : pd_minj x <= pd_ui x <= pd_maxj x;
  po_jj : pd_minj x <= pd_uj x <= pd_maxj x }.
Definition pw (x : pair_data) : R := pd_d x * (pd_uj x + pd_ui x) + (pd_fi x - pd_fj x) * pd_c x.
Definition raw (x : pair_data) : R := pd_m x * (pd_ri x - pd_rj x) + pd_d x * (pd_ui x - pd_uj x).
Lemma pw_between x lo hi : pair_ok x -> lo <= pd_ui x <= hi -> lo <= pd_uj x <= hi -> 2 * pd_d x * lo <= pw x <= 2 * pd_d x * hi.
Proof.
  intros [Hd Hf _ _ _ _] Hi Hj. unfold pw.
  assert (A := Rle_abs (pd_c x * (pd_fj x - pd_fi x))). assert (B := Rle_abs (- (pd_c x * (pd_fj x - pd_fi x)))). rewrite Rabs_Ropp in B.
  assert (C : pd_d x * Rabs (pd_uj x - pd_ui x) <= pd_d x * (hi - lo) ) by (apply Rmult_le_compat_l; [auto|]; apply Rabs_le; lra).
  set (d := pd_d x) in *. set (ui := pd_ui x) in *. set (uj := pd_uj x) in *. set (cf := pd_c x * (pd_fj x - pd_fi x)) in *.
  replace ((pd_fi x - pd_fj x) * pd_c x) with (- cf) by (unfold cf; ring).
  assert (D : Rabs cf <= d * Rabs (uj - ui)) by exact Hf. clear C.
  unfold Rabs in D at 2. destruct (Rcase_abs (uj - ui)); split; nra.
Qed.
Lemma limits_ordered x : pair_ok x ->
  Rmax (2 * pd_d x * pd_mini x - pw x) (pw x - 2 * pd_d x * pd_maxj x) <= Rmin (2 * pd_d x * pd_maxi x - pw x) (pw x - 2 * pd_d x * pd_minj x).
Proof.
  intro H. assert (A := pw_between x (pd_mini x) (pd_maxi x) H (po_ii x H) (po_ij x H)). assert (B := pw_between x (pd_minj x) (pd_maxj x) H (po_ji x H) (po_jj x H)).
  apply Rmax_lub; apply Rmin_glb; lra.
Qed.
Lemma limited_between x : pair_ok x -> 2 * pd_d x * pd_mini x <= pw x + limited_flux x <= 2 * pd_d x * pd_maxi x.
Proof.
  intro H. assert (O := limits_ordered x H). unfold limited_flux. fold (pw x). fold (raw x).
  set (fmin := Rmax (2 * pd_d x * pd_mini x - pw x) (pw x - 2 * pd_d x * pd_maxj x)) in *. set (fmax := Rmin (2 * pd_d x * pd_maxi x - pw x) (pw x - 2 * pd_d x * pd_minj x)) in *.
  assert (A : 2 * pd_d x * pd_mini x - pw x <= fmin) by (unfold fmin; apply Rmax_l). assert (B : fmax <= 2 * pd_d x * pd_maxi x - pw x) by (unfold fmax; apply Rmin_l).
  assert (C : fmin <= Rmax fmin (Rmin fmax (raw x))) by apply Rmax_l.
  assert (D : Rmax fmin (Rmin fmax (raw x)) <= fmax) by (apply Rmax_lub; [exact O|apply Rmin_l]). lra.
Qed.
Lemma limited_inactive x : 2 * pd_d x * pd_mini x <= pw x + raw x <= 2 * pd_d x * pd_maxi x -> 2 * pd_d x * pd_minj x <= pw x - raw x <= 2 * pd_d x * pd_maxj x -> limited_flux x = raw x.
Proof.
  intros A B. unfold limited_flux. fold (pw x). fold (raw x). rewrite (Rmin_right _ (raw x)) by (apply Rmin_glb; lra). apply Rmax_right. apply Rmax_lub; lra.
Qed.
(** without diffusion and gradient there is no flux *)
Lemma limited_zero x : pd_d x = 0 -> pd_c x = 0 -> limited_flux x = 0.
Proof.
  intros Hd Hc. unfold limited_flux. rewrite Hd, Hc.
  assert (A : forall y, 2 * 0 * y - (0 * (pd_uj x + pd_ui x) + (pd_fi x - pd_fj x) * 0) = 0) by (intro; ring).
  assert (B : forall y, (0 * (pd_uj x + pd_ui x) + (pd_fi x - pd_fj x) * 0) - 2 * 0 * y = 0) by (intro; ring).
  rewrite !A, !B. rewrite (Rmax_left 0 0), (Rmin_left 0 0) by lra. unfold Rmax, Rmin. repeat destruct Rle_dec; lra.
Qed.
Definition swap_pair (x : pair_data) : pair_data :=
  {| pd_m := pd_m x; pd_d := pd_d x; pd_c := - pd_c x; pd_ui := pd_uj x; pd_uj := pd_ui x; pd_fi := pd_fj x; pd_fj := pd_fi x; pd_ri := pd_rj x; pd_rj := pd_ri x;
     pd_maxi := pd_maxj x; pd_maxj := pd_maxi x; pd_mini := pd_minj x; pd_minj := pd_mini x |}.
Lemma limited_swap x : pair_ok x -> limited_flux (swap_pair x) = - limited_flux x.
Proof.
  intro H. assert (O := limits_ordered x H). unfold limited_flux. cbn [swap_pair pd_m pd_d pd_c pd_ui pd_uj pd_fi pd_fj pd_ri pd_rj pd_maxi pd_maxj pd_mini pd_minj]. fold (pw x). fold (raw x).
  replace (pd_d x * (pd_ui x + pd_uj x) + (pd_fj x - pd_fi x) * - pd_c x) with (pw x) by (unfold pw; ring).
  replace (pd_m x * (pd_rj x - pd_ri x) + pd_d x * (pd_uj x - pd_ui x)) with (- raw x) by (unfold raw; ring).
  set (fmin := Rmax (2 * pd_d x * pd_mini x - pw x) (pw x - 2 * pd_d x * pd_maxj x)) in *.
  set (fmax := Rmin (2 * pd_d x * pd_maxi x - pw x) (pw x - 2 * pd_d x * pd_minj x)) in *.
  replace (Rmax (2 * pd_d x * pd_minj x - pw x) (pw x - 2 * pd_d x * pd_maxi x)) with (- fmax).
  2:{ unfold fmax, Rmax, Rmin. repeat destruct Rle_dec; lra. }
  replace (Rmin (2 * pd_d x * pd_maxj x - pw x) (pw x - 2 * pd_d x * pd_mini x)) with (- fmin).
  2:{ unfold fmin, Rmax, Rmin. repeat destruct Rle_dec; lra. }
  unfold Rmax, Rmin. repeat destruct Rle_dec; lra.
Qed.

(** ** visits *)
Section Space.
Context (D : interval) (n : nat) (m : mesh) (p : nat) (s : fespace).
Hypothesis Hn : (0 < n)%nat.
Hypothesis HD : ia D < ib D.
Hypothesis Hp : (0 < p)%nat.
Hypothesis Em : new_mesh D n = Ok m.
Hypothesis Es : new_fespace m p = Ok s.
Lemma corrections_val f i : mcl_corrections s f i =
  rsum (tab n (fun c => rsum (map (fun ab : nat * nat => let na := fs_number s c (fst ab) in let nb := fs_number s c (snd ab) in delta i na * f na nb - delta i nb * f na nb) (combinations (S p))))).
Proof.
  unfold mcl_corrections. rewrite (s_cells D n m p s Hn HD Hp Em Es), (s_degree D n m p s Hn HD Hp Em Es). replace (p + 1)%nat with (S p) by lia.
  rewrite (fold_nested _ (fun v => v) (fun c i => rsum (map (fun ab : nat * nat => let na := fs_number s c (fst ab) in let nb := fs_number s c (snd ab) in delta i na * f na nb - delta i nb * f na nb) (combinations (S p))))).
  - rewrite Rplus_0_l. reflexivity.
  - intros v c k _. rewrite (fold_nested _ (fun v => v) (fun (ab : nat * nat) k => let na := fs_number s c (fst ab) in let nb := fs_number s c (snd ab) in delta k na * f na nb - delta k nb * f na nb)).
    + reflexivity.
    + intros v' [a b] k' _. cbn [fst snd]. unfold add_at, delta.
      destruct (Nat.eqb k' (fs_number s c a)), (Nat.eqb k' (fs_number s c b)); ring.
Qed.
Lemma corrections_conserve f : rsum (tab (n * p) (mcl_corrections s f)) = 0.
Proof.
  rewrite (sum_ext _ _ (fun i => rsum (tab n (fun c => rsum (tab (S p) (fun a => rsum (tab (S p) (fun b => if Nat.ltb a b then delta i (fs_number s c a) * f (fs_number s c a) (fs_number s c b) - delta i (fs_number s c b) * f (fs_number s c a) (fs_number s c b) else 0)))))))).
  2:{ intros i Hi. rewrite corrections_val. apply sum_ext. intros c Hc. rewrite sum_combinations. reflexivity. }
  rewrite rsum_tab_swap. apply rsum_tab_0. intros c Hc. rewrite rsum_tab_swap. apply rsum_tab_0. intros a Ha. rewrite rsum_tab_swap. apply rsum_tab_0. intros b Hb.
  destruct (Nat.ltb a b); [|apply rsum_tab_0; auto]. rewrite rsum_tab_minus.
  rewrite (dof_sum D n m p s Hn HD Hp Em Es c a (fun _ => f (fs_number s c a) (fs_number s c b))) by (auto; lia).
  rewrite (dof_sum D n m p s Hn HD Hp Em Es c b (fun _ => f (fs_number s c a) (fs_number s c b))) by (auto; lia). ring.
Qed.
(** the positions of two numbers *)
Lemma num_inj c a b : (2 <= n)%nat -> (c < n)%nat -> (a <= p)%nat -> (b <= p)%nat -> fs_number s c a = fs_number s c b -> a = b.
Proof.
  intros H2 Hc Ha Hb. rewrite !(num_val D n m p s Hn HD Hp Em Es) by auto. assert (c * p + 2 * p <= n * p \/ p <= c * p)%nat by (destruct c as [|c']; [left; cbn; nia|right; cbn; nia]).
  destruct (Nat.eqb_spec (c * p + a) (n * p)), (Nat.eqb_spec (c * p + b) (n * p)); lia.
Qed.
Lemma visit_unique i j c a b c' a' b' : (2 <= n)%nat -> i <> j -> (c < n)%nat -> (a <= p)%nat -> (b <= p)%nat -> (c' < n)%nat -> (a' <= p)%nat -> (b' <= p)%nat ->
  fs_number s c a = i -> fs_number s c b = j -> fs_number s c' a' = i -> fs_number s c' b' = j ->
  (c' = c /\ a' = a /\ b' = b) \/ (n = 2%nat /\ c' <> c /\ ((a = 0 /\ b = p /\ a' = p /\ b' = 0) \/ (a = p /\ b = 0 /\ a' = 0 /\ b' = p))%nat).
Proof.
  intros H2 Hij Hc Ha Hb Hc' Ha' Hb' E1 E2 E3 E4. destruct (Nat.eq_dec c c') as [->|Nc].
  - left. split; [reflexivity|]. split; [apply (num_inj c' a' a); auto; congruence|apply (num_inj c' b' b); auto; congruence].
  - right. rewrite (num_val D n m p s Hn HD Hp Em Es) in E1, E2, E3, E4 by auto.
    assert (Q : exists k k' l, (k = c * p /\ k' = c' * p /\ l = n * p)%nat /\ (k + p <= k' \/ k' + p <= k)%nat /\ (k + p <= l)%nat /\ (k' + p <= l)%nat /\ (2 * p <= l)%nat).
    { exists (c * p)%nat, (c' * p)%nat, (n * p)%nat. split; [auto|]. split; [destruct (Nat.lt_ge_cases c c'); [left|right]; nia|]. split; [nia|]. split; nia. }
    destruct Q as [k [k' [l [[K1 [K2 K3]] [Q1 [Q2 [Q3 Q4]]]]]]]. rewrite <- K1, <- K3 in E1, E2. rewrite <- K2, <- K3 in E3, E4.
    assert (F : ((k' = k + p \/ k = k' + p) /\ (k = 0 /\ k' + p = l \/ k' = 0 /\ k + p = l) /\ ((a = 0 /\ b = p /\ a' = p /\ b' = 0) \/ (a = p /\ b = 0 /\ a' = 0 /\ b' = p)))%nat).
    { destruct (Nat.eqb_spec (k + a) l), (Nat.eqb_spec (k + b) l), (Nat.eqb_spec (k' + a') l), (Nat.eqb_spec (k' + b') l); lia. }
    destruct F as [F1 [F2 F3]]. split; [nia|]. split; [auto|exact F3].
Qed.

(** the number of visits of the pair (i, j) *)
Definition visits (i j : nat) : R := rsum (tab n (fun c => rsum (tab (S p) (fun a => rsum (tab (S p) (fun b => delta i (fs_number s c a) * delta j (fs_number s c b))))))).
Lemma visits_none i j : (forall c a b, (c < n)%nat -> (a <= p)%nat -> (b <= p)%nat -> ~ (fs_number s c a = i /\ fs_number s c b = j)) -> visits i j = 0.
Proof.
  intro H. unfold visits. apply rsum_tab_0. intros c Hc. apply rsum_tab_0. intros a Ha. apply rsum_tab_0. intros b Hb. specialize (H c a b Hc ltac:(lia) ltac:(lia)).
  unfold delta. destruct (Nat.eqb_spec i (fs_number s c a)), (Nat.eqb_spec j (fs_number s c b)); try ring. exfalso. auto.
Qed.
Lemma visits_one i j c0 a0 b0 : (c0 < n)%nat -> (a0 <= p)%nat -> (b0 <= p)%nat -> fs_number s c0 a0 = i -> fs_number s c0 b0 = j ->
  (forall c a b, (c < n)%nat -> (a <= p)%nat -> (b <= p)%nat -> fs_number s c a = i -> fs_number s c b = j -> c = c0 /\ a = a0 /\ b = b0) -> visits i j = 1.
Proof.
  intros Hc Ha Hb E1 E2 U. unfold visits.
  rewrite (sum_ext n _ (fun c => delta c c0 * rsum (tab (S p) (fun a => delta a a0 * rsum (tab (S p) (fun b => delta b b0 * 1)))))).
  - rewrite (sum_delta n c0 (fun _ => rsum (tab (S p) (fun a => delta a a0 * rsum (tab (S p) (fun b => delta b b0 * 1)))))) by auto.
    rewrite (sum_delta (S p) a0 (fun _ => rsum (tab (S p) (fun b => delta b b0 * 1)))) by lia. apply (sum_delta (S p) b0 (fun _ => 1)). lia.
  - intros c Hc'. rewrite <- rsum_tab_scal. apply sum_ext. intros a Ha'. rewrite <- !rsum_tab_scal. apply sum_ext. intros b Hb'.
    unfold delta. destruct (Nat.eqb_spec i (fs_number s c a)) as [X|X], (Nat.eqb_spec j (fs_number s c b)) as [Y|Y].
    + destruct (U c a b Hc' ltac:(lia) ltac:(lia) (eq_sym X) (eq_sym Y)) as [-> [-> ->]]. rewrite !Nat.eqb_refl. ring.
    + destruct (Nat.eqb_spec c c0) as [->|], (Nat.eqb_spec a a0) as [->|], (Nat.eqb_spec b b0) as [->|]; try ring. congruence.
    + destruct (Nat.eqb_spec c c0) as [->|], (Nat.eqb_spec a a0) as [->|], (Nat.eqb_spec b b0) as [->|]; try ring. congruence.
    + destruct (Nat.eqb_spec c c0) as [->|], (Nat.eqb_spec a a0) as [->|], (Nat.eqb_spec b b0) as [->|]; try ring. congruence.
Qed.
(** the corrections of an antisymmetric flux *)
Lemma corrections_off f i : (2 <= n)%nat -> (i < n * p)%nat ->
  (forall c a b, (c < n)%nat -> (a <= p)%nat -> (b <= p)%nat -> a <> b -> f (fs_number s c b) (fs_number s c a) = - f (fs_number s c a) (fs_number s c b)) ->
  mcl_corrections s f i = off (n * p) (fun j => visits i j * f i j) i.
Proof.
  intros H2 Hi AS. rewrite corrections_val.
  transitivity (rsum (tab n (fun c => rsum (tab (S p) (fun a => rsum (tab (S p) (fun b => delta i (fs_number s c a) * (if Nat.eqb a b then 0 else f i (fs_number s c b)))))))) ).
  - apply sum_ext. intros c Hc. rewrite sum_combinations. cbn [fst snd].
    transitivity (rsum (tab (S p) (fun a => rsum (tab (S p) (fun b => if Nat.ltb a b then delta i (fs_number s c a) * f (fs_number s c a) (fs_number s c b) else 0)))) +
                  rsum (tab (S p) (fun a => rsum (tab (S p) (fun b => if Nat.ltb b a then delta i (fs_number s c a) * f (fs_number s c a) (fs_number s c b) else 0))))).
    + rewrite (rsum_tab_swap (S p) (S p) (fun a b => if Nat.ltb b a then delta i (fs_number s c a) * f (fs_number s c a) (fs_number s c b) else 0)).
      rewrite <- rsum_tab_plus. apply sum_ext. intros a Ha. rewrite <- rsum_tab_plus. apply sum_ext. intros b Hb. destruct (Nat.ltb_spec a b); [|ring].
      rewrite (AS c a b) by lia. ring.
    + rewrite <- rsum_tab_plus. apply sum_ext. intros a Ha. rewrite <- rsum_tab_plus. apply sum_ext. intros b Hb. unfold delta.
      destruct (Nat.eqb_spec i (fs_number s c a)) as [<-|]; destruct (Nat.ltb_spec a b), (Nat.ltb_spec b a), (Nat.eqb_spec a b); try lia; ring.
  - unfold off, visits.
    rewrite (sum_ext (n * p) _ (fun j => rsum (tab n (fun c => rsum (tab (S p) (fun a => rsum (tab (S p) (fun b => delta j (fs_number s c b) * (delta i (fs_number s c a) * (if Nat.eqb i j then 0 else f i j)))))))))).
    2:{ intros j Hj. destruct (Nat.eqb i j).
        - symmetry. apply rsum_tab_0. intros c Hc. apply rsum_tab_0. intros a Ha. apply rsum_tab_0. intros b Hb. ring.
        - rewrite <- sum_scal_r. apply sum_ext. intros c Hc. rewrite <- sum_scal_r. apply sum_ext. intros a Ha. rewrite <- sum_scal_r. apply sum_ext. intros b Hb. ring. }
    symmetry. rewrite rsum_tab_swap. apply sum_ext. intros c Hc. rewrite rsum_tab_swap. apply sum_ext. intros a Ha. rewrite rsum_tab_swap. apply sum_ext. intros b Hb.
    rewrite (dof_sum D n m p s Hn HD Hp Em Es c b (fun j => delta i (fs_number s c a) * (if Nat.eqb i j then 0 else f i j))) by (auto; lia).
    unfold delta. destruct (Nat.eqb_spec i (fs_number s c a)) as [E|E]; [|ring]. destruct (Nat.eqb_spec a b) as [->|Nab]; [rewrite E, Nat.eqb_refl; ring|].
    destruct (Nat.eqb_spec i (fs_number s c b)) as [E'|E']; [exfalso; apply Nab, (num_inj c a b H2); auto; try lia; congruence|ring].
Qed.
End Space.
