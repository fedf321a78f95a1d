From Coq Require Import Reals List ZArith Arith Lia Lra Psatz Bool String.
From Verif Require Import Prelude L_Prelude M_Boundary S_Boundary L_Boundary M_Flux S_Flux L_Flux
  M_Neighbours L_Neighbours M_Scalar S_Scalar L_Scalar M_ODE S_ODE L_ODE M_ShallowWater S_ShallowWater L_ShallowWater L_SWRuns L_SWLow
  L_SWWater L_SWLake L_SWTotal S_SWBounds.
Import ListNotations.
Local Open Scope nat_scope.
Open Scope R_scope.
Notation length := List.length.
Notation z2 := (0, 0) (only parsing).

(** ** the extended solution *)
Lemma extended_cells wall conds il ir bc (u : list state) t e : get_boundary_conditions wall conds 1 il ir = Ok bc -> u <> [] ->
  extended bc u (Some t) = Ok e ->
  length e = S (S (length u)) /\ (forall i, (i < length u)%nat -> nth (S i) e z2 = nth i u z2) /\
  get_node_neighbours bc u 1 (Some t) =
    Ok [tab (S (length u)) (fun i => nth i e z2); tab (S (length u)) (fun i => nth (S i) e z2)].
Proof.
  intros B Hu Ee. assert (Hn : (1 <= length u)%nat) by (destruct u; [congruence|cbn; lia]).
  destruct conds as [|c cs]; [discriminate|].
  assert (Sn := side_names_cons c cs). set (nr := match cs with [] => c | c2 :: _ => c2 end) in *.
  destruct (proj1 (get_bc_ok_iff z2 wall (c :: cs) 1 il ir c nr ltac:(lia) Sn) (ex_intro _ bc B)) as [[cl Nl] [cr Nr]].
  destruct (extended_spec z2 _ _ _ _ _ _ u (Some t) _ _ _ _ Sn Nl Nr B Hn) as [e' [Ee' [Le [_ [_ Ve]]]]]; [intros; discriminate|].
  rewrite Ee in Ee'. apply Ok_inj in Ee'. subst e'.
  split; [lia|]. split.
  - intros i Hi. specialize (Ve (S i) ltac:(lia)). eapply inner_cell; [|exact Hi].
    replace (Z.of_nat (S i) - Z.of_nat 1)%Z with (Z.of_nat (S i) - 1)%Z in Ve by lia. exact Ve.
  - destruct (node_neighbours_of_extended z2 bc u (Some t) e 1 Ee) as [a [A1 [A2 A3]]]; try lia.
    rewrite A1. destruct a as [|vl [|vr [|? ?]]]; try (cbn in A2; lia).
    pose proof (A3 0%nat ltac:(lia)) as V0. pose proof (A3 1%nat ltac:(lia)) as V1. cbn [nth] in V0, V1.
    replace (length e - 2 * 1 + 1)%nat with (S (length u)) in V0, V1 by lia. rewrite V0, V1. do 2 f_equal.
    + apply tab_ext. intros. f_equal. lia.
    + f_equal. apply tab_ext. intros. f_equal. lia.
Qed.
Lemma sides_tab e n : length e = S (S n) ->
  sides e = [tab (S n) (fun i => nth i e z2); tab (S n) (fun i => nth (S i) e z2)].
Proof.
  intro L. unfold sides. rewrite (list_tab z2 e) at 1 2. rewrite L. rewrite (tab_snoc (S n)) at 1. rewrite removelast_last.
  rewrite (tab_S (S n)). reflexivity.
Qed.

(** ** wet cells *)
Lemma wet_velocity u : epsilon <= fst u -> velocity u = snd u / fst u.
Proof. destruct u as [h q]. cbn [fst snd]. apply velocity_wet, epsilon_pos. Qed.
Lemma wet_max_speed g l r : epsilon <= fst l -> epsilon <= fst r -> sw_max_speed g l r = wet_speed g l r.
Proof. intros. unfold sw_max_speed, wet_speed. rewrite !wet_velocity; auto. Qed.
Lemma wet_sw_flux g u : epsilon <= fst u -> sw_flux g u = Ok (wet_flux g u).
Proof. destruct u as [h q]. cbn [fst]. intro. rewrite sw_flux_wet by auto. reflexivity. Qed.

Lemma fix_half_step h d : 0 <= h -> positivity_fix h d = half_step h d.
Proof.
  intro Hh. unfold positivity_fix, half_step, rsign. 
  destruct (Rltb_spec 0 d).
  - rewrite Rabs_pos_eq by lra. rewrite (Rmin_comm h). unfold Rmin, Rmax. destruct (Rle_dec _ _); destruct (Rle_dec _ _); lra.
  - destruct (Rltb_spec d 0).
    + rewrite Rabs_left by lra. rewrite (Rmin_right h) by lra. unfold Rmin, Rmax. destruct (Rle_dec _ _); destruct (Rle_dec _ _); lra.
    + replace d with 0 by lra. rewrite Rabs_R0. replace (0 / 2) with 0 by lra. rewrite (Rmin_right h), (Rmin_left 0), Rmax_right by lra. ring.
Qed.

Lemma is_constant_flat l c : is_constant l = Ok c -> (forall x y, In x l -> In y l -> x = y) -> c = true.
Proof.
  intros E H. destruct c; auto. destruct (is_constant_false l E) as [i [Hi He]]. 
  rewrite (H (nth i l 0) (nth 0 l 0)), Rminus_diag_eq, Rabs_R0 in He by (try apply nth_In; auto; lia).
  pose proof epsilon_pos. lra.
Qed.
Lemma steps_resolved b n st j : (1 <= n)%nat -> bottom_steps b n st -> (forall l, b = BArray l -> length l = n /\ resolved l) -> (j <= n)%nat ->
  nth j st 0 = bottom_step b n j.
Proof.
  intros Hn [Ls [S0 [Sn C]]] HR Hj. unfold bottom_step.
  destruct C as [[Z Cl]|[l [El [Ll [Cl V]]]]].
  - rewrite Z. destruct b as [| |l]; auto. destruct (Nat.eqb_spec j 0); auto. destruct (Nat.leb_spec n j); auto.
    destruct (HR l eq_refl) as [Ll [F|[i [Hi He]]]].
    + rewrite (F j), (F (j - 1)%nat) by lia. ring.
    + pose proof (is_constant_true l (Cl l eq_refl) i Hi). lra.
  - subst b. destruct (Nat.eqb_spec j 0); [subst; auto|]. destruct (Nat.leb_spec n j).
    + replace j with n by lia. auto.
    + destruct j as [|j]; [lia|]. rewrite V by lia. replace (S j - 1)%nat with j by lia. reflexivity.
Qed.
Lemma steps_flat b n st j : bottom_steps b n st -> flat b -> nth j st 0 = 0.
Proof.
  intros [Ls [S0 [Sn C]]] F. destruct C as [[Z _]|[l [El [Ll [Cl V]]]]]; [apply Z|].
  subst b. cbn in F. apply is_constant_flat in Cl; auto. discriminate.
Qed.

(** ** convex combinations *)
Lemma combo a b c w0 w1 w2 : 0 <= w0 -> 0 <= w1 -> 0 <= w2 -> 0 <= a -> 0 <= b -> 0 <= c -> 0 <= w0 * a + w1 * b + w2 * c.
Proof. intros. assert (0 <= w0 * a) by nra. assert (0 <= w1 * b) by nra. assert (0 <= w2 * c) by nra. lra. Qed.
Lemma min3 a b c : Rmin a (Rmin b c) <= a /\ Rmin a (Rmin b c) <= b /\ Rmin a (Rmin b c) <= c.
Proof. unfold Rmin. repeat destruct (Rle_dec _ _); lra. Qed.
Lemma max3 a b c : a <= Rmax a (Rmax b c) /\ b <= Rmax a (Rmax b c) /\ c <= Rmax a (Rmax b c).
Proof. unfold Rmax. repeat destruct (Rle_dec _ _); lra. Qed.

(** ** the velocity limiter *)
Lemma vlimit_spec f s lh vb maxl maxr minl minr : 0 < s -> 0 <= lh -> minl <= vb <= maxl -> minr <= vb <= maxr ->
  let x := vlimit_at f s lh vb maxl maxr minl minr in
  s * (lh * (minr - vb)) <= x <= s * (lh * (maxr - vb)) /\ s * (lh * (vb - maxl)) <= x <= s * (lh * (vb - minl)) /\
  (s * (lh * (minr - vb)) <= f <= s * (lh * (maxr - vb)) -> s * (lh * (vb - maxl)) <= f <= s * (lh * (vb - minl)) -> x = f).
Proof.
  intros Hs Hh Hl Hr. cbv zeta. unfold vlimit_at.
  assert (A : forall z, 0 <= z -> 0 <= s * (lh * z)) by (intros; apply Rmult_le_pos; [lra|apply Rmult_le_pos; lra]).
  pose proof (A (maxr - vb) ltac:(lra)). pose proof (A (vb - minr) ltac:(lra)). 
  pose proof (A (maxl - vb) ltac:(lra)). pose proof (A (vb - minl) ltac:(lra)).
  assert (Em : s * Rmin (lh * (maxr - vb)) (lh * (vb - minl)) = Rmin (s * (lh * (maxr - vb))) (s * (lh * (vb - minl)))).
  { symmetry. unfold Rmin. destruct (Rle_dec _ _) as [a|a], (Rle_dec _ _) as [c|c]; auto; exfalso.
    - apply c. apply (Rmult_le_reg_l s); auto.
    - apply a. apply Rmult_le_compat_l; lra. }
  assert (EM : s * Rmax (lh * (minr - vb)) (lh * (vb - maxl)) = Rmax (s * (lh * (minr - vb))) (s * (lh * (vb - maxl)))).
  { symmetry. unfold Rmax. destruct (Rle_dec _ _) as [a|a], (Rle_dec _ _) as [c|c]; auto; exfalso.
    - apply c. apply (Rmult_le_reg_l s); auto.
    - apply a. apply Rmult_le_compat_l; lra. }
  rewrite Em, EM. unfold Rmin, Rmax. split; [|split; [|intros ? ?]].
  all: repeat destruct (Rle_dec _ _); lra.
Qed.

Section G.
Context (gravity : option R).
Let g := py_or gravity default_gravity.

(* what the low order flux computes between two wet cells *)
Lemma low_wet l r d o : epsilon <= fst l -> epsilon <= fst r -> low_at gravity l r d = Ok o ->
  0 < wet_speed g l r /\ 0 <= fst (bar_state g l r) /\
  lo_s o = wet_speed g l r /\ lo_h o = fst (bar_state g l r) /\
  lo_hl o = fst (bar_state g l r) + half_step (fst (bar_state g l r)) d /\
  lo_hr o = fst (bar_state g l r) - half_step (fst (bar_state g l r)) d /\
  (d = 0 -> lo_ql o = snd (bar_state g l r) /\ lo_qr o = snd (bar_state g l r)) /\
  lo_outl o = (lo_s o * (lo_hl o - fst l) - fst (wet_flux g l), lo_s o * (lo_ql o - snd l) - snd (wet_flux g l)) /\
  lo_outr o = (lo_s o * (lo_hr o - fst r) + fst (wet_flux g r), lo_s o * (lo_qr o - snd r) + snd (wet_flux g r)).
Proof.
  intros Hl Hr E. destruct (low_at_inv gravity l r d o E) as [fl [fr [F1 [F2 [Hs ->]]]]]. fold g in F1, F2, Hs.
  pose proof (hll_height_nonneg gravity l r fl fr F1 F2 Hs) as Hh. pose proof (max_speed_nonneg g l r) as Sp.
  rewrite wet_sw_flux in F1, F2 by auto. apply Ok_inj in F1, F2. subst fl fr.
  assert (EB : hll gravity l r (wet_flux g l) (wet_flux g r) = bar_state g l r).
  { unfold hll, bar_state. fold g. rewrite (wet_max_speed g l r) by auto. reflexivity. }
  rewrite EB in Hh. unfold low_out. fold g. rewrite EB.
  cbn [lo_s lo_h lo_hl lo_hr lo_ql lo_qr lo_outl lo_outr].
  rewrite <- (wet_max_speed g l r) by auto. rewrite fix_half_step by auto.
  repeat match goal with |- _ /\ _ => split end; try reflexivity; auto; try lra.
  intros ->. assert (Z : half_step (fst (bar_state g l r)) 0 = 0) by (rewrite <- fix_half_step by auto; apply fix_0).
  rewrite Z. split; field; auto.
Qed.

(* one face of the limited flux over a flat bottom, for any state given by the face values *)
Section Face.
Context (per : bool) (n : nat) (x : nat -> state) (lo : nat -> low) (H : nat -> state) (st : list R).
Context (Hn : (1 <= n)%nat) (W : forall i, (i <= S n)%nat -> epsilon <= fst (x i)).
Context (V : forall i, (i <= n)%nat -> low_at gravity (x i) (x (S i)) (nth i st 0) = Ok (lo i)).
Context (WELL : mcl_well n lo) (FL : forall i, nth i st 0 = 0).

Let B i := bar_state g (x i) (x (S i)).
Let sp i := wet_speed g (x i) (x (S i)).
Lemma face_low i : (i <= n)%nat ->
  0 < sp i /\ 0 < fst (B i) /\ lo_s (lo i) = sp i /\ lo_h (lo i) = fst (B i) /\ lo_hl (lo i) = fst (B i) /\ lo_hr (lo i) = fst (B i) /\
  lo_ql (lo i) = snd (B i) /\ lo_qr (lo i) = snd (B i) /\ vb_ lo i = bar_velocity g (x i) (x (S i)).
Proof.
  intro Hi. destruct (low_wet _ _ _ _ (W i ltac:(lia)) (W (S i) ltac:(lia)) (V i Hi)) as [A0 [A1 [A2 [A3 [A4 [A5 [A6 _]]]]]]].
  destruct (A6 (FL i)) as [A7 A8]. destruct (WELL i Hi) as [_ [_ N]].
  rewrite FL in A4, A5. rewrite <- fix_half_step, fix_0 in A4, A5 by auto.
  fold (B i) in *. fold (sp i) in *. rewrite A3 in N.
  repeat match goal with |- _ /\ _ => split end; auto; try lra.
  unfold vb_. rewrite A4, A5, A7, A8. unfold bar_velocity. fold (B i). field. lra.
Qed.
Lemma face_v j : (j <= S n)%nat ->
  vmax_ per n lo j = Rmax (bar_velocity g (x (cl_idx per n j)) (x (S (cl_idx per n j)))) (bar_velocity g (x (cr_idx per n j)) (x (S (cr_idx per n j)))) /\
  vmin_ per n lo j = Rmin (bar_velocity g (x (cl_idx per n j)) (x (S (cl_idx per n j)))) (bar_velocity g (x (cr_idx per n j)) (x (S (cr_idx per n j)))) /\
  hmax_ per n lo j = Rmax (fst (B (cl_idx per n j))) (fst (B (cr_idx per n j))) /\
  hmin_ per n lo j = Rmin (fst (B (cl_idx per n j))) (fst (B (cr_idx per n j))).
Proof.
  intro Hj. destruct (face_low (cl_idx per n j) ltac:(apply cl_idx_le; [auto|lia])) as [P1 [P2 [P3 [P4 [P5 [P6 [P7 [P8 P9]]]]]]]].
  destruct (face_low (cr_idx per n j) ltac:(apply cr_idx_le; [auto|lia])) as [Q1 [Q2 [Q3 [Q4 [Q5 [Q6 [Q7 [Q8 Q9]]]]]]]].
  unfold vmax_, vmin_, hmax_, hmin_, wl_, wr_. rewrite P9, Q9, P8, Q7, P4, Q4, P6, Q5.
  change (snd (B (cl_idx per n j)) / fst (B (cl_idx per n j))) with (bar_velocity g (x (cl_idx per n j)) (x (S (cl_idx per n j)))).
  change (snd (B (cr_idx per n j)) / fst (B (cr_idx per n j))) with (bar_velocity g (x (cr_idx per n j)) (x (S (cr_idx per n j)))).
  set (a := bar_velocity _ _ _). set (c := bar_velocity _ _ _). unfold max4, min4.
  repeat split; auto.
  - unfold Rmax. repeat destruct (Rle_dec _ _); lra.
  - unfold Rmin. repeat destruct (Rle_dec _ _); lra.
Qed.

(* the limited states on the two sides of face i *)
Let fh := fh_ per n lo H.
Let lh i := fst (B i) + fh i / sp i.
Lemma lh_eq i : (i <= n)%nat -> lh_ per n lo H i = lh i.
Proof. intro Hi. destruct (face_low i Hi) as [_ [_ [E1 [E2 _]]]]. unfold lh_. rewrite E1, E2. reflexivity. Qed.
Lemma cl_S i : cl_idx per n (S i) = i. Proof. reflexivity. Qed.
Lemma cr_le i : (i <= n)%nat -> cr_idx per n i = i.
Proof. intro. unfold cr_idx. destruct (Nat.leb_spec i n); auto; lia. Qed.
Lemma face_bounds i : (i <= n)%nat ->
  hmin_ per n lo (S i) <= lh i <= hmax_ per n lo (S i) /\
  hmin_ per n lo i <= 2 * fst (B i) - lh i <= hmax_ per n lo i /\ 0 <= lh i /\ 0 <= 2 * fst (B i) - lh i.
Proof.
  intro Hi. destruct (face_low i Hi) as [A1 [A2 [A3 [A4 [A5 [A6 _]]]]]].
  destruct (fh_bounds per n lo H i Hi ltac:(lra)) as [F1 [F2 _]]. rewrite A3, A5 in *. rewrite A6 in F1. fold (fh i) in F1, F2.
  assert (P : forall j, (j <= S n)%nat -> 0 <= hmin_ per n lo j).
  { intros j Hj. destruct (face_v j Hj) as [_ [_ [_ ->]]]. apply Rmin_glb; left; apply face_low; [apply cl_idx_le|apply cr_idx_le]; auto; lia. }
  assert (E1 : sp i * lh i = sp i * fst (B i) + fh i) by (unfold lh; field; lra).
  assert (E2 : sp i * (2 * fst (B i) - lh i) = sp i * fst (B i) - fh i) by (unfold lh; field; lra).
  rewrite <- E1 in F1. rewrite <- E2 in F2. pose proof (P i ltac:(lia)). pose proof (P (S i) ltac:(lia)).
  assert (hmin_ per n lo (S i) <= lh i) by (apply (Rmult_le_reg_l (sp i)); lra).
  assert (lh i <= hmax_ per n lo (S i)) by (apply (Rmult_le_reg_l (sp i)); lra).
  assert (hmin_ per n lo i <= 2 * fst (B i) - lh i) by (apply (Rmult_le_reg_l (sp i)); lra).
  assert (2 * fst (B i) - lh i <= hmax_ per n lo i) by (apply (Rmult_le_reg_l (sp i)); lra).
  lra.
Qed.
Let VB i := bar_velocity g (x i) (x (S i)).
Lemma vb_in i : (i <= n)%nat -> vmin_ per n lo i <= VB i <= vmax_ per n lo i /\ vmin_ per n lo (S i) <= VB i <= vmax_ per n lo (S i).
Proof.
  intro Hi. destruct (face_v i ltac:(lia)) as [-> [-> _]]. destruct (face_v (S i) ltac:(lia)) as [-> [-> _]].
  rewrite cl_S, cr_le by lia. fold (VB i). set (a := bar_velocity _ _ _). set (c := bar_velocity _ _ _).
  repeat split; first [apply Rmin_l|apply Rmin_r|apply Rmax_l|apply Rmax_r].
Qed.
Let lf i := vlimit_at (snd (csub (H i) (lo_outr (lo i))) + corr_ per n lo H i) (sp i) (lh i) (VB i)
    (vmax_ per n lo i) (vmax_ per n lo (S i)) (vmin_ per n lo i) (vmin_ per n lo (S i)).
Lemma fq_eq i : (i <= n)%nat -> fq_ per n lo H i = lf i - sp i * (snd (B i) - lh i * VB i).
Proof.
  intro Hi. unfold fq_. rewrite lh_eq by auto. destruct (face_low i Hi) as [_ [_ [E1 [_ [_ [_ [_ [E2 E3]]]]]]]].
  rewrite E1, E3. fold (VB i). fold (lf i). unfold corr_. rewrite lh_eq by auto. rewrite E1, E2, E3. fold (VB i). ring.
Qed.
Lemma bar_q i : (i <= n)%nat -> snd (B i) = fst (B i) * VB i.
Proof. intro Hi. destruct (face_low i Hi) as [_ [P _]]. unfold VB, bar_velocity. fold (B i). field. lra. Qed.
(* right state *)
Lemma right_state i : (i <= n)%nat ->
  let q := snd (B i) + fq_ per n lo H i / sp i in
  lh i * vmin_ per n lo (S i) <= q <= lh i * vmax_ per n lo (S i).
Proof.
  intro Hi. cbv zeta. destruct (face_low i Hi) as [A1 _]. destruct (vb_in i Hi) as [V1 V2].
  destruct (face_bounds i Hi) as [_ [_ [L1 _]]].
  destruct (vlimit_spec (snd (csub (H i) (lo_outr (lo i))) + corr_ per n lo H i) (sp i) (lh i) (VB i) _ _ _ _ A1 L1 V1 V2) as [F1 _].
  fold (lf i) in F1. rewrite fq_eq by auto.
  replace (snd (B i) + (lf i - sp i * (snd (B i) - lh i * VB i)) / sp i) with (lh i * VB i + lf i / sp i) by (field; lra).
  assert (E : sp i * (lf i / sp i) = lf i) by (field; lra). rewrite <- E in F1.
  assert (lh i * (vmin_ per n lo (S i) - VB i) <= lf i / sp i) by (apply (Rmult_le_reg_l (sp i)); lra).
  assert (lf i / sp i <= lh i * (vmax_ per n lo (S i) - VB i)) by (apply (Rmult_le_reg_l (sp i)); lra).
  split; nra.
Qed.
(* left state, if no water is moved to the right in addition *)
Lemma left_state i : (i <= n)%nat -> fh i <= 0 ->
  let q := snd (B i) - fq_ per n lo H i / sp i in
  (2 * fst (B i) - lh i) * vmin_ per n lo i <= q <= (2 * fst (B i) - lh i) * vmax_ per n lo i.
Proof.
  intros Hi Hf. cbv zeta. destruct (face_low i Hi) as [A1 _]. destruct (vb_in i Hi) as [V1 V2].
  destruct (face_bounds i Hi) as [_ [_ [L1 L2]]].
  destruct (vlimit_spec (snd (csub (H i) (lo_outr (lo i))) + corr_ per n lo H i) (sp i) (lh i) (VB i) _ _ _ _ A1 L1 V1 V2) as [_ [F1 _]].
  fold (lf i) in F1. rewrite fq_eq by auto.
  replace (snd (B i) - (lf i - sp i * (snd (B i) - lh i * VB i)) / sp i) with ((2 * fst (B i) - lh i) * VB i - lf i / sp i).
  2:{ rewrite (bar_q i) by auto. field. lra. }
  assert (E : sp i * (lf i / sp i) = lf i) by (field; lra). rewrite <- E in F1.
  assert (lh i * (VB i - vmax_ per n lo i) <= lf i / sp i) by (apply (Rmult_le_reg_l (sp i)); lra).
  assert (lf i / sp i <= lh i * (VB i - vmin_ per n lo i)) by (apply (Rmult_le_reg_l (sp i)); lra).
  assert (K : lh i <= 2 * fst (B i) - lh i).
  { unfold lh. assert (fh i / sp i <= 0); [|lra]. unfold Rdiv. assert (0 < / sp i) by (apply Rinv_0_lt_compat; auto). nra. }
  assert (lh i * (vmax_ per n lo i - VB i) <= (2 * fst (B i) - lh i) * (vmax_ per n lo i - VB i)) by (apply Rmult_le_compat_r; lra).
  assert (lh i * (VB i - vmin_ per n lo i) <= (2 * fst (B i) - lh i) * (VB i - vmin_ per n lo i)) by (apply Rmult_le_compat_r; lra).
  split; nra.
Qed.
(* no limiting where the states of the high order flux meet the bounds *)
Lemma recovers i : (i <= n)%nat ->
  let dh := (fst (H i) - fst (lo_outr (lo i))) / sp i in
  let dq := (snd (H i) - snd (lo_outr (lo i))) / sp i in
  hmin_ per n lo (S i) <= fst (B i) + dh <= hmax_ per n lo (S i) ->
  hmin_ per n lo i <= fst (B i) - dh <= hmax_ per n lo i ->
  (fst (B i) + dh) * vmin_ per n lo (S i) <= snd (B i) + dq <= (fst (B i) + dh) * vmax_ per n lo (S i) ->
  (fst (B i) - dh) * vmin_ per n lo i <= snd (B i) - dq <= (fst (B i) - dh) * vmax_ per n lo i ->
  0 <= dh ->
  fh_ per n lo H i = fst (H i) - fst (lo_outr (lo i)) /\ fq_ per n lo H i = snd (H i) - snd (lo_outr (lo i)).
Proof.
  intros Hi dh dq H1 H2 H3 H4 H5. destruct (face_low i Hi) as [A1 [A2 [A3 [A4 [A5 [A6 _]]]]]].
  assert (C1 : fst (csub (H i) (lo_outr (lo i))) = sp i * dh).
  { unfold dh, csub, copp. cbn [cadd cscal RR_CellOps fst]. field. lra. }
  assert (C2 : snd (csub (H i) (lo_outr (lo i))) = sp i * dq).
  { unfold dq, csub, copp. cbn [cadd cscal RR_CellOps snd]. field. lra. }
  assert (F : fh i = sp i * dh).
  { unfold fh, fh_. rewrite C1, A3, A5, A6.
    assert (Bl : hmin_ per n lo i <= fst (B i) <= hmax_ per n lo i).
    { destruct (face_v i ltac:(lia)) as [_ [_ [-> ->]]]. rewrite cr_le by auto. split; [apply Rmin_r|apply Rmax_r]. }
    assert (Br : hmin_ per n lo (S i) <= fst (B i) <= hmax_ per n lo (S i)).
    { destruct (face_v (S i) ltac:(lia)) as [_ [_ [-> ->]]]. rewrite cl_S. split; [apply Rmin_l|apply Rmax_l]. }
    destruct (limit_at_spec (sp i * dh) (sp i) (fst (B i)) (fst (B i)) _ _ _ _ ltac:(lra) Bl Br) as [_ [_ [_ [_ L]]]]. apply L.
    - rewrite <- Rmult_plus_distr_l. split; apply Rmult_le_compat_l; lra.
    - rewrite <- Rmult_minus_distr_l. split; apply Rmult_le_compat_l; lra. }
  assert (EL : lh i = fst (B i) + dh) by (unfold lh; rewrite F; field; lra).
  split.
  - fold (fh i). rewrite F. unfold dh. field. lra.
  - destruct (vb_in i Hi) as [V1 V2]. destruct (face_bounds i Hi) as [_ [_ [L1 L2]]].
    assert (EC : corr_ per n lo H i = sp i * (snd (B i) - lh i * VB i)).
    { unfold corr_. rewrite lh_eq by auto. destruct (face_low i Hi) as [_ [_ [E1 [_ [_ [_ [_ [E2 E3]]]]]]]]. rewrite E1, E2, E3. fold (VB i). ring. }
    destruct (vlimit_spec (snd (csub (H i) (lo_outr (lo i))) + corr_ per n lo H i) (sp i) (lh i) (VB i) _ _ _ _ A1 L1 V1 V2) as [_ [_ L]].
    fold (lf i) in L. rewrite fq_eq by auto. rewrite L; rewrite C2, EC.
    + replace (sp i * dq) with (snd (H i) - snd (lo_outr (lo i))) by (unfold dq; field; lra). ring.
    + rewrite <- Rmult_plus_distr_l. rewrite EL. split; apply Rmult_le_compat_l; try lra.
    + rewrite <- Rmult_plus_distr_l. rewrite EL in L1, L2 |- *. 
      assert (dh * (vmax_ per n lo i - VB i) >= 0) by (apply Rle_ge, Rmult_le_pos; lra).
      assert (dh * (VB i - vmin_ per n lo i) >= 0) by (apply Rle_ge, Rmult_le_pos; lra).
      rewrite (bar_q i Hi) in H4 |- *.
      split; apply Rmult_le_compat_l; try lra; nra.
Qed.
End Face.
End G.
