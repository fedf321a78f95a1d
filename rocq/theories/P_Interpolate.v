(** C42: interpolation in time and space, cell averages. C54: relative error over time. *)
From Coq Require Import Reals List Lia Lra Arith Bool.
From Coquelicot Require Import Coquelicot.
From Verif Require Import Prelude L_Prelude M_Mesh L_Mesh M_Quadrature S_Poly L_Poly S_Quadrature L_Flux L_Quadrature P_Quadrature M_Boundary L_Boundary M_Norm S_Norm L_Norm M_Interpolate S_Interpolate L_Interpolate.
Import ListNotations.
Open Scope R_scope.

(** Interpolating in time: every entry is the piecewise linear interpolant of its own history at the new time, held constant
    before the first and after the last time; and each new row is one convex combination of two consecutive old rows, with the
    same weights for all its entries (so bounds, admissible convex sets and total mass are kept). *)
Theorem C42_temporal : forall old values new k,
  increasing old -> (0 < length old)%nat -> length values = length old -> rectangular k values ->
  exists out, temporal_interpolator old values new = Ok out /\ length out = length new /\ rectangular k out /\
  (forall i j, (i < length new)%nat -> (j < k)%nat ->
     piecewise_linear old (map (fun row => nth j row 0) values) (nth i new 0) (entry out i j)) /\
  (forall i, (i < length new)%nat -> exists r t, 0 <= t <= 1 /\ (r < length old)%nat /\ (S r = length old -> t = 0) /\
     forall j, (j < k)%nat -> entry out i j = (1 - t) * entry values r j + t * entry values (S r) j).
Proof.
  intros old values new k Inc Hn Lv Rect. destruct values as [|row0 rest] eqn:Ev; [cbn in Lv; lia|]. rewrite <- Ev in *. clear rest Ev.
  assert (F : firstn (length old) values = values) by (rewrite <- Lv; apply firstn_all).
  unfold temporal_interpolator. destruct values as [|row1 rest] eqn:Ev; [cbn in Lv; lia|]. rewrite <- Ev in *. assert (L1 : length row1 = k) by (apply Rect; rewrite Ev; left; auto). rewrite L1.
  destruct (columns_spec k old values new ltac:(lia)) as [cols [-> [Lc [O1 [O2 O3]]]]]. cbn [bind]. eexists. split; [reflexivity|]. split; [exact O1|]. split; [exact O2|]. rewrite F in O3. split.
  - intros i j Hi Hj. rewrite O3 by auto. apply interp1_spec; auto. rewrite column_length. auto.
  - intros i Hi. destruct (interp1_weights old (nth i new 0) Inc Hn) as [r [t [T1 [T2 [T3 T4]]]]]. exists r, t. split; [auto|]. split; [auto|]. split; [auto|].
    intros j Hj. rewrite O3 by auto. rewrite T4 by (rewrite column_length; auto). rewrite nth_column by lia.
    destruct (Nat.eq_dec (S r) (length old)) as [e|e]; [rewrite (T3 e); ring|]. rewrite nth_column by lia. reflexivity.
Qed.
Print Assumptions C42_temporal.

Lemma entry_ext k a b : rectangular k a -> rectangular k b -> length a = length b -> (forall i j, (i < length a)%nat -> (j < k)%nat -> entry a i j = entry b i j) -> a = b.
Proof.
  intros Ra Rb L H. apply (list_ext []); [auto|]. intros i Hi. apply (list_ext 0).
  - rewrite (Ra (nth i a [])), (Rb (nth i b [])) by (apply nth_In; lia). reflexivity.
  - intros j Hj. rewrite (Ra (nth i a [])) in Hj by (apply nth_In; lia). apply H; auto.
Qed.
Lemma temporal_same old values k : increasing old -> (0 < length old)%nat -> length values = length old -> rectangular k values ->
  temporal_interpolator old values old = Ok values.
Proof.
  intros Inc Hn Lv Rect. destruct (C42_temporal old values old k Inc Hn Lv Rect) as [out [E [L [R [P _]]]]]. rewrite E. f_equal.
  apply (entry_ext k); [auto|auto|lia|]. intros i j Hi Hj. rewrite L in Hi. destruct (P i j Hi Hj) as [P1 [P2 P3]].
  assert (N : forall i, (i < length old)%nat -> nth i (map (fun row => nth j row 0) values) 0 = entry values i j) by (intros; apply nth_column; lia).
  destruct (Nat.eq_dec (S i) (length old)) as [e|e].
  - rewrite P2; replace (length old - 1)%nat with i by lia; [apply N; auto|lra].
  - assert (nth i old 0 < nth (S i) old 0) by (apply Inc; lia). specialize (P3 i ltac:(lia) ltac:(lra)). rewrite N in P3 by auto. nra.
Qed.
(** Between consecutive times the result is exact for histories that are linear in time, the old times reproduce the data, and
    errors: no rows is an IndexError, no times or fewer rows than times a ValueError. *)
Theorem C42_temporal_nodes_and_errors : forall old values new k,
  (increasing old -> (0 < length old)%nat -> length values = length old -> rectangular k values -> temporal_interpolator old values old = Ok values) /\
  temporal_interpolator old [] new = Err IndexError /\
  ((0 < k)%nat -> (0 < length values)%nat -> rectangular k values -> (old = [] \/ (length values < length old)%nat) -> temporal_interpolator old values new = Err ValueError).
Proof.
  intros old values new k. split; [apply temporal_same|]. split; [reflexivity|]. intros Hk Lv R H. destruct values as [|row0 rest] eqn:E; [cbn in Lv; lia|]. rewrite <- E in *.
  unfold temporal_interpolator. rewrite E. rewrite <- E. rewrite (R row0) by (rewrite E; left; auto).
  rewrite (mapM_err _ _ ValueError); [reflexivity| |].
  - intros j e _. unfold np_interp. destruct (length old =? 0)%nat; [intro X; injection X; auto|]. destruct (negb _); [intro X; injection X; auto|discriminate].
  - exists 0%nat. split; [apply in_seq; lia|]. unfold np_interp. destruct (length old =? 0)%nat eqn:E0; [reflexivity|]. apply Nat.eqb_neq in E0.
    destruct H as [->|H]; [cbn in E0; lia|]. rewrite column_length, firstn_length, Nat.min_r by lia. destruct (length old =? length values)%nat eqn:E1; [apply Nat.eqb_eq in E1; lia|reflexivity].
Qed.
Print Assumptions C42_temporal_nodes_and_errors.

(** Interpolating on another grid: at every time and for every component the piecewise linear interpolant, hence between the values of the neighbouring grid points. *)
Theorem C42_spatial : forall k old values new,
  increasing old -> (0 < length old)%nat -> (forall v, In v values -> length v = length old /\ rectangular k v) ->
  exists out, spatial_interpolator k old values new = Ok out /\ length out = length values /\
  forall n, (n < length values)%nat -> length (nth n out []) = length new /\ rectangular k (nth n out []) /\
  forall i j, (i < length new)%nat -> (j < k)%nat ->
    piecewise_linear old (map (fun row => nth j row 0) (nth n values [])) (nth i new 0) (entry (nth n out []) i j) /\
    exists a b, In a (nth n values []) /\ In b (nth n values []) /\ nth j a 0 <= entry (nth n out []) i j <= nth j b 0.
Proof.
  intros k old values new Inc Hn HV. unfold spatial_interpolator.
  set (F := fun v => bind (mapM _ (seq 0 k)) _).
  assert (HF : forall v, length v = length old -> exists o, F v = Ok o /\ length o = length new /\ rectangular k o /\
    forall i j, (i < length new)%nat -> (j < k)%nat -> entry o i j = interp1 old (column j v) (nth i new 0)).
  { intros v Lv. unfold F. destruct (columns_spec k old v new ltac:(lia)) as [cols [-> [_ [O1 [O2 O3]]]]]. cbn [bind]. eexists. split; [reflexivity|]. split; [exact O1|]. split; [exact O2|].
    replace (firstn (length old) v) with v in O3 by (rewrite <- Lv; symmetry; apply firstn_all). exact O3. }
  destruct (mapM_exists F values) as [out Ho]; [intros v Hv; destruct (HF v (proj1 (HV v Hv))) as [o [E _]]; eauto|].
  rewrite Ho. exists out. split; [auto|]. apply mapM_nth with (da := []) (db := []) in Ho. destruct Ho as [Lo Ho]. split; [auto|].
  intros n Hnn. specialize (Ho n Hnn). destruct (HV (nth n values []) (nth_In _ _ Hnn)) as [Lv Rv].
  destruct (HF _ Lv) as [o [E [O1 [O2 O3]]]]. rewrite E in Ho. apply Ok_inj in Ho. rewrite <- Ho.
  split; [auto|]. split; [auto|]. intros i j Hi Hj. rewrite O3 by auto. split; [apply interp1_spec; auto; rewrite column_length; auto|].
  destruct (interp1_weights old (nth i new 0) Inc Hn) as [r [t [T1 [T2 [T3 T4]]]]]. rewrite T4 by (rewrite column_length; auto). rewrite nth_column by lia.
  assert (I0 : In (nth r (nth n values []) []) (nth n values [])) by (apply nth_In; lia).
  destruct (Nat.eq_dec (S r) (length old)) as [e|e].
  - rewrite (T3 e). exists (nth r (nth n values []) []), (nth r (nth n values []) []). split; [auto|]. split; [auto|]. unfold entry. lra.
  - rewrite nth_column by lia. assert (I1 : In (nth (S r) (nth n values []) []) (nth n values [])) by (apply nth_In; lia). unfold entry.
    destruct (Rle_dec (nth j (nth r (nth n values []) []) 0) (nth j (nth (S r) (nth n values []) []) 0)).
    + eexists. eexists. split; [exact I0|]. split; [exact I1|]. split; nra.
    + eexists. eexists. split; [exact I1|]. split; [exact I0|]. split; nra.
Qed.
Print Assumptions C42_spatial.

Example C42_ex : increasing [0; 1; 3] /\ rectangular 2 [[1; 2]; [3; 4]; [5; 0]] /\ interp1 [0; 1; 3] [2; 4; 0] 2 = 2.
Proof.
  split; [|split].
  - intros [|[|[|i]]] [|[|[|j]]] H; cbn in *; try lia; lra.
  - intros row [<-|[<-|[<-|[]]]]; reflexivity.
  - cbn. destruct (Rltb_spec 2 0); [lra|]. destruct (Rltb_spec 2 1); [lra|]. destruct (Rltb_spec 2 3); [field|lra].
Qed.

(** ** cell averages *)
(** The cell averages of f: one per cell; they lie between the bounds of f on the cell (non-negative heights stay non-negative);
    for polynomials of degree below 2 * degree they are the exact averages, and dx * sum is the integral over the domain. *)
Theorem C42_cell_averages : forall eig degree D n m f, (0 < degree)%nat -> eigen_decomposition degree (gw_matrix degree) (eig degree (gw_matrix degree)) ->
  (0 < n)%nat -> ia D < ib D -> new_mesh D n = Ok m ->
  let dx := (ib D - ia D) / INR n in
  exists avg, cell_averages eig degree m f = Ok avg /\ length avg = n /\
  (forall c cell lo hi, nth_error (m_cells m) c = Some cell -> (forall x, ia cell < x < ib cell -> lo <= f x <= hi) -> lo <= nth c avg 0 <= hi) /\
  (deg_lt (2 * degree) f ->
     (forall c cell, nth_error (m_cells m) c = Some cell -> is_RInt f (ia cell) (ib cell) (dx * nth c avg 0)) /\
     is_RInt f (ia D) (ib D) (dx * rsum avg)).
Proof.
  intros eig degree D n m f Hd HE Hn HD Em dx. destruct (mesh_cells D n m Hn HD Em) as [M1 [M2 M3]]. fold dx in M3.
  assert (C : forall cell, In cell (m_cells m) -> exists a, cell_average eig degree f cell = Ok a /\
    (forall lo hi, (forall x, ia cell < x < ib cell -> lo <= f x <= hi) -> lo <= a <= hi) /\ (deg_lt (2 * degree) f -> is_RInt f (ia cell) (ib cell) (dx * a))).
  { intros cell Hc. destruct (M3 cell Hc) as [L P]. unfold ilength in P.
    destruct (C43_gauss_exact eig degree cell Hd ltac:(lra) HE) as [Q [E [Q1 [Q2 [Q3 [_ [Q4 [Q5 [Q6 Q7]]]]]]]]]. unfold cell_average. rewrite E. cbn [bind]. eexists. split; [reflexivity|].
    unfold ilength in L. unfold ilength. rewrite L in *. split.
    - intros lo hi B. unfold q_degree in Q2.
      assert (G : lo * rsum (q_weights Q) <= integrate Q f <= hi * rsum (q_weights Q)).
      { unfold integrate. assert (LL : length (q_weights Q) = length (q_nodes Q)) by lia. clear - B LL Q4 Q5. revert LL Q4 Q5. generalize (q_weights Q), (q_nodes Q).
        induction l as [|w l IH]; intros [|x l0] LL Q4 Q5; try discriminate; unfold rsum in *; cbn [map map2 fold_right]; [lra|].
        assert (Bx := B x (Q4 x (or_introl eq_refl))). assert (W := Q5 w (or_introl eq_refl)).
        specialize (IH l0 ltac:(cbn in LL; lia) (fun y Hy => Q4 y (or_intror Hy)) (fun y Hy => Q5 y (or_intror Hy))). nra. }
      rewrite Q6 in G. split; [apply (Rmult_le_reg_r dx); [lra|]|apply (Rmult_le_reg_r dx); [lra|]]; unfold Rdiv; rewrite Rmult_assoc, Rinv_l by lra; lra.
    - intro Df. replace (dx * (integrate Q f / dx)) with (integrate Q f) by (field; lra). apply Q7; exact Df. }
  unfold cell_averages. destruct (mapM_exists (cell_average eig degree f) (m_cells m)) as [avg Ha]; [intros c Hc; destruct (C c Hc) as [a [E _]]; eauto|].
  rewrite Ha. exists avg. split; [auto|]. pose proof (proj1 (mapM_nth _ _ _ dcell 0 Ha)) as La. unfold m_len in M1. split; [lia|].
  assert (N : forall c cell, nth_error (m_cells m) c = Some cell -> cell_average eig degree f cell = Ok (nth c avg 0)).
  { intros c cell Hc. apply mapM_ok in Ha. destruct (proj2 Ha c cell Hc) as [b [B1 B2]]. rewrite B2. f_equal. symmetry. apply nth_error_nth; auto. }
  split.
  - intros c cell lo hi Hc B. destruct (C cell (nth_error_In _ _ Hc)) as [a [E [Bd _]]]. rewrite (N c cell Hc) in E. apply Ok_inj in E. rewrite E. apply Bd. exact B.
  - intro Df. assert (EX : forall c cell, nth_error (m_cells m) c = Some cell -> is_RInt f (ia cell) (ib cell) (dx * nth c avg 0)).
    { intros c cell Hc. destruct (C cell (nth_error_In _ _ Hc)) as [a [E [_ X]]]. rewrite (N c cell Hc) in E. apply Ok_inj in E. rewrite E. apply X. exact Df. }
    split; [exact EX|].
    assert (K : forall k, (k <= n)%nat -> is_RInt f (ia D) (ia D + INR k * dx) (dx * rsum (tab k (fun c => nth c avg 0)))).
    { induction k as [|k IH]; intro Hk.
      - cbn. replace (ia D + 0 * dx) with (ia D) by ring. rewrite Rmult_0_r. apply (@is_RInt_point R_NormedModule).
      - rewrite rsum_tab_S. rewrite Rmult_plus_distr_l. eapply (@is_RInt_Chasles R_NormedModule); [apply IH; lia|].
        specialize (EX k (unif_cell D n k)). unfold unif_cell in EX. cbn [ia ib] in EX. fold dx in EX. apply EX.
        rewrite M2, nth_error_tab. destruct (k <? n)%nat eqn:Ek; [reflexivity|]. apply Nat.ltb_ge in Ek. lia. }
    specialize (K n (le_n n)). replace (ia D + INR n * dx) with (ib D) in K by (unfold dx; field; apply not_0_INR; lia).
    replace (tab n (fun c => nth c avg 0)) with avg in K; [exact K|]. rewrite <- M1, <- La. apply list_tab.
Qed.
Print Assumptions C42_cell_averages.

(** A function with k components is interpolated component by component: entry (c, j) is entry c of the scalar interpolation of component j. *)
Theorem C42_components : forall eig degree D n m k f, (0 < degree)%nat -> eigen_decomposition degree (gw_matrix degree) (eig degree (gw_matrix degree)) ->
  (0 < n)%nat -> ia D < ib D -> new_mesh D n = Ok m -> (0 < k)%nat ->
  exists out, interpolate_components (cell_averages eig degree m) k f = Ok out /\ length out = n /\ rectangular k out /\
  forall j, (j < k)%nat -> cell_averages eig degree m (fun x => nth j (f x) 0) = Ok (map (fun row => nth j row 0) out).
Proof.
  intros eig degree D n m k f Hd HE Hn HD Em Hk.
  assert (A : forall g, exists a, cell_averages eig degree m g = Ok a /\ length a = n) by (intro g; destruct (C42_cell_averages eig degree D n m g Hd HE Hn HD Em) as [a [E [L _]]]; eauto).
  unfold interpolate_components. destruct (mapM_exists (fun i => cell_averages eig degree m (fun x => nth i (f x) 0)) (seq 0 k)) as [cols Hc].
  { intros i _. destruct (A (fun x => nth i (f x) 0)) as [a [E _]]; eauto. }
  rewrite Hc. cbn [bind]. apply mapM_nth with (da := 0%nat) (db := []) in Hc. rewrite seq_length in Hc. destruct Hc as [Lc Hc].
  assert (B : forall j, (j < k)%nat -> cell_averages eig degree m (fun x => nth j (f x) 0) = Ok (nth j cols []) /\ length (nth j cols []) = n).
  { intros j Hj. specialize (Hc j Hj). rewrite seq_nth in Hc by auto. change (cell_averages eig degree m (fun x => nth j (f x) 0) = Ok (nth j cols [])) in Hc. destruct (A (fun x => nth j (f x) 0)) as [a [E L]]. rewrite E in Hc |- *. apply Ok_inj in Hc. subst a. auto. }
  eexists. split; [reflexivity|]. rewrite tab_length. rewrite (proj2 (B 0%nat Hk)). split; [auto|]. split.
  - intros row Hr. apply in_tab in Hr. destruct Hr as [i [_ <-]]. rewrite map_length. auto.
  - intros j Hj. destruct (B j Hj) as [-> L]. f_equal. rewrite map_tab. rewrite (list_tab 0 (nth j cols [])), L. apply tab_ext. intros i Hi.
    rewrite (nth_map' (fun col => nth i col 0) cols j []) by lia. reflexivity.
Qed.
Print Assumptions C42_components.
Example C42_averages_ex : exists eig D n m, eigen_decomposition 1 (gw_matrix 1) (eig 1%nat (gw_matrix 1)) /\ (0 < n)%nat /\ ia D < ib D /\ new_mesh D n = Ok m /\ deg_lt 2 (fun x => 3 * x + 1).
Proof.
  exists (fun _ _ => (fun _ => 0, fun _ _ => 1)), {| ia := -1; ib := 1 |}, 4%nat. eexists. split.
  { unfold eigen_decomposition. split; [|split]; intros [|i] [|j] H1 H2; try lia; unfold delta, gw_matrix; cbn; ring. }
  split; [lia|]. split; [cbn; lra|]. split; [apply new_mesh_ok; [lia|cbn; lra]|].
  exists [1; 3]. split; [cbn; lia|]. intro x. cbn. ring.
Qed.

(** ** C54 *)
Definition well_formed (h : history) : Prop :=
  increasing (h_time h) /\ (0 < length (h_time h))%nat /\ length (h_values h) = length (h_time h) /\ rectangular (h_shape h) (h_values h).

(** The evolution is given at the times of the longer history; entry i is the relative error |u_i - e_i| / |e_i|, where the solution with
    the longer history is taken as it is and the other one is interpolated linearly in time. *)
Theorem C54_relative_error : forall element norm N u e, (forall f, norm f = Ok (N f)) -> well_formed u -> well_formed e ->
  h_shape u = h_shape e -> (h_space u = true \/ h_space e = true) ->
  let swap := (length (h_time e) <? length (h_time u))%nat in
  let fine := if swap then u else e in let coarse := if swap then e else u in
  exists errors interpolated, error_evolution element norm u e = Ok (h_time fine, errors) /\ length errors = length (h_time fine) /\
  length interpolated = length (h_time fine) /\ rectangular (h_shape u) interpolated /\
  (forall i j, (i < length (h_time fine))%nat -> (j < h_shape u)%nat ->
     piecewise_linear (h_time coarse) (map (fun row => nth j row 0) (h_values coarse)) (nth i (h_time fine) 0) (entry interpolated i j)) /\
  forall i, (i < length (h_time fine))%nat ->
    let ui := nth i (if swap then h_values u else interpolated) [] in
    let ei := nth i (if swap then interpolated else h_values e) [] in
    N (element ei) <> 0 -> nth_error errors i = Some (Some (N (fun c x => element ui c x - element ei c x) / N (element ei))).
Proof.
  intros element norm N u e HN [U1 [U2 [U3 U4]]] [E1 [E2 [E3 E4]]] Hs Hsp swap fine coarse.
  assert (Core : forall time values exact, length values = length time -> length exact = length time ->
    exists errors, bind (mapM (fun p => norm (fun c x => element (fst p) c x - element (snd p) c x)) (combine values exact)) (fun num =>
      bind (mapM (fun v => norm (element v)) exact) (fun den => Ok (time : list R, map2 np_div num den))) = Ok (time, errors) /\ length errors = length time /\
    forall i, (i < length time)%nat -> N (element (nth i exact [])) <> 0 ->
      nth_error errors i = Some (Some (N (fun c x => element (nth i values []) c x - element (nth i exact []) c x) / N (element (nth i exact []))))).
  { intros time values exact L1 L2.
    destruct (mapM_exists (fun p => norm (fun c x => element (fst p) c x - element (snd p) c x)) (combine values exact)) as [num Hnum]; [intros; rewrite HN; eauto|].
    destruct (mapM_exists (fun v => norm (element v)) exact) as [den Hden]; [intros; rewrite HN; eauto|].
    rewrite Hnum, Hden. cbn [bind]. eexists. split; [reflexivity|].
    apply mapM_nth with (da := ([], [])) (db := 0) in Hnum. apply mapM_nth with (da := []) (db := 0) in Hden. rewrite combine_length in Hnum. destruct Hnum as [K1 K2]. destruct Hden as [K3 K4].
    split; [rewrite map2_length; lia|]. intros i Hi Nz. rewrite nth_error_nth' with (d := None) by (rewrite map2_length; lia). f_equal.
    rewrite (nth_map2 np_div num den i 0 0) by lia. specialize (K2 i ltac:(lia)). specialize (K4 i ltac:(lia)). rewrite HN in K2, K4. apply Ok_inj in K2. apply Ok_inj in K4.
    rewrite <- K2, <- K4. rewrite combine_nth by lia. cbn [fst snd]. unfold np_div. destruct (Reqb_spec (N (element (nth i exact []))) 0); [contradiction|reflexivity]. }
  unfold error_evolution. rewrite Hs, Nat.eqb_refl. cbn [negb]. replace (h_space u || h_space e)%bool with true by (destruct Hsp as [-> | ->]; [reflexivity|destruct (h_space u); reflexivity]). cbn [negb].
  unfold adjust_time. fold swap. unfold fine, coarse. destruct swap.
  - destruct (C42_temporal (h_time e) (h_values e) (h_time u) _ E1 E2 E3 E4) as [out [Eo [Lo [Ro [P _]]]]]. rewrite Eo. cbn [bind].
    destruct (Core (h_time u) (h_values u) out U3 Lo) as [errors [Er [Le Ve]]]. exists errors, out. split; [exact Er|]. split; [auto|]. split; [auto|]. split; [first [exact Ro|rewrite Hs; exact Ro|rewrite <- Hs; exact Ro]|]. split; [intros i j Hi Hj; apply P; lia|]. intros i Hi. apply Ve; auto.
  - destruct (C42_temporal (h_time u) (h_values u) (h_time e) _ U1 U2 U3 U4) as [out [Eo [Lo [Ro [P _]]]]]. rewrite Eo. cbn [bind].
    destruct (Core (h_time e) out (h_values e) Lo E3) as [errors [Er [Le Ve]]]. exists errors, out. split; [exact Er|]. split; [auto|]. split; [auto|]. split; [first [exact Ro|rewrite Hs; exact Ro|rewrite <- Hs; exact Ro]|]. split; [intros i j Hi Hj; apply P; lia|]. intros i Hi. apply Ve; auto.
Qed.
Print Assumptions C54_relative_error.

(** A solution compared with itself has no error at any time; different shapes are an AssertionError and a missing space a ValueError, before anything is computed. *)
Theorem C54_self_and_errors : forall element norm N u e, (forall f, norm f = Ok (N f)) -> (forall f g, (forall i x, f i x = g i x) -> N f = N g) -> is_seminorm N ->
  (well_formed u -> h_space u = true -> exists errors, error_evolution element norm u u = Ok (h_time u, errors) /\
     forall i, (i < length (h_time u))%nat -> N (element (nth i (h_values u) [])) <> 0 -> nth_error errors i = Some (Some 0)) /\
  (h_shape u <> h_shape e -> error_evolution element norm u e = Err AssertionError) /\
  (h_shape u = h_shape e -> h_space u = false -> h_space e = false -> error_evolution element norm u e = Err ValueError).
Proof.
  intros element norm N u e HN Hext Semi. split; [|split].
  - intros Wf Sp. destruct (C54_relative_error element norm N u u HN Wf Wf eq_refl (or_introl Sp)) as [errors [interp [E [L [Li [Ri [P V]]]]]]].
    rewrite Nat.ltb_irrefl in *. exists errors. split; [exact E|]. intros i Hi Nz. specialize (V i Hi). cbv zeta in V. rewrite V by auto. do 2 f_equal.
    destruct Wf as [W1 [W2 [W3 W4]]].
    assert (X : nth i interp [] = nth i (h_values u) []).
    { 
      assert (Q : forall j, (j < h_shape u)%nat -> entry interp i j = entry (h_values u) i j).
      { intros j Hj. destruct (P i j Hi Hj) as [_ [P2 P3]].
        assert (Nn : forall i, (i < length (h_time u))%nat -> nth i (map (fun row => nth j row 0) (h_values u)) 0 = entry (h_values u) i j) by (intros; apply nth_column; lia).
        destruct (Nat.eq_dec (S i) (length (h_time u))) as [d|d].
        - rewrite P2; replace (length (h_time u) - 1)%nat with i by lia; [apply Nn; auto|lra].
        - assert (nth i (h_time u) 0 < nth (S i) (h_time u) 0) by (apply W1; lia). specialize (P3 i ltac:(lia) ltac:(lra)). rewrite Nn in P3 by auto. nra. }
      apply (list_ext 0); [rewrite (Ri (nth i interp [])), (W4 (nth i (h_values u) [])) by (apply nth_In; lia); reflexivity|].
      intros j Hj. rewrite (Ri (nth i interp [])) in Hj by (apply nth_In; lia). apply Q; auto. }
    rewrite X. rewrite (Hext _ (fun _ _ => 0)) by (intros; ring). rewrite (proj2 (proj2 (proj2 Semi))). unfold Rdiv. ring.
  - intro H. unfold error_evolution. destruct (Nat.eqb_spec (h_shape u) (h_shape e)); [contradiction|reflexivity].
  - intros E H1 H2. unfold error_evolution. rewrite E, Nat.eqb_refl, H1, H2. reflexivity.
Qed.
Print Assumptions C54_self_and_errors.
Example C54_ex : well_formed {| h_time := [0; 1; 3]; h_values := [[1; 2]; [3; 4]; [5; 0]]; h_shape := 2; h_space := true |}.
Proof. split; [apply C42_ex|]. split; [cbn; lia|]. split; [reflexivity|apply C42_ex]. Qed.
