(** C31 (subgrid fluxes), C48 (data files). *)
From Coq Require Import Reals List ZArith Arith Lia Lra Bool String.
From Verif Require Import Prelude L_Prelude M_Boundary S_Boundary L_Boundary M_Coarsener S_Coarsener L_Coarsener M_Solution L_Solution
  M_Flux S_Flux L_Flux M_ODE M_Scalar M_Generate S_Generate L_Generate.
Import ListNotations.
Open Scope R_scope.
Notation length := List.length.

(** ** C31 *)
(** Whatever sequence of update and set_value calls a solver makes, the recorded windows
    are those of the values a solution with history would have recorded: the fine cells
    around the node, and the cells around the node of the coarsened value. *)
Theorem C31_recorded_windows {W} `{CellLaws W} : forall (finite : list W -> bool) node r d rf n s0 ops,
  (0 < d)%nat -> (r <= node)%nat -> (node + r <= n)%nat -> (rf <= node * d)%nat -> (node * d + rf <= n * d)%nat ->
  length (d_value s0) = (n * d)%nat ->
  Forall (fun o => length (match o with Update _ v => v | SetValue v _ => v end) = (n * d)%nat) ops ->
  exists h0, id_new (new_window node r d rf) s0 = Ok h0 /\
  let h := fold_left (id_step finite (new_window node r d rf)) ops h0 in
  let full := h_run finite s0 ops in
  id_times h = h_times full /\
  length (id_fine h) = length (h_values full) /\ length (id_coarse h) = length (h_values full) /\
  forall k, (k < length (h_values full))%nat ->
    let u := nth k (h_values full) [] in length u = (n * d)%nat /\
    nth k (id_fine h) [] = slice u (node * d - rf) (node * d + rf) /\
    exists cu, coarsen d u = Ok cu /\ nth k (id_coarse h) [] = slice cu (node - r) (node + r).
Proof.
  intros finite node r d rf n s0 ops Hd H1 H2 H3 H4 Ls HF. set (w := new_window node r d rf).
  assert (Hw : forall v : list W, length v = (n * d)%nat -> exists c, coarse_window w v = Ok c).
  { intros v Lv. destruct (new_window_coarse node r d rf n v Hd Lv H1 H2) as [cu [_ E]]. eauto. }
  destruct (Hw _ Ls) as [c0 E0]. assert (EN : exists h0, id_new w s0 = Ok h0) by (unfold id_new; rewrite E0; cbn [bind]; eauto).
  destruct EN as [h0 EN]. exists h0. split; auto. cbv zeta.
  destruct (id_run_inv finite w (n * d) Hw s0 h0 ops Ls EN HF) as [I1 [I2 [I3 [I4 I5]]]].
  destruct (mapM_nth _ _ _ [] [] I4) as [Lc Nc].
  split; [exact I2|]. split; [rewrite I3; apply map_length|]. split; [exact Lc|].
  intros k Hk. rewrite Forall_forall in I5. assert (Lu := I5 _ (nth_In _ [] Hk)). cbv beta in Lu.
  split; auto. split.
  - rewrite I3, (nth_map' _ _ _ []) by auto. apply (new_window_fine node r d rf (n * d)); auto.
  - destruct (new_window_coarse node r d rf n _ Hd Lu H1 H2) as [cu [Ec Ew]]. exists cu. split; auto.
    specialize (Nc k Hk). fold w in Ew. rewrite Ew in Nc. apply Ok_inj in Nc. auto.
Qed.
Print Assumptions C31_recorded_windows.

(** The data returned for these windows: for each recorded time the coarse cells around
    the node and the difference of the fine flux and the coarse flux at the node. *)
Theorem C31_recorded_subgrid_fluxes {W} `{CellLaws W} : forall (finite : list W -> bool) node r d rf rc n s0 ops fine gf coarse gc h0 cv sg,
  (0 < d)%nat -> (r <= node)%nat -> (node + r <= n)%nat -> (rf <= node * d)%nat -> (node * d + rf <= n * d)%nat ->
  length (d_value s0) = (n * d)%nat ->
  Forall (fun o => length (match o with Update _ v => v | SetValue v _ => v end) = (n * d)%nat) ops ->
  nf_dim fine = (2 * rf)%nat -> nodewise fine gf -> nf_dim coarse = (2 * rc)%nat -> (rc <= r)%nat -> nodewise coarse gc ->
  id_new (new_window node r d rf) s0 = Ok h0 ->
  subgrid_data fine coarse (fold_left (id_step finite (new_window node r d rf)) ops h0) = Ok (cv, sg) ->
  let full := h_run finite s0 ops in h_values full <> [] ->
  length sg = length (h_values full) /\ length cv = (2 * r)%nat /\
  forall k, (k < length (h_values full))%nat ->
    let u := nth k (h_values full) [] in
    exists cu pf pc, coarsen d u = Ok cu /\
      gf (slice u (node * d - rf) (node * d + rf)) = Ok pf /\
      gc (slice cu (node - rc) (node + rc)) = Ok pc /\
      nth k sg czero = csub (snd pf) (snd pc) /\
      forall i, (i < 2 * r)%nat -> nth k (nth i cv []) czero = nth (node - r + i) cu czero.
Proof.
  intros finite node r d rf rc n s0 ops fine gf coarse gc h0 cv sg Hd H1 H2 H3 H4 Ls HF Df Gf Dc Hrc Gc E0 E. cbv zeta. intro Hne.
  destruct (C31_recorded_windows finite node r d rf n s0 ops Hd H1 H2 H3 H4 Ls HF) as [h0' [E0' [_ [Lf [Lc P]]]]].
  rewrite E0 in E0'. apply Ok_inj in E0'. subst h0'.
  set (h := fold_left (id_step finite (new_window node r d rf)) ops h0) in *. set (full := h_run finite s0 ops) in *.
  unfold subgrid_data in E. inv_bind E. inv_bind E. apply Ok_inj in E. injection E as <- <-. destruct a as [ffl ffr], a0 as [cfl cfr].
  assert (N : (0 < length (h_values full))%nat) by (destruct (h_values full); [congruence|cbn; lia]).
  assert (Mf : moveaxis (id_fine h) = tab (2 * rf) (fun i => map (fun row => nth i row czero) (id_fine h))).
  { unfold moveaxis. f_equal. replace (hd [] (id_fine h)) with (nth 0 (id_fine h) []) by (destruct (id_fine h); reflexivity).
    destruct (P 0%nat N) as [Lu [-> _]]. rewrite slice_length, Lu. lia. }
  assert (Mc : moveaxis (id_coarse h) = tab (2 * r) (fun i => map (fun row => nth i row czero) (id_coarse h))).
  { unfold moveaxis. f_equal. replace (hd [] (id_coarse h)) with (nth 0 (id_coarse h) []) by (destruct (id_coarse h); reflexivity).
    destruct (P 0%nat N) as [Lu [_ [cu [Ec ->]]]]. apply coarsen_ok_iff in Ec as [Lc' _]; auto. rewrite slice_length. nia. }
  destruct (Gf (moveaxis (id_fine h)) (length (h_values full)) ffl ffr) as [_ [Lfr Pf]].
  { rewrite Mf, tab_length; auto. }
  { rewrite Mf. apply Forall_forall. intros x Hx. apply in_tab in Hx as [i [_ <-]]. rewrite map_length. auto. }
  { exact E1. }
  cbn [arbitrary_input nf_call] in E2. inv_bind E2. pose proof E as E'. unfold get_required_values in E.
  rewrite Mc, tab_length, Dc in E.
  assert (X1 : Nat.leb (2 * rc) (2 * r) = true) by (apply Nat.leb_le; lia).
  assert (X2 : Nat.even (2 * r) = true) by (rewrite Nat.even_mul; reflexivity). rewrite X1, X2 in E. cbn [negb] in E. apply Ok_inj in E.
  assert (X3 : ((2 * r - 2 * rc) / 2 = r - rc)%nat) by (replace (2 * r - 2 * rc)%nat with ((r - rc) * 2)%nat by lia; apply Nat.div_mul; lia).
  rewrite X3 in E. replace (2 * r - (r - rc))%nat with (r - rc + 2 * rc)%nat in E by lia.
  destruct (Gc a (length (h_values full)) cfl cfr) as [_ [Lcr Pc]].
  { rewrite <- E, slice_length, tab_length. lia. }
  { eapply required_Forall; [exact E'|]. rewrite Mc. apply Forall_forall. intros x Hx. apply in_tab in Hx as [i [_ <-]]. rewrite map_length. auto. }
  { exact E2. }
  cbn [snd]. split; [rewrite map2_length; lia|]. split; [rewrite Mc; apply tab_length|].
  intros k Hk. destruct (P k Hk) as [Lu [Ff [cu [Ec Fc]]]]. set (u := nth k (h_values full) []) in *.
  assert (Lcu : length cu = n) by (apply coarsen_ok_iff in Ec as [Lc' _]; auto; nia).
  exists cu, (nth k ffl czero, nth k ffr czero), (nth k cfl czero, nth k cfr czero). split; auto.
  split; [|split; [|split]].
  - rewrite <- (Pf k Hk), Mf, map_tab. f_equal. rewrite <- Ff.
    rewrite (list_tab czero (nth k (id_fine h) [])) at 1. rewrite Ff at 1. rewrite slice_length, Lu.
    replace (Nat.min _ _) with (2 * rf)%nat by lia. apply tab_ext. intros i Hi.
    rewrite (nth_map' _ _ _ []) by lia. reflexivity.
  - rewrite <- (Pc k Hk), <- E. f_equal. symmetry.
    rewrite (map_nth_window _ k (r - rc) (2 * rc) (fun i => nth (node - rc + i) cu czero)).
    + symmetry. apply (list_ext czero); [rewrite slice_length, tab_length; lia|]. intros i Hi. rewrite slice_length in Hi.
      rewrite nth_slice, nth_tab by lia. reflexivity.
    + rewrite tab_length. lia.
    + intros i Hi. rewrite nth_tab by lia. rewrite (nth_map' _ _ _ []) by lia. rewrite Fc, nth_slice by lia. f_equal. lia.
  - cbn [snd]. apply nth_map2; lia.
  - intros i Hi. rewrite Mc, nth_tab by lia. rewrite (nth_map' _ _ _ []) by lia. rewrite Fc, nth_slice by lia. reflexivity.
Qed.
Print Assumptions C31_recorded_subgrid_fluxes.

(** For fluxes that take from one cell what they give to the other: adding the exact
    subgrid flux (fine flux minus coarse flux at the coarse nodes) to the coarse flux makes
    the coarse right hand side the coarsened fine right hand side, and forward Euler
    steps of any size commute with coarsening. *)
Theorem C31_exact_subgrid_fluxes {W} `{CellLaws W} :
  forall wall conds il ir bcf bcc (fine coarse : nflux W) dim predict d n dx t u cu a ffl ffr b b' cfl cfr,
  (0 < d)%nat -> length u = (n * d)%nat -> coarsen d u = Ok cu -> dx <> 0 ->
  (2 <= nf_dim fine)%nat -> (2 <= nf_dim coarse)%nat ->
  one_per_node fine -> (forall k, single_valued k fine) -> one_per_node coarse -> (forall k, single_valued k coarse) ->
  let reduced := corrected coarse (subgrid_flux dim predict) in
  get_boundary_conditions wall conds (nf_dim fine / 2) il ir = Ok bcf ->
  get_boundary_conditions wall conds (nf_dim reduced / 2) il ir = Ok bcc ->
  get_node_neighbours bcf u (nf_dim fine / 2) (Some t) = Ok a -> nf_call fine a = Ok (ffl, ffr) ->
  get_node_neighbours bcc cu (nf_dim reduced / 2) (Some t) = Ok b -> nf_call (arbitrary_input coarse) b = Ok (cfl, cfr) ->
  get_required_values dim b = Ok b' ->
  predict b' = tab (S n) (fun j => csub (nth (j * d) ffr czero) (nth j cfr czero)) ->
  exists v c, fv_rhs fine dx bcf t u = Ok v /\ fv_rhs reduced (INR d * dx) bcc t cu = Ok c /\ coarsen d v = Ok c /\
    forall dt, coarsen d (vadd u (vscal dt v)) = Ok (vadd cu (vscal dt c)).
Proof.
  intros wall conds il ir bcf bcc fine coarse dim predict d n dx t u cu a ffl ffr b b' cfl cfr Hd Lu Ecu Hdx D1 D2 O1 S1 O2 S2 reduced
    B1 B2 Ea Ef Eb Ec Er Ep.
  assert (HD : INR d <> 0) by (apply not_0_INR; lia).
  assert (Lcu : length cu = n) by (apply coarsen_ok_iff in Ecu as [Lc' _]; auto; nia).
  assert (R1 : (1 <= nf_dim fine / 2)%nat) by (apply Nat.div_le_lower_bound; lia).
  assert (R2 : (1 <= nf_dim reduced / 2)%nat) by (apply Nat.div_le_lower_bound; cbn; lia).
  destruct (fv_neighbours_shape _ _ _ _ _ _ _ _ B1 R1 _ Ea) as [_ Fa].
  destruct (fv_neighbours_shape _ _ _ _ _ _ _ _ B2 R2 _ Eb) as [_ Fb]. rewrite Lcu in Fb. rewrite Lu in Fa.
  destruct (O1 _ _ _ _ Fa Ef) as [L1 L2].
  destruct (arbitrary_good coarse) as [A1 [A2 _]].
  destruct (A1 O2 _ _ _ _ Fb Ec) as [L3 L4].
  assert (Ev : exists v, fv_rhs fine dx bcf t u = Ok v /\ cells_from_nodes dx ffl ffr = Ok v).
  { unfold fv_rhs. rewrite Ea. cbn [bind]. rewrite Ef. cbn [bind fst snd]. unfold cells_from_nodes. rewrite rdiv_ne by auto. cbn [bind]. eauto. }
  destruct Ev as [v [Ev Cv]]. destruct (cells_from_nodes_spec _ _ _ _ _ Cv L1 L2) as [_ [Lv Pv]].
  set (g := tab (S n) (fun j => csub (nth (j * d) ffr czero) (nth j cfr czero))) in *.
  assert (Lg : length g = S n) by apply tab_length.
  assert (Ew : exists c, fv_rhs reduced (INR d * dx) bcc t cu = Ok c /\ cells_from_nodes (INR d * dx) (map2 cadd cfl (vneg g)) (map2 cadd cfr g) = Ok c).
  { unfold fv_rhs. rewrite Eb. cbn [bind]. unfold reduced at 1. cbn [corrected nf_call]. change (nf_call (arbitrary_input coarse) b) with (nf_call (arbitrary_input coarse) b).
    cbn [arbitrary_input nf_call] in Ec |- *. rewrite Ec. cbn [bind fst snd nf_dim subgrid_flux nf_call]. rewrite Er. cbn [bind fst snd]. rewrite Ep.
    unfold cells_from_nodes. rewrite rdiv_ne by (intro X; apply Rmult_integral in X as [|]; contradiction). cbn [bind]. eauto. }
  destruct Ew as [c [Ew Cw]].
  assert (LL : length (map2 cadd cfl (vneg g)) = S n) by (rewrite map2_length; unfold vneg; rewrite map_length; lia).
  assert (LR : length (map2 cadd cfr g) = S n) by (rewrite map2_length; lia).
  destruct (cells_from_nodes_spec _ _ _ _ _ Cw LL LR) as [_ [Lc Pc]].
  assert (CO : coarsen d v = Ok c).
  { apply coarsen_ok_iff; auto. split; [lia|]. intros j k Hj. rewrite Lc in Hj. rewrite Pc by auto.
    assert (Lng : length (vneg g) = S n) by (unfold vneg; rewrite map_length; auto).
    rewrite (nth_map2 _ _ _ j czero czero), (nth_map2 _ _ _ (S j) czero czero) by lia.
    rewrite ccoord_scal, !ccoord_add. rewrite nth_vneg by lia.
    rewrite (A2 k (S2 k) _ _ _ _ Fb Ec (S j)) by lia. unfold g. rewrite !nth_tab by lia. rewrite !ccoord_sub.
    assert (T : forall m, (m <= d)%nat -> rsum (tab m (fun i => ccoord k (nth (j * d + i) v czero))) =
      (ccoord k (nth (j * d) ffr czero) - ccoord k (nth (j * d + m) ffr czero)) / dx).
    { induction m as [|m IH]; intro Hm.
      - rewrite Nat.add_0_r. unfold tab. cbn. field. auto.
      - rewrite rsum_tab_S, IH by lia. rewrite Pv by nia. rewrite ccoord_scal, ccoord_add.
        rewrite (S1 k _ _ _ _ Fa Ef (S (j * d + m))) by nia. replace (j * d + S m)%nat with (S (j * d + m)) by lia. field. auto. }
    rewrite T by lia. replace (S j * d)%nat with (j * d + d)%nat by lia. field. auto. }
  exists v, c. split; auto. split; auto. split; auto. intro dt.
  assert (X : forall x y : list W, length x = length y -> vadd x (vscal dt y) = map2 (fun p q => cadd (cscal 1 p) (cscal dt q)) x y).
  { intros x y Lxy. cbn. apply (list_ext czero); [rewrite !map2_length, map_length; auto|]. intros i Hi. rewrite map2_length, map_length in Hi.
    rewrite !(nth_map2 _ _ _ i czero czero) by (rewrite ?map_length; lia). rewrite (nth_map' _ _ _ czero) by lia. apply ccoord_ext. intro k.
    rewrite !ccoord_add, !ccoord_scal. ring. }
  rewrite !X by lia. apply coarsen_linear; auto. lia.
Qed.
Print Assumptions C31_exact_subgrid_fluxes.

(** At an inner node the recorded subgrid flux is the exact one. *)
Theorem C31_data_is_exact {W} `{CellLaws W} :
  forall wall conds il ir bcf bcc (fine coarse : nflux W) gf gc rf rc R d n t u cu a ffl ffr b cfl cfr node pf pc,
  (0 < d)%nat -> length u = (n * d)%nat -> coarsen d u = Ok cu ->
  nf_dim fine = (2 * rf)%nat -> (1 <= rf)%nat -> nodewise fine gf ->
  nf_dim coarse = (2 * rc)%nat -> (1 <= rc <= R)%nat -> nodewise coarse gc ->
  get_boundary_conditions wall conds rf il ir = Ok bcf -> get_boundary_conditions wall conds R il ir = Ok bcc ->
  get_node_neighbours bcf u rf (Some t) = Ok a -> nf_call fine a = Ok (ffl, ffr) ->
  get_node_neighbours bcc cu R (Some t) = Ok b -> nf_call (arbitrary_input coarse) b = Ok (cfl, cfr) ->
  (rf <= node * d)%nat -> (node * d + rf <= n * d)%nat -> (rc <= node)%nat -> (node + rc <= n)%nat ->
  gf (slice u (node * d - rf) (node * d + rf)) = Ok pf ->
  gc (slice cu (node - rc) (node + rc)) = Ok pc ->
  csub (snd pf) (snd pc) = csub (nth (node * d) ffr czero) (nth node cfr czero).
Proof.
  intros wall conds il ir bcf bcc fine coarse gf gc rf rc R d n t u cu a ffl ffr b cfl cfr node pf pc
    Hd Lu Ecu D1 H1 G1 D2 H2 G2 B1 B2 Ea Ef Eb Ec N1 N2 N3 N4 P1 P2.
  assert (Lcu : length cu = n) by (apply coarsen_ok_iff in Ecu as [Lc' _]; auto; nia).
  destruct (neighbours_at _ _ _ _ _ _ _ _ _ 0 B1 H1 Ea) as [La _].
  rewrite <- (arbitrary_exact fine a) in Ef; [|lia|rewrite D1, Nat.even_mul; reflexivity].
  pose proof (inner_node_flux _ _ _ _ _ _ fine gf u t a ffl ffr rf (node * d) B1 (ltac:(lia)) D1 G1 Ea Ef N1 (ltac:(lia))) as Q1.
  pose proof (inner_node_flux _ _ _ _ _ _ coarse gc cu t b cfl cfr rc node B2 H2 D2 G2 Eb Ec N3 (ltac:(lia))) as Q2.
  rewrite P1 in Q1. rewrite P2 in Q2. apply Ok_inj in Q1, Q2. subst. reflexivity.
Qed.
Print Assumptions C31_data_is_exact.
(* Lax-Friedrichs for the advection equation meets the conditions on the fluxes, with 4 fine
   and 2 coarse cells *)
Example C31_ex : exists gf bc a ffl ffr b cfl cfr,
  nodewise (scalar_llf Advection) gf /\ one_per_node (scalar_llf Advection) /\ (forall k, single_valued k (scalar_llf Advection)) /\
  get_boundary_conditions (W := R) None ["periodic"%string] 1 None None = Ok bc /\
  coarsen 2 [1; 2; 4; 6] = Ok [1 / INR 2 * (1 + 2); 1 / INR 2 * (4 + 6)] /\
  get_node_neighbours bc [1; 2; 4; 6] 1 (Some 0) = Ok a /\ nf_call (scalar_llf Advection) a = Ok (ffl, ffr) /\
  get_node_neighbours bc [1 / INR 2 * (1 + 2); 1 / INR 2 * (4 + 6)] 1 (Some 0) = Ok b /\
  nf_call (arbitrary_input (scalar_llf Advection)) b = Ok (cfl, cfr).
Proof.
  assert (T : forall a, exists g, nf_call (scalar_llf Advection) a = nf_call (two_point g) a) by (intro a; eexists; apply lax_friedrichs_two_point).
  assert (F : forall vl vr, length vl = length vr -> exists fl fr, nf_call (scalar_llf Advection) [vl; vr] = Ok (fl, fr)).
  { intros vl vr Lv. unfold scalar_llf, lax_friedrichs. cbn [nf_call]. unfold rs_solve_all.
    destruct (mapM_exists (fun p => rs_solve (scalar_riemann Advection) (fst p) (snd p)) (combine vl vr)) as [o Eo].
    - intros p _. unfold rs_solve, scalar_riemann. cbn [rs_flux rs_speed bind scalar_wave_speed flux_prime].
      unfold scalar_wave_speed, flux_prime. rewrite Rmax_left by lra. rewrite rdiv_ne by lra. cbn [bind]. eauto.
    - rewrite Eo. cbn [bind]. eauto. }
  destruct (F [6; 1; 2; 4; 6] [1; 2; 4; 6; 1] eq_refl) as [ffl [ffr Ef]].
  destruct (F [1 / INR 2 * (4 + 6); 1 / INR 2 * (1 + 2); 1 / INR 2 * (4 + 6)] [1 / INR 2 * (1 + 2); 1 / INR 2 * (4 + 6); 1 / INR 2 * (1 + 2)] eq_refl) as [cfl [cfr Ec]].
  eexists. eexists. eexists. exists ffl, ffr. eexists. exists cfl, cfr.
  split; [eapply (two_point_nodewise _ (scalar_llf Advection)); [reflexivity|apply (lax_friedrichs_two_point (scalar_riemann Advection))]|].
  destruct (good_ext _ _ (lax_friedrichs_two_point (scalar_riemann Advection))) as [G1 [G2 _]].
  split; [apply G1, two_point_one_per_node|]. split; [intro k; apply G2, two_point_single_valued|].
  split; [reflexivity|]. split; [reflexivity|]. split; [reflexivity|]. split; [exact Ef|]. split; [reflexivity|].
  exact Ec.
Qed.

(** ** C48 *)
Section C48.
Context {R1 R2 : Type}.
Lemma to_csv_content {Row} overwrite (f : file Row) rows i :
  to_csv (if Nat.eqb i 0 then overwrite else false) (rows i) (content overwrite f rows i) = content overwrite f rows (S i).
Proof.
  unfold to_csv. destruct i as [|i]; cbn [Nat.eqb content].
  - assert (X : List.concat (map rows (seq 0 1)) = rows 0%nat) by (cbn; apply app_nil_r). rewrite X. destruct overwrite; [reflexivity|]. destruct f; reflexivity.
  - rewrite (seq_S (S i)), map_app, concat_app, map_app. cbn [map List.concat app Nat.add]. rewrite app_nil_r, app_assoc. reflexivity.
Qed.

Lemma save_loop_spec (build : nat -> result (list R1 * list R2)) overwrite f1 f2 rows1 rows2 :
  (forall i d, build i = Ok d -> d = (rows1 i, rows2 i)) ->
  forall n i states e,
  save_loop build overwrite n i (content overwrite f1 rows1 i, content overwrite f2 rows2 i) = (states, e) ->
  (forall s, In s states -> exists k, (i <= k <= i + n)%nat /\
     (s = (content overwrite f1 rows1 k, content overwrite f2 rows2 k) \/
      (k < i + n)%nat /\ s = (content overwrite f1 rows1 (S k), content overwrite f2 rows2 k))) /\
  states <> [] /\
  match e with
  | None => last states (f1, f2) = (content overwrite f1 rows1 (i + n), content overwrite f2 rows2 (i + n))
  | Some x => exists k, (i <= k < i + n)%nat /\ build k = Err x /\ (forall j, (i <= j < k)%nat -> build j = Ok (rows1 j, rows2 j)) /\
      last states (f1, f2) = (content overwrite f1 rows1 k, content overwrite f2 rows2 k)
  end.
Proof.
  intros HB n. induction n as [|n IH]; intros i states e E; cbn [save_loop] in E.
  - injection E as <- <-. split; [|split; [discriminate|]].
    + intros s [<-|[]]. exists i. split; [lia|]. auto.
    + cbn [last]. rewrite Nat.add_0_r. reflexivity.
  - destruct (build i) as [d|x] eqn:Eb.
    + unfold save_data in E. rewrite (HB _ _ Eb) in E. cbn [fst snd] in E. rewrite !to_csv_content in E. cbn [last removelast app] in E.
      destruct (save_loop build overwrite n (S i) _) as [rest e'] eqn:Er. injection E as <- <-.
      destruct (IH _ _ _ Er) as [P1 [P2 P3]]. split; [|split; [discriminate|]].
      * intros s [<-|[<-|Hs]].
        -- exists i. split; [lia|]. auto.
        -- exists i. split; [lia|]. right. split; [lia|]. reflexivity.
        -- destruct (P1 s Hs) as [k [Hk Q]]. exists k. split; [lia|]. destruct Q as [Q|[Q1 Q]]; [auto|]. right. split; [lia|auto].
      * assert (X : forall z y, last (z :: y :: rest) (f1, f2) = last rest (f1, f2)) by (destruct rest; [congruence|reflexivity]).
        rewrite X. destruct e' as [x|].
        -- destruct P3 as [k [Hk [Q1 [Q2 Q3]]]]. exists k. split; [lia|]. split; auto. split; auto.
           intros j Hj. destruct (Nat.eq_dec j i) as [->|]; [rewrite Eb; f_equal; auto|]. apply Q2. lia.
        -- rewrite P3. replace (S i + n)%nat with (i + S n)%nat by lia. reflexivity.
    + injection E as <- <-. split; [|split; [discriminate|]].
      * intros s [<-|[]]. exists i. split; [lia|]. auto.
      * exists i. split; [lia|]. split; auto. split; [intros j Hj; lia|]. reflexivity.
Qed.
End C48.

(** When all [number] solutions can be computed the files hold one header (or what they
    held before, when appending) and the rows of all solutions in order. When computing
    one fails the files hold the rows of all solutions before it. At any moment (for
    instance when the process is killed) they hold the rows of a number of complete
    solutions, the data file possibly of one more than the benchmark file. *)
Theorem C48_generated_files {R1 R2} : forall (build : nat -> result (list R1 * list R2)) rows1 rows2 number overwrite f1 f2 states e,
  (1 <= number)%nat -> (forall i d, build i = Ok d -> d = (rows1 i, rows2 i)) ->
  generate_execute build number overwrite (f1, f2) = (states, e) ->
  match e with
  | None => (forall i, (i < number)%nat -> exists d, build i = Ok d) /\
      last states (f1, f2) = (content overwrite f1 rows1 number, content overwrite f2 rows2 number)
  | Some x => exists k, (k < number)%nat /\ build k = Err x /\ (forall j, (j < k)%nat -> build j = Ok (rows1 j, rows2 j)) /\
      last states (f1, f2) = (content overwrite f1 rows1 k, content overwrite f2 rows2 k)
  end /\
  forall s, In s states -> exists k, (k <= number)%nat /\
     (s = (content overwrite f1 rows1 k, content overwrite f2 rows2 k) \/
      (k < number)%nat /\ s = (content overwrite f1 rows1 (S k), content overwrite f2 rows2 k)).
Proof.
  intros build rows1 rows2 number overwrite f1 f2 states e Hn HB E.
  assert (EL : save_loop build overwrite number 0 (f1, f2) = (states, e)).
  { unfold generate_execute in E. destruct (Nat.eqb_spec number 1) as [->|]; [|exact E].
    cbn [save_loop Nat.eqb]. destruct (build 0%nat) as [d|x]; [|exact E]. unfold save_data in *. cbn [last removelast app]. exact E. }
  change (f1, f2) with (content overwrite f1 rows1 0, content overwrite f2 rows2 0) in EL at 1.
  destruct (save_loop_spec build overwrite f1 f2 rows1 rows2 HB _ _ _ _ EL) as [P1 [P2 P3]]. split.
  - destruct e as [x|].
    + destruct P3 as [k [Hk [Q1 [Q2 Q3]]]]. exists k. split; [lia|]. split; auto. split; auto. intros j Hj. apply Q2. lia.
    + split; auto. clear - EL. revert EL. generalize (content overwrite f1 rows1 0, content overwrite f2 rows2 0).
      assert (G : forall n i fs st, save_loop build overwrite n i fs = (st, None) -> forall j, (i <= j < i + n)%nat -> exists d, build j = Ok d).
      { induction n as [|n IH]; intros i fs st E j Hj; [lia|]. cbn [save_loop] in E. destruct (build i) as [d|x] eqn:Eb; [|discriminate].
        destruct (save_loop build overwrite n (S i) _) as [rest e'] eqn:Er. injection E as _ ->.
        destruct (Nat.eq_dec j i) as [->|]; [eauto|]. apply (IH _ _ _ Er). lia. }
      intros fs EL i Hi. apply (G _ _ _ _ EL). lia.
  - intros s Hs. destruct (P1 s Hs) as [k [Hk Q]]. exists k. split; [lia|]. exact Q.
Qed.
Print Assumptions C48_generated_files.
(** so: exactly one header, in the first line, when overwriting *)
Theorem C48_one_header {Row} : forall (f : file Row) rows k, (1 <= k)%nat ->
  exists l, content true f rows k = Some (Header :: map Line l) /\ l = List.concat (map rows (seq 0 k)).
Proof. intros f rows k Hk. destruct k; [lia|]. cbn [content]. eexists. split; reflexivity. Qed.
(** Finding: appending ([overwrite = false]) to a file that does not exist writes no header at all. *)
Theorem C48_appending_to_missing_file_writes_no_header {Row} : forall rows k, (1 <= k)%nat ->
  content (Row := Row) false None rows k = Some (map Line (List.concat (map rows (seq 0 k)))).
Proof. intros rows k Hk. destruct k; [lia|]. reflexivity. Qed.
Print Assumptions C48_appending_to_missing_file_writes_no_header.
Example C48_ex : exists states, generate_execute (fun i => if Nat.eqb i 2 then Err ValueError else Ok ([i; i], [i])) 3 true (None, Some [Header; Line 7%nat])
  = (states, Some ValueError) /\ In (Some [Header; Line 0; Line 0]%nat, Some [Header; Line 7%nat]) states /\
  last states (None, None) = (Some [Header; Line 0; Line 0; Line 1; Line 1], Some [Header; Line 0; Line 1])%nat.
Proof. eexists. split; [reflexivity|]. split; [right; left; reflexivity|reflexivity]. Qed.

(** The parameters of the data builder: positive values are taken as given, accepted exactly when the window of the radius around the node does not
    start before the first node; None and 0 mean the default radius, or the node at distance radius. *)
Theorem C31_window_parameters : forall r n dr, (0 < r)%nat -> (0 < n)%nat -> (0 < dr)%nat ->
  ((r <= n)%nat -> builder_parameters (Some r) (Some n) dr = Ok (r, n)) /\
  ((n < r)%nat -> builder_parameters (Some r) (Some n) dr = Err AssertionError) /\
  (forall none, none = None \/ none = Some 0%nat -> builder_parameters (Some r) none dr = Ok (r, r) /\ builder_parameters none none dr = Ok (dr, dr) /\
     ((dr <= n)%nat -> builder_parameters none (Some n) dr = Ok (dr, n))).
Proof.
  intros [|r] [|n] [|dr] H1 H2 H3; try lia. unfold builder_parameters. cbn [or_default]. split; [|split].
  - intro H. destruct (Nat.leb_spec (S r) (S n)); [reflexivity|lia].
  - intro H. destruct (Nat.leb_spec (S r) (S n)); [lia|reflexivity].
  - intros none [-> | ->]; cbn [or_default]; rewrite !Nat.leb_refl; split; auto; split; auto; intro H; destruct (Nat.leb_spec (S dr) (S n)); auto; lia.
Qed.
Print Assumptions C31_window_parameters.
