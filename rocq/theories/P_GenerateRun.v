(** C95: generate-data from the seed to the files. *)
From Coq Require Import Reals String List ZArith Arith Lia Lra Bool.
From Verif Require Import Prelude L_Prelude M_Mesh L_Mesh M_Quadrature S_Quadrature M_Interpolate M_Boundary S_Boundary L_Boundary M_Flux S_Flux L_Flux
  M_ODE S_ODE L_ODE M_TimeStepping L_TimeStepping M_Coarsener S_Coarsener L_Coarsener M_Solution L_Solution M_Solver S_Solver L_Solver M_Generate S_Generate L_Generate
  M_Scalar L_Scalar M_ShallowWater S_ShallowWater L_ShallowWater L_SWRuns L_SWLow L_SWWater L_SWLake L_SWTotal S_Symmetry L_SWNodes L_SWMirror
  M_FVSolver S_FVSolver L_SWWide L_SWSized L_FVSolver P_Solver P_Quadrature P_Gauss P_Interpolate P_ShallowWater P_FVWater P_FVReduced P_FVReinit S_FVCoarse P_FVCoarse P_Generate
  M_Benchmark M_Series M_CommandLine M_GenerateRun S_GenerateRun L_GenerateRun.
Import ListNotations.
Local Open Scope nat_scope.
Open Scope R_scope.
Local Open Scope list_scope.
Notation length := List.length.
Notation z2 := (0, 0) (only parsing).

Lemma waves_gravity o : bm_gravity (waves o) = M_CommandLine.default_gravity. Proof. reflexivity. Qed.
Lemma waves_domain o : ia (bm_domain (waves o)) < ib (bm_domain (waves o)). Proof. cbn. unfold osc_length. lra. Qed.
Lemma gravity_positive : 0 < M_CommandLine.default_gravity. Proof. unfold M_CommandLine.default_gravity. lra. Qed.
Lemma waves_flat o x : bm_bottom (waves o) x = 0. Proof. reflexivity. Qed.

Section E.
Context (eig : nat -> (nat -> nat -> R) -> (nat -> R) * (nat -> nat -> R)) (HE : eig2_works eig).

Definition ready (G : node_law) (gd : generator) (n : nat) : Prop :=
  flatwise (gd_fine gd) G /\ flatwise (gd_coarse gd) G /\ (0 < gd_degree gd)%nat /\ (1 <= gd_radius gd <= gd_node gd)%nat /\
  (gd_node gd + gd_radius gd <= n)%nat.

Lemma recorded_as_updates gd n v0 vs times h (N := (n * gd_degree gd)%nat) :
  let win := new_window (gd_node gd) (gd_radius gd) (gd_degree gd) (Nat.div (nf_dim (gd_fine gd)) 2) in
  (0 < gd_degree gd)%nat -> (gd_radius gd <= gd_node gd)%nat -> (gd_node gd + gd_radius gd <= n)%nat ->
  Forall (fun v : list state => length v = N) (v0 :: vs) -> recorded gd times (v0 :: vs) = Ok h ->
  exists h0, id_new win {| d_time := 0; d_value := v0 |} = Ok h0 /\
  let h' := fold_left (id_step (fun _ => true) win) (map (Update 0) vs) h0 in id_fine h' = id_fine h /\ id_coarse h' = id_coarse h.
Proof.
  intros win Hd H1 H2 F E. unfold recorded in E. fold win in E. inv_bind E. apply Ok_inj in E. subst h. cbn [id_fine id_coarse].
  assert (Hw : forall v : list state, length v = N -> exists c, coarse_window win v = Ok c).
  { intros v Lv. destruct (new_window_coarse (gd_node gd) (gd_radius gd) (gd_degree gd) (Nat.div (nf_dim (gd_fine gd)) 2) n v Hd Lv H1 H2) as [cu [_ X]]. eauto. }
  rewrite Forall_forall in F. destruct (Hw v0 (F v0 (or_introl eq_refl))) as [c0 Ec].
  assert (EN : id_new win {| d_time := 0; d_value := v0 |} = Ok {| id_sol := {| d_time := 0; d_value := v0 |}; id_times := [0]; id_coarse := [c0]; id_fine := [fine_window win v0] |}).
  { unfold id_new. cbn [d_value d_time]. rewrite Ec. reflexivity. }
  eexists. split; [exact EN|]. cbv zeta.
  destruct (id_run_inv (fun _ => true) win N Hw {| d_time := 0; d_value := v0 |} _ (map (Update 0) vs) (F v0 (or_introl eq_refl)) EN) as [_ [_ [I3 [I4 _]]]].
  { apply Forall_forall. intros o Ho. apply in_map_iff in Ho as [v [<- Hv]]. apply F. right. exact Hv. }
  rewrite history_of_updates in I3, I4. cbn [d_value] in I3, I4. split; [exact I3|]. congruence.
Qed.

Lemma rows_exact g G gd n o times values rows : simple_getter g -> wet_law G ->
  (forall b m nf k, ia (bm_domain b) < ib (bm_domain b) -> (1 <= m_len m)%nat -> bm_gravity b = M_CommandLine.default_gravity -> (forall x, bm_bottom b x = k) ->
    get_flux eig g b m BNone = Ok nf -> flatwise nf G) ->
  ready G gd n -> Forall (fun v : list state => length v = (n * gd_degree gd)%nat) values -> length times = length values ->
  data_rows gd times values = Ok rows -> length rows = length times /\
  forall j, (j < length times)%nat -> row_for eig g (waves o) (gd_degree gd) (gd_radius gd) (gd_node gd) (nth j times 0) (nth j values []) (nth j rows (0, [])).
Proof.
  intros Hg WL HG [Ff [Fc [Hd [Hr Hn]]]] Fv Lt E. unfold data_rows in E. inv_bind E. rename a into h. inv_bind E. destruct a as [cv sg]. apply Ok_inj in E. subst rows.
  rewrite tab_length. split; [reflexivity|]. destruct values as [|v0 vs]; [intros j Hj; cbn [length] in Lt; lia|].
  set (rf := Nat.div (nf_dim (gd_fine gd)) 2). assert (Rf : rf = 1%nat) by (unfold rf; rewrite (proj1 Ff); reflexivity).
  destruct (recorded_as_updates gd n v0 vs times h Hd (proj2 Hr) Hn Fv E0) as [h0 [N1 [N2 N3]]]. fold rf in N1, N2, N3.
  set (win := new_window (gd_node gd) (gd_radius gd) (gd_degree gd) rf) in *.
  assert (E2 : subgrid_data (gd_fine gd) (gd_coarse gd) (fold_left (id_step (fun _ => true) win) (map (Update 0) vs) h0) = Ok (cv, sg)).
  { unfold subgrid_data in *. rewrite N2, N3. exact E1. }
  assert (Fv' := Fv). rewrite Forall_forall in Fv.
  destruct (C31_recorded_subgrid_fluxes (fun _ => true) (gd_node gd) (gd_radius gd) (gd_degree gd) rf 1 n {| d_time := 0; d_value := v0 |} (map (Update 0) vs)
    (gd_fine gd) (pair_law G) (gd_coarse gd) (pair_law G) h0 cv sg) as [S1 [S2 S3]]; auto; try (rewrite ?Rf; nia); try lia.
  - apply (Fv v0). left. reflexivity.
  - apply Forall_forall. intros x Hx. apply in_map_iff in Hx as [v [<- Hv]]. apply Fv. right. exact Hv.
  - rewrite Rf. apply Ff.
  - apply flatwise_nodewise. exact Ff.
  - apply Fc.
  - apply flatwise_nodewise. exact Fc.
  - rewrite history_of_updates. discriminate.
  - rewrite history_of_updates in S1, S3. cbn [d_value] in S1, S3. intros j Hj. rewrite nth_tab by exact Hj. split; [reflexivity|]. cbn [snd].
    destruct (S3 j ltac:(lia)) as [cu [pf [pc [T1 [T2 [T3 [T4 T5]]]]]]]. set (u := nth j (v0 :: vs) []) in *.
    exists cu, (map (fun v => nth j v czero) cv), (nth j sg czero). split; [exact T1|]. split; [reflexivity|]. split; [rewrite map_length; exact S2|].
    assert (Lu : length u = (n * gd_degree gd)%nat) by (apply Fv; unfold u; apply nth_In; lia).
    assert (Lcu : length cu = n) by (apply coarsen_ok_iff in T1 as [Lc' _]; auto; nia).
    split. { intros i Hi. rewrite (nth_map' _ _ _ []) by lia. apply T5. exact Hi. }
    intros ff cf Q1 Q2. rewrite T4. unfold node_fluxes in Q1, Q2.
    inv_bind Q1. inv_bind Q1. inv_bind Q1. inv_bind Q1. inv_bind Q1. destruct a3 as [p1 p2]. apply Ok_inj in Q1. cbn [snd] in Q1. subst p2.
    inv_bind Q2. inv_bind Q2. inv_bind Q2. inv_bind Q2. inv_bind Q2. destruct a7 as [q1 q2]. apply Ok_inj in Q2. cbn [snd] in Q2. subst q2.
    destruct (new_mesh_length _ _ _ E) as [M1 _]. destruct (new_mesh_length _ _ _ E7) as [M2 _].
    assert (A1 : flatwise a0 G) by (apply (HG (waves o) a a0 0 (waves_domain o) ltac:(nia) (waves_gravity o) (waves_flat o)); exact E3).
    assert (A2 : flatwise a4 G) by (apply (HG (waves o) a3 a4 0 (waves_domain o) ltac:(nia) (waves_gravity o) (waves_flat o)); exact E8).
    pose proof (proj1 A1) as D1. pose proof (proj1 A2) as D2. rewrite D1 in E4, E5. rewrite D2 in E9, E10. change (2 / 2)%nat with 1%nat in *.
    unfold boundary in E4, E9.
    destruct (fv_neighbours_shape _ _ _ _ _ _ cu (nth j times 0) E9 (le_n 1) _ E10) as [La _].
    apply (C31_data_is_exact (W := state) (H := RR_CellOps) (Some reflect) (bm_conditions (waves o)) (Some (bm_inflow_left (waves o))) (Some (bm_inflow_right (waves o))) a1 a5 a0 a4 (pair_law G) (pair_law G) 1 1 1
      (gd_degree gd) n (nth j times 0) u cu a2 p1 ff a6 q1 cf (gd_node gd) pf pc); auto; try nia.
    + apply flatwise_nodewise. exact A1.
    + apply flatwise_nodewise. exact A2.
    + rewrite (arbitrary_exact a4 a6); [exact E11|rewrite La, D2; reflexivity|rewrite D2; reflexivity].
    + rewrite Rf in T2. exact T2.
Qed.

(** ** rows of wet solutions exist *)
Lemma coarsened_wet d (v cu : list state) : (0 < d)%nat -> coarsen d v = Ok cu -> (forall x, In x v -> 0 < fst x) -> forall x, In x cu -> 0 < fst x.
Proof.
  intros Hd E H x Hx. apply coarsen_ok_iff in E as [L A]; [|exact Hd]. apply (In_nth _ _ (czero : state)) in Hx as [i [Hi <-]].
  specialize (A i true Hi). cbn [ccoord RR_CellOps] in A. rewrite A. apply Rdiv_lt_0_compat; [|apply lt_0_INR; lia].
  assert (Q : forall j, (j < d)%nat -> 0 < fst (nth (i * d + j) v (czero : state))) by (intros j Hj; apply H, nth_In; nia).
  destruct d as [|d']; [lia|]. rewrite rsum_tab_S. specialize (Q d' ltac:(lia)) as Q1.
  assert (0 <= rsum (tab d' (fun j => fst (nth (i * S d' + j) v (czero : state))))) by (apply rsum_tab_nonneg; intros j Hj; left; apply Q; lia). lra.
Qed.
Lemma mapM_ok_all {A B} (f : A -> result B) (Q : B -> Prop) l : (forall x, In x l -> exists y, f x = Ok y /\ Q y) -> exists ys, mapM f l = Ok ys /\ length ys = length l /\ forall y, In y ys -> Q y.
Proof.
  induction l as [|a l IH]; intro H; [exists []; cbn; split; [reflexivity|split; [reflexivity|intros y []]]|]. destruct (H a (or_introl eq_refl)) as [y [Ey Qy]].
  destruct IH as [ys [E [L F]]]; [intros; apply H; right; auto|]. exists (y :: ys). cbn. rewrite Ey. cbn. rewrite E. cbn. split; [reflexivity|]. split; [congruence|].
  intros z [<-|Hz]; auto.
Qed.
Lemma moveaxis_wet k rows : rows <> [] -> (forall r : list state, In r rows -> length r = k /\ forall x, In x r -> 0 < fst x) ->
  length (moveaxis rows) = k /\ Forall (fun v => length v = length rows) (moveaxis rows) /\ forall v x, In v (moveaxis rows) -> In x v -> 0 < fst x.
Proof.
  intros Hne H. unfold moveaxis. assert (Lh : length (hd [] rows) = k) by (destruct rows as [|r rs]; [congruence|apply H; left; reflexivity]). rewrite Lh, tab_length.
  split; [reflexivity|]. split.
  - apply Forall_forall. intros v Hv. apply in_tab in Hv as [i [_ <-]]. apply map_length.
  - intros v x Hv Hx. apply in_tab in Hv as [i [Hi <-]]. apply in_map_iff in Hx as [r [<- Hr]]. destruct (H r Hr) as [L W]. apply W, nth_In. lia.
Qed.
Lemma rows_exist G gd n times values : wet_law G -> ready G gd n -> Forall (fun v : list state => length v = (n * gd_degree gd)%nat) values -> values <> [] ->
  (forall v x, In v values -> In x v -> 0 < fst x) -> exists rows, data_rows gd times values = Ok rows.
Proof.
  intros WL [Ff [Fc [Hd [Hr Hn]]]] Fv Hne HW. unfold data_rows, recorded.
  set (rf := Nat.div (nf_dim (gd_fine gd)) 2). assert (Rf : rf = 1%nat) by (unfold rf; rewrite (proj1 Ff); reflexivity). rewrite Rf.
  set (win := new_window (gd_node gd) (gd_radius gd) (gd_degree gd) 1). rewrite Forall_forall in Fv.
  assert (SL : forall (l : list state) i j, (i <= j <= length l)%nat -> (forall x, In x l -> 0 < fst x) -> length (slice l i j) = (j - i)%nat /\ forall x, In x (slice l i j) -> 0 < fst x).
  { intros l i j Hij W. assert (Ls : length (slice l i j) = (j - i)%nat) by (rewrite slice_length; lia). split; [exact Ls|]. intros x Hx.
    apply (In_nth _ _ z2) in Hx as [k [Hk <-]]. rewrite nth_slice by lia. apply W, nth_In. lia. }
  destruct (mapM_ok_all (coarse_window win) (fun c => length c = (2 * gd_radius gd)%nat /\ forall x, In x c -> 0 < fst x) values) as [cs [Ec [Lc Pc]]].
  { intros v Hv. destruct (new_window_coarse (gd_node gd) (gd_radius gd) (gd_degree gd) 1 n v Hd (Fv v Hv) (proj2 Hr) Hn) as [cu [C1 C2]].
    exists (slice cu (gd_node gd - gd_radius gd) (gd_node gd + gd_radius gd)). split; [exact C2|].
    assert (Lcu : length cu = n) by (pose proof (Fv v Hv); apply coarsen_ok_iff in C1 as [Lc' _]; auto; nia).
    destruct (SL cu (gd_node gd - gd_radius gd)%nat (gd_node gd + gd_radius gd)%nat) as [X1 X2]; [lia|apply (coarsened_wet _ v cu Hd C1); intros x Hx; eapply HW; eauto|].
    split; [lia|exact X2]. }
  rewrite Ec. cbn [bind]. unfold subgrid_data. cbn [id_fine id_coarse].
  destruct (moveaxis_wet 2 (map (fine_window win) values)) as [A1 [A2 A3]].
  { destruct values; [congruence|discriminate]. }
  { intros r Hin. apply in_map_iff in Hin as [v [<- Hv]]. unfold win. rewrite (new_window_fine (gd_node gd) (gd_radius gd) (gd_degree gd) 1 (n * gd_degree gd) v (Fv v Hv)) by nia.
    destruct (SL v (gd_node gd * gd_degree gd - 1)%nat (gd_node gd * gd_degree gd + 1)%nat) as [X1 X2]; [rewrite (Fv v Hv); nia|intros x Hx; eapply HW; eauto|].
    split; [rewrite X1; nia|exact X2]. }
  destruct (moveaxis_wet (2 * gd_radius gd) cs) as [B1 [B2 B3]]; [destruct cs, values; cbn in Lc; congruence|exact Pc|].
  destruct (flatwise_ok (gd_fine gd) G _ _ Ff WL A1 A2 A3) as [f1 [f2 [E1 _]]]. rewrite E1. cbn [bind].
  cbn [arbitrary_input nf_call]. rewrite (proj1 Fc), (required_two _ (gd_radius gd) B1 (proj1 Hr)). cbn [bind].
  destruct (flatwise_ok (gd_coarse gd) G [nth (gd_radius gd - 1) (moveaxis cs) []; nth (gd_radius gd) (moveaxis cs) []] (length cs) Fc WL) as [c1 [c2 [E2 _]]].
  - reflexivity.
  - rewrite Forall_forall in B2 |- *. intros v [<-|[<-|[]]]; apply B2, nth_In; lia.
  - intros v x [<-|[<-|[]]] Hx; eapply B3; [|exact Hx| |exact Hx]; apply nth_In; lia.
  - rewrite E2. cbn [bind]. eauto.
Qed.

(** ** what the command starts with *)
Context (finite : list state -> bool) {G0 : Type} (default_rng : Z -> G0) (uniform : R -> R -> G0 -> R * G0) (integers : Z -> Z -> G0 -> Z * G0).
Notation new_generate := (new_generate eig default_rng uniform integers).
Notation next := (next_benchmark default_rng uniform integers no_args).
Notation benchmarks := (random_benchmarks default_rng uniform integers no_args).
Fixpoint rng_after (j : nat) (g : G0) : G0 := match j with O => g | S j' => rng_after j' (snd (next g)) end.

Lemma rng_after_S j g : rng_after (S j) g = snd (next (rng_after j g)).
Proof. revert g; induction j as [|j IH]; intro g; [reflexivity|]. cbn [rng_after] in *. rewrite IH. reflexivity. Qed.
Lemma nth_benchmark seed n j : (j < n)%nat -> nth_error (benchmarks seed n) j = Some (fst (next (rng_after j (default_rng seed)))).
Proof.
  unfold random_benchmarks. generalize (default_rng seed) as g. revert j; induction n as [|n IH]; intros j g Hj; [lia|]. cbn [benchmarks_from].
  destruct j as [|j]; cbn [rng_after].
  - destruct (next g) as [b g']. reflexivity.
  - destruct (next g) as [b g'] eqn:E. cbn [nth_error snd]. apply IH. lia.
Qed.

Lemma new_generate_inv g a seed degree radius node gd st : simple_getter g -> new_generate g a seed degree radius node = Ok (gd, st) ->
  exists n G, wet_law G /\
  (forall b m nf k, ia (bm_domain b) < ib (bm_domain b) -> (1 <= m_len m)%nat -> bm_gravity b = M_CommandLine.default_gravity -> (forall x, bm_bottom b x = k) ->
    get_flux eig g b m BNone = Ok nf -> flatwise nf G) /\
  sw_solver eig g plain_waves (with_history a) = Ok (gd_config gd, fst st) /\ gd_cells gd = length (o_sol (solution_of (fst st))) /\
  gd_cells gd = or_default (a_mesh_size a) default_mesh_size /\ gd_cells gd = (n * gd_degree gd)%nat /\
  gd_degree gd = or_default degree default_coarsening /\ builder_parameters radius node default_radius = Ok (gd_radius gd, gd_node gd) /\
  snd st = rng_after 2 (default_rng (seed_or seed)) /\ flatwise (gd_fine gd) G /\ flatwise (gd_coarse gd) G /\ (0 < gd_degree gd)%nat /\ (1 <= gd_radius gd <= gd_node gd)%nat.
Proof.
  intros Hg E. unfold M_GenerateRun.new_generate in E. inv_bind E. destruct a0 as [c w]. inv_bind E. rename a0 into fine. inv_bind E. rename a0 into coarse.
  destruct (simple_law g M_CommandLine.default_gravity Hg gravity_positive) as [G [WL HG]].
  destruct (next (default_rng (seed_or seed))) as [b1 r1] eqn:N1. inv_bind E. rename a0 into ff.
  destruct (next r1) as [b2 r2] eqn:N2. inv_bind E. rename a0 into cf. inv_bind E. destruct a0 as [r nd]. inv_bind E. apply Ok_inj in E. injection E as <- <-.
  cbn [gd_config gd_cells gd_degree gd_radius gd_node gd_fine gd_coarse fst snd].
  destruct (sw_solver_inv eig g _ _ c w E0) as [m [u [nf [bc [S1 [S2 [S3 [S4 S5]]]]]]]].
  destruct (fv_solution_inv eig _ _ m u S1) as [Fm [Fu [Lm [Lu Pn]]]]. cbn [a_mesh_size with_history] in *.
  assert (Su : w_mem w (w_sol w) = u). { rewrite S5. unfold new_solver. cbn [w_mem w_sol]. rewrite store_other by lia. reflexivity. }
  destruct (new_mesh_length _ _ _ E1) as [M1 _]. rewrite Su, Lu in M1.
  set (d := or_default degree default_coarsening) in *.
  assert (Hd : (0 < d)%nat) by (unfold d, or_default, default_coarsening; destruct degree as [[|]|]; lia).
  assert (Hm : (m_len fine mod d = 0)%nat /\ new_mesh (m_domain fine) (m_len fine / d) = Ok coarse).
  { unfold m_coarsen in E2. destruct d; [lia|]. destruct (Nat.eqb_spec (m_len fine mod S d) 0); [auto|discriminate]. }
  destruct Hm as [Hm Ecm]. destruct (new_mesh_length _ _ _ Ecm) as [M2 _].
  assert (Hq : m_len fine = (m_len fine / d * d)%nat) by (rewrite (Nat.div_mod (m_len fine) d) at 1 by lia; lia).
  exists (m_len fine / d)%nat, G. split; [exact WL|]. split; [intros b m0 nf0 k; apply HG; exact HE|]. split; [exact E0|]. split; [reflexivity|]. split; [rewrite Su; exact Lu|].
  split; [rewrite Su, Lu, <- M1; exact Hq|]. split; [reflexivity|]. split; [exact E5|].
  split. { cbn [rng_after]. rewrite N1. cbn [snd]. rewrite N2. reflexivity. }
  split. { apply (HG eig (waves (snd b1)) fine ff 0 HE (waves_domain _) ltac:(lia) (waves_gravity _) (waves_flat _) E3). }
  split. { apply (HG eig (waves (snd b2)) coarse cf 0 HE (waves_domain _) ltac:(nia) (waves_gravity _) (waves_flat _) E4). }
  split; [exact Hd|]. unfold builder_parameters in E5.
  assert (Hr0 : (1 <= or_default radius default_radius)%nat) by (unfold or_default, default_radius; destruct radius as [[|]|]; lia).
  destruct (Nat.leb_spec (or_default radius default_radius) (or_default node (or_default radius default_radius))); [|discriminate].
  apply Ok_inj in E5. injection E5 as <- <-. lia.
Qed.

Notation build := (build_data eig finite default_rng uniform integers).
Notation before := (state_before eig finite default_rng uniform integers).
Lemma build_state k gd st : exists us, use_run finite (gd_config gd) us (fst st, []) = (fst (snd (build k gd st)), []) /\ (forall v t, In (Reinit v t) us -> 0 <= t) /\
  snd (snd (build k gd st)) = snd (next (snd st)).
Proof.
  unfold build_data. destruct (next (snd st)) as [b rng]. destruct (sw_reinitialize eig finite (gd_config gd) (gd_cells gd) (waves (snd b)) (fst st)) as [w1 r] eqn:E.
  unfold sw_reinitialize in E. destruct (fv_solution eig (waves (snd b)) (Some (gd_cells gd))) as [[m v]|e].
  - assert (T0 : forall us, us = [Reinit v 0] \/ us = [Reinit v 0; Solve k] -> forall v' t', In (Reinit v' t') us -> 0 <= t').
    { intros us [->| ->] v' t' H; repeat destruct H as [H|H]; try discriminate; try (injection H as _ <-; lra); destruct H. }
    change (bm_start (waves (snd b))) with 0 in E. destruct r as [e|].
    + exists [Reinit v 0]. cbn [fst snd]. unfold use_run. cbn [fold_left use_step fst]. rewrite E. split; [reflexivity|]. split; [apply T0; auto|reflexivity].
    + exists [Reinit v 0; Solve k]. unfold use_run. cbn [fold_left use_step]. rewrite E. cbn [fst].
      destruct (solve finite (gd_config gd) k w1) as [[w2 sn] out] eqn:Es. split; [|split; [apply T0; auto|]]; destruct out; reflexivity.
  - injection E as <- <-. exists []. cbn. split; [reflexivity|]. split; [intros ? ? []|reflexivity].
Qed.
Lemma before_state k gd st i : exists us, use_run finite (gd_config gd) us (fst st, []) = (fst (before k gd st i), []) /\ (forall v t, In (Reinit v t) us -> 0 <= t) /\
  snd (before k gd st i) = rng_after i (snd st).
Proof.
  induction i as [|i IH]; cbn [state_before].
  - exists []. cbn. split; [reflexivity|]. split; [intros ? ? []|reflexivity].
  - destruct IH as [us [I1 [I2 I3]]]. destruct (build_state k gd (before k gd st i)) as [us' [J1 [J2 J3]]].
    rewrite I3 in J3. exists (us ++ us'). split; [|split].
    + unfold use_run in *. rewrite fold_left_app, I1. exact J1.
    + intros v t H. apply in_app_iff in H as [H|H]; eauto.
    + rewrite J3, rng_after_S. reflexivity.
Qed.

(** values recorded by a new solver: one for each time, all of the length of the initial value *)
Lemma recorded_shape g o a c w k w2 sn out : simple_getter g -> known_method a -> sw_solver eig g (waves o) (with_history a) = Ok (c, w) -> solve finite c k w = (w2, sn, out) ->
  Forall (fun v : list state => length v = or_default (a_mesh_size a) default_mesh_size) (w_values w2) /\ length (w_times w2) = length (w_values w2) /\ w_values w2 <> [].
Proof.
  intros Hg HK E Es. destruct (sw_solver_inv eig g _ _ c w E) as [m [u [nf [bc [E1 [E2 [E3 [E4 E5]]]]]]]].
  destruct (fv_solution_inv eig _ _ m u E1) as [Fm [Fu [Lm [Lu Pn]]]]. cbn [a_mesh_size with_history] in *. set (n := or_default (a_mesh_size a) default_mesh_size) in *.
  assert (HT : In (c_tab c) [euler; heun; ssp3; rk8]).
  { rewrite E4. cbn [c_tab sw_config a_ode with_history]. unfold known_method in HK. destruct (a_ode a) as [T|]; [apply HK; reflexivity|right; left; reflexivity]. }
  assert (EV : even_inputs g) by (destruct Hg as [<-|[<-|[<-|[<-|[<-|[]]]]]]; exact I).
  assert (HP : forall dt o o', length (o_sol o) = n -> rk_execute_e (c_rhs c) (c_tab c) dt o = Ok o' -> length (o_sol o') = n).
  { intros dt o1 o2 Lo Eo. eapply step_length; [|exact HT|exact Lo|exact Eo]. intros t x y Lx Ey. rewrite E4 in Ey. cbn [c_rhs sw_config] in Ey.
    unfold boundary in E3. rewrite <- Lx. eapply sized_rhs; [eapply get_flux_sized; eauto|exact E3|lia|exact Ey]. }
  assert (Hh : c_history c = true) by (rewrite E4; reflexivity).
  pose proof (solve_keeps finite (fun v : list state => length v = n) c k w HP) as K.
  pose proof (solve_preserves finite (fun w => length (w_times w) = length (w_values w) /\ w_values w <> []) c) as K'.
  rewrite Es in K. cbn [fst] in K. split; [apply K; rewrite E5; apply new_keeps; [lia|exact Lu]|].
  specialize (K' ltac:(intros dt w1 w3 r _ [L1 L2] U; destruct (update_frame _ _ _ _ _ _ U) as [_ [_ [_ [_ [F5 F6]]]]]; destruct r as [e|];
     [destruct F6 as [_ [-> ->]]; [discriminate|auto]|destruct F5 as [_ [-> ->]]; [reflexivity|rewrite Hh, !app_length; cbn; split; [lia|destruct (w_values w1); discriminate]]]) k w).
  rewrite Es in K'. cbn [fst] in K'. apply K'. rewrite E5. unfold new_solver. cbn [w_times w_values]. rewrite Hh. split; [reflexivity|discriminate].
Qed.
End E.

(** Every solution of generate-data, from its seed to its rows. Number [i] (counted from 0) is the one of benchmark number [i + 2] of the sequence of random benchmarks
    of the seed; whatever the command did before, the rows are those of a solver that is newly created for this benchmark, which ends at time 40 whatever end time
    is asked for: one row for every time this solver records, made from the solution at that time; the second file gets the parameters of this benchmark. A
    run that raises leaves no rows and hands the exception on. Rows can be made whenever no recorded height vanishes. *)
Theorem C95_rows_of_generate_data : forall eig finite G0 (default_rng : Z -> G0) uniform integers k g a seed degree radius node gd st i s o c' w' w2 sn out,
  eig2_works eig -> In g [GLow; GCentral; GLLF; GES; GES1] -> known_method a ->
  new_generate eig default_rng uniform integers g a seed degree radius node = Ok (gd, st) ->
  let d := or_default degree 8 in let r := or_default radius 2 in let nd := or_default node r in let N := or_default (a_mesh_size a) default_mesh_size in
  (nd + r <= N / d)%nat ->
  nth_error (random_benchmarks default_rng uniform integers no_args (seed_meant seed) (i + 3)) (i + 2) = Some (s, o) ->
  sw_solver eig g (waves o) (with_history a) = Ok (c', w') -> finite (o_sol (solution_of w')) = true -> solve finite c' k w' = (w2, sn, out) ->
  let data := nth_data eig finite default_rng uniform integers k gd st i in
  match out with
  | RaisedExn e => data = Err e
  | Interrupted => data = Err SystemExit
  | _ =>
      (forall rows bench, data = Ok (rows, bench) -> bench = [(s, o)] /\ length rows = length (w_times w2) /\
       forall j, (j < length (w_times w2))%nat -> row_for eig g (waves o) d r nd (nth j (w_times w2) 0) (nth j (w_values w2) []) (nth j rows (0, []))) /\
      ((forall u x, In u (w_values w2) -> In x u -> 0 < fst x) -> exists rows, data = Ok (rows, [(s, o)]))
  end.
Proof.
  intros eig finite G0 default_rng uniform integers k g a seed degree radius node gd st i s o c' w' w2 sn out HE Hg HK EN d r nd N Hin Hb Es HF Er data. change (seed_meant seed) with (seed_or seed) in Hb.
  destruct (new_generate_inv eig HE default_rng uniform integers g a seed degree radius node gd st Hg EN) as [n [G [WL [HG [S1 [S2 [S3 [S4 [S5 [S6 [S7 [Ff [Fc [Hd Hr]]]]]]]]]]]]]].
  fold N in S3. change (or_default degree default_coarsening) with d in S5.
  assert (Er0 : gd_radius gd = r /\ gd_node gd = nd).
  { unfold builder_parameters in S6. fold r in S6. change (or_default radius default_radius) with r in S6. fold nd in S6.
    destruct (Nat.leb r nd); [|discriminate]. apply Ok_inj in S6. injection S6 as <- <-. auto. }
  destruct Er0 as [Er1 Er2].
  assert (RD : ready G gd n).
  { unfold ready. repeat (split; [assumption|]). assert ((N / d)%nat = n) by (rewrite <- S3, S4, S5; apply Nat.div_mul; lia). lia. }
  destruct (before_state eig finite default_rng uniform integers k gd st i) as [us [U1 [U2 U3]]].
  rewrite S7 in U3. assert (NB := nth_benchmark default_rng uniform integers (seed_or seed) (i + 3) (i + 2) ltac:(lia)). rewrite Hb in NB. injection NB as NB.
  assert (RA : rng_after default_rng uniform integers i (rng_after default_rng uniform integers 2 (default_rng (seed_or seed))) = rng_after default_rng uniform integers (i + 2) (default_rng (seed_or seed))).
  { clear. generalize (default_rng (seed_or seed)) as g0. intro g0. rewrite Nat.add_comm. reflexivity. }
  rewrite RA in U3. clear RA.
  assert (SB : same_but_initial plain_waves (waves o)) by (unfold same_but_initial; repeat split).
  destruct (C68_reinitialized_is_a_new_solver eig finite g plain_waves (waves o) (with_history a) (gd_config gd) (fst st) c' w' us S1 Es SB HF U2) as [w1 [R1 [R2 R3]]].
  rewrite U1, <- S2 in R1. cbn [fst] in R1. specialize (R3 k). cbv zeta in R3. rewrite Er in R3. cbn [fst snd] in R3.
  destruct (solve finite (gd_config gd) k w1) as [[w3 sn3] out3] eqn:Es3. cbn [fst snd] in R3. destruct R3 as [Q1 [_ Q3]]. subst out3.
  assert (Qt : w_times w3 = w_times w2 /\ w_values w3 = w_values w2) by (unfold seen in Q1; split; congruence). destruct Qt as [Qt Qv].
  assert (DE : data = match out with RaisedExn e => Err e | Interrupted => Err SystemExit | _ => bind (data_rows gd (w_times w2) (w_values w2)) (fun rows => Ok (rows, [(s, o)])) end).
  { unfold data, nth_data, build_data. rewrite U3. destruct (next_benchmark default_rng uniform integers no_args (rng_after default_rng uniform integers (i + 2) (default_rng (seed_or seed)))) as [b rng].
    cbn [fst] in NB. subst b. cbn [snd]. rewrite R1, Es3, Qt, Qv. destruct out; reflexivity. }
  destruct (recorded_shape eig finite g o a c' w' k w2 sn out Hg HK Es Er) as [P1 [P2 P3]]. fold N in P1. rewrite <- S3, S4 in P1.
  assert (OK : (forall rows bench, bind (data_rows gd (w_times w2) (w_values w2)) (fun rows => Ok (rows, [(s, o)])) = Ok (rows, bench) -> bench = [(s, o)] /\ length rows = length (w_times w2) /\
       forall j, (j < length (w_times w2))%nat -> row_for eig g (waves o) d r nd (nth j (w_times w2) 0) (nth j (w_values w2) []) (nth j rows (0, []))) /\
      ((forall u x, In u (w_values w2) -> In x u -> 0 < fst x) -> exists rows, bind (data_rows gd (w_times w2) (w_values w2)) (fun rows => Ok (rows, [(s, o)])) = Ok (rows, [(s, o)]))).
  { split.
    - intros rows bench E. inv_bind E. apply Ok_inj in E. injection E as <- <-. split; [reflexivity|]. rewrite <- S5, <- Er1, <- Er2.
      apply (rows_exact eig g G gd n o (w_times w2) (w_values w2) a0 Hg WL HG RD P1 P2 E0).
    - intro W. destruct (rows_exist G gd n (w_times w2) (w_values w2) WL RD P1 P3 W) as [rows ->]. cbn [bind]. eauto. }
  rewrite DE. destruct out; [reflexivity|exact OK|exact OK|reflexivity].
Qed.
Print Assumptions C95_rows_of_generate_data.

(** The command starts whenever the mesh can be coarsened and the window around the node lies inside of the coarse mesh. *)
Theorem C95_command_starts : forall eig G0 (default_rng : Z -> G0) uniform integers g a seed degree radius node, eig2_works eig ->
  let d := or_default degree 8 in let r := or_default radius 2 in let nd := or_default node r in let N := or_default (a_mesh_size a) default_mesh_size in
  (N mod d = 0)%nat -> (r <= nd)%nat -> (nd + r <= N / d)%nat ->
  exists gd st, new_generate eig default_rng uniform integers g a seed degree radius node = Ok (gd, st).
Proof.
  intros eig G0 default_rng uniform integers g a seed degree radius node HE d r nd N Hm H1 H2.
  assert (CB : forall o a, exists c w, sw_solver eig g (waves o) a = Ok (c, w) /\ o_time (solution_of w) = bm_start (waves o) /\ length (o_sol (solution_of w)) = or_default (a_mesh_size a) default_mesh_size).
  { intros o a0. apply (C64_solvers_can_be_built eig g (waves o) a0 "periodic" "periodic" HE (waves_domain o)); cbn; tauto. }
  unfold new_generate. destruct (CB (new_oscillation None None None None None None None None) (with_history a)) as [c [w [E [_ L]]]]. fold plain_waves in E. rewrite E. cbn [bind].
  change (length (w_mem w (w_sol w)) = N) in L. set (u := w_mem w (w_sol w)) in *. rewrite L.
  assert (HN : (1 <= N)%nat) by (apply or_default_pos; unfold default_mesh_size; lia).
  assert (Hd : (0 < d)%nat) by (unfold d, or_default; destruct degree as [[|]|]; lia).
  pose proof (new_mesh_ok (bm_domain plain_waves) N HN (waves_domain _)) as Em. set (m := {| m_domain := _; m_cells := _; m_step := _ |}) in Em.
  rewrite Em. cbn [bind]. change (or_default degree default_coarsening) with d.
  destruct (new_mesh_length _ _ _ Em) as [Lm _].
  assert (Hq : N = (N / d * d)%nat) by (rewrite (Nat.div_mod N d) at 1 by lia; lia).
  assert (Hr1 : (1 <= r)%nat) by (unfold r, or_default; destruct radius as [[|]|]; lia).
  pose proof (new_mesh_ok (bm_domain plain_waves) (N / d) ltac:(lia) (waves_domain _)) as Ec. set (mc := {| m_domain := _; m_cells := _; m_step := _ |}) in Ec.
  assert (Ek : m_coarsen m d = Ok mc).
  { unfold m_coarsen. destruct d as [|d']; [lia|]. rewrite Lm, Hm. cbn [Nat.eqb]. exact Ec. }
  rewrite Ek. cbn [bind].
  assert (FX : forall o M mm, (1 <= M)%nat -> new_mesh (bm_domain plain_waves) M = Ok mm -> exists nf, get_flux eig g (waves o) mm BNone = Ok nf).
  { intros o M mm HM Emm. destruct (CB o {| a_mesh_size := Some M; a_cfl := None; a_ode := None; a_history := false |}) as [c1 [w1 [E1 _]]].
    destruct (sw_solver_inv eig g _ _ c1 w1 E1) as [m1 [u1 [nf [bc [F1 [F2 _]]]]]]. destruct (fv_solution_inv eig _ _ m1 u1 F1) as [Fm _]. cbn [a_mesh_size] in Fm.
    replace (or_default (Some M) default_mesh_size) with M in Fm by (destruct M; [lia|reflexivity]). change (bm_domain (waves o)) with (bm_domain plain_waves) in Fm.
    assert (m1 = mm) by congruence. subst m1. eauto. }
  destruct (next_benchmark default_rng uniform integers no_args (default_rng (seed_or seed))) as [b1 r1].
  destruct (FX (snd b1) N m HN Em) as [ff ->]. cbn [bind]. destruct (next_benchmark default_rng uniform integers no_args r1) as [b2 r2].
  destruct (FX (snd b2) (N / d)%nat mc ltac:(lia) Ec) as [cf ->]. cbn [bind].
  unfold builder_parameters. change (or_default radius default_radius) with r. fold nd.
  destruct (Nat.leb_spec r nd) as [_|]; [|lia]. cbn [bind]. unfold id_new. cbn [d_value].
  destruct (new_window_coarse nd r d (Nat.div (nf_dim ff) 2) (N / d) u Hd ltac:(rewrite L; exact Hq) H1 H2) as [cu [_ ->]]. cbn [bind]. eauto.
Qed.
Print Assumptions C95_command_starts.

(** The fluxes the rows are made of exist for water of positive height, on the fine and on the coarse mesh. *)
Theorem C95_fluxes_of_the_rows_exist : forall eig g o t degree (u cu : list state), eig2_works eig -> In g [GLow; GCentral; GLLF; GES; GES1] ->
  (1 <= degree)%nat -> (degree <= length u)%nat -> (forall x, In x u -> 0 < fst x) -> coarsen degree u = Ok cu ->
  exists ff cf, node_fluxes eig g (waves o) t u = Ok ff /\ length ff = S (length u) /\ node_fluxes eig g (waves o) t cu = Ok cf /\ length cf = S (length cu).
Proof.
  intros eig g o t degree u cu HE Hg Hd Hu W Ec.
  assert (X : forall v : list state, (1 <= length v)%nat -> (forall x, In x v -> 0 < fst x) -> exists ff, node_fluxes eig g (waves o) t v = Ok ff /\ length ff = S (length v)).
  { intros v Hv Wv. destruct (simple_law g M_CommandLine.default_gravity Hg gravity_positive) as [G [WL HG]].
    destruct (C64_solvers_can_be_built eig g (waves o) {| a_mesh_size := Some (length v); a_cfl := None; a_ode := None; a_history := false |} "periodic" "periodic" HE (waves_domain o)) as [c1 [w1 [E1 _]]]; [cbn; tauto..|].
    destruct (sw_solver_inv eig g _ _ c1 w1 E1) as [m1 [u1 [nf [bc [F1 [F2 F3]]]]]]. destruct (fv_solution_inv eig _ _ m1 u1 F1) as [Fm _]. cbn [a_mesh_size] in Fm.
    replace (or_default (Some (length v)) default_mesh_size) with (length v) in Fm by (destruct (length v); [lia|reflexivity]).
    unfold node_fluxes. rewrite Fm. cbn [bind]. rewrite F2. cbn [bind]. destruct (new_mesh_length _ _ _ Fm) as [M1 _].
    assert (A1 : flatwise nf G) by (apply (HG eig (waves o) m1 nf 0 HE (waves_domain o) ltac:(lia) (waves_gravity o) (waves_flat o)); exact F2).
    rewrite (proj1 A1). change (2 / 2)%nat with 1%nat. destruct F3 as [F3 _]. rewrite (proj1 A1) in F3. change (2 / 2)%nat with 1%nat in F3.
    rewrite F3. cbn [bind]. unfold boundary in F3.
    destruct (nodes_of z2 (Some reflect) _ _ _ bc v t F3) as [nl [nr [cl [cr [x [e [Sn [Nl [Nr [Ea [Vx _]]]]]]]]]]]; [destruct v; [cbn in Hv; lia|discriminate]|].
    cbn in Sn. destruct Sn as [-> ->]. destruct cl; cbn in Nl; try (destruct Nl; discriminate); try discriminate. destruct cr; cbn in Nr; try (destruct Nr; discriminate); try discriminate.
    rewrite Ea. cbn [bind].
    assert (PX : forall i, (i <= S (length v))%nat -> 0 < fst (x i)).
    { intros [|i] Hi.
      - pose proof (left_cell z2 v (Some t) _ _ _ (Vx 0%nat ltac:(lia)) Hv) as X0. cbn in X0. rewrite X0. apply Wv, nth_In. lia.
      - destruct (Nat.eq_dec i (length v)) as [->|].
        + pose proof (right_cell z2 v (Some t) _ _ _ (Vx (S (length v)) ltac:(lia)) Hv) as X0. cbn in X0. rewrite X0. apply Wv, nth_In. lia.
        + rewrite (inner_cell z2 v (Some t) _ _ i (x (S i)) (Vx (S i) ltac:(lia))) by lia. apply Wv, nth_In. lia. }
    destruct (flatwise_ok nf G [tab (S (length v)) x; tab (S (length v)) (fun i => x (S i))] (S (length v)) A1 WL eq_refl) as [fl [fr [-> [_ L]]]].
    - repeat constructor; apply tab_length.
    - intros l y [<-|[<-|[]]] Hy; apply in_tab in Hy as [i [Hi <-]]; apply PX; lia.
    - cbn [bind snd]. eauto. }
  destruct (X u) as [ff [F1 F2]]; [lia|exact W|].
  assert (Lc := proj1 (proj1 (coarsen_ok_iff degree u cu ltac:(lia)) Ec)).
  destruct (X cu) as [cf [F3 F4]]; [destruct (length cu); lia|apply (coarsened_wet degree u cu); auto|]. eauto 8.
Qed.
Print Assumptions C95_fluxes_of_the_rows_exist.

Lemma content_true {Row} (f : option (list (line (Row := Row)))) rows k : (1 <= k)%nat -> content true f rows k = Some (Header :: map Line (concat (map rows (seq 0 k)))).
Proof. destruct k; [lia|reflexivity]. Qed.
(** A run that completes leaves one header and the rows of all its solutions in their order. The command with the same arguments and --append then repeats all of
    them: the data are drawn with the same seed again. *)
Theorem C95_appending_repeats_the_data : forall eig finite G0 (default_rng : Z -> G0) uniform integers k gd st number fs states,
  generate_data eig finite default_rng uniform integers k gd st number true fs = (states, None) ->
  exists rows1 rows2 states', let n := or_default number 100 in
  (forall i, (i < n)%nat -> nth_data eig finite default_rng uniform integers k gd st i = Ok (rows1 i, rows2 i)) /\
  let all1 := concat (map rows1 (seq 0 n)) in let all2 := concat (map rows2 (seq 0 n)) in
  last states fs = (Some (Header :: map Line all1), Some (Header :: map Line all2)) /\
  generate_data eig finite default_rng uniform integers k gd st number false (last states fs) = (states', None) /\
  last states' fs = (Some (Header :: map Line (all1 ++ all1)), Some (Header :: map Line (all2 ++ all2))).
Proof.
  intros eig finite G0 default_rng uniform integers k gd st number [f1 f2] states E. unfold generate_data in *.
  change (or_default number default_number) with (or_default number 100) in *. set (n := or_default number 100) in *.
  set (data := nth_data eig finite default_rng uniform integers k gd st) in *.
  assert (Hn : (1 <= n)%nat) by (unfold n, or_default; destruct number as [[|]|]; lia).
  set (rows1 := fun i => match data i with Ok d => fst d | Err _ => [] end). set (rows2 := fun i => match data i with Ok d => snd d | Err _ => [] end).
  assert (HD : forall i d, data i = Ok d -> d = (rows1 i, rows2 i)) by (intros i [x y] Ed; unfold rows1, rows2; rewrite Ed; reflexivity).
  destruct (C48_generated_files data rows1 rows2 n true f1 f2 states None Hn HD E) as [[A1 A2] _]. rewrite !content_true in A2 by exact Hn.
  destruct (generate_execute data n false (last states (f1, f2))) as [states' e] eqn:E'. rewrite A2 in E'.
  pose proof (C48_generated_files data rows1 rows2 n false _ _ states' e Hn HD E') as [B _].
  assert (Ee : e = None). { destruct e as [x|]; [|reflexivity]. destruct B as [j [Hj [Bj _]]]. destruct (A1 j Hj) as [d Ed]. congruence. }
  subst e. destruct B as [_ B].
  exists rows1, rows2, states'. cbv zeta. split; [intros i Hi; destruct (A1 i Hi) as [d Ed]; rewrite Ed; f_equal; apply HD; exact Ed|]. split; [exact A2|]. split; [reflexivity|].
  assert (Ne : states' <> []).
  { intro Z. subst states'. cbn [last] in B. unfold content in B. destruct n; [lia|]. injection B as B _. apply (f_equal (@length _)) in B. rewrite app_length, !map_length in B.
    clear - E' . unfold generate_execute in E'. destruct (Nat.eqb (S n) 1); [destruct (data 0%nat); discriminate|]. cbn [save_loop] in E'. destruct (data 0%nat); [|discriminate].
    cbn in E'. destruct (save_loop _ _ _ _ _) in E'. discriminate. }
  assert (LL : forall (T : Type) (l : list T) x y, l <> [] -> last l x = last l y).
  { clear. induction l as [|z zs IH]; intros x y H; [congruence|]. destruct zs; [reflexivity|]. exact (IH x y ltac:(discriminate)). }
  refine (eq_trans (LL _ _ _ _ Ne) (eq_trans B _)). unfold content. destruct n; [lia|]. cbn [app]. rewrite !map_app. reflexivity.
Qed.
Print Assumptions C95_appending_repeats_the_data.

(** Finding: parameter-variation-test with the seed of the training data (the default seeds are equal) tests with the training benchmarks: all but its first two
    reference benchmarks are benchmarks of generate-data, in the same order. *)
Theorem C95_training_benchmarks_are_tested : forall eig finite G0 (default_rng : Z -> G0) uniform integers k g a seed degree radius node gd st n i rows bench,
  eig2_works eig -> In g [GLow; GCentral; GLLF; GES; GES1] ->
  new_generate eig default_rng uniform integers g a seed degree radius node = Ok (gd, st) ->
  nth_data eig finite default_rng uniform integers k gd st i = Ok (rows, bench) -> (i + 2 < n)%nat ->
  exists b, bench = [b] /\ nth_error (reference_benchmarks default_rng uniform integers (seed_meant seed) n) (i + 2) = Some b.
Proof.
  intros eig finite G0 default_rng uniform integers k g a seed degree radius node gd st n i rows bench HE Hg EN ED Hi. change (seed_meant seed) with (seed_or seed).
  destruct (new_generate_inv eig HE default_rng uniform integers g a seed degree radius node gd st Hg EN) as [n0 [G [_ [_ [_ [_ [_ [_ [_ [_ [S7 _]]]]]]]]]]].
  destruct (before_state eig finite default_rng uniform integers k gd st i) as [us [_ [_ U3]]]. rewrite S7 in U3.
  unfold reference_benchmarks. rewrite (nth_benchmark default_rng uniform integers (seed_or seed) n (i + 2) Hi).
  rewrite Nat.add_comm. cbn [Nat.add]. cbn [rng_after] in U3 |- *. unfold nth_data, build_data in ED. rewrite U3 in ED.
  destruct (next_benchmark _ _ _ _ (rng_after _ _ _ i _)) as [b rng]. exists b. split; [|reflexivity].
  destruct (sw_reinitialize _ _ _ _ _ _) as [w1 [e|]]; [discriminate|]. destruct (solve _ _ _ _) as [[w2 sn] out]. destruct out; try discriminate; cbn [fst] in ED; inv_bind ED; apply Ok_inj in ED; injection ED as <- <-; reflexivity.
Qed.
Print Assumptions C95_training_benchmarks_are_tested.

(* the default arguments with the solver the program's scripts use, 400 cells and coarsening degree 8: the command starts, and each of its runs is one of a new solver *)
Example C95_ex : forall G0 (default_rng : Z -> G0) uniform integers k i, exists eig gd st s o c' w' w2 sn out, let a := {| a_mesh_size := None; a_cfl := None; a_ode := None; a_history := false |} in
  eig2_works eig /\ In GLLF [GLow; GCentral; GLLF; GES; GES1] /\ known_method a /\ new_generate eig default_rng uniform integers GLLF a None None None None = Ok (gd, st) /\
  (or_default None 2 + or_default None 2 <= default_mesh_size / 8)%nat /\
  nth_error (random_benchmarks default_rng uniform integers no_args (seed_meant None) (i + 3)) (i + 2) = Some (s, o) /\
  sw_solver eig GLLF (waves o) (with_history a) = Ok (c', w') /\ solve (fun _ => true) c' k w' = (w2, sn, out).
Proof.
  intros G0 default_rng uniform integers k i. destruct (C43_decomposition_exists 2) as [eig HE]. assert (HE2 : eig2_works eig) by (apply HE; lia). exists eig.
  set (a := {| a_mesh_size := None; a_cfl := None; a_ode := None; a_history := false |}).
  destruct (C95_command_starts eig G0 default_rng uniform integers GLLF a None None None None HE2) as [gd [st E]]; [reflexivity|cbn; lia|vm_compute; lia|].
  destruct (next_benchmark default_rng uniform integers no_args (rng_after default_rng uniform integers (i + 2) (default_rng (seed_or None)))) as [[s o] rng] eqn:Eb.
  destruct (C64_solvers_can_be_built eig GLLF (waves o) (with_history a) "periodic" "periodic" HE2 (waves_domain o)) as [c' [w' [Es _]]]; [cbn; tauto..|].
  destruct (solve (fun _ => true) c' k w') as [[w2 sn] out] eqn:Er. exists gd, st, s, o, c', w', w2, sn, out. cbv zeta.
  split; [exact HE2|]. split; [cbn; tauto|]. split; [intros T; discriminate|]. split; [exact E|]. split; [vm_compute; lia|]. split; [|auto].
  change (seed_meant None) with (seed_or None). rewrite (nth_benchmark default_rng uniform integers (seed_or None) (i + 3) (i + 2)) by lia. rewrite Eb. reflexivity.
Qed.
