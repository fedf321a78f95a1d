(** C93: the same condition for both ends may be named once or twice, except for the limited shallow water solver on periodic domains. *)
From Coq Require Import Reals String List ZArith Arith Lia Lra Psatz Bool.
From Verif Require Import Prelude L_Prelude M_Mesh M_Boundary S_Boundary L_Boundary M_Flux S_Flux L_Flux
  M_Neighbours L_Neighbours M_ODE M_Solver M_Scalar S_Scalar L_Scalar M_ShallowWater S_ShallowWater L_ShallowWater L_SWRuns L_SWLow
  L_SWWater L_SWLake L_SWTotal S_Symmetry L_SWNodes L_SWMirror P_SWLimiter M_FVSolver M_ScalarSolver S_Ends.
Import ListNotations.
Local Open Scope nat_scope.
Open Scope R_scope.
Notation length := List.length.
Notation z2 := (0, 0) (only parsing).

(** only the flag of the periodic boundary conditions differs *)
Definition unflagged {W} (b : bconds W) : bconds W := {| bc_left := bc_left b; bc_right := bc_right b; bc_periodic := false |}.
Lemma ends_named_twice {W} (wall : option (W -> W)) c r il ir : get_boundary_conditions wall [c; c] r il ir =
  bind (get_boundary_conditions wall [c] r il ir) (fun b => Ok (unflagged b)).
Proof.
  unfold get_boundary_conditions. cbn [is_periodic]. destruct (mapM _ (rev _)) as [l|e]; [|reflexivity]. cbn [bind].
  destruct (mapM _ (seq 0 r)) as [k|e]; [|reflexivity]. cbn [bind]. unfold mk_bconds. destruct (Nat.even _); reflexivity.
Qed.
Lemma ends_unflagged {W} (wall : option (W -> W)) c r il ir : c <> "periodic"%string -> get_boundary_conditions wall [c; c] r il ir = get_boundary_conditions wall [c] r il ir.
Proof. intro H. unfold get_boundary_conditions. cbn [is_periodic]. apply String.eqb_neq in H. rewrite H. reflexivity. Qed.

(** ** boundary conditions of any kind of cells *)
Theorem C93_neighbours {W} (wall : option (W -> W)) c r il ir b1 b2 : get_boundary_conditions wall [c] r il ir = Ok b1 -> get_boundary_conditions wall [c; c] r il ir = Ok b2 ->
  forall v k t, get_node_neighbours b2 v k t = get_node_neighbours b1 v k t.
Proof. intros E1 E2. rewrite ends_named_twice, E1 in E2. apply Ok_inj in E2. subst b2. reflexivity. Qed.
Theorem C93_accepted {W} (wall : option (W -> W)) c r il ir : (exists b, get_boundary_conditions wall [c; c] r il ir = Ok b) <-> (exists b, get_boundary_conditions wall [c] r il ir = Ok b).
Proof.
  rewrite ends_named_twice. destruct (get_boundary_conditions wall [c] r il ir) as [b|e]; cbn [bind]; split; intros [x H]; try discriminate; eexists; eauto.
Qed.

(** ** the solvers of the shallow water equations *)
Lemma same_flux eig g b c m : without_limiter g \/ c <> "periodic"%string -> forall x,
  get_flux eig g (water_with b [c; c]) m x = get_flux eig g (water_with b [c]) m x.
Proof.
  induction g as [| | | | | |dim net base IH|high IH|gamma raw IH]; intros H x; try reflexivity.
  - cbn [get_flux]. rewrite (IH H). reflexivity.
  - destruct H as [[]|H]. cbn [get_flux]. rewrite (IH (or_intror H)). unfold sw_mcl. cbn [water_with bm_conditions]. rewrite ends_unflagged by exact H. reflexivity.
  - cbn [get_flux]. rewrite (IH H). reflexivity.
Qed.
Theorem C93_same_water_solver_partial eig g b c a : without_limiter g \/ c <> "periodic"%string ->
  sw_solver eig g (water_with b [c; c]) a = sw_solver eig g (water_with b [c]) a.
Proof.
  intro H. unfold sw_solver. change (fv_solution eig (water_with b [c; c])) with (fv_solution eig (water_with b [c])).
  destruct (fv_solution eig (water_with b [c]) (a_mesh_size a)) as [[m u]|e]; [|reflexivity]. cbn [bind]. rewrite (same_flux eig g b c m H).
  destruct (get_flux eig g (water_with b [c]) m BNone) as [nf|e]; [|reflexivity]. cbn [bind]. unfold boundary. cbn [water_with bm_conditions bm_inflow_left bm_inflow_right].
  rewrite ends_named_twice. destruct (get_boundary_conditions _ [c] _ _ _) as [bc|e]; reflexivity.
Qed.
Theorem C93_same_lax_wendroff eig b c a : lw_solver eig (water_with b [c; c]) a = lw_solver eig (water_with b [c]) a.
Proof.
  unfold lw_solver. change (fv_solution eig (water_with b [c; c])) with (fv_solution eig (water_with b [c])).
  destruct (fv_solution eig (water_with b [c]) (a_mesh_size a)) as [[m u]|e]; [|reflexivity]. cbn [bind]. unfold boundary. cbn [water_with bm_conditions bm_inflow_left bm_inflow_right].
  rewrite ends_named_twice. destruct (get_boundary_conditions _ [c] _ _ _) as [bc|e]; reflexivity.
Qed.

(** ** the finite volume solvers of scalar problems *)
Lemma scalar_from_flux eig g b c a : (forall m, get_scalar_flux g (scalar_with b [c; c]) m = get_scalar_flux g (scalar_with b [c]) m) ->
  scalar_solver eig g (scalar_with b [c; c]) a = scalar_solver eig g (scalar_with b [c]) a.
Proof.
  intro H. unfold scalar_solver. change (scalar_fv_solution eig (scalar_with b [c; c])) with (scalar_fv_solution eig (scalar_with b [c])).
  destruct (scalar_fv_solution eig (scalar_with b [c]) (a_mesh_size a)) as [[m u]|e]; [|reflexivity]. cbn [bind]. rewrite H.
  destruct (get_scalar_flux g (scalar_with b [c]) m) as [nf|e]; [|reflexivity]. cbn [bind]. unfold scalar_boundary. cbn [scalar_with sb_conditions sb_inflow_left sb_inflow_right].
  rewrite ends_named_twice. destruct (get_boundary_conditions _ [c] _ _ _) as [bc|e]; reflexivity.
Qed.
Theorem C93_same_scalar_solver eig g b c a : g <> SMCL \/ c <> "periodic"%string ->
  scalar_solver eig g (scalar_with b [c; c]) a = scalar_solver eig g (scalar_with b [c]) a.
Proof.
  intro H. apply scalar_from_flux. intro m. unfold get_scalar_flux. cbn [scalar_with sb_problem sb_conditions]. destruct (parse_problem _) as [p|e]; [|reflexivity]. cbn [bind].
  destruct g; try reflexivity. destruct H as [H|H]; [destruct H; reflexivity|]. unfold scalar_mcl_getter. cbn [is_periodic]. apply String.eqb_neq in H. rewrite H. reflexivity.
Qed.

(** the limiter for scalar problems: one more neighbour of a ghost cell, with a value that is there already *)
Lemma same_extrema n (r1 r2 : list (list Z)) u gl gr : (1 <= n)%nat -> length u = n -> gl = nth (n - 1) u 0 -> gr = nth 0 u 0 ->
  fv_neighbours (n + 2) true = Ok r1 -> fv_neighbours (n + 2) false = Ok r2 ->
  local_maximum (neighbours_array r2) (gl :: u ++ [gr]) = local_maximum (neighbours_array r1) (gl :: u ++ [gr]) /\
  local_minimum (neighbours_array r2) (gl :: u ++ [gr]) = local_minimum (neighbours_array r1) (gl :: u ++ [gr]).
Proof.
  intros Hn Lu El Er E1 E2. set (e := gl :: u ++ [gr]).
  assert (Le : length e = (n + 2)%nat) by (unfold e; cbn [length]; rewrite app_length; cbn [length]; lia).
  destruct (mcl_bounds _ _ e (fv_array_good _ _ _ E1) Le) as [M1 [m1 [A1 [B1 [LM1 [Lm1 V1]]]]]].
  destruct (mcl_bounds _ _ e (fv_array_good _ _ _ E2) Le) as [M2 [m2 [A2 [B2 [LM2 [Lm2 V2]]]]]].
  destruct (fv_neighbours_rows _ _ _ E1) as [_ [L1 R1]]. destruct (fv_neighbours_rows _ _ _ E2) as [_ [L2 R2]].
  assert (N0 : nth 1 e 0 = gr) by (unfold e; cbn [nth]; rewrite app_nth1 by lia; auto).
  assert (N1 : nth n e 0 = gl) by (unfold e; destruct n as [|k]; [lia|]; cbn [nth]; rewrite app_nth1 by lia; rewrite El; f_equal; lia).
  assert (Nr : nth (n + 1) e 0 = gr) by (unfold e; replace (n + 1)%nat with (S n) by lia; cbn [nth]; rewrite app_nth2 by lia; rewrite Lu, Nat.sub_diag; reflexivity).
  (* the values found in a row of one array are found in the same row of the other *)
  assert (I21 : forall i z, (i < n + 2)%nat -> In z (nth i (neighbours_array r2) []) -> In z (nth i (neighbours_array r1) [])).
  { intros i z Hi Hz. apply (proj2 (proj2 (neighbours_array_rows r1 i ltac:(lia)))). apply (proj2 (proj2 (neighbours_array_rows r2 i ltac:(lia)))) in Hz.
    left. apply R1; auto. destruct Hz as [Hz|[-> _]]; [apply R2 in Hz; auto; destruct Hz as [Hz [Hz'|[Q _]]]; [auto|discriminate]|]. split; [lia|left; lia]. }
  assert (I12 : forall i z, (i < n + 2)%nat -> In z (nth i (neighbours_array r1) []) -> exists z', In z' (nth i (neighbours_array r2) []) /\ nth (Z.to_nat z') e 0 = nth (Z.to_nat z) e 0).
  { intros i z Hi Hz. apply (proj2 (proj2 (neighbours_array_rows r1 i ltac:(lia)))) in Hz.
    assert (J : forall z', (0 <= z' < Z.of_nat (n + 2))%Z -> (Z.abs (z' - Z.of_nat i) <= 1)%Z -> In z' (nth i (neighbours_array r2) [])).
    { intros z' Hz1 Hz2. apply (proj2 (proj2 (neighbours_array_rows r2 i ltac:(lia)))). left. apply R2; auto. }
    destruct Hz as [Hz|[-> _]]; [|exists (Z.of_nat i); split; auto; apply J; lia].
    apply R1 in Hz; auto. destruct Hz as [Hz [Q|[_ [[-> ->]|[-> ->]]]]].
    - exists z. split; auto.
    - exists 1%Z. split; [apply J; lia|]. change (Z.to_nat 1) with 1%nat. replace (Z.to_nat (Z.of_nat (n + 2) - 1)) with (n + 1)%nat by lia. congruence.
    - exists (Z.of_nat n). split; [apply J; lia|]. rewrite Nat2Z.id. change (Z.to_nat 0) with 0%nat. rewrite N1. reflexivity. }
  rewrite A1, A2, B1, B2. split; f_equal; (apply (nth_ext _ _ 0 0); [lia|]); intros i Hi.
  - destruct (V1 i ltac:(lia)) as [U1 [[z1 [Z1 X1]] _]]. destruct (V2 i ltac:(lia)) as [U2 [[z2 [Z2 X2]] _]].
    destruct (I12 i z1 ltac:(lia) Z1) as [z3 [Z3 X3]]. pose proof (U2 z3 Z3). pose proof (U1 z2 (I21 i z2 ltac:(lia) Z2)). lra.
  - destruct (V1 i ltac:(lia)) as [U1 [_ [z1 [Z1 X1]]]]. destruct (V2 i ltac:(lia)) as [U2 [_ [z2 [Z2 X2]]]].
    destruct (I12 i z1 ltac:(lia) Z1) as [z3 [Z3 X3]]. pose proof (U2 z3 Z3). pose proof (U1 z2 (I21 i z2 ltac:(lia) Z2)). lra.
Qed.
Theorem C93_same_scalar_limiter p n nf1 nf2 bc1 bc2 il ir : (1 <= n)%nat ->
  scalar_mcl_getter p n ["periodic"%string] = Ok nf1 -> scalar_mcl_getter p n ["periodic"%string; "periodic"%string] = Ok nf2 ->
  get_boundary_conditions None ["periodic"%string] 1 il ir = Ok bc1 -> get_boundary_conditions None ["periodic"%string; "periodic"%string] 1 il ir = Ok bc2 ->
  forall dx t u, length u = n -> fv_rhs nf2 dx bc2 t u = fv_rhs nf1 dx bc1 t u.
Proof.
  intros Hn F1 F2 B1 B2 dx t u Lu. unfold scalar_mcl_getter in F1, F2. cbn [is_periodic] in F1, F2. change (("periodic" =? "periodic")%string) with true in F1.
  inv_bind F1. rename a into r1, E into E1. inv_bind F2. rename a into r2, E into E2. apply Ok_inj in F1. apply Ok_inj in F2. subst nf1 nf2.
  cbn in B1, B2. apply Ok_inj in B1. apply Ok_inj in B2. subst bc1 bc2.
  set (gl := nth (n - 1) u 0). set (gr := nth 0 u 0).
  assert (Ex : forall f, extended {| bc_left := [CopyCell (-1)]; bc_right := [CopyCell 0]; bc_periodic := f |} u (Some t) = Ok (gl :: u ++ [gr])).
  { intro f. unfold extended. cbn [bc_left bc_right mapM ghost_value]. rewrite (pyget_m1 u 0) by lia. cbn [bind]. rewrite Lu. unfold gr.
    destruct u as [|x u]; [cbn in Lu; lia|]. cbn [pyget]. unfold pyget. reflexivity. }
  destruct (same_extrema n r1 r2 u gl gr Hn Lu eq_refl eq_refl E1 E2) as [X1 X2].
  unfold fv_rhs. change (Nat.div (nf_dim (scalar_mcl p (neighbours_array r1))) 2) with 1%nat. change (Nat.div (nf_dim (scalar_mcl p (neighbours_array r2))) 2) with 1%nat.
  assert (Le : length (gl :: u ++ [gr]) = S (S n)) by (cbn [length]; rewrite app_length; cbn [length]; lia).
  rewrite !(neighbours_1 0 _ u (Some t) _ n (Ex _) Le). cbn [bind scalar_mcl nf_call]. set (e := gl :: u ++ [gr]) in *.
  assert (Ed : get_dof_vector [tab (S n) (fun i => nth i e 0); tab (S n) (fun i => nth (S i) e 0)] = Ok e).
  { unfold get_dof_vector. cbn [mapM]. rewrite (pyget_m1 (tab _ _) 0) by (rewrite tab_length; lia).
    cbn [bind]. f_equal. rewrite tab_length, nth_tab by lia.
    replace (S n - 1)%nat with n by lia. symmetry. etransitivity; [apply (list_tab 0 e)|]. rewrite Le, (tab_snoc (S n)). reflexivity. }
  unfold mcl_call. rewrite Ed. cbn [bind]. rewrite X1, X2. reflexivity.
Qed.

(** ** the limited shallow water solver *)
(** Still water in three cells of heights 9, 4 and 1 on a periodic domain: the first height decreases at the rate 15 if the condition is named
    once, and at the rate 39/2 if it is named twice: the bounds of the limiter do not know the neighbour across the end (core/boundary.py L90-109,
    L126-130: periodic=conditions == ("periodic",)). *)
Definition three : list state := [(9, 0); (4, 0); (1, 0)].
Theorem C93_periodic_twice_refuted : exists high nf1 nf2 bc1 bc2 v1 v2,
  sw_central (Some 1) BNone = Ok high /\
  sw_mcl (Some 1) BNone ["periodic"%string] None None high = Ok nf1 /\
  sw_mcl (Some 1) BNone ["periodic"%string; "periodic"%string] None None high = Ok nf2 /\
  get_boundary_conditions (Some reflect) ["periodic"%string] 1 None None = Ok bc1 /\
  get_boundary_conditions (Some reflect) ["periodic"%string; "periodic"%string] 1 None None = Ok bc2 /\
  fv_rhs nf1 1 bc1 0 three = Ok v1 /\ fv_rhs nf2 1 bc2 0 three = Ok v2 /\
  fst (nth 0 v1 z2) = - 15 /\ fst (nth 0 v2 z2) = - 39 / 2.
Proof.
  pose proof epsilon_lt as He. pose proof epsilon_pos as He0.
  assert (G1 : py_or (Some 1) default_gravity = 1) by (cbn; destruct (Reqb_spec 1 0); [lra|reflexivity]).
  assert (FX : forall h q, 1 <= h -> sw_flux 1 (h, q) = Ok (q, q * q / h + h * h / 2)).
  { intros h0 q0 Hh. unfold sw_flux, sw_flux_eps. destruct (Rltb_spec h0 0); [lra|]. destruct (Rltb_spec h0 epsilon); [lra|]. f_equal. f_equal. field. lra. }
  set (high := {| nf_dim := 2; nf_call := wrapped_call 1 [0] (central (sw_flux 1)) |}).
  set (bc := fun f => {| bc_left := [CopyCell (W := R * R) (-1)]; bc_right := [CopyCell 0]; bc_periodic := f |}).
  set (nf := fun f => {| nf_dim := 2; nf_call := sw_mcl_call (Some 1) [0] (bc f) high |}).
  set (hs := fun i : nat => match i with O => 1 * 1 | 1%nat => 3 * 3 | 2%nat => 2 * 2 | 3%nat => 1 * 1 | _ => 3 * 3 end).
  set (x := fun i : nat => (hs i, 0)).
  assert (Hx : forall i, 1 <= hs i) by (intros [|[|[|[|i]]]]; unfold hs; lra).
  assert (CH : exists hl, nf_call high [tab 4 x; tab 4 (fun i => x (S i))] = Ok (hl, tab 4 (fun i => (0, average (hs i * hs i / 2) (hs (S i) * hs (S i) / 2))))).
  { assert (N : nodewise_sw BNone high (add_source 1 (central_at (sw_flux 1)))).
    { pose proof (nodewise_source (Some 1) BNone (central (sw_flux 1)) high (central_at (sw_flux 1))) as Q. rewrite G1 in Q. apply Q; [reflexivity|intro; reflexivity|].
      unfold with_source. rewrite G1. reflexivity. }
    destruct N as [_ N]. eexists.
    apply (N 3%nat x (fun _ => 0) (tab 4 (fun i => copp (0, average (hs i * hs i / 2) (hs (S i) * hs (S i) / 2)))) _ ltac:(lia) (padded_flat BNone 3 ltac:(intros l El; discriminate El))).
    rewrite !tab_length. split; auto. split; auto. intros i Hi. rewrite !nth_tab by lia.
    unfold x. unfold add_source, central_at. rewrite !FX by auto. cbn [bind]. pose proof (Hx i). pose proof (Hx (S i)).
    unfold csub, copp, average. cbn [cadd cscal RR_CellOps fst snd]. do 2 f_equal; f_equal; field; lra. }
  destruct CH as [hl EH]. match type of EH with _ = Ok (_, tab 4 ?f) => set (H := f) in EH end.
  assert (Z0 : forall y, 0 / y = 0) by (intro; unfold Rdiv; ring).
  destruct (node_low 1 3 0 0 3 5 ((0 + 0) / 2 - (0 * 0 / (3 * 3) + 3 ^ 4 / 2 - (0 * 0 / (1 * 1) + 1 ^ 4 / 2)) / (2 * 3))) as [o0 [E0 [S0 [H0 [HL0 [HR0 [QL0 [QR0 [R0 L0]]]]]]]]]; try lra;
    [rewrite !Z0, Rabs_R0, Rmax_right; lra|].
  destruct (node_low 3 2 0 0 3 (13 / 2) ((0 + 0) / 2 - (0 * 0 / (2 * 2) + 2 ^ 4 / 2 - (0 * 0 / (3 * 3) + 3 ^ 4 / 2)) / (2 * 3))) as [o1 [E1 [S1 [H1 [HL1 [HR1 [QL1 [QR1 [R1 L1]]]]]]]]]; try lra;
    [rewrite !Z0, Rabs_R0, Rmax_left; lra|].
  destruct (node_low 2 1 0 0 2 (5 / 2) ((0 + 0) / 2 - (0 * 0 / (1 * 1) + 1 ^ 4 / 2 - (0 * 0 / (2 * 2) + 2 ^ 4 / 2)) / (2 * 2))) as [o2 [E2 [S2 [H2 [HL2 [HR2 [QL2 [QR2 [R2 L2]]]]]]]]]; try lra;
    [rewrite !Z0, Rabs_R0, Rmax_left; lra|].
  set (lo := fun i : nat => match i with O => o0 | 1%nat => o1 | 2%nat => o2 | _ => o0 end).
  assert (CALL : forall f, nf_call (nf f) [tab 4 x; tab 4 (fun i => x (S i))] =
    Ok (tab 4 (fun i => cadd (lo_outl (lo i)) (copp (fh_ f 3 lo H i, fq_ f 3 lo H i))), tab 4 (fun i => cadd (lo_outr (lo i)) (fh_ f 3 lo H i, fq_ f 3 lo H i)))).
  { intro f. cbn [nf nf_call]. unfold sw_mcl_call. rewrite (required_two _ 1) by (cbn; lia). cbn [nth Nat.sub bind].
    rewrite (low_all_ok (Some 1) [0] (repeat 0 4) 4 x lo); [|reflexivity|intros i Hi; rewrite nth_repeat0; destruct i as [|[|[|[|i]]]]; [exact E0|exact E1|exact E2|exact E0|lia]].
    cbn [bind]. rewrite EH. cbn [bind snd]. rewrite (mcl_limit_ok f 3 lo H (bc f) eq_refl ltac:(lia) eq_refl).
    - cbn [bind mp_fh mp_fq]. rewrite combine_tab, !map_tab, !map2_tab. reflexivity.
    - intros i Hi. destruct i as [|[|[|[|i]]]]; [| | | |lia]; cbn [lo]; rewrite ?S0, ?HL0, ?HR0, ?H0, ?S1, ?HL1, ?HR1, ?H1, ?S2, ?HL2, ?HR2, ?H2; repeat split; lra. }
  assert (RHS : forall f, exists v, fv_rhs (nf f) 1 (bc f) 0 three = Ok v /\ fst (nth 0 v z2) = fst (lo_outr o0) + fh_ f 3 lo H 0 + (- fst (lo_outr o1) - fh_ f 3 lo H 1)).
  { intro f. unfold fv_rhs. change (Nat.div (nf_dim (nf f)) 2) with 1%nat. unfold bc at 1.
    rewrite (nodes_one _ _ _ _ _ [(1, 0); (9, 0); (4, 0); (1, 0); (9, 0)]) by reflexivity. cbn [bind length three].
    replace (tab 4 (fun i => nth i [(1, 0); (9, 0); (4, 0); (1, 0); (9, 0)] z2)) with (tab 4 x)
      by (apply tab_ext; intros i Hi; destruct i as [|[|[|[|i]]]]; [| | | |lia]; cbn [nth]; unfold x, hs; f_equal; lra).
    replace (tab 4 (fun i => nth (S i) [(1, 0); (9, 0); (4, 0); (1, 0); (9, 0)] z2)) with (tab 4 (fun i => x (S i)))
      by (apply tab_ext; intros i Hi; destruct i as [|[|[|[|i]]]]; [| | | |lia]; cbn [nth]; unfold x, hs; f_equal; lra).
    rewrite CALL. cbn [bind fst snd]. unfold cells_from_nodes. rewrite rdiv_ne by lra. cbn [bind]. eexists. split; [reflexivity|].
    cbn [tab seq map removelast tl map2 nth lo]. rewrite L1. unfold copp. cbn [cadd cscal RR_CellOps fst snd]. field. }
  destruct (RHS true) as [v1 [EV1 V1]]. destruct (RHS false) as [v2 [EV2 V2]].
  exists high, (nf true), (nf false), (bc true), (bc false), v1, v2.
  split; [unfold sw_central, with_source; rewrite G1; reflexivity|]. do 4 (split; [reflexivity|]). split; [exact EV1|]. split; [exact EV2|].
  assert (F1 : forall f, fh_ f 3 lo H 1 = 0).
  { intros [|]; unfold fh_, hmax_, hmin_, cl_idx, cr_idx; cbn [Nat.leb lo]; rewrite HR0, HR1, HL1, HL2, S1, R1; unfold H, hs, csub, copp, average;
      cbn [cadd cscal RR_CellOps fst snd]; unfold limit_at; repeat minmax1; lra. }
  assert (Ft : fh_ true 3 lo H 0 = 9 / 2).
  { unfold fh_, hmax_, hmin_, cl_idx, cr_idx. cbn [Nat.leb lo Nat.sub]. rewrite HR2, HR0, HL0, HL1, S0, R0. unfold H, hs, csub, copp, average.
    cbn [cadd cscal RR_CellOps fst snd]. unfold limit_at. repeat minmax1. lra. }
  assert (Ff : fh_ false 3 lo H 0 = 0).
  { unfold fh_, hmax_, hmin_, cl_idx, cr_idx. cbn [Nat.leb lo Nat.sub]. rewrite HR0, HL0, HL1, S0, R0. unfold H, hs, csub, copp, average.
    cbn [cadd cscal RR_CellOps fst snd]. unfold limit_at. repeat minmax1. lra. }
  rewrite V1, V2, Ft, Ff, !F1, R0, R1. cbn [fst snd]. split; lra.
Qed.

(** ** examples *)
(* a benchmark with walls, named twice, and the limited solver on top of the Lax-Friedrichs one: the theorem applies *)
Example C93_ex eig b a : sw_solver eig (GMCL GLLF) (water_with b ["wall"%string; "wall"%string]) a = sw_solver eig (GMCL GLLF) (water_with b ["wall"%string]) a.
Proof. apply C93_same_water_solver_partial. right. discriminate. Qed.
Example C93_accepted_ex : exists b1 b2 : bconds R, get_boundary_conditions None ["outflow"%string] 2 None None = Ok b1 /\ get_boundary_conditions None ["outflow"%string; "outflow"%string] 2 None None = Ok b2 /\
  get_node_neighbours b2 [1; 2; 3] 2 None = Ok [[1; 1; 1; 2]; [1; 1; 2; 3]; [1; 2; 3; 3]; [2; 3; 3; 3]].
Proof. eexists. eexists. split; [reflexivity|]. split; [reflexivity|]. reflexivity. Qed.
Example C93_limiter_ex : exists nf1 nf2 bc1 bc2, scalar_mcl_getter M_Scalar.Burgers 3 ["periodic"%string] = Ok nf1 /\ scalar_mcl_getter M_Scalar.Burgers 3 ["periodic"%string; "periodic"%string] = Ok nf2 /\
  get_boundary_conditions None ["periodic"%string] 1 None None = Ok bc1 /\ get_boundary_conditions None ["periodic"%string; "periodic"%string] 1 None None = Ok bc2 /\
  neighbours_array [[0; 1; 4]; [0; 1; 2]; [1; 2; 3]; [2; 3; 4]; [3; 4; 0]]%Z <> neighbours_array [[0; 1]; [0; 1; 2]; [1; 2; 3]; [2; 3; 4]; [3; 4]]%Z /\
  fv_rhs nf2 1 bc2 0 [1; 2; 3] = fv_rhs nf1 1 bc1 0 [1; 2; 3].
Proof.
  destruct (scalar_mcl_getter M_Scalar.Burgers 3 ["periodic"%string]) as [nf1|] eqn:E1; [|discriminate].
  destruct (scalar_mcl_getter M_Scalar.Burgers 3 ["periodic"%string; "periodic"%string]) as [nf2|] eqn:E2; [|discriminate].
  eexists. eexists. eexists. eexists. split; [reflexivity|]. split; [reflexivity|]. split; [reflexivity|]. split; [reflexivity|]. split; [discriminate|].
  apply (C93_same_scalar_limiter M_Scalar.Burgers 3 nf1 nf2 _ _ None None); auto.
Qed.
Print Assumptions C93_neighbours.
Print Assumptions C93_accepted.
Print Assumptions C93_same_water_solver_partial.
Print Assumptions C93_same_lax_wendroff.
Print Assumptions C93_same_scalar_solver.
Print Assumptions C93_same_scalar_limiter.
Print Assumptions C93_periodic_twice_refuted.
