(** The limited shallow water scheme treats its two sides differently. *)
From Coq Require Import Reals List ZArith Arith Lia Lra Psatz Bool String.
From Verif Require Import Prelude L_Prelude M_Boundary S_Boundary L_Boundary M_Flux S_Flux L_Flux
  M_Neighbours L_Neighbours M_Scalar S_Scalar L_Scalar M_ODE S_ODE L_ODE M_ShallowWater S_ShallowWater L_ShallowWater L_SWRuns L_SWLow
  L_SWWater L_SWLake L_SWTotal S_Symmetry L_SWNodes L_SWMirror.
Import ListNotations.
Local Open Scope nat_scope.
Open Scope R_scope.
Notation length := List.length.
Notation z2 := (0, 0) (only parsing).

(** one node between wet states: gravity 1, heights [a^2] and [b^2] *)
Lemma node_low a b q r s h d : 1 <= a -> 1 <= b -> s = Rmax (Rabs (q / (a * a)) + a) (Rabs (r / (b * b)) + b) ->
  h = (a * a + b * b) / 2 - (r - q) / (2 * s) -> d = (q + r) / 2 - (r * r / (b * b) + b ^ 4 / 2 - (q * q / (a * a) + a ^ 4 / 2)) / (2 * s) ->
  exists o, low_at (Some 1) (a * a, q) (b * b, r) 0 = Ok o /\ lo_s o = s /\ lo_h o = h /\ lo_hl o = h /\ lo_hr o = h /\ lo_ql o = d /\ lo_qr o = d /\
    lo_outr o = (s * (h - b * b) + r, s * (d - r) + (r * r / (b * b) + b ^ 4 / 2)) /\ 
    lo_outl o = copp (lo_outr o).
Proof.
  intros Ha Hb Es Eh Ed. pose proof epsilon_lt as He. pose proof epsilon_pos as He0.
  assert (G1 : py_or (Some 1) default_gravity = 1) by (cbn; destruct (Reqb_spec 1 0); [lra|reflexivity]).
  assert (Pa : 1 <= a * a) by nra. assert (Pb : 1 <= b * b) by nra.
  assert (FX : forall h q, 1 <= h -> sw_flux 1 (h, q) = Ok (q, q * q / h + h * h / 2)).
  { intros h0 q0 Hh. unfold sw_flux, sw_flux_eps. destruct (Rltb_spec h0 0); [lra|]. destruct (Rltb_spec h0 epsilon); [lra|]. f_equal. f_equal. field. lra. }
  assert (Sp : sw_max_speed 1 (a * a, q) (b * b, r) = s).
  { unfold sw_max_speed, velocity. cbn [fst]. rewrite !velocity_wet by lra. rewrite !Rmult_1_l, !sqrt_square by lra. auto. }
  assert (Hs : 0 < s). { rewrite Es. eapply Rlt_le_trans; [|apply Rmax_l]. pose proof (Rabs_pos (q / (a * a))). lra. }
  exists (low_out (Some 1) (a * a, q) (b * b, r) (q, q * q / (a * a) + a * a * (a * a) / 2) (r, r * r / (b * b) + b * b * (b * b) / 2) 0).
  split; [apply low_at_ok; rewrite G1; [apply FX; auto|apply FX; auto|rewrite Sp; lra]|].
  unfold low_out, hll. rewrite G1, Sp. cbn [lo_s lo_h lo_hl lo_hr lo_ql lo_qr lo_outl lo_outr fst snd]. rewrite fix_0.
  unfold copp. cbn [cscal RR_CellOps fst snd]. subst h d.
  repeat match goal with |- _ /\ _ => split end; try reflexivity; try (apply injective_projections; cbn [fst snd]); field; repeat split; lra.
Qed.

(** the two-cell problem with open ends *)
Definition nodes4 (a b q r : R) (i : nat) : state := nth i [(a * a, q); (a * a, q); (b * b, r); (b * b, r)] (0, 0).
Lemma two_cells a b q r nf bc :
  bc = {| bc_left := [CopyCell 0]; bc_right := [CopyCell (-1)]; bc_periodic := false |} ->
  forall fl fr, nf_dim nf = 2%nat -> nf_call nf [tab 3 (nodes4 a b q r); tab 3 (fun i => nodes4 a b q r (S i))] = Ok (tab 3 fl, tab 3 fr) ->
  fv_rhs nf 1 bc 0 [(a * a, q); (b * b, r)] = Ok [cscal (1 / 1) (cadd (fr 0%nat) (fl 1%nat)); cscal (1 / 1) (cadd (fr 1%nat) (fl 2%nat))].
Proof.
  intros -> fl fr D E. unfold fv_rhs. rewrite D. change (2 / 2)%nat with 1%nat.
  rewrite (nodes_one _ _ _ _ _ [(a * a, q); (a * a, q); (b * b, r); (b * b, r)]) by reflexivity. cbn [bind length].
  change (tab 3 (fun i => nth i [(a * a, q); (a * a, q); (b * b, r); (b * b, r)] z2)) with (tab 3 (nodes4 a b q r)).
  change (tab 3 (fun i => nth (S i) [(a * a, q); (a * a, q); (b * b, r); (b * b, r)] z2)) with (tab 3 (fun i => nodes4 a b q r (S i))).
  rewrite E. cbn [bind fst snd]. unfold cells_from_nodes. rewrite rdiv_ne by lra. reflexivity.
Qed.

Lemma limited_call bc lo H high x : length (bc_left bc) = 1%nat -> bc_periodic bc = false ->
  (forall i, (i < 3)%nat -> low_at (Some 1) (x i) (x (S i)) 0 = Ok (lo i)) -> mcl_well 2 lo ->
  (exists hl, nf_call high [tab 3 x; tab 3 (fun i => x (S i))] = Ok (hl, tab 3 H)) ->
  sw_mcl_call (W := state) (Some 1) [0] bc high [tab 3 x; tab 3 (fun i => x (S i))] =
  Ok (tab 3 (fun i => cadd (lo_outl (lo i)) (copp (fh_ false 2 lo H i, fq_ false 2 lo H i))),
      tab 3 (fun i => cadd (lo_outr (lo i)) (fh_ false 2 lo H i, fq_ false 2 lo H i))).
Proof.
  intros B Bp L W [hl EH]. unfold sw_mcl_call. rewrite (required_two _ 1) by (cbn; lia). cbn [nth Nat.sub bind].
  rewrite (low_all_ok (Some 1) [0] (repeat 0 3) 3 x lo).
  - cbn [bind]. rewrite EH. cbn [bind snd]. rewrite (mcl_limit_ok false 2 lo H bc B ltac:(lia) Bp W). cbn [bind mp_fh mp_fq].
    rewrite combine_tab, !map_tab, !map2_tab. reflexivity.
  - reflexivity.
  - intros i Hi. rewrite nth_repeat0. apply L. auto.
Qed.
Ltac minmax1 :=
  match goal with
  | |- context [Rmax ?x ?y] =>
      lazymatch x with context [Rmax _ _] => fail | context [Rmin _ _] => fail | _ => idtac end;
      lazymatch y with context [Rmax _ _] => fail | context [Rmin _ _] => fail | _ => idtac end;
      first [rewrite (Rmax_left x y) by lra | rewrite (Rmax_right x y) by lra]
  | |- context [Rmin ?x ?y] =>
      lazymatch x with context [Rmax _ _] => fail | context [Rmin _ _] => fail | _ => idtac end;
      lazymatch y with context [Rmax _ _] => fail | context [Rmin _ _] => fail | _ => idtac end;
      first [rewrite (Rmin_left x y) by lra | rewrite (Rmin_right x y) by lra]
  end.

(** The mirror image of a run is not a run: two cells with open ends, height 1 and
    discharge 2 next to resting water of height 4. The velocity limiter scales the
    bounds of both neighbours of a node with the limited height of the right one
    (solver/mcl.py L147-172). *)
Theorem C61_limited_mirror_refuted : exists high nf bc v v',
  sw_central (Some 1) BNone = Ok high /\ sw_mcl (Some 1) BNone ["outflow"%string] None None high = Ok nf /\
  get_boundary_conditions (Some reflect) ["outflow"%string] 1 None None = Ok bc /\
  fv_rhs nf 1 bc 0 [(1, 2); (4, 0)] = Ok v /\ fv_rhs nf 1 bc 0 (mirror [(1, 2); (4, 0)]) = Ok v' /\
  snd (nth 1 (mirror v) (0, 0)) = 7 / 2 /\ snd (nth 1 v' (0, 0)) = 77 / 17.
Proof.
  pose proof epsilon_lt as He. pose proof epsilon_pos as He0.
  assert (G1 : py_or (Some 1) default_gravity = 1) by (cbn; destruct (Reqb_spec 1 0); [lra|reflexivity]).
  set (bc := {| bc_left := [CopyCell (W := R * R) 0]; bc_right := [CopyCell (-1)]; bc_periodic := false |}).
  eexists. eexists. exists bc.
  assert (FX : forall h q, 1 <= h -> sw_flux 1 (h, q) = Ok (q, q * q / h + h * h / 2)).
  { intros h0 q0 Hh. unfold sw_flux, sw_flux_eps. destruct (Rltb_spec h0 0); [lra|]. destruct (Rltb_spec h0 epsilon); [lra|]. f_equal. f_equal. field. lra. }
  set (high := {| nf_dim := 2; nf_call := wrapped_call 1 [0] (central (sw_flux 1)) |}).
  set (nf := {| nf_dim := 2; nf_call := sw_mcl_call (Some 1) [0] bc high |}).
  assert (CH : forall x (h q : nat -> R), (forall i, (i <= 3)%nat -> x i = (h i, q i) /\ 1 <= h i) -> exists hl,
     nf_call high [tab 3 x; tab 3 (fun i => x (S i))] = Ok (hl, tab 3 (fun i => (average (q i) (q (S i)),
       average (q i * q i / h i + h i * h i / 2) (q (S i) * q (S i) / h (S i) + h (S i) * h (S i) / 2))))).
  { intros x h q X.
    assert (N : nodewise_sw BNone high (add_source 1 (central_at (sw_flux 1)))).
    { pose proof (nodewise_source (Some 1) BNone (central (sw_flux 1)) high (central_at (sw_flux 1))) as Q. rewrite G1 in Q. apply Q; [reflexivity|intro; reflexivity|].
      unfold with_source. rewrite G1. reflexivity. }
    destruct N as [_ N]. eexists.
    apply (N 2%nat x (fun _ => 0) (tab 3 (fun i => copp (average (q i) (q (S i)),
       average (q i * q i / h i + h i * h i / 2) (q (S i) * q (S i) / h (S i) + h (S i) * h (S i) / 2)))) _ ltac:(lia) (padded_flat BNone 2 ltac:(intros l El; discriminate El))).
    rewrite !tab_length. split; auto. split; auto. intros i Hi. rewrite !nth_tab by lia.
    destruct (X i ltac:(lia)) as [-> H1]. destruct (X (S i) ltac:(lia)) as [-> H2]. unfold add_source, central_at. rewrite !FX by auto. cbn [bind].
    unfold csub, copp, average. cbn [cadd cscal RR_CellOps fst snd]. do 2 f_equal; f_equal; field; lra. }
  assert (A : exists v, fv_rhs nf 1 bc 0 [(1 * 1, 2); (2 * 2, 0)] = Ok v /\ length v = 2%nat /\ snd (nth 0 v (0, 0)) = - 7 / 2).
  { destruct (node_low 1 1 2 2 3 1 2) as [o0 [E0 [S0 [H0 [HL0 [HR0 [QL0 [QR0 [R0 L0]]]]]]]]]; try lra;
      [replace (2 / (1 * 1)) with 2 by field; rewrite Rabs_pos_eq by lra; rewrite Rmax_left; lra|].
    destruct (node_low 1 2 2 0 3 (17/6) (5/12)) as [o1 [E1 [S1 [H1 [HL1 [HR1 [QL1 [QR1 [R1 L1]]]]]]]]]; try lra;
      [replace (2 / (1 * 1)) with 2 by field; replace (0 / (2 * 2)) with 0 by field; rewrite Rabs_R0, Rabs_pos_eq by lra; rewrite Rmax_left; lra|].
    destruct (node_low 2 2 0 0 2 4 0) as [o2 [E2 [S2 [H2 [HL2 [HR2 [QL2 [QR2 [R2 L2]]]]]]]]]; try lra;
      [replace (0 / (2 * 2)) with 0 by field; rewrite Rabs_R0; rewrite Rmax_left; lra|].
    set (lo := fun i => match i with O => o0 | S O => o1 | _ => o2 end).
    destruct (CH (nodes4 1 2 2 0) (fun i => match i with O | S O => 1 * 1 | _ => 2 * 2 end) (fun i => match i with O | S O => 2 | _ => 0 end)) as [hl EH].
    { intros i Hi. destruct i as [|[|[|[|i]]]]; [| | | |lia]; (split; [reflexivity|lra]). }
    match type of EH with _ = Ok (_, tab 3 ?f) => set (H := f) in EH end.
    eexists. split; [|split].
    - apply (two_cells 1 2 2 0 nf bc eq_refl); [reflexivity|]. apply (limited_call bc lo H high); auto.
      + intros i Hi. destruct i as [|[|[|i]]]; [exact E0|exact E1|exact E2|lia].
      + intros i Hi. destruct i as [|[|[|i]]]; [| | |lia]; cbn [lo]; rewrite ?S0, ?HL0, ?HR0, ?H0, ?S1, ?HL1, ?HR1, ?H1, ?S2, ?HL2, ?HR2, ?H2; repeat split; lra.
      + exists hl. exact EH.
    - reflexivity.
    - cbn [nth].
      assert (FH0 : fh_ false 2 lo H 0 = 0).
      { unfold fh_, hmax_, hmin_, cl_idx, cr_idx. cbn [Nat.leb lo]. rewrite HR0, HL0, HL1, S0, R0. unfold H, csub, copp, average.
        cbn [cadd cscal RR_CellOps fst snd]. unfold limit_at. repeat minmax1. lra. }
      assert (FQ0 : fq_ false 2 lo H 0 = 0).
      { unfold fq_, vmax_, vmin_, wl_, wr_, corr_, lh_. rewrite FH0. unfold vb_, cl_idx, cr_idx. cbn [Nat.leb lo].
        rewrite HR0, HL0, HR1, HL1, QL0, QR0, QL1, QR1, H0, H1, S0, R0. unfold H, csub, copp, average.
        cbn [cadd cscal RR_CellOps fst snd]. unfold vlimit_at, max4, min4. repeat minmax1. lra. }
      assert (FH1 : fh_ false 2 lo H 1 = 7 / 2).
      { unfold fh_, hmax_, hmin_, cl_idx, cr_idx. cbn [Nat.leb lo]. rewrite HR0, HR1, HL1, HL2, S1, R1. unfold H, csub, copp, average.
        cbn [cadd cscal RR_CellOps fst snd]. unfold limit_at. repeat minmax1. lra. }
      assert (FQ1 : fq_ false 2 lo H 1 = - 5 / 4).
      { unfold fq_, vmax_, vmin_, wl_, wr_, corr_, lh_. rewrite FH1. unfold vb_, cl_idx, cr_idx. cbn [Nat.leb lo].
        rewrite HR0, HL0, HR1, HL1, HR2, HL2, QL0, QR0, QL1, QR1, QL2, QR2, H0, H1, H2, S1, R1. unfold H, csub, copp, average.
        cbn [cadd cscal RR_CellOps fst snd]. unfold vlimit_at, max4, min4. repeat minmax1. lra. }
      rewrite FH0, FQ0, FH1, FQ1. cbn [lo]. rewrite R0, L1, R1. unfold copp. cbn [cadd cscal RR_CellOps fst snd]. lra. }
  assert (B : exists v, fv_rhs nf 1 bc 0 [(2 * 2, 0); (1 * 1, -2)] = Ok v /\ length v = 2%nat /\ snd (nth 1 v (0, 0)) = 77 / 17).
  { destruct (node_low 2 2 0 0 2 4 0) as [o0 [E0 [S0 [H0 [HL0 [HR0 [QL0 [QR0 [R0 L0]]]]]]]]]; try lra;
      [replace (0 / (2 * 2)) with 0 by field; rewrite Rabs_R0; rewrite Rmax_left; lra|].
    destruct (node_low 2 1 0 (-2) 3 (17/6) (-5/12)) as [o1 [E1 [S1 [H1 [HL1 [HR1 [QL1 [QR1 [R1 L1]]]]]]]]]; try lra;
      [replace (-2 / (1 * 1)) with (-2) by field; replace (0 / (2 * 2)) with 0 by field; rewrite Rabs_R0, Rabs_left by lra; rewrite Rmax_right; lra|].
    destruct (node_low 1 1 (-2) (-2) 3 1 (-2)) as [o2 [E2 [S2 [H2 [HL2 [HR2 [QL2 [QR2 [R2 L2]]]]]]]]]; try lra;
      [replace (-2 / (1 * 1)) with (-2) by field; rewrite Rabs_left by lra; rewrite Rmax_left; lra|].
    set (lo := fun i => match i with O => o0 | S O => o1 | _ => o2 end).
    destruct (CH (nodes4 2 1 0 (-2)) (fun i => match i with O | S O => 2 * 2 | _ => 1 * 1 end) (fun i => match i with O | S O => 0 | _ => -2 end)) as [hl EH].
    { intros i Hi. destruct i as [|[|[|[|i]]]]; [| | | |lia]; (split; [reflexivity|lra]). }
    match type of EH with _ = Ok (_, tab 3 ?f) => set (H := f) in EH end.
    eexists. split; [|split].
    - apply (two_cells 2 1 0 (-2) nf bc eq_refl); [reflexivity|]. apply (limited_call bc lo H high); auto.
      + intros i Hi. destruct i as [|[|[|i]]]; [exact E0|exact E1|exact E2|lia].
      + intros i Hi. destruct i as [|[|[|i]]]; [| | |lia]; cbn [lo]; rewrite ?S0, ?HL0, ?HR0, ?H0, ?S1, ?HL1, ?HR1, ?H1, ?S2, ?HL2, ?HR2, ?H2; repeat split; lra.
      + exists hl. exact EH.
    - reflexivity.
    - cbn [nth].
      assert (FH2 : fh_ false 2 lo H 2 = 0).
      { unfold fh_, hmax_, hmin_, cl_idx, cr_idx. cbn [Nat.leb lo]. rewrite HR1, HR2, HL2, S2, R2. unfold H, csub, copp, average.
        cbn [cadd cscal RR_CellOps fst snd]. unfold limit_at. repeat minmax1. lra. }
      assert (FQ2 : fq_ false 2 lo H 2 = 0).
      { unfold fq_, vmax_, vmin_, wl_, wr_, corr_, lh_. rewrite FH2. unfold vb_, cl_idx, cr_idx. cbn [Nat.leb lo].
        rewrite HR1, HL1, HR2, HL2, QL1, QR1, QL2, QR2, H1, H2, S2, R2. unfold H, csub, copp, average.
        cbn [cadd cscal RR_CellOps fst snd]. unfold vlimit_at, max4, min4. repeat minmax1. lra. }
      assert (FH1 : fh_ false 2 lo H 1 = - 7 / 2).
      { unfold fh_, hmax_, hmin_, cl_idx, cr_idx. cbn [Nat.leb lo]. rewrite HR0, HR1, HL1, HL2, S1, R1. unfold H, csub, copp, average.
        cbn [cadd cscal RR_CellOps fst snd]. unfold limit_at. repeat minmax1. lra. }
      assert (FQ1 : fq_ false 2 lo H 1 = - 15 / 68).
      { unfold fq_, vmax_, vmin_, wl_, wr_, corr_, lh_. rewrite FH1. unfold vb_, cl_idx, cr_idx. cbn [Nat.leb lo].
        rewrite HR0, HL0, HR1, HL1, HR2, HL2, QL0, QR0, QL1, QR1, QL2, QR2, H0, H1, H2, S1, R1. unfold H, csub, copp, average.
        cbn [cadd cscal RR_CellOps fst snd]. unfold vlimit_at, max4, min4. repeat minmax1. lra. }
      rewrite FH2, FQ2, FH1, FQ1. cbn [lo]. rewrite L2, R2, R1. unfold copp. cbn [cadd cscal RR_CellOps fst snd]. lra. }
  destruct A as [v [EA [La VA]]]. destruct B as [v' [EB [Lb VB]]]. exists v, v'.
  split; [unfold sw_central, with_source; rewrite G1; reflexivity|]. split; [reflexivity|]. split; [reflexivity|].
  replace (1 * 1) with 1 in EA, EB by ring. replace (2 * 2) with 4 in EA, EB by ring. split; [exact EA|].
  replace (mirror [(1, 2); (4, 0)]) with [(4, 0); (1, -2)] by (unfold mirror, mirror_state; cbn; repeat (f_equal; try ring)).
  split; [exact EB|]. split; [|exact VB]. rewrite nth_mirror by lia. rewrite La. cbn [Nat.sub]. unfold mirror_state. cbn [snd]. lra.
Qed.
Print Assumptions C61_limited_mirror_refuted.
