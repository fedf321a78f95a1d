(** Symmetries of the shallow water schemes: C61 mirror images, C62 translations and
    uniform flow, C63 schemes that do not keep a lake at rest. *)
From Coq Require Import Reals List ZArith Arith Lia Lra Psatz Bool String.
From Verif Require Import Prelude L_Prelude M_Boundary S_Boundary L_Boundary M_Flux S_Flux L_Flux
  M_Neighbours L_Neighbours M_Scalar S_Scalar L_Scalar M_ODE S_ODE L_ODE M_ShallowWater S_ShallowWater L_ShallowWater L_SWRuns L_SWLow
  L_SWWater L_SWLake L_SWTotal S_Symmetry L_SWNodes L_SWMirror.
Import ListNotations.
Local Open Scope nat_scope.
Open Scope R_scope.
Notation length := List.length.
Notation z2 := (0, 0) (only parsing).

(** ** C61 *)
(** The mirrored problem (bottom, initial state and inflow mirrored, left and right
    condition exchanged) has the mirrored solution: for the right hand side of every
    unlimited scheme and for runs of every Runge-Kutta method. *)
Theorem C61_mirror : forall k gravity b c f1 f2 nf bc,
  scheme k gravity b = Ok nf -> recognised b ->
  get_boundary_conditions (Some reflect) c 1 f1 f2 = Ok bc ->
  exists nf' bc', scheme k gravity (mirror_bottom b) = Ok nf' /\
  get_boundary_conditions (Some reflect) (mirror_conditions c) 1 (mirror_inflow f2) (mirror_inflow f1) = Ok bc' /\
  (forall dx t u v, u <> [] -> one_entry_per_cell b (length u) -> fv_rhs nf dx bc t u = Ok v ->
    fv_rhs nf' dx bc' t (mirror u) = Ok (mirror v)) /\
  (forall T dx dts t0 u0 t1 u1, u0 <> [] -> one_entry_per_cell b (length u0) ->
    rk_run_e (fv_rhs nf dx bc) T dts {| o_time := t0; o_sol := u0 |} = Ok {| o_time := t1; o_sol := u1 |} ->
    rk_run_e (fv_rhs nf' dx bc') T dts {| o_time := t0; o_sol := mirror u0 |} = Ok {| o_time := t1; o_sol := mirror u1 |}).
Proof.
  intros k gravity b c f1 f2 nf bc E Hb B. destruct (kind_law k gravity) as [G [M _ _ _ N]].
  assert (X : exists nf', scheme k gravity (mirror_bottom b) = Ok nf').
  { destruct (recognised_builds _ (recognised_mirror b Hb)) as [p Hp]. eapply scheme_ok; eauto. }
  destruct X as [nf' E']. destruct (mirror_rhs b nf nf' G c f1 f2 bc M (N _ _ E) (N _ _ E') Hb B) as [bc' [B' X]].
  exists nf', bc'. split; auto. split; auto. split.
  - intros dx t u v Hu H1 Ev. apply (X dx t u v); auto.
  - intros T dx dts t0 u0 t1 u1 Hu H1 ER.
    assert (Hn : (1 <= length u0)%nat) by (destruct u0; [congruence|cbn; lia]).
    apply (run_map_list (length u0) mirror (fv_rhs nf dx bc)); auto.
    + intros a d La Ld. apply mirror_add. lia.
    + intros. apply mirror_scal.
    + intros t u v Lu Ev. destruct (X dx t u v) as [A1 A2]; auto; [intros ->; cbn in Lu; lia|rewrite Lu; auto|]. split; [lia|auto].
Qed.
Print Assumptions C61_mirror.
(* the hypotheses are met: two cells over a step, a wall on the left, outflow on the right *)
Example C61_ex : exists nf bc v, scheme LowOrder (Some 1) (BArray [0; 1]) = Ok nf /\ recognised (BArray [0; 1]) /\
  get_boundary_conditions (Some reflect) ["wall"%string; "outflow"%string] 1 None None = Ok bc /\
  one_entry_per_cell (BArray [0; 1]) (length [(2, 1); (1, -1)]) /\
  fv_rhs nf 1 bc 0 [(2, 1); (1, -1)] = Ok v /\ mirror_bottom (BArray [0; 1]) = BArray [1; 0] /\
  mirror [(2, 1); (1, -1)] = [(1, 1); (2, -1)] /\
  mirror_conditions ["wall"%string; "outflow"%string] = ["outflow"%string; "wall"%string].
Proof.
  pose proof epsilon_lt as He.
  assert (G1 : py_or (Some 1) default_gravity = 1) by (cbn; destruct (Reqb_spec 1 0); [lra|reflexivity]).
  destruct (bathymetry_array (BArray [0; 1]) 2 ltac:(lia)) as [p [st [Ep Es]]]; [intros l El; injection El as <-; reflexivity|].
  assert (E1 : sw_low (Some 1) (BArray [0; 1]) = Ok {| nf_dim := 2; nf_call := low_call (Some 1) (snd p) |}) by (unfold sw_low; rewrite Ep; reflexivity).
  destruct (wet_rhs {| nf_dim := 2; nf_call := low_call (Some 1) (snd p) |} ["wall"%string; "outflow"%string] None None
    {| bc_left := [LeftReflecting reflect]; bc_right := [CopyCell (-1)]; bc_periodic := false |} 1 0 [(2, 1); (1, -1)]) as [v Ev]; auto.
  - eapply (low_total (Some 1)); [rewrite G1; lra|exact E1|exact Ep|exact Es].
  - discriminate.
  - intros f [|]; discriminate.
  - intros x [<-|[<-|[]]]; cbn; lra.
  - eexists. eexists. exists v. split; [exact E1|]. split.
    + right. split.
      * exists [0; 1], 1%nat. cbn. rewrite Rabs_pos_eq by lra. split; auto. split; [lia|lra].
      * exists [1; 0], 1%nat. cbn. rewrite Rabs_left by lra. split; auto. split; [lia|lra].
    + split; [reflexivity|]. split; [intros l El; injection El as <-; reflexivity|]. split; [exact Ev|]. split; [reflexivity|].
      split; [|reflexivity]. unfold mirror, mirror_state. cbn. repeat (f_equal; try ring).
Qed.

(** ** C62 *)
(** Numbering the cells of a periodic domain over a flat bottom from another cell on
    only renumbers the result. *)
Theorem C62_translation : forall k gravity b nf m,
  scheme k gravity b = Ok nf -> flat_bottom b ->
  exists bc, get_boundary_conditions (Some reflect) ["periodic"%string] 1 None None = Ok bc /\
  (forall dx t u v, u <> [] -> fv_rhs nf dx bc t u = Ok v -> fv_rhs nf dx bc t (rotate m u) = Ok (rotate m v)) /\
  (forall T dx dts t0 u0 t1 u1, u0 <> [] ->
    rk_run_e (fv_rhs nf dx bc) T dts {| o_time := t0; o_sol := u0 |} = Ok {| o_time := t1; o_sol := u1 |} ->
    rk_run_e (fv_rhs nf dx bc) T dts {| o_time := t0; o_sol := rotate m u0 |} = Ok {| o_time := t1; o_sol := rotate m u1 |}).
Proof.
  intros k gravity b nf m E F. destruct (kind_law k gravity) as [G [_ X _ _ N]].
  eexists. split; [reflexivity|].
  set (bc := {| bc_left := [CopyCell (W := R * R) (-1)]; bc_right := [CopyCell 0]; bc_periodic := true |}).
  assert (A : forall dx t m u v, u <> [] -> fv_rhs nf dx bc t u = Ok v -> length v = length u /\ fv_rhs nf dx bc t (rotate m u) = Ok (rotate m v)).
  { intros dx t m' u v Hu Ev.
    assert (Lv : length v = length u) by apply (rotate_rhs_1 b nf G dx t u v X (N _ _ E) F Hu Ev). split; auto.
    induction m' as [|m' IH]; [unfold rotate; cbn [skipn firstn]; rewrite !app_nil_r; auto|].
    destruct (Nat.lt_ge_cases m' (length u)).
    - rewrite (rotate_S m' u), (rotate_S m' v) by lia. apply (rotate_rhs_1 b nf G dx t _ _ X (N _ _ E) F); auto.
      intro Z. apply (f_equal (@length _)) in Z. rewrite rotate_length in Z. cbn in Z. lia.
    - rewrite !rotate_all by lia. auto. }
  split.
  - intros dx t u v Hu Ev. apply (A dx t m u v Hu Ev).
  - intros T dx dts t0 u0 t1 u1 Hu ER.
    assert (Hn : (1 <= length u0)%nat) by (destruct u0; [congruence|cbn; lia]).
    apply (run_map_list (length u0) (rotate m) (fv_rhs nf dx bc)); auto.
    + intros a d La Ld. apply rotate_add. lia.
    + intros. apply rotate_scal.
    + intros t u v Lu Ev. destruct (A dx t m u v) as [A1 A2]; auto; [intros ->; cbn in Lu; lia|]. split; [lia|auto].
Qed.
Print Assumptions C62_translation.

(** Uniform flow over a flat bottom is kept exactly by every scheme, limited or not,
    with any time steps: periodic, open and inflow boundaries, walls if it is at rest. *)
Theorem C62_uniform_flow : forall k gravity b c il ir high nf bc w n dx T dts t0,
  scheme k gravity b = Ok high -> nf = high \/ sw_mcl gravity b c il ir high = Ok nf ->
  0 < py_or gravity default_gravity -> usable k gravity -> flat_bottom b ->
  get_boundary_conditions (Some reflect) c 1 il ir = Ok bc ->
  (forall f, il = Some f \/ ir = Some f -> forall t, f t = w) -> (In "wall"%string c -> snd w = 0) ->
  0 < fst w -> (1 <= n)%nat -> dx <> 0 ->
  (forall t, fv_rhs nf dx bc t (repeat w n) = Ok (repeat (0, 0) n)) /\
  rk_run_e (fv_rhs nf dx bc) T dts {| o_time := t0; o_sol := repeat w n |} = Ok {| o_time := t0 + rsum dts; o_sol := repeat w n |}.
Proof.
  intros k gravity b c il ir high nf bc w n dx T dts t0 E HN Hg Hu Hb B HI HW Hw Hn Hd.
  destruct (sw_flux_total gravity w ltac:(lra)) as [F HF].
  pose proof (uniform_kind k gravity b high w F E Hg Hu Hb Hw HF) as U.
  assert (U' : uniform_flux w F nf) by (destruct HN as [->|HN]; [auto|eapply uniform_mcl; eauto]).
  assert (A : forall t, fv_rhs nf dx bc t (repeat w n) = Ok (repeat (0, 0) n)) by (intro t; eapply uniform_rhs; eauto). split; auto.
  apply (steady_run (fun l => length l = n) _ T dts t0 (repeat w n) (repeat (0, 0) n)); try apply repeat_length; auto.
  intros [i j]. cbn. assert (Z : nth i (repeat (0, 0) n) (0, 0) = (0, 0)).
  { generalize n. intro m. clear. revert i; induction m; destruct i; simpl; auto. }
  rewrite Z. destruct j; reflexivity.
Qed.
Print Assumptions C62_uniform_flow.

(** Every scheme is defined on wet states: with positive gravity and a positive height
    in every cell and at the inflow the right hand side is computed without an error. *)
Theorem C62_wet_states : forall k gravity b c il ir nf bc dx t u,
  scheme k gravity b = Ok nf -> 0 < py_or gravity default_gravity -> usable k gravity ->
  recognised b -> one_entry_per_cell b (length u) ->
  get_boundary_conditions (Some reflect) c 1 il ir = Ok bc ->
  (forall f, il = Some f \/ ir = Some f -> forall t, 0 < fst (f t)) -> (forall x, In x u -> 0 < fst x) -> u <> [] -> dx <> 0 ->
  exists v, fv_rhs nf dx bc t u = Ok v /\ length v = length u.
Proof.
  intros k gravity b c il ir nf bc dx t u E Hg Hu Hb H1 B HI HU Hne Hd.
  destruct (kind_law k gravity) as [G [_ X W _ N]]. pose proof (W Hg Hu) as WL.
  assert (Hn : (1 <= length u)%nat) by (destruct u; [congruence|cbn; lia]).
  destruct (padded_mirror b (length u) Hn Hb H1) as [beta [P _]].
  destruct (nodes_all (fun x => 0 < fst x) c il ir bc u t B Hne) as [x [e [Ea [Ee [Xi PX]]]]]; auto.
  destruct (conditions_one _ _ _ _ B) as [c1 [c2 [gl [gr [Hc [_ [_ [_ [_ ->]]]]]]]]].
  assert (PE : forall i, (i <= S (length u))%nat -> 0 < fst (nth i e z2)).
  { pose proof (nodes_one _ _ _ _ _ _ Ee) as Z. rewrite Ea in Z. apply Ok_inj in Z. 
    assert (Z1 : tab (S (length u)) x = tab (S (length u)) (fun i => nth i e z2)) by exact (f_equal (fun l => nth 0 l []) Z).
    assert (Z2 : tab (S (length u)) (fun i => x (S i)) = tab (S (length u)) (fun i => nth (S i) e z2)) by exact (f_equal (fun l => nth 1 l []) Z).
    intros i Hi. destruct i as [|i].
    - apply (f_equal (fun l => nth 0 l z2)) in Z1. rewrite !nth_tab in Z1 by lia. rewrite <- Z1. apply PX. lia.
    - apply (f_equal (fun l => nth i l z2)) in Z2. rewrite !nth_tab in Z2 by lia. rewrite <- Z2. apply PX. lia. }
  set (GG := fun i => match G (nth i e z2) (nth (S i) e z2) (beta i) (beta (S i)) with Ok p => p | Err _ => (z2, z2) end).
  exists (tab (length u) (fun i => cscal (1 / dx) (cadd (snd (GG i)) (fst (GG (S i)))))). split; [|apply tab_length].
  apply (rhs_iff b nf G (length u) beta _ _ _ dx t u e _ (N _ _ E) eq_refl Hn P Ee). rewrite tab_length. split; auto. split; auto.
  exists (fun i => fst (GG i)), (fun i => snd (GG i)). split.
  - intros i Hi. unfold GG. destruct (WL (nth i e z2) (nth (S i) e z2) (beta i) (beta (S i))) as [[a d] ->]; auto; apply PE; lia.
  - intros i Hi. rewrite nth_tab by auto. reflexivity.
Qed.
Print Assumptions C62_wet_states.
(* the hypotheses are met: the limited energy stable scheme on uniform flow *)
Example C62_ex : exists high nf bc, scheme (Antidiffusion EnergyStable1 (1/2) 1) (Some 1) BNone = Ok high /\
  sw_mcl (Some 1) BNone ["inflow"%string; "outflow"%string] (Some (fun _ => (2, 3))) None high = Ok nf /\
  get_boundary_conditions (Some reflect) ["inflow"%string; "outflow"%string] 1 (Some (fun _ => (2, 3))) None = Ok bc /\
  rk_run_e (fv_rhs nf 1 bc) ssp3 [1; 2] {| o_time := 0; o_sol := [(2, 3); (2, 3)] |} = Ok {| o_time := 0 + rsum [1; 2]; o_sol := [(2, 3); (2, 3)] |}.
Proof.
  eexists. eexists. eexists. split; [reflexivity|]. split; [reflexivity|]. split; [reflexivity|].
  apply (fun a => proj2 (C62_uniform_flow (Antidiffusion EnergyStable1 (1/2) 1) (Some 1) BNone ["inflow"%string; "outflow"%string]
    (Some (fun _ => (2, 3))) None _ _ _ (2, 3) 2 1 ssp3 [1; 2] 0 eq_refl (or_intror eq_refl) a ltac:(cbn; split; [auto|lra]) I eq_refl
    ltac:(intros f [H|H] t; [injection H as <-; reflexivity|discriminate])
    ltac:(intros [H|[H|[]]]; discriminate) ltac:(cbn; lra) ltac:(lia) ltac:(lra))).
  cbn. destruct (Reqb_spec 1 0); lra.
Qed.

(** The bottom of a periodic problem is not periodic: the program repeats the first and
    the last entry beyond the ends. So the lake at rest below stays at rest when the
    cells are numbered one way and is set in motion when they are numbered another way. *)
Theorem C62_periodic_bottom_refuted : exists bottom u nf nf' bc v,
  get_boundary_conditions (Some reflect) ["periodic"%string] 1 None None = Ok bc /\
  scheme Central (Some 2) (BArray bottom) = Ok nf /\ scheme Central (Some 2) (BArray (rotate 1 bottom)) = Ok nf' /\
  fv_rhs nf 1 bc 0 u = Ok v /\ nth 0 v (0, 0) = (0, -3/2) /\
  fv_rhs nf' 1 bc 0 (rotate 1 u) = Ok [(0, 0); (0, 0); (0, 0)].
Proof.
  pose proof epsilon_lt as He. pose proof epsilon_pos as He0.
  assert (G2 : py_or (Some 2) default_gravity = 2) by (cbn; destruct (Reqb_spec 2 0); [lra|reflexivity]).
  set (bc := {| bc_left := [CopyCell (W := R * R) (-1)]; bc_right := [CopyCell 0]; bc_periodic := true |}).
  assert (FX : forall h, 1 <= h -> sw_flux 2 (h, 0) = Ok (0, h * h)).
  { intros h Hh. unfold sw_flux, sw_flux_eps. destruct (Rltb_spec h 0); [lra|]. destruct (Rltb_spec h epsilon); [lra|]. f_equal.
    f_equal. field. lra. }
  assert (L : forall a b bl br, 1 <= a -> 1 <= b -> add_source 2 (central_at (sw_flux 2)) (a, 0) (b, 0) bl br =
     Ok ((0, - (a * a + b * b) / 2 - (a + b) / 2 * (br - bl)), (0, (a * a + b * b) / 2 - (a + b) / 2 * (br - bl)))).
  { intros a b bl br Ha Hb. unfold add_source, central_at. rewrite !FX by auto. cbn [bind].
    unfold csub, copp, average. cbn [cadd cscal RR_CellOps fst snd]. do 2 f_equal; f_equal; field. }
  assert (BL : forall l x y z, l = [x; y; z] -> bumpy_bottom (BArray l) -> exists nf,
      scheme Central (Some 2) (BArray l) = Ok nf /\ nodewise_sw (BArray l) nf (add_source 2 (central_at (sw_flux 2))) /\
      padded (BArray l) 3 (fun i => nth (Nat.min (i - 1) 2) l 0)).
  { intros l x y z -> Bu. pose proof (bumpy_not_constant _ Bu) as C.
    assert (P : padded (BArray [x; y; z]) 3 (fun i => nth (Nat.min (i - 1) (3 - 1)) [x; y; z] 0)).
    { apply padded_exists; auto; try lia; intros l El; injection El as <-; auto. }
    destruct P as [p [bt [st P]]]. cbn [scheme]. unfold sw_central, with_source. rewrite (proj1 P). cbn [bind]. eexists. split; [reflexivity|].
    split; [|exists p, bt, st; exact P].
    match goal with |- nodewise_sw _ ?nf _ =>
      pose proof (nodewise_source (Some 2) (BArray [x; y; z]) (central (sw_flux (py_or (Some 2) default_gravity))) nf (central_at (sw_flux 2))) as Q end.
    rewrite G2 in Q |- *. apply Q; [reflexivity|intro; reflexivity|]. unfold with_source. rewrite (proj1 P), G2. reflexivity. }
  destruct (BL [0; 0; 1] 0 0 1 eq_refl) as [nf [E1 [N1 P1]]].
  { exists [0; 0; 1], 2%nat. cbn. rewrite Rabs_pos_eq by lra. split; auto. split; [lia|lra]. }
  destruct (BL [0; 1; 0] 0 1 0 eq_refl) as [nf' [E2 [N2 P2]]].
  { exists [0; 1; 0], 1%nat. cbn. rewrite Rabs_pos_eq by lra. split; auto. split; [lia|lra]. }
  exists [0; 0; 1], [(2, 0); (2, 0); (1, 0)], nf, nf', bc, [(0, -3/2); (0, 0); (0, -3/2)].
  split; [reflexivity|]. split; [exact E1|]. split; [exact E2|]. split; [|split].
  - apply (rhs_iff _ nf _ 3 _ _ _ _ 1 0 [(2, 0); (2, 0); (1, 0)] [(1, 0); (2, 0); (2, 0); (1, 0); (2, 0)] _ N1 eq_refl ltac:(lia) P1).
    + reflexivity.
    + split; [lra|]. split; [reflexivity|].
      exists (fun i => nth i [(0, - (5 / 2)); (0, -4); (0, - (5 / 2) - 3 / 2); (0, - (5 / 2))] (0, 0)),
             (fun i => nth i [(0, 5 / 2); (0, 4); (0, 5 / 2 - 3 / 2); (0, 5 / 2)] (0, 0)). split.
      * intros i Hi. destruct i as [|[|[|[|i]]]]; [| | | |lia]; cbn [nth Nat.sub Nat.min]; rewrite L by lra; repeat (f_equal; try field).
      * intros i Hi. destruct i as [|[|[|i]]]; [| | |lia]; cbn [nth]; cbn [cadd cscal RR_CellOps fst snd]; f_equal; field.
  - reflexivity.
  - cbn [rotate skipn firstn app]. apply (rhs_iff _ nf' _ 3 _ _ _ _ 1 0 [(2, 0); (1, 0); (2, 0)] [(2, 0); (2, 0); (1, 0); (2, 0); (2, 0)] _ N2 eq_refl ltac:(lia) P2).
    + reflexivity.
    + split; [lra|]. split; [reflexivity|].
      exists (fun i => nth i [(0, -4); (0, - (5 / 2) - 3 / 2); (0, - (5 / 2) + 3 / 2); (0, -4)] (0, 0)),
             (fun i => nth i [(0, 4); (0, 5 / 2 - 3 / 2); (0, 5 / 2 + 3 / 2); (0, 4)] (0, 0)). split.
      * intros i Hi. destruct i as [|[|[|[|i]]]]; [| | | |lia]; cbn [nth Nat.sub Nat.min]; rewrite L by lra; repeat (f_equal; try field).
      * intros i Hi. destruct i as [|[|[|i]]]; [| | |lia]; cbn [nth]; cbn [cadd cscal RR_CellOps fst snd]; f_equal; field.
Qed.
Print Assumptions C62_periodic_bottom_refuted.

(** ** C63 *)
(** The local Lax-Friedrichs, the energy stable and the Lax-Wendroff solvers do not keep
    a lake at rest: three cells between walls, level 4 above the bottom 0, 2, 3. *)
Theorem C63_lake_at_rest_refuted : forall k gravity,
  k = LaxFriedrichs \/ k = EnergyStable \/ k = EnergyStable1 \/ (exists dt dx, k = LaxWendroff dt dx) ->
  0 < py_or gravity default_gravity -> usable k gravity ->
  exists nf bc v, scheme k gravity (BArray [0; 2; 3]) = Ok nf /\
    get_boundary_conditions (Some reflect) ["wall"%string] 1 None None = Ok bc /\
    lake_at_rest [0; 2; 3] [(4, 0); (2, 0); (1, 0)] /\ resolved [0; 2; 3] /\
    fv_rhs nf 1 bc 0 [(4, 0); (2, 0); (1, 0)] = Ok v /\ v <> repeat (0, 0) 3.
Proof.
  intros k gravity Hk Hg Hu. pose proof epsilon_lt as He. pose proof epsilon_pos as He0. set (g := py_or gravity default_gravity) in *.
  set (u := [(4, 0); (2, 0); (1, 0)]).
  assert (LR : lake_at_rest [0; 2; 3] u).
  { split; [reflexivity|]. exists 4. intros i Hi. unfold u in Hi; cbn [List.length] in Hi. destruct i as [|[|[|i]]]; [| | |lia]; unfold u; cbn [nth fst snd]; lra. }
  assert (RS : resolved [0; 2; 3]).
  { right. exists 1%nat. split; [cbn; lia|]. cbn [nth]. rewrite Rabs_pos_eq; lra. }
  assert (RC : recognised (BArray [0; 2; 3])).
  { right. split; [exists [0; 2; 3], 1%nat|exists [3; 2; 0], 1%nat]; cbn; (split; [reflexivity|split; [lia|]]).
    - rewrite Rabs_pos_eq by lra. lra.
    - rewrite Rabs_left by lra. lra. }
  assert (ON : one_entry_per_cell (BArray [0; 2; 3]) 3) by (intros l El; injection El as <-; reflexivity).
  destruct (recognised_builds _ RC) as [p Hp]. destruct (scheme_ok k gravity _ p Hp) as [nf E].
  set (bc := {| bc_left := [LeftReflecting reflect]; bc_right := [RightReflecting reflect]; bc_periodic := false |}).
  destruct (C62_wet_states k gravity (BArray [0; 2; 3]) ["wall"%string] None None nf bc 1 0 u E Hg Hu RC ON eq_refl) as [v [Ev Lv]];
    [intros f [|]; discriminate|intros x [<-|[<-|[<-|[]]]]; cbn; lra|discriminate|lra|].
  exists nf, bc, v. split; [exact E|]. split; [reflexivity|]. split; [exact LR|]. split; [exact RS|]. split; [exact Ev|].
  assert (P : padded (BArray [0; 2; 3]) 3 (fun i => nth (Nat.min (i - 1) (3 - 1)) [0; 2; 3] 0)).
  { apply padded_exists; auto; try lia; intros l El; injection El as <-; auto. apply bumpy_not_constant.
    exists [0; 2; 3], 1%nat; cbn; (split; [reflexivity|split; [lia|]]). rewrite Rabs_pos_eq by lra. lra. }
  assert (RH : forall G, nodewise_sw (BArray [0; 2; 3]) nf G -> exists fl fr : nat -> state,
    (forall i, (i <= 3)%nat -> G (nth i [(4, 0); (4, 0); (2, 0); (1, 0); (1, 0)] (0, 0)) (nth (S i) [(4, 0); (4, 0); (2, 0); (1, 0); (1, 0)] (0, 0))
       (nth i [0; 0; 2; 3; 3] 0) (nth (S i) [0; 0; 2; 3; 3] 0) = Ok (fl i, fr i)) /\
    forall i, (i < 3)%nat -> nth i v z2 = cscal (1 / 1) (cadd (fr i) (fl (S i)))).
  { intros G N. assert (Ee : extended bc u (Some 0) = Ok [(4, 0); (4, 0); (2, 0); (1, 0); (1, 0)]).
    { assert (RZ : forall h, reflect (h, 0) = (h, 0)) by (intro h; unfold reflect; cbn [fst snd]; f_equal; ring).
      apply extended_one. exists (4, 0), (1, 0). cbn [ghost_value]. unfold u. rewrite (pyget_0 _ z2), (pyget_m1 _ z2) by (cbn; lia).
      cbn [nth bind List.length Nat.sub]. rewrite !RZ. auto. }
    destruct (proj1 (rhs_iff _ nf G 3 _ _ _ _ 1 0 u _ v N eq_refl ltac:(lia) P Ee) Ev) as [_ [_ [fl [fr [Y V]]]]]. exists fl, fr. split; auto.
    intros i Hi. rewrite <- (Y i Hi). destruct i as [|[|[|[|i]]]]; [| | | |lia]; reflexivity. }
  assert (FX : forall h, 1 <= h -> sw_flux g (h, 0) = Ok (0, g * h * h / 2)).
  { intros h Hh. unfold sw_flux, sw_flux_eps. destruct (Rltb_spec h 0); [lra|]. destruct (Rltb_spec h epsilon); [lra|]. f_equal. f_equal. field. lra. }
  assert (SP : forall l r, 0 < fst l -> 0 < fst r -> 0 < sw_max_speed g l r).
  { intros l r Hl Hr. unfold sw_max_speed. pose proof (Rmax_l (Rabs (velocity l) + sqrt (g * fst l)) (Rabs (velocity r) + sqrt (g * fst r))).
    pose proof (Rabs_pos (velocity l)). assert (0 < sqrt (g * fst l)) by (apply sqrt_lt_R0, Rmult_lt_0_compat; auto). lra. }
  assert (LF : forall h h', 1 <= h -> 1 <= h' -> exists o, rs_solve (sw_riemann gravity) (h, 0) (h', 0) = Ok o /\
     fst (ro_flux o) = sw_max_speed g (h, 0) (h', 0) * (h - h') / 2 /\ snd (ro_flux o) = (g * h * h / 2 + g * h' * h' / 2) / 2).
  { intros h h' H1 H2. pose proof (SP (h, 0) (h', 0)) as Hs. cbn [fst] in Hs. specialize (Hs ltac:(lra) ltac:(lra)).
    rewrite (sw_solve gravity _ _ _ _ (FX h H1) (FX h' H2)) by (fold g; lra). eexists. split; [reflexivity|]. unfold sw_out, hll. fold g.
    cbn [ro_flux]. unfold csub, copp. cbn [cadd cscal RR_CellOps fst snd]. split; field; lra. }
  intro Z.
  destruct Hk as [->|[->|[->|[dt [dx ->]]]]].
  - destruct (RH (add_source g (fun l r => bind (rs_solve (sw_riemann gravity) l r) (fun o => Ok (ro_flux o))))) as [fl [fr [Y V]]].
    { cbn [scheme] in E. unfold sw_llf in E. eapply nodewise_source; [| |exact E]; [reflexivity|]. intro a. apply lax_friedrichs_two_point. }
    specialize (V 0%nat ltac:(lia)). rewrite Z in V. cbn [nth repeat] in V. pose proof (Y 0%nat ltac:(lia)) as Y0. pose proof (Y 1%nat ltac:(lia)) as Y1.
    unfold add_source in Y0, Y1. cbn [nth] in Y0, Y1. destruct (LF 4 4) as [o0 [O0 [A0 _]]]; try lra. destruct (LF 4 2) as [o1 [O1 [A1 _]]]; try lra.
    rewrite O0 in Y0. rewrite O1 in Y1. cbn [bind] in Y0, Y1. apply Ok_inj in Y0. apply Ok_inj in Y1. injection Y0 as _ Y0. injection Y1 as Y1 _. rewrite <- Y0, <- Y1 in V.
    unfold csub, copp in V. cbn [cadd cscal RR_CellOps fst snd] in V. injection V as V _. rewrite A0, A1 in V.
    pose proof (SP (4, 0) (2, 0)) as Hs. cbn [fst] in Hs. specialize (Hs ltac:(lra) ltac:(lra)). lra.
  - destruct (RH (add_source g (fun l r => sw_flux g (cavg l r)))) as [fl [fr [Y V]]].
    { cbn [scheme] in E. unfold sw_es in E. eapply nodewise_source; [| |exact E]; [reflexivity|]. intro a. reflexivity. }
    specialize (V 1%nat ltac:(lia)). rewrite Z in V. cbn [nth repeat] in V. pose proof (Y 1%nat ltac:(lia)) as Y1. pose proof (Y 2%nat ltac:(lia)) as Y2.
    unfold add_source, cavg, average in Y1, Y2. cbn [nth fst snd] in Y1, Y2. replace ((0 + 0) / 2) with 0 in Y1, Y2 by field.
    rewrite FX in Y1 by lra. rewrite FX in Y2 by lra. cbn [bind] in Y1, Y2. apply Ok_inj in Y1. apply Ok_inj in Y2. injection Y1 as _ Y1. injection Y2 as Y2 _. rewrite <- Y1, <- Y2 in V.
    unfold csub, copp in V. cbn [cadd cscal RR_CellOps fst snd] in V. injection V as _ V. lra.
  - destruct (RH (es1_law g)) as [fl [fr [Y V]]]; [apply nodewise_es1; exact E|].
    specialize (V 1%nat ltac:(lia)). rewrite Z in V. cbn [nth repeat] in V. pose proof (Y 1%nat ltac:(lia)) as Y1. pose proof (Y 2%nat ltac:(lia)) as Y2.
    assert (VZ : forall h, velocity (h, 0) = 0). { intro h. apply velocity_q0. }
    unfold es1_law, es1_at in Y1, Y2. inv_bind Y1. inv_bind Y1. inv_bind Y2. inv_bind Y2.
    unfold cavg, average in E0, E2. cbn [nth fst snd] in E0, E2. replace ((0 + 0) / 2) with 0 in E0, E2 by field.
    rewrite FX in E0 by lra. rewrite FX in E2 by lra. apply Ok_inj in E0. apply Ok_inj in E2. subst a a1.
    cbn [nth] in Y1, Y2. unfold sw_entropy in Y1, Y2. rewrite !VZ in Y1, Y2.
    apply Ok_inj in Y1. apply Ok_inj in Y2. injection Y1 as _ Y1. injection Y2 as Y2 _. rewrite <- Y1, <- Y2 in V.
    unfold csub, copp, mat_vec, average in V. cbn [cadd cscal RR_CellOps fst snd] in V. injection V as _ V. lra.
  - destruct (RH (plain_law (lw_at gravity dt dx))) as [fl [fr [Y V]]].
    { apply Ok_inj in E. subst nf. apply nodewise_two_point; [reflexivity|intro; reflexivity]. }
    specialize (V 0%nat ltac:(lia)). rewrite Z in V. cbn [nth repeat] in V. pose proof (Y 0%nat ltac:(lia)) as Y0. pose proof (Y 1%nat ltac:(lia)) as Y1.
    unfold plain_law, lw_at in Y0, Y1. cbn [nth] in Y0, Y1. destruct (LF 4 4) as [o0 [O0 [_ A0]]]; try lra. destruct (LF 4 2) as [o1 [O1 [_ A1]]]; try lra.
    rewrite O0 in Y0. rewrite O1 in Y1. cbn [bind] in Y0, Y1. destruct gravity as [g0|] eqn:Eg; [|discriminate].
    inv_bind Y0. inv_bind E0. apply Ok_inj in E0. subst a. inv_bind Y1. inv_bind E0. apply Ok_inj in E0. subst a.
    apply Ok_inj in Y0. apply Ok_inj in Y1. injection Y0 as _ Y0. injection Y1 as Y1 _. rewrite <- Y0, <- Y1 in V.
    unfold csub, copp in V. cbn [cadd cscal RR_CellOps fst snd] in V. injection V as _ V. rewrite A0, A1 in V. lra.
Qed.
Print Assumptions C63_lake_at_rest_refuted.
