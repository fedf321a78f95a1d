From Coq Require Import Reals List ZArith Arith Lia Lra Psatz Bool String.
From Verif Require Import Prelude L_Prelude M_Boundary S_Boundary L_Boundary M_Flux S_Flux L_Flux
  M_Neighbours L_Neighbours M_Scalar S_Scalar L_Scalar M_ODE S_ODE L_ODE M_ShallowWater S_ShallowWater L_ShallowWater L_SWRuns L_SWLow.
Import ListNotations.
Local Open Scope nat_scope.
Open Scope R_scope.
Notation length := List.length.

Notation z2 := (0, 0) (only parsing).

(* no water is lost at inner nodes, nor at walls, nor over a periodic boundary *)
Definition tight (per : Prop) (nf : nflux state) : Prop :=
  nf_dim nf = 2%nat /\
  forall n vl vr fl fr, (1 <= n)%nat -> length vl = S n -> length vr = S n -> nf_call nf [vl; vr] = Ok (fl, fr) ->
    length fl = S n /\ length fr = S n /\
    (forall i, (i <= n)%nat -> fst (nth i fl z2) = - fst (nth i fr z2)) /\
    (forall i, i = 0%nat \/ i = n -> nth i vl z2 = reflect (nth i vr z2) -> fst (nth i fr z2) = 0) /\
    (per -> nth 0 vl z2 = nth n vl z2 -> nth 0 vr z2 = nth n vr z2 -> fst (nth 0 fr z2) = fst (nth n fr z2)).

Lemma tight_ext per nf nf' : nf_dim nf = nf_dim nf' -> (forall a, nf_call nf a = nf_call nf' a) -> tight per nf' -> tight per nf.
Proof. intros D E [D' T]. split; [congruence|]. intros n vl vr fl fr. rewrite E. apply T. Qed.

Lemma tight_two_point per (F : state -> state -> result state) :
  (forall r f, F (reflect r) r = Ok f -> fst f = 0) -> tight per (two_point F).
Proof.
  intro HF. split; [reflexivity|]. intros n vl vr fl fr Hn Ll Lr E.
  destruct (two_point_call F [vl; vr] fl fr (S n)) as [vl' [vr' [Ea [_ [_ [-> [Lf V]]]]]]]; auto.
  injection Ea as <- <-. change (@czero (R * R) RR_CellOps) with z2 in V.
  split; [unfold vneg; rewrite map_length; auto|]. split; auto. split; [|split].
  - intros i Hi. exact (nth_vneg fr i true ltac:(lia)).
  - intros i Hi Er. specialize (V i ltac:(lia)). rewrite Er in V. eauto.
  - intros _ E1 E2. pose proof (V 0%nat ltac:(lia)) as V0. rewrite E1, E2, (V n) in V0 by lia.
    apply Ok_inj in V0. rewrite V0. reflexivity.
Qed.

(** ** point values at a wall *)
Lemma velocity_reflect r : velocity (reflect r) = - velocity r.
Proof.
  destruct r as [h q]. unfold reflect, velocity. cbn [fst snd]. replace (q * -1) with (- q) by ring. apply velocity_opp.
Qed.
Lemma flux_reflect g r fl fr : sw_flux g (reflect r) = Ok fl -> sw_flux g r = Ok fr -> fst fl = - fst fr /\ snd fl = snd fr.
Proof.
  destruct r as [h q]. unfold reflect, sw_flux, sw_flux_eps. cbn [fst snd]. destruct (Rltb_spec h 0); [discriminate|].
  destruct (Rltb_spec h epsilon); intros E1 E2; apply Ok_inj in E1, E2; subst; cbn [fst snd]; split; try ring.
  unfold Rdiv. ring.
Qed.

Section G.
Context (gravity : option R).
Let g := py_or gravity default_gravity.

Lemma llf_wall r o : rs_solve (sw_riemann gravity) (reflect r) r = Ok o -> fst (ro_flux o) = 0.
Proof.
  intro E. destruct (sw_solve_inv gravity _ _ _ E) as [fl [fr [F1 [F2 [Hs ->]]]]].
  destruct (flux_reflect _ _ _ _ F1 F2) as [A _]. unfold sw_out. cbn [ro_flux]. unfold csub, copp, hll. cbn [cadd cscal RR_CellOps fst].
  rewrite A. change (fst (reflect r)) with (fst r). field. exact Hs.
Qed.
Lemma central_wall r f : central_at (sw_flux g) (reflect r) r = Ok f -> fst f = 0.
Proof.
  intro E. unfold central_at in E. inv_bind E. inv_bind E. apply Ok_inj in E. subst f.
  destruct (flux_reflect _ _ _ _ E0 E1) as [A _]. cbn [cadd cscal RR_CellOps fst]. rewrite A. ring.
Qed.
Lemma es_wall r f : sw_flux g (cavg (reflect r) r) = Ok f -> fst f = 0.
Proof.
  destruct r as [h q]. unfold cavg, reflect, average. cbn [fst snd]. intro E. apply sw_flux_ok in E as [_ [E1 E2]].
  destruct (Rlt_le_dec ((h + h) / 2) epsilon) as [H|H].
  - rewrite (E1 H). reflexivity.
  - rewrite (E2 H). cbn [fst]. field.
Qed.
Lemma lw_wall dt dx r f : lw_at gravity dt dx (reflect r) r = Ok f -> fst f = 0.
Proof.
  intro E. unfold lw_at in E. inv_bind E. destruct gravity as [g0|] eqn:Eg; [|discriminate]. inv_bind E. apply Ok_inj in E. subst f.
  rewrite <- Eg in E0. pose proof (llf_wall r _ E0) as A. unfold csub, copp. cbn [cadd cscal RR_CellOps fst]. rewrite A.
  change (fst (reflect r)) with (fst r). ring.
Qed.
Lemma low_wall r o : low_at gravity (reflect r) r 0 = Ok o -> fst (lo_outr o) = 0.
Proof.
  intro E. destruct (low_at_inv gravity _ _ _ _ E) as [fl [fr [F1 [F2 [Hs ->]]]]].
  destruct (flux_reflect _ _ _ _ F1 F2) as [A _]. unfold low_out. cbn [lo_outr fst]. rewrite fix_0. unfold hll. cbn [fst].
  rewrite A. change (fst (reflect r)) with (fst r). field. exact Hs.
Qed.
Lemma es1_wall r b p : es1_at g (reflect r) r b b 0 = Ok p -> fst (snd p) = 0.
Proof.
  intro E. unfold es1_at in E. inv_bind E. inv_bind E. apply Ok_inj in E. subst p. cbn [snd].
  pose proof (es_wall r _ E0) as A. unfold diffusion_matrix in E1. inv_bind E1. apply Ok_inj in E1. subst a0.
  destruct r as [h q]. unfold cavg, reflect, average, sw_entropy. cbn [fst snd].
  replace ((q * -1 + q) / 2) with 0 by field. unfold velocity at 1 2. rewrite velocity_q0.
  pose proof (velocity_reflect (h, q)) as Vr. unfold reflect in Vr. cbn [fst snd] in Vr. rewrite Vr.
  set (c := sqrt (g * ((h + h) / 2))).
  assert (C0 : 0 <= c) by apply sqrt_pos. set (v := velocity (h, q)).
  unfold mat_vec, mat_mul, mat_scal, mat_transpose, csub, copp. cbn [cadd cscal RR_CellOps fst snd].
  unfold velocity. rewrite velocity_q0.
  replace (Rabs (0 - c)) with c by (rewrite Rabs_left1 by lra; ring). rewrite (Rabs_pos_eq (0 + c)) by lra.
  rewrite A. field.
Qed.
End G.

(** ** schemes *)
Lemma tight_source per gravity b nf nf' : with_source gravity b nf = Ok nf' -> tight per nf -> tight per nf'.
Proof.
  intros E [D T]. unfold with_source in E. inv_bind E. apply Ok_inj in E. subst nf'. split; [exact D|].
  cbn [nf_call]. intros n vl vr fl fr Hn Ll Lr E. unfold wrapped_call in E. inv_bind E. destruct a0 as [fl0 fr0].
  rewrite (required_two _ 1) in E by (cbn; lia). cbn [bind nth Nat.sub fst snd] in E. inv_bind E. apply Ok_inj in E. injection E as <- <-.
  destruct (T n vl vr fl0 fr0 Hn Ll Lr E1) as [L1 [L2 [T1 [T2 T3]]]].
  unfold source_term in E2. inv_bind E2. apply Ok_inj in E2. subst a0. apply broadcast_length in E.
  set (src := map2 _ (combine vl vr) _).
  assert (Ls : length src = S n) by (unfold src; rewrite map2_length, combine_length; lia).
  assert (Vs : forall i, (i <= n)%nat -> fst (nth i src z2) = 0).
  { intros i Hi. unfold src. rewrite (nth_map2 _ _ _ i (z2, z2) 0) by (rewrite ?combine_length; lia). reflexivity. }
  assert (Vl : forall x i, length x = S n -> (i <= n)%nat -> fst (nth i (map2 csub x src) z2) = fst (nth i x z2)).
  { intros x i Lx Hi. rewrite (nth_map2 _ _ _ i z2 z2) by lia. unfold csub, copp. cbn [cadd cscal RR_CellOps fst].
    rewrite Vs by auto. ring. }
  rewrite !map2_length. repeat match goal with |- _ /\ _ => split end; try lia.
  - intros i Hi. rewrite !Vl by auto. auto.
  - intros i Hi Er. rewrite Vl by (auto; lia). auto.
  - intros P E1' E2'. rewrite !Vl by (auto; lia). auto.
Qed.

Lemma two_lists n (vl vr : list state) : length vl = S n -> length vr = S n ->
  vl = tab (S n) (fun i => nth i vl z2) /\ vr = tab (S n) (fun i => nth i vr z2).
Proof. intros L1 L2. split; [rewrite (list_tab z2 vl) at 1; rewrite L1|rewrite (list_tab z2 vr) at 1; rewrite L2]; reflexivity. Qed.

Lemma low_all_nth gravity step n vl vr o : length vl = S n -> length vr = S n -> low_all gravity step vl vr = Ok o ->
  exists st, broadcast (S n) step = Ok st /\ length o = S n /\
  forall i, (i <= n)%nat -> low_at gravity (nth i vl z2) (nth i vr z2) (nth i st 0) = Ok (nth i o low0).
Proof.
  intros Ll Lr E. unfold low_all in E. inv_bind E. rewrite Ll in E0. exists a. split; auto.
  pose proof (broadcast_length _ _ _ E0) as La.
  destruct (mapM_nth _ _ _ ((z2, z2), 0) low0 E) as [M1 M2]. rewrite !combine_length in *.
  split; [lia|]. intros i Hi. specialize (M2 i ltac:(lia)).
  rewrite combine_nth in M2 by (rewrite combine_length; lia). rewrite combine_nth in M2 by lia. exact M2.
Qed.

Lemma tight_low per gravity b nf : sw_low gravity b = Ok nf -> tight per nf.
Proof.
  intro E. unfold sw_low in E. inv_bind E. apply Ok_inj in E. subst nf. split; [reflexivity|].
  cbn [nf_call]. intros n vl vr fl fr Hn Ll Lr E. unfold low_call in E. inv_bind E. apply Ok_inj in E. injection E as <- <-.
  destruct (low_all_nth _ _ _ _ _ _ Ll Lr E1) as [st [Hst [Lo V]]].
  destruct (bathymetry_steps _ _ _ _ E0 Hst) as [_ [S0 [Sn _]]].
  rewrite !map_length. split; auto. split; auto.
  assert (Vo : forall i, (i <= n)%nat -> nth i (map lo_outl a0) z2 = lo_outl (nth i a0 low0) /\
    nth i (map lo_outr a0) z2 = lo_outr (nth i a0 low0)).
  { intros i Hi. split; apply nth_map'; lia. }
  split; [|split].
  - intros i Hi. destruct (Vo i Hi) as [-> ->]. apply (low_heights _ _ _ _ _ (V i Hi)).
  - intros i Hi Er. destruct (Vo i) as [_ ->]; [lia|]. specialize (V i ltac:(lia)). rewrite Er in V.
    apply (low_wall gravity (nth i vr z2)). destruct Hi; subst i; rewrite ?S0, ?Sn in V; exact V.
  - intros _ E2 E3. destruct (Vo 0%nat) as [_ ->]; [lia|]. destruct (Vo n) as [_ ->]; [lia|].
    pose proof (V 0%nat ltac:(lia)) as V0. pose proof (V n ltac:(lia)) as Vn. rewrite E2, E3, S0 in V0. rewrite Sn in Vn.
    rewrite V0 in Vn. apply Ok_inj in Vn. rewrite Vn. reflexivity.
Qed.

(* the padded bottom has equal values on both sides of the end nodes *)
Lemma bottom_ends b p n bt : build_bathymetry b = Ok p -> (1 <= n)%nat -> broadcast (S (S n)) (fst p) = Ok bt ->
  length bt = S (S n) /\ nth 0 bt 0 = nth 1 bt 0 /\ nth n bt 0 = nth (S n) bt 0.
Proof.
  intros E Hn C. pose proof (broadcast_length _ _ _ C) as Lb. split; auto.
  assert (Z : fst p = [0] -> nth 0 bt 0 = nth 1 bt 0 /\ nth n bt 0 = nth (S n) bt 0).
  { intro H. rewrite H in C. destruct (broadcast_zero _ _ C) as [_ Z]. rewrite !Z. auto. }
  destruct b as [| x | l]; cbn [build_bathymetry] in E.
  1,2: apply Ok_inj in E; subst p; auto.
  inv_bind E. destruct a; [apply Ok_inj in E; subst p; auto|].
  inv_bind E. inv_bind E. apply Ok_inj in E. subst p. cbn [fst] in C.
  assert (Hl : (1 <= length l)%nat) by (destruct l; [discriminate|cbn; lia]).
  rewrite (pyget_0 l 0) in E1 by lia. rewrite (pyget_m1 l 0) in E2 by lia. apply Ok_inj in E1, E2. subst a a0.
  unfold broadcast in C. set (pad := nth 0 l 0 :: l ++ [nth (length l - 1) l 0]) in *.
  assert (Lp : length pad = S (S (length l))) by (unfold pad; cbn; rewrite app_length; cbn; lia).
  rewrite Lp in C. destruct (Nat.eqb_spec (S (S (length l))) (S (S n))).
  - apply Ok_inj in C. subst bt. unfold pad. cbn [nth]. rewrite app_nth1 by lia. split; auto.
    assert (Hln : length l = n) by lia.
    rewrite app_nth2 by lia. replace (n - length l)%nat with 0%nat by lia. cbn [nth].
    destruct n; [lia|]. cbn [nth]. rewrite app_nth1 by lia. f_equal. lia.
  - unfold pad in C. destruct l; [simpl in Hl; lia|]. discriminate.
Qed.

Lemma nth_combine_lt {A B} (l1 : list A) (l2 : list B) i a b : (i < length l1)%nat -> (i < length l2)%nat ->
  nth i (combine l1 l2) (a, b) = (nth i l1 a, nth i l2 b).
Proof.
  revert l2 i; induction l1 as [|x l1 IH]; intros [|y l2] i H1 H2; simpl in *; try lia.
  destruct i; auto. apply IH; lia.
Qed.
Lemma es1_bottom g l r b b' st : es1_at g l r b b st = es1_at g l r b' b' st.
Proof.
  unfold es1_at. destruct (sw_flux g (cavg l r)); [|reflexivity]. cbn [bind]. destruct (diffusion_matrix g l r); [|reflexivity].
  cbn [bind]. replace (csub (sw_entropy g r b') (sw_entropy g l b')) with (csub (sw_entropy g r b) (sw_entropy g l b)); [reflexivity|].
  unfold csub, copp, sw_entropy. cbn [cadd cscal RR_CellOps fst snd]. f_equal. field.
Qed.
Lemma tight_es1 per gravity b nf : sw_es1 gravity b = Ok nf -> tight per nf.
Proof.
  intro E. unfold sw_es1 in E. inv_bind E. apply Ok_inj in E. subst nf. split; [reflexivity|].
  cbn [nf_call]. intros n vl vr fl fr Hn Ll Lr E. unfold es1_call in E. inv_bind E. inv_bind E. inv_bind E.
  apply Ok_inj in E. injection E as <- <-. rewrite Ll in *.
  destruct (bathymetry_steps _ _ _ _ E0 E2) as [Ls [S0 [Sn _]]].
  destruct (bottom_ends _ _ _ _ E0 Hn E1) as [Lb [B0 Bn]].
  set (X := combine (combine vl vr) (combine (combine a0 (tl a0)) a1)) in *.
  assert (LX : length X = S n). { unfold X. rewrite !combine_length, tl_length. lia. }
  destruct (mapM_nth _ _ _ ((z2, z2), ((0, 0), 0)) (z2, z2) E3) as [M1 M2]. rewrite LX in M1, M2.
  assert (V : forall i, (i <= n)%nat -> es1_at (py_or gravity default_gravity) (nth i vl z2) (nth i vr z2)
      (nth i a0 0) (nth (S i) a0 0) (nth i a1 0) = Ok (nth i a2 (z2, z2))).
  { intros i Hi. specialize (M2 i ltac:(lia)). unfold X in M2.
    assert (Lt : length (tl a0) = S n) by (rewrite tl_length; lia).
    rewrite !nth_combine_lt in M2 by (rewrite ?combine_length; lia). rewrite nth_tl in M2. exact M2. }
  assert (Vo : forall i, (i <= n)%nat -> nth i (map fst a2) z2 = fst (nth i a2 (z2, z2)) /\
    nth i (map snd a2) z2 = snd (nth i a2 (z2, z2))).
  { intros i Hi. split; apply nth_map'; lia. }
  rewrite !map_length. split; auto. split; auto. split; [|split].
  - intros i Hi. destruct (Vo i Hi) as [-> ->]. specialize (V i Hi). unfold es1_at in V. inv_bind V. inv_bind V.
    apply Ok_inj in V. rewrite <- V. unfold csub, copp. cbn [cadd cscal RR_CellOps fst snd]. ring.
  - intros i Hi Er. destruct (Vo i) as [_ ->]; [lia|]. specialize (V i ltac:(lia)). rewrite Er in V.
    apply (es1_wall gravity (nth i vr z2) (nth (S i) a0 0)).
    destruct Hi; subst i; [rewrite S0, B0 in V|rewrite Sn, Bn in V]; exact V.
  - intros _ E4 E5. destruct (Vo 0%nat) as [_ ->]; [lia|]. destruct (Vo n) as [_ ->]; [lia|].
    pose proof (V 0%nat ltac:(lia)) as V0. pose proof (V n ltac:(lia)) as Vn. rewrite E4, E5, S0, B0 in V0. rewrite Sn, Bn in Vn.
    rewrite (es1_bottom _ _ _ _ (nth (S n) a0 0)) in V0. rewrite V0 in Vn. apply Ok_inj in Vn. rewrite Vn. reflexivity.
Qed.

Lemma tight_corrected per nf fc : tight per nf -> tight per fc -> tight per (corrected nf fc).
Proof.
  intros [D1 T1] [D2 T2]. split; [cbn; rewrite D1, D2; reflexivity|].
  intros n vl vr fl fr Hn Ll Lr E. cbn [corrected nf_call arbitrary_input] in E. rewrite D1, D2 in E.
  rewrite (required_two _ 1) in E by (cbn; lia). cbn [bind nth Nat.sub] in E. inv_bind E. inv_bind E.
  destruct a as [fl1 fr1], a0 as [fl2 fr2]. apply Ok_inj in E. cbn [fst snd] in E. injection E as <- <-.
  destruct (T1 _ _ _ _ _ Hn Ll Lr E0) as [L1 [L2 [A1 [A2 A3]]]].
  destruct (T2 _ _ _ _ _ Hn Ll Lr E1) as [L3 [L4 [B1 [B2 B3]]]].
  assert (Va : forall x y i, length x = S n -> length y = S n -> (i <= n)%nat ->
    fst (nth i (map2 cadd x y) z2) = fst (nth i x z2) + fst (nth i y z2)).
  { intros x y i Lx Ly Hi. rewrite (nth_map2 _ _ _ i z2 z2) by lia. reflexivity. }
  rewrite !map2_length. repeat match goal with |- _ /\ _ => split end; try lia.
  - intros i Hi. rewrite !Va by auto. rewrite A1, B1 by auto. ring.
  - intros i Hi Er. rewrite Va by (auto; lia). rewrite A2, B2 by auto. ring.
  - intros P E2 E3. rewrite !Va by (auto; lia). rewrite A3, B3 by auto. ring.
Qed.

Lemma mcl_call_inv {W} gravity step (bc : bconds W) high n vl vr fl fr : length (bc_left bc) = 1%nat -> (1 <= n)%nat ->
  length vl = S n -> length vr = S n ->
  (forall fl fr, nf_call high [vl; vr] = Ok (fl, fr) -> length fr = S n) ->
  sw_mcl_call gravity step bc high [vl; vr] = Ok (fl, fr) ->
  exists o hl hr, low_all gravity step vl vr = Ok o /\ length o = S n /\ nf_call high [vl; vr] = Ok (hl, hr) /\
    let lo := fun i => nth i o low0 in let H := fun i => nth i hr z2 in
    mcl_well n lo /\
    fl = tab (S n) (fun i => cadd (lo_outl (lo i)) (copp (fh_ (bc_periodic bc) n lo H i, fq_ (bc_periodic bc) n lo H i))) /\
    fr = tab (S n) (fun i => cadd (lo_outr (lo i)) (fh_ (bc_periodic bc) n lo H i, fq_ (bc_periodic bc) n lo H i)).
Proof.
  intros B Hn Ll Lr LH E. unfold sw_mcl_call in E. rewrite (required_two _ 1) in E by (cbn; lia). cbn [bind nth Nat.sub] in E.
  inv_bind E. inv_bind E. destruct a0 as [hl hr]. cbn [snd] in E. inv_bind E. apply Ok_inj in E. injection E as <- <-.
  destruct (low_all_nth _ _ _ _ _ _ Ll Lr E0) as [st [Hst [Lo V]]].
  exists a, hl, hr. repeat match goal with |- _ /\ _ => split end; auto. cbv zeta.
  specialize (LH _ _ E1).
  set (lo := fun i => nth i a low0). set (H := fun i => nth i hr z2).
  assert (Ea : a = tab (S n) lo) by (rewrite (list_tab low0 a) at 1; rewrite Lo; reflexivity).
  assert (Eh : hr = tab (S n) H) by (rewrite (list_tab z2 hr) at 1; rewrite LH; reflexivity).
  assert (E3 := E2). rewrite Ea, Eh in E3.
  pose proof (mcl_limit_inv (bc_periodic bc) n lo H bc _ B Hn eq_refl E3) as G. split; auto.
  rewrite (mcl_limit_ok (bc_periodic bc) n lo H bc B Hn eq_refl G) in E3. apply Ok_inj in E3. subst a0. cbn [mp_fh mp_fq].
  rewrite combine_tab. rewrite Ea. rewrite !map_tab, !map2_tab. split; reflexivity.
Qed.

(* the same for one call *)
Definition tight_at (wall per : Prop) (n : nat) (vl vr fl fr : list state) : Prop :=
    length fl = S n /\ length fr = S n /\
    (forall i, (i <= n)%nat -> fst (nth i fl z2) = - fst (nth i fr z2)) /\
    (wall -> forall i, i = 0%nat \/ i = n -> nth i vl z2 = reflect (nth i vr z2) -> fst (nth i fr z2) = 0) /\
    (per -> nth 0 vl z2 = nth n vl z2 -> nth 0 vr z2 = nth n vr z2 -> fst (nth 0 fr z2) = fst (nth n fr z2)).
Lemma mcl_tight_at (wall per : Prop) gravity b p (bc : bconds state) high n vl vr fl fr : length (bc_left bc) = 1%nat -> (1 <= n)%nat ->
  length vl = S n -> length vr = S n -> (per -> bc_periodic bc = true) -> build_bathymetry b = Ok p ->
  (forall hl hr, nf_call high [vl; vr] = Ok (hl, hr) ->
     length hr = S n /\ (wall -> forall i, i = 0%nat \/ i = n -> nth i vl z2 = reflect (nth i vr z2) -> fst (nth i hr z2) = 0) /\
     (per -> nth 0 vl z2 = nth n vl z2 -> nth 0 vr z2 = nth n vr z2 -> fst (nth 0 hr z2) = fst (nth n hr z2))) ->
  sw_mcl_call gravity (snd p) bc high [vl; vr] = Ok (fl, fr) -> tight_at wall per n vl vr fl fr.
Proof.
  intros B Hn Ll Lr HP E1 T E.
  destruct (mcl_call_inv gravity (snd p) bc high n vl vr fl fr B Hn Ll Lr) as [o [hl [hr [Eo [Lo [Eh [G [-> ->]]]]]]]].
  { intros fl0 fr0 X. apply (T _ _ X). }
  { exact E. }
  destruct (T _ _ Eh) as [Lhr [T2 T3]].
  destruct (low_all_nth _ _ _ _ _ _ Ll Lr Eo) as [st [Hst [_ V]]].
  destruct (bathymetry_steps _ _ _ _ E1 Hst) as [_ [S0 [Sn _]]].
  set (lo := fun i => nth i o low0) in *. set (H := fun i => nth i hr z2) in *.
  unfold tight_at. rewrite !tab_length. split; auto. split; auto. split; [|split].
  - intros i Hi. rewrite !nth_tab by lia. unfold copp. cbn [cadd cscal RR_CellOps fst].
    destruct (low_heights _ _ _ _ _ (V i Hi)) as [_ [_ [_ [_ [_ A]]]]]. fold (lo i) in A. change (nth i o low0) with (lo i). rewrite A. ring.
  - intros HW i Hi Er. rewrite nth_tab by lia. cbn [cadd RR_CellOps fst]. change (nth i o low0) with (lo i).
    assert (A : fst (lo_outr (lo i)) = 0).
    { apply (low_wall gravity (nth i vr z2)). specialize (V i ltac:(lia)). rewrite Er in V.
      destruct Hi; subst i; rewrite ?S0, ?Sn in V; exact V. }
    assert (P : 0 <= lo_s (lo i)) by (left; apply (low_heights _ _ _ _ _ (V i ltac:(lia)))).
    destruct (fh_bounds (bc_periodic bc) n lo H i ltac:(lia) P) as [_ [_ Z]]. rewrite A, Z; [ring|].
    unfold csub, copp. cbn [cadd cscal RR_CellOps fst]. rewrite A. unfold H. rewrite T2 by auto. ring.
  - intros P E2 E3. rewrite !nth_tab by lia. cbn [cadd RR_CellOps fst].
    change (nth 0 o low0) with (lo 0%nat). change (nth n o low0) with (lo n).
    assert (El : lo 0%nat = lo n).
    { pose proof (V 0%nat ltac:(lia)) as V0. pose proof (V n ltac:(lia)) as Vn. rewrite E2, E3, S0 in V0. rewrite Sn in Vn.
      rewrite V0 in Vn. apply Ok_inj in Vn. exact Vn. }
    assert (Eb := HP P).
    rewrite Eb. rewrite El. f_equal. unfold fh_.
    replace (hmax_ true n lo 0) with (hmax_ true n lo n).
    2:{ unfold hmax_. destruct n as [|m]; [lia|]. change (cl_idx true (S m) (S m)) with m. cbn [cl_idx Nat.sub].
        rewrite Nat.sub_0_r. replace (cr_idx true (S m) (S m)) with (S m) by (unfold cr_idx; rewrite Nat.leb_refl; reflexivity).
        change (cr_idx true (S m) 0) with 0%nat. rewrite El. reflexivity. }
    replace (hmin_ true n lo 0) with (hmin_ true n lo n).
    2:{ unfold hmin_. destruct n as [|m]; [lia|]. change (cl_idx true (S m) (S m)) with m. cbn [cl_idx Nat.sub].
        rewrite Nat.sub_0_r. replace (cr_idx true (S m) (S m)) with (S m) by (unfold cr_idx; rewrite Nat.leb_refl; reflexivity).
        change (cr_idx true (S m) 0) with 0%nat. rewrite El. reflexivity. }
    assert (C1 : cr_idx true n 1 = 1%nat) by (unfold cr_idx; destruct (Nat.leb_spec 1 n); lia).
    assert (C2 : cr_idx true n (S n) = 1%nat) by (unfold cr_idx; destruct (Nat.leb_spec (S n) n); lia).
    replace (hmax_ true n lo 1) with (hmax_ true n lo (S n)).
    2:{ unfold hmax_. rewrite C1, C2. cbn [cl_idx]. rewrite El. reflexivity. }
    replace (hmin_ true n lo 1) with (hmin_ true n lo (S n)).
    2:{ unfold hmin_. rewrite C1, C2. cbn [cl_idx]. rewrite El. reflexivity. }
    rewrite El. f_equal. unfold csub, copp. cbn [cadd cscal RR_CellOps fst]. unfold H. rewrite T3 by auto. reflexivity.
Qed.

Lemma tight_mcl (per : Prop) gravity b conds il ir high nf : (per -> conds = ["periodic"%string]) -> tight per high ->
  sw_mcl gravity b conds il ir high = Ok nf -> tight per nf.
Proof.
  intros HP [D T] E. unfold sw_mcl in E. inv_bind E. inv_bind E. apply Ok_inj in E. subst nf. split; [exact D|].
  cbn [nf_call]. intros n vl vr fl fr Hn Ll Lr E.
  enough (X : tight_at True per n vl vr fl fr) by (destruct X as [? [? [? [? ?]]]]; auto 10).
  eapply (mcl_tight_at True per gravity b a0 a high n vl vr fl fr); eauto.
  - eapply bc_radius; eauto.
  - intro P. rewrite (HP P) in E0. unfold get_boundary_conditions in E0. cbn in E0. apply Ok_inj in E0. subst a. reflexivity.
  - intros hl hr X. destruct (T n vl vr _ _ Hn Ll Lr X) as [? [? [? [? ?]]]]. auto.
Qed.

Lemma scheme_tight gravity b conds il ir nf : sw_scheme gravity b conds il ir nf -> tight (conds = ["periodic"%string]) nf.
Proof.
  induction 1.
  - eapply tight_low; eauto.
  - unfold sw_central in H. eapply tight_source; eauto.
    apply (tight_ext _ _ (two_point (central_at (sw_flux (py_or gravity default_gravity))))); [reflexivity|intro; reflexivity|].
    apply tight_two_point. intros r f. apply (central_wall gravity).
  - unfold sw_llf in H. eapply tight_source; eauto.
    eapply tight_ext; [| |apply tight_two_point]; [reflexivity| |].
    + intro a. apply lax_friedrichs_two_point.
    + intros r f E. inv_bind E. apply Ok_inj in E. subst f. eapply llf_wall; eauto.
  - unfold sw_es in H. eapply tight_source; eauto.
    apply (tight_ext _ _ (two_point (fun l r => sw_flux (py_or gravity default_gravity) (cavg l r)))); [reflexivity|intro; reflexivity|].
    apply tight_two_point. intros r f. apply (es_wall gravity).
  - eapply tight_es1; eauto.
  - apply (tight_ext _ _ (two_point (lw_at gravity dt dx))); [reflexivity|intro; reflexivity|].
    apply tight_two_point. intros r f. apply lw_wall.
  - apply tight_corrected; auto.
    apply (tight_ext _ _ (two_point (fun l r => bind (rdiv 1 dx) (fun f => Ok (cscal f (cscal gamma (cadd r (copp l)))))))); [reflexivity|intro; reflexivity|].
    apply tight_two_point. intros r f E. inv_bind E. apply Ok_inj in E. subst f. unfold copp. cbn [cadd cscal RR_CellOps fst].
    change (fst (reflect r)) with (fst r). ring.
  - eapply tight_mcl; eauto.
Qed.

(** ** right hand sides *)
Lemma tight_rhs nf conds il ir bc dx t u v : tight (conds = ["periodic"%string]) nf ->
  conds = ["periodic"%string] \/ side_names conds "wall" "wall" ->
  get_boundary_conditions (Some reflect) conds 1 il ir = Ok bc -> u <> [] ->
  fv_rhs nf dx bc t u = Ok v -> length v = length u /\ total true v = 0.
Proof.
  intros [D T] HC B Hu E. destruct (fv_rhs_inv _ _ _ _ _ _ E) as [a [fl [fr [E1 [E2 E3]]]]].
  rewrite D in E1. change (2 / 2)%nat with 1%nat in E1.
  assert (Hn : (1 <= length u)%nat) by (destruct u; [congruence|cbn; lia]).
  destruct (inner_nodes z2 (Some reflect) conds 1 il ir bc u t a B ltac:(lia) E1)
    as [nl [nr [cl [cr [x [e [Sn [Nl [Nr [La [Fa [Rq [Vx [Ee _]]]]]]]]]]]]]].
  rewrite (required_two a 1) in Rq by lia. apply Ok_inj in Rq.
  destruct a as [|vl [|vr [|? ?]]]; try (cbn in La; lia). cbn [nth Nat.sub] in Rq. injection Rq as -> ->.
  set (n := length u) in *.
  destruct (T n _ _ fl fr Hn (tab_length _ _) (tab_length _ _) E2) as [L1 [L2 [T1 [T2 T3]]]].
  destruct (cells_from_nodes_spec _ _ _ _ n E3 L1 L2) as [Hd [Lv _]]. split; auto.
  assert (TT : dx * total true v = fst (nth 0 fr z2) - fst (nth n fr z2)).
  { apply (cells_total dx fl fr v n true E3 L1 L2). intros i Hi. apply T1. lia. }
  assert (Z : fst (nth 0 fr z2) - fst (nth n fr z2) = 0).
  { destruct HC as [HC|HC].
    - rewrite HC in *. rewrite T3; [ring|reflexivity| |].
      + apply (periodic_ends_agree (Some reflect) 1 il ir bc u t B ltac:(lia) _ E1). left; reflexivity.
      + apply (periodic_ends_agree (Some reflect) 1 il ir bc u t B ltac:(lia) _ E1). right; left; reflexivity.
    - assert (nl = "wall"%string /\ nr = "wall"%string) as [-> ->].
      { destruct conds as [|c1 [|c2 cs]]; cbn in HC, Sn; intuition congruence. }
      assert (Cl : cl = Wall reflect). { destruct cl; cbn in Nl; try discriminate; destruct Nl; congruence. }
      assert (Cr : cr = Wall reflect). { destruct cr; cbn in Nr; try discriminate; destruct Nr; congruence. }
      subst cl cr.
      pose proof (left_cell z2 u (Some t) _ _ _ (Vx 0%nat ltac:(lia)) Hn) as X0.
      pose proof (right_cell z2 u (Some t) _ _ _ (Vx (S n) ltac:(lia)) Hn) as Xn.
      pose proof (inner_cell z2 u (Some t) _ _ 0 _ (Vx 1%nat ltac:(lia)) ltac:(lia)) as X1.
      pose proof (inner_cell z2 u (Some t) _ _ (n - 1) _ (Vx (S (n - 1)) ltac:(lia)) ltac:(lia)) as Xm.
      replace (S (n - 1)) with n in Xm by lia. cbn in X0, Xn.
      rewrite (T2 0%nat), (T2 n); auto; [ring| |].
      + rewrite !nth_tab by lia. rewrite Xn, Xm. unfold reflect. fold n. destruct (nth (n - 1) u z2) as [h q]. cbn [fst snd]. f_equal. ring.
      + rewrite !nth_tab by lia. rewrite X0, X1. reflexivity. }
  rewrite Z in TT. destruct (Rmult_integral _ _ TT); [congruence|auto].
Qed.
