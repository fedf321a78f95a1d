(** Changes of units: every operation of the schemes commutes with them. *)
From Coq Require Import Reals List ZArith Arith Lia Lra Psatz Bool String.
From Verif Require Import Prelude L_Prelude M_Boundary S_Boundary L_Boundary M_Flux S_Flux L_Flux
  M_Neighbours L_Neighbours M_Scalar S_Scalar L_Scalar M_ODE S_ODE L_ODE M_ShallowWater S_ShallowWater L_ShallowWater L_SWRuns L_SWLow
  L_SWWater L_SWLake L_SWTotal S_Symmetry L_SWNodes L_SWMirror S_Units.
Import ListNotations.
Local Open Scope nat_scope.
Open Scope R_scope.
Notation length := List.length.
Notation z2 := (0, 0) (only parsing).

(** ** lists *)
Lemma mapM_natural {A B A' B'} (f : A -> result B) (f' : A' -> result B') (g : A -> A') (h : B -> B') l o :
  (forall x y, f x = Ok y -> f' (g x) = Ok (h y)) -> mapM f l = Ok o -> mapM f' (map g l) = Ok (map h o).
Proof.
  intro X. revert o; induction l as [|a l IH]; intros o E; cbn [mapM map] in *.
  - apply Ok_inj in E. subst o. reflexivity.
  - inv_bind E. inv_bind E. apply Ok_inj in E. subst o. rewrite (X _ _ E0). cbn [bind]. rewrite (IH _ E1). reflexivity.
Qed.
Lemma combine_map {A B A' B'} (f : A -> A') (g : B -> B') l m :
  combine (map f l) (map g m) = map (fun p => (f (fst p), g (snd p))) (combine l m).
Proof. revert m; induction l as [|a l IH]; intros [|b m]; cbn; auto. rewrite IH. auto. Qed.
Lemma map2_map {A B C A' B' C'} (f : A -> B -> C) (f' : A' -> B' -> C') (g : A -> A') (h : B -> B') (k : C -> C') l m :
  (forall a b, f' (g a) (h b) = k (f a b)) -> map2 f' (map g l) (map h m) = map k (map2 f l m).
Proof. intro X. revert m; induction l as [|a l IH]; intros [|b m]; cbn; auto. rewrite IH, X. auto. Qed.
Lemma map_map_eq {A B C} (f : B -> C) (g : A -> B) (h : A -> C) l : (forall a, f (g a) = h a) -> map f (map g l) = map h l.
Proof. intro X. rewrite map_map. apply map_ext. auto. Qed.
Lemma pyget_map {A B} (f : A -> B) l z x : pyget l z = Ok x -> pyget (map f l) z = Ok (f x).
Proof.
  unfold pyget. rewrite map_length. destruct (_ && _)%bool; [|discriminate]. rewrite nth_error_map.
  destruct (nth_error l _); [|discriminate]. intro E. apply Ok_inj in E. subst. reflexivity.
Qed.
Lemma removelast_map {A B} (f : A -> B) l : removelast (map f l) = map f (removelast l).
Proof. induction l as [|a [|b l] IH]; cbn in *; auto. rewrite IH. auto. Qed.
Lemma tl_map {A B} (f : A -> B) l : tl (map f l) = map f (tl l).
Proof. destruct l; auto. Qed.
Lemma required_map {A B} (f : A -> B) dim a b : get_required_values dim a = Ok b ->
  get_required_values dim (map (map f) a) = Ok (map (map f) b).
Proof.
  unfold get_required_values. rewrite map_length. destruct (negb _); [discriminate|]. destruct (negb _); [discriminate|].
  intro E. apply Ok_inj in E. subst b. f_equal. unfold slice. rewrite skipn_map, firstn_map. reflexivity.
Qed.

Section Units.
Context (c d : R) (Hc : 0 < c) (Hd : 0 < d).
Notation sc := (in_units c).
(** numbers for fluxes *)
Definition fsc (f : state) : state := (c * fst f, c * (c * snd f)).

Lemma sc_add a b : sc (cadd a b) = cadd (sc a) (sc b).
Proof. unfold in_units. cbn [cadd RR_CellOps fst snd]. f_equal. ring. Qed.
Lemma sc_scal r a : sc (cscal r a) = cscal r (sc a).
Proof. unfold in_units. cbn [cscal RR_CellOps fst snd]. f_equal. ring. Qed.
Lemma fsc_eq f : fsc f = cscal c (sc f).
Proof. reflexivity. Qed.
Lemma sc_reflect u : reflect (sc u) = sc (reflect u).
Proof. unfold reflect, in_units. cbn [fst snd]. f_equal. ring. Qed.
Lemma sc_velocity u : velocity (sc u) = c * velocity u.
Proof. unfold velocity, velocity_eps, in_units. cbn [fst snd]. unfold Rdiv. ring. Qed.
Lemma sc_avg l r : cavg (sc l) (sc r) = sc (cavg l r).
Proof. unfold cavg, average, in_units. cbn [fst snd]. f_equal. field. Qed.
Lemma sqrt_scale g h : sqrt (c ^ 2 * g * h) = c * sqrt (g * h).
Proof. rewrite Rmult_assoc, sqrt_mult_alt by nra. rewrite sqrt_pow2 by lra. reflexivity. Qed.
Lemma Rmax_c x y : Rmax (c * x) (c * y) = c * Rmax x y.
Proof. apply RmaxRmult. lra. Qed.
Lemma Rmin_c x y : Rmin (c * x) (c * y) = c * Rmin x y.
Proof.
  unfold Rmin. destruct (Rle_dec x y) as [A|A], (Rle_dec (c * x) (c * y)) as [B|B]; auto; exfalso; apply B || apply A; nra.
Qed.
Lemma Rabs_c x : Rabs (c * x) = c * Rabs x.
Proof. rewrite Rabs_mult, (Rabs_pos_eq c) by lra. reflexivity. Qed.

Section Gravity.
Context (gravity : option R).
Let g := py_or gravity default_gravity.
Hypothesis Hg : 0 < g.
Lemma units_gravity_value : py_or (units_gravity c gravity) default_gravity = c ^ 2 * g.
Proof. unfold units_gravity. cbn [py_or]. fold g. destruct (Reqb_spec (c ^ 2 * g) 0); [|reflexivity]. assert (0 < c ^ 2 * g) by (apply Rmult_lt_0_compat; nra). lra. Qed.
Let g' := py_or (units_gravity c gravity) default_gravity.
Lemma sc_flux u f : sw_flux g u = Ok f -> sw_flux g' (sc u) = Ok (fsc f).
Proof.
  unfold g'. rewrite units_gravity_value. destruct u as [h q]. unfold in_units, sw_flux, sw_flux_eps. cbn [fst snd]. destruct (Rltb h 0); [discriminate|].
  destruct (Rltb h epsilon); intro E; apply Ok_inj in E; subst f; unfold fsc; cbn [fst snd]; do 2 f_equal; unfold Rdiv; ring.
Qed.
Lemma sc_speed l r : sw_max_speed g' (sc l) (sc r) = c * sw_max_speed g l r.
Proof.
  unfold g'. rewrite units_gravity_value. unfold sw_max_speed. rewrite !sc_velocity, !Rabs_c. unfold in_units. cbn [fst].
  rewrite !sqrt_scale, <- !Rmult_plus_distr_l. apply Rmax_c.
Qed.
Lemma sc_hll l r fl fr : sw_max_speed g l r <> 0 -> hll (units_gravity c gravity) (sc l) (sc r) (fsc fl) (fsc fr) = sc (hll gravity l r fl fr).
Proof.
  intro Hs. unfold hll. fold g g'. rewrite sc_speed. unfold in_units, fsc. cbn [fst snd]. f_equal; field; split; auto; lra.
Qed.
Lemma sc_solve l r o : rs_solve (sw_riemann gravity) l r = Ok o -> exists o',
  rs_solve (sw_riemann (units_gravity c gravity)) (sc l) (sc r) = Ok o' /\ ro_flux o' = fsc (ro_flux o).
Proof.
  intro E. destruct (sw_solve_inv gravity _ _ _ E) as [fl [fr [F1 [F2 [Hs ->]]]]]. fold g in Hs.
  exists (sw_out (units_gravity c gravity) (sc l) (sc r) (fsc fl) (fsc fr)). split.
  - apply sw_solve; [apply sc_flux; auto..|]. fold g'. rewrite sc_speed. apply Rmult_integral_contrapositive. split; [lra|auto].
  - unfold sw_out. cbn [ro_flux]. rewrite sc_hll by auto. fold g g'. rewrite sc_speed. unfold in_units, fsc, csub, copp.
    cbn [cadd cscal RR_CellOps fst snd]. f_equal; ring.
Qed.

(** ** low order *)
Definition scale_low (o : low) : low :=
  {| lo_s := c * lo_s o; lo_h := lo_h o; lo_q := c * lo_q o; lo_fix := lo_fix o; lo_hl := lo_hl o; lo_hr := lo_hr o;
     lo_ql := c * lo_ql o; lo_qr := c * lo_qr o; lo_outl := fsc (lo_outl o); lo_outr := fsc (lo_outr o) |}.
Lemma sc_low l r step o : low_at gravity l r step = Ok o -> low_at (units_gravity c gravity) (sc l) (sc r) step = Ok (scale_low o).
Proof.
  intro E. destruct (low_at_inv gravity _ _ _ _ E) as [fl [fr [F1 [F2 [Hs ->]]]]]. fold g in Hs.
  rewrite (low_at_ok (units_gravity c gravity) _ _ (fsc fl) (fsc fr)); [|apply sc_flux; auto..|].
  2:{ fold g'. rewrite sc_speed. apply Rmult_integral_contrapositive. split; [lra|auto]. }
  f_equal. unfold low_out, scale_low. cbn [lo_s lo_h lo_q lo_fix lo_hl lo_hr lo_ql lo_qr lo_outl lo_outr].
  rewrite sc_hll by auto. fold g g'. rewrite sc_speed, !sc_velocity. unfold g'. rewrite units_gravity_value.
  set (hl := hll gravity l r fl fr). set (fx := positivity_fix (fst hl) step).
  replace (fst (sc hl)) with (fst hl) by reflexivity. replace (snd (sc hl)) with (c * snd hl) by reflexivity.
  fold fx. unfold in_units, fsc, average. cbn [fst snd].
  f_equal; try (match goal with |- (_, _) = (_, _) => f_equal end); field; repeat split; auto; lra.
Qed.
Lemma sc_low_all step vl vr o : low_all gravity step vl vr = Ok o ->
  low_all (units_gravity c gravity) step (map sc vl) (map sc vr) = Ok (map scale_low o).
Proof.
  unfold low_all. rewrite map_length. intro E. inv_bind E. rewrite E0. cbn [bind].
  rewrite <- (map_id a) at 1. rewrite !combine_map. eapply mapM_natural; [|exact E].
  intros [[x y] z] o' X. cbn [fst snd] in *. apply sc_low. auto.
Qed.
End Gravity.

(** ** fluxes as called with arrays *)
Definition units_flux (nf nf' : nflux state) : Prop :=
  nf_dim nf' = nf_dim nf /\ forall a fl fr, nf_call nf a = Ok (fl, fr) -> nf_call nf' (map (map sc) a) = Ok (map fsc fl, map fsc fr).

Lemma fsc_neg l : vneg (map fsc l) = map fsc (vneg l).
Proof.
  unfold vneg. rewrite !map_map. apply map_ext. intro f. unfold fsc, copp. cbn [cscal RR_CellOps fst snd]. f_equal; ring.
Qed.
Lemma units_two_point (F F' : state -> state -> result state) (nf nf' : nflux state) : nf_dim nf = 2%nat -> nf_dim nf' = 2%nat ->
  (forall a, nf_call nf a = nf_call (two_point F) a) -> (forall a, nf_call nf' a = nf_call (two_point F') a) ->
  (forall l r f, F l r = Ok f -> F' (sc l) (sc r) = Ok (fsc f)) -> units_flux nf nf'.
Proof.
  intros D1 D2 C1 C2 X. split; [congruence|]. intros a fl fr E. rewrite C1 in E. rewrite C2. unfold two_point in *. cbn [nf_call] in *.
  destruct a as [|vl [|vr [|]]]; try discriminate. cbn [map]. inv_bind E. apply Ok_inj in E. injection E as <- <-.
  assert (Y : mapM (fun p => F' (fst p) (snd p)) (combine (map sc vl) (map sc vr)) = Ok (map fsc a)).
  { rewrite combine_map. eapply mapM_natural; [|exact E0]. intros p f Y. cbn [fst snd]. apply X. auto. }
  rewrite Y. cbn [bind]. rewrite fsc_neg. reflexivity.
Qed.
Lemma fsc_add (a b : state) : cadd (fsc a) (fsc b) = fsc (cadd a b).
Proof. unfold fsc. cbn [cadd RR_CellOps fst snd]. f_equal; ring. Qed.
Lemma units_corrected nf nf' fc fc' : units_flux nf nf' -> units_flux fc fc' -> units_flux (corrected nf fc) (corrected nf' fc').
Proof.
  intros [D1 X1] [D2 X2]. split; [cbn; congruence|]. intros a fl fr E. cbn [corrected nf_call arbitrary_input] in *. rewrite D1, D2.
  inv_bind E. destruct a0 as [p q]. inv_bind E0. inv_bind E. destruct a1 as [p' q']. inv_bind E2. apply Ok_inj in E. cbn [fst snd] in E.
  injection E as <- <-. rewrite (required_map _ _ _ _ E1), (required_map _ _ _ _ E3). cbn [bind].
  rewrite (X1 _ _ _ E0), (X2 _ _ _ E2). cbn [bind fst snd].
  do 2 f_equal; apply map2_map; apply fsc_add.
Qed.
Lemma units_source gravity b nf nf' w w' : 0 < py_or gravity default_gravity -> units_flux nf nf' ->
  with_source gravity b nf = Ok w -> with_source (units_gravity c gravity) b nf' = Ok w' -> units_flux w w'.
Proof.
  intros Hg [D X] E E'. unfold with_source in *. inv_bind E. rewrite E0 in E'. cbn [bind] in E'. apply Ok_inj in E, E'. subst w w'.
  split; [exact D|]. intros v fl fr E. cbn [nf_call] in *. unfold wrapped_call in *. rewrite units_gravity_value by auto.
  inv_bind E. destruct a0 as [p q]. rewrite (X _ _ _ E1). cbn [bind fst snd] in *. inv_bind E. rewrite (required_map _ _ _ _ E2). cbn [bind].
  destruct a0 as [|vl [|vr [|]]]; try discriminate. cbn [map]. inv_bind E. apply Ok_inj in E. injection E as <- <-.
  unfold source_term in *. inv_bind E3. apply Ok_inj in E3. subst a0. rewrite map_length, E. cbn [bind].
  set (g := py_or gravity default_gravity) in *.
  assert (S : map2 (fun p d => (0, c ^ 2 * g / 2 * average (fst (fst p)) (fst (snd p)) * d)) (combine (map sc vl) (map sc vr)) a1 =
    map fsc (map2 (fun p d => (0, g / 2 * average (fst (fst p)) (fst (snd p)) * d)) (combine vl vr) a1)).
  { rewrite <- (map_id a1) at 1. rewrite combine_map. apply map2_map. intros [x y] z. unfold fsc, in_units. cbn [fst snd]. f_equal; field. }
  rewrite S. do 2 f_equal; apply map2_map; intros x y; unfold fsc, csub, copp; cbn [cadd cscal RR_CellOps fst snd]; f_equal; ring.
Qed.
Lemma units_low gravity b nf nf' : 0 < py_or gravity default_gravity ->
  sw_low gravity b = Ok nf -> sw_low (units_gravity c gravity) b = Ok nf' -> units_flux nf nf'.
Proof.
  intros Hg E E'. unfold sw_low in *. inv_bind E. rewrite E0 in E'. cbn [bind] in E'. apply Ok_inj in E, E'. subst nf nf'.
  split; [reflexivity|]. intros v fl fr E. cbn [nf_call] in *. unfold low_call in *. destruct v as [|vl [|vr [|]]]; try discriminate. cbn [map].
  inv_bind E. apply Ok_inj in E. injection E as <- <-. rewrite (sc_low_all gravity Hg _ _ _ _ E1). cbn [bind].
  rewrite !map_map. reflexivity.
Qed.
Lemma units_scheme k gravity b nf nf' : 0 < py_or gravity default_gravity -> unit_free k ->
  scheme k gravity b = Ok nf -> scheme (units_kind c d k) (units_gravity c gravity) b = Ok nf' -> units_flux nf nf'.
Proof.
  intro Hg. revert nf nf'; induction k; intros nf nf' U E E'; cbn [scheme units_kind unit_free] in *; try contradiction.
  - eapply units_low; eauto.
  - unfold sw_central in *. refine (units_source gravity b _ _ nf nf' Hg _ E E').
    apply (units_two_point (central_at (sw_flux (py_or gravity default_gravity)))
      (central_at (sw_flux (py_or (units_gravity c gravity) default_gravity)))); try reflexivity; try (intro; reflexivity).
    intros l r f X. unfold central_at in *. inv_bind X. inv_bind X. apply Ok_inj in X. subst f.
    rewrite (sc_flux gravity Hg _ _ E0), (sc_flux gravity Hg _ _ E1). cbn [bind]. unfold fsc. cbn [cadd cscal RR_CellOps fst snd]. do 2 f_equal; field.
  - unfold sw_llf in *. refine (units_source gravity b _ _ nf nf' Hg _ E E').
    eapply units_two_point; try reflexivity; try (intro a; apply lax_friedrichs_two_point).
    intros l r f X. cbn beta in *. inv_bind X. apply Ok_inj in X. subst f. destruct (sc_solve gravity Hg _ _ _ E0) as [o' [-> <-]]. reflexivity.
  - unfold sw_es in *. refine (units_source gravity b _ _ nf nf' Hg _ E E').
    apply (units_two_point (fun l r => sw_flux (py_or gravity default_gravity) (cavg l r))
      (fun l r => sw_flux (py_or (units_gravity c gravity) default_gravity) (cavg l r))); try reflexivity; try (intro; reflexivity).
    intros l r f X. rewrite sc_avg. apply (sc_flux gravity Hg). auto.
  - inv_bind E. inv_bind E'. apply Ok_inj in E, E'. subst nf nf'. apply units_corrected; [apply IHk; auto|].
    apply (units_two_point (fun l r => bind (rdiv 1 dx) (fun f => Ok (cscal f (cscal gamma (cadd r (copp l))))))
      (fun l r => bind (rdiv 1 (d * dx)) (fun f => Ok (cscal f (cscal (c * d * gamma) (cadd r (copp l))))))); try reflexivity; try (intro; reflexivity).
    intros l r f X. inv_bind X. apply Ok_inj in X. subst f. apply rdiv_ok in E as [Hx ->].
    rewrite rdiv_ne by (apply Rmult_integral_contrapositive; split; [lra|auto]). cbn [bind].
    unfold fsc, in_units, copp. cbn [cadd cscal RR_CellOps fst snd]. do 2 f_equal; field; split; auto; lra.
Qed.

(** ** the limiter *)
Notation cm := (map (Rmult c)).
Lemma limit_scale f s bl br hmax hmin : limit_arrays (cm f) (cm s) bl br hmax hmin = cm (limit_arrays f s bl br hmax hmin).
Proof.
  revert s bl br hmax hmin. induction f as [|f0 f IH]; intros s bl br hmax hmin; [reflexivity|].
  destruct s as [|s0 s], bl as [|bl0 bl], br as [|br0 br], hmax as [|m0 [|m1 hmax]], hmin as [|n0 [|n1 hmin]]; try reflexivity.
  cbn [limit_arrays map]. f_equal; [|exact (IH s bl br (m1 :: hmax) (n1 :: hmin))].
  unfold limit_at. rewrite !Rmult_assoc, Rmin_c, Rmax_c. reflexivity.
Qed.
Lemma vlimit_scale f s lh vb vmax vmin :
  vlimit_arrays (map (fun x => c * (c * x)) f) (cm s) lh (cm vb) (cm vmax) (cm vmin) = map (fun x => c * (c * x)) (vlimit_arrays f s lh vb vmax vmin).
Proof.
  revert s lh vb vmax vmin. induction f as [|f0 f IH]; intros s lh vb vmax vmin; [reflexivity|].
  destruct s as [|s0 s], lh as [|h0 lh], vb as [|v0 vb], vmax as [|m0 [|m1 vmax]], vmin as [|n0 [|n1 vmin]]; try reflexivity.
  cbn [vlimit_arrays map]. f_equal; [|exact (IH s lh vb (m1 :: vmax) (n1 :: vmin))].
  unfold vlimit_at.
  replace (h0 * (c * m1 - c * v0)) with (c * (h0 * (m1 - v0))) by ring. replace (h0 * (c * v0 - c * n0)) with (c * (h0 * (v0 - n0))) by ring.
  replace (h0 * (c * n1 - c * v0)) with (c * (h0 * (n1 - v0))) by ring. replace (h0 * (c * v0 - c * m0)) with (c * (h0 * (v0 - m0))) by ring.
  rewrite Rmin_c, Rmax_c.
  replace (c * s0 * (c * Rmin (h0 * (m1 - v0)) (h0 * (v0 - n0)))) with (c * (c * (s0 * Rmin (h0 * (m1 - v0)) (h0 * (v0 - n0))))) by ring.
  replace (c * s0 * (c * Rmax (h0 * (n1 - v0)) (h0 * (v0 - m0)))) with (c * (c * (s0 * Rmax (h0 * (n1 - v0)) (h0 * (v0 - m0))))) by ring.
  rewrite !Rmin_c, !Rmax_c. reflexivity.
Qed.
Lemma vdiv_both a b r : vdiv a b = Ok r -> vdiv (cm a) (cm b) = Ok r.
Proof.
  unfold vdiv. intro E. rewrite combine_map. rewrite <- (map_id r). eapply mapM_natural; [|exact E].
  intros [x y] z X. cbn [fst snd] in *. apply rdiv_ok in X as [Hy ->]. rewrite rdiv_ne by (apply Rmult_integral_contrapositive; split; [lra|auto]).
  f_equal. field. split; auto; lra.
Qed.
Lemma vdiv_num a b r : vdiv a b = Ok r -> vdiv (cm a) b = Ok (cm r).
Proof.
  unfold vdiv. intro E. rewrite <- (map_id b). rewrite combine_map. eapply mapM_natural; [|exact E].
  intros [x y] z X. cbn [fst snd] in *. apply rdiv_ok in X as [Hy ->]. rewrite rdiv_ne by auto.
  f_equal. field. auto.
Qed.
Lemma replace_nans_map (f : R -> R) x y : replace_nans x = Ok y -> replace_nans (map (option_map f) x) = Ok (map (option_map f) y).
Proof.
  unfold replace_nans. intro E. inv_bind E.
  assert (A : match map (option_map f) x with
    | None :: x' => bind (pyget (map (option_map f) x) 1) (fun y => Ok (y :: x')) | _ => Ok (map (option_map f) x) end = Ok (map (option_map f) a)).
  { destruct x as [|[z|] x]; cbn [map option_map] in *; [apply Ok_inj in E0; subst a; reflexivity..|].
    inv_bind E0. apply Ok_inj in E0. subst a. pose proof (pyget_map (option_map f) _ _ _ E1) as P. cbn [map option_map] in P. rewrite P. reflexivity. }
  rewrite A. cbn [bind]. inv_bind E. rewrite (pyget_map (option_map f) _ _ _ E1). cbn [bind]. destruct a0 as [z|]; cbn [option_map].
  - apply Ok_inj in E. subst y. reflexivity.
  - inv_bind E. apply Ok_inj in E. subst y. rewrite (pyget_map (option_map f) _ _ _ E2). cbn [bind]. rewrite map_app, removelast_map. reflexivity.
Qed.
Lemma no_nans_map (f : R -> R) x y : no_nans x = Ok y -> no_nans (map (option_map f) x) = Ok (map f y).
Proof. unfold no_nans. apply mapM_natural. intros [z|] w E; [|discriminate]. apply Ok_inj in E. subst w. reflexivity. Qed.
Lemma cell_neighbours_map {A B} (f : A -> B) (bc : bconds A) (bc' : bconds B) nl nr x y : bc_number bc' = bc_number bc -> bc_periodic bc' = bc_periodic bc ->
  get_cell_neighbours bc nl nr = Ok (x, y) -> get_cell_neighbours bc' (map f nl) (map f nr) = Ok (map (option_map f) x, map (option_map f) y).
Proof.
  intros L P. unfold get_cell_neighbours. rewrite L, P. destruct (bc_periodic bc).
  - intro E. inv_bind E. inv_bind E. apply Ok_inj in E. injection E as <- <-.
    rewrite (pyget_map f _ _ _ E0). cbn [bind]. rewrite (pyget_map f _ _ _ E1). cbn [bind].
    cbn [map]. rewrite !map_app, !map_map. cbn [map option_map]. reflexivity.
  - intro E. apply Ok_inj in E. injection E as <- <-. cbn [map option_map]. rewrite map_app, !map_map. reflexivity.
Qed.
Lemma cell_values_map {W W'} (f : R -> R) (bc : bconds W) (bc' : bconds W') nl nr p :
  bc_number bc' = bc_number bc -> bc_periodic bc' = bc_periodic bc -> cell_values bc nl nr = Ok p ->
  cell_values bc' (map f nl) (map f nr) = Ok (map f (fst p), map f (snd p)).
Proof.
  intros L P E. unfold cell_values in *. inv_bind E. destruct a as [x y].
  erewrite cell_neighbours_map; [|..|exact E0]; [|cbn [bc_number bc_left]; unfold bc_number in *; cbn [bc_left]; rewrite !map_length; auto|auto].
  cbn [bind fst snd] in *. inv_bind E. rewrite (replace_nans_map f _ _ E1). cbn [bind]. inv_bind E. rewrite (replace_nans_map f _ _ E2). cbn [bind].
  inv_bind E. rewrite (no_nans_map f _ _ E3). cbn [bind]. inv_bind E. rewrite (no_nans_map f _ _ E4). cbn [bind]. apply Ok_inj in E. subst p. reflexivity.
Qed.
Lemma map4_scale f a b e h : (forall x y z w, f (c * x) (c * y) (c * z) (c * w) = c * f x y z w) -> map4 f (cm a) (cm b) (cm e) (cm h) = cm (map4 f a b e h).
Proof.
  intro X. revert b e h; induction a as [|x a IH]; intros [|y b] [|z e] [|w h]; try reflexivity. cbn [map map4]. rewrite IH, X. reflexivity.
Qed.
Definition scale_parts (m : mcl_parts) : mcl_parts :=
  {| mp_fh := cm (mp_fh m); mp_lh := mp_lh m; mp_vb := cm (mp_vb m); mp_fq := map (fun x => c * (c * x)) (mp_fq m) |}.
Lemma map_id_eq {A} (f : A -> A) l : (forall x, f x = x) -> map f l = l.
Proof. intro X. rewrite (map_ext f (fun x => x) X). apply map_id. Qed.
Lemma units_limit {W W'} (bc : bconds W) (bc' : bconds W') o hr m : bc_number bc' = bc_number bc -> bc_periodic bc' = bc_periodic bc ->
  sw_mcl_limit bc o hr = Ok m -> sw_mcl_limit bc' (map scale_low o) (map fsc hr) = Ok (scale_parts m).
Proof.
  intros L P E. unfold sw_mcl_limit in *. cbv zeta in *.
  rewrite (map_map_eq lo_hl scale_low lo_hl o), (map_map_eq lo_hr scale_low lo_hr o), (map_map_eq lo_h scale_low lo_h o) by reflexivity.
  rewrite (map_map_eq (fun l => lo_hl l + lo_hr l) scale_low (fun l => lo_hl l + lo_hr l) o) by reflexivity.
  assert (S1 : map lo_s (map scale_low o) = cm (map lo_s o)) by (rewrite !map_map; reflexivity).
  assert (S2 : map lo_ql (map scale_low o) = cm (map lo_ql o)) by (rewrite !map_map; reflexivity).
  assert (S3 : map lo_qr (map scale_low o) = cm (map lo_qr o)) by (rewrite !map_map; reflexivity).
  assert (S4 : map (fun l => lo_ql l + lo_qr l) (map scale_low o) = cm (map (fun l => lo_ql l + lo_qr l) o))
    by (rewrite !map_map; apply map_ext; intro; cbn [scale_low lo_ql lo_qr]; ring).
  rewrite S1, S2, S3, S4.
  assert (S5 : map2 (fun f l => csub f (lo_outr l)) (map fsc hr) (map scale_low o) = map fsc (map2 (fun f l => csub f (lo_outr l)) hr o)).
  { apply map2_map. intros f l. unfold fsc, csub, copp. cbn [scale_low lo_outr cadd cscal RR_CellOps fst snd]. unfold fsc. cbn [fst snd]. f_equal; ring. }
  rewrite S5. set (anti := map2 (fun f l => csub f (lo_outr l)) hr o) in *.
  assert (S6 : map fst (map fsc anti) = cm (map fst anti)) by (rewrite !map_map; reflexivity).
  assert (S7 : map snd (map fsc anti) = map (fun x => c * (c * x)) (map snd anti)) by (rewrite !map_map; reflexivity).
  rewrite S6, S7.
  inv_bind E. pose proof (cell_values_map (fun x => x) bc bc' _ _ _ L P E0) as K. rewrite !map_id in K. rewrite K. clear K. cbn [bind fst snd].
  unfold limit in *. cbn [snd] in *. rewrite limit_scale. set (fh := limit_arrays _ _ _ _ _ _) in *.
  inv_bind E. rewrite (vdiv_both _ _ _ E1). cbn [bind]. set (lh := map2 Rplus (map lo_h o) a0) in *.
  inv_bind E. rewrite (vdiv_num _ _ _ E2). cbn [bind].
  assert (S8 : map2 Rmult lh (cm a1) = cm (map2 Rmult lh a1)).
  { rewrite <- (map_id lh) at 1. apply map2_map. intros; ring. }
  rewrite S8. set (lv := map2 Rmult lh a1) in *.
  assert (S9 : map2 (fun l x => lo_s l * (lo_qr l + - x)) (map scale_low o) (cm lv) = map (fun x => c * (c * x)) (map2 (fun l x => lo_s l * (lo_qr l + - x)) o lv)).
  { apply map2_map. intros l x. cbn [scale_low lo_s lo_qr]. ring. }
  rewrite S9. set (corr := map2 (fun l x => lo_s l * (lo_qr l + - x)) o lv) in *.
  rewrite (map2_map Rplus Rplus (fun x => c * (c * x)) (fun x => c * (c * x)) (fun x => c * (c * x))) by (intros; ring).
  set (fv := map2 Rplus (map snd anti) corr) in *.
  inv_bind E. pose proof (cell_values_map (fun x => x) bc bc' _ _ _ L P E3) as K. rewrite !map_id in K. rewrite K. clear K. cbn [bind fst snd].
  inv_bind E. rewrite (cell_values_map (Rmult c) bc bc' _ _ _ L P E4). cbn [bind fst snd].
  inv_bind E. rewrite (cell_values_map (Rmult c) bc bc' _ _ _ L P E5). cbn [bind fst snd].
  inv_bind E. rewrite (vdiv_num _ _ _ E6). cbn [bind]. inv_bind E. rewrite (vdiv_num _ _ _ E7). cbn [bind].
  apply Ok_inj in E. subst m. unfold scale_parts. cbn [mp_fh mp_lh mp_vb mp_fq]. f_equal. f_equal.
  rewrite !map4_scale by (intros; unfold max4, min4; rewrite ?Rmax_c, ?Rmin_c; reflexivity).
  rewrite vlimit_scale. apply map2_map. intros; ring.
Qed.

(** ** boundary conditions *)
Lemma units_ghost_left cond inflow gl : build_left (Some reflect) cond 0 inflow = Ok gl -> exists gl',
  build_left (Some reflect) cond 0 (units_inflow c d inflow) = Ok gl' /\
  forall u t y, ghost_value gl u (Some t) = Ok y -> ghost_value gl' (map sc u) (Some (d / c * t)) = Ok (sc y).
Proof.
  unfold build_left. destruct (String.eqb cond "wall").
  - intro E. apply Ok_inj in E. subst gl. eexists. split; [reflexivity|]. intros u t y E. cbn [ghost_value] in *. inv_bind E. apply Ok_inj in E. subst y.
    rewrite (pyget_map sc _ _ _ E0). cbn [bind]. rewrite sc_reflect. reflexivity.
  - destruct (String.eqb cond "periodic"); [|destruct (String.eqb cond "outflow"); [|destruct (String.eqb cond "inflow"); [|discriminate]]].
    + intro E. apply Ok_inj in E. subst gl. eexists. split; [reflexivity|]. intros u t y E. cbn [ghost_value] in *. apply pyget_map. auto.
    + intro E. apply Ok_inj in E. subst gl. eexists. split; [reflexivity|]. intros u t y E. cbn [ghost_value] in *. apply pyget_map. auto.
    + destruct inflow as [f|]; [|discriminate]. intro E. apply Ok_inj in E. subst gl. eexists. split; [reflexivity|]. intros u t y E. cbn [ghost_value] in *.
      apply Ok_inj in E. subst y. do 3 f_equal. field. lra.
Qed.
Lemma units_ghost_right cond inflow gl : build_right (Some reflect) cond 0 inflow = Ok gl -> exists gl',
  build_right (Some reflect) cond 0 (units_inflow c d inflow) = Ok gl' /\
  forall u t y, ghost_value gl u (Some t) = Ok y -> ghost_value gl' (map sc u) (Some (d / c * t)) = Ok (sc y).
Proof.
  unfold build_right. destruct (String.eqb cond "wall").
  - intro E. apply Ok_inj in E. subst gl. eexists. split; [reflexivity|]. intros u t y E. cbn [ghost_value] in *. inv_bind E. apply Ok_inj in E. subst y.
    rewrite (pyget_map sc _ _ _ E0). cbn [bind]. rewrite sc_reflect. reflexivity.
  - destruct (String.eqb cond "periodic"); [|destruct (String.eqb cond "outflow"); [|destruct (String.eqb cond "inflow"); [|discriminate]]].
    + intro E. apply Ok_inj in E. subst gl. eexists. split; [reflexivity|]. intros u t y E. cbn [ghost_value] in *. apply pyget_map. auto.
    + intro E. apply Ok_inj in E. subst gl. eexists. split; [reflexivity|]. intros u t y E. cbn [ghost_value] in *. apply pyget_map. auto.
    + destruct inflow as [f|]; [|discriminate]. intro E. apply Ok_inj in E. subst gl. eexists. split; [reflexivity|]. intros u t y E. cbn [ghost_value] in *.
      apply Ok_inj in E. subst y. do 3 f_equal. field. lra.
Qed.
Lemma units_conditions conds il ir bc : get_boundary_conditions (Some reflect) conds 1 il ir = Ok bc -> exists bc',
  get_boundary_conditions (Some reflect) conds 1 (units_inflow c d il) (units_inflow c d ir) = Ok bc' /\
  bc_number bc' = bc_number bc /\ bc_periodic bc' = bc_periodic bc /\
  forall u t e, extended bc u (Some t) = Ok e -> extended bc' (map sc u) (Some (d / c * t)) = Ok (map sc e).
Proof.
  intro B. destruct (conditions_one _ _ _ _ B) as [c1 [c2 [gl [gr [Hn [E1 [E2 [B1 [B2 ->]]]]]]]]].
  destruct (units_ghost_left _ _ _ B1) as [gl' [B1' V1]]. destruct (units_ghost_right _ _ _ B2) as [gr' [B2' V2]].
  eexists. split; [apply conditions_build; auto; [rewrite <- E1; apply B1'|rewrite <- E1, <- E2; apply B2']|].
  split; [reflexivity|]. split; [reflexivity|]. intros u t e E. apply extended_one in E as [a [b [A1 [A2 ->]]]].
  apply extended_one. exists (sc a), (sc b). split; [auto|]. split; [auto|]. cbn [map]. rewrite map_app. reflexivity.
Qed.
Lemma units_mcl gravity b conds il ir high high' nf nf' : 0 < py_or gravity default_gravity -> units_flux high high' ->
  sw_mcl gravity b conds il ir high = Ok nf ->
  sw_mcl (units_gravity c gravity) b conds (units_inflow c d il) (units_inflow c d ir) high' = Ok nf' -> units_flux nf nf'.
Proof.
  intros Hg [D X] E E'. unfold sw_mcl in *. inv_bind E. destruct (units_conditions _ _ _ _ E0) as [bc' [B [L [P _]]]]. rewrite B in E'. cbn [bind] in E'.
  inv_bind E. rewrite E1 in E'. cbn [bind] in E'. apply Ok_inj in E, E'. subst nf nf'. split; [exact D|].
  intros v fl fr E. cbn [nf_call] in *. unfold sw_mcl_call in *. inv_bind E. rewrite (required_map _ _ _ _ E2). cbn [bind].
  destruct a1 as [|vl [|vr [|]]]; try discriminate. cbn [map]. inv_bind E. rewrite (sc_low_all gravity Hg _ _ _ _ E3). cbn [bind].
  inv_bind E. destruct a2 as [p q]. rewrite (X _ _ _ E4). cbn [bind snd] in *. inv_bind E. rewrite (units_limit a bc' _ _ _ L P E5). cbn [bind].
  apply Ok_inj in E. injection E as <- <-. unfold scale_parts. cbn [mp_fh mp_fq]. rewrite combine_map.
  assert (Y : map (fun p : R * R => (c * fst p, c * (c * snd p))) (combine (mp_fh a2) (mp_fq a2)) = map fsc (combine (mp_fh a2) (mp_fq a2))) by reflexivity.
  rewrite Y. set (lim := combine (mp_fh a2) (mp_fq a2)) in *. do 2 f_equal.
  - assert (Z : map lo_outl (map scale_low a1) = map fsc (map lo_outl a1)) by (rewrite !map_map; reflexivity). rewrite Z.
    change (map copp (map fsc lim)) with (vneg (map fsc lim)). rewrite fsc_neg. apply map2_map. apply fsc_add.
  - assert (Z : map lo_outr (map scale_low a1) = map fsc (map lo_outr a1)) by (rewrite !map_map; reflexivity). rewrite Z. apply map2_map. apply fsc_add.
Qed.

(** ** the right hand side *)
Definition slope (v : list state) : list state := map (cscal (c / d)) (map sc v).
Lemma units_rhs nf nf' (bc bc' : bconds state) dx t u v : units_flux nf nf' ->
  (forall u t e, extended bc u (Some t) = Ok e -> extended bc' (map sc u) (Some (d / c * t)) = Ok (map sc e)) ->
  fv_rhs nf dx bc t u = Ok v -> fv_rhs nf' (d * dx) bc' (d / c * t) (map sc u) = Ok (slope v).
Proof.
  intros [D X] B E. unfold fv_rhs in *. rewrite D. inv_bind E.
  assert (N : get_node_neighbours bc' (map sc u) (nf_dim nf / 2) (Some (d / c * t)) = Ok (map (map sc) a)).
  { unfold get_node_neighbours in *. inv_bind E0. rewrite (B _ _ _ E1). cbn [bind]. apply Ok_inj in E0. subst a. f_equal.
    rewrite map_app, map_map, map_length. cbn [map]. f_equal; [|rewrite skipn_map; reflexivity].
    apply map_ext. intro i. unfold slice. rewrite skipn_map, firstn_map. reflexivity. }
  rewrite N. cbn [bind]. inv_bind E. destruct a0 as [fl fr]. rewrite (X _ _ _ E1). cbn [bind fst snd] in *.
  unfold cells_from_nodes in *. inv_bind E. apply rdiv_ok in E2 as [Hx ->]. apply Ok_inj in E. subst v.
  rewrite rdiv_ne by (apply Rmult_integral_contrapositive; split; [lra|auto]). cbn [bind]. f_equal.
  rewrite removelast_map, tl_map, (map2_map cadd cadd fsc fsc fsc) by apply fsc_add. unfold slope. rewrite !map_map. apply map_ext. intros [x y].
  unfold fsc, in_units. cbn [cscal RR_CellOps fst snd]. f_equal; field; split; auto; lra.
Qed.

(** ** runs *)
Notation S := (map sc).
Lemma S_add (a b : list state) : S (vadd a b) = vadd (S a) (S b).
Proof. cbn [vadd list_VecOps]. symmetry. apply map2_map. intros. rewrite sc_add. reflexivity. Qed.
Lemma S_scal r (a : list state) : S (vscal r a) = vscal r (S a).
Proof. cbn [vscal list_VecOps]. rewrite !map_map. apply map_ext. apply sc_scal. Qed.
Lemma slope_add (a b : list state) : slope (vadd a b) = vadd (slope a) (slope b).
Proof.
  unfold slope. rewrite S_add. cbn [vadd list_VecOps]. symmetry. apply map2_map. intros. cbn [cadd cscal RR_CellOps fst snd]. f_equal; ring.
Qed.
Lemma slope_scal r (a : list state) : slope (vscal r a) = vscal r (slope a).
Proof.
  unfold slope. rewrite S_scal. cbn [vscal list_VecOps]. rewrite !map_map. apply map_ext. intro. cbn [cadd cscal RR_CellOps fst snd]. f_equal; ring.
Qed.
Lemma wsum_slope cs (ks : list (list state)) : wsum cs (map slope ks) = option_map slope (wsum cs ks).
Proof.
  revert ks; induction cs as [|x cs IH]; intros [|k ks]; try reflexivity. cbn [wsum map]. rewrite IH.
  destruct (wsum cs ks); cbn [option_map]; [rewrite slope_add|]; rewrite slope_scal; reflexivity.
Qed.
Lemma axpy_slope (u : list state) dt cs ks : axpy (S u) (d / c * dt) (wsum cs (map slope ks)) = S (axpy u dt (wsum cs ks)).
Proof.
  rewrite wsum_slope. destruct (wsum cs ks) as [k|]; cbn [option_map axpy]; [|reflexivity]. rewrite S_add. f_equal.
  unfold slope. cbn [vscal list_VecOps]. rewrite !map_map. apply map_ext. intros [x y]. unfold in_units. cbn [cscal RR_CellOps fst snd]. f_equal; field; lra.
Qed.
Lemma units_execute (f f' : R -> list state -> result (list state)) T dt o o' :
  (forall t u v, f t u = Ok v -> f' (d / c * t) (S u) = Ok (slope v)) -> rk_execute_e f T dt o = Ok o' ->
  rk_execute_e f' T (d / c * dt) {| o_time := d / c * o_time o; o_sol := S (o_sol o) |} = Ok {| o_time := d / c * o_time o'; o_sol := S (o_sol o') |}.
Proof.
  intros Hf E. unfold rk_execute_e in *.
  assert (G : forall l tns svs ks st, foldM (rk_stage_e f T dt o) l (tns, svs, ks) = Ok st ->
    foldM (rk_stage_e f' T (d / c * dt) {| o_time := d / c * o_time o; o_sol := S (o_sol o) |}) l (map (Rmult (d / c)) tns, map S svs, map slope ks) =
      Ok (map (Rmult (d / c)) (fst (fst st)), map S (snd (fst st)), map slope (snd st))).
  { induction l as [|i l IH]; intros tns svs ks st X; cbn [foldM] in *.
    - apply Ok_inj in X. subst st. auto.
    - inv_bind X. cbn [rk_stage_e] in E0. inv_bind E0. apply Ok_inj in E0. subst a. cbn [rk_stage_e o_time o_sol].
      rewrite axpy_slope. replace (d / c * o_time o + nth i (rk_c T) 0 * (d / c * dt)) with (d / c * (o_time o + nth i (rk_c T) 0 * dt)) by ring.
      rewrite (Hf _ _ _ E1). cbn [bind]. specialize (IH _ _ _ _ X). rewrite !map_app in IH. exact IH. }
  inv_bind E. destruct a as [[tns svs] ks]. apply Ok_inj in E. subst o'.
  specialize (G _ _ _ _ _ E0). cbn [map] in G. rewrite G. cbn [bind fst snd o_time o_sol]. rewrite axpy_slope. do 2 f_equal. ring.
Qed.
Lemma units_run (f f' : R -> list state -> result (list state)) T dts o o' :
  (forall t u v, f t u = Ok v -> f' (d / c * t) (S u) = Ok (slope v)) -> rk_run_e f T dts o = Ok o' ->
  rk_run_e f' T (map (Rmult (d / c)) dts) {| o_time := d / c * o_time o; o_sol := S (o_sol o) |} = Ok {| o_time := d / c * o_time o'; o_sol := S (o_sol o') |}.
Proof.
  intros Hf. unfold rk_run_e. revert o; induction dts as [|dt dts IH]; intros o E; cbn [foldM map] in *.
  - apply Ok_inj in E. subst. auto.
  - inv_bind E. rewrite (units_execute f f' T dt o a Hf E0). cbn [bind]. apply IH. auto.
Qed.
End Units.
