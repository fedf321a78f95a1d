(** Mirror images: node laws and Runge-Kutta runs. *)
From Coq Require Import Reals List ZArith Arith Lia Lra Psatz Bool String.
From Verif Require Import Prelude L_Prelude M_Boundary S_Boundary L_Boundary M_Flux S_Flux L_Flux
  M_Neighbours L_Neighbours M_Scalar S_Scalar L_Scalar M_ODE S_ODE L_ODE M_ShallowWater S_ShallowWater L_ShallowWater L_SWRuns L_SWLow
  L_SWWater L_SWLake L_SWTotal S_Symmetry L_SWNodes.
Import ListNotations.
Local Open Scope nat_scope.
Open Scope R_scope.
Notation length := List.length.
Notation z2 := (0, 0) (only parsing).

(** ** runs commute with linear maps that commute with the right hand side *)
Section Eq.
Context {V V' : Type} `{VecOps V} `{VecOps V'} (D : V -> Prop) (L : V -> V').
Hypothesis Dadd : forall a b, D a -> D b -> D (vadd a b).
Hypothesis Dscal : forall r a, D a -> D (vscal r a).
Hypothesis Ladd : forall a b, D a -> D b -> L (vadd a b) = vadd (L a) (L b).
Hypothesis Lscal : forall r a, D a -> L (vscal r a) = vscal r (L a).

Lemma wsum_map cs ks : Forall D ks -> wsum cs (map L ks) = option_map L (wsum cs ks) /\ forall w, wsum cs ks = Some w -> D w.
Proof.
  revert ks; induction cs as [|c cs IH]; intros [|k ks] F; try (split; [reflexivity|discriminate]).
  inversion F as [|? ? Dk F']; subst. destruct (IH ks F') as [I1 I2]. cbn [map wsum]. rewrite I1.
  destruct (wsum cs ks) as [w|]; cbn [option_map].
  - split; [rewrite Ladd, Lscal by auto; reflexivity|]. intros w' E. injection E as <-. auto.
  - split; [rewrite Lscal by auto; reflexivity|]. intros w' E. injection E as <-. auto.
Qed.
Lemma axpy_map u dt cs ks : D u -> Forall D ks ->
  axpy (L u) dt (wsum cs (map L ks)) = L (axpy u dt (wsum cs ks)) /\ D (axpy u dt (wsum cs ks)).
Proof.
  intros Du F. destruct (wsum_map cs ks F) as [E1 E2]. rewrite E1. destruct (wsum cs ks) as [w|]; cbn [option_map axpy]; auto.
  specialize (E2 w eq_refl). rewrite Ladd, Lscal by auto. auto.
Qed.
Lemma execute_map (f : R -> V -> result V) (f' : R -> V' -> result V') T dt o o' :
  (forall t u v, D u -> f t u = Ok v -> D v /\ f' t (L u) = Ok (L v)) -> D (o_sol o) ->
  rk_execute_e f T dt o = Ok o' ->
  D (o_sol o') /\ rk_execute_e f' T dt {| o_time := o_time o; o_sol := L (o_sol o) |} = Ok {| o_time := o_time o'; o_sol := L (o_sol o') |}.
Proof.
  intros Hf Du E. unfold rk_execute_e in *.
  assert (G : forall l tns svs ks st, Forall D ks -> foldM (rk_stage_e f T dt o) l (tns, svs, ks) = Ok st ->
    Forall D (snd st) /\ foldM (rk_stage_e f' T dt {| o_time := o_time o; o_sol := L (o_sol o) |}) l (tns, map L svs, map L ks) =
      Ok (fst (fst st), map L (snd (fst st)), map L (snd st))).
  { induction l as [|i l IH]; intros tns svs ks st F X; cbn [foldM] in *.
    - apply Ok_inj in X. subst st. auto.
    - inv_bind X. cbn [rk_stage_e] in E0. inv_bind E0. apply Ok_inj in E0. subst a. cbn [rk_stage_e o_time o_sol].
      destruct (axpy_map (o_sol o) dt (firstn i (nth i (rk_A T) [])) ks Du F) as [A1 A2]. rewrite A1.
      destruct (Hf _ _ _ A2 E1) as [D1 D2]. rewrite D2. cbn [bind].
      destruct (IH _ _ _ _ (proj2 (Forall_app D ks [a0]) (conj F (Forall_cons _ D1 (Forall_nil _)))) X) as [I1 I2]. split; auto.
      rewrite !map_app in I2. exact I2. }
  inv_bind E. destruct a as [[tns svs] ks]. apply Ok_inj in E. subst o'.
  destruct (G _ _ _ _ _ (Forall_nil _) E0) as [G1 G2]. cbn [map] in G2. rewrite G2. cbn [bind fst snd o_time o_sol] in *.
  destruct (axpy_map (o_sol o) dt (rk_b T) ks Du G1) as [A1 A2]. rewrite A1. auto.
Qed.
Lemma run_map (f : R -> V -> result V) (f' : R -> V' -> result V') T dts o o' :
  (forall t u v, D u -> f t u = Ok v -> D v /\ f' t (L u) = Ok (L v)) -> D (o_sol o) ->
  rk_run_e f T dts o = Ok o' ->
  D (o_sol o') /\ rk_run_e f' T dts {| o_time := o_time o; o_sol := L (o_sol o) |} = Ok {| o_time := o_time o'; o_sol := L (o_sol o') |}.
Proof.
  intros Hf. unfold rk_run_e. revert o. induction dts as [|dt dts IH]; intros o Du E; cbn [foldM] in *.
  - apply Ok_inj in E. subst. auto.
  - inv_bind E. destruct (execute_map f f' T dt o a Hf Du E0) as [D1 D2]. rewrite D2. cbn [bind]. apply IH; auto.
Qed.
End Eq.

(** ** point values *)
Lemma mirror_reflect u : reflect u = mirror_state u.
Proof. unfold reflect, mirror_state. f_equal. ring. Qed.
Lemma mirror_mirror u : mirror_state (mirror_state u) = u.
Proof. unfold mirror_state. destruct u. cbn [fst snd]. f_equal. ring. Qed.
Lemma mirror_velocity u : velocity (mirror_state u) = - velocity u.
Proof. rewrite <- mirror_reflect. apply velocity_reflect. Qed.
Lemma mirror_flux g u f : sw_flux g u = Ok f -> sw_flux g (mirror_state u) = Ok (copp (mirror_state f)).
Proof.
  destruct u as [h q]. unfold mirror_state, sw_flux, sw_flux_eps. cbn [fst snd]. destruct (Rltb_spec h 0); [discriminate|].
  destruct (Rltb_spec h epsilon); intro E; apply Ok_inj in E; subst f; unfold copp; cbn [cscal RR_CellOps fst snd]; do 2 f_equal; try ring.
  unfold Rdiv. ring.
Qed.
Lemma mirror_speed g l r : sw_max_speed g (mirror_state r) (mirror_state l) = sw_max_speed g l r.
Proof.
  unfold sw_max_speed. rewrite !mirror_velocity, !Rabs_Ropp. unfold mirror_state. cbn [fst]. apply Rmax_comm.
Qed.

Definition mirror_law (G : node_law) : Prop := forall l r bl br fl fr, G l r bl br = Ok (fl, fr) ->
  G (mirror_state r) (mirror_state l) br bl = Ok (mirror_state fr, mirror_state fl).
Definition mirror_point (F : state -> state -> result state) : Prop := forall l r f, F l r = Ok f ->
  F (mirror_state r) (mirror_state l) = Ok (copp (mirror_state f)).

Lemma mirror_source g F : mirror_point F -> mirror_law (add_source g F).
Proof.
  intros M l r bl br fl fr E. unfold add_source in *. inv_bind E. apply Ok_inj in E. injection E as <- <-.
  rewrite (M _ _ _ E0). cbn [bind]. unfold mirror_state, csub, copp, average. cbn [cadd cscal RR_CellOps fst snd]. repeat f_equal; field.
Qed.
Lemma mirror_plain F : mirror_point F -> mirror_law (plain_law F).
Proof.
  intros M l r bl br fl fr E. unfold plain_law in *. inv_bind E. apply Ok_inj in E. injection E as <- <-.
  rewrite (M _ _ _ E0). cbn [bind]. unfold mirror_state, copp. cbn [cadd cscal RR_CellOps fst snd]. repeat f_equal; ring.
Qed.
Lemma mirror_sum G1 G2 : mirror_law G1 -> mirror_law G2 -> mirror_law (sum_law G1 G2).
Proof.
  intros M1 M2 l r bl br fl fr E. unfold sum_law in *. inv_bind E. destruct a as [a1 a2]. inv_bind E. destruct a as [a3 a4].
  apply Ok_inj in E. cbn [fst snd] in E. injection E as <- <-. rewrite (M1 _ _ _ _ _ _ E0), (M2 _ _ _ _ _ _ E1). cbn [bind fst snd].
  unfold mirror_state. cbn [cadd RR_CellOps fst snd]. repeat f_equal; ring.
Qed.

Section G.
Context (gravity : option R).
Let g := py_or gravity default_gravity.

Lemma mirror_hll l r fl fr : sw_max_speed g l r <> 0 ->
  hll gravity (mirror_state r) (mirror_state l) (copp (mirror_state fr)) (copp (mirror_state fl)) = mirror_state (hll gravity l r fl fr).
Proof.
  intro Hs. unfold hll. fold g. rewrite mirror_speed. unfold mirror_state, copp. cbn [cscal RR_CellOps fst snd]. f_equal; field; auto.
Qed.
Lemma mirror_llf : mirror_point (fun l r => bind (rs_solve (sw_riemann gravity) l r) (fun o => Ok (ro_flux o))).
Proof.
  intros l r f E. inv_bind E. apply Ok_inj in E. subst f. destruct (sw_solve_inv gravity _ _ _ E0) as [fl [fr [F1 [F2 [Hs ->]]]]].
  rewrite (sw_solve gravity _ _ _ _ (mirror_flux _ _ _ F2) (mirror_flux _ _ _ F1)); [|fold g; rewrite mirror_speed; auto].
  cbn [bind]. unfold sw_out. cbn [ro_flux]. rewrite mirror_hll by auto. fold g in Hs |- *. rewrite mirror_speed.
  unfold hll. fold g. unfold mirror_state, csub, copp. cbn [cadd cscal RR_CellOps fst snd]. do 2 f_equal; field; auto.
Qed.
Lemma mirror_central : mirror_point (central_at (sw_flux g)).
Proof.
  intros l r f E. unfold central_at in *. inv_bind E. inv_bind E. apply Ok_inj in E. subst f.
  rewrite (mirror_flux _ _ _ E0), (mirror_flux _ _ _ E1). cbn [bind]. unfold mirror_state, copp. cbn [cadd cscal RR_CellOps fst snd]. do 2 f_equal; ring.
Qed.
Lemma mirror_avg l r : cavg (mirror_state r) (mirror_state l) = mirror_state (cavg l r).
Proof. unfold cavg, average, mirror_state. cbn [fst snd]. f_equal; field. Qed.
Lemma mirror_es : mirror_point (fun l r => sw_flux g (cavg l r)).
Proof. intros l r f E. rewrite mirror_avg. apply mirror_flux. auto. Qed.
Lemma mirror_antidiffusive gamma dx : mirror_point (fun l r => bind (rdiv 1 dx) (fun f => Ok (cscal f (cscal gamma (cadd r (copp l)))))).
Proof.
  intros l r f E. inv_bind E. apply Ok_inj in E. subst f. rewrite E0. cbn [bind].
  unfold mirror_state, copp. cbn [cadd cscal RR_CellOps fst snd]. do 2 f_equal; ring.
Qed.
Lemma rsign_opp x : rsign (- x) = - rsign x.
Proof. unfold rsign. destruct (Rltb_spec 0 (- x)), (Rltb_spec (- x) 0), (Rltb_spec 0 x), (Rltb_spec x 0); lra. Qed.
Lemma fix_opp h d : positivity_fix h (- d) = - positivity_fix h d.
Proof. unfold positivity_fix. rewrite Rabs_Ropp, rsign_opp. ring. Qed.
Lemma mirror_low : mirror_law (low_law gravity).
Proof.
  intros l r bl br pl pr E. unfold low_law in *. inv_bind E. apply Ok_inj in E. injection E as <- <-.
  destruct (low_at_inv gravity _ _ _ _ E0) as [fl [fr [F1 [F2 [Hs ->]]]]].
  rewrite (low_at_ok gravity _ _ _ _ _ (mirror_flux _ _ _ F2) (mirror_flux _ _ _ F1)); [|rewrite mirror_speed; auto].
  cbn [bind]. unfold low_out. cbn [lo_outl lo_outr]. rewrite mirror_hll by auto. fold g in Hs |- *. rewrite mirror_speed, !mirror_velocity.
  replace (bl - br) with (- (br - bl)) by ring. set (hl := hll gravity l r fl fr).
  replace (fst (mirror_state hl)) with (fst hl) by reflexivity. replace (snd (mirror_state hl)) with (- snd hl) by reflexivity.
  rewrite fix_opp. set (fx := positivity_fix (fst hl) (br - bl)).
  unfold average, mirror_state, copp. cbn [cadd cscal RR_CellOps fst snd]. do 3 f_equal; field; auto.
Qed.
Lemma mirror_es1 : mirror_law (es1_law g).
Proof.
  intros l r bl br pl pr E. unfold es1_law, es1_at in *. inv_bind E. inv_bind E. apply Ok_inj in E. injection E as <- <-.
  rewrite mirror_avg, (mirror_flux _ _ _ E0). cbn [bind]. unfold diffusion_matrix in *. inv_bind E1. apply Ok_inj in E1. subst a0.
  rewrite mirror_avg, mirror_velocity. rewrite E. cbn [bind]. unfold sw_entropy. rewrite !mirror_velocity.
  replace (fst (mirror_state (cavg l r))) with (fst (cavg l r)) by reflexivity.
  set (c := sqrt (g * fst (cavg l r))). set (v := velocity (cavg l r)).
  replace (- v - c) with (- (v + c)) by ring. replace (- v + c) with (- (v - c)) by ring. rewrite !Rabs_Ropp.
  set (vl := velocity l). set (vr := velocity r). set (A := Rabs (v - c)). set (B := Rabs (v + c)).
  unfold average, mirror_state, mat_vec, mat_mul, mat_scal, mat_transpose, csub, copp. cbn [cadd cscal RR_CellOps fst snd].
  do 3 f_equal; field.
Qed.
End G.
Lemma mirror_lw gravity dt dx : mirror_point (lw_at gravity dt dx).
Proof.
  intros l r f E. unfold lw_at in *. inv_bind E. pose proof (mirror_llf gravity l r (ro_flux a)) as M. cbv beta in M. rewrite E0 in M. specialize (M eq_refl).
  destruct gravity as [g0|]; [|discriminate]. inv_bind E. apply Ok_inj in E. subst f. inv_bind M. apply Ok_inj in M.
  rewrite E. cbn [bind]. rewrite mirror_speed, E1. cbn [bind]. rewrite M.
  unfold mirror_state, csub, copp. cbn [cadd cscal RR_CellOps fst snd]. do 2 f_equal; ring.
Qed.

(** on a flat bottom what leaves one cell enters the other *)
Definition exchange_law (G : node_law) : Prop := forall l r b fl fr, G l r b b = Ok (fl, fr) -> fl = copp fr.
Lemma exchange_source g F : exchange_law (add_source g F).
Proof.
  intros l r b fl fr E. unfold add_source in *. inv_bind E. apply Ok_inj in E. injection E as <- <-.
  unfold csub, copp. cbn [cadd cscal RR_CellOps fst snd]. f_equal; ring.
Qed.
Lemma exchange_plain F : exchange_law (plain_law F).
Proof. intros l r b fl fr E. unfold plain_law in *. inv_bind E. apply Ok_inj in E. injection E as <- <-. auto. Qed.
Lemma exchange_sum G1 G2 : exchange_law G1 -> exchange_law G2 -> exchange_law (sum_law G1 G2).
Proof.
  intros M1 M2 l r b fl fr E. unfold sum_law in *. inv_bind E. destruct a as [a1 a2]. inv_bind E. destruct a as [a3 a4].
  apply Ok_inj in E. cbn [fst snd] in E. injection E as <- <-. rewrite (M1 _ _ _ _ _ E0), (M2 _ _ _ _ _ E1).
  unfold copp. cbn [cadd cscal RR_CellOps fst snd]. f_equal; ring.
Qed.
Lemma exchange_low gravity : exchange_law (low_law gravity).
Proof.
  intros l r b fl fr E. unfold low_law in *. inv_bind E. apply Ok_inj in E. injection E as <- <-.
  destruct (low_at_inv gravity _ _ _ _ E0) as [f1 [f2 [F1 [F2 [Hs ->]]]]]. unfold low_out. cbn [lo_outl lo_outr].
  replace (b - b) with 0 by ring. rewrite fix_0. unfold copp, hll. cbn [cadd cscal RR_CellOps fst snd]. f_equal; field; auto.
Qed.
Lemma exchange_es1 g : exchange_law (es1_law g).
Proof.
  intros l r b fl fr E. unfold es1_law, es1_at in *. inv_bind E. inv_bind E. apply Ok_inj in E. injection E as <- <-.
  unfold csub, copp. cbn [cadd cscal RR_CellOps fst snd]. f_equal; ring.
Qed.

(** defined for wet states *)
Definition wet_law (G : node_law) : Prop := forall l r bl br, 0 < fst l -> 0 < fst r -> exists p, G l r bl br = Ok p.
Definition wet_point (F : state -> state -> result state) : Prop := forall l r, 0 < fst l -> 0 < fst r -> exists p, F l r = Ok p.
Lemma wet_source g F : wet_point F -> wet_law (add_source g F).
Proof. intros W l r bl br Hl Hr. unfold add_source. destruct (W l r Hl Hr) as [f ->]. cbn [bind]. eauto. Qed.
Lemma wet_plain F : wet_point F -> wet_law (plain_law F).
Proof. intros W l r bl br Hl Hr. unfold plain_law. destruct (W l r Hl Hr) as [f ->]. cbn [bind]. eauto. Qed.
Lemma wet_sum G1 G2 : wet_law G1 -> wet_law G2 -> wet_law (sum_law G1 G2).
Proof.
  intros M1 M2 l r bl br Hl Hr. unfold sum_law. destruct (M1 l r bl br Hl Hr) as [p1 ->]. destruct (M2 l r bl br Hl Hr) as [p2 ->].
  cbn [bind]. eauto.
Qed.
Section W.
Context (gravity : option R).
Let g := py_or gravity default_gravity.
Hypothesis Hg : 0 < g.
Lemma wet_llf : wet_point (fun l r => bind (rs_solve (sw_riemann gravity) l r) (fun o => Ok (ro_flux o))).
Proof.
  intros l r Hl Hr. destruct (sw_flux_total gravity l ltac:(lra)) as [fl El]. destruct (sw_flux_total gravity r ltac:(lra)) as [fr Er].
  destruct (hll_height_pos gravity l r fl fr Hg Hl Hr El Er) as [A1 A2].
  rewrite (sw_solve gravity _ _ _ _ El Er) by (fold g in A1 |- *; lra). cbn [bind]. eauto.
Qed.
Lemma wet_central : wet_point (central_at (sw_flux g)).
Proof.
  intros l r Hl Hr. destruct (sw_flux_total gravity l ltac:(lra)) as [fl El]. destruct (sw_flux_total gravity r ltac:(lra)) as [fr Er].
  unfold central_at. fold g in El, Er. rewrite El, Er. cbn [bind]. eauto.
Qed.
Lemma wet_es : wet_point (fun l r => sw_flux g (cavg l r)).
Proof. intros l r Hl Hr. apply sw_flux_total. unfold cavg, average. cbn [fst]. lra. Qed.
Lemma wet_es1 : wet_law (es1_law g).
Proof.
  intros l r bl br Hl Hr. unfold es1_law, es1_at. destruct (wet_es l r Hl Hr) as [f ->]. cbn [bind]. unfold diffusion_matrix.
  rewrite rdiv_ne. cbn [bind]; eauto. apply Rgt_not_eq, sqrt_lt_R0. lra.
Qed.
Lemma wet_low : wet_law (low_law gravity).
Proof.
  intros l r bl br Hl Hr. unfold low_law. destruct (low_at_total gravity l r (br - bl) Hg Hl Hr) as [o [-> _]]. cbn [bind]. eauto.
Qed.
Lemma wet_antidiffusive gamma dx : dx <> 0 -> wet_point (fun l r => bind (rdiv 1 dx) (fun f => Ok (cscal f (cscal gamma (cadd r (copp l)))))).
Proof. intros Hd l r _ _. rewrite rdiv_ne by auto. cbn [bind]. eauto. Qed.
End W.
Lemma wet_lw gravity dt dx : 0 < py_or gravity default_gravity -> gravity <> None -> dx <> 0 -> wet_point (lw_at gravity dt dx).
Proof.
  intros Hg N Hd l r Hl Hr. unfold lw_at. destruct (wet_llf gravity Hg l r Hl Hr) as [f E]. inv_bind E. rewrite E0. cbn [bind].
  destruct gravity; [|congruence]. rewrite rdiv_ne by auto. cbn [bind]. eauto.
Qed.

(** equal states: the flux of the equations *)
Definition consistent_law (g : R) (G : node_law) : Prop := forall w b fl fr, G w w b b = Ok (fl, fr) -> sw_flux g w = Ok fr.
Definition consistent_point (g : R) (F : state -> state -> result state) : Prop := forall w f, F w w = Ok f -> sw_flux g w = Ok f.
Lemma consistent_source g F : consistent_point g F -> consistent_law g (add_source g F).
Proof.
  intros C w b fl fr E. unfold add_source in *. inv_bind E. apply Ok_inj in E. injection E as <- <-. rewrite (C _ _ E0).
  f_equal. unfold csub, copp. cbn [cadd cscal RR_CellOps fst snd]. destruct a. cbn [fst snd]. f_equal; ring.
Qed.
Lemma consistent_plain g F : consistent_point g F -> consistent_law g (plain_law F).
Proof. intros C w b fl fr E. unfold plain_law in *. inv_bind E. apply Ok_inj in E. injection E as <- <-. auto. Qed.
Lemma consistent_sum g G1 F : consistent_law g G1 -> (forall w f, F w w = Ok f -> f = z2) -> consistent_law g (sum_law G1 (plain_law F)).
Proof.
  intros C Z w b fl fr E. unfold sum_law, plain_law in *. inv_bind E. destruct a as [a1 a2]. inv_bind E. inv_bind E1. destruct a as [a3 a4].
  apply Ok_inj in E1. injection E1 as <- <-. apply Ok_inj in E. cbn [fst snd] in E. injection E as <- <-. rewrite (C _ _ _ _ E0), (Z _ _ E2).
  f_equal. cbn [cadd RR_CellOps fst snd]. destruct a2. cbn [fst snd]. f_equal; ring.
Qed.
Lemma cavg_same w : cavg w w = w.
Proof. unfold cavg, average. destruct w. cbn [fst snd]. f_equal; field. Qed.
Section C.
Context (gravity : option R).
Let g := py_or gravity default_gravity.
Lemma hll_same w f : sw_max_speed g w w <> 0 -> hll gravity w w f f = w.
Proof. intro H. unfold hll. fold g. destruct w as [h q]. cbn [fst snd]. f_equal; field; auto. Qed.
Lemma consistent_llf : consistent_point g (fun l r => bind (rs_solve (sw_riemann gravity) l r) (fun o => Ok (ro_flux o))).
Proof.
  intros w f E. inv_bind E. apply Ok_inj in E. subst f. destruct (sw_solve_inv gravity _ _ _ E0) as [fl [fr [F1 [F2 [Hs ->]]]]].
  fold g in F1, F2, Hs. rewrite F1 in F2. apply Ok_inj in F2. subst fr. rewrite F1. unfold sw_out. cbn [ro_flux]. rewrite hll_same by auto.
  f_equal. unfold csub, copp. cbn [cadd cscal RR_CellOps fst snd]. destruct fl. cbn [fst snd]. f_equal; ring.
Qed.
Lemma consistent_central : consistent_point g (central_at (sw_flux g)).
Proof.
  intros w f E. unfold central_at in *. inv_bind E. inv_bind E. apply Ok_inj in E. subst f. rewrite E0 in *. apply Ok_inj in E1. subst a0.
  f_equal. cbn [cadd cscal RR_CellOps fst snd]. destruct a. cbn [fst snd]. f_equal; field.
Qed.
Lemma consistent_es : consistent_point g (fun l r => sw_flux g (cavg l r)).
Proof. intros w f E. rewrite cavg_same in E. auto. Qed.
Lemma consistent_es1 : consistent_law g (es1_law g).
Proof.
  intros w b fl fr E. unfold es1_law, es1_at in *. inv_bind E. inv_bind E. apply Ok_inj in E. injection E as <- <-.
  rewrite cavg_same in E0. rewrite E0. f_equal. unfold csub, copp, mat_vec. cbn [cadd cscal RR_CellOps fst snd]. destruct a. cbn [fst snd].
  unfold sw_entropy. cbn [fst snd]. f_equal; ring.
Qed.
Lemma consistent_low : consistent_law g (low_law gravity).
Proof.
  intros w b fl fr E. unfold low_law in *. inv_bind E. apply Ok_inj in E. injection E as <- <-.
  destruct (low_at_inv gravity _ _ _ _ E0) as [f1 [f2 [F1 [F2 [Hs ->]]]]]. fold g in F1, F2, Hs. rewrite F1 in F2. apply Ok_inj in F2. subst f2.
  rewrite F1. f_equal. unfold low_out. fold g. rewrite hll_same by auto. cbn [lo_outl lo_outr].
  replace (b - b) with 0 by ring. rewrite fix_0. destruct f1. cbn [fst snd]. f_equal; field; auto.
Qed.
End C.
Lemma consistent_lw gravity dt dx : consistent_point (py_or gravity default_gravity) (lw_at gravity dt dx).
Proof.
  intros w f E. unfold lw_at in *. inv_bind E. pose proof (consistent_llf gravity w (ro_flux a)) as M. cbv beta in M. rewrite E0 in M. specialize (M eq_refl).
  rewrite M. destruct gravity as [g0|]; [|discriminate]. inv_bind E. apply Ok_inj in E. subst f.
  f_equal. unfold csub, copp. cbn [cadd cscal RR_CellOps fst snd]. destruct (ro_flux a). cbn [fst snd]. f_equal; ring.
Qed.

Record law_facts (k : kind) (gravity : option R) (G : node_law) : Prop := {
  lf_mirror : mirror_law G;
  lf_exchange : exchange_law G;
  lf_wet : 0 < py_or gravity default_gravity -> usable k gravity -> wet_law G;
  lf_consistent : consistent_law (py_or gravity default_gravity) G;
  lf_nodes : forall b' nf', scheme k gravity b' = Ok nf' -> nodewise_sw b' nf' G }.
Lemma kind_law k gravity : exists G, law_facts k gravity G.
Proof.
  induction k; cbn [scheme] in *.
  - exists (low_law gravity). split; [apply mirror_low|apply exchange_low|intros; apply wet_low; auto|apply consistent_low|intros; apply nodewise_low; auto].
  - eexists. split; [apply mirror_source, (mirror_central gravity)|apply exchange_source|intros; apply wet_source, wet_central; auto|
      apply consistent_source, consistent_central|].
    intros b' nf' E. cbn [scheme] in E. unfold sw_central in E. eapply nodewise_source; [| |eauto]; [reflexivity|intro; reflexivity].
  - eexists. split; [apply mirror_source, (mirror_llf gravity)|apply exchange_source|intros; apply wet_source, wet_llf; auto|
      apply consistent_source, consistent_llf|].
    intros b' nf' E. cbn [scheme] in E. unfold sw_llf in *. eapply nodewise_source; [| |eauto]; [reflexivity|]. intro a. apply lax_friedrichs_two_point.
  - eexists. split; [apply mirror_source, (mirror_es gravity)|apply exchange_source|intros; apply wet_source, wet_es; auto|
      apply consistent_source, consistent_es|].
    intros b' nf' E. cbn [scheme] in E. unfold sw_es in *. eapply nodewise_source; [| |eauto]; [reflexivity|intro; reflexivity].
  - exists (es1_law (py_or gravity default_gravity)). split; [apply (mirror_es1 gravity)|apply exchange_es1|intros; apply wet_es1; auto|apply consistent_es1|
      intros; apply nodewise_es1; auto].
  - exists (plain_law (lw_at gravity dt dx)). split; [apply mirror_plain, mirror_lw|apply exchange_plain|intros ? [? ?]; apply wet_plain, wet_lw; auto|
      apply consistent_plain, consistent_lw|].
    intros b' nf' E'. apply Ok_inj in E'. subst nf'. apply nodewise_two_point; [reflexivity|intro; reflexivity].
  - destruct IHk as [G [M X W C N]].
    set (F := fun l r : state => bind (rdiv 1 dx) (fun f => Ok (cscal f (cscal gamma (cadd r (copp l)))))).
    exists (sum_law G (plain_law F)). split.
    + apply (mirror_sum _ _ M (mirror_plain _ (mirror_antidiffusive gamma dx))).
    + apply (exchange_sum _ _ X), exchange_plain.
    + intros Hg [? ?]; apply wet_sum; [apply W; auto|apply wet_plain, wet_antidiffusive; auto].
    + apply consistent_sum; auto. intros w f E. unfold F in E. inv_bind E. apply Ok_inj in E. subst f.
      unfold copp. cbn [cadd cscal RR_CellOps fst snd]. f_equal; ring.
    + intros b' nf' E'. cbn [scheme] in E'. inv_bind E'. apply Ok_inj in E'. subst nf'. apply nodewise_corrected; [apply N; auto|].
      apply nodewise_two_point; [reflexivity|intro; reflexivity].
Qed.

(** ** construction *)
Lemma scheme_ok k gravity b p : build_bathymetry b = Ok p -> exists nf, scheme k gravity b = Ok nf.
Proof.
  intro E. induction k; cbn [scheme]; unfold sw_low, sw_central, sw_llf, sw_es, sw_es1, with_source; rewrite ?E; cbn [bind]; eauto.
  destruct IHk as [nf ->]. cbn [bind]. eauto.
Qed.
Lemma scheme_bathymetry k gravity b nf : scheme k gravity b = Ok nf -> (exists p, build_bathymetry b = Ok p) \/ forall b', exists nf', scheme k gravity b' = Ok nf'.
Proof.
  revert nf; induction k; cbn [scheme]; unfold sw_low, sw_central, sw_llf, sw_es, sw_es1, with_source; intros nf E; try (inv_bind E; eauto; fail).
  - right. eauto.
  - inv_bind E. destruct (IHk _ E0) as [|X]; auto. right. intro b'. destruct (X b') as [nf' ->]. cbn [bind]. eauto.
Qed.

Lemma constant_iff l : is_constant l = Ok true <-> l <> [] /\ forall i, (i < length l)%nat -> Rabs (nth i l 0 - nth 0 l 0) < epsilon.
Proof.
  destruct l as [|a l]; cbn [is_constant].
  - split; [discriminate|intros [X _]; congruence].
  - split.
    + intro E. apply Ok_inj in E. split; [discriminate|]. intros i Hi. rewrite forallb_forall in E.
      specialize (E _ (nth_In (a :: l) 0 Hi)). destruct (Rltb_spec (Rabs (nth i (a :: l) 0 - a)) epsilon) as [Y|Y]; [exact Y|discriminate].
    + intros [_ X]. f_equal. apply forallb_forall. intros x Hx. destruct (In_nth _ _ 0 Hx) as [i [Hi <-]].
      destruct (Rltb_spec (Rabs (nth i (a :: l) 0 - a)) epsilon) as [Y|Y]; [auto|]. specialize (X i Hi). change (nth 0 (a :: l) 0) with a in X. lra.
Qed.
Lemma bumpy_not_constant l : bumpy_bottom (BArray l) -> is_constant l = Ok false.
Proof.
  intros [l' [i [E [Hi X]]]]. injection E as <-. pose proof (proj1 (constant_iff l)) as C.
  destruct l as [|a l]; [cbn in Hi; lia|]. cbn [is_constant] in *. destruct (forallb _ _); auto.
  destruct (C eq_refl) as [_ Y]. specialize (Y i Hi). lra.
Qed.
Lemma epsilon_gt0 : 0 < epsilon.
Proof. apply epsilon_pos. Qed.
Lemma flat_constant b : flat_bottom b -> forall l, b = BArray l -> is_constant l = Ok true.
Proof.
  intros F l ->. apply constant_iff. destruct F as [F1 F2]. split; auto. intros i Hi. rewrite F2 by auto.
  rewrite Rminus_eq_0, Rabs_R0. apply epsilon_gt0.
Qed.
Lemma flat_mirror b : flat_bottom b -> flat_bottom (mirror_bottom b).
Proof.
  destruct b as [| |l]; auto. intros [F1 F2]. split.
  - intro E. apply F1. rewrite <- (rev_involutive l). rewrite E. reflexivity.
  - assert (0 < length l)%nat by (destruct l; [congruence|cbn; lia]). rewrite rev_length. intros i Hi.
    rewrite !rev_nth by lia. rewrite (F2 (length l - S i)%nat), (F2 (length l - 1)%nat) by lia. reflexivity.
Qed.

(** the bottom of the mirrored problem *)
Lemma recognised_builds b : recognised b -> exists p, build_bathymetry b = Ok p.
Proof.
  intros [F|[B _]].
  - destruct b as [| |l]; cbn [build_bathymetry]; eauto. rewrite (flat_constant _ F l eq_refl). cbn [bind]. eauto.
  - destruct B as [l [i [-> [Hi X]]]]. cbn [build_bathymetry]. rewrite bumpy_not_constant by (exists l, i; auto). cbn [bind].
    rewrite (pyget_0 l 0), (pyget_m1 l 0) by lia. cbn [bind]. eauto.
Qed.
Lemma mirror_bottom_twice b : mirror_bottom (mirror_bottom b) = b.
Proof. destruct b; cbn [mirror_bottom]; auto. rewrite rev_involutive. auto. Qed.
Lemma recognised_mirror b : recognised b -> recognised (mirror_bottom b).
Proof. intros [F|[B1 B2]]; [left; apply flat_mirror; auto|right; rewrite mirror_bottom_twice; auto]. Qed.
Lemma padded_mirror b n : (1 <= n)%nat -> recognised b -> one_entry_per_cell b n -> exists beta,
  padded b n beta /\ padded (mirror_bottom b) n (fun i => beta (S n - i)%nat).
Proof.
  intros Hn [F|[B1 B2]] H1.
  - exists (fun _ => 0). split; apply padded_flat; apply flat_constant; auto. apply flat_mirror. auto.
  - destruct (B1) as [l [i [-> [Hi X]]]]. specialize (H1 l eq_refl). exists (fun i => nth (Nat.min (i - 1) (n - 1)) l 0). split.
    + apply padded_exists; auto; intros l' E; injection E as <-; auto. apply bumpy_not_constant. auto.
    + cbn [mirror_bottom] in *.
      assert (P : padded (BArray (rev l)) n (fun i => nth (Nat.min (i - 1) (n - 1)) (rev l) 0)).
      { apply padded_exists; auto; intros l' E; injection E as <-; auto. rewrite rev_length. auto. apply bumpy_not_constant. auto. }
      destruct P as [p [bt [st [P1 [P2 [P3 [P4 P5]]]]]]]. exists p, bt, st. repeat match goal with |- _ /\ _ => split end; auto.
      * intros j Hj. rewrite P4 by auto. rewrite rev_nth by lia. f_equal. lia.
      * intros j Hj. rewrite P5 by auto. rewrite !rev_nth by lia. f_equal; f_equal; lia.
Qed.

(** ** ghost cells *)
Lemma mirror_length u : length (mirror u) = length u.
Proof. unfold mirror. rewrite rev_length, map_length. auto. Qed.
Lemma nth_mirror u i : (i < length u)%nat -> nth i (mirror u) z2 = mirror_state (nth (length u - S i) u z2).
Proof.
  intro H. unfold mirror. rewrite rev_nth by (rewrite map_length; auto). rewrite map_length.
  rewrite (nth_map' mirror_state _ _ z2) by lia. reflexivity.
Qed.
Lemma nonempty_dec {A} (v : list A) : v = [] \/ (1 <= length v)%nat.
Proof. destruct v; [auto|right; cbn; lia]. Qed.
Lemma mirror_ghost c inflow gl : build_left (Some reflect) c 0 inflow = Ok gl ->
  exists gr, build_right (Some reflect) c 0 (mirror_inflow inflow) = Ok gr /\
  forall u t y, ghost_value gl u (Some t) = Ok y -> ghost_value gr (mirror u) (Some t) = Ok (mirror_state y).
Proof.
  unfold build_left, build_right. 
  assert (P0 : forall u y, pyget u 0 = Ok y -> pyget (mirror u) (-1) = Ok (mirror_state y)).
  { intros u y E. destruct (nonempty_dec u) as [->|Hu]; [discriminate|]. rewrite (pyget_0 u z2) in E by auto. apply Ok_inj in E. subst y.
    rewrite (pyget_m1 _ z2) by (rewrite mirror_length; auto). rewrite nth_mirror by (rewrite mirror_length; lia).
    rewrite mirror_length. do 2 f_equal. f_equal. lia. }
  assert (P1 : forall u y, pyget u (-1) = Ok y -> pyget (mirror u) 0 = Ok (mirror_state y)).
  { intros u y E. destruct (nonempty_dec u) as [->|Hu]; [discriminate|]. rewrite (pyget_m1 u z2) in E by auto. apply Ok_inj in E. subst y.
    rewrite (pyget_0 _ z2) by (rewrite mirror_length; auto). rewrite nth_mirror by auto. reflexivity. }
  destruct (String.eqb_spec c "wall").
  - intro E. apply Ok_inj in E. subst gl. eexists. split; [reflexivity|]. intros u t y E. cbn [ghost_value] in *. inv_bind E. apply Ok_inj in E. subst y.
    rewrite (P0 _ _ E0). cbn [bind]. rewrite !mirror_reflect. auto.
  - destruct (String.eqb c "periodic"); [|destruct (String.eqb c "outflow"); [|destruct (String.eqb c "inflow"); [|discriminate]]].
    + intro E. apply Ok_inj in E. subst gl. eexists. split; [reflexivity|]. intros u t y E. cbn [ghost_value] in *. apply P1. auto.
    + intro E. apply Ok_inj in E. subst gl. eexists. split; [reflexivity|]. intros u t y E. cbn [ghost_value] in *. apply P0. auto.
    + destruct inflow as [f|]; [|discriminate]. intro E. apply Ok_inj in E. subst gl. eexists. split; [reflexivity|]. intros u t y E. cbn [ghost_value] in *.
      apply Ok_inj in E. subst y. auto.
Qed.
Lemma mirror_ghost' c inflow gr : build_right (Some reflect) c 0 inflow = Ok gr ->
  exists gl, build_left (Some reflect) c 0 (mirror_inflow inflow) = Ok gl /\
  forall u t y, ghost_value gr u (Some t) = Ok y -> ghost_value gl (mirror u) (Some t) = Ok (mirror_state y).
Proof.
  unfold build_left, build_right. 
  assert (P0 : forall u y, pyget u 0 = Ok y -> pyget (mirror u) (-1) = Ok (mirror_state y)).
  { intros u y E. destruct (nonempty_dec u) as [->|Hu]; [discriminate|]. rewrite (pyget_0 u z2) in E by auto. apply Ok_inj in E. subst y.
    rewrite (pyget_m1 _ z2) by (rewrite mirror_length; auto). rewrite nth_mirror by (rewrite mirror_length; lia).
    rewrite mirror_length. do 2 f_equal. f_equal. lia. }
  assert (P1 : forall u y, pyget u (-1) = Ok y -> pyget (mirror u) 0 = Ok (mirror_state y)).
  { intros u y E. destruct (nonempty_dec u) as [->|Hu]; [discriminate|]. rewrite (pyget_m1 u z2) in E by auto. apply Ok_inj in E. subst y.
    rewrite (pyget_0 _ z2) by (rewrite mirror_length; auto). rewrite nth_mirror by auto. reflexivity. }
  destruct (String.eqb_spec c "wall").
  - intro E. apply Ok_inj in E. subst gr. eexists. split; [reflexivity|]. intros u t y E. cbn [ghost_value] in *. inv_bind E. apply Ok_inj in E. subst y.
    rewrite (P1 _ _ E0). cbn [bind]. rewrite !mirror_reflect. auto.
  - destruct (String.eqb c "periodic"); [|destruct (String.eqb c "outflow"); [|destruct (String.eqb c "inflow"); [|discriminate]]].
    + intro E. apply Ok_inj in E. subst gr. eexists. split; [reflexivity|]. intros u t y E. cbn [ghost_value] in *. apply P0. auto.
    + intro E. apply Ok_inj in E. subst gr. eexists. split; [reflexivity|]. intros u t y E. cbn [ghost_value] in *. apply P1. auto.
    + destruct inflow as [f|]; [|discriminate]. intro E. apply Ok_inj in E. subst gr. eexists. split; [reflexivity|]. intros u t y E. cbn [ghost_value] in *.
      apply Ok_inj in E. subst y. auto.
Qed.
Lemma conditions_one (c : list string) f1 f2 (bc : bconds state) : get_boundary_conditions (Some reflect) c 1 f1 f2 = Ok bc ->
  exists c1 c2 gl gr, c <> [] /\ c1 = nth 0 c EmptyString /\ c2 = nth 1 c c1 /\ build_left (Some reflect) c1 0 f1 = Ok gl /\ build_right (Some reflect) c2 0 f2 = Ok gr /\
    bc = {| bc_left := [gl]; bc_right := [gr]; bc_periodic := is_periodic c |}.
Proof.
  intro E. destruct c as [|c1 rest]; [discriminate|]. unfold get_boundary_conditions in E. cbn [seq rev app mapM] in E.
  inv_bind E. inv_bind E0. cbn [bind] in E0. apply Ok_inj in E0. subst a.
  inv_bind E. inv_bind E0. cbn [bind] in E0. apply Ok_inj in E0. subst a.
  cbn in E. apply Ok_inj in E. subst bc. exists c1. eexists. do 2 eexists. repeat match goal with |- _ /\ _ => split end; eauto; [discriminate|].
  destruct rest; eauto.
Qed.
Lemma conditions_build (c : list string) f1 f2 (gl gr : ghost state) : c <> [] ->
  build_left (Some reflect) (nth 0 c EmptyString) 0 f1 = Ok gl -> build_right (Some reflect) (nth 1 c (nth 0 c EmptyString)) 0 f2 = Ok gr ->
  get_boundary_conditions (Some reflect) c 1 f1 f2 = Ok {| bc_left := [gl]; bc_right := [gr]; bc_periodic := is_periodic c |}.
Proof.
  intros Hc E1 E2. destruct c as [|c1 rest]; [congruence|]. cbn [nth] in *. unfold get_boundary_conditions. cbn [seq rev app mapM].
  rewrite E1. cbn [bind]. assert (E : match rest with [] => c1 | c :: _ => c end = nth 0 rest c1) by (destruct rest; auto).
  rewrite E, E2. cbn [bind]. reflexivity.
Qed.
Lemma extended_one (gl gr : ghost state) p u t e : extended {| bc_left := [gl]; bc_right := [gr]; bc_periodic := p |} u (Some t) = Ok e <->
  exists a b, ghost_value gl u (Some t) = Ok a /\ ghost_value gr u (Some t) = Ok b /\ e = a :: u ++ [b].
Proof.
  unfold extended. cbn [bc_left bc_right mapM]. split.
  - intro E. inv_bind E. inv_bind E0. cbn [bind] in E0. apply Ok_inj in E0. subst a. inv_bind E. inv_bind E0. cbn [bind] in E0. apply Ok_inj in E0.
    subst a. apply Ok_inj in E. subst e. eauto 8.
  - intros [a [b [-> [-> ->]]]]. reflexivity.
Qed.
Lemma nodes_one (gl gr : ghost state) p u t e : extended {| bc_left := [gl]; bc_right := [gr]; bc_periodic := p |} u (Some t) = Ok e ->
  get_node_neighbours {| bc_left := [gl]; bc_right := [gr]; bc_periodic := p |} u 1 (Some t) =
  Ok [tab (S (length u)) (fun i => nth i e z2); tab (S (length u)) (fun i => nth (S i) e z2)].
Proof.
  intro E. unfold get_node_neighbours. rewrite E. cbn [bind]. apply extended_one in E as [a [b [_ [_ ->]]]].
  f_equal. cbn [Nat.mul Nat.add Nat.sub seq map app]. unfold slice. cbn [skipn]. f_equal; [|f_equal].
  - match goal with |- firstn ?k _ = _ => replace k with (S (length u)) by (cbn [length]; rewrite app_length; cbn [length]; lia) end.
    apply (nth_ext _ _ z2 z2).
    + rewrite tab_length, firstn_length. cbn [length]. rewrite app_length. cbn [length]. lia.
    + intros i Hi. rewrite firstn_length in Hi. rewrite nth_tab by lia. apply nth_firstn. lia.
  - apply (nth_ext _ _ z2 z2).
    + rewrite tab_length, app_length. cbn [length]. lia.
    + intros i Hi. rewrite app_length in Hi. cbn [length] in Hi. rewrite nth_tab by lia. reflexivity.
Qed.
Lemma nth_extended (a b : state) u i : (i <= S (length u))%nat ->
  nth i (mirror_state b :: mirror u ++ [mirror_state a]) z2 = mirror_state (nth (S (length u) - i) (a :: u ++ [b]) z2).
Proof.
  intro Hi. pose proof (mirror_length u) as Lm. destruct i as [|i].
  - cbn [nth]. rewrite Nat.sub_0_r. cbn [nth]. rewrite app_nth2, Nat.sub_diag by lia. reflexivity.
  - cbn [nth]. destruct (Nat.eq_dec i (length u)) as [->|].
    + rewrite Nat.sub_diag. cbn [nth]. rewrite app_nth2, Lm, Nat.sub_diag by lia. reflexivity.
    + rewrite app_nth1, nth_mirror by lia. replace (S (length u) - S i)%nat with (S (length u - S i)) by lia. cbn [nth].
      rewrite app_nth1 by lia. reflexivity.
Qed.

(** ** the right hand side *)
Lemma mirror_rhs b nf nf' G c f1 f2 bc : mirror_law G -> nodewise_sw b nf G -> nodewise_sw (mirror_bottom b) nf' G ->
  recognised b -> get_boundary_conditions (Some reflect) c 1 f1 f2 = Ok bc ->
  exists bc', get_boundary_conditions (Some reflect) (mirror_conditions c) 1 (mirror_inflow f2) (mirror_inflow f1) = Ok bc' /\
  forall dx t u v, u <> [] -> one_entry_per_cell b (length u) -> fv_rhs nf dx bc t u = Ok v ->
    length v = length u /\ fv_rhs nf' dx bc' t (mirror u) = Ok (mirror v).
Proof.
  intros M [D1 N1] [D2 N2] Hb B. destruct (conditions_one _ _ _ _ B) as [c1 [c2 [gl [gr [Hc [E1 [E2 [B1 [B2 ->]]]]]]]]].
  destruct (mirror_ghost _ _ _ B1) as [gr' [B1' V1]]. destruct (mirror_ghost' _ _ _ B2) as [gl' [B2' V2]].
  assert (Hc' : nth 0 (mirror_conditions c) EmptyString = c2 /\ nth 1 (mirror_conditions c) c2 = c1 /\ mirror_conditions c <> []).
  { destruct c as [|x [|y r]]; [congruence| |]; cbn in *; subst; repeat split; discriminate. }
  destruct Hc' as [H0 [H1 H2]].
  eexists. split; [apply conditions_build; auto; [rewrite H0; apply B2'|rewrite H0, H1; apply B1']|].
  intros dx t u v Hu Hl E. assert (Hn : (1 <= length u)%nat) by (destruct u; [congruence|cbn; lia]).
  set (n := length u) in *.
  destruct (fv_rhs_inv _ _ _ _ _ _ E) as [a [fl [fr [Ea [Ef Ec]]]]]. rewrite D1 in Ea. change (2 / 2)%nat with 1%nat in Ea.
  assert (Ee : exists e, extended {| bc_left := [gl]; bc_right := [gr]; bc_periodic := is_periodic c |} u (Some t) = Ok e).
  { unfold get_node_neighbours in Ea. inv_bind Ea. eauto. }
  destruct Ee as [e Ee]. rewrite (nodes_one _ _ _ _ _ _ Ee) in Ea. apply Ok_inj in Ea. subst a.
  apply extended_one in Ee as [y0 [y1 [G0 [G1 ->]]]]. fold n in Ef.
  destruct (padded_mirror b n Hn Hb Hl) as [beta [P1 P2]].
  apply (N1 n (fun i => nth i (y0 :: u ++ [y1]) z2) beta fl fr Hn P1) in Ef as [L1 [L2 X]].
  destruct (cells_from_nodes_spec _ _ _ _ n Ec L1 L2) as [Hd [Lv Vv]].
  assert (Ee' : extended {| bc_left := [gl']; bc_right := [gr']; bc_periodic := is_periodic (mirror_conditions c) |} (mirror u) (Some t) =
    Ok (mirror_state y1 :: mirror u ++ [mirror_state y0])).
  { apply extended_one. exists (mirror_state y1), (mirror_state y0). auto. }
  split; [exact Lv|].
  unfold fv_rhs. rewrite D2. change (2 / 2)%nat with 1%nat. rewrite (nodes_one _ _ _ _ _ _ Ee'). cbn [bind]. rewrite mirror_length. fold n.
  set (e := y0 :: u ++ [y1]) in *.
  assert (Ef' : nf_call nf' [tab (S n) (fun i => nth i (mirror_state y1 :: mirror u ++ [mirror_state y0]) z2);
      tab (S n) (fun i => nth (S i) (mirror_state y1 :: mirror u ++ [mirror_state y0]) z2)] = Ok (mirror fr, mirror fl)).
  { apply (N2 n (fun i => nth i (mirror_state y1 :: mirror u ++ [mirror_state y0]) z2) _ _ _ Hn P2). rewrite !mirror_length. split; auto. split; auto. intros i Hi.
    rewrite !nth_extended by (unfold n in *; lia). fold n e. rewrite !nth_mirror by lia. rewrite L1, L2.
    replace (S n - S i)%nat with (n - i)%nat by lia. replace (S n - i)%nat with (S (n - i)) by lia. apply M. apply X. lia. }
  rewrite Ef'. cbn [bind fst snd]. unfold cells_from_nodes. 
  rewrite rdiv_ne by auto. cbn [bind]. f_equal.
  apply (nth_ext _ _ z2 z2).
  - rewrite map_length, map2_length, removelast_length, tl_length, !mirror_length. lia.
  - intros i Hi. rewrite map_length, map2_length, removelast_length, tl_length, !mirror_length in Hi.
    assert (Hi' : (i < n)%nat) by lia. rewrite nth_mirror by lia.
    rewrite (nth_map' _ _ _ z2) by (rewrite map2_length, removelast_length, tl_length, !mirror_length; lia).
    rewrite (nth_map2 _ _ _ i z2 z2) by (rewrite ?removelast_length, ?tl_length, !mirror_length; lia).
    rewrite nth_removelast, nth_tl by (rewrite mirror_length; lia). rewrite !nth_mirror by lia.
    change z2 with (czero : state) at 3. rewrite Vv by lia. rewrite L1, L2, Lv. cbn [czero RR_CellOps].
    replace (S n - S i)%nat with (S (n - S i)) by lia. replace (S n - S (S i))%nat with (n - S i)%nat by lia.
    unfold mirror_state. cbn [cadd cscal RR_CellOps fst snd]. f_equal; ring.
Qed.

(** ** mirror is linear on states with equally many cells *)
Lemma mirror_add (a b : list state) : length a = length b -> mirror (vadd a b) = vadd (mirror a) (mirror b).
Proof.
  intro E. cbn [vadd list_VecOps]. apply (nth_ext _ _ z2 z2).
  - rewrite mirror_length, !map2_length, !mirror_length. auto.
  - intros i Hi. rewrite mirror_length, map2_length in Hi. rewrite nth_mirror by (rewrite map2_length; auto).
    rewrite !(nth_map2 _ _ _ _ z2 z2) by (rewrite ?mirror_length, ?map2_length; lia). rewrite map2_length, !nth_mirror by lia.
    rewrite <- E, Nat.min_id. unfold mirror_state. cbn [cadd RR_CellOps fst snd]. f_equal. ring.
Qed.
Lemma mirror_scal r (a : list state) : mirror (vscal r a) = vscal r (mirror a).
Proof.
  unfold mirror. cbn [vscal list_VecOps]. rewrite map_rev, !map_map. f_equal. apply map_ext. intro u. unfold mirror_state.
  cbn [cscal RR_CellOps fst snd]. f_equal. ring.
Qed.

(** ** cell by cell *)
Lemma rhs_iff b nf G n beta gl gr p dx t u e v : nodewise_sw b nf G -> length u = n -> (1 <= n)%nat -> padded b n beta ->
  extended {| bc_left := [gl]; bc_right := [gr]; bc_periodic := p |} u (Some t) = Ok e ->
  (fv_rhs nf dx {| bc_left := [gl]; bc_right := [gr]; bc_periodic := p |} t u = Ok v <->
   dx <> 0 /\ length v = n /\ exists fl fr : nat -> state,
     (forall i, (i <= n)%nat -> G (nth i e z2) (nth (S i) e z2) (beta i) (beta (S i)) = Ok (fl i, fr i)) /\
     forall i, (i < n)%nat -> nth i v z2 = cscal (1 / dx) (cadd (fr i) (fl (S i)))).
Proof.
  intros [D N] <- Hn P E. unfold fv_rhs. rewrite D. change (2 / 2)%nat with 1%nat. rewrite (nodes_one _ _ _ _ _ _ E). cbn [bind].
  set (n := length u) in *. split.
  - intro X. inv_bind X. destruct a as [fl fr]. apply (N n (fun i => nth i e z2) beta fl fr Hn P) in E0 as [L1 [L2 Y]]. cbn [fst snd] in X.
    destruct (cells_from_nodes_spec _ _ _ _ n X L1 L2) as [Hd [Lv Vv]]. split; auto. split; auto.
    exists (fun i => nth i fl z2), (fun i => nth i fr z2). split; auto.
  - intros [Hd [Lv [fl [fr [Y Vv]]]]].
    assert (C : nf_call nf [tab (S n) (fun i => nth i e z2); tab (S n) (fun i => nth (S i) e z2)] = Ok (tab (S n) fl, tab (S n) fr)).
    { apply (N n (fun i => nth i e z2) beta _ _ Hn P). rewrite !tab_length. split; auto. split; auto. intros i Hi. rewrite !nth_tab by lia. auto. }
    rewrite C. cbn [bind fst snd]. unfold cells_from_nodes. rewrite rdiv_ne by auto. cbn [bind]. f_equal.
    apply (nth_ext _ _ z2 z2).
    + rewrite map_length, map2_length, removelast_length, tl_length, !tab_length. lia.
    + intros i Hi. rewrite map_length, map2_length, removelast_length, tl_length, !tab_length in Hi. rewrite Vv by lia.
      rewrite (nth_map' _ _ _ z2) by (rewrite map2_length, removelast_length, tl_length, !tab_length; lia).
      rewrite (nth_map2 _ _ _ i z2 z2) by (rewrite ?removelast_length, ?tl_length, !tab_length; lia).
      rewrite nth_removelast, nth_tl by (rewrite tab_length; lia). rewrite !nth_tab by lia. reflexivity.
Qed.

(** ** translations *)
Lemma skipn_cons {A} k (l : list A) c r : skipn k l = c :: r -> skipn (S k) l = r /\ firstn (S k) l = firstn k l ++ [c].
Proof.
  revert l; induction k as [|k IH]; intros [|x l] Es; try discriminate.
  - cbn in Es. injection Es as -> ->. auto.
  - cbn [skipn] in Es. destruct (IH l Es) as [X1 X2]. split; [exact X1|].
    change (firstn (S (S k)) (x :: l)) with (x :: firstn (S k) l). rewrite X2. reflexivity.
Qed.
Lemma rotate_S {A} k (u : list A) : (k < length u)%nat -> rotate (S k) u = rotate 1 (rotate k u).
Proof.
  intro H. unfold rotate at 1 3. destruct (skipn k u) as [|c r] eqn:Es.
  - exfalso. assert (L : length (skipn k u) = 0%nat) by (rewrite Es; reflexivity). rewrite skipn_length in L. lia.
  - destruct (skipn_cons _ _ _ _ Es) as [-> ->]. unfold rotate. cbn [app skipn firstn]. apply app_assoc.
Qed.
Lemma rotate_all {A} k (u : list A) : (length u <= k)%nat -> rotate k u = u.
Proof. intro H. unfold rotate. rewrite skipn_all2, firstn_all2 by auto. reflexivity. Qed.
Lemma rotate_length {A} k (u : list A) : length (rotate k u) = length u.
Proof. unfold rotate. rewrite app_length, skipn_length, firstn_length. lia. Qed.
Lemma rotate_1 {A} (u : list A) d i : (i < length u)%nat -> nth i (rotate 1 u) d = if Nat.eqb (S i) (length u) then nth 0 u d else nth (S i) u d.
Proof.
  destruct u as [|a u]; cbn [length]; [lia|]. intro H. unfold rotate. cbn [skipn firstn].
  destruct (Nat.eqb_spec (S i) (S (length u))).
  - rewrite app_nth2 by lia. replace (i - length u)%nat with 0%nat by lia. reflexivity.
  - rewrite app_nth1 by lia. reflexivity.
Qed.
Lemma rotate_rhs_1 b nf G dx t u v : exchange_law G -> nodewise_sw b nf G -> flat_bottom b -> u <> [] ->
  let bc := {| bc_left := [CopyCell (-1)]; bc_right := [CopyCell 0]; bc_periodic := true |} in
  fv_rhs nf dx bc t u = Ok v -> length v = length u /\ fv_rhs nf dx bc t (rotate 1 u) = Ok (rotate 1 v).
Proof.
  intros _ N F Hu bc E. assert (Hn : (1 <= length u)%nat) by (destruct u; [congruence|cbn; lia]). remember (length u) as n eqn:Ln.
  pose proof (padded_flat b n (flat_constant b F)) as P.
  assert (X : forall w : list state, length w = n -> extended bc w (Some t) = Ok (nth (n - 1) w z2 :: w ++ [nth 0 w z2])).
  { intros w Lw. apply extended_one. exists (nth (n - 1) w z2), (nth 0 w z2). cbn [ghost_value].
    rewrite (pyget_m1 w z2), (pyget_0 w z2) by lia. rewrite Lw. auto. }
  assert (V : forall (w : list state) i, length w = n -> (i <= S n)%nat -> nth i (nth (n - 1) w z2 :: w ++ [nth 0 w z2]) z2 =
    if Nat.eqb i 0 then nth (n - 1) w z2 else if Nat.eqb i (S n) then nth 0 w z2 else nth (i - 1) w z2).
  { intros w [|i] Lw Hi; [reflexivity|]. cbn [nth Nat.eqb]. destruct (Nat.eqb_spec i n) as [->|].
    - rewrite app_nth2, Lw, Nat.sub_diag by lia. reflexivity.
    - rewrite app_nth1 by lia. f_equal. lia. }
  destruct (proj1 (rhs_iff b nf G n _ _ _ _ dx t u _ v N (eq_sym Ln) Hn P (X u (eq_sym Ln))) E) as [Hd [Lv [fl [fr [Y Vv]]]]]. split; auto.
  assert (Lr : length (rotate 1 u) = n) by (rewrite rotate_length; auto).
  apply (rhs_iff b nf G n _ _ _ _ dx t _ _ _ N Lr Hn P (X _ Lr)). rewrite rotate_length. split; auto. split; auto.
  set (sh := fun i => if Nat.eqb i n then 1%nat else S i).
  assert (W : forall i, (i <= n)%nat -> nth i (nth (n - 1) (rotate 1 u) z2 :: rotate 1 u ++ [nth 0 (rotate 1 u) z2]) z2 =
      nth (sh i) (nth (n - 1) u z2 :: u ++ [nth 0 u z2]) z2 /\
      nth (S i) (nth (n - 1) (rotate 1 u) z2 :: rotate 1 u ++ [nth 0 (rotate 1 u) z2]) z2 =
      nth (S (sh i)) (nth (n - 1) u z2 :: u ++ [nth 0 u z2]) z2).
  { intros i Hi. unfold sh. destruct (Nat.eqb_spec i n) as [->|].
    - rewrite !V by (auto; lia). rewrite !rotate_1 by lia. rewrite <- !Ln. 
      destruct (Nat.eqb_spec n 0); [lia|]. destruct (Nat.eqb_spec n (S n)); [lia|]. destruct (Nat.eqb_spec (S n) 0); [lia|].
      destruct (Nat.eqb_spec (S n) (S n)); [|lia]. destruct (Nat.eqb_spec (S (n - 1)) n); [|lia].
      destruct (Nat.eqb_spec 1 0); [lia|]. destruct (Nat.eqb_spec 1 (S n)); [lia|]. destruct (Nat.eqb_spec 2 0); [lia|].
      split; [reflexivity|]. destruct (Nat.eqb_spec 1 n), (Nat.eqb_spec 2 (S n)); try lia; reflexivity.
    - rewrite !V by (auto; lia). rewrite !rotate_1 by lia. rewrite <- !Ln.
      destruct (Nat.eqb_spec (S i) 0); [lia|]. destruct (Nat.eqb_spec (S (S i)) 0); [lia|]. destruct (Nat.eqb_spec (S i) (S n)); [lia|].
      destruct (Nat.eqb_spec i (S n)); [lia|]. split.
      + destruct (Nat.eqb_spec i 0) as [->|]; [destruct (Nat.eqb_spec (S (n - 1)) n); [reflexivity|lia]|].
        destruct (Nat.eqb_spec (S (i - 1)) n); [lia|]. f_equal. lia.
      + replace (S i - 1)%nat with i by lia. replace (S (S i) - 1)%nat with (S i) by lia.
        destruct (Nat.eqb_spec (S i) n), (Nat.eqb_spec (S (S i)) (S n)); try lia; reflexivity. }
  exists (fun i => fl (sh i)), (fun i => fr (sh i)). split.
  - intros i Hi. destruct (W i Hi) as [-> ->]. apply (Y (sh i)). unfold sh. destruct (Nat.eqb_spec i n); lia.
  - intros i Hi. rewrite rotate_1 by lia. rewrite Lv. unfold sh. destruct (Nat.eqb_spec i n); [lia|]. destruct (Nat.eqb_spec (S i) n) as [Ei|].
    + rewrite Vv by lia. assert (Q : G (nth (S i) (nth (n - 1) u z2 :: u ++ [nth 0 u z2]) z2) (nth (S (S i)) (nth (n - 1) u z2 :: u ++ [nth 0 u z2]) z2) 0 0 = Ok (fl 0%nat, fr 0%nat)).
      { rewrite <- (Y 0%nat) by lia. rewrite !V by (auto; lia). destruct (Nat.eqb_spec (S i) 0); [lia|]. destruct (Nat.eqb_spec (S i) (S n)); [lia|].
        destruct (Nat.eqb_spec (S (S i)) 0); [lia|]. destruct (Nat.eqb_spec (S (S i)) (S n)); [|lia]. destruct (Nat.eqb_spec 0 0); [|lia]. destruct (Nat.eqb_spec 1 0); [lia|].
        destruct (Nat.eqb_spec 1 (S n)); [lia|].
        replace (S i - 1)%nat with (n - 1)%nat by lia. reflexivity. }
      rewrite (Y (S i)) in Q by lia. apply Ok_inj in Q. injection Q as _ ->. reflexivity.
    + rewrite Vv by lia. reflexivity.
Qed.

(** ** uniform flow *)
Definition uniform_flux (w F : state) (nf : nflux state) : Prop := nf_dim nf = 2%nat /\ forall n, (1 <= n)%nat ->
  nf_call nf [tab (S n) (fun _ => w); tab (S n) (fun _ => w)] = Ok (tab (S n) (fun _ => copp F), tab (S n) (fun _ => F)).
Lemma uniform_kind k gravity b nf w F : scheme k gravity b = Ok nf -> 0 < py_or gravity default_gravity -> usable k gravity -> flat_bottom b ->
  0 < fst w -> sw_flux (py_or gravity default_gravity) w = Ok F -> uniform_flux w F nf.
Proof.
  intros E Hg Hu Hb Hw HF. destruct (kind_law k gravity) as [G [_ X W C N]]. destruct (N _ _ E) as [D T]. split; auto.
  intros n Hn. apply (T n (fun _ => w) (fun _ => 0) _ _ Hn (padded_flat b n (flat_constant b Hb))). rewrite !tab_length. split; auto. split; auto.
  intros i Hi. rewrite !nth_tab by lia. destruct (W Hg Hu w w 0 0 Hw Hw) as [[fl fr] E1]. rewrite E1.
  rewrite (X _ _ _ _ _ E1). pose proof (C _ _ _ _ E1) as E2. rewrite HF in E2. apply Ok_inj in E2. subst. auto.
Qed.
Lemma uniform_mcl gravity b conds il ir high nf w F : 0 < py_or gravity default_gravity -> flat_bottom b ->
  0 < fst w -> sw_flux (py_or gravity default_gravity) w = Ok F -> uniform_flux w F high ->
  sw_mcl gravity b conds il ir high = Ok nf -> uniform_flux w F nf.
Proof.
  intros Hg Hb Hw HF [D T] E. unfold sw_mcl in E. inv_bind E. inv_bind E. apply Ok_inj in E. subst nf. split; [exact D|].
  cbn [nf_call]. intros n Hn. pose proof (T n Hn) as EH. set (g := py_or gravity default_gravity) in *.
  destruct (padded_flat b n (flat_constant b Hb)) as [p [bt [st [P1 [P2 [P3 [P4 P5]]]]]]]. rewrite E1 in P1. apply Ok_inj in P1. subst p.
  assert (B : length (bc_left a) = 1%nat) by (eapply bc_radius; eauto).
  assert (Hs : 0 < sw_max_speed g w w). { destruct (hll_height_pos gravity w w F F Hg Hw Hw HF HF) as [A _]. exact A. }
  set (lo := low_out gravity w w F F 0).
  assert (EL : low_all gravity (snd a0) (tab (S n) (fun _ => w)) (tab (S n) (fun _ => w)) = Ok (tab (S n) (fun _ => lo))).
  { apply (low_all_ok gravity (snd a0) st (S n) (fun _ => w) (fun _ => lo) P3). intros i Hi. rewrite P5 by lia. rewrite Rminus_eq_0.
    apply low_at_ok; auto. fold g. lra. }
  assert (V : lo_s lo = sw_max_speed g w w /\ lo_h lo = fst w /\ lo_hl lo = fst w /\ lo_hr lo = fst w /\ lo_ql lo = snd w /\ lo_qr lo = snd w /\
    lo_outl lo = copp F /\ lo_outr lo = F).
  { unfold lo, low_out. fold g. cbn [lo_s lo_h lo_hl lo_hr lo_ql lo_qr lo_outl lo_outr]. rewrite !fix_0, !hll_same by (fold g; lra).
    unfold copp. cbn [cscal RR_CellOps]. destruct F as [F1 F2]. cbn [fst snd]. repeat split; try field; try lra; f_equal; field; lra. }
  destruct V as [V1 [V2 [V3 [V4 [V5 [V6 [V7 V8]]]]]]]. clearbody lo.
  unfold sw_mcl_call. rewrite (required_two _ 1) by (cbn; lia). cbn [nth Nat.sub bind]. rewrite EL. cbn [bind]. rewrite EH. cbn [bind snd].
  rewrite (mcl_limit_ok (bc_periodic a) n (fun _ => lo) (fun _ => F) a B Hn eq_refl).
  2:{ intros i Hi. rewrite V1, V2, V3, V4. repeat split; lra. }
  cbn [bind mp_fh mp_fq]. rewrite combine_tab, !map_tab, !map2_tab.
  assert (FH : forall i, (i <= n)%nat -> fh_ (bc_periodic a) n (fun _ => lo) (fun _ => F) i = 0).
  { intros i Hi. destruct (fh_bounds (bc_periodic a) n (fun _ => lo) (fun _ => F) i Hi ltac:(lra)) as [_ [_ Z]]. apply Z. rewrite V8. unfold csub, copp.
    cbn [cadd cscal RR_CellOps fst]. ring. }
  assert (VB : forall i, vb_ (fun _ => lo) i = snd w / fst w) by (intro i; unfold vb_; rewrite V3, V4, V5, V6; field; lra).
  assert (VM : forall j, vmax_ (bc_periodic a) n (fun _ => lo) j = snd w / fst w /\ vmin_ (bc_periodic a) n (fun _ => lo) j = snd w / fst w).
  { intro j. unfold vmax_, vmin_, wl_, wr_. rewrite !VB, V2, V5, V6. unfold max4, min4.
    rewrite !Rmax_left, !Rmin_left by (rewrite ?Rmax_left, ?Rmin_left by (rewrite ?Rmax_left, ?Rmin_left by lra; lra); lra). auto. }
  assert (FQ : forall i, (i <= n)%nat -> fq_ (bc_periodic a) n (fun _ => lo) (fun _ => F) i = 0).
  { intros i Hi. unfold fq_. destruct (VM i) as [-> ->]. destruct (VM (S i)) as [-> ->]. unfold corr_, lh_. rewrite FH, VB, V2, V6, V8, V1 by auto.
    replace (snd w + - ((fst w + 0 / sw_max_speed g w w) * (snd w / fst w))) with 0 by (field; lra).
    unfold csub, copp. cbn [cadd cscal RR_CellOps snd]. rewrite Rmult_0_r.
    replace (snd F + -1 * snd F + 0) with 0 by ring. unfold vlimit_at. rewrite !Rminus_eq_0, !Rmult_0_r.
    rewrite (Rmin_left 0 0), (Rmax_left 0 0), Rmult_0_r, (Rmin_left 0 0), (Rmax_left 0 0) by lra. ring. }
  do 2 f_equal; apply tab_ext; intros i Hi; rewrite FH, FQ by lia; rewrite ?V7, ?V8;
  unfold copp; apply injective_projections; cbn [cadd cscal RR_CellOps fst snd]; ring.
Qed.
Lemma nth_repeat_lt {A} (w d : A) n i : (i < n)%nat -> nth i (repeat w n) d = w.
Proof. revert i; induction n; intros [|i] H; cbn; auto; try lia. apply IHn. lia. Qed.
Lemma uniform_rhs w F nf c il ir bc dx t n : uniform_flux w F nf -> get_boundary_conditions (Some reflect) c 1 il ir = Ok bc ->
  (forall f, il = Some f \/ ir = Some f -> forall t, f t = w) -> (In "wall"%string c -> snd w = 0) -> (1 <= n)%nat -> dx <> 0 ->
  fv_rhs nf dx bc t (repeat w n) = Ok (repeat z2 n).
Proof.
  intros [D T] B HI HW Hn Hd. destruct (conditions_one _ _ _ _ B) as [c1 [c2 [gl [gr [Hc [E1 [E2 [B1 [B2 ->]]]]]]]]].
  assert (NR : forall i, (i < n)%nat -> nth i (repeat w n) z2 = w) by (intros i Hi; apply nth_repeat_lt; auto).
  assert (P0 : pyget (repeat w n) 0 = Ok w) by (rewrite (pyget_0 _ z2) by (rewrite repeat_length; lia); rewrite NR by lia; auto).
  assert (P1 : pyget (repeat w n) (-1) = Ok w) by (rewrite (pyget_m1 _ z2), repeat_length by (rewrite repeat_length; lia); rewrite NR by lia; auto).
  assert (RW : snd w = 0 -> reflect w = w) by (intro Z; rewrite mirror_reflect; unfold mirror_state; destruct w; cbn [fst snd] in *; subst; f_equal; ring).
  assert (Gl : ghost_value gl (repeat w n) (Some t) = Ok w).
  { assert (I : In c1 c) by (destruct c; [congruence|subst; left; reflexivity]). unfold build_left in B1.
    destruct (String.eqb_spec c1 "wall") as [->|]; [apply Ok_inj in B1; subst gl; cbn [ghost_value]; rewrite P0; cbn [bind]; rewrite RW; auto|].
    destruct (String.eqb c1 "periodic"); [apply Ok_inj in B1; subst gl; exact P1|].
    destruct (String.eqb c1 "outflow"); [apply Ok_inj in B1; subst gl; exact P0|].
    destruct (String.eqb c1 "inflow"); [|discriminate]. destruct il as [f|]; [|discriminate]. apply Ok_inj in B1. subst gl. cbn [ghost_value].
    rewrite (HI f); auto. }
  assert (Gr : ghost_value gr (repeat w n) (Some t) = Ok w).
  { assert (I : In c2 c). { destruct c as [|x [|y r]]; [congruence| |]; cbn in *; subst; auto. } unfold build_right in B2.
    destruct (String.eqb_spec c2 "wall") as [->|]; [apply Ok_inj in B2; subst gr; cbn [ghost_value]; rewrite P1; cbn [bind]; rewrite RW; auto|].
    destruct (String.eqb c2 "periodic"); [apply Ok_inj in B2; subst gr; exact P0|].
    destruct (String.eqb c2 "outflow"); [apply Ok_inj in B2; subst gr; exact P1|].
    destruct (String.eqb c2 "inflow"); [|discriminate]. destruct ir as [f|]; [|discriminate]. apply Ok_inj in B2. subst gr. cbn [ghost_value].
    rewrite (HI f); auto. }
  assert (Ee : extended {| bc_left := [gl]; bc_right := [gr]; bc_periodic := is_periodic c |} (repeat w n) (Some t) = Ok (repeat w (S (S n)))).
  { apply extended_one. exists w, w. split; auto. split; auto. cbn [repeat]. f_equal. apply (repeat_cons n w). }
  unfold fv_rhs. rewrite D. change (2 / 2)%nat with 1%nat. rewrite (nodes_one _ _ _ _ _ _ Ee). cbn [bind]. rewrite repeat_length.
  replace (tab (S n) (fun i => nth i (repeat w (S (S n))) z2)) with (tab (S n) (fun _ => w)) by (apply tab_ext; intros i Hi; rewrite nth_repeat_lt by lia; auto).
  replace (tab (S n) (fun i => nth (S i) (repeat w (S (S n))) z2)) with (tab (S n) (fun _ => w)) by (apply tab_ext; intros i Hi; rewrite nth_repeat_lt by lia; auto).
  rewrite (T n Hn). cbn [bind fst snd]. unfold cells_from_nodes. rewrite rdiv_ne by auto. cbn [bind]. f_equal.
  apply (nth_ext _ _ z2 z2).
  - rewrite map_length, map2_length, removelast_length, tl_length, !tab_length, repeat_length. lia.
  - intros i Hi. rewrite map_length, map2_length, removelast_length, tl_length, !tab_length in Hi.
    rewrite (nth_map' _ _ _ z2) by (rewrite map2_length, removelast_length, tl_length, !tab_length; lia).
    rewrite (nth_map2 _ _ _ i z2 z2) by (rewrite ?removelast_length, ?tl_length, !tab_length; lia).
    rewrite nth_removelast, nth_tl by (rewrite tab_length; lia). rewrite !nth_tab by lia. rewrite nth_repeat_lt by lia.
    unfold copp. cbn [cadd cscal RR_CellOps fst snd]. f_equal; ring.
Qed.
Lemma map2_app {A B C} (f : A -> B -> C) a b c d : length a = length c -> map2 f (a ++ b) (c ++ d) = map2 f a c ++ map2 f b d.
Proof. revert c; induction a; intros [|x c] H; try discriminate; cbn; auto. f_equal. apply IHa. injection H. auto. Qed.
Lemma map2_skipn {A B C} (f : A -> B -> C) k a b : skipn k (map2 f a b) = map2 f (skipn k a) (skipn k b).
Proof.
  revert a b; induction k; intros [|x a] [|y b]; auto. 
  - cbn [skipn]. destruct (skipn k a); reflexivity.
  - cbn [skipn map2]. auto.
Qed.
Lemma map2_firstn {A B C} (f : A -> B -> C) k a b : firstn k (map2 f a b) = map2 f (firstn k a) (firstn k b).
Proof. revert a b; induction k; intros [|x a] [|y b]; auto. cbn [firstn map2]. f_equal. auto. Qed.
Lemma rotate_add m (a b : list state) : length a = length b -> rotate m (vadd a b) = vadd (rotate m a) (rotate m b).
Proof.
  intro H. unfold rotate. cbn [vadd list_VecOps]. rewrite map2_app by (rewrite !skipn_length; lia). rewrite map2_skipn, map2_firstn. auto.
Qed.
Lemma rotate_scal m r (a : list state) : rotate m (vscal r a) = vscal r (rotate m a).
Proof. unfold rotate. cbn [vscal list_VecOps]. rewrite map_app, skipn_map, firstn_map. auto. Qed.
Lemma run_map_list n (L : list state -> list state) (f f' : R -> list state -> result (list state)) T dts t0 u0 t1 u1 :
  (forall a b, length a = n -> length b = n -> L (vadd a b) = vadd (L a) (L b)) -> (forall r a, L (vscal r a) = vscal r (L a)) ->
  (forall t u v, length u = n -> f t u = Ok v -> length v = n /\ f' t (L u) = Ok (L v)) -> length u0 = n ->
  rk_run_e f T dts {| o_time := t0; o_sol := u0 |} = Ok {| o_time := t1; o_sol := u1 |} ->
  rk_run_e f' T dts {| o_time := t0; o_sol := L u0 |} = Ok {| o_time := t1; o_sol := L u1 |}.
Proof.
  intros LA LS LF L0 E.
  destruct (run_map (fun u : list state => length u = n) L) with (f := f) (f' := f') (T := T) (dts := dts)
    (o := {| o_time := t0; o_sol := u0 |}) (o' := {| o_time := t1; o_sol := u1 |}) as [_ X]; auto.
  - intros a b La Lb. cbn [vadd list_VecOps]. rewrite map2_length. lia.
  - intros r a La. cbn [vscal list_VecOps]. rewrite map_length. auto.
Qed.
