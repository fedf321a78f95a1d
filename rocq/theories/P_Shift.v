(** C99: on periodic domains no cell is special, in any arithmetic: shifted data have shifted solutions, bit for bit *)
From Coq Require Import Reals Lra Lia ZArith String List Arith Bool.
From Verif Require Import Prelude L_Prelude M_Boundary S_Boundary L_Boundary M_Flux S_Flux L_Flux M_ODE S_ODE L_ODE M_FloatStepping L_Floats M_FloatODE S_FloatMass L_FloatMass P_FloatMass S_Constant.
From Verif Require S_Symmetry L_SWMirror P_FVCoarse.
Import ListNotations.
Open Scope R_scope.
Local Open Scope list_scope.
Notation length := List.length.
Notation rotate := S_Symmetry.rotate.

Lemma mapM_app_inv {A B} (f : A -> result B) l1 : forall l2 r, mapM f (l1 ++ l2) = Ok r -> exists r1 r2, r = r1 ++ r2 /\ mapM f l1 = Ok r1 /\ mapM f l2 = Ok r2.
Proof.
  induction l1 as [|a l1 IH]; intros l2 r E; [exists [], r; auto|]. cbn [app mapM] in E. apply bind_ok in E as [b [E1 E]]. apply bind_ok in E as [bs [E2 E]]. injection E as <-.
  destruct (IH _ _ E2) as [r1 [r2 [-> [X Y]]]]. exists (b :: r1), r2. cbn [mapM]. rewrite E1, X. auto.
Qed.
Lemma combine_app {A B} (a b : list A) (c d : list B) : length a = length c -> combine (a ++ b) (c ++ d) = combine a c ++ combine b d.
Proof. revert c. induction a as [|x a IH]; intros [|y c] L; try discriminate; auto. cbn. f_equal. apply IH. injection L. auto. Qed.
Lemma map2_app' {A B C} (f : A -> B -> C) a b c d : length a = length c -> map2 f (a ++ b) (c ++ d) = map2 f a c ++ map2 f b d.
Proof. revert c. induction a as [|x a IH]; intros [|y c] L; try discriminate; auto. cbn. f_equal. apply IH. injection L. auto. Qed.
Lemma mapM_len {A B} (f : A -> result B) l : forall r, mapM f l = Ok r -> length r = length l.
Proof. induction l as [|a l IH]; intros r E; cbn [mapM] in E; [injection E as <-; auto|]. apply bind_ok in E as [b [_ E]]. apply bind_ok in E as [bs [E2 E]]. injection E as <-. cbn. f_equal. auto. Qed.
Lemma pyget_end {A} (l : list A) z : pyget (l ++ [z]) (-1) = Ok z.
Proof.
  unfold pyget. cbv zeta. change (-1 <? 0)%Z with true. cbv iota. rewrite app_length. cbn [length].
  assert (E : (0 <=? Z.of_nat (length l + 1) + -1)%Z && (Z.of_nat (length l + 1) + -1 <? Z.of_nat (length l + 1))%Z = true) by (apply andb_true_intro; split; [apply Z.leb_le; lia|apply Z.ltb_lt; lia]).
  rewrite E. replace (Z.to_nat (Z.of_nat (length l + 1) + -1)) with (length l) by lia. rewrite nth_error_app2, Nat.sub_diag by lia. reflexivity.
Qed.
Lemma pyget_start {A} (l : list A) a : pyget (a :: l) 0 = Ok a.
Proof. unfold pyget. cbv zeta. change (0 <? 0)%Z with false. cbv iota. cbn [length]. rewrite (proj2 (Z.ltb_lt 0 (Z.of_nat (S (length l))))) by lia. reflexivity. Qed.

(** the two values at a node are computed from the two cells beside it *)
Definition nodewise {W} (nf : nflux W) (G : W * W -> result (W * W)) : Prop :=
  forall vl vr p, length vl = length vr -> nf_call nf [vl; vr] = Ok p <-> exists F, mapM G (combine vl vr) = Ok F /\ p = (map fst F, map snd F).

Section Shift.
Context {W : Type} (H : CellOps W) (clock : R -> R) (nf : nflux W) (G : W * W -> result (W * W)).
Context (D2 : nf_dim nf = 2%nat) (TP : nodewise nf G).
Context (bc : bconds W) (B : get_boundary_conditions (W := W) None ["periodic"%string] 1 None None = Ok bc) (dx : R).

Lemma neighbours (u : list W) a w w' z t : u = a :: w -> u = w' ++ [z] -> get_node_neighbours bc u 1 t = Ok [z :: u; u ++ [a]].
Proof.
  intros E1 E2. cbn in B. injection B as <-. unfold get_node_neighbours, extended. cbn [bc_left bc_right mapM ghost_value].
  rewrite E2, pyget_end, <- E2. cbn [bind]. rewrite E1, pyget_start, <- E1. cbn [bind app Nat.mul Nat.add Nat.sub seq map skipn]. f_equal. f_equal. unfold slice. cbn [length skipn]. rewrite app_length. cbn [length].
  replace (S (length u + 1) - 1 - 0)%nat with (length (z :: u)) by (cbn [length]; lia). change (z :: u ++ [a]) with ((z :: u) ++ [a]). rewrite firstn_app, Nat.sub_diag, firstn_all. cbn [firstn]. apply app_nil_r.
Qed.

Lemma rhs_shift t u v : u <> [] -> fv_rhs nf dx bc t u = Ok v -> length v = length u /\ fv_rhs nf dx bc t (rotate 1 u) = Ok (rotate 1 v).
Proof.
  intros Hne E. destruct u as [|a w]; [congruence|]. destruct (exists_last Hne) as [w' [z Ez]]. change (rotate 1 (a :: w)) with (w ++ [a]).
  assert (Lw : length w' = length w) by (assert (X := f_equal (@length W) Ez); rewrite app_length in X; cbn in X; lia).
  destruct (w ++ [a]) as [|b w2] eqn:Eb; [destruct w; discriminate|]. assert (L2 : length w2 = length w) by (assert (X := f_equal (@length W) Eb); rewrite app_length in X; cbn in X; lia).
  unfold fv_rhs in *. rewrite D2 in *. change (Nat.div 2 2) with 1%nat in *. rewrite (neighbours _ _ _ _ _ _ eq_refl Ez) in E. rewrite (neighbours _ _ _ _ _ _ eq_refl (eq_sym Eb)).
  cbn [bind] in *. set (u := a :: w) in *.
  assert (P1 : combine (z :: u) (u ++ [a]) = (z, a) :: combine u (b :: w2)) by (unfold u; cbn [app combine]; rewrite Eb; reflexivity).
  assert (P2 : combine (a :: b :: w2) ((b :: w2) ++ [b]) = combine u (b :: w2) ++ [(a, b)]).
  { replace (a :: b :: w2) with (u ++ [a]) by (unfold u; cbn [app]; rewrite Eb; reflexivity). rewrite combine_app by (unfold u; cbn; lia). reflexivity. }
  assert (Q1 : combine u (b :: w2) = (a, b) :: combine w w2) by reflexivity.
  assert (Q2 : combine u (b :: w2) = combine w' w ++ [(z, a)]) by (rewrite Ez, <- Eb, combine_app by exact Lw; reflexivity).
  apply bind_ok in E as [p [E E3]]. apply TP in E as [F [Ef ->]]; [|rewrite app_length; unfold u; cbn [length]; lia]. rewrite P1 in Ef.
  cbn [fst snd mapM] in *. apply bind_ok in Ef as [f0 [G0 Ef]]. apply bind_ok in Ef as [FQ [GQ Ef]]. injection Ef as <-.
  assert (GQ1 := GQ). rewrite Q1 in GQ1. cbn [mapM] in GQ1. apply bind_ok in GQ1 as [f1 [G1 GQ1]]. apply bind_ok in GQ1 as [F1 [GF1 GQ1]]. injection GQ1 as X1.
  assert (GQ2 := GQ). rewrite Q2 in GQ2. apply mapM_app_inv in GQ2 as [F2 [r2 [X2 [GF2 GQ2]]]]. cbn [mapM] in GQ2. rewrite G0 in GQ2. cbn [bind] in GQ2. injection GQ2 as <-.
  assert (M : mapM G (combine u (b :: w2) ++ [(a, b)]) = Ok (FQ ++ [f1])) by (apply P_FVCoarse.mapM_app; [exact GQ|]; cbn [mapM]; rewrite G1; reflexivity).
  assert (M' : nf_call nf [a :: b :: w2; (b :: w2) ++ [b]] = Ok (map fst (FQ ++ [f1]), map snd (FQ ++ [f1]))).
  { apply TP; [rewrite app_length; cbn [length]; lia|]. exists (FQ ++ [f1]). rewrite P2. auto. }
  rewrite M'. cbn [bind fst snd]. unfold cells_from_nodes in *. destruct (rdiv 1 dx) as [q|]; [|discriminate]. cbn [bind] in *.
  assert (RL : removelast (map snd (f0 :: FQ)) = map snd (f0 :: F2)) by (rewrite X2; cbn [map]; rewrite map_app; exact (removelast_last (snd f0 :: map snd F2) (snd f0))). rewrite RL in E3.
  match type of E3 with Ok ?x = Ok _ => assert (Ev : x = v) by congruence end. rewrite <- Ev.
  assert (LF : length F1 = length F2) by (apply mapM_len in GF1, GF2; rewrite GF1, GF2, !combine_length; lia). assert (LF2 : length F2 = length w) by (apply mapM_len in GF2; rewrite GF2, combine_length; lia).
  split.
  - rewrite map_length, map2_length. cbn [map tl]. rewrite map_length, X2, app_length. unfold u. cbn [length]. rewrite map_length. lia.
  - f_equal. rewrite map_app. cbn [map]. rewrite removelast_last. cbn [tl]. rewrite X2 at 1. rewrite <- X1. cbn [app map tl map2]. rewrite !map_app. cbn [map]. rewrite map2_app' by (rewrite !map_length; lia). cbn [map2]. rewrite map_app. reflexivity.
Qed.

(** rotations and the operations on vectors *)
Lemma rot_length k (u : list W) : length (rotate k u) = length u.
Proof. apply L_SWMirror.rotate_length. Qed.
Lemma rot_map (f : W -> W) u : rotate 1 (map f u) = map f (rotate 1 u).
Proof. destruct u; auto. unfold rotate. cbn [skipn firstn map]. rewrite map_app. reflexivity. Qed.
Lemma rot_map2 u v : length u = length v -> rotate 1 (map2 cadd u v) = map2 cadd (rotate 1 u) (rotate 1 v).
Proof. destruct u, v; intro L; try discriminate; auto. unfold rotate. cbn [skipn firstn map2]. rewrite map2_app' by (injection L; auto). reflexivity. Qed.
Lemma rot_lsum n cs : forall acc ks, length acc = n -> Forall (fun k => length k = n) ks ->
  length (lsum acc cs ks) = n /\ rotate 1 (lsum acc cs ks) = lsum (rotate 1 acc) cs (map (rotate 1) ks).
Proof.
  induction cs as [|c cs IH]; intros acc [|k ks] La Lk; auto. inversion Lk; subst. cbn [lsum map vadd vscal list_VecOps]. destruct (IH (map2 cadd acc (map (cscal c) k)) ks) as [X Y]; auto.
  - rewrite map2_length, map_length. lia.
  - split; [exact X|]. rewrite Y, rot_map2, rot_map by (rewrite map_length; lia). reflexivity.
Qed.
Lemma rot_axpy n u dt cs ks : length u = n -> Forall (fun k => length k = n) ks ->
  length (axpy u dt (wsum_left cs ks)) = n /\ axpy (rotate 1 u) dt (wsum_left cs (map (rotate 1) ks)) = rotate 1 (axpy u dt (wsum_left cs ks)).
Proof.
  intros Lu Lk. destruct cs as [|c cs], ks as [|k ks]; auto. inversion Lk; subst. cbn [wsum_left axpy map vadd vscal list_VecOps].
  destruct (rot_lsum (length u) cs (map (cscal c) k) ks) as [X Y]; [rewrite map_length; auto|auto|]. split; [rewrite map2_length, map_length; cbn [vadd vscal list_VecOps] in *; lia|].
  rewrite rot_map2, rot_map by (rewrite map_length; lia). rewrite Y, rot_map. reflexivity.
Qed.

(** the same call, shifted by one cell *)
Definition shifted (call : R * list W) : R * list W := (fst call, rotate 1 (snd call)).
Lemma stages_shift n T dt t u is : length u = n -> (1 <= n)%nat -> forall calls ks calls' ks', Forall (fun k => length k = n) ks ->
  rkf_stages clock (fv_rhs nf dx bc) T dt {| o_time := t; o_sol := u |} is calls ks = Ok (calls', ks') ->
  Forall (fun k => length k = n) ks' /\ rkf_stages clock (fv_rhs nf dx bc) T dt {| o_time := t; o_sol := rotate 1 u |} is (map shifted calls) (map (rotate 1) ks) = Ok (map shifted calls', map (rotate 1) ks').
Proof.
  intros Lu Hn. induction is as [|i is IH]; intros calls ks calls' ks' Hk E; cbn [rkf_stages o_time o_sol] in *; [injection E as <- <-; auto|].
  apply bind_ok in E as [k [Ek E]]. destruct (rot_axpy n u dt (firstn i (nth i (rk_A T) [])) ks Lu Hk) as [L X]. rewrite X. cbn [o_time o_sol] in *.
  apply rhs_shift in Ek as [Lk Ek]; [|intro Z; rewrite Z in L; cbn in L; lia]. rewrite Ek. cbn [bind]. assert (FK : Forall (fun x => length x = n) (ks ++ [k])) by (apply Forall_app; split; [exact Hk|constructor; [congruence|constructor]]). destruct (IH _ _ _ _ FK E) as [F Y]. split; [exact F|].
  rewrite !map_app in Y. exact Y.
Qed.
Lemma run_shift_1 T dts : forall t u t' u' calls, u <> [] -> rkf_run clock (fv_rhs nf dx bc) T dts {| o_time := t; o_sol := u |} = Ok ({| o_time := t'; o_sol := u' |}, calls) ->
  length u' = length u /\ rkf_run clock (fv_rhs nf dx bc) T dts {| o_time := t; o_sol := rotate 1 u |} = Ok ({| o_time := t'; o_sol := rotate 1 u' |}, map shifted calls).
Proof.
  induction dts as [|dt dts IH]; intros t u t' u' calls Hne E; cbn [rkf_run] in *; [injection E as <- <- <-; auto|].
  assert (Hn : (1 <= length u)%nat) by (destruct u; [congruence|cbn; lia]).
  apply bind_ok in E as [[o1 c1] [E1 E]]. apply bind_ok in E as [[o2 c2] [E2 E]]. cbn [fst snd] in *. injection E as -> <-.
  unfold rkf_execute in *. apply bind_ok in E1 as [[cc ks] [E1 Q]]. cbn [fst snd o_time o_sol] in Q. injection Q as <- <-.
  destruct (stages_shift (length u) _ _ _ _ _ eq_refl Hn _ _ _ _ (Forall_nil _) E1) as [F X]. cbn [map] in X. rewrite X. cbn [bind fst snd o_time o_sol].
  destruct (rot_axpy (length u) u dt (rk_b T) ks eq_refl F) as [L Y]. rewrite Y. assert (NE : axpy u dt (wsum_left (rk_b T) ks) <> []) by (intro Z; rewrite Z in L; cbn in L; lia). destruct (IH _ _ _ _ _ NE E2) as [L2 K]. rewrite K. cbn [bind fst snd]. split; [congruence|]. rewrite map_app. reflexivity.
Qed.
Lemma run_shift T dts t u t' u' calls m : u <> [] -> rkf_run clock (fv_rhs nf dx bc) T dts {| o_time := t; o_sol := u |} = Ok ({| o_time := t'; o_sol := u' |}, calls) ->
  exists calls', rkf_run clock (fv_rhs nf dx bc) T dts {| o_time := t; o_sol := rotate m u |} = Ok ({| o_time := t'; o_sol := rotate m u' |}, calls').
Proof.
  intros Hne E. assert (L0 := proj1 (run_shift_1 _ _ _ _ _ _ _ Hne E)). induction m as [|m [c X]].
  - unfold rotate. cbn [skipn firstn]. rewrite !app_nil_r. eexists. exact E.
  - destruct (le_lt_dec (length u) m) as [C|C]; [exists c; rewrite (L_SWMirror.rotate_all (S m) u), (L_SWMirror.rotate_all (S m) u') by lia; rewrite (L_SWMirror.rotate_all m u), (L_SWMirror.rotate_all m u') in X by lia; exact X|]. rewrite (L_SWMirror.rotate_S m u), (L_SWMirror.rotate_S m u') by lia.
    assert (NE : rotate m u <> []) by (intro Z; apply (f_equal (@length W)) in Z; rewrite rot_length in Z; destruct u; [congruence|discriminate]). destruct (run_shift_1 _ _ _ _ _ _ _ NE X) as [_ Y]. eexists. exact Y.
Qed.
End Shift.

Section Nodal.
Context {W : Type} (H : CellOps W).
Lemma nodewise_two_point nf g : (forall a, nf_call nf a = nf_call (two_point g) a) -> nodewise nf (fun p => bind (g (fst p) (snd p)) (fun f => Ok (copp f, f))).
Proof.
  intros E vl vr p L. rewrite E. cbn [nf_call two_point]. generalize (combine vl vr) as l. intro l.
  assert (X : forall l F, mapM (fun p => bind (g (fst p) (snd p)) (fun f => Ok (copp f, f))) l = Ok F <-> exists f, mapM (fun p => g (fst p) (snd p)) l = Ok f /\ F = map (fun x => (copp x, x)) f).
  { clear. induction l as [|a l IH]; intro F; cbn [mapM].
    - split; [intro E; injection E as <-; exists []; auto|intros [f [E ->]]; injection E as <-; auto].
    - destruct (g (fst a) (snd a)) as [y|e]; cbn [bind]; [|split; [discriminate|intros [f [E _]]; discriminate]]. split.
      + intro E. apply bind_ok in E as [F1 [E1 E]]. injection E as <-. apply IH in E1 as [f [E1 ->]]. exists (y :: f). rewrite E1. auto.
      + intros [f [E ->]]. apply bind_ok in E as [f1 [E1 E]]. injection E as <-. rewrite (proj2 (IH (map (fun x => (copp x, x)) f1))); [reflexivity|eauto]. }
  split.
  - intro Q. apply bind_ok in Q as [f [Ef Q]]. injection Q as <-. exists (map (fun x => (copp x, x)) f). split; [apply X; eauto|]. rewrite !map_map. cbn [fst snd]. rewrite map_id. reflexivity.
  - intros [F [EF ->]]. apply X in EF as [f [-> ->]]. cbn [bind]. rewrite !map_map. cbn [fst snd]. rewrite map_id. reflexivity.
Qed.
Lemma arbitrary_two (nf : nflux W) vl vr : nf_dim nf = 2%nat -> nf_call (arbitrary_input nf) [vl; vr] = nf_call nf [vl; vr].
Proof. intro D. cbn [arbitrary_input nf_call]. unfold get_required_values. rewrite D. reflexivity. Qed.
Lemma nodewise_sum (a b : nflux W) G K : nf_dim a = 2%nat -> nf_dim b = 2%nat -> nodewise a G -> nodewise b K ->
  nodewise (corrected a b) (fun p => bind (G p) (fun x => bind (K p) (fun y => Ok (cadd (fst x) (fst y), cadd (snd x) (snd y))))).
Proof.
  intros Da Db A B vl vr p L. cbn [corrected nf_call]. rewrite (arbitrary_two a), (arbitrary_two b) by assumption.
  assert (X : forall l F, mapM (fun p => bind (G p) (fun x => bind (K p) (fun y => Ok (cadd (fst x) (fst y), cadd (snd x) (snd y))))) l = Ok F <->
    exists x y, mapM G l = Ok x /\ mapM K l = Ok y /\ F = map2 (fun x y => (cadd (fst x) (fst y), cadd (snd x) (snd y))) x y).
  { clear. induction l as [|c l IH]; intro F; cbn [mapM].
    - split; [intro E; injection E as <-; exists [], []; auto|intros [x [y [E1 [E2 ->]]]]; injection E1 as <-; injection E2 as <-; auto].
    - destruct (G c) as [x|e]; cbn [bind]; [|split; [discriminate|intros [? [? [E _]]]; discriminate]]. destruct (K c) as [y|e]; cbn [bind]; [|split; [discriminate|intros [? [? [_ [E _]]]]; discriminate]]. split.
      + intro E. apply bind_ok in E as [F1 [E1 E]]. injection E as <-. apply IH in E1 as [f [f' [E1 [E2 ->]]]]. exists (x :: f), (y :: f'). rewrite E1, E2. auto.
      + intros [f [f' [E1 [E2 ->]]]]. apply bind_ok in E1 as [f1 [E1 Q1]]. apply bind_ok in E2 as [f2 [E2 Q2]]. injection Q1 as <-. injection Q2 as <-. rewrite (proj2 (IH (map2 (fun x y => (cadd (fst x) (fst y), cadd (snd x) (snd y))) f1 f2))); [reflexivity|eauto]. }
  assert (M : forall x y : list (W * W), map fst (map2 (fun x y => (cadd (fst x) (fst y), cadd (snd x) (snd y))) x y) = map2 cadd (map fst x) (map fst y) /\
    map snd (map2 (fun x y => (cadd (fst x) (fst y), cadd (snd x) (snd y))) x y) = map2 cadd (map snd x) (map snd y)).
  { clear. induction x as [|c x IH]; intros [|d y]; auto. cbn [map map2]. destruct (IH y) as [-> ->]. auto. }
  split.
  - intro Q. apply bind_ok in Q as [pa [Ea Q]]. apply bind_ok in Q as [pb [Eb Q]]. injection Q as <-. apply (A _ _ _ L) in Ea as [x [Ex ->]]. apply (B _ _ _ L) in Eb as [y [Ey ->]]. eexists. split; [apply X; eauto|]. destruct (M x y) as [-> ->]. reflexivity.
  - intros [F [EF ->]]. apply X in EF as [x [y [Ex [Ey ->]]]]. rewrite (proj2 (A _ _ _ L) (ex_intro _ x (conj Ex eq_refl))). cbn [bind]. rewrite (proj2 (B _ _ _ L) (ex_intro _ y (conj Ey eq_refl))). cbn [bind fst snd]. destruct (M x y) as [-> ->]. reflexivity.
Qed.
Lemma nodal_nodewise nf : nodal_flux nf -> nf_dim nf = 2%nat /\ exists G, nodewise nf G.
Proof.
  induction 1 as [rs|f|gamma dx|a b _ [Da [G A]] _ [Db [K B]]].
  - split; [reflexivity|]. eexists. apply nodewise_two_point, lax_friedrichs_two_point.
  - split; [reflexivity|]. eexists. apply nodewise_two_point, central_two_point.
  - split; [reflexivity|]. eexists. apply nodewise_two_point, antidiffusive_two_point.
  - split; [cbn [corrected nf_dim]; rewrite Da, Db; reflexivity|]. eexists. apply nodewise_sum; eassumption.
Qed.
End Nodal.

(** Shifted data have shifted solutions, bit for bit: for every arithmetic on the cell values and every clock. *)
Theorem C99_shifts : forall (W : Type) (H : CellOps W) (clock : R -> R) (nf : nflux W) bc dx T dts t u t' u' calls m,
  nodal_flux nf -> get_boundary_conditions (W := W) None ["periodic"%string] 1 None None = Ok bc -> u <> [] ->
  rkf_run clock (fv_rhs nf dx bc) T dts {| o_time := t; o_sol := u |} = Ok ({| o_time := t'; o_sol := u' |}, calls) ->
  exists calls', rkf_run clock (fv_rhs nf dx bc) T dts {| o_time := t; o_sol := rotate m u |} = Ok ({| o_time := t'; o_sol := rotate m u' |}, calls').
Proof.
  intros W H clock nf bc dx T dts t u t' u' calls m N B Hne E. destruct (nodal_nodewise H nf N) as [D [G X]].
  exact (run_shift H clock nf G D X bc B dx T dts t u t' u' calls m Hne E).
Qed.
Print Assumptions C99_shifts.

(** the step in double precision of C98, from 3*2^50 and 1 and from 1 and 3*2^50 *)
Example C99_shifts_ex : exists bc t' x y calls calls', let run := rkf_run rnd (H := list_VecOps (H := float_cells)) (fv_rhs (H := float_cells) (lax_friedrichs (H := float_cells) right_moving) 1 bc) euler [1 / 8] in
  run {| o_time := 0; o_sol := [3377699720527872; 1] |} = Ok ({| o_time := t'; o_sol := [x; y] |}, calls) /\
  run {| o_time := 0; o_sol := [1; 3377699720527872] |} = Ok ({| o_time := t'; o_sol := [y; x] |}, calls').
Proof.
  destruct C98_rounding_changes_mass as [bc [[t' u'] [calls [B [E _]]]]]. cbv zeta in *.
  assert (RUN : rkf_run rnd (H := list_VecOps (H := float_cells)) (fv_rhs (H := float_cells) (lax_friedrichs (H := float_cells) right_moving) 1 bc) euler [1 / 8] {| o_time := 0; o_sol := [3377699720527872; 1] |} = Ok ({| o_time := t'; o_sol := u' |}, calls ++ [])) by (cbn [rkf_run]; rewrite E; reflexivity).
  assert (NE : [3377699720527872; 1] <> []) by discriminate.
  destruct (run_shift_1 float_cells rnd (lax_friedrichs (H := float_cells) right_moving) _ eq_refl (nodewise_two_point float_cells _ _ (lax_friedrichs_two_point (H := float_cells) right_moving)) bc B 1 euler [1 / 8] 0 _ t' u' _ NE RUN) as [L _].
  destruct u' as [|x [|y [|? ?]]]; try discriminate.
  destruct (C99_shifts R float_cells rnd (lax_friedrichs (H := float_cells) right_moving) bc 1 euler [1 / 8] 0 _ t' _ _ 1 (NodalLaxFriedrichs right_moving) B NE RUN) as [calls' X].
  exists bc, t', x, y, (calls ++ []), calls'. cbv zeta. split; [exact RUN|exact X].
Qed.
