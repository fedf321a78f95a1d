From Coq Require Import Reals List ZArith Arith Lia Lra Bool String.
From Verif Require Import Prelude L_Prelude M_Boundary S_Boundary L_Boundary M_Flux S_Flux L_Flux
  M_Neighbours L_Neighbours M_Scalar S_Scalar L_Scalar M_ODE S_ODE L_ODE M_ShallowWater S_ShallowWater L_ShallowWater.
Import ListNotations.
Local Open Scope nat_scope.
Open Scope R_scope.
Notation length := List.length.

(** ** the cells adjacent to the nodes *)
Lemma two_of {A} (l : list A) (d : A) k : (S k < length l)%nat ->
  slice l k (S (S k)) = [nth k l d; nth (S k) l d].
Proof.
  intro H. apply (list_ext d).
  - rewrite slice_length. cbn [List.length]. lia.
  - intros i Hi. rewrite slice_length in Hi. rewrite nth_slice by lia.
    destruct i as [|[|i]]; [| |lia]; cbn; f_equal; lia.
Qed.
Lemma required_two {W} (a : list (list W)) r : length a = (2 * r)%nat -> (1 <= r)%nat ->
  get_required_values 2 a = Ok [nth (r - 1) a []; nth r a []].
Proof.
  intros La Hr. unfold get_required_values. rewrite La.
  destruct (Nat.leb_spec 2 (2 * r)); [|lia]. cbn [negb].
  replace (Nat.even (2 * r)) with true by (symmetry; apply Nat.even_spec; exists r; lia). cbn [negb].
  replace (Nat.div (2 * r - 2) 2) with (r - 1)%nat.
  2:{ replace (2 * r - 2)%nat with ((r - 1) * 2)%nat by lia. rewrite Nat.div_mul by lia. reflexivity. }
  replace (2 * r - (r - 1))%nat with (S (S (r - 1))) by lia. rewrite (two_of a []) by lia.
  replace (S (r - 1)) with r by lia. reflexivity.
Qed.

Lemma inner_nodes {W} (d : W) wall conds r il ir bc (u : list W) t a :
  get_boundary_conditions wall conds r il ir = Ok bc -> (1 <= r <= length u)%nat ->
  get_node_neighbours bc u r (Some t) = Ok a ->
  exists nl nr cl cr x e, side_names conds nl nr /\ names_cond wall nl il cl /\ names_cond wall nr ir cr /\
    length a = (2 * r)%nat /\ Forall (fun v => length v = S (length u)) a /\
    get_required_values 2 a = Ok [tab (S (length u)) x; tab (S (length u)) (fun i => x (S i))] /\
    (forall i, (i <= S (length u))%nat -> extension_value d u (Some t) cl cr (Z.of_nat i - 1) (x i)) /\
    extended bc u (Some t) = Ok e /\ (forall i, (i <= S (length u))%nat -> In (x i) e).
Proof.
  intros B Hr E.
  destruct conds as [|c cs]; [discriminate|].
  assert (Sn := side_names_cons c cs). set (nr := match cs with [] => c | c2 :: _ => c2 end) in *.
  destruct (proj1 (get_bc_ok_iff d wall (c :: cs) r il ir c nr ltac:(lia) Sn) (ex_intro _ bc B)) as [[cl Nl] [cr Nr]].
  assert (Ht : forall h, cl = Inflow h \/ cr = Inflow h -> Some t <> None) by (intros; discriminate).
  destruct (extended_spec d _ _ _ _ _ _ u (Some t) _ _ _ _ Sn Nl Nr B (proj2 Hr) Ht) as [e [Ee [Le [_ [_ Ve]]]]].
  destruct (node_neighbours_of_extended d bc u (Some t) e r Ee) as [a' [A1 [A2 A3]]]; try lia.
  rewrite E in A1. apply Ok_inj in A1. subst a'.
  replace (length e - 2 * r + 1)%nat with (S (length u)) in A3 by lia.
  exists c, nr, cl, cr, (fun i => nth (i + (r - 1)) e d), e.
  repeat match goal with |- _ /\ _ => split end; auto.
  - apply Forall_forall. intros v Hv. apply (In_nth _ _ []) in Hv as [k [Hk <-]]. rewrite A3 by lia. apply tab_length.
  - rewrite (required_two a r A2) by lia. rewrite !A3 by lia.
    rewrite (tab_ext (S (length u)) (fun i => nth (i + r) e d) (fun i => nth (S i + (r - 1)) e d)); auto.
    intros i _. f_equal. lia.
  - intros i Hi. specialize (Ve (i + (r - 1))%nat ltac:(lia)).
    replace (Z.of_nat i - 1)%Z with (Z.of_nat (i + (r - 1)) - Z.of_nat r)%Z by lia. exact Ve.
  - intros i Hi. apply nth_In. lia.
Qed.
Lemma inner_cell {W} (d : W) u time cl cr i x :
  extension_value d u time cl cr (Z.of_nat (S i) - 1) x -> (i < length u)%nat -> x = nth i u d.
Proof.
  unfold extension_value. destruct (Z.ltb_spec (Z.of_nat (S i) - 1) 0); [lia|].
  destruct (Z.ltb_spec (Z.of_nat (S i) - 1) (Z.of_nat (length u))); [|lia].
  intros -> _. f_equal. lia.
Qed.
Lemma left_cell {W} (d : W) u time cl cr x : extension_value d u time cl cr (Z.of_nat 0 - 1) x ->
  (1 <= length u)%nat ->
  match cl with
  | Periodic => x = nth (length u - 1) u d | Outflow => x = nth 0 u d
  | Inflow g => exists t, time = Some t /\ x = g t | Wall neg => x = neg (nth 0 u d)
  end.
Proof.
  unfold extension_value. change (Z.of_nat 0 - 1)%Z with (-1)%Z. intros E H. change (-1 <? 0)%Z with true in E. cbn iota in E.
  destruct cl; simpl in E; auto.
  rewrite E. f_equal. replace ((-1) mod Z.of_nat (List.length u))%Z with (Z.of_nat (List.length u) - 1)%Z; [lia|].
  apply (Z.mod_unique _ _ (-1)%Z); lia.
Qed.
Lemma right_cell {W} (d : W) u time cl cr x : extension_value d u time cl cr (Z.of_nat (S (length u)) - 1) x ->
  (1 <= length u)%nat ->
  match cr with
  | Periodic => x = nth 0 u d | Outflow => x = nth (length u - 1) u d
  | Inflow g => exists t, time = Some t /\ x = g t | Wall neg => x = neg (nth (length u - 1) u d)
  end.
Proof.
  unfold extension_value. replace (Z.of_nat (S (length u)) - 1)%Z with (Z.of_nat (length u)) by lia.
  destruct (Z.ltb_spec (Z.of_nat (length u)) 0); [lia|]. rewrite Z.ltb_irrefl. intros E Hu.
  destruct cr; simpl in E; auto.
  - rewrite E, Z.mod_same by lia. reflexivity.
  - destruct (Z.ltb_spec (Z.of_nat (List.length u)) 0); [lia|]. exact E.
  - destruct (Z.ltb_spec (Z.of_nat (List.length u)) 0); [lia|]. exact E.
Qed.

(** ** checked runs *)
Section CR.
Context {V : Type} (D : V -> Prop) `{L : VecLaws V D}.

Lemma guarded_stage (f g : R -> V -> result V) T dt (o : ode V) l st st' :
  (forall t u v, g t u = Ok v -> f t u = Ok v) ->
  foldM (rk_stage_e g T dt o) l st = Ok st' -> foldM (rk_stage_e f T dt o) l st = Ok st'.
Proof.
  intro G. revert st; induction l as [|i l IH]; intro st; simpl; auto. intro E. inv_bind E.
  assert (E1 : rk_stage_e f T dt o st i = Ok a).
  { destruct st as [[tns svs] ks]. unfold rk_stage_e in *. inv_bind E0. rewrite (G _ _ _ E1). exact E0. }
  rewrite E1. cbn [bind]. auto.
Qed.
Lemma guarded_execute (f g : R -> V -> result V) T dt (o o' : ode V) :
  (forall t u v, g t u = Ok v -> f t u = Ok v) ->
  rk_execute_e g T dt o = Ok o' -> rk_execute_e f T dt o = Ok o'.
Proof.
  intros G E. unfold rk_execute_e in *. inv_bind E. rewrite (guarded_stage f g T dt o _ _ _ G E0). exact E.
Qed.
Lemma checked_run_convex (check : R -> R -> V -> bool) (f : R -> V -> result V) (d : V) (K : V -> Prop) dts T (o o' : ode V) :
  D d -> (forall u, K u -> D u) -> (forall t u v, D u -> f t u = Ok v -> D v) -> convex_set K ->
  (forall dt u, K u -> K (vadd u (vscal dt d))) ->
  (forall dt t u v, In dt dts -> K u -> check dt t u = true -> f t u = Ok v -> K (vadd u (vscal dt v))) ->
  T = euler \/ T = heun \/ T = ssp3 ->
  K (o_sol o) -> checked_run check f T dts o = Ok o' ->
  rk_run_e f T dts o = Ok o' /\ K (o_sol o').
Proof.
  intros Dd KD Hf Hc Hz HE HT. unfold checked_run, rk_run_e. revert o HE.
  induction dts as [|dt dts IH]; intros o HE Ku E; simpl in E |- *.
  - apply Ok_inj in E. subst o'. auto.
  - inv_bind E. set (g := fun t u => if check dt t u then f t u else Err CFLConditionViolatedError) in *.
    assert (G : forall t u v, g t u = Ok v -> f t u = Ok v).
    { intros t u v. unfold g. destruct (check dt t u); [auto|discriminate]. }
    rewrite (guarded_execute f g T dt o a G E0). cbn [bind].
    apply IH; auto.
    + intros; eapply HE; simpl; eauto.
    + rewrite <- (rk_execute_e_total g d T dt o a E0). apply (ssp_convex_invariant D); auto.
      * intros t u Du. unfold totalise. destruct (g t u) eqn:Eg; auto. eapply Hf; eauto.
      * intros t u Kv. unfold totalise. destruct (g t u) eqn:Eg; [|auto].
        unfold g in Eg. destruct (check dt t u) eqn:C; [|discriminate]. eapply HE; simpl; eauto.
Qed.

(** ** steady states: no scheme changes a state on which the right hand side vanishes *)
Lemma wsum_steady (z : V) (u : V) cs ks dt : D z -> D u -> (forall p, vcoord p z = 0) ->
  Forall (fun k => k = z) ks -> axpy u dt (wsum cs ks) = u.
Proof.
  intros Dz Du Zz F.
  assert (G : forall r, wsum cs ks = Some r -> D r /\ forall p, vcoord p r = 0).
  { revert cs; induction F as [|k ks -> F IH]; intros [|c cs] r E; try discriminate. simpl in E.
    destruct (wsum cs ks) as [r'|] eqn:E'.
    - injection E as <-. destruct (IH cs r' E') as [D1 Z1]. split.
      + apply vdom_add; auto. apply vdom_scal; auto.
      + intro p. rewrite vcoord_add, vcoord_scal by (auto; apply vdom_scal; auto). rewrite Z1, Zz. ring.
    - injection E as <-. split; [apply vdom_scal; auto|]. intro p. rewrite vcoord_scal, Zz by auto. ring. }
  destruct (wsum cs ks) as [r|]; [|reflexivity]. destruct (G r eq_refl) as [Dr Zr]. simpl.
  apply vcoord_ext; auto.
  - apply vdom_add; auto. apply vdom_scal; auto.
  - intro p. rewrite vcoord_add, vcoord_scal by (auto; apply vdom_scal; auto). rewrite Zr. ring.
Qed.
Lemma steady_run (f : R -> V -> result V) T dts t0 (u z : V) : D u -> D z -> (forall p, vcoord p z = 0) ->
  (forall t, f t u = Ok z) ->
  rk_run_e f T dts {| o_time := t0; o_sol := u |} = Ok {| o_time := t0 + rsum dts; o_sol := u |}.
Proof.
  intros Du Dz Zz Hf. unfold rk_run_e. revert t0; induction dts as [|dt dts IH]; intro t0.
  - simpl. do 2 f_equal. ring.
  - cbn [foldM].
    assert (E : rk_execute_e f T dt {| o_time := t0; o_sol := u |} = Ok {| o_time := t0 + dt; o_sol := u |}).
    { unfold rk_execute_e. set (o := {| o_time := t0; o_sol := u |}).
      assert (G : forall l st, Forall (fun k => k = z) (snd st) ->
        exists st', foldM (rk_stage_e f T dt o) l st = Ok st' /\ Forall (fun k => k = z) (snd st')).
      { induction l as [|i l IHl]; intros [[tns svs] ks] F; [eexists; split; [reflexivity|exact F]|].
        cbn [foldM]. unfold rk_stage_e at 1. cbn [snd] in F. rewrite (wsum_steady z) by auto. cbn [o o_sol].
        rewrite Hf. cbn [bind]. apply IHl. cbn [snd]. apply Forall_app; auto. }
      destruct (G (seq 0 (length (rk_b T))) ([], [], [])) as [[[tns svs] ks] [E F]]; [constructor|].
      rewrite E. cbn [bind]. rewrite (wsum_steady z) by auto. reflexivity. }
    rewrite E. cbn [bind]. rewrite IH. do 2 f_equal. cbn [rsum fold_right]. fold (rsum dts). ring.
Qed.
End CR.

(** ** bottom *)
Lemma diff_length l : length (diff l) = (length l - 1)%nat.
Proof. induction l as [|x l IH]; [reflexivity|]. destruct l; [reflexivity|]. simpl in *. lia. Qed.
Lemma nth_diff l i : (S i < length l)%nat -> nth i (diff l) 0 = nth (S i) l 0 - nth i l 0.
Proof.
  revert i; induction l as [|x l IH]; intros i Hi; [simpl in Hi; lia|]. destruct l as [|y l]; [simpl in Hi; lia|].
  destruct i; [reflexivity|]. change (diff (x :: y :: l)) with ((y - x) :: diff (y :: l)).
  cbn [nth]. rewrite IH by (simpl in *; lia). reflexivity.
Qed.
Lemma is_constant_false l : is_constant l = Ok false -> exists i, (i < length l)%nat /\ epsilon <= Rabs (nth i l 0 - nth 0 l 0).
Proof.
  destruct l as [|b0 l]; [discriminate|]. cbn [is_constant]. intro E. apply Ok_inj in E.
  destruct (existsb (fun x => negb (Rltb (Rabs (x - b0)) epsilon)) (b0 :: l)) eqn:X.
  - apply existsb_exists in X as [x [Hx N]]. apply (In_nth _ _ 0) in Hx as [i [Hi <-]].
    exists i. split; auto. change (nth 0 (b0 :: l) 0) with b0. destruct (Rltb_spec (Rabs (nth i (b0 :: l) 0 - b0)) epsilon); [discriminate|lra].
  - exfalso. assert (forallb (fun x => Rltb (Rabs (x - b0)) epsilon) (b0 :: l) = true); [|congruence].
    apply forallb_forall. intros x Hx. destruct (Rltb (Rabs (x - b0)) epsilon) eqn:Y; auto.
    rewrite <- X. apply existsb_exists. exists x. split; auto. rewrite Y. reflexivity.
Qed.
Lemma is_constant_true l : is_constant l = Ok true -> forall i, (i < length l)%nat -> Rabs (nth i l 0 - nth 0 l 0) < epsilon.
Proof.
  destruct l as [|b0 l]; [discriminate|]. cbn [is_constant]. intro E. apply Ok_inj in E. intros i Hi.
  rewrite forallb_forall in E. specialize (E (nth i (b0 :: l) 0) (nth_In _ _ Hi)). change (nth 0 (b0 :: l) 0) with b0.
  destruct (Rltb_spec (Rabs (nth i (b0 :: l) 0 - b0)) epsilon); [auto|discriminate].
Qed.

(* what the fluxes see of the bottom: no step at the first and last node *)
Definition bottom_steps (b : bathymetry) (n : nat) (st : list R) : Prop :=
  length st = S n /\ nth 0 st 0 = 0 /\ nth n st 0 = 0 /\
  ((forall i, nth i st 0 = 0) /\ (forall l, b = BArray l -> is_constant l = Ok true) \/
   exists l, b = BArray l /\ length l = n /\ is_constant l = Ok false /\
     forall i, (S i < n)%nat -> nth (S i) st 0 = nth (S i) l 0 - nth i l 0).
Lemma nth_repeat0 i m : nth i (repeat 0 m) 0 = 0.
Proof. revert i; induction m; destruct i; simpl; auto. Qed.
Lemma broadcast_zero n st : broadcast (S n) [0] = Ok st -> length st = S n /\ forall i, nth i st 0 = 0.
Proof.
  unfold broadcast. destruct (Nat.eqb_spec (length [0]) (S n)); intro E; apply Ok_inj in E; subst st.
  - split; auto. intros [|[|i]]; reflexivity.
  - split; [apply repeat_length|intro; apply nth_repeat0].
Qed.
Lemma bathymetry_steps b p n st : build_bathymetry b = Ok p -> broadcast (S n) (snd p) = Ok st ->
  bottom_steps b n st.
Proof.
  intros E C. unfold bottom_steps. destruct b as [| x | l]; cbn [build_bathymetry] in E.
  1,2: apply Ok_inj in E; subst p; cbn [snd] in C; destruct (broadcast_zero n st C) as [L Z]; repeat split; auto; left; split; auto; congruence.
  inv_bind E. destruct a.
  - apply Ok_inj in E; subst p; cbn [snd] in C; destruct (broadcast_zero n st C) as [L Z]; repeat split; auto. left. split; auto. congruence.
  - assert (Hl : (1 <= length l)%nat) by (destruct l; [discriminate|cbn; lia]).
    rewrite (pyget_0 l 0) in E by lia. cbn [bind] in E. rewrite (pyget_m1 l 0) in E by lia. cbn [bind] in E.
    apply Ok_inj in E. subst p. cbn [snd] in C.
    set (pad := nth 0 l 0 :: l ++ [nth (length l - 1) l 0]) in *.
    assert (Lp : length pad = S (S (length l))) by (unfold pad; cbn; rewrite app_length; cbn; lia).
    assert (Ld : length (diff pad) = S (length l)) by (rewrite diff_length; lia).
    assert (C' : diff pad = st /\ length l = n).
    { unfold broadcast in C. rewrite Ld in C. destruct (Nat.eqb_spec (S (length l)) (S n)).
      - apply Ok_inj in C. split; auto; lia.
      - destruct (diff pad) as [|? [|? ?]]; try discriminate. simpl in Ld. lia. }
    destruct C' as [<- <-]. 
    assert (Vp : forall i, (i < length l)%nat -> nth (S i) pad 0 = nth i l 0).
    { intros i Hi. unfold pad. cbn [nth]. apply app_nth1. auto. }
    assert (V0 : nth 0 pad 0 = nth 0 l 0) by reflexivity.
    assert (Vn : nth (S (length l)) pad 0 = nth (length l - 1) l 0).
    { unfold pad. cbn [nth]. rewrite app_nth2, Nat.sub_diag by lia. reflexivity. }
    repeat match goal with |- _ /\ _ => split end; auto.
    + rewrite nth_diff by lia. rewrite V0, Vp by lia. ring.
    + rewrite nth_diff by lia. rewrite Vn. replace (length l) with (S (length l - 1)) at 2 by lia. rewrite Vp by lia. ring.
    + right. exists l. repeat split; auto. intros i Hi. rewrite nth_diff by lia. rewrite !Vp by lia. ring.
Qed.
Lemma bathymetry_total l n : (1 <= n)%nat -> length l = n -> exists p st, build_bathymetry (BArray l) = Ok p /\ broadcast (S n) (snd p) = Ok st.
Proof.
  intros Hn Hl. cbn [build_bathymetry]. destruct l as [|b0 l']; [simpl in Hl; lia|]. set (l := b0 :: l') in *.
  destruct (is_constant l) as [c|] eqn:E; [|discriminate]. cbn [bind].
  destruct c.
  - exists ([0], [0]). cbn [snd]. unfold broadcast. destruct (Nat.eqb_spec (length [0]) (S n)); eauto.
  - rewrite (pyget_0 l 0), (pyget_m1 l 0) by (unfold l; cbn; lia). cbn [bind]. eexists. eexists. split; [reflexivity|].
    cbn [snd]. unfold broadcast. set (pad := nth 0 l 0 :: l ++ [nth (length l - 1) l 0]).
    assert (Lp : length (diff pad) = S n). { rewrite diff_length. unfold pad. cbn [List.length]. rewrite app_length. cbn [List.length]. lia. }
    rewrite Lp, Nat.eqb_refl. reflexivity.
Qed.
