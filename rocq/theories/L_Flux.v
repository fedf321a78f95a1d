From Coq Require Import Reals List ZArith Arith Lia Lra Bool String.
From Verif Require Import Prelude L_Prelude M_Boundary S_Boundary L_Boundary M_Flux S_Flux M_ODE S_ODE L_ODE.
Import ListNotations.
Local Open Scope nat_scope.
Open Scope R_scope.
Notation length := List.length.

Lemma bind_ok {A B} (r : result A) (f : A -> result B) b :
  bind r f = Ok b -> exists a, r = Ok a /\ f a = Ok b.
Proof. destruct r; simpl; [eauto|discriminate]. Qed.

Ltac inv_bind H :=
  let a := fresh "a" in let E := fresh "E" in
  apply bind_ok in H as [a [E H]].

Lemma Ok_inj {A} (x y : A) : Ok x = Ok y -> x = y.
Proof. congruence. Qed.

Lemma rdiv_ok x y z : rdiv x y = Ok z -> y <> 0 /\ z = x / y.
Proof. unfold rdiv. destruct (Reqb_spec y 0); [discriminate|]. intro E; inversion E; auto. Qed.
Lemma rdiv_ne x y : y <> 0 -> rdiv x y = Ok (x / y).
Proof. intro Hy. unfold rdiv. destruct (Reqb_spec y 0); [congruence|reflexivity]. Qed.
Lemma rdiv_0 x : rdiv x 0 = Err ZeroDivisionError.
Proof. unfold rdiv. destruct (Reqb_spec 0 0); [reflexivity|congruence]. Qed.

Lemma removelast_length {A} (l : list A) : length (removelast l) = (length l - 1)%nat.
Proof.
  induction l as [|a l IH]; [reflexivity|]. destruct l; [reflexivity|].
  change (removelast (a :: a0 :: l)) with (a :: removelast (a0 :: l)). cbn [List.length] in *. lia.
Qed.
Lemma nth_removelast {A} (l : list A) i d : (i < length l - 1)%nat -> nth i (removelast l) d = nth i l d.
Proof.
  revert i; induction l as [|a l IH]; intros i Hi; [reflexivity|]. destruct l; [simpl in Hi; lia|].
  change (removelast (a :: a0 :: l)) with (a :: removelast (a0 :: l)).
  destruct i; [reflexivity|]. simpl. apply IH. simpl in *. lia.
Qed.
Lemma tl_length {A} (l : list A) : length (tl l) = (length l - 1)%nat.
Proof. destruct l; simpl; lia. Qed.
Lemma nth_tl {A} (l : list A) i d : nth i (tl l) d = nth (S i) l d.
Proof. destruct l; simpl; auto. destruct i; auto. Qed.

Lemma tableau_rows T : In T [euler; heun; ssp3; rk8] ->
  forall i, (i < length (rk_b T))%nat -> (i <= length (nth i (rk_A T) []))%nat.
Proof.
  intros HT.
  assert (Hs : length (rk_A T) = length (rk_b T) /\ Forall (fun r => length r = length (rk_b T)) (rk_A T)).
  { simpl in HT. destruct HT as [<-|[<-|[<-|[<-|[]]]]]; (split; [reflexivity|]); repeat constructor. }
  destruct Hs as [H1 H3]. intros i Hi. rewrite Forall_forall in H3. rewrite H3; [lia|]. apply nth_In. lia.
Qed.

Section F.
Context {W : Type} `{L : CellLaws W}.

Lemma nth_vneg (l : list W) i k : (i < length l)%nat ->
  ccoord k (nth i (vneg l) czero) = - ccoord k (nth i l czero).
Proof. intro Hi. unfold vneg. rewrite (nth_map' copp l i czero) by auto. apply ccoord_opp. Qed.

(* two point fluxes given by a function of the two values *)
Definition two_point (g : W -> W -> result W) : nflux W :=
  {| nf_dim := 2;
     nf_call := fun a => match a with
       | [vl; vr] => bind (mapM (fun p => g (fst p) (snd p)) (combine vl vr)) (fun f => Ok (vneg f, f))
       | _ => Err TypeError
       end |}.

Lemma two_point_call g a fl fr m : Forall (fun v => length v = m) a ->
  nf_call (two_point g) a = Ok (fl, fr) ->
  exists vl vr, a = [vl; vr] /\ length vl = m /\ length vr = m /\ fl = vneg fr /\ length fr = m /\
  forall i, (i < m)%nat -> g (nth i vl czero) (nth i vr czero) = Ok (nth i fr czero).
Proof.
  intros Ha E. destruct a as [|vl [|vr [|? ?]]]; simpl in E; try discriminate.
  inversion Ha as [|? ? Hl Ha']; subst. inversion Ha' as [|? ? Hr _]; subst.
  inv_bind E. inversion E; subst. exists vl, vr.
  destruct (mapM_nth _ _ _ (czero, czero) czero E0) as [M1 M2].
  rewrite combine_length, Hr, Nat.min_id in *. repeat split; auto.
  intros i Hi. specialize (M2 i Hi). rewrite combine_nth in M2 by auto. exact M2.
Qed.

Lemma two_point_one_per_node g : one_per_node (two_point g).
Proof.
  intros a fl fr m Ha E. destruct (two_point_call g a fl fr m Ha E) as [vl [vr [_ [_ [_ [-> [Hf _]]]]]]].
  unfold vneg. rewrite map_length. auto.
Qed.
Lemma two_point_single_valued g k : single_valued k (two_point g).
Proof.
  intros a fl fr m Ha E i Hi. destruct (two_point_call g a fl fr m Ha E) as [vl [vr [_ [_ [_ [-> [Hf _]]]]]]].
  apply nth_vneg. lia.
Qed.
Lemma two_point_local g k : local_flux k (two_point g).
Proof.
  intros a fl fr m i j Ha E Hi Hj Hv.
  destruct (two_point_call g a fl fr m Ha E) as [vl [vr [-> [_ [_ [-> [Hf Hg]]]]]]].
  pose proof (Hg i Hi) as Gi. pose proof (Hg j Hj) as Gj.
  rewrite (Hv vl), (Hv vr) in Gi by (simpl; auto). rewrite Gj in Gi. inversion Gi. congruence.
Qed.

(* the two point fluxes of the code *)
Lemma mapM_map {A B C} (f : A -> result B) (h : B -> C) l :
  bind (mapM f l) (fun o => Ok (map h o)) = mapM (fun a => bind (f a) (fun b => Ok (h b))) l.
Proof.
  induction l as [|a l IH]; [reflexivity|]. simpl. destruct (f a); simpl; [|reflexivity].
  rewrite <- IH. destruct (mapM f l); reflexivity.
Qed.
Lemma bind_assoc {A B C} (r : result A) (f : A -> result B) (g : B -> result C) :
  bind (bind r f) g = bind r (fun a => bind (f a) g).
Proof. destruct r; reflexivity. Qed.

Lemma lax_friedrichs_two_point rs a :
  nf_call (lax_friedrichs rs) a =
  nf_call (two_point (fun l r => bind (rs_solve rs l r) (fun o => Ok (ro_flux o)))) a.
Proof.
  destruct a as [|vl [|vr [|? ?]]]; try reflexivity. simpl. unfold rs_solve_all.
  rewrite <- mapM_map, bind_assoc. destruct (mapM _ _); reflexivity.
Qed.
Lemma central_two_point f a : nf_call (central f) a = nf_call (two_point (central_at f)) a.
Proof. reflexivity. Qed.
Lemma antidiffusive_two_point gamma dx a :
  nf_call (linear_antidiffusive gamma dx) a =
  nf_call (two_point (fun l r => bind (rdiv 1 dx) (fun f =>
    Ok (cscal f (cscal gamma (cadd r (copp l))))))) a.
Proof. reflexivity. Qed.

Lemma good_ext (nf nf' : nflux W) : (forall a, nf_call nf a = nf_call nf' a) ->
  (one_per_node nf' -> one_per_node nf) /\
  (forall k, single_valued k nf' -> single_valued k nf) /\
  (forall k, local_flux k nf' -> local_flux k nf).
Proof.
  intro E. split; [|split].
  - intros G a fl fr m Ha C. rewrite E in C. eapply G; eauto.
  - intros k G a fl fr m Ha C. rewrite E in C. eapply G; eauto.
  - intros k G a fl fr m i j Ha C. rewrite E in C. eapply G; eauto.
Qed.

(* wrappers *)
Lemma required_incl dim (a b : list (list W)) : get_required_values dim a = Ok b -> incl b a.
Proof.
  unfold get_required_values. destruct (negb _); [discriminate|]. destruct (negb _); [discriminate|].
  intro E; inversion E; subst. intros x Hx. unfold slice in Hx.
  assert (incl1 : forall n (l : list (list W)) y, In y (firstn n l) -> In y l).
  { induction n; intros [|z l] y; simpl; try tauto. intros [->|Hy]; auto. }
  assert (incl2 : forall n (l : list (list W)) y, In y (skipn n l) -> In y l).
  { induction n; intros [|z l] y; simpl; try tauto. auto. }
  eapply incl2, incl1; eauto.
Qed.
Lemma required_Forall dim (a b : list (list W)) P : get_required_values dim a = Ok b -> Forall P a -> Forall P b.
Proof. intros E F. rewrite Forall_forall in *. intros x Hx. apply F. eapply required_incl; eauto. Qed.

Lemma arbitrary_good (nf : nflux W) :
  (one_per_node nf -> one_per_node (arbitrary_input nf)) /\
  (forall k, single_valued k nf -> single_valued k (arbitrary_input nf)) /\
  (forall k, local_flux k nf -> local_flux k (arbitrary_input nf)).
Proof.
  split; [|split].
  - intros G a fl fr m Ha C. simpl in C. inv_bind C. eapply G; [|eassumption]. eapply required_Forall; eauto.
  - intros k G a fl fr m Ha C. simpl in C. inv_bind C. eapply G; [|eassumption]. eapply required_Forall; eauto.
  - intros k G a fl fr m i j Ha C Hi Hj Hv. simpl in C. inv_bind C.
    eapply (G a0); eauto; [eapply required_Forall; eauto|].
    intros v Hin. apply Hv. eapply required_incl; eauto.
Qed.

Lemma corrected_good (nf fc : nflux W) :
  one_per_node nf -> one_per_node fc ->
  one_per_node (corrected nf fc) /\
  (forall k, single_valued k nf -> single_valued k fc -> single_valued k (corrected nf fc)) /\
  (forall k, local_flux k nf -> local_flux k fc -> local_flux k (corrected nf fc)).
Proof.
  intros O1 O2. apply (proj1 (arbitrary_good nf)) in O1. apply (proj1 (arbitrary_good fc)) in O2.
  assert (P : forall a fl fr m, Forall (fun v => length v = m) a -> nf_call (corrected nf fc) a = Ok (fl, fr) ->
    exists fl1 fr1 fl2 fr2, nf_call (arbitrary_input nf) a = Ok (fl1, fr1) /\
      nf_call (arbitrary_input fc) a = Ok (fl2, fr2) /\
      length fl1 = m /\ length fr1 = m /\ length fl2 = m /\ length fr2 = m /\
      fl = map2 cadd fl1 fl2 /\ fr = map2 cadd fr1 fr2).
  { intros a fl fr m Ha C. cbn [corrected nf_call] in C. apply bind_ok in C as [[fl1 fr1] [E1 C]].
    apply bind_ok in C as [[fl2 fr2] [E2 C]]. cbn [fst snd] in C. injection C as <- <-.
    exists fl1, fr1, fl2, fr2.
    destruct (O1 a fl1 fr1 m Ha E1), (O2 a fl2 fr2 m Ha E2). repeat split; auto. }
  split; [|split].
  - intros a fl fr m Ha C. destruct (P _ _ _ _ Ha C) as [fl1 [fr1 [fl2 [fr2 [E1 [E2 [L1 [L2 [L3 [L4 [-> ->]]]]]]]]]]].
    rewrite !map2_length. lia.
  - intros k S1 S2 a fl fr m Ha C i Hi.
    destruct (P _ _ _ _ Ha C) as [fl1 [fr1 [fl2 [fr2 [E1 [E2 [L1 [L2 [L3 [L4 [-> ->]]]]]]]]]]].
    rewrite (nth_map2 cadd fl1 fl2 i czero czero), (nth_map2 cadd fr1 fr2 i czero czero) by lia.
    rewrite !ccoord_add.
    rewrite (proj1 (proj2 (arbitrary_good nf)) k S1 a fl1 fr1 m Ha E1 i Hi).
    rewrite (proj1 (proj2 (arbitrary_good fc)) k S2 a fl2 fr2 m Ha E2 i Hi). ring.
  - intros k S1 S2 a fl fr m i j Ha C Hi Hj Hv.
    destruct (P _ _ _ _ Ha C) as [fl1 [fr1 [fl2 [fr2 [E1 [E2 [L1 [L2 [L3 [L4 [-> ->]]]]]]]]]]].
    rewrite !(nth_map2 cadd fr1 fr2 _ czero czero) by lia. rewrite !ccoord_add.
    rewrite (proj2 (proj2 (arbitrary_good nf)) k S1 a fl1 fr1 m i j Ha E1 Hi Hj Hv).
    rewrite (proj2 (proj2 (arbitrary_good fc)) k S2 a fl2 fr2 m i j Ha E2 Hi Hj Hv). ring.
Qed.

(** ** right hand side *)
Lemma cells_from_nodes_spec dx (fl fr v : list W) n :
  cells_from_nodes dx fl fr = Ok v -> length fl = S n -> length fr = S n ->
  dx <> 0 /\ length v = n /\
  forall i, (i < n)%nat -> nth i v czero = cscal (1 / dx) (cadd (nth i fr czero) (nth (S i) fl czero)).
Proof.
  intros E Hl Hr. unfold cells_from_nodes in E. inv_bind E. apply rdiv_ok in E0 as [Hd ->].
  inversion E; subst; clear E.
  assert (HL : length (map2 cadd (removelast fr) (tl fl)) = n).
  { rewrite map2_length, removelast_length, tl_length. lia. }
  split; auto. split; [rewrite map_length; auto|]. intros i Hi.
  rewrite (nth_map' _ _ i czero) by lia. f_equal.
  rewrite (nth_map2 cadd _ _ i czero czero) by (rewrite ?removelast_length, ?tl_length; lia).
  rewrite nth_removelast by lia. rewrite nth_tl. reflexivity.
Qed.

Lemma cells_total dx (fl fr v : list W) n k :
  cells_from_nodes dx fl fr = Ok v -> length fl = S n -> length fr = S n ->
  (forall i, (i < S n)%nat -> ccoord k (nth i fl czero) = - ccoord k (nth i fr czero)) ->
  dx * total k v = ccoord k (nth 0 fr czero) - ccoord k (nth n fr czero).
Proof.
  intros E Hl Hr HS. destruct (cells_from_nodes_spec dx fl fr v n E Hl Hr) as [Hd [Lv Hv]].
  unfold total. rewrite (list_tab czero v), map_tab, Lv.
  rewrite (tab_ext n _ (fun i => / dx * (ccoord k (nth i fr czero) - ccoord k (nth (S i) fr czero)))).
  2:{ intros i Hi. rewrite Hv by auto. rewrite ccoord_scal, ccoord_add, HS by lia. field. auto. }
  rewrite rsum_tab_scal.
  rewrite (tab_ext n _ (fun i => - ccoord k (nth (S i) fr czero) - - ccoord k (nth i fr czero))).
  2:{ intros; ring. }
  rewrite (rsum_tab_telescope n (fun i => - ccoord k (nth i fr czero))). field. auto.
Qed.

(* the calls made by the right hand side *)
Lemma fv_rhs_inv nf dx bc t u v :
  fv_rhs nf dx bc t u = Ok v -> exists a fl fr,
    get_node_neighbours bc u (Nat.div (nf_dim nf) 2) (Some t) = Ok a /\
    nf_call nf a = Ok (fl, fr) /\ cells_from_nodes dx fl fr = Ok v.
Proof.
  intro E. unfold fv_rhs in E. inv_bind E. inv_bind E. destruct a0 as [fl fr]. eauto 8.
Qed.

(* number of nodes seen by the flux *)
Lemma fv_neighbours_shape wall conds r il ir bc (u : list W) t :
  get_boundary_conditions wall conds r il ir = Ok bc -> (1 <= r)%nat -> 
  forall a, get_node_neighbours bc u r (Some t) = Ok a ->
  length a = (2 * r)%nat /\ Forall (fun v => length v = S (length u)) a.
Proof.
  intros B Hr a E. unfold get_node_neighbours in E. inv_bind E.
  assert (Lt : length (bc_left bc) = r /\ length (bc_right bc) = r).
  { unfold get_boundary_conditions in B. destruct conds as [|c cs]; [discriminate|].
    inv_bind B. inv_bind B.
    apply mapM_ok in E1 as [M1 _]. apply mapM_ok in E2 as [M2 _].
    rewrite rev_length, seq_length in M1. rewrite seq_length in M2.
    unfold mk_bconds in B. rewrite app_length, M1, M2, even_double, div2_double in B.
    inversion B; simpl. rewrite firstn_length, skipn_length, app_length. lia. }
  unfold extended in E0. inv_bind E0. inv_bind E0. apply mapM_ok in E1 as [M1 _]. apply mapM_ok in E2 as [M2 _].
  injection E0 as <-. destruct Lt as [Lt1 Lt2]. rewrite Lt1 in M1. rewrite Lt2 in M2.
  injection E as <-. split.
  { rewrite app_length, map_length, seq_length. simpl; lia. }
  set (e := a1 ++ u ++ a2). assert (Le : length e = (length u + 2 * r)%nat).
  { unfold e. rewrite !app_length. lia. }
  apply Forall_app. split.
  - apply Forall_forall. intros x Hx. apply in_map_iff in Hx as [i [<- Hi]]. apply in_seq in Hi.
    rewrite slice_length. lia.
  - constructor; [|constructor]. rewrite skipn_length. lia.
Qed.

Lemma side_names_cons c cs : side_names (c :: cs) c (match cs with [] => c | c2 :: _ => c2 end).
Proof. destruct cs; simpl; auto. Qed.

(* periodic boundaries: first and last node see the same values *)
Lemma periodic_ends_agree wall r il ir bc (u : list W) t :
  get_boundary_conditions wall ["periodic"%string] r il ir = Ok bc -> (1 <= r <= length u)%nat ->
  forall a, get_node_neighbours bc u r (Some t) = Ok a ->
  forall v, In v a -> nth 0 v czero = nth (length u) v czero.
Proof.
  intros B Hr a E v Hv.
  destruct (node_neighbours_spec czero wall ["periodic"%string] r il ir bc u (Some t)
    "periodic"%string "periodic"%string Periodic Periodic r) as [a' [E' [La' Va']]]; simpl; auto; try lia.
  { intros h [H0|H0]; discriminate. }
  rewrite E in E'. injection E' as <-.
  apply (In_nth _ _ []) in Hv as [k [Hk <-]]. rewrite La' in Hk.
  destruct (Va' k Hk) as [Lk Ek].
  pose proof (Ek O ltac:(lia)) as E0. pose proof (Ek (length u) ltac:(lia)) as En.
  assert (P : forall z x, extension_value czero u (Some t) Periodic Periodic z x ->
                          x = nth (Z.to_nat (z mod Z.of_nat (length u))) u czero).
  { intros z x. unfold extension_value. destruct (Z.ltb_spec z 0); [simpl; auto|].
    destruct (Z.ltb_spec z (Z.of_nat (length u))); [|simpl; auto].
    rewrite Z.mod_small by lia. auto. }
  apply P in E0. apply P in En. rewrite E0, En. do 2 f_equal.
  replace (Z.of_nat (length u) - Z.of_nat r + Z.of_nat k)%Z
    with (Z.of_nat 0 - Z.of_nat r + Z.of_nat k + 1 * Z.of_nat (length u))%Z by lia.
  rewrite Z.mod_add by lia. reflexivity.
Qed.

Lemma fv_rhs_boundary_balance wall conds il ir bc nf dx t (u v : list W) k :
  get_boundary_conditions wall conds (Nat.div (nf_dim nf) 2) il ir = Ok bc -> (2 <= nf_dim nf)%nat ->
  one_per_node nf -> single_valued k nf ->
  fv_rhs nf dx bc t u = Ok v ->
  length v = length u /\
  exists a fl fr, get_node_neighbours bc u (Nat.div (nf_dim nf) 2) (Some t) = Ok a /\
    nf_call nf a = Ok (fl, fr) /\
    dx * total k v = ccoord k (nth 0 fr czero) + ccoord k (nth (length u) fl czero).
Proof.
  intros B Hd O S E. destruct (fv_rhs_inv _ _ _ _ _ _ E) as [a [fl [fr [E1 [E2 E3]]]]].
  assert (Hr : (1 <= Nat.div (nf_dim nf) 2)%nat) by (apply Nat.div_le_lower_bound; lia).
  destruct (fv_neighbours_shape _ _ _ _ _ _ _ _ B Hr _ E1) as [_ Fa].
  destruct (O _ _ _ _ Fa E2) as [L1 L2].
  destruct (cells_from_nodes_spec _ _ _ _ _ E3 L1 L2) as [_ [Lv _]]. split; auto.
  exists a, fl, fr. repeat split; auto.
  rewrite (cells_total dx fl fr v (length u) k E3 L1 L2).
  - rewrite (S _ _ _ _ Fa E2 (length u)) by lia. ring.
  - intros i Hi. eapply S; eauto.
Qed.

Lemma fv_rhs_periodic_total wall il ir bc nf dx t (u v : list W) k :
  get_boundary_conditions wall ["periodic"%string] (Nat.div (nf_dim nf) 2) il ir = Ok bc -> (2 <= nf_dim nf)%nat ->
  one_per_node nf -> single_valued k nf -> local_flux k nf ->
  (Nat.div (nf_dim nf) 2 <= length u)%nat ->
  fv_rhs nf dx bc t u = Ok v -> length v = length u /\ total k v = 0.
Proof.
  intros B Hd O S Lf Hu E. destruct (fv_rhs_inv _ _ _ _ _ _ E) as [a [fl [fr [E1 [E2 E3]]]]].
  assert (Hr : (1 <= Nat.div (nf_dim nf) 2)%nat) by (apply Nat.div_le_lower_bound; lia).
  destruct (fv_neighbours_shape _ _ _ _ _ _ _ _ B Hr _ E1) as [_ Fa].
  destruct (O _ _ _ _ Fa E2) as [L1 L2].
  destruct (cells_from_nodes_spec _ _ _ _ _ E3 L1 L2) as [Hdx [Lv _]]. split; auto.
  pose proof (cells_total dx fl fr v (length u) k E3 L1 L2) as T.
  rewrite (Lf _ _ _ _ 0%nat (length u) Fa E2) in T; try lia.
  - assert (dx * total k v = 0).
    { rewrite T; [ring|]. intros i Hi. eapply S; eauto. }
    apply Rmult_integral in H0 as [H0|H0]; tauto.
  - intros w Hw. eapply periodic_ends_agree; eauto.
Qed.

(* runs *)
Lemma total_vadd k n (a b : list W) : length a = n -> length b = n ->
  total k (vadd a b) = total k a + total k b.
Proof.
  intros Ha Hb. unfold total. simpl.
  rewrite (list_tab czero a), (list_tab czero b), Ha, Hb, map2_tab, !map_tab, <- rsum_tab_plus.
  f_equal. apply tab_ext. intros i Hi. apply ccoord_add.
Qed.
Lemma total_vscal k r (a : list W) : total k (vscal r a) = r * total k a.
Proof.
  unfold total. simpl. rewrite (list_tab czero a), !map_tab, <- rsum_tab_scal.
  f_equal. apply tab_ext. intros i Hi. apply ccoord_scal.
Qed.
Lemma total_zero k n : total k (repeat czero n) = 0.
Proof.
  unfold total. induction n; simpl; [reflexivity|]. unfold rsum in *. simpl. rewrite ccoord_zero. lra.
Qed.

Lemma fv_run_periodic_total wall il ir bc nf dx T dts t0 (u0 : list W) o k :
  get_boundary_conditions wall ["periodic"%string] (Nat.div (nf_dim nf) 2) il ir = Ok bc -> (2 <= nf_dim nf)%nat ->
  one_per_node nf -> single_valued k nf -> local_flux k nf ->
  (Nat.div (nf_dim nf) 2 <= length u0)%nat ->
  (forall i, (i < length (rk_b T))%nat -> (i <= length (nth i (rk_A T) []))%nat) ->
  rk_run_e (fv_rhs nf dx bc) T dts {| o_time := t0; o_sol := u0 |} = Ok o ->
  length (o_sol o) = length u0 /\ total k (o_sol o) = total k u0.
Proof.
  intros B Hd O S Lf Hu HT E.
  destruct (rk_run_e_linear (fun l => length l = length u0) (fv_rhs nf dx bc) (repeat czero (length u0)) T dts
     {| o_time := t0; o_sol := u0 |} o (total k)) as [R1 R2]; auto.
  - intros a b Ha Hb. apply (total_vadd k (length u0)); auto.
  - intros r a _. apply total_vscal.
  - apply repeat_length.
  - apply total_zero.
  - intros t u v Du Ev. destruct (fv_rhs_periodic_total wall il ir bc nf dx t u v k); auto.
    + rewrite Du; auto.
    + split; [congruence|auto].
Qed.
End F.
