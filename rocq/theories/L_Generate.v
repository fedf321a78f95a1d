From Coq Require Import Reals List ZArith Arith Lia Lra Bool.
From Verif Require Import Prelude L_Prelude M_Boundary L_Boundary M_Coarsener S_Coarsener L_Coarsener M_Solution L_Solution
  M_Flux S_Flux L_Flux M_ODE M_Generate S_Generate.
Import ListNotations.
Open Scope R_scope.
Notation length := List.length.

Lemma pyindex_nat n a : (a <= n)%nat -> pyindex n (Z.of_nat a) = a.
Proof. intro Ha. unfold pyindex. destruct (Z.ltb_spec (Z.of_nat a) 0); [lia|]. rewrite Nat2Z.id. lia. Qed.
Lemma pyslice_nat {A} (l : list A) a b x y : x = Z.of_nat a -> y = Z.of_nat b -> (a <= length l)%nat -> (b <= length l)%nat ->
  pyslice l x y = slice l a b.
Proof. intros -> -> Ha Hb. unfold pyslice. rewrite !pyindex_nat by auto. reflexivity. Qed.

Section G.
Context {W : Type} `{L : CellLaws W}.

Lemma coarsen_slice d n (u cu : list W) a b : (0 < d)%nat -> length u = (n * d)%nat -> coarsen d u = Ok cu ->
  (a <= b)%nat -> (b <= n)%nat -> coarsen d (slice u (a * d) (b * d)) = Ok (slice cu a b).
Proof.
  intros Hd Lu E Hab Hb. apply coarsen_ok_iff in E as [L1 A]; auto. assert (Lc : length cu = n) by nia.
  apply coarsen_ok_iff; auto. split.
  - rewrite !slice_length, Lc, Lu. nia.
  - intros i k Hi. rewrite slice_length in Hi. rewrite nth_slice by lia. rewrite A by lia. f_equal. f_equal. apply tab_ext.
    intros j Hj. rewrite nth_slice by nia. do 2 f_equal. lia.
Qed.

Lemma new_window_fine node r d rf n (u : list W) : length u = n -> (rf <= node * d)%nat -> (node * d + rf <= n)%nat ->
  fine_window (new_window node r d rf) u = slice u (node * d - rf) (node * d + rf).
Proof.
  intros Lu H1 H2. unfold fine_window. cbn [new_window w_fl w_fr]. apply pyslice_nat; try lia.
Qed.
Lemma new_window_coarse node r d rf n (u : list W) : (0 < d)%nat -> length u = (n * d)%nat -> (r <= node)%nat -> (node + r <= n)%nat ->
  exists cu, coarsen d u = Ok cu /\ coarse_window (new_window node r d rf) u = Ok (slice cu (node - r) (node + r)).
Proof.
  intros Hd Lu H1 H2. destruct (proj1 (proj2 (coarsen_correct d u Hd)) (ex_intro _ n Lu)) as [cu E]. exists cu. split; auto.
  unfold coarse_window. cbn [new_window w_cl w_cr w_degree].
  rewrite (pyslice_nat u ((node - r) * d) ((node + r) * d)); try nia. apply (coarsen_slice d n u cu); auto. lia.
Qed.

(* histories *)
Context (finite : list W -> bool) (w : window) (n : nat).
Context (Hw : forall v : list W, length v = n -> exists c, coarse_window w v = Ok c).

Definition id_inv (h : idata) (K : hsol (list W)) : Prop :=
  id_sol h = h_sol K /\ id_times h = h_times K /\ id_fine h = map (fine_window w) (h_values K) /\
  mapM (coarse_window w) (h_values K) = Ok (id_coarse h) /\ Forall (fun v => length v = n) (h_values K).

Lemma mask_map {A B} (f : A -> B) t ts : forall vs, mask_values t ts (map f vs) = map f (mask_values t ts vs).
Proof. induction ts as [|t' ts IH]; intros [|v vs]; cbn; auto. destruct (Rltb t' t); cbn; rewrite IH; auto. Qed.
Lemma mask_mapM {A B} (f : A -> result B) t ts : forall vs cs, mapM f vs = Ok cs ->
  mapM f (mask_values t ts vs) = Ok (mask_values t ts cs).
Proof.
  induction ts as [|t' ts IH]; intros [|v vs] cs E; cbn in E; try (apply Ok_inj in E; subst cs; auto).
  - reflexivity.
  - inv_bind E. inv_bind E. apply Ok_inj in E. subst cs. cbn. destruct (Rltb t' t); cbn.
    + rewrite E0. cbn. rewrite (IH _ _ E1). reflexivity.
    + apply IH. auto.
Qed.
Lemma mask_Forall {A} (P : A -> Prop) t ts : forall vs, Forall P vs -> Forall P (mask_values t ts vs).
Proof.
  induction ts as [|t' ts IH]; intros [|v vs] HF; cbn; auto. inversion HF; subst. destruct (Rltb t' t); auto.
Qed.
Lemma mapM_app_one {A B} (f : A -> result B) l x cs c : mapM f l = Ok cs -> f x = Ok c -> mapM f (l ++ [x]) = Ok (cs ++ [c]).
Proof.
  revert cs; induction l as [|a l IH]; intros cs E Ex; cbn in *.
  - apply Ok_inj in E. subst. rewrite Ex. reflexivity.
  - inv_bind E. inv_bind E. apply Ok_inj in E. subst. rewrite E0. cbn. rewrite (IH _ E1 Ex). reflexivity.
Qed.

Lemma id_update_inv dt v h K : length v = n -> id_inv h K ->
  id_inv (fst (id_update finite w dt v h)) (fst (h_update finite dt v K)) /\
  snd (id_update finite w dt v h) = snd (h_update finite dt v K).
Proof.
  intros Lv [I1 [I2 [I3 [I4 I5]]]]. unfold id_update, h_update. rewrite I1. unfold d_update.
  destruct (finite v); cbn [fst snd d_value d_time].
  - destruct (Hw v Lv) as [c Ec]. rewrite Ec. cbn [fst snd]. split; auto.
    unfold id_inv. cbn [id_sol h_sol id_times h_times id_fine h_values id_coarse d_time]. rewrite I2, I3, map_app.
    split; auto. split; auto. split; auto. split.
    + apply mapM_app_one; auto.
    + apply Forall_app. split; auto.
  - split; auto. unfold id_inv. cbn [id_sol h_sol id_times h_times id_fine h_values id_coarse]. auto.
Qed.
Lemma id_step_inv h K o : length (match o with Update _ v => v | SetValue v _ => v end) = n -> id_inv h K ->
  id_inv (id_step finite w h o) (h_step finite K o).
Proof.
  intros Lv I. destruct o as [dt v|v t]; cbn [id_step h_step].
  - apply id_update_inv; auto.
  - unfold id_set_value, h_set_value. cbn [id_sol h_sol]. destruct I as [I1 [I2 [I3 [I4 I5]]]].
    rewrite I1. apply id_update_inv; auto. unfold id_inv. cbn [id_sol h_sol id_times h_times id_fine h_values id_coarse].
    rewrite I2, I3, mask_map. split; auto. split; auto. split; auto. split; [apply mask_mapM; auto|apply mask_Forall; auto].
Qed.
Lemma id_run_inv s0 h0 ops : length (d_value s0) = n -> id_new w s0 = Ok h0 ->
  Forall (fun o => length (match o with Update _ v => v | SetValue v _ => v end) = n) ops ->
  id_inv (fold_left (id_step finite w) ops h0) (h_run finite s0 ops).
Proof.
  intros Ls E HF. unfold h_run.
  assert (I : id_inv h0 (h_new s0)).
  { unfold id_new in E. inv_bind E. apply Ok_inj in E. subst h0.
    unfold id_inv, h_new. cbn [id_sol h_sol id_times h_times id_fine h_values id_coarse mapM map].
    rewrite E0. cbn. auto 6. }
  revert h0 I E. generalize (h_new s0). induction HF as [|o ops Ho HF IH]; intros K h0 I E; cbn [fold_left]; auto.
  set (h1 := id_step finite w h0 o). assert (I1 : id_inv h1 (h_step finite K o)) by (apply id_step_inv; auto).
  clear E. clearbody h1. revert h1 I1. generalize (h_step finite K o). clear - HF Hw.
  induction HF as [|o ops Ho HF IH]; intros K h I; cbn [fold_left]; auto. apply IH. apply id_step_inv; auto.
Qed.
End G.

Section F.
Context {W : Type} `{L : CellLaws W}.

Lemma two_point_nodewise (g : W -> W -> result W) (nf : nflux W) : nf_dim nf = 2%nat ->
  (forall a, nf_call nf a = nf_call (two_point g) a) ->
  nodewise nf (fun l => match l with [x; y] => bind (g x y) (fun f => Ok (copp f, f)) | _ => Err TypeError end).
Proof.
  intros D E a m fl fr La Fa C. rewrite E in C.
  destruct (two_point_call g a fl fr m Fa C) as [vl [vr [-> [L1 [L2 [-> [L3 G]]]]]]].
  split; [unfold vneg; rewrite map_length; auto|]. split; auto. intros i Hi. cbn [map]. rewrite (G i Hi). cbn [bind].
  unfold vneg. rewrite (nth_map' copp _ _ czero) by lia. reflexivity.
Qed.

(* what the arrays given to a flux hold at one node *)
Lemma neighbours_at wall conds r il ir bc (u : list W) t a m : get_boundary_conditions wall conds r il ir = Ok bc -> (1 <= r)%nat ->
  get_node_neighbours bc u r (Some t) = Ok a ->
  length a = (2 * r)%nat /\ Forall (fun v => length v = S (length u)) a /\
  forall k, (k < 2 * r)%nat -> (r <= m + k < r + length u)%nat -> (m <= length u)%nat -> nth m (nth k a []) czero = nth (m + k - r) u czero.
Proof.
  intros B Hr E. destruct (fv_neighbours_shape _ _ _ _ _ _ _ _ B Hr a E) as [L1 L2]. split; auto. split; auto.
  intros k Hk Hm Hm'.
  assert (Lt : length (bc_left bc) = r /\ length (bc_right bc) = r).
  { destruct conds as [|c cs]; [discriminate|].
    apply (get_bc_shape _ _ _ _ _ _ _ _ (side_names_cons c cs)) in B as [Bl [Br _]].
    apply mapM_ok in Bl as [M1 _]. apply mapM_ok in Br as [M2 _]. rewrite rev_length, seq_length in M1. rewrite seq_length in M2. auto. }
  destruct Lt as [T1 T2]. unfold get_node_neighbours in E. inv_bind E. pose proof E0 as E0'. unfold extended in E0. inv_bind E0. inv_bind E0.
  apply mapM_ok in E1 as [M1 _]. apply mapM_ok in E2 as [M2 _]. apply Ok_inj in E0. subst a0. rewrite T1 in M1. rewrite T2 in M2.
  assert (Le : length (a1 ++ u ++ a2) = (length u + 2 * r)%nat) by (rewrite !app_length; lia).
  destruct (node_neighbours_of_extended czero bc u (Some t) _ r E0' Hr) as [a' [Ea [_ N]]]; [lia|].
  unfold get_node_neighbours in Ea. rewrite E0' in Ea. cbn [bind] in Ea, E. rewrite Ea in E. apply Ok_inj in E. subst a'.
  rewrite N by auto. rewrite nth_tab by lia. rewrite app_nth2 by lia. rewrite app_nth1 by lia. rewrite M1. reflexivity.
Qed.

Lemma map_nth_window (a : list (list W)) m lo k (f : nat -> W) : (lo + k <= length a)%nat ->
  (forall i, (i < k)%nat -> nth m (nth (lo + i) a []) czero = f i) ->
  map (fun v => nth m v czero) (slice a lo (lo + k)) = tab k f.
Proof.
  intros Hl E. apply (list_ext czero).
  - rewrite map_length, slice_length, tab_length. lia.
  - intros i Hi. rewrite map_length, slice_length in Hi.
    rewrite (nth_map' _ _ _ []) by (rewrite slice_length; lia). rewrite nth_slice by lia. rewrite nth_tab by lia. apply E. lia.
Qed.

(* the flux at an inner node is the node function applied to the cells around it *)
Lemma inner_node_flux wall conds R il ir bc nf g (u : list W) t a fl fr rf m :
  get_boundary_conditions wall conds R il ir = Ok bc -> (1 <= rf <= R)%nat -> nf_dim nf = (2 * rf)%nat -> nodewise nf g ->
  get_node_neighbours bc u R (Some t) = Ok a -> nf_call (arbitrary_input nf) a = Ok (fl, fr) ->
  (rf <= m)%nat -> (m + rf <= length u)%nat ->
  g (slice u (m - rf) (m + rf)) = Ok (nth m fl czero, nth m fr czero).
Proof.
  intros B Hr D G E C Hm Hm'. destruct (neighbours_at _ _ _ _ _ _ _ _ _ m B (ltac:(lia)) E) as [La [Fa N]].
  cbn [arbitrary_input nf_call] in C. inv_bind C. pose proof E0 as E1. unfold get_required_values in E0. rewrite D, La in E0.
  assert (X1 : Nat.leb (2 * rf) (2 * R) = true) by (apply Nat.leb_le; lia).
  assert (X2 : Nat.even (2 * R) = true) by (rewrite Nat.even_mul; reflexivity). rewrite X1, X2 in E0. cbn [negb] in E0. apply Ok_inj in E0.
  assert (X3 : ((2 * R - 2 * rf) / 2 = R - rf)%nat) by (replace (2 * R - 2 * rf)%nat with ((R - rf) * 2)%nat by lia; apply Nat.div_mul; lia).
  rewrite X3 in E0. replace (2 * R - (R - rf))%nat with (R - rf + 2 * rf)%nat in E0 by lia.
  destruct (G a0 (S (length u)) fl fr) as [_ [_ P]]; auto.
  - rewrite <- E0, slice_length. lia.
  - eapply required_Forall; eauto.
  - specialize (P m ltac:(lia)). rewrite <- P. f_equal. rewrite <- E0.
    rewrite (map_nth_window a m (R - rf) (2 * rf) (fun i => nth (m - rf + i) u czero)); [|lia|].
    + apply (list_ext czero); [rewrite slice_length, tab_length; lia|]. intros i Hi. rewrite slice_length in Hi.
      rewrite nth_slice, nth_tab by lia. reflexivity.
    + intros i Hi. rewrite N by lia. f_equal. lia.
Qed.

Lemma arbitrary_exact nf (a : list (list W)) : length a = nf_dim nf -> Nat.even (nf_dim nf) = true ->
  nf_call (arbitrary_input nf) a = nf_call nf a.
Proof.
  intros La Ev. cbn [arbitrary_input nf_call]. unfold get_required_values. rewrite La, Nat.leb_refl, Ev. cbn [negb].
  rewrite Nat.sub_diag. change (0 / 2)%nat with 0%nat. cbn [bind]. f_equal. unfold slice. cbn [skipn].
  rewrite Nat.sub_0_r, Nat.sub_0_r, <- La. apply firstn_all.
Qed.
End F.
