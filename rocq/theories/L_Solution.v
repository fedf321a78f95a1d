From Coq Require Import Reals List Lia Lra Arith Bool.
From Verif Require Import Prelude L_Prelude M_Coarsener S_Coarsener L_Coarsener M_Solution S_Solution.
Import ListNotations.
Open Scope R_scope.

Definition call_op {V} (c : call V) : hop V :=
  match c with CUpdate dt v => Update dt v | CSetValue v t => SetValue v t end.
Definition call_value {V} (c : call V) : V :=
  match c with CUpdate _ v => v | CSetValue v _ => v end.

Section S.
Context {V : Type} (finite : V -> bool).
Definition good (v : V) : Prop := finite v = true.

Definition repr (h : hsol V) (l : list (R * V)) : Prop :=
  h_times h = map fst l /\ h_values h = map snd l /\
  exists l0, l = l0 ++ [(d_time (h_sol h), d_value (h_sol h))].

Lemma mask_spec t l : exists l1, keeps_before t l l1 /\
  filter (fun t' => Rltb t' t) (map fst l) = map fst l1 /\
  mask_values t (map fst l) (map (@snd R V) l) = map snd l1.
Proof.
  induction l as [|[t' v] l [l1 [K [F M]]]].
  - exists []. repeat split; constructor.
  - simpl. destruct (Rltb_spec t' t).
    + exists ((t', v) :: l1). simpl. rewrite F, M. repeat split. constructor; auto.
    + exists l1. rewrite F, M. repeat split. constructor; auto. simpl. lra.
Qed.

Lemma h_step_refines h l c :
  repr h l -> (match c with CSetValue v _ => good v | _ => True end) ->
  exists l', log_step good l c l' /\ repr (h_step finite h (call_op c)) l'.
Proof.
  intros [R1 [R2 [l0 R3]]] Hc. destruct c as [dt v|v t]; simpl.
  - unfold h_update, d_update. destruct (finite v) eqn:F; simpl.
    + exists (l ++ [(d_time (h_sol h) + dt, v)]). split.
      * rewrite R3. constructor. exact F.
      * split; [simpl; rewrite R1, map_app; reflexivity|].
        split; [simpl; rewrite R2, map_app; reflexivity|].
        exists l. reflexivity.
    + exists l. split; [constructor; unfold good; congruence|].
      split; [exact R1|]. split; [exact R2|]. exists l0; exact R3.
  - unfold h_set_value, h_update, d_update. simpl. unfold good in Hc. rewrite Hc. simpl.
    destruct (mask_spec t l) as [l1 [K [F M]]].
    exists (l1 ++ [(t, v)]). split; [constructor; auto|].
    replace (d_time (h_sol h) + (t - d_time (h_sol h))) with t by ring.
    split; [simpl; rewrite R1, F, map_app; reflexivity|].
    split; [simpl; rewrite R1, R2, M, map_app; reflexivity|].
    exists l1. simpl. repeat f_equal; ring.
Qed.

Lemma h_run_refines s cs :
  Forall (fun c => match c with CSetValue v _ => good v | _ => True end) cs ->
  exists l, log_steps good [(d_time s, d_value s)] cs l /\ repr (h_run finite s (map call_op cs)) l.
Proof.
  intro Hc. unfold h_run.
  assert (G : forall h l0, repr h l0 -> exists l, log_steps good l0 cs l /\
                  repr (fold_left (h_step finite) (map call_op cs) h) l).
  { induction Hc as [|c cs Hc Hcs IH]; intros h l0 Hr.
    - exists l0. split; [constructor|auto].
    - destruct (h_step_refines h l0 c Hr Hc) as [l1 [S1 R1]].
      destruct (IH _ _ R1) as [l2 [S2 R2]]. exists l2. split; auto. econstructor; eauto. }
  apply G. split; [reflexivity|]. split; [reflexivity|]. exists []. destruct s; reflexivity.
Qed.

(* invariants for arbitrary operation sequences, failing ones included *)
Lemma mask_length t times : forall values : list V, length times = length values ->
  length (filter (fun t' => Rltb t' t) times) = length (mask_values t times values).
Proof.
  induction times as [|a times IH]; destruct values as [|v values]; simpl; intro L; auto; try discriminate.
  destruct (Rltb a t); simpl; rewrite (IH values) by lia; reflexivity.
Qed.

Definition inv (h : hsol V) : Prop :=
  length (h_times h) = length (h_values h) /\
  increasing (h_times h) /\ (forall t, In t (h_times h) -> t <= d_time (h_sol h)).

Lemma increasing_snoc l t : increasing l -> (forall x, In x l -> x < t) -> increasing (l ++ [t]).
Proof.
  intros I H. induction I; simpl.
  - constructor.
  - constructor; [apply H; simpl; auto|constructor].
  - simpl in IHI. constructor; auto. apply IHI. intros x Hx. apply H. simpl in *. tauto.
Qed.

Lemma increasing_all a l : increasing (a :: l) -> forall x, In x l -> a < x.
Proof.
  revert a; induction l as [|b l IH]; intros a I x Hx; [destruct Hx|].
  inversion I; subst. destruct Hx as [->|Hx]; auto. specialize (IH _ H3 x Hx). lra.
Qed.
Lemma increasing_cons a l : increasing l -> (forall x, In x l -> a < x) -> increasing (a :: l).
Proof.
  intros I H. destruct l; constructor; auto. apply H; left; auto.
Qed.
Lemma increasing_tl a l : increasing (a :: l) -> increasing l.
Proof. intro I; inversion I; subst; auto. constructor. Qed.

Lemma increasing_filter P l : increasing l -> increasing (filter P l).
Proof.
  induction l as [|a l IH]; intro I; [constructor|].
  simpl. destruct (P a).
  - apply increasing_cons; [apply IH; eapply increasing_tl; eauto|].
    intros x Hx. apply filter_In in Hx as [Hx _]. eapply increasing_all; eauto.
  - apply IH; eapply increasing_tl; eauto.
Qed.

Definition positive_step (o : hop V) : Prop :=
  match o with Update dt _ => 0 < dt | SetValue _ _ => True end.

Lemma inv_step h o : positive_step o -> inv h -> inv (h_step finite h o).
Proof.
  intros Hp [I1 [I2 I3]]. destruct o as [dt v|v t]; simpl.
  - unfold h_update, d_update. destruct (finite v) eqn:F; simpl.
    + simpl in Hp. unfold inv; simpl. rewrite !app_length. simpl. split; [lia|]. split.
      * apply increasing_snoc; auto. intros x Hx. apply I3 in Hx. lra.
      * intros x Hx. apply in_app_iff in Hx as [Hx|[Hx|[]]]; [apply I3 in Hx; lra|lra].
    + unfold inv; simpl. auto.
  - assert (F2 : increasing (filter (fun t' => Rltb t' t) (h_times h))) by (apply increasing_filter; auto).
    unfold h_set_value, h_update, d_update; simpl. destruct (finite v) eqn:F; unfold inv; simpl.
    + rewrite !app_length, (mask_length t (h_times h) (h_values h)) by auto. split; [reflexivity|].
      replace (d_time (h_sol h) + (t - d_time (h_sol h))) with t by ring.
      assert (Q : forall x, In x (filter (fun t' => Rltb t' t) (h_times h)) -> x < t).
      { intros x Hx. apply filter_In in Hx as [_ Hx]. destruct (Rltb_spec x t); [auto|discriminate]. }
      split; [apply increasing_snoc; auto|].
      intros x Hx. apply in_app_iff in Hx as [Hx|[Hx|[]]]; [apply Q in Hx; lra|lra].
    + split; [apply mask_length; auto|]. split; auto.
      intros x Hx. apply filter_In in Hx as [Hx _]. auto.
Qed.

Lemma inv_run s ops : Forall positive_step ops -> inv (h_run finite s ops).
Proof.
  intro Hp. unfold h_run.
  assert (G : forall h, inv h -> inv (fold_left (h_step finite) ops h)).
  { induction Hp; intros h Hh; simpl; auto. apply IHHp. apply inv_step; auto. }
  apply G. unfold inv, h_new; simpl. split; [reflexivity|]. split; [constructor|].
  intros t [->|[]]. lra.
Qed.

Lemma lengths_run s ops : length (h_times (h_run finite s ops)) = length (h_values (h_run finite s ops)).
Proof.
  unfold h_run.
  assert (G : forall h : hsol V, length (h_times h) = length (h_values h) ->
     length (h_times (fold_left (h_step finite) ops h)) = length (h_values (fold_left (h_step finite) ops h))).
  { induction ops as [|o ops IH]; intros h Hh; simpl; auto. apply IH.
    destruct o as [dt v|v t]; simpl.
    - unfold h_update, d_update; destruct (finite v); simpl; rewrite ?app_length; simpl; auto.
    - unfold h_set_value, h_update, d_update; destruct (finite v); simpl; rewrite ?app_length; simpl;
        rewrite (mask_length t (h_times h) (h_values h)) by auto; auto. }
  apply G. reflexivity.
Qed.

Lemma diff_nth l : length (diff l) = (length l - 1)%nat /\
  forall i, (S i < length l)%nat -> nth i (diff l) 0 = nth (S i) l 0 - nth i l 0.
Proof.
  induction l as [|a l [IH1 IH2]]; simpl; [split; [auto|intros; lia]|].
  destruct l as [|b l]; [split; [auto|simpl; intros; lia]|].
  split.
  - cbn [length] in *. rewrite IH1. lia.
  - intros [|i] Hi; [reflexivity|].
    change (nth (S i) (b - a :: diff (b :: l)) 0) with (nth i (diff (b :: l)) 0).
    rewrite IH2 by (simpl in *; lia). reflexivity.
Qed.

Lemma d_run_last s ops : Forall (fun o => good (match o with Update _ v => v | SetValue v _ => v end)) ops ->
  d_run finite s ops =
  fold_left (fun s o => match o with Update dt v => {| d_time := d_time s + dt; d_value := v |}
                                   | SetValue v t => {| d_time := t; d_value := v |} end) ops s.
Proof.
  intro H. unfold d_run. revert s. induction H as [|o ops Ho H IH]; intro s; simpl; auto.
  rewrite IH. f_equal. destruct o as [dt v|v t]; simpl in *; unfold d_set_value, d_update; rewrite Ho; simpl; auto.
  f_equal. ring.
Qed.
End S.

Section Coarse.
Context {W : Type} `{CellLaws W} (finite : list W -> bool).

Definition crepr (d : nat) (h : chsol W) (l : list (R * list W)) : Prop :=
  ch_times h = map fst l /\
  Forall2 (fun e c => block_average d (snd e) c) l (ch_values h) /\
  exists l0, l = l0 ++ [(d_time (ch_sol h), d_value (ch_sol h))].

Lemma cmask_spec d t l cs : Forall2 (fun (e : R * list W) c => block_average d (snd e) c) l cs ->
  exists l1, keeps_before t l l1 /\
  filter (fun t' => Rltb t' t) (map fst l) = map fst l1 /\
  Forall2 (fun (e : R * list W) c => block_average d (snd e) c) l1 (mask_values t (map fst l) cs).
Proof.
  induction 1 as [|[t' v] c l cs Hc F [l1 [K [F1 M]]]].
  - exists []. repeat split; constructor.
  - simpl. destruct (Rltb_spec t' t).
    + exists ((t', v) :: l1). simpl. rewrite F1. repeat split; constructor; auto.
    + exists l1. rewrite F1. repeat split; auto. constructor; auto. simpl. lra.
Qed.

Lemma ch_step_refines d h l c :
  (0 < d)%nat -> crepr d h l ->
  (match c with CSetValue v _ => good finite v | _ => True end) ->
  (exists n, length (call_value c) = (n * d)%nat) ->
  exists l', log_step (good finite) l c l' /\ crepr d (ch_step finite d h (call_op c)) l'.
Proof.
  intros Hd [R1 [R2 [l0 R3]]] Hc Hn. destruct c as [dt v|v t]; simpl in *.
  - unfold ch_update, d_update. destruct (finite v) eqn:F; simpl.
    + destruct (proj1 (proj2 (coarsen_correct d v Hd)) Hn) as [c Ec]. rewrite Ec. simpl.
      exists (l ++ [(d_time (ch_sol h) + dt, v)]). split.
      * rewrite R3. constructor. exact F.
      * split; [simpl; rewrite R1, map_app; reflexivity|]. split.
        { simpl. apply Forall2_app; auto. constructor; [|constructor]. simpl.
          apply coarsen_ok_iff; auto. }
        exists l. reflexivity.
    + exists l. split; [constructor; unfold good; congruence|].
      split; [exact R1|]. split; [exact R2|]. exists l0; exact R3.
  - unfold ch_set_value, ch_update, d_update. simpl. unfold good in Hc. rewrite Hc. simpl.
    destruct (proj1 (proj2 (coarsen_correct d v Hd)) Hn) as [c Ec]. rewrite Ec. simpl.
    destruct (cmask_spec d t l _ R2) as [l1 [K [F M]]].
    exists (l1 ++ [(t, v)]). split; [constructor; auto|].
    replace (d_time (ch_sol h) + (t - d_time (ch_sol h))) with t by ring.
    split; [simpl; rewrite R1, F, map_app; reflexivity|]. split.
    + simpl. rewrite R1. apply Forall2_app; auto. constructor; [|constructor]. simpl.
      apply coarsen_ok_iff; auto.
    + exists l1. simpl. repeat f_equal; ring.
Qed.

Lemma ch_run_refines d s h0 cs :
  (0 < d)%nat -> ch_new d s = Ok h0 ->
  Forall (fun c => match c with CSetValue v _ => good finite v | _ => True end) cs ->
  Forall (fun c => exists n, length (call_value c) = (n * d)%nat) cs ->
  exists l, log_steps (good finite) [(d_time s, d_value s)] cs l /\
            crepr d (fold_left (ch_step finite d) (map call_op cs) h0) l.
Proof.
  intros Hd E Hc. 
  assert (G : forall h l0, crepr d h l0 ->
    Forall (fun c => exists n, length (call_value c) = (n * d)%nat) cs ->
    exists l, log_steps (good finite) l0 cs l /\
                  crepr d (fold_left (ch_step finite d) (map call_op cs) h) l).
  { clear E. induction Hc as [|c cs Hc Hcs IH]; intros h l0 Hr Hn.
    - exists l0. split; [constructor|auto].
    - inversion Hn; subst.
      destruct (ch_step_refines d h l0 c Hd Hr Hc) as [l1 [S1 R1]]; auto.
      destruct (IH _ _ R1) as [l2 [S2 R2]]; auto. exists l2. split; auto. econstructor; eauto. }
  intro Hn. apply G; auto. unfold ch_new in E.
  destruct (coarsen d (d_value s)) as [c|] eqn:Ec; [|discriminate]. inversion E; subst.
  split; [reflexivity|]. split.
  - simpl. constructor; [|constructor]. apply coarsen_ok_iff; auto.
  - exists []. destruct s; reflexivity.
Qed.
End Coarse.
