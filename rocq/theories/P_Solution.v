(** C06 - C08: core/discrete_solution.py *)
From Coq Require Import Reals List Lia Lra Arith Bool.
From Verif Require Import Prelude L_Prelude M_Coarsener S_Coarsener L_Coarsener M_Solution S_Solution L_Solution.
Import ListNotations.
Open Scope R_scope.

(** C06: after any calls (updates accepted or rejected, set_value with finite
    values) the history is the specified log and time/value are its last entry. *)
Theorem C06_history_refines_log :
  forall (V : Type) (finite : V -> bool) (s : dsol V) (cs : list (call V)),
  Forall (fun c => match c with CSetValue v _ => finite v = true | _ => True end) cs ->
  exists l, log_steps (fun v => finite v = true) [(d_time s, d_value s)] cs l /\
    let h := h_run finite s (map call_op cs) in
    h_times h = map fst l /\ h_values h = map snd l /\
    exists l0, l = l0 ++ [(d_time (h_sol h), d_value (h_sol h))].
Proof. intros V finite s cs Hc. exact (h_run_refines finite s cs Hc). Qed.
Print Assumptions C06_history_refines_log.

(** C06: for every sequence of calls whatsoever, times and values match up. *)
Theorem C06_history_lengths_agree :
  forall (V : Type) (finite : V -> bool) (s : dsol V) (ops : list (hop V)),
  length (h_times (h_run finite s ops)) = length (h_values (h_run finite s ops)).
Proof. intros; apply lengths_run. Qed.
Print Assumptions C06_history_lengths_agree.

(** C06: with positive steps the history is strictly increasing and nothing in
    it is later than the current time (failing calls included). *)
Theorem C06_history_times_increase :
  forall (V : Type) (finite : V -> bool) (s : dsol V) (ops : list (hop V)),
  Forall (fun o => match o with Update dt _ => 0 < dt | SetValue _ _ => True end) ops ->
  let h := h_run finite s ops in
  increasing (h_times h) /\ (forall t, In t (h_times h) -> t <= d_time (h_sol h)).
Proof.
  intros V finite s ops H. pose proof (inv_run finite s ops H) as [_ I]. exact I.
Qed.
Print Assumptions C06_history_times_increase.

(** C06: time_step_history holds the differences of consecutive times. *)
Theorem C06_time_steps_are_differences :
  forall (V : Type) (h : hsol V),
  length (h_time_steps h) = (length (h_times h) - 1)%nat /\
  forall i, (S i < length (h_times h))%nat ->
    nth i (h_time_steps h) 0 = nth (S i) (h_times h) 0 - nth i (h_times h) 0.
Proof. intros; apply diff_nth. Qed.
Print Assumptions C06_time_steps_are_differences.

(** C06: a non finite value is rejected and nothing changes. *)
Theorem C06_rejected_update_changes_nothing :
  forall (V : Type) (finite : V -> bool) (h : hsol V) (dt : R) (v : V),
  (finite v = false -> h_update finite dt v h = (h, Some ValueError)) /\
  (finite v = true -> exists h', h_update finite dt v h = (h', None) /\
     d_time (h_sol h') = d_time (h_sol h) + dt /\ d_value (h_sol h') = v).
Proof.
  intros V finite h dt v. unfold h_update, d_update.
  destruct (finite v); split; intro E; try discriminate.
  - eexists; split; [reflexivity|]; auto.
  - destruct h; reflexivity.
Qed.
Print Assumptions C06_rejected_update_changes_nothing.

Example C06_ex :
  let finite := fun v : option R => match v with Some _ => true | None => false end in
  let h := h_run finite {| d_time := 0; d_value := Some 5 |}
             [Update 1 (Some 6); Update 1 None; Update 2 (Some 7)] in
  h_times h = [0; 0 + 1; 0 + 1 + 2] /\ h_values h = [Some 5; Some 6; Some 7].
Proof. split; reflexivity. Qed.

(** C07: set_value with a finite value keeps exactly the earlier entries and
    appends the new one. *)
Theorem C07_set_value_rewinds_partial :
  forall (V : Type) (finite : V -> bool) (h : hsol V) (l : list (R * V)) (v : V) (t : R),
  h_times h = map fst l -> h_values h = map snd l -> finite v = true ->
  exists h' l1, h_set_value finite v t h = (h', None) /\
    keeps_before t l l1 /\
    h_times h' = map fst (l1 ++ [(t, v)]) /\ h_values h' = map snd (l1 ++ [(t, v)]) /\
    d_time (h_sol h') = t /\ d_value (h_sol h') = v.
Proof.
  intros V finite h l v t H1 H2 F. destruct (mask_spec t l) as [l1 [K [F1 M]]].
  unfold h_set_value, h_update, d_update; simpl. rewrite F.
  eexists. exists l1. split; [reflexivity|]. simpl. rewrite H1, H2, F1, M, !map_app. simpl.
  replace (d_time (h_sol h) + (t - d_time (h_sol h))) with t by ring. auto.
Qed.
Print Assumptions C07_set_value_rewinds_partial.

(** C07, finding: a rejected set_value does not leave the history alone: it is
    truncated although the call raised and time/value are unchanged. *)
Theorem C07_rejected_set_value_truncates_refuted :
  exists (h : hsol (option R)) (v : option R) (t : R) h',
  let finite := fun v : option R => match v with Some _ => true | None => false end in
  h_set_value finite v t h = (h', Some ValueError) /\
  d_time (h_sol h') = 3 /\ h_times h = [0; 1; 3] /\ h_times h' = [0] /\ h_values h' = [Some 5].
Proof.
  exists {| h_sol := {| d_time := 3; d_value := Some 7 |};
            h_times := [0; 1; 3]; h_values := [Some 5; Some 6; Some 7] |}, None, 1.
  eexists. unfold h_set_value, h_update, d_update; simpl.
  rewrite (Rltb_true 0 1), (Rltb_false 1 1), (Rltb_false 3 1) by lra.
  split; [reflexivity|]. auto.
Qed.
Print Assumptions C07_rejected_set_value_truncates_refuted.

(** C08: the coarse solution's value is the block average of the last accepted
    fine value, whatever calls (through either object; both act on the wrapped
    solution) were made. *)
Theorem C08_coarse_value_follows_fine {W : Type} `{CellLaws W} :
  forall (finite : list W -> bool) (d : nat) (s : dsol (list W)) (ops : list (hop (list W))),
  (0 < d)%nat ->
  Forall (fun o => finite (match o with Update _ v => v | SetValue v _ => v end) = true) ops ->
  let s' := d_run finite s ops in
  (* the wrapped solution holds the value given last ... *)
  (match rev ops with
   | Update _ v :: _ => d_value s' = v
   | SetValue v t :: _ => d_value s' = v /\ d_time s' = t
   | [] => s' = s
   end) /\
  (* ... and the coarse view is its block average *)
  (forall c, cs_value d s' = Ok c <-> block_average d (d_value s') c) /\
  cs_time s' = d_time s'.
Proof.
  intros finite d s ops Hd Hf s'. split; [|split; [|reflexivity]].
  - unfold s'. rewrite d_run_last by exact Hf. destruct (rev ops) as [|o r] eqn:E.
    + apply (f_equal (@rev _)) in E. rewrite rev_involutive in E. subst; reflexivity.
    + apply (f_equal (@rev _)) in E. rewrite rev_involutive in E. simpl in E.
      rewrite E, fold_left_app. simpl. destruct o; simpl; auto.
  - intro c. unfold cs_value. apply coarsen_ok_iff; auto.
Qed.
Print Assumptions C08_coarse_value_follows_fine.

(** C08: the coarse history is the log of the fine values, block averaged. *)
Theorem C08_coarse_history_is_block_average_of_log {W : Type} `{CellLaws W} :
  forall (finite : list W -> bool) (d : nat) (s : dsol (list W)) (h0 : chsol W)
         (cs : list (call (list W))),
  (0 < d)%nat -> ch_new d s = Ok h0 ->
  Forall (fun c => match c with CSetValue v _ => finite v = true | _ => True end) cs ->
  Forall (fun c => exists n, length (call_value c) = (n * d)%nat) cs ->
  exists l, log_steps (fun v => finite v = true) [(d_time s, d_value s)] cs l /\
    let h := fold_left (ch_step finite d) (map call_op cs) h0 in
    ch_times h = map fst l /\
    Forall2 (fun e c => block_average d (snd e) c) l (ch_values h) /\
    exists l0, l = l0 ++ [(d_time (ch_sol h), d_value (ch_sol h))].
Proof. intros; eapply ch_run_refines; eauto. Qed.
Print Assumptions C08_coarse_history_is_block_average_of_log.

Example C08_ex : exists h0, ch_new 2 {| d_time := 0; d_value := [2; 4; 6; 8] |} = Ok h0
                         /\ ch_values h0 = [[3; 7]].
Proof.
  assert (E : coarsen 2 [2; 4; 6; 8] = Ok [3; 7]).
  { apply coarsen_ok_iff; [lia|]. split; [reflexivity|].
    intros [|[|i]] k Hi; simpl in Hi; try lia; unfold tab; simpl; lra. }
  unfold ch_new. simpl d_value. rewrite E. simpl. eexists; split; reflexivity.
Qed.
