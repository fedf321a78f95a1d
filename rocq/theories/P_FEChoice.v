(** C56: the flux approximation; C58: the time integrator of the continuous Galerkin solver. *)
From Coq Require Import Reals List Lia Lra Arith Bool.
From Verif Require Import Prelude L_Prelude M_ODE S_ODE L_ODE M_FE M_FEChoice P_ODE.
Import ListNotations.
Open Scope R_scope.

(** * C58 *)
Theorem C58_integrator_fits_degree : forall p o, optimal_ode_solver p = Ok o -> has_order (tableau_of o) (p + 1).
Proof.
  intros p o E t Ht.
  do 8 (destruct p as [|p]; [try discriminate E; injection E as <-; cbn [tableau_of];
    first [apply (C16_heun_order_2 t); lia|apply (C16_ssp3_order_3 t); lia|apply (C16_rk8_order_8 t); lia]|]). discriminate E.
Qed.
Theorem C58_integrator_exists : forall p, (exists o, optimal_ode_solver p = Ok o) <-> (1 <= p <= 7)%nat.
Proof.
  intro p. split.
  - intros [o E]. do 8 (destruct p as [|p]; [try discriminate E; lia|]). discriminate E.
  - intro H. do 8 (destruct p as [|p]; [try lia; eexists; reflexivity|]). lia.
Qed.
(** The solver can be built for every degree it has an integrator for: false, only degrees 1 and 2 work. *)
Theorem C58_solver_can_be_built_refuted :
  (forall p, (exists o, cg_ode_solver p = Ok o) <-> (p = 1 \/ p = 2)%nat) /\
  (forall p, (3 <= p <= 7)%nat -> cg_ode_solver p = Err TypeError) /\
  (forall p, (p = 0 \/ 8 <= p)%nat -> cg_ode_solver p = Err KeyError).
Proof.
  split; [|split]; intro p.
  - split; [intros [o E]|intros [->| ->]; eexists; reflexivity]. do 8 (destruct p as [|p]; [try discriminate E; auto|]). discriminate E.
  - intro H. do 8 (destruct p as [|p]; [try lia; reflexivity|]). lia.
  - intro H. do 8 (destruct p as [|p]; [try lia; reflexivity|]). reflexivity.
Qed.
Example C58_ex : optimal_ode_solver 4 = Ok UseRK8 /\ cg_ode_solver 2 = Ok UseSSP3. Proof. split; reflexivity. Qed.

(** * C56 *)
(** calls one after another; the arrays are not modified *)
Fixpoint calls (f : R -> R) (memory : nat -> list R) (c : flux_cache) (ks : list nat) : list (result (list R)) :=
  match ks with
  | [] => []
  | k :: ks => let (c', r) := flux_cache_call f memory c k in r :: calls f memory c' ks
  end.
Lemma any_same u : forall v, length u = length v -> any_different u v = false -> u = v.
Proof.
  unfold any_different. induction u as [|x u IH]; intros [|y v] L E; try discriminate L; [reflexivity|]. cbn in E. apply orb_false_iff in E. destruct E as [A B].
  destruct (Reqb_spec x y); [|discriminate]. subst y. f_equal. apply IH; auto.
Qed.
Lemma any_same' u : any_different u u = false.
Proof. unfold any_different. induction u as [|x u IH]; [reflexivity|]. cbn. destruct (Reqb_spec x x); [exact IH|congruence]. Qed.
Lemma calls_cached f memory n : (forall k, length (memory k) = n) -> forall ks c j, fa_last c = Some j -> fa_value c = Some (map f (memory j)) ->
  calls f memory c ks = map (fun k => Ok (map f (memory k))) ks.
Proof.
  intro L. induction ks as [|k ks IH]; intros c j A B; [reflexivity|]. cbn [calls]. unfold flux_cache_call, differs. rewrite A.
  destruct (any_different (memory k) (memory j)) eqn:E.
  - cbn [map]. f_equal. apply (IH _ k); reflexivity.
  - apply any_same in E; [|rewrite !L; reflexivity]. rewrite B. cbn [map]. rewrite E. f_equal. apply (IH _ j); auto.
Qed.
(** Every call returns the flux of its argument if no array is modified and the first argument has a number that differs
    from the uninitialised one. *)
Theorem C56_flux_of_the_argument : forall f memory garbage n k ks,
  (forall k, length (memory k) = n) -> (exists x, In x (memory k) /\ x <> garbage) ->
  calls f memory (new_flux_cache garbage) (k :: ks) = map (fun k => Ok (map f (memory k))) (k :: ks).
Proof.
  intros f memory garbage n k ks L [x [Hx Hg]]. cbn [calls]. unfold flux_cache_call, differs. cbn [fa_last new_flux_cache fa_garbage].
  destruct (any_different (memory k) (repeat garbage (length (memory k)))) eqn:E.
  - cbn [map]. f_equal. apply (calls_cached f memory n L _ _ k); reflexivity.
  - apply any_same in E; [|rewrite repeat_length; reflexivity]. rewrite E in Hx. apply repeat_spec in Hx. contradiction.
Qed.
(** A constant vector that happens to equal the uninitialised number raises an AttributeError. *)
Theorem C56_first_call_refuted : forall f garbage n, exists memory, (forall k, length (memory k) = n) /\
  calls f memory (new_flux_cache garbage) [0%nat] = [Err AttributeError].
Proof.
  intros f garbage n. exists (fun _ => repeat garbage n). split; [intro; apply repeat_length|]. cbn [calls]. unfold flux_cache_call, differs. cbn [fa_last new_flux_cache fa_garbage fa_value].
  rewrite repeat_length, any_same'. reflexivity.
Qed.
(** An array modified in place between two calls gives the flux of its old values: the stored array is the argument itself. *)
Theorem C56_modified_in_place_refuted : forall (f : R -> R) garbage u u', length u = length u' -> (exists x, In x u /\ x <> garbage) -> map f u <> map f u' ->
  let (c, r) := flux_cache_call f (fun _ => u) (new_flux_cache garbage) 0 in
  r = Ok (map f u) /\ snd (flux_cache_call f (fun _ => u') c 0) = Ok (map f u) /\ snd (flux_cache_call f (fun _ => u') c 0) <> Ok (map f u').
Proof.
  intros f garbage u u' L [x [Hx Hg]] N. unfold flux_cache_call, differs. cbn [fa_last new_flux_cache fa_garbage].
  destruct (any_different u (repeat garbage (length u))) eqn:E.
  - cbn [fa_last fa_value]. rewrite any_same'. cbn [snd]. split; [reflexivity|]. split; [reflexivity|]. congruence.
  - apply any_same in E; [|rewrite repeat_length; reflexivity]. rewrite E in Hx. apply repeat_spec in Hx. contradiction.
Qed.
Example C56_ex : exists memory, (forall k : nat, length (memory k) = 2%nat) /\ (exists x, In x (memory 0%nat) /\ x <> 0) /\
  calls (fun u => 1 / 2 * u ^ 2) memory (new_flux_cache 0) [0; 1; 1; 0]%nat =
  [Ok [1 / 2 * 1 ^ 2; 1 / 2 * 2 ^ 2]; Ok [1 / 2 * 3 ^ 2; 1 / 2 * 2 ^ 2]; Ok [1 / 2 * 3 ^ 2; 1 / 2 * 2 ^ 2]; Ok [1 / 2 * 1 ^ 2; 1 / 2 * 2 ^ 2]].
Proof.
  exists (fun k => match k with O => [1; 2] | _ => [3; 2] end). assert (A : exists x, In x [1; 2] /\ x <> 0) by (exists 1; split; [left; reflexivity|lra]).
  split; [intros [|k]; reflexivity|]. split; [exact A|].
  exact (C56_flux_of_the_argument (fun u => 1 / 2 * u ^ 2) (fun k => match k with O => [1; 2] | _ => [3; 2] end) 0 2 0 [1; 1; 0]%nat (fun k => match k with O => eq_refl | S _ => eq_refl end) A).
Qed.
Print Assumptions C56_flux_of_the_argument.
Print Assumptions C56_first_call_refuted.
Print Assumptions C56_modified_in_place_refuted.
Print Assumptions C58_integrator_fits_degree.
Print Assumptions C58_integrator_exists.
Print Assumptions C58_solver_can_be_built_refuted.
