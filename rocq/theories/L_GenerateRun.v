(** Lemmas for generate-data: fluxes over a flat bottom act on the nodes one by one, whatever arrays they are given. *)
From Coq Require Import Reals List ZArith Arith Lia Lra Bool String.
From Verif Require Import Prelude L_Prelude M_Mesh L_Mesh M_Quadrature S_Quadrature M_Interpolate M_Boundary S_Boundary L_Boundary M_Flux S_Flux L_Flux
  M_ODE S_ODE L_ODE M_TimeStepping L_TimeStepping M_Coarsener S_Coarsener L_Coarsener M_Solution L_Solution M_Solver S_Solver L_Solver M_Generate S_Generate L_Generate
  M_Scalar L_Scalar M_ShallowWater S_ShallowWater L_ShallowWater L_SWRuns L_SWLow L_SWWater L_SWLake L_SWTotal S_Symmetry L_SWNodes L_SWMirror
  M_FVSolver S_FVSolver L_SWWide L_FVSolver P_Quadrature P_Gauss P_Interpolate P_ShallowWater P_FVWater P_FVReduced.
Import ListNotations.
Local Open Scope nat_scope.
Open Scope R_scope.
Notation length := List.length.
Notation z2 := (0, 0) (only parsing).

Definition flatwise (nf : nflux state) (G : node_law) : Prop :=
  nf_dim nf = 2%nat /\ forall n x y fl fr,
    (nf_call nf [tab n x; tab n y] = Ok (fl, fr) <->
     length fl = n /\ length fr = n /\ forall i, (i < n)%nat -> G (x i) (y i) 0 0 = Ok (nth i fl z2, nth i fr z2)).

Lemma broadcast_zero n : exists l, broadcast n [0] = Ok l /\ length l = n /\ forall i, nth i l 0 = 0.
Proof.
  unfold broadcast. destruct (Nat.eqb_spec (length [0]) n) as [E|E]; eexists; (split; [reflexivity|]).
  - split; [exact E|]. intros [|[|i]]; reflexivity.
  - split; [apply repeat_length|]. intro i. apply nth_repeat0.
Qed.

Lemma flatwise_source gravity b (nf0 nf : nflux state) F : nf_dim nf0 = 2%nat -> (forall a, nf_call nf0 a = nf_call (two_point F) a) ->
  build_bathymetry b = Ok ([0], [0]) -> with_source gravity b nf0 = Ok nf -> flatwise nf (add_source (py_or gravity default_gravity) F).
Proof.
  intros D C B E. unfold with_source in E. rewrite B in E. cbn [bind snd] in E. apply Ok_inj in E. subst nf. split; [exact D|]. intros n x y fl fr.
  cbn [nf_call]. unfold wrapped_call. rewrite C. set (g := py_or gravity default_gravity). rewrite (required_two _ 1) by (cbn; lia). cbn [bind nth Nat.sub].
  destruct (broadcast_zero n) as [st [Es [Ls Z]]].
  set (src := fun i => (0, g / 2 * average (fst (x i)) (fst (y i)) * (0 - 0))).
  assert (SR : source_term g (tab n x) (tab n y) [0] = Ok (tab n src)).
  { unfold source_term. rewrite tab_length, Es. cbn [bind]. rewrite combine_tab, (list_tab 0 st), Ls, map2_tab. f_equal.
    apply tab_ext. intros i Hi. cbn [fst snd]. rewrite Z. unfold src. do 2 f_equal. ring. }
  rewrite SR. split.
  - intro E. inv_bind E. destruct a as [f0 f1]. apply two_point_iff in E0 as [-> [L V]].
    cbn [bind fst snd] in E. apply Ok_inj in E. injection E as <- <-.
    rewrite !map2_length, map_length, tab_length, L, Nat.min_id. split; auto. split; auto.
    intros i Hi. unfold add_source. rewrite V by lia. cbn [bind].
    rewrite !(nth_map2 _ _ _ i z2 z2) by (rewrite ?map_length, ?tab_length; lia).
    rewrite nth_map_copp, nth_tab by lia. reflexivity.
  - intros [L1 [L2 V]]. set (f := fun i => cadd (nth i fr z2) (src i)).
    assert (VF : forall i, (i < n)%nat -> F (x i) (y i) = Ok (f i) /\ nth i fl z2 = csub (copp (f i)) (src i)).
    { intros i Hi. specialize (V i Hi). unfold add_source in V. inv_bind V. apply Ok_inj in V. injection V as V1 V2.
      assert (a = f i). { apply (csub_cancel _ _ (src i)). unfold f. rewrite csub_add. auto. } subst a. auto. }
    assert (X : nf_call (two_point F) [tab n x; tab n y] = Ok (map copp (tab n f), tab n f)).
    { apply two_point_iff. rewrite tab_length. split; auto. split; auto. intros i Hi. rewrite nth_tab by auto. apply VF. lia. }
    rewrite X. cbn [bind fst snd]. rewrite map_tab, !map2_tab. do 2 f_equal.
    + rewrite (list_tab z2 fl), L1. apply tab_ext. intros i Hi. symmetry. apply VF. lia.
    + rewrite (list_tab z2 fr), L2. apply tab_ext. intros i Hi. unfold f. apply csub_add.
Qed.
Lemma flatwise_low gravity b nf : build_bathymetry b = Ok ([0], [0]) -> sw_low gravity b = Ok nf -> flatwise nf (low_law gravity).
Proof.
  intros B E. unfold sw_low in E. rewrite B in E. cbn [bind snd] in E. apply Ok_inj in E. subst nf. split; [reflexivity|]. intros n x y fl fr.
  cbn [nf_call low_call]. unfold low_all. rewrite tab_length. destruct (broadcast_zero n) as [st [Es [Ls Z]]]. rewrite Es. cbn [bind].
  rewrite combine_tab, (list_tab 0 st), Ls, combine_tab.
  replace (tab n (fun i => (x i, y i, nth i st 0))) with (tab n (fun i => (x i, y i, 0 - 0))) by (apply tab_ext; intros; rewrite Z; f_equal; ring).
  split.
  - intro E. inv_bind E. apply Ok_inj in E. injection E as <- <-. destruct (mapM_tab_inv _ _ _ _ low0 E0) as [Ea V].
    assert (La : length a = n) by (rewrite Ea, tab_length; reflexivity). rewrite !map_length. split; auto. split; auto.
    intros i Hi. specialize (V i Hi). cbn [fst snd] in V. unfold low_law. rewrite V. cbn [bind].
    rewrite (nth_map' lo_outl _ _ low0), (nth_map' lo_outr _ _ low0) by lia. reflexivity.
  - intros [L1 [L2 V]].
    set (o := fun i => match low_at gravity (x i) (y i) (0 - 0) with Ok o => o | Err _ => low0 end).
    assert (W : forall i, (i < n)%nat -> low_at gravity (x i) (y i) (0 - 0) = Ok (o i) /\ lo_outl (o i) = nth i fl z2 /\ lo_outr (o i) = nth i fr z2).
    { intros i Hi. specialize (V i Hi). unfold low_law in V. inv_bind V. apply Ok_inj in V. injection V as V1 V2. unfold o. rewrite E. auto. }
    rewrite (mapM_tab_ok _ n _ o) by (intros i Hi; cbn [fst snd]; apply W; auto). cbn [bind]. rewrite !map_tab. do 2 f_equal.
    + rewrite (list_tab z2 fl), L1. apply tab_ext. intros i Hi. apply W. lia.
    + rewrite (list_tab z2 fr), L2. apply tab_ext. intros i Hi. apply W. lia.
Qed.
Lemma flatwise_es1 gravity b nf : build_bathymetry b = Ok ([0], [0]) -> sw_es1 gravity b = Ok nf -> flatwise nf (es1_law (py_or gravity default_gravity)).
Proof.
  intros B E. unfold sw_es1 in E. rewrite B in E. cbn [bind fst snd] in E. apply Ok_inj in E. subst nf. split; [reflexivity|]. intros n x y fl fr.
  cbn [nf_call]. unfold es1_call. set (g := py_or gravity default_gravity). rewrite tab_length.
  destruct (broadcast_zero n) as [st [Es [Ls Z]]]. destruct (broadcast_zero (S n)) as [bt [Eb [Lb Zb]]]. rewrite Es, Eb. cbn [bind].
  assert (X : combine (combine (tab n x) (tab n y)) (combine (combine bt (tl bt)) st) = tab n (fun i => ((x i, y i), ((0, 0), 0 - 0)))).
  { assert (Lt : length (tl bt) = n) by (rewrite tl_length; lia).
    assert (L : length (combine (combine bt (tl bt)) st) = n) by (rewrite !combine_length; lia).
    apply (list_ext ((z2, z2), ((0, 0), 0))).
    - rewrite combine_length, L, combine_length, !tab_length. lia.
    - intros i Hi. rewrite combine_length, L, combine_length, !tab_length in Hi.
      rewrite !nth_combine_lt by (rewrite ?combine_length, ?tab_length; lia). rewrite nth_tl.
      rewrite !nth_tab by lia. rewrite !Zb, Z. do 2 f_equal. ring. }
  rewrite X. split.
  - intro E. inv_bind E. apply Ok_inj in E. injection E as <- <-.
    destruct (mapM_tab_inv _ _ _ _ (z2, z2) E0) as [Ea V].
    assert (La : length a = n) by (rewrite Ea, tab_length; reflexivity). rewrite !map_length. split; auto. split; auto.
    intros i Hi. specialize (V i Hi). cbn [fst snd] in V. unfold es1_law. rewrite V.
    rewrite (nth_map' fst _ _ (z2, z2)), (nth_map' snd _ _ (z2, z2)) by lia. destruct (nth i a (z2, z2)); reflexivity.
  - intros [L1 [L2 V]]. rewrite (mapM_tab_ok _ n _ (fun i => (nth i fl z2, nth i fr z2))).
    2:{ intros i Hi. cbn [fst snd]. apply V. lia. }
    cbn [bind]. rewrite !map_tab. cbn [fst snd]. do 2 f_equal.
    + rewrite <- L1. symmetry. apply list_tab.
    + rewrite <- L2. symmetry. apply list_tab.
Qed.

Lemma flat_build k n : (1 <= n)%nat -> build_bathymetry (BArray (repeat k n)) = Ok ([0], [0]).
Proof.
  intro Hn. destruct n as [|n]; [lia|]. cbn [build_bathymetry repeat is_constant bind].
  replace (forallb (fun x => Rltb (Rabs (x - k)) epsilon) (k :: repeat k n)) with true; [reflexivity|].
  symmetry. apply forallb_forall. intros x Hx. assert (x = k) by (change (k :: repeat k n) with (repeat k (S n)) in Hx; apply (repeat_spec _ _ _ Hx)). subst x.
  apply Rltb_true. rewrite Rminus_diag_eq, Rabs_R0 by auto. unfold epsilon. lra.
Qed.

(** the fluxes of the simple solvers *)
Definition simple_getter (g : getter) : Prop := In g [GLow; GCentral; GLLF; GES; GES1].
Lemma simple_law g gravity : simple_getter g -> 0 < gravity -> exists G, wet_law G /\
  forall eig b m nf k, eig2_works eig -> ia (bm_domain b) < ib (bm_domain b) -> (1 <= m_len m)%nat -> bm_gravity b = gravity -> (forall x, bm_bottom b x = k) ->
    get_flux eig g b m BNone = Ok nf -> flatwise nf G.
Proof.
  intros Hg Hpos. assert (Hp : 0 < py_or (Some gravity) default_gravity) by (cbn; destruct (Reqb_spec gravity 0); lra).
  assert (FB : forall eig b m k, eig2_works eig -> ia (bm_domain b) < ib (bm_domain b) -> (1 <= m_len m)%nat -> (forall x, bm_bottom b x = k) ->
     forall (f : bathymetry -> result (nflux state)) nf, bind (bathymetry_or BNone (discrete_bottom eig b (m_len m))) f = Ok nf -> exists l, build_bathymetry (BArray l) = Ok ([0], [0]) /\ f (BArray l) = Ok nf).
  { intros eig b m k HE HD Hm HB f nf E. cbn [bathymetry_or] in E. inv_bind E. inv_bind E0. apply Ok_inj in E0. subst a.
    unfold discrete_bottom in E1. inv_bind E1. rewrite (constant_averages eig _ _ _ _ k HE Hm HD E0 HB) in E1. apply Ok_inj in E1. subst a0.
    exists (repeat k (m_len m)). split; [apply flat_build; auto|exact E]. }
  destruct Hg as [<-|[<-|[<-|[<-|[<-|[]]]]]]; cbn [get_flux].
  - exists (low_law (Some gravity)). split; [apply wet_low; auto|]. intros eig b m nf k HE HD Hm Eg HB E. rewrite Eg in E.
    destruct (FB _ _ _ _ HE HD Hm HB _ _ E) as [l [Bl El]]. eapply flatwise_low; eauto.
  - eexists. split; [apply (wet_source (py_or (Some gravity) default_gravity)), (wet_central (Some gravity)); auto|]. intros eig b m nf k HE HD Hm Eg HB E. rewrite Eg in E.
    destruct (FB _ _ _ _ HE HD Hm HB _ _ E) as [l [Bl El]]. unfold sw_central in El. eapply flatwise_source; [| |exact Bl|exact El]; [reflexivity|intro; reflexivity].
  - eexists. split; [apply (wet_source (py_or (Some gravity) default_gravity)), (wet_llf (Some gravity)); auto|]. intros eig b m nf k HE HD Hm Eg HB E. rewrite Eg in E.
    destruct (FB _ _ _ _ HE HD Hm HB _ _ E) as [l [Bl El]]. unfold sw_llf in El. eapply flatwise_source; [| |exact Bl|exact El]; [reflexivity|]. intro a. apply lax_friedrichs_two_point.
  - eexists. split; [apply (wet_source (py_or (Some gravity) default_gravity)), (wet_es (Some gravity)); auto|]. intros eig b m nf k HE HD Hm Eg HB E. rewrite Eg in E.
    destruct (FB _ _ _ _ HE HD Hm HB _ _ E) as [l [Bl El]]. unfold sw_es in El. eapply flatwise_source; [| |exact Bl|exact El]; [reflexivity|intro; reflexivity].
  - exists (es1_law (py_or (Some gravity) default_gravity)). split; [apply wet_es1; auto|]. intros eig b m nf k HE HD Hm Eg HB E. rewrite Eg in E.
    destruct (FB _ _ _ _ HE HD Hm HB _ _ E) as [l [Bl El]]. eapply flatwise_es1; eauto.
Qed.

Definition pair_law (G : node_law) (l : list state) : result (state * state) := match l with [x; y] => G x y 0 0 | _ => Err TypeError end.
Lemma flatwise_nodewise nf G : flatwise nf G -> nodewise nf (pair_law G).
Proof.
  intros [D C] a m fl fr La Fa E. rewrite D in La. destruct a as [|x [|y [|? ?]]]; try (cbn in La; lia).
  rewrite Forall_forall in Fa. assert (Lx : length x = m) by (apply Fa; left; auto). assert (Ly : length y = m) by (apply Fa; right; left; auto).
  rewrite (list_tab z2 x), (list_tab z2 y), Lx, Ly in E. apply C in E as [L1 [L2 V]]. split; [exact L1|]. split; [exact L2|].
  intros i Hi. cbn [map pair_law]. apply V. exact Hi.
Qed.
Lemma flatwise_ok nf G a m : flatwise nf G -> wet_law G -> length a = 2%nat -> Forall (fun v => length v = m) a ->
  (forall v x, In v a -> In x v -> 0 < fst x) -> exists fl fr, nf_call nf a = Ok (fl, fr) /\ length fl = m /\ length fr = m.
Proof.
  intros [D C] Wl La Fa H. destruct a as [|x [|y [|? ?]]]; try (cbn in La; lia).
  rewrite Forall_forall in Fa. assert (Lx : length x = m) by (apply Fa; left; auto). assert (Ly : length y = m) by (apply Fa; right; left; auto).
  set (o := fun i => match G (nth i x z2) (nth i y z2) 0 0 with Ok p => p | Err _ => (z2, z2) end).
  exists (tab m (fun i => fst (o i))), (tab m (fun i => snd (o i))). split; [|rewrite !tab_length; auto].
  rewrite (list_tab z2 x), (list_tab z2 y), Lx, Ly. apply C. rewrite !tab_length. split; auto. split; auto.
  intros i Hi. rewrite !nth_tab by auto. destruct (Wl (nth i x z2) (nth i y z2) 0 0) as [p E].
  - apply (H x); [left; auto|apply nth_In; lia].
  - apply (H y); [right; left; auto|apply nth_In; lia].
  - unfold o. rewrite E. destruct p; reflexivity.
Qed.

(** a history of updates *)
Lemma history_of_updates (s : dsol (list state)) vs : h_values (h_run (fun _ => true) s (map (Update 0) vs)) = d_value s :: vs.
Proof.
  unfold h_run. assert (X : forall K : hsol (list state), h_values (fold_left (h_step (fun _ => true)) (map (Update 0) vs) K) = h_values K ++ vs).
  { induction vs as [|v vs IH]; intro K; cbn [map fold_left]; [rewrite app_nil_r; reflexivity|]. rewrite IH.
    cbn [h_step]. unfold h_update, d_update. cbn. rewrite <- app_assoc. reflexivity. }
  rewrite X. reflexivity.
Qed.
