(** Shallow water fluxes node by node. *)
From Coq Require Import Reals List ZArith Arith Lia Lra Psatz Bool String.
From Verif Require Import Prelude L_Prelude M_Boundary S_Boundary L_Boundary M_Flux S_Flux L_Flux
  M_Neighbours L_Neighbours M_Scalar S_Scalar L_Scalar M_ODE S_ODE L_ODE M_ShallowWater S_ShallowWater L_ShallowWater L_SWRuns L_SWLow
  L_SWWater L_SWLake L_SWTotal S_Symmetry.
Import ListNotations.
Local Open Scope nat_scope.
Open Scope R_scope.
Notation length := List.length.
Notation z2 := (0, 0) (only parsing).

(** ** the bottom seen by the fluxes *)
Definition padded (b : bathymetry) (n : nat) (beta : nat -> R) : Prop :=
  exists p bt st, build_bathymetry b = Ok p /\ broadcast (S (S n)) (fst p) = Ok bt /\ broadcast (S n) (snd p) = Ok st /\
    (forall i, (i <= S n)%nat -> nth i bt 0 = beta i) /\ (forall i, (i <= n)%nat -> nth i st 0 = beta (S i) - beta i).

Lemma padded_exists b n : (1 <= n)%nat -> (forall l, b = BArray l -> length l = n) ->
  (forall l, b = BArray l -> is_constant l = Ok false) -> 
  forall l, b = BArray l ->
  padded b n (fun i => nth (Nat.min (i - 1) (n - 1)) l 0).
Proof.
  intros Hn HL HC l ->. specialize (HL l eq_refl). specialize (HC l eq_refl).
  unfold padded. cbn [build_bathymetry]. rewrite HC. cbn [bind].
  rewrite (pyget_0 l 0), (pyget_m1 l 0) by lia. cbn [bind].
  set (pad := nth 0 l 0 :: l ++ [nth (length l - 1) l 0]).
  assert (Lp : length pad = S (S (length l))) by (unfold pad; cbn; rewrite app_length; cbn; lia).
  exists (pad, diff pad), pad, (diff pad). cbn [fst snd]. split; auto.
  unfold broadcast. rewrite diff_length, Lp, HL. cbn [Nat.sub]. rewrite Nat.eqb_refl. 
  rewrite Nat.eqb_refl. split; auto. split; auto.
  assert (V : forall i, (i <= S n)%nat -> nth i pad 0 = nth (Nat.min (i - 1) (n - 1)) l 0).
  { intros i Hi. unfold pad. destruct i as [|i]; cbn [nth].
    - f_equal; lia.
    - destruct (Nat.eq_dec i n) as [->|].
      + rewrite app_nth2 by lia. rewrite HL, Nat.sub_diag. cbn [nth]. f_equal; lia.
      + rewrite app_nth1 by lia. f_equal; lia. }
  split; auto. intros i Hi. rewrite nth_diff by lia. rewrite !V by lia. reflexivity.
Qed.
Lemma padded_flat b n : (forall l, b = BArray l -> is_constant l = Ok true) -> padded b n (fun _ => 0).
Proof.
  intro HC. unfold padded. exists ([0], [0]).
  assert (E : build_bathymetry b = Ok ([0], [0])).
  { destruct b as [| |l]; auto. cbn [build_bathymetry]. rewrite (HC l eq_refl). reflexivity. }
  assert (B : forall m, exists x, broadcast m [0] = Ok x /\ forall i, nth i x 0 = 0).
  { intro m. unfold broadcast. destruct (Nat.eqb_spec (length [0]) m); eexists; (split; [reflexivity|]).
    - intros [|[|i]]; reflexivity.
    - intro i. apply nth_repeat0. }
  destruct (B (S (S n))) as [bt [E1 Z1]]. destruct (B (S n)) as [st [E2 Z2]].
  exists bt, st. repeat match goal with |- _ /\ _ => split end; auto. intros i Hi. rewrite Z2. ring.
Qed.

(** ** node laws *)
Definition node_law := state -> state -> R -> R -> result (state * state).
Definition nodewise_sw (b : bathymetry) (nf : nflux state) (G : node_law) : Prop :=
  nf_dim nf = 2%nat /\
  forall n x beta fl fr, (1 <= n)%nat -> padded b n beta ->
    (nf_call nf [tab (S n) x; tab (S n) (fun i => x (S i))] = Ok (fl, fr) <->
     length fl = S n /\ length fr = S n /\
     forall i, (i <= n)%nat -> G (x i) (x (S i)) (beta i) (beta (S i)) = Ok (nth i fl z2, nth i fr z2)).

Lemma two_point_iff (F : state -> state -> result state) n x y fl fr :
  nf_call (two_point F) [tab n x; tab n y] = Ok (fl, fr) <->
  fl = map copp fr /\ length fr = n /\ forall i, (i < n)%nat -> F (x i) (y i) = Ok (nth i fr z2).
Proof.
  cbn [two_point nf_call]. rewrite combine_tab. split.
  - intro E. inv_bind E. apply Ok_inj in E. injection E as <- <-.
    destruct (mapM_tab_inv _ _ _ _ z2 E0) as [Ea V]. split; [reflexivity|]. split; [rewrite Ea; apply tab_length|auto].
  - intros [-> [L V]]. rewrite (mapM_tab_ok _ n _ (fun i => nth i fr z2)) by (intros; apply V; auto).
    cbn [bind]. unfold vneg. do 2 f_equal; [f_equal|]; rewrite <- L; symmetry; apply list_tab.
Qed.

(** with_source adds the source to both sides *)
Definition add_source (g : R) (F : state -> state -> result state) : node_law := fun l r bl br =>
  bind (F l r) (fun f =>
  let src := (0, g / 2 * average (fst l) (fst r) * (br - bl)) in Ok (csub (copp f) src, csub f src)).

Lemma nth_map_copp (l : list state) i : (i < length l)%nat -> nth i (map copp l) z2 = copp (nth i l z2).
Proof. intro H. apply nth_map'. auto. Qed.
Lemma csub_cancel (a b s : state) : csub a s = csub b s -> a = b.
Proof.
  unfold csub, copp. cbn [cadd cscal RR_CellOps]. intro E. injection E as E1 E2. destruct a, b. cbn [fst snd] in *. f_equal; lra.
Qed.
Lemma csub_add (a s : state) : csub (cadd a s) s = a.
Proof. unfold csub, copp. cbn [cadd cscal RR_CellOps fst snd]. destruct a. cbn [fst snd]. f_equal; ring. Qed.

Lemma nodewise_source gravity b (nf0 nf : nflux state) F : nf_dim nf0 = 2%nat ->
  (forall a, nf_call nf0 a = nf_call (two_point F) a) ->
  with_source gravity b nf0 = Ok nf -> nodewise_sw b nf (add_source (py_or gravity default_gravity) F).
Proof.
  intros D C E. unfold with_source in E. inv_bind E. apply Ok_inj in E. subst nf. split; [exact D|].
  intros n x beta fl fr Hn [p [bt [st [B1 [B2 [B3 [B4 B5]]]]]]]. rewrite B1 in E0. apply Ok_inj in E0. subst a.
  cbn [nf_call]. unfold wrapped_call. rewrite C. set (g := py_or gravity default_gravity).
  rewrite (required_two _ 1) by (cbn; lia). cbn [bind nth Nat.sub].
  pose proof (broadcast_length _ _ _ B3) as Ls.
  assert (SR : source_term g (tab (S n) x) (tab (S n) (fun i => x (S i))) (snd p) =
    Ok (tab (S n) (fun i => (0, g / 2 * average (fst (x i)) (fst (x (S i))) * nth i st 0)))).
  { unfold source_term. rewrite tab_length, B3. cbn [bind]. rewrite combine_tab, (list_tab 0 st), Ls, map2_tab. f_equal.
    apply tab_ext. intros i Hi. cbn [fst snd]. rewrite nth_tab by auto. reflexivity. }
  set (src := fun i => (0, g / 2 * average (fst (x i)) (fst (x (S i))) * nth i st 0)) in *.
  assert (SE : forall i, (i <= n)%nat -> src i = (0, g / 2 * average (fst (x i)) (fst (x (S i))) * (beta (S i) - beta i))).
  { intros i Hi. unfold src. rewrite B5 by auto. reflexivity. }
  rewrite SR. split.
  - intro E. inv_bind E. destruct a as [f0 f1]. apply two_point_iff in E0 as [-> [L V]].
    cbn [bind fst snd] in E. apply Ok_inj in E. injection E as <- <-.
    rewrite !map2_length, map_length, tab_length, L, Nat.min_id. split; auto. split; auto.
    intros i Hi. unfold add_source. rewrite V by lia. cbn [bind]. rewrite <- SE by auto.
    rewrite !(nth_map2 _ _ _ i z2 z2) by (rewrite ?map_length, ?tab_length; lia).
    rewrite nth_map_copp, nth_tab by lia. reflexivity.
  - intros [L1 [L2 V]]. set (f := fun i => cadd (nth i fr z2) (src i)).
    assert (VF : forall i, (i <= n)%nat -> F (x i) (x (S i)) = Ok (f i) /\ nth i fl z2 = csub (copp (f i)) (src i)).
    { intros i Hi. specialize (V i Hi). unfold add_source in V. inv_bind V. rewrite <- SE in V by auto. apply Ok_inj in V. injection V as V1 V2.
      assert (a = f i). { apply (csub_cancel _ _ (src i)). unfold f. rewrite csub_add. auto. } subst a. auto. }
    assert (X : nf_call (two_point F) [tab (S n) x; tab (S n) (fun i => x (S i))] = Ok (map copp (tab (S n) f), tab (S n) f)).
    { apply two_point_iff. rewrite tab_length. split; auto. split; auto. intros i Hi. rewrite nth_tab by auto. apply VF. lia. }
    rewrite X. cbn [bind fst snd]. rewrite map_tab, !map2_tab. do 2 f_equal.
    + rewrite (list_tab z2 fl), L1. apply tab_ext. intros i Hi. symmetry. apply VF. lia.
    + rewrite (list_tab z2 fr), L2. apply tab_ext. intros i Hi. unfold f. apply csub_add.
Qed.

Definition low_law (gravity : option R) : node_law := fun l r bl br =>
  bind (low_at gravity l r (br - bl)) (fun o => Ok (lo_outl o, lo_outr o)).
Lemma nodewise_low gravity b nf : sw_low gravity b = Ok nf -> nodewise_sw b nf (low_law gravity).
Proof.
  intro E. unfold sw_low in E. inv_bind E. apply Ok_inj in E. subst nf. split; [reflexivity|].
  intros n x beta fl fr Hn [p [bt [st [B1 [B2 [B3 [B4 B5]]]]]]]. rewrite B1 in E0. apply Ok_inj in E0. subst a.
  cbn [nf_call low_call]. split.
  - intro E. inv_bind E. apply Ok_inj in E. injection E as <- <-.
    destruct (low_all_inv _ _ _ _ _ E0) as [st' [B3' [Ea V]]]. rewrite B3 in B3'. apply Ok_inj in B3'. subst st'.
    assert (La : length a = S n) by (rewrite Ea, tab_length; reflexivity). rewrite !map_length. split; auto. split; auto.
    intros i Hi. specialize (V i ltac:(lia)). unfold low_law. rewrite <- B5 by auto. rewrite V. cbn [bind].
    rewrite (nth_map' lo_outl _ _ low0), (nth_map' lo_outr _ _ low0) by lia. reflexivity.
  - intros [L1 [L2 V]].
    assert (VO : forall i, (i <= n)%nat -> exists o, low_at gravity (x i) (x (S i)) (nth i st 0) = Ok o /\ lo_outl o = nth i fl z2 /\ lo_outr o = nth i fr z2).
    { intros i Hi. specialize (V i Hi). unfold low_law in V. rewrite <- B5 in V by auto. inv_bind V. apply Ok_inj in V. injection V as V1 V2. eauto. }
    set (o := fun i => match low_at gravity (x i) (x (S i)) (nth i st 0) with Ok o => o | Err _ => low0 end).
    assert (W : forall i, (i <= n)%nat -> low_at gravity (x i) (x (S i)) (nth i st 0) = Ok (o i) /\ lo_outl (o i) = nth i fl z2 /\ lo_outr (o i) = nth i fr z2).
    { intros i Hi. destruct (VO i Hi) as [y [Y1 Y2]]. unfold o. rewrite Y1. auto. }
    rewrite (low_all_ok gravity (snd p) st (S n) x o B3) by (intros; apply W; lia). cbn [bind]. rewrite !map_tab. do 2 f_equal.
    + rewrite (list_tab z2 fl), L1. apply tab_ext. intros i Hi. apply W. lia.
    + rewrite (list_tab z2 fr), L2. apply tab_ext. intros i Hi. apply W. lia.
Qed.

Definition es1_law (g : R) : node_law := fun l r bl br => es1_at g l r bl br (br - bl).
Lemma nodewise_es1 gravity b nf : sw_es1 gravity b = Ok nf -> nodewise_sw b nf (es1_law (py_or gravity default_gravity)).
Proof.
  intro E. unfold sw_es1 in E. inv_bind E. apply Ok_inj in E. subst nf. split; [reflexivity|].
  intros n x beta fl fr Hn [p [bt [st [B1 [B2 [B3 [B4 B5]]]]]]]. rewrite B1 in E0. apply Ok_inj in E0. subst a.
  cbn [nf_call]. unfold es1_call. set (g := py_or gravity default_gravity). rewrite tab_length, B2, B3. cbn [bind].
  pose proof (broadcast_length _ _ _ B2) as Lb. pose proof (broadcast_length _ _ _ B3) as Ls.
  assert (X : combine (combine (tab (S n) x) (tab (S n) (fun i => x (S i)))) (combine (combine bt (tl bt)) st) =
    tab (S n) (fun i => ((x i, x (S i)), ((beta i, beta (S i)), beta (S i) - beta i)))).
  { assert (L : length (combine (combine bt (tl bt)) st) = S n) by (rewrite !combine_length, tl_length; lia).
    apply (list_ext ((z2, z2), ((0, 0), 0))).
    - rewrite combine_length, L, combine_length, !tab_length. lia.
    - intros i Hi. rewrite combine_length, L, combine_length, !tab_length in Hi.
      assert (Lt : length (tl bt) = S n) by (rewrite tl_length; lia).
      rewrite !nth_combine_lt by (rewrite ?combine_length, ?tab_length; lia). rewrite nth_tl.
      rewrite !nth_tab by lia. rewrite !B4, B5 by lia. reflexivity. }
  rewrite X. split.
  - intro E. inv_bind E. apply Ok_inj in E. injection E as <- <-.
    destruct (mapM_tab_inv _ _ _ _ (z2, z2) E0) as [Ea V].
    assert (La : length a = S n) by (rewrite Ea, tab_length; reflexivity). rewrite !map_length. split; auto. split; auto.
    intros i Hi. specialize (V i ltac:(lia)). cbn [fst snd] in V. unfold es1_law. rewrite V.
    rewrite (nth_map' fst _ _ (z2, z2)), (nth_map' snd _ _ (z2, z2)) by lia. destruct (nth i a (z2, z2)); reflexivity.
  - intros [L1 [L2 V]]. rewrite (mapM_tab_ok _ (S n) _ (fun i => (nth i fl z2, nth i fr z2))).
    2:{ intros i Hi. cbn [fst snd]. apply V. lia. }
    cbn [bind]. rewrite !map_tab. cbn [fst snd]. do 2 f_equal.
    + rewrite <- L1. symmetry. apply list_tab.
    + rewrite <- L2. symmetry. apply list_tab.
Qed.

Definition plain_law (F : state -> state -> result state) : node_law := fun l r bl br => bind (F l r) (fun f => Ok (copp f, f)).
Lemma nodewise_two_point b (nf : nflux state) F : nf_dim nf = 2%nat -> (forall a, nf_call nf a = nf_call (two_point F) a) ->
  nodewise_sw b nf (plain_law F).
Proof.
  intros D C. split; auto. intros n x beta fl fr Hn _. rewrite C, two_point_iff. unfold plain_law. split.
  - intros [-> [L V]]. rewrite map_length. split; auto. split; auto. intros i Hi. rewrite V by lia. cbn [bind].
    rewrite nth_map_copp by lia. reflexivity.
  - intros [L1 [L2 V]]. split; [|split; auto].
    + apply (list_ext z2); [rewrite map_length; lia|]. intros i Hi. rewrite nth_map_copp by lia. specialize (V i ltac:(lia)).
      inv_bind V. apply Ok_inj in V. injection V as V1 V2. rewrite <- V1, <- V2. reflexivity.
    + intros i Hi. specialize (V i ltac:(lia)). inv_bind V. apply Ok_inj in V. injection V as V1 V2. rewrite <- V2. auto.
Qed.

Definition sum_law (G1 G2 : node_law) : node_law := fun l r bl br =>
  bind (G1 l r bl br) (fun p => bind (G2 l r bl br) (fun q => Ok (cadd (fst p) (fst q), cadd (snd p) (snd q)))).
Lemma nodewise_corrected b nf fc G1 G2 : nodewise_sw b nf G1 -> nodewise_sw b fc G2 -> nodewise_sw b (corrected nf fc) (sum_law G1 G2).
Proof.
  intros [D1 N1] [D2 N2]. split; [cbn; rewrite D1, D2; reflexivity|]. intros n x beta fl fr Hn P.
  cbn [corrected nf_call arbitrary_input]. rewrite D1, D2. rewrite (required_two _ 1) by (cbn; lia). cbn [bind nth Nat.sub]. split.
  - intro E. inv_bind E. destruct a as [f1 f2]. inv_bind E. destruct a as [f3 f4]. apply Ok_inj in E. injection E as <- <-.
    apply (N1 n x beta _ _ Hn P) in E0 as [L1 [L2 V1]]. apply (N2 n x beta _ _ Hn P) in E1 as [L3 [L4 V2]]. cbn [fst snd].
    rewrite !map2_length, L1, L2, L3, L4, Nat.min_id. split; auto. split; auto. intros i Hi. unfold sum_law. rewrite V1, V2 by auto. cbn [bind fst snd].
    rewrite !(nth_map2 _ _ _ i z2 z2) by lia. reflexivity.
  - intros [L1 [L2 V]].
    set (p1 := fun i => match G1 (x i) (x (S i)) (beta i) (beta (S i)) with Ok p => p | Err _ => (z2, z2) end).
    set (p2 := fun i => match G2 (x i) (x (S i)) (beta i) (beta (S i)) with Ok p => p | Err _ => (z2, z2) end).
    assert (W : forall i, (i <= n)%nat -> G1 (x i) (x (S i)) (beta i) (beta (S i)) = Ok (p1 i) /\
      G2 (x i) (x (S i)) (beta i) (beta (S i)) = Ok (p2 i) /\ nth i fl z2 = cadd (fst (p1 i)) (fst (p2 i)) /\ nth i fr z2 = cadd (snd (p1 i)) (snd (p2 i))).
    { intros i Hi. specialize (V i Hi). unfold sum_law in V. inv_bind V. inv_bind V. apply Ok_inj in V. injection V as V1 V2.
      unfold p1, p2. rewrite E, E0. auto. }
    assert (C1 : nf_call nf [tab (S n) x; tab (S n) (fun i => x (S i))] = Ok (tab (S n) (fun i => fst (p1 i)), tab (S n) (fun i => snd (p1 i)))).
    { apply (N1 n x beta _ _ Hn P). rewrite !tab_length. split; auto. split; auto. intros i Hi. rewrite !nth_tab by lia.
      rewrite <- surjective_pairing. apply W. auto. }
    assert (C2 : nf_call fc [tab (S n) x; tab (S n) (fun i => x (S i))] = Ok (tab (S n) (fun i => fst (p2 i)), tab (S n) (fun i => snd (p2 i)))).
    { apply (N2 n x beta _ _ Hn P). rewrite !tab_length. split; auto. split; auto. intros i Hi. rewrite !nth_tab by lia.
      rewrite <- surjective_pairing. apply W. auto. }
    rewrite C1, C2. cbn [bind fst snd]. rewrite !map2_tab. do 2 f_equal.
    + rewrite (list_tab z2 fl), L1. apply tab_ext. intros i Hi. symmetry. apply W. lia.
    + rewrite (list_tab z2 fr), L2. apply tab_ext. intros i Hi. symmetry. apply W. lia.
Qed.
