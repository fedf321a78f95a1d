(** Fluxes with more than two arguments (solvers with networks): conservation of water. *)
From Coq Require Import Reals List ZArith Arith Lia Lra Psatz Bool String.
From Verif Require Import Prelude L_Prelude M_Boundary S_Boundary L_Boundary M_Flux S_Flux L_Flux
  M_Neighbours L_Neighbours M_Scalar S_Scalar L_Scalar M_ODE S_ODE L_ODE M_Generate M_ShallowWater S_ShallowWater L_ShallowWater L_SWRuns L_SWLow L_SWWater M_FVSolver.
Import ListNotations.
Local Open Scope nat_scope.
Open Scope R_scope.
Notation length := List.length.

Definition wide_args (n k : nat) (a : list (list state)) : Prop :=
  length a = (2 * k)%nat /\ forall v, In v a -> length v = S n /\ nth 0 v z2 = nth n v z2.
Definition wide_at (n : nat) (fl fr : list state) : Prop :=
  length fl = S n /\ length fr = S n /\ (forall i, (i <= n)%nat -> fst (nth i fl z2) = - fst (nth i fr z2)) /\
  fst (nth 0 fr z2) = fst (nth n fr z2).
(* over a periodic boundary no water is lost *)
Definition wide (nf : nflux state) : Prop :=
  exists k, (1 <= k)%nat /\ nf_dim nf = (2 * k)%nat /\
  forall n a fl fr, (1 <= n)%nat -> wide_args n k a -> nf_call nf a = Ok (fl, fr) -> wide_at n fl fr.

Lemma tight_wide nf : tight True nf -> wide nf.
Proof.
  intros [D T]. exists 1%nat. split; [lia|]. split; [exact D|]. intros n a fl fr Hn [La Ha] E.
  destruct a as [|vl [|vr [|? ?]]]; try (cbn in La; lia).
  destruct (Ha vl) as [L1 P1]; [left; reflexivity|]. destruct (Ha vr) as [L2 P2]; [right; left; reflexivity|].
  destruct (T n vl vr fl fr Hn L1 L2 E) as [A [B [C [_ F]]]]. repeat split; auto.
Qed.

Lemma required_wide n k K a b : wide_args n K a -> (k <= K)%nat -> get_required_values (2 * k) a = Ok b -> wide_args n k b.
Proof.
  intros [La Ha] Hk E. pose proof (required_incl _ _ _ E) as I. split; [|intros v Hv; apply Ha, I, Hv].
  unfold get_required_values in E. destruct (negb _); [discriminate|]. destruct (negb _); [discriminate|].
  apply Ok_inj in E. subst b. rewrite La. replace (2 * K - 2 * k)%nat with ((K - k) * 2)%nat by lia. rewrite Nat.div_mul by lia.
  unfold slice. rewrite ?firstn_length, ?skipn_length, ?firstn_length. lia.
Qed.
Lemma two_wide n k a : wide_args n k a -> (1 <= k)%nat -> exists vl vr, get_required_values 2 a = Ok [vl; vr] /\ wide_args n 1 [vl; vr].
Proof.
  intros W Hk. pose proof (required_two a k (proj1 W) Hk) as E. eexists _, _. split; [exact E|].
  change 2%nat with (2 * 1)%nat in E. exact (required_wide _ _ _ _ _ W Hk E).
Qed.

Lemma wide_source gravity b nf nf' : with_source gravity b nf = Ok nf' -> wide nf -> wide nf'.
Proof.
  intros E [k [Hk [D T]]]. unfold with_source in E. inv_bind E. apply Ok_inj in E. subst nf'. exists k. split; auto. split; [exact D|].
  cbn [nf_call]. intros n v fl fr Hn Wa E. unfold wrapped_call in E. inv_bind E. destruct a0 as [fl0 fr0].
  destruct (two_wide n k v Wa Hk) as [vl [vr [E2 [_ W2]]]]. rewrite E2 in E. cbn [bind fst snd] in E. inv_bind E.
  apply Ok_inj in E. injection E as <- <-. destruct (T n v fl0 fr0 Hn Wa E1) as [L1 [L2 [T1 T2]]].
  destruct (W2 vl) as [Ll _]; [left; auto|]. destruct (W2 vr) as [Lr _]; [right; left; auto|].
  unfold source_term in E3. inv_bind E3. apply Ok_inj in E3. subst a0. apply broadcast_length in E.
  set (src := map2 _ (combine vl vr) _).
  assert (Ls : length src = S n) by (unfold src; rewrite map2_length, combine_length; lia).
  assert (Vs : forall i, (i <= n)%nat -> fst (nth i src z2) = 0).
  { intros i Hi. unfold src. rewrite (nth_map2 _ _ _ i (z2, z2) 0) by (rewrite ?combine_length; lia). reflexivity. }
  assert (Vl : forall x i, length x = S n -> (i <= n)%nat -> fst (nth i (map2 csub x src) z2) = fst (nth i x z2)).
  { intros x i Lx Hi. rewrite (nth_map2 _ _ _ i z2 z2) by lia. unfold csub, copp. cbn [cadd cscal RR_CellOps fst].
    rewrite Vs by auto. ring. }
  unfold wide_at. rewrite !map2_length. repeat match goal with |- _ /\ _ => split end; try lia.
  - intros i Hi. rewrite !Vl by auto. auto.
  - rewrite !Vl by (auto; lia). auto.
Qed.

Lemma wide_corrected nf fc : wide nf -> wide fc -> wide (corrected nf fc).
Proof.
  intros [k1 [H1 [D1 T1]]] [k2 [H2 [D2 T2]]]. exists (Nat.max k1 k2). split; [lia|]. split; [cbn [corrected nf_dim]; lia|].
  intros n a fl fr Hn Wa E. cbn [corrected nf_call arbitrary_input] in E. inv_bind E. inv_bind E. inv_bind E0. inv_bind E1.
  destruct a0 as [fl1 fr1], a1 as [fl2 fr2]. apply Ok_inj in E. cbn [fst snd] in E. injection E as <- <-.
  rewrite D1 in E2. rewrite D2 in E3.
  destruct (T1 _ _ _ _ Hn (required_wide n k1 _ _ _ Wa (Nat.le_max_l _ _) E2) E0) as [L1 [L2 [A1 A2]]].
  destruct (T2 _ _ _ _ Hn (required_wide n k2 _ _ _ Wa (Nat.le_max_r _ _) E3) E1) as [L3 [L4 [B1 B2]]].
  assert (Va : forall x y i, length x = S n -> length y = S n -> (i <= n)%nat ->
    fst (nth i (map2 cadd x y) z2) = fst (nth i x z2) + fst (nth i y z2)).
  { intros x y i Lx Ly Hi. rewrite (nth_map2 _ _ _ i z2 z2) by lia. reflexivity. }
  unfold wide_at. rewrite !map2_length. repeat match goal with |- _ /\ _ => split end; try lia.
  - intros i Hi. rewrite !Va by auto. rewrite A1, B1 by auto. ring.
  - rewrite !Va by (auto; lia). rewrite A2, B2 by auto. ring.
Qed.

Lemma wide_mcl gravity b il ir high nf : wide high -> sw_mcl gravity b ["periodic"%string] il ir high = Ok nf -> wide nf.
Proof.
  intros [k [Hk [D T]]] E. unfold sw_mcl in E. inv_bind E. inv_bind E. apply Ok_inj in E. subst nf.
  exists k. split; auto. split; [exact D|]. cbn [nf_call]. intros n v fl fr Hn Wa E.
  destruct (two_wide n k v Wa Hk) as [vl [vr [E2 W2]]].
  set (h' := {| nf_dim := 2; nf_call := fun _ => nf_call high v |}).
  assert (E' : sw_mcl_call gravity (snd a0) a h' [vl; vr] = Ok (fl, fr)).
  { unfold sw_mcl_call in E |- *. rewrite E2 in E. rewrite (required_two _ 1) by (cbn; lia). exact E. }
  destruct W2 as [_ W2]. destruct (W2 vl) as [Ll Pl]; [left; auto|]. destruct (W2 vr) as [Lr Pr]; [right; left; auto|].
  destruct (mcl_tight_at False True gravity b a0 a h' n vl vr fl fr) as [A1 [A2 [A3 [_ A5]]]]; auto.
  - eapply bc_radius; eauto.
  - intros _. unfold get_boundary_conditions in E0. cbn in E0. apply Ok_inj in E0. subst a. reflexivity.
  - cbn [h' nf_call]. intros hl hr Y. destruct (T n v hl hr Hn Wa Y) as [L1 [L2 [T1 T2]]]. split; auto. split; [intros []|auto].
  - repeat split; auto.
Qed.

Lemma wide_subgrid k net : (1 <= k)%nat -> wide (subgrid_flux (2 * k) (row_predict net)).
Proof.
  intro Hk. exists k. split; auto. split; [reflexivity|]. intros n a fl fr Hn [La Ha] E. cbn [subgrid_flux nf_call] in E.
  apply Ok_inj in E. injection E as <- <-.
  assert (Hh : In (hd [] a) a) by (destruct a; [cbn in La; lia|left; reflexivity]).
  destruct (Ha _ Hh) as [L _].
  assert (Lr : length (row_predict net a) = S n) by (unfold row_predict; rewrite tab_length; auto).
  unfold wide_at. repeat match goal with |- _ /\ _ => split end; auto.
  - unfold vneg. rewrite map_length. auto.
  - intros i Hi. exact (nth_vneg (row_predict net a) i true ltac:(lia)).
  - unfold row_predict. rewrite L, !nth_tab by lia. f_equal. f_equal. apply map_ext_in. intros v Hv. apply (Ha v Hv).
Qed.

Lemma wide_rhs nf il ir bc dx t u v : wide nf ->
  get_boundary_conditions (Some reflect) ["periodic"%string] (Nat.div (nf_dim nf) 2) il ir = Ok bc ->
  (nf_dim nf <= 2 * length u)%nat ->
  fv_rhs nf dx bc t u = Ok v -> length v = length u /\ total true v = 0.
Proof.
  intros [k [Hk [D T]]] B Hu E. destruct (fv_rhs_inv _ _ _ _ _ _ E) as [a [fl [fr [E1 [E2 E3]]]]].
  rewrite D in *. replace (2 * k / 2)%nat with k in * by (symmetry; rewrite Nat.mul_comm; apply Nat.div_mul; lia).
  set (n := length u) in *.
  destruct (fv_neighbours_shape _ _ _ _ _ _ u t B Hk a E1) as [La Fa]. rewrite Forall_forall in Fa.
  assert (Wa : wide_args n k a).
  { split; auto. intros x Hx. split; [apply Fa, Hx|]. apply (periodic_ends_agree _ _ _ _ _ u t B ltac:(lia) _ E1 x Hx). }
  destruct (T n a fl fr ltac:(lia) Wa E2) as [L1 [L2 [T1 T2]]].
  destruct (cells_from_nodes_spec _ _ _ _ n E3 L1 L2) as [Hd [Lv _]]. split; auto.
  assert (TT : dx * total true v = fst (nth 0 fr z2) - fst (nth n fr z2)).
  { apply (cells_total dx fl fr v n true E3 L1 L2). intros i Hi. apply T1. lia. }
  rewrite T2 in TT. replace (fst (nth n fr z2) - fst (nth n fr z2)) with 0 in TT by ring.
  destruct (Rmult_integral _ _ TT); [congruence|auto].
Qed.
