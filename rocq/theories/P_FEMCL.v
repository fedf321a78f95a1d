(** C40: the finite element MCL scheme. *)
From Coq Require Import Reals List Lia Lra Arith Bool ZArith.
From Coquelicot Require Import Coquelicot.
From Verif Require Import Prelude L_Prelude M_Mesh L_Mesh M_Flux M_Boundary L_Boundary M_Neighbours L_Neighbours M_Quadrature S_Poly L_Poly S_Quadrature L_Flux L_Quadrature P_Quadrature M_Norm L_Norm P_Norm M_Misc M_FE L_Lagrange L_FE L_NewtonCotes S_FE S_FELow L_FELow L_FEMCL P_FE P_FEMatrix P_FELow.
Import ListNotations.
Open Scope R_scope.

(** the local extrema over the neighbours *)
Lemma fe_extrema D n m p s u : (0 < n)%nat -> ia D < ib D -> new_mesh D n = Ok m -> new_fespace m p = Ok s -> length u = fs_dimension s ->
  exists maxs mins, local_maximum (neighbours_array (fe_neighbours (fs_index s))) u = Ok maxs /\ local_minimum (neighbours_array (fe_neighbours (fs_index s))) u = Ok mins /\
  forall i, (i < fs_dimension s)%nat ->
    (forall j, share s i j -> dof mins i <= dof u j <= dof maxs i) /\
    (exists j, share s i j /\ dof maxs i = dof u j) /\ (exists j, share s i j /\ dof mins i = dof u j).
Proof.
  intros Hn HD Em Es Lu. assert (Hp := space_degree m p s Es). assert (DM := s_dim D n m p s Hn HD Hp Em Es).
  assert (G : gi_cells (fs_index s) = n /\ gi_degree (fs_index s) = p /\ gi_dimension (fs_index s) = (n * p)%nat).
  { rewrite (s_val D n m p s Hn HD Hp Em Es). unfold gi_dimension. cbn. repeat split. lia. }
  destruct G as [G1 [G2 G3]].
  destruct (fe_neighbours_rows (fs_index s)) as [L V].
  { intros c a Hc Ha. rewrite G3. apply (num_lt D n m p s Hn HD Hp Em Es); lia. }
  assert (SH : forall i j, share_cell (gi_number (fs_index s)) (gi_cells (fs_index s)) (gi_degree (fs_index s)) i j <-> share s i j).
  { intros i j. unfold share. rewrite G1, G2, (s_len D n m p s Hn HD Hp Em Es), (s_degree D n m p s Hn HD Hp Em Es). reflexivity. }
  assert (A : forall i z, (i < n * p)%nat -> (In z (nth i (neighbours_array (fe_neighbours (fs_index s))) []) <-> exists j, z = Z.of_nat j /\ share s i j)).
  { intros i z Hi. destruct (neighbours_array_rows (fe_neighbours (fs_index s)) i) as [_ [_ W]]; [rewrite L, G3; auto|]. rewrite W, V by (rewrite G3; auto). split.
    - intros [[j [-> S]]|[-> _]]; [exists j; split; [reflexivity|apply SH, S]|]. exists i. split; [reflexivity|].
      destruct (num_onto D n m p s Hn HD Hp Em Es i Hi) as [c [a [Hc [Ha E]]]]. exists c, a, a. rewrite (s_len D n m p s Hn HD Hp Em Es), (s_degree D n m p s Hn HD Hp Em Es). repeat (split; [auto; lia|]). exact E.
    - intros [j [-> S]]. left. exists j. split; [reflexivity|apply SH, S]. }
  assert (LA : length (neighbours_array (fe_neighbours (fs_index s))) = (n * p)%nat).
  { destruct (neighbours_array_rows (fe_neighbours (fs_index s)) 0) as [E _]; [rewrite L, G3; nia|]. rewrite E, L, G3. reflexivity. }
  assert (SB : forall i j, share s i j -> (j < n * p)%nat).
  { intros i j [c [a [b [Hc [Ha [Hb [_ <-]]]]]]]. rewrite (s_len D n m p s Hn HD Hp Em Es) in Hc. rewrite (s_degree D n m p s Hn HD Hp Em Es) in Hb. apply (num_lt D n m p s Hn HD Hp Em Es); auto. }
  destruct (local_extrema (neighbours_array (fe_neighbours (fs_index s))) u) as [maxs [mins [E1 [E2 [L1 [L2 X]]]]]].
  - intros i z Hi Hz. rewrite LA in Hi. apply A in Hz; [|auto]. destruct Hz as [j [-> S]]. apply SB in S. lia.
  - intros i Hi E. rewrite LA in Hi. assert (Y : In (Z.of_nat i) (nth i (neighbours_array (fe_neighbours (fs_index s))) [])).
    { apply A; [auto|]. exists i. split; [reflexivity|]. destruct (num_onto D n m p s Hn HD Hp Em Es i Hi) as [c [a [Hc [Ha E']]]]. exists c, a, a. rewrite (s_len D n m p s Hn HD Hp Em Es), (s_degree D n m p s Hn HD Hp Em Es). repeat (split; [auto; lia|]). exact E'. }
    rewrite E in Y. destruct Y.
  - exists maxs, mins. split; [exact E1|]. split; [exact E2|]. intros i Hi. rewrite DM in Hi. destruct (X i ltac:(lia)) as [X1 [[z [Z1 Z2]] [z' [Z1' Z2']]]]. split; [|split].
    + intros j S. assert (Y := X1 (Z.of_nat j) ltac:(apply A; [auto|exists j; auto])). rewrite Nat2Z.id in Y. exact Y.
    + apply A in Z1; [|auto]. destruct Z1 as [j [-> S]]. exists j. rewrite Nat2Z.id in Z2. auto.
    + apply A in Z1'; [|auto]. destruct Z1' as [j [-> S]]. exists j. rewrite Nat2Z.id in Z2'. auto.
Qed.
(** two cells: the two vertices *)
Lemma two_cells D m p s Q N : ia D < ib D -> new_mesh D 2 = Ok m -> new_fespace m p = Ok s -> (forall f, deg_lt N f -> is_RInt f 0 1 (integrate Q f)) -> (2 * p <= N)%nat ->
  assemble_matrix s (gradient_entry s Q) 0%nat p = 0.
Proof.
  intros HD Em Es HQ HN. assert (Hn : (0 < 2)%nat) by lia. assert (Hp := space_degree m p s Es).
  rewrite (asm_matrix D 2 m p s Hn HD Hp Em Es). unfold tab at 1. cbn [seq map]. unfold rsum at 1. cbn [fold_right].
  rewrite (sum_ext (S p) _ (fun a => delta a 0 * rsum (tab (S p) (fun b => delta b p * gradient_entry s Q 0 a b)))).
  2:{ intros a Ha. rewrite <- rsum_tab_scal. apply sum_ext. intros b Hb. rewrite !(num_val D 2 m p s Hn HD Hp Em Es) by lia. unfold delta. cbn [Nat.mul Nat.add].
      destruct (Nat.eqb_spec a (p + (p + 0))); [lia|]. destruct (Nat.eqb_spec b (p + (p + 0))); [lia|].
      destruct (Nat.eqb_spec 0 a), (Nat.eqb_spec p b), (Nat.eqb_spec a 0), (Nat.eqb_spec b p); try lia; ring. }
  rewrite (sum_delta (S p) 0 (fun a => rsum (tab (S p) (fun b => delta b p * gradient_entry s Q 0 a b)))) by lia. rewrite (sum_delta (S p) p (gradient_entry s Q 0 0)) by lia.
  rewrite (sum_ext (S p) _ (fun a => delta a p * rsum (tab (S p) (fun b => delta b 0 * gradient_entry s Q 1 a b)))).
  2:{ intros a Ha. rewrite <- rsum_tab_scal. apply sum_ext. intros b Hb. rewrite !(num_val D 2 m p s Hn HD Hp Em Es) by lia. unfold delta. cbn [Nat.mul Nat.add].
      destruct (Nat.eqb_spec (p + 0 + a) (p + (p + 0))), (Nat.eqb_spec (p + 0 + b) (p + (p + 0)));
        repeat match goal with |- context [Nat.eqb ?x ?y] => destruct (Nat.eqb_spec x y) end; try lia; ring. }
  rewrite (sum_delta (S p) p (fun a => rsum (tab (S p) (fun b => delta b 0 * gradient_entry s Q 1 a b)))) by lia. rewrite (sum_delta (S p) 0 (gradient_entry s Q 1 p)) by lia.
  rewrite !(gradient_entry_val D 2 m p s Hn HD Hp Em Es).
  assert (X := grad_parts 2 p Hn Hp Q N HQ (basis_value p 0) (basis_value p p) (basis_derivative p 0) (basis_derivative p p) HN (basis_deg p 0) (basis_deg p p) (basis_deriv_deg p 0) (basis_deriv_deg p p) (basis_deriv p 0) (basis_deriv p p)).
  rewrite !basis_at_1, !basis_at_0 in X by lia. unfold delta in X. rewrite !Nat.eqb_refl in X. destruct (Nat.eqb_spec 0 p); [lia|]. destruct (Nat.eqb_spec p 0); [lia|]. lra.
Qed.

(** everything the right hand side is made of *)
Definition limited_fluxes (M C d : mat) (pr : problem) (u low maxs mins : list R) (i j : nat) : pair_data :=
  {| pd_m := M i j; pd_d := d i j; pd_c := C i j; pd_ui := dof u i; pd_uj := dof u j;
     pd_fi := flux_of pr (dof u i); pd_fj := flux_of pr (dof u j); pd_ri := dof low i; pd_rj := dof low j;
     pd_maxi := dof maxs i; pd_maxj := dof maxs j; pd_mini := dof mins i; pd_minj := dof mins j |}.
Lemma mcl_parts eig D n m p s pr u : (0 < n)%nat -> ia D < ib D -> new_mesh D n = Ok m -> new_fespace m p = Ok s -> eig_ok eig p -> eig_ok eig (p + 1) ->
  length u = fs_dimension s -> exists M C mass maxs mins, mass_matrix eig s = Ok M /\ discrete_gradient eig s = Ok C /\ lumped_mass eig s = Ok mass /\
  local_maximum (neighbours_array (fe_neighbours (fs_index s))) u = Ok maxs /\ local_minimum (neighbours_array (fe_neighbours (fs_index s))) u = Ok mins /\
  (forall low, low_rhs pr (fs_dimension s) mass C u = Ok low ->
   mcl_rhs eig pr s u = mapM (fun i => bind (rdiv (mcl_corrections s (fun i j => limited_flux (limited_fluxes M C (diffusion pr (fs_dimension s) C u) pr u low maxs mins i j)) i) (nth i mass 0))
      (fun x => Ok (dof low i + x))) (seq 0 (fs_dimension s))) /\
  (forall e, low_rhs pr (fs_dimension s) mass C u = Err e -> mcl_rhs eig pr s u = Err e).
Proof.
  intros Hn HD Em Es HE HE' Lu. destruct (C37_discrete_gradient eig D n m p s Hn HD Em Es HE) as [C [EC _]].
  destruct (C37_lumped_masses eig D n m p s Hn HD Em Es HE') as [M [mass [EM [EL _]]]].
  destruct (fe_extrema D n m p s u Hn HD Em Es Lu) as [maxs [mins [E1 [E2 _]]]].
  exists M, C, mass, maxs, mins. repeat (split; [assumption|]). split.
  - intros low Elow. unfold mcl_rhs. rewrite EL, EM, EC. cbn [bind]. rewrite Elow. cbn [bind]. rewrite E1, E2. reflexivity.
  - intros e Elow. unfold mcl_rhs. rewrite EL, EM, EC. cbn [bind]. rewrite Elow. reflexivity.
Qed.
Theorem C40_mcl_conserves : forall eig D n m p s pr u r,
  (0 < n)%nat -> ia D < ib D -> new_mesh D n = Ok m -> new_fespace m p = Ok s -> eig_ok eig p -> eig_ok eig (p + 1) ->
  length u = fs_dimension s -> mcl_rhs eig pr s u = Ok r ->
  exists mass, lumped_mass eig s = Ok mass /\ length r = fs_dimension s /\ rsum (map2 Rmult mass r) = 0.
Proof.
  intros eig D n m p s pr u r Hn HD Em Es HE HE' Lu ER. assert (Hp := space_degree m p s Es). assert (DM := s_dim D n m p s Hn HD Hp Em Es).
  destruct (mcl_parts eig D n m p s pr u Hn HD Em Es HE HE' Lu) as [M [C [mass [maxs [mins [EM [EC [EL [_ [_ [P1 P2]]]]]]]]]]].
  exists mass. split; [exact EL|].
  destruct (low_rhs pr (fs_dimension s) mass C u) as [low|e] eqn:Elow; [|rewrite (P2 e eq_refl) in ER; discriminate]. rewrite (P1 low eq_refl) in ER.
  assert (CL : cg_low_rhs eig pr s u = Ok low) by (unfold cg_low_rhs; rewrite EL, EC; exact Elow).
  destruct (C39_low_order_conserves eig D n m p s pr u low Hn HD Em Es HE HE' Lu CL) as [mass' [EL' [LL CO]]]. rewrite EL in EL'. apply Ok_inj in EL'. subst mass'.
  destruct (C37_lumped_masses eig D n m p s Hn HD Em Es HE') as [M' [mass' [_ [EL' [LM _]]]]]. rewrite EL in EL'. apply Ok_inj in EL'. subst mass'.
  apply (mapM_nth _ _ _ 0%nat 0) in ER. rewrite seq_length in ER. destruct ER as [LR V]. split; [exact LR|].
  set (F := mcl_corrections s _) in V. set (N := fs_dimension s) in *.
  assert (CF : rsum (tab N F) = 0) by (rewrite DM; apply (corrections_conserve D n m p s Hn HD Hp Em Es)).
  rewrite (list_tab 0 mass), (list_tab 0 low), LM, LL, map2_tab in CO. rewrite (list_tab 0 mass), (list_tab 0 r), LM, LR, map2_tab.
  transitivity (rsum (tab N (fun i => nth i mass 0 * nth i low 0)) + rsum (tab N F)); [|rewrite CO, CF; ring].
  rewrite <- rsum_tab_plus. apply sum_ext. intros i Hi. specialize (V i Hi). rewrite seq_nth in V by auto. cbn [Nat.add] in V. inv_bind V. apply rdiv_ok in E. destruct E as [Z ->]. apply Ok_inj in V. rewrite <- V. unfold dof. field. exact Z.
Qed.

(** the right hand side for at least two cells: low order terms plus one limited flux for each neighbour *)
Lemma mcl_formula eig D n m p s pr u r : (2 <= n)%nat -> ia D < ib D -> new_mesh D n = Ok m -> new_fespace m p = Ok s -> eig_ok eig p -> eig_ok eig (p + 1) ->
  length u = fs_dimension s -> mcl_rhs eig pr s u = Ok r -> exists M C mass low maxs mins, mass_matrix eig s = Ok M /\ discrete_gradient eig s = Ok C /\ lumped_mass eig s = Ok mass /\
  cg_low_rhs eig pr s u = Ok low /\
  let N := fs_dimension s in let d := diffusion pr N C u in let X := limited_fluxes M C d pr u low maxs mins in
  (forall i, (i < N)%nat -> (forall j, share s i j -> dof mins i <= dof u j <= dof maxs i) /\
    (exists j, share s i j /\ dof maxs i = dof u j) /\ (exists j, share s i j /\ dof mins i = dof u j)) /\
  (forall i j, (i < N)%nat -> (j < N)%nat -> i <> j -> share s i j -> pair_ok (X i j)) /\
  (forall i j, i <> j -> ~ share s i j -> d i j = 0 /\ C i j = 0 /\ M i j = 0) /\
  (forall i, (i < N)%nat -> dof mass i <> 0 /\
     dof mass i * dof low i = off N (fun j => pw (X i j) - 2 * d i j * dof u i) i /\
     dof mass i * dof r i = off N (fun j => pw (X i j) + limited_flux (X i j) - 2 * d i j * dof u i) i).
Proof.
  intros H2 HD Em Es HE HE' Lu ER. assert (Hn : (0 < n)%nat) by lia. assert (Hp := space_degree m p s Es). assert (DM := s_dim D n m p s Hn HD Hp Em Es).
  destruct (C37_discrete_gradient eig D n m p s Hn HD Em Es HE) as [C [EC [SK [RS [CS [LOC _]]]]]].
  destruct (C37_mass_matrix eig D n m p s Hn HD Em Es HE') as [M [EM [MS [ML _]]]].
  destruct (C37_lumped_masses eig D n m p s Hn HD Em Es HE') as [M' [mass [EM' [EL [LM _]]]]]. rewrite EM in EM'. apply Ok_inj in EM'. subst M'.
  destruct (fe_extrema D n m p s u Hn HD Em Es Lu) as [maxs [mins [E1 [E2 EX]]]].
  destruct (mcl_parts eig D n m p s pr u Hn HD Em Es HE HE' Lu) as [M0 [C0 [mass0 [maxs0 [mins0 [Q1 [Q2 [Q3 [Q4 [Q5 [P1 P2]]]]]]]]]]].
  rewrite EM in Q1. rewrite EC in Q2. rewrite EL in Q3. rewrite E1 in Q4. rewrite E2 in Q5. apply Ok_inj in Q1, Q2, Q3, Q4, Q5. subst M0 C0 mass0 maxs0 mins0.
  destruct (low_rhs pr (fs_dimension s) mass C u) as [low|e] eqn:EL2; [|rewrite (P2 e eq_refl) in ER; discriminate]. specialize (P1 low eq_refl). clear P2.
  assert (ELOW : cg_low_rhs eig pr s u = Ok low) by (unfold cg_low_rhs; rewrite EL, EC; exact EL2).
  set (N := fs_dimension s) in *. set (d := diffusion pr N C u) in *. set (X := limited_fluxes M C d pr u low maxs mins) in *.
  rewrite P1 in ER. exists M, C, mass, low, maxs, mins. do 4 (split; [assumption|]). cbv zeta. fold N d X. split; [exact EX|].
  assert (PO : forall i j, (i < N)%nat -> (j < N)%nat -> i <> j -> share s i j -> pair_ok (X i j)).
  { intros i j Hi Hj Hij S. destruct (EX i Hi) as [A _]. destruct (EX j Hj) as [B _].
    assert (Si : share s i i) by (destruct S as [c [a [b [Hc [Ha [Hb [Fa Fb]]]]]]]; exists c, a, a; auto 8).
    assert (Sj : share s j j) by (destruct S as [c [a [b [Hc [Ha [Hb [Fa Fb]]]]]]]; exists c, b, b; auto 8).
    assert (Sji : share s j i) by (destruct S as [c [a [b [Hc [Ha [Hb [Fa Fb]]]]]]]; exists c, b, a; auto 8).
    constructor; cbn [X limited_fluxes pd_m pd_d pd_c pd_ui pd_uj pd_fi pd_fj pd_ri pd_rj pd_maxi pd_maxj pd_mini pd_minj]; auto.
    - apply diffusion_nonneg; auto.
    - destruct (flux_bound N C SK pr u i j Hij) as [e [Be Ee]]. fold d in Be, Ee.
      replace (C i j * (flux_of pr (dof u j) - flux_of pr (dof u i))) with ((d i j - e) * (dof u j - dof u i)) by lra.
      rewrite Rabs_mult. apply Rmult_le_compat_r; [apply Rabs_pos|]. apply Rabs_le. lra. }
  split; [exact PO|].
  assert (NZ : forall i j, i <> j -> C i j = 0 -> d i j = 0) by (intros; apply diffusion_zero; auto).
  split; [intros i j Hij S; split; [apply NZ; auto|]; split; [apply LOC; auto|apply ML; auto]|].
  intros i Hi.
  apply (mapM_nth _ _ _ 0%nat 0) in ER. destruct ER as [_ V0]. rewrite seq_length in V0. specialize (V0 i Hi). rewrite seq_nth in V0 by auto. cbn [Nat.add] in V0. inv_bind V0. apply rdiv_ok in E. destruct E as [Z ->]. apply Ok_inj in V0.
  split; [exact Z|].
  assert (LV : dof mass i * dof low i = off N (fun j => pw (X i j) - 2 * d i j * dof u i) i).
  { unfold low_rhs in EL2. apply (mapM_nth _ _ _ 0%nat 0) in EL2. destruct EL2 as [_ V]. rewrite seq_length in V. specialize (V i Hi). rewrite seq_nth in V by auto. cbn [Nat.add] in V.
    rewrite (low_term N C SK (fun j _ => RS j) pr u i Hi Lu) in V. apply rdiv_ok in V. destruct V as [_ V]. unfold dof at 1 2. rewrite V. fold d.
    transitivity (off N (fun j => d i j * (dof u j - dof u i) - C i j * (flux_of pr (dof u j) - flux_of pr (dof u i))) i); [field; exact Z|].
    apply off_ext. intros j Hj Hij. unfold pw. cbn [X limited_fluxes pd_m pd_d pd_c pd_ui pd_uj pd_fi pd_fj]. ring. }
  split; [exact LV|].
  change (nth i r 0) with (dof r i) in V0. rewrite <- V0.
  assert (CR : mcl_corrections s (fun i j => limited_flux (X i j)) i = off N (fun j => limited_flux (X i j)) i).
  { assert (XS : forall i j, i <> j -> X j i = swap_pair (X i j)).
    { intros k l Hkl. unfold X, limited_fluxes, swap_pair. cbn. rewrite (MS l k), (SK l k). unfold d. rewrite (diffusion_sym N C SK pr u l k). reflexivity. }
    assert (Hi' : (i < n * p)%nat) by (rewrite <- DM; exact Hi).
    rewrite (corrections_off D n m p s Hn HD Hp Em Es (fun i j => limited_flux (X i j)) i H2 Hi').
    2:{ intros c a b Hc Ha Hb Hab. assert (NN : fs_number s c a <> fs_number s c b) by (intro E; apply Hab, (num_inj D n m p s Hn HD Hp Em Es c a b H2); auto).
        rewrite (XS _ _ NN). apply limited_swap. apply PO; [rewrite DM; apply (num_lt D n m p s Hn HD Hp Em Es); auto|rewrite DM; apply (num_lt D n m p s Hn HD Hp Em Es); auto|exact NN|].
        exists c, a, b. rewrite (s_len D n m p s Hn HD Hp Em Es), (s_degree D n m p s Hn HD Hp Em Es). auto 8. }
    replace (n * p)%nat with N by exact DM. apply off_ext. intros j Hj Hij.
    assert (Zero : C i j = 0 -> limited_flux (X i j) = 0) by (intro CZ; apply limited_zero; [apply NZ; auto|exact CZ]).
    destruct (share_dec s i j) as [S|S].
    - destruct S as [c [a [b [Hc [Ha [Hb [Fa Fb]]]]]]]. rewrite (s_len D n m p s Hn HD Hp Em Es) in Hc. rewrite (s_degree D n m p s Hn HD Hp Em Es) in Ha, Hb.
      destruct (Req_dec (C i j) 0) as [CZ|CN]; [rewrite (Zero CZ); ring|].
      rewrite (visits_one n p s Hn Hp i j c a b Hc Ha Hb Fa Fb); [ring|].
      intros c' a' b' Hc' Ha' Hb' Fa' Fb'.
      destruct (visit_unique D n m p s Hn HD Hp Em Es i j c a b c' a' b' H2 Hij Hc Ha Hb Hc' Ha' Hb' Fa Fb Fa' Fb') as [Y|[Nn [Nc Y]]]; [exact Y|].
      exfalso. apply CN. subst n. clear Hn. assert (Hn : (0 < 2)%nat) by lia.
      destruct (rule_full eig p Hp HE) as [Q [EQ [_ [_ [_ [_ QX]]]]]].
      assert (CV : C = assemble_matrix s (gradient_entry s Q)).
      { unfold discrete_gradient in EC. rewrite (s_degree D 2 m p s Hn HD Hp Em Es), EQ in EC. apply Ok_inj in EC. symmetry. exact EC. }
      assert (T := two_cells D m p s Q (2 * p) HD Em Es QX (le_n _)). rewrite <- CV in T.
      rewrite (num_val D 2 m p s Hn HD Hp Em Es) in Fa, Fb by auto.
      assert (IJ : (i = 0 /\ j = p \/ i = p /\ j = 0)%nat).
      { destruct c as [|[|c]]; [| |lia]; cbn [Nat.mul Nat.add] in Fa, Fb; destruct Y as [[-> [-> _]]|[-> [-> _]]];
          repeat match type of Fa with context [Nat.eqb ?x ?y] => destruct (Nat.eqb_spec x y) end; repeat match type of Fb with context [Nat.eqb ?x ?y] => destruct (Nat.eqb_spec x y) end; lia. }
      destruct IJ as [[-> ->]|[-> ->]]; [exact T|]. rewrite SK, T. ring.
    - rewrite (Zero (LOC i j S)). ring. }
  rewrite CR. rewrite Rmult_plus_distr_l, LV. replace (dof mass i * (off N (fun j => limited_flux (X i j)) i / nth i mass 0)) with (off N (fun j => limited_flux (X i j)) i) by (unfold dof; field; exact Z).
  rewrite <- off_plus. apply off_ext. intros. ring.
Qed.

(** Whatever the degree: if right hand side and time step can be computed, a forward Euler step of at most this size
    keeps every degree of freedom between the bounds of the values it shares a cell with. *)
Theorem C40_mcl_bounds : forall eig D n m p s pr u r step,
  (2 <= n)%nat -> ia D < ib D -> new_mesh D n = Ok m -> new_fespace m p = Ok s -> eig_ok eig p -> eig_ok eig (p + 1) ->
  length u = fs_dimension s -> mcl_rhs eig pr s u = Ok r -> fe_time_step eig pr s u = Ok step ->
  forall dt, 0 <= dt -> step_allows step dt -> forall i lo hi, (i < fs_dimension s)%nat ->
  (forall j, (j < fs_dimension s)%nat -> share s i j -> lo <= dof u j <= hi) -> lo <= dof u i + dt * dof r i <= hi.
Proof.
  intros eig D n m p s pr u r step H2 HD Em Es HE HE' Lu ER EST dt Hdt Hst i lo hi Hi Hb.
  assert (Hn : (0 < n)%nat) by lia. assert (Hp := space_degree m p s Es). assert (DM := s_dim D n m p s Hn HD Hp Em Es).
  destruct (mcl_formula eig D n m p s pr u r H2 HD Em Es HE HE' Lu ER) as [M [C [mass [low [maxs [mins [EM [EC [EL [ELOW [EX [PO [LZ F]]]]]]]]]]]]]. cbv zeta in *.
  destruct (C37_discrete_gradient eig D n m p s Hn HD Em Es HE) as [C' [EC' [SK _]]]. rewrite EC in EC'. apply Ok_inj in EC'. subst C'.
  assert (Self : share s i i).
  { destruct (num_onto D n m p s Hn HD Hp Em Es i) as [c [a [Hc [Ha E]]]]; [rewrite <- DM; exact Hi|].
    exists c, a, a. rewrite (s_len D n m p s Hn HD Hp Em Es), (s_degree D n m p s Hn HD Hp Em Es). repeat (split; [auto; lia|]). exact E. }
  destruct Hdt as [Hdt|<-]; [|rewrite Rmult_0_l, Rplus_0_r; apply Hb; auto].
  destruct (step_masses eig pr s u mass C step EL EC EST dt Hdt Hst i Hi) as [Mi St].
  set (N := fs_dimension s) in *. set (d := diffusion pr N C u) in *. set (X := limited_fluxes M C d pr u low maxs mins) in *.
  destruct (F i Hi) as [_ [_ Ri]].
  replace (dof r i) with (/ dof mass i * off N (fun j => pw (X i j) + limited_flux (X i j) - 2 * d i j * dof u i) i) by (rewrite <- Ri; field; lra).
  assert (SJ : forall j, share s i j -> (j < N)%nat).
  { intros j [c [a [b [Hc [Ha [Hb' [_ <-]]]]]]]. rewrite (s_len D n m p s Hn HD Hp Em Es) in Hc. rewrite (s_degree D n m p s Hn HD Hp Em Es) in Hb'. rewrite DM. apply (num_lt D n m p s Hn HD Hp Em Es); auto. }
  destruct (EX i Hi) as [_ [[jM [SM EQM]] [jm [Sm EQm]]]].
  assert (BM : lo <= dof mins i /\ dof maxs i <= hi) by (rewrite EQM, EQm; split; apply Hb; auto).
  replace (off N (fun j => pw (X i j) + limited_flux (X i j) - 2 * d i j * dof u i) i) with
    (off N (fun j => 2 * d i j * ((if Req_EM_T (d i j) 0 then dof u i else (pw (X i j) + limited_flux (X i j)) / (2 * d i j)) - dof u i)) i).
  2:{ apply off_ext. intros j Hj Hij. destruct (Req_EM_T (d i j) 0) as [Z|Z]; [|field; exact Z]. rewrite Z.
      destruct (share_dec s i j) as [S|S].
      - assert (P := PO i j Hi Hj Hij S). assert (B := limited_between (X i j) P). change (pd_d (X i j)) with (d i j) in B. rewrite Z in B. lra.
      - destruct (LZ i j Hij S) as [Z1 [Z2 _]]. rewrite (limited_zero (X i j)) by (auto). unfold pw. change (pd_d (X i j)) with (d i j). change (pd_c (X i j)) with (C i j). rewrite Z, Z2. ring. }
  assert (X1 := convex_step N (dof u i) lo hi (dt * / dof mass i) (fun j => 2 * d i j) (fun j => if Req_EM_T (d i j) 0 then dof u i else (pw (X i j) + limited_flux (X i j)) / (2 * d i j)) i).
  cbv beta in X1. rewrite <- Rmult_assoc. apply X1.
  - apply Rmult_le_pos; [lra|]. left. apply Rinv_0_lt_compat. auto.
  - intros j Hj Hij. assert (Y := diffusion_nonneg N C SK pr u i j Hij). fold d in Y. lra.
  - apply Hb; auto.
  - rewrite off_scal. assert (Y := diffusion_abs_diag N C SK pr u i Hi). fold d in Y. rewrite <- Y.
    apply (Rmult_le_reg_r (dof mass i)); [auto|]. replace (dt * / dof mass i * (2 * Rabs (d i i)) * dof mass i) with (2 * dt * Rabs (d i i)) by (field; lra). lra.
  - intros j Hj Hij. destruct (Req_EM_T (d i j) 0) as [Z|Z]; [left; lra|]. right.
    destruct (share_dec s i j) as [S|S]; [|exfalso; apply Z, (LZ i j Hij S)].
    assert (P := PO i j Hi Hj Hij S). assert (B := limited_between (X i j) P). change (pd_d (X i j)) with (d i j) in B. change (pd_mini (X i j)) with (dof mins i) in B. change (pd_maxi (X i j)) with (dof maxs i) in B.
    assert (Dp : 0 < d i j) by (assert (Y := diffusion_nonneg N C SK pr u i j Hij); fold d in Y; lra).
    split; apply (Rmult_le_reg_r (2 * d i j)); try lra; unfold Rdiv; rewrite Rmult_assoc, Rinv_l by lra; nra.
Qed.
(** If the raw antidiffusive fluxes of dof i keep the bar states of both partners in their local bounds, nothing is limited at i:
    the right hand side is the Galerkin one with the lumped time derivative corrected by the low order one. *)
Theorem C40_mcl_target : forall eig D n m p s pr u r,
  (2 <= n)%nat -> ia D < ib D -> new_mesh D n = Ok m -> new_fespace m p = Ok s -> eig_ok eig p -> eig_ok eig (p + 1) ->
  length u = fs_dimension s -> mcl_rhs eig pr s u = Ok r ->
  exists M C mass low, mass_matrix eig s = Ok M /\ discrete_gradient eig s = Ok C /\ lumped_mass eig s = Ok mass /\
  cg_low_rhs eig pr s u = Ok low /\
  forall i, let N := fs_dimension s in let d := diffusion pr N C u in
  let flux j := M i j * (dof low i - dof low j) + d i j * (dof u i - dof u j) in
  let bar j := d i j * (dof u i + dof u j) + C i j * (flux_of pr (dof u i) - flux_of pr (dof u j)) in
  (i < N)%nat ->
  (forall j, (j < N)%nat -> i <> j -> share s i j ->
     (exists k k', share s i k /\ share s i k' /\ 2 * d i j * dof u k <= bar j + flux j <= 2 * d i j * dof u k') /\
     (exists k k', share s j k /\ share s j k' /\ 2 * d i j * dof u k <= bar j - flux j <= 2 * d i j * dof u k')) ->
  dof mass i * dof r i = rsum (tab N (fun j => M i j * (dof low i - dof low j) - C i j * flux_of pr (dof u j))).
Proof.
  intros eig D n m p s pr u r H2 HD Em Es HE HE' Lu ER. assert (Hn : (0 < n)%nat) by lia.
  destruct (mcl_formula eig D n m p s pr u r H2 HD Em Es HE HE' Lu ER) as [M [C [mass [low [maxs [mins [EM [EC [EL [ELOW [EX [PO [LZ F]]]]]]]]]]]]]. cbv zeta in *.
  destruct (C37_discrete_gradient eig D n m p s Hn HD Em Es HE) as [C' [EC' [SK [RS _]]]]. rewrite EC in EC'. apply Ok_inj in EC'. subst C'.
  exists M, C, mass, low. do 4 (split; [assumption|]). intros i Hi Hf.
  set (N := fs_dimension s) in *. set (d := diffusion pr N C u) in *. set (X := limited_fluxes M C d pr u low maxs mins) in *.
  destruct (F i Hi) as [Mi [_ Ri]]. rewrite Ri.
  rewrite (off_ext N _ (fun j => M i j * (dof low i - dof low j) + (- C i j * flux_of pr (dof u j) + flux_of pr (dof u i) * C i j)) i).
  - rewrite (off_split N (fun j => M i j * (dof low i - dof low j) - C i j * flux_of pr (dof u j)) i Hi).
    assert (S0 : C i i = 0) by (assert (Y := SK i i); lra).
    assert (O : off N (C i) i = 0) by (assert (Y := RS i); change (rsum (tab N (C i)) = 0) in Y; rewrite (off_split N (C i) i Hi), S0 in Y; lra).
    assert (O2 : off N (fun j => flux_of pr (dof u i) * C i j) i = 0) by (rewrite off_scal, O; ring).
    rewrite off_plus, off_plus, O2, S0. rewrite <- off_plus || idtac. 
    replace (off N (fun j => M i j * (dof low i - dof low j) - C i j * flux_of pr (dof u j)) i) with (off N (fun j => M i j * (dof low i - dof low j)) i + off N (fun j => - C i j * flux_of pr (dof u j)) i) by (rewrite <- off_plus; apply off_ext; intros; ring).
    try rewrite off_plus. ring.
  - intros j Hj Hij. destruct (share_dec s i j) as [S|S].
    + destruct (Hf j Hj Hij S) as [[k [k' [S1 [S2 B]]]] [l [l' [S3 [S4 B']]]]].
      assert (S' : share s j i) by (destruct S as [c [a [b [Hc [Ha [Hb [Fa Fb]]]]]]]; exists c, b, a; auto 8).
      destruct (EX i Hi) as [Ei _]. destruct (EX j Hj) as [Ej _].
      assert (Dp := diffusion_nonneg N C SK pr u i j Hij). fold d in Dp.
      assert (A1 := Ei k S1). assert (A2 := Ei k' S2). assert (A3 := Ej l S3). assert (A4 := Ej l' S4).
      rewrite (limited_inactive (X i j)).
      * unfold pw, raw. cbn [X limited_fluxes pd_m pd_d pd_c pd_ui pd_uj pd_fi pd_fj pd_ri pd_rj]. ring.
      * unfold pw, raw. cbn [X limited_fluxes pd_m pd_d pd_c pd_ui pd_uj pd_fi pd_fj pd_ri pd_rj pd_mini pd_maxi].
        assert (d i j * dof mins i <= d i j * dof u k) by (apply Rmult_le_compat_l; lra). assert (d i j * dof u k' <= d i j * dof maxs i) by (apply Rmult_le_compat_l; lra). lra.
      * unfold pw, raw. cbn [X limited_fluxes pd_m pd_d pd_c pd_ui pd_uj pd_fi pd_fj pd_ri pd_rj pd_minj pd_maxj].
        assert (d i j * dof mins j <= d i j * dof u l) by (apply Rmult_le_compat_l; lra). assert (d i j * dof u l' <= d i j * dof maxs j) by (apply Rmult_le_compat_l; lra). lra.
    + destruct (LZ i j Hij S) as [Z1 [Z2 Z3]]. rewrite (limited_zero (X i j)) by auto. unfold pw. cbn [X limited_fluxes pd_d pd_c]. rewrite Z1, Z2, Z3. ring.
Qed.

(** Degrees 1 to 7: right hand side and time step can be computed for every state, and the step is positive. *)
Theorem C40_mcl_succeeds : forall eig D n m p s pr u,
  (0 < n)%nat -> ia D < ib D -> new_mesh D n = Ok m -> new_fespace m p = Ok s -> eig_ok eig p -> eig_ok eig (p + 1) -> (p <= 7)%nat ->
  length u = fs_dimension s ->
  exists r step, mcl_rhs eig pr s u = Ok r /\ fe_time_step eig pr s u = Ok step /\ (forall x, step = Some x -> 0 < x).
Proof.
  intros eig D n m p s pr u Hn HD Em Es HE HE' H7 Lu.
  destruct (C39_low_order_succeeds eig D n m p s pr u Hn HD Em Es HE HE' H7 Lu) as [low [step [EL [ES SP]]]].
  destruct (mcl_parts eig D n m p s pr u Hn HD Em Es HE HE' Lu) as [M [C [mass [maxs [mins [EM [EC [EMA [_ [_ [P1 _]]]]]]]]]]].
  assert (MP := C37_lumped_masses_positive eig D n m p s mass Hn HD Em Es HE' H7 EMA).
  unfold cg_low_rhs in EL. rewrite EMA, EC in EL. specialize (P1 low EL). rewrite P1.
  match goal with |- exists r step, mapM ?f ?l = _ /\ _ => destruct (mapM_exists f l) as [r ER] end.
  - intros i Hi. apply in_seq in Hi. rewrite rdiv_ne by (assert (Y := MP i ltac:(lia)); lra). cbn [bind]. eauto.
  - exists r, step. auto.
Qed.

Example C40_ex : exists eig m s r step, new_mesh {| ia := 0; ib := 1 |} 3 = Ok m /\ new_fespace m 2 = Ok s /\ fs_dimension s = 6%nat /\
  eig_ok eig 2 /\ eig_ok eig 3 /\ mcl_rhs eig Burgers s [1; 2; 3; -1; -2; 0] = Ok r /\ fe_time_step eig Burgers s [1; 2; 3; -1; -2; 0] = Ok step.
Proof.
  destruct (C37_ex {| ia := 0; ib := 1 |} 3 2 ltac:(lia) ltac:(lia) ltac:(cbn; lra)) as [eig [m [s [Em [Es [Ds [H2 [H3 _]]]]]]]].
  destruct (C40_mcl_succeeds eig {| ia := 0; ib := 1 |} 3 m 2 s Burgers [1; 2; 3; -1; -2; 0] ltac:(lia) ltac:(cbn; lra) Em Es H2 H3 ltac:(lia) ltac:(rewrite Ds; reflexivity)) as [r [step [A [B _]]]].
  exists eig, m, s, r, step. repeat (split; [assumption|]). exact B.
Qed.
Print Assumptions C40_mcl_conserves.
Print Assumptions C40_mcl_bounds.
Print Assumptions C40_mcl_target.
Print Assumptions C40_mcl_succeeds.
