(** C34, C35 (finite elements) and C36: numbering, neighbours, basis. *)
From Coq Require Import Reals List Lia Lra Arith Bool ZArith.
From Coquelicot Require Import Coquelicot.
From Verif Require Import Prelude L_Prelude M_Mesh L_Mesh M_Boundary L_Boundary M_Neighbours L_Neighbours M_Quadrature S_Poly L_Poly S_Quadrature L_Flux L_Quadrature P_Quadrature M_Norm L_Norm M_Misc M_FE L_Lagrange L_FE S_FE.
Import ListNotations.
Open Scope R_scope.

(** * C34 *)
Lemma node_pos D n p c a : (0 < n)%nat -> (0 < p)%nat -> node_of p a (unif_cell D n c) = ia D + INR (c * p + a) * (ilength D / (INR n * INR p)).
Proof.
  intros Hn Hp. assert (INR n <> 0) by (apply not_0_INR; lia). assert (INR p <> 0) by (apply not_0_INR; lia).
  unfold node_of, unif_cell. cbn [ia ib]. rewrite plus_INR, mult_INR, S_INR. field. auto.
Qed.
Lemma node_end D n p : (0 < n)%nat -> (0 < p)%nat -> ib D = ia D + INR (n * p) * (ilength D / (INR n * INR p)).
Proof.
  intros Hn Hp. assert (INR n <> 0) by (apply not_0_INR; lia). assert (INR p <> 0) by (apply not_0_INR; lia).
  unfold ilength. rewrite mult_INR. field. auto.
Qed.
Lemma pos_inj x h k l : 0 < h -> x + INR k * h = x + INR l * h -> k = l.
Proof. intros Hh E. apply INR_eq. nra. Qed.

Theorem C34_numbering : forall D n m p periodic g,
  (0 < n)%nat -> ia D < ib D -> new_mesh D n = Ok m -> new_gindex m p periodic = Ok g ->
  gi_dimension g = (if periodic then (n * p)%nat else (n * p + 1)%nat) /\
  (* every local node has a number below the dimension, and every number is used *)
  (forall c a, (c < n)%nat -> (a <= p)%nat -> exists i, gi_call g c a = Ok i /\ (i < gi_dimension g)%nat) /\
  (forall i, (i < gi_dimension g)%nat -> exists c a, (c < n)%nat /\ (a <= p)%nat /\ gi_call g c a = Ok i) /\
  (* two local nodes have the same number exactly if they are the same point *)
  (forall c a c' a', (c < n)%nat -> (a <= p)%nat -> (c' < n)%nat -> (a' <= p)%nat ->
    (gi_call g c a = gi_call g c' a' <->
     same_point D periodic (node_of p a (nth c (m_cells m) D)) (node_of p a' (nth c' (m_cells m) D)))).
Proof.
  intros D n m p periodic g Hn HD Em Eg.
  unfold new_gindex in Eg. destruct (Nat.ltb_spec 0 p) as [Hp|]; [|discriminate]. apply Ok_inj in Eg. subst g.
  destruct (mesh_cells D n m Hn HD Em) as [Lm [Cm _]].
  assert (V : forall c a, (c < n)%nat -> (a <= p)%nat -> gi_call {| gi_cells := m_len m; gi_degree := p; gi_periodic := periodic |} c a =
     Ok (if (Nat.eqb (c * p + a) (n * p) && periodic)%bool then 0%nat else (c * p + a)%nat)).
  { intros c a Hc Ha. unfold gi_call, gi_number. cbn [gi_cells gi_degree gi_periodic]. destruct (Nat.leb_spec (a + 1) (p + 1)); [|lia]. rewrite Lm. f_equal.
    destruct (Nat.eqb_spec (S c) n) as [E|E], (Nat.eqb_spec (a + 1) (p + 1)) as [E'|E'], (Nat.eqb_spec (c * p + a) (n * p)) as [E''|E''], periodic; cbn [andb]; auto; exfalso; try nia. }
  assert (Dm : gi_dimension {| gi_cells := m_len m; gi_degree := p; gi_periodic := periodic |} = (if periodic then (n * p)%nat else (n * p + 1)%nat)).
  { unfold gi_dimension. cbn [gi_cells gi_degree gi_periodic]. rewrite Lm. destruct periodic; lia. }
  split; [exact Dm|]. rewrite Dm. split; [|split].
  - intros c a Hc Ha. rewrite V by auto. eexists. split; [reflexivity|]. destruct (Nat.eqb_spec (c * p + a) (n * p)), periodic; cbn [andb]; nia.
  - intros i Hi. assert (p <> 0)%nat by lia. destruct (Nat.eq_dec i (n * p)) as [->|Hne].
    + exists (n - 1)%nat, p. split; [lia|]. split; [lia|]. destruct periodic; [lia|]. rewrite V by lia. rewrite andb_false_r. f_equal. nia.
    + exists (i / p)%nat, (i mod p)%nat. pose proof (Nat.mod_upper_bound i p H). pose proof (Nat.div_mod i p H).
      assert (i < n * p)%nat by (destruct periodic; lia). assert (i / p < n)%nat by (apply Nat.div_lt_upper_bound; lia). split; [auto|]. split; [lia|].
      rewrite V by lia. destruct (Nat.eqb_spec (i / p * p + i mod p) (n * p)); [nia|]. cbn [andb]. f_equal. lia.
  - intros c a c' a' Hc Ha Hc' Ha'. rewrite !V by auto. rewrite Cm, !nth_tab by auto. rewrite !node_pos by auto.
    set (h := ilength D / (INR n * INR p)). assert (Hh : 0 < h).
    { unfold h, ilength. apply Rdiv_lt_0_compat; [lra|]. apply Rmult_lt_0_compat; apply lt_0_INR; lia. }
    assert (EB : ib D = ia D + INR (n * p) * h) by (apply node_end; auto). assert (EA : ia D = ia D + INR 0 * h) by (cbn; ring).
    assert (Z0 : forall k, ia D + INR k * h = ia D <-> k = 0%nat).
    { intro k. split; [intro E; rewrite EA in E at 2; exact (pos_inj _ h k 0 Hh E)|intros ->; cbn; ring]. }
    assert (ZN : forall k, ia D + INR k * h = ib D <-> k = (n * p)%nat).
    { intro k. rewrite EB. split; [intro E; exact (pos_inj _ h k _ Hh E)|intros ->; reflexivity]. }
    unfold same_point. rewrite !Z0, !ZN. generalize (c * p + a)%nat (c' * p + a')%nat. intros k l. split.
    + intro E. apply Ok_inj in E. destruct (Nat.eqb_spec k (n * p)), (Nat.eqb_spec l (n * p)), periodic; cbn [andb] in E; auto; subst; auto; right; auto.
    + intros [E|[-> E]].
      * apply (pos_inj _ h k l Hh) in E. subst. reflexivity.
      * destruct (Nat.eqb_spec k (n * p)), (Nat.eqb_spec l (n * p)); cbn [andb]; f_equal; lia.
Qed.
Theorem C34_refusals : forall m p periodic g c a,
  (new_gindex m 0 periodic = Err AssertionError) /\
  (new_gindex m p periodic = Ok g -> (p < a)%nat -> gi_call g c a = Err AssertionError).
Proof.
  intros. split; [reflexivity|]. unfold new_gindex. destruct (Nat.ltb_spec 0 p); [|discriminate]. intros E Ha. apply Ok_inj in E. subst g.
  unfold gi_call. cbn. destruct (Nat.leb_spec (a + 1) (p + 1)); [lia|reflexivity].
Qed.

(** the basis nodes: whatever the memory contained, entry i is the i-th point of an equidistant grid, and it is the point of
    every local node with that number (up to periodicity) *)
Lemma fold_last {A} (g : A -> nat) (e : nat -> R) l : forall v k, (exists x, In x l /\ g x = k) \/ v k = e k ->
  fold_left (fun v x => set_at v (g x) (e (g x))) l v k = e k.
Proof.
  induction l as [|x l IH]; intros v k H; cbn [fold_left]; [destruct H as [[x [[] _]]|H]; exact H|]. apply IH.
  unfold set_at. destruct (Nat.eqb_spec k (g x)) as [->|N]; [right; reflexivity|]. destruct H as [[y [[->|Hy] E]]|H]; [congruence|left; exists y; auto|right; exact H].
Qed.
Theorem C34_basis_nodes : forall D n m p s old,
  (0 < n)%nat -> ia D < ib D -> new_mesh D n = Ok m -> new_fespace m p = Ok s ->
  length (basis_nodes old s) = fs_dimension s /\ fs_dimension s = (n * p)%nat /\
  (forall i, (i < n * p)%nat -> nth i (basis_nodes old s) 0 = ia D + INR i * ((ib D - ia D) / (INR n * INR p))) /\
  (forall c a, (c < n)%nat -> (a <= p)%nat -> same_point D true (nth (fs_number s c a) (basis_nodes old s) 0) (node_of p a (fs_cell s c))).
Proof.
  intros D n m p s old Hn HD Em Es.
  assert (Hp : (0 < p)%nat) by (unfold new_fespace, new_gindex in Es; destruct (Nat.ltb_spec 0 p); [auto|discriminate]).
  assert (DM := s_dim D n m p s Hn HD Hp Em Es).
  assert (Hh : 0 < ilength D / (INR n * INR p)).
  { unfold ilength. apply Rdiv_lt_0_compat; [lra|]. apply Rmult_lt_0_compat; apply lt_0_INR; lia. }
  assert (V : forall i, (i < n * p)%nat -> nth i (basis_nodes old s) 0 = ia D + INR i * (ilength D / (INR n * INR p))).
  { intros i Hi. unfold basis_nodes. rewrite DM, nth_tab by auto. unfold set_at at 1. rewrite (s_domain D n m p s Hn HD Hp Em Es).
    destruct (Nat.eqb_spec i 0) as [->|N0]; [cbn; ring|].
    (* a loop that writes the grid point at every number except where number 0 was written from the last node *)
    assert (LP : forall (lc : list nat) v, (forall c, In c lc -> (c < n)%nat) -> ((exists c a, In c lc /\ (a <= p)%nat /\ fs_number s c a = i) \/ v i = ia D + INR i * (ilength D / (INR n * INR p))) ->
       fold_left (fun v c => fold_left (fun v a => set_at v (fs_number s c a) (affine (nth a (local_nodes (fs_degree s)) 0) (fs_cell s c))) (locals_of s) v) lc v i =
       ia D + INR i * (ilength D / (INR n * INR p))).
    { induction lc as [|c lc IH]; intros v Hlc H; cbn [fold_left]; [destruct H as [[c [a [[] _]]]|H]; exact H|].
      apply IH; [intros; apply Hlc; right; auto|].
      assert (Hc : (c < n)%nat) by (apply Hlc; left; auto).
      assert (LA : forall la w, (forall a, In a la -> (a <= p)%nat) -> ((exists a, In a la /\ fs_number s c a = i) \/ w i = ia D + INR i * (ilength D / (INR n * INR p))) ->
         fold_left (fun v a => set_at v (fs_number s c a) (affine (nth a (local_nodes (fs_degree s)) 0) (fs_cell s c))) la w i = ia D + INR i * (ilength D / (INR n * INR p))).
      { induction la as [|a la IH2]; intros w Hla H2; cbn [fold_left]; [destruct H2 as [[a [[] _]]|H2]; exact H2|].
        apply IH2; [intros; apply Hla; right; auto|]. assert (Ha : (a <= p)%nat) by (apply Hla; left; auto).
        unfold set_at. destruct (Nat.eqb_spec i (fs_number s c a)) as [E|E].
        - right. rewrite (s_degree D n m p s Hn HD Hp Em Es), (local_nodes_nth p a) by lia. rewrite (s_cell D n m p s Hn HD Hp Em Es) by auto.
          transitivity (node_of p a (unif_cell D n c)).
          + unfold affine, node_of, ilength. field. apply not_0_INR. lia.
          + rewrite node_pos by auto. rewrite (num_val D n m p s Hn HD Hp Em Es) in E by auto. destruct (Nat.eqb_spec (c * p + a) (n * p)); [lia|]. rewrite <- E. reflexivity.
        - destruct H2 as [[b [[->|Hb] E2]]|H2]; [congruence|left; exists b; auto|right; exact H2]. }
      destruct H as [[c' [a [[->|Hc'] [Ha E]]]]|H].
      - right. apply LA; [intros b Hb; rewrite (s_locals D n m p s Hn HD Hp Em Es) in Hb; apply in_seq in Hb; lia|]. left. exists a. split; [rewrite (s_locals D n m p s Hn HD Hp Em Es); apply in_seq; lia|exact E].
      - left. exists c', a. auto.
      - right. apply LA; [intros b Hb; rewrite (s_locals D n m p s Hn HD Hp Em Es) in Hb; apply in_seq in Hb; lia|]. right. exact H. }
    apply LP; [intros c Hc; rewrite (s_cells D n m p s Hn HD Hp Em Es) in Hc; apply in_seq in Hc; lia|]. left.
    destruct (num_onto D n m p s Hn HD Hp Em Es i Hi) as [c [a [Hc [Ha E]]]]. exists c, a. split; [rewrite (s_cells D n m p s Hn HD Hp Em Es); apply in_seq; lia|]. split; [lia|exact E]. }
  split; [unfold basis_nodes; apply tab_length|]. split; [exact DM|]. split; [exact V|].
  intros c a Hc Ha. rewrite V by (apply (num_lt D n m p s Hn HD Hp Em Es); auto). rewrite (s_cell D n m p s Hn HD Hp Em Es) by auto. rewrite node_pos by auto.
  rewrite (num_val D n m p s Hn HD Hp Em Es) by auto. unfold same_point. destruct (Nat.eqb_spec (c * p + a) (n * p)) as [E|E]; [|left; reflexivity].
  right. split; [reflexivity|]. left. split; [cbn; ring|]. rewrite E. symmetry. apply node_end; auto.
Qed.

(** * C35 for finite elements *)
Lemma fold_rows {A} N (step : list (list Z) -> A -> list (list Z)) (P : A -> nat -> Z -> Prop) l :
  (forall rows x, In x l -> length rows = N -> length (step rows x) = N /\ forall i z, (i < N)%nat -> (In z (nth i (step rows x) []) <-> In z (nth i rows []) \/ P x i z)) ->
  forall rows, length rows = N -> length (fold_left step l rows) = N /\
  forall i z, (i < N)%nat -> (In z (nth i (fold_left step l rows) []) <-> In z (nth i rows []) \/ exists x, In x l /\ P x i z).
Proof.
  induction l as [|x l IH]; intros H rows L; cbn [fold_left].
  - split; [exact L|]. intros i z Hi. split; [auto|]. intros [A0|[x [[] _]]]; exact A0.
  - destruct (H rows x (or_introl eq_refl) L) as [L1 V1]. destruct (IH (fun r y Hy => H r y (or_intror Hy)) _ L1) as [L2 V2]. split; [exact L2|].
    intros i z Hi. rewrite V2, V1 by auto. split.
    + intros [[A0|A0]|[y [Hy A0]]]; [left; auto|right; exists x; split; [left; auto|auto]|right; exists y; split; [right; auto|auto]].
    + intros [A0|[y [[->|Hy] A0]]]; [left; left; auto|left; right; auto|right; exists y; auto].
Qed.
(** two degrees of freedom share a cell *)
Definition share_cell (number : nat -> nat -> nat) (n p i j : nat) : Prop :=
  exists c a b, (c < n)%nat /\ (a <= p)%nat /\ (b <= p)%nat /\ number c a = i /\ number c b = j.
Lemma fe_neighbours_rows g : (forall c a, (c < gi_cells g)%nat -> (a <= gi_degree g)%nat -> (gi_number g c a < gi_dimension g)%nat) ->
  length (fe_neighbours g) = gi_dimension g /\
  forall i z, (i < gi_dimension g)%nat -> (In z (nth i (fe_neighbours g) []) <-> exists j, z = Z.of_nat j /\ share_cell (gi_number g) (gi_cells g) (gi_degree g) i j).
Proof.
  intro HB. unfold fe_neighbours. set (N := gi_dimension g).
  destruct (fold_rows N (fun rows c => fold_left (fun rows a => fold_left (fun rows b => update_nth (gi_number g c a) (set_add (Z.of_nat (gi_number g c b))) rows)
     (seq 0 (gi_degree g + 1)) rows) (seq 0 (gi_degree g + 1)) rows)
     (fun c i z => exists a, In a (seq 0 (gi_degree g + 1)) /\ exists b, In b (seq 0 (gi_degree g + 1)) /\ (gi_number g c a = i /\ z = Z.of_nat (gi_number g c b))) (seq 0 (gi_cells g)))
    with (rows := repeat (@nil Z) N) as [L V].
  - intros rows c Hc L. apply (fold_rows N (fun rows a => fold_left (fun rows b => update_nth (gi_number g c a) (set_add (Z.of_nat (gi_number g c b))) rows) (seq 0 (gi_degree g + 1)) rows)
      (fun a i z => exists b, In b (seq 0 (gi_degree g + 1)) /\ (gi_number g c a = i /\ z = Z.of_nat (gi_number g c b)))); [|exact L].
    intros rows' a Ha L'. apply (fold_rows N (fun rows b => update_nth (gi_number g c a) (set_add (Z.of_nat (gi_number g c b))) rows)
      (fun b i z => gi_number g c a = i /\ z = Z.of_nat (gi_number g c b))); [|exact L'].
    intros rows'' b Hb L''. split; [rewrite update_nth_length; exact L''|]. intros i z Hi. rewrite nth_update by (rewrite L''; exact Hi).
    destruct (Nat.eqb_spec i (gi_number g c a)) as [->|E]; [rewrite in_set_add; intuition|]. split; [auto|]. intros [A0|[A0 _]]; [auto|congruence].
  - apply repeat_length.
  - split; [exact L|]. intros i z Hi. rewrite V by auto. split.
    + intros [A0|[c [Hc [a [Ha [b [Hb [E1 E2]]]]]]]].
      * exfalso. assert (X : nth i (repeat (@nil Z) N) [] = []) by (apply nth_repeat). rewrite X in A0. exact A0.
      * apply in_seq in Hc, Ha, Hb. exists (gi_number g c b). split; [exact E2|]. exists c, a, b. repeat (split; [lia|]). auto.
    + intros [j [-> [c [a [b [Hc [Ha [Hb [E1 E2]]]]]]]]]. right. exists c. split; [apply in_seq; lia|]. exists a. split; [apply in_seq; lia|]. exists b. split; [apply in_seq; lia|]. split; [exact E1|]. congruence.
Qed.
Theorem C35_fe_neighbours_share_a_cell : forall D n m p periodic g,
  (0 < n)%nat -> ia D < ib D -> new_mesh D n = Ok m -> new_gindex m p periodic = Ok g ->
  forall i, (i < gi_dimension g)%nat -> exists s, neighbours_call (neighbours_array (fe_neighbours g)) (Z.of_nat i) = Ok s /\ NoDup s /\
  forall z, In z s <-> exists j c a b, z = Z.of_nat j /\ (c < n)%nat /\ (a <= p)%nat /\ (b <= p)%nat /\ gi_call g c a = Ok i /\ gi_call g c b = Ok j.
Proof.
  intros D n m p periodic g Hn HD Em Eg i Hi.
  destruct (C34_numbering D n m p periodic g Hn HD Em Eg) as [_ [A [B _]]].
  destruct (mesh_cells D n m Hn HD Em) as [Lm _].
  assert (G : gi_cells g = n /\ gi_degree g = p) by (unfold new_gindex in Eg; destruct (Nat.ltb 0 p); [|discriminate]; apply Ok_inj in Eg; subst g; cbn; auto).
  destruct G as [G1 G2].
  assert (CN : forall c a, (a <= p)%nat -> gi_call g c a = Ok (gi_number g c a)).
  { intros c a Ha. unfold gi_call. rewrite G2. destruct (Nat.leb_spec (a + 1) (p + 1)); [reflexivity|lia]. }
  destruct (fe_neighbours_rows g) as [L V].
  { intros c a Hc Ha. rewrite G1 in Hc. rewrite G2 in Ha. destruct (A c a Hc Ha) as [k [E1 E2]]. rewrite CN in E1 by auto. apply Ok_inj in E1. subst k. exact E2. }
  destruct (neighbours_array_rows (fe_neighbours g) i) as [La [_ W]]; [lia|].
  unfold neighbours_call. rewrite (pyget_nonneg _ i []) by (rewrite La; lia). cbn [bind]. eexists. split; [reflexivity|].
  destruct (set_of_list_spec (nth i (neighbours_array (fe_neighbours g)) [])) as [ND I]. split; [exact ND|].
  intro z. rewrite I, W, V by auto. unfold share_cell. rewrite G1, G2. split.
  - intros [[j [-> [c [a [b [Hc [Ha [Hb [E1 E2]]]]]]]]]|[-> _]].
    + exists j, c, a, b. rewrite !CN by auto. repeat (split; [auto; congruence|]). congruence.
    + destruct (B i Hi) as [c [a [Hc [Ha E]]]]. exists i, c, a, a. auto 8.
  - intros [j [c [a [b [-> [Hc [Ha [Hb [E1 E2]]]]]]]]]. left. exists j. split; [reflexivity|]. rewrite CN in E1, E2 by auto. apply Ok_inj in E1, E2. exists c, a, b. auto 8.
Qed.

(** * C36 *)
Theorem C36_basis : forall p a, (0 < p)%nat -> (a <= p)%nat ->
  deg_lt (S p) (basis_value p a) /\
  (forall b, (b <= p)%nat -> basis_value p a (INR b / INR p) = if Nat.eqb a b then 1 else 0) /\
  (forall x, is_derive (basis_value p a) x (basis_derivative p a x)).
Proof.
  intros p a Hp Ha. split; [apply basis_deg|]. split; [|apply basis_deriv].
  intros b Hb. rewrite basis_nodal by lia. unfold delta. reflexivity.
Qed.
Theorem C36_interpolation : forall p f x, (0 < p)%nat ->
  rsum (tab (S p) (fun a => basis_value p a x)) = 1 /\
  rsum (tab (S p) (fun a => basis_derivative p a x)) = 0 /\
  (deg_lt (S p) f -> rsum (tab (S p) (fun a => f (INR a / INR p) * basis_value p a x)) = f x).
Proof. intros p f x Hp. split; [apply basis_partition; auto|]. split; [apply basis_derivative_sum; auto|]. intro Hf. apply basis_reproduces; auto. Qed.

Lemma space_degree m p s : new_fespace m p = Ok s -> (0 < p)%nat.
Proof. unfold new_fespace, new_gindex. destruct (Nat.ltb_spec 0 p); [auto|discriminate]. Qed.
Lemma node_affine p a c : (0 < p)%nat -> node_of p a c = affine (INR a / INR p) c.
Proof. intro Hp. unfold node_of, affine, ilength. field. apply not_0_INR. lia. Qed.

(** A finite element is, cell by cell, a polynomial of degree at most p with the degrees of freedom as nodal values; it is
    continuous across the cells (periodically); its derivative is the derivative. *)
Theorem C36_elements : forall D n m p s v,
  (0 < n)%nat -> ia D < ib D -> new_mesh D n = Ok m -> new_fespace m p = Ok s ->
  (forall c, (c < n)%nat -> deg_lt (S p) (element s v c)) /\
  (forall c a, (c < n)%nat -> (a <= p)%nat -> element s v c (node_of p a (fs_cell s c)) = dof v (fs_number s c a)) /\
  (forall c, (c < n)%nat -> element s v c (ib (fs_cell s c)) = element s v (S c mod n) (ia (fs_cell s (S c mod n)))) /\
  (forall c x, (c < n)%nat -> is_derive (element s v c) x (element_derivative s v c x)).
Proof.
  intros D n m p s v Hn HD Em Es. assert (Hp := space_degree m p s Es).
  assert (EV := element_val D n m p s Hn HD Hp Em Es v). assert (ST := s_step D n m p s Hn HD Hp Em Es).
  assert (N : forall c a, (c < n)%nat -> (a <= p)%nat -> element s v c (node_of p a (fs_cell s c)) = dof v (fs_number s c a)).
  { intros c a Hc Ha. rewrite EV, node_affine, affine_cancel by (auto; destruct (ST c Hc); lra). unfold local_fun.
    rewrite (sum_ext _ _ (fun b => delta b a * dof v (fs_number s c b))) by (intros b Hb; rewrite basis_nodal by lia; ring).
    apply (sum_delta (S p) a (fun b => dof v (fs_number s c b))). lia. }
  assert (I : forall c x, (c < n)%nat -> is_derive (fun x => affine_inverse x (fs_cell s c)) x (/ ilength (fs_cell s c))).
  { intros c x Hc. destruct (ST c Hc) as [_ Q]. unfold affine_inverse. auto_derive; [lra|]. field. lra. }
  split; [|split; [exact N|split]].
  - intros c Hc. destruct (ST c Hc) as [_ Q].
    destruct (deg_comp_affine (/ ilength (fs_cell s c)) (- ia (fs_cell s c) / ilength (fs_cell s c)) (S p) (local_fun p s v c) (local_deg p s v c)) as [q [Lq Eq]].
    exists q. split; [exact Lq|]. intro x. rewrite EV, <- Eq. f_equal. unfold affine_inverse. field. lra.
  - intros c Hc. assert (E0 : forall k, ia (fs_cell s k) = node_of p 0 (fs_cell s k)) by (intro; unfold node_of; cbn; ring).
    assert (E1 : ib (fs_cell s c) = node_of p p (fs_cell s c)) by (unfold node_of; field; apply not_0_INR; lia).
    rewrite E0, E1. assert (S c mod n < n)%nat by (apply Nat.mod_upper_bound; lia). rewrite !N by (auto; lia). f_equal.
    rewrite (num_last D n m p s Hn HD Hp Em Es) by auto. destruct (Nat.eqb_spec (S c) n) as [E|E].
    + rewrite E, Nat.mod_same by lia. rewrite (num_small D n m p s Hn HD Hp Em Es) by lia. reflexivity.
    + rewrite Nat.mod_small by lia. reflexivity.
  - intros c x Hc. rewrite (element_der_val D n m p s Hn HD Hp Em Es).
    apply (is_derive_ext (fun x => local_fun p s v c (affine_inverse x (fs_cell s c)))); [intro; symmetry; apply EV|].
    assert (X := is_derive_comp (local_fun p s v c) (fun x => affine_inverse x (fs_cell s c)) x _ _ (local_derive p s v c (affine_inverse x (fs_cell s c))) (I c x Hc)). exact X.
Qed.
(** the initial degrees of freedom reproduce every continuous periodic function that is a polynomial of degree at most p on
    each cell *)
Theorem C36_initial_values : forall D n m p s old u0,
  (0 < n)%nat -> ia D < ib D -> new_mesh D n = Ok m -> new_fespace m p = Ok s ->
  u0 (ib D) = u0 (ia D) -> (forall c, (c < n)%nat -> poly_on p (fs_cell s c) u0) ->
  forall c x, (c < n)%nat -> ia (fs_cell s c) <= x <= ib (fs_cell s c) -> element s (initial_dofs old s u0) c x = u0 x.
Proof.
  intros D n m p s old u0 Hn HD Em Es HP HC c x Hc Hx. assert (Hp := space_degree m p s Es).
  destruct (C34_basis_nodes D n m p s old Hn HD Em Es) as [BL [BD [_ BN]]].
  destruct (HC c Hc) as [g [Dg Eg]]. destruct (s_step D n m p s Hn HD Hp Em Es c Hc) as [_ Q].
  rewrite (element_val D n m p s Hn HD Hp Em Es). unfold local_fun.
  assert (P0 : 0 < INR p) by (apply lt_0_INR; lia).
  rewrite (sum_ext _ _ (fun a => (fun y => g (affine y (fs_cell s c))) (INR a / INR p) * basis_value p a (affine_inverse x (fs_cell s c)))).
  - rewrite (basis_reproduces p (fun y => g (affine y (fs_cell s c)))); auto.
    + rewrite affine_cancel' by lra. symmetry. auto.
    + destruct (deg_comp_affine (ilength (fs_cell s c)) (ia (fs_cell s c)) (S p) g Dg) as [q [Lq Eq]]. exists q. split; [exact Lq|]. intro y. rewrite <- Eq. reflexivity.
  - intros a Ha. f_equal. unfold dof, initial_dofs. assert (NL := num_lt D n m p s Hn HD Hp Em Es c a Hc ltac:(lia)).
    rewrite (nth_map' _ _ _ 0) by lia.
    assert (IN : ia (fs_cell s c) <= node_of p a (fs_cell s c) <= ib (fs_cell s c)).
    { unfold node_of. fold (ilength (fs_cell s c)). assert (0 <= INR a <= INR p) by (split; [apply pos_INR|apply le_INR; lia]).
      assert (0 <= INR a / INR p <= 1). { split; [apply Rmult_le_pos; [lra|left; apply Rinv_0_lt_compat; lra]|]. apply (Rmult_le_reg_r (INR p)); [lra|]. unfold Rdiv. rewrite Rmult_assoc, Rinv_l by lra. lra. }
      replace (INR a * (ilength (fs_cell s c) / INR p)) with (INR a / INR p * ilength (fs_cell s c)) by (field; lra). unfold ilength in *. nra. }
    transitivity (u0 (node_of p a (fs_cell s c))); [|rewrite Eg by exact IN; rewrite node_affine by auto; reflexivity].
    destruct (BN c a Hc ltac:(lia)) as [->|[_ [[-> ->]|[-> ->]]]]; auto.
Qed.
(** the fast elements are the elements at the stored local points *)
Theorem C36_fast_elements : forall D n m p s v points c q,
  (0 < n)%nat -> ia D < ib D -> new_mesh D n = Ok m -> new_fespace m p = Ok s -> (c < n)%nat -> (q < length points)%nat ->
  let x := affine (nth q points 0) (fs_cell s c) in
  fast_value s points v c q = element s v c x /\ fast_derivative s points v c q = element_derivative s v c x.
Proof.
  intros D n m p s v points c q Hn HD Em Es Hc Hq x. assert (Hp := space_degree m p s Es). destruct (s_step D n m p s Hn HD Hp Em Es c Hc) as [_ Q].
  assert (G : forall F : nat -> R -> R, rsum (map2 Rmult (local_dofs s v c) (map (fun values => nth q values 0) (tab (S p) (fun a => map (F a) points)))) =
    rsum (tab (S p) (fun a => dof v (fs_number s c a) * F a (nth q points 0)))).
  { intro F. unfold local_dofs. rewrite (s_locals D n m p s Hn HD Hp Em Es). rewrite map_tab. change (map (fun a => dof v (fs_number s c a)) (seq 0 (S p))) with (tab (S p) (fun a => dof v (fs_number s c a))).
    rewrite map2_tab. apply sum_ext. intros a Ha. rewrite (nth_map' _ _ _ 0) by auto. reflexivity. }
  split.
  - unfold fast_value, fast_basis. rewrite (s_degree D n m p s Hn HD Hp Em Es), G, (element_val D n m p s Hn HD Hp Em Es). unfold x. rewrite affine_cancel by lra. reflexivity.
  - unfold fast_derivative, fast_basis_derivative. rewrite (s_degree D n m p s Hn HD Hp Em Es), G, (element_der_val D n m p s Hn HD Hp Em Es). unfold x. rewrite affine_cancel by lra. unfold affine_inverse_derivative, Rdiv. rewrite Rmult_1_l. reflexivity.
Qed.

(** * Witnesses *)
Example C34_ex : exists m g s, new_mesh {| ia := 0; ib := 6 |} 3 = Ok m /\ new_gindex m 2 false = Ok g /\ new_fespace m 2 = Ok s /\
  gi_dimension g = 7%nat /\ gi_call g 2 2 = Ok 6%nat /\ fs_dimension s = 6%nat /\ fs_number s 2 2 = 0%nat /\ fs_number s 0 2 = fs_number s 1 0 /\
  neighbours_array (fe_neighbours (fs_index s)) = [[0; 1; 2; 4; 5]; [0; 1; 2; 1; 1]; [0; 1; 2; 3; 4]; [2; 3; 4; 3; 3]; [2; 3; 4; 5; 0]; [4; 5; 0; 5; 5]]%Z.
Proof.
  assert (E := new_mesh_ok {| ia := 0; ib := 6 |} 3 ltac:(lia) ltac:(cbn; lra)). rewrite E.
  eexists. eexists. eexists. split; [reflexivity|]. split; [reflexivity|]. split; [reflexivity|]. repeat split; reflexivity.
Qed.
(** a hat function on [0,2] is reproduced by degree 1 *)
Example C36_ex : exists m s, new_mesh {| ia := 0; ib := 2 |} 2 = Ok m /\ new_fespace m 1 = Ok s /\
  (forall c, (c < 2)%nat -> poly_on 1 (fs_cell s c) (fun x => Rmin x (2 - x))) /\ Rmin 2 (2 - 2) = Rmin 0 (2 - 0).
Proof.
  rewrite (new_mesh_ok {| ia := 0; ib := 2 |} 2 ltac:(lia) ltac:(cbn; lra)). eexists. eexists. split; [reflexivity|]. split; [reflexivity|]. split.
  - assert (Z : forall c, (c < 2)%nat -> nth c (tab 2 (unif_cell {| ia := 0; ib := 2 |} 2)) {| ia := 0; ib := 0 |} = {| ia := INR c; ib := INR (S c) |}).
    { intros c Hc. rewrite nth_tab by auto. unfold unif_cell, ilength. cbn [ia ib]. replace (INR 2) with 2 by (cbn; ring). f_equal; field. }
    intros [|[|c]] Hc; [| |lia]; unfold fs_cell; cbn [fs_mesh m_cells]; rewrite Z by lia; cbn -[Rmin].
    + exists (fun x => x). split; [exists [0; 1]; split; [auto|intro; cbn; ring]|]. intros x Hx; cbn in Hx. rewrite Rmin_left by lra. reflexivity.
    + exists (fun x => 2 - x). split; [exists [2; -1]; split; [auto|intro; cbn; ring]|]. intros x Hx; cbn in Hx. rewrite Rmin_right by lra. reflexivity.
  - rewrite Rmin_right, Rmin_left by lra. ring.
Qed.

Print Assumptions C34_numbering.
Print Assumptions C34_refusals.
Print Assumptions C34_basis_nodes.
Print Assumptions C35_fe_neighbours_share_a_cell.
Print Assumptions C36_basis.
Print Assumptions C36_interpolation.
Print Assumptions C36_elements.
Print Assumptions C36_initial_values.
Print Assumptions C36_fast_elements.
