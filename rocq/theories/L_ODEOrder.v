(** Order conditions checked for all rooted trees up to a given size. Trees are
    enumerated (the enumeration is proved complete) and each condition is checked
    in Z[sqrt 21], after scaling with a common denominator. *)
From Coq Require Import Reals List Lia Lra Arith Bool ZArith.
From Verif Require Import Prelude L_Prelude M_ODE S_ODE.
Import ListNotations.
Open Scope R_scope.

(* induction principle for trees *)
Fixpoint tree_ind' (P : tree -> Prop) (H : forall ch, Forall P ch -> P (Node ch)) (t : tree) : P t :=
  match t with
  | Node ch => H ch ((fix go l : Forall P l := match l with
                     | [] => Forall_nil P
                     | x :: l' => Forall_cons x (tree_ind' P H x) (go l')
                     end) ch)
  end.

Fixpoint forest_size (l : list tree) : nat :=
  match l with [] => O | x :: l' => (tree_size x + forest_size l')%nat end.
Lemma tree_size_node ch : tree_size (Node ch) = S (forest_size ch).
Proof. reflexivity. Qed.

Fixpoint forest_gamma (l : list tree) : R :=
  match l with [] => 1 | x :: l' => tree_gamma x * forest_gamma l' end.
Lemma tree_gamma_node ch : tree_gamma (Node ch) = INR (tree_size (Node ch)) * forest_gamma ch.
Proof. reflexivity. Qed.

Fixpoint forest_phi (T : tableau) (s : nat) (l : list tree) (i : nat) : R :=
  match l with
  | [] => 1
  | x :: l' => rsum (tab s (fun j => rkA T i j * tree_phi T s x j)) * forest_phi T s l' i
  end.
Lemma tree_phi_node T s ch i : tree_phi T s (Node ch) i = forest_phi T s ch i.
Proof. induction ch; [reflexivity|]. cbn [forest_phi]. rewrite <- IHch. reflexivity. Qed.

(** enumeration *)
Fixpoint forests (fuel n : nat) : list (list tree) :=
  match fuel with
  | O => match n with O => [[]] | _ => [] end
  | S fuel' =>
      match n with
      | O => [[]]
      | S n' => flat_map (fun k => flat_map (fun c => map (fun rest => Node c :: rest) (forests fuel' (n' - k)))
                                     (forests fuel' k)) (seq 0 (S n'))
      end
  end.

Lemma forests_complete : forall fuel n, (n <= fuel)%nat ->
  forall l, forest_size l = n -> In l (forests fuel n).
Proof.
  induction fuel; intros n Hn l Hl.
  - destruct n; [|lia]. destruct l as [|[ch] l]; [simpl; auto|].
    cbn [forest_size] in Hl. rewrite tree_size_node in Hl. lia.
  - destruct n as [|n].
    + destruct l as [|[ch] l]; [simpl; auto|].
      cbn [forest_size] in Hl. rewrite tree_size_node in Hl. lia.
    + destruct l as [|[ch] l]; [discriminate|].
      cbn [forest_size] in Hl. rewrite tree_size_node in Hl.
      cbn [forests]. apply in_flat_map. exists (forest_size ch). split.
      * apply in_seq. lia.
      * apply in_flat_map. exists ch. split; [apply IHfuel; lia|].
        apply in_map. apply IHfuel; lia.
Qed.

Definition trees_upto (p : nat) : list tree :=
  flat_map (fun n => map Node (forests n n)) (seq 0 p).
Lemma trees_upto_complete p t : (tree_size t <= p)%nat -> In t (trees_upto p).
Proof.
  destruct t as [ch]. rewrite tree_size_node. intro H. apply in_flat_map.
  exists (forest_size ch). split; [apply in_seq; lia|]. apply in_map. apply forests_complete; auto.
Qed.

(** arithmetic in Z[sqrt 21] *)
Definition zz := (Z * Z)%type.
Definition zz_add (x y : zz) : zz := (fst x + fst y, snd x + snd y)%Z.
Definition zz_mul (x y : zz) : zz :=
  (fst x * fst y + 21 * (snd x * snd y), fst x * snd y + snd x * fst y)%Z.
Definition zz_r (x : zz) : R := IZR (fst x) + IZR (snd x) * sqrt 21.
Fixpoint zz_dot (x y : list zz) : zz :=
  match x, y with a :: x', b :: y' => zz_add (zz_mul a b) (zz_dot x' y') | _, _ => (0, 0)%Z end.

Lemma zz_r_add x y : zz_r (zz_add x y) = zz_r x + zz_r y.
Proof. unfold zz_r, zz_add; cbn [fst snd]. rewrite !plus_IZR. ring. Qed.
Lemma zz_r_mul x y : zz_r (zz_mul x y) = zz_r x * zz_r y.
Proof.
  unfold zz_r, zz_mul; cbn [fst snd]. rewrite !plus_IZR, !mult_IZR.
  assert (E : sqrt 21 * sqrt 21 = 21) by (apply sqrt_sqrt; lra).
  generalize dependent (sqrt 21). intros r E.
  transitivity (IZR (fst x) * IZR (fst y) + (r * r) * (IZR (snd x) * IZR (snd y))
    + (IZR (fst x) * IZR (snd y) + IZR (snd x) * IZR (fst y)) * r); [rewrite E; ring|ring].
Qed.
Lemma zz_r_dot : forall x y n, length x = n -> length y = n ->
  zz_r (zz_dot x y) = rsum (tab n (fun i => zz_r (nth i x (0,0)%Z) * zz_r (nth i y (0,0)%Z))).
Proof.
  induction x; intros [|b y] n Hx Hy; simpl in *; subst; try discriminate.
  - unfold zz_r; simpl. lra.
  - rewrite tab_S. cbn [rsum fold_right]. rewrite zz_r_add, zz_r_mul. simpl. f_equal.
    apply IHx; lia.
Qed.

(** scaled tableau and the weights Phi_i as vectors *)
Fixpoint zz_hadamard (x y : list zz) : list zz :=
  match x, y with a :: x', b :: y' => zz_mul a b :: zz_hadamard x' y' | _, _ => [] end.
Lemma zz_hadamard_spec : forall x y n, length x = n -> length y = n ->
  length (zz_hadamard x y) = n /\ forall i, (i < n)%nat ->
  nth i (zz_hadamard x y) (0,0)%Z = zz_mul (nth i x (0,0)%Z) (nth i y (0,0)%Z).
Proof.
  induction x; intros [|b y] n Hx Hy; simpl in *; subst; try discriminate.
  - split; auto. intros; lia.
  - destruct (IHx y (length x)) as [I1 I2]; try lia. split; [simpl; lia|].
    intros [|i] Hi; auto. apply I2; lia.
Qed.

Definition ones (s : nat) : list zz := repeat (1, 0)%Z s.
Fixpoint zphi (A : list (list zz)) (s : nat) (t : tree) : list zz :=
  match t with
  | Node ch =>
      (fix go l := match l with
                   | [] => ones s
                   | x :: l' => let v := zphi A s x in
                                zz_hadamard (map (fun row => zz_dot row v) A) (go l')
                   end) ch
  end.
Fixpoint zphi_forest (A : list (list zz)) (s : nat) (l : list tree) : list zz :=
  match l with
  | [] => ones s
  | x :: l' => zz_hadamard (map (fun row => zz_dot row (zphi A s x)) A) (zphi_forest A s l')
  end.
Lemma zphi_node A s ch : zphi A s (Node ch) = zphi_forest A s ch.
Proof. induction ch; [reflexivity|]. cbn [zphi_forest]. rewrite <- IHch. reflexivity. Qed.

Fixpoint zgamma (t : tree) : Z :=
  match t with
  | Node ch => Z.of_nat (tree_size t) *
      (fix go l := match l with [] => 1 | x :: l' => zgamma x * go l' end) ch
  end%Z.
Lemma zgamma_spec t : IZR (zgamma t) = tree_gamma t.
Proof.
  induction t as [ch H] using tree_ind'. cbn [zgamma tree_gamma]. rewrite mult_IZR, <- INR_IZR_INZ.
  f_equal. induction H; auto. rewrite mult_IZR, H, IHForall; auto.
Qed.
Lemma tree_gamma_pos t : 0 < tree_gamma t.
Proof.
  induction t as [ch H] using tree_ind'. rewrite tree_gamma_node. apply Rmult_lt_0_compat.
  - rewrite tree_size_node. apply lt_0_INR. lia.
  - induction H; simpl; [lra|]. apply Rmult_lt_0_compat; auto.
Qed.

Section Check.
Variables (T : tableau) (s : nat) (A : list (list zz)) (b : list zz) (L : Z).
Hypothesis HL : (0 < L)%Z.
Hypothesis Hs : length (rk_b T) = s.
Hypothesis HA : length A = s.
Hypothesis HAr : Forall (fun r => length r = s) A.
Hypothesis Hb : length b = s.
Hypothesis HAe : forall i j, (i < s)%nat -> (j < s)%nat ->
  zz_r (nth j (nth i A []) (0,0)%Z) = IZR L * rkA T i j.
Hypothesis Hbe : forall i, (i < s)%nat -> zz_r (nth i b (0,0)%Z) = IZR L * rkb T i.

Lemma HLr : 0 < IZR L. Proof. apply (IZR_lt 0); auto. Qed.

Lemma zphi_correct t : length (zphi A s t) = s /\
  forall i, (i < s)%nat ->
    zz_r (nth i (zphi A s t) (0,0)%Z) = IZR L ^ (pred (tree_size t)) * tree_phi T s t i.
Proof.
  induction t as [ch H] using tree_ind'. rewrite zphi_node, tree_size_node. cbn [pred].
  assert (G : length (zphi_forest A s ch) = s /\ forall i, (i < s)%nat ->
    zz_r (nth i (zphi_forest A s ch) (0,0)%Z) = IZR L ^ (forest_size ch) * forest_phi T s ch i).
  { induction H as [|x l [Hx1 Hx2] Hl [IH1 IH2]].
    - simpl. unfold ones. split; [apply repeat_length|]. intros i Hi.
      rewrite (nth_indep _ _ (1,0)%Z) by (rewrite repeat_length; auto).
      rewrite nth_repeat. unfold zz_r; simpl. ring.
    - cbn [zphi_forest].
      destruct (zz_hadamard_spec (map (fun row => zz_dot row (zphi A s x)) A) (zphi_forest A s l) s) as [S1 S2];
        [rewrite map_length; auto | auto |].
      split; auto. intros i Hi. rewrite S2, zz_r_mul, IH2 by auto.
      rewrite (nth_indep _ _ (zz_dot [] (zphi A s x))) by (rewrite map_length; lia).
      rewrite (map_nth (fun row => zz_dot row (zphi A s x)) A [] i).
      rewrite (zz_r_dot _ _ s); auto.
      2:{ rewrite Forall_forall in HAr. apply HAr. apply nth_In. lia. }
      rewrite (tab_ext s _ (fun j => IZR L * IZR L ^ (pred (tree_size x)) * (rkA T i j * tree_phi T s x j))).
      2:{ intros j Hj. rewrite HAe, Hx2 by auto. ring. }
      rewrite rsum_tab_scal. cbn [forest_size forest_phi].
      assert (E : tree_size x = S (pred (tree_size x))) by (destruct x; rewrite tree_size_node; auto).
      rewrite pow_add. rewrite E at 2. cbn [pow]. ring. }
  destruct G as [G1 G2]. split; auto. intros i Hi. rewrite G2, tree_phi_node by auto. reflexivity.
Qed.

Definition check_tree (t : tree) : bool :=
  let v := zz_mul (zz_dot b (zphi A s t)) (zgamma t, 0)%Z in
  (Z.eqb (fst v) (L ^ Z.of_nat (tree_size t)) && Z.eqb (snd v) 0)%Z%bool.

Lemma check_tree_correct t : check_tree t = true <-> order_condition T t.
Proof.
  destruct (zphi_correct t) as [P1 P2]. pose proof HLr as HL'. pose proof (tree_gamma_pos t) as Hg.
  assert (E : zz_r (zz_dot b (zphi A s t)) =
              IZR L ^ tree_size t * rsum (tab s (fun i => rkb T i * tree_phi T s t i))).
  { rewrite (zz_r_dot _ _ s) by auto.
    rewrite (tab_ext s _ (fun j => IZR L * IZR L ^ (pred (tree_size t)) * (rkb T j * tree_phi T s t j))).
    2:{ intros j Hj. rewrite Hbe, P2 by auto. ring. }
    rewrite rsum_tab_scal.
    assert (E : tree_size t = S (pred (tree_size t))) by (destruct t; rewrite tree_size_node; auto).
    rewrite E at 2. cbn [pow]. ring. }
  assert (Hp : 0 < IZR L ^ tree_size t) by (apply pow_lt; auto).
  unfold order_condition. rewrite Hs.
  set (X := rsum (tab s (fun i => rkb T i * tree_phi T s t i))) in *.
  assert (EV : zz_r (zz_mul (zz_dot b (zphi A s t)) (zgamma t, 0)%Z) = IZR L ^ tree_size t * X * tree_gamma t).
  { rewrite zz_r_mul, E. unfold zz_r at 1. cbn [fst snd]. rewrite zgamma_spec. ring. }
  unfold check_tree. set (v := zz_mul _ _) in *. 
  rewrite Bool.andb_true_iff, !Z.eqb_eq. split.
  - intros [V1 V2]. unfold zz_r in EV. rewrite V1, V2 in EV. rewrite <- pow_IZR in EV.
    assert (IZR L ^ tree_size t * (X * tree_gamma t - 1) = 0) by lra.
    apply Rmult_integral in H as [H|H]; [lra|].
    apply Rmult_eq_reg_r with (tree_gamma t); [|lra]. field_simplify; lra.
  - intro HX. rewrite HX in EV.
    assert (EV' : zz_r v = IZR (L ^ Z.of_nat (tree_size t))).
    { rewrite EV, <- pow_IZR. field. lra. }
    unfold zz_r in EV'.
    destruct (Z.eq_dec (snd v) 0) as [Z0|Z0].
    + split; auto. rewrite Z0 in EV'. apply eq_IZR. lra.
    + exfalso. (* sqrt 21 is irrational *)
      assert (E2 : IZR (snd v) * sqrt 21 = IZR (L ^ Z.of_nat (tree_size t) - fst v)).
      { rewrite minus_IZR. lra. }
      set (w := (L ^ Z.of_nat (tree_size t) - fst v)%Z) in *.
      assert (E3 : (21 * (snd v * snd v) = w * w)%Z).
      { apply eq_IZR. rewrite !mult_IZR, <- E2.
        replace 21 with (sqrt 21 * sqrt 21) at 1 by (apply sqrt_sqrt; lra). ring. }
      clearbody w. clear - E3 Z0. revert Z0 E3. generalize (snd v) as y. intros y Hy E3.
      (* descent modulo 3 *)
      assert (G : forall n y w, (Z.abs_nat y <= n)%nat -> (21 * (y * y) = w * w)%Z -> y = 0%Z).
      { clear. induction n; intros y w Hn E.
        - lia.
        - assert (Hm : forall z, ((z * z) mod 3 = 0 -> z mod 3 = 0)%Z).
          { intros z Hz. rewrite Z.mul_mod in Hz by lia.
            assert (0 <= z mod 3 < 3)%Z by (apply Z.mod_pos_bound; lia).
            assert (z mod 3 = 0 \/ z mod 3 = 1 \/ z mod 3 = 2)%Z as [C|[C|C]] by lia;
              rewrite C in Hz; simpl in Hz; auto; discriminate. }
          assert (W : (w mod 3 = 0)%Z).
          { apply Hm. rewrite <- E. replace (21 * (y * y))%Z with ((7 * (y * y)) * 3)%Z by ring.
            apply Z_mod_mult. }
          apply Z.mod_divide in W; [|lia]. destruct W as [w' ->].
          assert (E' : (7 * (y * y) = 3 * (w' * w'))%Z) by nia.
          assert (Y : (y mod 3 = 0)%Z).
          { apply Hm.
            assert (((7 * (y * y)) mod 3 = 0)%Z)
              by (rewrite E'; replace (3 * (w' * w'))%Z with ((w' * w') * 3)%Z by ring; apply Z_mod_mult).
            rewrite Z.mul_mod in H by lia. change (7 mod 3)%Z with 1%Z in H.
            rewrite Z.mul_1_l, Z.mod_mod in H by lia. auto. }
          apply Z.mod_divide in Y; [|lia]. destruct Y as [y' ->].
          destruct (Z.eq_dec y' 0) as [->|Hy']; [reflexivity|].
          assert (y' = 0%Z) by (apply (IHn y' w'); [lia|nia]). congruence. }
      apply Hy. eapply G; [apply le_n|eassumption].
Qed.

Lemma has_order_check p : forallb check_tree (trees_upto p) = true -> has_order T p.
Proof.
  intros H t Ht. apply check_tree_correct. rewrite forallb_forall in H. apply H.
  apply trees_upto_complete; auto.
Qed.
End Check.

Lemma list_eq_nth2 (A : list (list zz)) (B : list (list R)) (L : R) s :
  length A = s ->
  map (map zz_r) A = map (map (Rmult L)) B ->
  forall i j, (i < s)%nat -> (j < length (nth i A []))%nat ->
    zz_r (nth j (nth i A []) (0,0)%Z) = L * nth j (nth i B []) 0.
Proof.
  intros HA E i j Hi Hj.
  assert (E1 : nth i (map (map zz_r) A) [] = nth i (map (map (Rmult L)) B) []) by (rewrite E; auto).
  change (@nil R) with (map zz_r []) in E1 at 1. rewrite map_nth in E1.
  change (@nil R) with (map (Rmult L) []) in E1 at 1. rewrite map_nth in E1.
  assert (E2 : nth j (map zz_r (nth i A [])) (zz_r (0,0)%Z) = nth j (map (Rmult L) (nth i B [])) (L * 0)).
  { rewrite E1. f_equal. unfold zz_r; simpl; ring. }
  rewrite map_nth in E2. rewrite map_nth in E2. exact E2.
Qed.
Lemma list_eq_nth1 (A : list zz) (B : list R) (L : R) s :
  length A = s -> map zz_r A = map (Rmult L) B ->
  forall i, (i < s)%nat -> zz_r (nth i A (0,0)%Z) = L * nth i B 0.
Proof.
  intros HA E i Hi.
  assert (E2 : nth i (map zz_r A) (zz_r (0,0)%Z) = nth i (map (Rmult L) B) (L * 0)).
  { rewrite E. f_equal. unfold zz_r; simpl; ring. }
  rewrite map_nth in E2. rewrite map_nth in E2. exact E2.
Qed.

Ltac leq := repeat (apply f_equal2; [unfold zz_r; cbn [fst snd]; lra|]); reflexivity.
Ltac lleq := cbn [map]; repeat (apply f_equal2; [cbn [map]; leq|]); reflexivity.

Lemma order_by_check (T : tableau) s (A : list (list zz)) (b : list zz) (L : Z) p :
  (0 < L)%Z -> length (rk_b T) = s -> length A = s -> Forall (fun r => length r = s) A -> length b = s ->
  map (map zz_r) A = map (map (Rmult (IZR L))) (rk_A T) ->
  map zz_r b = map (Rmult (IZR L)) (rk_b T) ->
  (forallb (check_tree s A b L) (trees_upto p) = true -> has_order T p) /\
  (forall t, check_tree s A b L t = false -> ~ order_condition T t).
Proof.
  intros HL Hs HA HAr Hb EA Eb. 
  assert (Q1 : forall i j, (i < s)%nat -> (j < s)%nat ->
     zz_r (nth j (nth i A []) (0,0)%Z) = IZR L * rkA T i j).
  { intros i j Hi Hj. unfold rkA. eapply list_eq_nth2; eauto.
    rewrite Forall_forall in HAr. rewrite HAr; auto. apply nth_In; lia. }
  assert (Q2 : forall i, (i < s)%nat -> zz_r (nth i b (0,0)%Z) = IZR L * rkb T i).
  { intros i Hi. unfold rkb. eapply list_eq_nth1; eauto. }
  split.
  - apply has_order_check; auto.
  - intros t Ht O. apply (check_tree_correct T s A b L) in O; auto. congruence.
Qed.

Definition zint (l : list Z) : list zz := map (fun x => (x, 0)%Z) l.

Lemma euler_order : has_order euler 1.
Proof.
  apply (order_by_check euler 1 (map zint [[0]%Z]) (zint [1%Z]) 1 1); try reflexivity; try lia.
  - repeat constructor.
  - unfold zint. simpl rk_A. lleq.
  - unfold zint; cbn [map]; simpl rk_b. cbn [map]. leq.
Qed.
Lemma euler_not_order2 : ~ has_order euler 2.
Proof.
  intro H. destruct (order_by_check euler 1 (map zint [[0]%Z]) (zint [1%Z]) 1 1) as [_ N]; try reflexivity; try lia.
  - repeat constructor.
  - unfold zint. simpl rk_A. lleq.
  - unfold zint; cbn [map]; simpl rk_b. cbn [map]. leq.
  - apply (N (Node [Node []])); [reflexivity|]. apply H. simpl; lia.
Qed.

Definition zheun_A := map zint [[0;0];[2;0]]%Z.
Definition zheun_b := zint [1;1]%Z.
Lemma heun_check p :
  (forallb (check_tree 2 zheun_A zheun_b 2) (trees_upto p) = true -> has_order heun p) /\
  (forall t, check_tree 2 zheun_A zheun_b 2 t = false -> ~ order_condition heun t).
Proof.
  apply order_by_check; try reflexivity; try lia.
  - repeat constructor.
  - unfold zheun_A, zint. simpl rk_A. lleq.
  - unfold zheun_b, zint. simpl rk_b. cbn [map]. leq.
Qed.
Lemma heun_order : has_order heun 2.
Proof. apply heun_check. vm_compute. reflexivity. Qed.
Lemma heun_not_order3 : ~ has_order heun 3.
Proof.
  intro H. apply (proj2 (heun_check 0) (Node [Node [Node []]])); [reflexivity|]. apply H. simpl; lia.
Qed.

Definition zssp3_A := map zint [[0;0;0];[12;0;0];[3;3;0]]%Z.
Definition zssp3_b := zint [2;2;8]%Z.
Lemma ssp3_check p :
  (forallb (check_tree 3 zssp3_A zssp3_b 12) (trees_upto p) = true -> has_order ssp3 p) /\
  (forall t, check_tree 3 zssp3_A zssp3_b 12 t = false -> ~ order_condition ssp3 t).
Proof.
  apply order_by_check; try reflexivity; try lia.
  - repeat constructor.
  - unfold zssp3_A, zint. simpl rk_A. lleq.
  - unfold zssp3_b, zint. simpl rk_b. cbn [map]. leq.
Qed.
Lemma ssp3_order : has_order ssp3 3.
Proof. apply ssp3_check. vm_compute. reflexivity. Qed.
Lemma ssp3_not_order4 : ~ has_order ssp3 4.
Proof.
  intro H. apply (proj2 (ssp3_check 0) (Node [Node [Node [Node []]]])); [reflexivity|]. apply H. simpl; lia.
Qed.

Definition zrk8_A : list (list zz) :=
  [ [(0, 0); (0, 0); (0, 0); (0, 0); (0, 0); (0, 0); (0, 0); (0, 0); (0, 0); (0, 0); (0, 0)];
    [(141120, 0); (0, 0); (0, 0); (0, 0); (0, 0); (0, 0); (0, 0); (0, 0); (0, 0); (0, 0); (0, 0)];
    [(70560, 0); (70560, 0); (0, 0); (0, 0); (0, 0); (0, 0); (0, 0); (0, 0); (0, 0); (0, 0); (0, 0)];
    [(40320, 0); (-20160, -8640); (120960, 28800); (0, 0); (0, 0); (0, 0); (0, 0); (0, 0); (0, 0); (0, 0); (0, 0)];
    [(36960, 3360); (0, 0); (80640, 17920); (23520, -1120); (0, 0); (0, 0); (0, 0); (0, 0); (0, 0); (0, 0); (0, 0)];
    [(29400, 5880); (0, 0); (70560, 7840); (-181104, 10976); (222264, -24696); (0, 0); (0, 0); (0, 0); (0, 0); (0, 0); (0, 0)];
    [(67200, -6720); (0, 0); (-387072, 82432); (1985088, -454720); (-2032128, 463680); (508032, -104832); (0, 0); (0, 0); (0, 0); (0, 0); (0, 0)];
    [(20160, 0); (0, 0); (0, 0); (0, 0); (31360, -6720); (58240, -13440); (31360, 0); (0, 0); (0, 0); (0, 0); (0, 0)];
    [(8820, 0); (0, 0); (0, 0); (0, 0); (44590, -10290); (43120, 0); (-94325, -18375); (138915, 28665); (0, 0); (0, 0); (0, 0)];
    [(20160, 0); (0, 0); (0, 0); (0, 0); (31360, 0); (-93824, -18816); (288400, 62160); (-257040, -55440); (152064, 32256); (0, 0); (0, 0)];
    [(0, 0); (0, 0); (0, 0); (0, 0); (-658560, 109760); (-112896, 175616); (-1070160, -207760); (1179920, 207760); (175616, -175616); (768320, -109760); (0, 0)] ]%Z.
Definition zrk8_b : list zz :=
  [(14112, 0); (0, 0); (0, 0); (0, 0); (0, 0); (0, 0); (0, 0); (76832, 0); (100352, 0); (76832, 0); (14112, 0)]%Z.
Lemma rk8_check p :
  (forallb (check_tree 11 zrk8_A zrk8_b 282240) (trees_upto p) = true -> has_order rk8 p) /\
  (forall t, check_tree 11 zrk8_A zrk8_b 282240 t = false -> ~ order_condition rk8 t).
Proof.
  apply order_by_check; try reflexivity; try lia.
  - repeat constructor.
  - unfold zrk8_A. simpl rk_A. unfold rk8_A. lleq.
  - unfold zrk8_b. simpl rk_b. unfold rk8_b. cbn [map]. leq.
Qed.
Lemma rk8_order : has_order rk8 8.
Proof. apply rk8_check. vm_compute. reflexivity. Qed.
