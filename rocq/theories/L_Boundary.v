From Coq Require Import Reals List ZArith Arith String Lia Lra Bool.
From Verif Require Import Prelude L_Prelude M_Boundary S_Boundary.
Import ListNotations.
Open Scope R_scope.

Lemma mapM_ok {A B} (f : A -> result B) l bs :
  mapM f l = Ok bs <-> (List.length bs = List.length l /\
    forall i a, nth_error l i = Some a -> exists b, nth_error bs i = Some b /\ f a = Ok b).
Proof.
  revert bs; induction l as [|a l IH]; intro bs; simpl.
  - split.
    + intro E; inversion E; subst. split; auto. intros [|i] a H; discriminate.
    + intros [H _]. destruct bs; [reflexivity|discriminate].
  - split.
    + destruct (f a) eqn:Ea; simpl; [|discriminate].
      destruct (mapM f l) eqn:El; simpl; [|discriminate]. intro E; inversion E; subst.
      destruct (proj1 (IH a1) eq_refl) as [L1 L2]. split; [simpl; lia|].
      intros [|i] x Hx; simpl in Hx.
      * inversion Hx; subst. exists a0. auto.
      * simpl. apply L2; auto.
    + intros [H1 H2]. destruct bs as [|b bs]; [discriminate|].
      destruct (H2 O a eq_refl) as [b' [E1 E2]]. simpl in E1. inversion E1; subst b'.
      rewrite E2. simpl. rewrite (proj2 (IH bs)); [reflexivity|].
      split; [simpl in H1; lia|]. intros i x Hx. apply (H2 (S i) x Hx).
Qed.

Lemma mapM_exists {A B} (f : A -> result B) l :
  (forall a, In a l -> exists b, f a = Ok b) -> exists bs, mapM f l = Ok bs.
Proof.
  induction l as [|a l IH]; intro H; simpl; [eexists; eauto|].
  destruct (H a) as [b ->]; [simpl; auto|]. destruct IH as [bs ->]; [intros; apply H; simpl; auto|].
  simpl. eauto.
Qed.

Lemma mapM_nth {A B} (f : A -> result B) l bs da db :
  mapM f l = Ok bs -> List.length bs = List.length l /\
  forall i, (i < List.length l)%nat -> f (nth i l da) = Ok (nth i bs db).
Proof.
  intro E. apply mapM_ok in E as [E1 E2]. split; auto. intros i Hi.
  destruct (E2 i (nth i l da)) as [b [B1 B2]]; [apply nth_error_nth'; auto|].
  rewrite B2. f_equal. symmetry. apply nth_error_nth; auto.
Qed.

Lemma mapM_err {A B} (f : A -> result B) l e :
  (forall a e', In a l -> f a = Err e' -> e' = e) -> (exists a, In a l /\ f a = Err e) -> mapM f l = Err e.
Proof.
  induction l as [|a l IH]; intros He [x [Hx Ex]]; [destruct Hx|]. simpl.
  destruct (f a) eqn:Ea; simpl.
  - destruct Hx as [->|Hx]; [congruence|]. rewrite IH; auto.
    + intros; apply (He a1); simpl; auto.
    + eauto.
  - f_equal. apply (He a); simpl; auto.
Qed.

Lemma pyget_nonneg {A} (l : list A) k d : (k < List.length l)%nat -> pyget l (Z.of_nat k) = Ok (nth k l d).
Proof.
  intro H. unfold pyget. destruct (Z.ltb_spec (Z.of_nat k) 0); [lia|].
  destruct (Z.leb_spec 0 (Z.of_nat k)); [|lia].
  destruct (Z.ltb_spec (Z.of_nat k) (Z.of_nat (List.length l))); [|lia]. simpl.
  rewrite Nat2Z.id. rewrite (nth_error_nth' l d) by auto. reflexivity.
Qed.
Lemma pyget_neg {A} (l : list A) k d : (k < List.length l)%nat ->
  pyget l (- Z.of_nat k - 1) = Ok (nth (List.length l - 1 - k) l d).
Proof.
  intro H. unfold pyget. destruct (Z.ltb_spec (- Z.of_nat k - 1) 0); [|lia].
  replace (Z.of_nat (List.length l) + (- Z.of_nat k - 1))%Z with (Z.of_nat (List.length l - 1 - k)) by lia.
  destruct (Z.leb_spec 0 (Z.of_nat (List.length l - 1 - k))); [|lia].
  destruct (Z.ltb_spec (Z.of_nat (List.length l - 1 - k)) (Z.of_nat (List.length l))); [|lia]. simpl.
  rewrite Nat2Z.id. rewrite (nth_error_nth' l d) by lia. reflexivity.
Qed.

Lemma pyget_0 {A} (l : list A) d : (0 < List.length l)%nat -> pyget l 0 = Ok (nth 0 l d).
Proof. apply (pyget_nonneg l 0). Qed.
Lemma pyget_m1 {A} (l : list A) d : (0 < List.length l)%nat -> pyget l (-1) = Ok (nth (List.length l - 1) l d).
Proof. intro H. etransitivity; [exact (pyget_neg l 0 d H)|]. do 2 f_equal. lia. Qed.

Section B.
Context {W : Type} (d : W).

Lemma build_left_ok (wall : option (W -> W)) name inflow c :
  names_cond wall name inflow c -> forall index,
  exists g, build_left wall name index inflow = Ok g /\
  forall v time, (index < List.length v)%nat -> (forall h, c = Inflow h -> time <> None) ->
    exists x, ghost_value g v time = Ok x /\ outside_value d v time c (- Z.of_nat index - 1) x.
Proof.
  intros N index. destruct c as [| |g|neg]; simpl in N.
  - subst name. eexists; split; [reflexivity|]. intros v time Hi _. simpl.
    rewrite (pyget_neg v index d Hi). eexists; split; [reflexivity|].
    f_equal. replace (- Z.of_nat index - 1)%Z
      with (Z.of_nat (List.length v - 1 - index) + (-1) * Z.of_nat (List.length v))%Z by lia.
    rewrite Z.mod_add by lia. rewrite Z.mod_small by lia. lia.
  - subst name. eexists; split; [reflexivity|]. intros v time Hi _. simpl.
    rewrite (pyget_0 v d) by lia. eexists; split; [reflexivity|].
    destruct (Z.ltb_spec (- Z.of_nat index - 1) 0); [|lia]. reflexivity.
  - destruct N as [-> ->]. eexists; split; [reflexivity|]. intros v time Hi Ht. simpl.
    destruct time as [t|]; [eauto|]. exfalso. apply (Ht g); auto.
  - destruct N as [-> ->]. eexists; split; [reflexivity|]. intros v time Hi _. simpl.
    rewrite (pyget_0 v d) by lia. simpl. eexists; split; [reflexivity|].
    destruct (Z.ltb_spec (- Z.of_nat index - 1) 0); [|lia]. reflexivity.
Qed.

Lemma build_right_ok (wall : option (W -> W)) name inflow c :
  names_cond wall name inflow c -> forall index,
  exists g, build_right wall name index inflow = Ok g /\
  forall v time, (index < List.length v)%nat -> (forall h, c = Inflow h -> time <> None) ->
    exists x, ghost_value g v time = Ok x /\
              outside_value d v time c (Z.of_nat (List.length v + index)) x.
Proof.
  intros N index. destruct c as [| |g|neg]; simpl in N.
  - subst name. eexists; split; [reflexivity|]. intros v time Hi _. simpl.
    rewrite (pyget_nonneg v index d Hi). eexists; split; [reflexivity|].
    f_equal. replace (Z.of_nat (List.length v + index))%Z
      with (Z.of_nat index + 1 * Z.of_nat (List.length v))%Z by lia.
    rewrite Z.mod_add by lia. rewrite Z.mod_small by lia. lia.
  - subst name. eexists; split; [reflexivity|]. intros v time Hi _. cbn [ghost_value].
    rewrite (pyget_m1 v d) by lia. eexists; split; [reflexivity|]. unfold outside_value.
    destruct (Z.ltb_spec (Z.of_nat (List.length v + index)) 0); [lia|]. reflexivity.
  - destruct N as [-> ->]. eexists; split; [reflexivity|]. intros v time Hi Ht. simpl.
    destruct time as [t|]; [eauto|]. exfalso. apply (Ht g); auto.
  - destruct N as [-> ->]. eexists; split; [reflexivity|]. intros v time Hi _. cbn [ghost_value].
    rewrite (pyget_m1 v d) by lia. simpl bind. eexists; split; [reflexivity|].
    unfold outside_value.
    destruct (Z.ltb_spec (Z.of_nat (List.length v + index)) 0); [lia|]. reflexivity.
Qed.

Lemma div2_double n : Nat.div2 (n + n) = n.
Proof. replace (n + n)%nat with (2 * n)%nat by lia. apply Nat.div2_double. Qed.
Lemma even_double n : Nat.even (n + n) = true.
Proof. replace (n + n)%nat with (2 * n)%nat by lia. apply Nat.even_mul. Qed.

Lemma get_bc_shape wall conds r il ir (b : bconds W) nl nr :
  side_names conds nl nr ->
  get_boundary_conditions wall conds r il ir = Ok b <->
  (mapM (fun i => build_left wall nl i il) (rev (seq 0 r)) = Ok (bc_left b) /\
   mapM (fun i => build_right wall nr i ir) (seq 0 r) = Ok (bc_right b) /\
   bc_periodic b = is_periodic conds).
Proof.
  intro S. unfold get_boundary_conditions. destruct conds as [|c1 conds]; [destruct S|].
  assert (E : nl = c1 /\ nr = match conds with [] => c1 | c :: _ => c end).
  { destruct conds; simpl in S; tauto. }
  destruct E as [-> ->].
  set (nr := match conds with [] => c1 | c :: _ => c end).
  destruct (mapM (fun i => build_left wall c1 i il) (rev (seq 0 r))) as [l|e] eqn:El; simpl.
  2:{ split; [discriminate|]. intros [H _]; discriminate. }
  destruct (mapM (fun i => build_right wall nr i ir) (seq 0 r)) as [rr|e] eqn:Er; simpl.
  2:{ split; [discriminate|]. intros [_ [H _]]; discriminate. }
  apply mapM_ok in El as [L1 _]. apply mapM_ok in Er as [L2 _].
  rewrite rev_length, seq_length in L1. rewrite seq_length in L2.
  unfold mk_bconds. rewrite app_length, L1, L2, even_double, div2_double.
  assert (E1 : firstn r (l ++ rr) = l).
  { rewrite <- L1 at 1. rewrite firstn_app, Nat.sub_diag, firstn_all. simpl. apply app_nil_r. }
  assert (E2 : skipn r (l ++ rr) = rr).
  { rewrite <- L1 at 1. rewrite skipn_app, Nat.sub_diag, skipn_all. reflexivity. }
  rewrite E1, E2. split.
  - intro H; inversion H; subst; simpl. auto.
  - intros [H1 [H2 H3]]. inversion H1; inversion H2; subst. destruct b; simpl in *; subst. reflexivity.
Qed.

Lemma nth_rev_seq r i : (i < r)%nat -> nth i (rev (seq 0 r)) O = (r - 1 - i)%nat.
Proof. intro H. rewrite rev_nth by (rewrite seq_length; auto). rewrite seq_length, seq_nth by lia. lia. Qed.

Lemma extended_spec wall conds r il ir b v time nl nr cl cr :
  side_names conds nl nr -> names_cond wall nl il cl -> names_cond wall nr ir cr ->
  get_boundary_conditions wall conds r il ir = Ok b ->
  (r <= List.length v)%nat ->
  (forall h, cl = Inflow h \/ cr = Inflow h -> time <> None) ->
  exists e, extended b v time = Ok e /\ List.length e = (List.length v + 2 * r)%nat /\
  bc_number b = r /\ bc_periodic b = is_periodic conds /\
  forall j, (j < List.length v + 2 * r)%nat ->
    extension_value d v time cl cr (Z.of_nat j - Z.of_nat r) (nth j e d).
Proof.
  intros S Nl Nr B Hr Ht. apply (get_bc_shape _ _ _ _ _ _ _ _ S) in B as [Bl [Br Bp]].
  assert (Htl : forall h, cl = Inflow h -> time <> None) by (intros; eapply Ht; eauto).
  assert (Htr : forall h, cr = Inflow h -> time <> None) by (intros; eapply Ht; eauto).
  assert (Gl : exists gl, mapM (fun g => ghost_value g v time) (bc_left b) = Ok gl /\ List.length gl = r /\
    forall i, (i < r)%nat -> outside_value d v time cl (- Z.of_nat (r - 1 - i) - 1) (nth i gl d)).
  { destruct (mapM_nth _ _ _ O (CopyCell 0) Bl) as [L1 L2]. rewrite rev_length, seq_length in *.
    destruct (mapM_exists (fun g => ghost_value g v time) (bc_left b)) as [gl E].
    - intros g Hg. apply (In_nth _ _ (CopyCell 0)) in Hg as [i [Hi <-]]. rewrite L1 in Hi.
      specialize (L2 i Hi). rewrite nth_rev_seq in L2 by auto.
      destruct (build_left_ok wall nl il cl Nl (r - 1 - i)) as [g [G1 G2]].
      rewrite G1 in L2. injection L2 as <-. destruct (G2 v time) as [x [X1 X2]]; [lia | assumption |]; eauto.
    - exists gl. split; auto. destruct (mapM_nth _ _ _ (CopyCell 0) d E) as [M1 M2].
      split; [lia|]. intros i Hi. specialize (M2 i ltac:(lia)).
      specialize (L2 i Hi). rewrite nth_rev_seq in L2 by auto.
      destruct (build_left_ok wall nl il cl Nl (r - 1 - i)) as [g [G1 G2]].
      rewrite G1 in L2. inversion L2. rewrite <- H0 in M2.
      destruct (G2 v time) as [x [X1 X2]]; [lia | assumption |]; eauto.
      rewrite M2 in X1. inversion X1; subst. exact X2. }
  assert (Gr : exists gr, mapM (fun g => ghost_value g v time) (bc_right b) = Ok gr /\ List.length gr = r /\
    forall i, (i < r)%nat -> outside_value d v time cr (Z.of_nat (List.length v + i)) (nth i gr d)).
  { destruct (mapM_nth _ _ _ O (CopyCell 0) Br) as [L1 L2]. rewrite seq_length in *.
    destruct (mapM_exists (fun g => ghost_value g v time) (bc_right b)) as [gr E].
    - intros g Hg. apply (In_nth _ _ (CopyCell 0)) in Hg as [i [Hi <-]]. rewrite L1 in Hi.
      specialize (L2 i Hi). rewrite seq_nth in L2 by auto. simpl in L2.
      destruct (build_right_ok wall nr ir cr Nr i) as [g [G1 G2]].
      rewrite G1 in L2. injection L2 as <-. destruct (G2 v time) as [x [X1 X2]]; [lia | assumption |]; eauto.
    - exists gr. split; auto. destruct (mapM_nth _ _ _ (CopyCell 0) d E) as [M1 M2].
      split; [lia|]. intros i Hi. specialize (M2 i ltac:(lia)).
      specialize (L2 i Hi). rewrite seq_nth in L2 by auto. simpl in L2.
      destruct (build_right_ok wall nr ir cr Nr i) as [g [G1 G2]].
      rewrite G1 in L2. inversion L2. rewrite <- H0 in M2.
      destruct (G2 v time) as [x [X1 X2]]; [lia | assumption |]; eauto.
      rewrite M2 in X1. inversion X1; subst. exact X2. }
  destruct Gl as [gl [E1 [L1 V1]]]. destruct Gr as [gr [E2 [L2 V2]]].
  exists (gl ++ v ++ gr). unfold extended. rewrite E1, E2. simpl. split; [reflexivity|].
  split; [rewrite !app_length; lia|]. split.
  { unfold bc_number. apply mapM_ok in Bl as [Bl _]. rewrite rev_length, seq_length in Bl. auto. }
  split; [exact Bp|].
  intros j Hj. unfold extension_value.
  destruct (Z.ltb_spec (Z.of_nat j - Z.of_nat r) 0).
  - rewrite app_nth1 by lia. specialize (V1 j ltac:(lia)).
    replace (- Z.of_nat (r - 1 - j) - 1)%Z with (Z.of_nat j - Z.of_nat r)%Z in V1 by lia. exact V1.
  - rewrite app_nth2 by lia. rewrite L1.
    destruct (Z.ltb_spec (Z.of_nat j - Z.of_nat r) (Z.of_nat (List.length v))).
    + rewrite app_nth1 by lia. f_equal. lia.
    + rewrite app_nth2 by lia. specialize (V2 (j - r - List.length v)%nat ltac:(lia)).
      replace (Z.of_nat (List.length v + (j - r - List.length v)))%Z with (Z.of_nat j - Z.of_nat r)%Z in V2 by lia.
      exact V2.
Qed.

Lemma node_neighbours_of_extended (b : bconds W) v time e m :
  extended b v time = Ok e -> (1 <= m)%nat -> (2 * m <= List.length e)%nat ->
  exists a, get_node_neighbours b v m time = Ok a /\ List.length a = (2 * m)%nat /\
  forall k, (k < 2 * m)%nat ->
    nth k a [] = tab (List.length e - 2 * m + 1) (fun i => nth (i + k) e d).
Proof.
  intros E Hm Hl. unfold get_node_neighbours. rewrite E. cbn [bind]. eexists. split; [reflexivity|].
  split.
  { rewrite app_length, map_length, seq_length. simpl. lia. }
  intros k Hk. destruct (Nat.lt_ge_cases k (2 * m - 1)).
  - rewrite app_nth1 by (rewrite map_length, seq_length; auto).
    rewrite (nth_map' _ _ k O) by (rewrite seq_length; auto). rewrite seq_nth by auto. simpl plus.
    apply (list_ext d).
    + rewrite slice_length, tab_length. lia.
    + intros i Hi. rewrite slice_length in Hi. rewrite nth_slice by lia. rewrite nth_tab by lia.
      f_equal. lia.
  - rewrite app_nth2 by (rewrite map_length, seq_length; auto). rewrite map_length, seq_length.
    replace (k - (2 * m - 1))%nat with O by lia. cbn [nth].
    apply (list_ext d).
    + rewrite skipn_length, tab_length. lia.
    + intros i Hi. rewrite skipn_length in Hi. rewrite nth_skipn, nth_tab by lia. f_equal. lia.
Qed.

Lemma node_neighbours_spec wall conds r il ir b v time nl nr cl cr m :
  side_names conds nl nr -> names_cond wall nl il cl -> names_cond wall nr ir cr ->
  get_boundary_conditions wall conds r il ir = Ok b ->
  (1 <= m <= r)%nat -> (r <= List.length v)%nat ->
  (forall h, cl = Inflow h \/ cr = Inflow h -> time <> None) ->
  exists a, get_node_neighbours b v m time = Ok a /\ List.length a = (2 * m)%nat /\
  forall k, (k < 2 * m)%nat -> List.length (nth k a []) = (List.length v + 2 * (r - m) + 1)%nat /\
    forall i, (i < List.length v + 2 * (r - m) + 1)%nat ->
      extension_value d v time cl cr (Z.of_nat i - Z.of_nat r + Z.of_nat k) (nth i (nth k a []) d).
Proof.
  intros S Nl Nr B Hm Hr Ht.
  destruct (extended_spec _ _ _ _ _ _ v time _ _ _ _ S Nl Nr B Hr Ht) as [e [E [Le [_ [_ Ve]]]]].
  destruct (node_neighbours_of_extended b v time e m E) as [a [A1 [A2 A3]]]; try lia.
  exists a. split; auto. split; auto. intros k Hk. rewrite A3 by auto. rewrite tab_length.
  split; [lia|]. intros i Hi. rewrite nth_tab by lia.
  specialize (Ve (i + k)%nat ltac:(lia)).
  replace (Z.of_nat i - Z.of_nat r + Z.of_nat k)%Z with (Z.of_nat (i + k) - Z.of_nat r)%Z by lia. exact Ve.
Qed.

(* building succeeds exactly for known names *)
Lemma get_bc_ok_iff wall conds r il ir nl nr :
  (1 <= r)%nat -> side_names conds nl nr ->
  (exists b, get_boundary_conditions (W := W) wall conds r il ir = Ok b) <->
  (exists cl, names_cond wall nl il cl) /\ (exists cr, names_cond wall nr ir cr).
Proof.
  intros Hr S. split.
  - intros [b B]. apply (get_bc_shape _ _ _ _ _ _ _ _ S) in B as [Bl [Br _]].
    destruct (mapM_nth _ _ _ O (CopyCell 0) Bl) as [_ L2].
    destruct (mapM_nth _ _ _ O (CopyCell 0) Br) as [_ R2].
    rewrite rev_length, seq_length in *. specialize (L2 O Hr). specialize (R2 O Hr).
    split.
    + unfold build_left in L2. destruct (String.eqb_spec nl "wall"); [destruct wall as [neg|]|].
      * exists (Wall neg); simpl; auto.
      * subst nl; simpl in L2; discriminate.
      * destruct (String.eqb_spec nl "periodic"); [exists Periodic; auto|].
        destruct (String.eqb_spec nl "outflow"); [exists Outflow; auto|].
        destruct (String.eqb_spec nl "inflow"); [destruct il as [g|]|].
        -- exists (Inflow g); simpl; auto.
        -- discriminate.
        -- discriminate.
    + unfold build_right in R2. destruct (String.eqb_spec nr "wall"); [destruct wall as [neg|]|].
      * exists (Wall neg); simpl; auto.
      * subst nr; simpl in R2; discriminate.
      * destruct (String.eqb_spec nr "periodic"); [exists Periodic; auto|].
        destruct (String.eqb_spec nr "outflow"); [exists Outflow; auto|].
        destruct (String.eqb_spec nr "inflow"); [destruct ir as [g|]|].
        -- exists (Inflow g); simpl; auto.
        -- discriminate.
        -- discriminate.
  - intros [[cl Nl] [cr Nr]].
    destruct (mapM_exists (fun i => build_left wall nl i il) (rev (seq 0 r))) as [l El].
    { intros i _. destruct (build_left_ok wall nl il cl Nl i) as [g [G _]]. eauto. }
    destruct (mapM_exists (fun i => build_right wall nr i ir) (seq 0 r)) as [rr Er].
    { intros i _. destruct (build_right_ok wall nr ir cr Nr i) as [g [G _]]. eauto. }
    exists {| bc_left := l; bc_right := rr; bc_periodic := is_periodic conds |}.
    apply (get_bc_shape _ _ _ _ _ _ _ _ S). simpl. auto.
Qed.

Lemma get_bc_err wall conds r il ir e :
  conds <> [] -> get_boundary_conditions (W := W) wall conds r il ir = Err e -> e = ValueError.
Proof.
  intros Hc. unfold get_boundary_conditions. destruct conds as [|c1 conds]; [congruence|].
  set (nr := match conds with [] => c1 | c :: _ => c end).
  assert (BL : forall i e, build_left wall c1 i il = Err e -> e = ValueError).
  { intros i e0. unfold build_left. destruct (if (c1 =? "wall")%string then wall else None); [discriminate|].
    repeat (match goal with |- context [if ?b then _ else _] => destruct b end; try discriminate).
    - destruct il; congruence.
    - congruence. }
  assert (BR : forall i e, build_right wall nr i ir = Err e -> e = ValueError).
  { intros i e0. unfold build_right. destruct (if (nr =? "wall")%string then wall else None); [discriminate|].
    repeat (match goal with |- context [if ?b then _ else _] => destruct b end; try discriminate).
    - destruct ir; congruence.
    - congruence. }
  assert (ME : forall A (f : A -> result (ghost W)) l e, (forall a e, f a = Err e -> e = ValueError) ->
             mapM f l = Err e -> e = ValueError).
  { intros A f l. induction l as [|a l IH]; intros e0 H; simpl; [discriminate|].
    destruct (f a) eqn:Ea; simpl.
    - destruct (mapM f l) eqn:El; simpl; [discriminate|]. intro E; inversion E; subst. eapply IH; eauto.
    - intro E; inversion E; subst. eapply H; eauto. }
  destruct (mapM (fun i => build_left wall c1 i il) (rev (seq 0 r))) as [l|e0] eqn:El; simpl.
  2:{ intro E; inversion E; subst. eapply ME; [|exact El]. simpl; eauto. }
  destruct (mapM (fun i => build_right wall nr i ir) (seq 0 r)) as [rr|e0] eqn:Er; simpl.
  2:{ intro E; inversion E; subst. eapply ME; [|exact Er]. simpl; eauto. }
  apply mapM_ok in El as [L1 _]. apply mapM_ok in Er as [L2 _].
  rewrite rev_length, seq_length in L1. rewrite seq_length in L2.
  unfold mk_bconds. rewrite app_length, L1, L2, even_double. discriminate.
Qed.

Lemma mapM_all_err {A B} (f : A -> result B) l e : l <> [] -> (forall a, In a l -> f a = Err e) -> mapM f l = Err e.
Proof. destruct l as [|a l]; [congruence|]. intros _ H. simpl. rewrite (H a); simpl; auto. Qed.

Lemma extended_needs_time wall conds r il ir (b : bconds W) v nl nr cl cr h :
  side_names conds nl nr -> names_cond wall nl il cl -> names_cond wall nr ir cr ->
  get_boundary_conditions wall conds r il ir = Ok b ->
  (1 <= r)%nat -> (r <= List.length v)%nat ->
  cl = Inflow h \/ cr = Inflow h ->
  extended b v None = Err AssertionError.
Proof.
  intros S Nl Nr B Hr Hv Hh. apply (get_bc_shape _ _ _ _ _ _ _ _ S) in B as [Bl [Br _]].
  destruct (mapM_nth _ _ _ O (CopyCell 0) Bl) as [L1 L2]. rewrite rev_length, seq_length in *.
  destruct (mapM_nth _ _ _ O (CopyCell 0) Br) as [R1 R2]. rewrite seq_length in *.
  assert (IL : forall c, cl = Inflow c -> mapM (fun g => ghost_value g v None) (bc_left b) = Err AssertionError).
  { intros c ->. destruct Nl as [-> ->]. apply mapM_all_err.
    - intro E. rewrite E in L1. simpl in L1. lia.
    - intros g Hg. apply (In_nth _ _ (CopyCell 0)) in Hg as [i [Hi <-]]. rewrite L1 in Hi.
      specialize (L2 i Hi). cbn in L2. injection L2 as <-. reflexivity. }
  assert (IR : forall c, cr = Inflow c -> mapM (fun g => ghost_value g v None) (bc_right b) = Err AssertionError).
  { intros c ->. destruct Nr as [-> ->]. apply mapM_all_err.
    - intro E. rewrite E in R1. simpl in R1. lia.
    - intros g Hg. apply (In_nth _ _ (CopyCell 0)) in Hg as [i [Hi <-]]. rewrite R1 in Hi.
      specialize (R2 i Hi). cbn in R2. injection R2 as <-. reflexivity. }
  unfold extended.
  destruct cl as [| |g|neg] eqn:Ecl; try (rewrite (IL g eq_refl); reflexivity).
  all: assert (NI : forall hh, cl = Inflow hh -> False) by (intros; congruence).
  all: destruct Hh as [Hh|Hh]; [congruence|].
  all: assert (exists gl, mapM (fun g => ghost_value g v None) (bc_left b) = Ok gl) as [gl ->];
    [ apply mapM_exists; intros g Hg; apply (In_nth _ _ (CopyCell 0)) in Hg as [i [Hi <-]]; rewrite L1 in Hi;
      specialize (L2 i Hi); rewrite nth_rev_seq in L2 by auto;
      destruct (build_left_ok wall nl il _ Nl (r - 1 - i)) as [g [G1 G2]];
      rewrite G1 in L2; injection L2 as <-; destruct (G2 v None) as [x [X1 X2]]; [lia | congruence | eauto]
    | cbn [bind]; rewrite (IR h Hh); reflexivity ].
Qed.
End B.
