(** C45 argument types, C46 grouping of solver arguments, C50 system matrices, C51 elementwise functions. *)
From Coq Require Import Reals String List Arith ZArith Bool Lia Lra.
From Verif Require Import Prelude L_Prelude M_Boundary L_Flux M_Misc.
Import ListNotations.
Open Scope R_scope.

(** ** C51 *)
Lemma fold_binary_spec f (better : R -> R -> Prop) :
  (forall x, better x x) -> (forall x y z, better x y -> better y z -> better x z) ->
  (forall x y, better (f x y) x /\ better (f x y) y /\ (f x y = x \/ f x y = y)) ->
  forall values r, fold_binary f values = Ok r ->
  Forall (fun v => List.length v = List.length r) values /\
  forall i, (i < List.length r)%nat ->
    (forall v, In v values -> better (nth i r 0) (nth i v 0)) /\ exists v, In v values /\ nth i r 0 = nth i v 0.
Proof.
  intros B0 BT BF. induction values as [|v values IH]; intros r E; [discriminate|]. destruct values as [|v2 values].
  - cbn in E. apply Ok_inj in E. subst r. split; [auto|]. intros i Hi. split.
    + intros v' [<-|[]]. apply B0.
    + exists v. split; [left|]; auto.
  - change (fold_binary f (v :: v2 :: values)) with (bind (fold_binary f (v2 :: values)) (fun r => np_binary f v r)) in E.
    inv_bind E. unfold np_binary in E. destruct (Nat.eqb_spec (List.length v) (List.length a)) as [L|]; [|discriminate].
    apply Ok_inj in E. subst r. destruct (IH a E0) as [F P]. rewrite map2_length, L, Nat.min_id. split.
    + constructor; auto.
    + intros i Hi. rewrite (nth_map2 f v a i 0 0) by lia. destruct (BF (nth i v 0) (nth i a 0)) as [B1 [B2 B3]].
      destruct (P i Hi) as [P1 [v' [P2 P3]]]. split.
      * intros u [<-|Hu]; [exact B1|]. eapply BT; [exact B2|]. apply P1. exact Hu.
      * destruct B3 as [-> | ->]; [exists v; split; [left|]; auto|exists v'; split; [right|]; auto].
Qed.
(** Any number of arrays: the result has in each entry the largest (smallest) of the entries. *)
Theorem C51_maximum_minimum : forall values r,
  (maximum values = Ok r -> Forall (fun v => List.length v = List.length r) values /\
     forall i, (i < List.length r)%nat -> (forall v, In v values -> nth i v 0 <= nth i r 0) /\ exists v, In v values /\ nth i r 0 = nth i v 0) /\
  (minimum values = Ok r -> Forall (fun v => List.length v = List.length r) values /\
     forall i, (i < List.length r)%nat -> (forall v, In v values -> nth i r 0 <= nth i v 0) /\ exists v, In v values /\ nth i r 0 = nth i v 0).
Proof.
  intros values r. split; intro E.
  - apply (fold_binary_spec Rmax (fun x y => y <= x)) in E; auto; [intros; lra|intros; lra|].
    intros x y. split; [apply Rmax_l|]. split; [apply Rmax_r|]. unfold Rmax. destruct (Rle_dec x y); auto.
  - apply (fold_binary_spec Rmin (fun x y => x <= y)) in E; auto; [intros; lra|intros; lra|].
    intros x y. split; [apply Rmin_l|]. split; [apply Rmin_r|]. unfold Rmin. destruct (Rle_dec x y); auto.
Qed.
Print Assumptions C51_maximum_minimum.
(** They succeed for one or more arrays of equal length. *)
Theorem C51_maximum_minimum_defined : forall values n, values <> [] -> Forall (fun v => List.length v = n) values ->
  (exists r, maximum values = Ok r) /\ (exists r, minimum values = Ok r).
Proof.
  assert (G : forall f values n, values <> [] -> Forall (fun v => List.length v = n) values -> exists r, fold_binary f values = Ok r /\ List.length r = n).
  { intros f values n. induction values as [|v values IH]; intros Hne F; [congruence|]. inversion F; subst. destruct values as [|v2 values].
    - exists v. auto.
    - destruct IH as [a [E L]]; [discriminate|auto|]. exists (map2 f v a).
      change (fold_binary f (v :: v2 :: values)) with (bind (fold_binary f (v2 :: values)) (fun r => np_binary f v r)). rewrite E. cbn [bind].
      unfold np_binary. rewrite L, Nat.eqb_refl. split; auto. rewrite map2_length. lia. }
  intros values n Hne F. split; [destruct (G Rmax values n Hne F) as [r [E _]]|destruct (G Rmin values n Hne F) as [r [E _]]]; exists r; exact E.
Qed.
Print Assumptions C51_maximum_minimum_defined.

Lemma sign_spec x : (0 < x /\ sign x = 1) \/ (x < 0 /\ sign x = -1) \/ (x = 0 /\ sign x = 0).
Proof. unfold sign. destruct (Rltb_spec 0 x); [auto|]. destruct (Rltb_spec x 0); [auto|]. right. right. split; lra. Qed.
Lemma minmod1_sym a b : minmod1 a b = minmod1 b a.
Proof.
  unfold minmod1. destruct (Reqb_spec (sign a) (sign b)) as [E|E], (Reqb_spec (sign b) (sign a)) as [F|F]; try congruence.
  rewrite E, Rmin_comm. reflexivity.
Qed.
(** minmod: symmetric; zero for arguments of different sign (or a zero argument); for equal signs the argument of
    smaller modulus. *)
Theorem C51_minmod : forall a b r, minmod a b = Ok r ->
  List.length a = List.length r /\ List.length b = List.length r /\ minmod b a = Ok r /\
  forall i, (i < List.length r)%nat -> let x := nth i a 0 in let y := nth i b 0 in let m := nth i r 0 in
    (x * y <= 0 -> m = 0) /\ (0 < x * y -> (Rabs x <= Rabs y -> m = x) /\ (Rabs y <= Rabs x -> m = y)).
Proof.
  intros a b r E. unfold minmod, np_binary in *. destruct (Nat.eqb_spec (List.length a) (List.length b)) as [L|]; [|discriminate].
  apply Ok_inj in E. subst r. rewrite <- L, Nat.eqb_refl, map2_length, <- L, Nat.min_id.
  split; [auto|]. split; [auto|]. split.
  - f_equal. apply (list_ext 0); [rewrite !map2_length; lia|]. intros i Hi. rewrite map2_length in Hi.
    rewrite !(nth_map2 _ _ _ i 0 0) by lia. apply minmod1_sym.
  - intros i Hi. cbv zeta. rewrite (nth_map2 _ _ _ i 0 0) by lia. set (x := nth i a 0). set (y := nth i b 0). unfold minmod1.
    destruct (sign_spec x) as [[X1 X2]|[[X1 X2]|[X1 X2]]], (sign_spec y) as [[Y1 Y2]|[[Y1 Y2]|[Y1 Y2]]]; rewrite X2, Y2;
      match goal with |- context [Reqb ?u ?v] => destruct (Reqb_spec u v) as [E|E]; try lra end;
      try (split; [intro M; try reflexivity; try ring|intro M; exfalso; try rewrite X1 in M; try rewrite Y1 in M; nra]).
    + split; [intro; nra|]. intros _. rewrite !Rabs_right by lra. split; intro; [rewrite Rmin_left|rewrite Rmin_right]; lra.
    + split; [intro; nra|]. intros _. rewrite !Rabs_left by lra. split; intro; [rewrite Rmin_left|rewrite Rmin_right]; lra.
Qed.
Print Assumptions C51_minmod.
Example C51_ex : exists r, minmod [1; -3; 2; 0] [2; -1; -1; 5] = Ok r /\ List.length r = 4%nat /\
  exists r', maximum [[1; 2]; [0; 5]; [3; 1]] = Ok r'.
Proof.
  eexists. split; [reflexivity|]. split; [reflexivity|]. eexists. reflexivity.
Qed.

(** ** C45 *)
(** The integer types accept exactly the positive, resp. non negative integers (whatever strings int() accepts). *)
Theorem C45_integers : forall parse_int s z,
  (positive_int parse_int s = Ok z <-> parse_int s = Some z /\ (0 < z)%Z) /\
  (non_negative_int parse_int s = Ok z <-> parse_int s = Some z /\ (0 <= z)%Z) /\
  ((forall v, positive_int parse_int s <> Ok v) -> positive_int parse_int s = Err ValueError) /\
  ((forall v, non_negative_int parse_int s <> Ok v) -> non_negative_int parse_int s = Err ValueError).
Proof.
  intros parse_int s z. unfold positive_int, non_negative_int, int_of.
  destruct (parse_int s) as [v|]; cbn [bind].
  - destruct (Z.leb_spec v 0), (Z.ltb_spec v 0);
      (split; [split; [intro E; try discriminate; apply Ok_inj in E; subst; split; auto; lia|intros [E ?]; injection E as ->; try lia; reflexivity]|]);
      (split; [split; [intro E; try discriminate; apply Ok_inj in E; subst; split; auto; lia|intros [E ?]; injection E as ->; try lia; reflexivity]|]);
      split; intro X; try reflexivity; exfalso; apply (X v); reflexivity.
  - repeat match goal with |- _ /\ _ => split end; try (split; [discriminate|intros [E _]; discriminate]); auto.
Qed.
Print Assumptions C45_integers.

Definition greater (f : pyfloat) (y : R) : Prop := match f with Finite x => y < x | PosInf => True | _ => False end.
Definition within (f : pyfloat) (a b : R) : Prop := match f with Finite x => a <= x <= b | _ => False end.
(** The float types accept exactly what they promise, except for nan. Missing: the case nan, see C45_nan_refuted. *)
Theorem C45_floats_partial : forall parse_float s f, parse_float s <> Some NaN ->
  (positive_float parse_float s = Ok f <-> parse_float s = Some f /\ greater f 0) /\
  (percent_number parse_float s = Ok f <-> parse_float s = Some f /\ within f 0 1) /\
  ((forall v, positive_float parse_float s <> Ok v) -> positive_float parse_float s = Err ValueError) /\
  ((forall v, percent_number parse_float s <> Ok v) -> percent_number parse_float s = Err ValueError).
Proof.
  intros parse_float s f N. unfold positive_float, percent_number, float_of.
  destruct (parse_float s) as [v|]; cbn [bind].
  2: { repeat match goal with |- _ /\ _ => split end; try (split; [discriminate|intros [E _]; discriminate]); auto. }
  assert (P : (le_num v 0 = false <-> greater v 0) /\ (lt_num v 0 || gt_num v 1 = false <-> within v 0 1)).
  { destruct v as [x| | |]; cbn.
    - split; [destruct (Rleb_spec x 0); split; intro; try discriminate; try lra; auto|].
      destruct (Rltb_spec x 0), (Rltb_spec 1 x); cbn; split; intro; try discriminate; try lra; auto.
    - split; split; auto; try discriminate; try tauto.
    - split; split; auto; try discriminate; try tauto.
    - congruence. }
  destruct P as [P1 P2]. destruct (le_num v 0) eqn:E1, (lt_num v 0 || gt_num v 1) eqn:E2;
    (split; [split; [intro E; try discriminate; apply Ok_inj in E; subst; split; auto; apply P1; auto|intros [E X]; injection E as ->; try reflexivity; apply P1 in X; discriminate]|]);
    (split; [split; [intro E; try discriminate; apply Ok_inj in E; subst; split; auto; apply P2; auto|intros [E X]; injection E as ->; try reflexivity; apply P2 in X; discriminate]|]);
    split; intro X; try reflexivity; exfalso; apply (X v); reflexivity.
Qed.
Print Assumptions C45_floats_partial.
(** Finding: nan, which is no positive number and no element of [0,1], is accepted by both. *)
Theorem C45_nan_refuted : forall parse_float s, parse_float s = Some NaN ->
  positive_float parse_float s = Ok NaN /\ percent_number parse_float s = Ok NaN /\ ~ greater NaN 0 /\ ~ within NaN 0 1.
Proof. intros parse_float s E. unfold positive_float, percent_number, float_of. rewrite E. cbn. tauto. Qed.
Print Assumptions C45_nan_refuted.
Example C45_ex : let p := fun s : string => if String.eqb s "0.5" then Some (Finite (1 / 2)) else if String.eqb s "nan" then Some NaN else None in
  p "0.5"%string <> Some NaN /\ positive_float p "0.5"%string = Ok (Finite (1 / 2)) /\ positive_float p "x"%string = Err ValueError /\ p "nan"%string = Some NaN.
Proof.
  cbv zeta. cbn. split; [discriminate|]. split; [|split; reflexivity]. unfold positive_float. cbn. destruct (Rleb_spec (1 / 2) 0); [lra|reflexivity].
Qed.

(** ** C46 *)
(** [v] starts a new group when it stands behind [before] *)
Definition starts (key : string -> bool) (before v : string) : Prop := key v = true /\ before <> "+f"%string.
(** a grouping: the groups are not empty, no value inside a group starts one, the first value of
    every group but the first does *)
Definition inside_ok (key : string -> bool) (g : list string) : Prop :=
  g <> [] /\ forall i, (S i < List.length g)%nat -> ~ starts key (nth i g ""%string) (nth (S i) g ""%string).
Fixpoint grouping (key : string -> bool) (gs : list (list string)) : Prop :=
  match gs with
  | [] => True
  | g :: rest => inside_ok key g /\
      match rest with [] => True | g2 :: _ => starts key (last g ""%string) (hd ""%string g2) end /\
      grouping key rest
  end.

Lemma starts_bool key before v : (key v && negb (String.eqb before "+f") = true) <-> starts key before v.
Proof.
  unfold starts. rewrite andb_true_iff, negb_true_iff. destruct (String.eqb_spec before "+f"); split; intros [A B]; auto; congruence.
Qed.
Lemma slice_index_spec key : forall values before i, (0 < i)%nat ->
  match slice_index key before i values with
  | None => forall j, (j < List.length values)%nat -> ~ starts key (nth j (before :: values) ""%string) (nth j values ""%string)
  | Some k => exists j, k = (i + j)%nat /\ (j < List.length values)%nat /\ starts key (nth j (before :: values) ""%string) (nth j values ""%string) /\
      forall l, (l < j)%nat -> ~ starts key (nth l (before :: values) ""%string) (nth l values ""%string)
  end.
Proof.
  induction values as [|v values IH]; intros before i Hi; cbn [slice_index]; [intros j Hj; cbn in Hj; lia|].
  assert (X : Nat.ltb 0 i = true) by (apply Nat.ltb_lt; auto). rewrite X. cbn [andb].
  destruct (key v && negb (String.eqb before "+f")) eqn:E.
  - exists 0%nat. split; [lia|]. split; [cbn; lia|]. split; [apply starts_bool; auto|]. intros l Hl. lia.
  - assert (N : ~ starts key before v) by (intro S; apply starts_bool in S; congruence).
    specialize (IH v (S i) ltac:(lia)). destruct (slice_index key v (S i) values) as [k|].
    + destruct IH as [j [-> [J1 [J2 J3]]]]. exists (S j). split; [lia|]. split; [cbn; lia|]. split; [exact J2|].
      intros [|l] Hl; [exact N|]. apply J3. lia.
    + intros [|j] Hj; [exact N|]. apply IH. cbn in Hj. lia.
Qed.

Lemma pop_spec key v values : forall g rest, pop_solver_arguments key (v :: values) = (g, rest) ->
  g ++ rest = v :: values /\ inside_ok key g /\ (List.length rest < List.length (v :: values))%nat /\
  (rest = [] \/ starts key (last g ""%string) (hd ""%string rest)).
Proof.
  intros g rest E. unfold pop_solver_arguments in E. cbn [slice_index Nat.ltb Nat.leb andb] in E.
  pose proof (slice_index_spec key values v 1 (ltac:(lia))) as S. destruct (slice_index key v 1 values) as [k|].
  - destruct S as [j [-> [J1 [J2 J3]]]]. replace (1 + j)%nat with (S j) in E by lia. assert (E1 := f_equal fst E). assert (E2 := f_equal snd E). cbn [fst snd] in E1, E2. clear E. subst g rest.
    split; [apply (firstn_skipn (S j))|].
    assert (L : List.length (firstn (S j) (v :: values)) = S j) by (rewrite firstn_length; cbn; lia).
    split; [split; [intro X; rewrite X in L; discriminate|]|].
    + intros i Hi. rewrite L in Hi. rewrite !nth_firstn by lia. apply (J3 i). lia.
    + split; [rewrite skipn_length; cbn; lia|]. right.
      assert (La : last (firstn (S j) (v :: values)) ""%string = nth j (v :: values) ""%string).
      { assert (XX : forall l : list string, l <> [] -> last l ""%string = nth (List.length l - 1) l ""%string).
        { clear. induction l as [|a l IH]; intro N; [congruence|]. destruct l as [|b l]; [reflexivity|].
          change (last (a :: b :: l) ""%string) with (last (b :: l) ""%string). rewrite IH by discriminate. cbn [List.length].
          replace (S (S (List.length l)) - 1)%nat with (S (S (List.length l) - 1))%nat by lia. reflexivity. }
        rewrite XX by (intro X; rewrite X in L; discriminate). rewrite L. replace (S j - 1)%nat with j by lia. apply nth_firstn. lia. }
      rewrite La. assert (Hd : hd ""%string (skipn (S j) (v :: values)) = nth j values ""%string).
      { cbn [skipn]. clear - J1. revert values J1. induction j as [|j IH]; intros [|a l] J; cbn in *; try lia; auto. apply IH. lia. }
      rewrite Hd. exact J2.
  - injection E as <- <-. split; [apply app_nil_r|]. split; [split; [discriminate|]|]; [|split; [cbn; lia|auto]].
    intros i Hi. apply (S i). cbn in Hi. lia.
Qed.

Lemma groups_spec key : forall fuel values, (List.length values <= fuel)%nat ->
  exists gs, groups key fuel values = Some gs /\ List.concat gs = values /\ grouping key gs.
Proof.
  induction fuel as [|fuel IH]; intros [|v values] L; cbn [List.length] in L; try lia;
    try (exists []; cbn; auto; fail).
  cbn [groups]. destruct (pop_solver_arguments key (v :: values)) as [g rest] eqn:E.
  destruct (pop_spec key v values g rest E) as [P1 [P2 [P3 P4]]]. cbn [List.length] in P3.
  destruct (IH rest ltac:(lia)) as [gs [G1 [G2 G3]]]. rewrite G1. exists (g :: gs). split; auto. split; [cbn; rewrite G2; exact P1|].
  cbn [grouping]. split; auto. split; auto. destruct gs as [|g2 gs]; auto. destruct P4 as [-> |P4].
  - cbn in G2, G3. destruct G3 as [[G3 _] _]. destruct g2; [congruence|discriminate].
  - destruct G3 as [[G3 _] _]. destruct g2 as [|x g2]; [congruence|]. rewrite <- G2 in P4. exact P4.
Qed.

(* uniqueness of the grouping *)
Lemma slice_index_inside key : forall t before i r, (0 < i)%nat ->
  (forall j, (j < List.length t)%nat -> ~ starts key (nth j (before :: t) ""%string) (nth j t ""%string)) ->
  (r = [] \/ starts key (last (before :: t) ""%string) (hd ""%string r)) ->
  slice_index key before i (t ++ r) = match r with [] => None | _ => Some (i + List.length t)%nat end.
Proof.
  induction t as [|v t IH]; intros before i r Hi T H.
  - cbn [app List.length]. destruct r as [|x r]; [reflexivity|]. destruct H as [H|H]; [discriminate|]. cbn [hd last] in H. cbn [slice_index].
    apply starts_bool in H. assert (X : Nat.ltb 0 i = true) by (apply Nat.ltb_lt; auto). rewrite X. cbn [andb]. rewrite H.
    f_equal. lia.
  - cbn [app slice_index]. assert (X : Nat.ltb 0 i = true) by (apply Nat.ltb_lt; auto). rewrite X. cbn [andb].
    destruct (key v && negb (String.eqb before "+f")) eqn:E.
    + exfalso. apply (T 0%nat); [cbn; lia|]. apply starts_bool. exact E.
    + rewrite IH; [destruct r; [reflexivity|f_equal; cbn [List.length]; lia]|lia| |].
      * intros j Hj. apply (T (S j)). cbn. lia.
      * destruct H as [H|H]; [left; auto|right; exact H].
Qed.
Lemma groups_of_grouping key : forall gs fuel, grouping key gs -> (List.length (List.concat gs) <= fuel)%nat ->
  groups key fuel (List.concat gs) = Some gs.
Proof.
  induction gs as [|g gs IH]; intros fuel G L; [destruct fuel; reflexivity|]. cbn [List.concat] in *. destruct G as [[G1 G2] [G3 G4]].
  destruct g as [|v t]; [congruence|]. cbn [app] in *. destruct fuel as [|fuel]; [cbn in L; lia|]. cbn [groups].
  assert (P : pop_solver_arguments key (v :: t ++ List.concat gs) = (v :: t, List.concat gs)).
  { unfold pop_solver_arguments. cbn [slice_index Nat.ltb Nat.leb andb]. rewrite slice_index_inside; [|lia| |].
    - destruct (List.concat gs) as [|x r]; [rewrite app_nil_r; reflexivity|]. cbn [Nat.add firstn skipn].
      rewrite firstn_app, skipn_app, Nat.sub_diag, firstn_all, skipn_all. cbn. rewrite app_nil_r. reflexivity.
    - intros j Hj. apply (G2 j). cbn. lia.
    - destruct gs as [|g2 gs]; [left; reflexivity|]. right. destruct G4 as [[G4 _] _]. destruct g2 as [|x g2]; [congruence|]. exact G3. }
  rewrite P. cbn [List.length] in L. rewrite app_length in L. rewrite IH; [reflexivity|auto|lia].
Qed.

(** The values are cut into groups: the groups in order give back the values, and the groups are
    the only ones in which exactly the solver names that do not stand behind +f open a new group.
    The loop ends after at most as many rounds as there are values. *)
Theorem C46_groups : forall key values,
  (exists gs, groups key (List.length values) values = Some gs /\ List.concat gs = values /\ grouping key gs) /\ (forall gs, List.concat gs = values -> grouping key gs -> groups key (List.length values) values = Some gs).
Proof.
  intros key values. split; [apply groups_spec; lia|]. intros gs <- G. apply groups_of_grouping; auto.
Qed.
Print Assumptions C46_groups.

Lemma action_spec {NS} key (parse : string -> list string -> result NS) : forall fuel values,
  (List.length values <= fuel)%nat -> exists gs, groups key fuel values = Some gs /\ action key parse fuel values = Some (mapM (get_solver_namespace key parse) gs).
Proof.
  induction fuel as [|fuel IH]; intros [|v values] L; cbn [List.length] in L; try lia;
    try (exists []; cbn; auto; fail).
  cbn [groups action]. destruct (pop_solver_arguments key (v :: values)) as [g rest] eqn:E.
  destruct (pop_spec key v values g rest E) as [P1 [P2 [P3 P4]]]. cbn [List.length] in P3.
  destruct (IH rest ltac:(lia)) as [gs [G1 G2]]. rewrite G1. exists (g :: gs). split; auto. cbn [mapM].
  destruct (get_solver_namespace key parse g) as [ns|e]; cbn [bind]; [|reflexivity]. rewrite G2.
  destruct (mapM (get_solver_namespace key parse) gs); reflexivity.
Qed.
(** Each group is handed to the parser named by its first value, in order; the program ends (quit) without
    a result exactly if the first value of all is no solver name (provided the parsers accept the options). *)
Theorem C46_namespaces : forall (NS : Type) key (parse : string -> list string -> result NS) values,
  exists gs, groups key (List.length values) values = Some gs /\ action key parse (List.length values) values = Some (mapM (get_solver_namespace key parse) gs) /\ (match values with [] => True | v :: _ => key v = true end ->
     mapM (get_solver_namespace key parse) gs = mapM (fun g => parse (hd ""%string g) (tl g)) gs) /\ (forall v rest, values = v :: rest -> key v = false -> action key parse (List.length values) values = Some (Err SystemExit)).
Proof.
  intros NS key parse values. destruct (action_spec key parse (List.length values) values ltac:(lia)) as [gs [G A]].
  destruct (proj1 (C46_groups key values)) as [gs' [G' [C Gr]]]. rewrite G in G'. injection G' as <-.
  exists gs. split; auto. split; auto. split.
  - intro K. assert (Hh : Forall (fun g => g <> [] /\ key (hd ""%string g) = true) gs).
    { clear A G. revert values C K. induction gs as [|g gs IH]; intros values C K; constructor.
      - destruct Gr as [[N _] _]. split; auto. cbn in C. destruct g as [|x g]; [congruence|]. cbn in C. subst values. exact K.
      - destruct Gr as [_ [S Gr]]. apply (IH Gr (List.concat gs) eq_refl). destruct gs as [|g2 gs]; [exact I|].
        destruct Gr as [[N _] _]. destruct g2 as [|x g2]; [congruence|]. destruct S as [S _]. exact S. }
    clear - Hh. induction Hh as [|g gs [N K] _ IH]; [reflexivity|]. cbn [mapM]. rewrite IH. destruct g as [|x g]; [congruence|].
    cbn [hd] in K. cbn [get_solver_namespace hd tl]. rewrite K. reflexivity.
  - intros v rest -> K. rewrite A. destruct gs as [|g gs]; [discriminate|]. cbn in C. destruct Gr as [[N _] _].
    destruct g as [|x g]; [congruence|]. injection C as -> _. cbn [mapM get_solver_namespace]. rewrite K. reflexivity.
Qed.
Print Assumptions C46_namespaces.
Definition ex_key (s : string) : bool := String.eqb s "llf" || String.eqb s "coarse".
Example C46_ex : groups ex_key 6 ["coarse"; "+f"; "llf"; "llf"; "+m"; "10"]%string = Some [["coarse"; "+f"; "llf"]; ["llf"; "+m"; "10"]]%string.
Proof. reflexivity. Qed.
(** Finding: a solver name given as the value of any other option (the long spelling of +f, a name, a
    short-facts string ...) is not protected: it is torn away from its option. *)
Theorem C46_other_options_do_not_protect : forall key name option value rest, key name = true -> key option = false -> key value = true ->
  option <> "+f"%string -> name <> "+f"%string ->
  exists gs, groups key (List.length (name :: option :: value :: rest)) (name :: option :: value :: rest) = Some ([name; option] :: gs) /\   hd ""%string (hd [] gs) = value.
Proof.
  intros key name option value rest K1 K2 K3 O N.
  assert (P : pop_solver_arguments key (name :: option :: value :: rest) = ([name; option], value :: rest)).
  { unfold pop_solver_arguments. cbn [slice_index Nat.ltb Nat.leb andb]. rewrite K2, K3. cbn [andb].
    destruct (String.eqb_spec option "+f"); [congruence|]. reflexivity. }
  destruct (groups_spec key (S (S (List.length rest))) (value :: rest) ltac:(cbn; lia)) as [gs [G [C Gr]]].
  assert (U : forall fuel v vs, groups key (S fuel) (v :: vs) = let '(g, r) := pop_solver_arguments key (v :: vs) in
    match groups key fuel r with Some gs => Some (g :: gs) | None => None end) by reflexivity.
  change (List.length (name :: option :: value :: rest)) with (S (S (S (List.length rest)))). rewrite U, P, G.
  exists gs. split; [reflexivity|]. destruct gs as [|g gs]; [discriminate|]. destruct Gr as [[X _] _].
  destruct g as [|x g]; [congruence|]. cbn in C. injection C as -> _. reflexivity.
Qed.
Print Assumptions C46_other_options_do_not_protect.
Example C46_option_values_ex : groups ex_key 3 ["coarse"; "++flux"; "llf"]%string = Some [["coarse"; "++flux"]; ["llf"]]%string.
Proof. reflexivity. Qed.

(** ** C50 *)
(** the values a user has put into the matrix after a sequence of operations *)
Fixpoint current (ops : list sm_op) (m : mat) : mat :=
  match ops with
  | [] => m
  | SetValues m' :: r => current r m'
  | SetItem i j x :: r => current r (fun k l => if Nat.eqb k i && Nat.eqb l j then x else m k l)
  | _ :: r => current r m
  end.
Definition synchronises (o : sm_op) : bool := match o with SetValues _ | UpdateCsr => true | _ => false end.
Definition is_set_item (o : sm_op) : bool := match o with SetItem _ _ _ => true | _ => false end.
Lemma sm_run_snoc ops o : sm_run (ops ++ [o]) = sm_step (sm_run ops) o.
Proof. unfold sm_run. rewrite fold_left_app. reflexivity. Qed.
Lemma sm_run_app a b : sm_run (a ++ b) = fold_left sm_step b (sm_run a).
Proof. unfold sm_run. apply fold_left_app. Qed.
Lemma sm_lil_current : forall ops s, sm_lil (fold_left sm_step ops s) = current ops (sm_lil s).
Proof. induction ops as [|o ops IH]; intro s; [reflexivity|]. destruct o; cbn [fold_left current]; rewrite IH; reflexivity. Qed.
Lemma sm_csr_kept : forall ops s, forallb (fun o => negb (synchronises o)) ops = true -> sm_csr (fold_left sm_step ops s) = sm_csr s.
Proof.
  induction ops as [|o ops IH]; intros s E; [reflexivity|]. cbn in E. apply andb_true_iff in E. destruct E as [E1 E2].
  cbn [fold_left]. rewrite IH by auto. destruct o; try discriminate; reflexivity.
Qed.
Definition is_build (o : sm_op) : bool := match o with BuildInverse => true | _ => false end.
Lemma sm_lu_kept : forall ops s, forallb (fun o => negb (is_build o)) ops = true -> sm_lu (fold_left sm_step ops s) = sm_lu s.
Proof.
  induction ops as [|o ops IH]; intros s E; [reflexivity|]. cbn in E. apply andb_true_iff in E. destruct E as [E1 E2].
  cbn [fold_left]. rewrite IH by auto. destruct o; try discriminate; reflexivity.
Qed.
Definition zero_mat : mat := fun _ _ => 0.

(** Reading entries and multiplying rows or columns always uses the values put in so far. *)
Theorem C50_entries : forall ops v i j, let s := sm_run ops in let m := current ops zero_mat in
  sm_get s i j = m i j /\ sm_multiply_row s v i j = m i j * v j /\ sm_multiply_column s v i j = m i j * v i.
Proof.
  intros ops v i j s m. unfold sm_get, sm_multiply_row, sm_multiply_column, s, m, sm_run. rewrite sm_lil_current. cbn. auto.
Qed.
Print Assumptions C50_entries.
(** The product with a vector uses the values at the time of the last set_values or update_csr_values; without one it raises. *)
Theorem C50_dot : forall n v before sync after,
  synchronises sync = true -> forallb (fun o => negb (synchronises o)) after = true ->
  let m := current (before ++ [sync]) zero_mat in
  exists w, sm_dot n (sm_run (before ++ sync :: after)) v = Ok w /\ forall i, w i = rsum (tab n (fun j => m i j * v j)).
Proof.
  intros n v before sync after S A m. unfold sm_dot.
  assert (C : sm_csr (sm_run (before ++ sync :: after)) = Some m).
  { change (before ++ sync :: after) with (before ++ [sync] ++ after). rewrite app_assoc, sm_run_app, sm_csr_kept by exact A.
    rewrite sm_run_snoc. unfold m, sm_run. pose proof (sm_lil_current (before ++ [sync]) sm_new) as L. cbn [sm_lil sm_new] in L.
    rewrite fold_left_app in L. cbn [fold_left] in L. change zero_mat with (sm_lil sm_new). change (sm_lil sm_new) with (fun _ _ : nat => 0). rewrite <- L.
    destruct sync; try discriminate; reflexivity. }
  rewrite C. eexists. split; [reflexivity|]. reflexivity.
Qed.
Print Assumptions C50_dot.
Theorem C50_dot_undefined : forall n v ops, forallb (fun o => negb (synchronises o)) ops = true -> sm_dot n (sm_run ops) v = Err AttributeError.
Proof. intros n v ops E. unfold sm_dot, sm_run. rewrite sm_csr_kept by exact E. reflexivity. Qed.
Print Assumptions C50_dot_undefined.
(** If every change of single entries is followed by a synchronisation, the product uses the current values. Missing for
    the full property (products and inverses always use the values last put in): C50_stale_dot_refuted, C50_stale_inverse_refuted. *)
Theorem C50_dot_current_partial : forall n v before sync after,
  synchronises sync = true -> forallb (fun o => negb (synchronises o) && negb (is_set_item o)) after = true ->
  let m := current (before ++ sync :: after) zero_mat in
  exists w, sm_dot n (sm_run (before ++ sync :: after)) v = Ok w /\ forall i, w i = rsum (tab n (fun j => m i j * v j)).
Proof.
  intros n v before sync after S A m.
  assert (C : forall ops a, current (ops ++ after) a = current ops a).
  { assert (C0 : forall a, current after a = a).
    { clear - A. induction after as [|o r IH]; intro a; [reflexivity|]. cbn in A. apply andb_true_iff in A. destruct A as [A1 A2].
      destruct o; cbn in A1; try discriminate; cbn [current]; apply IH; exact A2. }
    induction ops as [|o r IH]; intro a; [apply C0|]. destruct o; cbn [app current]; apply IH. }
  destruct (C50_dot n v before sync after S) as [w [W1 W2]].
  - clear - A. induction after as [|o r IH]; [reflexivity|]. cbn in *. apply andb_true_iff in A. destruct A as [A1 A2]. apply andb_true_iff in A1.
    rewrite IH by auto. destruct A1 as [-> _]. reflexivity.
  - exists w. split; [exact W1|]. intro i. rewrite W2. unfold m. change (before ++ sync :: after) with (before ++ [sync] ++ after).
    rewrite app_assoc, C. reflexivity.
Qed.
Print Assumptions C50_dot_current_partial.
(** The inverse solves with the matrix that was in use for products when build_inverse was last called; if it never
    was, with the one in use for products now. For a solver that really solves, the product with the result gives the vector back. *)
Theorem C50_inverse : forall n (solver : mat -> (nat -> R) -> nat -> R) (regular : mat -> Prop) v before after m w,
  (forall a b, regular a -> forall i, (i < n)%nat -> rsum (tab n (fun j => a i j * solver a b j)) = b i) ->
  regular m ->
  sm_csr (sm_run before) = Some m ->
  (forallb (fun o => negb (is_build o)) before = true -> after = [] -> sm_inverse solver (sm_run before) v = Ok w ->
     exists u, sm_dot n (sm_run before) w = Ok u /\ forall i, (i < n)%nat -> u i = v i) /\ (forallb (fun o => negb (is_build o)) after = true -> sm_inverse solver (sm_run (before ++ BuildInverse :: after)) v = Ok w ->
     exists u, sm_dot n (sm_run before) w = Ok u /\ forall i, (i < n)%nat -> u i = v i).
Proof.
  intros n solver regular v before after m w HS HR HC. split.
  - intros B -> E. unfold sm_inverse in E. unfold sm_run in E. rewrite sm_lu_kept in E by exact B. cbn [sm_lu sm_new] in E. fold (sm_run before) in E.
    rewrite HC in E. apply Ok_inj in E. subst w. unfold sm_dot. rewrite HC. eexists. split; [reflexivity|]. intros i Hi. cbn beta. apply HS; auto.
  - intros B E. unfold sm_inverse in E. change (before ++ BuildInverse :: after) with (before ++ [BuildInverse] ++ after) in E.
    rewrite app_assoc, sm_run_app, sm_lu_kept in E by exact B. rewrite sm_run_snoc in E. cbn [sm_step sm_lu] in E. rewrite HC in E.
    apply Ok_inj in E. subst w. unfold sm_dot. rewrite HC. eexists. split; [reflexivity|]. intros i Hi. cbn beta. apply HS; auto.
Qed.
Print Assumptions C50_inverse.
(** Finding: after a change of a single entry the product still uses the old values. *)
Theorem C50_stale_dot_refuted : exists ops w, let s := sm_run ops in
  sm_dot 1 s (fun _ => 1) = Ok w /\ sm_get s 0 0 = 1 /\ w 0%nat = 0.
Proof. exists [SetValues (fun _ _ => 0); SetItem 0 0 1], (fun i => rsum (tab 1 (fun j => 0 * 1))). cbn. repeat split; ring. Qed.
Print Assumptions C50_stale_dot_refuted.
(** Finding: after build_inverse, new values set with set_values do not reach the inverse: product and inverse no longer fit. *)
Theorem C50_stale_inverse_refuted : forall solver,
  (forall a b, a 0%nat 0%nat <> 0 -> solver a b 0%nat = b 0%nat / a 0%nat 0%nat) ->
  exists ops w u, let s := sm_run ops in
  sm_inverse solver s (fun _ => 1) = Ok w /\ sm_dot 1 s w = Ok u /\ u 0%nat = 2.
Proof.
  intros solver HS. exists [SetValues (fun _ _ => 1); BuildInverse; SetValues (fun _ _ => 2)].
  eexists. eexists. split; [reflexivity|]. split; [reflexivity|]. cbn. rewrite HS by lra. lra.
Qed.
Print Assumptions C50_stale_inverse_refuted.
Example C50_ex : exists before sync after, synchronises sync = true /\ forallb (fun o => negb (synchronises o) && negb (is_set_item o)) after = true /\ sm_csr (sm_run (before ++ sync :: after)) <> None /\ current (before ++ sync :: after) zero_mat 0%nat 0%nat = 3.
Proof.
  exists [SetItem 0 0 3], UpdateCsr, [BuildInverse]. cbn. repeat split; auto. discriminate.
Qed.
