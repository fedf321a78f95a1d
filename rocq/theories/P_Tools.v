(** C91: the words of analyze-curvature, analyze-data, delete-curvature, print-network, test and train-network. *)
From Coq Require Import String Ascii Reals List Arith ZArith Bool Lia Lra.
From Verif Require Import Prelude L_Prelude M_Misc P_Misc M_Parser S_Parser M_CommandLine S_CommandLine L_CommandLine M_Network M_Tools S_Tools L_Tools.
Import ListNotations.
Open Scope R_scope.
Local Open Scope list_scope.

Section Tools.
Context (parse_int : string -> option Z) (parse_float : string -> option pyfloat).
Notation written := (part_written parse_int parse_float).
Notation line := (tool_line parse_int parse_float).

(** ** Parameters of a network *)
Lemma assign_keys k x : forall l k', In k' (map fst (assign k x l)) <-> k' = k \/ In k' (map fst l).
Proof.
  induction l as [|[a y] l IH]; intro k'; cbn [assign map fst In]; [intuition congruence|]. destruct (String.eqb_spec k a) as [->|N]; cbn [map fst In]; [intuition congruence|]. rewrite IH. intuition congruence.
Qed.
Lemma assign_nodup k x : forall l, NoDup (map fst l) -> NoDup (map fst (assign k x l)).
Proof.
  induction l as [|[a y] l IH]; intro D; cbn [assign map fst]; [constructor; [intros []|constructor]|]. inversion D as [|? ? D1 D2]; subst.
  destruct (String.eqb_spec k a) as [->|N]; cbn [map fst]; constructor; auto. intro X. apply assign_keys in X. destruct X; [congruence|contradiction].
Qed.
Lemma assign_value k x : forall l k' y, NoDup (map fst l) -> In (k', y) (assign k x l) -> k' = k /\ y = x \/ k' <> k /\ In (k', y) l.
Proof.
  induction l as [|[a z] l IH]; intros k' y D H; cbn [assign In] in H.
  - destruct H as [H|[]]. injection H as <- <-. auto.
  - inversion D as [|? ? D1 D2]; subst. destruct (String.eqb_spec k a) as [->|N]; cbn [In] in H.
    + destruct H as [H|H]; [injection H as <- <-; auto|]. right. split; [|right; exact H]. intros ->. apply D1. apply (in_map fst) in H. exact H.
    + destruct H as [H|H]; [injection H as <- <-; right; split; [congruence|left; reflexivity]|]. destruct (IH _ _ D2 H) as [X|[X1 X2]]; [left; exact X|right; split; [exact X1|right; exact X2]].
Qed.
Lemma final_snoc given k w x final : final_parameters parse_float given final -> parse_float w = Some x -> final_parameters parse_float (given ++ [(k, w)]) (assign k x final).
Proof.
  intros [H1 [H2 [H3 H4]]] P. repeat split.
  - intros k' w' H. apply in_app_or in H. destruct H as [H|[H|[]]]; [apply (H1 k'); exact H|]. injection H as <- <-. congruence.
  - apply assign_nodup. exact H2.
  - intros k' H. rewrite map_app in H. apply assign_keys. apply in_app_or in H. destruct H as [H|[H|[]]]; [right; apply H3; exact H|left; symmetry; exact H].
  - intros k' y H. destruct (assign_value _ _ _ _ _ H2 H) as [[-> ->]|[N H']].
    + exists w. split; [exists given, []; split; [reflexivity|intros []]|exact P].
    + destruct (H4 _ _ H') as [w' [[b [a [-> A]]] P']]. exists w'. split; [|exact P']. exists b, (a ++ [(k, w)]). rewrite <- app_assoc. split; [reflexivity|].
      rewrite map_app. intro X. apply in_app_or in X. destruct X as [X|[X|[]]]; [contradiction|cbn in X; congruence].
Qed.
Lemma final_read : forall l given acc, final_parameters parse_float given acc ->
  match network_parameters parse_float l acc with
  | Ok final => final_parameters parse_float (given ++ l) final
  | Err e => e = ValueError /\ exists k w, In (k, w) l /\ parse_float w = None
  end.
Proof.
  induction l as [|[k w] l IH]; intros given acc F; cbn [network_parameters]; [rewrite app_nil_r; exact F|]. unfold float_of. destruct (parse_float w) as [x|] eqn:P; cbn [bind].
  - specialize (IH (given ++ [(k, w)]) (assign k x acc) (final_snoc _ _ _ _ _ F P)). rewrite <- app_assoc in IH. destruct (network_parameters parse_float l (assign k x acc)) as [f|e]; [exact IH|].
    destruct IH as [E [k' [w' [I N]]]]. split; [exact E|]. exists k', w'. split; [right; exact I|exact N].
  - split; [reflexivity|]. exists k, w. split; [left; reflexivity|exact P].
Qed.
Lemma final_nil : final_parameters parse_float [] []. Proof. split; [intros k w []|]. split; [constructor|]. split; [intros k []|intros k x []]. Qed.

(** ** The last part of a kind *)
Lemma last_part_in {A} (pick : part -> option A) : forall xs d, last_part pick xs d = d \/ exists x, In x xs /\ pick x = Some (last_part pick xs d).
Proof.
  unfold last_part. induction xs as [|x xs IH]; intro d; cbn [fold_left]; [auto|]. destruct (IH (match pick x with Some b => b | None => d end)) as [E|[y [Y1 Y2]]].
  - rewrite E. destruct (pick x) eqn:P; [right; exists x; split; [left; reflexivity|exact P]|auto].
  - right. exists y. split; [right; exact Y1|exact Y2].
Qed.
Lemma last_part_ext {A} (p q : part -> option A) : (forall x, p x = q x) -> forall xs d, last_part p xs d = last_part q xs d.
Proof. intros E. unfold last_part. induction xs as [|x xs IH]; intro d; [reflexivity|]. cbn [fold_left]. rewrite E. apply IH. Qed.
Lemma last_or (pick : part -> option pyfloat) d : forall xs o, (forall x f, In x xs -> pick x = Some f -> not_negative f) -> (forall f, o = Some f -> not_negative f) ->
  float_or (last_part (fun x => option_map Some (pick x)) xs o) d = last_part pick xs (match o with Some f => f | None => Finite d end).
Proof.
  unfold last_part. induction xs as [|x xs IH]; intros o H O; cbn [fold_left].
  - destruct o as [f|]; [|reflexivity]. specialize (O f eq_refl). destruct f; cbn in *; try reflexivity. destruct (Reqb_spec x 0); [lra|reflexivity].
  - destruct (pick x) as [f|] eqn:P; cbn [option_map].
    + rewrite IH; [reflexivity|intros y g Y; apply H; right; exact Y|intros g G; injection G as <-; apply (H x); [left; reflexivity|exact P]].
    + apply IH; [intros y g Y; apply H; right; exact Y|exact O].
Qed.
Lemma written_numbers value : forall xs wss, Forall2 (written value) xs wss -> forall x, In x xs ->
  match x with StepLength f | HeightThreshold f | DischargeThreshold f => not_negative f | MaxEpochs n | EveryNth n => (0 < n)%Z | _ => True end.
Proof.
  intros xs wss W. induction W as [|y ws xs wss H W IH]; intros x X; [destruct X|]. destruct X as [->|X]; [|apply IH; exact X].
  destruct x; try exact I; destruct H as [f [w [_ [_ [_ [_ N]]]]]]; exact N.
Qed.
Lemma own_empty : forall xs, own_words xs = [] <-> existsb is_word xs = false.
Proof. induction xs as [|x xs IH]; [split; reflexivity|]. destruct x; try exact IH. split; discriminate. Qed.

(** ** What the settings are used for *)
Definition placed (t : tool) (xs : list part) : Prop :=
  match tplaces t with
  | Single n => List.length (own_words xs) = n /\ Forall (fun w => allowed t w = true) (own_words xs)
  | Listed one => together xs /\ (one = true -> own_words xs <> [])
  end.
Lemma network_allowed w : existsb (String.eqb w) network_types = true <-> is_network w.
Proof.
  unfold network_types, is_network. cbn [existsb]. rewrite orb_false_r, orb_true_iff, !String.eqb_eq. reflexivity.
Qed.
Lemma post_parts value t xs wss : Forall2 (written value) xs wss -> placed t xs ->
  (exists j, tool_postprocess parse_float t (fold_left put xs tinitial) = Parsed j /\ asks_for parse_float t xs j) \/
  (t = TTrain /\ tool_postprocess parse_float t (fold_left put xs tinitial) = Raised ValueError /\ exists k w, In (NetworkParameter k w) xs /\ parse_float w = None).
Proof.
  intros W P. pose proof (written_numbers _ _ _ W) as N. unfold placed in P.
  assert (Ow : t_words (fold_left put xs tinitial) = own_words xs) by (rewrite get_words; reflexivity).
  unfold tool_postprocess. rewrite Ow. destruct t; cbn [tplaces] in P.
  - left. eexists. split; [reflexivity|]. eexists; eexists. split; [reflexivity|]. split.
    + rewrite negb_true_iff. pose proof (get_hide xs tinitial) as G. destruct (t_hide _); split; intros; try discriminate; try reflexivity.
      * exfalso. destruct G as [G _]. destruct (G eq_refl); [discriminate|contradiction].
      * intro X. destruct G as [_ G]. specialize (G (or_intror X)). discriminate.
    + rewrite get_save. cbn. intuition discriminate.
  - left. destruct P as [P1 P2]. eexists. split; [reflexivity|]. split; [apply P2; reflexivity|]. split; [exact P1|]. eexists. split; [reflexivity|]. rewrite get_histogram. cbn. intuition discriminate.
  - left. destruct P as [P _]. destruct (own_words xs) as [|a [|b [|]]] eqn:E; try discriminate P. eexists. split; [reflexivity|]. exists a, b. split; [exact E|].
    rewrite get_step, get_kh, get_kq. cbn [t_step t_kh t_kq tinitial]. f_equal.
    + rewrite <- (last_or (fun x => match x with StepLength s => Some s | _ => None end) 2 xs None); [|intros x f X1 X2; specialize (N x X1); destruct x; try discriminate X2; injection X2 as <-; exact N|discriminate].
      f_equal. apply last_part_ext. intros []; reflexivity.
    + rewrite <- (last_or (fun x => match x with HeightThreshold s => Some s | _ => None end) (1 / 4) xs None); [|intros x f X1 X2; specialize (N x X1); destruct x; try discriminate X2; injection X2 as <-; exact N|discriminate].
      f_equal. apply last_part_ext. intros []; reflexivity.
    + rewrite <- (last_or (fun x => match x with DischargeThreshold s => Some s | _ => None end) (1 / 2) xs None); [|intros x f X1 X2; specialize (N x X1); destruct x; try discriminate X2; injection X2 as <-; exact N|discriminate].
      f_equal. apply last_part_ext. intros []; reflexivity.
  - left. destruct P as [P A]. destruct (own_words xs) as [|a [|]] eqn:E; try discriminate P. eexists. split; [reflexivity|]. exists a. split; [exact E|]. split; [|reflexivity].
    apply network_allowed. exact (Forall_inv A).
  - left. destruct P as [P1 P2]. eexists. split; [reflexivity|]. split; [exact P1|reflexivity].
  - destruct P as [P A]. destruct (own_words xs) as [|a [|]] eqn:E; try discriminate P. rewrite get_parameters. cbn [t_parameters tinitial app].
    pose proof (final_read (given_parameters xs) [] [] final_nil) as F. cbn [app] in F. destruct (network_parameters parse_float (given_parameters xs) []) as [ps|e].
    + left. eexists. split; [reflexivity|]. rewrite get_epochs, get_skip, get_seed. cbn [t_epochs t_skip t_seed tinitial].
      assert (G1 : forall z : Z, (z =? 0)%Z = false -> (if (z =? 0)%Z then 500 else z)%Z = z) by (intros z ->; reflexivity).
      assert (G2 : forall z : Z, (z =? 0)%Z = false -> (if (z =? 0)%Z then 1 else z)%Z = z) by (intros z ->; reflexivity).
      rewrite G1, G2; [do 5 eexists; split; [exact E|]; split; [apply network_allowed; exact (Forall_inv A)|]; split; [reflexivity|]| |].
      * rewrite get_resume, get_confirm, get_plot. cbn. split; [intuition discriminate|]. split; [intuition discriminate|]. split; [intuition discriminate|exact F].
      * destruct (last_part_in (fun x => match x with EveryNth n => Some n | _ => None end) xs 1%Z) as [X|[x [X1 X2]]]; [rewrite X; reflexivity|]. specialize (N x X1).
        destruct x; try discriminate X2. injection X2 as X2. apply Z.eqb_neq. lia.
      * destruct (last_part_in (fun x => match x with MaxEpochs n => Some n | _ => None end) xs 500%Z) as [X|[x [X1 X2]]]; [rewrite X; reflexivity|]. specialize (N x X1).
        destruct x; try discriminate X2. injection X2 as X2. apply Z.eqb_neq. lia.
    + right. destruct F as [-> [k [w [I Nn]]]]. split; [reflexivity|]. split; [reflexivity|]. exists k, w. split; [|exact Nn]. unfold given_parameters in I. apply in_flat_map in I.
      destruct I as [x [X1 X2]]. destruct x; cbn in X2; try contradiction. destruct X2 as [X2|[]]. injection X2 as <- <-. exact X1.
Qed.
Lemma asks_placed t xs j : asks_for parse_float t xs j -> Forall (part_offered t) xs -> placed t xs.
Proof.
  unfold placed. destruct t; cbn [asks_for tplaces]; intros A O.
  - assert (E : own_words xs = []). { apply own_empty. apply not_true_is_false. intro X. apply existsb_exists in X. destruct X as [x [X1 X2]]. rewrite Forall_forall in O. specialize (O x X1). destruct x; try discriminate X2. apply O. reflexivity. }
    rewrite E. split; [reflexivity|constructor].
  - destruct A as [A1 [A2 _]]. auto.
  - destruct A as [a [b [E _]]]. rewrite E. split; [reflexivity|repeat constructor].
  - destruct A as [n [E [Nn _]]]. rewrite E. split; [reflexivity|]. constructor; [apply network_allowed; exact Nn|constructor].
  - destruct A as [A _]. split; [exact A|discriminate].
  - destruct A as [n [r [ps [c [p [E [Nn _]]]]]]]. rewrite E. split; [reflexivity|]. constructor; [apply network_allowed; exact Nn|constructor].
Qed.
Lemma read_parts t xs wss : Forall2 (written value_word) xs wss -> Forall (part_offered t) xs -> not_swallowed xs -> placed t xs ->
  parse_tool_line parse_int parse_float t (List.concat wss) = Parsed (fold_left put xs tinitial).
Proof.
  intros W O Sw P. unfold parse_tool_line. rewrite (no_odd _ _ t xs wss W O). unfold placed in P. destruct (tplaces t) as [n|one] eqn:Pl.
  - destruct P as [P A]. rewrite (single_line _ _ t n Pl xs wss W O Sw A) by (cbn; lia). cbn [obind]. rewrite get_words. cbn [t_words tinitial app]. rewrite P, Nat.eqb_refl. reflexivity.
  - destruct P as [T P]. rewrite (listed_line _ _ t one Pl xs wss W O Sw T) by (reflexivity || lia). cbn [obind]. rewrite get_filled. cbn [t_filled tinitial orb].
    destruct (existsb is_word xs) eqn:E; [reflexivity|]. destruct one; [|reflexivity]. exfalso. apply (P eq_refl). apply own_empty. exact E.
Qed.
Lemma tool_named t : find_key tools (tool_word t) = Some t. Proof. destruct t; reflexivity. Qed.
Lemma named_tool name t : find_key tools name = Some t -> name = tool_word t.
Proof.
  unfold find_key. destruct (find _ tools) as [[n u]|] eqn:F; [|discriminate]. intro E. injection E as <-. apply find_some in F. destruct F as [F1 F2]. apply String.eqb_eq in F2. cbn in F2. subst n.
  unfold tools in F1. cbn [In] in F1. repeat (destruct F1 as [F1|F1]; [injection F1 as <- <-; reflexivity|]). contradiction.
Qed.

(** Every part of a line is heard: options in any order, before, between and behind the words of their own, as long as a list of words is written in one
    piece and no word follows a --profile without number. *)
Theorem C91_everything_granted : forall t xs wss j0, Forall2 (written value_word) xs wss -> Forall (part_offered t) xs -> not_swallowed xs -> asks_for parse_float t xs j0 ->
  exists j args, line (tool_word t :: List.concat wss) = Parsed (j, profile_lines xs, args) /\ asks_for parse_float t xs j /\ (args = true <-> In PrintArguments xs).
Proof.
  intros t xs wss j0 W O Sw A. pose proof (asks_placed t xs j0 A O) as P. cbn [tool_line]. rewrite tool_named, (read_parts t xs wss W O Sw P). cbn [obind].
  destruct (post_parts value_word t xs wss W P) as [[j [-> J]]|[-> [_ [k [w [I N]]]]]].
  - cbn [obind]. exists j, (t_args (fold_left put xs tinitial)). rewrite get_profile. split; [reflexivity|]. split; [exact J|]. rewrite get_args. cbn. intuition discriminate.
  - exfalso. destruct A as [n [r [ps [c [p [_ [_ [_ [_ [_ [_ [F _]]]]]]]]]]]]. apply (F k w); [|exact N]. unfold given_parameters. apply in_flat_map. exists (NetworkParameter k w). split; [exact I|left; reflexivity].
Qed.
(** Nothing is ignored: a line that is accepted consists of such parts, and the job is what they ask for. *)
Theorem C91_nothing_ignored : forall words j profile args, line words = Parsed (j, profile, args) ->
  exists t xs wss, words = tool_word t :: List.concat wss /\ Forall2 (written any_word) xs wss /\ Forall (part_offered t) xs /\ asks_for parse_float t xs j /\
    profile = profile_lines xs /\ (args = true <-> In PrintArguments xs).
Proof.
  intros words j profile args E. destruct words as [|name rest]; [discriminate|]. cbn [tool_line] in E. destruct (find_key tools name) as [t|] eqn:T; [|discriminate]. apply named_tool in T. subst name.
  unfold parse_tool_line in E. destruct (existsb _ rest); [discriminate|]. destruct (parse_tool _ _ t _ false rest tinitial) as [[s extra]| | |] eqn:R; try discriminate. cbn [obind] in E.
  destruct (match tplaces t with Single n => _ | Listed one => _ end && negb extra)%bool eqn:C; [|discriminate]. apply andb_true_iff in C. destruct C as [C X]. apply negb_true_iff in X. subst extra.
  cbn [obind] in E.
  destruct (read_line parse_int parse_float t _ _ _ _ R) as [xs [wss [-> [W [O [-> P]]]]]].
  { destruct t; try discriminate; reflexivity. } { intros n _. cbn. lia. }
  assert (Pl : placed t xs).
  { unfold placed. rewrite get_words in C, P. rewrite get_filled in C. cbn [t_words tinitial t_filled app orb] in C, P. destruct (tplaces t) as [n|one].
    - apply Nat.eqb_eq in C. split; [exact C|apply P].
    - split; [exact P|]. intros -> X. apply own_empty in X. rewrite X in C. discriminate. }
  destruct (post_parts any_word t xs wss W Pl) as [[j' [Ej J]]|[_ [Ej _]]]; rewrite Ej in E; [|discriminate]. cbn [obind] in E. injection E as <- <- <-.
  exists t, xs, wss. repeat match goal with |- _ /\ _ => split end; auto.
  - rewrite get_profile. reflexivity.
  - rewrite get_args. cbn. intuition discriminate.
Qed.
(** A parameter of a network that is no number is not refused with a message like other numbers: the exception is not caught. *)
Theorem C91_parameter_refuted : forall xs wss k w n, Forall2 (written value_word) xs wss -> Forall (part_offered TTrain) xs -> not_swallowed xs -> own_words xs = [n] -> is_network n ->
  In (NetworkParameter k w) xs -> parse_float w = None -> line ("train-network"%string :: List.concat wss) = Raised ValueError.
Proof.
  intros xs wss k w n W O Sw E Nn I N. assert (P : placed TTrain xs) by (unfold placed; cbn [tplaces]; rewrite E; split; [reflexivity|constructor; [apply network_allowed; exact Nn|constructor]]).
  change "train-network"%string with (tool_word TTrain). cbn [tool_line]. rewrite tool_named, (read_parts TTrain xs wss W O Sw P). cbn [obind].
  destruct (post_parts value_word TTrain xs wss W P) as [[j [_ J]]|[_ [-> _]]]; [|reflexivity].
  exfalso. destruct J as [n' [r [ps [c [p [_ [_ [_ [_ [_ [_ [F _]]]]]]]]]]]]. apply (F k w); [|exact N]. unfold given_parameters. apply in_flat_map. exists (NetworkParameter k w). split; [exact I|left; reflexivity].
Qed.
(** Files and data written on both sides of an option are refused. *)
Theorem C91_split_lists_refuted : forall a b, value_word a -> value_word b ->
  line ["test"; a; "--args"; b]%string = Exit 2 false /\ line ["analyze-data"; a; "--histogram"; b]%string = Exit 2 false.
Proof.
  intros a b A B. assert (V : forall t w, value_word w -> tclassify t w = TPlain) by (intros; apply tvalue_plainly; assumption).
  assert (Pl : forall t w, value_word w -> tplain t w = true) by (intros; apply tplain_value; assumption).
  assert (F1 : tclassify TTests "--args" = TOption TArgs) by reflexivity. assert (F2 : tclassify TData "--histogram" = TOption THistogram) by reflexivity.
  assert (G1 : tplain TTests "--args" = false) by reflexivity. assert (G2 : tplain TData "--histogram" = false) by reflexivity.
  split; cbn [tool_line]; [change (find_key tools "test") with (Some TTests)|change (find_key tools "analyze-data") with (Some TData)]; unfold parse_tool_line; cbn [existsb List.length];
  rewrite ?F1, ?F2, !(V _ a A), !(V _ b B); cbn [orb];
  do 4 (cbn [obind parse_tool tplaces take_words targuments tstore with_words tinitial t_filled app]; rewrite ?F1, ?F2, ?G1, ?G2, ?(V _ a A), ?(V _ b B), ?(Pl _ a A), ?(Pl _ b B)); reflexivity.
Qed.
(** --profile without number takes the network for the number. *)
Theorem C91_profile_refuted : forall n, is_network n -> parse_int n = None -> line ["print-network"; "--profile"; n]%string = Exit 2 false /\ line ["train-network"; "--profile"; n]%string = Exit 2 false.
Proof. intros n [->| ->] N; split; cbn; unfold int_of; rewrite N; reflexivity. Qed.
(** An accepted test line starts the test program with exactly the files of the line. *)
Theorem C91_tests_started : forall words j profile args, line words = Parsed (j, profile, args) -> hd ""%string words = "test"%string ->
  exists xs wss, words = "test"%string :: List.concat wss /\ Forall2 (written any_word) xs wss /\ tool_execute j = Some {| started := ["test/test"%string :: own_words xs]; raised := None |}.
Proof.
  intros words j profile args E T. destruct (C91_nothing_ignored _ _ _ _ E) as [t [xs [wss [-> [W [O [A _]]]]]]]. cbn [hd] in T. destruct t; try discriminate T. destruct A as [_ ->].
  exists xs, wss. split; [reflexivity|]. split; [exact W|reflexivity].
Qed.
(** The three commands that work with data fail before anything is done. *)
Theorem C91_data_commands_refuted : forall words j profile args e, line words = Parsed (j, profile, args) -> hd ""%string words <> "test"%string -> tool_execute j = Some e ->
  e = {| started := []; raised := Some AttributeError |}.
Proof.
  intros words j profile args e E T X. destruct (C91_nothing_ignored _ _ _ _ E) as [t [xs [wss [-> [W [O [A _]]]]]]]. destruct t; cbn [asks_for hd tool_word] in A, T.
  - destruct A as [show [save [-> _]]]. injection X as <-. reflexivity.
  - destruct A as [N [_ [h [-> _]]]]. cbn [tool_execute] in X. injection X as <-. destruct (own_words xs) as [|p ps]; [congruence|]. unfold ends_with. cbn [fold_left bind load_data].
    assert (G : forall l, fold_left (fun r p => bind r (fun _ => load_data p)) l (Err AttributeError) = Err AttributeError) by (induction l; [reflexivity|assumption]). rewrite G. reflexivity.
  - destruct A as [a [b [_ ->]]]. cbn [tool_execute] in X. repeat match type of X with context [match ?f with Finite _ => _ | _ => _ end] => destruct f; try discriminate X end. injection X as <-. reflexivity.
  - destruct A as [n [_ [_ ->]]]. discriminate X.
  - congruence.
  - destruct A as [n [r [ps [c [p [_ [_ [-> _]]]]]]]]. discriminate X.
Qed.
End Tools.

(** delete-curvature with its options around and between the paths; train-network with a parameter given twice *)
Definition some_int (w : string) : option Z := if String.eqb w "7" then Some 7%Z else None.
Definition some_float (w : string) : option pyfloat := if String.eqb w "0.5" then Some (Finite (1 / 2)) else if String.eqb w "-3" then Some (Finite (-3)) else None.
Example C91_ex : tool_line some_int some_float ["delete-curvature"; "--args"; "a.csv"; "-s"; "0.5"; "b.csv"; "--profile"]%string = Parsed (JDelete "a.csv" "b.csv" (Finite (1 / 2)) (Finite (1 / 4)) (Finite (1 / 2)), 30%Z, true) /\
  (exists xs wss, List.concat wss = ["-p"; "lr"; "0.5"; "llf2"; "--epochs"; "7"; "-p"; "lr"; "-3"; "--resume"]%string /\ Forall2 (part_written some_int some_float value_word) xs wss /\
     Forall (part_offered TTrain) xs /\ not_swallowed xs /\ asks_for some_float TTrain xs (JTrain "llf2" true [("lr"%string, Finite (-3))] 7 1 None false false)).
Proof.
  split.
  - cbn. destruct (Rleb_spec (1 / 2) 0); [exfalso; lra|]. cbn. destruct (Reqb_spec (1 / 2) 0); [exfalso; lra|]. reflexivity.
  - exists [NetworkParameter "lr" "0.5"; Word "llf2"; MaxEpochs 7; NetworkParameter "lr" "-3"; ResumeTraining]%string, [["-p"; "lr"; "0.5"]; ["llf2"]; ["--epochs"; "7"]; ["-p"; "lr"; "-3"]; ["--resume"]]%string.
    assert (P : forall a r, a <> "-"%char -> value_word (String a r)) by (intros a r N; left; intros r' E; injection E as E _; congruence).
    split; [reflexivity|]. split; [|split; [|split]].
    + constructor; [exists "-p"%string; repeat split; [left; reflexivity|apply P; discriminate|apply P; discriminate]|].
      constructor; [split; [reflexivity|apply P; discriminate]|].
      constructor; [exists "--epochs"%string, "7"%string; repeat split; [right; reflexivity|apply P; discriminate]|].
      constructor; [exists "-p"%string; repeat split; [left; reflexivity|apply P; discriminate|]|constructor; [reflexivity|constructor]].
      right. right. exists "3"%string. split; [reflexivity|]. exists "3"%string, ""%string. split; [repeat constructor|]. split; [constructor|]. left. split; [discriminate|reflexivity].
    + repeat constructor; discriminate.
    + intros b a w E. repeat (destruct b as [|? b]; cbn in E; [discriminate E|injection E as _ E]). destruct b; discriminate E.
    + exists "llf2"%string, true, [("lr"%string, Finite (-3))], false, false. split; [reflexivity|]. split; [right; reflexivity|]. split; [reflexivity|].
      split; [cbn; intuition congruence|]. split; [cbn; intuition congruence|]. split; [cbn; intuition congruence|]. split; [|split; [|split]].
      * intros k w [H|[H|[]]]; injection H as <- <-; discriminate.
      * constructor; [intros []|constructor].
      * intros k [<-|[<-|[]]]; left; reflexivity.
      * intros k x [H|[]]. injection H as <- <-. exists "-3"%string. split; [|reflexivity]. exists [("lr", "0.5")]%string, []. split; [reflexivity|intros []].
Qed.
Print Assumptions C91_everything_granted.
Print Assumptions C91_nothing_ignored.
Print Assumptions C91_tests_started.
Print Assumptions C91_parameter_refuted.
Print Assumptions C91_split_lists_refuted.
Print Assumptions C91_profile_refuted.
Print Assumptions C91_data_commands_refuted.
