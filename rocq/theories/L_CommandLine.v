(** Reading command lines (for C83). *)
From Coq Require Import String Ascii Reals List Arith ZArith Bool Lia Lra.
From Verif Require Import Prelude L_Prelude M_Mesh M_Boundary L_Flux M_ODE M_Solver M_ShallowWater M_Benchmark M_FVSolver M_ScalarSolver M_Misc P_Misc M_Command M_Series M_Parser S_Parser P_Parser M_CommandLine S_CommandLine.
Import ListNotations.
Open Scope R_scope.

(** ** Words *)
Lemma digits_all : forall s, digits s = true <-> all_digits s.
Proof.
  unfold all_digits. induction s as [|a s IH]; cbn [digits list_ascii_of_string]; [split; [constructor|reflexivity]|]. rewrite andb_true_iff, IH. unfold digit. rewrite andb_true_iff, !Nat.leb_le.
  split; [intros [H1 H2]; constructor; auto|intro H; inversion H; auto].
Qed.
Lemma dot_all : forall s, digits_dot_digits s = true <-> exists a b, all_digits a /\ all_digits b /\ b <> ""%string /\ s = (a ++ "." ++ b)%string.
Proof.
  induction s as [|c s IH]; cbn [digits_dot_digits].
  - split; [discriminate|]. intros [[|a0 a] [b [_ [_ [_ E]]]]]; discriminate.
  - destruct (Ascii.eqb_spec c ".") as [->|N].
    + rewrite andb_true_iff, negb_true_iff, digits_all. split.
      * intros [H1 H2]. exists ""%string, s. repeat split; auto; [constructor|]. intros ->. discriminate.
      * intros [[|a0 a] [b [A [B [N E]]]]]; cbn in E.
        -- injection E as ->. split; [|exact B]. destruct (String.eqb_spec b ""); congruence.
        -- injection E as <- _. unfold all_digits in A. cbn in A. inversion A as [|? ? H _]; subst. cbn in H. lia.
    + rewrite andb_true_iff, IH. unfold digit. rewrite andb_true_iff, !Nat.leb_le. split.
      * intros [H [a [b [A [B [M ->]]]]]]. exists (String c a), b. repeat split; auto. unfold all_digits. cbn. constructor; auto.
      * intros [[|a0 a] [b [A [B [M E]]]]]; cbn in E; [injection E as -> _; congruence|]. injection E as <- ->. unfold all_digits in A. cbn in A. inversion A; subst.
        split; [assumption|]. exists a, b. auto.
Qed.
Lemma negative_decimal s : negative_number s = true <-> exists d, s = String "-" d /\ decimal d.
Proof.
  destruct s as [|c s]; cbn [negative_number]; [split; [discriminate|intros [d [E _]]; discriminate]|].
  rewrite andb_true_iff, orb_true_iff, andb_true_iff, negb_true_iff, digits_all, dot_all. unfold dash. split.
  - intros [E H]. apply Ascii.eqb_eq in E. subst c. exists s. split; [reflexivity|]. destruct H as [[N A]|[a [b [A [B [N ->]]]]]].
    + exists s, ""%string. split; [exact A|]. split; [constructor|]. left. split; [intros ->; discriminate|reflexivity].
    + exists a, b. auto.
  - intros [d [E [a [b [A [B H]]]]]]. injection E as -> ->. split; [reflexivity|]. destruct H as [[N ->]|[N ->]].
    + left. split; [destruct (String.eqb_spec a ""); congruence|exact A].
    + right. exists a, b. auto.
Qed.
Lemma decimal_first d : decimal d -> exists a r, d = String a r /\ (nat_of_ascii a < 58)%nat /\ a <> "-"%char /\ has_char "=" d = false.
Proof.
  assert (D : forall s, all_digits s -> has_char "=" s = false).
  { induction s as [|c s IH]; intro H; [reflexivity|]. unfold all_digits in H. cbn in H. inversion H as [|? ? H1 H2]; subst. unfold has_char in *. cbn [list_ascii_of_string existsb].
    rewrite IH by assumption. destruct (Ascii.eqb_spec "=" c) as [<-|]; [cbn in H1; lia|reflexivity]. }
  assert (Ap : forall s t, has_char "=" s = false -> has_char "=" t = false -> has_char "=" (s ++ t) = false).
  { unfold has_char. induction s as [|c s IH]; intros t H1 H2; [exact H2|]. cbn [list_ascii_of_string existsb append] in *. apply orb_false_iff in H1. destruct H1 as [H1 H3]. rewrite H1. cbn. apply IH; auto. }
  intros [a [b [A [B H]]]]. assert (HE : has_char "=" d = false).
  { destruct H as [[_ ->]|[_ ->]]; [apply D; exact A|]. apply Ap; [apply D; exact A|]. apply (Ap "."%string); [reflexivity|apply D; exact B]. }
  destruct a as [|c a].
  - destruct H as [[N _]|[_ ->]]; [congruence|]. eexists; eexists. split; [reflexivity|]. split; [cbn; lia|]. split; [discriminate|exact HE].
  - unfold all_digits in A. cbn in A. inversion A as [|? ? H1 _]; subst.
    destruct H as [[_ ->]|[_ ->]]; (eexists; eexists; split; [reflexivity|]; split; [lia|]; split; [intros ->; cbn in H1; lia|exact HE]).
Qed.
Lemma flag_form c f : In f (flat_map cflags (copts c)) -> exists a r, f = String "-" (String a r) /\ ((58 <= nat_of_ascii a)%nat \/ a = "-"%char) /\ f <> "-"%string.
Proof.
  assert (X : forallb (fun f => match f with String "-" (String a r) => Nat.leb 58 (nat_of_ascii a) || Ascii.eqb a "-" | _ => false end) (flat_map cflags (copts c)) = true)
    by (destruct c as [p|p|p|p| | |]; try destruct p; reflexivity).
  intro H. rewrite forallb_forall in X. specialize (X f H). destruct f as [|b [|a r]]; [discriminate|destruct b as [[] [] [] [] [] [] [] []]; discriminate|].
  destruct (Ascii.eqb_spec b "-") as [->|N].
  - exists a, r. split; [reflexivity|]. apply orb_true_iff in X. rewrite Nat.leb_le in X. split; [destruct X as [X|X]; [left; exact X|right; apply Ascii.eqb_eq; exact X]|discriminate].
  - exfalso. destruct b as [[] [] [] [] [] [] [] []]; try discriminate X. apply N. reflexivity.
Qed.
Lemma value_plainly c w : value_word w -> cclassify c w = CPlain.
Proof.
  intros [H|[->|[d [-> D]]]].
  - unfold cclassify. destruct (String.eqb_spec w "--") as [->|]; [exfalso; eapply H; reflexivity|].
    destruct w as [|a w]; [reflexivity|]. unfold first_is, dash. destruct (Ascii.eqb_spec a "-") as [->|]; [exfalso; eapply H; reflexivity|reflexivity].
  - destruct c as [p|p|p|p| | |]; try destruct p; reflexivity.
  - destruct (decimal_first d D) as [a [r [E [A1 [A2 A3]]]]].
    assert (NF : forall f, In f (flat_map cflags (copts c)) -> exists b t, f = String "-" (String b t) /\ b <> a).
    { intros f Hf. destruct (flag_form c f Hf) as [b [t [Ef [[B|B] _]]]]; exists b, t; (split; [exact Ef|]); [intros ->; lia|congruence]. }
    unfold cclassify. destruct (String.eqb_spec (String "-" d) "--") as [X|_]; [injection X as ->; injection E as <- _; congruence|].
    cbn [first_is dash Ascii.eqb negb]. change (negb (first_is dash (String "-" d))) with false. cbv iota.
    assert (F : find (fun o => existsb (String.eqb (String "-" d)) (cflags o)) (copts c) = None).
    { destruct (find _ (copts c)) as [o|] eqn:X; [|reflexivity]. exfalso. apply find_some in X. destruct X as [X1 X2]. apply existsb_exists in X2. destruct X2 as [f [X2 X3]].
      apply String.eqb_eq in X3. subst f. destruct (NF (String "-" d)) as [b [t [Ef B]]]; [apply in_flat_map; exists o; auto|]. injection Ef as Ef. congruence. }
    rewrite F. assert (L : Nat.eqb (String.length (String "-" d)) 1 = false) by (rewrite E; reflexivity). rewrite L.
    assert (P : existsb (fun o => existsb (fun f => prefix (String "-" d) f || String.eqb f (substring 0 2 (String "-" d))) (cflags o)) (copts c) = false).
    { apply not_true_is_false. intro X. apply existsb_exists in X. destruct X as [o [X1 X2]]. apply existsb_exists in X2. destruct X2 as [f [X2 X3]].
      destruct (NF f) as [b [t [-> B]]]; [apply in_flat_map; exists o; auto|]. rewrite E in X3. cbn [prefix substring] in X3. destruct (ascii_dec "-" "-"); [|congruence].
      destruct (ascii_dec a b); [congruence|]. cbn [orb] in X3. apply String.eqb_eq in X3. injection X3 as X3 _. congruence. }
    rewrite P, orb_false_r. assert (Q : has_char "=" (String "-" d) = false) by exact A3. rewrite Q.
    assert (Ne : negative_number (String "-" d) = true) by (apply negative_decimal; exists d; auto). rewrite Ne. reflexivity.
Qed.
Lemma plainly_word c w : cclassify c w = CPlain -> any_word w.
Proof.
  unfold cclassify. destruct (String.eqb w "--"); [discriminate|]. destruct (first_is dash w) eqn:D; cbn [negb].
  - destruct w as [|a w]; [discriminate|]. cbn [first_is] in D. apply Ascii.eqb_eq in D. unfold dash in D. subst a.
    destruct (find _ (copts c)); [discriminate|]. destruct (Nat.eqb_spec (String.length (String "-" w)) 1) as [L|_].
    + intros _. left. right. left. destruct w; [reflexivity|discriminate].
    + destruct (_ || _)%bool; [discriminate|]. destruct (negative_number (String "-" w)) eqn:N; cbn [orb].
      * intros _. left. right. right. apply negative_decimal. exact N.
      * destruct (has_char " " (String "-" w)) eqn:B; [|discriminate]. intros _. right. split; [exists w; reflexivity|]. unfold has_char in B. apply existsb_exists in B.
        destruct B as [x [B1 B2]]. apply Ascii.eqb_eq in B2. subst x. exact B1.
  - intros _. left. left. intros r ->. cbn in D. discriminate.
Qed.
Lemma option_in c t o : cclassify c t = COption o -> In o (copts c) /\ In t (cflags o).
Proof.
  unfold cclassify. destruct (String.eqb t "--"); [discriminate|]. destruct (negb (first_is dash t)); [discriminate|].
  destruct (find _ (copts c)) as [o'|] eqn:F.
  - intro E. injection E as ->. apply find_some in F. destruct F as [F1 F2]. split; [exact F1|]. apply existsb_exists in F2. destruct F2 as [f [F2 F3]]. apply String.eqb_eq in F3. subst. exact F2.
  - destruct (Nat.eqb _ 1); [discriminate|]. destruct (_ || _)%bool; [discriminate|]. destruct (_ || _)%bool; discriminate.
Qed.

(** ** The option of a wish *)
Definition copt_of (x : cwish) : copt :=
  match x with
  | Benchmark _ => OBench | Seed _ | AnySeed => ORandom | EndTime _ => OEnd | Solvers _ => OSolver | Points _ => OMesh | Initial => OInitial
  | SaveFile _ => OSave | SaveData _ => OSaveData | Hide => OHide | TimeSteps _ => OTimeSteps | StartTime _ => OStartTime | Duration _ => ODuration
  | Refinements _ => ORefine | DataDirectory _ => ODirectory | Degree _ => ODegree | Number _ => ONumber | RandomSeed _ => OSeed | InputRadius _ => ORadius
  | NodeIndex _ => ONode | Append => OAppend | ResultDirectory _ => OHelp | References _ => OReferences | Prefix _ => OPrefix | Variations _ => OVariations
  | Problems _ => OProblems | PlotsToo => OSavePlot | AnimationsToo => OSaveAnimation | Profile _ => OProfile | ShowArguments => OArgs
  end.
Definition positional (x : cwish) : bool := match x with ResultDirectory _ => true | _ => false end.
Lemma flag_cclassified c x f : coffered c x -> positional x = false -> In f (cflags (copt_of x)) -> cclassify c f = COption (copt_of x).
Proof.
  intros O P F. destruct x; try discriminate P; clear P; cbn [copt_of cflags In] in F; cbn [coffered] in O;
  destruct c as [p|p|p|p| | |]; try destruct p; try contradiction; try discriminate O; try (destruct O; discriminate);
  repeat match type of F with _ \/ _ => destruct F as [<-|F]; [reflexivity|] end; contradiction.
Qed.

Lemma last_snoc {A} (pick : cwish -> option A) x : forall xs d, last_wish pick (xs ++ [x]) d = match pick x with Some a => a | None => last_wish pick xs d end.
Proof. induction xs as [|y xs IH]; intro d; [reflexivity|]. cbn [app last_wish]. apply IH. Qed.
Lemma last_in {A} (pick : cwish -> option A) : forall xs d, last_wish pick xs d = d \/ exists x, In x xs /\ pick x = Some (last_wish pick xs d).
Proof.
  induction xs as [|y xs IH]; intro d; [left; reflexivity|]. cbn [last_wish]. destruct (IH match pick y with Some a => a | None => d end) as [E|[x [H E]]].
  - rewrite E. destruct (pick y) eqn:P; [right; exists y; split; [left; reflexivity|congruence]|left; reflexivity].
  - right. exists x. split; [right; exact H|exact E].
Qed.

Section Lines.
Context (parse_int : string -> option Z) (parse_float : string -> option pyfloat) (net net2 : list state -> state).
Context (newton : (R -> R) -> R -> result R) (moving_height : R -> R) (random_waves : Z -> oscillation) (drawn : Z) (splitext : string -> string * string).
Notation cwrite := (cwritten parse_int parse_float net net2 newton moving_height).
Notation parses := (parse_options parse_int parse_float net net2 newton moving_height random_waves drawn).
Notation stores := (store parse_int parse_float net net2 newton moving_height random_waves drawn).

Lemma benchmark_named_iff p key b : benchmark_named newton moving_height p key = Ok b <-> named_benchmark newton moving_height p key b.
Proof.
  destruct p; cbn [benchmark_named named_benchmark].
  - unfold advection_benchmark_of, find_key. cbn [find fst]. split.
    + repeat match goal with |- context [String.eqb ?a key] => destruct (String.eqb_spec a key) as [<-|]; [cbn; intro E; injection E as <-; eexists; split; [reflexivity|tauto]|] end.
      discriminate.
    + intros [f [-> H]]. repeat (destruct H as [[-> ->]|H]; [reflexivity|]). destruct H as [-> ->]. reflexivity.
  - unfold burgers_benchmark_of, find_key. cbn [find fst]. split.
    + repeat match goal with |- context [String.eqb ?a key] => destruct (String.eqb_spec a key) as [<-|]; [cbn; intro E; injection E as <-; tauto|] end. discriminate.
    + intros [[-> ->]|[-> ->]]; reflexivity.
  - unfold swe_benchmark, find_key. cbn [find fst]. split.
    + intro E.
      repeat match type of E with context [String.eqb ?a key] => destruct (String.eqb_spec a key) as [<-|]; [cbn [option_map snd] in E|] end; try discriminate E;
        try (cbn [bind] in E; injection E as <-; clear; tauto).
      destruct (new_dam newton 1 (1 / 10) (1 / 2) 1) as [d|e] eqn:D; [|discriminate]. cbn [bind] in E. injection E as <-.
      do 6 right. left. split; [reflexivity|]. exists d. split; reflexivity.
    + intro H. repeat match type of H with _ \/ _ => destruct H as [H|H] end; destruct H as [-> H]; try (subst b; reflexivity).
      destruct H as [d [D ->]]. cbn [String.eqb]. cbv - [new_dam IZR Rdiv sin PI osc_initial dam_initial water]. rewrite D. reflexivity.
Qed.

(** ** The namespace after some wishes *)
Definition is_name (x : cwish) : bool := match x with Benchmark _ => true | _ => false end.
Definition is_seed (x : cwish) : bool := match x with Seed _ | AnySeed => true | _ => false end.
Definition profile_of := last_wish (fun x => match x with Profile (Some n) => Some n | Profile None => Some 30%Z | _ => None end).
Definition summary (c : command) (xs : list cwish) : settings :=
  {| s_benchmark := benchmark_of random_waves drawn c xs; s_by_name := existsb is_name xs; s_by_seed := existsb is_seed xs; s_end := option_map Finite (end_time_of xs);
     s_solver := option_map (map namespace_of) (requests_of xs); s_mesh := points_of xs (match c with CEOC _ => 8 | _ => 200 end)%Z; s_initial := asked Initial xs;
     s_save := file_of (file_default c) xs None; s_save_data := data_file_of xs None; s_show := negb (asked Hide xs);
     s_time_steps := steps_of xs 100%Z; s_start := option_map Finite (start_of xs None); s_duration := Finite (duration_of xs 20); s_refine := refinements_of xs 4%Z;
     s_directory := directory_of xs None; s_degree := cdegree_of xs 8%Z; s_number := number_of xs 100%Z; s_seed := seed_of xs 1%Z; s_radius := radius_of xs 2%Z; s_node := node_of xs 2%Z;
     s_append := asked Append xs; s_references := references_of xs None; s_prefix := prefix_of xs "error"%string; s_variations := variations_of xs None;
     s_problems := problems_of_wishes xs 20%Z; s_save_plot := asked PlotsToo xs; s_save_animation := asked AnimationsToo xs;
     s_profile := profile_of xs 0%Z; s_args := asked ShowArguments xs |}.
Lemma summary_nil c : summary c [] = initial_settings c.
Proof. unfold summary, initial_settings. destruct c as [p|p|p|p| | |]; try destruct p; reflexivity. Qed.
(* the last wish counts: field by field *)
Ltac unfold_snoc f x := unfold f; rewrite last_snoc; destruct x; try reflexivity; match goal with |- context [match ?o with Some _ => _ | None => _ end] => destruct o; reflexivity end.
Lemma snoc_benchmark c xs x : benchmark_of random_waves drawn c (xs ++ [x]) = match x with Benchmark b => b | Seed z => random_pool random_waves z | AnySeed => random_pool random_waves drawn | _ => benchmark_of random_waves drawn c xs end.
Proof. unfold_snoc benchmark_of x. Qed.
Lemma snoc_end  xs x : end_time_of (xs ++ [x]) = match x with EndTime t => Some t | _ => end_time_of xs end.
Proof. unfold_snoc end_time_of x. Qed.
Lemma snoc_requests  xs x : requests_of (xs ++ [x]) = match x with Solvers rs => Some rs | _ => requests_of xs end.
Proof. unfold_snoc requests_of x. Qed.
Lemma snoc_points  d xs x : points_of (xs ++ [x]) d = match x with Points n => n | _ => points_of xs d end.
Proof. unfold_snoc points_of x. Qed.
Lemma snoc_steps  d xs x : steps_of (xs ++ [x]) d = match x with TimeSteps n => n | _ => steps_of xs d end.
Proof. unfold_snoc steps_of x. Qed.
Lemma snoc_start  d xs x : start_of (xs ++ [x]) d = match x with StartTime t => Some t | _ => start_of xs d end.
Proof. unfold_snoc start_of x. Qed.
Lemma snoc_duration  d xs x : duration_of (xs ++ [x]) d = match x with Duration t => t | _ => duration_of xs d end.
Proof. unfold_snoc duration_of x. Qed.
Lemma snoc_refinements  d xs x : refinements_of (xs ++ [x]) d = match x with Refinements n => n | _ => refinements_of xs d end.
Proof. unfold_snoc refinements_of x. Qed.
Lemma snoc_directory  d xs x : directory_of (xs ++ [x]) d = match x with DataDirectory s => Some s | _ => directory_of xs d end.
Proof. unfold_snoc directory_of x. Qed.
Lemma snoc_cdegree  d xs x : cdegree_of (xs ++ [x]) d = match x with Degree n => n | _ => cdegree_of xs d end.
Proof. unfold_snoc cdegree_of x. Qed.
Lemma snoc_number  d xs x : number_of (xs ++ [x]) d = match x with Number n => n | _ => number_of xs d end.
Proof. unfold_snoc number_of x. Qed.
Lemma snoc_seed  d xs x : seed_of (xs ++ [x]) d = match x with RandomSeed n => n | _ => seed_of xs d end.
Proof. unfold_snoc seed_of x. Qed.
Lemma snoc_radius  d xs x : radius_of (xs ++ [x]) d = match x with InputRadius n => n | _ => radius_of xs d end.
Proof. unfold_snoc radius_of x. Qed.
Lemma snoc_node  d xs x : node_of (xs ++ [x]) d = match x with NodeIndex n => n | _ => node_of xs d end.
Proof. unfold_snoc node_of x. Qed.
Lemma snoc_problems  d xs x : problems_of_wishes (xs ++ [x]) d = match x with Problems n => n | _ => problems_of_wishes xs d end.
Proof. unfold_snoc problems_of_wishes x. Qed.
Lemma snoc_prefix  d xs x : prefix_of (xs ++ [x]) d = match x with Prefix s => s | _ => prefix_of xs d end.
Proof. unfold_snoc prefix_of x. Qed.
Lemma snoc_references  d xs x : references_of (xs ++ [x]) d = match x with References (Some s) => Some s | References None => Some "references"%string | _ => references_of xs d end.
Proof. unfold_snoc references_of x. Qed.
Lemma snoc_variations  d xs x : variations_of (xs ++ [x]) d = match x with Variations l => Some l | _ => variations_of xs d end.
Proof. unfold_snoc variations_of x. Qed.
Lemma snoc_file  f d xs x : file_of f (xs ++ [x]) d = match x with SaveFile (Some s) => Some s | SaveFile None => Some f | _ => file_of f xs d end.
Proof. unfold_snoc file_of x. Qed.
Lemma snoc_data  d xs x : data_file_of (xs ++ [x]) d = match x with SaveData s => s | _ => data_file_of xs d end.
Proof. unfold_snoc data_file_of x. Qed.
Lemma snoc_profile  d xs x : profile_of (xs ++ [x]) d = match x with Profile (Some n) => n | Profile None => 30%Z | _ => profile_of xs d end.
Proof. unfold_snoc profile_of x. Qed.
Lemma snoc_a1  xs x : asked Initial (xs ++ [x]) = match x with Initial => true | _ => asked Initial xs end.
Proof. unfold_snoc asked x. Qed.
Lemma snoc_a2  xs x : asked Hide (xs ++ [x]) = match x with Hide => true | _ => asked Hide xs end.
Proof. unfold_snoc asked x. Qed.
Lemma snoc_a3  xs x : asked Append (xs ++ [x]) = match x with Append => true | _ => asked Append xs end.
Proof. unfold_snoc asked x. Qed.
Lemma snoc_a4  xs x : asked PlotsToo (xs ++ [x]) = match x with PlotsToo => true | _ => asked PlotsToo xs end.
Proof. unfold_snoc asked x. Qed.
Lemma snoc_a5  xs x : asked AnimationsToo (xs ++ [x]) = match x with AnimationsToo => true | _ => asked AnimationsToo xs end.
Proof. unfold_snoc asked x. Qed.
Lemma snoc_a6  xs x : asked ShowArguments (xs ++ [x]) = match x with ShowArguments => true | _ => asked ShowArguments xs end.
Proof. unfold_snoc asked x. Qed.
Lemma snoc_exists p xs (x : cwish) : existsb p (xs ++ [x]) = (existsb p xs || p x)%bool.
Proof. rewrite existsb_app. cbn. rewrite orb_false_r. reflexivity. Qed.
Ltac snoc0 := unfold summary; rewrite snoc_benchmark, snoc_end, snoc_requests, snoc_points, snoc_steps, snoc_start, snoc_duration, snoc_refinements, snoc_directory, snoc_cdegree, snoc_number, snoc_seed, snoc_radius, snoc_node, snoc_problems, snoc_prefix, snoc_references, snoc_variations, snoc_file, snoc_data, snoc_profile, snoc_a1, snoc_a2, snoc_a3, snoc_a4, snoc_a5, snoc_a6, !snoc_exists; cbn [is_name is_seed option_map]; rewrite ?orb_false_r, ?orb_true_r.
Ltac snoc := snoc0; reflexivity.
Lemma summary_directory c xs d : summary c (xs ++ [ResultDirectory d]) = summary c xs.
Proof. snoc. Qed.

Lemma cregistry_is c : cregistry c = registry (is_swe c).
Proof. destruct c as [p|p|p|p| | |]; try destruct p; reflexivity. Qed.
Definition agree (xs : list cwish) : Prop := (existsb is_name xs && existsb is_seed xs)%bool = false.

(** a wish that is written is stored *)
Lemma store_wish c x f vs xs : cwrite value_word c x (f :: vs) -> positional x = false -> no_key_in_values c x -> agree (xs ++ [x]) ->
  stores c (copt_of x) vs (summary c xs) = Parsed (summary c (xs ++ [x])).
Proof.
  intros W P K A.
  assert (Cnt : forall z w, (exists y, parse_int w = Some y /\ (0 < y)%Z /\ z = y) -> positive_int parse_int w = Ok z).
  { intros z w [y [E [L ->]]]. unfold positive_int, int_of. rewrite E. cbn [bind]. destruct (Z.leb_spec y 0); [lia|reflexivity]. }
  assert (Pos : forall t w, parse_float w = Some (Finite t) /\ 0 < t -> positive_float parse_float w = Ok (Finite t)).
  { intros t w [E L]. unfold positive_float, float_of. rewrite E. cbn [bind le_num]. destruct (Rleb_spec t 0); [lra|reflexivity]. }
  destruct x; try discriminate P; clear P; cbn [cwritten] in W; cbn [copt_of]; unfold store; unfold summary at 1; cbv beta iota zeta;
  try (match type of W with exists f w, _ = [f; w] /\ _ => idtac end; destruct W as [f' [w [E [_ [_ W]]]]]; injection E as -> ->; cbn [hd];
       (rewrite (Cnt _ _ W) || rewrite (Pos _ _ W) || rewrite W || idtac); cbn [converted]; try snoc).
  - apply benchmark_named_iff in W. unfold problem_of. rewrite W. cbn [converted]. unfold agree in A. rewrite !existsb_app in A. cbn [existsb is_name is_seed orb] in A.
    rewrite orb_true_r, orb_false_r in A. cbn [andb] in A. rewrite A. snoc0. rewrite A. reflexivity.
  - destruct W as [W1 W2]. unfold seeded, int_of. rewrite W1. cbn [bind]. destruct (Z.ltb_spec z 0); [lia|]. cbn [converted].
    unfold agree in A. rewrite !existsb_app in A. cbn [existsb is_name is_seed orb] in A. rewrite orb_true_r, orb_false_r, andb_true_r in A. rewrite A. snoc0. rewrite A. reflexivity.
  - destruct W as [f' [E _]]. injection E as -> ->. cbn [converted].
    unfold agree in A. rewrite !existsb_app in A. cbn [existsb is_name is_seed orb] in A. rewrite orb_true_r, orb_false_r, andb_true_r in A. rewrite A. snoc0. rewrite A. reflexivity.
  - destruct W as [f' [E [_ [_ [W1 W2]]]]]. injection E as -> ->. rewrite cregistry_is. cbn [no_key_in_values] in K.
    pose proof (namespaces_of_line parse_int parse_float net net2 (is_swe c) rs W1 K) as N. cbv zeta in N. rewrite N. snoc.
  - injection W as -> ->. snoc.
  - destruct W as [[E W]|[w [E [_ W]]]]; injection E as -> ->; subst; cbn [hd]; snoc.
  - destruct W as [[E W]|[w [E [_ W]]]]; injection E as -> ->; subst; cbn [hd]; snoc.
  - injection W as -> ->. snoc.
  - injection W as -> ->. snoc.
  - destruct W as [[E W]|[w [E [_ W]]]]; injection E as -> ->; subst; cbn [hd]; snoc.
  - destruct W as [f' [E _]]. injection E as -> ->. snoc.
  - injection W as -> ->. snoc.
  - injection W as -> ->. snoc.
  - destruct W as [[E W]|[w [E [_ W]]]]; injection E as -> ->; destruct n as [z|]; try contradiction; cbn [hd converted]; [snoc|].
    unfold int_of. rewrite W. cbn [converted]. snoc.
  - injection W as -> ->. snoc.
Qed.

(** the strings of a wish *)
Lemma written_form value c x ws : cwrite value c x ws -> (exists d, x = ResultDirectory d /\ ws = [d] /\ value d) \/
  positional x = false /\ exists f vs, ws = f :: vs /\ In f (cflags (copt_of x)) /\ Forall value vs /\
    match carity (copt_of x) with Zero => vs = [] | One => exists w, vs = [w] | AtMostOne => vs = [] \/ exists w, vs = [w] | AtLeastOne => vs <> [] | Any => True end.
Proof.
  assert (Sp : forall a b f, spelled a b f -> In f [a; b]) by (intros a b f [->| ->]; cbn; auto).
  assert (Sp1 : forall a f, spelled a a f -> In f [a]) by (intros a f [->| ->]; cbn; auto).
  intro W. destruct x; cbn [cwritten] in W; try (left; eexists; split; [reflexivity|exact W]); right; (split; [reflexivity|]); cbn [copt_of cflags carity];
  try (match type of W with exists f w, _ = [f; w] /\ _ => idtac end; destruct W as [f' [w [-> [S [V _]]]]]; exists f', [w]; split; [reflexivity|]; split; [(apply Sp + apply Sp1); exact S|];
    split; [constructor; [exact V|constructor]|]; (exists w; reflexivity) || (right; exists w; reflexivity));
  try (subst ws; eexists; exists []; split; [reflexivity|]; split; [left; reflexivity|]; split; [constructor|reflexivity]);
  try (match type of W with _ \/ _ => idtac end; destruct W as [[-> _]|[w [-> [V _]]]]; [eexists; exists []; split; [reflexivity|]; split; [left; reflexivity|]; split; [constructor|left; reflexivity]
    |eexists; exists [w]; split; [reflexivity|]; split; [left; reflexivity|]; split; [constructor; [exact V|constructor]|right; exists w; reflexivity]]).
  - destruct W as [f [-> S]]. exists f, []. split; [reflexivity|]. split; [apply Sp; exact S|]. split; [constructor|left; reflexivity].
  - destruct W as [f [-> [S [N [W V]]]]]. exists f, (List.concat (map (words (is_swe c)) rs)). split; [reflexivity|]. split; [apply Sp; exact S|]. split; [exact V|].
    destruct rs as [|[[k xs] wss] rs]; [congruence|]. pose proof (Forall_inv W) as [[key K] _]. cbn [map words List.concat]. rewrite K. discriminate.
  - destruct W as [f [-> [S V]]]. exists f, l. split; [reflexivity|]. split; [apply Sp; exact S|]. split; [exact V|exact I].
Qed.

(** what is stored comes from a wish *)
Definition finite_line (ws : list string) : Prop := finite_words parse_float ws.
Lemma stored_wish c o f vs xs s : In o (copts c) -> In f (cflags o) -> Forall any_word vs -> finite_line vs ->
  match carity o with Zero => vs = [] | One => exists w, vs = [w] | AtMostOne => vs = [] \/ exists w, vs = [w] | AtLeastOne => vs <> [] | Any => True end ->
  agree xs -> stores c o vs (summary c xs) = Parsed s ->
  exists x, cwrite any_word c x (f :: vs) /\ coffered c x /\ positional x = false /\ s = summary c (xs ++ [x]) /\ agree (xs ++ [x]).
Proof.
  intros Io F V Fin A Ag E.
  assert (Cnt : forall g z w, converted (positive_int parse_int w) g = Parsed z -> exists y, (exists y', parse_int w = Some y' /\ (0 < y')%Z /\ y = y') /\ g y = Parsed z).
  { intros g z w. unfold positive_int, int_of. destruct (parse_int w) as [y|]; [|discriminate]. cbn [bind]. destruct (Z.leb_spec y 0); [discriminate|]. cbn [converted]. intro G. exists y. eauto. }
  assert (Pos : forall g z w, In w vs -> converted (positive_float parse_float w) g = Parsed z -> exists t, (parse_float w = Some (Finite t) /\ 0 < t) /\ g (Finite t) = Parsed z).
  { intros g z w Hw. unfold positive_float, float_of. destruct (parse_float w) as [y|] eqn:Ey; [|discriminate]. destruct (Fin w y Hw Ey) as [t ->]. cbn [bind le_num].
    destruct (Rleb_spec t 0); [discriminate|]. cbn [converted]. intro G. exists t. split; [split; [reflexivity|lra]|exact G]. }
  assert (Sp : forall a b, In f [a; b] -> spelled a b f) by (intros a b [<-|[<-|[]]]; unfold spelled; auto).
  assert (Sp1 : forall a, In f [a] -> spelled a a f) by (intros a [<-|[]]; unfold spelled; auto).
  assert (Off : forall x, copt_of x = o -> positional x = false -> coffered c x).
  { intros x <- P. destruct x; try discriminate P; cbn [copt_of] in Io; clear - Io; destruct c as [p|p|p|p| | |]; try destruct p; cbn in Io;
    repeat match type of Io with _ \/ _ => destruct Io as [Io|Io]; try discriminate Io end; try contradiction; cbn; auto. }
  assert (Same : forall x, is_name x = false -> is_seed x = false -> agree (xs ++ [x])).
  { intros x N S. unfold agree. rewrite !snoc_exists, N, S, !orb_false_r. exact Ag. }
  assert (Done : forall x, copt_of x = o -> positional x = false -> is_name x = false -> is_seed x = false -> cwrite any_word c x (f :: vs) -> s = summary c (xs ++ [x]) ->
    exists x, cwrite any_word c x (f :: vs) /\ coffered c x /\ positional x = false /\ s = summary c (xs ++ [x]) /\ agree (xs ++ [x])).
  { intros x H1 H2 H3 H4 H5 H6. exists x. split; [exact H5|]. split; [apply Off; assumption|]. split; [exact H2|]. split; [exact H6|apply Same; assumption]. }
  destruct o; cbn [carity] in A; cbn [cflags] in F; unfold store in E; unfold summary at 1 in E; cbv beta iota zeta in E.
  - discriminate.
  - (* benchmark *) destruct A as [w ->]. cbn [hd] in E. destruct (benchmark_named newton moving_height (problem_of c) w) as [b|e] eqn:B; [|destruct e; discriminate]. cbn [converted] in E.
    destruct (existsb is_seed xs) eqn:S; [discriminate|]. injection E as <-. exists (Benchmark b). split.
    { exists f, w. split; [reflexivity|]. split; [apply Sp; exact F|]. split; [exact (Forall_inv V)|]. apply benchmark_named_iff. exact B. }
    split; [apply Off; reflexivity|]. split; [reflexivity|]. split; [snoc0; rewrite S; reflexivity|]. unfold agree. rewrite !snoc_exists, S. apply andb_false_r.
  - (* random *) destruct A as [->|[w ->]].
    + cbn [converted] in E. destruct (existsb is_name xs) eqn:S; [discriminate|]. injection E as <-. exists AnySeed. split; [exists f; split; [reflexivity|apply Sp; exact F]|].
      split; [apply Off; reflexivity|]. split; [reflexivity|]. split; [snoc0; rewrite S; reflexivity|]. unfold agree. rewrite !snoc_exists, S. reflexivity.
    + cbn [hd] in E. unfold seeded, int_of in E. destruct (parse_int w) as [z|] eqn:Z; [|discriminate]. cbn [bind] in E. destruct (Z.ltb_spec z 0); [discriminate|]. cbn [converted] in E.
      destruct (existsb is_name xs) eqn:S; [discriminate|]. injection E as <-. exists (Seed z).
      split; [exists f, w; split; [reflexivity|]; split; [apply Sp; exact F|]; split; [exact (Forall_inv V)|]; split; [exact Z|lia]|].
      split; [apply Off; reflexivity|]. split; [reflexivity|]. split; [snoc0; rewrite S; reflexivity|]. unfold agree. rewrite !snoc_exists, S. reflexivity.
  - (* end *) destruct A as [w ->]. cbn [hd] in E. apply Pos in E; [|left; reflexivity]. destruct E as [t [T E]]. injection E as <-. apply (Done (EndTime t)); try reflexivity; [|snoc].
    exists f, w. split; [reflexivity|]. split; [apply Sp; exact F|]. split; [exact (Forall_inv V)|exact T].
  - (* solver *) rewrite cregistry_is in E. destruct (solver_action parse_int parse_float net net2 (registry (is_swe c)) (List.length vs) vs) as [l| | |] eqn:S; try discriminate. injection E as <-.
    destruct (line_of_namespaces parse_int parse_float net net2 (is_swe c) vs l Fin S) as [rs [L [W ->]]]. apply (Done (Solvers rs)); try reflexivity; [|snoc].
    exists f. split; [congruence|]. split; [apply Sp; exact F|]. split; [intros ->; apply A; rewrite L; reflexivity|]. split; [exact W|rewrite <- L; exact V].
  - (* profile *) destruct A as [->|[w ->]].
    + cbn [converted] in E. injection E as <-. apply (Done (Profile None)); try reflexivity; [|snoc]. destruct F as [<-|[]]. left. split; [reflexivity|exact I].
    + cbn [hd] in E. unfold int_of in E. destruct (parse_int w) as [z|] eqn:Z; [|discriminate]. cbn [converted] in E. injection E as <-. apply (Done (Profile (Some z))); try reflexivity; [|snoc].
      destruct F as [<-|[]]. right. exists w. split; [reflexivity|]. split; [exact (Forall_inv V)|exact Z].
  - (* args *) subst vs. injection E as <-. apply (Done ShowArguments); try reflexivity; [|snoc]. destruct F as [<-|[]]. reflexivity.
  - (* mesh *) destruct A as [w ->]. cbn [hd] in E. apply Cnt in E. destruct E as [y [Y E]]. injection E as <-. apply (Done (Points y)); try reflexivity; [|snoc].
    exists f, w. split; [reflexivity|]. split; [apply Sp; exact F|]. split; [exact (Forall_inv V)|exact Y].
  - (* initial *) subst vs. injection E as <-. apply (Done Initial); try reflexivity; [|snoc]. destruct F as [<-|[]]. reflexivity.
  - (* save *) destruct A as [->|[w ->]]; injection E as <-; [apply (Done (SaveFile None))|apply (Done (SaveFile (Some w)))]; try reflexivity; try snoc; destruct F as [<-|[]].
    + left. split; reflexivity.
    + right. exists w. split; [reflexivity|]. split; [exact (Forall_inv V)|reflexivity].
  - (* save data *) destruct A as [->|[w ->]]; injection E as <-; [apply (Done (SaveData None))|apply (Done (SaveData (Some w)))]; try reflexivity; try snoc; destruct F as [<-|[]].
    + left. split; reflexivity.
    + right. exists w. split; [reflexivity|]. split; [exact (Forall_inv V)|reflexivity].
  - (* hide *) subst vs. injection E as <-. apply (Done Hide); try reflexivity; [|snoc]. destruct F as [<-|[]]. reflexivity.
  - (* time steps *) destruct A as [w ->]. cbn [hd] in E. apply Cnt in E. destruct E as [y [Y E]]. injection E as <-. apply (Done (TimeSteps y)); try reflexivity; [|snoc].
    exists f, w. split; [reflexivity|]. split; [apply Sp1; exact F|]. split; [exact (Forall_inv V)|exact Y].
  - (* start *) destruct A as [w ->]. cbn [hd] in E. apply Pos in E; [|left; reflexivity]. destruct E as [t [T E]]. injection E as <-. apply (Done (StartTime t)); try reflexivity; [|snoc].
    exists f, w. split; [reflexivity|]. split; [apply Sp; exact F|]. split; [exact (Forall_inv V)|exact T].
  - (* duration *) destruct A as [w ->]. cbn [hd] in E. apply Pos in E; [|left; reflexivity]. destruct E as [t [T E]]. injection E as <-. apply (Done (Duration t)); try reflexivity; [|snoc].
    exists f, w. split; [reflexivity|]. split; [apply Sp1; exact F|]. split; [exact (Forall_inv V)|exact T].
  - (* refine *) destruct A as [w ->]. cbn [hd] in E. apply Cnt in E. destruct E as [y [Y E]]. injection E as <-. apply (Done (Refinements y)); try reflexivity; [|snoc].
    exists f, w. split; [reflexivity|]. split; [apply Sp; exact F|]. split; [exact (Forall_inv V)|exact Y].
  - (* directory *) destruct A as [w ->]. cbn [hd] in E. injection E as <-. apply (Done (DataDirectory w)); try reflexivity; [|snoc].
    exists f, w. split; [reflexivity|]. split; [apply Sp; exact F|]. split; [exact (Forall_inv V)|reflexivity].
  - destruct A as [w ->]. cbn [hd] in E. apply Cnt in E. destruct E as [y [Y E]]. injection E as <-. apply (Done (Degree y)); try reflexivity; [|snoc].
    exists f, w. split; [reflexivity|]. split; [apply Sp; exact F|]. split; [exact (Forall_inv V)|exact Y].
  - destruct A as [w ->]. cbn [hd] in E. apply Cnt in E. destruct E as [y [Y E]]. injection E as <-. apply (Done (Number y)); try reflexivity; [|snoc].
    exists f, w. split; [reflexivity|]. split; [apply Sp; exact F|]. split; [exact (Forall_inv V)|exact Y].
  - destruct A as [w ->]. cbn [hd] in E. apply Cnt in E. destruct E as [y [Y E]]. injection E as <-. apply (Done (RandomSeed y)); try reflexivity; [|snoc].
    exists f, w. split; [reflexivity|]. split; [apply Sp1; exact F|]. split; [exact (Forall_inv V)|exact Y].
  - destruct A as [w ->]. cbn [hd] in E. apply Cnt in E. destruct E as [y [Y E]]. injection E as <-. apply (Done (InputRadius y)); try reflexivity; [|snoc].
    exists f, w. split; [reflexivity|]. split; [apply Sp; exact F|]. split; [exact (Forall_inv V)|exact Y].
  - destruct A as [w ->]. cbn [hd] in E. apply Cnt in E. destruct E as [y [Y E]]. injection E as <-. apply (Done (NodeIndex y)); try reflexivity; [|snoc].
    exists f, w. split; [reflexivity|]. split; [apply Sp1; exact F|]. split; [exact (Forall_inv V)|exact Y].
  - subst vs. injection E as <-. apply (Done Append); try reflexivity; [|snoc]. destruct F as [<-|[]]. reflexivity.
  - (* references *) destruct A as [->|[w ->]]; injection E as <-; [apply (Done (References None))|apply (Done (References (Some w)))]; try reflexivity; try snoc; destruct F as [<-|[]].
    + left. split; reflexivity.
    + right. exists w. split; [reflexivity|]. split; [exact (Forall_inv V)|reflexivity].
  - (* prefix *) destruct A as [w ->]. cbn [hd] in E. injection E as <-. apply (Done (Prefix w)); try reflexivity; [|snoc].
    exists f, w. split; [reflexivity|]. split; [apply Sp1; exact F|]. split; [exact (Forall_inv V)|reflexivity].
  - (* variations *) injection E as <-. apply (Done (Variations vs)); try reflexivity; [|snoc]. exists f. split; [reflexivity|]. split; [apply Sp; exact F|exact V].
  - destruct A as [w ->]. cbn [hd] in E. apply Cnt in E. destruct E as [y [Y E]]. injection E as <-. apply (Done (Problems y)); try reflexivity; [|snoc].
    exists f, w. split; [reflexivity|]. split; [apply Sp; exact F|]. split; [exact (Forall_inv V)|exact Y].
  - subst vs. injection E as <-. apply (Done PlotsToo); try reflexivity; [|snoc]. destruct F as [<-|[]]. reflexivity.
  - subst vs. injection E as <-. apply (Done AnimationsToo); try reflexivity; [|snoc]. destruct F as [<-|[]]. reflexivity.
Qed.

(** ** Reading a whole line *)
Definition starts_open (c : command) (rest : list string) : Prop := match rest with [] => True | t :: _ => is_plain c t = false end.
Lemma plain_value_word c w : value_word w -> is_plain c w = true.
Proof. intro V. unfold is_plain. rewrite value_plainly by exact V. reflexivity. Qed.
Lemma take_all c : forall vs rest, Forall value_word vs -> starts_open c rest -> take_plain c (vs ++ rest) = (vs, rest).
Proof.
  induction vs as [|v vs IH]; intros rest V S.
  - destruct rest as [|t rest]; [reflexivity|]. cbn in S |- *. rewrite S. reflexivity.
  - inversion V; subst. cbn [app take_plain]. rewrite plain_value_word by assumption. rewrite IH by assumption. reflexivity.
Qed.
Definition open_ended (x : cwish) : bool :=
  match x with Solvers _ | Variations _ | References None | Profile None | AnySeed | SaveFile None | SaveData None => true | _ => false end.
Lemma arguments_of c x f vs rest : cwrite value_word c x (f :: vs) -> positional x = false -> (open_ended x = true -> starts_open c rest) ->
  arguments c (copt_of x) (vs ++ rest) = Some (vs, rest).
Proof.
  intros W P O. destruct (written_form _ _ _ _ W) as [[d [-> _]]|[_ [f' [vs' [E [_ [V A]]]]]]]; [discriminate|]. injection E as <- <-. unfold arguments.
  destruct (carity (copt_of x)) eqn:Ar.
  - subst vs. reflexivity.
  - destruct A as [w ->]. cbn [app]. rewrite plain_value_word by exact (Forall_inv V). reflexivity.
  - destruct A as [->|[w ->]]; cbn [app]; [|rewrite plain_value_word by exact (Forall_inv V); reflexivity].
    assert (Op : open_ended x = true).
    { destruct x; try discriminate P; try discriminate Ar; try reflexivity; cbn [cwritten] in W;
      try (destruct W as [f' [w [E _]]]; discriminate E); 
      match goal with o : option _ |- _ => destruct o; [|reflexivity] end; destruct W as [[_ W]|[w [E _]]]; try discriminate W; try discriminate E; contradiction. }
    specialize (O Op). destruct rest as [|t rest]; [reflexivity|]. cbn in O. rewrite O. reflexivity.
  - assert (Op : open_ended x = true) by (destruct x; try discriminate Ar; reflexivity). rewrite (take_all c vs rest V (O Op)). destruct vs; [congruence|reflexivity].
  - assert (Op : open_ended x = true) by (destruct x; try discriminate Ar; reflexivity). rewrite (take_all c vs rest V (O Op)). reflexivity.
Qed.
Lemma agree_app xs ys : agree (xs ++ ys) -> agree xs.
Proof.
  unfold agree. rewrite !existsb_app. destruct (existsb is_name xs), (existsb is_seed xs); cbn; congruence.
Qed.
Lemma first_flag c y ws rest : cwrite value_word c y ws -> coffered c y -> positional y = false -> starts_open c (ws ++ rest).
Proof.
  intros W O P. destruct (written_form _ _ _ _ W) as [[d [-> _]]|[_ [f [vs [-> [F _]]]]]]; [discriminate|]. cbn. unfold is_plain. rewrite (flag_cclassified c y f O P F). reflexivity.
Qed.
Lemma parse_line c : forall ys wss, Forall2 (cwrite value_word c) ys wss -> Forall (fun y => positional y = true \/ coffered c y) ys -> Forall (no_key_in_values c) ys ->
  (forall y, In y ys -> open_ended y = true -> swallows y = false -> result_directories ys = []) -> separated ys ->
  forall fuel xs lo, agree (xs ++ ys) -> (List.length (List.concat wss) < fuel)%nat ->
  parses c fuel false lo (List.concat wss) (summary c xs) = Parsed (summary c (xs ++ ys), lo ++ result_directories ys, false).
Proof.
  intros ys wss W. induction W as [|y ws ys wss H W IH]; intros O K D S fuel xs lo A L.
  - destruct fuel as [|fuel]; [cbn in L; lia|]. cbn. rewrite !app_nil_r. reflexivity.
  - inversion O as [|? ? O1 O2]; inversion K as [|? ? K1 K2]; subst. cbn [List.concat] in *. rewrite app_length in L.
    assert (S' : separated ys) by (destruct ys; [exact I|apply S]).
    assert (A' : agree ((xs ++ [y]) ++ ys)) by (rewrite <- app_assoc; exact A).
    destruct (written_form _ _ _ _ H) as [[d [-> [-> V]]]|[P [f [vs [-> [F _]]]]]].
    + destruct fuel as [|fuel]; [lia|]. cbn [app parse_options]. rewrite (value_plainly c d V).
      assert (D' : forall y, In y ys -> open_ended y = true -> swallows y = false -> result_directories ys = []).
      { intros y Y1 Y2 Y3. exfalso. pose proof (D y (or_intror Y1) Y2 Y3) as X. discriminate X. }
      pose proof (IH O2 K2 D' S' fuel (xs ++ [ResultDirectory d]) (lo ++ [d]) A') as E. rewrite summary_directory in E. rewrite E by (cbn in L; lia).
      rewrite <- !app_assoc. reflexivity.
    + destruct O1 as [O1|O1]; [congruence|]. destruct fuel as [|fuel]; [lia|]. cbn [app parse_options]. rewrite (flag_cclassified c y f O1 P F).
      assert (R : open_ended y = true -> starts_open c (List.concat wss)).
      { intro Op. inversion W as [|y2 ws2 ys2 wss2 W1 W2]; subst; [exact I|]. cbn [List.concat]. inversion O2 as [|? ? O3 _]; subst.
        assert (P2 : positional y2 = false).
        { destruct (positional y2) eqn:P2; [|reflexivity]. exfalso. destruct y2; try discriminate P2. destruct (swallows y) eqn:Sw.
          - apply (proj1 S). split; [exact Sw|eexists; reflexivity].
          - pose proof (D y (or_introl eq_refl) Op Sw) as X. cbn in X. destruct y; discriminate X. }
        destruct O3 as [O3|O3]; [congruence|]. apply (first_flag c y2); assumption. }
      rewrite (arguments_of c y f vs _ H P R). rewrite (store_wish c y f vs xs H P K1) by (apply (agree_app _ ys); exact A').
      assert (D' : forall y0, In y0 ys -> open_ended y0 = true -> swallows y0 = false -> result_directories ys = []).
      { intros y0 Y1 Y2 Y3. pose proof (D y0 (or_intror Y1) Y2 Y3) as X. cbn [result_directories flat_map] in X. apply app_eq_nil in X. apply X. }
      rewrite (IH O2 K2 D' S' fuel (xs ++ [y]) lo A') by (cbn in L; lia). rewrite <- app_assoc. cbn [result_directories flat_map app].
      destruct y; try discriminate P; reflexivity.
Qed.
Lemma not_odd_line c : forall ys wss, Forall2 (cwrite value_word c) ys wss -> Forall (fun y => positional y = true \/ coffered c y) ys ->
  existsb (fun t => match cclassify c t with COdd => true | _ => false end) (List.concat wss) = false.
Proof.
  intros ys wss W. induction W as [|y ws ys wss H W IH]; intro O; [reflexivity|]. inversion O as [|? ? O1 O2]; subst. cbn [List.concat]. rewrite existsb_app, IH by exact O2.
  rewrite orb_false_r. destruct (written_form _ _ _ _ H) as [[d [-> [-> V]]]|[P [f [vs [-> [F [V _]]]]]]].
  - cbn [existsb]. rewrite (value_plainly c d V). reflexivity.
  - destruct O1 as [O1|O1]; [congruence|]. cbn [existsb]. rewrite (flag_cclassified c y f O1 P F). cbn [orb]. clear - V.
    induction V as [|v vs V1 V2 IH]; [reflexivity|]. cbn [existsb]. rewrite (value_plainly c v V1). exact IH.
Qed.
(* the other way *)
Lemma arguments_only c o rest vs rest' : arguments c o rest = Some (vs, rest') -> rest = vs ++ rest' /\ Forall any_word vs /\
  match carity o with Zero => vs = [] | One => exists w, vs = [w] | AtMostOne => vs = [] \/ exists w, vs = [w] | AtLeastOne => vs <> [] | Any => True end.
Proof.
  assert (P : forall w, is_plain c w = true -> any_word w). { intros w E. apply (plainly_word c). unfold is_plain in E. destruct (cclassify c w); try discriminate; reflexivity. }
  assert (T : forall l a b, take_plain c l = (a, b) -> l = a ++ b /\ Forall any_word a).
  { induction l as [|t l IH]; intros a b E; cbn [take_plain] in E; [injection E as <- <-; split; [reflexivity|constructor]|].
    destruct (is_plain c t) eqn:X; [|injection E as <- <-; split; [reflexivity|constructor]]. destruct (take_plain c l) as [a' b'] eqn:Y. injection E as <- <-.
    destruct (IH a' b' eq_refl) as [-> H]. split; [reflexivity|constructor; auto]. }
  unfold arguments. destruct (carity o).
  - intro E. injection E as <- <-. repeat split. constructor.
  - destruct rest as [|v rest]; [discriminate|]. destruct (is_plain c v) eqn:X; [|discriminate]. intro E. injection E as <- <-. repeat split; [constructor; auto|eauto].
  - destruct rest as [|v rest]; [intro E; injection E as <- <-; repeat split; [constructor|auto]|]. destruct (is_plain c v) eqn:X; intro E; injection E as <- <-; repeat split; auto.
    right. eauto.
  - destruct (take_plain c rest) as [a b] eqn:X. destruct a as [|w a]; [discriminate|]. intro E. injection E as <- <-. destruct (T _ _ _ X). repeat split; auto. discriminate.
  - intro E. injection E as E. destruct (T _ _ _ E). auto.
Qed.
Lemma unknown_stays c : forall fuel lo tokens s s' lo', parses c fuel true lo tokens s <> Parsed (s', lo', false).
Proof.
  induction fuel as [|fuel IH]; intros lo [|t rest] s s' lo'; cbn [parse_options]; try discriminate. destruct (cclassify c t); try discriminate; try apply IH.
  destruct (arguments c o rest) as [[vs rest']|]; [|discriminate]. destruct (stores c o vs s); try discriminate. apply IH.
Qed.
Lemma parsed_line c : forall fuel tokens lo xs s lo', agree xs -> finite_line tokens -> parses c fuel false lo tokens (summary c xs) = Parsed (s, lo', false) ->
  exists ys wss, tokens = List.concat wss /\ Forall2 (cwrite any_word c) ys wss /\ Forall (fun y => positional y = true \/ coffered c y) ys /\ agree (xs ++ ys) /\
    s = summary c (xs ++ ys) /\ lo' = lo ++ result_directories ys.
Proof.
  induction fuel as [|fuel IH]; intros [|t rest] lo xs s lo' A Fin E; cbn [parse_options] in E; try discriminate.
  - injection E as <- <-. exists [], []. rewrite !app_nil_r. repeat split; auto; constructor.
  - destruct (cclassify c t) as [|o| |] eqn:C; try discriminate.
    + destruct (IH rest (lo ++ [t]) (xs ++ [ResultDirectory t]) s lo') as [ys [wss [H1 [H2 [H3 [H4 [H5 H6]]]]]]].
      { unfold agree. rewrite !snoc_exists. cbn. rewrite !orb_false_r. exact A. }
      { intros w f Hw. apply Fin. right. exact Hw. }
      { rewrite summary_directory. exact E. }
      exists (ResultDirectory t :: ys), ([t] :: wss). rewrite <- app_assoc in H4, H5, H6. cbn [List.concat app result_directories flat_map]. repeat match goal with |- _ /\ _ => split end; auto.
      * congruence.
      * constructor; [split; [reflexivity|apply (plainly_word c); exact C]|exact H2].
    + destruct (arguments c o rest) as [[vs rest']|] eqn:Ar; [|discriminate]. destruct (stores c o vs (summary c xs)) as [s1| | |] eqn:St; try discriminate.
      destruct (option_in _ _ _ C) as [I1 I2]. destruct (arguments_only _ _ _ _ _ Ar) as [-> [V Sh]].
      destruct (stored_wish c o t vs xs s1 I1 I2 V) as [x [X1 [X2 [X3 [-> X5]]]]]; try assumption.
      { intros w f Hw. apply Fin. right. apply in_or_app. left. exact Hw. }
      destruct (IH rest' lo (xs ++ [x]) s lo') as [ys [wss [H1 [H2 [H3 [H4 [H5 H6]]]]]]]; auto.
      { intros w f Hw. apply Fin. right. apply in_or_app. right. exact Hw. }
      exists (x :: ys), ((t :: vs) :: wss). rewrite <- app_assoc in H4, H5. cbn [List.concat app result_directories flat_map]. repeat match goal with |- _ /\ _ => split end; auto.
      * congruence.
      * destruct x; try discriminate X3; exact H6.
    + exfalso. apply (unknown_stays c _ _ _ _ _ _ E).
Qed.
End Lines.
