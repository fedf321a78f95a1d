(** C83 the command line of the program. *)
From Coq Require Import String Ascii Reals List Arith ZArith Bool Lia Lra.
From Verif Require Import Prelude L_Prelude M_Mesh M_Boundary L_Flux M_ODE M_Solver M_ShallowWater M_Benchmark M_FVSolver M_ScalarSolver M_Misc P_Misc M_Command M_Series M_Parser S_Parser P_Parser M_CommandLine S_CommandLine L_CommandLine.
Import ListNotations.
Open Scope R_scope.

Section Lines.
Context (parse_int : string -> option Z) (parse_float : string -> option pyfloat) (net net2 : list state -> state).
Context (newton : (R -> R) -> R -> result R) (moving_height : R -> R) (random_waves : Z -> oscillation) (drawn : Z) (splitext : string -> string * string).
Notation cwrite := (cwritten parse_int parse_float net net2 newton moving_height).
Notation parses := (parse_options parse_int parse_float net net2 newton moving_height random_waves drawn).
Notation summary := (summary random_waves drawn).
Notation job_for := (expected_job net net2 random_waves drawn splitext).
Notation request_line := (requested parse_int parse_float net net2 newton moving_height random_waves drawn splitext).
Notation parsed_command := (parse_command parse_int parse_float net net2 newton moving_height random_waves drawn).
Notation post := (postprocess net net2 splitext).

(** ** From the namespace to the job *)
Lemma orders_map h rs : orders net net2 h (map namespace_of rs) = Parsed (map (ordered net net2 h) rs).
Proof.
  unfold orders. induction rs as [|[[k xs] wss] rs IH]; [reflexivity|]. cbn [map omap namespace_of fst snd]. rewrite build_apply. cbn [obind]. rewrite IH. reflexivity.
Qed.
Lemma optional_orders_map h o : optional_orders net net2 h (option_map (map namespace_of) o) = Parsed (option_map (map (ordered net net2 h)) o).
Proof. destruct o as [rs|]; [|reflexivity]. cbn. rewrite orders_map. reflexivity. Qed.
Lemma finite_map t : finite_number (option_map Finite t) = Parsed t.
Proof. destruct t; reflexivity. Qed.
Lemma with_end_is b t : (forall r, t = Some r -> 0 < r) -> with_end b t = end_of b t.
Proof.
  intro H. destruct b, t as [r|]; cbn; try reflexivity; (destruct (Reqb_spec r 0) as [->|]; [exfalso; specialize (H 0 eq_refl); lra|reflexivity]).
Qed.
Lemma mesh_again n r : (0 <= n)%Z -> (fst (namespace_of r), with_mesh n (snd (namespace_of r))) = namespace_of (on_mesh n r).
Proof.
  intro N. destruct r as [[k xs] wss]. cbn [namespace_of on_mesh fst snd]. f_equal. rewrite fold_left_app. cbn [fold_left]. unfold apply_wish at 2, with_mesh. cbn [dest_of value_of].
  rewrite Z2Nat.id by exact N. reflexivity.
Qed.
Lemma short_label k xs wss : (exists key, key_for true k = Some key) -> get (snd (namespace_of (k, xs, wss))) "short" = OStr (snd (fst (ordered net net2 false (k, xs, wss)))).
Proof.
  intros [key K]. cbn [namespace_of snd ordered].
  assert (X : forall d, find_key (initial k) "short" = Some (OStr d) -> get (fold_left apply_wish xs (initial k)) "short" = OStr (short_of xs d)).
  { intros d E. rewrite (get_apply xs _ _ _ E). apply (chosen_map OStr (fun x => match x with Short s => Some s | _ => None end)). intros []; reflexivity. }
  destruct k; try discriminate K; cbn [expected fst snd]; apply X; reflexivity.
Qed.
Lemma variations_map names : match build_variations names with Ok v => kinds_of_variation names = Some v | Err e => e = KeyError /\ kinds_of_variation names = None end.
Proof.
  destruct names as [l|]; [|reflexivity]. unfold build_variations, kinds_of_variation. destruct (existsb (String.eqb "all") l); [reflexivity|].
  induction l as [|s l IH]; [reflexivity|]. cbn [mapM fold_right]. revert IH. destruct (mapM (fun k => find_variation k all_variations) l) as [v|e]; intro IH.
  - rewrite IH. unfold all_variations, find_variation. destruct (String.eqb s "height-average"); [reflexivity|]. destruct (String.eqb s "wave-number"); [reflexivity|].
    destruct (String.eqb s "amplitude"); [reflexivity|]. split; reflexivity.
  - destruct IH as [-> ->]. unfold all_variations, find_variation. destruct (String.eqb s "height-average"); [split; reflexivity|].
    destruct (String.eqb s "wave-number"); [split; reflexivity|]. destruct (String.eqb s "amplitude"); split; reflexivity.
Qed.
Lemma directory_map short : find_key directories short = default_data_directory short.
Proof.
  unfold directories, default_data_directory, find_key. cbn [find fst].
  rewrite (String.eqb_sym short "llf"), (String.eqb_sym short "llf2"), (String.eqb_sym short "llf3"), (String.eqb_sym short "es1").
  destruct (String.eqb "llf" short); [reflexivity|]. destruct (String.eqb "llf2" short); [reflexivity|]. destruct (String.eqb "llf3" short); [reflexivity|]. destruct (String.eqb "es1" short); reflexivity.
Qed.

(* what the wishes on a line guarantee *)
Definition sound (c : command) (xs : list cwish) : Prop :=
  (forall t, end_time_of xs = Some t -> 0 < t) /\ (forall d, (0 < d)%Z -> (0 < points_of xs d)%Z) /\
  (forall rs, requests_of xs = Some rs -> Forall (well_written parse_int parse_float net net2 (is_swe c)) rs).
Lemma written_sound value c xs wss : Forall2 (cwrite value c) xs wss -> sound c xs.
Proof.
  intro W. assert (I : forall x, In x xs -> exists ws, cwrite value c x ws).
  { clear - W. induction W as [|x ws xs wss H W IH]; intros y [].
    - subst. exists ws. exact H.
    - apply IH. assumption. }
  split; [|split].
  - intros t E. unfold end_time_of in E. destruct (last_in (fun x => match x with EndTime t => Some (Some t) | _ => None end) xs None) as [X|[x [Hx X]]]; [congruence|].
    rewrite E in X. destruct x; try discriminate X. injection X as ->. destruct (I _ Hx) as [ws [f [w [_ [_ [_ [_ P]]]]]]]. exact P.
  - intros d D. unfold points_of. destruct (last_in (fun x => match x with Points n => Some n | _ => None end) xs d) as [X|[x [Hx X]]]; [rewrite X; exact D|].
    destruct x; try discriminate X. injection X as X. rewrite <- X. destruct (I _ Hx) as [ws [f [w [_ [_ [_ [y [_ [P ->]]]]]]]]]. exact P.
  - intros rs E. unfold requests_of in E. destruct (last_in (fun x => match x with Solvers rs => Some (Some rs) | _ => None end) xs None) as [X|[x [Hx X]]]; [congruence|].
    rewrite E in X. destruct x; try discriminate X. injection X as ->. destruct (I _ Hx) as [ws [f [_ [_ [_ [P _]]]]]]. exact P.
Qed.
Definition with_directory (d : string) (s : settings) : settings :=
  let '(Build_settings be bn bs en so me ini sa sd sh ti st du re _ de nu se ra no ap rf pre va pr sp an pf ar) := s in
  Build_settings be bn bs en so me ini sa sd sh ti st du re (Some d) de nu se ra no ap rf pre va pr sp an pf ar.
Lemma default_is c : default_benchmark c = start_benchmark c.
Proof. destruct c as [p|p|p|p| | |]; try destruct p; reflexivity. Qed.

(* for the commands without a positional argument *)
Lemma post_summary c xs : sound c xs -> c <> CVariation -> (c = CGenerate -> Forall (coffered c) xs) ->
  match job_for c xs with Some j => post c (summary c xs) = Parsed j | None => post c (summary c xs) = Raised (complaint c xs) end.
Proof.
  intros [S1 [S2 S3]] N O. destruct c as [p|p|p|p| | |]; try congruence; clear N; unfold postprocess;
  unfold L_CommandLine.summary; cbn [s_benchmark s_end s_solver s_mesh s_initial s_save s_save_data s_show s_time_steps s_start s_duration s_refine s_directory s_degree s_number s_seed s_radius s_node s_append];
  try (rewrite finite_map; cbn [obind]; rewrite (with_end_is _ _ S1)).
  - rewrite optional_orders_map. reflexivity.
  - rewrite optional_orders_map. reflexivity.
  - cbn [expected_job]. destruct (requests_of xs) as [rs|]; [|reflexivity]. cbn [option_map]. rewrite orders_map. cbn [obind]. rewrite finite_map. reflexivity.
  - cbn [expected_job]. destruct (requests_of xs) as [rs|]; [|reflexivity]. cbn [option_map].
    assert (E : forall l, omap (fun x => orders net net2 false (map (fun i => (fst x, with_mesh (2 ^ Z.of_nat i * points_of xs 8) (snd x))) (seq 0 (Z.to_nat (refinements_of xs 4%Z))))) (map namespace_of l) =
      Parsed (map (fun r => map (fun i => ordered net net2 false (on_mesh (2 ^ Z.of_nat i * points_of xs 8) r)) (seq 0 (Z.to_nat (refinements_of xs 4%Z)))) l)).
    { induction l as [|r l IH]; [reflexivity|]. cbn [map omap].
      replace (map (fun i => (fst (namespace_of r), with_mesh (2 ^ Z.of_nat i * points_of xs 8) (snd (namespace_of r)))) (seq 0 (Z.to_nat (refinements_of xs 4%Z))))
        with (map namespace_of (map (fun i => on_mesh (2 ^ Z.of_nat i * points_of xs 8) r) (seq 0 (Z.to_nat (refinements_of xs 4%Z))))).
      - rewrite orders_map. cbn [obind]. rewrite IH. cbn [obind]. rewrite map_map. reflexivity.
      - rewrite map_map. apply map_ext. intro i. symmetry. apply mesh_again. specialize (S2 8%Z ltac:(lia)). pose proof (Z.pow_nonneg 2 (Z.of_nat i) ltac:(lia)). lia. }
    rewrite E. reflexivity.
  - cbn [expected_job]. destruct (requests_of xs) as [[|r1 [|r2 [|r3 rs]]]|]; cbn [option_map given_solvers map two_orders obind]; try reflexivity.
    rewrite ?finite_map. cbn [obind]. rewrite ?(with_end_is _ _ S1). change [namespace_of r1; namespace_of r2] with (map namespace_of [r1; r2]). rewrite orders_map. reflexivity.
  - cbn [expected_job]. destruct (requests_of xs) as [[|r1 [|r2 rs]]|] eqn:R; cbn [option_map given_solvers map]; try (cbn [complaint]; rewrite R; reflexivity).
    pose proof (Forall_inv (S3 _ eq_refl)) as W. destruct r1 as [[k ws] wss]. destruct W as [K _]. unfold data_directory. cbn [s_directory L_CommandLine.summary].
    destruct (directory_of xs None) as [d|].
    + cbn [obind]. change [namespace_of (k, ws, wss)] with (map namespace_of [(k, ws, wss)]). rewrite orders_map. cbn [obind map]. rewrite finite_map. cbn [obind option_map].
      do 2 f_equal. specialize (O eq_refl). clear - O. unfold benchmark_of. 
      destruct (last_in (fun x => match x with Benchmark b => Some b | Seed z => Some (random_pool random_waves z) | AnySeed => Some (random_pool random_waves drawn) | _ => None end) xs (start_benchmark CGenerate)) as [X|[x [Hx X]]]; [exact X|].
      exfalso. rewrite Forall_forall in O. specialize (O x Hx). destruct x; try discriminate X; contradiction.
    + rewrite (short_label k ws wss K). rewrite directory_map. destruct (default_data_directory _) as [d|]; [|cbn [option_map complaint]; rewrite R; reflexivity].
      cbn [obind]. change [namespace_of (k, ws, wss)] with (map namespace_of [(k, ws, wss)]). rewrite orders_map. cbn [obind map]. rewrite finite_map. cbn [obind option_map].
      do 2 f_equal. specialize (O eq_refl). clear - O. unfold benchmark_of. 
      destruct (last_in (fun x => match x with Benchmark b => Some b | Seed z => Some (random_pool random_waves z) | AnySeed => Some (random_pool random_waves drawn) | _ => None end) xs (start_benchmark CGenerate)) as [X|[x [Hx X]]]; [exact X|].
      exfalso. rewrite Forall_forall in O. specialize (O x Hx). destruct x; try discriminate X; contradiction.
Qed.
Lemma result_last : forall xs d, result_directories xs = [d] -> result_of xs None = Some d.
Proof.
  assert (G : forall xs e, result_directories xs = [] -> result_of xs e = e).
  { induction xs as [|x xs IH]; intros e E; [reflexivity|]. unfold result_of in *. cbn [last_wish result_directories flat_map] in *. destruct x; cbn [app] in E; try discriminate E; apply IH; exact E. }
  induction xs as [|x xs IH]; intros d E; [discriminate|]. unfold result_of in *. cbn [last_wish result_directories flat_map] in *.
  destruct x; cbn [app] in E; try (apply IH; exact E). injection E as -> E. apply (G xs (Some d) E).
Qed.
Lemma post_variation xs d : sound CVariation xs -> result_directories xs = [d] ->
  match job_for CVariation xs with Some j => post CVariation (with_directory d (summary CVariation xs)) = Parsed j | None => post CVariation (with_directory d (summary CVariation xs)) = Raised (complaint CVariation xs) end.
Proof.
  intros [S1 [S2 S3]] D. unfold postprocess, with_directory, L_CommandLine.summary. cbv iota.
  cbn [s_benchmark s_end s_solver s_variations s_directory s_references s_prefix s_problems s_seed s_save_plot s_save_animation expected_job].
  rewrite (result_last xs d D). cbn [complaint]. destruct (requests_of xs) as [[|r1 [|r2 [|r3 rs]]]|]; cbn [option_map given_solvers map two_orders obind]; try reflexivity.
  rewrite finite_map. cbn [obind]. rewrite (with_end_is _ _ S1). change [namespace_of r1; namespace_of r2] with (map namespace_of [r1; r2]). rewrite orders_map. cbn [obind map two_orders fst snd].
  pose proof (variations_map (variations_of xs None)) as V. destruct (build_variations (variations_of xs None)) as [v|e]; [rewrite V; reflexivity|]. destruct V as [-> ->]. reflexivity.
Qed.

(** ** Theorems *)
Lemma command_line c tokens : exists_command c -> request_line (command_words c ++ tokens) = obind (parsed_command c tokens) (post c).
Proof. intro E. destruct c as [p|p|p|p| | |]; try destruct p; try reflexivity. exfalso. apply E. reflexivity. Qed.
Lemma line_command words j : request_line words = Parsed j ->
  exists c tokens, exists_command c /\ words = command_words c ++ tokens /\ obind (parsed_command c tokens) (post c) = Parsed j.
Proof.
  intro E. destruct words as [|name rest]; [discriminate|]. unfold requested in E. destruct (first_is dash name); [discriminate|].
  unfold problems_of, single_command, find_key in E. cbn [find fst] in E.
  repeat match type of E with context [String.eqb ?a name] => destruct (String.eqb_spec a name) as [<-|]; cbn [option_map snd] in E end;
  try (destruct rest as [|p rest]; [discriminate|]; destruct (first_is dash p); [discriminate|]; cbn [map find fst problem_key] in E;
    repeat match type of E with context [String.eqb ?a p] => destruct (String.eqb_spec a p) as [<-|]; cbn [option_map snd] in E end;
    try discriminate; (eexists; exists rest; split; [|split; [|exact E]]; [let H := fresh in intro H; discriminate H|reflexivity]));
  try (eexists; exists rest; split; [|split; [|exact E]]; [let H := fresh in intro H; discriminate H|reflexivity]).
  destruct (existsb _ other_commands); discriminate.
Qed.
Lemma exclusive_agree xs : exclusive xs <-> agree xs.
Proof.
  assert (N : existsb is_name xs = true <-> exists b, In (Benchmark b) xs).
  { rewrite existsb_exists. split; [intros [x [H1 H2]]; destruct x; try discriminate; eauto|intros [b H]; eexists; split; [exact H|reflexivity]]. }
  assert (S : existsb is_seed xs = true <-> In AnySeed xs \/ exists z, In (Seed z) xs).
  { rewrite existsb_exists. split; [intros [x [H1 H2]]; destruct x; try discriminate; eauto|intros [H|[z H]]; eexists; (split; [exact H|reflexivity])]. }
  unfold exclusive, agree. rewrite <- N, <- S. destruct (existsb is_name xs), (existsb is_seed xs); cbn; intuition congruence.
Qed.

Lemma wishes_answered c xs wss : exists_command c -> Forall2 (cwrite value_word c) xs wss -> Forall (coffered c) xs ->
  Forall (no_key_in_values c) xs -> exclusive xs -> separated xs -> (c = CVariation -> exists d, result_directories xs = [d]) ->
  request_line (command_words c ++ List.concat wss) = match job_for c xs with Some j => Parsed j | None => Raised (complaint c xs) end.
Proof.
  intros Ex W O K A Sep D. rewrite command_line by exact Ex. unfold parse_command.
  assert (O' : Forall (fun y => positional y = true \/ coffered c y) xs) by (apply (Forall_impl _ (fun a H => or_intror H) O)).
  rewrite (not_odd_line _ _ _ _ _ _ c xs wss W O'). rewrite <- (summary_nil random_waves drawn c).
  rewrite (parse_line parse_int parse_float net net2 newton moving_height random_waves drawn c xs wss W O' K) with (lo := []); try assumption.
  - cbn [app obind]. cbv iota. destruct c as [p|p|p|p| | |]; try (pose proof (written_sound _ _ _ _ W) as S;
      assert (R : result_directories xs = []) by (clear - O; induction O as [|x xs H O IH]; [reflexivity|]; cbn [result_directories flat_map]; destruct x; try discriminate H; exact IH);
      rewrite R; cbn [obind];
      match goal with |- post ?c _ = _ => pose proof (post_summary c xs S ltac:(discriminate) ltac:(auto)) as P; destruct (job_for c xs) end; exact P).
    destruct (D eq_refl) as [d Dd]. rewrite Dd. cbn [obind]. pose proof (post_variation xs d (written_sound _ _ _ _ W) Dd) as P. destruct (job_for CVariation xs); exact P.
  - intros y Hy Op Sw. rewrite Forall_forall in O. pose proof (O y Hy) as Oy. assert (c <> CVariation) by (intros ->; destruct y as [| | | | | | |[]|[]| | | | | | | | | | | | | |[]| | | | | |[]|]; try discriminate Op; try discriminate Sw; contradiction).
    clear - O H. assert (G : forall x, In x xs -> positional x = false). { intros x Hx. specialize (O x Hx). destruct x; try reflexivity. cbn in O. congruence. }
    clear O. induction xs as [|x xs IH]; [reflexivity|]. unfold result_directories in *. cbn [flat_map]. rewrite (IH (fun x H => G x (or_intror H))). specialize (G x (or_introl eq_refl)). destruct x; try reflexivity. discriminate.
  - apply exclusive_agree. exact A.
  - lia.
Qed.

(** Everything a command offers is granted as it is written, in any order, repeated or not: the last wish of a kind counts, and
    the documented defaults hold where nothing is said. The words of a solver are those of C82. *)
Theorem C83_everything_granted : forall c xs wss j, exists_command c -> Forall2 (cwrite value_word c) xs wss -> Forall (coffered c) xs ->
  Forall (no_key_in_values c) xs -> exclusive xs -> separated xs -> (c = CVariation -> exists d, result_directories xs = [d]) ->
  job_for c xs = Some j -> request_line (command_words c ++ List.concat wss) = Parsed j.
Proof. intros c xs wss j Ex W O K A Sep D J. rewrite (wishes_answered c xs wss Ex W O K A Sep D), J. reflexivity. Qed.

(** What a command offers can still end the program with an exception that is not caught: eoc and animate without a solver (TypeError), a
    wrong number of solvers (AssertionError), unknown variations and solvers without a directory for their data (KeyError). *)
Theorem C83_uncaught_exceptions_refuted : forall c xs wss, exists_command c -> Forall2 (cwrite value_word c) xs wss -> Forall (coffered c) xs ->
  Forall (no_key_in_values c) xs -> exclusive xs -> separated xs -> (c = CVariation -> exists d, result_directories xs = [d]) ->
  job_for c xs = None -> request_line (command_words c ++ List.concat wss) = Raised (complaint c xs).
Proof. intros c xs wss Ex W O K A Sep D J. rewrite (wishes_answered c xs wss Ex W O K A Sep D), J. reflexivity. Qed.

(** And nothing is ignored: a command only starts if every word of the line belongs to a wish that the command offers, and what it
    does is what these wishes say. *)
Theorem C83_nothing_ignored : forall line j, finite_words parse_float line -> request_line line = Parsed j ->
  exists c xs wss, exists_command c /\ line = command_words c ++ List.concat wss /\ Forall2 (cwrite any_word c) xs wss /\ Forall (coffered c) xs /\ exclusive xs /\
    (c = CVariation -> exists d, result_directories xs = [d]) /\ job_for c xs = Some j.
Proof.
  intros line j Fin E. destruct (line_command line j E) as [c [tokens [Ex [-> E']]]]. clear E. unfold parse_command in E'.
  destruct (existsb _ tokens); [discriminate|]. rewrite <- (summary_nil random_waves drawn c) in E'.
  destruct (parses c (S (List.length tokens)) false [] tokens (summary c [])) as [[[s lo] un]| | |] eqn:P; try discriminate. destruct un; [discriminate|].
  destruct (parsed_line parse_int parse_float net net2 newton moving_height random_waves drawn c (S (List.length tokens)) tokens [] [] s lo) as [ys [wss [H1 [H2 [H3 [H4 [H5 H6]]]]]]]; [reflexivity| |exact P|].
  { intros w f Hw. apply Fin. apply in_or_app. right. exact Hw. }
  cbn [app] in *. subst s lo tokens. exists c, ys, wss. pose proof (written_sound _ _ _ _ H2) as S.
  assert (Off : (c = CVariation \/ result_directories ys = []) -> Forall (coffered c) ys).
  { intro C. clear - H3 C. apply Forall_forall. intros x Hx. rewrite Forall_forall in H3. destruct (H3 x Hx) as [X|X]; [|exact X]. destruct x; try discriminate X. destruct C as [->|C]; [reflexivity|].
    exfalso. assert (In d (result_directories ys)) by (apply in_flat_map; exists (ResultDirectory d); split; [exact Hx|left; reflexivity]). rewrite C in H. contradiction. }
  assert (X : (c <> CVariation /\ result_directories ys = [] /\ post c (summary c ys) = Parsed j) \/
    (c = CVariation /\ exists d, result_directories ys = [d] /\ post c (with_directory d (summary c ys)) = Parsed j)).
  { destruct c as [p|p|p|p| | |]; destruct (result_directories ys) as [|d [|d2 l]]; try discriminate E'; try (left; split; [discriminate|]; split; [reflexivity|exact E']).
    right. split; [reflexivity|]. exists d. split; [reflexivity|exact E']. }
  destruct X as [[N [R X]]|[-> [d [R X]]]].
  - assert (O : Forall (coffered c) ys) by (apply Off; auto). split; [exact Ex|]. split; [reflexivity|]. split; [exact H2|]. split; [exact O|]. split; [apply exclusive_agree; exact H4|].
    split; [congruence|]. pose proof (post_summary c ys S N (fun _ => O)) as Q. destruct (job_for c ys) as [j'|]; congruence.
  - assert (O : Forall (coffered CVariation) ys) by (apply Off; auto). split; [exact Ex|]. split; [reflexivity|]. split; [exact H2|]. split; [exact O|]. split; [apply exclusive_agree; exact H4|].
    split; [eauto|]. pose proof (post_variation ys d S R) as Q. destruct (job_for CVariation ys) as [j'|]; congruence.
Qed.
End Lines.
