(** C83 lines that are refused or ignored, help pages, examples. *)
From Coq Require Import String Ascii Reals List Arith ZArith Bool Lia Lra.
From Verif Require Import Prelude L_Prelude M_Mesh M_Boundary M_Quadrature S_Quadrature M_Interpolate S_Boundary L_Flux M_ODE M_Solver M_ShallowWater M_Benchmark M_FVSolver S_FVSolver L_FVSolver P_Gauss P_FVWater P_FVLake M_ScalarSolver M_Misc M_Command M_Series M_Parser S_Parser P_Parser M_CommandLine S_CommandLine L_CommandLine P_CommandLine P_CommandRun.
Import ListNotations.
Open Scope R_scope.

Section Lines.
Context (parse_int : string -> option Z) (parse_float : string -> option pyfloat) (net net2 : list state -> state).
Context (newton : (R -> R) -> R -> result R) (moving_height : R -> R) (random_waves : Z -> oscillation) (drawn : Z) (splitext : string -> string * string).
Notation request_line := (requested parse_int parse_float net net2 newton moving_height random_waves drawn splitext).
Notation job_for := (expected_job net net2 random_waves drawn splitext).

Lemma bench_line c f w : coffered c (Benchmark (start_benchmark c)) -> exists_command c -> spelled "-b" "--benchmark" f -> value_word w ->
  request_line (command_words c ++ [f; w]) = match converted (benchmark_named newton moving_height (problem_of c) w) (fun b => Parsed (initial_settings c)) with
    | Parsed _ => request_line (command_words c ++ [f; w]) | Exit a b => Exit a b | Raised e => Raised e | Unmodelled => Unmodelled end.
Proof.
  intros O Ex F V. rewrite (command_line _ _ _ _ _ _ _ _ _ c [f; w] Ex). unfold parse_command. pose proof (value_plainly c w V) as P.
  assert (Cf : cclassify c f = COption OBench) by (destruct F as [-> | ->]; destruct c as [p|p|p|p| | |]; try destruct p; try contradiction; reflexivity).
  assert (St : forall s, s_by_seed s = false -> store parse_int parse_float net net2 newton moving_height random_waves drawn c OBench [w] s =
     converted (benchmark_named newton moving_height (problem_of c) w) (fun b => Parsed (let '(Build_settings be bn bs en so me ini sa sd sh ti st du re di de nu se ra no ap rf pre va pr sp an pf ar) := s in
       Build_settings b true bs en so me ini sa sd sh ti st du re di de nu se ra no ap rf pre va pr sp an pf ar))).
  { intros [] Hs. cbn in Hs. subst. reflexivity. }
  cbn [existsb]. rewrite Cf, P. cbn [orb List.length parse_options]. rewrite Cf. unfold arguments. cbn [carity]. unfold is_plain. rewrite P.
  rewrite St by reflexivity. destruct (benchmark_named newton moving_height (problem_of c) w) as [b|[]]; cbn [converted]; try reflexivity.
Qed.
(** A benchmark nobody knows ends the program with a KeyError that is not caught; the key "random", which help and the
    error messages show, is refused as if its value were wrong. *)
Theorem C83_unknown_benchmark_refuted : forall c f w, coffered c (Benchmark (start_benchmark c)) -> exists_command c -> spelled "-b" "--benchmark" f -> value_word w ->
  (forall b, ~ named_benchmark newton moving_height (problem_of c) w b) -> w <> "random"%string -> w <> "damm-break"%string ->
  request_line (command_words c ++ [f; w]) = Raised KeyError.
Proof.
  intros c f w O Ex F V N R D. rewrite bench_line by assumption.
  assert (E : benchmark_named newton moving_height (problem_of c) w = Err KeyError); [|rewrite E; reflexivity].
  assert (B : forall b, benchmark_named newton moving_height (problem_of c) w <> Ok b) by (intros b E; apply (N b); apply (proj1 (benchmark_named_iff newton moving_height random_waves drawn _ _ _)); exact E).
  unfold benchmark_named in *. destruct (problem_of c).
  - unfold advection_benchmark_of, find_key in *. cbn [find fst] in *. repeat match goal with |- context [String.eqb ?a w] => destruct (String.eqb a w); [exfalso; eapply B; reflexivity|] end. reflexivity.
  - unfold burgers_benchmark_of, find_key in *. cbn [find fst] in *. repeat match goal with |- context [String.eqb ?a w] => destruct (String.eqb a w); [exfalso; eapply B; reflexivity|] end. reflexivity.
  - unfold swe_benchmark, find_key in *. cbn [find fst] in *.
    destruct (String.eqb_spec "random" w) as [<-|_]; [congruence|]. destruct (String.eqb_spec "damm-break" w) as [<-|_]; [congruence|].
    repeat match goal with |- context [String.eqb ?a w] => destruct (String.eqb a w); [exfalso; eapply B; reflexivity|] end. reflexivity.
Qed.
Theorem C83_random_benchmark_refuted : forall c f, problem_of c = Swe -> coffered c (Benchmark (start_benchmark c)) -> exists_command c -> spelled "-b" "--benchmark" f ->
  request_line (command_words c ++ [f; "random"%string]) = Exit 2 false.
Proof. intros c f P O Ex F. rewrite bench_line; auto; [rewrite P; reflexivity|]. left. intros r E. discriminate E. Qed.

(** help: the keys of the solvers for scalar equations that are also keys of shallow water solvers show the page of these. It offers
    a choice of the time integrator for llf that the scalar solver does not understand. Other keys end with an uncaught KeyError. *)
Theorem C83_help : forall swe k key, key_for swe k = Some key -> key <> "llf"%string -> key <> "central"%string -> help_page key = Parsed (parser_of k).
Proof. intros [] k key K N1 N2; destruct k; try discriminate K; injection K as <-; try reflexivity; exfalso; auto. Qed.
Theorem C83_help_page_refuted : help_page "llf" = Parsed (parser_of LLF) /\ help_page "central" = Parsed (parser_of Central) /\
  key_for false ScalarLLF = Some "llf"%string /\ key_for false ScalarCentral = Some "central"%string /\
  (exists o, In o (pa_options (parser_of LLF)) /\ op_short o = "+o"%string) /\
  request_line ["calculate"; "advection"; "-s"; "llf"; "+o"; "euler"]%string = Exit 2 false /\
  forall key, (forall swe k, key_for swe k <> Some key) -> help_page key = Raised KeyError.
Proof.
  split; [reflexivity|]. split; [reflexivity|]. split; [reflexivity|]. split; [reflexivity|]. split; [|split; [reflexivity|]].
  - cbn. eexists. split; [do 4 right; left; reflexivity|reflexivity].
  - intros key H. unfold help_page, swe_registry, scalar_registry, find_key. cbn [find fst].
    repeat match goal with |- context [String.eqb ?a key] => destruct (String.eqb_spec a key) as [E|_];
      [exfalso; first [exact (H true LLF (f_equal Some E))|exact (H true LW (f_equal Some E))|exact (H true Low (f_equal Some E))|exact (H true Central (f_equal Some E))|exact (H true ES (f_equal Some E))|exact (H true ES1 (f_equal Some E))|exact (H true MCL (f_equal Some E))|exact (H true ReducedLLF (f_equal Some E))|exact (H true ReducedLLF2 (f_equal Some E))|exact (H true Antidiff (f_equal Some E))|exact (H true Coarse (f_equal Some E))|exact (H false CG (f_equal Some E))|exact (H false CGLow (f_equal Some E))|exact (H false FEMCL (f_equal Some E))|exact (H false ScalarLLF (f_equal Some E))|exact (H false ScalarCentral (f_equal Some E))|exact (H false ScalarMCL (f_equal Some E))]|] end.
    reflexivity.
Qed.

(** generate-data offers an end time, but the solver runs to time 40 whatever is asked for *)
Theorem C83_end_time_of_generate_data_refuted : forall eig linear_solver old words b o d t degree number seed radius node overwrite, finite_words parse_float words ->
  request_line words = Parsed (JGenerate b o d t degree number seed radius node overwrite) ->
  forall c w, construct eig linear_solver old b (snd o) = Ok (Water (c, w)) -> c_end c = 40.
Proof.
  intros eig ls old line b o d t de nu se ra no ov Fin E c w X.
  destruct (C83_nothing_ignored _ _ _ _ _ _ _ _ _ line _ Fin E) as [cm [xs [wss [_ [_ [_ [_ [_ [_ J]]]]]]]]].
  assert (Bb : b = start_benchmark CGenerate).
  { destruct cm as [p|p|p|p| | |]; cbn [expected_job] in J; try discriminate J; try (destruct (requests_of xs); discriminate J).
    - destruct (requests_of xs) as [[|r1 [|r2 [|r3 rs]]]|]; discriminate J.
    - destruct (requests_of xs) as [[|r1 [|r2 rs]]|]; try discriminate J.
      destruct (match directory_of xs None with Some d => Some d | None => _ end) as [dd|]; [|discriminate J]. injection J as <- _ _ _ _ _ _ _ _ _. reflexivity.
    - destruct (requests_of xs) as [[|r1 [|r2 [|r3 rs]]]|]; try discriminate J. destruct (kinds_of_variation _); [|discriminate J]. destruct (result_of xs None); discriminate J. }
  subst b. unfold construct in X. cbn [start_benchmark pool] in X. destruct (snd o); try discriminate X.
  - match type of X with bind ?s _ = _ => destruct s as [[c1 w1]|e] eqn:S; [|discriminate X] end. cbn [bind] in X. injection X as <- <-.
    destruct (sw_solver_inv _ _ _ _ _ _ S) as [m [u [nf [bc [_ [_ [_ [-> _]]]]]]]]. reflexivity.
  - match type of X with bind ?s _ = _ => destruct s as [q|e]; [|discriminate X] end. discriminate X.
  - match type of X with bind ?s _ = _ => destruct s as [q|e]; [|discriminate X] end. discriminate X.
Qed.

(** the line of scripts/gen_solver_1 L16: a blank is missing, nothing is generated *)
Theorem C83_generation_script_refuted : request_line ["generate-data"; "-d"; "data/reduced-llf/-s"; "llf"]%string = Exit 2 false.
Proof. reflexivity. Qed.
(** calculate without a solver *)
Theorem C83_no_solver_refuted : forall eig linear_solver old finite finite2 n p,
  calculate_line parse_int parse_float net net2 newton moving_height random_waves drawn splitext eig linear_solver old finite finite2 n ["calculate"; problem_word p]%string = Parsed (NoSolver, Some TypeError).
Proof. intros eig ls old finite finite2 n []; reflexivity. Qed.
End Lines.
Print Assumptions C83_everything_granted.
Print Assumptions C83_nothing_ignored.
Print Assumptions C83_uncaught_exceptions_refuted.
Print Assumptions C83_unknown_benchmark_refuted.
Print Assumptions C83_random_benchmark_refuted.
Print Assumptions C83_help.
Print Assumptions C83_help_page_refuted.
Print Assumptions C83_end_time_of_generate_data_refuted.
Print Assumptions C83_generation_script_refuted.
Print Assumptions C83_no_solver_refuted.

(** ** Examples *)
Lemma plain_word w : match w with String "-" _ => False | _ => True end%string -> value_word w.
Proof. intro H. left. intros r ->. exact H. Qed.
Lemma solver_value w : match w with String "+" _ | "--" => False | _ => True end%string -> is_value w.
Proof. intro H. split; [intros ->; exact H|intros r ->; exact H]. Qed.
Definition ex_number (s : string) : option Z := if String.eqb s "2" then Some 2%Z else if String.eqb s "20" then Some 20%Z else None.
Definition ex_float (s : string) : option pyfloat := if String.eqb s "5" then Some (Finite 5) else None.
Lemma ex_finite line : finite_words ex_float line.
Proof. intros w f _ E. unfold ex_float in E. destruct (String.eqb w "5"); [injection E as <-; eauto|discriminate]. Qed.

(** the first parameter variation test of scripts/gen_results (L93-96), for the directory "out" *)
Definition variation_wishes : list cwish :=
  [ResultDirectory "out"; PlotsToo; References None; Variations ["all"]; RandomSeed 2; Solvers [(ReducedLLF, [], []); (Coarse, [FluxOf GLLF], [["+f"; "llf"]])]]%string.
Definition variation_words : list (list string) :=
  [["out"]; ["--save-plot"]; ["--references"]; ["-v"; "all"]; ["--seed"; "2"]; ["-s"; "reduced-llf"; "coarse"; "+f"; "llf"]]%string.
Example C83_ex net net2 newton moving_height random_waves drawn splitext : exists j,
  exists_command CVariation /\ Forall2 (cwritten ex_number ex_float net net2 newton moving_height value_word CVariation) variation_wishes variation_words /\
  Forall (coffered CVariation) variation_wishes /\ Forall (no_key_in_values CVariation) variation_wishes /\ exclusive variation_wishes /\ separated variation_wishes /\
  result_directories variation_wishes = ["out"%string] /\ expected_job net net2 random_waves drawn splitext CVariation variation_wishes = Some j /\
  finite_words ex_float (command_words CVariation ++ List.concat variation_words) /\
  requested ex_number ex_float net net2 newton moving_height random_waves drawn splitext
    ["parameter-variation-test"; "out"; "--save-plot"; "--references"; "-v"; "all"; "--seed"; "2"; "-s"; "reduced-llf"; "coarse"; "+f"; "llf"]%string = Parsed j.
Proof.
  eexists. split; [discriminate|]. split.
  { unfold variation_wishes, variation_words. repeat (apply Forall2_cons || apply Forall2_nil); cbn [cwritten].
    - split; [reflexivity|apply plain_word; exact I].
    - reflexivity.
    - left. split; reflexivity.
    - exists "-v"%string. split; [reflexivity|]. split; [left; reflexivity|]. repeat (apply Forall_cons || apply Forall_nil). apply plain_word; exact I.
    - exists "--seed"%string, "2"%string. split; [reflexivity|]. split; [left; reflexivity|]. split; [apply plain_word; exact I|]. exists 2%Z. split; [reflexivity|]. split; [lia|reflexivity].
    - exists "-s"%string. split; [reflexivity|]. split; [left; reflexivity|]. split; [discriminate|]. split.
      + repeat (apply Forall_cons || apply Forall_nil).
        * split; [eexists; reflexivity|]. split; constructor.
        * split; [eexists; reflexivity|]. split; [|repeat (apply Forall_cons || apply Forall_nil); cbn; tauto].
          repeat (apply Forall2_cons || apply Forall2_nil). exists "+f"%string, "llf"%string. split; [reflexivity|]. split; [apply solver_value; exact I|]. split; [left; reflexivity|]. do 3 right. left. split; reflexivity.
      + cbn. repeat (apply Forall_cons || apply Forall_nil); apply plain_word; exact I. }
  split. { unfold variation_wishes. repeat (apply Forall_cons || apply Forall_nil); cbn; auto. }
  split. { unfold variation_wishes. repeat (apply Forall_cons || apply Forall_nil); cbn; auto. repeat (apply Forall_cons || apply Forall_nil). intros f w E. injection E as <- <-. intros F. congruence. }
  split. { left. intros [b [H|[H|[H|[H|[H|[H|[]]]]]]]]; discriminate H. }
  split. { cbn [separated variation_wishes]. repeat split; intros [H1 [d H2]]; discriminate. }
  split; [reflexivity|]. split; [reflexivity|]. split; [apply ex_finite|]. reflexivity.
Qed.

(** an animation nobody can see: no solver is given *)
Example C83_uncaught_ex net net2 newton moving_height random_waves drawn splitext :
  exists_command (CAnimate Swe) /\ Forall2 (cwritten ex_number ex_float net net2 newton moving_height value_word (CAnimate Swe)) [Initial] [["--initial"%string]] /\
  Forall (coffered (CAnimate Swe)) [Initial] /\ Forall (no_key_in_values (CAnimate Swe)) [Initial] /\ exclusive [Initial] /\ separated [Initial] /\
  expected_job net net2 random_waves drawn splitext (CAnimate Swe) [Initial] = None /\ complaint (CAnimate Swe) [Initial] = TypeError.
Proof.
  split; [discriminate|]. split; [repeat constructor|]. split; [repeat constructor|]. split; [repeat constructor|].
  split; [left; intros [b [H|[]]]; discriminate H|]. repeat split.
Qed.

(** data for which a short run was asked for *)
Definition short_wishes : list cwish := [EndTime 5; Solvers [(LLF, [], [])]].
Definition short_words : list (list string) := [["-T"; "5"]; ["-s"; "llf"]]%string.
Example C83_generate_ex linear_solver old net net2 newton moving_height random_waves drawn splitext : exists eig b o d de nu se ra no ov c w,
  requested ex_number ex_float net net2 newton moving_height random_waves drawn splitext ["generate-data"; "-T"; "5"; "-s"; "llf"]%string = Parsed (JGenerate b o d (Some 5) de nu se ra no ov) /\
  construct eig linear_solver old b (snd o) = Ok (Water (c, w)).
Proof.
  destruct (P_Gauss.C43_decomposition_exists 2) as [eig HE]. assert (HE2 : eig2_works eig) by (apply HE; lia).
  destruct (P_FVWater.C64_solvers_can_be_built eig GLLF (waves (new_oscillation None None None None None None None None)) (fv 400 (1 / 10) (Some heun) false) "periodic" "periodic" HE2) as [c [w [E _]]].
  { change (0 < 100). lra. }
  { split; reflexivity. }
  { left. reflexivity. }
  { left. reflexivity. }
  exists eig. do 9 eexists. exists c, w. split.
  - change ["generate-data"; "-T"; "5"; "-s"; "llf"]%string with (command_words CGenerate ++ List.concat short_words).
    apply (C83_everything_granted _ _ _ _ _ _ _ _ _ CGenerate short_wishes short_words).
    + discriminate.
    + unfold short_wishes, short_words. repeat (apply Forall2_cons || apply Forall2_nil); cbn [cwritten].
      * exists "-T"%string, "5"%string. split; [reflexivity|]. split; [left; reflexivity|]. split; [apply plain_word; exact I|]. split; [reflexivity|lra].
      * exists "-s"%string. split; [reflexivity|]. split; [left; reflexivity|]. split; [discriminate|]. split; [|repeat (apply Forall_cons || apply Forall_nil); apply plain_word; exact I].
        repeat (apply Forall_cons || apply Forall_nil). split; [eexists; reflexivity|]. split; constructor.
    + repeat constructor.
    + repeat constructor.
    + left. intros [b [H|[H|[]]]]; discriminate H.
    + cbn. repeat split. intros [H1 [d H2]]. discriminate.
    + discriminate.
    + cbn. reflexivity.
  - transitivity (bind (Ok (c, w)) (fun o => Ok (Water o))); [|reflexivity]. rewrite <- E. reflexivity.
Qed.

(** "calculate swe -b lake-at-rest -s low-order +m 20 mcl ++flux low-order": two solvers that keep the lake *)
Definition lake_wishes : list cwish :=
  [Benchmark (pool 0 20 100 ["outflow"; "outflow"] lake_initial bump earth); Solvers [(Low, [MeshSize 20], [["+m"; "20"]]); (MCL, [FluxOf GLow], [["+f"; "low-order"]])]]%string.
Definition lake_words : list (list string) := [["-b"; "lake-at-rest"]; ["-s"; "low-order"; "+m"; "20"; "mcl"; "+f"; "low-order"]]%string.
Example C83_still_water_ex net net2 newton moving_height random_waves drawn : exists b rs, 
  Forall2 (cwritten ex_number ex_float net net2 newton moving_height value_word (CCalculate Swe)) lake_wishes lake_words /\ Forall (coffered (CCalculate Swe)) lake_wishes /\
  Forall (no_key_in_values (CCalculate Swe)) lake_wishes /\ exclusive lake_wishes /\ named_benchmark newton moving_height Swe "lake-at-rest" b /\
  benchmark_of random_waves drawn (CCalculate Swe) lake_wishes = b /\ requests_of lake_wishes = Some rs /\ Forall keeps_still rs /\
  Forall (fun r => 1 / 10 ^ 12 <= 20 / INR (cells_of r) * cfl_number r) rs /\ (forall t, end_time_of lake_wishes = Some t -> 1 / 10 ^ 12 <= t) /\
  List.concat lake_words = ["-b"; "lake-at-rest"; "-s"; "low-order"; "+m"; "20"; "mcl"; "+f"; "low-order"]%string.
Proof.
  eexists. eexists. assert (NB : named_benchmark newton moving_height Swe "lake-at-rest" (pool 0 20 100 ["outflow"; "outflow"]%string lake_initial bump earth)) by (cbn [named_benchmark]; right; left; split; reflexivity).
  split.
  { unfold lake_wishes, lake_words. repeat (apply Forall2_cons || apply Forall2_nil); cbn [cwritten].
    - exists "-b"%string, "lake-at-rest"%string. split; [reflexivity|]. split; [left; reflexivity|]. split; [apply plain_word; exact I|exact NB].
    - exists "-s"%string. split; [reflexivity|]. split; [left; reflexivity|]. split; [discriminate|]. split.
      + repeat (apply Forall_cons || apply Forall_nil).
        * split; [eexists; reflexivity|]. split; [|repeat (apply Forall_cons || apply Forall_nil); exact I]. repeat (apply Forall2_cons || apply Forall2_nil).
          exists "+m"%string, "20"%string. split; [reflexivity|]. split; [apply solver_value; exact I|]. split; [left; reflexivity|]. exists 20%Z. split; [reflexivity|]. split; [lia|reflexivity].
        * split; [eexists; reflexivity|]. split; [|repeat (apply Forall_cons || apply Forall_nil); cbn; tauto]. repeat (apply Forall2_cons || apply Forall2_nil).
          exists "+f"%string, "low-order"%string. split; [reflexivity|]. split; [apply solver_value; exact I|]. split; [left; reflexivity|]. do 4 right. left. split; reflexivity.
      + cbn. repeat (apply Forall_cons || apply Forall_nil); apply plain_word; exact I. }
  split; [repeat constructor|]. split.
  { unfold lake_wishes. repeat (apply Forall_cons || apply Forall_nil); cbn; auto. all: repeat (apply Forall_cons || apply Forall_nil); intros f w E; injection E as <- <-; intros F k K; try congruence; destruct k; discriminate. }
  split. { right. intros [[H|[H|[]]]|[z [H|[H|[]]]]]; discriminate H. }
  split; [exact NB|]. split; [reflexivity|]. split; [reflexivity|]. split; [repeat (apply Forall_cons || apply Forall_nil)|].
  - left. reflexivity.
  - right. right. split; [reflexivity|]. right. reflexivity.
  - split; [repeat (apply Forall_cons || apply Forall_nil)|].
    + cbn [cells_of cfl_number mesh_of cfl_of chosen]. replace (INR 20) with 20 by (rewrite INR_IZR_INZ; reflexivity). lra.
    + cbn [cells_of cfl_number mesh_of cfl_of chosen]. replace (INR 400) with 400 by (rewrite INR_IZR_INZ; reflexivity). lra.
    + split; [intros t E; discriminate E|reflexivity].
Qed.
