(** C92, continued: the tables of eoc for all benchmarks of the advection equation, and lines that meet the hypotheses. *)
From Coq Require Import String Ascii Reals List Arith ZArith Bool Lia Lra.
From Verif Require Import Prelude L_Prelude M_Mesh M_FE M_Quadrature S_Quadrature M_Flux L_Flux M_ODE S_ODE M_Solution M_Solver M_Generate M_Scalar S_Scalar M_ShallowWater M_FVSolver
  M_Benchmark P_Benchmark M_ScalarSolver S_ScalarSolver M_Misc P_FVWater P_FVLake M_Command M_Series M_Parser S_Parser P_Parser M_CommandLine S_CommandLine L_CommandLine P_CommandLine P_CommandRun P_CommandMore S_CommandRun L_CommandRun P_FEMatrix S_Solve
  P_CommandCalc S_Variation S_VariationLine S_Convergence S_ConvergenceLine P_ConvergenceBench M_EOC S_EOC L_EOC P_EOC P_EOCEx S_Jumps L_Hills P_JumpsBench L_JumpsRows.
Import ListNotations.
Open Scope R_scope.
Notation length := List.length.

Lemma hill_rows eig linear_solver old finite finite2 u0 V lo T : eig_ok eig 1 -> eig_ok eig 2 -> (forall v, in_range (-1) 1 v -> finite v = true) -> hills u0 V lo -> 1 / 10 ^ 12 <= T ->
  rows_good eig linear_solver old finite finite2 (jump_errors V (1 - lo) T) u0 T.
Proof.
  intros H1 H2 HF Hu HT. split.
  - intros n cfl Hn Hc Hs. exact (jump_fv_row eig linear_solver old finite finite2 H1 H2 HF u0 V lo T n cfl Hu Hn Hc HT Hs).
  - intros n cfl M ad Hn Hc Hs HM. exact (jump_fe_row eig linear_solver old finite finite2 H1 H2 HF u0 V lo T n cfl M ad Hu Hn Hc HT Hs HM).
Qed.

(** For all five benchmarks the tables of the first order solvers appear. The column L1 falls at least like the root of the cell length, the column L2 is bounded by
    the root of L1 times the length of the interval of the values, and Linf never exceeds that length. *)
Theorem C92_tables : forall parse_int parse_float net net2 newton moving_height random_waves drawn splitext eig linear_solver old finite finite2 burgers_solution line b ls,
  finite_words parse_float line -> requested parse_int parse_float net net2 newton moving_height random_waves drawn splitext line = Parsed (JEOC b ls) ->
  eig_ok eig 1 -> eig_ok eig 2 -> (forall v, in_range (-1) 1 v -> finite v = true) ->
  exists p rs cells meshes, asks_tables parse_int parse_float net net2 newton moving_height random_waves drawn line p b rs cells meshes /\
    forall u0 V lo T, b = BScalar (advection_benchmark u0 T) -> hills u0 V lo -> Forall (first_order_on cells) rs ->
      1 / 10 ^ 12 <= T -> Forall (fun r => 1 / 10 ^ 12 <= first_order_step r (1 / INR (2 ^ (meshes - 1) * cells))) rs ->
      exists N, forall n, (N <= n)%nat -> exists tables,
        eoc_line eig linear_solver old finite finite2 burgers_solution parse_int parse_float net net2 newton moving_height random_waves drawn splitext n line = Parsed (Tables tables) /\
        Forall2 (fun r tb => fst tb = title net net2 r /\ table_with (jump_errors V (1 - lo) T) cells meshes (snd tb)) rs tables.
Proof.
  intros parse_int parse_float net net2 newton moving_height random_waves drawn splitext eig linear_solver old finite finite2 burgers_solution line b ls Fin Rq HE1 HE2 HF.
  destruct (eoc_asked parse_int parse_float net net2 newton moving_height random_waves drawn splitext line _ _ Fin Rq) as [p [rs [cells [meshes [A [-> [Hc [Hm [Hr W]]]]]]]]].
  exists p, rs, cells, meshes. split; [exact A|]. intros u0 V lo T Eb Hu FO HT HS. eapply tables_made; try eassumption. apply hill_rows; assumption.
Qed.
Print Assumptions C92_tables.

Theorem C92_tables_asked_for : forall parse_int parse_float net net2 newton moving_height random_waves drawn splitext eig linear_solver old finite finite2 burgers_solution p xs wss rs u0 V lo T,
  exists_command (CEOC p) -> Forall2 (cwritten parse_int parse_float net net2 newton moving_height value_word (CEOC p)) xs wss -> Forall (coffered (CEOC p)) xs -> Forall (no_key_in_values (CEOC p)) xs -> exclusive xs -> separated xs ->
  requests_of xs = Some rs -> end_of (benchmark_of random_waves drawn (CEOC p) xs) (end_time_of xs) = BScalar (advection_benchmark u0 T) ->
  eig_ok eig 1 -> eig_ok eig 2 -> (forall v, in_range (-1) 1 v -> finite v = true) ->
  let cells := Z.to_nat (points_of xs 8%Z) in let meshes := Z.to_nat (refinements_of xs 4%Z) in
  hills u0 V lo -> Forall (first_order_on cells) rs -> 1 / 10 ^ 12 <= T -> Forall (fun r => 1 / 10 ^ 12 <= first_order_step r (1 / INR (2 ^ (meshes - 1) * cells))) rs ->
  exists N, forall n, (N <= n)%nat -> exists tables,
    eoc_line eig linear_solver old finite finite2 burgers_solution parse_int parse_float net net2 newton moving_height random_waves drawn splitext n (command_words (CEOC p) ++ List.concat wss) = Parsed (Tables tables) /\
    Forall2 (fun r tb => fst tb = title net net2 r /\ table_with (jump_errors V (1 - lo) T) cells meshes (snd tb)) rs tables.
Proof.
  intros parse_int parse_float net net2 newton moving_height random_waves drawn splitext eig linear_solver old finite finite2 burgers_solution p xs wss rs u0 V lo T Ex W O K X Sep Er Eb HE1 HE2 HF cells meshes Hu FO HT HS.
  apply (tables_asked parse_int parse_float net net2 newton moving_height random_waves drawn splitext eig linear_solver old finite finite2 burgers_solution (jump_errors V (1 - lo) T) p xs wss rs u0 T); auto.
  apply hill_rows; assumption.
Qed.
Print Assumptions C92_tables_asked_for.

(** "eoc advection -b two-hills -s llf cg-low": a box and a bell until 1, in two tables with four rows *)
Definition box_wishes : list cwish := [Benchmark (BScalar (advection_benchmark two_hills 1)); Solvers [(ScalarLLF, [], []); (CGLow, [], [])]]%string.
Definition box_words : list (list string) := [["-b"; "two-hills"]; ["-s"; "llf"; "cg-low"]]%string.
Definition box_line : list string := ["eoc"; "advection"; "-b"; "two-hills"; "-s"; "llf"; "cg-low"]%string.
Lemma box_written c (value : string -> Prop) net net2 newton moving_height : c = CEOC M_CommandLine.Advection \/ c = CCalculate M_CommandLine.Advection ->
  (forall w, value_word w -> value w) -> Forall2 (cwritten ex_number ex_float net net2 newton moving_height value c) box_wishes box_words.
Proof.
  intros Hc V. unfold box_wishes, box_words. destruct Hc as [-> | ->]; (repeat (apply Forall2_cons || apply Forall2_nil); cbn [cwritten];
  [exists "-b"%string, "two-hills"%string; split; [reflexivity|]; split; [left; reflexivity|]; split; [apply V, plain_word; exact I|]; exists two_hills; split; [reflexivity|]; tauto|
   exists "-s"%string; split; [reflexivity|]; split; [left; reflexivity|]; split; [discriminate|]; split;
  [repeat (apply Forall_cons || apply Forall_nil); (split; [eexists; reflexivity|]; split; constructor)|
   cbn; repeat (apply Forall_cons || apply Forall_nil); apply V, plain_word; exact I]]).
Qed.
Lemma box_keys c : c = CEOC M_CommandLine.Advection \/ c = CCalculate M_CommandLine.Advection -> Forall (no_key_in_values c) box_wishes.
Proof. intros [-> | ->]; unfold box_wishes; repeat (apply Forall_cons || apply Forall_nil); cbn; auto; repeat (apply Forall_cons || apply Forall_nil); intros f w E; injection E as <- <-; intros F k K; try congruence; destruct k; discriminate. Qed.
Example C92_tables_ex net net2 newton moving_height random_waves drawn splitext linear_solver old finite2 burgers_solution : exists eig N, forall n, (N <= n)%nat -> exists llf low,
  eoc_line eig linear_solver old (fun _ => true) finite2 burgers_solution ex_number ex_float net net2 newton moving_height random_waves drawn splitext n box_line =
    Parsed (Tables [("Lax-Friedrichs finite volume scheme", llf); ("Low order Continuous Galerkin", low)]%string) /\
  table_with (jump_errors 4 1 1) 8 4 llf /\ table_with (jump_errors 4 1 1) 8 4 low.
Proof.
  destruct (P_Gauss.C43_decomposition_exists 2) as [eig HE]. exists eig.
  destruct (C92_tables_asked_for ex_number ex_float net net2 newton moving_height random_waves drawn splitext eig linear_solver old (fun _ => true) finite2 burgers_solution M_CommandLine.Advection box_wishes box_words
    [(ScalarLLF, [], []); (CGLow, [], [])] two_hills 4 0 1) as [N H];
    [discriminate|apply box_written; auto|repeat constructor|apply box_keys; auto|right; intros [[H|[H|[]]]|[z [H|[H|[]]]]]; discriminate H|split; [intros [_ [d H]]; discriminate H|exact I]|reflexivity|reflexivity|apply HE; lia|apply HE; lia|reflexivity|right; left; auto| | | |].
  - repeat (apply Forall_cons || apply Forall_nil); cbn [first_order_on cfl_asked cfl_of chosen]; (split; [lra|]); [left; reflexivity|right; split; [reflexivity|]]. vm_compute. lia.
  - lra.
  - change (Z.to_nat (refinements_of box_wishes 4)) with 4%nat. change (Z.to_nat (points_of box_wishes 8)) with 8%nat. replace (INR (2 ^ (4 - 1) * 8)) with 64 by (cbn; lra).
    repeat (apply Forall_cons || apply Forall_nil); cbn [first_order_step cfl_asked cfl_of chosen]; lra.
  - exists N. intros n Hn. destruct (H n Hn) as [tables [E F]]. change (Z.to_nat (refinements_of box_wishes 4)) with 4%nat in F. change (Z.to_nat (points_of box_wishes 8)) with 8%nat in F. rewrite Rminus_0_r in F.
    destruct tables as [|[n1 llf] [|[n2 low] [|x tables]]]; inversion F as [|a b c d [F1 F2] F3 X1 X2]; subst; inversion F3 as [|a b c d [F4 F5] F6 X1 X2]; subst; [|inversion F6]. cbn [fst snd] in *.
    exists llf, low. split; [|split; assumption]. change box_line with (command_words (CEOC M_CommandLine.Advection) ++ List.concat box_words). rewrite E, F1, F4. reflexivity.
Qed.

(** "calculate advection -b two-hills -s llf cg-low" meets the hypotheses of C92_calculated_area with V = 4 *)
Definition calculate_box : list string := ["calculate"; "advection"; "-b"; "two-hills"; "-s"; "llf"; "cg-low"]%string.
Example C92_line_ex net net2 newton moving_height random_waves drawn splitext linear_solver old finite finite2 n : exists eig objects e,
  eig_ok eig 1 /\ eig_ok eig 2 /\ finite_words ex_float calculate_box /\
  calculate_line ex_number ex_float net net2 newton moving_height random_waves drawn splitext eig linear_solver old finite finite2 n calculate_box = Parsed (SolverList objects, e) /\ length objects = 2%nat /\
  forall rs, requests_of box_wishes = Some rs -> asks ex_number ex_float net net2 newton moving_height random_waves drawn calculate_box M_CommandLine.Advection (BScalar (advection_benchmark two_hills 1)) rs /\
    Forall first_order rs /\ repeats unit_interval (line_data two_hills) /\ (forall x, 0 <= x < 1 -> two_hills x = line_data two_hills x) /\ varies unit_interval 4 (line_data two_hills) /\
    (forall x, 0 <= two_hills x <= 1) /\ two_hills (1 / 5) <> two_hills (9 / 10).
Proof.
  destruct (P_Gauss.C43_decomposition_exists 2) as [eig HE]. assert (HE2 : eig2_works eig) by (apply HE; lia).
  assert (Rq : exists l, length l = 2%nat /\ requested ex_number ex_float net net2 newton moving_height random_waves drawn splitext calculate_box = Parsed (JCalculate (BScalar (advection_benchmark two_hills 1)) (Some l))).
  { eexists. split; [|change calculate_box with (command_words (CCalculate M_CommandLine.Advection) ++ List.concat box_words); apply (C83_everything_granted _ _ _ _ _ _ _ _ _ (CCalculate M_CommandLine.Advection) box_wishes box_words);
      [discriminate|apply box_written; auto|repeat constructor| |right; intros [[H|[H|[]]]|[z [H|[H|[]]]]]; discriminate H|cbn; repeat split|discriminate|cbn; reflexivity]].
    - reflexivity.
    - apply box_keys. auto.
    - intros [H _]. discriminate H. }
  destruct Rq as [l [Ll Rq]].
  destruct (C84_solvers_are_built ex_number ex_float net net2 newton moving_height random_waves drawn splitext eig linear_solver old finite finite2 calculate_box n _ l HE2 (ex_finite _) Rq) as [p [rs [objects [e [A [_ [E L]]]]]]].
  exists eig, objects, e. split; [apply HE; lia|]. split; [exact HE2|]. split; [apply ex_finite|]. split; [exact E|]. split.
  { destruct (calculated_inv ex_number ex_float net net2 newton moving_height random_waves drawn splitext eig linear_solver old finite finite2 calculate_box n objects e (ex_finite _) E) as [p2 [b2 [rs2 [ss [_ [M [S R2]]]]]]].
    rewrite Rq in R2. injection R2 as _ R2. destruct (solve_all_spec finite finite2 n ss objects e S) as [F _].
    assert (length ss = length objects) by (clear - F; induction F; cbn; congruence). assert (length rs2 = length ss) by (clear - M; induction M; cbn; congruence).
    apply (f_equal (@length _)) in R2. rewrite map_length in R2. lia. }
  intros rs1 Er. split; [|split; [|split; [apply line_repeats|split; [apply line_inside|split; [apply climbs_varies; exact two_hills_climbs|split; [apply (hills_data two_hills 4 0); right; left; auto|]]]]]].
  - exists box_wishes, box_words. split; [reflexivity|]. split; [apply box_written; auto; left; assumption|]. split; [repeat constructor|].
    split; [right; intros [[H|[H|[]]]|[z [H|[H|[]]]]]; discriminate H|]. split; [reflexivity|exact Er].
  - injection Er as <-. repeat (apply Forall_cons || apply Forall_nil); cbn [first_order cfl_asked cfl_of mesh_asked mesh_of chosen].
    + split; [lra|]. left. reflexivity.
    + split; [lra|]. right. split; [reflexivity|lia].
  - unfold two_hills. repeat match goal with |- context [Rltb ?a ?b] => destruct (Rltb_spec a b); [try lra|try lra] | |- context [Rleb ?a ?b] => destruct (Rleb_spec a b); [try lra|try lra] end; cbn [andb orb]; try lra.
Qed.
