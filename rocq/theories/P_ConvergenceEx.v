(** C87, continued: a line that asks for smooth data. *)
From Coq Require Import String Ascii Reals List Arith ZArith Bool Lia Lra.
From Verif Require Import Prelude L_Prelude M_Mesh M_FE M_Quadrature S_Quadrature M_Flux L_Flux M_ODE S_ODE M_Solution M_Solver M_Generate M_Scalar M_ShallowWater M_FVSolver
  M_Benchmark P_Benchmark M_ScalarSolver S_ScalarSolver M_Misc P_FVWater P_FVLake M_Command M_Series M_Parser S_Parser P_Parser M_CommandLine S_CommandLine L_CommandLine P_CommandLine P_CommandRun P_CommandMore S_CommandRun L_CommandRun P_FEMatrix S_Solve
  P_CommandCalc S_Convergence S_ConvergenceLine P_ConvergenceLine P_ConvergenceBench.
Import ListNotations.
Open Scope R_scope.
Notation length := List.length.

(** "calculate advection -b cos -s llf +m 20 cg-low": whoever types this gets two solutions whose errors are bounded in terms of the mesh,
    20 cells and the 400 cells of the low order solver *)
Definition wave_wishes : list cwish := [Benchmark (BScalar (advection_benchmark cosine 1)); Solvers [(ScalarLLF, [MeshSize 20], [["+m"; "20"]]); (CGLow, [], [])]]%string.
Definition wave_words : list (list string) := [["-b"; "cos"]; ["-s"; "llf"; "+m"; "20"; "cg-low"]]%string.
Definition wave_line : list string := ["calculate"; "advection"; "-b"; "cos"; "-s"; "llf"; "+m"; "20"; "cg-low"]%string.
Lemma wave_written (value : string -> Prop) net net2 newton moving_height : (forall w, value_word w -> value w) -> Forall2 (cwritten ex_number ex_float net net2 newton moving_height value (CCalculate M_CommandLine.Advection)) wave_wishes wave_words.
Proof.
  intro V. unfold wave_wishes, wave_words. repeat (apply Forall2_cons || apply Forall2_nil); cbn [cwritten].
  - exists "-b"%string, "cos"%string. split; [reflexivity|]. split; [left; reflexivity|]. split; [apply V, plain_word; exact I|]. exists cosine. split; [reflexivity|]. tauto.
  - exists "-s"%string. split; [reflexivity|]. split; [left; reflexivity|]. split; [discriminate|]. split.
    + repeat (apply Forall_cons || apply Forall_nil).
      * split; [eexists; reflexivity|]. split; [|repeat (apply Forall_cons || apply Forall_nil); exact I]. repeat (apply Forall2_cons || apply Forall2_nil).
        exists "+m"%string, "20"%string. split; [reflexivity|]. split; [apply solver_value; exact I|]. split; [left; reflexivity|]. exists 20%Z. split; [reflexivity|]. split; [lia|reflexivity].
      * split; [eexists; reflexivity|]. split; constructor.
    + cbn. repeat (apply Forall_cons || apply Forall_nil); apply V, plain_word; exact I.
Qed.
Lemma wave_keys : Forall (no_key_in_values (CCalculate M_CommandLine.Advection)) wave_wishes.
Proof. unfold wave_wishes. repeat (apply Forall_cons || apply Forall_nil); cbn; auto; repeat (apply Forall_cons || apply Forall_nil); intros f w E; injection E as <- <-; intros F k K; try congruence; destruct k; discriminate. Qed.

Example C87_line_ex net net2 newton moving_height random_waves drawn splitext linear_solver old finite finite2 n : exists eig objects e,
  eig_ok eig 1 /\ eig_ok eig 2 /\ finite_words ex_float wave_line /\
  calculate_line ex_number ex_float net net2 newton moving_height random_waves drawn splitext eig linear_solver old finite finite2 n wave_line = Parsed (SolverList objects, e) /\ length objects = 2%nat /\
  forall rs, requests_of wave_wishes = Some rs -> asks ex_number ex_float net net2 newton moving_height random_waves drawn wave_line M_CommandLine.Advection (BScalar (advection_benchmark cosine 1)) rs /\
    Forall first_order rs /\ repeats unit_interval (line_data cosine) /\ (forall x, 0 <= x < 1 -> cosine x = line_data cosine x) /\ smooth (4 * (PI * PI)) (line_data cosine).
Proof.
  destruct (P_Gauss.C43_decomposition_exists 2) as [eig HE]. assert (HE2 : eig2_works eig) by (apply HE; lia).
  assert (Rq : exists l, length l = 2%nat /\ requested ex_number ex_float net net2 newton moving_height random_waves drawn splitext wave_line = Parsed (JCalculate (BScalar (advection_benchmark cosine 1)) (Some l))).
  { eexists. split; [|change wave_line with (command_words (CCalculate M_CommandLine.Advection) ++ List.concat wave_words); apply (C83_everything_granted _ _ _ _ _ _ _ _ _ (CCalculate M_CommandLine.Advection) wave_wishes wave_words);
      [discriminate|apply wave_written; auto|repeat constructor| |right; intros [[H|[H|[]]]|[z [H|[H|[]]]]]; discriminate H|cbn; repeat split|discriminate|cbn; reflexivity]].
    - reflexivity.
    - exact wave_keys.
    - intros [H _]. discriminate H. }
  destruct Rq as [l [Ll Rq]].
  destruct (C84_solvers_are_built ex_number ex_float net net2 newton moving_height random_waves drawn splitext eig linear_solver old finite finite2 wave_line n _ l HE2 (ex_finite _) Rq) as [p [rs [objects [e [A [_ [E L]]]]]]].
  exists eig, objects, e. split; [apply HE; lia|]. split; [exact HE2|]. split; [apply ex_finite|]. split; [exact E|]. split.
  { destruct (calculated_inv ex_number ex_float net net2 newton moving_height random_waves drawn splitext eig linear_solver old finite finite2 wave_line n objects e (ex_finite _) E) as [p2 [b2 [rs2 [ss [_ [M [S R2]]]]]]].
    rewrite Rq in R2. injection R2 as _ R2. destruct (solve_all_spec finite finite2 n ss objects e S) as [F _].
    assert (length ss = length objects) by (clear - F; induction F; cbn; congruence). assert (length rs2 = length ss) by (clear - M; induction M; cbn; congruence).
    apply (f_equal (@length _)) in R2. rewrite map_length in R2. lia. }
  intros rs1 Er. split; [|split; [|split; [apply line_repeats|split; [apply line_inside|exact cosine_smooth]]]].
  - exists wave_wishes, wave_words. split; [reflexivity|]. split; [apply wave_written; left; assumption|]. split; [repeat constructor|].
    split; [right; intros [[H|[H|[]]]|[z [H|[H|[]]]]]; discriminate H|]. split; [reflexivity|exact Er].
  - injection Er as <-. repeat (apply Forall_cons || apply Forall_nil); cbn [first_order cfl_asked cfl_of mesh_asked mesh_of chosen].
    + split; [lra|]. left. reflexivity.
    + split; [lra|]. right. split; [reflexivity|lia].
Qed.
