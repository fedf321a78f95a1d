(** C88, continued: lines that ask for tables. *)
From Coq Require Import String Ascii Reals List Arith ZArith Bool Lia Lra.
From Verif Require Import Prelude L_Prelude M_Mesh M_FE M_Quadrature S_Quadrature M_Flux L_Flux M_ODE S_ODE M_Solution M_Solver M_Generate M_Scalar S_Scalar M_ShallowWater M_FVSolver
  M_Benchmark P_Benchmark M_ScalarSolver S_ScalarSolver M_Misc P_FVWater P_FVLake M_Command M_Series M_Parser S_Parser P_Parser M_CommandLine S_CommandLine L_CommandLine P_CommandLine P_CommandRun P_CommandMore S_CommandRun L_CommandRun P_FEMatrix S_Solve
  P_CommandCalc M_EOC S_EOC L_EOC P_EOC.
Import ListNotations.
Open Scope R_scope.
Notation length := List.length.

(** "eoc advection -s llf cg-low": the cosine on 8, 16, 32 and 64 cells until 1, in two tables with four rows *)
Definition two_wishes : list cwish := [Solvers [(ScalarLLF, [], []); (CGLow, [], [])]]%string.
Definition two_words : list (list string) := [["-s"; "llf"; "cg-low"]]%string.
Definition two_line : list string := ["eoc"; "advection"; "-s"; "llf"; "cg-low"]%string.
Lemma two_written (value : string -> Prop) net net2 newton moving_height : (forall w, value_word w -> value w) -> Forall2 (cwritten ex_number ex_float net net2 newton moving_height value (CEOC M_CommandLine.Advection)) two_wishes two_words.
Proof.
  intro V. unfold two_wishes, two_words. repeat (apply Forall2_cons || apply Forall2_nil); cbn [cwritten].
  exists "-s"%string. split; [reflexivity|]. split; [left; reflexivity|]. split; [discriminate|]. split.
  + repeat (apply Forall_cons || apply Forall_nil); (split; [eexists; reflexivity|]; split; constructor).
  + cbn. repeat (apply Forall_cons || apply Forall_nil); apply V, plain_word; exact I.
Qed.
Lemma two_keys : Forall (no_key_in_values (CEOC M_CommandLine.Advection)) two_wishes.
Proof. unfold two_wishes. repeat (apply Forall_cons || apply Forall_nil); cbn; auto; repeat (apply Forall_cons || apply Forall_nil); intros f w E; injection E as <- <-; intros F k K; try congruence; destruct k; discriminate. Qed.
Example C88_ex net net2 newton moving_height random_waves drawn splitext linear_solver old finite2 burgers_solution : exists eig N, forall n, (N <= n)%nat -> exists llf low,
  eoc_line eig linear_solver old (fun _ => true) finite2 burgers_solution ex_number ex_float net net2 newton moving_height random_waves drawn splitext n two_line =
    Parsed (Tables [("Lax-Friedrichs finite volume scheme", llf); ("Low order Continuous Galerkin", low)]%string) /\
  convergence_table cosine 1 8 4 llf /\ convergence_table cosine 1 8 4 low.
Proof.
  destruct (P_Gauss.C43_decomposition_exists 2) as [eig HE]. exists eig.
  destruct (C88_tables_asked_for ex_number ex_float net net2 newton moving_height random_waves drawn splitext eig linear_solver old (fun _ => true) finite2 burgers_solution M_CommandLine.Advection two_wishes two_words
    [(ScalarLLF, [], []); (CGLow, [], [])] cosine 1) as [N H];
    [discriminate|apply two_written; auto|repeat constructor|exact two_keys|right; intros [[H|[]]|[z [H|[]]]]; discriminate H|exact I|reflexivity|reflexivity|apply HE; lia|apply HE; lia|reflexivity|left; reflexivity| | | |].
  - repeat (apply Forall_cons || apply Forall_nil); cbn [first_order_on cfl_asked cfl_of chosen]; (split; [lra|]); [left; reflexivity|right; split; [reflexivity|]]. vm_compute. lia.
  - lra.
  - change (Z.to_nat (refinements_of two_wishes 4)) with 4%nat. change (Z.to_nat (points_of two_wishes 8)) with 8%nat. replace (INR (2 ^ (4 - 1) * 8)) with 64 by (cbn; lra).
    repeat (apply Forall_cons || apply Forall_nil); cbn [first_order_step cfl_asked cfl_of chosen]; lra.
  - exists N. intros n Hn. destruct (H n Hn) as [tables [E F]]. change (Z.to_nat (refinements_of two_wishes 4)) with 4%nat in F. change (Z.to_nat (points_of two_wishes 8)) with 8%nat in F.
    destruct tables as [|[n1 llf] [|[n2 low] [|x tables]]]; inversion F as [|a b c d [F1 F2] F3 X1 X2]; subst; inversion F3 as [|a b c d [F4 F5] F6 X1 X2]; subst; [|inversion F6]. cbn [fst snd] in *.
    exists llf, low. split; [|split; assumption]. change two_line with (command_words (CEOC M_CommandLine.Advection) ++ List.concat two_words). rewrite E, F1, F4. reflexivity.
Qed.

(** ** C89: "-r" is said to be the number of refinements, but one fewer is made *)
(** For every line: as many rows as the number given, hence one fewer refinement. *)
Theorem C89_one_refinement_missing_partial : forall parse_int parse_float net net2 newton moving_height random_waves drawn splitext eig linear_solver old finite finite2 burgers_solution line n tables,
  finite_words parse_float line ->
  eoc_line eig linear_solver old finite finite2 burgers_solution parse_int parse_float net net2 newton moving_height random_waves drawn splitext n line = Parsed (Tables tables) ->
  exists p b rs cells refinements, asks_tables parse_int parse_float net net2 newton moving_height random_waves drawn line p b rs cells refinements /\ (0 < refinements)%nat /\
    Forall (fun tb => length (snd tb) = S (refinements - 1) /\ exists row, nth_error (snd tb) (refinements - 1) = Some row) tables.
Proof.
  intros parse_int parse_float net net2 newton moving_height random_waves drawn splitext eig linear_solver old finite finite2 burgers_solution line n tables Fin E. pose proof E as E'. unfold eoc_line in E'.
  destruct (C88_what_the_tables_contain _ _ _ _ _ _ _ _ _ _ _ _ _ _ _ _ _ _ Fin E) as [p [b [rs [cells [meshes [exact [A [_ F]]]]]]]]. exists p, (BScalar b), rs, cells, meshes. split; [exact A|].
  assert (P : (0 < meshes)%nat).
  { destruct A as [xs [wss [_ [W [_ [_ [_ [_ [_ ->]]]]]]]]]. assert (Q : (0 < refinements_of xs 4)%Z); [|lia].
    unfold refinements_of. destruct (L_CommandLine.last_in (fun x => match x with Refinements n => Some n | _ => None end) xs 4%Z) as [->|[x [Hx Q]]]; [lia|]. destruct x; try discriminate Q.
    assert (In_w : forall x, In x xs -> exists ws, cwritten parse_int parse_float net net2 newton moving_height any_word (CEOC p) x ws).
    { clear - W. induction W as [|x v ws wss H W IH]; intros y []; [subst; eauto|apply IH; assumption]. }
    destruct (In_w _ Hx) as [ws [f [w [_ [_ [_ [z [_ [N1 N2]]]]]]]]]. injection Q as Q. rewrite <- Q, N2. exact N1. }
  split; [exact P|]. clear - F P. induction F as [|r tb rs l [_ [L [_ H]]] F IH]; constructor; [|exact IH]. split; [lia|]. destruct (H (meshes - 1)%nat ltac:(lia)) as [row [Hr _]]. eauto.
Qed.
Print Assumptions C89_one_refinement_missing_partial.

(** "eoc advection -s llf -r 1": one refinement is asked for and none is made, so that the only row of the table compares nothing *)
Definition one_number (s : string) : option Z := if String.eqb s "1" then Some 1%Z else None.
Definition once_wishes : list cwish := [Solvers [(ScalarLLF, [], [])]; Refinements 1]%string.
Definition once_words : list (list string) := [["-s"; "llf"]; ["-r"; "1"]]%string.
Definition once_line : list string := ["eoc"; "advection"; "-s"; "llf"; "-r"; "1"]%string.
Lemma once_written (value : string -> Prop) net net2 newton moving_height : (forall w, value_word w -> value w) -> Forall2 (cwritten one_number ex_float net net2 newton moving_height value (CEOC M_CommandLine.Advection)) once_wishes once_words.
Proof.
  intro V. unfold once_wishes, once_words. repeat (apply Forall2_cons || apply Forall2_nil); cbn [cwritten].
  - exists "-s"%string. split; [reflexivity|]. split; [left; reflexivity|]. split; [discriminate|]. split.
    + repeat (apply Forall_cons || apply Forall_nil); (split; [eexists; reflexivity|]; split; constructor).
    + cbn. repeat (apply Forall_cons || apply Forall_nil); apply V, plain_word; exact I.
  - exists "-r"%string, "1"%string. split; [reflexivity|]. split; [left; reflexivity|]. split; [apply V, plain_word; exact I|]. exists 1%Z. split; [reflexivity|]. split; [lia|reflexivity].
Qed.
Lemma once_keys : Forall (no_key_in_values (CEOC M_CommandLine.Advection)) once_wishes.
Proof. unfold once_wishes. repeat (apply Forall_cons || apply Forall_nil); cbn; auto; repeat (apply Forall_cons || apply Forall_nil); intros f w E; injection E as <- <-; intros F k K; try congruence; destruct k; discriminate. Qed.
Theorem C89_refinements_refuted : forall net net2 newton moving_height random_waves drawn splitext linear_solver old finite2 burgers_solution,
  asks_tables one_number ex_float net net2 newton moving_height random_waves drawn once_line M_CommandLine.Advection (BScalar (advection_benchmark cosine 1)) [(ScalarLLF, [], [])] 8 1 /\
  exists eig N, eig_ok eig 1 /\ eig_ok eig 2 /\ forall n, (N <= n)%nat -> exists row,
  eoc_line eig linear_solver old (fun _ => true) finite2 burgers_solution one_number ex_float net net2 newton moving_height random_waves drawn splitext n once_line =
    Parsed (Tables [("Lax-Friedrichs finite volume scheme", [row])]%string) /\ row_dofs row = 8%nat /\ row_orders row = [NaN; NaN; NaN].
Proof.
  intros. split.
  { exists once_wishes, once_words. split; [reflexivity|]. split; [apply once_written; left; assumption|]. split; [repeat constructor|].
    split; [right; intros [[H|[H|[]]]|[z [H|[H|[]]]]]; discriminate H|]. split; [reflexivity|]. split; [reflexivity|]. split; reflexivity. }
  destruct (P_Gauss.C43_decomposition_exists 2) as [eig HE]. exists eig.
  destruct (C88_tables_asked_for one_number ex_float net net2 newton moving_height random_waves drawn splitext eig linear_solver old (fun _ => true) finite2 burgers_solution M_CommandLine.Advection once_wishes once_words
    [(ScalarLLF, [], [])] cosine 1) as [N H];
    [discriminate|apply once_written; auto|repeat constructor|exact once_keys|right; intros [[H|[H|[]]]|[z [H|[H|[]]]]]; discriminate H|split; [intros [_ [d H]]; discriminate H|exact I]|reflexivity|reflexivity|apply HE; lia|apply HE; lia|reflexivity|left; reflexivity| | | |].
  - repeat (apply Forall_cons || apply Forall_nil); cbn [first_order_on cfl_asked cfl_of chosen]; (split; [lra|]). left. reflexivity.
  - lra.
  - change (Z.to_nat (refinements_of once_wishes 4)) with 1%nat. change (Z.to_nat (points_of once_wishes 8)) with 8%nat. replace (INR (2 ^ (1 - 1) * 8)) with 8 by (cbn; lra).
    repeat (apply Forall_cons || apply Forall_nil); cbn [first_order_step cfl_asked cfl_of chosen]; lra.
  - exists N. split; [apply HE; lia|]. split; [apply HE; lia|]. intros n Hn. destruct (H n Hn) as [tables [E F]]. change (Z.to_nat (refinements_of once_wishes 4)) with 1%nat in F. change (Z.to_nat (points_of once_wishes 8)) with 8%nat in F.
    destruct tables as [|[n1 rows] [|x tables]]; inversion F as [|a b c d [F1 [L [O G]]] F3 X1 X2]; subst; [|inversion F3]. cbn [fst snd] in *. destruct rows as [|row [|x rows]]; try discriminate L.
    exists row. split; [|split]; [|destruct (G 0%nat ltac:(lia)) as [w [Q [D _]]]; injection Q as <-; exact D|exact (O 0%nat row eq_refl)].
    change once_line with (command_words (CEOC M_CommandLine.Advection) ++ List.concat once_words). rewrite E, F1. reflexivity.
Qed.
Print Assumptions C89_refinements_refuted.
