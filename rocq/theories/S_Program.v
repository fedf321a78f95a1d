(** Specification of the main program around the commands: what every command is started with, and what --args shows. *)
From Coq Require Import String Reals List ZArith Bool.
From Verif Require Import Prelude M_ShallowWater M_Benchmark M_FVSolver M_ScalarSolver M_Parser S_Parser M_CommandLine S_CommandLine M_Program.
Import ListNotations.
Open Scope string_scope.
Open Scope list_scope.

(** ** the arguments a command is started with *)
Definition wanted (c : any_command) : list string :=
  match c with
  | Main (CCalculate _) => ["solver"]
  | Main (CPlot _) => ["benchmark"; "initial"; "plotter"; "solver"]
  | Main (CAnimate _) => ["animator"; "benchmark"; "initial"; "solver"]
  | Main (CEOC _) => ["benchmark"; "solver_spaces"; "solvers"]
  | Main CErrorEvolution => ["save"; "show"; "solver"]
  | Main CGenerate => ["coarsening_degree"; "directory"; "end_time"; "input_radius"; "node_index"; "overwrite"; "seed"; "solution_number"; "solver"]
  | Main CVariation => ["directory"; "initial_data_number"; "parameter_variations"; "references"; "references_prefix"; "save_animation"; "save_plot"; "seed"; "solver_approximation"; "solver_exact"]
  | AnalyzeCurvature => ["save"; "show"]
  | AnalyzeData => ["data_paths"; "histogram"]
  | DeleteCurvature => ["curvature_discharge_threshold"; "curvature_height_threshold"; "data_path"; "step_length"; "target_path"]
  | HelpPage => ["parser"]
  | PrintNetwork => ["network"]
  | RunTests => ["file"]
  | TrainNetwork => ["confirm"; "epochs"; "network"; "plot_loss"; "seed"; "skip"]
  end.

(** ** --args *)
(** what is shown for a value: objects that describe themselves are replaced by their descriptions, also in lists and inside of descriptions *)
Inductive shown : pyval -> pyval -> Prop :=
| shown_atom : shown Atom Atom
| shown_dict d : shown (PyDict d) (PyDict d)
| shown_list l l' : Forall2 shown_element l l' -> shown (PyList l) (PyList l')
| shown_object d d' : Forall2 shown_entry d d' -> shown (Thing (Ok d)) (PyDict d')
with shown_element : pyval -> pyval -> Prop :=
| element_object r v : shown (Thing r) v -> shown_element (Thing r) v
| element_other v : (forall r, v <> Thing r) -> shown_element v v
with shown_entry : string * pyval -> string * pyval -> Prop :=
| entry k v v' : shown v v' -> shown_entry (k, v) (k, v').
(** an object that has to be described cannot describe itself *)
Inductive fails (e : exn) : pyval -> Prop :=
| fails_itself : fails e (Thing (Err e))
| fails_inside d k v : In (k, v) d -> fails e v -> fails e (Thing (Ok d))
| fails_in_list l r : In (Thing r) l -> fails e (Thing r) -> fails e (PyList l).

(** ** the options of every command *)
Definition wants_arguments (xs : list cwish) : Prop := In ShowArguments xs.
(** the number of lines in the profile: of the last wish, 30 if it names none *)
Fixpoint lines_of (xs : list cwish) (n : Z) : Z :=
  match xs with [] => n | Profile (Some m) :: xs' => lines_of xs' m | Profile None :: xs' => lines_of xs' 30%Z | _ :: xs' => lines_of xs' n end.
Definition asks_adaptive (r : request) : Prop := let '(k, ws, _) := r in (k = CGLow \/ k = FEMCL) /\ In AdaptiveSteps ws.
