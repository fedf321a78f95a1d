(** Specification of the command lines of analyze-curvature, analyze-data, delete-curvature, print-network, test and train-network: what a user can
    ask for, how it is written and what the command is then asked to do. *)
From Coq Require Import String Ascii Reals List Arith ZArith Bool.
From Verif Require Import Prelude M_Misc M_Parser S_Parser M_CommandLine S_CommandLine M_Tools.
Import ListNotations.
Open Scope R_scope.

(** one part of a line: a word of its own, or an option *)
Inductive part :=
| Word (w : string) | NoFigures | SavePlots | Histograms | StepLength (x : pyfloat) | HeightThreshold (x : pyfloat) | DischargeThreshold (x : pyfloat)
| NetworkParameter (key value : string) | MaxEpochs (n : Z) | EveryNth (n : Z) | TrainingSeed (n : Z) | ResumeTraining | ConfirmSaving | PlotLosses
| ProfileLines (n : option Z) | PrintArguments.

Section Words.
Context (parse_int : string -> option Z) (parse_float : string -> option pyfloat).
(** greater than zero; infinity and nan pass as well *)
Definition not_negative (x : pyfloat) : Prop := match x with Finite r => 0 < r | NegInf => False | _ => True end.
(** how a part is written; [value] says which words are values *)
Definition part_written (value : string -> Prop) (x : part) (ws : list string) : Prop :=
  let one short long (means : string -> Prop) := exists f w, ws = [f; w] /\ spelled short long f /\ value w /\ means w in
  let number x w := parse_float w = Some x /\ not_negative x in
  let count n w := parse_int w = Some n /\ (0 < n)%Z in
  match x with
  | Word w => ws = [w] /\ value w
  | NoFigures => ws = ["--hide"]
  | SavePlots => ws = ["--save"]
  | Histograms => ws = ["--histogram"]
  | StepLength x => one "-s" "--step-length" (number x)
  | HeightThreshold x => one "--kh" "--kh" (number x)
  | DischargeThreshold x => one "--kq" "--kq" (number x)
  | NetworkParameter k w => exists f, ws = [f; k; w] /\ spelled "-p" "--parameter" f /\ value k /\ value w
  | MaxEpochs n => one "-e" "--epochs" (count n)
  | EveryNth n => one "--skip" "--skip" (count n)
  | TrainingSeed n => one "--seed" "--seed" (count n)
  | ResumeTraining => ws = ["--resume"]
  | ConfirmSaving => ws = ["--confirm"]
  | PlotLosses => ws = ["--plot-loss"]
  | ProfileLines None => ws = ["--profile"]
  | ProfileLines (Some n) => exists w, ws = ["--profile"; w] /\ value w /\ parse_int w = Some n
  | PrintArguments => ws = ["--args"]
  end%string.
End Words.

(** the commands that offer the part *)
Definition part_offered (t : tool) (x : part) : Prop :=
  match x with
  | ProfileLines _ | PrintArguments => True
  | Word _ => t <> TCurvature
  | NoFigures | SavePlots => t = TCurvature
  | Histograms => t = TData
  | StepLength _ | HeightThreshold _ | DischargeThreshold _ => t = TDelete
  | _ => t = TTrain
  end.
(** the words that are not part of an option *)
Definition own_words (xs : list part) : list string := flat_map (fun x => match x with Word w => [w] | _ => [] end) xs.
(** they stand together *)
Definition together (xs : list part) : Prop :=
  exists before ws after, xs = before ++ map Word ws ++ after /\ own_words before = [] /\ own_words after = [].
(** --profile without a number would take a word behind it for the number *)
Definition not_swallowed (xs : list part) : Prop := forall before after w, xs <> before ++ ProfileLines None :: Word w :: after.

(** the last one counts *)
Definition last_part {A} (pick : part -> option A) (xs : list part) (default : A) : A :=
  fold_left (fun a x => match pick x with Some b => b | None => a end) xs default.
(** the parameters of a network: the last value of each name, which has to be a number *)
Definition given_parameters (xs : list part) : list (string * string) := flat_map (fun x => match x with NetworkParameter k w => [(k, w)] | _ => [] end) xs.
Definition last_value (k : string) (given : list (string * string)) (w : string) : Prop :=
  exists before after, given = before ++ (k, w) :: after /\ ~ In k (map fst after).
Definition final_parameters (parse_float : string -> option pyfloat) (given : list (string * string)) (final : list (string * pyfloat)) : Prop :=
  (forall k w, In (k, w) given -> parse_float w <> None) /\ NoDup (map fst final) /\ (forall k, In k (map fst given) -> In k (map fst final)) /\
  (forall k x, In (k, x) final -> exists w, last_value k given w /\ parse_float w = Some x).
Definition is_network (w : string) : Prop := w = "llf"%string \/ w = "llf2"%string.

(** what the command is asked to do *)
Definition asks_for (parse_float : string -> option pyfloat) (t : tool) (xs : list part) (j : tool_job) : Prop :=
  match t with
  | TCurvature => exists show save, j = JCurvature show save /\ (show = true <-> ~ In NoFigures xs) /\ (save = true <-> In SavePlots xs)
  | TData => own_words xs <> [] /\ together xs /\ exists histogram, j = JData (own_words xs) histogram /\ (histogram = true <-> In Histograms xs)
  | TDelete => exists a b, own_words xs = [a; b] /\ j = JDelete a b
      (last_part (fun x => match x with StepLength s => Some s | _ => None end) xs (Finite 2))
      (last_part (fun x => match x with HeightThreshold s => Some s | _ => None end) xs (Finite (1 / 4)))
      (last_part (fun x => match x with DischargeThreshold s => Some s | _ => None end) xs (Finite (1 / 2)))
  | TPrint => exists n, own_words xs = [n] /\ is_network n /\ j = JPrint n
  | TTests => together xs /\ j = JTests (own_words xs)
  | TTrain => exists n resume parameters confirm plot, own_words xs = [n] /\ is_network n /\ j = JTrain n resume parameters
      (last_part (fun x => match x with MaxEpochs n => Some n | _ => None end) xs 500%Z)
      (last_part (fun x => match x with EveryNth n => Some n | _ => None end) xs 1%Z)
      (last_part (fun x => match x with TrainingSeed n => Some (Some n) | _ => None end) xs None) confirm plot /\
      (resume = true <-> In ResumeTraining xs) /\ (confirm = true <-> In ConfirmSaving xs) /\ (plot = true <-> In PlotLosses xs) /\
      final_parameters parse_float (given_parameters xs) parameters
  end.
Definition profile_lines (xs : list part) : Z :=
  last_part (fun x => match x with ProfileLines None => Some 30%Z | ProfileLines (Some n) => Some n | _ => None end) xs 0%Z.
Definition tool_word (t : tool) : string :=
  match t with TCurvature => "analyze-curvature" | TData => "analyze-data" | TDelete => "delete-curvature" | TPrint => "print-network" | TTests => "test" | TTrain => "train-network" end.
