(** Model of the command lines of analyze-curvature, analyze-data, delete-curvature, print-network, test and train-network
    (command/analyze_curvature.py, analyze_data.py, delete_curvature.py, print_network.py, test.py, train_network.py, command.py). Definitions only.

    Of argparse the same part is covered as in M_CommandLine: options written in full and separated from their values by blanks; everything else gives
    the outcome [Unmodelled]. Not modelled: what is printed, and the construction of the networks (skorch), which is only named. *)
From Coq Require Import String Ascii Reals List Arith ZArith Bool.
From Verif Require Import Prelude M_Misc M_Parser M_CommandLine M_Network.
Import ListNotations.
Open Scope R_scope.

Inductive tool := TCurvature | TData | TDelete | TPrint | TTests | TTrain.
(** the names: analyze_curvature.py L133-139, analyze_data.py L32-39, delete_curvature.py L46-52, print_network.py L17-23, test.py L17-22, train_network.py L101-107 *)
Definition tools : list (string * tool) :=
  [("analyze-curvature", TCurvature); ("analyze-data", TData); ("delete-curvature", TDelete); ("print-network", TPrint); ("test", TTests); ("train-network", TTrain)]%string.

(** ** The options *)
Inductive topt := THelp | THide | TSave | THistogram | TStep | TKh | TKq | TParameter | TEpochs | TSkip | TSeed | TResume | TConfirm | TPlotLoss | TProfile | TArgs.
(** analyze_curvature.py L142-149, analyze_data.py L43, delete_curvature.py L66-91, train_network.py L126-180, command.py L28-40 *)
Definition tflags (o : topt) : list string :=
  match o with
  | THelp => ["-h"; "--help"] | THide => ["--hide"] | TSave => ["--save"] | THistogram => ["--histogram"]
  | TStep => ["-s"; "--step-length"] | TKh => ["--kh"] | TKq => ["--kq"]
  | TParameter => ["-p"; "--parameter"] | TEpochs => ["-e"; "--epochs"] | TSkip => ["--skip"] | TSeed => ["--seed"]
  | TResume => ["--resume"] | TConfirm => ["--confirm"] | TPlotLoss => ["--plot-loss"] | TProfile => ["--profile"] | TArgs => ["--args"]
  end%string.
Definition topts (t : tool) : list topt :=
  THelp :: match t with
  | TCurvature => [THide; TSave]
  | TData => [THistogram]
  | TDelete => [TStep; TKh; TKq]
  | TPrint | TTests => []
  | TTrain => [TParameter; TEpochs; TSkip; TSeed; TResume; TConfirm; TPlotLoss]
  end ++ [TProfile; TArgs].
(** the positional arguments: none; so many single words; a list of at least one or of any number of words (nargs "+", "*"): analyze_data.py L42,
    delete_curvature.py L61-69, print_network.py L28-32, test.py L25-30, train_network.py L120-124 *)
Inductive places := Single (n : nat) | Listed (at_least_one : bool).
Definition tplaces (t : tool) : places :=
  match t with TCurvature => Single 0 | TData => Listed true | TDelete => Single 2 | TPrint | TTrain => Single 1 | TTests => Listed false end.
(** choices=NETWORK_TYPES.keys(): finite_volume/shallow_water/solver/__init__.py L23-26 *)
Definition network_types : list string := ["llf"; "llf2"]%string.
Definition allowed (t : tool) (w : string) : bool := match t with TPrint | TTrain => existsb (String.eqb w) network_types | _ => true end.

Record tsettings := {
  t_words : list string; t_filled : bool;                                  (* the positional arguments so far; the list was met *)
  t_hide : bool; t_save : bool; t_histogram : bool; t_step : option pyfloat; t_kh : option pyfloat; t_kq : option pyfloat;
  t_parameters : list (string * string); t_epochs : Z; t_skip : Z; t_seed : option Z; t_resume : bool; t_confirm : bool; t_plot_loss : bool;
  t_profile : Z; t_args : bool }.
(** the defaults: defaults.py L58-59, command.py L35 *)
Definition tinitial : tsettings :=
  {| t_words := []; t_filled := false; t_hide := false; t_save := false; t_histogram := false; t_step := None; t_kh := None; t_kq := None;
     t_parameters := []; t_epochs := 500; t_skip := 1; t_seed := None; t_resume := false; t_confirm := false; t_plot_loss := false; t_profile := 0; t_args := false |}%Z.

Section Lines.
Context (parse_int : string -> option Z) (parse_float : string -> option pyfloat).

(** ValueError and TypeError of a conversion end the program *)
Definition accepted {A} (r : result A) (f : A -> tsettings) : outcome tsettings :=
  match r with Ok a => Parsed (f a) | Err ValueError | Err TypeError => Exit 2 false | Err e => Raised e end.
Definition tstore (o : topt) (vs : list string) (s : tsettings) : outcome tsettings :=
  let '(Build_tsettings wo fi hi sa hg st kh kq pa ep sk se re co pl pf ar) := s in
  let v := hd ""%string vs in
  match o with
  | THelp => Exit 0 false
  | THide => Parsed (Build_tsettings wo fi true sa hg st kh kq pa ep sk se re co pl pf ar)
  | TSave => Parsed (Build_tsettings wo fi hi true hg st kh kq pa ep sk se re co pl pf ar)
  | THistogram => Parsed (Build_tsettings wo fi hi sa true st kh kq pa ep sk se re co pl pf ar)
  | TStep => accepted (positive_float parse_float v) (fun x => Build_tsettings wo fi hi sa hg (Some x) kh kq pa ep sk se re co pl pf ar)
  | TKh => accepted (positive_float parse_float v) (fun x => Build_tsettings wo fi hi sa hg st (Some x) kq pa ep sk se re co pl pf ar)
  | TKq => accepted (positive_float parse_float v) (fun x => Build_tsettings wo fi hi sa hg st kh (Some x) pa ep sk se re co pl pf ar)
  | TParameter => Parsed (Build_tsettings wo fi hi sa hg st kh kq (pa ++ [(v, nth 1 vs ""%string)]) ep sk se re co pl pf ar)
  | TEpochs => accepted (positive_int parse_int v) (fun z => Build_tsettings wo fi hi sa hg st kh kq pa z sk se re co pl pf ar)
  | TSkip => accepted (positive_int parse_int v) (fun z => Build_tsettings wo fi hi sa hg st kh kq pa ep z se re co pl pf ar)
  | TSeed => accepted (positive_int parse_int v) (fun z => Build_tsettings wo fi hi sa hg st kh kq pa ep sk (Some z) re co pl pf ar)
  | TResume => Parsed (Build_tsettings wo fi hi sa hg st kh kq pa ep sk se true co pl pf ar)
  | TConfirm => Parsed (Build_tsettings wo fi hi sa hg st kh kq pa ep sk se re true pl pf ar)
  | TPlotLoss => Parsed (Build_tsettings wo fi hi sa hg st kh kq pa ep sk se re co true pf ar)
  | TProfile => accepted (match vs with [] => Ok 30%Z | _ => int_of parse_int v end) (fun z => Build_tsettings wo fi hi sa hg st kh kq pa ep sk se re co pl z ar)
  | TArgs => Parsed (Build_tsettings wo fi hi sa hg st kh kq pa ep sk se re co pl pf true)
  end.
Definition with_words (ws : list string) (s : tsettings) : tsettings :=
  let '(Build_tsettings wo _ hi sa hg st kh kq pa ep sk se re co pl pf ar) := s in
  Build_tsettings (wo ++ ws) true hi sa hg st kh kq pa ep sk se re co pl pf ar.

(** ** argparse *)
Inductive ttoken := TPlain | TOption (o : topt) | TUnknown | TOdd.
Definition tclassify (t : tool) (s : string) : ttoken :=
  if String.eqb s "--" then TOdd
  else if negb (first_is dash s) then TPlain
  else match find (fun o => existsb (String.eqb s) (tflags o)) (topts t) with
       | Some o => TOption o
       | None =>
           if Nat.eqb (String.length s) 1 then TPlain
           else if has_char "=" s || existsb (fun o => existsb (fun f => prefix s f || String.eqb f (substring 0 2 s)) (tflags o)) (topts t) then TOdd
           else if negative_number s || has_char " " s then TPlain
           else TUnknown
       end.
Definition tplain (t : tool) (s : string) : bool := match tclassify t s with TPlain => true | _ => false end.
Fixpoint take_words (t : tool) (l : list string) : list string * list string :=
  match l with
  | [] => ([], [])
  | w :: l' => if tplain t w then let '(a, b) := take_words t l' in (w :: a, b) else ([], l)
  end.
(** the values of an option: None if there are not enough *)
Definition targuments (t : tool) (o : topt) (rest : list string) : option (list string * list string) :=
  match o with
  | TStep | TKh | TKq | TEpochs | TSkip | TSeed =>
      match rest with v :: rest' => if tplain t v then Some ([v], rest') else None | [] => None end
  | TParameter => match rest with v1 :: v2 :: rest' => if tplain t v1 && tplain t v2 then Some ([v1; v2], rest') else None | _ => None end
  | TProfile => match rest with v :: rest' => if tplain t v then Some ([v], rest') else Some ([], rest) | [] => Some ([], rest) end
  | _ => Some ([], rest)
  end.
(** _parse_known_args: the positional arguments take the plain words in front of the next option, as many as fit; a list that was met once takes nothing
    more. [extra]: there is a word for which there is no place; [fuel] bounds the number of strings *)
Fixpoint parse_tool (t : tool) (fuel : nat) (extra : bool) (tokens : list string) (s : tsettings) : outcome (tsettings * bool) :=
  match fuel with
  | O => Unmodelled
  | S fuel' =>
      match tokens with
      | [] => Parsed (s, extra)
      | w :: rest =>
          match tclassify t w with
          | TOdd => Unmodelled
          | TPlain =>
              match tplaces t with
              | Single n =>
                  if Nat.ltb (List.length (t_words s)) n
                  then if allowed t w then parse_tool t fuel' extra rest (with_words [w] s) else Exit 2 false
                  else parse_tool t fuel' true rest s
              | Listed _ =>
                  if t_filled s then parse_tool t fuel' true rest s
                  else let '(ws, rest') := take_words t tokens in parse_tool t fuel' extra rest' (with_words ws s)
              end
          | TUnknown => parse_tool t fuel' true rest s
          | TOption o =>
              match targuments t o rest with
              | None => Exit 2 false
              | Some (vs, rest') => obind (tstore o vs s) (fun s' => parse_tool t fuel' extra rest' s')
              end
          end
      end
  end.
(** missing and additional words end the program *)
Definition parse_tool_line (t : tool) (tokens : list string) : outcome tsettings :=
  if existsb (fun w => match tclassify t w with TOdd => true | _ => false end) tokens then Unmodelled else
  obind (parse_tool t (S (List.length tokens)) false tokens tinitial) (fun r =>
  let '(s, extra) := r in
  let complete := match tplaces t with Single n => Nat.eqb (List.length (t_words s)) n | Listed one => t_filled s || negb one end in
  if complete && negb extra then Parsed s else Exit 2 false).

(** ** postprocess and the constructors of the commands *)
Inductive tool_job :=
| JCurvature (show save : bool)
| JData (paths : list string) (histogram : bool)
| JDelete (data target : string) (step height discharge : pyfloat)
| JPrint (network : string)
| JTests (files : list string)
| JTrain (network : string) (resume : bool) (parameters : list (string * pyfloat)) (epochs skip : Z) (seed : option Z) (confirm plot_loss : bool).
(** x or default, for a float *)
Definition float_or (x : option pyfloat) (d : R) : pyfloat :=
  match x with None => Finite d | Some (Finite r) => if Reqb r 0 then Finite d else Finite r | Some f => f end.
(** kwargs[key] = value *)
Fixpoint assign (k : string) (x : pyfloat) (l : list (string * pyfloat)) : list (string * pyfloat) :=
  match l with [] => [(k, x)] | (k', y) :: l' => if String.eqb k k' then (k', x) :: l' else (k', y) :: assign k x l' end.
(** train_network.py L198-205 *)
Fixpoint network_parameters (l : list (string * string)) (kwargs : list (string * pyfloat)) : result (list (string * pyfloat)) :=
  match l with [] => Ok kwargs | (k, w) :: l' => bind (float_of parse_float w) (fun x => network_parameters l' (assign k x kwargs)) end.
(** analyze_curvature.py L151-155 and L97-101, analyze_data.py L45-49 and L14-16, delete_curvature.py L93-94 and L17-29, print_network.py L34-36,
    test.py L32-33 and L10-11, train_network.py L182-196 and L22-38 *)
Definition tool_postprocess (t : tool) (s : tsettings) : outcome tool_job :=
  match t, t_words s with
  | TCurvature, _ => Parsed (JCurvature (negb (t_hide s)) (t_save s))
  | TData, ws => Parsed (JData ws (t_histogram s))
  | TDelete, [a; b] => Parsed (JDelete a b (float_or (t_step s) 2) (float_or (t_kh s) (1 / 4)) (float_or (t_kq s) (1 / 2)))
  | TPrint, [n] => Parsed (JPrint n)
  | TTests, ws => Parsed (JTests ws)
  | TTrain, [n] =>
      match network_parameters (t_parameters s) [] with
      | Ok ps => Parsed (JTrain n (t_resume s) ps (if (t_epochs s =? 0)%Z then 500 else t_epochs s)%Z (if (t_skip s =? 0)%Z then 1 else t_skip s)%Z (t_seed s) (t_confirm s) (t_plot_loss s))
      | Err e => Raised e
      end
  | _, _ => Unmodelled
  end.
(** the job with the options of every command: the number of lines of the profile and --args *)
Definition tool_line (words : list string) : outcome (tool_job * Z * bool) :=
  match words with
  | name :: rest =>
      match find_key tools name with
      | Some t => obind (parse_tool_line t rest) (fun s => obind (tool_postprocess t s) (fun j => Parsed (j, t_profile s, t_args s)))
      | None => Unmodelled
      end
  | [] => Unmodelled
  end.

(** ** execute *)
(** analyze_curvature.py L103-126, analyze_data.py L18-29, delete_curvature.py L31-42: the data are loaded first ([load_data] of M_Network); test.py L13-14. What
    print-network and train-network do is not part of this function (C78 for the training). [started]: the program that is started with its arguments *)
Record effect := { started : list (list string); raised : option exn }.
Definition ends_with {A} (r : result A) : effect := {| started := []; raised := match r with Ok _ => None | Err e => Some e end |}.
Definition tool_execute (j : tool_job) : option effect :=
  match j with
  | JCurvature _ _ => Some (ends_with (bind (load_data "data/reduced-llf/data.csv") (fun _ => load_data "data/reduced-es1/data.csv")))
  | JData paths _ => Some (ends_with (fold_left (fun r p => bind r (fun _ => load_data p)) paths (Ok [])))
  | JDelete a b (Finite s) (Finite kh) (Finite kq) =>
      Some (ends_with (delete_curvature {| th_step := Some s; th_height := Some kh; th_discharge := Some kq |} a b))
  | JTests files => Some {| started := [("test/test" :: files)%string]; raised := None |}
  | _ => None
  end.
End Lines.
