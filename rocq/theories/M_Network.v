(** Model of the data handling around the neural networks: Curvature and ReducedNetwork (finite_volume/shallow_water/solver/reduced_model.py L17-148), command/delete_curvature.py,
    command/train_network.py. Definitions only. A table is a list of rows of numbers. The network itself (skorch, torch) is a parameter: its parameters [P], optimizer and
    history [Op], [Hi], what training does to them and what it predicts for a row. StandardScaler (sklearn) is modelled from its documentation: means and standard deviations
    of the columns, 1 instead of 0; using it before fit raises NotFittedError (a ValueError). Rounding to float32 is not modelled. *)
From Coq Require Import Reals String List Arith Bool.
From Verif Require Import Prelude M_Boundary M_ShallowWater.
Import ListNotations.
Open Scope R_scope.
Notation length := List.length.

(** ** Curvature L121-148. x ** (3 / 2) for x >= 0 *)
Definition pow32 (x : R) : R := if Rltb 0 x then Rpower x (3 / 2) else 0.
(** _calculate_curvature L143-148, one component *)
Definition curvature1 (h u0 u1 u2 : R) : R := Rabs (u0 - 2 * u1 + u2) * h / pow32 (h ^ 2 + 1 / 4 * (u0 - u2) ^ 2).
(** L136-139 for component [c] (0 height, 1 discharge) of a row U0 U1 U2 U3 of four states *)
Definition curvature (h : R) (row : list R) (c : nat) : R :=
  let u i := nth (2 * i + c) row 0 in (curvature1 h (u 0%nat) (u 1%nat) (u 2%nat) + curvature1 h (u 1%nat) (u 2%nat) (u 3%nat)) / 2.
(** transform L130-141; rows with another number than eight entries cannot be split into four states of the same shape: ValueError *)
Definition curvature_transform (h : R) (X : list (list R)) : result (list (list R)) :=
  if forallb (fun row => (length row =? 8)%nat) X then Ok (map (fun row => row ++ [curvature h row 0; curvature h row 1]) X) else Err ValueError.

(** ** DeleteCurvature L17-42: defaults 2, 0.25, 0.5; the data loaded are the argument *)
Record thresholds := { th_step : option R; th_height : option R; th_discharge : option R }.
Definition without_curvature (th : thresholds) (data : list (list R)) : result (list (list R)) :=
  bind (curvature_transform (py_or (th_step th) 2) (map (firstn 8) data)) (fun X =>
  let k c := map (fun row => nth c (skipn 8 row) 0) X in
  let keep := map2 (fun a b => Rltb a (py_or (th_height th) (1 / 4)) && Rltb b (py_or (th_discharge th) (1 / 2))) (k 0%nat) (k 1%nat) in
  Ok (map snd (filter fst (combine keep data)))).
(** core.load_data and core.save_data, which delete_curvature.py L32, L42, analyze_data.py L20 and analyze_curvature.py L104-105 call, are not defined in any module of core (core/__init__.py) *)
Definition load_data (path : string) : result (list (list R)) := Err AttributeError.
Definition save_data (data : list (list R)) (path : string) : result unit := Err AttributeError.
Definition delete_curvature (th : thresholds) (data_path target_path : string) : result unit :=
  bind (load_data data_path) (fun data => bind (without_curvature th data) (fun d => save_data d target_path)).

(** ** sklearn's StandardScaler: fitted means and scales of the columns *)
Definition scaler := option (list (R * R)).
Definition col (j : nat) (rows : list (list R)) : list R := map (fun row => nth j row 0) rows.
Definition mean (l : list R) : R := rsum l / INR (length l).
Definition variance (l : list R) : R := rsum (map (fun x => (x - mean l) ^ 2) l) / INR (length l).
Definition scale (l : list R) : R := if Reqb (variance l) 0 then 1 else sqrt (variance l).
(** fit: at least one sample, else ValueError *)
Definition fit_scaler (rows : list (list R)) : result scaler :=
  match rows with
  | [] => Err ValueError
  | r :: _ => Ok (Some (tab (length r) (fun j => (mean (col j rows), scale (col j rows)))))
  end.
Definition scale_row (ms : list (R * R)) (row : list R) : list R := map2 (fun p x => (x - fst p) / snd p) ms row.
Definition unscale_row (ms : list (R * R)) (row : list R) : list R := map2 (fun p x => x * snd p + fst p) ms row.
(** transform and inverse_transform: the number of columns must be that of fit *)
Definition scaler_rows (f : list (R * R) -> list R -> list R) (s : scaler) (rows : list (list R)) : result (list (list R)) :=
  match s with
  | None => Err ValueError
  | Some ms => if forallb (fun row => (length row =? length ms)%nat) rows then Ok (map (f ms) rows) else Err ValueError
  end.
Definition transform := scaler_rows scale_row.
Definition inverse_transform := scaler_rows unscale_row.

(** ** ReducedNetwork L17-118 *)
Section Network.
Context {P Op Hi : Type} (initial : P * Op * Hi) (train : list (list R) -> list (list R) -> P * Op * Hi -> P * Op * Hi) (forward : P -> list R -> list R).
Record network := { n_inner : P * Op * Hi; n_in : scaler; n_out : scaler }.
(** __init__ L29-39: unfitted scalers *)
Definition new_network : network := {| n_inner := initial; n_in := None; n_out := None |}.
(** fit L41-45: both scalers are fitted anew *)
Definition fit (X y : list (list R)) (n : network) : network * option exn :=
  match fit_scaler X with
  | Err x => (n, Some x)
  | Ok si =>
      match transform si X with
      | Err x => ({| n_inner := n_inner n; n_in := si; n_out := n_out n |}, Some x)
      | Ok X' =>
          match fit_scaler y with
          | Err x => ({| n_inner := n_inner n; n_in := si; n_out := n_out n |}, Some x)
          | Ok so =>
              match transform so y with
              | Err x => ({| n_inner := n_inner n; n_in := si; n_out := so |}, Some x)
              | Ok y' => ({| n_inner := train X' y' (n_inner n); n_in := si; n_out := so |}, None)
              end
          end
      end
  end.
(** predict L47-50 *)
Definition predict (n : network) (X : list (list R)) : result (list (list R)) :=
  bind (transform (n_in n) X) (fun X' => inverse_transform (n_out n) (map (forward (fst (fst (n_inner n)))) X')).

(** files: what pickle and torch wrote; reading something else or a missing file raises *)
Inductive content := CParams (p : P) | COptimizer (o : Op) | CHistory (h : Hi) | CScaler (s : scaler).
Definition files := string -> option content.
Definition write (fs : files) (path : string) (c : content) : files := fun p => if String.eqb p path then Some c else fs p.
Record paths := { f_network : string; f_optimizer : string; f_history : string; f_input : string; f_output : string }.
(** save_params L52-61 (skorch writes the network, the optimizer and the history, in this order) *)
Definition save_params (q : paths) (n : network) (fs : files) : files :=
  let '(p, o, h) := n_inner n in
  write (write (write (write (write fs (f_network q) (CParams p)) (f_optimizer q) (COptimizer o)) (f_history q) (CHistory h)) (f_input q) (CScaler (n_in n))) (f_output q) (CScaler (n_out n)).
(** load_params L69-76 with _load_network_params L78-96: the module is initialised first; whatever is raised ends the loading silently, what was loaded before stays *)
Definition load_params (q : paths) (load_history : bool) (fs : files) (n : network) : network :=
  let n0 := {| n_inner := initial; n_in := n_in n; n_out := n_out n |} in
  let with_history := load_history && (match fs (f_optimizer q) with Some _ => true | None => false end) && (match fs (f_history q) with Some _ => true | None => false end) in
  let loaded :=
    match fs (f_network q) with
    | Some (CParams p) =>
        if with_history then
          match fs (f_optimizer q), fs (f_history q) with
          | Some (COptimizer o), Some (CHistory h) => Some {| n_inner := (p, o, h); n_in := n_in n0; n_out := n_out n0 |}
          | _, _ => None
          end
        else Some {| n_inner := (p, snd (fst initial), snd initial); n_in := n_in n0; n_out := n_out n0 |}
    | _ => None
    end in
  match loaded with
  | None => n0                                                  (* skorch's partial loads are not modelled *)
  | Some n1 =>
      match fs (f_input q) with
      | Some (CScaler si) =>
          match fs (f_output q) with
          | Some (CScaler so) => {| n_inner := n_inner n1; n_in := si; n_out := so |}
          | _ => {| n_inner := n_inner n1; n_in := si; n_out := n_out n1 |}
          end
      | _ => n1
      end
  end.

(** ** TrainNetwork *)
(** _save_params L65-77: the answers (lower case) given at the prompt; None while there is no valid one *)
Fixpoint ask (answers : list string) : option bool :=
  match answers with
  | [] => None
  | a :: answers' =>
      if String.eqb a "y" || String.eqb a "yes" then Some true
      else if String.eqb a "n" || String.eqb a "no" then Some false
      else ask answers'
  end.
Definition save_answer (confirm : bool) (answers : list string) : option bool := if confirm then ask answers else Some true.
(** values[::skip] for skip > 0 *)
Fixpoint every {A} (skip i : nat) (l : list A) : list A :=
  match l with
  | [] => []
  | x :: l' => match i with O => x :: every skip (skip - 1) l' | S i' => every skip i' l' end
  end.
(** execute L48-62 for tables with at least two columns, without the plot: [skip] is [skip or 1]; an invalid answer asks again (None: still asking) *)
Definition columns (df : list (list R)) : nat := match df with [] => 0 | r :: _ => length r end.
Definition training_data (skip : option nat) (df : list (list R)) : list (list R) * list (list R) :=
  let d := (columns df - 2)%nat in
  let rows := every (match skip with Some (S s) => S s | _ => 1%nat end) 0 df in
  (map (firstn d) rows, map (skipn d) rows).
Definition train_network (q : paths) (skip : option nat) (confirm : bool) (answers : list string) (df : list (list R)) (n : network) (fs : files) : option (network * files * option exn) :=
  let '(X, y) := training_data skip df in
  match fit X y n with
  | (n', Some x) => Some (n', fs, Some x)
  | (n', None) =>
      match save_answer confirm answers with
      | None => None
      | Some true => Some (n', save_params q n' fs, None)
      | Some false => Some (n', fs, None)
      end
  end.
End Network.
