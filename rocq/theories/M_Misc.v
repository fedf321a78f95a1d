(** Models of core/function.py, core/type.py, SolverAction of core/solver.py and
    SystemMatrix of core/system.py. Definitions only. *)
From Coq Require Import Reals String List Arith ZArith Bool.
From Verif Require Import Prelude.
Import ListNotations.
Open Scope R_scope.

(** * core/function.py. Arrays are one-dimensional; np.maximum of arrays of different
    lengths raises ValueError (broadcasting of arrays of length one is left out). *)
Definition np_binary (f : R -> R -> R) (a b : list R) : result (list R) :=
  if Nat.eqb (length a) (length b) then Ok (map2 f a b) else Err ValueError.
(** maximum L4-8, minimum L11-15: recursion over the arguments; without arguments
    values[0] raises IndexError *)
Fixpoint fold_binary (f : R -> R -> R) (values : list (list R)) : result (list R) :=
  match values with
  | [] => Err IndexError
  | [v] => Ok v
  | v :: rest => bind (fold_binary f rest) (fun r => np_binary f v r)
  end.
Definition maximum := fold_binary Rmax.
Definition minimum := fold_binary Rmin.

(** np.sign *)
Definition sign (x : R) : R := if Rltb 0 x then 1 else if Rltb x 0 then -1 else 0.
(** minmod L18-24, one entry *)
Definition minmod1 (a b : R) : R :=
  if Reqb (sign a) (sign b) then sign a * Rmin (Rabs a) (Rabs b) else 0.
Definition minmod (a b : list R) : result (list R) := np_binary minmod1 a b.

(** * core/type.py. [parse_int]/[parse_float] are python's int(str) and float(str):
    None stands for their ValueError. Floats include the infinities and nan. *)
Inductive pyfloat := Finite (x : R) | PosInf | NegInf | NaN.
(* comparisons with a real number; every comparison with nan is false *)
Definition le_num (f : pyfloat) (y : R) : bool :=
  match f with Finite x => Rleb x y | PosInf => false | NegInf => true | NaN => false end.
Definition lt_num (f : pyfloat) (y : R) : bool :=
  match f with Finite x => Rltb x y | PosInf => false | NegInf => true | NaN => false end.
Definition gt_num (f : pyfloat) (y : R) : bool :=
  match f with Finite x => Rltb y x | PosInf => true | NegInf => false | NaN => false end.

Section Types.
Context (parse_int : string -> option Z) (parse_float : string -> option pyfloat).
Definition float_of (s : string) : result pyfloat := match parse_float s with Some f => Ok f | None => Err ValueError end.
Definition int_of (s : string) : result Z := match parse_int s with Some z => Ok z | None => Err ValueError end.
(** positive_float L1-6 *)
Definition positive_float (s : string) : result pyfloat :=
  bind (float_of s) (fun v => if le_num v 0 then Err ValueError else Ok v).
(** positive_int L9-14 *)
Definition positive_int (s : string) : result Z :=
  bind (int_of s) (fun v => if (v <=? 0)%Z then Err ValueError else Ok v).
(** non_negative_int L17-22 *)
Definition non_negative_int (s : string) : result Z :=
  bind (int_of s) (fun v => if (v <? 0)%Z then Err ValueError else Ok v).
(** percent_number L25-30 *)
Definition percent_number (s : string) : result pyfloat :=
  bind (float_of s) (fun v => if lt_num v 0 || gt_num v 1 then Err ValueError else Ok v).
End Types.

(** * SolverAction, core/solver.py L192-242. [key] tells whether a string is one of
    solver_parsers.keys(). *)
Section Action.
Context {NS : Type} (key : string -> bool) (parse : string -> list string -> result NS).
(** the loop of _pop_solver_arguments L212-219 over enumerate(values) from index [i] on;
    [before] is values[i - 1] *)
Fixpoint slice_index (before : string) (i : nat) (values : list string) : option nat :=
  match values with
  | [] => None
  | v :: rest =>
      if Nat.ltb 0 i && key v && negb (String.eqb before "+f") then Some i
      else slice_index v (S i) rest
  end.
(** _pop_solver_arguments L209-224: the group and what is left of values *)
Definition pop_solver_arguments (values : list string) : list string * list string :=
  match slice_index "" 0 values with
  | Some i => (firstn i values, skipn i values)
  | None => (values, [])
  end.
(** _get_solver_namespace L226-242: [parse k args] is solver_parsers[k].parse_arguments(args);
    an unknown key ends the program (quit) *)
Definition get_solver_namespace (group : list string) : result NS :=
  match group with
  | [] => Err IndexError
  | k :: args => if key k then parse k args else Err SystemExit
  end.
(** __call__ L195-207: the while loop, with [fuel] as bound on the number of iterations *)
Fixpoint groups (fuel : nat) (values : list string) : option (list (list string)) :=
  match values with
  | [] => Some []
  | _ =>
      match fuel with
      | O => None
      | S fuel' => let '(g, rest) := pop_solver_arguments values in
                   match groups fuel' rest with Some gs => Some (g :: gs) | None => None end
      end
  end.
Fixpoint action (fuel : nat) (values : list string) : option (result (list NS)) :=
  match values with
  | [] => Some (Ok [])
  | _ =>
      match fuel with
      | O => None
      | S fuel' => let '(g, rest) := pop_solver_arguments values in
                   match get_solver_namespace g with
                   | Err e => Some (Err e)
                   | Ok ns => match action fuel' rest with
                              | Some (Ok nss) => Some (Ok (ns :: nss))
                              | x => x
                              end
                   end
      end
  end.
End Action.

(** * SystemMatrix, core/system.py L46-110. A matrix is a function of row and column (all indices below the
    dimension); [sm_lil] is _lil_values, [sm_csr] is _csr_values (absent until
    set_values or update_csr_values), [sm_lu] the matrix decomposed by build_inverse. *)
Definition mat := nat -> nat -> R.
Record smatrix := { sm_lil : mat; sm_csr : option mat; sm_lu : option mat }.
(** __init__ L53-57 *)
Definition sm_new : smatrix := {| sm_lil := fun _ _ => 0; sm_csr := None; sm_lu := None |}.
Inductive sm_op :=
| SetValues (m : mat)                (* L65-67 *)
| SetItem (i j : nat) (x : R)        (* __setitem__ L84-85 *)
| UpdateCsr                          (* update_csr_values L77-78 *)
| BuildInverse.                      (* L69-71; without csr values AttributeError, nothing changed *)
Definition sm_step (s : smatrix) (o : sm_op) : smatrix :=
  match o with
  | SetValues m => {| sm_lil := m; sm_csr := Some m; sm_lu := sm_lu s |}
  | SetItem i j x =>
      {| sm_lil := fun k l => if Nat.eqb k i && Nat.eqb l j then x else sm_lil s k l; sm_csr := sm_csr s; sm_lu := sm_lu s |}
  | UpdateCsr => {| sm_lil := sm_lil s; sm_csr := Some (sm_lil s); sm_lu := sm_lu s |}
  | BuildInverse => {| sm_lil := sm_lil s; sm_csr := sm_csr s; sm_lu := match sm_csr s with Some m => Some m | None => sm_lu s end |}
  end.
Definition sm_run (ops : list sm_op) : smatrix := fold_left sm_step ops sm_new.
Section Products.
Context (n : nat) (solver : mat -> (nat -> R) -> nat -> R).
(** dot L96-97 *)
Definition sm_dot (s : smatrix) (v : nat -> R) : result (nat -> R) :=
  match sm_csr s with
  | None => Err AttributeError
  | Some m => Ok (fun i => rsum (tab n (fun j => m i j * v j)))
  end.
(** inverse L73-75 with the default L56 and the one of build_inverse L71; [solver m v] is
    spsolve(m, v) resp. splu(m).solve(v) *)
Definition sm_inverse (s : smatrix) (v : nat -> R) : result (nat -> R) :=
  match sm_lu s with
  | Some m => Ok (solver m v)
  | None => match sm_csr s with None => Err AttributeError | Some m => Ok (solver m v) end
  end.
(** __getitem__ L80-81, multiply_row L99-104, multiply_column L106-110 *)
Definition sm_get (s : smatrix) (i j : nat) : R := sm_lil s i j.
Definition sm_multiply_row (s : smatrix) (v : nat -> R) : mat := fun i j => sm_lil s i j * v j.
Definition sm_multiply_column (s : smatrix) (v : nat -> R) : mat := fun i j => sm_lil s i j * v i.
End Products.
