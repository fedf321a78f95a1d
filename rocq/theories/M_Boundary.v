(** Model of core/boundary.py and finite_volume/shallow_water/boundary.py.
    Definitions only. *)
From Coq Require Import Reals List ZArith Arith String.
From Verif Require Import Prelude.
Import ListNotations.
Open Scope R_scope.

(** python indexing l[z] with negative indices, IndexError out of range *)
Definition pyget {A} (l : list A) (z : Z) : result A :=
  let n := Z.of_nat (List.length l) in
  let k := if (z <? 0)%Z then (n + z)%Z else z in
  if ((0 <=? k) && (k <? n))%Z%bool
  then match nth_error l (Z.to_nat k) with Some a => Ok a | None => Err IndexError end
  else Err IndexError.

(* [f(x) for x in l], stopping at the first exception *)
Fixpoint mapM {A B} (f : A -> result B) (l : list A) : result (list B) :=
  match l with
  | [] => Ok []
  | a :: l' => bind (f a) (fun b => bind (mapM f l') (fun bs => Ok (b :: bs)))
  end.

Section Boundary.
Context {W : Type}.

(** GhostCell subclasses: CopyCell L19-34, InflowCell L37-45, and the two
    reflecting cells of shallow_water/boundary.py L6-19, whose change of the sign
    of the discharge is the parameter [neg]. Names (__repr__) are dropped. *)
Inductive ghost :=
| CopyCell (reference_index : Z)
| InflowCell (inflow : R -> W)
| LeftReflecting (neg : W -> W)
| RightReflecting (neg : W -> W).

(** GhostCell.__call__(dof_vector, time) *)
Definition ghost_value (g : ghost) (v : list W) (time : option R) : result W :=
  match g with
  | CopyCell z => pyget v z                                              (* L27-28 *)
  | InflowCell f => match time with Some t => Ok (f t) | None => Err AssertionError end (* L43-45 *)
  | LeftReflecting neg => bind (pyget v 0) (fun x => Ok (neg x))         (* sw/boundary L7-11 *)
  | RightReflecting neg => bind (pyget v (-1)) (fun x => Ok (neg x))     (* sw/boundary L15-19 *)
  end.

(** BoundaryConditions, L48-60 *)
Record bconds := { bc_left : list ghost; bc_right : list ghost; bc_periodic : bool }.

Definition mk_bconds (cells : list ghost) (periodic : bool) : result bconds :=
  if Nat.even (List.length cells)
  then let n := Nat.div2 (List.length cells) in
       Ok {| bc_left := firstn n cells; bc_right := skipn n cells; bc_periodic := periodic |}
  else Err AssertionError.

Definition bc_number (b : bconds) : nat := List.length (bc_left b).

(** updated_dof_vector, L72-78 *)
Definition extended (b : bconds) (v : list W) (time : option R) : result (list W) :=
  bind (mapM (fun g => ghost_value g v time) (bc_left b)) (fun l =>
  bind (mapM (fun g => ghost_value g v time) (bc_right b)) (fun r => Ok (l ++ v ++ r))).

(** get_node_neighbours, L62-88; for radius >= 1 the end i - 2*radius + 1 of the
    slices is negative, i.e. counted from the end of the array. radius = 0 is not
    modelled. *)
Definition get_node_neighbours (b : bconds) (v : list W) (radius : nat) (time : option R)
  : result (list (list W)) :=
  bind (extended b v time) (fun e =>
    let len := List.length e in
    Ok (map (fun i => slice e i (len - (2 * radius - 1 - i))) (seq 0 (2 * radius - 1))
        ++ [skipn (2 * radius - 1) e])).

(** get_cell_neighbours L90-109. nan at the two outer entries of non-periodic
    boundaries is [None]. *)
Definition get_cell_neighbours (b : bconds) (nl nr : list W) : result (list (option W) * list (option W)) :=
  let k := Z.of_nat (bc_number b) in
  if bc_periodic b then
    bind (pyget nr (-2 * k)) (fun lv =>
    bind (pyget nl (2 * k - 1)) (fun rv =>
    Ok (map Some (lv :: nr), map Some (nl ++ [rv]))))
  else Ok (None :: map Some nr, map Some nl ++ [None]).

(** BoundaryConditionsBuilder L118-166. [wall]: [None] for core's builder, the
    sign change of the discharge for the shallow water builder
    (shallow_water/boundary.py L22-53). *)
Open Scope string_scope.
Definition build_left (wall : option (W -> W)) (c : string) (index : nat) (inflow : option (R -> W))
  : result ghost :=
  match (if c =? "wall" then wall else None) with
  | Some neg => Ok (LeftReflecting neg)
  | None =>
    if c =? "periodic" then Ok (CopyCell (- Z.of_nat index - 1))
    else if c =? "outflow" then Ok (CopyCell 0)
    else if c =? "inflow" then
      match inflow with None => Err ValueError | Some g => Ok (InflowCell g) end
    else Err ValueError
  end.

Definition build_right (wall : option (W -> W)) (c : string) (index : nat) (inflow : option (R -> W))
  : result ghost :=
  match (if c =? "wall" then wall else None) with
  | Some neg => Ok (RightReflecting neg)
  | None =>
    if c =? "periodic" then Ok (CopyCell (Z.of_nat index))
    else if c =? "outflow" then Ok (CopyCell (-1))
    else if c =? "inflow" then
      match inflow with None => Err ValueError | Some g => Ok (InflowCell g) end
    else Err ValueError
  end.

Definition is_periodic (conditions : list string) : bool :=
  match conditions with [c] => c =? "periodic" | _ => false end.

Definition get_boundary_conditions (wall : option (W -> W)) (conditions : list string) (radius : nat)
  (inflow_left inflow_right : option (R -> W)) : result bconds :=
  match conditions with
  | [] => Err IndexError
  | cl :: rest =>
    let cr := match rest with [] => cl | c :: _ => c end in
    bind (mapM (fun i => build_left wall cl i inflow_left) (rev (seq 0 radius))) (fun l =>
    bind (mapM (fun i => build_right wall cr i inflow_right) (seq 0 radius)) (fun r =>
    mk_bconds (l ++ r) (is_periodic conditions)))
  end.
End Boundary.
Arguments ghost W : clear implicits.
Arguments bconds W : clear implicits.
