(** Model of core/index_mapping.py L15-49 (NeighbourIndicesMapping),
    finite_volume/index_mapping.py, and core/local_bounds.py. Definitions only.

    Python sets of integers are duplicate free lists; their iteration order is
    implementation defined in python, here it is insertion order. *)
From Coq Require Import Reals List ZArith Arith.
From Verif Require Import Prelude M_Boundary.
Import ListNotations.
Open Scope R_scope.

Definition set_add (x : Z) (s : list Z) : list Z := if existsb (Z.eqb x) s then s else s ++ [x].
Definition set_remove (x : Z) (s : list Z) : list Z := filter (fun y => negb (Z.eqb x y)) s.
Definition set_of_list (l : list Z) : list Z := fold_left (fun s x => set_add x s) l [].

(* l[i] = f(l[i]) in place, i counted from the front *)
Fixpoint update_nth {A} (i : nat) (f : A -> A) (l : list A) : list A :=
  match l, i with
  | [], _ => []
  | a :: l', O => f a :: l'
  | a :: l', S i' => a :: update_nth i' f l'
  end.

(** finite_volume/index_mapping.py _build_neighbours L22-31; mesh_size = 0 is an
    IndexError in python *)
Definition fv_neighbours (n : nat) (periodic : bool) : result (list (list Z)) :=
  match n with
  | O => Err IndexError
  | S m =>
    let s0 := tab n (fun i => let z := Z.of_nat i in [z - 1; z; z + 1]%Z) in
    let s1 := update_nth 0 (set_remove (-1)) s0 in
    let s2 := update_nth m (set_remove (Z.of_nat n)) s1 in
    Ok (if periodic
        then update_nth m (set_add 0) (update_nth 0 (set_add (Z.of_nat n - 1)) s2)
        else s2)
  end.

(** core/index_mapping.py _build_neighbours_array L26-42: rows padded with their
    own index up to the length of the longest row *)
Definition list_max_nat (l : list nat) : nat := fold_right Nat.max 0%nat l.
Definition fill_row (number : nat) (i : nat) (row : list Z) : list Z :=
  row ++ repeat (Z.of_nat i) (number - length row).
Definition neighbours_array (rows : list (list Z)) : list (list Z) :=
  let m := list_max_nat (map (@length Z) rows) in
  map2 (fill_row m) (seq 0 (length rows)) rows.

(** NeighbourIndicesMapping.__call__(i) L44-45: the set of row i *)
Definition neighbours_call (array : list (list Z)) (i : Z) : result (list Z) :=
  bind (pyget array i) (fun row => Ok (set_of_list row)).

(** core/local_bounds.py LocalMaximum L5-23, LocalMinimum L25-42: amax/amin of
    dof_vector[row]; the amax of an empty row is a ValueError. *)
Definition row_values (v : list R) (row : list Z) : result (list R) := mapM (fun z => pyget v z) row.
Definition amax (l : list R) : result R := match l with [] => Err ValueError | x :: l' => Ok (lmax1 x l') end.
Definition amin (l : list R) : result R := match l with [] => Err ValueError | x :: l' => Ok (lmin1 x l') end.
Definition local_maximum (array : list (list Z)) (v : list R) : result (list R) :=
  mapM (fun row => bind (row_values v row) amax) array.
Definition local_minimum (array : list (list Z)) (v : list R) : result (list R) :=
  mapM (fun row => bind (row_values v row) amin) array.
