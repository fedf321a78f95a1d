(** Model of core/mesh.py and of FineGridIndicesMapping. Definitions only. *)
From Coq Require Import Reals List Arith Bool.
From Verif Require Import Prelude.
Import ListNotations.
Open Scope R_scope.

(** core/mesh.py L7-15, Interval with its constructor assertion. *)
Record interval := { ia : R; ib : R }.
Definition new_interval (a b : R) : result interval :=
  if Rltb a b then Ok {| ia := a; ib := b |} else Err AssertionError.

(** L20-26 *)
Definition ilength (c : interval) : R := ib c - ia c.
Definition icenter (c : interval) : R := (ib c + ia c) / 2.
(** L31-41: __eq__, __contains__, is_in_inner, is_in_boundary *)
Definition ieqb (c d : interval) : bool := Reqb (ia c) (ia d) && Reqb (ib c) (ib d).
Definition icontains (c : interval) (x : R) : bool := Rleb (ia c) x && Rleb x (ib c).
Definition iin_inner (c : interval) (x : R) : bool := Rltb (ia c) x && Rltb x (ib c).
Definition iin_boundary (c : interval) (x : R) : bool := Reqb x (ia c) || Reqb x (ib c).

(** np.linspace(a, b, n+1): values a + i*(b-a)/n with the last one set to b;
    a single value a for n = 0. *)
Definition linspace (a b : R) (n : nat) : list R :=
  tab (S n) (fun i => if Nat.eqb i n && negb (Nat.eqb n 0) then b else INR i * ((b - a) / INR n) + a).

(** L119-123, _build_cells: the loop appending Interval(grid[i], grid[i+1]);
    the Interval constructor may fail. *)
Fixpoint build_cells (grid : list R) : result (list interval) :=
  match grid with
  | x :: ((y :: _) as rest) =>
      bind (new_interval x y) (fun c => bind (build_cells rest) (fun cs => Ok (c :: cs)))
  | _ => Ok []
  end.

(** L99-134, UniformMesh: domain, cells and step length. For mesh size 0 numpy's
    step is nan; the model has (b-a)/0 = 0 there, all theorems assume size > 0. *)
Record mesh := { m_domain : interval; m_cells : list interval; m_step : R }.

Definition new_mesh (domain : interval) (n : nat) : result mesh :=
  bind (build_cells (linspace (ia domain) (ib domain) n)) (fun cs =>
  Ok {| m_domain := domain; m_cells := cs; m_step := (ib domain - ia domain) / INR n |}).

(** L67-68 *)
Definition m_len (m : mesh) : nat := length (m_cells m).
(** L125-126, L133-134 space_steps *)
Definition m_space_steps (m : mesh) : list R := repeat (m_step m) (m_len m).
(** L136-137 __eq__ *)
Definition meqb (m1 m2 : mesh) : bool :=
  Reqb (m_step m1) (m_step m2) && ieqb (m_domain m1) (m_domain m2).
(** L139-140 refine *)
Definition m_refine (m : mesh) (d : nat) : result mesh := new_mesh (m_domain m) (d * m_len m).
(** L142-147 coarsen *)
Definition m_coarsen (m : mesh) (d : nat) : result mesh :=
  match d with
  | O => Err ZeroDivisionError
  | _ => if Nat.eqb (m_len m mod d) 0 then new_mesh (m_domain m) (m_len m / d)
         else Err AssertionError
  end.

(** L76-77: list.index, the first position of an equal cell (ValueError is
    impossible for a member). *)
Fixpoint cell_index (cells : list interval) (c : interval) : nat :=
  match cells with
  | [] => 0
  | c' :: cs => if ieqb c' c then 0 else S (cell_index cs c)
  end.

(** L79-85 find_cell_indices *)
Definition find_cell_indices (m : mesh) (x : R) : list nat :=
  flat_map (fun c => if icontains c x then [cell_index (m_cells m) c] else []) (m_cells m).
(** L87-88 find_cells *)
Definition find_cells (m : mesh) (x : R) : list interval :=
  map (fun i => nth i (m_cells m) {| ia := 0; ib := 0 |}) (find_cell_indices m x).

(** L155-168 AffineTransformation *)
Definition affine (x : R) (c : interval) : R := ilength c * x + ia c.
Definition affine_inverse (y : R) (c : interval) : R := (y - ia c) / ilength c.
Definition affine_derivative (c : interval) : R := ilength c.
Definition affine_inverse_derivative (c : interval) : R := 1 / ilength c.

(** core/index_mapping.py L52-73 FineGridIndicesMapping: constructor and call. *)
Definition new_fine_grid_indices (fine_size d : nat) : result nat :=
  match d with
  | O => Err ZeroDivisionError
  | _ => if Nat.eqb (fine_size mod d) 0 then Ok d else Err ValueError
  end.
Definition fine_grid_indices (d coarse : nat) : list nat :=
  tab d (fun i => (d * coarse + i)%nat).
