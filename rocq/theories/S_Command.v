(** Specification of plots: what is drawn, and on which axes. *)
From Coq Require Import Reals String List Arith.
From Verif Require Import Prelude M_Command S_Quadrature S_Interpolate.
Import ListNotations.
Open Scope R_scope.

(** something drawn: grid, values at the grid points and labels (one for all axes, or one for each) *)
Record drawing (A : Type) := { d_grid : list R; d_values : list A; d_labels : list string }.
Arguments d_grid {A}. Arguments d_values {A}. Arguments d_labels {A}.
(** its line on the axes number [k], which show the quantity [f] *)
Definition line_on {A} (f : list R -> list A -> list R) (k : nat) (d : drawing A) : line :=
  {| l_label := match d_labels d with [x] => x | ls => nth k ls ""%string end; l_x := d_grid d; l_y := f (d_grid d) (d_values d) |}.
Definition drawing_of {A Sv} (grid_of : Sv -> list R) (value_of : Sv -> list A) (short_of : Sv -> string) (s : Sv) : drawing A :=
  {| d_grid := grid_of s; d_values := value_of s; d_labels := [short_of s] |}.
(** the value stored under a key *)
Fixpoint stored {X} (k : string) (d : list (string * X)) : option X :=
  match d with [] => None | (k', v) :: d' => if String.eqb k k' then Some v else stored k d' end.

(** Animations. A recorded solution: as many rows as times, the times increase; a function has a value at all points and times. *)
Definition can_be_animated (space times : list R) (o : animatable) : Prop :=
  match o with
  | ASolution grid old values => increasing old /\ old <> [] /\ length values = length old /\ exists k, rectangular k values
  | AFunction f => increasing times /\ forall x t, In x space -> exists v, f x t = Ok v
  end.
(** the row shown at time [t]: the values of the function at this time, or the solution interpolated between its recorded times
    (constant before the first and after the last) *)
Definition shown_at (space : list R) (t : R) (o : animatable) (row : list R) : Prop :=
  match o with
  | ASolution grid old values => forall k, rectangular k values ->
      length row = k /\ forall e, (e < k)%nat -> piecewise_linear old (map (fun r => nth e r 0) values) t (nth e row 0)
  | AFunction f => exists vs, Forall2 (fun x v => f x t = Ok v) space vs /\ row = concat vs
  end.
