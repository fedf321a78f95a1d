(** Model of core/vector_coarsener.py. Definitions only. *)
From Coq Require Import Reals List Arith.
From Verif Require Import Prelude.
Import ListNotations.
Open Scope R_scope.

(** core/vector_coarsener.py L32-38, VectorCoarsener._coarsen_vector.
    [vector[0::d].copy()] followed by the loop of [+=] with [vector[i::d]] for
    i = 1..d-1 and the final multiplication by [1/d]. *)
Definition coarsen_vector {W} `{CellOps W} (d : nat) (v : list W) : list W :=
  map (cscal (1 / INR d))
    (fold_left (fun acc i => map2 cadd acc (stride i d v)) (seq 1 (d - 1)) (stride 0 d v)).

(** core/vector_coarsener.py L21-30, VectorCoarsener.__call__ with
    _assert_admissible_vector. Degrees are natural numbers (python would also
    accept negative ones); [len % 0] raises ZeroDivisionError. *)
Definition coarsen {W} `{CellOps W} (d : nat) (v : list W) : result (list W) :=
  match d with
  | O => Err ZeroDivisionError
  | _ => if Nat.eqb (length v mod d) 0 then Ok (coarsen_vector d v) else Err ValueError
  end.
