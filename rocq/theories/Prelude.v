(** Shared vocabulary of the model: python exceptions as values, numpy style
    list operations, and the two kinds of "cell values" the code works with
    (scalars, and (height, discharge) rows for the shallow water equations).
    Definitions only. *)
From Coq Require Import Reals List.
Import ListNotations.
Open Scope R_scope.

(** ** Python exceptions as values *)
Inductive exn :=
| ValueError | AssertionError | TypeError | KeyError | AttributeError
| IndexError | ZeroDivisionError | ArgumentTypeError
| TimeStepTooSmallError | CFLConditionViolatedError | SystemExit.

Inductive result (A : Type) :=
| Ok (a : A)
| Err (e : exn).
Arguments Ok {A} a.
Arguments Err {A} e.

Definition bind {A B} (r : result A) (f : A -> result B) : result B :=
  match r with Ok a => f a | Err e => Err e end.

(** ** Boolean comparisons of reals (python's <, <=, == on floats, simplified
    to exact real numbers) *)
Definition Rltb (x y : R) : bool := if Rlt_dec x y then true else false.
Definition Rleb (x y : R) : bool := if Rle_dec x y then true else false.
Definition Reqb (x y : R) : bool := if Req_EM_T x y then true else false.

(** ** numpy/list helpers *)
Definition rsum (l : list R) : R := fold_right Rplus 0 l.

(* elementwise binary operation; numpy raises for different lengths, the model
   truncates to the shorter one (all uses have equal lengths) *)
Fixpoint map2 {A B C} (f : A -> B -> C) (l1 : list A) (l2 : list B) : list C :=
  match l1, l2 with
  | a :: l1', b :: l2' => f a b :: map2 f l1' l2'
  | _, _ => []
  end.

(* l[i:j] for 0 <= i *)
Definition slice {A} (l : list A) (i j : nat) : list A := firstn (j - i) (skipn i l).

(* [f(0), ..., f(n-1)] *)
Definition tab {A} (n : nat) (f : nat -> A) : list A := map f (seq 0 n).

(* l[i::d], i.e. every d-th entry starting with index i; d = 0 never used *)
Fixpoint stride_fuel {A} (fuel d : nat) (l : list A) : list A :=
  match fuel with
  | O => []
  | S fuel' => match l with
               | [] => []
               | x :: _ => x :: stride_fuel fuel' d (skipn d l)
               end
  end.
Definition stride {A} (i d : nat) (l : list A) : list A :=
  let l' := skipn i l in stride_fuel (length l') d l'.

(* largest/smallest entry of a non-empty list given as head and tail *)
Fixpoint lmax1 (x : R) (l : list R) : R :=
  match l with [] => x | y :: l' => lmax1 (Rmax x y) l' end.
Fixpoint lmin1 (x : R) (l : list R) : R :=
  match l with [] => x | y :: l' => lmin1 (Rmin x y) l' end.

(** ** Cell values
    [W] is the type of one entry of a dof vector: [R] for scalar problems and
    [R*R] (height, discharge) for shallow water, where numpy stores an (n,2)
    array and all arithmetic is elementwise. *)
Class CellOps (W : Type) := {
  czero : W;
  cadd : W -> W -> W;
  cscal : R -> W -> W;
  (* the components of a value: scalars have one (used for both indices),
     shallow water rows have two *)
  ccoord : bool -> W -> R
}.

Definition copp {W} `{CellOps W} (a : W) : W := cscal (-1) a.
Definition csub {W} `{CellOps W} (a b : W) : W := cadd a (copp b).
Definition csum {W} `{CellOps W} (l : list W) : W := fold_right cadd czero l.

Class CellLaws (W : Type) `{CellOps W} := {
  ccoord_ext : forall a b, (forall k, ccoord k a = ccoord k b) -> a = b;
  ccoord_zero : forall k, ccoord k czero = 0;
  ccoord_add : forall k a b, ccoord k (cadd a b) = ccoord k a + ccoord k b;
  ccoord_scal : forall k r a, ccoord k (cscal r a) = r * ccoord k a
}.

#[export] Instance R_CellOps : CellOps R := {
  czero := 0;
  cadd := Rplus;
  cscal := Rmult;
  ccoord := fun _ x => x
}.

#[export] Instance RR_CellOps : CellOps (R * R) := {
  czero := (0, 0);
  cadd := fun a b => (fst a + fst b, snd a + snd b);
  cscal := fun r a => (r * fst a, r * snd a);
  ccoord := fun k a => if k then fst a else snd a
}.
