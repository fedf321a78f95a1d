(** What it means for a numerical flux to be single valued and local, for one
    component [k] of the cell values. *)
From Coq Require Import Reals List Arith.
From Verif Require Import Prelude M_Flux.
Import ListNotations.
Open Scope R_scope.

Section S.
Context {W : Type} `{CellOps W}.

(** one flux value per node *)
Definition one_per_node (nf : nflux W) : Prop :=
  forall a fl fr m, Forall (fun v => length v = m) a -> nf_call nf a = Ok (fl, fr) ->
    length fl = m /\ length fr = m.

(** what enters the right cell leaves the left cell *)
Definition single_valued (k : bool) (nf : nflux W) : Prop :=
  forall a fl fr m, Forall (fun v => length v = m) a -> nf_call nf a = Ok (fl, fr) ->
    forall i, (i < m)%nat -> ccoord k (nth i fl czero) = - ccoord k (nth i fr czero).

(** nodes that see the same values get the same flux *)
Definition local_flux (k : bool) (nf : nflux W) : Prop :=
  forall a fl fr m i j, Forall (fun v => length v = m) a -> nf_call nf a = Ok (fl, fr) ->
    (i < m)%nat -> (j < m)%nat -> (forall v, In v a -> nth i v czero = nth j v czero) ->
    ccoord k (nth i fr czero) = ccoord k (nth j fr czero).

(** total of component [k] *)
Definition total (k : bool) (u : list W) : R := rsum (map (ccoord k) u).
End S.
