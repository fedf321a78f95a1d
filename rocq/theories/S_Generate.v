(** Specification of the recorded data. *)
From Coq Require Import Reals List Arith.
From Verif Require Import Prelude M_Flux M_Generate.
Import ListNotations.
Open Scope R_scope.

Section S.
Context {W : Type} `{CellOps W}.
(** Node by node the flux [nf] applies [g] to the values around the node:
    [g [u0; u1; ...] = Ok (flux to the left cell, flux to the right cell)]. *)
Definition nodewise (nf : nflux W) (g : list W -> result (W * W)) : Prop :=
  forall a m fl fr, length a = nf_dim nf -> Forall (fun v => length v = m) a -> nf_call nf a = Ok (fl, fr) ->
    length fl = m /\ length fr = m /\
    forall i, (i < m)%nat -> g (map (fun v => nth i v czero) a) = Ok (nth i fl czero, nth i fr czero).
End S.

(** The lines of a csv file [f] after the rows of the first [k] solutions have been
    written, the first of them overwriting the file ([overwrite]) or appending to it *)
Definition content {Row} (overwrite : bool) (f : option (list (line (Row := Row)))) (rows : nat -> list Row) (k : nat)
  : option (list (line (Row := Row))) :=
  match k with
  | O => f
  | _ => Some ((if overwrite then [Header] else match f with Some l => l | None => [] end) ++
               map Line (concat (map rows (seq 0 k))))
  end.
