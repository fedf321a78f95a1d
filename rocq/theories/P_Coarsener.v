(** C09, C10: core/vector_coarsener.py *)
From Coq Require Import Reals List Lia Lra Arith.
From Verif Require Import Prelude L_Prelude M_Coarsener S_Coarsener L_Coarsener.
Import ListNotations.
Open Scope R_scope.

Theorem C09_coarsen_block_averages {W : Type} `{CellLaws W} :
  forall (d : nat) (v : list W), (0 < d)%nat ->
  (forall c, coarsen d v = Ok c <-> block_average d v c) /\
  ((exists n, length v = (n * d)%nat) -> exists c, coarsen d v = Ok c) /\
  (~ (exists n, length v = (n * d)%nat) <-> coarsen d v = Err ValueError).
Proof. exact coarsen_correct. Qed.
Print Assumptions C09_coarsen_block_averages.

(* test/.../test_vector_coarsener.py: [2,4,6,8] with degree 2 gives [3,7] *)
Example C09_ex : coarsen 2 [2; 4; 6; 8] = Ok [3; 7].
Proof.
  apply coarsen_ok_iff; [lia|]. split; [reflexivity|].
  intros [|[|i]] k Hi; simpl in Hi; try lia; unfold tab; simpl; lra.
Qed.
Example C09_ex_rejected : coarsen 2 [2; 4; 6] = Err ValueError.
Proof. reflexivity. Qed.

(** Conservation: with cells of size [dx] fine and [d*dx] coarse the integrals agree. *)
Theorem C10_coarsen_conserves_integral {W : Type} `{CellLaws W} :
  forall (d : nat) (v c : list W) (k : bool) (dx : R),
  (0 < d)%nat -> coarsen d v = Ok c ->
  (INR d * dx) * rsum (map (ccoord k) c) = dx * rsum (map (ccoord k) v).
Proof.
  intros. rewrite <- (coarsen_sum d v c k); auto. ring.
Qed.
Print Assumptions C10_coarsen_conserves_integral.

Theorem C10_coarsen_stays_in_block_bounds {W : Type} `{CellLaws W} :
  forall (d : nat) (v c : list W) (k : bool) (lo hi : R),
  (0 < d)%nat -> coarsen d v = Ok c ->
  forall i, (i < length c)%nat ->
  (forall j, (j < d)%nat -> lo <= ccoord k (nth (i * d + j) v czero) <= hi) ->
  lo <= ccoord k (nth i c czero) <= hi.
Proof. exact coarsen_bounds. Qed.
Print Assumptions C10_coarsen_stays_in_block_bounds.

Theorem C10_coarsen_composes {W : Type} `{CellLaws W} :
  forall (d e : nat) (v c1 c2 : list W),
  (0 < d)%nat -> (0 < e)%nat ->
  coarsen d v = Ok c1 -> coarsen e c1 = Ok c2 -> coarsen (e * d) v = Ok c2.
Proof. exact coarsen_compose. Qed.
Print Assumptions C10_coarsen_composes.

Theorem C10_coarsen_linear {W : Type} `{CellLaws W} :
  forall (d : nat) (v w cv cw : list W) (a b : R),
  (0 < d)%nat -> length v = length w ->
  coarsen d v = Ok cv -> coarsen d w = Ok cw ->
  coarsen d (map2 (fun x y => cadd (cscal a x) (cscal b y)) v w)
  = Ok (map2 (fun x y => cadd (cscal a x) (cscal b y)) cv cw).
Proof. exact coarsen_linear. Qed.
Print Assumptions C10_coarsen_linear.

Theorem C10_coarsen_monotone {W : Type} `{CellLaws W} :
  forall (d : nat) (v w cv cw : list W) (k : bool),
  (0 < d)%nat -> length v = length w ->
  coarsen d v = Ok cv -> coarsen d w = Ok cw ->
  (forall i, (i < length v)%nat -> ccoord k (nth i v czero) <= ccoord k (nth i w czero)) ->
  forall i, (i < length cv)%nat -> ccoord k (nth i cv czero) <= ccoord k (nth i cw czero).
Proof. exact coarsen_mono. Qed.
Print Assumptions C10_coarsen_monotone.

Theorem C10_coarsen_constant {W : Type} `{CellLaws W} :
  forall (d n : nat) (x : W), (0 < d)%nat ->
  coarsen d (repeat x (n * d)) = Ok (repeat x n).
Proof. exact coarsen_const. Qed.
Print Assumptions C10_coarsen_constant.

(* the hypotheses of the C10 theorems are met by shallow water data *)
Example C10_ex : coarsen 2 [(1, 2); (3, 4)] = Ok [(2, 3)].
Proof.
  apply coarsen_ok_iff; [lia|]. split; [reflexivity|].
  intros [|i] k Hi; simpl in Hi; try lia; destruct k; unfold tab; simpl; lra.
Qed.
