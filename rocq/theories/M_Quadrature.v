(** Model of core/quadrature.py. Definitions only. *)
From Coq Require Import Reals List Arith Bool.
From Verif Require Import Prelude M_Mesh.
Import ListNotations.
Open Scope R_scope.

(** L10-31, Quadrature: domain, nodes and weights *)
Record quadrature := { q_domain : interval; q_nodes : list R; q_weights : list R }.
(** L28-29 *)
Definition q_degree (q : quadrature) : nat := length (q_nodes q).
(** L76-78 integrate: np.dot(weights, [function(node) for node in nodes]) *)
Definition integrate (q : quadrature) (f : R -> R) : R := rsum (map2 Rmult (q_weights q) (map f (q_nodes q))).

(** L51 beta[i] = 1/2 * (1 - (2*(i+1))**(-2)) ** (-0.5) *)
Definition gw_beta (i : nat) : R := 1 / 2 * / sqrt (1 - / (2 * (INR i + 1)) ^ 2).
(** L47-53: the symmetric tridiagonal matrix t; the loop sets t[i, i+1] and t[i+1, i] for i < degree - 1 *)
Definition gw_matrix (n i j : nat) : R :=
  if Nat.eqb j (S i) && Nat.ltb i (n - 1) then gw_beta i
  else if Nat.eqb i (S j) && Nat.ltb j (n - 1) then gw_beta j
  else 0.
(** L61 list.sort() of pairs (lexicographic order), as an insertion sort *)
Definition pair_leb (p q : R * R) : bool := Rltb (fst p) (fst q) || (Reqb (fst p) (fst q) && Rleb (snd p) (snd q)).
Fixpoint insert (p : R * R) (l : list (R * R)) : list (R * R) :=
  match l with [] => [p] | q :: l' => if pair_leb p q then p :: l else q :: insert p l' end.
Definition sort_pairs (l : list (R * R)) : list (R * R) := fold_right insert [] l.

Section Gauss.
(** np.linalg.eig (L55): eigenvalues and the matrix of eigenvectors (columns) *)
Context (eig : nat -> (nat -> nat -> R) -> (nat -> R) * (nat -> nat -> R)).
(** L46-68 _calculate_nodes_weights: weights 2 * v[0, i]**2 *)
Definition nodes_weights (n : nat) : list (R * R) :=
  let '(nodes, v) := eig n (gw_matrix n) in
  sort_pairs (tab n (fun i => (nodes i, 2 * (v 0%nat i) ^ 2))).
Definition reference_interval : interval := {| ia := -1; ib := 1 |}.
(** L34-44 SpecificGaussianQuadrature *)
Definition specific_gaussian (n : nat) : result quadrature :=
  if Nat.ltb 0 n then
    Ok {| q_domain := reference_interval; q_nodes := map fst (nodes_weights n); q_weights := map snd (nodes_weights n) |}
  else Err AssertionError.
(** L81-115 GaussianQuadrature *)
Definition gaussian (n : nat) (c : interval) : result quadrature :=
  bind (specific_gaussian n) (fun q =>
  if ieqb (q_domain q) c then Ok q else
  let factor := (ib c - ia c) / 2 in
  let shift := (ia c + ib c) / 2 in
  Ok {| q_domain := c; q_nodes := map (fun x => factor * x + shift) (q_nodes q);
        q_weights := map (fun w => factor * w) (q_weights q) |}).
(** L118-123 LocalElementQuadrature *)
Definition local_quadrature (n : nat) : result quadrature := gaussian n {| ia := 0; ib := 1 |}.
End Gauss.
