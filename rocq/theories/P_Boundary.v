(** C18, C19, C52: core/boundary.py and finite_volume/shallow_water/boundary.py *)
From Coq Require Import Reals List ZArith Arith String Lia Lra.
From Verif Require Import Prelude L_Prelude M_Boundary S_Boundary L_Boundary.
Import ListNotations.
Open Scope R_scope.

(** Boundary conditions built for radius [r], asked for the neighbours with radius
    [m <= r] (the code uses m = r; then there are n+1 nodes). The k-th array at
    node i is the value of cell i - r + k of the extension. *)
Theorem C18_node_neighbours_are_extension_values {W : Type} (d : W) :
  forall wall conds r il ir (b : bconds W) v time nl nr cl cr m,
  side_names conds nl nr -> names_cond wall nl il cl -> names_cond wall nr ir cr ->
  get_boundary_conditions wall conds r il ir = Ok b ->
  (1 <= m <= r)%nat -> (r <= List.length v)%nat ->
  (forall h, cl = Inflow h \/ cr = Inflow h -> time <> None) ->
  exists a, get_node_neighbours b v m time = Ok a /\ List.length a = (2 * m)%nat /\
  forall k, (k < 2 * m)%nat -> List.length (nth k a []) = (List.length v + 2 * (r - m) + 1)%nat /\
    forall i, (i < List.length v + 2 * (r - m) + 1)%nat ->
      extension_value d v time cl cr (Z.of_nat i - Z.of_nat r + Z.of_nat k) (nth i (nth k a []) d).
Proof. exact (node_neighbours_spec d). Qed.
Print Assumptions C18_node_neighbours_are_extension_values.

Example C18_ex_periodic : exists b, get_boundary_conditions None ["periodic"%string] 1 None None = Ok b /\
  get_node_neighbours b [1%nat; 2%nat; 3%nat] 1 None = Ok [[3; 1; 2; 3]; [1; 2; 3; 1]]%nat.
Proof. eexists; split; reflexivity. Qed.
Example C18_ex_mixed : exists b,
  get_boundary_conditions None ["inflow"; "outflow"]%string 2 (Some (fun t => t)) None = Ok b /\
  get_node_neighbours b [1; 2; 3] 2 (Some 7) =
    Ok [[7; 7; 1; 2]; [7; 1; 2; 3]; [1; 2; 3; 3]; [2; 3; 3; 3]].
Proof. eexists; split; reflexivity. Qed.

(** get_cell_neighbours for periodic conditions: if the node values of the
    extended mesh are periodic in the node number, then so are the results: cell
    c = j - r has left node c and right node c + 1, also for the ghost cells.
    Otherwise the two outermost entries are nan (None). *)
Theorem C18_cell_neighbours {W : Type} :
  forall (b : bconds W) (n : nat) (gl gr : Z -> W),
  let r := bc_number b in
  let node k := (Z.of_nat k - (Z.of_nat r - 1))%Z in
  (1 <= r <= n)%nat ->
  (forall z, gl (z + Z.of_nat n)%Z = gl z) -> (forall z, gr (z + Z.of_nat n)%Z = gr z) ->
  bc_periodic b = true ->
  get_cell_neighbours b (tab (n + 2 * r - 1) (fun k => gl (node k))) (tab (n + 2 * r - 1) (fun k => gr (node k))) =
  Ok (tab (n + 2 * r) (fun j => Some (gr (Z.of_nat j - Z.of_nat r)%Z)),
      tab (n + 2 * r) (fun j => Some (gl (Z.of_nat j - Z.of_nat r + 1)%Z))).
Proof.
  intros b n gl gr r node Hr Pl Pr Hp. unfold get_cell_neighbours. rewrite Hp. fold r.
  replace (-2 * Z.of_nat r)%Z with (- Z.of_nat (2 * r - 1) - 1)%Z by lia.
  rewrite (pyget_neg _ (2 * r - 1) (gr 0%Z)) by (rewrite tab_length; lia).
  replace (2 * Z.of_nat r - 1)%Z with (Z.of_nat (2 * r - 1)) by lia. cbn [bind].
  rewrite (pyget_nonneg _ (2 * r - 1) (gl 0%Z)) by (rewrite tab_length; lia).
  rewrite !tab_length, !nth_tab by lia. cbn [bind]. f_equal. f_equal.
  - destruct (n + 2 * r)%nat as [|k] eqn:E; [lia|]. rewrite tab_S. cbn [map]. f_equal.
    + f_equal. unfold node. rewrite <- (Pr (Z.of_nat 0 - Z.of_nat r)%Z). f_equal. lia.
    + rewrite map_tab. replace (S k - 1)%nat with k by lia. apply tab_ext. intros i Hi.
      unfold node. do 2 f_equal. lia.
  - destruct (n + 2 * r)%nat as [|k] eqn:E; [lia|]. rewrite tab_snoc, map_app, map_tab.
    replace (S k - 1)%nat with k by lia. f_equal.
    + apply tab_ext. intros i Hi. unfold node. do 2 f_equal. lia.
    + cbn [map]. do 2 f_equal. unfold node.
      replace (Z.of_nat k - Z.of_nat r + 1)%Z
        with (Z.of_nat (2 * r - 1) - (Z.of_nat r - 1) + Z.of_nat n)%Z by lia.
      symmetry. apply Pl.
Qed.
Print Assumptions C18_cell_neighbours.
Theorem C18_cell_neighbours_not_periodic {W : Type} : forall (b : bconds W) nl nr,
  bc_periodic b = false ->
  get_cell_neighbours b nl nr = Ok (None :: map Some nr, map Some nl ++ [None]).
Proof. intros b nl nr H. unfold get_cell_neighbours. rewrite H. reflexivity. Qed.
Example C18_ex_cells : exists b, get_boundary_conditions None ["periodic"%string] 1 None None = Ok b /\
  get_cell_neighbours b [10; 11; 12; 10]%nat [20; 21; 22; 20]%nat =
  Ok (map Some [22; 20; 21; 22; 20], map Some [10; 11; 12; 10; 11])%nat.
Proof. eexists; split; reflexivity. Qed.

(** C19 *)
Theorem C19_boundary_names_validated {W : Type} (d : W) :
  forall wall conds r il ir nl nr, (1 <= r)%nat -> side_names conds nl nr ->
  ((exists b : bconds W, get_boundary_conditions wall conds r il ir = Ok b) <->
   (exists cl, names_cond wall nl il cl) /\ (exists cr, names_cond wall nr ir cr)) /\
  (forall e, get_boundary_conditions (W := W) wall conds r il ir = Err e -> e = ValueError).
Proof.
  intros wall conds r il ir nl nr Hr S. split.
  - apply (get_bc_ok_iff d); auto.
  - intros e. apply get_bc_err. intros ->. exact S.
Qed.
Print Assumptions C19_boundary_names_validated.
Theorem C19_no_condition : forall W wall r il ir,
  get_boundary_conditions (W := W) wall [] r il ir = Err IndexError.
Proof. reflexivity. Qed.

(** an inflow boundary evaluated without a time raises AssertionError *)
Theorem C19_inflow_needs_time {W : Type} (d : W) :
  forall wall conds r il ir (b : bconds W) v nl nr cl cr m,
  side_names conds nl nr -> names_cond wall nl il cl -> names_cond wall nr ir cr ->
  get_boundary_conditions wall conds r il ir = Ok b ->
  (1 <= r)%nat -> (r <= List.length v)%nat ->
  (exists h, cl = Inflow h \/ cr = Inflow h) ->
  get_node_neighbours b v m None = Err AssertionError.
Proof.
  intros wall conds r il ir b v nl nr cl cr m S Nl Nr B Hr Hv [h Hh].
  unfold get_node_neighbours. rewrite (extended_needs_time d wall conds r il ir b v nl nr cl cr h); eauto.
Qed.
Print Assumptions C19_inflow_needs_time.
Example C19_ex : get_boundary_conditions (W := R) None ["wall"%string] 1 None None = Err ValueError /\
  get_boundary_conditions (W := R) None ["outflow"; "inflow"]%string 1 (Some (fun t => t)) None = Err ValueError /\
  exists b, get_boundary_conditions (W := R) None ["inflow"; "outflow"]%string 1 (Some (fun t => t)) None = Ok b /\
    get_node_neighbours b [1; 2] 1 None = Err AssertionError.
Proof. repeat split. eexists; split; reflexivity. Qed.

(** C52: a wall should behave like the mirrored flow: ghost cell -1-i holds cell i
    with reversed discharge. This holds for the cells next to the wall ... *)
Definition sw_neg (w : R * R) : R * R := (fst w, - snd w).
Theorem C52_wall_mirrors_edge_cells_partial :
  forall (v : list (R * R)) time d b, v <> [] ->
  get_boundary_conditions (Some sw_neg) ["wall"%string] 1 None None = Ok b ->
  extended b v time = Ok (sw_neg (nth 0 v d) :: v ++ [sw_neg (nth (List.length v - 1) v d)]).
Proof.
  intros v time d b Hv B. inversion B; subst; clear B. unfold extended. cbn [bc_left bc_right mapM ghost_value].
  assert (0 < List.length v)%nat by (destruct v; [congruence|simpl; lia]).
  rewrite (pyget_0 v d), (pyget_m1 v d) by auto. reflexivity.
Qed.
Print Assumptions C52_wall_mirrors_edge_cells_partial.
(** ... but not for larger radius: the second ghost cell repeats the first one. *)
Theorem C52_wall_second_ghost_refuted : exists (v : list (R * R)) b e,
  get_boundary_conditions (Some sw_neg) ["wall"%string] 2 None None = Ok b /\
  extended b v None = Ok e /\ nth 0 e (0, 0) <> sw_neg (nth 1 v (0, 0)).
Proof.
  exists [(1, 0); (2, 0); (3, 0)]. eexists. eexists. split; [reflexivity|]. split; [reflexivity|].
  simpl. unfold sw_neg. simpl. intro E. inversion E. lra.
Qed.
Print Assumptions C52_wall_second_ghost_refuted.
