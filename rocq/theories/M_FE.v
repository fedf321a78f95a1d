(** Model of finite_element/: index_mapping.py, space.py, system.py, mass.py, lumped_mass.py, discrete_gradient.py,
    flux_gradient.py, discrete_l2_product.py, flux_approximation.py, artificial_diffusion.py, ode_solver.py and
    scalar/solver/cg.py, cg_low.py, mcl.py. Definitions only.

    A degree of freedom (dof) vector is a list of reals, a (sparse) matrix a function of row and column. Polynomials
    (numpy.poly1d) are coefficient lists, lowest degree first, with the operations padd, pscal, pmul, pderiv. *)
From Coq Require Import Reals List Arith Bool ZArith String.
From Verif Require Import Prelude M_Mesh M_Flux M_Boundary M_Neighbours M_Quadrature S_Poly L_Poly M_Misc.
Import ListNotations.
Open Scope R_scope.

(** * index_mapping.py *)
(** GlobalIndexMapping L6-54: the mesh size, the degree, the flag *)
Record gindex := { gi_cells : nat; gi_degree : nat; gi_periodic : bool }.
(** __init__ L15-21; a mesh without cells has last index -1 *)
Definition new_gindex (m : mesh) (degree : nat) (periodic : bool) : result gindex :=
  if Nat.ltb 0 degree then Ok {| gi_cells := m_len m; gi_degree := degree; gi_periodic := periodic |} else Err AssertionError.
(** dimension L39-42 *)
Definition gi_dimension (g : gindex) : nat :=
  let nodes := (gi_degree g * gi_cells g)%nat in if gi_periodic g then nodes else (nodes + 1)%nat.
(** __call__ L44-54: the assertion, then the number *)
Definition gi_number (g : gindex) (c a : nat) : nat :=
  if Nat.eqb (S c) (gi_cells g) && Nat.eqb (a + 1) (gi_degree g + 1) && gi_periodic g then 0%nat
  else (c * gi_degree g + a)%nat.
Definition gi_call (g : gindex) (c a : nat) : result nat :=
  if Nat.leb (a + 1) (gi_degree g + 1) then Ok (gi_number g c a) else Err AssertionError.
(** NeighbourIndicesMapping._build_neighbours L69-80 *)
Definition fe_neighbours (g : gindex) : list (list Z) :=
  fold_left (fun rows c =>
  fold_left (fun rows a =>
  fold_left (fun rows b =>
    update_nth (gi_number g c a) (set_add (Z.of_nat (gi_number g c b))) rows)
    (seq 0 (gi_degree g + 1)) rows) (seq 0 (gi_degree g + 1)) rows) (seq 0 (gi_cells g))
  (repeat [] (gi_dimension g)).

(** * space.py *)
(** LocalLagrangeBasis._build_nodes L49-51 *)
Definition local_nodes (p : nat) : list R := tab (S p) (fun i => INR i / INR p).
(** _build_unit_vector L68-72 *)
Definition unit_vector (n i : nat) : list R := tab n (fun j => if Nat.eqb j i then 1 else 0).
(** scipy.interpolate.lagrange(x, w): the sum over j of w_j times the product over k <> j of (X - x_k)/(x_j - x_k) *)
Definition lagrange_factor (x : list R) (j k : nat) : list R :=
  if Nat.eqb k j then [1] else pscal (/ (nth j x 0 - nth k x 0)) [- nth k x 0; 1].
Definition lagrange (x w : list R) : list R :=
  fold_left (fun p j => padd p (fold_left (fun pt k => pmul pt (lagrange_factor x j k)) (seq 0 (List.length x)) [nth j w 0]))
    (seq 0 (List.length x)) [].
(** _create_local_finite_element L58-66: the polynomial and its derivative *)
Definition basis_poly (p a : nat) : list R := lagrange (local_nodes p) (unit_vector (S p) a).
Definition basis_value (p a : nat) (x : R) : R := peval (basis_poly p a) x.
Definition basis_derivative (p a : nat) (x : R) : R := peval (pderiv (basis_poly p a)) x.

(** LagrangeSpace L84-141: mesh and degree; the numbering is periodic *)
Record fespace := { fs_mesh : mesh; fs_degree : nat; fs_index : gindex }.
Definition new_fespace (m : mesh) (p : nat) : result fespace :=
  bind (new_gindex m p true) (fun g => Ok {| fs_mesh := m; fs_degree := p; fs_index := g |}).
(** dimension L121-123 *)
Definition fs_dimension (s : fespace) : nat := (m_len (fs_mesh s) * fs_degree s)%nat.
Definition fs_number (s : fespace) (c a : nat) : nat := gi_number (fs_index s) c a.
Definition fs_cell (s : fespace) (c : nat) : interval := nth c (m_cells (fs_mesh s)) {| ia := 0; ib := 0 |}.
Definition cells_of (s : fespace) : list nat := seq 0 (m_len (fs_mesh s)).
Definition locals_of (s : fespace) : list nat := seq 0 (fs_degree s + 1).
(** _build_basis_nodes, _adjust_basis_nodes L99-118: [old] is the uninitialised memory of np.empty *)
Definition set_at {A} (v : nat -> A) (i : nat) (x : A) : nat -> A := fun k => if Nat.eqb k i then x else v k.
Definition basis_nodes (old : nat -> R) (s : fespace) : list R :=
  let filled := fold_left (fun v c => fold_left (fun v a => set_at v (fs_number s c a) (affine (nth a (local_nodes (fs_degree s)) 0) (fs_cell s c)))
    (locals_of s) v) (cells_of s) old in
  tab (fs_dimension s) (set_at filled 0 (ia (m_domain (fs_mesh s)))).
(** LagrangeFiniteElement L144-190 *)
Definition dof (v : list R) (i : nat) : R := nth i v 0.
Definition element (s : fespace) (v : list R) (c : nat) (x : R) : R :=
  fold_left (fun value a => value + dof v (fs_number s c a) * basis_value (fs_degree s) a (affine_inverse x (fs_cell s c))) (locals_of s) 0.
Definition element_derivative (s : fespace) (v : list R) (c : nat) (x : R) : R :=
  affine_inverse_derivative (fs_cell s c) *
  fold_left (fun value a => value + dof v (fs_number s c a) * basis_derivative (fs_degree s) a (affine_inverse x (fs_cell s c))) (locals_of s) 0.
(** FastFiniteElement L229-291: values stored for the local points (set_values, set_derivatives L255-261), looked up by the number of the point *)
Definition fast_basis (p : nat) (points : list R) : list (list R) := tab (S p) (fun a => map (basis_value p a) points).
Definition fast_basis_derivative (p : nat) (points : list R) : list (list R) := tab (S p) (fun a => map (basis_derivative p a) points).
Definition local_dofs (s : fespace) (v : list R) (c : nat) : list R := map (fun a => dof v (fs_number s c a)) (locals_of s).
Definition fast_value (s : fespace) (points : list R) (v : list R) (c q : nat) : R :=
  rsum (map2 Rmult (local_dofs s v c) (map (fun values => nth q values 0) (fast_basis (fs_degree s) points))).
Definition fast_derivative (s : fespace) (points : list R) (v : list R) (c q : nat) : R :=
  affine_inverse_derivative (fs_cell s c) *
  rsum (map2 Rmult (local_dofs s v c) (map (fun values => nth q values 0) (fast_basis_derivative (fs_degree s) points))).
(** get_finite_element_solution L336-350: the initial dofs are the initial data at the basis nodes *)
Definition initial_dofs (old : nat -> R) (s : fespace) (u0 : R -> R) : list R := map u0 (basis_nodes old s).

(** * system.py L20-83: local to global assembly *)
Definition add_at (v : nat -> R) (i : nat) (x : R) : nat -> R := fun k => if Nat.eqb k i then v k + x else v k.
Definition add_at2 (m : mat) (i j : nat) (x : R) : mat := fun k l => if Nat.eqb k i && Nat.eqb l j then m k l + x else m k l.
Definition assemble_vector (s : fespace) (entry : nat -> nat -> R) : list R :=
  tab (fs_dimension s) (fold_left (fun v c => fold_left (fun v a => add_at v (fs_number s c a) (entry c a)) (locals_of s) v) (cells_of s) (fun _ => 0)).
Definition assemble_matrix (s : fespace) (entry : nat -> nat -> nat -> R) : mat :=
  fold_left (fun m c =>
  fold_left (fun m a =>
  fold_left (fun m b => add_at2 m (fs_number s c a) (fs_number s c b) (entry c a b)) (locals_of s) m) (locals_of s) m) (cells_of s) (fun _ _ => 0).

Section Quadrature.
(** np.linalg.eig inside LocalElementQuadrature *)
Context (eig : nat -> (nat -> nat -> R) -> (nat -> R) * (nat -> nat -> R)).
(** mass.py L8-41 *)
Definition mass_entry (s : fespace) (q : quadrature) (c a b : nat) : R :=
  rsum (map2 Rmult (q_weights q) (map (fun x => ilength (fs_cell s c) * basis_value (fs_degree s) a x * basis_value (fs_degree s) b x) (q_nodes q))).
Definition mass_matrix (s : fespace) : result mat :=
  bind (local_quadrature eig (fs_degree s + 1)) (fun q => Ok (assemble_matrix s (mass_entry s q))).
(** lumped_mass.py L7-21: the row sums *)
Definition lumped_mass (s : fespace) : result (list R) :=
  bind (mass_matrix s) (fun m => Ok (tab (fs_dimension s) (fun i => rsum (tab (fs_dimension s) (m i))))).
(** discrete_gradient.py L5-38 *)
Definition gradient_entry (s : fespace) (q : quadrature) (c a b : nat) : R :=
  rsum (map2 Rmult (q_weights q) (map (fun x => basis_value (fs_degree s) a x * basis_derivative (fs_degree s) b x) (q_nodes q))).
Definition discrete_gradient (s : fespace) : result mat :=
  bind (local_quadrature eig (fs_degree s)) (fun q => Ok (assemble_matrix s (gradient_entry s q))).

(** SystemMatrix.dot (core/system.py L96-97) of the assembled matrix *)
Definition mat_dot (n : nat) (m : mat) (v : list R) : list R := tab n (fun i => rsum (tab n (fun j => m i j * dof v j))).
(** artificial_diffusion.py: abs, row sums, setdiag L24-30; L54-63 *)
Definition set_diagonal (n : nat) (v : mat) : mat := fun i j => if Nat.eqb i j then - rsum (tab n (v i)) else v i j.
Definition discrete_upwind (n : nat) (c : mat) : mat := set_diagonal n (fun i j => Rabs (c i j)).
Definition burgers_diffusion (n : nat) (c : mat) (u : list R) : mat :=
  set_diagonal n (fun i j => Rmax (Rabs (c i j * dof u j)) (Rabs (c j i * dof u i))).

(** the two problems; flux L118-139 of flux_gradient.py and flux_approximation.py L35-37 *)
Inductive problem := Advection | Burgers.
Definition flux_of (pr : problem) (u : R) : R := match pr with Advection => u | Burgers => 1 / 2 * u ^ 2 end.
(** build_artificial_diffusion L66-73 *)
Definition diffusion (pr : problem) (n : nat) (c : mat) (u : list R) : mat :=
  match pr with Advection => discrete_upwind n c | Burgers => burgers_diffusion n c u end.
(** flux_gradient.py: AdvectionFluxGradient L73-90 and ApproximatedFluxGradient L93-116 (build_flux_gradient_approximation L128-135) *)
Definition flux_gradient_approximation (pr : problem) (n : nat) (c : mat) (u : list R) : list R :=
  match pr with
  | Advection => map Ropp (mat_dot n c u)
  | Burgers => map Ropp (mat_dot n c (map (flux_of Burgers) u))
  end.
(** FluxGradient L11-70 with discrete_l2_product.py L52-77: quadrature with 2**p nodes; the vector of (f(u_h), phi_i') *)
Definition flux_gradient_entry (s : fespace) (q : quadrature) (f : R -> R) (u : list R) (c a : nat) : R :=
  rsum (map2 Rmult (q_weights q) (tab (List.length (q_nodes q)) (fun k =>
    f (fast_value s (q_nodes q) u c k) * nth k (nth a (fast_basis_derivative (fs_degree s) (q_nodes q)) []) 0))).
Definition flux_gradient (s : fespace) (f : R -> R) (u : list R) : result (list R) :=
  bind (local_quadrature eig (Nat.pow 2 (fs_degree s))) (fun q => Ok (assemble_vector s (flux_gradient_entry s q f u))).
(** build_exact_flux_gradient L118-125 and build_flux_gradient L138-144 *)
Definition build_flux_gradient (pr : problem) (s : fespace) (exact : bool) (u : list R) : result (list R) :=
  match pr, exact with
  | Burgers, true => flux_gradient s (flux_of Burgers) u
  | _, _ => bind (discrete_gradient s) (fun c => Ok (flux_gradient_approximation pr (fs_dimension s) c u))
  end.
(** discrete_l2_product.py L11-49, L80-101 (BasisL2Product): [left] gives the values at the quadrature nodes *)
Definition l2_product_entry (s : fespace) (q : quadrature) (left : nat -> nat -> R) (c a : nat) : R :=
  rsum (map2 Rmult (q_weights q) (tab (List.length (q_nodes q)) (fun k =>
    ilength (fs_cell s c) * left c k * nth k (nth a (fast_basis (fs_degree s) (q_nodes q)) []) 0))).
Definition l2_product (s : fespace) (degree : nat) (left : nat -> nat -> R) : result (list R) :=
  bind (local_quadrature eig degree) (fun q => Ok (assemble_vector s (l2_product_entry s q left))).

(** * scalar/solver *)
(** cg.py CGRightHandSide L23-32: [solver m b] is spsolve(m, b) *)
Definition cg_rhs (solver : mat -> list R -> list R) (pr : problem) (s : fespace) (exact : bool) (u : list R) : result (list R) :=
  bind (mass_matrix s) (fun m => bind (build_flux_gradient pr s exact u) (fun a => Ok (solver m a))).

(** cg_low.py LowOrderCGRightHandSide L48-64; a zero mass (nan in numpy) is an error value *)
Definition low_rhs (pr : problem) (n : nat) (mass : list R) (c : mat) (u : list R) : result (list R) :=
  let d := mat_dot n (diffusion pr n c u) u in
  let a := flux_gradient_approximation pr n c u in
  mapM (fun i => rdiv (nth i d 0 + nth i a 0) (nth i mass 0)) (seq 0 n).
Definition cg_low_rhs (pr : problem) (s : fespace) (u : list R) : result (list R) :=
  bind (lumped_mass s) (fun mass => bind (discrete_gradient s) (fun c => low_rhs pr (fs_dimension s) mass c u)).
(** cg_low.py OptimalTimeStep L23-29. [None] is numpy's inf, the quotient of a positive mass and zero; 0/0 (nan) and a
    negative mass over zero (-inf) are error values. *)
Definition step_quotient (m d : R) : result (option R) :=
  if Reqb d 0 then if Rltb 0 m then Ok None else Err ZeroDivisionError else Ok (Some (m / d)).
Definition step_min (x y : option R) : option R :=
  match x, y with None, _ => y | _, None => x | Some a, Some b => Some (Rmin a b) end.
Definition fe_time_step (pr : problem) (s : fespace) (u : list R) : result (option R) :=
  bind (lumped_mass s) (fun mass => bind (discrete_gradient s) (fun c =>
  let n := fs_dimension s in let d := diffusion pr n c u in
  bind (mapM (fun i => step_quotient (nth i mass 0) (2 * Rabs (d i i))) (seq 0 n)) (fun l => Ok (fold_right step_min None l)))).

(** mcl.py MCLRightHandSide.__call__ L61-99: itertools.combinations(range(p+1), 2) *)
Definition combinations (n : nat) : list (nat * nat) := flat_map (fun a => map (fun b => (a, b)) (seq (S a) (n - S a))) (seq 0 n).
Record pair_data := { pd_m : R; pd_d : R; pd_c : R; pd_ui : R; pd_uj : R; pd_fi : R; pd_fj : R; pd_ri : R; pd_rj : R;
                      pd_maxi : R; pd_maxj : R; pd_mini : R; pd_minj : R }.
(** L89-95 *)
Definition limited_flux (x : pair_data) : R :=
  let fij := pd_m x * (pd_ri x - pd_rj x) + pd_d x * (pd_ui x - pd_uj x) in
  let wij := pd_d x * (pd_uj x + pd_ui x) + (pd_fi x - pd_fj x) * pd_c x in
  let fmin := Rmax (2 * pd_d x * pd_mini x - wij) (wij - 2 * pd_d x * pd_maxj x) in
  let fmax := Rmin (2 * pd_d x * pd_maxi x - wij) (wij - 2 * pd_d x * pd_minj x) in
  Rmax fmin (Rmin fmax fij).
Definition mcl_corrections (s : fespace) (fstar : nat -> nat -> R) : nat -> R :=
  fold_left (fun v e =>
  fold_left (fun v (ab : nat * nat) =>
    let i := fs_number s e (fst ab) in let j := fs_number s e (snd ab) in
    let v' := add_at v i (fstar i j) in add_at v' j (- fstar i j)) (combinations (fs_degree s + 1)) v) (cells_of s) (fun _ => 0).
Definition mcl_rhs (pr : problem) (s : fespace) (u : list R) : result (list R) :=
  bind (lumped_mass s) (fun mass =>
  bind (mass_matrix s) (fun m =>
  bind (discrete_gradient s) (fun c =>
  let n := fs_dimension s in
  let d := diffusion pr n c u in
  bind (low_rhs pr n mass c u) (fun low =>
  let array := neighbours_array (fe_neighbours (fs_index s)) in
  bind (local_maximum array u) (fun maxs =>
  bind (local_minimum array u) (fun mins =>
  let fstar := fun i j => limited_flux {| pd_m := m i j; pd_d := d i j; pd_c := c i j; pd_ui := dof u i; pd_uj := dof u j;
    pd_fi := flux_of pr (dof u i); pd_fj := flux_of pr (dof u j); pd_ri := dof low i; pd_rj := dof low j;
    pd_maxi := dof maxs i; pd_maxj := dof maxs j; pd_mini := dof mins i; pd_minj := dof mins j |} in
  let corr := mcl_corrections s fstar in
  mapM (fun i => bind (rdiv (corr i) (nth i mass 0)) (fun x => Ok (dof low i + x))) (seq 0 n))))))).
End Quadrature.

(** * ode_solver.py L8-22: names of the time integrators by degree *)
Inductive ode_name := UseHeun | UseSSP3 | UseRK8.
Definition optimal_ode_solver (degree : nat) : result ode_name :=
  match degree with
  | 1 => Ok UseHeun | 2 => Ok UseSSP3 | 3 | 4 | 5 | 6 | 7 => Ok UseRK8
  | _ => Err KeyError
  end%nat.

(** * flux_approximation.py L6-32. Arrays live in memory cells; [fa_last] is the array object compared with, here the
    number of a cell; before the first call it is an array with one uninitialised number. [fa_value] is the stored result. *)
Record flux_cache := { fa_last : option nat; fa_garbage : R; fa_value : option (list R) }.
Definition new_flux_cache (garbage : R) : flux_cache := {| fa_last := None; fa_garbage := garbage; fa_value := None |}.
(** (dof_vector != last).any() for arrays of the same length, or for the array with one number, which is broadcast *)
Definition any_different (u v : list R) : bool := existsb (fun b => negb b) (map2 Reqb u v).
Definition differs (memory : nat -> list R) (s : flux_cache) (u : list R) : bool :=
  match fa_last s with
  | None => any_different u (repeat (fa_garbage s) (List.length u))
  | Some k => any_different u (memory k)
  end.
Definition flux_cache_call (f : R -> R) (memory : nat -> list R) (s : flux_cache) (k : nat) : flux_cache * result (list R) :=
  if differs memory s (memory k)
  then let v := map f (memory k) in ({| fa_last := Some k; fa_garbage := fa_garbage s; fa_value := Some v |}, Ok v)
  else (s, match fa_value s with Some v => Ok v | None => Err AttributeError end).
