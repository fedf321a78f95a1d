(** Model of command/generate_data.py and of ApproximatedSubgridFlux
    (finite_volume/shallow_water/solver/reduced_model.py L151-167). Definitions
    only. The neural network is the parameter [predict]; pandas' formatting of
    numbers is not modelled, a csv file is its header line and its rows. *)
From Coq Require Import Reals List ZArith Arith String.
From Verif Require Import Prelude M_Boundary M_Flux M_Coarsener M_Solution.
Import ListNotations.
Open Scope R_scope.
Notation length := List.length.

(** python slice l[a:b] *)
Definition pyindex (n : nat) (z : Z) : nat :=
  if (z <? 0)%Z then Z.to_nat (Z.of_nat n + z) else Nat.min (Z.to_nat z) n.
Definition pyslice {A} (l : list A) (a b : Z) : list A :=
  slice l (pyindex (length l) a) (pyindex (length l) b).

Section Data.
Context {W : Type} `{CellOps W}.

(** DiscreteSolutionWithInputData.__init__ L34-55: the attributes holding indices *)
Record window := { w_degree : nat; w_cl : Z; w_cr : Z; w_fl : Z; w_fr : Z }.
Definition new_window (node radius degree fine_radius : nat) : window :=
  let n := (Z.of_nat node * Z.of_nat degree)%Z in
  let r := (Z.of_nat radius * Z.of_nat degree)%Z in
  {| w_degree := degree; w_cl := n - r; w_cr := n + r;
     w_fl := n - Z.of_nat fine_radius; w_fr := n + Z.of_nat fine_radius |}.
(** fine_node_neighbours, coarse_node_neighbours L65-74 *)
Definition fine_window (w : window) (v : list W) : list W := pyslice v (w_fl w) (w_fr w).
Definition coarse_window (w : window) (v : list W) : result (list W) :=
  coarsen (w_degree w) (pyslice v (w_cl w) (w_cr w)).

Record idata := { id_sol : dsol (list W); id_times : list R; id_coarse : list (list W); id_fine : list (list W) }.
(** L53-55 *)
Definition id_new (w : window) (s : dsol (list W)) : result idata :=
  bind (coarse_window w (d_value s)) (fun c =>
  Ok {| id_sol := s; id_times := [d_time s]; id_coarse := [c]; id_fine := [fine_window w (d_value s)] |}).
(** update L96-108; np.append of a window of another length is a ValueError, it cannot
    happen as long as all values have one length *)
Definition id_update (finite : list W -> bool) (w : window) (dt : R) (v : list W) (h : idata) : idata * option exn :=
  let '(s', e) := d_update finite dt v (id_sol h) in
  match e with
  | Some _ => ({| id_sol := s'; id_times := id_times h; id_coarse := id_coarse h; id_fine := id_fine h |}, e)
  | None =>
    match coarse_window w (d_value s') with
    | Ok c => ({| id_sol := s'; id_times := id_times h ++ [d_time s']; id_coarse := id_coarse h ++ [c];
                  id_fine := id_fine h ++ [fine_window w (d_value s')] |}, None)
    | Err e' => ({| id_sol := s'; id_times := id_times h ++ [d_time s']; id_coarse := id_coarse h;
                    id_fine := id_fine h |}, Some e')
    end
  end.
(** set_value L110-120 *)
Definition id_set_value (finite : list W -> bool) (w : window) (v : list W) (t : R) (h : idata) : idata * option exn :=
  let h' := {| id_sol := id_sol h;
               id_times := filter (fun t' => Rltb t' t) (id_times h);
               id_coarse := mask_values t (id_times h) (id_coarse h);
               id_fine := mask_values t (id_times h) (id_fine h) |} in
  id_update finite w (t - d_time (id_sol h')) v h'.
Definition id_step (finite : list W -> bool) (w : window) (h : idata) (o : hop (list W)) : idata :=
  match o with
  | Update dt v => fst (id_update finite w dt v h)
  | SetValue v t => fst (id_set_value finite w v t h)
  end.

(** np.moveaxis(history, 1, 0) as a tuple: one array (over time) per position *)
Definition moveaxis (h : list (list W)) : list (list W) :=
  tab (length (hd [] h)) (fun i => map (fun row => nth i row czero) h).
(** SubgridFluxDataBuilder.__call__ L165-174, after the solver has run *)
Definition subgrid_data (fine coarse : nflux W) (h : idata) : result (list (list W) * list W) :=
  let fine_values := moveaxis (id_fine h) in
  let coarse_values := moveaxis (id_coarse h) in
  bind (nf_call fine fine_values) (fun p =>
  bind (nf_call (arbitrary_input coarse) coarse_values) (fun q =>
  Ok (coarse_values, map2 csub (snd p) (snd q)))).
(** ApproximatedSubgridFlux L151-167 *)
Definition subgrid_flux (dim : nat) (predict : list (list W) -> list W) : nflux W :=
  {| nf_dim := dim; nf_call := fun a => let g := predict a in Ok (vneg g, g) |}.
End Data.

(** SubgridFluxDataBuilder.__init__ L135-163: the parameters [x or default] (0 and None
    are false); defaults INPUT_RADIUS and COARSENING_DEGREE are arguments *)
Definition or_default (x : option nat) (d : nat) : nat :=
  match x with Some (S n) => S n | _ => d end.
Definition builder_parameters (radius node : option nat) (default_radius : nat) : result (nat * nat) :=
  let r := or_default radius default_radius in
  let n := or_default node r in
  if Nat.leb r n then Ok (r, n) else Err AssertionError.

(** ** csv files *)
Section Csv.
Context {Row : Type}.
Inductive line := Header | Line (r : Row).
(** a file is absent or has some lines *)
Definition file := option (list line).
(** DataFrame.to_csv(path, mode, header), used in _save_data L375-384 *)
Definition to_csv (overwrite : bool) (rows : list Row) (f : file) : file :=
  let new := (if overwrite then [Header] else []) ++ map Line rows in
  if overwrite then Some new
  else Some (match f with Some old => old | None => [] end ++ new).
End Csv.
Arguments file Row : clear implicits.

(** GenerateData.execute L342-362. [build i] is what the i-th call of _build_data
    returns: the rows of the subgrid flux data and of the benchmark data, or an
    exception of the solver. The two files are written one after the other
    (_save_data); a process that is killed between two writes leaves the files of that
    moment, which is why the execution is a list of states. *)
Section Execute.
Context {R1 R2 : Type}.
Definition files := (file R1 * file R2)%type.
(* one call of _save_data: the states after each of the two writes *)
Definition save_data (overwrite : bool) (d : list R1 * list R2) (fs : files) : list files :=
  let f1 := to_csv overwrite (fst d) (fst fs) in
  [(f1, snd fs); (f1, to_csv overwrite (snd d) (snd fs))].
(* the loop L347-359: all states passed through (newest last) and the exception that ended it *)
Fixpoint save_loop (build : nat -> result (list R1 * list R2)) (overwrite : bool) (n i : nat) (fs : files)
  : list files * option exn :=
  match n with
  | O => ([fs], None)
  | S n' =>
    match build i with
    | Err e => ([fs], Some e)
    | Ok d =>
      let steps := save_data (if Nat.eqb i 0 then overwrite else false) d fs in
      let '(rest, e) := save_loop build overwrite n' (S i) (last steps fs) in
      (fs :: removelast steps ++ rest, e)
    end
  end.
(* L343-345 and L347: one solution is handled without the loop *)
Definition generate_execute (build : nat -> result (list R1 * list R2)) (number : nat) (overwrite : bool) (fs : files)
  : list files * option exn :=
  if Nat.eqb number 1 then
    match build 0%nat with
    | Err e => ([fs], Some e)
    | Ok d => (fs :: save_data overwrite d fs, None)
    end
  else save_loop build overwrite number 0 fs.
End Execute.
