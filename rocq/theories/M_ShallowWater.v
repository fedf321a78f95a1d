(** Model of finite_volume/shallow_water/core.py, numerical_flux.py and of the
    solvers low_order.py, mcl.py, energy_stable.py, central.py, lax_friedrichs.py
    and lax_wendroff.py below finite_volume/shallow_water/solver. Definitions only.

    A state is a pair (height, discharge). Simplification: where numpy would
    compute sqrt of a negative number (nan) the model has 0; negative heights are
    rejected by Flux before, all theorems assume a positive gravitational
    acceleration. *)
From Coq Require Import Reals List ZArith Arith String.
From Verif Require Import Prelude M_Boundary M_Flux M_Neighbours M_Scalar.
Import ListNotations.
Open Scope R_scope.
Notation length := List.length.

(** defaults.py: GRAVITATIONAL_ACCELERATION, EPSILON *)
Definition default_gravity : R := 9812 / 1000.
Definition epsilon : R := / 10 ^ 15.
(** [x or default] for an optional float: None and 0.0 are false *)
Definition py_or (x : option R) (d : R) : R :=
  match x with Some y => if Reqb y 0 then d else y | None => d end.

(** ** core.py *)
Notation state := (R * R)%type.
(** value[1] *= -1 of the reflecting cells, shallow_water/boundary.py L6-19 *)
Definition reflect (u : state) : state := (fst u, snd u * -1).
(** nullify L10-16, one row; masks are multiplied as 0/1 *)
Definition nullify_at (eps : R) (u : state) : state :=
  let hn := if Rltb eps (fst u) then 1 else 0 in
  let qn := if Rltb eps (Rabs (snd u)) then 1 else 0 in
  (fst u * hn * 1, snd u * hn * qn).
(** get_average L19-20 *)
Definition average (a b : R) : R := (a + b) / 2.
(** get_velocity L43-47. The denominator is at least eps^2; eps is EPSILON in every call *)
Definition velocity_eps (eps : R) (u : state) : R :=
  (2 * fst u * snd u) / (fst u ^ 2 + Rmax (fst u) eps ^ 2).
Definition velocity (u : state) : R := velocity_eps epsilon u.
(** np.sign *)
Definition rsign (x : R) : R := if Rltb 0 x then 1 else if Rltb x 0 then -1 else 0.
(** get_height_positivity_fix L54-62 *)
Definition positivity_fix (bar step : R) : R := Rmin (Rabs step / 2) bar * rsign step.
(** is_constant L65-66 *)
Definition is_constant (b : list R) : result bool :=
  match b with
  | [] => Err IndexError
  | b0 :: _ => Ok (forallb (fun x => Rltb (Rabs (x - b0)) epsilon) b)
  end.

(** Flux.__call__ L98-130, one row. On arrays: mapM. *)
Definition sw_flux_eps (eps g : R) (u : state) : result state :=
  let '(h, q) := u in
  if Rltb h 0 then Err ValueError
  else if Rltb h eps then Ok (0, 0)
  else Ok (q, q ^ 2 / h + g * h ^ 2 / 2).
Definition sw_flux (g : R) (u : state) : result state := sw_flux_eps epsilon g u.
(** Flux(gravitational_acceleration, eps) applied to an array of shape (n, 2) *)
Definition sw_flux_call (gravity : option R) (eps : R) (dofs : list state) : result (list state) :=
  mapM (sw_flux_eps eps (py_or gravity default_gravity)) dofs.
(** FluxJacobian.__call__ L150-177, one row: ((m00, m01), (m10, m11)) *)
Definition sw_jacobian (eps g : R) (u : state) : result (state * state) :=
  let '(h, q) := u in
  if Rltb h 0 then Err ValueError
  else if Rltb h eps then Ok ((0, 1), (0, 0))
  else Ok ((0, 1), (2 * q / h, - (q / h) ^ 2 + g * h)).
(** WaveSpeed L180-228 *)
Definition sw_wave_speed (g : R) (l r : state) : R * R :=
  (Rmin (Rmin (velocity l + - sqrt (g * fst l)) (velocity r + - sqrt (g * fst r))) 0,
   Rmax (Rmax (velocity l + sqrt (g * fst l)) (velocity r + sqrt (g * fst r))) 0).
(** MaximumWaveSpeed L231-261 *)
Definition sw_max_speed (g : R) (l r : state) : R :=
  Rmax (Rabs (velocity l) + sqrt (g * fst l)) (Rabs (velocity r) + sqrt (g * fst r)).
Definition sw_max_wave_speed (g : R) (l r : state) : R * R := (- sw_max_speed g l r, sw_max_speed g l r).
(** Entropy L264-283 *)
Definition sw_entropy (g : R) (u : state) (b : R) : state :=
  (g * (fst u + b) - velocity u ^ 2 / 2, velocity u).
(** Potential L286-298 *)
Definition sw_potential (g : R) (u : state) : R := g / 2 * fst u ^ 2 * velocity u.
(** RiemannSolver L301-336 with the default wave speed; [gravity] is the constructor argument *)
Definition sw_riemann (gravity : option R) : riemann state :=
  let g := py_or gravity default_gravity in
  {| rs_flux := sw_flux g; rs_speed := sw_max_wave_speed g |}.

(** ** numerical_flux.py *)
(** the argument bathymetry: None, a float, an array *)
Inductive bathymetry := BNone | BFloat (x : R) | BArray (b : list R).
(** np.diff *)
Fixpoint diff (l : list R) : list R :=
  match l with
  | x :: ((y :: _) as l') => (y - x) :: diff l'
  | _ => []
  end.
(** _build_bathymetry L29-45: (_bathymetry, _bathymetry_step) *)
Definition build_bathymetry (b : bathymetry) : result (list R * list R) :=
  match b with
  | BNone | BFloat _ => Ok ([0], [0])
  | BArray l =>
    bind (is_constant l) (fun c =>
    if c then Ok ([0], [0])
    else bind (pyget l 0) (fun first => bind (pyget l (-1)) (fun last =>
         let padded := first :: l ++ [last] in Ok (padded, diff padded))))
  end.
(** numpy broadcasting of a one dimensional array against m entries. (numpy also
    stretches the other array if m = 1; m is at least 2 for nodes of a mesh.) *)
Definition broadcast (m : nat) (l : list R) : result (list R) :=
  if Nat.eqb (length l) m then Ok l
  else match l with [x] => Ok (repeat x m) | _ => Err ValueError end.

(** _get_source_term L53-68: one entry per node *)
Definition source_term (g : R) (vl vr : list state) (step : list R) : result (list state) :=
  bind (broadcast (length vl) step) (fun st =>
  Ok (map2 (fun p d => (0, g / 2 * average (fst (fst p)) (fst (snd p)) * d)) (combine vl vr) st)).
Definition wrapped_call (g : R) (step : list R) (nf : nflux state) (a : list (list state))
  : result (list state * list state) :=
  bind (nf_call nf a) (fun p =>
  bind (get_required_values 2 a) (fun b =>
  match b with
  | [vl; vr] => bind (source_term g vl vr step) (fun src =>
      Ok (map2 csub (fst p) src, map2 csub (snd p) src))
  | _ => Err ValueError     (* unpacking of L59; get_required_values 2 gives two arrays *)
  end)).
(** NumericalFlux.__init__ and __call__ L13-51 *)
Definition with_source (gravity : option R) (b : bathymetry) (nf : nflux state) : result (nflux state) :=
  let g := py_or gravity default_gravity in
  bind (build_bathymetry b) (fun p =>
  Ok {| nf_dim := nf_dim nf; nf_call := wrapped_call g (snd p) nf |}).

(** ** solver/central.py and solver/lax_friedrichs.py: the flux getters. *)
Definition sw_central (gravity : option R) (b : bathymetry) : result (nflux state) :=
  with_source gravity b (central (sw_flux (py_or gravity default_gravity))).
Definition sw_llf (gravity : option R) (b : bathymetry) : result (nflux state) :=
  with_source gravity b (lax_friedrichs (sw_riemann gravity)).

(** ** solver/low_order.py LowOrderFlux L12-112: the attributes and results at one node *)
Record low := {
  lo_s : R;                    (* _wave_speed *)
  lo_h : R; lo_q : R;          (* _height_HLL, _discharge_HLL *)
  lo_fix : R;                  (* _height_positivity_fix *)
  lo_hl : R; lo_hr : R;        (* _modified_height_left/right *)
  lo_ql : R; lo_qr : R;        (* _modified_discharge_left/right *)
  lo_outl : state; lo_outr : state   (* the returned fluxes *)
}.
Definition low_at (gravity : option R) (ul ur : state) (step : R) : result low :=
  let g := py_or gravity default_gravity in
  bind (rs_solve (sw_riemann gravity) ul ur) (fun o =>
  let s := ro_sr o in
  let '(h, q) := ro_state o in
  let fix_ := positivity_fix h step in
  let hl := h + fix_ in
  let hr := h + - fix_ in
  bind (rdiv (g * average (fst ul) (fst ur) * fix_) s) (fun x =>
  let src := - x in
  let v := average (velocity ul) (velocity ur) in
  let ql := q + v * fix_ + src in
  let qr := q + - v * fix_ + src in
  Ok {| lo_s := s; lo_h := h; lo_q := q; lo_fix := fix_; lo_hl := hl; lo_hr := hr; lo_ql := ql; lo_qr := qr;
        lo_outl := cadd (cscal s (cadd (hl, ql) (copp ul))) (copp (ro_fl o));
        lo_outr := cadd (cscal s (cadd (hr, qr) (copp ur))) (ro_fr o) |})).
Definition low_all (gravity : option R) (step : list R) (vl vr : list state) : result (list low) :=
  bind (broadcast (length vl) step) (fun st =>
  mapM (fun p => low_at gravity (fst (fst p)) (snd (fst p)) (snd p)) (combine (combine vl vr) st)).
Definition low_call (gravity : option R) (step : list R) (a : list (list state)) : result (list state * list state) :=
  match a with
  | [vl; vr] => bind (low_all gravity step vl vr) (fun o => Ok (map lo_outl o, map lo_outr o))
  | _ => Err TypeError
  end.
Definition sw_low (gravity : option R) (b : bathymetry) : result (nflux state) :=
  bind (build_bathymetry b) (fun p => Ok {| nf_dim := 2; nf_call := low_call gravity (snd p) |}).

(** ** solver/mcl.py MCLFlux L18-186 *)
(** _replace_nans L106-112 for one array; nan is None *)
Definition replace_nans (x : list (option R)) : result (list (option R)) :=
  bind (match x with
        | None :: x' => bind (pyget x 1) (fun y => Ok (y :: x'))
        | _ => Ok x
        end) (fun x =>
  bind (pyget x (-1)) (fun z =>
  match z with
  | None => bind (pyget x (-2)) (fun y => Ok (removelast x ++ [y]))
  | Some _ => Ok x
  end)).
(** a nan that is left makes the result nan, which the solution rejects later *)
Definition no_nans (x : list (option R)) : result (list R) :=
  mapM (fun o => match o with Some v => Ok v | None => Err ValueError end) x.
(** get_cell_neighbours followed by _replace_nans *)
Definition cell_values {W} (bc : bconds W) (nl nr : list R) : result (list R * list R) :=
  (* only the fields used by get_cell_neighbours matter *)
  bind (get_cell_neighbours {| bc_left := map (fun _ => CopyCell 0) (bc_left bc); bc_right := [];
                               bc_periodic := bc_periodic bc |} nl nr) (fun p =>
  bind (replace_nans (fst p)) (fun l => bind (replace_nans (snd p)) (fun r =>
  bind (no_nans l) (fun l => bind (no_nans r) (fun r => Ok (l, r)))))).
(** core/function.py maximum, minimum L4-15 of four arrays *)
Definition max4 (a b c d : R) : R := Rmax a (Rmax b (Rmax c d)).
Definition min4 (a b c d : R) : R := Rmin a (Rmin b (Rmin c d)).
Fixpoint map4 (f : R -> R -> R -> R -> R) (a b c d : list R) : list R :=
  match a, b, c, d with
  | x :: a', y :: b', z :: c', w :: d' => f x y z w :: map4 f a' b' c' d'
  | _, _, _, _ => []
  end.
Definition vdiv (a b : list R) : result (list R) := mapM (fun p => rdiv (fst p) (snd p)) (combine a b).
(** _get_limited_velocity_fluxes L147-172, at one node *)
Definition vlimit_at (f s lh vb maxl maxr minl minr : R) : R :=
  let fmax := s * Rmin (lh * (maxr - vb)) (lh * (vb - minl)) in
  let fmin := s * Rmax (lh * (minr - vb)) (lh * (vb - maxl)) in
  Rmax fmin (Rmin fmax f).
Fixpoint vlimit_arrays (f s lh vb : list R) (vmax vmin : list R) : list R :=
  match f, s, lh, vb, vmax, vmin with
  | f0 :: f', s0 :: s', h0 :: h', v0 :: v', m0 :: ((m1 :: _) as vmax'), n0 :: ((n1 :: _) as vmin') =>
      vlimit_at f0 s0 h0 v0 m0 m1 n0 n1 :: vlimit_arrays f' s' h' v' vmax' vmin'
  | _, _, _, _, _, _ => []
  end.
(** everything computed by a call after the low order part [o] and the high order
    fluxes [hr] (the right ones; the left ones are not used) are known:
    (limited height flux, limited height, velocity bar state, limited discharge flux) *)
Record mcl_parts := { mp_fh : list R; mp_lh : list R; mp_vb : list R; mp_fq : list R }.
Definition sw_mcl_limit {W} (bc : bconds W) (o : list low) (high_r : list state) : result mcl_parts :=
  let anti := map2 (fun f l => csub f (lo_outr l)) high_r o in        (* L69 *)
  bind (cell_values bc (map lo_hl o) (map lo_hr o)) (fun p =>         (* _get_height_bounds L97-104 *)
  let hmax := map2 Rmax (fst p) (snd p) in
  let hmin := map2 Rmin (fst p) (snd p) in
  let fh := snd (limit (map fst anti) (map lo_s o) (map lo_hl o) (map lo_hr o) hmax hmin) in
  bind (vdiv fh (map lo_s o)) (fun d =>
  let lh := map2 Rplus (map lo_h o) d in                              (* L114-118 *)
  bind (vdiv (map (fun l => lo_ql l + lo_qr l) o) (map (fun l => lo_hl l + lo_hr l) o)) (fun vb => (* L134-137 *)
  let corr := map2 (fun l x => lo_s l * (lo_qr l + - x)) o (map2 Rmult lh vb) in
  let fv := map2 Rplus (map snd anti) corr in                         (* L139-145 *)
  bind (cell_values bc (map lo_h o) (map lo_h o)) (fun ph =>
  bind (cell_values bc vb vb) (fun pv =>
  bind (cell_values bc (map lo_ql o) (map lo_qr o)) (fun pq =>
  bind (vdiv (fst pq) (fst ph)) (fun wl =>
  bind (vdiv (snd pq) (snd ph)) (fun wr =>
  let vmax := map4 max4 (fst pv) (snd pv) wl wr in
  let vmin := map4 min4 (fst pv) (snd pv) wl wr in
  let lfv := vlimit_arrays fv (map lo_s o) lh vb vmax vmin in
  let fq := map2 (fun x c => x + - c) lfv corr in                     (* L127-130 *)
  Ok {| mp_fh := fh; mp_lh := lh; mp_vb := vb; mp_fq := fq |})))))))).
Definition sw_mcl_call {W} (gravity : option R) (step : list R) (bc : bconds W) (high : nflux state)
  (a : list (list state)) : result (list state * list state) :=
  bind (get_required_values 2 a) (fun b =>
  match b with
  | [vl; vr] =>
    bind (low_all gravity step vl vr) (fun o =>
    bind (nf_call high a) (fun p =>
    bind (sw_mcl_limit bc o (snd p)) (fun m =>
    let lim := combine (mp_fh m) (mp_fq m) in
    Ok (map2 cadd (map lo_outl o) (map copp lim), map2 cadd (map lo_outr o) lim))))
  | _ => Err TypeError
  end).
(** MCLFluxGetter L189-216: [conditions], [il], [ir] from the benchmark *)
Definition sw_mcl (gravity : option R) (b : bathymetry) (conditions : list string)
  (il ir : option (R -> state)) (high : nflux state) : result (nflux state) :=
  bind (get_boundary_conditions (Some reflect) conditions 1 il ir) (fun bc =>
  bind (build_bathymetry b) (fun p =>
  Ok {| nf_dim := nf_dim high; nf_call := sw_mcl_call gravity (snd p) bc high |})).

(** ** solver/energy_stable.py *)
(** EnergyStableFlux L12-25 *)
Definition cavg (l r : state) : state := (average (fst l) (fst r), average (snd l) (snd r)).
Definition es_flux (gravity : option R) : nflux state :=
  let g := py_or gravity default_gravity in
  {| nf_dim := 2;
     nf_call := fun a => match a with
       | [vl; vr] => bind (mapM (fun p => sw_flux g (cavg (fst p) (snd p))) (combine vl vr)) (fun f =>
           Ok (vneg f, f))
       | _ => Err TypeError
       end |}.
Definition sw_es (gravity : option R) (b : bathymetry) : result (nflux state) :=
  with_source gravity b (es_flux gravity).
(** 2x2 matrices ((m00, m01), (m10, m11)) *)
Notation mat := (state * state)%type.
Definition mat_mul (a b : mat) : mat :=
  let '((a00, a01), (a10, a11)) := a in let '((b00, b01), (b10, b11)) := b in
  ((a00 * b00 + a01 * b10, a00 * b01 + a01 * b11), (a10 * b00 + a11 * b10, a10 * b01 + a11 * b11)).
Definition mat_scal (r : R) (a : mat) : mat := (cscal r (fst a), cscal r (snd a)).
Definition mat_transpose (a : mat) : mat :=
  let '((a00, a01), (a10, a11)) := a in ((a00, a10), (a01, a11)).
Definition mat_vec (a : mat) (x : state) : state :=
  (fst (fst a) * fst x + snd (fst a) * snd x, fst (snd a) * fst x + snd (snd a) * snd x).
(** _get_diffusion_matrix L74-88 with _get_wave_speeds, _get_R, _get_Lambda L90-120, at one node *)
Definition diffusion_matrix (g : R) (l r : state) : result mat :=
  let a := cavg l r in
  let c := sqrt (g * fst a) in
  let wm := velocity a - c in
  let wp := velocity a + c in
  bind (rdiv 1 (sqrt (2 * g))) (fun k =>
  let R_ := mat_scal k ((1, 1), (wm, wp)) in
  let L_ := mat_scal k ((Rabs wm, 0), (0, Rabs wp)) in
  Ok (mat_mul (mat_mul (mat_scal (1 / 2) R_) L_) (mat_transpose R_))).
(** FirstOrderDiffusiveEnergyStableFlux L28-124 at one node with bottom values bl, br and step *)
Definition es1_at (g : R) (l r : state) (bl br step : R) : result (state * state) :=
  bind (sw_flux g (cavg l r)) (fun f =>
  bind (diffusion_matrix g l r) (fun D =>
  let new := csub f (mat_vec D (csub (sw_entropy g r br) (sw_entropy g l bl))) in
  let src := (0, g / 2 * average (fst l) (fst r) * step) in
  Ok (csub (copp new) src, csub new src))).
Definition es1_call (g : R) (bottom step : list R) (a : list (list state)) : result (list state * list state) :=
  match a with
  | [vl; vr] =>
    bind (broadcast (S (length vl)) bottom) (fun b =>
    bind (broadcast (length vl) step) (fun st =>
    bind (mapM (fun p => es1_at g (fst (fst p)) (snd (fst p)) (fst (fst (snd p))) (snd (fst (snd p))) (snd (snd p)))
      (combine (combine vl vr) (combine (combine b (tl b)) st))) (fun o =>
    Ok (map fst o, map snd o))))
  | _ => Err TypeError
  end.
Definition sw_es1 (gravity : option R) (b : bathymetry) : result (nflux state) :=
  bind (build_bathymetry b) (fun p =>
  Ok {| nf_dim := 2; nf_call := es1_call (py_or gravity default_gravity) (fst p) (snd p) |}).

(** ** solver/lax_wendroff.py LaxWendroffFlux L10-40; [dt] is the attribute _time_step
    set by LaxWendroffSolver._update *)
Definition lw_at (gravity : option R) (dt dx : R) (l r : state) : result state :=
  bind (rs_solve (sw_riemann gravity) l r) (fun o =>
  match gravity with
  | None => Err TypeError            (* MaximumWaveSpeed(None) multiplies None, no default *)
  | Some g =>
    bind (rdiv (dt * sw_max_speed g l r) dx) (fun k =>
    Ok (cadd (ro_flux o) (cscal k (csub r l))))
  end).
Definition lw_flux (gravity : option R) (dt dx : R) : nflux state :=
  {| nf_dim := 2;
     nf_call := fun a => match a with
       | [vl; vr] => bind (mapM (fun p => lw_at gravity dt dx (fst p) (snd p)) (combine vl vr)) (fun f =>
           Ok (vneg f, f))
       | _ => Err TypeError
       end |}.
