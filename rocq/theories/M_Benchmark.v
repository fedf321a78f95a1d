(** Model of benchmark/advection.py, benchmark/burgers.py, benchmark/shallow_water.py. Definitions only.
    scipy.optimize.newton is the parameter [newton] (function and start value; its derivative argument only affects how the
    root is found); it may raise. Random numbers are parameters. *)
From Coq Require Import Reals List Arith Bool.
From Verif Require Import Prelude M_Mesh M_Flux M_ShallowWater.
Import ListNotations.
Open Scope R_scope.

(** python's x % y for y > 0, without rounding *)
Definition py_mod (x y : R) : R := x - y * IZR (Int_part (x / y)).

(** * benchmark/advection.py *)
Definition unit_interval : interval := {| ia := 0; ib := 1 |}.
(** AdvectionBenchmark.exact_solution L14-16 *)
Definition advection_exact (u0 : R -> R) (x t : R) : R := u0 (py_mod (x - t) (ilength unit_interval)).
(** L22-30 *)
Definition three_hills (x : R) : R :=
  if Rleb (25 / 1000) x && Rltb x (275 / 1000) then exp (-300 * (2 * x - 3 / 10) ^ 2)
  else if Rleb (35 / 100) x && Rleb x (55 / 100) then 1
  else if Rltb (7 / 10) x && Rltb x (9 / 10) then sqrt (1 - ((x - 8 / 10) / (1 / 10)) ^ 2)
  else 0.
(** L36-42 *)
Definition two_hills (x : R) : R :=
  if Rltb (1 / 2) x && Rltb x (9 / 10) then exp 10 * exp (-1 / (x - 1 / 2)) * exp (1 / (x - 9 / 10))
  else if Rleb (2 / 10) x && Rleb x (4 / 10) then 1
  else 0.
(** L48-52 *)
Definition one_hill (x : R) : R := if Rleb (1 / 10) x && Rleb x (3 / 10) then 1 else 0.
(** L58-59, L65-66 *)
Definition cosine (x : R) : R := cos (2 * PI * (x - 1 / 2)).
Definition gaussian_bell (x : R) : R := exp (-100 * (x - 1 / 2) ^ 2).

(** * benchmark/burgers.py *)
Section Newton.
Context (newton : (R -> R) -> R -> result R).
Record burgers := { b_domain : interval; b_u0 : R -> R; b_du0 : R -> R; b_critical : R; b_end : R }.
(** exact_solution L23-24, the function handed to newton and its derivative *)
Definition burgers_func (u0 : R -> R) (x t u : R) : R := u0 (x - u * t) - u.
Definition burgers_fprime (du0 : R -> R) (x t u : R) : R := - t * du0 (x - u * t) - 1.
(** exact_solution L20-25 with _check_shock_formation L27-31: 1e-15 *)
Definition burgers_exact (b : burgers) (x t : R) : result R :=
  if Rltb (b_critical b + / 10 ^ 15) (b_end b) then Err AttributeError
  else newton (burgers_func (b_u0 b) x t) (b_u0 b x).
(** SchockBenchmark L34-44 *)
Definition shock_benchmark (end_time : R) : burgers :=
  {| b_domain := unit_interval; b_u0 := fun x => sin (2 * PI * x); b_du0 := fun x => 2 * PI * cos (2 * PI * x);
     b_critical := 1 / (2 * PI); b_end := end_time |}.
(** SmoothBenchmark L47-57 *)
Definition smooth_benchmark (end_time : R) : burgers :=
  {| b_domain := {| ia := 0; ib := 2 * PI |}; b_u0 := fun x => sin x + 1 / 2; b_du0 := cos; b_critical := 1; b_end := end_time |}.
(** the default end time L14 *)
Definition burgers_default_end : R := 1 / 2.

(** * benchmark/shallow_water.py *)
(** LakeAtRestBenchmark L57-63 *)
Definition bump (x : R) : R := if Rleb 8 x && Rltb x 12 then (4 - (x - 10) ^ 2) / 20 else 0.
Definition lake_initial (x : R) : state := (2 - bump x, 0).
Definition lake_exact (x t : R) : state := lake_initial x.
(** PerturbatedLakeAtRestBenchmark L74-81 *)
Definition perturbed_lake_initial (x : R) : state :=
  if Rleb (575 / 100) x && Rltb x (625 / 100) then (101 / 100 - bump x, 0) else (1 - bump x, 0).
(** MovingWaterBumpBathymetryBenchmark L120-133 *)
Definition cos_bump (x : R) : R := if Rleb (-1 / 10) x && Rleb x (1 / 10) then (cos (10 * PI * (x + 1)) + 1) / 4 else 0.
Definition moving_func (g K1 K2 x h : R) : R := K1 ^ 2 / (2 * h ^ 2) + g * (h + cos_bump x) - K2.
Definition moving_initial (g K1 K2 x : R) : result state :=
  bind (newton (moving_func g K1 K2 x) (25 / 10)) (fun h => Ok (h, K1)).
(** OscillationNoTopographyBenchmark L152-193: parameters of the initial data; [None] takes the default L9-17 *)
Record oscillation := { h0 : R; Ah : R; ph : R; kh : R; v0 : R; Av : R; pv : R; kv : R }.
Definition if_none (x : option R) (d : R) : R := match x with Some y => y | None => d end.
Definition new_oscillation (h0_ Ah_ ph_ kh_ v0_ Av_ pv_ kv_ : option R) : oscillation :=
  {| h0 := if_none h0_ 2; Ah := if_none Ah_ (1 / 10 * 2); ph := if_none ph_ 0; kh := if_none kh_ 3;
     v0 := if_none v0_ 1; Av := if_none Av_ (1 / 2); pv := if_none pv_ (PI / 2); kv := if_none kv_ 1 |}.
Definition osc_length : R := 100.
(** L198-208 *)
Definition osc_initial (o : oscillation) (x : R) : state :=
  let height := h0 o + Ah o * sin (kh o * 2 * PI * x / osc_length + ph o) in
  let velocity := v0 o + Av o * sin (kv o * 2 * PI * x / osc_length + pv o) in
  (height, height * velocity).
(** RandomOscillationNoTopographyBenchmark L227-255: [x or random]; the random numbers are arguments (uniform and
    integers of the generator), drawn whenever they are needed *)
Record draws := { d_Ah : R; d_ph : R; d_kh : nat; d_v0 : R; d_Av : R; d_pv : R; d_kv : nat }.
Definition random_oscillation (h0_ Ah_ ph_ kh_ v0_ Av_ pv_ kv_ : option R) (d : draws) : oscillation :=
  new_oscillation (Some (py_or h0_ 2)) (Some (py_or Ah_ (d_Ah d))) (Some (py_or ph_ (d_ph d))) (Some (py_or kh_ (INR (d_kh d))))
    (Some (py_or v0_ (d_v0 d))) (Some (py_or Av_ (d_Av d))) (Some (py_or pv_ (d_pv d))) (Some (py_or kv_ (INR (d_kv d)))).

(** DammBreakBenchmark L330-354 *)
Record dam := { dam_g : R; dam_x : R; dam_hl : R; dam_hr : R; dam_cl : R; dam_cr : R; dam_cm : R; dam_hm : R; dam_um : R; dam_v : R }.
Definition dam_func (cl cr x : R) : R :=
  x ^ 6 - 9 * cr ^ 2 * x ^ 4 + 16 * cl * cr ^ 2 * x ^ 3 - cr ^ 2 * (cr ^ 2 + 8 * cl ^ 2) * x ^ 2 + cr ^ 6.
Definition new_dam (h_left h_right x_dam g : R) : result dam :=
  if Rltb h_right h_left then
    let cl := sqrt (g * h_left) in let cr := sqrt (g * h_right) in
    bind (newton (dam_func cl cr) ((cl + cr) / 2)) (fun cm =>
    bind (rdiv (cm ^ 2) g) (fun hm => let um := 2 * (cl - cm) in
    bind (rdiv (hm * um) (hm - h_right)) (fun v =>
    Ok {| dam_g := g; dam_x := x_dam; dam_hl := h_left; dam_hr := h_right; dam_cl := cl; dam_cr := cr; dam_cm := cm; dam_hm := hm; dam_um := um; dam_v := v |})))
  else Err AssertionError.
(** L359-362 *)
Definition dam_initial (d : dam) (x : R) : state := (if Rleb x (dam_x d) then dam_hl d else dam_hr d, 0).
(** L364-381; the division by t is only reached for t <> 0 if the states are ordered (see the theorems) *)
Definition dam_xA (d : dam) (t : R) : R := dam_x d - t * dam_cl d.
Definition dam_xB (d : dam) (t : R) : R := dam_x d + t * (2 * dam_cl d - 3 * dam_cm d).
Definition dam_xC (d : dam) (t : R) : R := dam_x d + dam_v d * t.
Definition dam_exact (d : dam) (x t : R) : result state :=
  if Rleb x (dam_xA d t) then Ok (dam_hl d, 0)
  else if Rleb x (dam_xB d t) then
    bind (rdiv (x - dam_x d) (2 * t)) (fun y =>
    let h := 4 / (9 * dam_g d) * (dam_cl d - y) ^ 2 in
    bind (rdiv (x - dam_x d) t) (fun y' =>
    let u := 2 / 3 * (y' + dam_cl d) in
    Ok (h, h * u)))
  else if Rleb x (dam_xC d t) then Ok (dam_hm d, dam_hm d * dam_um d)
  else Ok (dam_hr d, 0).
End Newton.
(** CylindricalDammBreakWithOutflowBenchmark L395-398, SinusInflowBenchmark L414-415 *)
Definition cylinder_initial (x : R) : state := (if Rleb (-1 / 2) x && Rleb x (1 / 2) then 2 else 1, 0).
Definition sinus_inflow_left (t : R) : state := (2 + 2 / 10 * sin t, 0).
