(** * Model of jax_cfd/base/validation_problems.py, filter_utils.py and forcings.py

    The functions that return a forcing function return here a function from velocities to results.  Wave numbers are
    reals (the code multiplies coordinates by them). *)
From Verif Require Import Prelude NdArr LinAlg Cplx Grids_model Boundaries_model FD_model Advection_model Equations_model FastDiag_model Spectral_model.
Set Implicit Arguments.
Local Open Scope R_scope.

(** validation_problems.py:58-106 [TaylorGreen]: the constructor's grid, then [velocity].  [ux, uy = mesh] needs two
    arrays; the offsets' lengths are checked by mesh. *)
Definition taylor_green_grid (shape : list nat) : result grid :=
  grid_init shape StepNone (DomSeq [[0; 2 * PI]; [0; 2 * PI]]).
Definition taylor_green_velocity (shape : list nat) (density viscosity kx ky t : R) (offsets : option (list (list Q)))
  : result (list gvar) :=
  let* g := taylor_green_grid shape in
  let offsets := match offsets with None => cell_faces g | Some o => o end in
  let scale := exp (-2 * viscosity * t) in
  let* o0 := getM offsets 0 in
  let* m0 := grid_mesh g (Some o0) in
  let* ux := getM m0 0 in let* uy := getM m0 1 in
  let* u := mk_gvar (mkga (amap2 Rmult (amap (fun x => scale * cos (kx * x)) ux) (amap (fun y => sin (ky * y)) uy)) o0 g)
                    (periodic_bc (gndim g)) in
  let* o1 := getM offsets 1 in
  let* m1 := grid_mesh g (Some o1) in
  let* vx := getM m1 0 in let* vy := getM m1 1 in
  let* v := mk_gvar (mkga (amap2 Rmult (amap (fun x => - scale * sin (kx * x)) vx) (amap (fun y => cos (ky * y)) vy)) o1 g)
                    (periodic_bc (gndim g)) in
  Ok [u; v].

(** [jnp.broadcast_to(jnp.expand_dims(a, -1), shape)] of a two-dimensional array. *)
Definition append_z (a : arr R) (shape : list nat) : result (arr R) :=
  if shape_eqb (shp a) (firstn 2 shape) then Ok (mkarr shape (fun ix => get a (firstn 2 ix))) else Err EShape.
(** forcings.py:35-60 [taylor_green_forcing] *)
Definition taylor_green_forcing (g : grid) (scale k : R) : result (list gvar -> result (list garr)) :=
  let* uv := taylor_green_velocity (firstn 2 (gshape g)) 1 0 k k 0 None in
  let* u := getM uv 0 in let* v := getM uv 1 in
  let su := amap (fun x => x * scale) (gdata (garray u)) in
  let sv := amap (fun x => x * scale) (gdata (garray v)) in
  if (gndim g =? 2)%nat then
    let f := [mkga su (goff (garray u)) g; mkga sv (goff (garray v)) g] in Ok (fun _ => Ok f)
  else if (gndim g =? 3)%nat then
    let* ud := append_z su (gshape g) in
    let* vd := append_z sv (gshape g) in
    let f := [mkga ud [1; 1 # 2; 1 # 2]%Q g; mkga vd [1 # 2; 1; 1 # 2]%Q g; mkga (afull (shp ud) 0) [1 # 2; 1 # 2; 1]%Q g] in
    Ok (fun _ => Ok f)
  else Err ENotImpl.

(** forcings.py:63-104 [kolmogorov_forcing] *)
Definition kolmogorov_forcing (g : grid) (scale k : R) (swap_xy : bool) (offsets : option (list (list Q)))
  : result (list gvar -> result (list garr)) :=
  let offsets := match offsets with None => cell_faces g | Some o => o end in
  if swap_xy then
    let* o := getM offsets 1 in
    let* m := grid_mesh g (Some o) in
    let* x := getM m 0 in
    let* v := ga_scale scale (mkga (amap (fun x => sin (k * x)) x) o g) in
    let z := afull (shp (gdata v)) 0 in
    if (gndim g =? 2)%nat then Ok (fun _ => Ok [mkga z [1; 1 # 2]%Q g; v])
    else if (gndim g =? 3)%nat then Ok (fun _ => Ok [mkga z [1; 1 # 2; 1 # 2]%Q g; v; mkga z [1 # 2; 1 # 2; 1]%Q g])
    else Err ENotImpl
  else
    let* o := getM offsets 0 in
    let* m := grid_mesh g (Some o) in
    let* y := getM m 1 in
    let* u := ga_scale scale (mkga (amap (fun y => sin (k * y)) y) o g) in
    let z := afull (shp (gdata u)) 0 in
    if (gndim g =? 2)%nat then Ok (fun _ => Ok [u; mkga z [1 # 2; 1]%Q g])
    else if (gndim g =? 3)%nat then Ok (fun _ => Ok [u; mkga z [1 # 2; 1; 1 # 2]%Q g; mkga z [1 # 2; 1 # 2; 1]%Q g])
    else Err ENotImpl.

(** forcings.py:107-113 [linear_forcing] *)
Definition linear_forcing (coefficient : R) (v : list gvar) : result (list garr) :=
  mapM (fun u => ga_scale coefficient (garray u)) v.
(** forcings.py:116-122 [no_forcing] *)
Definition no_forcing (v : list gvar) : result (list garr) := mapM (fun u => ga_scale 0 (garray u)) v.
(** forcings.py:125-129 [sum_forcings] *)
Definition sum_forcings (forcings : list (list gvar -> result (list garr))) (v : list gvar) : result (list garr) :=
  let* l := mapM (fun f => f v) forcings in sum_fields l.

(** forcings.py:136-178 [simple_turbulence_forcing]; the string [forcing_type] is one of the two known names or not. *)
Inductive forcing_name := FKolmogorov | FTaylorGreen | FUnknown.
Definition simple_turbulence_forcing (g : grid) (constant_magnitude constant_wavenumber linear_coefficient : R) (forcing_type : forcing_name)
  : result (list gvar -> result (list garr)) :=
  let* constant_force := match forcing_type with
                         | FKolmogorov => kolmogorov_forcing g constant_magnitude constant_wavenumber false None
                         | FTaylorGreen => taylor_green_forcing g constant_magnitude constant_wavenumber
                         | FUnknown => Err EValue
                         end in
  Ok (sum_forcings [linear_forcing linear_coefficient; constant_force]).

(** filter_utils.py:25-29 [_angular_frequency_magnitude] *)
Definition angular_frequency_magnitude (g : grid) : arr R :=
  let fr := map (fun ns => fun i => 2 * PI * fftfreq (fst ns) (snd ns) i) (combine (gshape g) (gstep g)) in
  mkarr (gshape g) (fun ix => sqrt (fold_right Rplus 0 (map (fun fi => (fst fi (snd fi)) ^ 2) (combine fr ix)))).
(** filter_utils.py:32-42 [filter]; [spectral_density] acts on each entry.  [filters * fftn(array)] with different
    shapes (broadcasting) is not modelled: [EShape]. *)
Definition spectral_filter (spectral_density : R -> R) (array : arr R) (g : grid) : result (arr R) :=
  let filters := amap (fun k => if Rlt_dec 0 k then spectral_density k else 0) (angular_frequency_magnitude g) in
  let* p := ew (fun z s => Cscal s z) (fftn (amap RtoC array)) filters in
  Ok (amap re (ifftn p)).
(** forcings.py:181-202 [filtered_forcing] *)
Definition filtered_forcing (spectral_density : R -> R) (g : grid) (v : list gvar) : result (list garr) :=
  mapM (fun u => applied (fun l => match l with [a] => spectral_filter spectral_density a g | _ => Err EType end) [OGA (garray u)]) v.
(** forcings.py:205-227 [filtered_linear_forcing] *)
Definition filtered_linear_forcing (lower_wavenumber upper_wavenumber coefficient : R) (g : grid) : list gvar -> result (list garr) :=
  filtered_forcing (fun k => if Rle_dec (2 * PI * lower_wavenumber) k then if Rle_dec k (2 * PI * upper_wavenumber) then coefficient else 0 else 0) g.
