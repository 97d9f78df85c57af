(** * Model of the isotropic spectra of jax_cfd/data/xarray_utils.py by interpolation, and of grid_from_attrs

    Energies are positive real numbers (the logarithm of a zero energy is minus infinity in floating point and is not modelled). *)
From Verif Require Import Prelude NdArr Cplx Grids_model Spectral_model Xarray_model.
Set Implicit Arguments.
Local Open Scope Z_scope.

Inductive interp_method := ILinear | INearest.
(** One axis of [scipy.interpolate.interpn] on increasing coordinates: the cell that contains [x] and the position in it, between 0
    and 1; [None] (NaN) outside of the range of the coordinates. *)
Definition interp_cell (c : coordinate) (x : R) : option (Z * R) :=
  let n := fst c in
  if (n <? 2)%nat then None
  else if Rlt_dec x (snd c 0) then None
  else if Rlt_dec (snd c (Z.of_nat n - 1)) x then None
  else
    let below := length (filter (fun i => if Rle_dec (snd c (Z.of_nat i)) x then true else false) (seq 0 n)) in
    let i := Z.min (Z.of_nat below - 1) (Z.of_nat n - 2) in
    Some (i, ((x - snd c i) / (snd c (i + 1)%Z - snd c i))%R).
(** [array.interp(kx=x, ky=y, method=m)] *)
Definition interp_2d (m : interp_method) (cx cy : coordinate) (f : arr R) (x y : R) : option R :=
  match interp_cell cx x, interp_cell cy y with
  | Some (i, s), Some (j, t) =>
      Some (match m with
            | ILinear => ((1 - s) * (1 - t) * get f [i; j] + (1 - s) * t * get f [i; (j + 1)%Z] + s * (1 - t) * get f [(i + 1)%Z; j] + s * t * get f [(i + 1)%Z; (j + 1)%Z])%R
            | INearest => get f [if Rle_dec s (1 / 2) then i else i + 1; if Rle_dec t (1 / 2) then j else j + 1]
            end)
  | _, _ => None
  end.
(** [mean] of xarray skips NaN; the mean of nothing is NaN *)
Definition nanmean (l : list (option R)) : option R :=
  let v := flat_map (fun o => match o with Some x => [x] | None => [] end) l in
  match v with [] => None | _ => Some (fold_right Rplus 0 v / INR (length v))%R end.
(** xarray_utils.py:293-322 [_isotropize_interpolation_2d]: the wave numbers and the spectrum *)
Definition isotropize_interpolation_2d (kx ky : coordinate) (energy : arr R) (m : interp_method) (num_quadrature_points : nat) : result (list (R * option R)) :=
  let* spacings := mapM coord_step [kx; ky] in
  let* k_spacing := max_of spacings in
  let* maxima := mapM coord_max [kx; ky] in
  let* mn := min_of maxima in
  let k_max := (mn - 1 / 2 * k_spacing)%R in
  let num := py_round (k_max / k_spacing)%R in
  let k_values := map (fun j => (k_spacing * INR (S j))%R) (seq 0 (Z.to_nat num)) in
  let angles := map (fun i => (2 * PI * (INR i / INR num_quadrature_points))%R) (seq 0 num_quadrature_points) in
  Ok (map (fun k =>
    let density := map (fun a => option_map exp (interp_2d m kx ky (amap ln energy) (k * cos a) (k * sin a))) angles in
    (k, option_map (fun d => 2 * PI * k * d)%R (nanmean density))) k_values).
(** xarray_utils.py:325-367 [isotropize]; [method] is a string, any other one is refused *)
Inductive isotropize_method := MInterpolation | MBinsum | MInvalid.
Definition isotropize (ks : list coordinate) (array : arr R) (method : option isotropize_method) (m : interp_method) (num_quadrature_points : nat) : result (list (R * option R)) :=
  let ndim := length ks in
  if (ndim =? 0)%nat then Err EValue
  else
    match (match method with Some x => x | None => if (ndim =? 2)%nat then MInterpolation else MBinsum end) with
    | MInterpolation =>
        match ks with
        | [kx; ky] => isotropize_interpolation_2d kx ky array m num_quadrature_points
        | _ => Err EValue
        end
    | MBinsum =>
        let* lb := isotropize_binsum ks array in
        Ok (map (fun jl => (snd jl, Some (get (snd lb) [Z.of_nat (fst jl)]))) (combine (seq 0 (length (fst lb))) (fst lb)))
    | MInvalid => Err EValue
    end.
(** xarray_utils.py:386-401 [isotropic_energy_spectrum] of one sample and time (no dimensions averaged) *)
Definition isotropic_energy_spectrum (ds : dataset) : result (list (R * option R)) :=
  let* e := energy_spectrum ds in isotropize (fst e) (snd e) None ILinear 100.

(** xarray_utils.py:128-152 [grid_from_attrs]: the attributes that are read; a missing one raises KeyError ([EIndex]).  The
    attributes XR_SAVE_GRID_SIZE_ATTR_NAME_RECTANGLE hold one size per axis. *)
Record dataset_attrs := mkattrs {
  at_ndim : option nat; at_save_grid_size : option nat; at_domain_size : option R; at_domain_size_multiple : option R;
  at_rectangle : list (option nat); at_aspect_ratio : option R }.
Definition required {A} (o : option A) : result A := match o with Some x => Ok x | None => Err EIndex end.
Definition grid_from_attrs (a : dataset_attrs) : result grid :=
  let* ndim := required (at_ndim a) in
  match at_save_grid_size a with
  | Some grid_size =>
      let* domain_size := match at_domain_size a with
                          | Some d => Ok d
                          | None => match at_domain_size_multiple a with Some m => Ok (2 * PI * m)%R | None => Err EValue end
                          end in
      grid_init (repeat grid_size ndim) StepNone (DomSeq (repeat [0%R; domain_size] ndim))
  | None =>
      let* grid_shape := mapM required (firstn ndim (at_rectangle a)) in
      let* aspect_ratio := required (at_aspect_ratio a) in
      grid_init grid_shape StepNone (DomSeq [[0%R; aspect_ratio]; [0%R; 1%R]])
  end.
