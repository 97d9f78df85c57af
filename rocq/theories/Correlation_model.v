(** * Model of velocity_spatial_correlation of jax_cfd/data/xarray_utils.py *)
From Coq Require Import String.
From Verif Require Import Prelude NdArr LinAlg Cplx Grids_model Spectral_model Xarray_model.
Set Implicit Arguments.
Local Open Scope list_scope.

(** the constants XR_VELOCITY_NAMES and XR_SPATIAL_DIMS, xarray_utils.py:47 and 49 *)
Definition velocity_names : list string := ["u"; "v"; "w"]%string.
Definition dim_names : list string := ["x"; "y"; "z"]%string.
(** An index of the result without its last entry, with [i] put in at position [axis] *)
Definition along (axis : nat) (i : Z) (rest : list Z) : list Z := firstn axis rest ++ i :: skipn axis rest.
(** xarray_utils.py:217-230 [spatial_autocorrelation] of an array: [apply_ufunc] takes the axis out and puts the displacement axis last *)
Definition array_autocorrelation (coords : list coordinate) (a : arr R) (axis : nat) : result (list coordinate * arr R) :=
  if negb (shape_eqb (shp a) (map fst coords)) then Err EShape
  else match nth_error coords axis with
  | None => Err EIndex
  | Some c =>
      let others := firstn axis coords ++ skipn (S axis) coords in
      Ok (others ++ [fst (spatial_autocorrelation c (fun _ => 0%R))],
          mkarr (map fst others ++ [(fst c / 2)%nat]) (fun ix =>
            let rest := firstn (length others) ix in
            snd (spatial_autocorrelation c (fun i => get a (along axis i rest))) (nth (length others) ix 0%Z)))
  end.
(** xarray_utils.py:404-415 [velocity_spatial_correlation]; the axis is given by its number among x, y, z; a velocity variable or an
    axis the dataset does not have raises KeyError ([EIndex]) *)
Definition velocity_spatial_correlation (ds : dataset) (axis : nat) : result (list (string * (list coordinate * arr R))) :=
  let ndim := length (ds_coords ds) in
  let* velocity := mapM (fun i => py_index (ds_velocity ds) (Z.of_nat i)) (seq 0 (Nat.min 3 ndim)) in
  let* correlations := mapM (fun a => array_autocorrelation (ds_coords ds) a axis) velocity in
  let* axis_name := py_index dim_names (Z.of_nat axis) in
  Ok (combine (map (fun u => String.append u (String.append "_" (String.append axis_name "_correlation"))) (firstn ndim velocity_names)) correlations).
