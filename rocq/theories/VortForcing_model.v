(** * Model of forcing in vorticity space: jax_cfd/ml/forcings.py *)
From Verif Require Import Prelude NdArr Cplx Grids_model Boundaries_model Spectral_model Viscosities_model VortCodec_model.
Set Implicit Arguments.

(** ml/forcings.py:50-68 [vorticity_space_forcing]; [forcing_fn] is the forcing made by [forcing_module].
    Simplification: the states are single arrays with one channel, [split_axis] (53-59) being the removal of that axis;
    two or more channels raise ValueError as the unpacking does. *)
Definition vorticity_space_forcing (g : grid) (forcing_fn : list gvar -> result (list garr)) (vorticity : arr R) : result (arr R) :=
  let* vorticity := squeeze_last vorticity in
  let* vorticity_hat := rfft2 vorticity in
  let* uv := vorticity_to_velocity g vorticity_hat in
  let* u := irfft2 (fst uv) in
  let* v := irfft2 (snd uv) in
  let* u := mk_gvar (mkga u [0; 0]%Q g) (periodic_bc (gndim g)) in
  let* v := mk_gvar (mkga v [0; 0]%Q g) (periodic_bc (gndim g)) in
  let* f := forcing_fn [u; v] in
  match f, rfft_mesh g with
  | [fu; fv], [kx; ky] =>
      let* fhatu := rfft2 (gdata fu) in
      let* fhatv := rfft2 (gdata fv) in
      let* a := ew (fun v x => Cmul v (RtoC x)) fhatv kx in
      let* b := ew (fun u y => Cmul u (RtoC y)) fhatu ky in
      let* d := ew Csub a b in
      irfft2 (amap (Cmul two_pi_i) d)
  | _, _ => Err EValue
  end.
