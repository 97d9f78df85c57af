(** * Model of the vorticity encoders and decoders of jax_cfd/ml/encoders.py and jax_cfd/ml/decoders.py, and of downsample_spectral of jax_cfd/base/resize.py

    Simplification: [rfft2] and [irfft2] are given two-dimensional arrays (the callers' fields); other ranks are refused. *)
From Verif Require Import Prelude NdArr Cplx Grids_model FastDiag_model Spectral_model ArrayUtils_model Boundaries_model Interp_model Rollout_model Networks_model Viscosities_model.
Set Implicit Arguments.
Local Open Scope Z_scope.

(** [jnp.fft.rfft2] and [jnp.fft.irfft2]; the latter makes [2 * (k - 1)] points out of [k] modes and refuses k = 1 *)
Definition rfft2 (u : arr R) : result (arr cplx) :=
  match shp u with [n; m] => if (n =? 0)%nat || (m =? 0)%nat then Err EValue else Ok (rfftn u) | _ => Err EValue end.
Definition irfft2 (U : arr cplx) : result (arr R) :=
  match shp U with [n; k] => if (n =? 0)%nat || (k <? 2)%nat then Err EValue else Ok (irfftn U) | _ => Err EValue end.
(** ml/encoders.py:246-264 [spectral_vorticity_encoder]: the common part of the three encoders *)
Definition spectral_vorticity_encoder (g : grid) (inputs : list (arr R)) : result (arr cplx) :=
  match inputs with
  | [u; v] =>
      let* u := slice_last u in let* v := slice_last v in
      let* uhat := rfft2 u in let* vhat := rfft2 v in
      match rfft_mesh g with
      | [kx; ky] =>
          let* a := ew (fun v x => Cmul v (RtoC x)) vhat kx in
          let* b := ew (fun u y => Cmul u (RtoC y)) uhat ky in
          let* d := ew Csub a b in
          Ok (amap (Cmul two_pi_i) d)
      | _ => Err EValue
      end
  | _ => Err EValue
  end.
(** ml/encoders.py:199-219 [vorticity_encoder] *)
Definition vorticity_encoder (g : grid) (inputs : list (arr R)) : result (arr R) :=
  let* vorticity_hat := spectral_vorticity_encoder g inputs in
  let* w := irfft2 vorticity_hat in Ok (expand_last w).
(** ml/encoders.py:223-242 [vorticity_velocity_encoder] *)
Definition vorticity_velocity_encoder (g : grid) (inputs : list (arr R)) : result (arr R) :=
  match inputs with
  | [u; v] =>
      let* vorticity_hat := spectral_vorticity_encoder g inputs in
      let* u := slice_last u in let* v := slice_last v in
      let* w := irfft2 vorticity_hat in stack_last [u; v; w]
  | _ => Err EValue
  end.
(** ml/decoders.py:160-173 [spectral_vorticity_decoder] *)
Definition spectral_vorticity_decoder (g : grid) (vorticity_hat : arr cplx) : result (list (arr R)) :=
  let* uv := vorticity_to_velocity g vorticity_hat in
  let* u := irfft2 (fst uv) in let* v := irfft2 (snd uv) in Ok [u; v].
(** ml/decoders.py:140-156 [vorticity_decoder] *)
Definition vorticity_decoder (g : grid) (vorticity : arr R) : result (list (arr R)) :=
  let* vorticity := squeeze_last vorticity in
  let* vorticity_hat := rfft2 vorticity in
  spectral_vorticity_decoder g vorticity_hat.
(** ml/decoders.py:71-81 [channels_split_decoder] *)
Definition channels_split_decoder (inputs : arr R) : result (list (arr R)) :=
  let* l := split_axis [inputs] (-1) false in
  mapM (leaf 0) l.

(** resize.py:225-238 [downsample_spectral].  Simplification: only the shape of the destination grid is used, as in the code. *)
Definition downsample_spectral (destination_grid : grid) (signal_hat : arr cplx) : result (arr cplx) :=
  match rfft_axes destination_grid, shp signal_hat with
  | [(num_x, _); (num_y, _)], [input_num_x; _] =>
      let cols a := index_axis a 1 (PySlice None (Some (Z.of_nat num_y)) 1) in
      let* top := index_axis signal_hat 0 (PySlice None (Some (Z.of_nat num_x / 2)) 1) in
      let* top := cols top in
      let* bottom := index_axis signal_hat 0 (PySlice (Some ((- Z.of_nat num_x) / 2)) None 1) in
      let* bottom := cols bottom in
      let* downed := concatenate [top; bottom] 0 in
      let scale := (INR num_x / INR input_num_x)%R in
      Ok (amap (Cscal (scale ^ 2)) downed)
  | _, _ => Err EValue
  end.
