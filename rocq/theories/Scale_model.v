(** * Model of the scaling of grid variables of jax_cfd/ml/towers.py *)
From Verif Require Import Prelude NdArr Grids_model Boundaries_model.
Set Implicit Arguments.

(** ml/towers.py:77-86 [fixed_scale_gridvar]: [x.array * rescaled_one], then the boundary conditions of [x]; [axes] is unused *)
Definition fixed_scale_gridvar (rescaled_one : R) (inputs : list gvar) (axes : list nat) : result (list gvar) :=
  mapM (fun x => let* y := array_ufunc (raw2 Rmult) [OGA (garray x); OScalar rescaled_one] in impose_bc (gbc x) y) inputs.
