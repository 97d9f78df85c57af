(** * Vocabulary for the filtered spectral step *)
From Verif Require Import Prelude NdArr Cplx Grids_model SpecFourier.
Set Implicit Arguments.
(** The factor by which the default filter multiplies wave (a, b) of an n x n field: 10^-6 to the power ((a/n)^2 + (b/n)^2)^2. *)
Definition filter_factor (n : nat) (i b : Z) : R := Rpower (/ 1000000) (((IZR (row_wave n i) / INR n) ^ 2 + (IZR b / INR n) ^ 2) ^ 2).
