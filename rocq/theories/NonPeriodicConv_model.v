(** * Model of the non-periodic convolution modules of jax_cfd/ml/layers.py *)
From Verif Require Import Prelude NdArr Towers_model MirrorConv_model.
Set Implicit Arguments.

(** ml/layers.py:399-429 [NonPeriodicConvGeneral]: a batch axis is added and taken away; [conv_kwargs] may hold a stride *)
Definition non_periodic_conv_general (d : nat) (p : params) (cout : nat) (K : list nat) (rate stride : nat) (x : arr R) : result (arr R) :=
  unbatched (hk_conv d p cout K rate stride) x.
(** ml/layers.py:432-448 [NonPeriodicConv1D] *)
Definition non_periodic_conv_1d (p : params) (cout : nat) (K : list nat) (rate stride : nat) (x : arr R) : result (arr R) :=
  non_periodic_conv_general 1 p cout K rate stride x.
