(** * Model of jax_cfd/base/resize.py (staggered downsampling) *)
From Verif Require Import Prelude NdArr Grids_model ArrayUtils_model PressureSolve_model.
Set Implicit Arguments.
Local Open Scope Z_scope.

(** resize.py:34-73 [downsample_staggered_velocity_component].  The slice along [direction] and the mean over blocks
    of size 1 along [direction] and [factor] along the other axes. *)
Definition downsample_staggered_velocity_component (u : arr R) (direction : nat) (factor : Z) : result (arr R) :=
  let* w := slice_along_axis [u] (Z.of_nat direction) (PySlice (Some (factor - 1)) None factor) true in
  let* w := leaf 0 w in
  let block_size := map (fun j => if (j =? direction)%nat then 1%nat else Z.to_nat factor) (seq 0 (ndim u)) in
  block_reduce w block_size amean.

(** The three kinds of component accepted (resize.py:174). *)
Inductive field := FRaw (a : arr R) | FArray (u : garr) | FVar (u : gvar).
(** [GridArray(array, offset, grid)] has no check; [GridVariable(array, bc)] checks the number of axes. *)
(** resize.py:182-209: the three [downsample] functions *)
Definition downsample_field (source destination : grid) (j : nat) (factor : Z) (u : field) : result field :=
  match u with
  | FVar u =>
      if negb (grid_eqb (ggrid (garray u)) source) then Err EGrid
      else let* a := downsample_staggered_velocity_component (gdata (garray u)) j factor in
           let* w := mk_gvar (mkga a (goff (garray u)) destination) (gbc u) in
           Ok (FVar w)
  | FArray u =>
      if negb (grid_eqb (ggrid u) source) then Err EGrid
      else let* a := downsample_staggered_velocity_component (gdata u) j factor in
           Ok (FArray (mkga a (goff u) destination))
  | FRaw a =>
      let* a := downsample_staggered_velocity_component a j factor in
      Ok (FRaw a)
  end.
Definition eq_domains (g h : grid) : bool :=
  if list_eq_dec (fun x y : R * R => ltac:(decide equality; apply Req_EM_T)) (gdomain g) (gdomain h) then true else false.
(** resize.py:171-211 [downsample_staggered_velocity].  [factor] is a real number; [round(factor) == factor] holds
    exactly for integers.  A grid without axes has no [step\[0\]] (IndexError); a zero step is a ZeroDivisionError. *)
Definition downsample_staggered_velocity (source destination : grid) (velocity : list field) : result (list field) :=
  match gstep source, gstep destination with
  | s0 :: _, d0 :: _ =>
      if Req_EM_T s0 0 then Err EZeroDiv
      else
        let factor := (d0 / s0)%R in
        if negb (eq_domains destination source) then Err EAssert
        else if Req_EM_T (IZR (Int_part factor)) factor
        then mapM (fun ju => downsample_field source destination (fst ju) (Int_part factor) (snd ju))
                  (combine (seq 0 (length velocity)) velocity)
        else Err EAssert
  | _, _ => Err EIndex
  end.
