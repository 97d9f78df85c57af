(** * Model of jax_cfd/base/finite_differences.py *)
From Verif Require Import Prelude NdArr Grids_model Boundaries_model.
Set Implicit Arguments.

(** Python's [sum(iterable)] of raw arrays: starts from the int 0. *)
Definition raw_sum (l : list (arr R)) : result (arr R) :=
  foldM (fun a b => raw2 Rplus [a; b]) (afull [] 0%R) l.

(** finite_differences.py:44-54 [stencil_sum] *)
Definition stencil_sum (arrays : list garr) : result garr :=
  let offset := averaged_offset arrays in
  let* data := raw_sum (map gdata arrays) in
  let* g := consistent_grid arrays in
  Ok (mkga data offset g).

Definition stepat (u : gvar) (ax : nat) : R := nth ax (gstep (ggrid (garray u))) 0%R.
Definition vndim (u : gvar) : nat := gndim (ggrid (garray u)).

(** finite_differences.py:74-81 [central_difference] for an int axis *)
Definition central_difference (u : gvar) (ax : nat) : result garr :=
  let* a := gv_shift u 1 ax in
  let* b := gv_shift u (-1) ax in
  let* nb := ga_neg b in
  let* diff := stencil_sum [a; nb] in
  ga_div_scalar diff (2 * stepat u ax)%R.

(** finite_differences.py:95-102 [backward_difference] for an int axis *)
Definition backward_difference (u : gvar) (ax : nat) : result garr :=
  let* b := gv_shift u (-1) ax in
  let* nb := ga_neg b in
  let* diff := stencil_sum [garray u; nb] in
  ga_div_scalar diff (stepat u ax).

(** finite_differences.py:117-124 [forward_difference] for an int axis *)
Definition forward_difference (u : gvar) (ax : nat) : result garr :=
  let* a := gv_shift u 1 ax in
  let* nb := ga_neg (garray u) in
  let* diff := stencil_sum [a; nb] in
  ga_div_scalar diff (stepat u ax).

(** Lines 76-79, 97-100, 119-122: [axis=None] means all axes. *)
Definition all_axes (d : gvar -> nat -> result garr) (u : gvar) : result (list garr) :=
  mapM (d u) (seq 0 (vndim u)).
Definition forward_gradient := all_axes forward_difference.

(** finite_differences.py:127-133 [laplacian] *)
Definition laplacian (u : gvar) : result garr :=
  let scales := map (fun h => Rsqr (1 / h)) (gstep (ggrid (garray u))) in
  let* r0 := ga_scale (-2) (garray u) in
  let* r := array_ufunc (raw2 Rmult) [OGA r0; OScalar (fold_left Rplus scales 0%R)] in
  foldM (fun acc ax =>
           let* a := gv_shift u (-1) ax in
           let* b := gv_shift u 1 ax in
           let* s := stencil_sum [a; b] in
           let* t := array_ufunc (raw2 Rmult) [OGA s; OScalar (nth ax scales 0%R)] in
           ga_add acc t)
        r (seq 0 (vndim u)).

(** Python's [sum] of GridArrays: 0 + d0 + d1 + ...; an empty sum is the int 0
    (not a GridArray: the callers then fail, modelled as [EType]). *)
Definition ga_sum (l : list garr) : result garr :=
  match l with
  | [] => Err EType
  | d :: l' => let* d0 := array_ufunc (raw2 Rplus) [OScalar 0%R; OGA d] in foldM ga_add d0 l'
  end.

Definition enumerate {A} (l : list A) : list (nat * A) := combine (seq 0 (length l)) l.

(** finite_differences.py:136-143 [divergence] *)
Definition divergence (v : list gvar) : result garr :=
  let* g := consistent_grid (map garray v) in
  if negb (length v =? gndim g)%nat then Err EValue
  else let* ds := mapM (fun au => backward_difference (snd au) (fst au)) (enumerate v) in
       ga_sum ds.

(** finite_differences.py:146-153 [centered_divergence] *)
Definition centered_divergence (v : list gvar) : result garr :=
  let* g := consistent_grid (map garray v) in
  if negb (length v =? gndim g)%nat then Err EValue
  else let* ds := mapM (fun au => central_difference (snd au) (fst au)) (enumerate v) in
       ga_sum ds.

(** finite_differences.py:186-193 [curl_2d] *)
Definition curl_2d (v : list gvar) : result garr :=
  match v with
  | [v0; v1] =>
      let* g := consistent_grid (map garray v) in
      if negb (gndim g =? 2)%nat then Err EValue
      else let* a := forward_difference v1 0 in
           let* b := forward_difference v0 1 in
           ga_sub a b
  | _ => Err EValue
  end.

(** finite_differences.py:196-207 [curl_3d] *)
Definition curl_3d (v : list gvar) : result (garr * garr * garr) :=
  match v with
  | [v0; v1; v2] =>
      let* g := consistent_grid (map garray v) in
      if negb (gndim g =? 3)%nat then Err EValue
      else
        let* a := forward_difference v2 1 in let* b := forward_difference v1 2 in
        let* cx := ga_sub a b in
        let* a := forward_difference v0 2 in let* b := forward_difference v2 0 in
        let* cy := ga_sub a b in
        let* a := forward_difference v1 0 in let* b := forward_difference v0 1 in
        let* cz := ga_sub a b in
        Ok (cx, cy, cz)
  | _ => Err EValue
  end.
