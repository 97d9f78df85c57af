(** * Model of [point_interpolation] of jax_cfd/base/interpolation.py, with [jax.scipy.ndimage.map_coordinates] *)
From Verif Require Import Prelude NdArr Grids_model.
From Coq Require Import Qreals.
Set Implicit Arguments.
Local Open Scope R_scope.

(** The documented modes; any other string is [PMOther]. *)
Inductive pmode := PMReflect | PMConstant | PMNearest | PMMirror | PMWrap | PMOther.
(** [_mirror_index_fixer] of jax.  Simplification: [x mod 0] (an axis of one cell) is taken to be Coq's. *)
Definition mirror_fix (index : Z) (size : Z) : Z := let s := (size - 1)%Z in Z.abs ((index + s) mod (2 * s) - s).
(** [_INDEX_FIXERS\[mode\]] of jax *)
Definition fix_index (mode : pmode) (index : Z) (size : nat) : Z :=
  let n := Z.of_nat size in
  match mode with
  | PMReflect => ((mirror_fix (2 * index + 1) (2 * n + 1) - 1) / 2)%Z
  | PMNearest => Z.max 0 (Z.min index (n - 1))
  | PMMirror => mirror_fix index n
  | PMWrap => (index mod n)%Z
  | PMConstant | PMOther => index
  end.
(** [is_valid] of jax's map_coordinates *)
Definition is_valid (mode : pmode) (index : Z) (size : nat) : bool :=
  match mode with PMConstant => (0 <=? index)%Z && (index <? Z.of_nat size)%Z | _ => true end.
(** [lax.round]: halves away from zero *)
Definition round_away (x : R) : Z := if Rlt_dec x 0 then (- Int_part (- x + 1 / 2))%Z else Int_part (x + 1 / 2).
(** [_nearest_indices_and_weights] and [_linear_indices_and_weights] of jax *)
Definition interp_nodes (order : nat) (coordinate : R) : result (list (Z * R)) :=
  match order with
  | 0%nat => Ok [(round_away coordinate, 1)]
  | 1%nat => let lower := Int_part coordinate in
             let upper_weight := coordinate - IZR lower in
             let lower_weight := 1 - upper_weight in
             Ok [(lower, lower_weight); ((lower + 1)%Z, upper_weight)]
  | _ => Err ENotImpl
  end.
(** [itertools.product( *l)] *)
Fixpoint cartesian {T} (l : list (list T)) : list (list T) :=
  match l with [] => [[]] | x :: r => flat_map (fun a => map (cons a) (cartesian r)) x end.
(** [jax.scipy.ndimage.map_coordinates] at one point *)
Definition map_coordinates (input : arr R) (coordinates : list R) (order : nat) (mode : pmode) (cval : R) : result R :=
  if negb (length coordinates =? length (shp input))%nat then Err EValue
  else match mode with
  | PMOther => Err ENotImpl
  | _ =>
    let* interpolations := mapM (fun cs => let* nodes := interp_nodes order (fst cs) in
                                           Ok (map (fun iw => ((fix_index mode (fst iw) (snd cs), is_valid mode (fst iw) (snd cs)), snd iw)) nodes))
                                (combine coordinates (shp input)) in
    let outputs := map (fun items =>
                          let contribution := if forallb (fun it => snd (fst it)) items then get input (map (fun it => fst (fst it)) items) else cval in
                          fold_right Rmult 1 (map snd items) * contribution) (cartesian interpolations) in
    Ok (fold_right Rplus 0 outputs)
  end.
(** interpolation.py:308-359 [point_interpolation].  Simplifications: a point with another number of coordinates than the grid is refused (jnp broadcasts a single
    one); an empty domain is an error (jnp divides by zero). *)
Definition point_interpolation (point : list R) (c : garr) (order : nat) (mode : pmode) (cval : R) : result R :=
  let g := ggrid c in
  if negb (length point =? gndim g)%nat || negb (length (goff c) =? gndim g)%nat || negb (length (gdomain g) =? gndim g)%nat then Err EType
  else if existsb (fun d => if Req_EM_T (snd d - fst d) 0 then true else false) (gdomain g) then Err EZeroDiv
  else let index := map (fun i => let '(domain_lower, domain_upper) := nth i (gdomain g) (0, 0) in
                                  - Q2R (nth i (goff c) 0%Q) + (nth i point 0 - domain_lower) * INR (nth i (gshape g) 0%nat) / (domain_upper - domain_lower)) (seq 0 (gndim g)) in
       map_coordinates (gdata c) index order mode cval.
