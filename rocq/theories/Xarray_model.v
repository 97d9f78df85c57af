(** * Model of jax_cfd/data/xarray_utils.py

    An xarray object is modelled at one sample and one time (xarray applies every operation below separately to
    each entry along the other dimensions): its spatial dimensions in the order x, y, z, each with its size and
    coordinate values, and the array of its values.  numpy.fft is the exact discrete Fourier transform. *)
From Verif Require Import Prelude NdArr LinAlg Cplx Grids_model FastDiag_model Spectral_model.
Set Implicit Arguments.

(** One dimension coordinate: size and values. *)
Definition coordinate := (nat * (Z -> R))%type.
(** The velocity variables u, v, w of a dataset on common dimensions. *)
Record dataset := mkds { ds_coords : list coordinate; ds_velocity : list (arr R) }.

(** Python indexing [l\[i\]] of a tuple or string: negative indices count from the end. *)
Definition py_index {A} (l : list A) (i : Z) : result A :=
  let i := if (i <? 0)%Z then (i + Z.of_nat (length l))%Z else i in
  if (i <? 0)%Z then Err EIndex else match nth_error l (Z.to_nat i) with Some x => Ok x | None => Err EIndex end.
(** xarray_utils.py:63-108 [velocity_trajectory_to_xarray] and xarray_utils.py:111-125 [construct_coords] with a grid: the scalar
    variables (XR_SCALAR_NAMES is the one-letter string 'c': one name) and the velocity variables, with the
    coordinates of the cell centres. *)
Definition velocity_trajectory_to_xarray (trajectory : list (arr R)) (g : grid) : result (list (arr R) * dataset) :=
  let dimension := gndim g in
  let num_scalars := (Z.of_nat (length trajectory) - Z.of_nat dimension)%Z in
  let* scalars := mapM (fun component => let* _ := py_index [tt] (Z.of_nat component) in py_index trajectory (Z.of_nat component))
                       (seq 0 (Z.to_nat num_scalars)) in
  let* velocity := mapM (fun component => let* _ := py_index [tt; tt; tt] (Z.of_nat component) in
                                          py_index trajectory (Z.of_nat component + num_scalars))
                        (seq 0 dimension) in
  let* axes := grid_axes g (Some (cell_center g)) in
  Ok (scalars, mkds axes velocity).

(** [coords\[1\] - coords\[0\]] *)
Definition coord_step (c : coordinate) : result R :=
  if (fst c <? 2)%nat then Err EIndex else Ok (snd c 1%Z - snd c 0%Z)%R.
(** [array.roll(dim=shift, roll_coords=False)] *)
Definition xr_roll {A} (axis : nat) (shift : Z) (a : arr A) : arr A :=
  mkarr (shp a) (fun ix => get a (upd axis ((nth axis ix 0 - shift) mod Z.of_nat (nth axis (shp a) 0%nat))%Z ix)).
(** xarray_utils.py:155-162 [vorticity_2d] *)
Definition vorticity_2d (ds : dataset) : result (arr R) :=
  match ds_coords ds, ds_velocity ds with
  | [x; y], [u; v] =>
      let* dy := coord_step y in
      let* dx := coord_step x in
      let* dv := ew Rminus (xr_roll 0 (-1) v) v in
      let* du := ew Rminus (xr_roll 1 (-1) u) u in
      ew Rminus (amap (fun d => d / dx)%R dv) (amap (fun d => d / dy)%R du)
  | _, _ => Err EValue
  end.
(** xarray_utils.py:165-167 [enstrophy_2d] *)
Definition enstrophy_2d (ds : dataset) : result (arr R) :=
  let* w := vorticity_2d ds in Ok (amap (fun x => x ^ 2 / 2)%R w).
(** xarray_utils.py:170-177 [magnitude] of one to three arrays; [n2 c] is [(c * c.conj()).real] *)
Definition magnitude {A} (n2 : A -> R) (l : list (arr A)) : result (arr R) :=
  match l with
  | [] => Err EType
  | a :: _ => if forallb (fun b => shape_eqb (shp b) (shp a)) l
              then Ok (mkarr (shp a) (fun ix => sqrt (fold_right Rplus 0 (map (fun b => n2 (get b ix)) l))%R))
              else Err EShape
  end.
Definition real_n2 (x : R) : R := (x * x)%R.
(** xarray_utils.py:180-183 [speed], xarray_utils.py:186-188 [kinetic_energy] *)
Definition kinetic_energy_of {A} (n2 : A -> R) (l : list (arr A)) : result (arr R) :=
  let* s := magnitude n2 l in Ok (amap (fun x => x ^ 2 / 2)%R s).
Definition speed (ds : dataset) : result (arr R) := magnitude real_n2 (ds_velocity ds).
Definition kinetic_energy (ds : dataset) : result (arr R) := kinetic_energy_of real_n2 (ds_velocity ds).

(** xarray_utils.py:191-209 [fourier_transform]: coordinates and values, both rolled by half the size. *)
Fixpoint roll_half (s : list nat) (ix : list Z) : list Z :=
  match s, ix with n :: s', i :: ix' => ((i - Z.of_nat (n / 2)) mod Z.of_nat n)%Z :: roll_half s' ix' | _, _ => [] end.
Definition fourier_coord (c : coordinate) : result coordinate :=
  let n := fst c in
  let* step := coord_step c in
  Ok (n, fun i => 2 * PI * fftfreq n step ((i - Z.of_nat (n / 2)) mod Z.of_nat n))%R.
Definition fourier_transform (coords : list coordinate) (a : arr R) : result (list coordinate * arr cplx) :=
  if negb (shape_eqb (shp a) (map fst coords)) then Err EShape
  else
    let result := fftn (amap RtoC a) in
    let* ks := mapM fourier_coord coords in
    Ok (ks, mkarr (shp a) (fun ix => get result (roll_half (shp a) ix))).
(** xarray_utils.py:370-383 [energy_spectrum] *)
Definition energy_spectrum (ds : dataset) : result (list coordinate * arr R) :=
  let* f := mapM (fourier_transform (ds_coords ds)) (ds_velocity ds) in
  let* e := kinetic_energy_of Cn2 (map snd f) in
  let* ks := mapM fourier_coord (ds_coords ds) in
  Ok (ks, e).

(** xarray_utils.py:212-214 [periodic_correlate] of two lines of equal length *)
Definition periodic_correlate (n : nat) (u v : Z -> R) (d : Z) : R :=
  re (ifft1 n (fun k => Cmul (Cconj (fft1 n (fun j => RtoC (u j)) k)) (fft1 n (fun j => RtoC (v j)) k)) d).
(** xarray_utils.py:217-230 [spatial_autocorrelation] of one line: displacement coordinate and values *)
Definition spatial_autocorrelation (c : coordinate) (u : Z -> R) : coordinate * (Z -> R) :=
  let n := fst c in
  (((n / 2)%nat, snd c), fun d => (periodic_correlate n u u d / INR n)%R).

(** pandas.cut(x, bins, labels=False) for increasing [bins]: the number of edges below [x] minus one; NaN ([None])
    if no edge or every edge is below. *)
Definition cut (bins : list R) (x : R) : option nat :=
  let below := length (filter (fun b => if Rlt_dec b x then true else false) bins) in
  if (below =? 0)%nat || (below =? length bins)%nat then None else Some (below - 1)%nat.
(** xarray_utils.py:240-250 [_binned_sum_numpy] and xarray_utils.py:253-276 [groupby_bins_sum]: entry [b] of the result is the
    sum of the entries of [a] whose group value falls into bin [b] (the number of bins is [bins.size - 1]: no edges
    is an error). *)
Definition groupby_bins_sum (a group : arr R) (bins : list R) : result (arr R) :=
  if negb (shape_eqb (shp a) (shp group)) then Err EShape
  else if (length bins =? 0)%nat then Err EValue
  else Ok (mkarr [(length bins - 1)%nat] (fun b =>
         asum (shp a) (fun ix => match cut bins (get group ix) with
                                 | Some i => if (Z.of_nat i =? nth 0 b 0)%Z then get a ix else 0%R
                                 | None => 0%R
                                 end))).
(** Python's [round] to an integer: halves to the even neighbour. *)
Definition py_round (x : R) : Z :=
  let f := Int_part x in
  let d := (x - IZR f)%R in
  if Rlt_dec d (1 / 2) then f else if Rlt_dec (1 / 2) d then (f + 1)%Z else if Z.even f then f else (f + 1)%Z.
(** The largest of the values of a coordinate; the smallest/largest entry of a list. *)
Definition coord_max (c : coordinate) : result R :=
  match map (fun i => snd c (Z.of_nat i)) (seq 0 (fst c)) with [] => Err EValue | x :: l => Ok (fold_left Rmax l x) end.
Definition max_of (l : list R) : result R := match l with [] => Err EValue | x :: l => Ok (fold_left Rmax l x) end.
Definition min_of (l : list R) : result R := match l with [] => Err EValue | x :: l => Ok (fold_left Rmin l x) end.
(** xarray_utils.py:279-290 [_isotropize_binsum]: labels and binned energy *)
Definition isotropize_binsum (ks : list coordinate) (energy : arr R) : result (list R * arr R) :=
  let* spacings := mapM coord_step ks in
  let* k_spacing := max_of spacings in
  let* maxima := mapM coord_max ks in
  let* m := min_of maxima in
  let k_max := (m - 1 / 2 * k_spacing)%R in
  let k := mkarr (map fst ks) (fun ix => sqrt (fold_right Rplus 0 (map (fun ci => real_n2 (snd (fst ci) (snd ci))) (combine ks ix)))%R) in
  let num := py_round (k_max / k_spacing)%R in
  let bounds := map (fun j => (k_spacing * (INR (S j) - 1 / 2))%R) (seq 0 (Z.to_nat (num + 1))) in
  let labels := map (fun j => (k_spacing * INR (S j))%R) (seq 0 (Z.to_nat num)) in
  let* binned := groupby_bins_sum energy k bounds in
  Ok (labels, binned).
