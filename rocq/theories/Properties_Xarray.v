(** Generated by tools/gen.py from XarrayProps.v: property theorems only. *)
From Verif Require Import Prelude NdArr Grids_model Spec Boundaries_model FD_model PRep FDProofs FDProps LinAlg Cplx FastDiag_model FourierProofs Spectral_model FourierLine FilterProps SpectralPadProps PressureProps GridProps Xarray_model SpecData.
From Verif Require Import XarrayProps.
Local Open Scope Z_scope.
Set Implicit Arguments.

(** C60. kinetic_energy and speed of any dataset with one or more velocity components on common dimensions: at every point the energy is half the sum of the squared components, and half the squared speed; speed is not negative. *)
Theorem kinetic_energy_spec : forall (ds : dataset) s, ds_velocity ds <> [] -> (forall a, In a (ds_velocity ds) -> shp a = s) ->
  exists e sp, kinetic_energy ds = Ok e /\ speed ds = Ok sp /\ shp e = s /\ shp sp = s /\
    forall ix, get e ix = (fold_right Rplus 0 (map (fun a => get a ix * get a ix) (ds_velocity ds)) / 2)%R /\ (0 <= get sp ix)%R /\ (get sp ix * get sp ix / 2 = get e ix)%R.
Proof. exact (@kinetic_energy_spec_lem). Qed.
Print Assumptions kinetic_energy_spec.

(** The hypotheses are met by a concrete case. *)
Example kinetic_energy_spec_ex : exists e, kinetic_energy (mkds [] [afull [2%nat] 3%R; afull [2%nat] 4%R]) = Ok e /\ get e [1] = (25 / 2)%R.
Proof. exact (@kinetic_energy_spec_ex_lem). Qed.

(** C60. fourier_transform, for any number of dimensions with uniform coordinates of at least two points: the new coordinates are the ascending angular wave numbers 2 pi (i - floor(n/2)) / (n h), and the value stored at each wave vector k is exactly sum over the grid points x of a(x) exp(-i k.(x - x_0)): rolling moved labels and values together. *)
Theorem fourier_transform_spec : forall (cs : list coordinate) (hs : list R) (a : arr R), Forall2 uniform_axis cs hs -> shp a = map fst cs ->
  exists ks F, fourier_transform cs a = Ok (ks, F) /\ shp F = shp a /\ length ks = length cs /\
    (forall ax d, (ax < length cs)%nat -> fst (nth ax ks d) = fst (nth ax cs d) /\ forall i, 0 <= i < Z.of_nat (fst (nth ax cs d)) ->
       snd (nth ax ks d) i = (2 * PI * IZR (i - Z.of_nat (fst (nth ax cs d) / 2)) / (INR (fst (nth ax cs d)) * nth ax hs 0%R))%R) /\
    forall ix, inb (shp a) ix ->
      get F ix = mkC (asum (shp a) (fun jx => get a jx * cos (phase ks cs ix jx))%R) (- asum (shp a) (fun jx => get a jx * sin (phase ks cs ix jx))%R).
Proof. exact (@fourier_transform_spec_lem). Qed.
Print Assumptions fourier_transform_spec.

(** The hypotheses are met by a concrete case. *)
Example fourier_transform_spec_ex : Forall2 uniform_axis [ex_axis 4 (1/4); ex_axis 3 2] [(1/4)%R; 2%R] /\ shp (afull [4%nat; 3%nat] 1%R) = map fst [ex_axis 4 (1/4); ex_axis 3 2].
Proof. exact (@fourier_transform_spec_ex_lem). Qed.

(** C60. energy_spectrum satisfies Parseval's identity: on any uniform grid and any velocity with one or more components the spectrum summed over all wave vectors equals the number of grid points times the kinetic energy summed over all points; its entries are not negative. *)
Theorem energy_spectrum_parseval : forall (ds : dataset) (hs : list R), Forall2 uniform_axis (ds_coords ds) hs -> ds_velocity ds <> [] ->
  (forall a, In a (ds_velocity ds) -> shp a = map fst (ds_coords ds)) ->
  exists ks E e, energy_spectrum ds = Ok (ks, E) /\ kinetic_energy ds = Ok e /\ shp E = map fst (ds_coords ds) /\ shp e = map fst (ds_coords ds) /\
    (forall ix, (0 <= get E ix)%R) /\ total E = (INR (asize (shp e)) * total e)%R.
Proof. exact (@energy_spectrum_parseval_lem). Qed.
Print Assumptions energy_spectrum_parseval.

(** The hypotheses are met by a concrete case. *)
Example energy_spectrum_parseval_ex : let ds := mkds [ex_axis 4 (1/4); ex_axis 3 2] [afull [4%nat; 3%nat] 1%R; afull [4%nat; 3%nat] 2%R] in
  Forall2 uniform_axis (ds_coords ds) [(1/4)%R; 2%R] /\ ds_velocity ds <> [] /\ (forall a, In a (ds_velocity ds) -> shp a = map fst (ds_coords ds)).
Proof. exact (@energy_spectrum_parseval_ex_lem). Qed.

(** C60. velocity_trajectory_to_xarray of a d-component velocity, optionally preceded by one scalar, on a grid with d <= 3 axes stores exactly these arrays under the scalar name and u, v, w, in order, with the coordinates of the cell centres: lower + (i + 1/2) * step on every axis. *)
Theorem trajectory_to_xarray_spec : forall (scalars velocity : list (arr R)) (g : grid), wfg g -> length velocity = gndim g -> (gndim g <= 3)%nat -> (length scalars <= 1)%nat ->
  exists axes, velocity_trajectory_to_xarray (scalars ++ velocity) g = Ok (scalars, mkds axes velocity) /\ length axes = gndim g /\
    forall a, (a < gndim g)%nat -> fst (nth a axes (0%nat, fun _ => 0%R)) = nth a (gshape g) 0%nat /\
      forall i, snd (nth a axes (0%nat, fun _ => 0%R)) i = (fst (nth a (gdomain g) (0, 0)) + (IZR i + 1 / 2) * hstep g a)%R.
Proof. exact (@trajectory_to_xarray_spec_lem). Qed.
Print Assumptions trajectory_to_xarray_spec.

(** The hypotheses are met by a concrete case. *)
Example trajectory_to_xarray_spec_ex : let g := mkgrid [3%nat; 2%nat] [1%R; 2%R] [(0%R, 3%R); (0%R, 4%R)] in
  wfg g /\ length [afull [3%nat; 2%nat] 1%R; afull [3%nat; 2%nat] 2%R] = gndim g /\ (gndim g <= 3)%nat /\ (length [afull [3%nat; 2%nat] 7%R] <= 1)%nat.
Proof. exact (@trajectory_to_xarray_spec_ex_lem). Qed.

(** C60. Two or more scalar components in front of the velocity are an IndexError (there is only one scalar name). *)
Theorem trajectory_two_scalars : forall (trajectory : list (arr R)) (g : grid), (gndim g + 2 <= length trajectory)%nat ->
  velocity_trajectory_to_xarray trajectory g = Err EIndex.
Proof. exact (@trajectory_two_scalars_lem). Qed.
Print Assumptions trajectory_two_scalars.

(** The hypotheses are met by a concrete case. *)
Example trajectory_two_scalars_ex : let g := mkgrid [3%nat] [1%R] [(0%R, 3%R)] in (gndim g + 2 <= length [afull [3%nat] 1%R; afull [3%nat] 2%R; afull [3%nat] 3%R])%nat.
Proof. exact (@trajectory_two_scalars_ex_lem). Qed.

(** C60. A trajectory with too few components is not rejected: with one component on a two-dimensional grid, velocity_trajectory_to_xarray stores that component both as u and as v. *)
Theorem trajectory_missing_component_refuted : ~ (forall (trajectory : list (arr R)) (g : grid), wfg g -> (length trajectory < gndim g)%nat ->
  ~ is_ok (velocity_trajectory_to_xarray trajectory g)).
Proof. exact (@trajectory_missing_component_refuted_lem). Qed.
Print Assumptions trajectory_missing_component_refuted.

(** C60. vorticity_2d of the dataset made from a periodic staggered two-dimensional velocity is, entry by entry, curl_2d of that velocity (whatever the grid steps), and enstrophy_2d is half its square. *)
Theorem vorticity_2d_is_curl : forall (g : grid) (o : list Q) (u v : gvar), periodic_vec g [u; v] -> face_aligned o [u; v] -> length o = 2%nat -> gndim g = 2%nat -> Forall (fun n => (2 <= n)%nat) (gshape g) ->
  exists ds w e c, velocity_trajectory_to_xarray [gdata (garray u); gdata (garray v)] g = Ok ([], ds) /\
    vorticity_2d ds = Ok w /\ enstrophy_2d ds = Ok e /\ curl_2d [u; v] = Ok c /\
    shp w = gshape g /\ shp e = gshape g /\ shp (gdata c) = gshape g /\
    forall ix, inb (gshape g) ix -> get w ix = get (gdata c) ix /\ get e ix = (get (gdata c) ix ^ 2 / 2)%R.
Proof. exact (@vorticity_2d_is_curl_lem). Qed.
Print Assumptions vorticity_2d_is_curl.

(** The hypotheses are met by a concrete case. *)
Example vorticity_2d_is_curl_ex :
  let g := mkgrid [3%nat; 2%nat] [1%R; 2%R] [(0%R, 3%R); (0%R, 4%R)] in
  let u := mkgv (mkga (mkarr [3%nat; 2%nat] (fun ix => IZR (nth 0 ix 0 * 10 + nth 1 ix 0)%Z)) [1%Q; (1 # 2)%Q] g) (periodic_bc 2) in
  let v := mkgv (mkga (mkarr [3%nat; 2%nat] (fun ix => IZR (nth 1 ix 0)%Z)) [(1 # 2)%Q; 1%Q] g) (periodic_bc 2) in
  periodic_vec g [u; v] /\ face_aligned [(1 # 2)%Q; (1 # 2)%Q] [u; v] /\ Forall (fun n => (2 <= n)%nat) (gshape g).
Proof. exact (@vorticity_2d_is_curl_ex_lem). Qed.

(** C60. spatial_autocorrelation reports, for displacement number d < n/2, the mean over the line of u_i * u_{i+d} (periodic): the mean square at displacement 0, and no larger in magnitude anywhere; the same mean for displacement n-d. Neighbouring displacement labels differ by the grid step. *)
Theorem autocorrelation_spec : forall (c : coordinate) (u : Z -> R) h, uniform_axis c h ->
  let r := spatial_autocorrelation c u in let n := fst c in
  let cor := fun d => (rsum n (fun i => u i * u ((i + d) mod Z.of_nat n)) / INR n)%R in
  fst (fst r) = (n / 2)%nat /\
  (forall d, 0 <= d < Z.of_nat (n / 2) -> snd r d = cor d) /\
  snd r 0 = (rsum n (fun i => u i ^ 2) / INR n)%R /\
  (forall d, (Rabs (cor d) <= cor 0%Z)%R) /\ (forall d, cor (Z.of_nat n - d) = cor d) /\
  forall d, snd (fst r) (d + 1) = (snd (fst r) d + h)%R.
Proof. exact (@autocorrelation_spec_lem). Qed.
Print Assumptions autocorrelation_spec.

(** The hypotheses are met by a concrete case. *)
Example autocorrelation_spec_ex : uniform_axis (ex_axis 4 (1/4)) (1/4).
Proof. exact (@autocorrelation_spec_ex_lem). Qed.

(** C60. The displacement labels are not the displacements: they are the coordinates of the first cell centres, so with the coordinates a dataset has on the grid of 4 cells on [0, 4] the zero displacement (the mean square) is labelled 1/2. *)
Theorem autocorrelation_labels_refuted : ~ (forall (g : grid) c u, wfg g -> grid_axes g (Some (cell_center g)) = Ok [c] -> snd (fst (spatial_autocorrelation c u)) 0 = 0%R).
Proof. exact (@autocorrelation_labels_refuted_lem). Qed.
Print Assumptions autocorrelation_labels_refuted.

(** C60. The reported half does not contain every distinct displacement: on a line of two cells only displacement 0 is reported, although the correlation at displacement 1 differs from it. *)
Theorem autocorrelation_half_refuted : ~ (forall (c : coordinate) (u : Z -> R) h, uniform_axis c h -> forall d, 0 <= d < Z.of_nat (fst c) ->
  exists d', 0 <= d' < Z.of_nat (fst (fst (spatial_autocorrelation c u))) /\
    snd (spatial_autocorrelation c u) d' = (rsum (fst c) (fun i => u i * u ((i + d) mod Z.of_nat (fst c))) / INR (fst c))%R).
Proof. exact (@autocorrelation_half_refuted_lem). Qed.
Print Assumptions autocorrelation_half_refuted.

(** C60. The binsum spectrum of an energy array over wave numbers with uniform spacing (coordinates reaching at least 0 on every axis): with dk the largest spacing, entry j is labelled (j+1) dk and holds exactly the energy of the modes with wave number magnitude in ((j+1/2) dk, (j+3/2) dk], so no mode is counted twice; the sum of the spectrum is the energy of the modes between dk/2 and (K+1/2) dk, never more than the total energy. *)
Theorem binsum_shells : forall (ks : list coordinate) (dks : list R) dk (e : arr R), ks <> [] -> Forall2 spaced_axis ks dks ->
  Forall (fun k => (0 <= snd k (Z.of_nat (fst k) - 1)%Z)%R) ks -> shp e = map fst ks ->
  In dk dks -> (forall d, In d dks -> (d <= dk)%R) ->
  exists labels b K, isotropize_binsum ks e = Ok (labels, b) /\ length labels = K /\ shp b = [K] /\
    (forall j, (j < K)%nat -> nth j labels 0%R = (INR (j + 1) * dk)%R /\
       get b [Z.of_nat j] = shell_energy (shp e) ks (get e) ((INR j + 1 / 2) * dk) ((INR j + 3 / 2) * dk)) /\
    asum [K] (get b) = shell_energy (shp e) ks (get e) (dk / 2) ((INR K + 1 / 2) * dk) /\
    ((forall ix, inb (shp e) ix -> (0 <= get e ix)%R) -> (asum [K] (get b) <= asum (shp e) (get e))%R).
Proof. exact (@binsum_shells_lem). Qed.
Print Assumptions binsum_shells.

(** The hypotheses are met by a concrete case. *)
Example binsum_shells_ex : exists k, fourier_coord (ex_axis 8 1) = Ok k /\ Forall2 spaced_axis [k; k] [(PI / 4)%R; (PI / 4)%R] /\
  Forall (fun k => (0 <= snd k (Z.of_nat (fst k) - 1)%Z)%R) [k; k] /\ In (PI / 4)%R [(PI / 4)%R; (PI / 4)%R] /\ (forall d, In d [(PI / 4)%R; (PI / 4)%R] -> (d <= PI / 4)%R).
Proof. exact (@binsum_shells_ex_lem). Qed.

(** C60. On a dataset with the same number of points n and the same step on every axis, the binsum spectrum of its energy_spectrum has 2 * floor((n-1)/4) shells (halves are rounded to the even neighbour), spaced by 2 pi / (n h). *)
Theorem binsum_shell_count : forall (ds : dataset) n h, uniform_axis (n, fun i => (IZR i * h)%R) h -> ds_coords ds <> [] -> Forall (fun c => fst c = n /\ uniform_axis c h) (ds_coords ds) ->
  ds_velocity ds <> [] -> (forall a, In a (ds_velocity ds) -> shp a = map fst (ds_coords ds)) ->
  exists ks e labels b, energy_spectrum ds = Ok (ks, e) /\ isotropize_binsum ks e = Ok (labels, b) /\ length labels = (2 * ((n - 1) / 4))%nat /\
    forall j, (j < length labels)%nat -> nth j labels 0%R = (INR (j + 1) * (2 * PI / (INR n * h)))%R.
Proof. exact (@binsum_shell_count_lem). Qed.
Print Assumptions binsum_shell_count.

(** The hypotheses are met by a concrete case. *)
Example binsum_shell_count_ex : let ds := mkds [ex_axis 10 1; ex_axis 10 1] [afull [10%nat; 10%nat] 1%R; afull [10%nat; 10%nat] 2%R] in
  uniform_axis (10%nat, fun i => (IZR i * 1)%R) 1 /\ ds_coords ds <> [] /\ Forall (fun c => fst c = 10%nat /\ uniform_axis c 1) (ds_coords ds) /\
  ds_velocity ds <> [] /\ (forall a, In a (ds_velocity ds) -> shp a = map fst (ds_coords ds)) /\ (2 * ((10 - 1) / 4))%nat = 4%nat.
Proof. exact (@binsum_shell_count_ex_lem). Qed.

(** C60. The shells are not confined to the resolved wave numbers: with 10 points per axis the last shell is (3.5 dk, 4.5 dk] although the largest wave number along an axis is 4 dk, so it is only partly filled. *)
Theorem binsum_resolved_refuted : ~ (forall (c : coordinate) h k (e : arr R) labels b, uniform_axis c h -> fourier_coord c = Ok k -> shp e = [fst c; fst c] ->
  isotropize_binsum [k; k] e = Ok (labels, b) -> forall j, (j < length labels)%nat -> (nth j labels 0%R + PI / (INR (fst c) * h) <= snd k (Z.of_nat (fst c) - 1)%Z)%R).
Proof. exact (@binsum_resolved_refuted_lem). Qed.
Print Assumptions binsum_resolved_refuted.
