(** Generated by tools/gen.py from IsoProps.v: property theorems only. *)
From Verif Require Import Prelude NdArr Cplx Grids_model Spec SpecData Spectral_model Xarray_model XarrayProps GridProps Isotropize_model.
From Verif Require Import IsoProps.
Local Open Scope Z_scope.
Set Implicit Arguments.

(** C84. isotropize by interpolation of a 2D spectrum with positive energies, over any two evenly spaced wave-number axes whose negative end reaches at least as far as their positive end (as the shifted axes of fourier_transform do), linear or nearest, any positive number of quadrature points: the wave numbers are dk, 2 dk, ... up to the smaller of the two largest wave numbers, dk being the larger spacing; every sampled point lies inside the axes, so no value is NaN; and if all energies lie between m and M > 0, the spectrum at k lies between 2 pi k m and 2 pi k M (so for a constant density c it is exactly 2 pi k c). *)
Theorem isotropize_interpolation_bounds : forall (kx ky : coordinate) (dx dy : R) (e : arr R) (meth : interp_method) (Nq : nat) (m M : R), spaced_axis kx dx -> spaced_axis ky dy ->
  let top := Rmin (snd kx (Z.of_nat (fst kx) - 1)%Z) (snd ky (Z.of_nat (fst ky) - 1)%Z) in let dk := Rmax dx dy in
  (0 <= top)%R -> (snd kx 0%Z <= - snd kx (Z.of_nat (fst kx) - 1)%Z)%R -> (snd ky 0%Z <= - snd ky (Z.of_nat (fst ky) - 1)%Z)%R -> (0 < Nq)%nat ->
  (0 < m)%R -> (forall ix, inb [fst kx; fst ky] ix -> (m <= get e ix <= M)%R) ->
  exists l, isotropize_interpolation_2d kx ky e meth Nq = Ok l /\ (INR (length l) * dk <= top <= (INR (length l) + 1) * dk)%R /\
    forall j d, (j < length l)%nat -> exists S, nth j l d = ((INR (j + 1) * dk)%R, Some S) /\ (2 * PI * (INR (j + 1) * dk) * m <= S <= 2 * PI * (INR (j + 1) * dk) * M)%R.
Proof. exact (@isotropize_interpolation_bounds_lem). Qed.
Print Assumptions isotropize_interpolation_bounds.

(** The hypotheses are met by a concrete case. *)
Example isotropize_interpolation_bounds_ex : let k := (8%nat, fun i => IZR (i - 4)) in spaced_axis k 1 /\ (0 <= Rmin (snd k (Z.of_nat (fst k) - 1)%Z) (snd k (Z.of_nat (fst k) - 1)%Z))%R /\ (snd k 0%Z <= - snd k (Z.of_nat (fst k) - 1)%Z)%R /\ (0 < 100)%nat /\ (0 < 1)%R /\
  (forall ix, inb [fst k; fst k] ix -> (1 <= get (mkarr [8; 8]%nat (fun ix => 1 + / (1 + Rabs (IZR (nth 0 ix 0%Z))))) ix <= 2)%R).
Proof. exact (@isotropize_interpolation_bounds_ex_lem). Qed.

(** C84. The linear interpolation is exact for spectra whose logarithm is linear in the wave vector: for energies exp(a + b kx + c ky) on the same kind of axes, the value at wave number k is 2 pi k times the mean of exp(a + b k cos t + c k sin t) over equally spaced angles t. *)
Theorem isotropize_interpolation_exact : forall (kx ky : coordinate) (dx dy : R) (e : arr R) (Nq : nat) (a b c : R), spaced_axis kx dx -> spaced_axis ky dy ->
  let top := Rmin (snd kx (Z.of_nat (fst kx) - 1)%Z) (snd ky (Z.of_nat (fst ky) - 1)%Z) in let dk := Rmax dx dy in
  (0 <= top)%R -> (snd kx 0%Z <= - snd kx (Z.of_nat (fst kx) - 1)%Z)%R -> (snd ky 0%Z <= - snd ky (Z.of_nat (fst ky) - 1)%Z)%R -> (0 < Nq)%nat ->
  (forall i j, inb [fst kx; fst ky] [i; j] -> get e [i; j] = exp (a + b * snd kx i + c * snd ky j)) ->
  exists l, isotropize_interpolation_2d kx ky e ILinear Nq = Ok l /\
    forall j d, (j < length l)%nat -> let k := (INR (j + 1) * dk)%R in
      nth j l d = (k, Some (2 * PI * k * (fold_right Rplus 0 (map (fun i => exp (a + b * (k * cos (2 * PI * (INR i / INR Nq))) + c * (k * sin (2 * PI * (INR i / INR Nq))))) (seq 0 Nq)) / INR Nq))%R).
Proof. exact (@isotropize_interpolation_exact_lem). Qed.
Print Assumptions isotropize_interpolation_exact.

(** The hypotheses are met by a concrete case. *)
Example isotropize_interpolation_exact_ex : let k := (8%nat, fun i => IZR (i - 4)) in spaced_axis k 1 /\ (0 <= Rmin (snd k (Z.of_nat (fst k) - 1)%Z) (snd k (Z.of_nat (fst k) - 1)%Z))%R /\ (snd k 0%Z <= - snd k (Z.of_nat (fst k) - 1)%Z)%R /\ (0 < 100)%nat /\
  (forall i j, inb [fst k; fst k] [i; j] -> get (mkarr [8; 8]%nat (fun ix => exp (1 + 2 * IZR (nth 0 ix 0%Z - 4) + 3 * IZR (nth 1 ix 0%Z - 4)))) [i; j] = exp (1 + 2 * snd k i + 3 * snd k j)).
Proof. exact (@isotropize_interpolation_exact_ex_lem). Qed.

(** C84. isotropic_energy_spectrum of any 2D dataset with at least two points per axis and positive spectral energies: it succeeds, its wave numbers are the multiples of the larger of the two spacings 2 pi / (n h), and no entry is NaN. *)
Theorem isotropic_energy_spectrum_defined : forall (ds : dataset) (cx cy : coordinate) (hx hy : R), ds_coords ds = [cx; cy] -> uniform_axis cx hx -> uniform_axis cy hy -> ds_velocity ds <> [] ->
  (forall a, In a (ds_velocity ds) -> shp a = [fst cx; fst cy]) ->
  exists ks e, energy_spectrum ds = Ok (ks, e) /\ ((forall ix, inb [fst cx; fst cy] ix -> (0 < get e ix)%R) ->
    exists l, isotropic_energy_spectrum ds = Ok l /\ forall j d, (j < length l)%nat -> exists S, nth j l d = ((INR (j + 1) * Rmax (2 * PI / (INR (fst cx) * hx)) (2 * PI / (INR (fst cy) * hy)))%R, Some S) /\ (0 < S)%R).
Proof. exact (@isotropic_energy_spectrum_defined_lem). Qed.
Print Assumptions isotropic_energy_spectrum_defined.

(** The hypotheses are met by a concrete case. *)
Example isotropic_energy_spectrum_defined_ex : let ds := mkds [ex_axis 8 1; ex_axis 6 2] [mkarr [8; 6]%nat (fun ix => if nth 0 ix 0%Z =? 0 then if nth 1 ix 0%Z =? 0 then 1%R else 0%R else 0%R)] in
  ds_coords ds = [ex_axis 8 1; ex_axis 6 2] /\ uniform_axis (ex_axis 8 1) 1 /\ uniform_axis (ex_axis 6 2) 2 /\ ds_velocity ds <> [] /\ (forall a, In a (ds_velocity ds) -> shp a = [8%nat; 6%nat]).
Proof. exact (@isotropic_energy_spectrum_defined_ex_lem). Qed.

(** C84. isotropize: without wave-number axes, with an unknown method, or with method "interpolation" on anything but two axes, it raises ValueError; without a method it uses interpolation exactly for two axes and binsum otherwise. *)
Theorem isotropize_dispatch : forall (ks : list coordinate) (e : arr R) (meth : interp_method) (Nq : nat),
  (isotropize [] e None meth Nq = Err EValue) /\ (isotropize ks e (Some MInvalid) meth Nq = Err EValue) /\
  (length ks <> 2%nat -> isotropize ks e (Some MInterpolation) meth Nq = Err EValue) /\
  (length ks = 2%nat -> isotropize ks e None meth Nq = isotropize ks e (Some MInterpolation) meth Nq) /\
  (length ks <> 2%nat -> isotropize ks e None meth Nq = isotropize ks e (Some MBinsum) meth Nq).
Proof. exact (@isotropize_dispatch_lem). Qed.
Print Assumptions isotropize_dispatch.

(** The hypotheses are met by a concrete case. *)
Example isotropize_dispatch_ex : length [(8%nat, fun i : Z => IZR (i - 4))] <> 2%nat /\ length [(8%nat, fun i : Z => IZR (i - 4)); (6%nat, fun i : Z => IZR (i - 3))] = 2%nat.
Proof. exact (@isotropize_dispatch_ex_lem). Qed.

(** C84. grid_from_attrs with ndim and save_grid_size n >= 1: the grid has n cells on each of the ndim axes and the domain from 0 to L on each, L being domain_size if present, else 2 pi domain_size_multiple; with neither it raises ValueError. Without save_grid_size, with two rectangle sizes and an aspect ratio r, the grid of a 2D dataset has these sizes, domain (0, r) by (0, 1). *)
Theorem grid_from_attrs_spec : forall (a : dataset_attrs) (d : nat), at_ndim a = Some d ->
  (forall n, at_save_grid_size a = Some n -> (0 < n)%nat ->
     (forall L, at_domain_size a = Some L \/ (at_domain_size a = None /\ exists k, at_domain_size_multiple a = Some k /\ L = (2 * PI * k)%R) ->
        exists g, grid_from_attrs a = Ok g /\ gshape g = repeat n d /\ gdomain g = repeat (0%R, L) d /\ gstep g = repeat (L / INR n)%R d) /\
     (at_domain_size a = None -> at_domain_size_multiple a = None -> grid_from_attrs a = Err EValue)) /\
  (forall nx ny r, d = 2%nat -> at_save_grid_size a = None -> at_rectangle a = [Some nx; Some ny] -> at_aspect_ratio a = Some r -> (0 < nx)%nat -> (0 < ny)%nat ->
     exists g, grid_from_attrs a = Ok g /\ gshape g = [nx; ny] /\ gdomain g = [(0%R, r); (0%R, 1%R)] /\ gstep g = [(r / INR nx)%R; (1 / INR ny)%R]).
Proof. exact (@grid_from_attrs_spec_lem). Qed.
Print Assumptions grid_from_attrs_spec.

(** The hypotheses are met by a concrete case. *)
Example grid_from_attrs_spec_ex : let a := mkattrs (Some 3%nat) (Some 16%nat) None (Some 2%R) [] None in at_ndim a = Some 3%nat /\ at_save_grid_size a = Some 16%nat /\ (0 < 16)%nat /\ at_domain_size a = None /\ exists k, at_domain_size_multiple a = Some k /\ (4 * PI = 2 * PI * k)%R.
Proof. exact (@grid_from_attrs_spec_ex_lem). Qed.
