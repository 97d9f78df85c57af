(** * Vocabulary for velocity and vorticity fields on doubly periodic two-dimensional grids *)
From Verif Require Import Prelude NdArr Cplx SpecFourier.
Set Implicit Arguments.
Local Open Scope Z_scope.

(** The array [x] shows the field [w] at the points of an n x m grid. *)
Definition shows (n m : nat) (x : arr R) (w : Z -> Z -> R) : Prop :=
  shp x = [n; m] /\ forall i j, 0 <= i < Z.of_nat n -> 0 <= j < Z.of_nat m -> get x [i; j] = w i j.
(** The trajectory [a] of frames on an n x m grid ends with the field [w]. *)
Definition ends_with (n m : nat) (a : arr R) (w : Z -> Z -> R) : Prop :=
  exists T, shp a = [S T; n; m] /\ forall i j, 0 <= i < Z.of_nat n -> 0 <= j < Z.of_nat m -> get a [Z.of_nat T; i; j] = w i j.
(** The Fourier coefficient of [w] at the wave vector (a, b): the sum over the grid of exp(-2 pi i (a i/n + b j/m)) w(i, j). *)
Definition fourier (n m : nat) (w : Z -> Z -> R) (a b : Z) : cplx :=
  csum n (fun i => csum m (fun j => Cmul (cis (- (2 * PI * (IZR (a * i) / INR n + IZR (b * j) / INR m)))) (RtoC (w i j)))).
Definition mean2 (n m : nat) (w : Z -> Z -> R) : R := (rsum n (fun i => rsum m (fun j => w i j)) / (INR n * INR m))%R.
(** [W] is the half spectrum of [w]: row i, column b holds the coefficient at (row_wave n i, b). *)
Definition half_spectrum (n m : nat) (W : arr cplx) (w : Z -> Z -> R) : Prop :=
  shp W = [n; (m / 2 + 1)%nat] /\
  forall i b, 0 <= i < Z.of_nat n -> 0 <= b <= Z.of_nat (m / 2) -> get W [i; b] = fourier n m w (row_wave n i) b.
(** No divergence on an Lx x Ly box: (a / Lx) u^ + (b / Ly) v^ = 0 at every stored wave vector. *)
Definition solenoidal (n m : nat) (Lx Ly : R) (u v : Z -> Z -> R) : Prop :=
  forall a b, - Z.of_nat n <= 2 * a < Z.of_nat n -> 0 <= 2 * b <= Z.of_nat m ->
    Cadd (Cscal (IZR a / Lx) (fourier n m u a b)) (Cscal (IZR b / Ly) (fourier n m v a b)) = C0.
(** Nothing at the highest (sawtooth) wave number of an axis with an even number of points. *)
Definition resolved (n m : nat) (w : Z -> Z -> R) : Prop :=
  forall a b, 2 * Z.abs a = Z.of_nat n \/ 2 * Z.abs b = Z.of_nat m -> fourier n m w a b = C0.
(** [w] is the curl of (u, v): w^ = 2 pi i ((a / Lx) v^ - (b / Ly) u^) at every wave vector below the highest. *)
Definition curl_of (n m : nat) (Lx Ly : R) (u v w : Z -> Z -> R) : Prop :=
  forall a b, 2 * Z.abs a < Z.of_nat n -> 2 * Z.abs b < Z.of_nat m ->
    fourier n m w a b = Cmul (mkC 0 (2 * PI)) (Csub (Cscal (IZR a / Lx) (fourier n m v a b)) (Cscal (IZR b / Ly) (fourier n m u a b))).
(** A half spectrum on an n x m grid without any wave that an n' x m' grid could not show below its highest wave numbers. *)
Definition fits (n m n' m' : nat) (W : arr cplx) : Prop :=
  forall i b, 0 <= i < Z.of_nat n -> 0 <= b <= Z.of_nat (m / 2) -> Z.of_nat n' <= 2 * Z.abs (row_wave n i) \/ Z.of_nat m' <= 2 * b -> get W [i; b] = C0.
