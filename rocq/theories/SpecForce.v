(** * Vocabulary for forcings and spectral filters *)
From Verif Require Import Prelude NdArr Cplx Grids_model Spec Boundaries_model FD_model FastDiag_model.
Set Implicit Arguments.

(** The wave number (with sign) of Fourier index [k] on [n] points, and the length of the wave vector of index [kx]
    on grid [g]: sqrt(sum (2 pi m_a / L_a)^2) where L_a is the length of axis a. *)
Definition signed_index (n : nat) (k : Z) : Z := if (2 * k <? Z.of_nat n)%Z then k else (k - Z.of_nat n)%Z.
Definition wave_vector_length (g : grid) (kx : list Z) : R :=
  sqrt (nsum (gndim g) (fun a =>
    (2 * PI * IZR (signed_index (nth a (gshape g) 0%nat) (nth a kx 0%Z)) / (INR (nth a (gshape g) 0%nat) * hstep g a)) ^ 2)%R).
(** The factor a filter with density [S] applies to Fourier mode [kx]: none of the mean survives. *)
Definition filter_factor (S : R -> R) (g : grid) (kx : list Z) : R :=
  if Rlt_dec 0 (wave_vector_length g kx) then S (wave_vector_length g kx) else 0%R.
(** Fourier coefficient [kx] of a real array. *)
Definition coefficient (a : arr R) (kx : list Z) : cplx := get (fftn (amap RtoC a)) kx.
(** Arrays as variables with periodic boundary conditions. *)
Definition as_periodic (g : grid) (f : list garr) : list gvar := map (fun a => mkgv a (periodic_bc (gndim g))) f.
(** The angle 2 pi (i_a + q) / n_a of index [ix] shifted by [q] cells along axis [a]. *)
Definition angle (g : grid) (a : nat) (q : R) (ix : list Z) : R := (2 * PI * (IZR (nth a ix 0%Z) + q) / INR (nth a (gshape g) 0%nat))%R.
(** Taylor-Green force with wave number [k] and strength [c], component [i]. *)
Definition taylor_green_force (g : grid) (c k : R) (i : nat) (ix : list Z) : R :=
  match i with
  | 0%nat => c * (cos (k * angle g 0 1 ix) * sin (k * angle g 1 (1 / 2) ix))
  | 1%nat => - (c * (sin (k * angle g 0 (1 / 2) ix) * cos (k * angle g 1 1 ix)))
  | _ => 0
  end%R.

(** Functions of (t, x, y), their partial derivatives, and the incompressible Navier-Stokes equations (density 1). *)
Definition d_t (f f' : R -> R -> R -> R) : Prop := forall t x y, derivable_pt_lim (fun s => f s x y) t (f' t x y).
Definition d_x (f f' : R -> R -> R -> R) : Prop := forall t x y, derivable_pt_lim (fun s => f t s y) x (f' t x y).
Definition d_y (f f' : R -> R -> R -> R) : Prop := forall t x y, derivable_pt_lim (fun s => f t x s) y (f' t x y).
Definition solves_navier_stokes (nu : R) (U V P : R -> R -> R -> R) : Prop :=
  exists Ut Ux Uy Uxx Uyy Vt Vx Vy Vxx Vyy Px Py,
    d_t U Ut /\ d_x U Ux /\ d_y U Uy /\ d_x Ux Uxx /\ d_y Uy Uyy /\
    d_t V Vt /\ d_x V Vx /\ d_y V Vy /\ d_x Vx Vxx /\ d_y Vy Vyy /\ d_x P Px /\ d_y P Py /\
    forall t x y,
      (Ux t x y + Vy t x y = 0 /\
       Ut t x y + U t x y * Ux t x y + V t x y * Uy t x y = - Px t x y + nu * (Uxx t x y + Uyy t x y) /\
       Vt t x y + U t x y * Vx t x y + V t x y * Vy t x y = - Py t x y + nu * (Vxx t x y + Vyy t x y))%R.
(** "[velocity t offsets] holds U and V at time t, on every grid of the unit torus and all offsets". *)
Definition samples (velocity : list nat -> R -> option (list (list Q)) -> result (list gvar)) (U V : R -> R -> R -> R) : Prop :=
  forall n m t o0 o1, (0 < n)%nat -> (0 < m)%nat -> length o0 = 2%nat -> length o1 = 2%nat ->
    exists g u v, velocity [n; m] t (Some [o0; o1]) = Ok [u; v] /\ gshape g = [n; m] /\ gdomain g = [(0, 2 * PI)%R; (0, 2 * PI)%R] /\
      is_field (garray u) g o0 (fun ix => U t (coord g o0 0 ix) (coord g o0 1 ix)) /\
      is_field (garray v) g o1 (fun ix => V t (coord g o1 0 ix) (coord g o1 1 ix)).
