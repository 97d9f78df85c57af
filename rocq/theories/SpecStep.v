(** * Vocabulary for runs of the spectral time steppers *)
From Verif Require Import Prelude NdArr Cplx TimeStep_model Spectral_model SpectralStep_model SpecFourier.
Set Implicit Arguments.

(** Two computations have the same outcome: both fail with the same error, or both succeed with related results. *)
Definition res_rel {A B} (Rl : A -> B -> Prop) (r : result A) (s : result B) : Prop :=
  match r, s with Ok a, Ok b => Rl a b | Err e, Err e' => e = e' | _, _ => False end.
(** A relation between states that respects zero, sums and multiples. *)
Definition linear_relation {X Y} (Rl : vec X -> vec Y -> Prop) : Prop :=
  Rl vzero vzero /\ (forall u v u' v', Rl u u' -> Rl v v' -> Rl (vadd u v) (vadd u' v')) /\ (forall c u u', Rl u u' -> Rl (vscal c u) (vscal c u')).
(** The decoupled linear problem [dy_x/dt = lam_x y_x], treated implicitly, with no explicit terms. *)
Definition linear_run {X} (lam : X -> R) (k : spectral_scheme) (dt : R) (steps : nat) (y : vec X) : result (vec X) :=
  spectral_steps k (fun _ => vzero) (fun u x => lam x * u x)%R (fun u h x => u x / (1 - h * lam x))%R dt steps y.
(** The factor by which one step multiplies the solution of [y' = lam y]. *)
Definition amplification (k : spectral_scheme) (dt lam : R) : result R :=
  let* v := linear_run (fun _ : unit => lam) k dt 1 (fun _ => 1%R) in Ok (v tt).
(** The decay rate of the wave vector stored in row i and column b under viscosity and drag. *)
Definition mode_rate (n m : nat) (Lx Ly viscosity drag : R) (i b : Z) : R :=
  (- (viscosity * ((2 * PI) ^ 2 * ((IZR (row_wave n i) / Lx) ^ 2 + (IZR b / Ly) ^ 2)) + drag))%R.
(** The Crank-Nicolson factor, and the product [f 0 * ... * f (n - 1)]. *)
Definition cn_factor (mu lam : R) : R := ((1 + mu * lam) / (1 - mu * lam))%R.
Fixpoint rprod (n : nat) (f : nat -> R) : R := match n with O => 1%R | S n => (rprod n f * f n)%R end.
