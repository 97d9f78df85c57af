(** Generated by tools/gen.py from SpectralRunProps.v: property theorems only. *)
From Verif Require Import Prelude NdArr LinAlg Cplx Grids_model FastDiag_model TimeStep_model TimeStepProps FourierProofs FourierLine Spectral_model SpectralProps SpectralUtilProps FourierPlane SpecFourier NS2DBase NS2DProps SpectralStep_model SpecStep StepRel NS2DConserve NS2DMoreProps NS2DWaveProps.
From Verif Require Import SpectralRunProps.
Local Open Scope Z_scope.
Set Implicit Arguments.

(** C65. Every spectral time stepper (backward_forward_euler, crank_nicolson_rk2, low_storage_runge_kutta_crank_nicolson and imex_runge_kutta with any coefficients) respects every linear relation between two equations: if explicit_terms, implicit_terms and implicit_solve of two equations map related states to related states, then any number of steps from related states succeed or fail alike (with the same error), with related results. In particular linear symmetries of the equation are symmetries of the time-discrete solution and linear invariants are conserved. *)
Theorem steppers_respect_linear_relations : forall X Y (Rl : vec X -> vec Y -> Prop) (F G : vec X -> vec X) (Ginv : vec X -> R -> vec X)
    (F' G' : vec Y -> vec Y) (Ginv' : vec Y -> R -> vec Y) (k : spectral_scheme) (dt : R) (steps : nat) (u : vec X) (v : vec Y),
  linear_relation Rl ->
  (forall a b, Rl a b -> Rl (F a) (F' b)) -> (forall a b, Rl a b -> Rl (G a) (G' b)) -> (forall a b h, Rl a b -> Rl (Ginv a h) (Ginv' b h)) ->
  Rl u v -> res_rel Rl (spectral_steps k F G Ginv dt steps u) (spectral_steps k F' G' Ginv' dt steps v).
Proof. exact (@steppers_respect_linear_relations_lem). Qed.
Print Assumptions steppers_respect_linear_relations.

(** The hypotheses are met by a concrete case. *)
Example steppers_respect_linear_relations_ex : exists (F G : vec bool -> vec bool) (Ginv : vec bool -> R -> vec bool) (Rl : vec bool -> vec bool -> Prop),
  linear_relation Rl /\ (forall a b, Rl a b -> Rl (F a) (F b)) /\ (forall a b, Rl a b -> Rl (G a) (G b)) /\ (forall a b h, Rl a b -> Rl (Ginv a h) (Ginv b h)) /\
  Rl (fun c => if c then 1%R else 2%R) (fun c => if c then 2%R else 1%R).
Proof. exact (@steppers_respect_linear_relations_ex_lem). Qed.

(** C65. One step of any of the spectral time steppers multiplies every component of a decoupled linear problem dy/dt = lam y (implicit, no explicit terms) by a factor that depends only on the scheme, dt and lam, and n steps multiply it by its n-th power; a non-empty run fails exactly when computing the factor does. *)
Theorem linear_run_powers : forall X (lam : X -> R) (k : spectral_scheme) (dt : R) (steps : nat) (u : vec X) (x : X),
  res_rel (fun v a => v x = (a ^ S steps * u x)%R) (linear_run lam k dt (S steps) u) (amplification k dt (lam x)).
Proof. exact (@linear_run_powers_lem). Qed.
Print Assumptions linear_run_powers.

(** The hypotheses are met by a concrete case. *)
Example linear_run_powers_ex : is_ok (amplification CrankNicolsonRK2 (1/2) (-3)).
Proof. exact (@linear_run_powers_ex_lem). Qed.

(** C65. The amplification factors: 1/(1 - dt lam) for backward_forward_euler, the Crank-Nicolson factor with dt/2 for crank_nicolson_rk2, the product over the stages of the Crank-Nicolson factors with dt (alpha_{j+1} - alpha_j)/2 for low_storage_runge_kutta_crank_nicolson (for coefficient lists of matching lengths), (1 + 5z/12)/((1 - z/3)(1 - z/4)) with z = dt lam for imex_rk_sil3 (away from its poles), and 1 for every scheme when lam = 0. *)
Theorem amplification_factors : forall (dt lam : R),
  amplification BackwardForwardEuler dt lam = Ok (1 / (1 - dt * lam))%R /\
  ((1 - dt / 2 * lam <> 0)%R -> amplification CrankNicolsonRK2 dt lam = Ok (cn_factor (dt / 2) lam)) /\
  (forall al be ga, length al = S (length be) -> length ga = length be ->
     amplification (LowStorage al be ga) dt lam = Ok (rprod (length be) (fun j => cn_factor (dt / 2 * (nth (S j) al 0 - nth j al 0)) lam)%R)) /\
  ((1 - dt * lam / 6 <> 0)%R -> (1 - dt * lam / 3 <> 0)%R -> (1 - dt * lam / 4 <> 0)%R ->
     amplification (Imex sil3_tableau) dt lam = Ok ((1 + 5 * (dt * lam) / 12) / ((1 - dt * lam / 3) * (1 - dt * lam / 4)))%R) /\
  (lam = 0%R -> forall k a, amplification k dt lam = Ok a -> a = 1%R).
Proof. exact (@amplification_factors_lem). Qed.
Print Assumptions amplification_factors.

(** The hypotheses are met by a concrete case. *)
Example amplification_factors_ex : (1 - (1 / 2) / 2 * -3 <> 0)%R /\ length [0; 1 / 3; 1]%R = S (length [0; -1]%R) /\ (1 - (1/2) * -3 / 6 <> 0)%R /\ (1 - (1/2) * -3 / 3 <> 0)%R /\ (1 - (1/2) * -3 / 4 <> 0)%R.
Proof. exact (@amplification_factors_ex_lem). Qed.
