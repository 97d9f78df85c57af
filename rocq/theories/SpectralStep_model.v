(** * The equations of jax_cfd/spectral/equations.py as states of jax_cfd/spectral/time_stepping.py

    The time steppers wrap their state with tree_math; a complex array of shape [s] is the family of its real
    ([false]) and imaginary ([true]) parts at every index.  The wrapped functions of TimeStep_model.v are total; a failing
    array operation is mapped to the zero state, and the theorems show that it does not occur. *)
From Verif Require Import Prelude NdArr Cplx Grids_model TimeStep_model Spectral_model.
Set Implicit Arguments.

Definition cvec := vec (bool * list Z).
Definition to_carr (s : list nat) (u : cvec) : arr cplx := mkarr s (fun ix => mkC (u (false, ix)) (u (true, ix))).
Definition of_carr (a : arr cplx) : cvec := fun x => if fst x then im (get a (snd x)) else re (get a (snd x)).
(** time_stepping.py:65-66, 91-93 [tree_math.unwrap(equation.explicit_terms)] *)
Definition unwrapped (s : list nat) (f : arr cplx -> result (arr cplx)) (u : cvec) : cvec :=
  match f (to_carr s u) with Ok a => of_carr a | Err _ => vzero end.
(** equations.py:129-190 [NavierStokes2D] as an ImplicitExplicitODE *)
Definition ns2d_F (g : grid) (s : list nat) (smooth : option bool) (forcing : option (arr R -> arr R -> result (arr R * arr R))) : cvec -> cvec :=
  unwrapped s (ns2d_explicit_terms g smooth forcing).
Definition ns2d_G (g : grid) (s : list nat) (viscosity drag : R) : cvec -> cvec :=
  unwrapped s (ns2d_implicit_terms g viscosity drag).
Definition ns2d_Ginv (g : grid) (s : list nat) (viscosity drag : R) (u : cvec) (h : R) : cvec :=
  unwrapped s (fun a => ns2d_implicit_solve g viscosity drag a h) u.
(** equations.py:35-71 [KuramotoSivashinsky] as an ImplicitExplicitODE *)
Definition ks_F (g : grid) (s : list nat) (smooth : bool) : cvec -> cvec := unwrapped s (ks_explicit_terms g smooth).
Definition ks_G (g : grid) (s : list nat) : cvec -> cvec := unwrapped s (ks_implicit_terms g).
Definition ks_Ginv (g : grid) (s : list nat) (u : cvec) (h : R) : cvec := unwrapped s (fun a => ks_implicit_solve g a h) u.
(** equations.py:223-257 [NonlinearSchrodinger] as an ImplicitExplicitODE *)
Definition nls_F (g : grid) (s : list nat) (smooth : bool) : cvec -> cvec := unwrapped s (nls_explicit_terms g smooth).
Definition nls_G (g : grid) (s : list nat) : cvec -> cvec := unwrapped s (nls_implicit_terms g).
Definition nls_Ginv (g : grid) (s : list nat) (u : cvec) (h : R) : cvec := unwrapped s (fun a => nls_implicit_solve g a h) u.

(** The step functions of time_stepping.py, 54-78 [backward_forward_euler], 81-114 [crank_nicolson_rk2],
    117-170 [low_storage_runge_kutta_crank_nicolson] (any coefficients; 173-197 are two instances) and
    216-259 [imex_runge_kutta] (any tableau; 262-291 is one instance). *)
Inductive spectral_scheme :=
  | BackwardForwardEuler
  | CrankNicolsonRK2
  | LowStorage (alphas betas gammas : list R)
  | Imex (t : imex_tableau).
Definition spectral_step {X} (k : spectral_scheme) (F G : vec X -> vec X) (Ginv : vec X -> R -> vec X) (dt : R) (u : vec X) : result (vec X) :=
  match k with
  | BackwardForwardEuler => Ok (backward_forward_euler F Ginv dt u)
  | CrankNicolsonRK2 => Ok (crank_nicolson_rk2 F G Ginv dt u)
  | LowStorage al be ga => low_storage_rk_cn al be ga F G Ginv dt u
  | Imex t => let* r := imex_runge_kutta t F G Ginv dt u in Ok (fst (fst r))
  end.
Fixpoint spectral_steps {X} (k : spectral_scheme) (F G : vec X -> vec X) (Ginv : vec X -> R -> vec X) (dt : R) (steps : nat) (u : vec X) : result (vec X) :=
  match steps with
  | O => Ok u
  | S n => let* v := spectral_steps k F G Ginv dt n u in spectral_step k F G Ginv dt v
  end.
(** time_stepping.py:262-291 [imex_rk_sil3]: its tableau (the same as TimeStep_model's [imex_rk_sil3]) *)
Definition sil3_tableau : imex_tableau :=
  mkimex [[1 / 3]; [1 / 6; 1 / 2]; [1 / 2; - (1 / 2); 1]]%R [[1 / 6; 1 / 6]; [1 / 3; 0; 1 / 3]; [3 / 8; 0; 3 / 8; 1 / 4]]%R
         [1 / 2; - (1 / 2); 1; 0]%R [3 / 8; 0; 3 / 8; 1 / 4]%R.
(** [funcutils.repeated] (base/funcutils.py:82-88 [repeated]) of a step function of equations.py's equations, on arrays. *)
Definition ns2d_run (g : grid) (smooth : option bool) (forcing : option (arr R -> arr R -> result (arr R * arr R))) (viscosity drag : R)
    (k : spectral_scheme) (dt : R) (steps : nat) (w : arr cplx) : result (arr cplx) :=
  let s := shp w in
  let* v := spectral_steps k (ns2d_F g s smooth forcing) (ns2d_G g s viscosity drag) (ns2d_Ginv g s viscosity drag) dt steps (of_carr w) in
  Ok (to_carr s v).
Definition ks_run (g : grid) (smooth : bool) (k : spectral_scheme) (dt : R) (steps : nat) (u : arr cplx) : result (arr cplx) :=
  let s := shp u in
  let* v := spectral_steps k (ks_F g s smooth) (ks_G g s) (ks_Ginv g s) dt steps (of_carr u) in
  Ok (to_carr s v).
Definition nls_run (g : grid) (smooth : bool) (k : spectral_scheme) (dt : R) (steps : nat) (psi : arr cplx) : result (arr cplx) :=
  let s := shp psi in
  let* v := spectral_steps k (nls_F g s smooth) (nls_G g s) (nls_Ginv g s) dt steps (of_carr psi) in
  Ok (to_carr s v).
(** equations.py:74-112 [ForcedBurgersEquation] as an ImplicitExplicitODE: the state is a pair of the spectrum and the time
    ([None]). *)
Definition bvec := vec (option (bool * list Z)).
Definition to_bstate (s : list nat) (u : bvec) : arr cplx * R := (to_carr s (fun x => u (Some x)), u None).
Definition of_bstate (a : arr cplx * R) : bvec := fun x => match x with Some x => of_carr (fst a) x | None => snd a end.
Definition unwrapped_pair (s : list nat) (f : arr cplx * R -> result (arr cplx * R)) (u : bvec) : bvec :=
  match f (to_bstate s u) with Ok a => of_bstate a | Err _ => vzero end.
Definition burgers_F (g : grid) (s : list nat) (forcing : option (R -> arr R)) : bvec -> bvec := unwrapped_pair s (burgers_explicit_terms g forcing).
Definition burgers_G (g : grid) (s : list nat) (viscosity : R) : bvec -> bvec := unwrapped_pair s (burgers_implicit_terms g viscosity).
Definition burgers_Ginv (g : grid) (s : list nat) (viscosity : R) (u : bvec) (h : R) : bvec := unwrapped_pair s (fun a => burgers_implicit_solve g viscosity a h) u.
Definition burgers_run (g : grid) (forcing : option (R -> arr R)) (viscosity : R) (k : spectral_scheme) (dt : R) (steps : nat) (state : arr cplx * R) : result (arr cplx * R) :=
  let s := shp (fst state) in
  let* v := spectral_steps k (burgers_F g s forcing) (burgers_G g s viscosity) (burgers_Ginv g s viscosity) dt steps (of_bstate state) in
  Ok (to_bstate s v).
