(** Generated by tools/gen.py from TimeStepProps.v: property theorems only. *)
From Verif Require Import Prelude NdArr Grids_model Spec Boundaries_model FD_model PRep FDProofs TimeStep_model Func_model FuncProps.
From Verif Require Import TimeStepProps.
Local Open Scope nat_scope.
Set Implicit Arguments.

(** C35. For every Butcher tableau with n stages and long enough rows, every explicit term F, projection P, time step and state, the step function returns exactly P(u0 + dt * sum_j b_j F(u_j)) where u_0 = u0 and u_i = P(u0 + dt * sum_{j<i} a_ij F(u_j)) (zero coefficients included in the sums); these stages always exist. In particular the returned state is in the image of the projection. *)
Theorem rk_step_is_tableau : forall X a b t (F P : vec X -> vec X) dt u0,
  butcher_tableau a b = Ok t -> full_rows 0 a ->
  (exists U, rk_stages a (length b) F P dt u0 U) /\
  (forall U, rk_stages a (length b) F P dt u0 U ->
     navier_stokes_rk t F P dt u0 = Ok (P (fun x => u0 x + dt * nsum (length b) (fun j => weight b j * F (U j) x))%R)) /\
  (exists w, navier_stokes_rk t F P dt u0 = Ok (P w)).
Proof. exact (@rk_step_is_tableau_lem). Qed.
Print Assumptions rk_step_is_tableau.

(** The hypotheses are met by a concrete case. *)
Example rk_step_is_tableau_ex :
  exists t, butcher_tableau [[(1 / 2)%R]; [0%R; (3 / 4)%R]] [(2 / 9)%R; (1 / 3)%R; (4 / 9)%R] = Ok t /\
    full_rows 0 [[(1 / 2)%R]; [0%R; (3 / 4)%R]].
Proof. exact (@rk_step_is_tableau_ex_lem). Qed.

(** C35. A tableau is accepted exactly when it has one row of coefficients fewer than it has weights; otherwise ValueError. *)
Theorem butcher_tableau_check : forall a b,
  (is_ok (butcher_tableau a b) <-> length a + 1 = length b) /\
  (length a + 1 <> length b -> butcher_tableau a b = Err EValue).
Proof. exact (@butcher_tableau_check_lem). Qed.
Print Assumptions butcher_tableau_check.

(** The hypotheses are met by a concrete case. *)
Example butcher_tableau_check_ex : butcher_tableau [[1%R]] [1%R] = Err EValue /\ is_ok (butcher_tableau [[1%R]] [0%R; 1%R]).
Proof. exact (@butcher_tableau_check_ex_lem). Qed.

(** C35. The named schemes are: forward_euler P(u + dt F(u)); midpoint_rk2 P(u + dt F(P(u + dt/2 F(u)))); heun_rk2 P(u + dt/2 (F(u) + F(P(u + dt F(u))))); classic_rk4 the classical fourth-order scheme with a projection after every stage. *)
Theorem rk_named_schemes : forall X (F P : vec X -> vec X) dt u,
  forward_euler F P dt u = Ok (P (fun x => u x + dt * F u x)%R) /\
  midpoint_rk2 F P dt u = Ok (P (fun x => u x + dt * F (P (fun y => u y + dt * (1 / 2 * F u y))) x)%R) /\
  heun_rk2 F P dt u = Ok (P (fun x => u x + dt * (1 / 2 * F u x + 1 / 2 * F (P (fun y => u y + dt * F u y)) x))%R) /\
  (let u1 := P (fun x => u x + dt * (1 / 2 * F u x))%R in
   let u2 := P (fun x => u x + dt * (1 / 2 * F u1 x))%R in
   let u3 := P (fun x => u x + dt * F u2 x)%R in
   classic_rk4 F P dt u = Ok (P (fun x => u x + dt * (1 / 6 * F u x + 1 / 3 * F u1 x + 1 / 3 * F u2 x + 1 / 6 * F u3 x))%R)).
Proof. exact (@rk_named_schemes_lem). Qed.
Print Assumptions rk_named_schemes.

(** The hypotheses are met by a concrete case. *)
Example rk_named_schemes_ex :
  heun_rk2 (fun u x => 2 * u x)%R (fun u => u) (1 / 2)%R (fun _ : unit => 3%R) = Ok (fun _ => (15 / 2)%R).
Proof. exact (@rk_named_schemes_ex_lem). Qed.

(** C36. For a linear explicit term F, a linear projection P and a state u with P u = u, the schemes return exactly the Taylor polynomial of exp(dt * PF) applied to u, of degree 1 (forward_euler), 2 (midpoint_rk2, heun_rk2) and 4 (classic_rk4). *)
Theorem rk_taylor : forall X (F P : vec X -> vec X) dt u,
  linear F -> linear P -> P u = u ->
  let A := fun v => P (F v) in
  forward_euler F P dt u = Ok (taylor A dt 1 u) /\
  midpoint_rk2 F P dt u = Ok (taylor A dt 2 u) /\
  heun_rk2 F P dt u = Ok (taylor A dt 2 u) /\
  classic_rk4 F P dt u = Ok (taylor A dt 4 u).
Proof. exact (@rk_taylor_lem). Qed.
Print Assumptions rk_taylor.

(** The hypotheses are met by a concrete case. *)
Example rk_taylor_ex :
  let F := fun (u : vec bool) (x : bool) => if x then (3 * u false)%R else (2 * u true + u false)%R in
  let P := fun (u : vec bool) (x : bool) => ((u true + u false) / 2)%R in
  linear F /\ linear P /\ P (fun _ => 5%R) = (fun _ : bool => 5%R).
Proof. exact (@rk_taylor_ex_lem). Qed.

(** C36. A state that the projection fixes and whose explicit tendency vanishes is returned unchanged by every scheme built on any accepted tableau with long enough rows. *)
Theorem rk_steady_state : forall X a b t (F P : vec X -> vec X) dt u,
  butcher_tableau a b = Ok t -> full_rows 0 a -> P u = u -> F u = vzero ->
  navier_stokes_rk t F P dt u = Ok u.
Proof. exact (@rk_steady_state_lem). Qed.
Print Assumptions rk_steady_state.

(** The hypotheses are met by a concrete case. *)
Example rk_steady_state_ex :
  classic_rk4 (fun (u : vec unit) x => 1 - u x)%R (fun u => u) 3%R (fun _ => 1%R) = Ok (fun _ => 1%R).
Proof. exact (@rk_steady_state_ex_lem). Qed.

(** C36. Convergence at the stated order: for u' = lambda u (componentwise, no constraint) integrated to time T in n equal steps, the error of forward_euler, midpoint_rk2, heun_rk2 and classic_rk4 against exp(lambda T) u is at most 3 exp(|lambda T|) |lambda T|^(p+1) |u| / n^p with p = 1, 2, 2, 4. *)
Theorem rk_convergence : forall X (lam : vec X) T n (u : vec X) x,
  0 < n -> (Rabs (lam x * T) <= INR n)%R ->
  let F := fun (v : vec X) y => (lam y * v y)%R in
  let P := fun v : vec X => v in
  let dt := (T / INR n)%R in
  let within p r := exists w, r = Ok w /\
    (Rabs (w x - exp (lam x * T) * u x) <= 3 * exp (Rabs (lam x * T)) * Rabs (lam x * T) ^ (p + 1) / INR n ^ p * Rabs (u x))%R in
  within 1 (steps (forward_euler F P dt) n u) /\ within 2 (steps (midpoint_rk2 F P dt) n u) /\
  within 2 (steps (heun_rk2 F P dt) n u) /\ within 4 (steps (classic_rk4 F P dt) n u).
Proof. exact (@rk_convergence_lem). Qed.
Print Assumptions rk_convergence.

(** The hypotheses are met by a concrete case. *)
Example rk_convergence_ex : (0 < 4 /\ Rabs (2 * 1) <= INR 4)%R.
Proof. exact (@rk_convergence_ex_lem). Qed.

(** C37. backward_forward_euler returns u1 with u1 = u0 + dt F(u0) + dt G(u1), when implicit_solve solves its equation for this step size. *)
Theorem backward_forward_euler_equation : forall X (F G : vec X -> vec X) Ginv dt u0,
  solves G Ginv dt ->
  let u1 := backward_forward_euler F Ginv dt u0 in
  forall x, u1 x = (u0 x + dt * F u0 x + dt * G u1 x)%R.
Proof. exact (@backward_forward_euler_equation_lem). Qed.
Print Assumptions backward_forward_euler_equation.

(** The hypotheses are met by a concrete case. *)
Example backward_forward_euler_equation_ex :
  solves (fun (v : vec unit) x => -2 * v x)%R (fun y h x => y x / (1 + 2 * h))%R (1 / 4)%R.
Proof. exact (@backward_forward_euler_equation_ex_lem). Qed.

(** C37. crank_nicolson_rk2 returns u2 with u2 = u0 + dt/2 (F(u0) + F(u1)) + dt/2 (G(u0) + G(u2)), where u1 = u0 + dt F(u0) + dt/2 (G(u0) + G(u1)). *)
Theorem crank_nicolson_rk2_equation : forall X (F G : vec X -> vec X) Ginv dt u0,
  solves G Ginv (1 / 2 * dt)%R ->
  let u2 := crank_nicolson_rk2 F G Ginv dt u0 in
  exists u1, (forall x, u1 x = (u0 x + dt * F u0 x + dt / 2 * (G u0 x + G u1 x))%R) /\
    (forall x, u2 x = (u0 x + dt / 2 * (F u0 x + F u1 x) + dt / 2 * (G u0 x + G u2 x))%R).
Proof. exact (@crank_nicolson_rk2_equation_lem). Qed.
Print Assumptions crank_nicolson_rk2_equation.

(** The hypotheses are met by a concrete case. *)
Example crank_nicolson_rk2_equation_ex :
  solves (fun (v : vec unit) x => -2 * v x)%R (fun y h x => y x / (1 + 2 * h))%R (1 / 2 * 3)%R.
Proof. exact (@crank_nicolson_rk2_equation_ex_lem). Qed.

(** C37. With lists of lengths s+1, s, s and implicit_solve solving its equation for the s step sizes dt/2 (alpha_(k+1) - alpha_k), the low-storage Runge-Kutta/Crank-Nicolson stepper returns the last state of its defining recursion (each substep: low-storage Runge-Kutta for F and Crank-Nicolson for G). *)
Theorem low_storage_equations : forall X alphas betas gammas (F G : vec X -> vec X) Ginv dt u0,
  length alphas = length betas + 1 -> length gammas = length betas ->
  (forall k, k < length betas -> solves G Ginv (1 / 2 * dt * (nth (S k) alphas 0 - nth k alphas 0))%R) ->
  exists h u, low_storage_stages alphas betas gammas F G dt u0 h u /\
    low_storage_rk_cn alphas betas gammas F G Ginv dt u0 = Ok (u (length betas)).
Proof. exact (@low_storage_equations_lem). Qed.
Print Assumptions low_storage_equations.

(** The hypotheses are met by a concrete case. *)
Example low_storage_equations_ex :
  let al := [0; 1 / 3; 3 / 4; 1]%R in let be := [0; - (5 / 9); - (153 / 128)]%R in let ga := [1 / 3; 15 / 16; 8 / 15]%R in
  length al = length be + 1 /\ length ga = length be /\
  forall k, k < length be -> solves (fun (v : vec unit) x => -2 * v x)%R (fun y h x => y x / (1 + 2 * h))%R (1 / 2 * 1 * (nth (S k) al 0 - nth k al 0))%R.
Proof. exact (@low_storage_equations_ex_lem). Qed.

(** C37. The coefficient-length check of the low-storage stepper is meant to require lengths s+1, s, s, but lists of lengths 3, 2, 3 (more generally any gammas when the alphas match the betas) are accepted and the extra coefficients silently ignored. *)
Theorem low_storage_length_check_refuted :
  ~ (forall (alphas betas gammas : list R),
       ~ (length alphas = length betas + 1 /\ length gammas = length betas) ->
       low_storage_rk_cn alphas betas gammas (fun u : vec unit => u) (fun u => u) (fun y _ => y) 1%R vzero = Err EValue).
Proof. exact (@low_storage_length_check_refuted_lem). Qed.
Print Assumptions low_storage_length_check_refuted.

(** C38. For every accepted tableau with long enough rows, imex_runge_kutta returns exactly y0 + dt sum_j b_ex_j F(Y_j) + dt sum_j b_im_j G(Y_j), the sums over all stages, with Y_0 = y0 and Y_i = implicit_solve(y0 + dt sum_{j<i} a_ex_ij F(Y_j) + dt sum_{j<i} a_im_ij G(Y_j), dt a_im_ii); it evaluates explicit_terms (implicit_terms) once at stage 0 and once at exactly those other stages whose explicit (implicit) coefficient is nonzero in some later stage or in the final sum. *)
Theorem imex_full_sum : forall X a_ex a_im b_ex b_im t (F G : vec X -> vec X) Ginv dt y0,
  imex_butcher_tableau a_ex a_im b_ex b_im = Ok t -> full_rows 0 a_ex -> full_rows 1 a_im ->
  let n := length b_ex in
  (exists Y, imex_stages t F G Ginv dt y0 Y) /\
  forall Y, imex_stages t F G Ginv dt y0 Y ->
  exists lf lg,
    imex_runge_kutta t F G Ginv dt y0 =
      Ok (fun x => y0 x + dt * nsum n (fun j => weight b_ex j * F (Y j) x) + dt * nsum n (fun j => weight b_im j * G (Y j) x), lf, lg)%R /\
    NoDup lf /\ NoDup lg /\
    (forall i, In i lf <-> i = 0 \/ (1 <= i < n /\ used a_ex b_ex n i)) /\
    (forall i, In i lg <-> i = 0 \/ (1 <= i < n /\ used a_im b_im n i)).
Proof. exact (@imex_full_sum_lem). Qed.
Print Assumptions imex_full_sum.

(** The hypotheses are met by a concrete case. *)
Example imex_full_sum_ex :
  exists t, imex_butcher_tableau [[1%R]; [0%R; (1 / 2)%R]] [[0%R; 1%R]; [(1 / 2)%R; 0%R; (1 / 2)%R]] [(1 / 2)%R; 0%R; (1 / 2)%R] [(1 / 2)%R; 0%R; (1 / 2)%R] = Ok t /\
    full_rows 0 [[1%R]; [0%R; (1 / 2)%R]] /\ full_rows 1 [[0%R; 1%R]; [(1 / 2)%R; 0%R; (1 / 2)%R]].
Proof. exact (@imex_full_sum_ex_lem). Qed.

(** C38. If moreover implicit_solve solves its equation for the step sizes dt a_im_ii, every stage satisfies the full implicit-explicit equation Y_i = y0 + dt sum_{j<i} a_ex_ij F(Y_j) + dt sum_{j<=i} a_im_ij G(Y_j). *)
Theorem imex_stage_equation : forall X t (F G : vec X -> vec X) Ginv dt y0 Y i x,
  imex_stages t F G Ginv dt y0 Y -> 1 <= i < length (ib_ex t) ->
  solves G Ginv (dt * coef (ia_im t) i i)%R ->
  (Y i x = y0 x + dt * nsum i (fun j => coef (ia_ex t) i j * F (Y j) x) + dt * nsum (S i) (fun j => coef (ia_im t) i j * G (Y j) x))%R.
Proof. exact (@imex_stage_equation_lem). Qed.
Print Assumptions imex_stage_equation.

(** The hypotheses are met by a concrete case. *)
Example imex_stage_equation_ex :
  solves (fun (v : vec unit) x => -2 * v x)%R (fun y h x => y x / (1 + 2 * h))%R (1 * coef [[1 / 6; 1 / 6]%R] 1 1)%R.
Proof. exact (@imex_stage_equation_ex_lem). Qed.

(** C38. A tableau is accepted exactly when the two weight lists have equal length n and both coefficient lists have n-1 rows; otherwise ValueError. *)
Theorem imex_tableau_check : forall a_ex a_im b_ex b_im,
  let good := length b_ex = length b_im /\ length a_ex + 1 = length b_ex /\ length a_im + 1 = length b_im in
  (good -> imex_butcher_tableau a_ex a_im b_ex b_im = Ok (mkimex a_ex a_im b_ex b_im)) /\
  (~ good -> imex_butcher_tableau a_ex a_im b_ex b_im = Err EValue).
Proof. exact (@imex_tableau_check_lem). Qed.
Print Assumptions imex_tableau_check.

(** The hypotheses are met by a concrete case. *)
Example imex_tableau_check_ex :
  imex_butcher_tableau [[1%R]] [[0%R; 1%R]] [1%R; 0%R] [1%R; 0%R; 0%R] = Err EValue /\ is_ok (imex_butcher_tableau [[1%R]] [[0%R; 1%R]] [1%R; 0%R] [1%R; 0%R]).
Proof. exact (@imex_tableau_check_ex_lem). Qed.

(** C38. Whatever the tableau (also with rows that are too short, which raise IndexError), imex_runge_kutta never reads a stage value it has not computed. *)
Theorem imex_never_reads_missing_stage : forall X a_ex a_im b_ex b_im t (F G : vec X -> vec X) Ginv dt y0,
  imex_butcher_tableau a_ex a_im b_ex b_im = Ok t -> imex_runge_kutta t F G Ginv dt y0 <> Err EUnbound.
Proof. exact (@imex_never_reads_missing_stage_lem). Qed.
Print Assumptions imex_never_reads_missing_stage.

(** The hypotheses are met by a concrete case. *)
Example imex_never_reads_missing_stage_ex : is_ok (imex_butcher_tableau [[1%R]; [0%R]] [[0%R; 1%R]; []] [1%R; 0%R; 0%R] [1%R; 0%R; 1%R]).
Proof. exact (@imex_never_reads_missing_stage_ex_lem). Qed.
