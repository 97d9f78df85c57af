(** * Model of jax_cfd/spectral/utils.py, jax_cfd/spectral/equations.py and Grid's Fourier axes (base/grids.py)

    jnp.fft is the exact discrete Fourier transform of FastDiag_model.v.  Multiplication of arrays of different shapes
    (broadcasting) is not modelled: [EShape].  Division by zero in arrays is nan in the code; here it is whatever [Cinv]
    and [/] give, and the theorems show that it does not happen or exclude it. *)
From Verif Require Import Prelude NdArr LinAlg Cplx Grids_model FastDiag_model ArrayUtils_model.
Set Implicit Arguments.
Local Open Scope Z_scope.

(** [jnp.fft.fftfreq(n, d)] and [jnp.fft.rfftfreq(n, d)] as index functions (of lengths n and n/2+1). *)
Definition fftfreq (n : nat) (d : R) (i : Z) : R :=
  (IZR (if (i <? (Z.of_nat n - 1) / 2 + 1)%Z then i else (i - Z.of_nat n)%Z) / (INR n * d))%R.
Definition rfftfreq (n : nat) (d : R) (i : Z) : R := (IZR i / (INR n * d))%R.
(** grids.py:604-616 [Grid.fft_axes] *)
Definition fft_axes (g : grid) : list (nat * (Z -> R)) :=
  map (fun ns => (fst ns, fftfreq (fst ns) (snd ns))) (combine (gshape g) (gstep g)).
(** grids.py:618-638 [Grid.rfft_axes]; a grid has at least one axis *)
Definition rfft_axes (g : grid) : list (nat * (Z -> R)) :=
  map (fun ns => (fst ns, fftfreq (fst ns) (snd ns))) (combine (removelast (gshape g)) (removelast (gstep g))) ++
  [((last (gshape g) 0%nat / 2 + 1)%nat, rfftfreq (last (gshape g) 0%nat) (last (gstep g) 0%R))].
(** grids.py:655-658 [Grid.rfft_mesh] *)
Definition rfft_mesh (g : grid) : list (arr R) :=
  let axes := rfft_axes g in
  map (fun nx => mkarr (map fst axes) (fun ix => snd (snd nx) (nth (fst nx) ix 0))) (combine (seq 0 (length axes)) axes).

(** Elementwise operation of two arrays. *)
Definition ew {A B C} (f : A -> B -> C) (a : arr A) (b : arr B) : result (arr C) :=
  if shape_eqb (shp a) (shp b) then Ok (amap2 f a b) else Err EShape.
(** [x\[start:stop\]] of a one-dimensional array *)
Definition slice1 {A} (a : arr A) (start stop : option Z) : arr A :=
  let n := nth 0 (shp a) 0%nat in
  mkarr [slice_count n start stop 1] (fun ix => get a [slice_start n start + nth 0 ix 0]).

(** utils.py:24-36 [truncated_rfft].  [int(2 / 3 * k)] in double precision is the exact floor. *)
Definition truncated_rfft (u : arr R) : result (arr cplx) :=
  match shp u with
  | [n] =>
      if (n =? 0)%nat then Err EValue
      else let uhat := rfftn u in
           let k := nth 0 (shp uhat) 0%nat in
           let final_size := (2 * k / 3 + 1)%nat in
           Ok (amap (Cscal (2 / 3)) (slice1 uhat None (Some (Z.of_nat final_size))))
  | _ => Err EValue
  end.
(** utils.py:39-53 [padded_irfft].  [irfft] of fewer than two entries raises. *)
Definition padded_irfft (uhat : arr cplx) : result (arr R) :=
  match shp uhat with
  | [n] =>
      let final_shape := (3 * n / 2)%nat in
      let smoothed := mkarr [final_shape] (fun ix => if nth 0 ix 0 <? Z.of_nat n then get uhat ix else C0) in
      if (final_shape <? 2)%nat then Err EValue
      else Ok (amap (Rmult (3 / 2)) (irfftn smoothed))
  | _ => Err EValue
  end.
(** [jnp.fft.fftshift], [jnp.fft.ifftshift] of one-dimensional arrays: rolls by [n//2] and [-(n//2)]. *)
Definition fftshift (a : arr cplx) : arr cplx :=
  let n := nth 0 (shp a) 0%nat in mkarr (shp a) (fun ix => get a [(nth 0 ix 0 - Z.of_nat (n / 2)) mod Z.of_nat n]).
Definition ifftshift (a : arr cplx) : arr cplx :=
  let n := nth 0 (shp a) 0%nat in mkarr (shp a) (fun ix => get a [(nth 0 ix 0 + Z.of_nat (n / 2)) mod Z.of_nat n]).
(** utils.py:56-68 [truncated_fft_2x] *)
Definition truncated_fft_2x (u : arr cplx) : result (arr cplx) :=
  match shp u with
  | [k] =>
      if (k =? 0)%nat then Err EValue
      else let uhat := fftshift (fftn u) in
           let final_size := (Z.of_nat k + 1) / 2 in
           Ok (amap (Cscal (/ 2)) (ifftshift (slice1 uhat (Some (final_size / 2)) (Some ((- final_size + 1) / 2)))))
  | _ => Err EValue
  end.
(** utils.py:71-89 [padded_ifft_2x] *)
Definition padded_ifft_2x (uhat : arr cplx) : result (arr cplx) :=
  match shp uhat with
  | [n] =>
      let final_size := (n + 2 * (n / 2))%nat in
      let added := Z.of_nat (n / 2) in
      let shifted := fftshift uhat in
      let smoothed := mkarr [final_size] (fun ix => let i := nth 0 ix 0 - added in
                                                    if (0 <=? i) && (i <? Z.of_nat n) then get shifted [i] else C0) in
      if (final_size =? 0)%nat then Err EValue
      else Ok (amap (Cscal 2) (ifftn (ifftshift smoothed)))
  | _ => Err EValue
  end.
(** utils.py:92-125 [circular_filter_2d] *)
Definition circular_filter_2d (g : grid) : result (arr R) :=
  match rfft_mesh g with
  | [kx; ky] =>
      let max_k := get ky [Z.of_nat (nth 0 (shp ky) 0%nat) - 1; Z.of_nat (nth 1 (shp ky) 0%nat) - 1] in
      let cphi := (13 / 20 * max_k)%R in
      Ok (amap2 (fun x y => let circle := sqrt (x ^ 2 + y ^ 2) in
                            if Rle_dec circle cphi then 1%R else exp (- (118 / 5) * (circle - cphi) ^ 4)%R) kx ky)
  | _ => Err EValue
  end.
(** [filter_.at\[rows, cols\].set(1)] with slices *)
Definition set_block (a : arr R) (r1 r2 c1 c2 : option Z) : arr R :=
  let n := nth 0 (shp a) 0%nat in let m := nth 1 (shp a) 0%nat in
  mkarr (shp a) (fun ix => let i := nth 0 ix 0 in let j := nth 1 ix 0 in
    if (slice_start n r1 <=? i) && (i <? slice_stop n r2) && (slice_start m c1 <=? j) && (j <? slice_stop m c2) then 1%R else get a ix).
(** utils.py:128-134 [brick_wall_filter_2d]; [int(2 / 3 * n)] is the exact floor. *)
Definition brick_wall_filter_2d (g : grid) : result (arr R) :=
  match gshape g with
  | [n; m] =>
      let two_thirds (k : nat) : Z := 2 * Z.of_nat k / 3 in
      let filter := afull [n; (m / 2 + 1)%nat] 0%R in
      let filter := set_block filter None (Some (two_thirds n / 2)) None (Some (two_thirds (m / 2 + 1)%nat)) in
      Ok (set_block filter (Some ((- two_thirds n) / 2)) None None (Some (two_thirds (m / 2 + 1)%nat)))
  | _ => Err EValue
  end.
(** utils.py:137-151 [exponential_filter], for an integer [order]. *)
Definition exponential_sigma (n : nat) (alpha : R) (order : nat) : arr R :=
  mkarr [n; (n / 2 + 1)%nat] (fun ix =>
    let eta := sqrt (fftfreq n 1 (nth 0 ix 0%Z) ^ 2 + rfftfreq n 1 (nth 1 ix 0%Z) ^ 2) in
    exp (- (- ln alpha) * eta ^ (2 * order))%R).
Definition exponential_filter (signal : arr R) (alpha : R) (order : nat) : result (arr R) :=
  match shp signal with
  | [n; _] =>
      let* p := ew Cscal (exponential_sigma n alpha order) (rfftn signal) in
      Ok (irfftn p)
  | _ => Err EValue
  end.
(** utils.py:154-189 [vorticity_to_velocity].  [velocity_laplace] is the array [laplace] that is divided by (180-181). *)
Definition two_pi_i : cplx := mkC 0 (2 * PI).
Definition velocity_laplace (kx ky : arr R) : arr cplx :=
  let laplace := amap2 (fun x y => Cmul (Cmul two_pi_i two_pi_i) (RtoC (Rabs x ^ 2 + Rabs y ^ 2))) kx ky in
  mkarr (shp laplace) (fun ix => if (nth 0 ix 0 =? 0) && (nth 1 ix 0 =? 0) then C1 else get laplace ix).
Definition vorticity_to_velocity (g : grid) (vorticity_hat : arr cplx) : result (arr cplx * arr cplx) :=
  match rfft_mesh g with
  | [kx; ky] =>
      let laplace := velocity_laplace kx ky in
      let* psi_hat := ew (fun l w => Cmul (Cdiv (Copp C1) l) w) laplace vorticity_hat in
      let* vxhat := ew (fun y p => Cmul (Cmul two_pi_i (RtoC y)) p) ky psi_hat in
      let* vyhat := ew (fun x p => Cmul (Cmul (Copp two_pi_i) (RtoC x)) p) kx psi_hat in
      Ok (vxhat, vyhat)
  | _ => Err EValue
  end.
(** utils.py:192-196 [filter_step] *)
Definition filter_step (step_fn : arr cplx -> result (arr cplx)) (filter : arr R) (state : arr cplx) : result (arr cplx) :=
  let* s := step_fn state in ew Cscal filter s.
(** utils.py:199-203 [spectral_curl_2d] *)
Definition spectral_curl_2d (kx ky : arr R) (uhat vhat : arr cplx) : result (arr cplx) :=
  let* a := ew (fun v x => Cmul v (RtoC x)) vhat kx in
  let* b := ew (fun u y => Cmul u (RtoC y)) uhat ky in
  let* d := ew Csub a b in
  Ok (amap (Cmul two_pi_i) d).

(** ** equations.py *)
(** [1 / (1 - time_step * linear_term) * uhat] *)
Definition linear_solve (linear_term : arr cplx) (uhat : arr cplx) (time_step : R) : result (arr cplx) :=
  ew (fun l u => Cmul (Cdiv C1 (Csub C1 (Cscal time_step l))) u) linear_term uhat.
(** [x ** k] for an integer [k] *)
Fixpoint Cpow (z : cplx) (k : nat) : cplx := match k with O => C1 | S k => Cmul z (Cpow z k) end.
(** The one-dimensional [kx, = grid.rfft_axes()], as an array times [2j * jnp.pi]. *)
Definition two_pi_i_k (g : grid) : result (arr cplx) :=
  match rfft_axes g with
  | [(n, k)] => Ok (mkarr [n] (fun ix => Cmul two_pi_i (RtoC (k (nth 0 ix 0)))))
  | _ => Err EValue
  end.
(** equations.py:35-71 [KuramotoSivashinsky].  The unsmoothed transforms are [jnp.fft.rfft] and [jnp.fft.irfft]. *)
Definition plain_rfft (u : arr R) : result (arr cplx) := if (nth 0 (shp u) 0 =? 0)%nat then Err EValue else Ok (rfftn u).
Definition plain_irfft (u : arr cplx) : result (arr R) := if (nth 0 (shp u) 0 <? 2)%nat then Err EValue else Ok (irfftn u).
Definition ks_linear_term (g : grid) : result (arr cplx) :=
  let* q := two_pi_i_k g in
  Ok (amap (fun z => Csub (Copp (Cpow z 2)) (Cpow z 4)) q).
Definition ks_explicit_terms (g : grid) (smooth : bool) (uhat : arr cplx) : result (arr cplx) :=
  let* q := two_pi_i_k g in
  let* u := (if smooth then padded_irfft else plain_irfft) uhat in
  let* uhat_squared := (if smooth then truncated_rfft else plain_rfft) (amap (fun x => x ^ 2)%R u) in
  ew (fun z s => Cmul (Cscal (- (1 / 2)) z) s) q uhat_squared.
Definition ks_implicit_terms (g : grid) (uhat : arr cplx) : result (arr cplx) :=
  let* l := ks_linear_term g in ew Cmul l uhat.
Definition ks_implicit_solve (g : grid) (uhat : arr cplx) (time_step : R) : result (arr cplx) :=
  let* l := ks_linear_term g in linear_solve l uhat time_step.
(** equations.py:74-112 [ForcedBurgersEquation] ([forcing = None] is [BurgersEquation], 115-118, which adds the one-entry
    array rfft(zeros(1)) = [0], i.e. nothing).  [forcing t] is the array returned by the forcing function. *)
Definition burgers_linear_term (g : grid) (viscosity : R) : result (arr cplx) :=
  let* q := two_pi_i_k g in Ok (amap (fun z => Cscal viscosity (Cpow z 2)) q).
Definition burgers_explicit_terms (g : grid) (forcing : option (R -> arr R)) (state : arr cplx * R) : result (arr cplx * R) :=
  let '(uhat, t) := state in
  let* q := two_pi_i_k g in
  let* dudx := ew Cmul q uhat in
  let* a := padded_irfft uhat in
  let* b := padded_irfft dudx in
  let* ab := ew Rmult a b in
  let* r := truncated_rfft ab in
  let advection := amap Copp r in
  match forcing with
  | None => Ok (advection, 1%R)
  | Some f => let* fhat := plain_rfft (f t) in
              let* s := ew Cadd fhat advection in Ok (s, 1%R)
  end.
Definition burgers_implicit_terms (g : grid) (viscosity : R) (state : arr cplx * R) : result (arr cplx * R) :=
  let* l := burgers_linear_term g viscosity in
  let* r := ew Cmul l (fst state) in Ok (r, 0%R).
Definition burgers_implicit_solve (g : grid) (viscosity : R) (state : arr cplx * R) (time_step : R) : result (arr cplx * R) :=
  let* l := burgers_linear_term g viscosity in
  let* r := linear_solve l (fst state) time_step in Ok (r, snd state).
(** equations.py:129-190 [NavierStokes2D].  [smooth = None] is Python's None: line 172 tests [is not None].
    [forcing vx vy] is the forcing function applied to the two velocity arrays. *)
Definition ns2d_linear_term (g : grid) (viscosity drag : R) : result (arr cplx) :=
  match rfft_mesh g with
  | [kx; ky] => Ok (amap2 (fun x y => Csub (Cscal viscosity (Cmul (Cpow two_pi_i 2) (RtoC (x ^ 2 + y ^ 2)))) (RtoC drag)) kx ky)
  | _ => Err EValue
  end.
Definition ns2d_explicit_terms (g : grid) (smooth : option bool) (forcing : option (arr R -> arr R -> result (arr R * arr R)))
    (vorticity_hat : arr cplx) : result (arr cplx) :=
  match rfft_mesh g with
  | [kx; ky] =>
      let* filter := brick_wall_filter_2d g in
      let* v := vorticity_to_velocity g vorticity_hat in
      let vx := irfftn (fst v) in let vy := irfftn (snd v) in
      let* grad_x_hat := ew (fun x w => Cmul (Cmul two_pi_i (RtoC x)) w) kx vorticity_hat in
      let* grad_y_hat := ew (fun y w => Cmul (Cmul two_pi_i (RtoC y)) w) ky vorticity_hat in
      let grad_x := irfftn grad_x_hat in let grad_y := irfftn grad_y_hat in
      let* a := ew Rmult grad_x vx in
      let* b := ew Rmult grad_y vy in
      let* s := ew Rplus a b in
      let advection_hat := rfftn (amap Ropp s) in
      let* terms := match smooth with None => Ok advection_hat | Some _ => ew (fun h f => Cscal f h) advection_hat filter end in
      match forcing with
      | None => Ok terms
      | Some f => let* fxy := f vx vy in
                  let* c := spectral_curl_2d kx ky (rfftn (fst fxy)) (rfftn (snd fxy)) in
                  ew Cadd terms c
      end
  | _ => Err EValue
  end.
Definition ns2d_implicit_terms (g : grid) (viscosity drag : R) (vorticity_hat : arr cplx) : result (arr cplx) :=
  let* l := ns2d_linear_term g viscosity drag in ew Cmul l vorticity_hat.
Definition ns2d_implicit_solve (g : grid) (viscosity drag : R) (vorticity_hat : arr cplx) (time_step : R) : result (arr cplx) :=
  let* l := ns2d_linear_term g viscosity drag in linear_solve l vorticity_hat time_step.
(** equations.py:223-257 [NonlinearSchrodinger] *)
Definition nls_two_pi_i_k (g : grid) : result (arr cplx) :=
  match fft_axes g with
  | [(n, k)] => if (n mod 2 =? 0)%nat then Ok (mkarr [n] (fun ix => Cmul two_pi_i (RtoC (k (nth 0 ix 0))))) else Err EAssert
  | _ => Err EValue
  end.
Definition Ci : cplx := mkC 0 1.
Definition plain_fft (u : arr cplx) : result (arr cplx) := if (nth 0 (shp u) 0 =? 0)%nat then Err EValue else Ok (fftn u).
Definition plain_ifft (u : arr cplx) : result (arr cplx) := if (nth 0 (shp u) 0 =? 0)%nat then Err EValue else Ok (ifftn u).
Definition nls_explicit_terms (g : grid) (smooth : bool) (psihat : arr cplx) : result (arr cplx) :=
  let* _ := nls_two_pi_i_k g in
  let* psi := (if smooth then padded_ifft_2x else plain_ifft) psihat in
  let ipsi_cubed := amap (fun p => Cscal (Cabs p ^ 2) (Cmul Ci p)) psi in
  let* h := (if smooth then truncated_fft_2x else plain_fft) ipsi_cubed in
  Ok (amap (fun z => Cscal (/ 2) (Copp z)) h).
Definition nls_implicit_terms (g : grid) (psihat : arr cplx) : result (arr cplx) :=
  let* q := nls_two_pi_i_k g in ew (fun z p => Cscal (/ 8) (Cmul (Cmul (Copp Ci) p) (Cpow z 2))) q psihat.
Definition nls_implicit_solve (g : grid) (psihat : arr cplx) (time_step : R) : result (arr cplx) :=
  let* q := nls_two_pi_i_k g in
  ew (fun z p => Cdiv p (Csub C1 (Cscal time_step (Cscal (/ 8) (Cmul (Copp Ci) (Cpow z 2)))))) q psihat.
