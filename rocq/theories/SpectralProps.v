(** * C39, C40: spectral equations and the vorticity-velocity inversion *)
From Verif Require Import Prelude NdArr LinAlg Cplx Grids_model FastDiag_model ArrayUtils_model FourierProofs Spectral_model.
Set Implicit Arguments.
Local Open Scope Z_scope.

(** ** Specification vocabulary *)
(** The signed wave number of entry [i] of a full Fourier axis with [n] entries: 0, 1, ..., -2, -1. *)
Definition signed (n : nat) (i : Z) : Z := if 2 * i <? Z.of_nat n then i else i - Z.of_nat n.
(** The ordinal frequency (cycles per unit length) of wave number [k] on an axis of [n] cells of size [h]. *)
Definition freq (n : nat) (h : R) (k : Z) : R := (IZR k / (INR n * h))%R.
(** [g] has n cells of size hx by m cells of size hy. *)
Definition grid2 (g : grid) (n m : nat) (hx hy : R) : Prop :=
  gshape g = [n; m] /\ gstep g = [hx; hy] /\ (0 < n)%nat /\ (0 < m)%nat /\ (0 < hx)%R /\ (0 < hy)%R.
Definition grid1 (g : grid) (n : nat) (h : R) : Prop := gshape g = [n] /\ gstep g = [h] /\ (0 < n)%nat /\ (0 < h)%R.
(** Angular wave number squared: [(2 pi kx)^2 + (2 pi ky)^2]. *)
Definition wave2 (kx ky : R) : R := ((2 * PI * kx) ^ 2 + (2 * PI * ky) ^ 2)%R.
(** [x - dt * gx = y] entry by entry. *)
Definition implicit_equation (s : list nat) (dt : R) (x gx y : arr cplx) : Prop :=
  forall ix, inb s ix -> Csub (get x ix) (Cscal dt (get gx ix)) = get y ix.

(** ** The wave number arrays *)
Lemma fftfreq_signed n h i : fftfreq n h i = freq n h (signed n i).
Proof.
  unfold fftfreq, freq, signed. replace (i <? (Z.of_nat n - 1) / 2 + 1) with (2 * i <? Z.of_nat n); [reflexivity|].
  apply Bool.eq_iff_eq_true. rewrite !Z.ltb_lt. pose proof (Z.div_mod (Z.of_nat n - 1) 2). pose proof (Z.mod_pos_bound (Z.of_nat n - 1) 2). lia.
Qed.
Definition mesh_x (n m : nat) (hx : R) : arr R := mkarr [n; (m / 2 + 1)%nat] (fun ix => freq n hx (signed n (nth 0 ix 0%Z))).
Definition mesh_y (n m : nat) (hy : R) : arr R := mkarr [n; (m / 2 + 1)%nat] (fun ix => freq m hy (nth 1 ix 0%Z)).
Lemma rfft_mesh2 g n m hx hy : grid2 g n m hx hy -> rfft_mesh g = [mesh_x n m hx; mesh_y n m hy].
Proof.
  intros (Hs & Ht & _). unfold rfft_mesh, rfft_axes. rewrite Hs, Ht. cbn [removelast combine map app last length seq fst snd].
  unfold mesh_x, mesh_y. f_equal. f_equal. apply functional_extensionality. intros ix. apply fftfreq_signed.
Qed.
Lemma ew_ok {A B C} (f : A -> B -> C) a b : shp a = shp b -> ew f a b = Ok (amap2 f a b).
Proof. intros H. unfold ew, shape_eqb. rewrite H. destruct (list_eq_dec _ _ _); [reflexivity | contradiction]. Qed.
Lemma ew_inv {A B C} (f : A -> B -> C) a b r : ew f a b = Ok r -> shp a = shp b /\ r = amap2 f a b.
Proof. unfold ew, shape_eqb. destruct (list_eq_dec _ _ _); [|discriminate]. intros H. injection H as <-. auto. Qed.
Lemma freq_nz n h k : (0 < n)%nat -> (0 < h)%R -> freq n h k = 0%R -> k = 0.
Proof.
  intros Hn Hh H. unfold freq in H. apply eq_IZR. assert (0 < INR n)%R by (apply lt_0_INR; lia).
  assert (INR n * h <> 0)%R by nra. apply Rmult_integral in H. destruct H as [H|H]; [exact H|]. apply Rinv_neq_0_compat in H; [contradiction|assumption].
Qed.
Lemma signed_0 n i : 0 <= i < Z.of_nat n -> signed n i = 0 -> i = 0.
Proof. unfold signed. destruct (Z.ltb_spec (2 * i) (Z.of_nat n)); lia. Qed.
Lemma wave2_pos n m hx hy i j : (0 < n)%nat -> (0 < m)%nat -> (0 < hx)%R -> (0 < hy)%R -> 0 <= i < Z.of_nat n -> (i <> 0 \/ j <> 0) -> (0 < wave2 (freq n hx (signed n i)) (freq m hy j))%R.
Proof.
  intros Hn Hm Hx Hy Hi Hij. unfold wave2. pose proof PI_RGT_0 as HP.
  set (a := freq n hx (signed n i)). set (b := freq m hy j).
  assert (Hab : a <> 0%R \/ b <> 0%R).
  { destruct Hij as [H|H]; [left | right]; intros E; apply freq_nz in E; auto. apply signed_0 in E; auto. }
  assert (forall z, z <> 0%R -> 0 < (2 * PI * z) ^ 2)%R as Hp. { intros z Hz. replace ((2 * PI * z) ^ 2)%R with (Rsqr (2 * PI * z)) by (unfold Rsqr; ring). apply Rlt_0_sqr. apply Rmult_integral_contrapositive. split; [lra | exact Hz]. }
  pose proof (pow2_ge_0 (2 * PI * a)). pose proof (pow2_ge_0 (2 * PI * b)). destruct Hab as [H1|H1]; apply Hp in H1; lra.
Qed.

(** ** Linear implicit solves *)
Lemma Cn2_mul a b : Cn2 (Cmul a b) = (Cn2 a * Cn2 b)%R.
Proof. unfold Cn2. cbn. ring. Qed.
Lemma den_n2 l dt : (re l <= 0)%R -> (0 <= dt)%R -> (1 <= Cn2 (Csub C1 (Cscal dt l)))%R.
Proof. intros Hl Hd. unfold Cn2. cbn. assert (0 <= dt * - re l)%R by nra. nra. Qed.
Lemma n2_ge1_nz z : (0 < Cn2 z)%R -> z <> C0.
Proof. intros H ->. unfold Cn2 in H. cbn in H. lra. Qed.
Lemma solve_eq l dt y : Csub C1 (Cscal dt l) <> C0 -> let x := Cmul (Cdiv C1 (Csub C1 (Cscal dt l))) y in Csub x (Cscal dt (Cmul l x)) = y.
Proof.
  intros H x. transitivity (Cmul (Csub C1 (Cscal dt l)) x); [ceq|]. unfold x, Cdiv.
  transitivity (Cmul (Cmul (Csub C1 (Cscal dt l)) (Cinv (Csub C1 (Cscal dt l)))) y); [ring|]. rewrite Cinv_r by exact H. ring.
Qed.
Lemma solve_unique l dt x y : Csub C1 (Cscal dt l) <> C0 -> Csub x (Cscal dt (Cmul l x)) = y -> x = Cmul (Cdiv C1 (Csub C1 (Cscal dt l))) y.
Proof.
  intros H <-. replace (Csub x (Cscal dt (Cmul l x))) with (Cmul (Csub C1 (Cscal dt l)) x) by ceq. unfold Cdiv.
  transitivity (Cmul (Cmul (Csub C1 (Cscal dt l)) (Cinv (Csub C1 (Cscal dt l)))) x); [rewrite Cinv_r by exact H; ring | ring].
Qed.
Lemma solve_contract l dt y : (1 <= Cn2 (Csub C1 (Cscal dt l)))%R -> (Cn2 (Cmul (Cdiv C1 (Csub C1 (Cscal dt l))) y) <= Cn2 y)%R.
Proof.
  intros H. assert (Hz : Csub C1 (Cscal dt l) <> C0) by (apply n2_ge1_nz; lra).
  set (d := Csub C1 (Cscal dt l)) in *. set (x := Cmul (Cdiv C1 d) y).
  assert (E : y = Cmul d x). { unfold x, Cdiv. transitivity (Cmul (Cmul d (Cinv d)) y); [rewrite Cinv_r by exact Hz; ring | ring]. }
  clearbody x. rewrite E. rewrite Cn2_mul. pose proof (Cn2_pos x). nra.
Qed.
(** All three facts for an array of linear terms without growing modes. *)
Lemma linear_solve_spec (l y : arr cplx) dt : shp l = shp y -> (forall ix, inb (shp y) ix -> Csub C1 (Cscal dt (get l ix)) <> C0) ->
  exists x, linear_solve l y dt = Ok x /\ shp x = shp y /\ exists gx, ew Cmul l x = Ok gx /\ shp gx = shp y /\
    (forall ix, get gx ix = Cmul (get l ix) (get x ix)) /\ implicit_equation (shp y) dt x gx y /\
    (forall x' gx', ew Cmul l x' = Ok gx' -> implicit_equation (shp y) dt x' gx' y -> aeq x' x).
Proof.
  intros Hs Hd. unfold linear_solve. rewrite ew_ok by exact Hs. eexists. split; [reflexivity|]. split; [exact Hs|].
  rewrite ew_ok by reflexivity. eexists. split; [reflexivity|]. split; [exact Hs|]. split; [reflexivity|]. split.
  - intros ix Hix. cbn [get amap2]. apply solve_eq. apply Hd. exact Hix.
  - intros x' gx' E Hx. apply ew_inv in E. destruct E as [E1 ->]. split; [cbn; congruence|]. intros ix Hix. cbn [get amap2].
    rewrite <- E1, Hs in Hix. apply solve_unique; [apply Hd; exact Hix|]. apply (Hx ix Hix).
Qed.

(** ** C39 *)
(* @prop C39 NavierStokes2D: for every even or odd grid, nonnegative viscosity, drag and time step and every vorticity spectrum y, implicit_solve(y, dt) returns the one and only x with x - dt * implicit_terms(x) = y, where implicit_terms multiplies each mode by -(viscosity * |2 pi k|^2 + drag); no mode is amplified, whatever the time step. *)
Lemma ns2d_implicit_solve_exact_lem : forall (g : grid) (n m : nat) (hx hy viscosity drag dt : R) (y : arr cplx),
  grid2 g n m hx hy -> (0 <= viscosity)%R -> (0 <= drag)%R -> (0 <= dt)%R -> shp y = [n; (m / 2 + 1)%nat] ->
  exists x gx, ns2d_implicit_solve g viscosity drag y dt = Ok x /\ ns2d_implicit_terms g viscosity drag x = Ok gx /\ shp x = shp y /\ shp gx = shp y /\
    implicit_equation (shp y) dt x gx y /\
    (forall i j, get gx [i; j] = Cscal (- (viscosity * wave2 (freq n hx (signed n i)) (freq m hy j) + drag)) (get x [i; j])) /\
    (forall ix, inb (shp y) ix -> (Cabs (get x ix) <= Cabs (get y ix))%R) /\
    (forall x' gx', ns2d_implicit_terms g viscosity drag x' = Ok gx' -> implicit_equation (shp y) dt x' gx' y -> aeq x' x).
Proof.
  intros g n m hx hy nu drag dt y Hg Hnu Hdrag Hdt Hy. unfold ns2d_implicit_solve, ns2d_implicit_terms, ns2d_linear_term.
  rewrite (rfft_mesh2 Hg). cbn [bind].
  set (l := amap2 _ _ _).
  assert (Hl : forall ix, get l ix = RtoC (- (nu * wave2 (freq n hx (signed n (nth 0 ix 0%Z))) (freq m hy (nth 1 ix 0%Z)) + drag))).
  { intros ix. unfold l, mesh_x, mesh_y, wave2. cbn [get amap2]. apply Ceq; cbn; ring. }
  assert (Hd : forall ix, (1 <= Cn2 (Csub C1 (Cscal dt (get l ix))))%R).
  { intros ix. apply den_n2; [|exact Hdt]. rewrite Hl. cbn [re RtoC]. unfold wave2. set (a := (2 * PI * freq n hx (signed n (nth 0 ix 0%Z)))%R). set (b := (2 * PI * freq m hy (nth 1 ix 0%Z))%R).
    pose proof (pow2_ge_0 a). pose proof (pow2_ge_0 b). nra. }
  destruct (@linear_solve_spec l y dt) as (x & Ex & Sx & gx & Egx & Sgx & Vgx & Heq & Hun).
  - rewrite Hy. reflexivity.
  - intros ix _. apply n2_ge1_nz. specialize (Hd ix). lra.
  - exists x, gx. repeat split; try assumption.
    + intros i j. rewrite Vgx, Hl. cbn [nth]. ceq.
    + intros ix Hix. unfold linear_solve in Ex. apply ew_inv in Ex. destruct Ex as [_ ->]. cbn [get amap2]. unfold Cabs. apply sqrt_le_1; try apply Cn2_pos. apply solve_contract. apply Hd.
    + apply (Hun x' gx' H H0).
    + intros ix Hix. apply (Hun x' gx' H H0); assumption.
Qed.
Definition ex_grid2 : grid := mkgrid [4%nat; 4%nat] [(1/4)%R; (1/2)%R] [(0%R, 1%R); (0%R, 2%R)].
Lemma ex_grid2_ok : grid2 ex_grid2 4 4 (1/4) (1/2).
Proof. repeat split; try lia; lra. Qed.
(* @ex *)
Lemma ns2d_implicit_solve_exact_ex_lem : grid2 ex_grid2 4 4 (1/4) (1/2) /\ shp (afull [4%nat; 3%nat] C1) = [4%nat; (4 / 2 + 1)%nat].
Proof. split; [apply ex_grid2_ok | reflexivity]. Qed.

(** One-dimensional equations. *)
Lemma rfft_axes1 g n h : grid1 g n h -> two_pi_i_k g = Ok (mkarr [(n / 2 + 1)%nat] (fun ix => Cmul two_pi_i (RtoC (freq n h (nth 0 ix 0%Z))))).
Proof. intros (Hs & Ht & _). unfold two_pi_i_k, rfft_axes. rewrite Hs, Ht. reflexivity. Qed.
(* @prop C39 Burgers: for every grid, viscosity >= 0 and dt >= 0, implicit_solve((uhat, t), dt) returns (x, t) with x the one and only solution of x - dt * implicit_terms(x) = uhat, and implicit_terms has zero time component, so the time variable is solved exactly too; no mode is amplified. *)
Lemma burgers_implicit_solve_exact_lem : forall (g : grid) (n : nat) (h viscosity dt t : R) (y : arr cplx),
  grid1 g n h -> (0 <= viscosity)%R -> (0 <= dt)%R -> shp y = [(n / 2 + 1)%nat] ->
  exists x gx, burgers_implicit_solve g viscosity (y, t) dt = Ok (x, t) /\ (forall s, burgers_implicit_terms g viscosity (x, s) = Ok (gx, 0%R)) /\
    shp x = shp y /\ shp gx = shp y /\ implicit_equation (shp y) dt x gx y /\
    (forall i, get gx [i] = Cscal (- (viscosity * wave2 (freq n h i) 0)) (get x [i])) /\
    (forall ix, inb (shp y) ix -> (Cabs (get x ix) <= Cabs (get y ix))%R) /\
    (forall x' gx' s s', burgers_implicit_terms g viscosity (x', s) = Ok (gx', s') -> implicit_equation (shp y) dt x' gx' y -> aeq x' x).
Proof.
  intros g n h nu dt t y Hg Hnu Hdt Hy. unfold burgers_implicit_solve, burgers_implicit_terms, burgers_linear_term.
  rewrite (rfft_axes1 Hg). cbn [bind fst snd].
  set (l := amap _ _).
  assert (Hl : forall ix, get l ix = RtoC (- (nu * wave2 (freq n h (nth 0 ix 0%Z)) 0))).
  { intros ix. unfold l, wave2. cbn [get amap]. apply Ceq; cbn; ring. }
  assert (Hd : forall ix, (1 <= Cn2 (Csub C1 (Cscal dt (get l ix))))%R).
  { intros ix. apply den_n2; [|exact Hdt]. rewrite Hl. cbn [re RtoC]. unfold wave2. set (a := (2 * PI * freq n h (nth 0 ix 0%Z))%R).
    pose proof (pow2_ge_0 a). replace ((2 * PI * 0) ^ 2)%R with 0%R by ring. nra. }
  destruct (@linear_solve_spec l y dt) as (x & Ex & Sx & gx & Egx & Sgx & Vgx & Heq & Hun).
  - rewrite Hy. reflexivity.
  - intros ix _. apply n2_ge1_nz. specialize (Hd ix). lra.
  - exists x, gx. rewrite Ex. cbn [bind]. split; [reflexivity|]. split; [intros s; rewrite Egx; reflexivity|]. repeat split; try assumption.
    + intros i. rewrite Vgx, Hl. cbn [nth]. ceq.
    + intros ix Hix. unfold linear_solve in Ex. apply ew_inv in Ex. destruct Ex as [_ ->]. cbn [get amap2]. unfold Cabs. apply sqrt_le_1; try apply Cn2_pos. apply solve_contract. apply Hd.
    + destruct (ew Cmul l x') eqn:E; [|discriminate]. injection H as <- _. apply (Hun x' a E H0).
    + intros ix Hix. destruct (ew Cmul l x') eqn:E; [|discriminate]. injection H as <- _. apply (Hun x' a E H0); assumption.
Qed.
Definition ex_grid1 : grid := mkgrid [4%nat] [(1/4)%R] [(0%R, 1%R)].
(* @ex *)
Lemma burgers_implicit_solve_exact_ex_lem : grid1 ex_grid1 4 (1/4) /\ shp (afull [3%nat] C1) = [(4 / 2 + 1)%nat].
Proof. repeat split; try lia; lra. Qed.
(* @prop C39 Kuramoto-Sivashinsky: for every grid and every time step 0 <= dt < 4 - or any dt for which dt * (q^2 - q^4) <> 1 at every angular wave number q of the grid - implicit_solve(y, dt) returns the one and only x with x - dt * implicit_terms(x) = y; implicit_terms multiplies mode q by q^2 - q^4. *)
Lemma ks_implicit_solve_exact_lem : forall (g : grid) (n : nat) (h dt : R) (y : arr cplx),
  grid1 g n h -> shp y = [(n / 2 + 1)%nat] ->
  ((0 <= dt < 4)%R \/ forall i, 0 <= i <= Z.of_nat (n / 2) -> let q := (2 * PI * freq n h i)%R in (dt * (q ^ 2 - q ^ 4) <> 1)%R) ->
  exists x gx, ks_implicit_solve g y dt = Ok x /\ ks_implicit_terms g x = Ok gx /\ shp x = shp y /\ shp gx = shp y /\
    implicit_equation (shp y) dt x gx y /\
    (forall i, let q := (2 * PI * freq n h i)%R in get gx [i] = Cscal (q ^ 2 - q ^ 4)%R (get x [i])) /\
    (forall x' gx', ks_implicit_terms g x' = Ok gx' -> implicit_equation (shp y) dt x' gx' y -> aeq x' x).
Proof.
  intros g n h dt y Hg Hy Hdt. unfold ks_implicit_solve, ks_implicit_terms, ks_linear_term.
  rewrite (rfft_axes1 Hg). cbn [bind].
  set (l := amap _ _).
  assert (Hl : forall ix, get l ix = RtoC ((2 * PI * freq n h (nth 0 ix 0%Z)) ^ 2 - (2 * PI * freq n h (nth 0 ix 0%Z)) ^ 4)).
  { intros ix. unfold l. cbn [get amap]. apply Ceq; cbn; ring. }
  destruct (@linear_solve_spec l y dt) as (x & Ex & Sx & gx & Egx & Sgx & Vgx & Heq & Hun).
  - rewrite Hy. reflexivity.
  - intros ix Hix E. rewrite Hl in E. assert (E' := f_equal re E). cbn [re Csub C1 Cscal RtoC C0] in E'.
    assert (Hr := @inb_nth _ _ 0 Hix ltac:(rewrite Hy; cbn; lia)). rewrite Hy in Hr. cbn [nth] in Hr.
    set (q := (2 * PI * freq n h (nth 0 ix 0%Z))%R) in *.
    destruct Hdt as [Hdt|Hdt].
    + assert ((q ^ 2 - q ^ 4 <= 1 / 4)%R). { pose proof (pow2_ge_0 (q ^ 2 - 1 / 2)). nra. } nra.
    + apply (Hdt (nth 0 ix 0) ltac:(lia)). fold q. lra.
  - exists x, gx. refine (conj Ex (conj Egx (conj Sx (conj Sgx (conj Heq (conj _ Hun)))))).
    intros i. cbv zeta. rewrite Vgx, Hl. cbn [nth]. ceq.
Qed.
(* @ex *)
Lemma ks_implicit_solve_exact_ex_lem : grid1 ex_grid1 4 (1/4) /\ shp (afull [3%nat] C1) = [(4 / 2 + 1)%nat] /\ (0 <= 2 < 4)%R.
Proof. repeat split; try lia; lra. Qed.
(* @prop C39 Kuramoto-Sivashinsky, limit of the previous theorem: the implicit equation is NOT always solvable. There are a grid, a time step (dt = 4) and a right-hand side for which no x satisfies x - dt * implicit_terms(x) = y, because the linear term has growing modes; implicit_solve then divides by zero. *)
Lemma ks_implicit_solvable_refuted_lem :
  exists (g : grid) (n : nat) (h dt : R) (y : arr cplx), grid1 g n h /\ (0 < dt)%R /\ shp y = [(n / 2 + 1)%nat] /\
    forall x gx, ks_implicit_terms g x = Ok gx -> ~ implicit_equation (shp y) dt x gx y.
Proof.
  exists (mkgrid [4%nat] [(2 * PI * sqrt 2 / 4)%R] [(0%R, (2 * PI * sqrt 2)%R)]), 4%nat, (2 * PI * sqrt 2 / 4)%R, 4%R, (afull [3%nat] C1).
  pose proof PI_RGT_0 as HP. assert (Hs : (0 < sqrt 2)%R) by (apply sqrt_lt_R0; lra). assert (Hs2 : (sqrt 2 * sqrt 2 = 2)%R) by (apply sqrt_sqrt; lra).
  assert (Hg : grid1 (mkgrid [4%nat] [(2 * PI * sqrt 2 / 4)%R] [(0%R, (2 * PI * sqrt 2)%R)]) 4 (2 * PI * sqrt 2 / 4)).
  { repeat split; try lia. assert (0 < PI * sqrt 2)%R by (apply Rmult_lt_0_compat; assumption). lra. }
  split; [exact Hg|]. split; [lra|]. split; [reflexivity|].
  intros x gx E H. unfold ks_implicit_terms, ks_linear_term in E. rewrite (rfft_axes1 Hg) in E. cbn [bind] in E.
  apply ew_inv in E. destruct E as [_ ->]. specialize (H [1] ltac:(repeat constructor; lia)). cbn [get amap2 amap afull nth] in H.
  set (f := freq 4 (2 * PI * sqrt 2 / 4) 1) in H.
  assert (Hf : ((2 * PI * f) ^ 2 = 1 / 2)%R).
  { unfold f, freq. replace (INR 4) with 4%R by (cbn; lra). replace (2 * PI * (1 / (4 * (2 * PI * sqrt 2 / 4))))%R with (/ sqrt 2)%R by (field; lra).
    replace ((/ sqrt 2) ^ 2)%R with (/ (sqrt 2 * sqrt 2))%R by (field; lra). rewrite Hs2. lra. }
  assert (E := f_equal re H). cbn in E.
  assert (E2 : ((1 - 4 * ((2 * PI * f) ^ 2 - ((2 * PI * f) ^ 2) ^ 2)) * re (get x [1%Z]) = 1)%R) by (refine (eq_trans _ E); ring).
  rewrite Hf in E2. lra.
Qed.
(* @prop C39 Nonlinear Schroedinger: for every grid with an even number of points, every real time step (also negative) and every spectrum, implicit_solve(y, dt) returns the one and only x with x - dt * implicit_terms(x) = y, where implicit_terms multiplies the mode of angular wave number q by i q^2 / 8; no mode is amplified. Odd grids are refused. *)
Lemma nls_implicit_solve_exact_lem : forall (g : grid) (n : nat) (h dt : R) (y : arr cplx),
  grid1 g n h -> shp y = [n] ->
  (Nat.Odd n -> nls_implicit_solve g y dt = Err EAssert) /\
  (Nat.Even n -> exists x gx, nls_implicit_solve g y dt = Ok x /\ nls_implicit_terms g x = Ok gx /\ shp x = shp y /\ shp gx = shp y /\
    implicit_equation (shp y) dt x gx y /\
    (forall i, get gx [i] = Cmul (mkC 0 (wave2 (freq n h (signed n i)) 0 / 8)) (get x [i])) /\
    (forall ix, inb (shp y) ix -> (Cabs (get x ix) <= Cabs (get y ix))%R) /\
    (forall x' gx', nls_implicit_terms g x' = Ok gx' -> implicit_equation (shp y) dt x' gx' y -> aeq x' x)).
Proof.
  intros g n h dt y (Hs & Ht & Hn & Hh) Hy. unfold nls_implicit_solve, nls_implicit_terms, nls_two_pi_i_k, fft_axes. rewrite Hs, Ht. cbn [combine map fst snd]. split.
  - intros [k Ho]. replace (n mod 2)%nat with 1%nat by (rewrite Ho, Nat.add_comm, Nat.mul_comm, Nat.mod_add by lia; reflexivity). reflexivity.
  - intros [k He]. replace (n mod 2)%nat with 0%nat by (rewrite He, Nat.mul_comm, Nat.mod_mul by lia; reflexivity). cbn [Nat.eqb bind].
    set (q := mkarr _ _).
    assert (Hq : forall ix, Cpow (get q ix) 2 = RtoC (- wave2 (freq n h (signed n (nth 0 ix 0%Z))) 0)).
    { intros ix. unfold q. cbn [get]. rewrite fftfreq_signed. unfold wave2. apply Ceq; cbn; ring. }
    assert (Hd : forall ix, (1 <= Cn2 (Csub C1 (Cscal dt (Cscal (/ 8) (Cmul (Copp Ci) (Cpow (get q ix) 2))))))%R).
    { intros ix. rewrite Hq. unfold Cn2. cbn. match goal with |- context [(?a * ?a)%R] => idtac end. nra. }
    assert (Hsh : shp q = shp y) by (rewrite Hy; reflexivity).
    rewrite ew_ok by exact Hsh. eexists. eexists. split; [reflexivity|]. rewrite ew_ok by (cbn; congruence). split; [reflexivity|].
    assert (Hdiv : forall z p, Cdiv p (Csub C1 (Cscal dt (Cscal (/ 8) (Cmul (Copp Ci) z)))) = Cmul (Cdiv C1 (Csub C1 (Cscal dt (Cscal (/ 8) (Cmul (Copp Ci) z))))) p) by (intros; unfold Cdiv; ring).
    assert (Hterm : forall z p, Cscal (/ 8) (Cmul (Cmul (Copp Ci) p) z) = Cmul (Cscal (/ 8) (Cmul (Copp Ci) z)) p) by (intros; ceq).
    repeat split; try (exact Hsh).
    + intros ix Hix. cbn [get amap2]. rewrite Hterm, Hdiv. apply solve_eq. apply n2_ge1_nz. specialize (Hd ix). lra.
    + intros i. cbn [get amap2]. rewrite Hq. cbn [nth]. match goal with |- context [Cdiv ?a ?b] => generalize (Cdiv a b) end. intros p. apply Ceq; cbn; field.
    + intros ix Hix. cbn [get amap2]. rewrite Hdiv. unfold Cabs. apply sqrt_le_1; try apply Cn2_pos. apply solve_contract. apply Hd.
    + apply ew_inv in H. destruct H as [H _]. cbn. congruence.
    + intros ix Hix. apply ew_inv in H. destruct H as [H1 ->]. cbn [get amap2]. rewrite Hdiv. apply solve_unique; [apply n2_ge1_nz; specialize (Hd ix); lra|].
      rewrite <- Hterm. apply (H0 ix). rewrite <- Hsh, H1. exact Hix.
Qed.
(* @ex *)
Lemma nls_implicit_solve_exact_ex_lem : grid1 ex_grid1 4 (1/4) /\ shp (afull [4%nat] C1) = [4%nat] /\ Nat.Even 4.
Proof. repeat split; try lia; try lra. exists 2%nat. reflexivity. Qed.

(** ** C40 *)
(** Divergence and curl of the Fourier coefficients of a velocity. *)
Definition spectral_div (kx ky : R) (u v : cplx) : cplx := Cmul (mkC 0 (2 * PI)) (Cadd (Cscal kx u) (Cscal ky v)).
Definition spectral_curl (kx ky : R) (u v : cplx) : cplx := Cmul (mkC 0 (2 * PI)) (Csub (Cscal kx v) (Cscal ky u)).
Lemma velocity_mode (kx ky : R) (w : cplx) : (0 < wave2 kx ky)%R ->
  let psi := Cmul (Cdiv (Copp C1) (Cmul (Cmul two_pi_i two_pi_i) (RtoC (Rabs kx ^ 2 + Rabs ky ^ 2)))) w in
  let u := Cmul (Cmul two_pi_i (RtoC ky)) psi in let v := Cmul (Cmul (Copp two_pi_i) (RtoC kx)) psi in
  spectral_div kx ky u v = C0 /\ spectral_curl kx ky u v = w.
Proof.
  intros Hw psi u v. unfold u, v. split; [unfold spectral_div; ceq|].
  unfold psi. rewrite !pow2_abs.
  assert (Hl : Cmul (Cmul two_pi_i two_pi_i) (RtoC (kx ^ 2 + ky ^ 2)) = RtoC (- wave2 kx ky)) by (unfold wave2; apply Ceq; cbn; ring).
  rewrite Hl. assert (Hinv : Cdiv (Copp C1) (RtoC (- wave2 kx ky)) = RtoC (/ wave2 kx ky)).
  { unfold Cdiv, Cinv, Cn2. apply Ceq; cbn; field; lra. }
  rewrite Hinv. unfold spectral_curl, two_pi_i.
  transitivity (Cscal (/ wave2 kx ky * wave2 kx ky) w); [unfold wave2; ceq|]. rewrite Rinv_l by lra. ceq.
Qed.
Lemma two_by_two (kx ky a b : R) : (0 < wave2 kx ky)%R -> (2 * PI * (kx * a + ky * b) = 0)%R -> (2 * PI * (kx * b - ky * a) = 0)%R -> a = 0%R /\ b = 0%R.
Proof.
  intros Hw H1 H2. pose proof PI_RGT_0 as HP.
  assert (E1 : (kx * a + ky * b = 0)%R) by nra. assert (E2 : (kx * b - ky * a = 0)%R) by nra.
  assert (Hk : (0 < kx * kx + ky * ky)%R). { unfold wave2 in Hw. nra. }
  assert (Ea : ((kx * kx + ky * ky) * a = 0)%R). { transitivity (kx * (kx * a + ky * b) - ky * (kx * b - ky * a))%R; [ring | rewrite E1, E2; ring]. }
  assert (Eb : ((kx * kx + ky * ky) * b = 0)%R). { transitivity (ky * (kx * a + ky * b) + kx * (kx * b - ky * a))%R; [ring | rewrite E1, E2; ring]. }
  split; [apply Rmult_integral in Ea; destruct Ea; [lra | assumption] | apply Rmult_integral in Eb; destruct Eb; [lra | assumption]].
Qed.
Lemma mode_unique kx ky u v a b : (0 < wave2 kx ky)%R -> spectral_div kx ky a b = spectral_div kx ky u v -> spectral_curl kx ky a b = spectral_curl kx ky u v -> a = u /\ b = v.
Proof.
  intros Hw Hd Hc. assert (D1 := f_equal re Hd). assert (D2 := f_equal im Hd). assert (C1' := f_equal re Hc). assert (C2' := f_equal im Hc).
  cbn in D1, D2, C1', C2'.
  destruct (@two_by_two kx ky (re a - re u) (re b - re v) Hw) as [R1 R2]; [lra | lra |].
  destruct (@two_by_two kx ky (im a - im u) (im b - im v) Hw) as [I1 I2]; [lra | lra |].
  split; apply Ceq; lra.
Qed.
(* @prop C40 vorticity_to_velocity(grid)(vorticity_hat), for every grid and every vorticity spectrum, returns velocity spectra whose divergence vanishes at every wavenumber and whose curl is the vorticity at every nonzero wavenumber, with zero mean velocity; no other pair of spectra has these properties, so nothing is divided by zero. *)
Lemma vorticity_to_velocity_correct_lem : forall (g : grid) (n m : nat) (hx hy : R) (w : arr cplx),
  grid2 g n m hx hy -> shp w = [n; (m / 2 + 1)%nat] ->
  exists u v, vorticity_to_velocity g w = Ok (u, v) /\ shp u = shp w /\ shp v = shp w /\
    get u [0; 0] = C0 /\ get v [0; 0] = C0 /\
    forall i j, 0 <= i < Z.of_nat n -> 0 <= j <= Z.of_nat (m / 2) ->
      let kx := freq n hx (signed n i) in let ky := freq m hy j in
      spectral_div kx ky (get u [i; j]) (get v [i; j]) = C0 /\
      (i <> 0 \/ j <> 0 -> spectral_curl kx ky (get u [i; j]) (get v [i; j]) = get w [i; j] /\
         forall a b, spectral_div kx ky a b = C0 -> spectral_curl kx ky a b = get w [i; j] -> a = get u [i; j] /\ b = get v [i; j]).
Proof.
  intros g n m hx hy w Hg Hw. unfold vorticity_to_velocity, velocity_laplace. rewrite (rfft_mesh2 Hg). destruct Hg as (_ & _ & Hn & Hm & Hx & Hy).
  cbv zeta. rewrite ew_ok by (rewrite Hw; reflexivity). cbn [bind]. rewrite ew_ok by reflexivity. cbn [bind]. rewrite ew_ok by reflexivity. cbn [bind].
  eexists. eexists. split; [reflexivity|]. split; [rewrite Hw; reflexivity|]. split; [rewrite Hw; reflexivity|].
  cbn [get amap2 mesh_x mesh_y nth shp].
  assert (Hf0 : freq m hy 0 = 0%R) by (unfold freq, Rdiv; rewrite Rmult_0_l; reflexivity).
  assert (Hg0 : freq n hx (signed n 0) = 0%R).
  { unfold signed. replace (2 * 0 <? Z.of_nat n) with true by (symmetry; apply Z.ltb_lt; lia). unfold freq, Rdiv. rewrite Rmult_0_l. reflexivity. }
  split; [rewrite Hf0; ceq|]. split; [rewrite Hg0; ceq|].
  intros i j Hi Hj. cbv zeta.
  destruct (Z.eqb_spec i 0) as [-> | Ei]; [destruct (Z.eqb_spec j 0) as [-> | Ej]|]; cbn [andb].
  - rewrite Hf0, Hg0. split; [unfold spectral_div; ceq | lia].
  - assert (Hw2 := @wave2_pos n m hx hy 0 j Hn Hm Hx Hy Hi (or_intror Ej)).
    destruct (@velocity_mode _ _ (get w [0; j]) Hw2) as [H1 H2]. split; [exact H1|]. intros _. split; [exact H2|].
    intros a b Ha Hb. apply (@mode_unique _ _ _ _ _ _ Hw2); [rewrite H1; exact Ha | rewrite H2; exact Hb].
  - assert (Hw2 := @wave2_pos n m hx hy i j Hn Hm Hx Hy Hi (or_introl Ei)).
    destruct (@velocity_mode _ _ (get w [i; j]) Hw2) as [H1 H2]. split; [exact H1|]. intros _. split; [exact H2|].
    intros a b Ha Hb. apply (@mode_unique _ _ _ _ _ _ Hw2); [rewrite H1; exact Ha | rewrite H2; exact Hb].
Qed.
(* @ex *)
Lemma vorticity_to_velocity_correct_ex_lem : grid2 ex_grid2 4 4 (1/4) (1/2) /\ shp (afull [4%nat; 3%nat] C1) = [4%nat; (4 / 2 + 1)%nat].
Proof. split; [apply ex_grid2_ok | reflexivity]. Qed.
(* @prop C40 The array that vorticity_to_velocity divides by is minus (2 pi)^2 |k|^2 at every nonzero wavenumber and 1 at the mean mode: it is nonzero everywhere, so no spectrum is ever divided by zero, on any grid. *)
Lemma velocity_divisor_nonzero_lem : forall (g : grid) (n m : nat) (hx hy : R), grid2 g n m hx hy ->
  exists kx ky, rfft_mesh g = [kx; ky] /\ shp (velocity_laplace kx ky) = [n; (m / 2 + 1)%nat] /\
    forall i j, 0 <= i < Z.of_nat n -> 0 <= j <= Z.of_nat (m / 2) ->
      get (velocity_laplace kx ky) [i; j] <> C0 /\
      (i <> 0 \/ j <> 0 -> get (velocity_laplace kx ky) [i; j] = RtoC (- ((2 * PI) ^ 2 * (freq n hx (signed n i) ^ 2 + freq m hy j ^ 2)))).
Proof.
  intros g n m hx hy Hg. pose proof (rfft_mesh2 Hg) as E. destruct Hg as (_ & _ & Hn & Hm & Hx & Hy). eexists. eexists. split; [exact E|]. split; [reflexivity|]. intros i j Hi Hj. unfold velocity_laplace. cbn [get amap2 mesh_x mesh_y nth shp].
  assert (H : i <> 0 \/ j <> 0 -> Cmul (Cmul two_pi_i two_pi_i) (RtoC (Rabs (freq n hx (signed n i)) ^ 2 + Rabs (freq m hy j) ^ 2)) = RtoC (- ((2 * PI) ^ 2 * (freq n hx (signed n i) ^ 2 + freq m hy j ^ 2))) /\ (0 < (2 * PI) ^ 2 * (freq n hx (signed n i) ^ 2 + freq m hy j ^ 2))%R).
  { intros Hij. assert (Hw2 := @wave2_pos n m hx hy i j Hn Hm Hx Hy Hi Hij). split; [rewrite !pow2_abs; unfold two_pi_i; ceq|]. unfold wave2 in Hw2. pose proof PI_RGT_0. nra. }
  destruct (Z.eqb_spec i 0) as [-> | Ei]; [destruct (Z.eqb_spec j 0) as [-> | Ej]|]; cbn [andb].
  - split; [|lia]. intros Hc. apply (f_equal re) in Hc. cbn in Hc. lra.
  - destruct (H (or_intror Ej)) as (E1 & P1). split; [|intros _; exact E1]. rewrite E1. intros Hc. apply (f_equal re) in Hc. cbn [re RtoC C0] in Hc. lra.
  - destruct (H (or_introl Ei)) as (E1 & P1). split; [|intros _; exact E1]. rewrite E1. intros Hc. apply (f_equal re) in Hc. cbn [re RtoC C0] in Hc. lra.
Qed.
(* @ex *)
Lemma velocity_divisor_nonzero_ex_lem : grid2 ex_grid2 4 4 (1/4) (1/2).
Proof. apply ex_grid2_ok. Qed.
(* @prop C40 spectral_curl_2d(grid.rfft_mesh(), vorticity_to_velocity(grid)(vorticity_hat)) succeeds for every grid and spectrum and returns the vorticity spectrum with the mean mode set to zero (so exactly the input, if its mean is zero). *)
Lemma spectral_curl_of_velocity_lem : forall (g : grid) (n m : nat) (hx hy : R) (w : arr cplx),
  grid2 g n m hx hy -> shp w = [n; (m / 2 + 1)%nat] ->
  exists kx ky u v c, rfft_mesh g = [kx; ky] /\ vorticity_to_velocity g w = Ok (u, v) /\ spectral_curl_2d kx ky u v = Ok c /\ shp c = shp w /\
    forall i j, 0 <= i < Z.of_nat n -> 0 <= j <= Z.of_nat (m / 2) -> get c [i; j] = if (i =? 0) && (j =? 0) then C0 else get w [i; j].
Proof.
  intros g n m hx hy w Hg Hw. destruct (@vorticity_to_velocity_correct_lem g n m hx hy w Hg Hw) as (u & v & E & Su & Sv & U0 & V0 & H).
  exists (mesh_x n m hx), (mesh_y n m hy), u, v. unfold spectral_curl_2d.
  rewrite ew_ok by (rewrite Sv, Hw; reflexivity). cbn [bind]. rewrite ew_ok by (rewrite Su, Hw; reflexivity). cbn [bind]. rewrite ew_ok by (cbn; congruence). cbn [bind].
  eexists. split; [apply (rfft_mesh2 Hg)|]. split; [exact E|]. split; [reflexivity|]. split; [cbn; exact Sv|].
  intros i j Hi Hj. cbn [get amap amap2 mesh_x mesh_y nth].
  destruct (Z.eqb_spec i 0) as [-> | Ei]; [destruct (Z.eqb_spec j 0) as [-> | Ej]|]; cbn [andb].
  - rewrite U0, V0. ceq.
  - destruct (H 0 j Hi Hj) as [_ H']. destruct H' as [H' _]; [lia|]. rewrite <- H'. unfold spectral_curl, two_pi_i. ceq.
  - destruct (H i j Hi Hj) as [_ H']. destruct H' as [H' _]; [lia|]. rewrite <- H'. unfold spectral_curl, two_pi_i. ceq.
Qed.
(* @ex *)
Lemma spectral_curl_of_velocity_ex_lem : grid2 ex_grid2 4 4 (1/4) (1/2) /\ shp (afull [4%nat; 3%nat] C1) = [4%nat; (4 / 2 + 1)%nat].
Proof. split; [apply ex_grid2_ok | reflexivity]. Qed.
