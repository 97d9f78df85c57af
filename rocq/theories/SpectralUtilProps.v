(** * C41: dealiasing filters, padding and truncation of spectra *)
From Verif Require Import Prelude NdArr LinAlg Cplx Grids_model FastDiag_model ArrayUtils_model FourierProofs Spectral_model FourierLine SpectralProps.
Set Implicit Arguments.
Local Open Scope Z_scope.

(** ** The brick-wall filter *)
(** Wave numbers kept by the 2/3 rule on a full axis of [n] and on a half axis of [m/2+1] entries. *)
Definition kept_x (n : nat) (k : Z) : Prop := n = 1%nat \/ - ((2 * Z.of_nat n / 3 + 1) / 2) <= k < 2 * Z.of_nat n / 3 / 2.
Definition kept_y (m : nat) (k : Z) : Prop := 0 <= k < 2 * Z.of_nat (m / 2 + 1)%nat / 3.
Ltac dlia := Z.to_euclidean_division_equations; lia.
Lemma brick_get g n m : gshape g = [n; m] -> (0 < n)%nat -> (0 < m)%nat ->
  exists F, brick_wall_filter_2d g = Ok F /\ shp F = [n; (m / 2 + 1)%nat] /\
    forall i j, 0 <= i < Z.of_nat n -> 0 <= j <= Z.of_nat (m / 2) ->
      (kept_x n (signed n i) /\ kept_y m j -> get F [i; j] = 1%R) /\ (~ (kept_x n (signed n i) /\ kept_y m j) -> get F [i; j] = 0%R).
Proof.
  intros Hg Hn Hm. unfold brick_wall_filter_2d. rewrite Hg. eexists. split; [reflexivity|]. split; [reflexivity|].
  intros i j Hi Hj. cbn [set_block get shp afull nth]. unfold slice_start, slice_stop, clamp_bound.
  assert (HM : 0 <= 2 * Z.of_nat (m / 2 + 1)%nat / 3 <= Z.of_nat (m / 2 + 1)%nat) by dlia.
  set (y := 2 * Z.of_nat (m / 2 + 1)%nat / 3) in *. unfold kept_y. fold y.
  replace (y <? 0) with false by (symmetry; apply Z.ltb_ge; lia). rewrite (Z.min_l y) by lia.
  assert (HX : 0 <= 2 * Z.of_nat n / 3 < Z.of_nat n) by dlia.
  unfold kept_x, signed. set (x := 2 * Z.of_nat n / 3) in *.
  replace (x / 2 <? 0) with false by (symmetry; apply Z.ltb_ge; dlia). rewrite (Z.min_l (x / 2)) by dlia.
  assert (E : - x / 2 = - ((x + 1) / 2)) by dlia. rewrite E.
  assert (Hx0 : x = 0 <-> n = 1%nat) by (unfold x; dlia).
  assert (Hrow : (0 <= i /\ i < x / 2) \/ (if - ((x + 1) / 2) <? 0 then Z.max 0 (- ((x + 1) / 2) + Z.of_nat n) else Z.min (- ((x + 1) / 2)) (Z.of_nat n)) <= i <->
          n = 1%nat \/ - ((x + 1) / 2) <= (if 2 * i <? Z.of_nat n then i else i - Z.of_nat n) < x / 2).
  { rewrite <- Hx0. clear Hx0. clearbody x. destruct (Z.ltb_spec (- ((x + 1) / 2)) 0), (Z.ltb_spec (2 * i) (Z.of_nat n)); dlia. }
  revert Hrow. set (s := if - ((x + 1) / 2) <? 0 then _ else _). intros Hrow. rewrite <- Hrow. clearbody s.
  destruct (Z.leb_spec s i), (Z.ltb_spec i (Z.of_nat n)), (Z.leb_spec 0 j), (Z.ltb_spec j y), (Z.leb_spec 0 i), (Z.ltb_spec i (x / 2)); cbn [andb]; split; intros K; try reflexivity; try lia; exfalso; apply K; lia.
Qed.
(* @prop C41 The 2/3 brick-wall filter of every grid is a 0/1 mask: it is 1 exactly at the wave numbers kx with -ceil(X/2) <= kx < floor(X/2), X = floor(2n/3), and ky < floor(2(m/2+1)/3), and 0 elsewhere (on a one-cell axis kx = 0 is kept). *)
Lemma brick_wall_is_mask_lem : forall (g : grid) (n m : nat), gshape g = [n; m] -> (0 < n)%nat -> (0 < m)%nat ->
  exists F, brick_wall_filter_2d g = Ok F /\ shp F = [n; (m / 2 + 1)%nat] /\
    forall i j, 0 <= i < Z.of_nat n -> 0 <= j <= Z.of_nat (m / 2) ->
      (get F [i; j] = 1%R <-> kept_x n (signed n i) /\ kept_y m j) /\ (get F [i; j] = 0%R <-> ~ (kept_x n (signed n i) /\ kept_y m j)).
Proof.
  intros g n m Hg Hn Hm. destruct (@brick_get g n m Hg Hn Hm) as (F & E & S & H). exists F. split; [exact E|]. split; [exact S|].
  intros i j Hi Hj. destruct (H i j Hi Hj) as [H1 H2].
  assert (D : (kept_x n (signed n i) /\ kept_y m j) \/ ~ (kept_x n (signed n i) /\ kept_y m j)) by (unfold kept_x, kept_y; lia).
  destruct D as [D|D].
  - rewrite (H1 D). split; [tauto|]. split; [lra | tauto].
  - rewrite (H2 D). split; [split; [lra | tauto] | tauto].
Qed.
(* @ex *)
Lemma brick_wall_is_mask_ex_lem : gshape ex_grid2 = [4%nat; 4%nat] /\ kept_x 4 (signed 4 0) /\ ~ kept_x 4 (signed 4 2) /\ kept_y 4 1 /\ ~ kept_y 4 2.
Proof. repeat split; try (unfold kept_x, kept_y, signed; cbn; lia). Qed.
(* @prop C41 Filtering a step with a 0/1 mask twice is the same as filtering it once: filter_step(filter_step(f, F), F) = filter_step(f, F), for every step function and the brick-wall filter of every grid. *)
Lemma brick_wall_idempotent_lem : forall (g : grid) (n m : nat) (F : arr R) (step : arr cplx -> result (arr cplx)) (s r : arr cplx),
  gshape g = [n; m] -> (0 < n)%nat -> (0 < m)%nat -> brick_wall_filter_2d g = Ok F -> filter_step step F s = Ok r ->
  exists r', filter_step (filter_step step F) F s = Ok r' /\ aeq r' r.
Proof.
  intros g n m F step s r Hg Hn Hm HF Hr. destruct (@brick_get g n m Hg Hn Hm) as (F' & E & S & H). rewrite HF in E. injection E as <-.
  unfold filter_step at 1. rewrite Hr. cbn [bind]. unfold filter_step in Hr. destruct (step s) as [x|e] eqn:Es; [|discriminate]. cbn [bind] in Hr.
  apply ew_inv in Hr. destruct Hr as [Hs ->]. rewrite ew_ok by reflexivity. eexists. split; [reflexivity|]. split; [reflexivity|].
  intros ix Hix. cbn [get amap2 shp] in *. rewrite S in Hix.
  destruct ix as [|i [|j [|z zs]]]; cbn [inb] in Hix; try tauto. destruct (H i j ltac:(lia) ltac:(lia)) as [H1 H2].
  assert (D : (kept_x n (signed n i) /\ kept_y m j) \/ ~ (kept_x n (signed n i) /\ kept_y m j)) by (unfold kept_x, kept_y; lia).
  destruct D as [D|D]; [rewrite (H1 D) | rewrite (H2 D)]; ceq.
Qed.
(* @ex *)
Lemma brick_wall_idempotent_ex_lem : exists F r, brick_wall_filter_2d ex_grid2 = Ok F /\ filter_step (fun s => Ok s) F (afull [4%nat; 3%nat] C1) = Ok r.
Proof. eexists. eexists. split; [reflexivity|]. unfold filter_step. cbn [bind]. rewrite ew_ok by reflexivity. reflexivity. Qed.
(** A wave vector (k1, k2) of the full spectrum of a real field: for k2 < 0 its coefficient is the conjugate of the one
    stored for (-k1, -k2). *)
Definition mode_kept (F : arr R) (n : nat) (k1 k2 : Z) : Prop :=
  if 0 <=? k2 then get F [k1 mod Z.of_nat n; k2] = 1%R else get F [(- k1) mod Z.of_nat n; - k2] = 1%R.
Definition canonical (n m : nat) (k1 k2 : Z) : Prop := - Z.of_nat n < 2 * k1 < Z.of_nat n /\ - Z.of_nat (m / 2) <= k2 <= Z.of_nat (m / 2).
Lemma signed_mod n k : - Z.of_nat n < 2 * k < Z.of_nat n -> signed n (k mod Z.of_nat n) = k.
Proof.
  intros H. unfold signed. destruct (Z_lt_ge_dec k 0) as [L|L].
  - replace (k mod Z.of_nat n) with (k + Z.of_nat n) by (apply Z.mod_unique with (q := -1); lia). destruct (Z.ltb_spec (2 * (k + Z.of_nat n)) (Z.of_nat n)); lia.
  - rewrite Z.mod_small by lia. destruct (Z.ltb_spec (2 * k) (Z.of_nat n)); lia.
Qed.
(* @prop C41 The 2/3 rule removes the aliasing of quadratic terms: on every grid with n >= 3, if p and q are wave vectors (of the full spectrum of a real field) kept by the brick-wall filter and r is a kept wave vector with r = p + q modulo the grid size, then r = p + q. So the product of two filtered fields has, at the kept wave vectors, exactly the true convolution of their spectra. *)
Lemma brick_wall_dealiases_lem : forall (g : grid) (n m : nat) (F : arr R) (p1 p2 q1 q2 r1 r2 : Z),
  gshape g = [n; m] -> (3 <= n)%nat -> (0 < m)%nat -> brick_wall_filter_2d g = Ok F ->
  canonical n m p1 p2 -> canonical n m q1 q2 -> canonical n m r1 r2 ->
  mode_kept F n p1 p2 -> mode_kept F n q1 q2 -> mode_kept F n r1 r2 ->
  (p1 + q1 - r1) mod Z.of_nat n = 0 -> (p2 + q2 - r2) mod Z.of_nat m = 0 -> p1 + q1 = r1 /\ p2 + q2 = r2.
Proof.
  intros g n m F p1 p2 q1 q2 r1 r2 Hg Hn Hm HF Cp Cq Cr Kp Kq Kr A1 A2.
  destruct (@brick_wall_is_mask_lem g n m Hg ltac:(lia) Hm) as (F' & E & _ & H). rewrite HF in E. injection E as <-.
  assert (HK : forall k1 k2, canonical n m k1 k2 -> mode_kept F n k1 k2 ->
    (0 <= k2 /\ - ((2 * Z.of_nat n / 3 + 1) / 2) <= k1 < 2 * Z.of_nat n / 3 / 2 \/ k2 < 0 /\ - ((2 * Z.of_nat n / 3 + 1) / 2) <= - k1 < 2 * Z.of_nat n / 3 / 2) /\
    - (2 * Z.of_nat (m / 2 + 1)%nat / 3) < k2 < 2 * Z.of_nat (m / 2 + 1)%nat / 3).
  { intros k1 k2 [C1 C2] K. unfold mode_kept in K. destruct (Z.leb_spec 0 k2).
    - apply (H (k1 mod Z.of_nat n) k2) in K; [|apply Z.mod_pos_bound; lia|lia]. rewrite signed_mod in K by lia. destruct K as [[K|K] K2]; [lia|]. unfold kept_y in K2. split; [left; lia | lia].
    - apply (H ((- k1) mod Z.of_nat n) (- k2)) in K; [|apply Z.mod_pos_bound; lia|lia]. rewrite signed_mod in K by lia. destruct K as [[K|K] K2]; [lia|]. unfold kept_y in K2. split; [right; lia | lia]. }
  apply HK in Kp; [|exact Cp]. apply HK in Kq; [|exact Cq]. apply HK in Kr; [|exact Cr]. clear H HK HF.
  apply Z.mod_divide in A1; [|lia]. apply Z.mod_divide in A2; [|lia]. destruct A1 as [a A1], A2 as [b A2].
  set (y := 2 * Z.of_nat (m / 2 + 1)%nat / 3) in *. set (x := 2 * Z.of_nat n / 3) in *.
  assert (Hy : 3 * (y - 1) < Z.of_nat m) by (unfold y; rewrite Nat2Z.inj_add, Nat2Z.inj_div; dlia).
  assert (b = 0) as -> by nia. assert (Hx : 3 * x <= 2 * Z.of_nat n) by (unfold x; dlia).
  assert (Ha : a = 0). { clearbody x y. set (c := (x + 1) / 2) in *. assert (Hc : 2 * c <= x + 1) by (unfold c; dlia). assert (Hxc : x / 2 <= c) by (unfold c; dlia).
    assert (-2 < a < 2). { assert (-3 * c <= a * Z.of_nat n <= 3 * c) by lia. clear -H Hc Hx Hn. nia. } unfold c in *. assert (a = -1 \/ a = 0 \/ a = 1) as [-> | [-> | ->]] by lia; [|reflexivity|]; exfalso; dlia. }
  subst a. lia.
Qed.
(* @ex *)
Lemma brick_wall_dealiases_ex_lem : exists F, brick_wall_filter_2d (mkgrid [6%nat; 6%nat] [1%R; 1%R] [(0%R, 6%R); (0%R, 6%R)]) = Ok F /\ canonical 6 6 (-2) 1 /\ canonical 6 6 1 (-1) /\ canonical 6 6 (-1) 0 /\
  mode_kept F 6 (-2) 1 /\ mode_kept F 6 1 (-1) /\ mode_kept F 6 (-1) 0 /\ (-2 + 1 - -1) mod 6 = 0 /\ (1 + -1 - 0) mod 6 = 0.
Proof. eexists. split; [reflexivity|]. unfold canonical, mode_kept. repeat split; cbn; try lia. Qed.

(** ** The circular filter *)
(* @prop C41 The circular filter of every grid lies in (0, 1]; it is exactly 1 inside and on the circle |k| <= 0.65 * (largest ky) and strictly smaller than 1 outside; in particular it never changes the mean mode. *)
Lemma circular_filter_range_lem : forall (g : grid) (n m : nat) (hx hy : R), grid2 g n m hx hy ->
  exists F, circular_filter_2d g = Ok F /\ shp F = [n; (m / 2 + 1)%nat] /\ get F [0; 0] = 1%R /\
    forall i j, (0 < get F [i; j] <= 1)%R /\
      (get F [i; j] = 1%R <-> (sqrt (freq n hx (signed n i) ^ 2 + freq m hy j ^ 2) <= 65 / 100 * freq m hy (Z.of_nat (m / 2)))%R).
Proof.
  intros g n m hx hy Hg. unfold circular_filter_2d. rewrite (rfft_mesh2 Hg). destruct Hg as (_ & _ & Hn & Hm & Hx & Hy).
  eexists. split; [reflexivity|]. split; [reflexivity|]. cbn [get amap2 mesh_x mesh_y shp nth].
  replace (Z.of_nat (m / 2 + 1) - 1) with (Z.of_nat (m / 2)) by lia. set (K := freq m hy (Z.of_nat (m / 2))).
  assert (HK : (0 <= K)%R). { unfold K, freq. apply Rmult_le_pos; [apply IZR_le; lia|]. left. apply Rinv_0_lt_compat. apply Rmult_lt_0_compat; [apply lt_0_INR; lia | exact Hy]. }
  assert (Hcell : forall x y : R, let v := if Rle_dec (sqrt (x ^ 2 + y ^ 2)) (13 / 20 * K) then 1%R else exp (- (118 / 5) * (sqrt (x ^ 2 + y ^ 2) - 13 / 20 * K) ^ 4)%R in
     (0 < v <= 1)%R /\ (v = 1%R <-> (sqrt (x ^ 2 + y ^ 2) <= 65 / 100 * K)%R)).
  { intros x y. cbv zeta. set (c := sqrt (x ^ 2 + y ^ 2)). replace (65 / 100 * K)%R with (13 / 20 * K)%R by field. destruct (Rle_dec c (13 / 20 * K)) as [L|L]; [split; [lra | tauto]|].
    set (d := (c - 13 / 20 * K)%R). assert (Hd : (0 < d)%R) by (unfold d; lra). assert (Hd4 : (0 < d ^ 4)%R) by (apply pow_lt; exact Hd).
    assert (Hlt : (exp (- (118 / 5) * d ^ 4) < 1)%R) by (rewrite <- exp_0; apply exp_increasing; lra).
    split; [split; [apply exp_pos | lra]|]. split; [lra | tauto]. }
  split; [|intros i j; apply Hcell].
  destruct (Rle_dec _ _) as [L|L]; [reflexivity|]. exfalso. apply L. unfold signed. replace (2 * 0 <? Z.of_nat n) with true by (symmetry; apply Z.ltb_lt; lia).
  unfold freq at 1 2. replace (0 / (INR n * hx))%R with 0%R by (unfold Rdiv; ring). replace (0 / (INR m * hy))%R with 0%R by (unfold Rdiv; ring).
  replace (0 ^ 2 + 0 ^ 2)%R with 0%R by ring. rewrite sqrt_0. lra.
Qed.
(* @ex *)
Lemma circular_filter_range_ex_lem : grid2 ex_grid2 4 4 (1/4) (1/2).
Proof. apply ex_grid2_ok. Qed.

(** ** One-dimensional transforms of arrays *)
Lemma rfftn1 u n : shp u = [n] -> shp (rfftn u) = [(n / 2 + 1)%nat] /\ forall k, get (rfftn u) [k] = fft1 n (fun j => RtoC (get u [j])) k.
Proof. intros H. unfold rfftn. rewrite H. cbn. rewrite H. split; reflexivity. Qed.
Lemma irfftn1 U n : shp U = [n] -> shp (irfftn U) = [(2 * (n - 1))%nat] /\ forall j, get (irfftn U) [j] = re (irfft1 (2 * (n - 1)) (fun k => get U [k]) j).
Proof. intros H. unfold irfftn. rewrite H. cbn -[Nat.mul]. rewrite H. split; reflexivity. Qed.
(** The padded spectrum. *)
Definition padded (n : nat) (U : Z -> cplx) (k : Z) : cplx := if k <? Z.of_nat n then U k else C0.
Lemma padded_irfft_spec U n : shp U = [n] -> (2 <= n)%nat ->
  exists u, padded_irfft U = Ok u /\ shp u = [(2 * (3 * n / 2 - 1))%nat] /\
    forall j, get u [j] = (3 / 2 * re (irfft1 (2 * (3 * n / 2 - 1)) (padded n (fun k => get U [k])) j))%R.
Proof.
  intros H Hn. unfold padded_irfft. rewrite H. cbv zeta.
  assert (HF : (2 <= 3 * n / 2)%nat) by (apply Nat.div_le_lower_bound; lia).
  replace (3 * n / 2 <? 2)%nat with false by (symmetry; apply Nat.ltb_ge; exact HF).
  eexists. split; [reflexivity|]. match goal with |- context [irfftn ?a] => destruct (@irfftn1 a (3 * n / 2)%nat eq_refl) as [S G] end.
  split; [exact S|]. intros j. cbn [get amap]. rewrite G. reflexivity.
Qed.
Lemma truncated_rfft_spec u n : shp u = [n] -> (0 < n)%nat ->
  exists U, truncated_rfft u = Ok U /\ shp U = [(2 * (n / 2 + 1) / 3 + 1)%nat] /\ forall k, get U [k] = Cscal (2 / 3) (fft1 n (fun j => RtoC (get u [j])) k).
Proof.
  intros H Hn. unfold truncated_rfft. rewrite H. replace (n =? 0)%nat with false by (symmetry; apply Nat.eqb_neq; lia).
  destruct (@rfftn1 u n H) as [S G]. cbv zeta. rewrite S. cbn [nth]. eexists. split; [reflexivity|].
  unfold slice1. cbn [amap shp get]. rewrite S. cbn [nth]. split.
  - f_equal. unfold slice_count, slice_stop, slice_start, clamp_bound.
    set (q := (2 * (n / 2 + 1) / 3 + 1)%nat). assert (Hq : (q <= n / 2 + 1)%nat).
    { unfold q. set (z := (n / 2 + 1)%nat). assert (1 <= z)%nat by (unfold z; lia). clearbody z. pose proof (Nat.div_mod (2 * z) 3 ltac:(lia)). lia. }
    replace (Z.of_nat q <? 0) with false by (symmetry; apply Z.ltb_ge; lia). rewrite Z.min_l by lia. rewrite Z.div_1_r. lia.
  - intros k. unfold slice_start, clamp_bound. rewrite Z.add_0_l, G. reflexivity.
Qed.
Lemma fft1_scal n c f k : fft1 n (fun j => RtoC (c * f j)) k = Cscal c (fft1 n (fun j => RtoC (f j)) k).
Proof. unfold fft1. transitivity (Cmul (RtoC c) (csum n (fun j => Cmul (dftm n k j) (RtoC (f j))))); [|ceq]. rewrite <- csum_scal. apply csum_ext. intros j _. ceq. Qed.
Lemma padded_size n : (2 <= n)%nat -> (Z.of_nat n - 1 + (if (n =? 2)%nat then 1 else 0) < Z.of_nat (3 * n / 2) - 1 + (if (n =? 2)%nat then 1 else 0))%Z /\ (n < 3 * n / 2)%nat.
Proof. intros H. rewrite Nat2Z.inj_div. split; [destruct (n =? 2)%nat|]; try (Z.to_euclidean_division_equations; lia). apply Nat.div_le_lower_bound; lia. Qed.
