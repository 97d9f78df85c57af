(** * Properties of the random forcing (C97) *)
From Verif Require Import Prelude NdArr Grids_model Spec GridProps RandomForcing_model.
Set Implicit Arguments.
Local Open Scope Z_scope.

Lemma rabs_sin_le x : (Rabs (sin x) <= Rabs x)%R.
Proof.
  assert (P : forall y, (0 < y)%R -> (Rabs (sin y) <= y)%R).
  { intros y Hy. destruct (Rle_dec 1 y) as [L|L]; [pose proof (SIN_bound y); unfold Rabs; destruct (Rcase_abs (sin y)); lra|].
    pose proof (sin_lt_x y Hy). pose proof PI2_1. assert (0 <= sin y)%R by (apply sin_ge_0; lra). rewrite Rabs_right; lra. }
  destruct (Rtotal_order x 0) as [L|[->|G]].
  - rewrite <- (Rabs_Ropp (sin x)), <- sin_neg, <- (Rabs_Ropp x), (Rabs_right (- x)) by lra. apply P. lra.
  - rewrite sin_0. lra.
  - rewrite (Rabs_right x) by lra. apply P. exact G.
Qed.
Lemma sin_lipschitz x y : (Rabs (sin x - sin y) <= Rabs (x - y))%R.
Proof.
  rewrite form4, Rabs_mult, Rabs_mult, (Rabs_right 2) by lra. pose proof (rabs_sin_le ((x - y) / 2)) as H. pose proof (COS_bound ((x + y) / 2)) as C.
  assert (Hc : (Rabs (cos ((x + y) / 2)) <= 1)%R) by (unfold Rabs; destruct (Rcase_abs _); lra).
  assert (Hh : Rabs ((x - y) / 2) = (Rabs (x - y) / 2)%R). { unfold Rdiv. rewrite Rabs_mult, (Rabs_right (/ 2)); lra. }
  rewrite Hh in H. pose proof (Rabs_pos (cos ((x + y) / 2))). pose proof (Rabs_pos (sin ((x - y) / 2))). nra.
Qed.
Lemma rsum_abs_le n (f : Z -> R) c : (forall j, 0 <= j < Z.of_nat n -> (Rabs (f j) <= c)%R) -> (Rabs (rsum n f) <= INR n * c)%R.
Proof.
  intros H. rewrite <- rsum_const. assert (A : (rsum n (fun _ => - c)%R <= rsum n f <= rsum n (fun _ => c))%R).
  { split; apply rsum_le; intros j Hj; specialize (H j Hj); unfold Rabs in H; destruct (Rcase_abs (f j)); lra. }
  rewrite !rsum_const in *. unfold Rabs. destruct (Rcase_abs (rsum n f)); lra.
Qed.
(* @prop C97 On every one-dimensional grid, for any number n of waves and any generator of random numbers that respects its arguments (choices among those offered, uniform samples within their bounds), random_forcing_module returns a force with one value per grid point that never exceeds n/2 in absolute value and changes by at most n/5 per unit of time. *)
Lemma random_forcing_bounds_lem : forall (S K : Type) (key_of_seed : S -> K) split choice uniform (g : grid) seed n offset,
  wfg g -> gndim g = 1%nat -> length offset = 1%nat ->
  (forall key a j, a <> [] -> In (choice key a j) a) -> (forall key lo hi j, (lo <= hi)%R -> (lo <= uniform key lo hi j <= hi)%R) ->
  exists force, random_forcing_module key_of_seed split choice uniform g seed n offset = Ok force /\
    forall t, fst (force t) = nth 0 (gshape g) 0%nat /\
      forall i, (Rabs (snd (force t) i) <= INR n / 2)%R /\
        forall t', (Rabs (snd (force t') i - snd (force t) i) <= INR n / 5 * Rabs (t' - t))%R.
Proof.
  intros S K key0 split choice uniform g seed n offset Hw Hd Ho Hc Hu. destruct (@grid_axes_spec g offset Hw ltac:(lia)) as (l & E & Hl & Ha).
  destruct l as [|[len xs] [|]]; cbn [length] in Hl; try lia. unfold random_forcing_module.
  destruct (split (key0 seed)) as [k1 s1]. destruct (split k1) as [k2 s2]. destruct (split k2) as [k3 s3]. destruct (split k3) as [k4 s4]. rewrite E. cbn [bind].
  eexists. split; [reflexivity|]. intros t. cbn [fst snd]. split; [apply (Ha 0%nat); lia|]. intros i.
  assert (Hamp : forall j, (Rabs (uniform s2 (- (1 / 2)) (1 / 2) j) <= 1 / 2)%R) by (intros j; specialize (Hu s2 (- (1 / 2))%R (1 / 2)%R j ltac:(lra)); unfold Rabs; destruct (Rcase_abs _); lra).
  assert (Hom : forall j, (Rabs (uniform s3 (- (2 / 5)) (2 / 5) j) <= 2 / 5)%R) by (intros j; specialize (Hu s3 (- (2 / 5))%R (2 / 5)%R j ltac:(lra)); unfold Rabs; destruct (Rcase_abs _); lra).
  split.
  - replace (INR n / 2)%R with (INR n * (1 / 2))%R by field. apply rsum_abs_le. intros j _. rewrite Rabs_mult.
    match goal with |- (_ * Rabs (sin ?x) <= _)%R => pose proof (SIN_bound x); assert (Rabs (sin x) <= 1)%R by (unfold Rabs; destruct (Rcase_abs (sin x)); lra); pose proof (Rabs_pos (sin x)) end.
    pose proof (Hamp j). pose proof (Rabs_pos (uniform s2 (- (1 / 2))%R (1 / 2)%R j)). nra.
  - intros t'. rewrite <- rsum_minus. replace (INR n / 5 * Rabs (t' - t))%R with (INR n * (1 / 5 * Rabs (t' - t)))%R by field. apply rsum_abs_le. intros j _.
    rewrite <- Rmult_minus_distr_l, Rabs_mult. set (A := uniform s2 (- (1 / 2))%R (1 / 2)%R j) in *. set (W := uniform s3 (- (2 / 5))%R (2 / 5)%R j) in *.
    match goal with |- (_ * Rabs (sin ?x - sin ?y) <= _)%R => pose proof (sin_lipschitz x y) as L; replace (x - y)%R with (W * (t' - t))%R in L by ring end.
    rewrite Rabs_mult in L. pose proof (Hamp j). pose proof (Hom j). fold A in H. fold W in H0. pose proof (Rabs_pos A). pose proof (Rabs_pos W). pose proof (Rabs_pos (t' - t)). clearbody A W.
    apply Rle_trans with (1 / 2 * (2 / 5 * Rabs (t' - t)))%R; [|lra]. apply Rmult_le_compat; [exact H1 | apply Rabs_pos | exact H|]. eapply Rle_trans; [exact L|]. apply Rmult_le_compat_r; assumption.
Qed.
Definition rf_grid (n : nat) : grid := mkgrid [n] [(2 * PI / INR n)%R] [(0%R, (2 * PI)%R)].
Lemma rf_wf n : (0 < n)%nat -> wfg (rf_grid n).
Proof.
  intros H. assert (Hn : (0 < INR n)%R) by (apply (lt_INR 0); lia). pose proof PI_RGT_0. unfold wfg, rf_grid, gndim. cbn. repeat split.
  - constructor; [exact H | constructor].
  - constructor; [|constructor]. assert (0 < 2 * PI / INR n)%R by (apply Rdiv_lt_0_compat; lra). lra.
Qed.
(* @ex *)
Lemma random_forcing_bounds_ex_lem : exists force,
  random_forcing_module (fun s : nat => s) (fun k => (S k, k)) (fun _ a _ => hd 0 a) (fun _ lo hi _ => ((lo + 3 * hi) / 4)%R) (rf_grid 5) 0%nat 20 [0%Q] = Ok force /\
  (Rabs (snd (force 7%R) 2%Z) <= INR 20 / 2)%R.
Proof.
  destruct (@random_forcing_bounds_lem nat nat (fun s => s) (fun k => (S k, k)) (fun _ a _ => hd 0 a) (fun _ lo hi _ => ((lo + 3 * hi) / 4)%R) (rf_grid 5) 0%nat 20%nat [0%Q]) as (f & E & Hf).
  - apply rf_wf. lia.
  - reflexivity.
  - reflexivity.
  - intros key [|x a] j H; [congruence | left; reflexivity].
  - intros; lra.
  - exists f. split; [exact E | apply Hf].
Qed.

(** ** The force has no mean *)
Lemma telescope n (f : Z -> R) : rsum n (fun i => f i - f (i + 1)%Z)%R = (f 0%Z - f (Z.of_nat n))%R.
Proof. induction n as [|n IH]; cbn [rsum]; [change (Z.of_nat 0) with 0%Z; ring|]. rewrite IH. replace (Z.of_nat n + 1) with (Z.of_nat (S n)) by lia. ring. Qed.
Lemma cos_shift_2pi x k : cos (x - IZR k * (2 * PI)) = cos x.
Proof.
  assert (P : forall m y, cos (y + 2 * INR m * PI) = cos y) by (intros; apply cos_period).
  destruct (Z_le_gt_dec 0 k) as [H|H].
  - rewrite <- (P (Z.to_nat k) (x - IZR k * (2 * PI))%R). f_equal. rewrite INR_IZR_INZ, Z2Nat.id by lia. ring.
  - rewrite <- (P (Z.to_nat (- k)) x). f_equal. rewrite INR_IZR_INZ, Z2Nat.id, opp_IZR by lia. ring.
Qed.
Lemma wave_sum_zero N a b k : sin (b / 2) <> 0%R -> (INR N * b = IZR k * (2 * PI))%R -> rsum N (fun i => sin (a - IZR i * b)) = 0%R.
Proof.
  intros Hs Hb. apply (Rmult_eq_reg_r (2 * sin (b / 2))); [|lra]. rewrite Rmult_0_l, <- rsum_scal_r.
  rewrite (@rsum_ext N _ (fun i => (- cos (a + b / 2 - IZR i * b)) - (- cos (a + b / 2 - IZR (i + 1) * b)))%R).
  - rewrite (@telescope N (fun i => - cos (a + b / 2 - IZR i * b))%R). rewrite <- INR_IZR_INZ, Hb, cos_shift_2pi, Rmult_0_l, Rminus_0_r. ring.
  - intros i _. rewrite plus_IZR. replace (a + b / 2 - IZR i * b)%R with ((a - IZR i * b) + b / 2)%R by field. replace (a + b / 2 - (IZR i + 1) * b)%R with ((a - IZR i * b) - b / 2)%R by field.
    generalize (a - IZR i * b)%R (b / 2)%R. intros A B. rewrite cos_plus, cos_minus. ring.
Qed.
Lemma Ok_inj {A} (x y : A) : Ok x = Ok y -> x = y.
Proof. intros E. injection E as <-. reflexivity. Qed.
Lemma sin_shift_2pi x k : sin (x - IZR k * (2 * PI)) = sin x.
Proof. rewrite <- !cos_shift. replace (PI / 2 - (x - IZR k * (2 * PI)))%R with (PI / 2 - x - IZR (- k) * (2 * PI))%R by (rewrite opp_IZR; ring). apply cos_shift_2pi. Qed.
(* @prop C97 On every domain of length 2 pi with at least 7 points the random force exerts no net force: at every time its values sum to zero, whatever the random numbers, the number of waves and the offset. *)
Lemma random_forcing_no_net_force_lem : forall (S K : Type) (key_of_seed : S -> K) split choice uniform (g : grid) seed n offset N lo,
  g = mkgrid [N] [(2 * PI / INR N)%R] [(lo, (lo + 2 * PI)%R)] -> (7 <= N)%nat -> length offset = 1%nat ->
  (forall key a j, a <> [] -> In (choice key a j) a) ->
  exists force, random_forcing_module key_of_seed split choice uniform g seed n offset = Ok force /\
    forall t, fst (force t) = N /\ rsum N (snd (force t)) = 0%R.
Proof.
  intros S K key0 split choice uniform g seed n offset N lo -> HN Ho Hc. destruct offset as [|o [|]]; cbn [length] in Ho; try lia.
  unfold random_forcing_module. destruct (split (key0 seed)) as [k1 s1]. destruct (split k1) as [k2 s2]. destruct (split k2) as [k3 s3]. destruct (split k3) as [k4 s4].
  unfold grid_axes, gndim. cbn [gshape gdomain gstep length Nat.eqb negb combine map bind].
  eexists. split; [reflexivity|]. intros t. cbn [fst snd]. split; [reflexivity|]. rewrite rsum_swap. apply (eq_trans (y := rsum n (fun _ => 0%R))); [|apply rsum_0]. apply rsum_ext. intros j _. rewrite rsum_scal.
  specialize (Hc s1 [3; 4; 5; 6] j ltac:(intros C; exact (eq_ind 4%nat (fun n => match n with O => False | _ => True end) I _ (f_equal (@length Z) C)))). set (k := choice s1 [3; 4; 5; 6] j) in *. clearbody k. assert (Hk : 3 <= k <= 6) by (destruct Hc as [<-|[<-|[<-|[<-|[]]]]]; lia). clear Hc.
  set (W := uniform s3 (- (2 / 5))%R (2 / 5)%R j). set (Ph := uniform s4 0%R (2 * PI)%R j). set (A := uniform s2 (- (1 / 2))%R (1 / 2)%R j). clearbody W Ph A.
  assert (HN0 : (0 < INR N)%R) by (apply (lt_INR 0); lia). pose proof PI_RGT_0 as Pp.
  rewrite (@rsum_ext N _ (fun i => sin ((W * t - (lo + Q2R o * (2 * PI / INR N)) * IZR k + Ph) - IZR i * (2 * PI / INR N * IZR k)))) by (intros i _; f_equal; ring).
  rewrite (@wave_sum_zero N _ (2 * PI / INR N * IZR k)%R k); [ring | | field; lra].
  replace (2 * PI / INR N * IZR k / 2)%R with (PI * (IZR k / INR N))%R by (field; lra).
  assert (K1 : (0 < IZR k / INR N)%R) by (apply Rdiv_lt_0_compat; [apply (IZR_lt 0); lia | lra]).
  assert (K2 : (IZR k / INR N < 1)%R). { apply (Rmult_lt_reg_r (INR N)); [lra|]. unfold Rdiv. rewrite Rmult_assoc, Rinv_l, Rmult_1_r, Rmult_1_l by lra. rewrite INR_IZR_INZ. apply IZR_lt. lia. }
  assert (0 < sin (PI * (IZR k / INR N)))%R by (apply sin_gt_0; nra). lra.
Qed.
(* @ex *)
Lemma random_forcing_no_net_force_ex_lem : exists force,
  random_forcing_module (fun s : nat => s) (fun k => (S k, k)) (fun _ a _ => hd 0 a) (fun _ lo hi _ => ((lo + 3 * hi) / 4)%R) (rf_grid 8) 0%nat 20 [0%Q] = Ok force /\
  rsum 8 (snd (force 5%R)) = 0%R.
Proof.
  destruct (@random_forcing_no_net_force_lem nat nat (fun s => s) (fun k => (S k, k)) (fun _ a _ => hd 0 a) (fun _ lo hi _ => ((lo + 3 * hi) / 4)%R) (rf_grid 8) 0%nat 20%nat [0%Q] 8%nat 0%R) as (f & E & Hf).
  - unfold rf_grid. rewrite Rplus_0_l. reflexivity.
  - lia.
  - reflexivity.
  - intros key [|x a] j H; [congruence | left; reflexivity].
  - exists f. split; [exact E | apply Hf].
Qed.
(* @prop C97 Refuted: the random force exerts no net force on every grid on [0, 2 pi].  On 3 points a wave of number 3 has the same value at all of them, and with these random numbers the values sum to -3/4. *)
Lemma random_forcing_coarse_refuted_lem : ~ (forall (S K : Type) (key_of_seed : S -> K) split choice uniform seed n N,
  (0 < N)%nat -> (forall key a j, a <> [] -> In (choice key a j) a) -> (forall key lo hi j, (lo <= hi)%R -> (lo <= uniform key lo hi j <= hi)%R) ->
  exists force, random_forcing_module key_of_seed split choice uniform (mkgrid [N] [(2 * PI / INR N)%R] [(0%R, (2 * PI)%R)]) seed n [0%Q] = Ok force /\
    rsum N (snd (force 0%R)) = 0%R).
Proof.
  intros H. destruct (H nat nat (fun s => s) (fun k => (S k, k)) (fun _ a _ => hd 0 a) (fun _ lo hi _ => ((lo + 3 * hi) / 4)%R) 0%nat 1%nat 3%nat ltac:(lia)) as (f & E & Hf).
  - intros key [|x a] j Hn; [congruence | left; reflexivity].
  - intros; lra.
  - unfold random_forcing_module, grid_axes, gndim in E. cbn [gshape gdomain gstep length Nat.eqb negb combine map bind hd] in E. apply Ok_inj in E. subst f. cbn [snd rsum] in Hf.
    assert (W : forall i, sin ((- (2 / 5) + 3 * (2 / 5)) / 4 * 0 - (0 + (IZR i + Q2R 0) * (2 * PI / INR 3)) * 3 + (0 + 3 * (2 * PI)) / 4) = (-1)%R).
    { intros i. replace (Q2R 0) with 0%R by (unfold Q2R; cbn; ring). replace (INR 3) with 3%R by (cbn; ring).
      replace ((- (2 / 5) + 3 * (2 / 5)) / 4 * 0 - (0 + (IZR i + 0) * (2 * PI / 3)) * 3 + (0 + 3 * (2 * PI)) / 4)%R with (3 * (PI / 2) - IZR i * (2 * PI))%R by field.
      rewrite sin_shift_2pi. apply sin_3PI2. }
    rewrite !W in Hf. lra.
Qed.
(* @prop C97 The random force exists for one-dimensional grids only: random_forcing_module succeeds exactly when the grid has one axis and one offset is given, and raises ValueError otherwise. *)
Lemma random_forcing_one_axis_lem : forall (S K : Type) (key_of_seed : S -> K) split choice uniform (g : grid) seed n offset, wfg g ->
  (gndim g = 1%nat /\ length offset = 1%nat -> is_ok (random_forcing_module key_of_seed split choice uniform g seed n offset)) /\
  (~ (gndim g = 1%nat /\ length offset = 1%nat) -> random_forcing_module key_of_seed split choice uniform g seed n offset = Err EValue).
Proof.
  intros S K key0 split choice uniform g seed n offset Hw. unfold random_forcing_module.
  destruct (split (key0 seed)) as [k1 s1]. destruct (split k1) as [k2 s2]. destruct (split k2) as [k3 s3]. destruct (split k3) as [k4 s4].
  destruct (Nat.eq_dec (length offset) (gndim g)) as [El|Nl].
  - destruct (@grid_axes_spec g offset Hw El) as (l & E & Hl & _). rewrite E. cbn [bind]. split.
    + intros [Hd _]. destruct l as [|[len xs] [|]]; cbn [length] in Hl; try lia. eexists. reflexivity.
    + intros Hn. destruct l as [|[len xs] [|]]; cbn [length] in Hl; try reflexivity. exfalso. apply Hn. lia.
  - split; [intros [? ?]; lia|]. intros _. unfold grid_axes. apply Nat.eqb_neq in Nl. rewrite Nl. reflexivity.
Qed.
(* @ex *)
Lemma random_forcing_one_axis_ex_lem : wfg (rf_grid 5) /\ gndim (rf_grid 5) = 1%nat /\ ~ (gndim (rf_grid 5) = 1%nat /\ length [0%Q; 0%Q] = 1%nat).
Proof. split; [apply rf_wf; lia|]. split; [reflexivity|]. intros [_ H]. cbn in H. lia. Qed.
