(** * C84: isotropic spectra by interpolation, grids from dataset attributes *)
From Verif Require Import Prelude NdArr Cplx Grids_model Spec SpecData Spectral_model Xarray_model XarrayProps GridProps Isotropize_model.
Set Implicit Arguments.
Local Open Scope Z_scope.

Lemma count_prefix (P : nat -> bool) n : (forall i j, (i <= j)%nat -> P j = true -> P i = true) -> let m := length (filter P (seq 0 n)) in (m <= n)%nat /\ forall i, (i < n)%nat -> (P i = true <-> (i < m)%nat).
Proof.
  intros H. induction n as [|n IH]; [split; [cbn; lia | intros i Hi; lia]|]. cbv zeta in *. rewrite seq_S, filter_app, app_length. cbn [Nat.add filter length]. destruct IH as (L & IH). destruct (P n) eqn:Pn; cbn [length].
  - assert (E : length (filter P (seq 0 n)) = n). { destruct n as [|n]; [reflexivity|]. assert (A : P n = true) by (apply (H n (S n)); [lia | exact Pn]). apply IH in A; [|lia]. lia. }
    rewrite E. split; [lia|]. intros i Hi. split; [lia|]. intros _. apply (H i n); [lia | exact Pn].
  - rewrite Nat.add_0_r. split; [lia|]. intros i Hi. destruct (Nat.eq_dec i n) as [-> | N]; [|apply IH; lia]. rewrite Pn. split; [discriminate | intros C; lia].
Qed.
Lemma interp_cell_spec c h x : spaced_axis c h -> (snd c 0%Z <= x <= snd c (Z.of_nat (fst c) - 1)%Z)%R ->
  exists i t, interp_cell c x = Some (i, t) /\ 0 <= i /\ i + 1 < Z.of_nat (fst c) /\ (0 <= t <= 1)%R /\ x = (snd c i + t * h)%R /\ snd c (i + 1)%Z = (snd c i + h)%R.
Proof.
  intros (H1 & H2 & H3) (L & U). unfold interp_cell. destruct (Nat.ltb_spec (fst c) 2); [lia|]. destruct (Rlt_dec x (snd c 0%Z)) as [?|_]; [lra|]. destruct (Rlt_dec (snd c (Z.of_nat (fst c) - 1)%Z) x) as [?|_]; [lra|]. cbv zeta.
  set (n := fst c) in *. set (P := fun i : nat => if Rle_dec (snd c 0%Z + INR i * h) x then true else false).
  assert (EF : filter (fun i => if Rle_dec (snd c (Z.of_nat i)) x then true else false) (seq 0 n) = filter P (seq 0 n)).
  { apply filter_ext_in. intros i Hi. apply in_seq in Hi. unfold P. rewrite (H3 (Z.of_nat i)), <- INR_IZR_INZ by lia. reflexivity. }
  rewrite EF. assert (MP : forall i j, (i <= j)%nat -> P j = true -> P i = true).
  { intros i j Hij. unfold P. destruct (Rle_dec (snd c 0%Z + INR j * h) x); [|discriminate 1]. intros _. destruct (Rle_dec (snd c 0%Z + INR i * h) x) as [|N]; [reflexivity|]. exfalso. apply N. apply le_INR in Hij. assert (INR i * h <= INR j * h)%R by (apply Rmult_le_compat_r; lra). lra. }
  destruct (@count_prefix P n MP) as (LM & CM). set (m := length (filter P (seq 0 n))) in *. assert (M0 : (0 < m)%nat) by (apply CM; [lia|]; unfold P; destruct (Rle_dec (snd c 0%Z + INR 0 * h) x) as [|N]; [reflexivity | exfalso; apply N; cbn [INR]; lra]).
  set (i := Z.min (Z.of_nat m - 1) (Z.of_nat n - 2)). assert (Hi0 : 0 <= i) by (unfold i; lia). assert (Hi1 : i + 1 < Z.of_nat n) by (unfold i; lia).
  assert (S1 : snd c (i + 1)%Z = (snd c i + h)%R) by (rewrite (H3 (i + 1)), (H3 i), plus_IZR by lia; ring).
  assert (A : (snd c i <= x)%R). { assert (B : P (Z.to_nat i) = true) by (apply CM; unfold i; lia). unfold P in B. destruct (Rle_dec (snd c 0%Z + INR (Z.to_nat i) * h) x) as [Y|]; [|discriminate B]. rewrite INR_IZR_INZ, Z2Nat.id in Y by lia. rewrite (H3 i) by lia. exact Y. }
  assert (B : (x <= snd c i + h)%R).
  { rewrite <- S1. destruct (Z_le_gt_dec (Z.of_nat m - 1) (Z.of_nat n - 2)) as [C | C].
    - assert (Ei : i = Z.of_nat m - 1) by (unfold i; lia). replace (i + 1) with (Z.of_nat m) by lia. destruct (P m) eqn:Pm; [apply CM in Pm; lia|]. unfold P in Pm. destruct (Rle_dec (snd c 0%Z + INR m * h) x) as [|N]; [discriminate Pm|]. rewrite (H3 (Z.of_nat m)), <- INR_IZR_INZ by lia. lra.
    - replace (i + 1) with (Z.of_nat n - 1) by (unfold i; lia). exact U. }
  exists i, ((x - snd c i) / (snd c (i + 1)%Z - snd c i))%R. split; [reflexivity|]. split; [exact Hi0|]. split; [exact Hi1|]. rewrite S1. replace (snd c i + h - snd c i)%R with h by ring. split; [|split; [field; lra | reflexivity]].
  split; [apply Rmult_le_pos; [lra | left; apply Rinv_0_lt_compat; lra]|]. apply Rmult_le_reg_r with h; [lra|]. replace ((x - snd c i) / h * h)%R with (x - snd c i)%R by (field; lra). lra.
Qed.
Lemma inb2 n m i j : 0 <= i < Z.of_nat n -> 0 <= j < Z.of_nat m -> inb [n; m] [i; j].
Proof. intros. cbn. tauto. Qed.
Lemma interp_2d_bounds meth cx cy hx hy f x y lo hi : spaced_axis cx hx -> spaced_axis cy hy -> (snd cx 0%Z <= x <= snd cx (Z.of_nat (fst cx) - 1)%Z)%R -> (snd cy 0%Z <= y <= snd cy (Z.of_nat (fst cy) - 1)%Z)%R ->
  (forall ix, inb [fst cx; fst cy] ix -> (lo <= get f ix <= hi)%R) -> exists v, interp_2d meth cx cy f x y = Some v /\ (lo <= v <= hi)%R.
Proof.
  intros Hx Hy Bx By Hf. destruct (interp_cell_spec Hx Bx) as (i & s & Ei & I0 & I1 & S & _). destruct (interp_cell_spec Hy By) as (j & t & Ej & J0 & J1 & T & _). unfold interp_2d. rewrite Ei, Ej. eexists. split; [reflexivity|]. destruct meth.
  - pose proof (Hf [i; j] ltac:(apply inb2; lia)) as F1. pose proof (Hf [i; j + 1] ltac:(apply inb2; lia)) as F2. pose proof (Hf [i + 1; j] ltac:(apply inb2; lia)) as F3. pose proof (Hf [i + 1; j + 1] ltac:(apply inb2; lia)) as F4.
    set (a := get f [i; j]) in *. set (b := get f [i; j + 1]) in *. set (c := get f [i + 1; j]) in *. set (d := get f [i + 1; j + 1]) in *.
    assert (W1 : (0 <= (1 - s) * (1 - t))%R) by (apply Rmult_le_pos; lra). assert (W2 : (0 <= (1 - s) * t)%R) by (apply Rmult_le_pos; lra). assert (W3 : (0 <= s * (1 - t))%R) by (apply Rmult_le_pos; lra). assert (W4 : (0 <= s * t)%R) by (apply Rmult_le_pos; lra).
    assert (WS : ((1 - s) * (1 - t) + (1 - s) * t + s * (1 - t) + s * t = 1)%R) by ring. set (w1 := ((1 - s) * (1 - t))%R) in *. set (w2 := ((1 - s) * t)%R) in *. set (w3 := (s * (1 - t))%R) in *. set (w4 := (s * t)%R) in *. clearbody w1 w2 w3 w4 a b c d. clear - F1 F2 F3 F4 W1 W2 W3 W4 WS. split.
    + assert (Q : forall w z, (0 <= w -> lo <= z -> w * lo <= w * z)%R) by (intros; apply Rmult_le_compat_l; lra). pose proof (Q w1 a W1 ltac:(lra)). pose proof (Q w2 b W2 ltac:(lra)). pose proof (Q w3 c W3 ltac:(lra)). pose proof (Q w4 d W4 ltac:(lra)). replace lo with ((w1 + w2 + w3 + w4) * lo)%R by (rewrite WS; ring). lra.
    + assert (Q : forall w z, (0 <= w -> z <= hi -> w * z <= w * hi)%R) by (intros; apply Rmult_le_compat_l; lra). pose proof (Q w1 a W1 ltac:(lra)). pose proof (Q w2 b W2 ltac:(lra)). pose proof (Q w3 c W3 ltac:(lra)). pose proof (Q w4 d W4 ltac:(lra)). replace hi with ((w1 + w2 + w3 + w4) * hi)%R by (rewrite WS; ring). lra.
  - apply Hf. apply inb2; destruct (Rle_dec _ _); lia.
Qed.
Lemma interp_2d_affine cx cy hx hy f x y a b c : spaced_axis cx hx -> spaced_axis cy hy -> (snd cx 0%Z <= x <= snd cx (Z.of_nat (fst cx) - 1)%Z)%R -> (snd cy 0%Z <= y <= snd cy (Z.of_nat (fst cy) - 1)%Z)%R ->
  (forall i j, inb [fst cx; fst cy] [i; j] -> get f [i; j] = (a + b * snd cx i + c * snd cy j)%R) -> interp_2d ILinear cx cy f x y = Some (a + b * x + c * y)%R.
Proof.
  intros Hx Hy Bx By Hf. destruct (interp_cell_spec Hx Bx) as (i & s & Ei & I0 & I1 & S & Xi & Si). destruct (interp_cell_spec Hy By) as (j & t & Ej & J0 & J1 & T & Yj & Sj). unfold interp_2d. rewrite Ei, Ej. f_equal. rewrite !Hf by (apply inb2; lia). rewrite Si, Sj, Xi, Yj. ring.
Qed.
Lemma nanmean_some (l : list R) : l <> [] -> nanmean (map Some l) = Some (fold_right Rplus 0 l / INR (length l))%R.
Proof.
  intros H. unfold nanmean. assert (E : flat_map (fun o : option R => match o with Some x => [x] | None => [] end) (map Some l) = l) by (clear; induction l as [|x l IH]; [reflexivity | cbn; rewrite IH; reflexivity]). rewrite E. destruct l; [congruence | reflexivity].
Qed.
Lemma mean_bounds (l : list R) lo hi : l <> [] -> (forall x, In x l -> (lo <= x <= hi)%R) -> (lo <= fold_right Rplus 0 l / INR (length l) <= hi)%R.
Proof.
  intros Hne H. assert (P : (0 < INR (length l))%R) by (apply lt_0_INR; destruct l; [congruence | cbn; lia]).
  assert (B : (lo * INR (length l) <= fold_right Rplus 0 l <= hi * INR (length l))%R).
  { clear Hne P. induction l as [|x l IH]; [cbn; lra|]. cbn [fold_right]. change (length (x :: l)) with (S (length l)). rewrite S_INR. pose proof (H x (or_introl eq_refl)). pose proof (IH ltac:(intros; apply H; right; assumption)). lra. }
  split; apply Rmult_le_reg_r with (INR (length l)); try lra; unfold Rdiv; rewrite Rmult_assoc, Rinv_l by lra; lra.
Qed.
Definition circle_mean (Nq : nat) (f : R -> R) : R := (fold_right Rplus 0 (map (fun i => f (2 * PI * (INR i / INR Nq))%R) (seq 0 Nq)) / INR Nq)%R.
Lemma iso_general kx ky dx dy dk e meth Nq : spaced_axis kx dx -> spaced_axis ky dy -> dk = Rmax dx dy -> let top := Rmin (snd kx (Z.of_nat (fst kx) - 1)%Z) (snd ky (Z.of_nat (fst ky) - 1)%Z) in
  (0 <= top)%R -> (snd kx 0%Z <= - snd kx (Z.of_nat (fst kx) - 1)%Z)%R -> (snd ky 0%Z <= - snd ky (Z.of_nat (fst ky) - 1)%Z)%R -> (0 < Nq)%nat ->
  forall V : R -> R -> R, (forall k a, (0 <= k <= top)%R -> interp_2d meth kx ky (amap ln e) (k * cos a) (k * sin a) = Some (V k a)) ->
  exists l, isotropize_interpolation_2d kx ky e meth Nq = Ok l /\ (INR (length l) * dk <= top <= (INR (length l) + 1) * dk)%R /\
    forall j d, (j < length l)%nat -> let k := (INR (j + 1) * dk)%R in (0 < k <= top)%R /\ nth j l d = (k, Some (2 * PI * k * circle_mean Nq (fun a => exp (V k a)))%R).
Proof.
  intros Hx Hy Hdk top H0 Sx Sy HN V HV. assert (Pd : (0 < dk)%R) by (rewrite Hdk; destruct Hx as (_ & P & _); pose proof (Rmax_l dx dy); lra).
  unfold isotropize_interpolation_2d. cbn [mapM]. rewrite (spaced_step Hx), (spaced_step Hy). cbn [bind max_of fold_left]. rewrite <- Hdk. rewrite (spaced_max Hx), (spaced_max Hy). cbn [bind min_of fold_left]. fold top. set (num := py_round ((top - 1 / 2 * dk) / dk)).
  pose proof (py_round_bound ((top - 1 / 2 * dk) / dk)) as RB. fold num in RB. assert (EQ : ((top - 1 / 2 * dk) / dk = top / dk - 1 / 2)%R) by (field; lra). rewrite EQ in RB. assert (T0 : (0 <= top / dk)%R) by (apply Rmult_le_pos; [exact H0 | left; apply Rinv_0_lt_compat; exact Pd]).
  assert (N0 : 0 <= num) by (apply py_round_nonneg; rewrite EQ; lra). assert (TD : (top = top / dk * dk)%R) by (field; lra).
  assert (NK : INR (Z.to_nat num) = IZR num) by (rewrite INR_IZR_INZ, Z2Nat.id by exact N0; reflexivity).
  assert (TB : (INR (Z.to_nat num) * dk <= top <= (INR (Z.to_nat num) + 1) * dk)%R) by (rewrite NK, TD; split; apply Rmult_le_compat_r; lra).
  eexists. split; [reflexivity|]. rewrite !map_length, seq_length. split; [exact TB|]. intros j d Hj. set (k := (INR (j + 1) * dk)%R). assert (Hk : (0 < k <= top)%R).
  { split; [apply Rmult_lt_0_compat; [apply lt_0_INR; lia | exact Pd]|]. apply Rle_trans with (INR (Z.to_nat num) * dk)%R; [|apply TB]. apply Rmult_le_compat_r; [lra|]. apply le_INR. lia. }
  split; [exact Hk|]. rewrite map_map, nth_map_seq by exact Hj. replace (dk * INR (S j))%R with k by (unfold k; replace (j + 1)%nat with (S j) by lia; ring). f_equal. rewrite map_map. rewrite (map_ext_in _ (fun i => Some (exp (V k (2 * PI * (INR i / INR Nq))%R)))) by (intros i _; rewrite HV by lra; reflexivity).
  rewrite <- (map_map (fun i => exp (V k (2 * PI * (INR i / INR Nq))%R)) Some), nanmean_some by (destruct Nq; [lia | discriminate]). cbn [option_map]. rewrite map_length, seq_length. reflexivity.
Qed.
Lemma circle_in kx ky dx dy k a : spaced_axis kx dx -> spaced_axis ky dy -> (0 <= k <= Rmin (snd kx (Z.of_nat (fst kx) - 1)%Z) (snd ky (Z.of_nat (fst ky) - 1)%Z))%R -> (snd kx 0%Z <= - snd kx (Z.of_nat (fst kx) - 1)%Z)%R -> (snd ky 0%Z <= - snd ky (Z.of_nat (fst ky) - 1)%Z)%R ->
  (snd kx 0%Z <= k * cos a <= snd kx (Z.of_nat (fst kx) - 1)%Z)%R /\ (snd ky 0%Z <= k * sin a <= snd ky (Z.of_nat (fst ky) - 1)%Z)%R.
Proof.
  intros _ _ (K0 & K1) Sx Sy. pose proof (Rmin_l (snd kx (Z.of_nat (fst kx) - 1)%Z) (snd ky (Z.of_nat (fst ky) - 1)%Z)). pose proof (Rmin_r (snd kx (Z.of_nat (fst kx) - 1)%Z) (snd ky (Z.of_nat (fst ky) - 1)%Z)). pose proof (COS_bound a) as (C1 & C2). pose proof (SIN_bound a) as (S1 & S2).
  assert (Q : forall z, (-1 <= z <= 1 -> - k <= k * z <= k)%R) by (intros z Hz; split; [replace (- k)%R with (k * -1)%R by ring | rewrite <- (Rmult_1_r k) at 2]; apply Rmult_le_compat_l; lra). pose proof (Q _ (conj C1 C2)). pose proof (Q _ (conj S1 S2)). split; lra.
Qed.
(* @prop C84 isotropize by interpolation of a 2D spectrum with positive energies, over any two evenly spaced wave-number axes whose negative end reaches at least as far as their positive end (as the shifted axes of fourier_transform do), linear or nearest, any positive number of quadrature points: the wave numbers are dk, 2 dk, ... up to the smaller of the two largest wave numbers, dk being the larger spacing; every sampled point lies inside the axes, so no value is NaN; and if all energies lie between m and M > 0, the spectrum at k lies between 2 pi k m and 2 pi k M (so for a constant density c it is exactly 2 pi k c). *)
Lemma isotropize_interpolation_bounds_lem : forall (kx ky : coordinate) (dx dy : R) (e : arr R) (meth : interp_method) (Nq : nat) (m M : R), spaced_axis kx dx -> spaced_axis ky dy ->
  let top := Rmin (snd kx (Z.of_nat (fst kx) - 1)%Z) (snd ky (Z.of_nat (fst ky) - 1)%Z) in let dk := Rmax dx dy in
  (0 <= top)%R -> (snd kx 0%Z <= - snd kx (Z.of_nat (fst kx) - 1)%Z)%R -> (snd ky 0%Z <= - snd ky (Z.of_nat (fst ky) - 1)%Z)%R -> (0 < Nq)%nat ->
  (0 < m)%R -> (forall ix, inb [fst kx; fst ky] ix -> (m <= get e ix <= M)%R) ->
  exists l, isotropize_interpolation_2d kx ky e meth Nq = Ok l /\ (INR (length l) * dk <= top <= (INR (length l) + 1) * dk)%R /\
    forall j d, (j < length l)%nat -> exists S, nth j l d = ((INR (j + 1) * dk)%R, Some S) /\ (2 * PI * (INR (j + 1) * dk) * m <= S <= 2 * PI * (INR (j + 1) * dk) * M)%R.
Proof.
  intros kx ky dx dy e meth Nq m M Hx Hy top dk H0 Sx Sy HN Hm He.
  assert (LN : forall ix, inb [fst kx; fst ky] ix -> (ln m <= get (amap ln e) ix <= ln M)%R).
  { assert (LL : forall x y, (0 < x -> x <= y -> ln x <= ln y)%R) by (intros x y P [L | ->]; [left; apply ln_increasing; lra | right; reflexivity]). intros ix Hix. cbn [amap get]. specialize (He ix Hix). split; apply LL; lra. }
  assert (HI : forall k a, exists v, (0 <= k <= top)%R -> interp_2d meth kx ky (amap ln e) (k * cos a) (k * sin a) = Some v /\ (ln m <= v <= ln M)%R).
  { intros k a. destruct (Rle_dec 0 k) as [A|]; [|exists 0%R; intros; lra]. destruct (Rle_dec k top) as [B|]; [|exists 0%R; intros; lra]. destruct (@circle_in kx ky dx dy k a Hx Hy (conj A B) Sx Sy) as (C1 & C2). destruct (@interp_2d_bounds meth kx ky dx dy (amap ln e) (k * cos a) (k * sin a) (ln m) (ln M) Hx Hy C1 C2 LN) as (v & Ev & Bv). exists v. intros _. split; assumption. }
  set (V := fun k a => match interp_2d meth kx ky (amap ln e) (k * cos a) (k * sin a) with Some v => v | None => 0%R end).
  assert (HV : forall k a, (0 <= k <= top)%R -> interp_2d meth kx ky (amap ln e) (k * cos a) (k * sin a) = Some (V k a) /\ (ln m <= V k a <= ln M)%R).
  { intros k a Hk. destruct (HI k a) as (v & Hv). destruct (Hv Hk) as (E & B). unfold V. rewrite E. split; [reflexivity | exact B]. }
  destruct (@iso_general kx ky dx dy dk e meth Nq Hx Hy eq_refl H0 Sx Sy HN V (fun k a Hk => proj1 (HV k a Hk))) as (l & El & Bl & Vl). exists l. split; [exact El|]. split; [exact Bl|]. intros j d Hj. destruct (Vl j d Hj) as (Hk & Ej). eexists. split; [exact Ej|].
  set (k := (INR (j + 1) * dk)%R) in *. assert (Hk' : (0 < k <= top)%R) by exact Hk. assert (Hk0 : (0 <= k <= top)%R) by (destruct Hk'; split; [left|]; assumption). pose proof PI_RGT_0 as HP. assert (P2 : (0 <= 2 * PI * k)%R) by (apply Rmult_le_pos; lra).
  assert (HM : (0 < M)%R). { destruct Hx as (X1 & _). destruct Hy as (Y1 & _). pose proof (He [0; 0] ltac:(apply inb2; lia)). lra. }
  assert (CB : (m <= circle_mean Nq (fun a => exp (V k a)) <= M)%R).
  { unfold circle_mean. rewrite <- (seq_length Nq 0) at 2 4. rewrite <- (map_length (fun i => exp (V k (2 * PI * (INR i / INR Nq))%R))). apply mean_bounds; [destruct Nq; [lia | discriminate]|]. intros x Hx'. apply in_map_iff in Hx'. destruct Hx' as (i & <- & _). destruct (HV k (2 * PI * (INR i / INR Nq))%R Hk0) as (_ & B1 & B2).
    rewrite <- (exp_ln m Hm) at 1. rewrite <- (exp_ln M HM). assert (EL : forall x y, (x <= y -> exp x <= exp y)%R) by (intros x y [L | ->]; [left; apply exp_increasing; exact L | right; reflexivity]). split; apply EL; assumption. }
  split; apply Rmult_le_compat_l; lra.
Qed.
(* @ex *)
Lemma isotropize_interpolation_bounds_ex_lem : let k := (8%nat, fun i => IZR (i - 4)) in spaced_axis k 1 /\ (0 <= Rmin (snd k (Z.of_nat (fst k) - 1)%Z) (snd k (Z.of_nat (fst k) - 1)%Z))%R /\ (snd k 0%Z <= - snd k (Z.of_nat (fst k) - 1)%Z)%R /\ (0 < 100)%nat /\ (0 < 1)%R /\
  (forall ix, inb [fst k; fst k] ix -> (1 <= get (mkarr [8; 8]%nat (fun ix => 1 + / (1 + Rabs (IZR (nth 0 ix 0%Z))))) ix <= 2)%R).
Proof.
  cbv zeta. cbn [fst snd]. split; [split; [cbn; lia|]; split; [lra|]; intros i _; cbn [snd]; rewrite !minus_IZR; lra|]. split; [rewrite Rmin_left by lra; change (Z.of_nat 8 - 1 - 4) with 3; lra|]. split; [change (Z.of_nat 8 - 1 - 4) with 3; change (0 - 4) with (-4); lra|]. split; [lia|]. split; [lra|].
  intros ix _. cbn [get]. pose proof (Rabs_pos (IZR (nth 0 ix 0%Z))) as P. assert (A : (0 < / (1 + Rabs (IZR (nth 0 ix 0%Z))))%R) by (apply Rinv_0_lt_compat; lra). assert (B : (/ (1 + Rabs (IZR (nth 0 ix 0%Z))) <= 1)%R) by (rewrite <- Rinv_1; apply Rinv_le_contravar; lra). lra.
Qed.
(* @prop C84 The linear interpolation is exact for spectra whose logarithm is linear in the wave vector: for energies exp(a + b kx + c ky) on the same kind of axes, the value at wave number k is 2 pi k times the mean of exp(a + b k cos t + c k sin t) over equally spaced angles t. *)
Lemma isotropize_interpolation_exact_lem : forall (kx ky : coordinate) (dx dy : R) (e : arr R) (Nq : nat) (a b c : R), spaced_axis kx dx -> spaced_axis ky dy ->
  let top := Rmin (snd kx (Z.of_nat (fst kx) - 1)%Z) (snd ky (Z.of_nat (fst ky) - 1)%Z) in let dk := Rmax dx dy in
  (0 <= top)%R -> (snd kx 0%Z <= - snd kx (Z.of_nat (fst kx) - 1)%Z)%R -> (snd ky 0%Z <= - snd ky (Z.of_nat (fst ky) - 1)%Z)%R -> (0 < Nq)%nat ->
  (forall i j, inb [fst kx; fst ky] [i; j] -> get e [i; j] = exp (a + b * snd kx i + c * snd ky j)) ->
  exists l, isotropize_interpolation_2d kx ky e ILinear Nq = Ok l /\
    forall j d, (j < length l)%nat -> let k := (INR (j + 1) * dk)%R in
      nth j l d = (k, Some (2 * PI * k * (fold_right Rplus 0 (map (fun i => exp (a + b * (k * cos (2 * PI * (INR i / INR Nq))) + c * (k * sin (2 * PI * (INR i / INR Nq))))) (seq 0 Nq)) / INR Nq))%R).
Proof.
  intros kx ky dx dy e Nq a b c Hx Hy top dk H0 Sx Sy HN He.
  destruct (@iso_general kx ky dx dy dk e ILinear Nq Hx Hy eq_refl H0 Sx Sy HN (fun k t => a + b * (k * cos t) + c * (k * sin t))%R) as (l & El & Bl & Vl).
  - intros k t Hk. destruct (@circle_in kx ky dx dy k t Hx Hy Hk Sx Sy) as (C1 & C2). apply (@interp_2d_affine kx ky dx dy); try assumption. intros i j Hij. cbn [amap get]. rewrite He by exact Hij. apply ln_exp.
  - exists l. split; [exact El|]. intros j d Hj. exact (proj2 (Vl j d Hj)).
Qed.
(* @ex *)
Lemma isotropize_interpolation_exact_ex_lem : let k := (8%nat, fun i => IZR (i - 4)) in spaced_axis k 1 /\ (0 <= Rmin (snd k (Z.of_nat (fst k) - 1)%Z) (snd k (Z.of_nat (fst k) - 1)%Z))%R /\ (snd k 0%Z <= - snd k (Z.of_nat (fst k) - 1)%Z)%R /\ (0 < 100)%nat /\
  (forall i j, inb [fst k; fst k] [i; j] -> get (mkarr [8; 8]%nat (fun ix => exp (1 + 2 * IZR (nth 0 ix 0%Z - 4) + 3 * IZR (nth 1 ix 0%Z - 4)))) [i; j] = exp (1 + 2 * snd k i + 3 * snd k j)).
Proof. destruct isotropize_interpolation_bounds_ex_lem as (A & B & C & D & _). cbv zeta in *. repeat (split; [assumption|]). intros i j _. reflexivity. Qed.
(* @prop C84 isotropic_energy_spectrum of any 2D dataset with at least two points per axis and positive spectral energies: it succeeds, its wave numbers are the multiples of the larger of the two spacings 2 pi / (n h), and no entry is NaN. *)
Lemma isotropic_energy_spectrum_defined_lem : forall (ds : dataset) (cx cy : coordinate) (hx hy : R), ds_coords ds = [cx; cy] -> uniform_axis cx hx -> uniform_axis cy hy -> ds_velocity ds <> [] ->
  (forall a, In a (ds_velocity ds) -> shp a = [fst cx; fst cy]) ->
  exists ks e, energy_spectrum ds = Ok (ks, e) /\ ((forall ix, inb [fst cx; fst cy] ix -> (0 < get e ix)%R) ->
    exists l, isotropic_energy_spectrum ds = Ok l /\ forall j d, (j < length l)%nat -> exists S, nth j l d = ((INR (j + 1) * Rmax (2 * PI / (INR (fst cx) * hx)) (2 * PI / (INR (fst cy) * hy)))%R, Some S) /\ (0 < S)%R).
Proof.
  intros ds cx cy hx hy Ec Ux Uy Hv Hs. assert (HF : Forall2 uniform_axis (ds_coords ds) [hx; hy]) by (rewrite Ec; constructor; [exact Ux|]; constructor; [exact Uy|]; constructor).
  destruct (@energy_spectrum_parseval_lem ds [hx; hy] HF Hv) as (ks & e & e0 & Ee & _ & Se & _); [rewrite Ec; exact Hs|]. exists ks, e. split; [exact Ee|]. intros He.
  assert (Ek : ks = [kcoord cx hx; kcoord cy hy]).
  { destruct (fourier_coords_ok HF) as (ks' & E1 & E2 & _). unfold energy_spectrum in Ee. apply bind_Ok_inv in Ee. destruct Ee as (? & _ & Ee). apply bind_Ok_inv in Ee. destruct Ee as (? & _ & Ee). rewrite E1 in Ee. cbn [bind] in Ee. assert (ks' = ks) as -> by congruence. rewrite Ec in E2. cbn [combine] in E2. inversion E2 as [|k1 ? l1 ? K1 F1]; subst. inversion F1 as [|k2 ? l2 ? K2 F2]; subst. inversion F2; subst. reflexivity. }
  destruct (kcoord_spaced Ux) as (SX & TX). destruct (kcoord_spaced Uy) as (SY & TY).
  assert (FX : fst (kcoord cx hx) = fst cx) by reflexivity. assert (FY : fst (kcoord cy hy) = fst cy) by reflexivity.
  assert (END : forall c h, uniform_axis c h -> (0 <= snd (kcoord c h) (Z.of_nat (fst c) - 1)%Z)%R /\ (snd (kcoord c h) 0%Z <= - snd (kcoord c h) (Z.of_nat (fst c) - 1)%Z)%R).
  { intros c h U. destruct (kcoord_spaced U) as (S & T). destruct S as (N2 & P & S). change (fst (kcoord c h)) with (fst c) in *. assert (I : (0 <= INR ((fst c - 1) / 2))%R) by apply pos_INR. split; [rewrite T; apply Rmult_le_pos; lra|].
    pose proof (S (Z.of_nat (fst c) - 1)%Z ltac:(lia)) as E. rewrite T in E. rewrite T. rewrite minus_IZR, <- INR_IZR_INZ in E. set (q := ((fst c - 1) / 2)%nat) in *. set (w := (2 * PI / (INR (fst c) * h))%R) in *. assert (Q : (2 * q <= fst c - 1)%nat) by (unfold q; apply Nat.mul_div_le; lia).
    assert (Q2 : (2 * INR q <= INR (fst c) - 1)%R) by (apply le_INR in Q; rewrite mult_INR, minus_INR in Q by lia; cbn [INR] in Q; lra). assert (Q3 : (2 * INR q * w <= (INR (fst c) - 1) * w)%R) by (apply Rmult_le_compat_r; lra). lra. }
  destruct (END cx hx Ux) as (X0 & X1). destruct (END cy hy Uy) as (Y0 & Y1).
  (* bounds of the energies *)
  assert (BD : exists m M, (0 < m)%R /\ forall ix, inb [fst cx; fst cy] ix -> (m <= get e ix <= M)%R).
  { clear - He. assert (G : forall n m (f : Z -> Z -> R), (forall i j, 0 <= i < Z.of_nat n -> 0 <= j < Z.of_nat m -> (0 < f i j)%R) -> exists lo hi, (0 < lo)%R /\ forall i j, 0 <= i < Z.of_nat n -> 0 <= j < Z.of_nat m -> (lo <= f i j <= hi)%R).
    { assert (L1 : forall n (f : Z -> R), (forall i, 0 <= i < Z.of_nat n -> (0 < f i)%R) -> exists lo hi, (0 < lo)%R /\ forall i, 0 <= i < Z.of_nat n -> (lo <= f i <= hi)%R).
      { induction n as [|n IH]; intros f Hf; [exists 1%R, 1%R; split; [lra | intros; lia]|]. destruct (IH f ltac:(intros; apply Hf; lia)) as (lo & hi & P & B). pose proof (Hf (Z.of_nat n) ltac:(lia)) as Fn. exists (Rmin lo (f (Z.of_nat n))), (Rmax hi (f (Z.of_nat n))). split; [apply Rmin_glb_lt; assumption|]. intros i Hi. pose proof (Rmin_l lo (f (Z.of_nat n))). pose proof (Rmin_r lo (f (Z.of_nat n))). pose proof (Rmax_l hi (f (Z.of_nat n))). pose proof (Rmax_r hi (f (Z.of_nat n))). destruct (Z.eq_dec i (Z.of_nat n)) as [-> | N]; [lra|]. pose proof (B i ltac:(lia)). lra. }
      intros n m f. induction n as [|n IH]; intros Hf; [exists 1%R, 1%R; split; [lra | intros; lia]|]. destruct (IH ltac:(intros; apply Hf; lia)) as (lo & hi & P & B). destruct (L1 m (f (Z.of_nat n)) ltac:(intros; apply Hf; lia)) as (lo2 & hi2 & P2 & B2). exists (Rmin lo lo2), (Rmax hi hi2). split; [apply Rmin_glb_lt; assumption|]. intros i j Hi Hj. pose proof (Rmin_l lo lo2). pose proof (Rmin_r lo lo2). pose proof (Rmax_l hi hi2). pose proof (Rmax_r hi hi2). destruct (Z.eq_dec i (Z.of_nat n)) as [-> | N]; [pose proof (B2 j Hj); lra|]. pose proof (B i j ltac:(lia) Hj). lra. }
    destruct (G (fst cx) (fst cy) (fun i j => get e [i; j]) ltac:(intros; apply He; apply inb2; assumption)) as (lo & hi & P & B). exists lo, hi. split; [exact P|]. intros [|i [|j [|? ?]]] Hix; cbn in Hix; try tauto. apply B; tauto. }
  destruct BD as (m & M & Pm & BD). destruct (@isotropize_interpolation_bounds_lem (kcoord cx hx) (kcoord cy hy) _ _ e ILinear 100 m M SX SY) as (l & El & _ & Vl); [rewrite FX, FY; apply Rmin_glb; assumption | rewrite FX; exact X1 | rewrite FY; exact Y1 | lia | exact Pm | rewrite FX, FY; exact BD |].
  exists l. split; [unfold isotropic_energy_spectrum; rewrite Ee; cbn [bind fst snd]; rewrite Ek; exact El|]. intros j d Hj. destruct (Vl j d Hj) as (S & Ej & BS & _). exists S. split; [exact Ej|]. eapply Rlt_le_trans; [|exact BS]. pose proof PI_RGT_0. destruct SX as (_ & PX & _). pose proof (Rmax_l (2 * PI / (INR (fst cx) * hx)) (2 * PI / (INR (fst cy) * hy))) as RM. assert (RP : (0 < Rmax (2 * PI / (INR (fst cx) * hx)) (2 * PI / (INR (fst cy) * hy)))%R) by (eapply Rlt_le_trans; [exact PX | exact RM]). assert (PJ : (0 < INR (j + 1))%R) by (apply lt_0_INR; lia). apply Rmult_lt_0_compat; [|exact Pm]. apply Rmult_lt_0_compat; [lra|]. apply Rmult_lt_0_compat; assumption.
Qed.
(* @ex *)
Lemma isotropic_energy_spectrum_defined_ex_lem : let ds := mkds [ex_axis 8 1; ex_axis 6 2] [mkarr [8; 6]%nat (fun ix => if nth 0 ix 0%Z =? 0 then if nth 1 ix 0%Z =? 0 then 1%R else 0%R else 0%R)] in
  ds_coords ds = [ex_axis 8 1; ex_axis 6 2] /\ uniform_axis (ex_axis 8 1) 1 /\ uniform_axis (ex_axis 6 2) 2 /\ ds_velocity ds <> [] /\ (forall a, In a (ds_velocity ds) -> shp a = [8%nat; 6%nat]).
Proof. cbv zeta. split; [reflexivity|]. split; [apply ex_axis_uniform; [lia | lra]|]. split; [apply ex_axis_uniform; [lia | lra]|]. split; [discriminate|]. intros a [<- | []]. reflexivity. Qed.
(* @prop C84 isotropize: without wave-number axes, with an unknown method, or with method "interpolation" on anything but two axes, it raises ValueError; without a method it uses interpolation exactly for two axes and binsum otherwise. *)
Lemma isotropize_dispatch_lem : forall (ks : list coordinate) (e : arr R) (meth : interp_method) (Nq : nat),
  (isotropize [] e None meth Nq = Err EValue) /\ (isotropize ks e (Some MInvalid) meth Nq = Err EValue) /\
  (length ks <> 2%nat -> isotropize ks e (Some MInterpolation) meth Nq = Err EValue) /\
  (length ks = 2%nat -> isotropize ks e None meth Nq = isotropize ks e (Some MInterpolation) meth Nq) /\
  (length ks <> 2%nat -> isotropize ks e None meth Nq = isotropize ks e (Some MBinsum) meth Nq).
Proof.
  intros ks e meth Nq. unfold isotropize. split; [reflexivity|]. split; [destruct ks; reflexivity|]. split; [|split].
  - intros H. destruct ks as [|a [|b [|c ks]]]; try reflexivity. cbn in H. lia.
  - intros H. rewrite H. reflexivity.
  - intros H. destruct (Nat.eqb_spec (length ks) 2); [contradiction | reflexivity].
Qed.
(* @ex *)
Lemma isotropize_dispatch_ex_lem : length [(8%nat, fun i : Z => IZR (i - 4))] <> 2%nat /\ length [(8%nat, fun i : Z => IZR (i - 4)); (6%nat, fun i : Z => IZR (i - 3))] = 2%nat.
Proof. split; [discriminate | reflexivity]. Qed.
(* @prop C84 grid_from_attrs with ndim and save_grid_size n >= 1: the grid has n cells on each of the ndim axes and the domain from 0 to L on each, L being domain_size if present, else 2 pi domain_size_multiple; with neither it raises ValueError. Without save_grid_size, with two rectangle sizes and an aspect ratio r, the grid of a 2D dataset has these sizes, domain (0, r) by (0, 1). *)
Lemma grid_from_attrs_spec_lem : forall (a : dataset_attrs) (d : nat), at_ndim a = Some d ->
  (forall n, at_save_grid_size a = Some n -> (0 < n)%nat ->
     (forall L, at_domain_size a = Some L \/ (at_domain_size a = None /\ exists k, at_domain_size_multiple a = Some k /\ L = (2 * PI * k)%R) ->
        exists g, grid_from_attrs a = Ok g /\ gshape g = repeat n d /\ gdomain g = repeat (0%R, L) d /\ gstep g = repeat (L / INR n)%R d) /\
     (at_domain_size a = None -> at_domain_size_multiple a = None -> grid_from_attrs a = Err EValue)) /\
  (forall nx ny r, d = 2%nat -> at_save_grid_size a = None -> at_rectangle a = [Some nx; Some ny] -> at_aspect_ratio a = Some r -> (0 < nx)%nat -> (0 < ny)%nat ->
     exists g, grid_from_attrs a = Ok g /\ gshape g = [nx; ny] /\ gdomain g = [(0%R, r); (0%R, 1%R)] /\ gstep g = [(r / INR nx)%R; (1 / INR ny)%R]).
Proof.
  intros a d Hd. unfold grid_from_attrs. rewrite Hd. cbn [required bind]. split.
  - intros n Hn Pn. rewrite Hn. split.
    + intros L HL. assert (E : match at_domain_size a with Some d0 => Ok d0 | None => match at_domain_size_multiple a with Some m => Ok (2 * PI * m)%R | None => Err EValue end end = Ok L) by (destruct HL as [-> | (-> & k & -> & ->)]; reflexivity). rewrite E. cbn [bind]. unfold grid_init. rewrite !repeat_length, Nat.eqb_refl.
      assert (E1 : mapM pair_of_bounds (repeat [0%R; L] d) = Ok (repeat (0%R, L) d)) by (clear; induction d as [|d IH]; [reflexivity | cbn [repeat mapM]; cbn [pair_of_bounds bind]; rewrite IH; reflexivity]). rewrite E1. cbn [bind].
      match goal with |- context [mapM ?f (combine (repeat (0%R, L) d) (repeat n d))] => assert (E2 : mapM f (combine (repeat (0%R, L) d) (repeat n d)) = Ok (repeat (L / INR n)%R d)) end.
      { clear - Pn. induction d as [|d IH]; [reflexivity|]. cbn [repeat combine mapM]. destruct (Nat.eqb_spec n 0); [lia|]. cbn [bind]. rewrite IH. cbn [bind]. rewrite Rminus_0_r. reflexivity. }
      rewrite E2. cbn [bind]. eexists. split; [reflexivity|]. repeat split.
    + intros -> ->. reflexivity.
  - intros nx ny r Ed Hn Hr Ha Px Py. rewrite Hn, Hr, Ha, Ed. cbn [firstn mapM required bind]. unfold grid_init. cbn [length Nat.eqb mapM pair_of_bounds bind combine]. destruct (Nat.eqb_spec nx 0); [lia|]. cbn [bind]. destruct (Nat.eqb_spec ny 0); [lia|]. cbn [bind]. eexists. split; [reflexivity|]. cbn [gshape gdomain gstep]. rewrite !Rminus_0_r. repeat split.
Qed.
(* @ex *)
Lemma grid_from_attrs_spec_ex_lem : let a := mkattrs (Some 3%nat) (Some 16%nat) None (Some 2%R) [] None in at_ndim a = Some 3%nat /\ at_save_grid_size a = Some 16%nat /\ (0 < 16)%nat /\ at_domain_size a = None /\ exists k, at_domain_size_multiple a = Some k /\ (4 * PI = 2 * PI * k)%R.
Proof. cbv zeta. repeat (split; [reflexivity || (cbn; lia)|]). exists 2%R. split; [reflexivity | ring]. Qed.
