(** * C65: flows with a single wave length, and examples *)
From Verif Require Import Prelude NdArr LinAlg Cplx Grids_model FastDiag_model FourierProofs FourierLine Spectral_model SpectralProps SpectralUtilProps FourierPlane SpecFourier NS2DBase NS2DProps NS2DConserve NS2DMoreProps.
Set Implicit Arguments.
Local Open Scope Z_scope.

(** Scaling a stored spectrum. *)
Lemma irfftn_scaled U V n k c : shp U = [n; k] -> shp V = [n; k] -> (0 < n)%nat -> (1 < k)%nat ->
  (forall i b, 0 <= i < Z.of_nat n -> 0 <= b < Z.of_nat k -> get U [i; b] = Cscal c (get V [i; b])) ->
  forall i j, get (irfftn U) [i; j] = (c * get (irfftn V) [i; j])%R.
Proof.
  intros SU SV Hn Hk E i j. destruct (irfftn2_raw _ SU) as [_ G1]. destruct (irfftn2_raw _ SV) as [_ G2]. rewrite G1, G2.
  set (M := (2 * (k - 1))%nat). unfold irfft1.
  assert (EL : forall q, 0 <= q < Z.of_nat k -> ifft1 n (fun p => get U [p; q]) i = Cscal c (ifft1 n (fun p => get V [p; q]) i)).
  { intros q Hq. rewrite <- (@ifft1_cscal n c (fun p => get V [p; q])). apply ifft1_ext. intros p Hp. apply E; assumption. }
  transitivity (re (Cscal c (ifft1 M (hermitian_ext M (fun q => ifft1 n (fun p => get V [p; q]) i)) j))); [|reflexivity]. f_equal. rewrite <- ifft1_cscal. apply ifft1_ext. intros q Hq.
  unfold hermitian_ext. unfold M in *. zb; rewrite ?EL by lia; ceq.
Qed.
Lemma sum_zero_fft2 n m f p q : (forall i j, f i j = C0) -> fft2 n m f p q = C0.
Proof. intros E. unfold fft2, fft1. apply csum_zero. intros i _. rewrite csum_zero; [ceq|]. intros j _. rewrite E. ceq. Qed.
(* @prop C65 Flows with a single wave length are steady for the explicit terms: on every grid with at least two columns (even or odd), if all the wave vectors present in the vorticity spectrum (apart from the mean) have the same length - Taylor-Green vortices, Kolmogorov flow, any eigenfunction of the Laplacian - then the unforced NavierStokes2D.explicit_terms succeeds and is exactly zero, whatever the smooth flag. *)
Lemma single_wave_length_is_steady_lem : forall (g : grid) (n m : nat) (hx hy k2 : R) (smooth : option bool) (W : arr cplx),
  grid2 g n m hx hy -> (2 <= m)%nat -> shp W = [n; (m / 2 + 1)%nat] -> one_wave_length n m (INR n * hx) (INR m * hy) k2 W ->
  exists N, ns2d_explicit_terms g smooth None W = Ok N /\ shp N = [n; (m / 2 + 1)%nat] /\
    forall i b, 0 <= i < Z.of_nat n -> 0 <= b <= Z.of_nat (m / 2) -> get N [i; b] = C0.
Proof.
  intros g n m hx hy k2 smooth W Hg Hm2 Hw H1. pose proof (rfft_mesh2 Hg) as Em. destruct (@velocity_symbols g n m hx hy W Hg Hw) as (U & V & EV & SU & SV & GUV).
  destruct Hg as (Hs & _ & Hn & Hm & Hx & Hy). destruct (@brick_get g n m Hs Hn Hm) as (F & EF & SF & _).
  unfold ns2d_explicit_terms. rewrite Em, EF, EV. cbn [bind fst snd]. rewrite ew_ok by (rewrite Hw; reflexivity). cbn [bind]. rewrite ew_ok by (rewrite Hw; reflexivity). cbn [bind].
  set (gx := amap2 _ (mesh_x n m hx) W). set (gy := amap2 _ (mesh_y n m hy) W). set (k := (m / 2 + 1)%nat) in *.
  assert (Hk : (1 < k)%nat) by (unfold k; pose proof (Nat.div_le_mono 2 m 2 ltac:(lia) Hm2) as D; change (2 / 2)%nat with 1%nat in D; lia).
  set (c := (/ ((2 * PI) ^ 2 * k2))%R).
  assert (Hsig : forall i b, 0 <= i < Z.of_nat n -> 0 <= b < Z.of_nat k -> (i <> 0 \/ b <> 0) -> Cmul (sig n m hx hy (signed n i) b) (get W [i; b]) = Cscal c (get W [i; b])).
  { intros i b Hi Hb Hib. destruct (H1 i b Hi ltac:(unfold k in Hb; lia) Hib) as [E|E]; [rewrite E; ceq|].
    assert (Es : sig n m hx hy (signed n i) b = RtoC c).
    { unfold sig. replace ((signed n i =? 0) && (b =? 0)) with false.
      2:{ symmetry. apply andb_false_iff. destruct (Z.eq_dec i 0) as [->|Ei]; [right; apply Z.eqb_neq; lia | left; apply Z.eqb_neq; intros E0; apply signed_0 in E0; lia]. }
      unfold c. f_equal. f_equal. rewrite <- E. change (row_wave n i) with (signed n i). unfold wave2, freq. ring. }
    rewrite Es. ceq. }
  assert (F0 : forall k h, freq k h 0 = 0%R) by (intros; unfold freq, Rdiv; ring). assert (S0 : signed n 0 = 0) by (unfold signed; zb; lia).
  assert (GU : forall i b, 0 <= i < Z.of_nat n -> 0 <= b < Z.of_nat k -> get U [i; b] = Cscal c (get gy [i; b])).
  { intros i b Hi Hb. rewrite (proj1 (GUV i b Hi ltac:(unfold k in Hb; lia))). unfold gy. cbn [get amap2 mesh_y nth]. unfold uxs, dys.
    destruct (Z.eq_dec i 0) as [->|Ei]; [destruct (Z.eq_dec b 0) as [->|Eb]|].
    - rewrite F0. ceq.
    - transitivity (Cmul (Cmul two_pi_i (RtoC (freq m hy b))) (Cmul (sig n m hx hy (signed n 0) b) (get W [0; b]))); [ring|]. rewrite Hsig by auto. ceq.
    - transitivity (Cmul (Cmul two_pi_i (RtoC (freq m hy b))) (Cmul (sig n m hx hy (signed n i) b) (get W [i; b]))); [ring|]. rewrite Hsig by auto. ceq. }
  assert (GV : forall i b, 0 <= i < Z.of_nat n -> 0 <= b < Z.of_nat k -> get V [i; b] = Cscal (- c) (get gx [i; b])).
  { intros i b Hi Hb. rewrite (proj2 (GUV i b Hi ltac:(unfold k in Hb; lia))). unfold gx. cbn [get amap2 mesh_x nth]. unfold uys, dxs.
    destruct (Z.eq_dec i 0) as [->|Ei]; [destruct (Z.eq_dec b 0) as [->|Eb]|].
    - rewrite S0, F0. ceq.
    - transitivity (Cmul (Copp (Cmul two_pi_i (RtoC (freq n hx (signed n 0))))) (Cmul (sig n m hx hy (signed n 0) b) (get W [0; b]))); [ring|]. rewrite Hsig by auto. ceq.
    - transitivity (Cmul (Copp (Cmul two_pi_i (RtoC (freq n hx (signed n i))))) (Cmul (sig n m hx hy (signed n i) b) (get W [i; b]))); [ring|]. rewrite Hsig by auto. ceq. }
  assert (SU' : shp U = [n; k]) by congruence. assert (SV' : shp V = [n; k]) by congruence.
  pose proof (@irfftn_scaled U gy n k c SU' eq_refl Hn Hk GU) as IU. pose proof (@irfftn_scaled V gx n k (- c) SV' eq_refl Hn Hk GV) as IV.
  destruct (irfftn2_raw U SU') as [S1 _]. destruct (irfftn2_raw V SV') as [S2 _]. destruct (@irfftn2_raw gx n k eq_refl) as [S3 _]. destruct (@irfftn2_raw gy n k eq_refl) as [S4 _].
  rewrite ew_ok by congruence. cbn [bind]. rewrite ew_ok by congruence. cbn [bind]. rewrite ew_ok by (cbn; congruence). cbn [bind].
  match goal with |- context [rfftn ?x] => set (adv := x) end. assert (Sa : shp adv = [n; (2 * (k - 1))%nat]) by (unfold adv; cbn; exact S3).
  destruct (rfftn2 adv Sa) as [S5 G5]. assert (Ek : (2 * (k - 1) / 2 + 1)%nat = k) by (rewrite (Nat.mul_comm 2), Nat.div_mul by lia; lia). rewrite Ek in S5.
  assert (Z5 : forall p q, get (rfftn adv) [p; q] = C0).
  { intros p q. rewrite G5. apply sum_zero_fft2. intros i j. unfold adv. cbn [get amap amap2]. rewrite IU, IV. ceq. }
  destruct smooth as [b0|].
  - rewrite ew_ok by congruence. cbn [bind]. eexists. split; [reflexivity|]. split; [cbn; exact S5|]. intros i b _ _. cbn [get amap2]. rewrite Z5. ceq.
  - cbn [bind]. eexists. split; [reflexivity|]. split; [exact S5|]. intros i b _ _. apply Z5.
Qed.
(** A spectrum with two different wave vectors of the same length on a square grid. *)
Definition two_waves : arr cplx := mkarr [6%nat; 4%nat] (fun ix => if (nth 0 ix 0 =? 5) && (nth 1 ix 0 =? 1) || (nth 0 ix 0 =? 1) && (nth 1 ix 0 =? 1) then C1 else C0).
(* @ex *)
Lemma single_wave_length_is_steady_ex_lem : grid2 sq_grid 6 6 1 1 /\ shp two_waves = [6%nat; (6 / 2 + 1)%nat] /\ one_wave_length 6 6 (INR 6 * 1) (INR 6 * 1) (2 / 36) two_waves /\ get two_waves [5; 1] = C1 /\ get two_waves [1; 1] = C1.
Proof.
  split; [apply sq_grid_ok|]. split; [reflexivity|]. split; [|split; reflexivity]. intros i b Hi Hb _. unfold two_waves. cbn [get nth].
  destruct (Z.eqb_spec i 5) as [->|]; [|destruct (Z.eqb_spec i 1) as [->|]; [|left; reflexivity]]; (destruct (Z.eqb_spec b 1) as [->|]; [|left; reflexivity]); right; unfold row_wave; cbn [Z.ltb Z.of_nat Z.compare Z.mul]; cbn; lra.
Qed.
