(** * C65: enstrophy and energy *)
From Verif Require Import Prelude NdArr LinAlg Cplx Grids_model FastDiag_model FourierProofs FourierLine Spectral_model SpectralProps SpectralUtilProps FourierPlane SpecFourier NS2DBase NS2DProps NS2DConserve.
Set Implicit Arguments.
Local Open Scope Z_scope.

(** Replacing one factor of a sum over the grid by its filtered version. *)
Lemma work_filtered n m (A HN D : Z -> Z -> cplx) : (0 < n)%nat -> (0 < m)%nat ->
  (forall p q, 0 <= p < Z.of_nat n -> 0 <= q < Z.of_nat m -> A p q = C0 \/ HN (nneg n p) (nneg m q) = D (nneg n p) (nneg m q)) ->
  csum2 n m (fun i j => Cmul (ifft2 n m A i j) (ifft2 n m HN i j)) = csum2 n m (fun i j => Cmul (ifft2 n m A i j) (ifft2 n m D i j)).
Proof.
  intros Hn Hm E. rewrite !sum_pair by assumption. f_equal. apply csum2_ext. intros p q Hp Hq. destruct (E p q Hp Hq) as [-> | ->]; ring.
Qed.
(* @prop C65 Enstrophy and energy. Let w be any real vorticity field on a grid with n >= 3 rows and an even number of columns whose spectrum lies inside the 2/3 band, and let N = NavierStokes2D.explicit_terms(rfftn(w)) without forcing. Then N succeeds, and the advection it describes changes neither enstrophy nor kinetic energy: the sum over the grid of w * irfftn(N) is zero, and so is the sum of u . u_t, where u is the velocity of w and u_t the velocity (vorticity_to_velocity) of N. *)
Lemma ns2d_conserves_lem : forall (g : grid) (n m : nat) (hx hy : R) (smooth : bool) (w : arr R),
  grid2 g n m hx hy -> (3 <= n)%nat -> Nat.Even m -> shp w = [n; m] -> band_limited n m (rfftn w) ->
  exists N U V A B, ns2d_explicit_terms g (Some smooth) None (rfftn w) = Ok N /\
    vorticity_to_velocity g (rfftn w) = Ok (U, V) /\ vorticity_to_velocity g N = Ok (A, B) /\
    shp (irfftn N) = [n; m] /\ shp (irfftn U) = [n; m] /\ shp (irfftn V) = [n; m] /\ shp (irfftn A) = [n; m] /\ shp (irfftn B) = [n; m] /\
    asum [n; m] (fun x => get w x * get (irfftn N) x)%R = 0%R /\
    asum [n; m] (fun x => get (irfftn U) x * get (irfftn A) x + get (irfftn V) x * get (irfftn B) x)%R = 0%R.
Proof.
  intros g n m hx hy smooth w Hg Hn3 He Hw HB. pose proof Hg as (Hs & _ & Hn & Hm & Hx & Hy).
  pose proof (rfftn2 _ Hw) as [SW GW]. pose proof (band_no_nyquist Hn3 Hm HB) as HN.
  destruct (@ns2d_form g n m hx hy smooth (rfftn w) Hg Hn3 He SW HN) as (F & N & a & EF & EN & SN & Ha & GN).
  set (H := herm2 n m (fun p q => get (rfftn w) [p; q])) in *. set (D := fft2 n m (fun i j => RtoC (a i j))) in *.
  assert (HBN : band_limited n m N) by (eapply mask_band; eassumption). pose proof (band_no_nyquist Hn3 Hm HBN) as HNN.
  set (G := herm2 n m (fun p q => get N [p; q])) in *.
  destruct (@velocity_symbols g n m hx hy _ Hg SW) as (U & V & EV & SU & SV & GUV). destruct (@velocity_symbols g n m hx hy _ Hg SN) as (A & B & EA & SA & SB & GAB).
  destruct (@field_symbol n m U (rfftn w) (uxs n m hx hy)) as [S1 G1]; try assumption; [congruence | apply uxs_neg | intros; apply GUV; assumption |].
  destruct (@field_symbol n m V (rfftn w) (uys n m hx hy)) as [S2 G2]; try assumption; [congruence | apply uys_neg | intros; apply GUV; assumption |].
  destruct (@field_symbol n m A N (uxs n m hx hy)) as [S3 G3]; try assumption; [congruence | apply uxs_neg | intros; apply GAB; assumption |].
  destruct (@field_symbol n m B N (uys n m hx hy)) as [S4 G4]; try assumption; [congruence | apply uys_neg | intros; apply GAB; assumption |].
  fold H in G1, G2. fold G in G3, G4. destruct (@irfftn2 N n m SN Hn Hm He) as [S5 G5]. fold G in G5.
  assert (HGD : forall p q, 0 <= p < Z.of_nat n -> 0 <= q < Z.of_nat m -> H p q = C0 \/ G (nneg n p) (nneg m q) = D (nneg n p) (nneg m q)).
  { intros p q Hp Hq. destruct (C_dec (H p q) C0) as [E|E]; [left; exact E|right]. apply (@filtered_full g n m w F Hs Hn3 Hm Hw HB EF a N); [exact GN | apply nneg_range; lia | apply nneg_range; lia |]. apply H_neg_nz; assumption. }
  assert (H3 := @exact_band g n m w F Hs Hn3 Hm He Hw HB EF). fold H in H3.
  assert (Hwork : forall mu, Cadd (triads n m (times n m H mu) (times n m H (dxs n hx)) (times n m H (uxs n m hx hy))) (triads n m (times n m H mu) (times n m H (dys m hy)) (times n m H (uys n m hx hy))) = C0 ->
            csum2 n m (fun i j => Cmul (ifft2 n m (times n m H mu) i j) (ifft2 n m G i j)) = C0).
  { intros mu Et. rewrite (@work_filtered n m (times n m H mu) G D Hn Hm).
    - transitivity (csum2 n m (fun i j => Cmul (ifft2 n m (times n m H mu) i j) (adv_field n m hx hy H i j))).
      + apply csum2_ext. intros i j Hi Hj. unfold D. rewrite ifft2_fft2 by assumption. rewrite Ha. reflexivity.
      + rewrite adv_work by assumption. rewrite Et. ceq.
    - intros p q Hp Hq. destruct (HGD p q Hp Hq) as [E|E]; [left; unfold times; rewrite E; ring | right; exact E]. }
  exists N, U, V, A, B. repeat (split; [first [assumption | congruence]|]). split.
  - assert (E : RtoC (asum [n; m] (fun x => get w x * get (irfftn N) x)%R) = C0).
    { rewrite RtoC_asum2. rewrite <- (Hwork (fun _ _ => C1)) by (apply enstrophy_triads; assumption). apply csum2_ext. intros i j Hi Hj. rewrite RtoC_mul, G5. f_equal.
      rewrite <- (@ifft2_fft2 n m (fun i j => RtoC (get w [i; j])) i j) by assumption. apply ifft2_ext. intros p q Hp Hq. unfold times. rewrite <- (@H_is n m w Hn3 Hm Hw p q) by assumption. fold H. ring. }
    apply (f_equal re) in E. exact E.
  - assert (E : RtoC (asum [n; m] (fun x => get (irfftn U) x * get (irfftn A) x + get (irfftn V) x * get (irfftn B) x)%R) = C0).
    { rewrite RtoC_asum2. rewrite <- (Hwork (sig n m hx hy)) by (apply energy_triads; assumption).
      transitivity (Cadd (csum2 n m (fun i j => Cmul (ifft2 n m (times n m H (uxs n m hx hy)) i j) (ifft2 n m (times n m G (uxs n m hx hy)) i j))) (csum2 n m (fun i j => Cmul (ifft2 n m (times n m H (uys n m hx hy)) i j) (ifft2 n m (times n m G (uys n m hx hy)) i j)))).
      - rewrite <- csum2_plus. apply csum2_ext. intros i j Hi Hj. unfold times. rewrite <- G1, <- G2, <- G3, <- G4. ceq.
      - rewrite !sum_pair by assumption. match goal with |- Cadd (Cscal ?c ?x) (Cscal ?c ?y) = _ => transitivity (Cscal c (Cadd x y)); [ceq|] end. rewrite <- csum2_plus. f_equal. apply csum2_ext. intros p q Hp Hq. unfold times.
        destruct (C_dec (H p q) C0) as [E|E]; [rewrite E; ring|]. destruct (@not_nyquist n m _ p q Hn HN Hp Hq E) as [N1 N2]. rewrite N1, N2, uxs_neg, uys_neg.
        set (a0 := signed n p). set (b0 := signed m q). assert (Ek : Cadd (Cmul (uxs n m hx hy a0 b0) (Cconj (uxs n m hx hy a0 b0))) (Cmul (uys n m hx hy a0 b0) (Cconj (uys n m hx hy a0 b0))) = sig n m hx hy a0 b0 \/ (a0 = 0 /\ b0 = 0)).
        { unfold uxs, uys, sig. destruct (Z.eqb_spec a0 0) as [Ea|Ea]; [destruct (Z.eqb_spec b0 0) as [Eb|Eb]; [right; split; assumption|]|]; cbn [andb]; left.
          all: assert (Hw2 : (0 < wave2 (freq n hx a0) (freq m hy b0))%R).
          1,3: (unfold wave2; pose proof PI_RGT_0; assert (freq n hx a0 <> 0 \/ freq m hy b0 <> 0)%R as [K|K] by (first [left; intros K; apply Ea; apply (@freq_nz n hx); assumption | right; intros K; apply Eb; apply (@freq_nz m hy); assumption]);
                [assert (0 < (2 * PI * freq n hx a0) ^ 2)%R by (rewrite <- Rsqr_pow2; apply Rsqr_pos_lt; apply Rmult_integral_contrapositive; split; [lra | exact K]); pose proof (pow2_ge_0 (2 * PI * freq m hy b0)); lra
                |assert (0 < (2 * PI * freq m hy b0) ^ 2)%R by (rewrite <- Rsqr_pow2; apply Rsqr_pos_lt; apply Rmult_integral_contrapositive; split; [lra | exact K]); pose proof (pow2_ge_0 (2 * PI * freq n hx a0)); lra]).
          all: set (W2 := wave2 (freq n hx a0) (freq m hy b0)) in *; assert (EW : W2 = ((2 * PI * freq n hx a0) ^ 2 + (2 * PI * freq m hy b0) ^ 2)%R) by reflexivity;
            transitivity (RtoC (/ W2 * / W2 * ((2 * PI * freq n hx a0) ^ 2 + (2 * PI * freq m hy b0) ^ 2))); [clearbody W2; unfold dxs, dys, two_pi_i; ceq | rewrite <- EW; f_equal; field; lra]. }
        destruct Ek as [Ek|[Ea Eb]].
        + transitivity (Cmul (Cadd (Cmul (uxs n m hx hy a0 b0) (Cconj (uxs n m hx hy a0 b0))) (Cmul (uys n m hx hy a0 b0) (Cconj (uys n m hx hy a0 b0)))) (Cmul (H p q) (G (nneg n p) (nneg m q)))); [ring|]. rewrite Ek. ring.
        + assert (p = 0) as -> by (unfold a0 in Ea; apply signed_0 in Ea; assumption). assert (q = 0) as -> by (unfold b0 in Eb; apply signed_0 in Eb; assumption).
          assert (EG : G (nneg n 0) (nneg m 0) = C0).
          { replace (nneg n 0) with 0 by (symmetry; apply Z.mod_0_l; lia). replace (nneg m 0) with 0 by (symmetry; apply Z.mod_0_l; lia). unfold G, herm2. cbn [Z.eqb]. replace (nneg n 0) with 0 by (symmetry; apply Z.mod_0_l; lia).
            assert (E0 : get N [0; 0] = C0). { rewrite GN. unfold D. rewrite fft2_00. rewrite (@csum2_ext n m _ (adv_field n m hx hy H)) by (intros; apply Ha). unfold H. rewrite adv_mean by assumption. ceq. }
            rewrite E0. ceq. }
          rewrite EG. ring. }
    apply (f_equal re) in E. exact E.
Qed.
(** A square grid and the field whose spectrum is the kept wave vector (-1, 1). *)
Definition sq_grid : grid := mkgrid [6%nat; 6%nat] [1%R; 1%R] [(0%R, 6%R); (0%R, 6%R)].
Lemma sq_grid_ok : grid2 sq_grid 6 6 1 1.
Proof. repeat split; try lia; lra. Qed.
Definition kept_wave : arr cplx := mkarr [6%nat; 4%nat] (fun ix => if (nth 0 ix 0 =? 5) && (nth 1 ix 0 =? 1) then C1 else C0).
Lemma kept_wave_real p q : 0 <= p < 6 -> 0 <= q <= 3 -> get (rfftn (irfftn kept_wave)) [p; q] = get kept_wave [p; q].
Proof.
  intros Hp Hq. assert (He : Nat.Even 6) by (exists 3%nat; reflexivity). destruct (@irfftn2 kept_wave 6 6 eq_refl ltac:(lia) ltac:(lia) He) as [S G]. destruct (rfftn2 _ S) as [_ G2]. rewrite G2.
  rewrite (@fft2_ext 6 6 _ (ifft2 6 6 (herm2 6 6 (fun p q => get kept_wave [p; q])))) by (intros; apply G). rewrite fft2_ifft2 by lia.
  unfold herm2. assert (E : forall p q, q <> 1 -> get kept_wave [p; q] = C0) by (intros p' q' N; unfold kept_wave; cbn [get nth]; replace (q' =? 1) with false by (symmetry; apply Z.eqb_neq; exact N); rewrite andb_false_r; reflexivity).
  destruct (Z.eqb_spec q 0) as [->|]; [rewrite !E by lia; ceq|]. zb; try lia; try reflexivity. rewrite !E by lia. ceq.
Qed.
(* @ex *)
Lemma ns2d_conserves_ex_lem : grid2 sq_grid 6 6 1 1 /\ Nat.Even 6 /\ shp (irfftn kept_wave) = [6%nat; 6%nat] /\ band_limited 6 6 (rfftn (irfftn kept_wave)) /\ get (rfftn (irfftn kept_wave)) [5; 1] = C1.
Proof.
  assert (He : Nat.Even 6) by (exists 3%nat; reflexivity). destruct (@irfftn2 kept_wave 6 6 eq_refl ltac:(lia) ltac:(lia) He) as [S G].
  split; [apply sq_grid_ok|]. split; [exact He|]. split; [exact S|]. split; [|rewrite kept_wave_real by lia; reflexivity].
  intros i b Hi Hb K. rewrite kept_wave_real by (cbn in *; lia). unfold kept_wave. cbn [get nth]. destruct (Z.eqb_spec i 5) as [->|]; [destruct (Z.eqb_spec b 1) as [->|]|]; cbn [andb]; try reflexivity.
  exfalso. apply K. unfold kept_rows, kept_columns, row_wave. cbn. lia.
Qed.
