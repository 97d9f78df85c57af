(** * C65: conservation laws of the dealiased two-dimensional advection term *)
From Verif Require Import Prelude NdArr LinAlg Cplx Grids_model FastDiag_model FourierProofs FourierLine Spectral_model SpectralProps SpectralUtilProps FourierPlane SpecFourier NS2DBase NS2DProps.
Set Implicit Arguments.
Local Open Scope Z_scope.

Section Triads.
Variables (n m : nat) (hx hy : R) (H : Z -> Z -> cplx).
Hypothesis (Hn : (0 < n)%nat) (Hm : (0 < m)%nat).
Let sn := signed n.
Let sm := signed m.
Hypothesis exact3 : forall p q p' q', 0 <= p < Z.of_nat n -> 0 <= q < Z.of_nat m -> 0 <= p' < Z.of_nat n -> 0 <= q' < Z.of_nat m ->
  let r := (- p - p') mod Z.of_nat n in let s := (- q - q') mod Z.of_nat m in
  H p q <> C0 -> H p' q' <> C0 -> H r s <> C0 -> sn p + sn p' + sn r = 0 /\ sm q + sm q' + sm s = 0.
Definition times (mu : Z -> Z -> cplx) (p q : Z) : cplx := Cmul (mu (sn p) (sm q)) (H p q).
Lemma triads_zero (A B C A' B' C' : Z -> Z -> cplx) :
  (forall a b a' b' r s, a + a' + r = 0 -> b + b' + s = 0 ->
     Cadd (Cmul (Cmul (A a b) (B a' b')) (C r s)) (Cmul (Cmul (A' a b) (B' a' b')) (C' r s)) = C0) ->
  Cadd (triads n m (times A) (times B) (times C)) (triads n m (times A') (times B') (times C')) = C0.
Proof.
  intros E. unfold triads. rewrite <- csum2_plus. apply csum2_zero. intros p q Hp Hq. rewrite <- csum2_plus. apply csum2_zero. intros p' q' Hp' Hq'. unfold times.
  set (r := (- p - p') mod Z.of_nat n). set (s := (- q - q') mod Z.of_nat m).
  destruct (C_dec (H p q) C0) as [E1|E1]; [rewrite E1; ring|]. destruct (C_dec (H p' q') C0) as [E2|E2]; [rewrite E2; ring|]. destruct (C_dec (H r s) C0) as [E3|E3]; [rewrite E3; ring|].
  destruct (@exact3 p q p' q' Hp Hq Hp' Hq' E1 E2 E3) as [Ea Eb]. fold r in Ea. fold s in Eb.
  transitivity (Cmul (Cmul (Cmul (H p q) (H p' q')) (H r s)) (Cadd (Cmul (Cmul (A (sn p) (sm q)) (B (sn p') (sm q'))) (C (sn r) (sm s))) (Cmul (Cmul (A' (sn p) (sm q)) (B' (sn p') (sm q'))) (C' (sn r) (sm s))))); [ring|].
  rewrite E by assumption. ring.
Qed.
Let one (a b : Z) : cplx := C1.
Let dx := dxs n hx.
Let dy := dys m hy.
Let ux := uxs n m hx hy.
Let uy := uys n m hx hy.
Let sg := sig n m hx hy.
Lemma four_zero a b c d : Cadd a b = C0 -> Cadd c d = C0 -> Cadd (Cadd a c) (Cadd b d) = C0.
Proof. intros E1 E2. transitivity (Cadd (Cadd a b) (Cadd c d)); [ring|]. rewrite E1, E2. ring. Qed.
Lemma half_zero z : Cadd z z = C0 -> z = C0.
Proof. intros E. pose proof (f_equal re E) as E1. pose proof (f_equal im E) as E2. cbn in E1, E2. apply Ceq; cbn; lra. Qed.
Lemma freq_add k h a b : freq k h (a + b) = (freq k h a + freq k h b)%R.
Proof. unfold freq. rewrite plus_IZR. unfold Rdiv. ring. Qed.
(** Sum of two pairs of symbols at once. *)
Lemma triads_zero4 (A B C A' B' C' A2 B2 C2 A2' B2' C2' : Z -> Z -> cplx) :
  (forall a b a' b' r s, a + a' + r = 0 -> b + b' + s = 0 ->
     Cadd (Cadd (Cmul (Cmul (A a b) (B a' b')) (C r s)) (Cmul (Cmul (A' a b) (B' a' b')) (C' r s)))
          (Cadd (Cmul (Cmul (A2 a b) (B2 a' b')) (C2 r s)) (Cmul (Cmul (A2' a b) (B2' a' b')) (C2' r s))) = C0) ->
  Cadd (Cadd (triads n m (times A) (times B) (times C)) (triads n m (times A') (times B') (times C')))
       (Cadd (triads n m (times A2) (times B2) (times C2)) (triads n m (times A2') (times B2') (times C2'))) = C0.
Proof.
  intros E. unfold triads. rewrite <- !csum2_plus. apply csum2_zero. intros p q Hp Hq. rewrite <- !csum2_plus. apply csum2_zero. intros p' q' Hp' Hq'. unfold times.
  set (r := (- p - p') mod Z.of_nat n). set (s := (- q - q') mod Z.of_nat m).
  destruct (C_dec (H p q) C0) as [E1|E1]; [rewrite E1; ring|]. destruct (C_dec (H p' q') C0) as [E2|E2]; [rewrite E2; ring|]. destruct (C_dec (H r s) C0) as [E3|E3]; [rewrite E3; ring|].
  destruct (@exact3 p q p' q' Hp Hq Hp' Hq' E1 E2 E3) as [Ea Eb]. fold r in Ea. fold s in Eb.
  transitivity (Cmul (Cmul (Cmul (H p q) (H p' q')) (H r s)) (Cadd (Cadd (Cmul (Cmul (A (sn p) (sm q)) (B (sn p') (sm q'))) (C (sn r) (sm s))) (Cmul (Cmul (A' (sn p) (sm q)) (B' (sn p') (sm q'))) (C' (sn r) (sm s))))
     (Cadd (Cmul (Cmul (A2 (sn p) (sm q)) (B2 (sn p') (sm q'))) (C2 (sn r) (sm s))) (Cmul (Cmul (A2' (sn p) (sm q)) (B2' (sn p') (sm q'))) (C2' (sn r) (sm s)))))); [ring|].
  rewrite E by assumption. ring.
Qed.
Lemma enstrophy_triads : Cadd (triads n m (times one) (times dx) (times ux)) (triads n m (times one) (times dy) (times uy)) = C0.
Proof.
  apply half_zero. rewrite (@triads_swap n m (times one) (times dx)) at 1. rewrite (@triads_swap n m (times one) (times dy)) at 1.
  apply triads_zero4. intros a b a' b' r s Ea Eb. unfold one, dx, dy, ux, uy, uxs, uys, dxs, dys. set (z := sig n m hx hy r s). clearbody z.
  replace a with (- (a' + r)) by lia. replace b with (- (b' + s)) by lia. rewrite !freq_neg, !freq_add. destruct z. ceq.
Qed.
Lemma triads_swap13 A B C : triads n m A B C = triads n m C B A.
Proof. rewrite triads_swap, triads_swap23, triads_swap by assumption. reflexivity. Qed.
Lemma energy_triads : Cadd (triads n m (times sg) (times dx) (times ux)) (triads n m (times sg) (times dy) (times uy)) = C0.
Proof.
  apply half_zero. rewrite (@triads_swap13 (times sg) (times dx)) at 1. rewrite (@triads_swap13 (times sg) (times dy)) at 1.
  apply triads_zero4. intros a b a' b' r s Ea Eb. unfold dx, dy, ux, uy, sg, uxs, uys, dxs, dys. set (z := sig n m hx hy r s). set (y := sig n m hx hy a b). clearbody y z.
  replace a' with (- (a + r)) by lia. replace b' with (- (b + s)) by lia. rewrite !freq_neg, !freq_add. destruct z, y. ceq.
Qed.
(** The sum over the grid of a field times the advection term. *)
Lemma adv_work A : csum2 n m (fun i j => Cmul (ifft2 n m A i j) (adv_field n m hx hy H i j)) =
  Cmul (Copp C1) (Cscal (/ (INR n * INR m)) (Cscal (/ (INR n * INR m)) (Cadd (triads n m A (times dx) (times ux)) (triads n m A (times dy) (times uy))))).
Proof.
  transitivity (Cmul (Copp C1) (Cadd (csum2 n m (fun i j => Cmul (ifft2 n m A i j) (Cmul (ifft2 n m (times dx) i j) (ifft2 n m (times ux) i j)))) (csum2 n m (fun i j => Cmul (ifft2 n m A i j) (Cmul (ifft2 n m (times dy) i j) (ifft2 n m (times uy) i j)))))).
  - rewrite <- csum2_plus, <- csum2_scal. apply csum2_ext. intros. unfold adv_field. fold sn sm dx dy ux uy. unfold times. ring.
  - rewrite !sum_triple by assumption. ceq.
Qed.
End Triads.

Lemma nneg_m m q : 0 < q < Z.of_nat m -> nneg m q = Z.of_nat m - q.
Proof. intros H. unfold nneg. symmetry. apply Z.mod_unique with (q := -1); lia. Qed.
Lemma signed_cong n p : (0 < n)%nat -> exists k, signed n p = p + k * Z.of_nat n.
Proof. intros Hn. unfold signed. destruct (2 * p <? Z.of_nat n); [exists 0 | exists (-1)]; lia. Qed.
Lemma signed_back n p : 0 <= p < Z.of_nat n -> signed n p mod Z.of_nat n = p.
Proof. intros Hp. destruct (@signed_cong n p ltac:(lia)) as [k ->]. rewrite Z.mod_add by lia. apply Z.mod_small. exact Hp. Qed.
Section RealBand.
Variables (g : grid) (n m : nat) (w : arr R) (F : arr R).
Hypothesis (Hg : gshape g = [n; m]) (Hn3 : (3 <= n)%nat) (Hm : (0 < m)%nat) (He : Nat.Even m) (Hw : shp w = [n; m]) (HB : band_limited n m (rfftn w)) (HF : brick_wall_filter_2d g = Ok F).
Let Z0 := fft2 n m (fun i j => RtoC (get w [i; j])).
Let H := herm2 n m (fun p q => get (rfftn w) [p; q]).
Lemma W_is p q : get (rfftn w) [p; q] = Z0 p q.
Proof. apply (rfftn2 _ Hw). Qed.
Lemma H_is p q : 0 <= p < Z.of_nat n -> 0 <= q < Z.of_nat m -> H p q = Z0 p q.
Proof.
  intros Hp Hq. unfold H. rewrite (@herm2_ext n m _ Z0) by (try assumption; try lia; intros; apply W_is). apply herm2_real; [lia | assumption..].
Qed.
Lemma Z0_neg p q : Z0 (nneg n p) (nneg m q) = Cconj (Z0 p q).
Proof. apply fft2_real_neg; [lia | exact Hm]. Qed.
Lemma no_ny : no_nyquist n m (fun p q => get (rfftn w) [p; q]).
Proof. apply band_no_nyquist; assumption. Qed.
Lemma kept_W p q : 0 <= p < Z.of_nat n -> 0 <= 2 * q <= Z.of_nat m -> Z0 p q <> C0 -> get F [p; q] = 1%R /\ kept_rows n (signed n p) /\ kept_columns m q.
Proof.
  intros Hp Hq E. apply half_range in Hq. destruct (@filter_kept g n m Hg Hn3 Hm) as (F' & EF & _ & HK). rewrite HF in EF. injection EF as <-.
  destruct (@kept_dec n m (row_wave n p) q) as [K|K]; [split; [apply HK; assumption | exact K]|]. exfalso. apply E. rewrite <- W_is. apply HB; assumption.
Qed.
Lemma conj_nz z : z <> C0 -> Cconj z <> C0.
Proof. intros H1 E. apply H1. rewrite <- (Cconj_invol z), E. ceq. Qed.
Lemma supp p q : 0 <= p < Z.of_nat n -> 0 <= q < Z.of_nat m -> H p q <> C0 -> canonical n m (signed n p) (signed m q) /\ mode_kept F n (signed n p) (signed m q).
Proof.
  intros Hp Hq E. assert (Ep : 2 * p <> Z.of_nat n /\ 2 * q <> Z.of_nat m). { split; intros E1; apply E; apply herm2_nyquist; auto using no_ny; lia. }
  rewrite H_is in E by assumption.
  assert (Hh : Z.of_nat (m / 2) * 2 = Z.of_nat m). { destruct He as [k ->]. rewrite (Nat.mul_comm 2 k), Nat.div_mul by lia. lia. }
  split. { unfold canonical, signed. zb; lia. }
  unfold mode_kept. unfold signed at 1. destruct (Z.ltb_spec (2 * q) (Z.of_nat m)).
  - replace (0 <=? q) with true by (symmetry; apply Z.leb_le; lia). rewrite signed_back by exact Hp. replace (signed m q) with q by (unfold signed; zb; lia). apply kept_W; [exact Hp | lia | exact E].
  - replace (0 <=? q - Z.of_nat m) with false by (symmetry; apply Z.leb_gt; lia). replace (signed m q) with (q - Z.of_nat m) by (unfold signed; zb; lia).
    replace ((- signed n p) mod Z.of_nat n) with (nneg n p).
    2:{ unfold nneg. destruct (@signed_cong n p ltac:(lia)) as [k ->]. replace (- (p + k * Z.of_nat n)) with (- p + (- k) * Z.of_nat n) by ring. rewrite Z.mod_add by lia. reflexivity. }
    replace (- (q - Z.of_nat m)) with (nneg m q) by (rewrite nneg_m; lia). apply kept_W; [apply nneg_range; lia | rewrite nneg_m; lia |]. rewrite Z0_neg. apply conj_nz. exact E.
Qed.
Lemma H_neg_nz p q : 0 <= p < Z.of_nat n -> 0 <= q < Z.of_nat m -> H p q <> C0 -> H (nneg n p) (nneg m q) <> C0.
Proof. intros Hp Hq E. unfold H. rewrite herm2_neg by (try lia; assumption). apply conj_nz. exact E. Qed.
Lemma exact_band p q p' q' : 0 <= p < Z.of_nat n -> 0 <= q < Z.of_nat m -> 0 <= p' < Z.of_nat n -> 0 <= q' < Z.of_nat m ->
  let r := (- p - p') mod Z.of_nat n in let s := (- q - q') mod Z.of_nat m in
  H p q <> C0 -> H p' q' <> C0 -> H r s <> C0 -> signed n p + signed n p' + signed n r = 0 /\ signed m q + signed m q' + signed m s = 0.
Proof.
  intros Hp Hq Hp' Hq' r s E1 E2 E3. assert (Hr : 0 <= r < Z.of_nat n) by (apply Z.mod_pos_bound; lia). assert (Hs : 0 <= s < Z.of_nat m) by (apply Z.mod_pos_bound; lia).
  destruct (supp Hp Hq E1) as [C1 K1]. destruct (supp Hp' Hq' E2) as [C2 K2].
  destruct (@not_nyquist n m _ r s ltac:(lia) no_ny Hr Hs E3) as [N1 N2].
  apply H_neg_nz in E3; [|assumption..]. apply supp in E3; [|apply nneg_range; lia|apply nneg_range; lia]. rewrite N1, N2 in E3. destruct E3 as [C3 K3].
  destruct (@brick_wall_dealiases_lem g n m F _ _ _ _ _ _ Hg Hn3 Hm HF C1 C2 C3 K1 K2 K3) as [A1 A2]; [| |lia].
  - destruct (@signed_cong n p ltac:(lia)) as [k1 ->]. destruct (@signed_cong n p' ltac:(lia)) as [k2 ->]. destruct (@signed_cong n r ltac:(lia)) as [k3 ->].
    pose proof (Z.div_mod (- p - p') (Z.of_nat n) ltac:(lia)) as D. fold r in D.
    replace (p + k1 * Z.of_nat n + (p' + k2 * Z.of_nat n) - - (r + k3 * Z.of_nat n)) with ((k1 + k2 + k3 - (- p - p') / Z.of_nat n) * Z.of_nat n) by nia. apply Z.mod_mul. lia.
  - destruct (@signed_cong m q ltac:(lia)) as [k1 ->]. destruct (@signed_cong m q' ltac:(lia)) as [k2 ->]. destruct (@signed_cong m s ltac:(lia)) as [k3 ->].
    pose proof (Z.div_mod (- q - q') (Z.of_nat m) ltac:(lia)) as D. fold s in D.
    replace (q + k1 * Z.of_nat m + (q' + k2 * Z.of_nat m) - - (s + k3 * Z.of_nat m)) with ((k1 + k2 + k3 - (- q - q') / Z.of_nat m) * Z.of_nat m) by nia. apply Z.mod_mul. lia.
Qed.
(** The filter does not change the modes of a real field at the wave vectors present in [w]. *)
Lemma filtered_full (a : Z -> Z -> R) N p q : (forall p q, get N [p; q] = Cscal (get F [p; q]) (fft2 n m (fun i j => RtoC (a i j)) p q)) ->
  0 <= p < Z.of_nat n -> 0 <= q < Z.of_nat m -> H p q <> C0 -> herm2 n m (fun p q => get N [p; q]) p q = fft2 n m (fun i j => RtoC (a i j)) p q.
Proof.
  intros GN Hp Hq E. assert (Ep : 2 * q <> Z.of_nat m). { intros E1; apply E; apply herm2_nyquist; auto using no_ny; lia. }
  rewrite H_is in E by assumption. set (D := fft2 n m (fun i j => RtoC (a i j))) in *.
  assert (HD : forall p q, Cconj (D (nneg n p) (nneg m q)) = D p q) by (intros; unfold D; rewrite fft2_real_neg by (assumption || lia); apply Cconj_invol).
  pose proof (@nneg_range n p ltac:(lia)) as Hr. unfold herm2. rewrite !GN. fold D. destruct (Z.eqb_spec q 0) as [->|Hq0].
  - assert (E0 : nneg m 0 = 0) by (apply Z.mod_0_l; lia). pose proof (HD p 0) as E1. rewrite E0 in E1.
    rewrite (proj1 (@kept_W p 0 Hp ltac:(lia) E)). rewrite (proj1 (@kept_W (nneg n p) 0 Hr ltac:(lia) ltac:(rewrite <- E0, Z0_neg; apply conj_nz; exact E))).
    transitivity (Cscal (/ 2) (Cadd (D p 0) (Cconj (D (nneg n p) 0)))); [ceq|]. rewrite E1. apply Ceq; cbn; field.
  - destruct (Z.ltb_spec (2 * q) (Z.of_nat m)); [rewrite (proj1 (@kept_W p q Hp ltac:(lia) E)); ceq|]. destruct (Z.eqb_spec (2 * q) (Z.of_nat m)); [lia|].
    rewrite <- (@nneg_m m q) by lia. assert (E1 : Z0 (nneg n p) (nneg m q) <> C0) by (rewrite Z0_neg; apply conj_nz; exact E).
    rewrite (proj1 (@kept_W (nneg n p) (nneg m q) Hr ltac:(rewrite nneg_m by lia; lia) E1)). rewrite <- (HD p q). ceq.
Qed.
End RealBand.
