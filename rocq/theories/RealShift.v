(** * Shifts and reflections of real transforms *)
From Verif Require Import Prelude NdArr LinAlg Cplx Grids_model FastDiag_model FourierProofs FourierLine Spectral_model SpectralProps SpectralUtilProps SpectralPadProps FourierShift.
Set Implicit Arguments.
Local Open Scope Z_scope.

Lemma phase_half M r p : 2 * p = Z.of_nat M -> 0 < p -> im (phase M r p) = 0%R.
Proof.
  intros E Hp. unfold phase, cis. cbn [im]. apply sin_eq_0_1. exists r. rewrite INR_IZR_INZ, <- E, !mult_IZR. field. apply not_0_IZR. lia.
Qed.
Lemma phase_0 M r : phase M r 0 = C1.
Proof. unfold phase. rewrite Z.mul_0_l. replace (2 * PI * 0 / INR M)%R with 0%R by (unfold Rdiv; ring). apply cis_0. Qed.
Lemma herm_phase M r X p : (0 < M)%nat -> 0 <= p < Z.of_nat M -> hermitian_ext M (fun K => Cmul (phase M r K) (X K)) p = Cmul (phase M r p) (hermitian_ext M X p).
Proof.
  intros HM Hp. unfold hermitian_ext. destruct (Z.eqb_spec p 0) as [->|Hp0]; [rewrite phase_0; ceq|]. destruct (2 * p <? Z.of_nat M); [reflexivity|].
  destruct (Z.eqb_spec (2 * p) (Z.of_nat M)) as [E|E].
  - pose proof (@phase_half M r p E ltac:(lia)) as H. revert H. generalize (phase M r p). intros [a b] H. cbn in H. subst b. ceq.
  - rewrite Cconj_mul. f_equal. rewrite <- phase_neg. apply phase_mod; [exact HM|]. replace (- (Z.of_nat M - p) - p) with ((-1) * Z.of_nat M) by ring. apply Z.mod_mul. lia.
Qed.
Lemma irfft1_phase M r X j : (0 < M)%nat -> irfft1 M (fun K => Cmul (phase M r K) (X K)) j = irfft1 M X (j + r).
Proof.
  intros HM. unfold irfft1. rewrite <- ifft1_phase by exact HM. apply ifft1_ext. intros K HK. apply herm_phase; assumption.
Qed.
Lemma herm_ext M X Y p : 0 <= p < Z.of_nat M -> (forall k, 0 <= k -> 2 * k <= Z.of_nat M -> X k = Y k) -> hermitian_ext M X p = hermitian_ext M Y p.
Proof.
  intros Hp H. unfold hermitian_ext. destruct (p =? 0) eqn:E0; [rewrite (H 0) by lia; reflexivity|]. destruct (Z.ltb_spec (2 * p) (Z.of_nat M)); [apply H; lia|].
  destruct (Z.eqb_spec (2 * p) (Z.of_nat M)); rewrite H by lia; reflexivity.
Qed.
Lemma irfft1_ext M X Y j : (forall k, 0 <= k -> 2 * k <= Z.of_nat M -> X k = Y k) -> irfft1 M X j = irfft1 M Y j.
Proof. intros H. unfold irfft1. apply ifft1_ext. intros p Hp. apply herm_ext; assumption. Qed.
Lemma irfft1_mod M X j : (0 < M)%nat -> irfft1 M X (j mod Z.of_nat M) = irfft1 M X j.
Proof. intros HM. apply ifft1_mod. exact HM. Qed.
(** Reflections. *)
Definition mirror (z : cplx) : cplx := Copp (Cconj z).
Lemma herm_mirror M X p : hermitian_ext M (fun K => mirror (X K)) p = mirror (hermitian_ext M X p).
Proof. unfold hermitian_ext, mirror. destruct (p =? 0); [ceq|]. destruct (2 * p <? Z.of_nat M); [reflexivity|]. destruct (2 * p =? Z.of_nat M); ceq. Qed.
Lemma idftm_flip M j K : idftm M (- j) K = Cconj (idftm M j K).
Proof.
  unfold idftm. replace (2 * PI * IZR (- j * K) / INR M)%R with (- (2 * PI * IZR (j * K) / INR M))%R by (rewrite Z.mul_opp_l, opp_IZR; unfold Rdiv; ring).
  unfold cis, Cconj, Cscal. apply Ceq; cbn [re im]; rewrite ?cos_neg, ?sin_neg; ring.
Qed.
Lemma irfft1_mirror M X j : re (irfft1 M (fun K => mirror (X K)) j) = (- re (irfft1 M X (- j)))%R.
Proof.
  unfold irfft1. rewrite (@ifft1_ext M _ (fun K => mirror (hermitian_ext M X K))) by (intros; apply herm_mirror). unfold ifft1.
  replace (csum M (fun K => Cmul (idftm M (- j) K) (hermitian_ext M X K))) with (Cconj (csum M (fun K => Cmul (idftm M j K) (Cconj (hermitian_ext M X K))))).
  - rewrite (@csum_ext M _ (fun K => Cmul (RtoC (-1)) (Cmul (idftm M j K) (Cconj (hermitian_ext M X K))))) by (intros; unfold mirror; ceq). change (gsum C0 Cadd) with csum. rewrite csum_scal. cbn. ring.
  - rewrite Cconj_sum. apply csum_ext. intros K _. rewrite Cconj_mul, Cconj_invol, idftm_flip. reflexivity.
Qed.
Lemma dftm_flip M K j : dftm M K (- j) = Cconj (dftm M K j).
Proof.
  unfold dftm. replace (2 * PI * IZR (- j * K) / INR M)%R with (- (2 * PI * IZR (j * K) / INR M))%R by (rewrite Z.mul_opp_l, opp_IZR; unfold Rdiv; ring).
  unfold cis, Cconj. apply Ceq; cbn [re im]; rewrite ?Ropp_involutive, ?cos_neg, ?sin_neg; ring.
Qed.
Lemma dftm_mod_r M K j : (0 < M)%nat -> dftm M K (j mod Z.of_nat M) = dftm M K j.
Proof. intros HM. transitivity (dftm M (j mod Z.of_nat M) K); [unfold dftm; rewrite Z.mul_comm; reflexivity|]. rewrite dftm_mod by exact HM. unfold dftm. rewrite Z.mul_comm. reflexivity. Qed.
Lemma fft1_flip M (f : Z -> R) K : (0 < M)%nat -> (forall j, f (j mod Z.of_nat M) = f j) -> fft1 M (fun j => RtoC (f (- j))) K = Cconj (fft1 M (fun j => RtoC (f j)) K).
Proof.
  intros HM Hf. unfold fft1. rewrite Cconj_sum. rewrite <- (@csum_reflect M 0 (fun j => Cconj (Cmul (dftm M K j) (RtoC (f j)))) HM). apply csum_ext. intros j _.
  change (0 - j) with (- j). rewrite Hf, dftm_mod_r, dftm_flip by exact HM. rewrite Cconj_mul, Cconj_invol, Cconj_RtoC. reflexivity.
Qed.
