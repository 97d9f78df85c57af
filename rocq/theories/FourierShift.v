(** * Shifts and phases *)
From Verif Require Import Prelude NdArr LinAlg Cplx Grids_model FastDiag_model FourierProofs FourierLine Spectral_model SpectralProps SpectralUtilProps SpectralPadProps.
Set Implicit Arguments.
Local Open Scope Z_scope.

Definition phase (M : nat) (r K : Z) : cplx := cis (2 * PI * IZR (K * r) / INR M).
Lemma phase_mod M r K K' : (0 < M)%nat -> (K - K') mod Z.of_nat M = 0 -> phase M r K = phase M r K'.
Proof.
  intros HM E. unfold phase. apply cis_mod; [exact HM|]. rewrite <- Z.mul_sub_distr_r. rewrite Z.mul_mod, E by lia. reflexivity.
Qed.
Lemma phase_neg M r K : phase M r (- K) = Cconj (phase M r K).
Proof. unfold phase. rewrite Cconj_cis. f_equal. rewrite Z.mul_opp_l, opp_IZR. unfold Rdiv. ring. Qed.
Lemma phase_unit M r K : Cmul (phase M r K) (Cconj (phase M r K)) = C1.
Proof. unfold phase. rewrite Cconj_cis, <- cis_add. rewrite Rplus_opp_r. apply cis_0. Qed.
Lemma phase_Cn2 M r K : Cn2 (phase M r K) = 1%R.
Proof. pose proof (phase_unit M r K) as E. revert E. generalize (phase M r K). intros [a b] E. apply (f_equal re) in E. unfold Cn2. cbn in *. lra. Qed.
Lemma ifft1_mod n X k : (0 < n)%nat -> ifft1 n X (k mod Z.of_nat n) = ifft1 n X k.
Proof.
  intros Hn. unfold ifft1. apply csum_ext. intros j _. f_equal. unfold idftm. f_equal. apply cis_mod; [exact Hn|]. rewrite <- Z.mul_sub_distr_r.
  rewrite Z.mul_mod by lia. rewrite Zminus_mod_idemp_l, Z.sub_diag. reflexivity.
Qed.
Lemma ifft1_phase M r X j : (0 < M)%nat -> ifft1 M (fun K => Cmul (phase M r K) (X K)) j = ifft1 M X (j + r).
Proof.
  intros HM. unfold ifft1. apply csum_ext. intros K _. assert (INR M <> 0%R) by (apply not_0_INR; lia).
  replace (idftm M (j + r) K) with (Cmul (idftm M j K) (phase M r K)); [ring|]. unfold idftm, phase.
  transitivity (Cscal (/ INR M) (Cmul (cis (2 * PI * IZR (j * K) / INR M)) (cis (2 * PI * IZR (K * r) / INR M)))); [ceq|]. rewrite <- cis_add. f_equal. f_equal.
  rewrite Z.mul_add_distr_r, plus_IZR. rewrite (Z.mul_comm r K). unfold Rdiv. ring.
Qed.
Lemma fft1_shift M r f K : (0 < M)%nat -> (forall j, f (j mod Z.of_nat M) = f j) -> fft1 M (fun j => f (j + r)) K = Cmul (phase M r K) (fft1 M f K).
Proof.
  intros HM Hf. unfold fft1. rewrite <- csum_scal. rewrite <- (@csum_mod_shift M r (fun i => Cmul (phase M r K) (Cmul (dftm M K i) (f i)))) by exact HM.
  apply csum_ext. intros j _. rewrite Hf. transitivity (Cmul (Cmul (phase M r K) (dftm M K ((j + r) mod Z.of_nat M))) (f (j + r))); [|ring]. f_equal.
  assert (DC : forall a b, dftm M a b = dftm M b a) by (intros; unfold dftm; rewrite Z.mul_comm; reflexivity).
  rewrite (DC K ((j + r) mod Z.of_nat M)), dftm_mod by exact HM. unfold dftm, phase. rewrite <- cis_add. f_equal. rewrite ?mult_IZR, ?plus_IZR. unfold Rdiv. ring.
Qed.
(** Parseval for a field and a spectrum. *)
Lemma fft_inner M f X : (0 < M)%nat -> csum M (fun K => Cmul (fft1 M f K) (Cconj (X K))) = Cscal (INR M) (csum M (fun j => Cmul (f j) (Cconj (ifft1 M X j)))).
Proof.
  intros HM. assert (INR M <> 0%R) by (apply not_0_INR; lia). pose proof (@parseval M (fft1 M f) X) as P.
  rewrite (@csum_ext M _ (fun j => Cmul (f j) (Cconj (ifft1 M X j)))) in P by (intros j Hj; rewrite ifft1_fft1 by exact Hj; reflexivity).
  change (gsum C0 Cadd) with csum in P. rewrite P. set (z := csum M _). apply Ceq; cbn; field; assumption.
Qed.
