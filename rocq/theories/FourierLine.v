(** * Discrete Fourier transforms of one line: inversion, reality, Parseval, convolution *)
From Verif Require Import Prelude NdArr LinAlg Cplx Grids_model FastDiag_model FourierProofs.
Set Implicit Arguments.
Local Open Scope Z_scope.

Lemma fft1_ext n X Y k : (forall j, 0 <= j < Z.of_nat n -> X j = Y j) -> fft1 n X k = fft1 n Y k.
Proof. intros H. unfold fft1. apply csum_ext. intros j Hj. rewrite H by exact Hj. reflexivity. Qed.
Lemma ifft1_ext n X Y k : (forall j, 0 <= j < Z.of_nat n -> X j = Y j) -> ifft1 n X k = ifft1 n Y k.
Proof. intros H. unfold ifft1. apply csum_ext. intros j Hj. rewrite H by exact Hj. reflexivity. Qed.
Lemma csum_plus n f h : csum n (fun i => Cadd (f i) (h i)) = Cadd (csum n f) (csum n h).
Proof. unfold csum. apply (gsum_plus C_ring). Qed.
Lemma csum_scal_r n c f : csum n (fun i => Cmul (f i) c) = Cmul (csum n f) c.
Proof. unfold csum. apply (gsum_scal_r C_ring). Qed.
Lemma csum_swap n m f : csum n (fun i => csum m (f i)) = csum m (fun j => csum n (fun i => f i j)).
Proof. unfold csum. apply (gsum_swap C_ring). Qed.
Lemma csum_zero n f : (forall i, 0 <= i < Z.of_nat n -> f i = C0) -> csum n f = C0.
Proof. intros H. transitivity (csum n (fun _ => C0)); [apply csum_ext; exact H | unfold csum; apply (gsum_zero C_ring)]. Qed.
Lemma csum_delta n i f : 0 <= i < Z.of_nat n -> csum n (fun j => Cmul (if i =? j then C1 else C0) (f j)) = f i.
Proof. intros H. unfold csum. apply (gsum_delta C_ring). exact H. Qed.
Lemma mat_inv n (M N : Z -> Z -> cplx) X k : linv C0 C1 Cadd Cmul n M N -> 0 <= k < Z.of_nat n ->
  csum n (fun j => Cmul (M k j) (csum n (fun l => Cmul (N j l) (X l)))) = X k.
Proof.
  intros H Hk. transitivity (csum n (fun l => Cmul (if k =? l then C1 else C0) (X l))); [|apply csum_delta; exact Hk].
  transitivity (csum n (fun j => csum n (fun l => Cmul (Cmul (M k j) (N j l)) (X l)))).
  { apply csum_ext. intros j _. rewrite <- csum_scal. apply csum_ext. intros l _. ring. }
  rewrite csum_swap. apply csum_ext. intros l Hl. rewrite csum_scal_r. f_equal. apply H; assumption.
Qed.
Lemma fft1_ifft1 n X k : 0 <= k < Z.of_nat n -> fft1 n (ifft1 n X) k = X k.
Proof. intros Hk. unfold fft1, ifft1. apply mat_inv; [apply dft_idft | exact Hk]. Qed.
Lemma ifft1_fft1 n X k : 0 <= k < Z.of_nat n -> ifft1 n (fft1 n X) k = X k.
Proof. intros Hk. unfold fft1, ifft1. apply mat_inv; [apply idft_dft | exact Hk]. Qed.
(** Periodicity in the wave number. *)
Lemma dftm_mod n k j : (0 < n)%nat -> dftm n (k mod Z.of_nat n) j = dftm n k j.
Proof.
  intros Hn. unfold dftm. rewrite !cis_neg_form. apply cis_mod; [exact Hn|].
  pose proof (Z.div_mod k (Z.of_nat n) ltac:(lia)) as E.
  replace (- (j * (k mod Z.of_nat n)) - - (j * k)) with ((j * (k / Z.of_nat n)) * Z.of_nat n) by nia. apply Z.mod_mul. lia.
Qed.
Lemma fft1_mod n X k : (0 < n)%nat -> fft1 n X (k mod Z.of_nat n) = fft1 n X k.
Proof. intros Hn. unfold fft1. apply csum_ext. intros j _. rewrite dftm_mod by exact Hn. reflexivity. Qed.
(** ** Reality *)
Lemma hermitian_sym n X k : (0 < n)%nat -> 0 <= k < Z.of_nat n -> hermitian_ext n X (nneg n k) = Cconj (hermitian_ext n X k).
Proof.
  intros Hn Hk. unfold nneg. destruct (Z.eq_dec k 0) as [->|Hk0].
  - change (- 0) with 0. rewrite Z.mod_0_l by lia. unfold hermitian_ext. cbn [Z.eqb]. rewrite Cconj_RtoC. reflexivity.
  - replace ((- k) mod Z.of_nat n) with (Z.of_nat n - k).
    2:{ apply Z.mod_unique with (q := -1); lia. }
    unfold hermitian_ext. replace (Z.of_nat n - k =? 0) with false by (symmetry; apply Z.eqb_neq; lia).
    replace (k =? 0) with false by (symmetry; apply Z.eqb_neq; lia).
    destruct (Z.ltb_spec (2 * k) (Z.of_nat n)).
    + replace (2 * (Z.of_nat n - k) <? Z.of_nat n) with false by (symmetry; apply Z.ltb_ge; lia).
      replace (2 * (Z.of_nat n - k) =? Z.of_nat n) with false by (symmetry; apply Z.eqb_neq; lia).
      do 2 f_equal. lia.
    + destruct (Z.eqb_spec (2 * k) (Z.of_nat n)).
      * replace (2 * (Z.of_nat n - k) <? Z.of_nat n) with false by (symmetry; apply Z.ltb_ge; lia).
        replace (2 * (Z.of_nat n - k) =? Z.of_nat n) with true by (symmetry; apply Z.eqb_eq; lia).
        rewrite Cconj_RtoC. do 3 f_equal. lia.
      * replace (2 * (Z.of_nat n - k) <? Z.of_nat n) with true by (symmetry; apply Z.ltb_lt; lia).
        rewrite Cconj_invol. reflexivity.
Qed.
Lemma ifft1_sym_real n Y j : (0 < n)%nat -> (forall k, 0 <= k < Z.of_nat n -> Y (nneg n k) = Cconj (Y k)) -> Cconj (ifft1 n Y j) = ifft1 n Y j.
Proof.
  intros Hn HY. unfold ifft1. rewrite Cconj_sum.
  rewrite <- (@csum_reflect n 0 (fun k => Cmul (idftm n j k) (Y k)) Hn). apply csum_ext. intros k Hk.
  change (0 - k) with (- k). fold (nneg n k). rewrite idftm_neg by exact Hn. rewrite HY by exact Hk. rewrite Cconj_mul. reflexivity.
Qed.
Lemma irfft1_real n X j : (0 < n)%nat -> irfft1 n X j = RtoC (re (irfft1 n X j)).
Proof. intros Hn. apply Cconj_fix. apply ifft1_sym_real; [exact Hn|]. intros k Hk. apply hermitian_sym; assumption. Qed.
Lemma fft1_irfft1 n X k : 0 <= k < Z.of_nat n -> fft1 n (fun j => RtoC (re (irfft1 n X j))) k = hermitian_ext n X k.
Proof.
  intros Hk. transitivity (fft1 n (ifft1 n (hermitian_ext n X)) k); [|apply fft1_ifft1; exact Hk].
  apply fft1_ext. intros j _. rewrite <- irfft1_real by lia. reflexivity.
Qed.
(** ** Parseval *)
Lemma idftm_conj n j k : Cconj (idftm n j k) = Cscal (/ INR n) (dftm n k j).
Proof. unfold idftm, dftm, Cconj, Cscal, cis. apply Ceq; cbn [re im]; rewrite ?cos_neg, ?sin_neg; ring. Qed.
Lemma parseval n X Y : csum n (fun j => Cmul (ifft1 n X j) (Cconj (ifft1 n Y j))) = Cscal (/ INR n) (csum n (fun k => Cmul (X k) (Cconj (Y k)))).
Proof.
  transitivity (csum n (fun j => csum n (fun k => Cmul (Cmul (Cscal (/ INR n) (dftm n k j)) (ifft1 n X j)) (Cconj (Y k))))).
  - apply csum_ext. intros j _. unfold ifft1 at 2. rewrite Cconj_sum, <- csum_scal. apply csum_ext. intros k _. rewrite Cconj_mul, idftm_conj. ring.
  - rewrite csum_swap. transitivity (csum n (fun k => Cmul (Cmul (RtoC (/ INR n)) (X k)) (Cconj (Y k)))).
    + apply csum_ext. intros k Hk. rewrite csum_scal_r. f_equal.
      transitivity (Cmul (RtoC (/ INR n)) (fft1 n (ifft1 n X) k)); [|rewrite fft1_ifft1 by exact Hk; reflexivity].
      unfold fft1. rewrite <- csum_scal. apply csum_ext. intros j _. ceq.
    + transitivity (Cmul (RtoC (/ INR n)) (csum n (fun k => Cmul (X k) (Cconj (Y k))))); [|ceq]. rewrite <- csum_scal. apply csum_ext. intros k _. ring.
Qed.
(** ** Convolution: the transform of a product of two lines. *)
Lemma convolution n A B r : (0 < n)%nat ->
  fft1 n (fun j => Cmul (ifft1 n A j) (ifft1 n B j)) r = Cscal (/ INR n) (csum n (fun p => Cmul (A p) (B ((r - p) mod Z.of_nat n)))).
Proof.
  intros Hn. unfold fft1.
  transitivity (csum n (fun j => csum n (fun p => Cmul (A p) (Cmul (RtoC (/ INR n)) (Cmul (dftm n (r - p) j) (ifft1 n B j)))))).
  - apply csum_ext. intros j _. unfold ifft1 at 1.
    transitivity (Cmul (Cmul (dftm n r j) (ifft1 n B j)) (csum n (fun k => Cmul (idftm n j k) (A k)))); [ring|]. rewrite <- csum_scal. apply csum_ext. intros p _.
    assert (E : Cmul (dftm n r j) (idftm n j p) = Cmul (RtoC (/ INR n)) (dftm n (r - p) j)).
    { unfold idftm, dftm. transitivity (Cmul (RtoC (/ INR n)) (Cmul (cis (2 * PI * IZR (j * p) / INR n)) (cis (- (2 * PI * IZR (j * r) / INR n))))); [ceq|].
      f_equal. rewrite cis_combine. f_equal. replace (j * p - j * r) with (- (j * (r - p))) by ring. rewrite opp_IZR. unfold Rdiv. ring. }
    transitivity (Cmul (A p) (Cmul (Cmul (dftm n r j) (idftm n j p)) (ifft1 n B j))); [ring|]. rewrite E. ring.
  - rewrite csum_swap.
    transitivity (csum n (fun p => Cmul (RtoC (/ INR n)) (Cmul (A p) (B ((r - p) mod Z.of_nat n))))); [|rewrite csum_scal; ceq].
    apply csum_ext. intros p _. rewrite csum_scal, csum_scal.
    replace (csum n (fun j => Cmul (dftm n (r - p) j) (ifft1 n B j))) with (B ((r - p) mod Z.of_nat n)); [ring|].
    change (csum n (fun j => Cmul (dftm n (r - p) j) (ifft1 n B j))) with (fft1 n (ifft1 n B) (r - p)). rewrite <- fft1_mod by exact Hn.
    symmetry. apply fft1_ifft1. apply Z.mod_pos_bound. lia.
Qed.
