(** * Two-dimensional discrete Fourier transforms *)
From Verif Require Import Prelude NdArr LinAlg Cplx Grids_model FastDiag_model FourierProofs FourierLine Spectral_model SpectralProps SpectralUtilProps.
Set Implicit Arguments.
Local Open Scope Z_scope.

Ltac zb := repeat match goal with |- context [Z.eqb ?a ?b] => destruct (Z.eqb_spec a b) | |- context [Z.ltb ?a ?b] => destruct (Z.ltb_spec a b) end.
(** ** Double sums *)
Definition csum2 (n m : nat) (f : Z -> Z -> cplx) : cplx := csum n (fun p => csum m (fun q => f p q)).
Lemma csum2_ext n m f h : (forall p q, 0 <= p < Z.of_nat n -> 0 <= q < Z.of_nat m -> f p q = h p q) -> csum2 n m f = csum2 n m h.
Proof. intros H. apply csum_ext. intros p Hp. apply csum_ext. intros q Hq. apply H; assumption. Qed.
Lemma csum2_zero n m f : (forall p q, 0 <= p < Z.of_nat n -> 0 <= q < Z.of_nat m -> f p q = C0) -> csum2 n m f = C0.
Proof. intros H. apply csum_zero. intros p Hp. apply csum_zero. intros q Hq. apply H; assumption. Qed.
Lemma csum2_plus n m f h : csum2 n m (fun p q => Cadd (f p q) (h p q)) = Cadd (csum2 n m f) (csum2 n m h).
Proof. unfold csum2. rewrite <- csum_plus. apply csum_ext. intros p _. apply csum_plus. Qed.
Lemma csum2_scal n m c f : csum2 n m (fun p q => Cmul c (f p q)) = Cmul c (csum2 n m f).
Proof. unfold csum2. rewrite <- csum_scal. apply csum_ext. intros p _. apply csum_scal. Qed.
Lemma csum2_swap n m n' m' f : csum2 n m (fun p q => csum2 n' m' (f p q)) = csum2 n' m' (fun a b => csum2 n m (fun p q => f p q a b)).
Proof.
  unfold csum2.
  transitivity (csum n (fun p => csum n' (fun a => csum m (fun q => csum m' (fun b => f p q a b))))).
  - apply csum_ext. intros p _. apply csum_swap.
  - rewrite csum_swap. apply csum_ext. intros a _.
    transitivity (csum n (fun p => csum m' (fun b => csum m (fun q => f p q a b)))).
    + apply csum_ext. intros p _. apply csum_swap.
    + apply csum_swap.
Qed.
Lemma csum2_reflect n m a b f : (0 < n)%nat -> (0 < m)%nat ->
  csum2 n m (fun p q => f ((a - p) mod Z.of_nat n) ((b - q) mod Z.of_nat m)) = csum2 n m f.
Proof.
  intros Hn Hm. unfold csum2.
  transitivity (csum n (fun p => csum m (fun q => f ((a - p) mod Z.of_nat n) q))).
  - apply csum_ext. intros p _. apply (@csum_reflect m b (fun q => f ((a - p) mod Z.of_nat n) q)). exact Hm.
  - apply (@csum_reflect n a (fun p => csum m (fun q => f p q))). exact Hn.
Qed.
Lemma csum2_conj n m f : Cconj (csum2 n m f) = csum2 n m (fun p q => Cconj (f p q)).
Proof. unfold csum2. rewrite Cconj_sum. apply csum_ext. intros p _. apply Cconj_sum. Qed.

(** ** Transforms *)
Definition fft2 (n m : nat) (f : Z -> Z -> cplx) (p q : Z) : cplx := fft1 n (fun i => fft1 m (f i) q) p.
Definition ifft2 (n m : nat) (F : Z -> Z -> cplx) (i j : Z) : cplx := ifft1 n (fun p => ifft1 m (F p) j) i.
Lemma fft2_ext n m f h p q : (forall i j, 0 <= i < Z.of_nat n -> 0 <= j < Z.of_nat m -> f i j = h i j) -> fft2 n m f p q = fft2 n m h p q.
Proof. intros H. apply fft1_ext. intros i Hi. apply fft1_ext. intros j Hj. apply H; assumption. Qed.
Lemma ifft2_ext n m f h p q : (forall i j, 0 <= i < Z.of_nat n -> 0 <= j < Z.of_nat m -> f i j = h i j) -> ifft2 n m f p q = ifft2 n m h p q.
Proof. intros H. apply ifft1_ext. intros i Hi. apply ifft1_ext. intros j Hj. apply H; assumption. Qed.
Lemma ifft2_alt n m F i j : ifft2 n m F i j = ifft1 m (fun q => ifft1 n (fun p => F p q) i) j.
Proof.
  unfold ifft2, ifft1. transitivity (csum n (fun p => csum m (fun q => Cmul (idftm n i p) (Cmul (idftm m j q) (F p q))))).
  - apply csum_ext. intros p _. rewrite csum_scal. reflexivity.
  - rewrite csum_swap. apply csum_ext. intros q _. rewrite <- csum_scal. apply csum_ext. intros p _. ring.
Qed.
Lemma fft2_alt n m F i j : fft2 n m F i j = fft1 m (fun q => fft1 n (fun p => F p q) i) j.
Proof.
  unfold fft2, fft1. transitivity (csum n (fun p => csum m (fun q => Cmul (dftm n i p) (Cmul (dftm m j q) (F p q))))).
  - apply csum_ext. intros p _. rewrite csum_scal. reflexivity.
  - rewrite csum_swap. apply csum_ext. intros q _. rewrite <- csum_scal. apply csum_ext. intros p _. ring.
Qed.
Lemma fft2_ifft2 n m F p q : 0 <= p < Z.of_nat n -> 0 <= q < Z.of_nat m -> fft2 n m (ifft2 n m F) p q = F p q.
Proof.
  intros Hp Hq. unfold fft2. transitivity (fft1 n (fun i => ifft1 n (fun p' => F p' q) i) p).
  - apply fft1_ext. intros i _. transitivity (fft1 m (ifft1 m (fun q' => ifft1 n (fun p' => F p' q') i)) q).
    + apply fft1_ext. intros j _. apply ifft2_alt.
    + rewrite fft1_ifft1 by exact Hq. reflexivity.
  - apply (@fft1_ifft1 n (fun p' => F p' q) p Hp).
Qed.
Lemma ifft2_fft2 n m F p q : 0 <= p < Z.of_nat n -> 0 <= q < Z.of_nat m -> ifft2 n m (fft2 n m F) p q = F p q.
Proof.
  intros Hp Hq. unfold ifft2. transitivity (ifft1 n (fun i => fft1 n (fun p' => F p' q) i) p).
  - apply ifft1_ext. intros i _. transitivity (ifft1 m (fft1 m (fun q' => fft1 n (fun p' => F p' q') i)) q).
    + apply ifft1_ext. intros j _. apply fft2_alt.
    + rewrite ifft1_fft1 by exact Hq. reflexivity.
  - apply (@ifft1_fft1 n (fun p' => F p' q) p Hp).
Qed.
Lemma fft2_mod n m F p q : (0 < n)%nat -> (0 < m)%nat -> fft2 n m F (p mod Z.of_nat n) (q mod Z.of_nat m) = fft2 n m F p q.
Proof. intros Hn Hm. unfold fft2. rewrite fft1_mod by exact Hn. apply fft1_ext. intros i _. apply fft1_mod. exact Hm. Qed.
Lemma ifft1_csum n k (f : Z -> Z -> cplx) j : ifft1 n (fun p => csum k (fun a => f a p)) j = csum k (fun a => ifft1 n (f a) j).
Proof. unfold ifft1. rewrite csum_swap. apply csum_ext. intros p _. rewrite csum_scal. reflexivity. Qed.
Lemma fft1_csum n k (f : Z -> Z -> cplx) j : fft1 n (fun p => csum k (fun a => f a p)) j = csum k (fun a => fft1 n (f a) j).
Proof. unfold fft1. rewrite csum_swap. apply csum_ext. intros p _. rewrite csum_scal. reflexivity. Qed.
Lemma convolution2 n m A B r s : (0 < n)%nat -> (0 < m)%nat ->
  fft2 n m (fun i j => Cmul (ifft2 n m A i j) (ifft2 n m B i j)) r s =
  Cscal (/ (INR n * INR m)) (csum2 n m (fun p q => Cmul (A p q) (B ((r - p) mod Z.of_nat n) ((s - q) mod Z.of_nat m)))).
Proof.
  intros Hn Hm. unfold fft2.
  transitivity (fft1 n (fun i => csum m (fun q => Cscal (/ INR m) (Cmul (ifft1 n (fun p => A p q) i) (ifft1 n (fun p => B p ((s - q) mod Z.of_nat m)) i)))) r).
  - apply fft1_ext. intros i _.
    transitivity (fft1 m (fun j => Cmul (ifft1 m (fun q => ifft1 n (fun p => A p q) i) j) (ifft1 m (fun q => ifft1 n (fun p => B p q) i) j)) s).
    + apply fft1_ext. intros j _. rewrite <- !ifft2_alt. reflexivity.
    + rewrite convolution by exact Hm. transitivity (Cmul (RtoC (/ INR m)) (csum m (fun p => Cmul (ifft1 n (fun p0 => A p0 p) i) (ifft1 n (fun p0 => B p0 ((s - p) mod Z.of_nat m)) i)))); [ceq|].
      rewrite <- csum_scal. apply csum_ext. intros q _. ceq.
  - rewrite (@fft1_csum n m (fun q i => Cscal (/ INR m) (Cmul (ifft1 n (fun p => A p q) i) (ifft1 n (fun p => B p ((s - q) mod Z.of_nat m)) i))) r).
    unfold csum2. rewrite csum_swap.
    transitivity (csum m (fun q => Cmul (RtoC (/ (INR n * INR m))) (csum n (fun p => Cmul (A p q) (B ((r - p) mod Z.of_nat n) ((s - q) mod Z.of_nat m)))))); [|rewrite csum_scal; ceq].
    apply csum_ext. intros q _. transitivity (Cscal (/ INR m) (fft1 n (fun i => Cmul (ifft1 n (fun p => A p q) i) (ifft1 n (fun p => B p ((s - q) mod Z.of_nat m)) i)) r)).
    + unfold fft1. transitivity (Cmul (RtoC (/ INR m)) (csum n (fun i => Cmul (dftm n r i) (Cmul (ifft1 n (fun p => A p q) i) (ifft1 n (fun p => B p ((s - q) mod Z.of_nat m)) i))))); [|ceq].
      rewrite <- csum_scal. apply csum_ext. intros i _. ceq.
    + rewrite convolution by exact Hn. set (c := csum n _). assert (INR n <> 0%R) by (apply not_0_INR; lia). assert (INR m <> 0%R) by (apply not_0_INR; lia). apply Ceq; cbn [re im Cscal Cmul RtoC]; field; auto.
Qed.
(** The sum over the grid is the mean mode. *)
Lemma fft2_00 n m f : fft2 n m f 0 0 = csum2 n m f.
Proof.
  assert (E : forall k i, dftm k 0 i = C1).
  { intros k i. unfold dftm. replace (i * 0) with 0 by ring. replace (- (2 * PI * 0 / INR k))%R with 0%R by (unfold Rdiv; ring). apply cis_0. }
  unfold fft2, fft1, csum2. apply csum_ext. intros p _. rewrite E. transitivity (csum m (fun j => Cmul (dftm m 0 j) (f p j))); [ring|]. apply csum_ext. intros q _. rewrite E. ring.
Qed.
(** Sums of products of two and of three fields. *)
Lemma sum_pair n m A B : (0 < n)%nat -> (0 < m)%nat ->
  csum2 n m (fun i j => Cmul (ifft2 n m A i j) (ifft2 n m B i j)) =
  Cscal (/ (INR n * INR m)) (csum2 n m (fun p q => Cmul (A p q) (B (nneg n p) (nneg m q)))).
Proof. intros Hn Hm. rewrite <- fft2_00, convolution2 by assumption. reflexivity. Qed.
Definition triads n m (A B C : Z -> Z -> cplx) : cplx :=
  csum2 n m (fun p q => csum2 n m (fun p' q' => Cmul (Cmul (A p q) (B p' q')) (C ((- p - p') mod Z.of_nat n) ((- q - q') mod Z.of_nat m)))).
Lemma sum_triple n m A B C : (0 < n)%nat -> (0 < m)%nat ->
  csum2 n m (fun i j => Cmul (ifft2 n m A i j) (Cmul (ifft2 n m B i j) (ifft2 n m C i j))) =
  Cscal (/ (INR n * INR m)) (Cscal (/ (INR n * INR m)) (triads n m A B C)).
Proof.
  intros Hn Hm. set (D := fft2 n m (fun i j => Cmul (ifft2 n m B i j) (ifft2 n m C i j))).
  transitivity (csum2 n m (fun i j => Cmul (ifft2 n m A i j) (ifft2 n m D i j))).
  - apply csum2_ext. intros i j Hi Hj. unfold D. rewrite ifft2_fft2 by assumption. reflexivity.
  - rewrite sum_pair by assumption. f_equal. unfold triads.
    transitivity (Cmul (RtoC (/ (INR n * INR m))) (csum2 n m (fun p q => csum2 n m (fun p' q' => Cmul (Cmul (A p q) (B p' q')) (C ((- p - p') mod Z.of_nat n) ((- q - q') mod Z.of_nat m)))))); [|ceq].
    rewrite <- csum2_scal. apply csum2_ext. intros p q _ _. unfold D, nneg. rewrite fft2_mod by assumption. rewrite convolution2 by assumption.
    transitivity (Cmul (RtoC (/ (INR n * INR m))) (Cmul (A p q) (csum2 n m (fun p' q' => Cmul (B p' q') (C ((- p - p') mod Z.of_nat n) ((- q - q') mod Z.of_nat m)))))); [ceq|].
    f_equal. rewrite <- csum2_scal. apply csum2_ext. intros p' q' _ _. ring.
Qed.
Lemma triads_swap n m A B C : triads n m A B C = triads n m B A C.
Proof.
  unfold triads. rewrite csum2_swap. apply csum2_ext. intros p q _ _. apply csum2_ext. intros p' q' _ _.
  replace (- p' - p) with (- p - p') by ring. replace (- q' - q) with (- q - q') by ring. ring.
Qed.
Lemma triads_swap23 n m A B C : (0 < n)%nat -> (0 < m)%nat -> triads n m A B C = triads n m A C B.
Proof.
  intros Hn Hm. unfold triads. apply csum2_ext. intros p q _ _.
  rewrite <- (@csum2_reflect n m (- p) (- q) (fun p' q' => Cmul (Cmul (A p q) (C p' q')) (B ((- p - p') mod Z.of_nat n) ((- q - q') mod Z.of_nat m)))) by assumption.
  apply csum2_ext. intros p' q' Hp Hq.
  replace ((- p - (- p - p') mod Z.of_nat n) mod Z.of_nat n) with p'; [replace ((- q - (- q - q') mod Z.of_nat m) mod Z.of_nat m) with q'; [ring|]|].
  - rewrite <- Zminus_mod_idemp_l, <- Zminus_mod. replace (- q - (- q - q')) with q' by ring. symmetry. apply Z.mod_small. exact Hq.
  - rewrite <- Zminus_mod_idemp_l, <- Zminus_mod. replace (- p - (- p - p')) with p' by ring. symmetry. apply Z.mod_small. exact Hp.
Qed.

(** ** Real fields: rfftn and irfftn of two-dimensional arrays *)
Lemma rfftn2 a n m : shp a = [n; m] -> shp (rfftn a) = [n; (m / 2 + 1)%nat] /\ forall p q, get (rfftn a) [p; q] = fft2 n m (fun i j => RtoC (get a [i; j])) p q.
Proof. intros H. unfold rfftn. rewrite H. cbn. unfold on_axis. cbn. rewrite H. cbn. split; reflexivity. Qed.
Lemma irfftn2_raw U n k : shp U = [n; k] -> shp (irfftn U) = [n; (2 * (k - 1))%nat] /\
  forall i j, get (irfftn U) [i; j] = re (irfft1 (2 * (k - 1)) (fun q => ifft1 n (fun p => get U [p; q]) i) j).
Proof. intros H. unfold irfftn. rewrite H. cbn -[Nat.mul]. unfold on_axis. cbn -[Nat.mul]. rewrite H. cbn -[Nat.mul]. split; reflexivity. Qed.
(** The full spectrum of the real field [irfftn U]: the columns 0 and m/2 are made conjugate symmetric. *)
Definition herm2 (n m : nat) (U : Z -> Z -> cplx) (p q : Z) : cplx :=
  if q =? 0 then Cscal (/ 2) (Cadd (U p q) (Cconj (U (nneg n p) q)))
  else if 2 * q <? Z.of_nat m then U p q
  else if 2 * q =? Z.of_nat m then Cscal (/ 2) (Cadd (U p q) (Cconj (U (nneg n p) q)))
  else Cconj (U (nneg n p) (Z.of_nat m - q)).
Lemma ifft1_conj_neg n X i : (0 < n)%nat -> ifft1 n (fun p => Cconj (X (nneg n p))) i = Cconj (ifft1 n X i).
Proof.
  intros Hn. unfold ifft1. rewrite Cconj_sum. rewrite <- (@csum_reflect n 0 (fun p => Cconj (Cmul (idftm n i p) (X p))) Hn).
  apply csum_ext. intros p _. change (0 - p) with (- p). fold (nneg n p). rewrite Cconj_mul. rewrite idftm_neg by exact Hn. rewrite Cconj_invol. reflexivity.
Qed.
Lemma ifft1_add n X Y i : ifft1 n (fun p => Cadd (X p) (Y p)) i = Cadd (ifft1 n X i) (ifft1 n Y i).
Proof. unfold ifft1. rewrite <- csum_plus. apply csum_ext. intros p _. ring. Qed.
Lemma ifft1_cscal n c X i : ifft1 n (fun p => Cscal c (X p)) i = Cscal c (ifft1 n X i).
Proof. unfold ifft1. transitivity (Cmul (RtoC c) (csum n (fun p => Cmul (idftm n i p) (X p)))); [|ceq]. rewrite <- csum_scal. apply csum_ext. intros p _. ceq. Qed.
Lemma herm2_line n m U i q : (0 < n)%nat -> ifft1 n (fun p => herm2 n m U p q) i = hermitian_ext m (fun q => ifft1 n (fun p => U p q) i) q.
Proof.
  intros Hn. unfold herm2, hermitian_ext.
  assert (HS : forall q, ifft1 n (fun p => Cscal (/ 2) (Cadd (U p q) (Cconj (U (nneg n p) q)))) i = RtoC (re (ifft1 n (fun p => U p q) i))).
  { intros q'. rewrite (@ifft1_cscal n (/ 2) (fun p => Cadd (U p q') (Cconj (U (nneg n p) q')))).
    rewrite (@ifft1_add n (fun p => U p q') (fun p => Cconj (U (nneg n p) q'))). rewrite (@ifft1_conj_neg n (fun p => U p q') i Hn). apply Ceq; cbn; field. }
  destruct (Z.eqb_spec q 0) as [->|]; [apply HS|]. destruct (2 * q <? Z.of_nat m); [reflexivity|]. destruct (2 * q =? Z.of_nat m); [apply HS|].
  apply (@ifft1_conj_neg n (fun p => U p (Z.of_nat m - q)) i Hn).
Qed.
Lemma irfftn2 U n m : shp U = [n; (m / 2 + 1)%nat] -> (0 < n)%nat -> (0 < m)%nat -> Nat.Even m -> shp (irfftn U) = [n; m] /\
  forall i j, RtoC (get (irfftn U) [i; j]) = ifft2 n m (herm2 n m (fun p q => get U [p; q])) i j.
Proof.
  intros H Hn Hm [k Ek]. destruct (@irfftn2_raw U n _ H) as [S G]. assert (E : (2 * (m / 2 + 1 - 1) = m)%nat). { subst m. rewrite (Nat.mul_comm 2 k), Nat.div_mul by lia. lia. }
  rewrite E in *. split; [exact S|]. intros i j. rewrite G, <- irfft1_real by exact Hm. rewrite ifft2_alt. unfold irfft1. apply ifft1_ext. intros q _. symmetry. apply herm2_line. exact Hn.
Qed.
(** The full spectrum of the spectrum of a real field. *)
Lemma fft2_real_neg n m (w : Z -> Z -> R) p q : (0 < n)%nat -> (0 < m)%nat ->
  fft2 n m (fun i j => RtoC (w i j)) (nneg n p) (nneg m q) = Cconj (fft2 n m (fun i j => RtoC (w i j)) p q).
Proof.
  intros Hn Hm. unfold fft2, fft1. rewrite Cconj_sum. apply csum_ext. intros i _. rewrite dftm_neg by exact Hn. rewrite Cconj_mul. f_equal.
  rewrite Cconj_sum. apply csum_ext. intros j _. rewrite dftm_neg by exact Hm. rewrite Cconj_mul, Cconj_RtoC. reflexivity.
Qed.
Lemma herm2_real n m (w : Z -> Z -> R) p q : (0 < n)%nat -> (0 < m)%nat -> 0 <= q < Z.of_nat m ->
  herm2 n m (fft2 n m (fun i j => RtoC (w i j))) p q = fft2 n m (fun i j => RtoC (w i j)) p q.
Proof.
  intros Hn Hm Hq. set (W := fft2 n m (fun i j => RtoC (w i j))). assert (HW : forall p q, Cconj (W (nneg n p) (nneg m q)) = W p q) by (intros; unfold W; rewrite fft2_real_neg by assumption; apply Cconj_invol).
  unfold herm2. zb; try reflexivity.
  - subst q. pose proof (HW p 0) as E. replace (nneg m 0) with 0 in E by (symmetry; apply Z.mod_0_l; lia). rewrite E. apply Ceq; cbn; field.
  - pose proof (HW p q) as E. replace (nneg m q) with q in E by (unfold nneg; apply Z.mod_unique with (q := -1); lia). rewrite E. apply Ceq; cbn; field.
  - rewrite <- (HW p q). replace (nneg m q) with (Z.of_nat m - q); [reflexivity|]. unfold nneg. apply Z.mod_unique with (q := -1); lia.
Qed.
(** Conjugate symmetry of the full spectrum. *)
Lemma herm2_neg n m U p q : (0 < n)%nat -> 0 <= p < Z.of_nat n -> 0 <= q < Z.of_nat m -> herm2 n m U (nneg n p) (nneg m q) = Cconj (herm2 n m U p q).
Proof.
  intros Hn Hp Hq. assert (Eq : nneg m q = if q =? 0 then 0 else Z.of_nat m - q).
  { unfold nneg. destruct (Z.eqb_spec q 0) as [->|]; [apply Z.mod_0_l; lia|]. symmetry. apply Z.mod_unique with (q := -1); lia. }
  unfold herm2. rewrite Eq. rewrite !nneg_invol by exact Hp. zb; try lia; try reflexivity; try (apply Ceq; cbn; ring);
    try (subst q; apply Ceq; cbn; ring); try (replace (Z.of_nat m - q) with q by lia; apply Ceq; cbn; ring); try (rewrite Cconj_invol; f_equal; lia); try (f_equal; f_equal; lia).
Qed.
