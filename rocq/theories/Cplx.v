(** * Complex numbers and discrete Fourier matrices (infrastructure: stands for complex64/128 arithmetic
      and for np.fft/jnp.fft, in exact arithmetic). *)
From Verif Require Import Prelude NdArr LinAlg.
Set Implicit Arguments.
Local Open Scope R_scope.

Record cplx := mkC { re : R; im : R }.
Definition C0 := mkC 0 0.
Definition C1 := mkC 1 0.
Definition RtoC (x : R) := mkC x 0.
Definition Cadd (a b : cplx) := mkC (re a + re b) (im a + im b).
Definition Csub (a b : cplx) := mkC (re a - re b) (im a - im b).
Definition Copp (a : cplx) := mkC (- re a) (- im a).
Definition Cmul (a b : cplx) := mkC (re a * re b - im a * im b) (re a * im b + im a * re b).
Definition Cconj (a : cplx) := mkC (re a) (- im a).
Definition Cn2 (a : cplx) := re a * re a + im a * im a.
(** 1/z; only meaningful for z <> 0 *)
Definition Cinv (a : cplx) := mkC (re a / Cn2 a) (- im a / Cn2 a).
Definition Cdiv (a b : cplx) := Cmul a (Cinv b).
Definition Cabs (a : cplx) := sqrt (Cn2 a).
Definition Cscal (x : R) (a : cplx) := mkC (x * re a) (x * im a).
Definition cis (t : R) := mkC (cos t) (sin t).

Lemma Ceq a b : re a = re b -> im a = im b -> a = b.
Proof. destruct a, b; simpl; intros -> ->; reflexivity. Qed.
Ltac ceq := apply Ceq; simpl; ring.
Lemma C_ring : ring_theory C0 C1 Cadd Cmul Csub Copp eq.
Proof. constructor; intros; ceq. Qed.
Add Ring Cring : C_ring.

Lemma Cn2_pos a : 0 <= Cn2 a.
Proof. unfold Cn2. nra. Qed.
Lemma Cn2_zero a : Cn2 a = 0 -> a = C0.
Proof. unfold Cn2. intros H. apply Ceq; simpl; nra. Qed.
Lemma Cn2_nz a : a <> C0 -> Cn2 a <> 0.
Proof. intros H E. apply H, Cn2_zero, E. Qed.
Lemma Cinv_r a : a <> C0 -> Cmul a (Cinv a) = C1.
Proof. intros H. apply Cn2_nz in H. unfold Cinv. apply Ceq; simpl; unfold Cn2 in *; field; exact H. Qed.
Lemma Cmul_integral a b : Cmul a b = C0 -> a <> C0 -> b = C0.
Proof.
  intros H Ha. replace b with (Cmul (Cmul a (Cinv a)) b) by (rewrite Cinv_r by auto; ring).
  replace (Cmul (Cmul a (Cinv a)) b) with (Cmul (Cinv a) (Cmul a b)) by ring. rewrite H. ring.
Qed.
Lemma cis_add a b : cis (a + b) = Cmul (cis a) (cis b).
Proof. unfold cis. apply Ceq; simpl; [apply cos_plus | rewrite sin_plus; ring]. Qed.
Lemma cis_0 : cis 0 = C1.
Proof. unfold cis. rewrite cos_0, sin_0. reflexivity. Qed.
Lemma cis_2piZ k : cis (2 * PI * IZR k) = C1.
Proof.
  unfold cis. apply Ceq; simpl.
  - replace (2 * PI * IZR k) with (2 * (IZR k * PI)) by ring. rewrite cos_2a_sin.
    replace (sin (IZR k * PI)) with 0; [ring|]. symmetry. apply sin_eq_0_1. exists k. reflexivity.
  - apply sin_eq_0_1. exists (2 * k)%Z. rewrite mult_IZR. ring.
Qed.
Lemma cis_eq1 x : cis x = C1 -> exists k, x = 2 * PI * IZR k.
Proof.
  unfold cis. intros H. injection H as Hc Hs.
  assert (E : sin (x / 2) = 0).
  { replace x with (2 * (x / 2)) in Hc by field. rewrite cos_2a_sin in Hc. nra. }
  apply sin_eq_0_0 in E. destruct E as (k & E). exists k. lra.
Qed.

Definition csum := gsum C0 Cadd.
Definition csum_ext := gsum_ext C0 Cadd.
Lemma csum_S n f : csum (S n) f = Cadd (csum n f) (f (Z.of_nat n)). Proof. reflexivity. Qed.
Lemma re_csum n f : re (csum n f) = rsum n (fun i => re (f i)).
Proof. induction n as [|n IH]; simpl; [reflexivity|]. unfold csum in *. rewrite IH. reflexivity. Qed.
Lemma im_csum n f : im (csum n f) = rsum n (fun i => im (f i)).
Proof. induction n as [|n IH]; simpl; [reflexivity|]. unfold csum in *. rewrite IH. reflexivity. Qed.
Lemma RtoC_mul a b : RtoC (a * b) = Cmul (RtoC a) (RtoC b). Proof. ceq. Qed.
Lemma RtoC_add a b : RtoC (a + b) = Cadd (RtoC a) (RtoC b). Proof. ceq. Qed.
Lemma RtoC_rsum n f : RtoC (rsum n f) = csum n (fun i => RtoC (f i)).
Proof. induction n as [|n IH]; simpl; [reflexivity|]. rewrite RtoC_add, IH. reflexivity. Qed.
Lemma csum_scal n c f : csum n (fun i => Cmul c (f i)) = Cmul c (csum n f).
Proof. unfold csum. apply (gsum_scal C_ring). Qed.

(** Orthogonality of the n-th roots of unity. *)
Lemma geom n (w : R) : Cmul (Csub (cis w) C1) (csum n (fun k => cis (IZR k * w))) = Csub (cis (IZR (Z.of_nat n) * w)) C1.
Proof.
  induction n as [|n IH].
  - simpl. replace (0 * w) with 0 by ring. rewrite cis_0. unfold csum. simpl. ceq.
  - rewrite csum_S. rewrite Nat2Z.inj_succ, <- Z.add_1_r, plus_IZR.
    replace ((IZR (Z.of_nat n) + 1) * w) with (IZR (Z.of_nat n) * w + w) by ring. rewrite cis_add.
    transitivity (Cadd (Cmul (Csub (cis w) C1) (csum n (fun k => cis (IZR k * w)))) (Cmul (Csub (cis w) C1) (cis (IZR (Z.of_nat n) * w)))); [ring|].
    rewrite IH. ring.
Qed.
Lemma csum_const n c : csum n (fun _ => c) = Cmul (RtoC (INR n)) c.
Proof.
  induction n as [|n IH]; [unfold csum; simpl; ceq|]. rewrite csum_S, IH, S_INR. ceq.
Qed.
Lemma roots_sum n m : (0 < n)%nat ->
  csum n (fun k => cis (2 * PI * IZR (k * m) / INR n)) = if (m mod Z.of_nat n =? 0)%Z then RtoC (INR n) else C0.
Proof.
  intros Hn. assert (HN : INR n <> 0) by (apply not_0_INR; lia).
  set (w := 2 * PI * IZR m / INR n).
  rewrite (@csum_ext n _ (fun k => cis (IZR k * w))).
  2:{ intros k _. unfold w. f_equal. rewrite mult_IZR. field. exact HN. }
  destruct (Z.eqb_spec (m mod Z.of_nat n) 0) as [E|E].
  - assert (Em : m = (Z.of_nat n * (m / Z.of_nat n))%Z) by (apply Z.div_exact; [lia | exact E]).
    rewrite (@csum_ext n _ (fun _ => C1)). { rewrite csum_const. ceq. }
    intros k _. unfold w. rewrite Em, mult_IZR, <- INR_IZR_INZ.
    replace (IZR k * (2 * PI * (INR n * IZR (m / Z.of_nat n)) / INR n)) with (2 * PI * (IZR (k * (m / Z.of_nat n)))) by (rewrite mult_IZR; field; exact HN).
    apply cis_2piZ.
  - apply Cmul_integral with (a := Csub (cis w) C1).
    + rewrite geom. replace (IZR (Z.of_nat n) * w) with (2 * PI * IZR m) by (unfold w; rewrite <- INR_IZR_INZ; field; exact HN).
      rewrite cis_2piZ. ring.
    + intros E1. assert (E2 : cis w = C1) by (transitivity (Cadd (Csub (cis w) C1) C1); [ring | rewrite E1; ring]).
      apply cis_eq1 in E2. destruct E2 as (k & Ek). apply E. unfold w in Ek. pose proof PI_RGT_0 as HPI.
      assert (Em : IZR m = IZR (k * Z.of_nat n)).
      { rewrite mult_IZR, <- INR_IZR_INZ. apply (Rmult_eq_reg_l (2 * PI / INR n)).
        - replace (2 * PI / INR n * IZR m) with (2 * PI * IZR m / INR n) by (field; exact HN). rewrite Ek. field. exact HN.
        - unfold Rdiv. apply Rmult_integral_contrapositive. split; [lra | apply Rinv_neq_0_compat; exact HN]. }
      apply eq_IZR in Em. rewrite Em. apply Z.mod_mul. lia.
Qed.

(** DFT matrices: [dftm n k j = exp(-2 pi i j k / n)] and [idftm n j k = exp(2 pi i j k / n) / n]. *)
Definition dftm (n : nat) (k j : Z) : cplx := cis (- (2 * PI * IZR (j * k) / INR n)).
Definition idftm (n : nat) (j k : Z) : cplx := Cscal (/ INR n) (cis (2 * PI * IZR (j * k) / INR n)).

Lemma mod0_eq n i l : (0 <= i < Z.of_nat n)%Z -> (0 <= l < Z.of_nat n)%Z -> ((i - l) mod Z.of_nat n =? 0)%Z = (i =? l)%Z.
Proof.
  intros Hi Hl. destruct (Z.eqb_spec i l) as [->|H].
  - rewrite Z.sub_diag, Zmod_0_l. reflexivity.
  - apply Z.eqb_neq. intros E. apply Z.mod_divide in E; [|lia]. destruct E as (q & E). assert (q = 0 \/ q >= 1 \/ q <= -1)%Z as [->|[Hq|Hq]] by lia; nia.
Qed.
Lemma cis_combine n a b : Cmul (cis (2 * PI * IZR a / INR n)) (cis (- (2 * PI * IZR b / INR n))) = cis (2 * PI * IZR (a - b) / INR n).
Proof. rewrite <- cis_add. f_equal. rewrite minus_IZR. unfold Rdiv. ring. Qed.
Lemma idft_dft n : linv C0 C1 Cadd Cmul n (idftm n) (dftm n).
Proof.
  intros i l Hi Hl. assert (Hn : (0 < n)%nat) by lia. assert (HN : INR n <> 0) by (apply not_0_INR; lia).
  change (gsum C0 Cadd) with csum.
  rewrite (@csum_ext n _ (fun j => Cmul (RtoC (/ INR n)) (cis (2 * PI * IZR (j * (i - l)) / INR n)))).
  2:{ intros j _. unfold idftm, dftm. replace (j * (i - l))%Z with (i * j - l * j)%Z by ring. rewrite <- cis_combine. ceq. }
  rewrite csum_scal, roots_sum, mod0_eq by auto. destruct (i =? l)%Z; [apply Ceq; simpl; field; exact HN | ring].
Qed.
Lemma dft_idft n : linv C0 C1 Cadd Cmul n (dftm n) (idftm n).
Proof.
  intros i l Hi Hl. assert (Hn : (0 < n)%nat) by lia. assert (HN : INR n <> 0) by (apply not_0_INR; lia).
  change (gsum C0 Cadd) with csum.
  rewrite (@csum_ext n _ (fun j => Cmul (RtoC (/ INR n)) (cis (2 * PI * IZR (j * (l - i)) / INR n)))).
  2:{ intros j _. unfold idftm, dftm. replace (j * (l - i))%Z with (j * l - j * i)%Z by ring. rewrite <- cis_combine. ceq. }
  rewrite csum_scal, roots_sum, mod0_eq by auto. rewrite (Z.eqb_sym l i). destruct (i =? l)%Z; [apply Ceq; simpl; field; exact HN | ring].
Qed.
