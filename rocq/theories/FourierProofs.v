(** * Multi-dimensional DFT: kron form, conjugate symmetry, circulant matrices (lemmas) *)
From Verif Require Import Prelude NdArr LinAlg Cplx FastDiag_model.
Set Implicit Arguments.
Local Open Scope Z_scope.

Add Ring Cring2 : C_ring.
Notation Ckron := (kron C0 Cadd Cmul).
Notation Copsum := (opsum C0 Cadd Cmul).
Notation Clamsum := (lamsum C0 Cadd).
Notation Cfop := (fop C0 Cadd Cmul).
Notation Clinvs := (linvs C0 C1 Cadd Cmul).
Notation Ceigens := (eigens C0 Cadd Cmul).

(** ** Conjugation *)
Lemma Cconj_add a b : Cconj (Cadd a b) = Cadd (Cconj a) (Cconj b). Proof. ceq. Qed.
Lemma Cconj_mul a b : Cconj (Cmul a b) = Cmul (Cconj a) (Cconj b). Proof. ceq. Qed.
Lemma Cconj_RtoC x : Cconj (RtoC x) = RtoC x. Proof. ceq. Qed.
Lemma Cconj_invol a : Cconj (Cconj a) = a. Proof. ceq. Qed.
Lemma Cconj_sum n f : Cconj (csum n f) = csum n (fun i => Cconj (f i)).
Proof. induction n as [|n IH]; [ceq|]. rewrite !csum_S, Cconj_add, IH. reflexivity. Qed.
Lemma Cconj_cis t : Cconj (cis t) = cis (- t).
Proof. unfold cis. apply Ceq; simpl; [rewrite cos_neg | rewrite sin_neg]; reflexivity. Qed.
Lemma Cconj_fix a : Cconj a = a -> a = RtoC (re a).
Proof. intros H. apply Ceq; simpl; [reflexivity|]. apply (f_equal im) in H. simpl in H. lra. Qed.

(** ** Periodicity *)
Lemma cis_mod n a b : (0 < n)%nat -> (a - b) mod Z.of_nat n = 0 -> cis (2 * PI * IZR a / INR n) = cis (2 * PI * IZR b / INR n).
Proof.
  intros Hn H. apply Z.mod_divide in H; [|lia]. destruct H as (q & H).
  assert (HN : INR n <> 0%R) by (apply not_0_INR; lia).
  replace (2 * PI * IZR a / INR n)%R with (2 * PI * IZR b / INR n + 2 * PI * IZR q)%R.
  - rewrite cis_add, cis_2piZ. ring.
  - replace a with (b + q * Z.of_nat n) by lia. rewrite plus_IZR, mult_IZR, <- INR_IZR_INZ. field. exact HN.
Qed.
Lemma cis_neg_form n a : (- (2 * PI * IZR a / INR n) = 2 * PI * IZR (- a) / INR n)%R.
Proof. rewrite opp_IZR. unfold Rdiv. ring. Qed.
Lemma csum_reflect n i f : (0 < n)%nat -> csum n (fun j => f ((i - j) mod Z.of_nat n)) = csum n f.
Proof.
  intros Hn.
  assert (HR : forall g : Z -> R, rsum n (fun j => g ((i - j) mod Z.of_nat n)) = rsum n g).
  { intros g. rewrite rsum_rev. rewrite <- (@rsum_mod_shift n (i + 1) g Hn). apply rsum_ext. intros j _. f_equal.
    replace (i - (Z.of_nat n - 1 - j)) with (j + (i + 1) + (-1) * Z.of_nat n) by ring. apply Z.mod_add. lia. }
  apply Ceq; [rewrite !re_csum; apply (HR (fun j => re (f j))) | rewrite !im_csum; apply (HR (fun j => im (f j)))].
Qed.
(** Index negation modulo the axis lengths. *)
Definition nneg (n : nat) (k : Z) : Z := (- k) mod Z.of_nat n.
Fixpoint negs (s : list nat) (kx : list Z) : list Z :=
  match s, kx with n :: s', k :: kx' => nneg n k :: negs s' kx' | _, _ => kx end.
Lemma nneg_range n k : (0 < n)%nat -> 0 <= nneg n k < Z.of_nat n.
Proof. intros H. apply Z.mod_pos_bound. lia. Qed.
Lemma inb_negs s kx : allpos s -> inb s kx -> inb s (negs s kx).
Proof.
  revert kx. induction s as [|n s IH]; intros [|k kx] Hp H; simpl in *; try tauto. inversion Hp; subst.
  split; [apply nneg_range; auto | apply IH; tauto].
Qed.
Lemma negs_length s kx : length (negs s kx) = length kx.
Proof. revert kx. induction s as [|n s IH]; intros [|k kx]; simpl; auto. Qed.
Lemma nneg_invol n k : 0 <= k < Z.of_nat n -> nneg n (nneg n k) = k.
Proof.
  intros H. unfold nneg.
  destruct (Z.eq_dec k 0) as [->|Hk]; [reflexivity|].
  replace ((- k) mod Z.of_nat n) with (Z.of_nat n - k) by (apply Z.mod_unique with (q := -1); lia).
  symmetry. apply Z.mod_unique with (q := -1); lia.
Qed.
Lemma mod_eq0 n a b c : (0 < n)%nat -> a = b + c * Z.of_nat n -> (a - b) mod Z.of_nat n = 0.
Proof. intros Hn ->. replace (b + c * Z.of_nat n - b) with (c * Z.of_nat n) by ring. apply Z.mod_mul. lia. Qed.
Lemma nneg_eq n k : (0 < n)%nat -> exists q, nneg n k = - k + q * Z.of_nat n.
Proof. intros Hn. exists (- ((- k) / Z.of_nat n)). unfold nneg. pose proof (Z.div_mod (- k) (Z.of_nat n)). lia. Qed.
Lemma dftm_neg n k j : (0 < n)%nat -> dftm n (nneg n k) j = Cconj (dftm n k j).
Proof.
  intros Hn. unfold dftm. rewrite Cconj_cis, Ropp_involutive, cis_neg_form. apply cis_mod; auto.
  destruct (nneg_eq k Hn) as (q & ->). apply mod_eq0 with (c := - (j * q)); auto. ring.
Qed.
Lemma idftm_neg n j k : (0 < n)%nat -> idftm n j (nneg n k) = Cconj (idftm n j k).
Proof.
  intros Hn. unfold idftm. transitivity (Cscal (/ INR n) (Cconj (cis (2 * PI * IZR (j * k) / INR n)))); [|ceq].
  f_equal. rewrite Cconj_cis, cis_neg_form. apply cis_mod; auto.
  destruct (nneg_eq k Hn) as (q & ->). apply mod_eq0 with (c := j * q); auto. ring.
Qed.

(** ** Kron and conjugation / reindexing *)
Lemma kron_conj s : forall Ms u ix, Cconj (Ckron s Ms u ix) = Ckron s (map (fun M i j => Cconj (M i j)) Ms) (fun jx => Cconj (u jx)) ix.
Proof.
  induction s as [|n s IH]; intros [|M Ms] u [|i ix]; cbn [kron map]; try reflexivity.
  change (gsum C0 Cadd) with csum. rewrite Cconj_sum. apply csum_ext. intros j _. rewrite Cconj_mul, IH. reflexivity.
Qed.
Lemma kron_dft_neg s : forall u kx, allpos s -> length kx = length s ->
  Ckron s (map dftm s) u (negs s kx) = Ckron s (map (fun M i j => Cconj (M i j)) (map dftm s)) u kx.
Proof.
  induction s as [|n s IH]; intros u [|k kx] Hp HL; simpl in HL; try lia; cbn [kron map negs]; [reflexivity|].
  inversion Hp; subst. apply gsum_ext. intros j _. rewrite dftm_neg by auto. rewrite IH by (auto; lia). reflexivity.
Qed.
Lemma kron_idft_neg s : forall u ix, allpos s -> length ix = length s ->
  Ckron s (map (fun M i j => Cconj (M i j)) (map idftm s)) (fun jx => u (negs s jx)) ix = Ckron s (map idftm s) u ix.
Proof.
  induction s as [|n s IH]; intros u [|i ix] Hp HL; simpl in HL; try lia; cbn [kron map negs]; [reflexivity|].
  inversion Hp; subst. change (gsum C0 Cadd) with csum.
  rewrite <- (@csum_reflect n 0 (fun j => Cmul (idftm n i j) (Ckron s (map idftm s) (fun jx => u (j :: jx)) ix))) by auto.
  apply csum_ext. intros j _. rewrite (IH (fun jx => u (nneg n j :: jx))) by (auto; lia). rewrite <- idftm_neg by auto.
  replace ((0 - j) mod Z.of_nat n) with (nneg n j) by (unfold nneg; f_equal; lia). reflexivity.
Qed.
Lemma kron_snoc s : forall Ms n M u ix i, length Ms = length s -> length ix = length s ->
  Ckron (s ++ [n]) (Ms ++ [M]) u (ix ++ [i]) = Ckron s Ms (fun jx => csum n (fun j => Cmul (M i j) (u (jx ++ [j])))) ix.
Proof.
  induction s as [|m s IH]; intros [|M0 Ms] n M u [|i0 ix] i HL HI; simpl in HL, HI; try lia; cbn [app kron]; [reflexivity|].
  apply gsum_ext. intros j _. rewrite (IH Ms n M (fun jx => u (j :: jx))) by lia. reflexivity.
Qed.
Lemma negs_app s1 : forall k1 s2 k2, length k1 = length s1 -> negs (s1 ++ s2) (k1 ++ k2) = negs s1 k1 ++ negs s2 k2.
Proof. induction s1 as [|n s IH]; intros [|k k1] s2 k2 H; simpl in H; try lia; cbn [app negs]; [reflexivity|]. rewrite IH by lia. reflexivity. Qed.

(** ** fftn / ifftn as kron *)
Lemma upd_mid {A} (l1 : list A) x y l2 : upd (length l1) x (l1 ++ y :: l2) = l1 ++ x :: l2.
Proof. induction l1 as [|a l1 IH]; cbn [length app upd]; [reflexivity|]. rewrite IH. reflexivity. Qed.
Lemma nth_mid {A} (l1 : list A) y l2 d : nth (length l1) (l1 ++ y :: l2) d = y.
Proof. induction l1 as [|a l1 IH]; cbn [length app nth]; auto. Qed.

Section Fold.
Variables (h : nat -> (Z -> cplx) -> Z -> cplx) (M : nat -> Z -> Z -> cplx).
Hypothesis Hh : forall n line k, h n line k = csum n (fun j => Cmul (M n k j) (line j)).
Lemma fold_axes s2 : forall s1 s3 a, shp a = s1 ++ s2 ++ s3 ->
  shp (fold_left (on_axis h) (seq (length s1) (length s2)) a) = s1 ++ s2 ++ s3 /\
  forall c1 c2 c3, length c1 = length s1 -> length c2 = length s2 ->
    get (fold_left (on_axis h) (seq (length s1) (length s2)) a) (c1 ++ c2 ++ c3) = Ckron s2 (map M s2) (fun jx => get a (c1 ++ jx ++ c3)) c2.
Proof.
  induction s2 as [|n s2 IH]; intros s1 s3 a Ha; cbn [length seq fold_left map].
  - split; [exact Ha|]. intros c1 [|? ?] c3 H1 H2; simpl in H2; [|lia]. reflexivity.
  - assert (S1 : shp (on_axis h a (length s1)) = s1 ++ n :: s2 ++ s3).
    { unfold on_axis, axmap. cbn [shp]. rewrite Ha. cbn [app]. rewrite nth_mid, upd_mid. reflexivity. }
    destruct (IH (s1 ++ [n]) s3 (on_axis h a (length s1))) as (S2 & V2).
    { rewrite S1, <- app_assoc. reflexivity. }
    rewrite app_length, Nat.add_1_r in S2, V2. split; [rewrite S2, <- app_assoc; reflexivity|].
    intros c1 [|k c2] c3 H1 H2; simpl in H2; [lia|].
    replace (c1 ++ (k :: c2) ++ c3) with ((c1 ++ [k]) ++ c2 ++ c3) by (rewrite <- app_assoc; reflexivity).
    rewrite V2; [|rewrite app_length; simpl; lia | lia]. cbn [kron].
    transitivity (Ckron s2 (map M s2) (fun jx => gsum C0 Cadd n (fun j => Cmul (M n k j) (get a (c1 ++ (j :: jx) ++ c3)))) c2).
    + f_equal. apply functional_extensionality. intros jx. unfold on_axis, axmap. cbn [get]. rewrite Ha. cbn [app]. rewrite nth_mid.
      rewrite <- !app_assoc. cbn [app]. rewrite <- H1, nth_mid, Hh. apply csum_ext. intros j _. rewrite upd_mid. reflexivity.
    + rewrite (kron_gsum C_ring s2 (map M s2) n (fun j jx => Cmul (M n k j) (get a (c1 ++ (j :: jx) ++ c3)))) by (rewrite ?map_length; lia).
      apply gsum_ext. intros j _. rewrite (kron_scal C_ring) by (rewrite ?map_length; lia). reflexivity.
Qed.
End Fold.
Lemma fftn_kron a : shp (fftn a) = shp a /\ forall kx, length kx = length (shp a) -> get (fftn a) kx = Ckron (shp a) (map dftm (shp a)) (get a) kx.
Proof.
  destruct (@fold_axes fft1 dftm (fun _ _ _ => eq_refl) (shp a) [] [] a) as (S1 & V1); [rewrite app_nil_r; reflexivity|].
  unfold fftn. cbn [app length] in *. rewrite app_nil_r in S1. split; [exact S1|]. intros kx Hk. specialize (V1 [] kx [] eq_refl Hk). cbn [app] in V1.
  rewrite app_nil_r in V1. rewrite V1. f_equal. apply functional_extensionality. intros jx. rewrite app_nil_r. reflexivity.
Qed.
Lemma ifftn_kron a : shp (ifftn a) = shp a /\ forall kx, length kx = length (shp a) -> get (ifftn a) kx = Ckron (shp a) (map idftm (shp a)) (get a) kx.
Proof.
  destruct (@fold_axes ifft1 idftm (fun _ _ _ => eq_refl) (shp a) [] [] a) as (S1 & V1); [rewrite app_nil_r; reflexivity|].
  unfold ifftn. cbn [app length] in *. rewrite app_nil_r in S1. split; [exact S1|]. intros kx Hk. specialize (V1 [] kx [] eq_refl Hk). cbn [app] in V1.
  rewrite app_nil_r in V1. rewrite V1. f_equal. apply functional_extensionality. intros jx. rewrite app_nil_r. reflexivity.
Qed.
Lemma dfts_inv s : Clinvs s (map idftm s) (map dftm s) /\ Clinvs s (map dftm s) (map idftm s).
Proof. induction s as [|n s (IH1 & IH2)]; [split; exact I|]. split; (split; [apply idft_dft || apply dft_idft | assumption]). Qed.

(** ** Circulant matrices *)
Lemma circ_eigen n (A : Z -> Z -> R) : (0 < n)%nat ->
  (forall i j, 0 <= i < Z.of_nat n -> 0 <= j < Z.of_nat n -> A i j = A ((i - j) mod Z.of_nat n) 0) ->
  eigen C0 Cadd Cmul n (fun i j => RtoC (A i j)) (idftm n) (fun k => fft1 n (fun j => RtoC (A j 0)) k).
Proof.
  intros Hn HA i k Hi Hk. change (gsum C0 Cadd) with csum. unfold fft1. rewrite <- csum_scal.
  rewrite <- (@csum_reflect n i (fun j => Cmul (idftm n i k) (Cmul (dftm n k j) (RtoC (A j 0))))) by auto.
  apply csum_ext. intros j Hj. rewrite HA by auto. set (m := (i - j) mod Z.of_nat n).
  assert (E : idftm n j k = Cmul (idftm n i k) (dftm n k m)).
  { unfold idftm, dftm. transitivity (Cscal (/ INR n) (Cmul (cis (2 * PI * IZR (i * k) / INR n)) (cis (- (2 * PI * IZR (m * k) / INR n))))); [|ceq].
    f_equal. rewrite cis_combine. apply cis_mod; auto.
    apply mod_eq0 with (c := - ((i - j) / Z.of_nat n) * k); auto. unfold m. assert (D : (i - j) mod Z.of_nat n = i - j - Z.of_nat n * ((i - j) / Z.of_nat n)) by (apply Z.mod_eq; lia). rewrite D. ring. }
  rewrite E. ring.
Qed.
(** Eigenvalues of a symmetric circulant matrix are real. *)
Lemma circ_real n (A : Z -> Z -> R) k : (0 < n)%nat ->
  (forall i j, 0 <= i < Z.of_nat n -> 0 <= j < Z.of_nat n -> A i j = A ((i - j) mod Z.of_nat n) 0) ->
  (forall i j, 0 <= i < Z.of_nat n -> 0 <= j < Z.of_nat n -> A i j = A j i) ->
  Cconj (fft1 n (fun j => RtoC (A j 0)) k) = fft1 n (fun j => RtoC (A j 0)) k.
Proof.
  intros Hn HA HS. unfold fft1. rewrite Cconj_sum. rewrite <- (@csum_reflect n 0 (fun j => Cmul (dftm n k j) (RtoC (A j 0)))) by auto.
  apply csum_ext. intros j Hj. rewrite Cconj_mul, Cconj_RtoC. set (m := (0 - j) mod Z.of_nat n).
  assert (Hm : 0 <= m < Z.of_nat n) by (apply Z.mod_pos_bound; lia).
  assert (EA : A m 0 = A j 0). { rewrite (HS j 0) by lia. unfold m. rewrite <- (HA 0 j) by lia. reflexivity. }
  rewrite EA. f_equal. unfold dftm. rewrite Cconj_cis, Ropp_involutive, cis_neg_form.
  apply cis_mod; auto. apply mod_eq0 with (c := - ((0 - j) / Z.of_nat n) * k); auto. unfold m.
  assert (D : (0 - j) mod Z.of_nat n = 0 - j - Z.of_nat n * ((0 - j) / Z.of_nat n)) by (apply Z.mod_eq; lia). rewrite D. ring.
Qed.
Lemma circ_conj n (A : Z -> R) k : (0 < n)%nat -> fft1 n (fun j => RtoC (A j)) (nneg n k) = Cconj (fft1 n (fun j => RtoC (A j)) k).
Proof. intros Hn. unfold fft1. rewrite Cconj_sum. apply csum_ext. intros j _. rewrite dftm_neg, Cconj_mul, Cconj_RtoC by auto. reflexivity. Qed.
