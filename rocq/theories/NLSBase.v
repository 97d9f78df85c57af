(** * The nonlinear Schroedinger equation as an embedding of its modes into a (finer) periodic grid *)
From Verif Require Import Prelude NdArr LinAlg Cplx Grids_model FastDiag_model ArrayUtils_model FourierProofs FourierLine Spectral_model SpectralProps SpectralUtilProps SpectralPadProps FourierShift.
Set Implicit Arguments.
Local Open Scope Z_scope.

Definition pad2 (q : nat) (U : Z -> cplx) (K : Z) : cplx :=
  if K <? Z.of_nat q then U K else if 3 * Z.of_nat q <=? K then U (K - 2 * Z.of_nat q) else C0.
Definition place2 (q : nat) (k : Z) : Z := if k <? Z.of_nat q then k else k + 2 * Z.of_nat q.
Lemma padded_ifft_2x_get U q : (1 <= q)%nat -> shp U = [(2 * q)%nat] ->
  exists u, padded_ifft_2x U = Ok u /\ shp u = [(4 * q)%nat] /\ forall i, get u [i] = Cscal 2 (ifft1 (4 * q) (pad2 q (fun k => get U [k])) i).
Proof.
  intros Hq HU. unfold padded_ifft_2x. rewrite HU. cbv zeta. assert (Ed : (2 * q / 2 = q)%nat) by (rewrite Nat.mul_comm, Nat.div_mul; lia). rewrite !Ed. replace (2 * q + 2 * q)%nat with (4 * q)%nat by lia.
  replace (4 * q =? 0)%nat with false by (symmetry; apply Nat.eqb_neq; lia). set (sm := mkarr [(4 * q)%nat] _). destruct (@ifftn1 (ifftshift sm) (4 * q) eq_refl) as [S1 G1].
  eexists. split; [reflexivity|]. split; [exact S1|]. intros i. cbn [get amap]. rewrite G1. f_equal. apply ifft1_ext. intros K HK.
  unfold ifftshift, sm, fftshift. cbn [get nth shp]. rewrite HU. cbn [nth]. rewrite Ed. replace (4 * q / 2)%nat with (2 * q)%nat by (apply Nat.div_unique with (r := 0%nat); lia).
  unfold pad2. destruct (Z.ltb_spec K (Z.of_nat q)).
  - rewrite (Z.mod_small (K + Z.of_nat (2 * q))) by lia. replace (0 <=? K + Z.of_nat (2 * q) - Z.of_nat q) with true by (symmetry; apply Z.leb_le; lia). replace (K + Z.of_nat (2 * q) - Z.of_nat q <? Z.of_nat (2 * q)) with true by (symmetry; apply Z.ltb_lt; lia). cbn [andb]. f_equal. f_equal. replace (K + Z.of_nat (2 * q) - Z.of_nat q - Z.of_nat q) with K by lia. apply Z.mod_small. lia.
  - destruct (Z.leb_spec (3 * Z.of_nat q) K).
    + replace ((K + Z.of_nat (2 * q)) mod Z.of_nat (4 * q)) with (K - 2 * Z.of_nat q) by (apply Z.mod_unique with (q := 1); lia). replace (0 <=? K - 2 * Z.of_nat q - Z.of_nat q) with true by (symmetry; apply Z.leb_le; lia). replace (K - 2 * Z.of_nat q - Z.of_nat q <? Z.of_nat (2 * q)) with true by (symmetry; apply Z.ltb_lt; lia). cbn [andb]. f_equal. f_equal. symmetry. apply Z.mod_unique with (q := -1); lia.
    + destruct (Z_lt_ge_dec K (2 * Z.of_nat q)).
      * rewrite (Z.mod_small (K + Z.of_nat (2 * q))) by lia. replace (K + Z.of_nat (2 * q) - Z.of_nat q <? Z.of_nat (2 * q)) with false by (symmetry; apply Z.ltb_ge; lia). rewrite andb_false_r. reflexivity.
      * replace ((K + Z.of_nat (2 * q)) mod Z.of_nat (4 * q)) with (K - 2 * Z.of_nat q) by (apply Z.mod_unique with (q := 1); lia). replace (0 <=? K - 2 * Z.of_nat q - Z.of_nat q) with false by (symmetry; apply Z.leb_gt; lia). reflexivity.
Qed.
Lemma truncated_fft_2x_get u q : (1 <= q)%nat -> shp u = [(4 * q)%nat] ->
  exists V, truncated_fft_2x u = Ok V /\ shp V = [(2 * q)%nat] /\ forall k, 0 <= k < 2 * Z.of_nat q -> get V [k] = Cscal (/ 2) (fft1 (4 * q) (fun j => get u [j]) (place2 q k)).
Proof.
  intros Hq Su. unfold truncated_fft_2x. rewrite Su. replace (4 * q =? 0)%nat with false by (symmetry; apply Nat.eqb_neq; lia). cbv zeta. destruct (@fftn1 u (4 * q) Su) as [S2 G2].
  assert (Ef : (Z.of_nat (4 * q) + 1) / 2 = 2 * Z.of_nat q) by (symmetry; apply Z.div_unique with (r := 1); lia). rewrite Ef.
  assert (E1 : 2 * Z.of_nat q / 2 = Z.of_nat q) by (symmetry; apply Z.div_unique with (r := 0); lia). assert (E2 : (- (2 * Z.of_nat q) + 1) / 2 = - Z.of_nat q) by (symmetry; apply Z.div_unique with (r := 1); lia). rewrite E1, E2.
  assert (Es : slice_start (4 * q) (Some (Z.of_nat q)) = Z.of_nat q) by (unfold slice_start, clamp_bound; zb; lia).
  assert (Ec : slice_count (4 * q) (Some (Z.of_nat q)) (Some (- Z.of_nat q)) 1 = (2 * q)%nat) by (unfold slice_count; rewrite Es, Z.div_1_r; unfold slice_stop, clamp_bound; destruct (Z.ltb_spec (- Z.of_nat q) 0); lia).
  eexists. split; [reflexivity|]. unfold ifftshift, slice1, fftshift. cbn [amap shp get nth]. rewrite S2. cbn [nth]. rewrite Ec. split; [reflexivity|]. intros k Hk. rewrite Es. f_equal. rewrite G2. f_equal.
  replace (2 * q / 2)%nat with q by (symmetry; rewrite Nat.mul_comm, Nat.div_mul; lia). replace (4 * q / 2)%nat with (2 * q)%nat by (apply Nat.div_unique with (r := 0%nat); lia).
  unfold place2. destruct (Z.ltb_spec k (Z.of_nat q)).
  - rewrite (Z.mod_small (k + Z.of_nat q)) by lia. replace (Z.of_nat q + (k + Z.of_nat q) - Z.of_nat (2 * q)) with k by lia. apply Z.mod_small. lia.
  - replace ((k + Z.of_nat q) mod Z.of_nat (2 * q)) with (k - Z.of_nat q) by (apply Z.mod_unique with (q := 1); lia). symmetry. apply Z.mod_unique with (q := -1); lia.
Qed.

(** An embedding of the [n] modes into the modes of a grid of [M = t n] points. *)
Record embedding (n M : nat) (t : Z) (E : (Z -> cplx) -> Z -> cplx) (e : Z -> Z) : Prop := mkemb {
  emb_pos : (0 < M)%nat;
  emb_mult : Z.of_nat M = t * Z.of_nat n;
  emb_sum : forall X Y, csum n (fun k => Cmul (X k) (Y (e k))) = csum M (fun K => Cmul (E X K) (Y K));
  emb_map : forall (h : cplx -> cplx) X K, h C0 = C0 -> E (fun k => h (X k)) K = h (E X K);
  emb_add : forall X Y K, E (fun k => Cadd (X k) (Y k)) K = Cadd (E X K) (E Y K);
  emb_ext : forall X Y K, 0 <= K < Z.of_nat M -> (forall k, 0 <= k < Z.of_nat n -> X k = Y k) -> E X K = E Y K;
  emb_phase : forall s X K, E (fun k => Cmul (phase n s k) (X k)) K = Cmul (phase M (t * s) K) (E X K);
  emb_place : forall s k, phase M (t * s) (e k) = phase n s k
}.
Lemma embed_id n : (0 < n)%nat -> embedding n n 1 (fun X => X) (fun k => k).
Proof.
  intros Hn. constructor; intros; try reflexivity; try assumption; try lia.
  - apply H0. exact H.
  - rewrite Z.mul_1_l. reflexivity.
  - rewrite Z.mul_1_l. reflexivity.
Qed.
Lemma phase_double q s K : phase (4 * q) (2 * s) K = phase (2 * q) s K.
Proof.
  unfold phase. f_equal. replace (K * (2 * s)) with (2 * (K * s)) by ring. rewrite mult_IZR. replace (INR (4 * q)) with (2 * INR (2 * q))%R by (rewrite !mult_INR; cbn; ring).
  destruct (Req_dec (INR (2 * q)) 0) as [E|E]; [rewrite E, Rmult_0_r; unfold Rdiv; rewrite Rinv_0; ring | field; exact E].
Qed.
Lemma embed_pad q : (1 <= q)%nat -> embedding (2 * q) (4 * q) 2 (pad2 q) (place2 q).
Proof.
  intros Hq. constructor.
  - lia.
  - lia.
  - intros X Y. replace (2 * q)%nat with (q + q)%nat at 1 by lia. rewrite csum_split. replace (4 * q)%nat with (q + (2 * q + q))%nat by lia. rewrite (@csum_split q (2 * q + q)), (@csum_split (2 * q) q).
    rewrite (@csum_zero (2 * q)).
    2:{ intros i Hi. unfold pad2. zb; try lia. ceq. }
    transitivity (Cadd (csum q (fun k => Cmul (X k) (Y (place2 q k)))) (Cadd C0 (csum q (fun i => Cmul (X (i + Z.of_nat q)) (Y (place2 q (i + Z.of_nat q))))))); [ceq|]. f_equal; [|f_equal]; apply csum_ext; intros i Hi; unfold pad2, place2; zb; try lia; try reflexivity.
    f_equal; f_equal; lia.
  - intros h X K H0. unfold pad2. zb; congruence.
  - intros X Y K. unfold pad2. zb; try reflexivity. ceq.
  - intros X Y K HK H. unfold pad2. zb; try reflexivity; apply H; lia.
  - intros s X K. unfold pad2. rewrite phase_double. zb; try reflexivity; try ceq. f_equal. apply phase_mod; [lia|]. replace (K - 2 * Z.of_nat q - K) with (-1 * Z.of_nat (2 * q)) by lia. apply Z.mod_mul. lia.
  - intros s k. rewrite phase_double. apply phase_mod; [lia|]. unfold place2. zb; [rewrite Z.sub_diag; reflexivity|]. replace (k + 2 * Z.of_nat q - k) with (1 * Z.of_nat (2 * q)) by lia. apply Z.mod_mul. lia.
Qed.
(** The explicit terms through an embedding. *)
Definition cubic (psi : Z -> cplx) (j : Z) : cplx := Cscal (Cn2 (psi j)) (Cmul Ci (psi j)).
Definition nls_grid_values (M : nat) (b : R) (E : (Z -> cplx) -> Z -> cplx) (U : Z -> cplx) (j : Z) : cplx := Cscal b (ifft1 M (E U) j).
Lemma Cabs_sq z : (Cabs z ^ 2)%R = Cn2 z.
Proof. unfold Cabs. cbn [pow]. rewrite Rmult_1_r. apply sqrt_sqrt. apply Cn2_pos. Qed.
Definition nls_transform (smooth : bool) := if smooth then padded_ifft_2x else plain_ifft.
Lemma nls_form g q h (smooth : bool) : (1 <= q)%nat -> grid1 g (2 * q) h ->
  exists M t E e, embedding (2 * q) M t E e /\ (t = if smooth then 2 else 1) /\
    forall U, shp U = [(2 * q)%nat] -> exists psi N,
      nls_transform smooth U = Ok psi /\ shp psi = [M] /\ (forall j, get psi [j] = nls_grid_values M (IZR t) E (fun k => get U [k]) j) /\
      nls_explicit_terms g smooth U = Ok N /\ shp N = [(2 * q)%nat] /\
      forall k, 0 <= k < Z.of_nat (2 * q) -> get N [k] = Cscal (- (/ 2 / IZR t)) (fft1 M (cubic (nls_grid_values M (IZR t) E (fun k => get U [k]))) (e k)).
Proof.
  intros Hq (Hs & Ht & Hn & Hh). assert (EG : exists z, nls_two_pi_i_k g = Ok z).
  { unfold nls_two_pi_i_k, fft_axes. rewrite Hs, Ht. cbn [combine map fst snd]. replace ((2 * q) mod 2)%nat with 0%nat by (rewrite Nat.mul_comm, Nat.mod_mul; lia). cbn [Nat.eqb]. eexists. reflexivity. }
  destruct EG as [z EG]. destruct smooth.
  - exists (4 * q)%nat, 2, (pad2 q), (place2 q). split; [apply embed_pad; exact Hq|]. split; [reflexivity|]. intros U HU. destruct (padded_ifft_2x_get _ Hq HU) as (u & Eu & Su & Gu).
    unfold nls_explicit_terms, nls_transform. rewrite EG, Eu. cbn [bind]. set (w := amap _ u). destruct (@truncated_fft_2x_get w q Hq Su) as (V & EV & SV & GV). rewrite EV. cbn [bind].
    exists u. eexists. split; [reflexivity|]. split; [exact Su|]. split; [exact Gu|]. split; [reflexivity|]. split; [exact SV|]. intros k Hk. cbn [get amap]. rewrite GV by lia.
    rewrite (@fft1_ext (4 * q) (fun j => get w [j]) (cubic (nls_grid_values (4 * q) 2 (pad2 q) (fun k => get U [k])))).
    + set (y := fft1 _ _ _). apply Ceq; cbn; field.
    + intros j _. unfold w. cbn [get amap]. rewrite Gu, Cabs_sq. reflexivity.
  - exists (2 * q)%nat, 1, (fun X => X), (fun k => k). split; [apply embed_id; lia|]. split; [reflexivity|]. intros U HU. unfold nls_explicit_terms, nls_transform. rewrite EG. cbn [bind]. unfold plain_ifft, plain_fft. rewrite HU. cbn [nth]. replace (2 * q =? 0)%nat with false by (symmetry; apply Nat.eqb_neq; lia). cbn [bind].
    destruct (@ifftn1 U _ HU) as [Su Gu]. cbn [amap shp]. rewrite Su. cbn [nth]. replace (2 * q =? 0)%nat with false by (symmetry; apply Nat.eqb_neq; lia). cbn [bind].
    match goal with |- context [fftn ?x] => set (w := x) end. destruct (@fftn1 w (2 * q) Su) as [SV GV].
    assert (Gv : forall j, get (ifftn U) [j] = nls_grid_values (2 * q) 1 (fun X => X) (fun k => get U [k]) j) by (intros j; rewrite Gu; unfold nls_grid_values; ceq).
    exists (ifftn U). eexists. split; [reflexivity|]. split; [exact Su|]. split; [exact Gv|]. split; [reflexivity|]. split; [exact SV|]. intros k Hk. cbn [get amap]. rewrite GV.
    rewrite (@fft1_ext (2 * q) (fun j => get w [j]) (cubic (nls_grid_values (2 * q) 1 (fun X => X) (fun k => get U [k])))).
    + set (y := fft1 _ _ _). apply Ceq; cbn; field.
    + intros j _. unfold w. cbn [get amap]. rewrite Gv, Cabs_sq. reflexivity.
Qed.
