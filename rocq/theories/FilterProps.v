(** * C47: spectral filters and filtered forcings *)
From Verif Require Import Prelude NdArr LinAlg Cplx Grids_model Spec Boundaries_model FD_model PRep FDProofs FDProps FastDiag_model FourierProofs Spectral_model Advection_model Equations_model PressureSolveProps EquationsProps ResizeProps Forcings_model SpecForce.
Set Implicit Arguments.
Local Open Scope Z_scope.

Lemma fftfreq_signed n d k : fftfreq n d k = (IZR (signed_index n k) / (INR n * d))%R.
Proof.
  unfold fftfreq, signed_index. f_equal. f_equal. destruct (Z.ltb_spec k ((Z.of_nat n - 1) / 2 + 1)); destruct (Z.ltb_spec (2 * k) (Z.of_nat n)); auto; exfalso;
   pose proof (Z.div_mod (Z.of_nat n - 1) 2 ltac:(lia)); pose proof (Z.mod_pos_bound (Z.of_nat n - 1) 2 ltac:(lia)); lia.
Qed.
Lemma lsum_nsum_combine (s : list nat) : forall (h : list R) (kx : list Z) (f : nat -> R -> Z -> R), length h = length s -> length kx = length s ->
  fold_right Rplus 0%R (map (fun fi : (Z -> R) * Z => (fst fi (snd fi) ^ 2)%R) (combine (map (fun ns i => f (fst ns) (snd ns) i) (combine s h)) kx)) =
  nsum (length s) (fun a => (f (nth a s 0%nat) (nth a h 0%R) (nth a kx 0%Z)) ^ 2)%R.
Proof.
  induction s as [|n s IH]; intros [|x h] [|k kx] f H1 H2; simpl in H1, H2; try discriminate; [reflexivity|].
  cbn [combine map fold_right fst snd length]. rewrite IH by lia. unfold nsum. cbn [seq map lsum fold_right]. unfold lsum. cbn [fold_right nth]. f_equal.
  f_equal. rewrite <- seq_shift, map_map. reflexivity.
Qed.
Lemma magnitude_spec g kx : wfg g -> length kx = gndim g -> get (angular_frequency_magnitude g) kx = wave_vector_length g kx.
Proof.
  intros Hw HL. unfold angular_frequency_magnitude, wave_vector_length. cbn [get]. f_equal.
  rewrite (@lsum_nsum_combine (gshape g) (gstep g) kx (fun n d i => 2 * PI * fftfreq n d i)%R); [|apply Hw | exact HL].
  apply (@nsum_ext (gndim g)). intros a Ha. rewrite fftfreq_signed. unfold hstep, Rdiv. f_equal. ring.
Qed.
Lemma signed_neg n k : (0 < n)%nat -> 0 <= k < Z.of_nat n -> (IZR (signed_index n (nneg n k)) ^ 2 = IZR (signed_index n k) ^ 2)%R.
Proof.
  intros Hn Hk. assert (signed_index n (nneg n k) = - signed_index n k \/ signed_index n (nneg n k) = signed_index n k) as [-> | ->]; [|rewrite opp_IZR; ring | reflexivity].
  unfold signed_index, nneg. destruct (Z.eq_dec k 0) as [->|Hk0]; [left; rewrite Z.mod_0_l by lia; destruct (2 * 0 <? Z.of_nat n) eqn:E; [reflexivity | apply Z.ltb_ge in E; lia]|].
  replace ((- k) mod Z.of_nat n) with (Z.of_nat n - k) by (apply Z.mod_unique with (q := -1); lia).
  destruct (Z.ltb_spec (2 * (Z.of_nat n - k)) (Z.of_nat n)); destruct (Z.ltb_spec (2 * k) (Z.of_nat n)); lia.
Qed.
Lemma wave_neg g kx : wfg g -> inb (gshape g) kx -> wave_vector_length g (negs (gshape g) kx) = wave_vector_length g kx.
Proof.
  intros Hw Hk. unfold wave_vector_length. f_equal. apply nsum_ext. intros a Ha.
  assert (E : nth a (negs (gshape g) kx) 0 = nneg (nth a (gshape g) 0%nat) (nth a kx 0) /\ (0 < nth a (gshape g) 0%nat)%nat /\ 0 <= nth a kx 0 < Z.of_nat (nth a (gshape g) 0%nat)).
  { assert (Hp : allpos (gshape g)) by apply Hw. clear Hw. unfold gndim in Ha. revert a kx Hk Ha. induction (gshape g) as [|n s IH]; intros a [|k kx] Hk Ha; cbn [length inb] in *; try lia; try tauto.
    inversion Hp; subst. destruct a as [|a]; cbn [negs nth]; [split; [reflexivity | split; [assumption | tauto]]|]. apply IH; auto; [tauto | lia]. }
  destruct E as (E1 & E2 & E3). rewrite E1. pose proof (signed_neg E2 E3) as S.
  set (x := IZR (signed_index (nth a (gshape g) 0%nat) (nneg (nth a (gshape g) 0%nat) (nth a kx 0)))) in *. set (y := IZR (signed_index (nth a (gshape g) 0%nat) (nth a kx 0))) in *. unfold Rdiv. rewrite !Rpow_mult_distr, S. reflexivity.
Qed.

(** a Hermitian-symmetric factor leaves real fields real *)
Lemma symmetric_filter_real s (H : list Z -> R) (a : arr R) (p : arr cplx) : allpos s -> shp a = s -> shp p = s ->
  (forall kx, inb s kx -> H (negs s kx) = H kx) -> (forall kx, inb s kx -> get p kx = Cscal (H kx) (coefficient a kx)) ->
  forall ix, inb s ix -> get (ifftn p) ix = RtoC (re (get (ifftn p) ix)).
Proof.
  intros Hp Sa Sp Hs Hg ix Hix. apply Cconj_fix. pose proof (inb_length _ _ Hix) as HL.
  destruct (ifftn_kron p) as (_ & V). rewrite V by (rewrite Sp; exact HL). rewrite Sp, kron_conj.
  rewrite <- (@kron_idft_neg s (get p) ix Hp HL). apply (kron_ext C0 Cadd Cmul); [rewrite !map_length; reflexivity | | exact Hix].
  intros jx Hjx. assert (Hjn : inb s (negs s jx)) by (apply inb_negs; auto). rewrite !Hg by auto. rewrite Hs by auto.
  unfold coefficient. destruct (fftn_kron (amap RtoC a)) as (_ & W). cbn [shp amap] in W. rewrite Sa in W.
  rewrite !W by (rewrite ?negs_length; exact (inb_length _ _ Hjx)).
  rewrite kron_dft_neg by (auto; exact (inb_length _ _ Hjx)).
  transitivity (Cscal (H jx) (Cconj (Ckron s (map dftm s) (get (amap RtoC a)) jx))); [ceq|]. rewrite kron_conj. f_equal.
  f_equal. apply functional_extensionality. intros lx. cbn [amap get]. apply Cconj_RtoC.
Qed.
Lemma coefficient_zero a : coefficient a (repeat 0 (length (shp a))) = RtoC (total a).
Proof.
  unfold coefficient. destruct (fftn_kron (amap RtoC a)) as (_ & W). rewrite W by (cbn [shp amap]; apply repeat_length). cbn [shp amap]. unfold total.
  change (get (amap RtoC a)) with (fun ix => RtoC (get a ix)).
  generalize (get a) as u. induction (shp a) as [|n s IH]; intros u; [reflexivity|]. cbn [length repeat map kron asum].
  change (gsum C0 Cadd) with csum. transitivity (csum n (fun j => RtoC (asum s (fun ix => u (j :: ix))))).
  - apply csum_ext. intros j _. rewrite (IH (fun ix => u (j :: ix))). unfold dftm. rewrite Z.mul_0_r. replace (- (2 * PI * 0 / INR n))%R with 0%R by (unfold Rdiv; ring). unfold cis. rewrite cos_0, sin_0. ceq.
  - apply Ceq; [rewrite re_csum; reflexivity | rewrite im_csum; cbn [im RtoC]; apply rsum_0].
Qed.
Lemma wave_zero g : wave_vector_length g (repeat 0 (gndim g)) = 0%R.
Proof.
  unfold wave_vector_length. rewrite nsum_zero; [apply sqrt_0|]. intros a Ha. rewrite nth_repeat' by exact Ha. unfold signed_index.
  destruct (Z.ltb_spec (2 * 0) (Z.of_nat (nth a (gshape g) 0%nat))) as [H|H]; [unfold Rdiv; ring|].
  replace (Z.of_nat (nth a (gshape g) 0%nat)) with 0 by lia. simpl. unfold Rdiv. ring.
Qed.

Lemma filter_calc S a g : wfg g -> shp a = gshape g ->
  exists b, spectral_filter S a g = Ok b /\ shp b = gshape g /\ forall kx, inb (gshape g) kx -> coefficient b kx = Cscal (filter_factor S g kx) (coefficient a kx).
Proof.
  intros Hw Sa. unfold spectral_filter, ew. destruct (fftn_kron (amap RtoC a)) as (Sf & _). rewrite Sf. cbn [shp amap]. rewrite Sa.
  change (shp (angular_frequency_magnitude g)) with (gshape g). rewrite shape_eqb_refl. cbn [bind]. eexists; split; [reflexivity|].
  set (p := amap2 _ _ _). assert (Sp : shp p = gshape g) by (unfold p; cbn [amap2 shp]; rewrite Sf; exact Sa).
  assert (Hp : forall kx, inb (gshape g) kx -> get p kx = Cscal (filter_factor S g kx) (coefficient a kx)).
  { intros kx Hk. unfold p. cbn [amap2 get amap]. rewrite magnitude_spec by (auto; exact (inb_length _ _ Hk)). reflexivity. }
  destruct (ifftn_kron p) as (Si & Vi). rewrite Sp in Si, Vi. cbn [amap shp]. split; [exact Si|].
  assert (Hpos : allpos (gshape g)) by apply Hw.
  pose proof (@symmetric_filter_real (gshape g) (filter_factor S g) a p Hpos Sa Sp) as Real. specialize (Real ltac:(intros kx Hk; unfold filter_factor; rewrite !wave_neg by auto; reflexivity) Hp).
  intros kx Hk. pose proof (inb_length _ _ Hk) as HL. unfold coefficient at 1.
  destruct (fftn_kron (amap RtoC (amap re (ifftn p)))) as (_ & W). cbn [amap shp] in W. rewrite Si in W. rewrite W by exact HL.
  rewrite <- Hp by exact Hk. transitivity (Ckron (gshape g) (map dftm (gshape g)) (Ckron (gshape g) (map idftm (gshape g)) (get p)) kx).
  - apply (kron_ext C0 Cadd Cmul); [apply map_length | | exact Hk]. intros jx Hj. cbn [amap get]. rewrite <- Real by exact Hj. apply Vi. exact (inb_length _ _ Hj).
  - apply (kron_inv C_ring); [apply dfts_inv | exact Hk].
Qed.

(* @prop C47 filter_utils.filter with any spectral density, on every grid (any dimension, sizes, steps) and every real array of the grid's shape, returns the real array each of whose Fourier coefficients is the input's times the density at the length of its wave vector, with the mean coefficient set to zero; so dropping the imaginary part loses nothing, and the result sums to zero. *)
Lemma spectral_filter_spec_lem : forall S a g, wfg g -> shp a = gshape g ->
  exists b, spectral_filter S a g = Ok b /\ shp b = gshape g /\
    (forall kx, inb (gshape g) kx -> coefficient b kx = Cscal (filter_factor S g kx) (coefficient a kx)) /\ total b = 0%R.
Proof.
  intros S a g Hw Sa. destruct (@filter_calc S a g Hw Sa) as (b & E & Sb & H). exists b. split; [exact E|]. split; [exact Sb|]. split; [exact H|].
  assert (Hz : inb (gshape g) (repeat 0 (gndim g))).
  { assert (Hp : allpos (gshape g)) by apply Hw. unfold gndim. clear - Hp. induction (gshape g) as [|n s IH]; [exact I|]. inversion Hp; subst. cbn [length repeat inb]. split; [lia | apply IH; auto]. }
  specialize (H _ Hz). pose proof (coefficient_zero b) as Z0. rewrite Sb in Z0. change (length (gshape g)) with (gndim g) in Z0. rewrite Z0 in H.
  unfold filter_factor in H. rewrite wave_zero in H. destruct (Rlt_dec 0 0) as [X|_]; [lra|]. apply (f_equal re) in H. cbn [re RtoC Cscal] in H. lra.
Qed.

(** ** Energy injected by a filtered forcing *)
Definition casum (s : list nat) (f : list Z -> cplx) : cplx := mkC (asum s (fun ix => re (f ix))) (asum s (fun ix => im (f ix))).
Lemma casum_cons n s f : casum (n :: s) f = csum n (fun i => casum s (fun ix => f (i :: ix))).
Proof. apply Ceq; [rewrite re_csum; reflexivity | rewrite im_csum; reflexivity]. Qed.
Lemma casum_ext s f h : (forall ix, inb s ix -> f ix = h ix) -> casum s f = casum s h.
Proof. intros H. apply Ceq; cbn [casum re im]; apply asum_ext; intros ix Hix; rewrite H by exact Hix; reflexivity. Qed.
Lemma casum_mul_l s c f : casum s (fun ix => Cmul c (f ix)) = Cmul c (casum s f).
Proof. apply Ceq; cbn [casum Cmul re im]; rewrite ?asum_minus, ?asum_plus, !asum_scal; ring. Qed.
Lemma casum_csum s n f : casum s (fun ix => csum n (fun j => f j ix)) = csum n (fun j => casum s (f j)).
Proof.
  induction n as [|n IH]; [apply Ceq; cbn; apply asum_0|]. rewrite csum_S, <- IH. apply Ceq; cbn [casum re im Cadd]; rewrite <- asum_plus; apply asum_ext; intros; rewrite csum_S; reflexivity.
Qed.
Lemma csum_swap n m f : csum n (fun i => csum m (fun j => f i j)) = csum m (fun j => csum n (fun i => f i j)).
Proof. apply (gsum_swap C_ring). Qed.
Lemma kron_transpose s : forall Ms u p, length Ms = length s ->
  casum s (fun ix => Cmul (u ix) (Ckron s Ms p ix)) = casum s (fun kx => Cmul (Ckron s (map (fun M i j => M j i) Ms) u kx) (p kx)).
Proof.
  induction s as [|n s IH]; intros [|M Ms] u p HL; simpl in HL; try discriminate; [reflexivity|].
  rewrite !casum_cons. cbn [kron map]. change (gsum C0 Cadd) with csum.
  transitivity (csum n (fun i => csum n (fun j => Cmul (M i j) (casum s (fun kx => Cmul (Ckron s (map (fun M i j => M j i) Ms) (fun jx => u (i :: jx)) kx) (p (j :: kx))))))).
  - apply csum_ext. intros i _. rewrite (@casum_ext s _ (fun ix => csum n (fun j => Cmul (M i j) (Cmul (u (i :: ix)) (Ckron s Ms (fun jx => p (j :: jx)) ix))))).
    + rewrite casum_csum. apply csum_ext. intros j _. rewrite casum_mul_l. f_equal. apply (IH Ms (fun ix => u (i :: ix)) (fun jx => p (j :: jx))). lia.
    + intros ix _. rewrite <- csum_scal. apply csum_ext. intros j _. ceq.
  - rewrite csum_swap. apply csum_ext. intros j _. transitivity (casum s (fun kx => csum n (fun i => Cmul (M i j) (Cmul (Ckron s (map (fun M i j => M j i) Ms) (fun jx => u (i :: jx)) kx) (p (j :: kx)))))).
    + rewrite casum_csum. apply csum_ext. intros i _. rewrite casum_mul_l. reflexivity.
    + apply casum_ext. intros kx _. rewrite <- (gsum_scal_r C_ring). apply csum_ext. intros i _. ceq.
Qed.
Lemma idft_transpose s : forall (u : list Z -> R) kx, allpos s -> length kx = length s ->
  Ckron s (map (fun M i j => M j i) (map idftm s)) (fun jx => RtoC (u jx)) kx = Cscal (/ INR (asize s)) (Cconj (Ckron s (map dftm s) (fun jx => RtoC (u jx)) kx)).
Proof.
  induction s as [|n s IH]; intros u [|k kx] Hp HL; simpl in HL; try discriminate; cbn [map kron]; [change (asize []) with 1%nat | change (asize (n :: s)) with (n * asize s)%nat].
  - change (INR 1) with 1%R. rewrite Rinv_1. ceq.
  - inversion Hp; subst. change (gsum C0 Cadd) with csum. rewrite Cconj_sum.
    transitivity (Cmul (RtoC (/ INR (n * asize s))) (csum n (fun j => Cconj (Cmul (dftm n k j) (Ckron s (map dftm s) (fun jx => RtoC (u (j :: jx))) kx))))); [|ceq].
    rewrite <- csum_scal. apply csum_ext. intros j _. rewrite (IH (fun jx => u (j :: jx))) by (auto; lia). rewrite Cconj_mul.
    assert (E : Cconj (dftm n k j) = cis (2 * PI * IZR (j * k) / INR n)) by (unfold dftm; rewrite Cconj_cis, Ropp_involutive; reflexivity). rewrite E. unfold idftm.
    rewrite mult_INR, Rinv_mult. ceq.
Qed.

(* @prop C47 The work done by a filtered forcing, sum(u * filter(u)), is exactly (1/N) times the sum over Fourier modes of density times |coefficient|^2 (mean mode excluded): a nonnegative density never takes energy out and a nonpositive one never puts it in. *)
Lemma spectral_filter_energy_lem : forall S a g, wfg g -> shp a = gshape g ->
  exists b, spectral_filter S a g = Ok b /\
    (asum (gshape g) (fun ix => get a ix * get b ix) = / INR (asize (gshape g)) * asum (gshape g) (fun kx => filter_factor S g kx * Cn2 (coefficient a kx)))%R /\
    ((forall k, (0 < k)%R -> (0 <= S k)%R) -> (0 <= asum (gshape g) (fun ix => get a ix * get b ix))%R) /\
    ((forall k, (0 < k)%R -> (S k <= 0)%R) -> (asum (gshape g) (fun ix => get a ix * get b ix) <= 0)%R).
Proof.
  intros S a g Hw Sa. destruct (@filter_calc S a g Hw Sa) as (b & E & Sb & H). exists b. split; [exact E|]. assert (Hp : allpos (gshape g)) by apply Hw.
  set (s := gshape g) in *.
  assert (Eq : (asum s (fun ix => get a ix * get b ix) = / INR (asize s) * asum s (fun kx => filter_factor S g kx * Cn2 (coefficient a kx)))%R).
  { assert (Eb : forall ix, inb s ix -> RtoC (get b ix) = Ckron s (map idftm s) (fun kx => Cscal (filter_factor S g kx) (coefficient a kx)) ix).
    { intros ix Hix. destruct (fftn_kron (amap RtoC b)) as (_ & W). cbn [amap shp] in W. rewrite Sb in W.
      rewrite <- (kron_inv C_ring s (map idftm s) (map dftm s) (fun jx => RtoC (get b jx)) ix (proj1 (dfts_inv s)) Hix).
      apply (kron_ext C0 Cadd Cmul); [apply map_length | | exact Hix]. intros kx Hk. rewrite <- H by exact Hk. unfold coefficient. rewrite W by exact (inb_length _ _ Hk). reflexivity. }
    pose proof (@kron_transpose s (map idftm s) (fun ix => RtoC (get a ix)) (fun kx => Cscal (filter_factor S g kx) (coefficient a kx)) (map_length _ _)) as T.
    apply (f_equal re) in T. cbn [casum re] in T.
    transitivity (asum s (fun ix => re (Cmul (RtoC (get a ix)) (Ckron s (map idftm s) (fun kx => Cscal (filter_factor S g kx) (coefficient a kx)) ix)))).
    - apply asum_ext. intros ix Hix. rewrite <- Eb by exact Hix. cbn. ring.
    - rewrite T, <- asum_scal. apply asum_ext. intros kx Hk. rewrite idft_transpose by (auto; exact (inb_length _ _ Hk)).
      destruct (fftn_kron (amap RtoC a)) as (_ & W). cbn [amap shp] in W. rewrite Sa in W. unfold coefficient. rewrite W by exact (inb_length _ _ Hk).
      change (get (amap RtoC a)) with (fun jx => RtoC (get a jx)). fold s. set (z := Ckron s (map dftm s) (fun jx => RtoC (get a jx)) kx). unfold Cn2. cbn [re im Cmul Cscal Cconj]. ring. }
  split; [exact Eq|].
  assert (Hn : (0 < / INR (asize s))%R) by (apply Rinv_0_lt_compat, lt_0_INR, asize_pos; exact Hp).
  split; intros HS; rewrite Eq.
  - apply Rmult_le_pos; [lra|]. apply asum_nonneg. intros kx _. apply Rmult_le_pos; [|unfold Cn2; nra]. unfold filter_factor. destruct (Rlt_dec 0 (wave_vector_length g kx)); [auto | lra].
  - assert (N : (0 <= asum s (fun kx => - (filter_factor S g kx * Cn2 (coefficient a kx))))%R).
    { apply asum_nonneg. intros kx _. replace (- (filter_factor S g kx * Cn2 (coefficient a kx)))%R with (- filter_factor S g kx * Cn2 (coefficient a kx))%R by ring. apply Rmult_le_pos; [|unfold Cn2; nra].
      unfold filter_factor. destruct (Rlt_dec 0 (wave_vector_length g kx)) as [X|X]; [specialize (HS _ X); lra | lra]. }
    rewrite (@asum_ext _ _ (fun kx => (-1) * (filter_factor S g kx * Cn2 (coefficient a kx)))%R) in N by (intros; ring). rewrite asum_scal in N. nra.
Qed.

(* @prop C47 filtered_forcing returns, for each component of any velocity on the grid, a field at the same offset and grid whose Fourier coefficients are the component's times the density at their wave vector's length (mean excluded), so it never changes the mean velocity; filtered_linear_forcing multiplies exactly the modes with lower <= |k|/(2 pi) <= upper by its coefficient and the others by zero. *)
Lemma filtered_forcing_spec_lem : forall S g v, wfg g -> (forall u, In u v -> ggrid (garray u) = g /\ shp (gdata (garray u)) = gshape g) ->
  exists l, filtered_forcing S g v = Ok l /\ length l = length v /\
    (forall i u w, nth_error v i = Some u -> nth_error l i = Some w ->
      ggrid w = g /\ goff w = goff (garray u) /\ shp (gdata w) = gshape g /\ total (gdata w) = 0%R /\
      forall kx, inb (gshape g) kx -> coefficient (gdata w) kx = Cscal (filter_factor S g kx) (coefficient (gdata (garray u)) kx)) /\
    forall lo hi c, (forall k, S k = if Rle_dec (2 * PI * lo) k then if Rle_dec k (2 * PI * hi) then c else 0%R else 0%R) -> filtered_linear_forcing lo hi c g v = Ok l.
Proof.
  intros S g v Hw Hv.
  destruct (@mapM_enum gvar garr (fun iu => applied (fun l => match l with [a] => spectral_filter S a g | _ => Err EType end) [OGA (garray (snd iu))])
    (fun i w => ggrid w = g /\ goff w = goff (garray (nth i v dgv)) /\ shp (gdata w) = gshape g /\ total (gdata w) = 0%R /\
      forall kx, inb (gshape g) kx -> coefficient (gdata w) kx = Cscal (filter_factor S g kx) (coefficient (gdata (garray (nth i v dgv))) kx)) v dgv) as (l & E & HL & Hl).
  { intros i Hi. cbn [snd]. destruct (Hv (nth i v dgv) (nth_In _ _ Hi)) as (Hg & Sh). destruct (@spectral_filter_spec_lem S (gdata (garray (nth i v dgv))) g Hw Sh) as (b & Eb & Sb & Cb & Tb).
    unfold applied. cbn [existsb is_gv orb gas map raw consistent_offset consistent_grid forallb]. cbn [bind]. rewrite Eb. cbn [bind]. eexists; split; [reflexivity|]. cbn [ggrid goff gdata]. auto. }
  rewrite (mapM_enum_snd (fun u => applied (fun l => match l with [a] => spectral_filter S a g | _ => Err EType end) [OGA (garray u)]) v) in E.
  exists l. split; [exact E|]. split; [exact HL|]. split.
  - intros i u w Hu Hwi. assert (Hi : (i < length v)%nat) by (apply nth_error_Some; congruence). specialize (Hl i dga Hi). rewrite (nth_error_nth _ _ _ Hu), (nth_error_nth _ _ _ Hwi) in Hl. exact Hl.
  - intros lo hi c HS. unfold filtered_linear_forcing. rewrite <- E. change (mapM _ v) with (filtered_forcing S g v) at 1. f_equal. apply functional_extensionality. intros k. symmetry. apply HS.
Qed.

(** ** examples *)
Lemma p34_wfg : wfg p34g.
Proof. repeat constructor; (lia || lra). Qed.
Lemma p34_factor : filter_factor (fun k => k ^ 2)%R p34g [1; 3] = ((2 * PI / 3) ^ 2 + PI ^ 2)%R /\ filter_factor (fun k => k ^ 2)%R p34g [0; 0] = 0%R.
Proof.
  split.
  - assert (E : wave_vector_length p34g [1; 3] = sqrt ((2 * PI / 3) ^ 2 + PI ^ 2)).
    { unfold wave_vector_length. f_equal. unfold nsum, hstep, signed_index. cbn. field. }
    unfold filter_factor. rewrite E. assert (P : (0 < (2 * PI / 3) ^ 2 + PI ^ 2)%R) by (pose proof PI_RGT_0; nra).
    destruct (Rlt_dec 0 (sqrt ((2 * PI / 3) ^ 2 + PI ^ 2))) as [_|N]; [apply pow2_sqrt; lra | exfalso; apply N; apply sqrt_lt_R0; exact P].
  - unfold filter_factor. change [0; 0] with (repeat 0 (gndim p34g)). rewrite (wave_zero p34g). destruct (Rlt_dec 0 0); [lra | reflexivity].
Qed.
(* @ex *)
Lemma spectral_filter_spec_ex_lem : let a := mkarr [3%nat; 4%nat] (fun ix => if nth 0 ix 0 =? 0 then 1%R else 0%R) in
  wfg p34g /\ shp a = gshape p34g /\ total a = 4%R /\ filter_factor (fun k => k ^ 2)%R p34g [1; 3] = ((2 * PI / 3) ^ 2 + PI ^ 2)%R /\ filter_factor (fun k => k ^ 2)%R p34g [0; 0] = 0%R.
Proof.
  cbv zeta. split; [exact p34_wfg|]. split; [reflexivity|]. split; [unfold total; cbn; lra|]. exact p34_factor.
Qed.
(* @ex *)
Lemma spectral_filter_energy_ex_lem : wfg p34g /\ shp (gdata (garray (nth 0 p34v dgv))) = gshape p34g /\ (forall k, (0 < k)%R -> (0 <= k ^ 2)%R) /\ (forall k, (0 < k)%R -> (- k <= 0)%R).
Proof. split; [exact p34_wfg|]. split; [reflexivity|]. split; intros k Hk; nra. Qed.
(* @ex *)
Lemma filtered_forcing_spec_ex_lem : wfg p34g /\ (forall u, In u p34v -> ggrid (garray u) = p34g /\ shp (gdata (garray u)) = gshape p34g) /\ length p34v = 2%nat.
Proof. split; [exact p34_wfg|]. split; [|reflexivity]. intros u [<- | [<- | []]]; split; reflexivity. Qed.
