(** * C41, C58: zero padding and truncation; exactness of the dealiased products of KuramotoSivashinsky and Burgers *)
From Verif Require Import Prelude NdArr LinAlg Cplx Grids_model FastDiag_model ArrayUtils_model FourierProofs Spectral_model FourierLine SpectralProps SpectralUtilProps.
Set Implicit Arguments.
Local Open Scope Z_scope.

(** ** Round trip *)
Lemma herm_padded n X k : (2 <= n)%nat -> 0 <= k <= Z.of_nat n -> hermitian_ext (2 * (3 * n / 2 - 1)) (padded n X) k =
  if k =? 0 then RtoC (re (X 0)) else if k <? Z.of_nat n then X k else C0.
Proof.
  intros Hn Hk. unfold hermitian_ext, padded. destruct (padded_size Hn) as [H1 H2].
  assert (HM : Z.of_nat (2 * (3 * n / 2 - 1)) = 2 * (Z.of_nat (3 * n / 2) - 1)) by lia. rewrite HM.
  destruct (Z.eqb_spec k 0); [subst; replace (0 <? Z.of_nat n) with true by (symmetry; apply Z.ltb_lt; lia); reflexivity|].
  destruct (Z.ltb_spec k (Z.of_nat n)).
  - assert (2 * k < 2 * (Z.of_nat (3 * n / 2) - 1)) by lia. destruct (Z.ltb_spec (2 * k) (2 * (Z.of_nat (3 * n / 2) - 1))); [reflexivity | lia].
  - destruct (Z.ltb_spec (2 * k) (2 * (Z.of_nat (3 * n / 2) - 1))); [reflexivity|].
    destruct (Z.eqb_spec (2 * k) (2 * (Z.of_nat (3 * n / 2) - 1))); [ceq | lia].
Qed.
(* @prop C41 For a spectrum of n >= 2 modes, truncated_rfft(padded_irfft(U)) returns U itself (the mean mode without its imaginary part, which no real field has) when n is odd; when n is even the result has one entry more than U, an additional zero. *)
Lemma pad_truncate_round_trip_lem : forall (U : arr cplx) (n : nat), shp U = [n] -> (2 <= n)%nat ->
  exists u V, padded_irfft U = Ok u /\ truncated_rfft u = Ok V /\ shp V = [if Nat.odd n then n else S n] /\
    get V [0] = RtoC (re (get U [0])) /\ (forall k, 0 < k < Z.of_nat n -> get V [k] = get U [k]) /\ get V [Z.of_nat n] = C0.
Proof.
  intros U n HU Hn. destruct (@padded_irfft_spec U n HU Hn) as (u & Eu & Su & Gu). destruct (padded_size Hn) as [H1 H2].
  destruct (@truncated_rfft_spec u _ Su) as (V & EV & SV & GV); [lia|].
  exists u, V. split; [exact Eu|]. split; [exact EV|].
  assert (G : forall k, 0 <= k <= Z.of_nat n -> get V [k] = if k =? 0 then RtoC (re (get U [0])) else if k <? Z.of_nat n then get U [k] else C0).
  { intros k Hk. rewrite GV. transitivity (Cscal (2 / 3) (fft1 (2 * (3 * n / 2 - 1)) (fun j => RtoC (3 / 2 * re (irfft1 (2 * (3 * n / 2 - 1)) (padded n (fun k => get U [k])) j))) k)).
    - f_equal. apply fft1_ext. intros j _. rewrite Gu. reflexivity.
    - rewrite fft1_scal, fft1_irfft1 by lia. rewrite herm_padded by lia. destruct (k =? 0); [|destruct (k <? Z.of_nat n)]; apply Ceq; cbn; field. }
  split; [|split; [|split]].
  - rewrite SV. f_equal. replace (2 * (3 * n / 2 - 1) / 2)%nat with (3 * n / 2 - 1)%nat by (apply Nat.div_unique with (r := 0%nat); lia).
    replace (3 * n / 2 - 1 + 1)%nat with (3 * n / 2)%nat by lia.
    destruct (Nat.odd n) eqn:E.
    + apply Nat.odd_spec in E. destruct E as [q ->]. replace (3 * (2 * q + 1) / 2)%nat with (3 * q + 1)%nat by (apply Nat.div_unique with (r := 1%nat); lia).
      replace (2 * (3 * q + 1) / 3)%nat with (2 * q)%nat; [lia|]. apply Nat.div_unique with (r := 2%nat); lia.
    + assert (E' : Nat.even n = true) by (rewrite <- Nat.negb_odd, E; reflexivity). apply Nat.even_spec in E'. destruct E' as [q ->].
      replace (3 * (2 * q) / 2)%nat with (3 * q)%nat by (apply Nat.div_unique with (r := 0%nat); lia).
      replace (2 * (3 * q) / 3)%nat with (2 * q)%nat; [lia|]. apply Nat.div_unique with (r := 0%nat); lia.
  - rewrite G by lia. reflexivity.
  - intros k Hk. rewrite G by lia. destruct (Z.eqb_spec k 0); [lia|]. destruct (Z.ltb_spec k (Z.of_nat n)); [reflexivity | lia].
  - rewrite G by lia. destruct (Z.eqb_spec (Z.of_nat n) 0); [lia|]. destruct (Z.ltb_spec (Z.of_nat n) (Z.of_nat n)); [lia | reflexivity].
Qed.
(* @ex *)
Lemma pad_truncate_round_trip_ex_lem : shp (afull [5%nat] C1) = [5%nat] /\ Nat.odd 5 = true /\ Nat.odd 4 = false.
Proof. repeat split. Qed.
(* @prop C41 Expected: truncated_rfft undoes padded_irfft for every spectrum. Refuted: with an even number of modes the result has a different shape, and so the dealiased KuramotoSivashinsky.explicit_terms (smooth=True, the default) fails on every spectrum of every grid whose number N of points is 2 modulo 4, while it works with smooth=False. *)
Lemma smooth_ks_needs_multiple_of_four_refuted_lem : forall (g : grid) (q : nat) (h : R) (U : arr cplx),
  grid1 g (4 * q + 2) h -> shp U = [(2 * q + 2)%nat] ->
  ks_explicit_terms g true U = Err EShape /\ exists W, ks_explicit_terms g false U = Ok W /\ shp W = shp U.
Proof.
  intros g q h U Hg HU. unfold ks_explicit_terms. rewrite (rfft_axes1 Hg). cbn [bind].
  assert (Hd : ((4 * q + 2) / 2 + 1 = 2 * q + 2)%nat) by (replace ((4 * q + 2) / 2)%nat with (2 * q + 1)%nat by (apply Nat.div_unique with (r := 0%nat); lia); lia).
  split.
  - destruct (@padded_irfft_spec U _ HU) as (u & Eu & Su & _); [lia|]. rewrite Eu. cbn [bind].
    destruct (@padded_size (2 * q + 2)) as [_ H2]; [lia|].
    destruct (@truncated_rfft_spec (amap (fun x => x ^ 2)%R u) _ Su) as (V & EV & SV & _); [lia|]. rewrite EV. cbn [bind].
    unfold ew, shape_eqb. cbn [shp]. rewrite SV. destruct (list_eq_dec _ _ _) as [E|]; [|reflexivity]. exfalso. apply (f_equal (hd 0%nat)) in E. cbn [hd] in E. rewrite Hd in E.
    replace (3 * (2 * q + 2) / 2)%nat with (3 * q + 3)%nat in E by (apply Nat.div_unique with (r := 0%nat); lia).
    replace (2 * (3 * q + 3 - 1) / 2)%nat with (3 * q + 2)%nat in E by (apply Nat.div_unique with (r := 0%nat); lia).
    replace (2 * (3 * q + 2 + 1) / 3)%nat with (2 * q + 2)%nat in E by (apply Nat.div_unique with (r := 0%nat); lia). lia.
  - unfold plain_irfft, plain_rfft. rewrite HU. cbn [nth]. replace (2 * q + 2 <? 2)%nat with false by (symmetry; apply Nat.ltb_ge; lia). cbn [bind].
    destruct (@irfftn1 U _ HU) as [Su _]. cbn [amap shp]. rewrite Su. cbn [nth].
    replace (2 * (2 * q + 2 - 1) =? 0)%nat with false by (symmetry; apply Nat.eqb_neq; lia). cbn [bind].
    destruct (@rfftn1 (amap (fun x => x ^ 2)%R (irfftn U)) _ Su) as [SW _].
    assert (E : shp (mkarr [((4 * q + 2) / 2 + 1)%nat] (fun ix => Cmul two_pi_i (RtoC (freq (4 * q + 2) h (nth 0 ix 0%Z))))) = shp (rfftn (amap (fun x => x ^ 2)%R (irfftn U)))).
    { rewrite SW. cbn [shp]. f_equal. rewrite Hd. replace (2 * (2 * q + 2 - 1) / 2)%nat with (2 * q + 1)%nat by (apply Nat.div_unique with (r := 0%nat); lia). lia. }
    rewrite (ew_ok _ _ _ E). eexists. split; [reflexivity|]. cbn [amap2 shp]. rewrite Hd. reflexivity.
Qed.

(** ** Exactness of the dealiased product *)
(** The coefficient of wave number [k] (positive or negative) of the real field with half spectrum [U], [n] modes. *)
Definition full (n : nat) (U : Z -> cplx) (k : Z) : cplx :=
  if k =? 0 then RtoC (re (U 0))
  else if (0 <? k) && (k <? Z.of_nat n) then U k
  else if (k <? 0) && (- k <? Z.of_nat n) then Cconj (U (- k)) else C0.
(** Sum over the wave numbers -K, ..., K. *)
Definition bsum (K : nat) (f : Z -> cplx) : cplx := csum (2 * K + 1) (fun i => f (i - Z.of_nat K)).
Ltac zb := repeat match goal with
  | |- context [?a =? ?b] => destruct (Z.eqb_spec a b)
  | |- context [?a <? ?b] => destruct (Z.ltb_spec a b)
  | |- context [?a <=? ?b] => destruct (Z.leb_spec a b) end; cbn [andb].
Lemma full_out n U k : (0 < n)%nat -> Z.of_nat n <= Z.abs k -> full n U k = C0.
Proof. intros Hn H. unfold full. zb; try reflexivity; lia. Qed.
Lemma full_conj n U k : full n U (- k) = Cconj (full n U k).
Proof.
  unfold full. zb; try lia; try (cbn [andb]; ceq).
  rewrite Z.opp_involutive. ceq.
Qed.
Lemma csum_split a b f : csum (a + b) f = Cadd (csum a f) (csum b (fun i => f (i + Z.of_nat a))).
Proof. apply Ceq; cbn [re im Cadd]; rewrite ?re_csum, ?im_csum; rewrite rsum_split; reflexivity. Qed.
Lemma csum_mod_shift n k f : (0 < n)%nat -> csum n (fun i => f ((i + k) mod Z.of_nat n)) = csum n f.
Proof. intros H. apply Ceq; rewrite ?re_csum, ?im_csum; [apply (rsum_mod_shift k (fun i => re (f i)) H) | apply (rsum_mod_shift k (fun i => im (f i)) H)]. Qed.
(** Periodic sums of a function supported on -K..K. *)
Lemma periodic_bsum M K f : (2 * K + 1 <= M)%nat -> (forall k, Z.of_nat K < Z.abs k -> f k = C0) ->
  csum M (fun p => f (signed M p)) = bsum K f.
Proof.
  intros H Hf. rewrite <- (@csum_mod_shift M (- Z.of_nat K) (fun p => f (signed M p))) by lia. unfold bsum.
  replace M with ((2 * K + 1) + (M - (2 * K + 1)))%nat at 1 by lia. rewrite csum_split.
  assert (E : forall j, 0 <= j < Z.of_nat M -> (j - Z.of_nat K < 0 -> signed M ((j + - Z.of_nat K) mod Z.of_nat M) = j - Z.of_nat K) /\ (j - Z.of_nat K >= 0 -> (signed M ((j + - Z.of_nat K) mod Z.of_nat M) = j - Z.of_nat K \/ signed M ((j + - Z.of_nat K) mod Z.of_nat M) = j - Z.of_nat K - Z.of_nat M) /\ (2 * (j - Z.of_nat K) < Z.of_nat M -> signed M ((j + - Z.of_nat K) mod Z.of_nat M) = j - Z.of_nat K))).
  { intros j Hj. split.
    - intros L. replace ((j + - Z.of_nat K) mod Z.of_nat M) with (j - Z.of_nat K + Z.of_nat M) by (apply Z.mod_unique with (q := -1); lia). unfold signed. zb; lia.
    - intros L. rewrite Z.mod_small by lia. unfold signed. split; [|intros L2]; zb; lia. }
  replace (csum (M - (2 * K + 1)) _) with C0.
  - transitivity (Cadd (csum (2 * K + 1) (fun i => f (i - Z.of_nat K))) C0); [|ceq]. f_equal. apply csum_ext. intros j Hj. f_equal. destruct (E j ltac:(lia)) as [E1 E2].
    destruct (Z_lt_ge_dec (j - Z.of_nat K) 0) as [L|L]; [apply E1; exact L | apply E2; lia].
  - symmetry. apply csum_zero. intros j Hj. apply Hf. destruct (E (j + Z.of_nat (2 * K + 1)) ltac:(lia)) as [_ E2]. destruct E2 as [[-> | ->] _]; lia.
Qed.
Lemma herm_full n X p : (3 <= n)%nat -> 0 <= p < Z.of_nat (2 * (3 * n / 2 - 1)) ->
  hermitian_ext (2 * (3 * n / 2 - 1)) (padded n X) p = full n X (signed (2 * (3 * n / 2 - 1)) p).
Proof.
  intros Hn Hp. assert (Hn2 : (2 <= n)%nat) by lia. destruct (padded_size Hn2) as [H1 H2]. 
  unfold hermitian_ext, padded, signed, full. set (M := Z.of_nat (2 * (3 * n / 2 - 1))) in *.
  assert (HM : M = 2 * (Z.of_nat (3 * n / 2) - 1)) by (unfold M; lia). clearbody M.
  assert (HH : Z.of_nat n < Z.of_nat (3 * n / 2)) by lia.
  zb; try lia; try reflexivity; try (f_equal; f_equal; lia); try ceq.
Qed.
(** The size of the padded grid for an odd number of modes. *)
Lemma odd_size n : Nat.odd n = true -> (3 <= n)%nat -> (2 * (3 * n / 2 - 1) = 3 * (n - 1))%nat.
Proof. intros H Hn. apply Nat.odd_spec in H. destruct H as [q ->]. replace (3 * (2 * q + 1) / 2)%nat with (3 * q + 1)%nat by (apply Nat.div_unique with (r := 1%nat); lia). lia. Qed.
Definition conv (n : nat) (A B : Z -> cplx) (r : Z) : cplx := bsum (n - 1) (fun p => Cmul (full n A p) (full n B (r - p))).
(* @prop C58 Exactness of dealiased products. For spectra U and V with n >= 3 modes, n odd (grids whose size N = 2(n-1) is a multiple of 4), and every wave number r < n-1 - or r = n-1 when one of the two Nyquist modes is zero - truncated_rfft(padded_irfft(U) * padded_irfft(V)) is at r exactly 1/N times the sum over all integers p of U_p V_{r-p}, where U_{-p} = conj(U_p): no aliased mode contributes. *)
Lemma dealiased_product_exact_lem : forall (U V : arr cplx) (n : nat), shp U = [n] -> shp V = [n] -> Nat.odd n = true -> (3 <= n)%nat ->
  exists u v w W, padded_irfft U = Ok u /\ padded_irfft V = Ok v /\ ew Rmult u v = Ok w /\ truncated_rfft w = Ok W /\ shp W = [n] /\
    forall r, 0 <= r < Z.of_nat n -> (r < Z.of_nat n - 1 \/ get U [Z.of_nat n - 1] = C0 \/ get V [Z.of_nat n - 1] = C0) ->
      get W [r] = Cscal (/ INR (2 * (n - 1))) (conv n (fun k => get U [k]) (fun k => get V [k]) r).
Proof.
  intros U V n HU HV Ho Hn. pose proof (odd_size Ho Hn) as HM.
  destruct (@padded_irfft_spec U n HU ltac:(lia)) as (u & Eu & Su & Gu). destruct (@padded_irfft_spec V n HV ltac:(lia)) as (v & Ev & Sv & Gv).
  set (M := (2 * (3 * n / 2 - 1))%nat) in *.
  exists u, v, (amap2 Rmult u v). rewrite ew_ok by congruence.
  destruct (@truncated_rfft_spec (amap2 Rmult u v) M Su ltac:(lia)) as (W & EW & SW & GW). exists W.
  split; [exact Eu|]. split; [exact Ev|]. split; [reflexivity|]. split; [exact EW|]. split.
  - rewrite SW. f_equal. rewrite HM. apply Nat.odd_spec in Ho. destruct Ho as [q ->]. 
    replace (3 * (2 * q + 1 - 1) / 2)%nat with (3 * q)%nat by (apply Nat.div_unique with (r := 0%nat); lia).
    replace (2 * (3 * q + 1) / 3)%nat with (2 * q)%nat; [lia|]. apply Nat.div_unique with (r := 2%nat); lia.
  - intros r Hr Hedge. rewrite GW. set (A := fun k => get U [k]) in *. set (B := fun k => get V [k]) in *.
    assert (HAB : forall j, irfft1 M (padded n A) j = RtoC (re (irfft1 M (padded n A) j)) /\ irfft1 M (padded n B) j = RtoC (re (irfft1 M (padded n B) j))) by (intros j; split; apply irfft1_real; lia).
    transitivity (Cscal (2 / 3) (fft1 M (fun j => RtoC (9 / 4 * re (Cmul (irfft1 M (padded n A) j) (irfft1 M (padded n B) j)))) r)).
    { f_equal. apply fft1_ext. intros j _. cbn [get amap2]. rewrite Gu, Gv. destruct (HAB j) as [Ha Hb]. set (a := irfft1 M (padded n A) j) in *. set (b := irfft1 M (padded n B) j) in *. clearbody a b. rewrite Ha, Hb. apply Ceq; cbn [re im Cmul RtoC]; field. }
    rewrite fft1_scal. transitivity (Cscal (3 / 2) (fft1 M (fun j => Cmul (irfft1 M (padded n A) j) (irfft1 M (padded n B) j)) r)).
    { replace (fft1 M (fun j => Cmul (irfft1 M (padded n A) j) (irfft1 M (padded n B) j)) r) with (fft1 M (fun j => RtoC (re (Cmul (irfft1 M (padded n A) j) (irfft1 M (padded n B) j)))) r); [apply Ceq; cbn; field|].
      apply fft1_ext. intros j _. destruct (HAB j) as [Ha Hb]. set (a := irfft1 M (padded n A) j) in *. set (b := irfft1 M (padded n B) j) in *. clearbody a b. rewrite Ha, Hb. apply Ceq; cbn [re im Cmul RtoC]; field. }
    unfold irfft1. rewrite convolution by lia.
    assert (HI : (INR (n - 1) <> 0)%R) by (apply not_0_INR; lia).
    transitivity (Cscal (/ INR (2 * (n - 1))) (csum M (fun p => Cmul (hermitian_ext M (padded n A) p) (hermitian_ext M (padded n B) ((r - p) mod Z.of_nat M))))).
    { rewrite HM. set (cc := csum _ _). clearbody cc. rewrite !mult_INR. replace (INR 3) with 3%R by (cbn; ring). replace (INR 2) with 2%R by (cbn; ring). apply Ceq; cbn [re im Cscal]; field; exact HI. }
    f_equal. unfold conv. rewrite <- (@periodic_bsum M (n - 1)).
    2: lia. 2: { intros k Hk. rewrite full_out by lia. ceq. }
    apply csum_ext. intros p Hp. unfold M at 1. rewrite herm_full by (fold M; lia). fold M.
    unfold M at 2. rewrite herm_full by (fold M; try lia; apply Z.mod_pos_bound; lia). fold M.
    set (s := signed M p).
    assert (Hs : 2 * Z.abs s <= Z.of_nat M) by (unfold s, signed; zb; lia).
    destruct (Z_le_gt_dec (Z.of_nat n) (Z.abs s)) as [L|L]; [rewrite (@full_out n A s) by lia; ceq|].
    assert (Ep : (r - p) mod Z.of_nat M = (r - s) mod Z.of_nat M).
    { unfold s, signed. zb; [reflexivity|]. replace (r - (p - Z.of_nat M)) with (r - p + 1 * Z.of_nat M) by ring. rewrite Z.mod_add by lia. reflexivity. }
    rewrite Ep. clear Ep. clearbody s.
    destruct (Z_lt_ge_dec (2 * (r - s)) (Z.of_nat M)) as [L2|L2]; [f_equal; f_equal; apply signed_mod; lia|].
    rewrite (@full_out n B (r - s)) by lia. rewrite Z.mod_small by lia. replace (signed M (r - s)) with (r - s - Z.of_nat M) by (unfold signed; zb; lia).
    destruct (Z.eq_dec (r - s - Z.of_nat M) (- (Z.of_nat n - 1))) as [E|E]; [|rewrite (@full_out n B (r - s - Z.of_nat M)) by lia; reflexivity].
    assert (r = Z.of_nat n - 1 /\ s = - (Z.of_nat n - 1)) as [-> ->] by lia. destruct Hedge as [K|[K|K]]; [lia| |].
    + replace (full n A (- (Z.of_nat n - 1))) with C0; [ceq|]. rewrite full_conj. unfold full. zb; try lia. unfold A. rewrite K. ceq.
    + rewrite E. replace (full n B (- (Z.of_nat n - 1))) with C0; [reflexivity|]. rewrite full_conj. unfold full. zb; try lia. unfold B. rewrite K. ceq.
Qed.
(* @ex *)
Lemma dealiased_product_exact_ex_lem : shp (afull [5%nat] C1) = [5%nat] /\ Nat.odd 5 = true /\ (3 <= 5)%nat.
Proof. repeat split; lia. Qed.

(** ** Sums over wave numbers *)
Lemma bsum_ext K f h : (forall k, - Z.of_nat K <= k <= Z.of_nat K -> f k = h k) -> bsum K f = bsum K h.
Proof. intros H. apply csum_ext. intros i Hi. apply H. lia. Qed.
Lemma bsum_scal K c f : bsum K (fun k => Cmul c (f k)) = Cmul c (bsum K f).
Proof. unfold bsum. apply csum_scal. Qed.
Lemma bsum_plus K f h : bsum K (fun k => Cadd (f k) (h k)) = Cadd (bsum K f) (bsum K h).
Proof. unfold bsum. apply csum_plus. Qed.
Lemma bsum_swap K L f : bsum K (fun i => bsum L (f i)) = bsum L (fun j => bsum K (fun i => f i j)).
Proof. unfold bsum. apply csum_swap with (f := fun i j => f (i - Z.of_nat K) (j - Z.of_nat L)). Qed.
Lemma bsum_conj K f : Cconj (bsum K f) = bsum K (fun k => Cconj (f k)).
Proof. unfold bsum. apply Cconj_sum. Qed.
Lemma bsum_le K L f : (K <= L)%nat -> (forall k, Z.of_nat K < Z.abs k -> f k = C0) -> bsum L f = bsum K f.
Proof. intros H Hf. rewrite <- (@periodic_bsum (2 * L + 1) K f), <- (@periodic_bsum (2 * L + 1) L f); try lia; auto. intros k Hk. apply Hf. lia. Qed.
Lemma bsum_reflect K c f : (forall k, Z.of_nat K < Z.abs k -> f k = C0) -> (forall k, Z.of_nat K < Z.abs k -> f (c - k) = C0) -> bsum K (fun k => f (c - k)) = bsum K f.
Proof.
  intros H1 H2. set (M := (2 * (K + Z.abs_nat c) + 1)%nat). 
  rewrite <- (@periodic_bsum M K f), <- (@periodic_bsum M K (fun k => f (c - k))); try (unfold M; lia); auto.
  rewrite <- (@csum_reflect M c (fun p => f (signed M p))) by (unfold M; lia). apply csum_ext. intros j Hj.
  set (s := signed M j). assert (Hs : 2 * Z.abs s <= Z.of_nat M) by (unfold s, signed; zb; lia).
  replace ((c - j) mod Z.of_nat M) with ((c - s) mod Z.of_nat M).
  2: { unfold s, signed. zb; [reflexivity|]. replace (c - (j - Z.of_nat M)) with (c - j + 1 * Z.of_nat M) by ring. apply Z.mod_add. lia. }
  clearbody s. assert (HM : Z.of_nat M = 2 * (Z.of_nat K + Z.abs c) + 1) by (unfold M; lia).
  destruct (Z_lt_ge_dec (2 * Z.abs (c - s)) (Z.of_nat M)) as [L|L]; [f_equal; symmetry; apply signed_mod; lia|].
  rewrite H1 by lia. symmetry. apply H1. pose proof (Z.mod_pos_bound (c - s) (Z.of_nat M) ltac:(lia)). pose proof (Z.div_mod (c - s) (Z.of_nat M) ltac:(lia)).
  assert (HK2 : signed M ((c - s) mod Z.of_nat M) = c - s - Z.of_nat M \/ signed M ((c - s) mod Z.of_nat M) = c - s + Z.of_nat M).
  { set (d := (c - s) / Z.of_nat M) in *. assert (-2 < d < 2) by nia. assert (d = -1 \/ d = 0 \/ d = 1) as [-> | [-> | ->]] by lia; unfold signed; zb; lia. }
  destruct HK2 as [-> | ->]; lia.
Qed.
(** The sum over all triads p + s + t = 0 of s * a_s a_p a_t vanishes. *)
Lemma triad_sum K a : (forall k, Z.of_nat K < Z.abs k -> a k = C0) ->
  bsum K (fun s => bsum K (fun p => Cmul (RtoC (IZR s)) (Cmul (Cmul (a s) (a p)) (a (- s - p))))) = C0.
Proof.
  intros Ha. set (w := fun s p => Cmul (Cmul (a s) (a p)) (a (- s - p))).
  set (T1 := bsum K (fun s => bsum K (fun p => Cmul (RtoC (IZR s)) (w s p)))).
  set (T2 := bsum K (fun s => bsum K (fun p => Cmul (RtoC (IZR p)) (w s p)))).
  assert (Hw : forall s p, w s p = w p s) by (intros s p; unfold w; replace (- s - p) with (- p - s) by ring; ring).
  assert (E1 : T2 = T1). { unfold T2. rewrite bsum_swap. apply bsum_ext. intros s _. apply bsum_ext. intros p _. rewrite Hw. reflexivity. }
  assert (E2 : T1 = Cscal (-1) (Cadd T1 T2)).
  { transitivity (bsum K (fun p => bsum K (fun s => Cmul (RtoC (IZR s)) (w s p)))); [unfold T1; apply bsum_swap|].
    transitivity (bsum K (fun p => bsum K (fun s => Cmul (RtoC (IZR (- p - s))) (w s p)))).
    - apply bsum_ext. intros p _. rewrite <- (@bsum_reflect K (- p) (fun s => Cmul (RtoC (IZR s)) (w s p))).
      + apply bsum_ext. intros s _. f_equal. unfold w. replace (- (- p - s) - p) with s by ring. replace (- s - p) with (- p - s) by ring. ring.
      + intros k Hk. unfold w. rewrite (Ha k Hk). ring.
      + intros k Hk. unfold w. replace (- (- p - k) - p) with k by ring. rewrite (Ha k Hk). ring.
    - transitivity (Cmul (RtoC (-1)) (Cadd T1 T2)); [|ceq].
      unfold T1, T2. rewrite (bsum_swap K K (fun s p => Cmul (RtoC (IZR s)) (w s p))), (bsum_swap K K (fun s p => Cmul (RtoC (IZR p)) (w s p))).
      rewrite <- bsum_plus, <- bsum_scal. apply bsum_ext. intros p _. rewrite <- bsum_plus, <- bsum_scal. apply bsum_ext. intros s _.
      replace (RtoC (IZR (- p - s))) with (Cmul (RtoC (-1)) (Cadd (RtoC (IZR s)) (RtoC (IZR p)))); [ring|]. rewrite minus_IZR, opp_IZR. ceq. }
  change (T1 = C0). rewrite E1 in E2. clearbody T1. clear -E2. apply Ceq; [apply (f_equal re) in E2 | apply (f_equal im) in E2]; cbn in *; lra.
Qed.

(** ** KuramotoSivashinsky and Burgers *)
Lemma mode_count q : ((4 * q) / 2 + 1 = 2 * q + 1)%nat.
Proof. replace (4 * q / 2)%nat with (2 * q)%nat by (apply Nat.div_unique with (r := 0%nat); lia). lia. Qed.
Lemma odd_mode q : Nat.odd (2 * q + 1) = true.
Proof. rewrite Nat.odd_spec. exists q. reflexivity. Qed.
(* @prop C58 On every grid of N = 4q points the dealiased KuramotoSivashinsky.explicit_terms(U) is the exact spectrum of -1/2 d/dx (u^2) truncated to the represented modes: at every wave number r below the Nyquist number (and at it when U's Nyquist mode is zero), it is -(1/2) (2 pi i k_r) (1/N) * sum over p of U_p U_{r-p}. *)
Lemma ks_explicit_exact_lem : forall (g : grid) (q : nat) (h : R) (U : arr cplx),
  (1 <= q)%nat -> grid1 g (4 * q) h -> shp U = [(2 * q + 1)%nat] ->
  exists W, ks_explicit_terms g true U = Ok W /\ shp W = shp U /\
    forall r, 0 <= r <= 2 * Z.of_nat q -> (r < 2 * Z.of_nat q \/ get U [2 * Z.of_nat q] = C0) ->
      get W [r] = Cmul (Cscal (- (1 / 2) / INR (4 * q)) (Cmul two_pi_i (RtoC (freq (4 * q) h r)))) (conv (2 * q + 1) (fun k => get U [k]) (fun k => get U [k]) r).
Proof.
  intros g q h U Hq Hg HU. unfold ks_explicit_terms. rewrite (rfft_axes1 Hg). cbn [bind].
  destruct (@dealiased_product_exact_lem U U (2 * q + 1) HU HU (odd_mode q) ltac:(lia)) as (u & v & w & W & Eu & Ev & Ew & EW & SW & GW).
  rewrite Ev in Eu. injection Eu as <-. rewrite Ev. cbn [bind]. apply ew_inv in Ew. destruct Ew as [_ Ew].
  replace (amap (fun x => x ^ 2)%R v) with w.
  2: { subst w. unfold amap, amap2. f_equal. apply functional_extensionality. intros ix. ring. }
  rewrite EW. cbn [bind]. rewrite ew_ok by (cbn [shp]; rewrite SW, mode_count; reflexivity).
  eexists. split; [reflexivity|]. split; [cbn [amap2 shp]; rewrite HU, mode_count; reflexivity|].
  intros r Hr Hedge. cbn [get amap2 nth]. rewrite GW.
  - replace (2 * (2 * q + 1 - 1))%nat with (4 * q)%nat by lia. set (c := conv _ _ _ _). clearbody c. apply Ceq; cbn [re im Cmul Cscal two_pi_i RtoC]; unfold Rdiv; ring.
  - lia.
  - replace (Z.of_nat (2 * q + 1) - 1) with (2 * Z.of_nat q) by lia. tauto.
Qed.
(* @ex *)
Lemma ks_explicit_exact_ex_lem : exists g h, grid1 g (4 * 1) h.
Proof. exists (mkgrid [4%nat] [(1/4)%R] [(0%R, 1%R)]), (1/4)%R. repeat split; try lia; lra. Qed.
Lemma full_deriv n (U : Z -> cplx) c k : (0 < n)%nat -> full n (fun k => Cmul (Cmul two_pi_i (RtoC (c * IZR k))) (U k)) k = Cmul (Cmul two_pi_i (RtoC (c * IZR k))) (full n U k).
Proof.
  intros Hn. unfold full. zb; try lia; try reflexivity; try (subst; apply Ceq; cbn; ring).
  rewrite opp_IZR. apply Ceq; cbn; ring.
Qed.
(* @prop C58 Burgers: without forcing, on every grid of N = 4q points and every wave number below the Nyquist number (or every one when U's Nyquist mode is zero), the advection term -u u_x computed by Burgers.explicit_terms equals KuramotoSivashinsky's -1/2 (u^2)_x: the product rule holds exactly for the dealiased products. The time component advances at rate 1. *)
Lemma burgers_advection_is_ks_lem : forall (g : grid) (q : nat) (h t : R) (U : arr cplx),
  (1 <= q)%nat -> grid1 g (4 * q) h -> shp U = [(2 * q + 1)%nat] ->
  exists W V, ks_explicit_terms g true U = Ok W /\ burgers_explicit_terms g None (U, t) = Ok (V, 1%R) /\ shp V = shp U /\
    forall r, 0 <= r <= 2 * Z.of_nat q -> (r < 2 * Z.of_nat q \/ get U [2 * Z.of_nat q] = C0) -> get V [r] = get W [r].
Proof.
  intros g q h t U Hq Hg HU. destruct (@ks_explicit_exact_lem g q h U Hq Hg HU) as (W & EW & SW & GW). exists W.
  unfold burgers_explicit_terms. rewrite (rfft_axes1 Hg). cbn [bind]. rewrite ew_ok by (cbn [shp]; rewrite HU, mode_count; reflexivity). cbn [bind].
  set (D := amap2 _ _ _). assert (SD : shp D = [(2 * q + 1)%nat]) by (unfold D; cbn [shp amap2]; rewrite mode_count; reflexivity).
  destruct (@dealiased_product_exact_lem U D (2 * q + 1) HU SD (odd_mode q) ltac:(lia)) as (u & v & w & V & Eu & Ev & Ew & EV & SV & GV).
  rewrite Eu, Ev. cbn [bind]. rewrite Ew. cbn [bind]. rewrite EV. cbn [bind]. eexists. split; [exact EW|]. split; [reflexivity|]. split; [cbn [amap shp]; congruence|].
  intros r Hr Hedge. rewrite GW by assumption. cbn [get amap]. rewrite GV; [|lia|].
  2: { replace (Z.of_nat (2 * q + 1) - 1) with (2 * Z.of_nat q) by lia. tauto. }
  replace (2 * (2 * q + 1 - 1))%nat with (4 * q)%nat by lia. set (n := (2 * q + 1)%nat) in *. set (A := fun k => get U [k]).
  set (c := (/ (INR (4 * q) * h))%R).
  assert (ED : (fun k => get D [k]) = (fun k => Cmul (Cmul two_pi_i (RtoC (c * IZR k))) (A k))).
  { apply functional_extensionality. intros k. unfold D, A. cbn [get amap2 nth]. unfold freq. f_equal. f_equal. f_equal. unfold c, Rdiv. ring. }
  rewrite ED. unfold conv.
  assert (Hn : (0 < n)%nat) by (unfold n; lia).
  set (P := fun p => Cmul (full n A p) (full n A (r - p))).
  set (S1 := bsum (n - 1) (fun p => Cmul (RtoC (IZR p)) (P p))).
  assert (E1 : S1 = Cmul (RtoC (IZR r / 2)) (bsum (n - 1) P)).
  { assert (E : Cadd S1 S1 = Cmul (RtoC (IZR r)) (bsum (n - 1) P)).
    { unfold S1 at 1. rewrite <- (@bsum_reflect (n - 1) r (fun p => Cmul (RtoC (IZR p)) (P p))).
      - unfold S1. rewrite <- bsum_plus, <- bsum_scal. apply bsum_ext. intros p _. unfold P. replace (r - (r - p)) with p by ring. rewrite minus_IZR.
        transitivity (Cmul (Cadd (RtoC (IZR r - IZR p)) (RtoC (IZR p))) (Cmul (full n A p) (full n A (r - p)))); [ring|]. f_equal. ceq.
      - intros k Hk. unfold P. rewrite full_out by lia. ring.
      - intros k Hk. unfold P. replace (r - (r - k)) with k by ring. rewrite (@full_out n A k) by lia. ring. }
    clearbody S1. set (b := bsum _ _) in *. clearbody b. apply Ceq; [apply (f_equal re) in E | apply (f_equal im) in E]; cbn in *; lra. }
  transitivity (Copp (Cscal (/ INR (4 * q)) (bsum (n - 1) (fun p => Cmul (Cmul two_pi_i (RtoC c)) (Cmul (RtoC (IZR (r - p))) (P p)))))).
  { f_equal. f_equal. apply bsum_ext. intros p _. rewrite full_deriv by exact Hn. unfold P. rewrite RtoC_mul. ring. }
  rewrite bsum_scal.
  assert (E3 : bsum (n - 1) (fun p => Cmul (RtoC (IZR (r - p))) (P p)) = Cmul (RtoC (IZR r / 2)) (bsum (n - 1) P)).
  { transitivity (Cadd (Cmul (RtoC (IZR r)) (bsum (n - 1) P)) (Cmul (RtoC (-1)) S1)).
    - unfold S1. rewrite <- !bsum_scal, <- bsum_plus. apply bsum_ext. intros p _. rewrite minus_IZR. 
      transitivity (Cmul (Cadd (RtoC (IZR r)) (Cmul (RtoC (-1)) (RtoC (IZR p)))) (P p)); [f_equal; ceq | ring].
    - rewrite E1. set (b := bsum _ _). clearbody b. apply Ceq; cbn; field. }
  rewrite E3. fold P. set (b := bsum _ _). clearbody b. unfold freq. fold c. apply Ceq; cbn [re im Cmul Copp Cscal two_pi_i RtoC]; unfold Rdiv; fold c; set (N1 := (/ INR (4 * q))%R); clearbody N1; field.
Qed.
(* @ex *)
Lemma burgers_advection_is_ks_ex_lem : exists g h, grid1 g (4 * 1) h.
Proof. exists (mkgrid [4%nat] [(1/4)%R] [(0%R, 1%R)]), (1/4)%R. repeat split; try lia; lra. Qed.

(** ** Conservation *)
Lemma herm_plain n X p : (2 <= n)%nat -> X (Z.of_nat n - 1) = C0 -> 0 <= p < Z.of_nat (2 * (n - 1)) -> hermitian_ext (2 * (n - 1)) X p = full n X (signed (2 * (n - 1)) p).
Proof.
  intros Hn H0 Hp. unfold hermitian_ext, signed, full. set (M := Z.of_nat (2 * (n - 1))) in *. assert (HM : M = 2 * (Z.of_nat n - 1)) by (unfold M; lia). clearbody M.
  zb; try lia; try reflexivity; try (f_equal; f_equal; lia); try ceq.
  replace p with (Z.of_nat n - 1) by lia. replace (- (Z.of_nat n - 1 - M)) with (Z.of_nat n - 1) by lia. rewrite H0. ceq.
Qed.
Lemma rsum_irfft_zero n (X : Z -> cplx) : (0 < n)%nat -> rsum n (fun j => re (irfft1 n X j)) = re (X 0).
Proof.
  intros Hn. pose proof (@fft1_irfft1 n X 0 ltac:(lia)) as E. unfold hermitian_ext in E. cbn [Z.eqb] in E. apply (f_equal re) in E. cbn [re RtoC] in E. rewrite <- E.
  unfold fft1. rewrite re_csum. apply rsum_ext. intros j _. unfold dftm. replace (j * 0) with 0 by ring. replace (- (2 * PI * 0 / INR n))%R with 0%R by (unfold Rdiv; ring).
  unfold cis. rewrite cos_0, sin_0. cbn [re im Cmul RtoC]. ring.
Qed.
(* @prop C58 Conservation. On every grid of N = 4q points and for every spectrum U, the dealiased nonlinear term W = KuramotoSivashinsky.explicit_terms(U) leaves the mean unchanged (its mean mode is zero and the field irfft(W) sums to zero over the grid), and, when U's Nyquist mode is zero, it does no work: the sum over the grid of irfft(U) * irfft(W) is zero, so the nonlinearity alone conserves the energy. The same holds for the advection term of Burgers. *)
Lemma ks_nonlinearity_conserves_lem : forall (g : grid) (q : nat) (h : R) (U : arr cplx),
  (1 <= q)%nat -> grid1 g (4 * q) h -> shp U = [(2 * q + 1)%nat] ->
  exists W V, ks_explicit_terms g true U = Ok W /\ (forall t, burgers_explicit_terms g None (U, t) = Ok (V, 1%R)) /\
    get W [0] = C0 /\ get V [0] = C0 /\
    (forall X, X = W \/ X = V -> shp (irfftn X) = [(4 * q)%nat] /\ rsum (4 * q) (fun j => get (irfftn X) [j]) = 0%R /\
       (get U [2 * Z.of_nat q] = C0 -> rsum (4 * q) (fun j => get (irfftn U) [j] * get (irfftn X) [j])%R = 0%R)).
Proof.
  intros g q h U Hq Hg HU.
  destruct (@ks_explicit_exact_lem g q h U Hq Hg HU) as (W & EW & SW & GW).
  destruct (@burgers_advection_is_ks_lem g q h 0 U Hq Hg HU) as (W' & V & EW' & EV & SV & GV). rewrite EW in EW'. injection EW' as <-.
  exists W, V. split; [exact EW|]. split. { intros t. refine (eq_trans _ EV). reflexivity. }
  set (n := (2 * q + 1)%nat) in *. set (A := fun k => get U [k]) in *.
  assert (W0 : get W [0] = C0). { rewrite GW by lia. unfold freq. replace (0 / (INR (4 * q) * h))%R with 0%R by (unfold Rdiv; ring). apply Ceq; cbn; ring. }
  assert (V0 : get V [0] = C0) by (rewrite GV by lia; exact W0).
  split; [exact W0|]. split; [exact V0|].
  intros X HX. assert (SX : shp X = [n]) by (destruct HX as [-> | ->]; congruence).
  assert (X0 : get X [0] = C0) by (destruct HX as [-> | ->]; assumption).
  assert (GX : forall r, 0 <= r <= 2 * Z.of_nat q -> r < 2 * Z.of_nat q \/ get U [2 * Z.of_nat q] = C0 -> get X [r] = get W [r]) by (destruct HX as [-> | ->]; [reflexivity | exact GV]).
  destruct (@irfftn1 X n SX) as [S1 G1]. destruct (@irfftn1 U n HU) as [S2 G2]. assert (En : (2 * (n - 1) = 4 * q)%nat) by (unfold n; lia). rewrite En in *.
  split; [exact S1|]. split.
  { transitivity (rsum (4 * q) (fun j => re (irfft1 (4 * q) (fun k => get X [k]) j))); [apply rsum_ext; intros j _; apply G1|]. rewrite rsum_irfft_zero by lia. rewrite X0. reflexivity. }
  intros HN. set (B := fun k => get X [k]) in *.
  assert (HA : A (Z.of_nat n - 1) = C0) by (unfold A, n; replace (Z.of_nat (2 * q + 1) - 1) with (2 * Z.of_nat q) by lia; exact HN).
  transitivity (re (csum (4 * q) (fun j => Cmul (irfft1 (4 * q) A j) (Cconj (irfft1 (4 * q) B j))))).
  { rewrite re_csum. apply rsum_ext. intros j _. rewrite G1, G2. fold A. fold B. 
    pose proof (@irfft1_real (4 * q) A j ltac:(lia)) as Ha. pose proof (@irfft1_real (4 * q) B j ltac:(lia)) as Hb.
    set (a := irfft1 (4 * q) A j) in *. set (b := irfft1 (4 * q) B j) in *. clearbody a b. rewrite Ha, Hb. cbn. ring. }
  unfold irfft1. rewrite parseval.
  set (c := (- (1 / 2) / INR (4 * q) * (/ (INR (4 * q) * h)))%R).
  set (a := full n A). assert (Hsup : forall k, Z.of_nat (n - 2) < Z.abs k -> a k = C0).
  { intros k Hk. unfold a. destruct (Z_le_gt_dec (Z.of_nat n) (Z.abs k)) as [L|L]; [apply full_out; [unfold n|]; lia|].
    assert (E : Z.abs k = Z.of_nat n - 1) by (unfold n in *; lia). unfold full. zb; try lia; try reflexivity.
    - replace k with (Z.of_nat n - 1) by lia. exact HA.
    - replace (- k) with (Z.of_nat n - 1) by lia. rewrite HA. ceq. }
  assert (Hcc : forall k, conv n A A (- k) = Cconj (conv n A A k)).
  { intros k'. unfold conv. rewrite bsum_conj. rewrite <- (@bsum_reflect (n - 1) 0).
    - apply bsum_ext. intros p _. rewrite Cconj_mul, <- !full_conj. f_equal; f_equal; ring.
    - intros p Hp. rewrite (@full_out n A p) by (unfold n in *; lia). ceq.
    - intros p Hp. rewrite (@full_out n A (0 - p)) by (unfold n in *; lia). ceq. }
  assert (HB : forall k, full n B k = Cmul (Cmul (mkC 0 (2 * PI * c)) (RtoC (IZR k))) (conv n A A k) \/ a k = C0).
  { assert (Hpos : forall k, 0 <= k <= 2 * Z.of_nat q -> B k = Cmul (Cmul (mkC 0 (2 * PI * c)) (RtoC (IZR k))) (conv n A A k)).
    { intros k Hk. unfold B. rewrite GX by tauto. rewrite GW by tauto. set (cc := conv _ _ _ _). clearbody cc. unfold freq, c. apply Ceq; cbn [re im Cmul Cscal two_pi_i RtoC]; unfold Rdiv; ring. }
    intros k. destruct (Z_le_gt_dec (Z.abs k) (2 * Z.of_nat q)) as [L|L]; [left | right; apply Hsup; unfold n; lia].
    unfold full. destruct (Z.eqb_spec k 0) as [->|Hk0]; [unfold B; rewrite X0; apply Ceq; cbn; ring|].
    destruct (Z_lt_ge_dec k 0) as [Lk|Lk].
    - zb; try lia. rewrite Hpos by lia. rewrite Hcc, opp_IZR. set (cc := conv _ _ _ _). clearbody cc. apply Ceq; cbn [re im Cmul Cconj RtoC]; ring.
    - zb; try lia; try (unfold n in *; lia). apply Hpos. lia. }
  transitivity (re (Cscal (/ INR (4 * q)) (csum (4 * q) (fun p => (fun k => Cmul (a k) (Cconj (full n B k))) (signed (4 * q) p))))).
  { f_equal. f_equal. apply csum_ext. intros p Hp. rewrite <- En in Hp. rewrite <- En. rewrite (@herm_plain n A p) by (unfold n in *; try lia; exact HA). fold a.
    destruct (Z.eq_dec p (Z.of_nat n - 1)) as [Ep|Ep].
    - replace (a (signed (2 * (n - 1)) p)) with C0; [ceq|]. symmetry. apply Hsup. subst p. unfold signed. zb; unfold n in *; lia.
    - f_equal. f_equal. transitivity (hermitian_ext (2 * (n - 1)) (fun k => if k =? Z.of_nat n - 1 then C0 else B k) p).
      + unfold hermitian_ext. unfold n in *; zb; try lia; try reflexivity. 
      + rewrite herm_plain; [|unfold n; lia | zb; [reflexivity | lia] | exact Hp]. unfold full, signed. unfold n in *. zb; try lia; try reflexivity. }
  rewrite (@periodic_bsum (4 * q) (n - 2) (fun k => Cmul (a k) (Cconj (full n B k)))); [| unfold n; lia | intros k Hk; rewrite (Hsup k Hk); ceq].
  assert (E : bsum (n - 2) (fun k => Cmul (a k) (Cconj (full n B k))) = C0).
  { transitivity (Cmul (mkC 0 (- (2 * PI * c))) (bsum (n - 2) (fun s => bsum (n - 2) (fun p => Cmul (RtoC (IZR s)) (Cmul (Cmul (a s) (a p)) (a (- s - p)))))));
      [|rewrite triad_sum by exact Hsup; ceq].
    rewrite <- bsum_scal. apply bsum_ext. intros s _. destruct (HB s) as [E|E].
    - rewrite E, Cconj_mul, <- Hcc. unfold conv. rewrite (@bsum_le (n - 2) (n - 1)); [| lia | intros k Hk; fold a; rewrite (Hsup k Hk); ceq].
      transitivity (Cmul (Cmul (Cmul (mkC 0 (- (2 * PI * c))) (RtoC (IZR s))) (a s)) (bsum (n - 2) (fun p => Cmul (a p) (a (- s - p))))).
      + fold a. set (bb := bsum _ _). clearbody bb. destruct (a s). apply Ceq; cbn; ring.
      + rewrite <- !bsum_scal. apply bsum_ext. intros p _. ring.
    - rewrite E. transitivity (Cmul (mkC 0 (- (2 * PI * c))) C0); [ceq|]. f_equal. symmetry. apply csum_zero. intros p _. cbv beta. ring. }
  rewrite E. cbn. ring.
Qed.
(* @ex *)
Lemma ks_nonlinearity_conserves_ex_lem : exists g h, grid1 g (4 * 1) h.
Proof. exists (mkgrid [4%nat] [(1/4)%R] [(0%R, 1%R)]), (1/4)%R. repeat split; try lia; lra. Qed.

(** ** Complex transforms with twofold padding *)
Lemma fftn1 a n : shp a = [n] -> shp (fftn a) = [n] /\ forall k, get (fftn a) [k] = fft1 n (fun j => get a [j]) k.
Proof. intros H. unfold fftn. rewrite H. cbn. unfold on_axis. cbn. rewrite H. cbn. split; reflexivity. Qed.
Lemma ifftn1 a n : shp a = [n] -> shp (ifftn a) = [n] /\ forall k, get (ifftn a) [k] = ifft1 n (fun j => get a [j]) k.
Proof. intros H. unfold ifftn. rewrite H. cbn. unfold on_axis. cbn. rewrite H. cbn. split; reflexivity. Qed.
Lemma fft1_cscal n c f k : fft1 n (fun j => Cscal c (f j)) k = Cscal c (fft1 n f k).
Proof. unfold fft1. transitivity (Cmul (RtoC c) (csum n (fun j => Cmul (dftm n k j) (f j)))); [|ceq]. rewrite <- csum_scal. apply csum_ext. intros j _. ceq. Qed.
(* @prop C41 For every complex spectrum U with n >= 2 modes, truncated_fft_2x(padded_ifft_2x(U)) = U, shape included; with n = 1 the result is empty. *)
Lemma pad_truncate_2x_round_trip_lem : forall (U : arr cplx) (n : nat), shp U = [n] -> (1 <= n)%nat ->
  exists u V, padded_ifft_2x U = Ok u /\ truncated_fft_2x u = Ok V /\ (2 <= n -> aeq V U)%nat /\ (n = 1 -> shp V = [0])%nat.
Proof.
  intros U n HU Hn. unfold padded_ifft_2x. rewrite HU. cbv zeta. set (F := (n + 2 * (n / 2))%nat).
  replace (F =? 0)%nat with false by (symmetry; apply Nat.eqb_neq; unfold F; lia).
  set (sm := mkarr [F] _). destruct (@ifftn1 (ifftshift sm) F eq_refl) as [S1 G1].
  set (u := amap (Cscal 2) (ifftn (ifftshift sm))). assert (Su : shp u = [F]) by exact S1.
  exists u. unfold truncated_fft_2x. rewrite Su. replace (F =? 0)%nat with false by (symmetry; apply Nat.eqb_neq; unfold F; lia). cbv zeta.
  destruct (@fftn1 u F Su) as [S2 G2].
  assert (HZ : Z.of_nat F = Z.of_nat n + 2 * (Z.of_nat n / 2)) by (unfold F; rewrite Nat2Z.inj_add, Nat2Z.inj_mul, Nat2Z.inj_div; reflexivity).
  assert (Ef : (Z.of_nat F + 1) / 2 = Z.of_nat n) by (rewrite HZ; dlia). rewrite Ef.
  assert (Eh : Z.of_nat (n / 2) = Z.of_nat n / 2) by (rewrite Nat2Z.inj_div; reflexivity).
  assert (Es : slice_start F (Some (Z.of_nat n / 2)) = Z.of_nat n / 2). { unfold slice_start, clamp_bound. zb; dlia. }
  assert (Ec : slice_count F (Some (Z.of_nat n / 2)) (Some ((- Z.of_nat n + 1) / 2)) 1 = (if (n =? 1)%nat then 0 else n)%nat).
  { unfold slice_count. rewrite Es. rewrite Z.div_1_r. unfold slice_stop, clamp_bound. destruct (Nat.eqb_spec n 1).
    - subst n. cbn. reflexivity.
    - destruct (Z.ltb_spec ((- Z.of_nat n + 1) / 2) 0); [|dlia]. rewrite HZ. dlia. }
  eexists. split; [reflexivity|]. split; [reflexivity|]. split.
  - intros H2. set (V := amap (Cscal (/ 2)) _). assert (SV : shp V = [n]).
    { unfold V, ifftshift, slice1, fftshift. cbn [amap shp]. rewrite S2. cbn [nth]. rewrite Ec. destruct (Nat.eqb_spec n 1); [lia | reflexivity]. }
    split; [congruence|]. intros ix Hix. rewrite SV in Hix. unfold V. cbn [amap get]. destruct ix as [|k [|z zs]]; cbn [inb] in Hix; try tauto. assert (Hk : 0 <= k < Z.of_nat n) by lia. clear Hix SV V.
    assert (Hshift : forall y, shp (fftshift y) = shp y) by reflexivity.
    unfold ifftshift at 1. unfold slice1. cbn [shp nth get]. rewrite !Hshift, S2. cbn [nth]. rewrite Ec, Es. destruct (Nat.eqb_spec n 1); [lia|]. unfold fftshift at 1. cbn [get nth]. rewrite S2. cbn [nth].
    set (k' := (k + Z.of_nat (n / 2)) mod Z.of_nat n). assert (Hk' : 0 <= k' < Z.of_nat n) by (apply Z.mod_pos_bound; lia).
    rewrite G2. assert (HF2 : Z.of_nat (F / 2) = Z.of_nat F / 2) by (rewrite Nat2Z.inj_div; reflexivity).
    set (l := (Z.of_nat n / 2 + k' - Z.of_nat (F / 2)) mod Z.of_nat F). assert (Hl : 0 <= l < Z.of_nat F) by (apply Z.mod_pos_bound; unfold F; lia).
    transitivity (Cscal (/ 2) (Cscal 2 (get (ifftshift sm) [l]))).
    { f_equal. transitivity (fft1 F (fun j => Cscal 2 (ifft1 F (fun j => get (ifftshift sm) [j]) j)) l); [apply fft1_ext; intros j _; unfold u; cbn [get amap]; rewrite G1; reflexivity|].
      rewrite fft1_cscal, fft1_ifft1 by exact Hl. reflexivity. }
    transitivity (get (ifftshift sm) [l]); [apply Ceq; cbn [re im Cscal]; field|].
    change (get (ifftshift sm) [l]) with (get sm [(l + Z.of_nat (F / 2)) mod Z.of_nat F]).
    replace ((l + Z.of_nat (F / 2)) mod Z.of_nat F) with (Z.of_nat n / 2 + k').
    2: { unfold l. rewrite Zplus_mod_idemp_l. replace (Z.of_nat n / 2 + k' - Z.of_nat (F / 2) + Z.of_nat (F / 2)) with (Z.of_nat n / 2 + k') by ring. symmetry. apply Z.mod_small. rewrite HZ. dlia. }
    unfold sm. cbn [get nth]. rewrite <- Eh. replace (Z.of_nat (n / 2) + k' - Z.of_nat (n / 2)) with k' by ring.
    replace (0 <=? k') with true by (symmetry; apply Z.leb_le; lia). replace (k' <? Z.of_nat n) with true by (symmetry; apply Z.ltb_lt; lia). cbn [andb].
    unfold fftshift. cbn [get shp]. rewrite HU. cbn [nth]. f_equal. f_equal. unfold k'. rewrite Zminus_mod_idemp_l.
    replace (k + Z.of_nat (n / 2) - Z.of_nat (n / 2)) with k by ring. apply Z.mod_small. exact Hk.
  - intros ->. cbn [amap shp]. unfold ifftshift at 1, slice1 at 1, fftshift at 1. cbn [shp]. fold u. rewrite S2. cbn [nth]. rewrite Ec. reflexivity.
Qed.
(* @ex *)
Lemma pad_truncate_2x_round_trip_ex_lem : shp (afull [5%nat] C1) = [5%nat] /\ (2 <= 5)%nat.
Proof. split; [reflexivity | lia]. Qed.
