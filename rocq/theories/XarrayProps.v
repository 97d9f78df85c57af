(** * Properties of jax_cfd/data/xarray_utils.py (C60) *)
From Verif Require Import Prelude NdArr Grids_model Spec Boundaries_model FD_model PRep FDProofs FDProps LinAlg Cplx FastDiag_model FourierProofs Spectral_model FourierLine FilterProps SpectralPadProps PressureProps GridProps Xarray_model SpecData.
Set Implicit Arguments.
Local Open Scope Z_scope.

(** ** Sums *)
Lemma asum_rsum s n (f : Z -> list Z -> R) : asum s (fun ix => rsum n (fun j => f j ix)) = rsum n (fun j => asum s (f j)).
Proof.
  induction n as [|n IH]; simpl; [apply asum_0|]. rewrite asum_plus, IH. reflexivity.
Qed.
Lemma roll_half_inb s : forall ix, inb s ix -> inb s (roll_half s ix).
Proof.
  induction s as [|n s IH]; intros [|i ix] H; cbn [inb roll_half] in *; try tauto. destruct H as [H1 H2]. split; [apply Z.mod_pos_bound; lia | auto].
Qed.
Lemma asum_roll_half s : forall f, allpos s -> asum s (fun ix => f (roll_half s ix)) = asum s f.
Proof.
  induction s as [|n s IH]; intros f Hp; [reflexivity|]. inversion Hp as [|? ? Hn Hs]; subst. cbn [asum roll_half].
  transitivity (rsum n (fun i => asum s (fun ix => f (((i - Z.of_nat (n / 2)) mod Z.of_nat n) :: ix)))).
  - apply rsum_ext. intros i _. apply (IH (fun ix => f (((i - Z.of_nat (n / 2)) mod Z.of_nat n) :: ix))). exact Hs.
  - apply (@rsum_mod_shift n (- Z.of_nat (n / 2)) (fun i => asum s (fun ix => f (i :: ix)))). exact Hn.
Qed.
Lemma asum_nil f : asum [] f = f []. Proof. reflexivity. Qed.

(** ** Parseval *)
Lemma cn2_conj z : Cmul z (Cconj z) = RtoC (Cn2 z).
Proof. apply Ceq; cbn; unfold Cn2; ring. Qed.
Lemma parseval_fft1 n (L : Z -> cplx) : (0 < n)%nat -> rsum n (fun k => Cn2 (fft1 n L k)) = (INR n * rsum n (fun j => Cn2 (L j)))%R.
Proof.
  intros Hn. pose proof (@parseval n (fft1 n L) (fft1 n L)) as P. apply (f_equal re) in P.
  rewrite re_csum in P. cbn [Cscal re] in P. rewrite re_csum in P.
  rewrite (@rsum_ext n (fun i => re (Cmul (fft1 n L i) (Cconj (fft1 n L i)))) (fun k => Cn2 (fft1 n L k))) in P by (intros; rewrite cn2_conj; reflexivity).
  rewrite (@rsum_ext n (fun i => re (Cmul (ifft1 n (fft1 n L) i) (Cconj (ifft1 n (fft1 n L) i)))) (fun j => Cn2 (L j))) in P by (intros j Hj; rewrite ifft1_fft1 by exact Hj; rewrite cn2_conj; reflexivity).
  rewrite P. assert (INR n <> 0%R) by (apply not_0_INR; lia). field. assumption.
Qed.
Lemma parseval_nd s : forall u, allpos s -> asum s (fun kx => Cn2 (Ckron s (map dftm s) u kx)) = (INR (asize s) * asum s (fun jx => Cn2 (u jx)))%R.
Proof.
  induction s as [|n s IH]; intros u Hp.
  - cbn [asum map kron]. change (asize []) with 1%nat. cbn. ring.
  - inversion Hp as [|? ? Hn Hs]; subst. cbn [asum map].
    change (asize (n :: s)) with (n * asize s)%nat. rewrite mult_INR.
    transitivity (asum s (fun kx => rsum n (fun k => Cn2 (fft1 n (fun j => Ckron s (map dftm s) (fun jx => u (j :: jx)) kx) k)))).
    { rewrite asum_rsum. reflexivity. }
    transitivity (asum s (fun kx => INR n * rsum n (fun j => Cn2 (Ckron s (map dftm s) (fun jx => u (j :: jx)) kx)))%R).
    { apply asum_ext. intros kx _. apply parseval_fft1. exact Hn. }
    rewrite asum_scal, asum_rsum, Rmult_assoc. f_equal. rewrite <- rsum_scal. apply rsum_ext. intros j _. apply IH. exact Hs.
Qed.

(** ** Kinetic energy *)
Lemma lsum_n2_nonneg {A} (f : A -> R) l : (forall x, (0 <= f x)%R) -> (0 <= fold_right Rplus 0 (map f l))%R.
Proof. intros H. induction l as [|x l IH]; cbn; [lra|]. specialize (H x). lra. Qed.
Lemma kinetic_energy_of_spec {A} (n2 : A -> R) l s : (forall x, (0 <= n2 x)%R) -> l <> [] -> (forall a, In a l -> shp a = s) ->
  exists e, kinetic_energy_of n2 l = Ok e /\ shp e = s /\ forall ix, get e ix = (fold_right Rplus 0 (map (fun a => n2 (get a ix)) l) / 2)%R.
Proof.
  intros Hn Hl Hs. destruct l as [|a l]; [congruence|]. unfold kinetic_energy_of, magnitude.
  assert (E : forallb (fun b => shape_eqb (shp b) (shp a)) (a :: l) = true).
  { apply forallb_forall. intros b Hb. rewrite (Hs b Hb), (Hs a (or_introl eq_refl)). apply shape_eqb_refl. }
  rewrite E. cbn [bind]. eexists. split; [reflexivity|]. cbn [amap shp get]. split; [apply Hs; left; reflexivity|].
  intros ix. set (t := fold_right _ _ _). assert (0 <= t)%R.
  { unfold t. apply (@lsum_n2_nonneg _ (fun b => n2 (get b ix))). intros; apply Hn. }
  replace (sqrt t ^ 2)%R with (sqrt t * sqrt t)%R by ring. rewrite sqrt_sqrt by assumption. reflexivity.
Qed.

(* @prop C60 kinetic_energy and speed of any dataset with one or more velocity components on common dimensions: at every point the energy is half the sum of the squared components, and half the squared speed; speed is not negative. *)
Lemma kinetic_energy_spec_lem : forall (ds : dataset) s, ds_velocity ds <> [] -> (forall a, In a (ds_velocity ds) -> shp a = s) ->
  exists e sp, kinetic_energy ds = Ok e /\ speed ds = Ok sp /\ shp e = s /\ shp sp = s /\
    forall ix, get e ix = (fold_right Rplus 0 (map (fun a => get a ix * get a ix) (ds_velocity ds)) / 2)%R /\ (0 <= get sp ix)%R /\ (get sp ix * get sp ix / 2 = get e ix)%R.
Proof.
  intros ds s Hl Hs. assert (N : forall x, (0 <= real_n2 x)%R) by (intros x; unfold real_n2; nra).
  destruct (@kinetic_energy_of_spec _ real_n2 (ds_velocity ds) s N Hl Hs) as (e & E & S & G). exists e.
  unfold kinetic_energy. unfold kinetic_energy_of in E. unfold speed. destruct (magnitude real_n2 (ds_velocity ds)) as [sp|] eqn:M; [|discriminate].
  cbn [bind] in E. exists sp. unfold kinetic_energy_of. rewrite M. cbn [bind]. split; [exact E|]. split; [reflexivity|]. split; [exact S|].
  injection E as E. assert (Ssp : shp sp = s) by (rewrite <- E in S; exact S). split; [exact Ssp|].
  intros ix. split; [rewrite G; reflexivity|].
  assert (P : (0 <= get sp ix)%R).
  { unfold magnitude in M. destruct (ds_velocity ds) as [|a l]; [discriminate|]. destruct (forallb _ _); [|discriminate]. injection M as M. rewrite <- M. cbn [get]. apply sqrt_pos. }
  split; [exact P|]. rewrite <- E. cbn [amap get]. field.
Qed.
(* @ex *)
Lemma kinetic_energy_spec_ex_lem : exists e, kinetic_energy (mkds [] [afull [2%nat] 3%R; afull [2%nat] 4%R]) = Ok e /\ get e [1] = (25 / 2)%R.
Proof.
  destruct (@kinetic_energy_spec_lem (mkds [] [afull [2%nat] 3%R; afull [2%nat] 4%R]) [2%nat]) as (e & sp & E & _ & _ & _ & G); [discriminate | |].
  - intros a [<- | [<- | []]]; reflexivity.
  - exists e. split; [exact E|]. rewrite (proj1 (G [1])). cbn. field.
Qed.

(** ** Fourier transform with labelled coordinates *)
Lemma half_freq n h i : (0 < n)%nat -> 0 <= i < Z.of_nat n -> fftfreq n h ((i - Z.of_nat (n / 2)) mod Z.of_nat n) = (IZR (i - Z.of_nat (n / 2)) / (INR n * h))%R.
Proof.
  intros Hn Hi. unfold fftfreq. do 2 f_equal.
  pose proof (Nat2Z.inj_div n 2) as D. change (Z.of_nat 2) with 2 in D. rewrite D. set (N := Z.of_nat n) in *. set (q := N / 2).
  assert (Q : 2 * q <= N <= 2 * q + 1) by (unfold q; pose proof (Z.div_mod N 2 ltac:(lia)); pose proof (Z.mod_pos_bound N 2); lia).
  assert (P : (N - 1) / 2 = N - q - 1).
  { symmetry. apply Z.div_unique with (r := N - 1 - 2 * (N - q - 1)); lia. }
  destruct (Z_lt_le_dec i q).
  - rewrite <- (Z.mod_unique (i - q) N (-1) (i - q + N)) by lia. destruct (Z.ltb_spec (i - q + N) ((N - 1) / 2 + 1)); lia.
  - rewrite Z.mod_small by lia. destruct (Z.ltb_spec (i - q) ((N - 1) / 2 + 1)); lia.
Qed.
Lemma coord_step_uniform c h : uniform_axis c h -> coord_step c = Ok h.
Proof.
  intros (H1 & H2 & H3). unfold coord_step. destruct (Nat.ltb_spec (fst c) 2); [lia|]. rewrite (H3 1). f_equal. ring.
Qed.
Definition kcoord (c : coordinate) (h : R) : coordinate := (fst c, fun i => (2 * PI * fftfreq (fst c) h ((i - Z.of_nat (fst c / 2)) mod Z.of_nat (fst c)))%R).
Lemma fourier_coords_ok cs hs : Forall2 uniform_axis cs hs -> exists ks, mapM fourier_coord cs = Ok ks /\ Forall2 (fun k ch => k = kcoord (fst ch) (snd ch)) ks (combine cs hs) /\ map fst ks = map fst cs.
Proof.
  induction 1 as [|c h cs hs H1 H2 (ks & E & F & M)]; [exists []; repeat split; constructor|].
  exists (kcoord c h :: ks). cbn [mapM combine map]. unfold fourier_coord at 1. rewrite (coord_step_uniform H1). cbn [bind]. rewrite E. cbn [bind]. split; [reflexivity|]. split; [constructor; auto|]. rewrite M. reflexivity.
Qed.
Lemma cis_angle n k j i h : (0 < n)%nat -> (0 < h)%R -> (k - i) mod Z.of_nat n = 0 ->
  dftm n k j = cis (- (2 * PI * (IZR i / (INR n * h)) * (IZR j * h))).
Proof.
  intros Hn Hh Hk. unfold dftm. assert (INR n <> 0%R) by (apply not_0_INR; lia).
  replace (- (2 * PI * (IZR i / (INR n * h)) * (IZR j * h)))%R with (2 * PI * IZR (- (j * i)) / INR n)%R by (rewrite opp_IZR, mult_IZR; field; split; lra).
  rewrite cis_neg_form. apply cis_mod; [exact Hn|]. replace (- (j * k) - - (j * i)) with (- j * (k - i)) by ring.
  apply Z.mod_divide; [lia|]. apply Z.mod_divide in Hk; [|lia]. apply Z.divide_mul_r. exact Hk.
Qed.
Lemma dft_phase cs hs ks : Forall2 uniform_axis cs hs -> Forall2 (fun k ch => k = kcoord (fst ch) (snd ch)) ks (combine cs hs) ->
  forall u ix, inb (map fst cs) ix ->
  Ckron (map fst cs) (map dftm (map fst cs)) u (roll_half (map fst cs) ix) = casum (map fst cs) (fun jx => Cmul (cis (- phase ks cs ix jx)) (u jx)).
Proof.
  intros H. revert ks. induction H as [|c h cs hs H1 H2 IH]; intros ks F u ix Hix.
  - inversion F; subst. destruct ix; [|destruct Hix]. cbn [map kron phase]. unfold casum. cbn [asum]. rewrite Ropp_0, cis_0. ceq.
  - cbn [combine] in F. inversion F as [|k ? ks' ? Ek F']; subst. destruct ix as [|i ix]; [destruct Hix|]. cbn [inb map] in Hix. destruct Hix as [Hi Hix].
    destruct H1 as (Hn & Hh & Hx). cbn [map roll_half kron]. change (gsum C0 Cadd) with csum. rewrite casum_cons. apply csum_ext. intros j _.
    rewrite (IH ks' F' (fun jx => u (j :: jx)) ix Hix). rewrite <- casum_mul_l. apply casum_ext. intros jx _. cbn [phase].
    rewrite (@cis_angle (fst c) _ j (i - Z.of_nat (fst c / 2)) h) by (try exact Hh; try lia; rewrite Zminus_mod_idemp_l, Z.sub_diag; apply Z.mod_0_l; lia).
    cbn [fst snd kcoord]. rewrite half_freq by (auto; lia).
    replace (snd c j - snd c 0%Z)%R with (IZR j * h)%R by (rewrite (Hx j); ring).
    rewrite Ropp_plus_distr, cis_add. ring.
Qed.
Lemma kcoords_nth cs hs ks : Forall2 uniform_axis cs hs -> Forall2 (fun k ch => k = kcoord (fst ch) (snd ch)) ks (combine cs hs) ->
  forall a d, (a < length cs)%nat -> fst (nth a ks d) = fst (nth a cs d) /\ forall i, 0 <= i < Z.of_nat (fst (nth a cs d)) ->
    snd (nth a ks d) i = (2 * PI * IZR (i - Z.of_nat (fst (nth a cs d) / 2)) / (INR (fst (nth a cs d)) * nth a hs 0%R))%R.
Proof.
  intros H. revert ks. induction H as [|c h cs hs H1 H2 IH]; intros ks F a d Ha; [simpl in Ha; lia|].
  cbn [combine] in F. inversion F as [|k ? ks' ? Ek F']; subst. destruct a as [|a].
  - cbn [nth kcoord fst snd]. split; [reflexivity|]. intros i Hi. rewrite half_freq by (destruct H1; auto; lia).
    unfold Rdiv. ring.
  - cbn [nth]. apply IH; [exact F'|simpl in Ha; lia].
Qed.

(* @prop C60 fourier_transform, for any number of dimensions with uniform coordinates of at least two points: the new coordinates are the ascending angular wave numbers 2 pi (i - floor(n/2)) / (n h), and the value stored at each wave vector k is exactly sum over the grid points x of a(x) exp(-i k.(x - x_0)): rolling moved labels and values together. *)
Lemma fourier_transform_spec_lem : forall (cs : list coordinate) (hs : list R) (a : arr R), Forall2 uniform_axis cs hs -> shp a = map fst cs ->
  exists ks F, fourier_transform cs a = Ok (ks, F) /\ shp F = shp a /\ length ks = length cs /\
    (forall ax d, (ax < length cs)%nat -> fst (nth ax ks d) = fst (nth ax cs d) /\ forall i, 0 <= i < Z.of_nat (fst (nth ax cs d)) ->
       snd (nth ax ks d) i = (2 * PI * IZR (i - Z.of_nat (fst (nth ax cs d) / 2)) / (INR (fst (nth ax cs d)) * nth ax hs 0%R))%R) /\
    forall ix, inb (shp a) ix ->
      get F ix = mkC (asum (shp a) (fun jx => get a jx * cos (phase ks cs ix jx))%R) (- asum (shp a) (fun jx => get a jx * sin (phase ks cs ix jx))%R).
Proof.
  intros cs hs a HF Sa. destruct (fourier_coords_ok HF) as (ks & E & F & M). exists ks. unfold fourier_transform. rewrite Sa, shape_eqb_refl. cbn [negb]. rewrite E. cbn [bind].
  eexists. split; [reflexivity|]. cbn [shp get]. split; [reflexivity|]. split; [apply (f_equal (@length nat)) in M; rewrite !map_length in M; exact M|].
  split; [intros ax d Hax; apply (kcoords_nth HF F d Hax)|].
  intros ix Hix. destruct (fftn_kron (amap RtoC a)) as (_ & W). cbn [amap shp] in W. rewrite Sa in W.
  rewrite W by exact (inb_length _ _ (roll_half_inb _ _ Hix)). rewrite (dft_phase HF F) by exact Hix.
  unfold casum. apply Ceq; cbn [re im].
  - apply asum_ext. intros jx _. cbn [Cmul re im cis get amap RtoC]. rewrite cos_neg. ring.
  - rewrite <- asum_opp. apply asum_ext. intros jx _. cbn [Cmul re im cis get amap RtoC]. rewrite sin_neg. ring.
Qed.
Definition ex_axis (n : nat) (h : R) : coordinate := (n, fun i => ((IZR i + 1 / 2) * h)%R).
Lemma ex_axis_uniform n h : (2 <= n)%nat -> (0 < h)%R -> uniform_axis (ex_axis n h) h.
Proof. intros Hn Hh. split; [exact Hn|]. split; [exact Hh|]. intros i. cbn. lra. Qed.
(* @ex *)
Lemma fourier_transform_spec_ex_lem : Forall2 uniform_axis [ex_axis 4 (1/4); ex_axis 3 2] [(1/4)%R; 2%R] /\ shp (afull [4%nat; 3%nat] 1%R) = map fst [ex_axis 4 (1/4); ex_axis 3 2].
Proof. split; [|reflexivity]. repeat constructor; cbn; try lia; try lra; intros; lra. Qed.

(* @prop C60 energy_spectrum satisfies Parseval's identity: on any uniform grid and any velocity with one or more components the spectrum summed over all wave vectors equals the number of grid points times the kinetic energy summed over all points; its entries are not negative. *)
Lemma energy_spectrum_parseval_lem : forall (ds : dataset) (hs : list R), Forall2 uniform_axis (ds_coords ds) hs -> ds_velocity ds <> [] ->
  (forall a, In a (ds_velocity ds) -> shp a = map fst (ds_coords ds)) ->
  exists ks E e, energy_spectrum ds = Ok (ks, E) /\ kinetic_energy ds = Ok e /\ shp E = map fst (ds_coords ds) /\ shp e = map fst (ds_coords ds) /\
    (forall ix, (0 <= get E ix)%R) /\ total E = (INR (asize (shp e)) * total e)%R.
Proof.
  intros ds hs HF Hl Hs. set (s := map fst (ds_coords ds)) in *.
  assert (Hp : allpos s) by (unfold s, allpos; clear - HF; induction HF as [|c h cs hs (H1 & _) H2 IH]; constructor; [lia | exact IH]).
  destruct (fourier_coords_ok HF) as (ks & Ek & _ & _).
  set (G := fun a : arr R => mkarr (shp a) (fun ix => get (fftn (amap RtoC a)) (roll_half (shp a) ix))).
  assert (M : mapM (fourier_transform (ds_coords ds)) (ds_velocity ds) = Ok (map (fun a => (ks, G a)) (ds_velocity ds))).
  { clear Hl. revert Hs. generalize (ds_velocity ds). induction l as [|a l IH]; intros Hs; [reflexivity|]. cbn [mapM map]. unfold fourier_transform at 1.
    rewrite (Hs a (or_introl eq_refl)) at 1. fold s. rewrite shape_eqb_refl. cbn [negb]. rewrite Ek. cbn [bind]. rewrite IH by (intros b Hb; apply Hs; right; exact Hb). reflexivity. }
  unfold energy_spectrum. rewrite M. cbn [bind]. rewrite map_map. cbn [snd].
  destruct (@kinetic_energy_of_spec _ Cn2 (map G (ds_velocity ds)) s) as (E & HE & SE & GE).
  { intros z. unfold Cn2. nra. } { destruct (ds_velocity ds); [congruence | discriminate]. }
  { intros b Hb. apply in_map_iff in Hb. destruct Hb as (a & <- & Ha). cbn. apply Hs, Ha. }
  destruct (@kinetic_energy_of_spec _ real_n2 (ds_velocity ds) s) as (e & He & Se & Ge); [intros x; unfold real_n2; nra | exact Hl | exact Hs |].
  exists ks, E, e. change (map (fun x => G x) (ds_velocity ds)) with (map G (ds_velocity ds)). rewrite HE. cbn [bind]. rewrite Ek. cbn [bind].
  split; [reflexivity|]. split; [exact He|]. split; [exact SE|]. split; [exact Se|]. split.
  - intros ix. rewrite GE. assert (0 <= fold_right Rplus 0 (map (fun a => Cn2 (get a ix)) (map G (ds_velocity ds))))%R; [|lra].
    apply (@lsum_n2_nonneg _ (fun a => Cn2 (get a ix))). intros a. unfold Cn2. nra.
  - unfold total. rewrite SE, Se.
    rewrite (@asum_ext s (get E) (fun ix => / 2 * fold_right Rplus 0 (map (fun a => Cn2 (get (G a) ix)) (ds_velocity ds)))%R) by (intros; rewrite GE, map_map; lra).
    rewrite (@asum_ext s (get e) (fun ix => / 2 * fold_right Rplus 0 (map (fun a => real_n2 (get a ix)) (ds_velocity ds)))%R) by (intros; rewrite Ge; lra).
    rewrite !asum_scal.
    enough (X : (asum s (fun ix => fold_right Rplus 0 (map (fun a => Cn2 (get (G a) ix)) (ds_velocity ds))) = INR (asize s) * asum s (fun ix => fold_right Rplus 0 (map (fun a => real_n2 (get a ix)) (ds_velocity ds))))%R) by (rewrite X; ring).
    clear - Hs Hp. revert Hs. generalize (ds_velocity ds). induction l as [|a l IH]; intros Hs; cbn [map fold_right]; [rewrite asum_0; ring|].
    rewrite !asum_plus, IH by (intros b Hb; apply Hs; right; exact Hb). rewrite Rmult_plus_distr_l. f_equal.
    unfold G. cbn [get]. rewrite (Hs a (or_introl eq_refl)). rewrite (@asum_roll_half s (fun ix => Cn2 (get (fftn (amap RtoC a)) ix))) by exact Hp.
    destruct (fftn_kron (amap RtoC a)) as (_ & W). cbn [amap shp] in W. rewrite (Hs a (or_introl eq_refl)) in W. fold s in W.
    rewrite (@asum_ext s _ (fun kx => Cn2 (Ckron s (map dftm s) (get (amap RtoC a)) kx))) by (intros kx Hk; rewrite W by exact (inb_length _ _ Hk); reflexivity).
    rewrite parseval_nd by exact Hp. f_equal. apply asum_ext. intros jx _. unfold Cn2, real_n2. cbn. ring.
Qed.
(* @ex *)
Lemma energy_spectrum_parseval_ex_lem : let ds := mkds [ex_axis 4 (1/4); ex_axis 3 2] [afull [4%nat; 3%nat] 1%R; afull [4%nat; 3%nat] 2%R] in
  Forall2 uniform_axis (ds_coords ds) [(1/4)%R; 2%R] /\ ds_velocity ds <> [] /\ (forall a, In a (ds_velocity ds) -> shp a = map fst (ds_coords ds)).
Proof.
  split; [apply fourier_transform_spec_ex_lem|]. split; [discriminate|]. intros a [<- | [<- | []]]; reflexivity.
Qed.

(** ** From a trajectory to a dataset *)
Lemma py_index_nat {A} (l : list A) k : py_index l (Z.of_nat k) = match nth_error l k with Some x => Ok x | None => Err EIndex end.
Proof. unfold py_index. replace (Z.of_nat k <? 0) with false by (symmetry; apply Z.ltb_ge; lia). rewrite ?(proj2 (Z.ltb_ge (Z.of_nat k) 0)) by lia. rewrite Nat2Z.id. reflexivity. Qed.
Lemma mapM_pick {A} (l : list A) (f : nat -> result A) : forall k m, (m + k = length l)%nat -> (forall i, (k <= i < length l)%nat -> exists x, nth_error l i = Some x /\ f i = Ok x) ->
  mapM f (seq k m) = Ok (skipn k l).
Proof.
  intros k m. revert k. induction m as [|m IH]; intros k Hk H; cbn [seq mapM].
  - rewrite skipn_all2 by lia. reflexivity.
  - destruct (H k ltac:(lia)) as (x & Ex & ->). cbn [bind]. rewrite IH by (try lia; intros i Hi; apply H; lia). cbn [bind]. f_equal.
    clear - Ex. revert k Ex. induction l as [|a l IH]; intros [|k] Ex; try discriminate; cbn in *; [congruence|]. apply IH. exact Ex.
Qed.
(* @prop C60 velocity_trajectory_to_xarray of a d-component velocity, optionally preceded by one scalar, on a grid with d <= 3 axes stores exactly these arrays under the scalar name and u, v, w, in order, with the coordinates of the cell centres: lower + (i + 1/2) * step on every axis. *)
Lemma trajectory_to_xarray_spec_lem : forall (scalars velocity : list (arr R)) (g : grid), wfg g -> length velocity = gndim g -> (gndim g <= 3)%nat -> (length scalars <= 1)%nat ->
  exists axes, velocity_trajectory_to_xarray (scalars ++ velocity) g = Ok (scalars, mkds axes velocity) /\ length axes = gndim g /\
    forall a, (a < gndim g)%nat -> fst (nth a axes (0%nat, fun _ => 0%R)) = nth a (gshape g) 0%nat /\
      forall i, snd (nth a axes (0%nat, fun _ => 0%R)) i = (fst (nth a (gdomain g) (0, 0)) + (IZR i + 1 / 2) * hstep g a)%R.
Proof.
  intros sc vel g Hw HL Hd Hs. assert (Hcc : length (cell_center g) = gndim g) by (unfold cell_center; apply repeat_length).
  destruct (@grid_axes_spec g (cell_center g) Hw Hcc) as (axes & Ea & HLa & Ha). exists axes. split; [|split; auto].
  - unfold velocity_trajectory_to_xarray. rewrite app_length, HL.
    replace (Z.of_nat (length sc + gndim g) - Z.of_nat (gndim g)) with (Z.of_nat (length sc)) by lia. rewrite Nat2Z.id.
    rewrite (@mapM_pick _ sc _ 0 (length sc)).
    2: lia.
    2:{ intros i Hi. destruct (nth_error sc i) as [x|] eqn:Ex; [|apply nth_error_None in Ex; lia]. exists x. split; auto. rewrite !py_index_nat.
        assert (i = 0)%nat by lia. subst i. change (nth_error [tt] 0) with (Some tt). cbn [bind]. rewrite nth_error_app1 by lia. rewrite Ex. reflexivity. }
    cbn [bind]. rewrite (@mapM_pick _ vel _ 0 (gndim g)).
    2: lia.
    2:{ intros i Hi. destruct (nth_error vel i) as [x|] eqn:Ex; [|apply nth_error_None in Ex; lia]. exists x. split; auto. rewrite py_index_nat.
        replace (nth_error [tt; tt; tt] i) with (Some tt) by (destruct i as [|[|[|i]]]; try reflexivity; lia). cbn [bind].
        rewrite <- Nat2Z.inj_add, py_index_nat, nth_error_app2 by lia. replace (i + length sc - length sc)%nat with i by lia. rewrite Ex. reflexivity. }
    cbn [skipn].
    cbn [bind]. rewrite Ea. reflexivity.
  - intros a Hlt. destruct (Ha a Hlt) as (H1 & H2). split; auto. intros i. rewrite H2. unfold cell_center. rewrite nth_repeat' by lia.
    replace (Q2R (1 # 2)) with (1 / 2)%R by (unfold Q2R; cbn; lra). reflexivity.
Qed.
(* @ex *)
Lemma trajectory_to_xarray_spec_ex_lem : let g := mkgrid [3%nat; 2%nat] [1%R; 2%R] [(0%R, 3%R); (0%R, 4%R)] in
  wfg g /\ length [afull [3%nat; 2%nat] 1%R; afull [3%nat; 2%nat] 2%R] = gndim g /\ (gndim g <= 3)%nat /\ (length [afull [3%nat; 2%nat] 7%R] <= 1)%nat.
Proof. split; [repeat split; repeat constructor; (lia || lra)|]. repeat split; cbn; unfold gndim; cbn; lia. Qed.
(* @prop C60 Two or more scalar components in front of the velocity are an IndexError (there is only one scalar name). *)
Lemma trajectory_two_scalars_lem : forall (trajectory : list (arr R)) (g : grid), (gndim g + 2 <= length trajectory)%nat ->
  velocity_trajectory_to_xarray trajectory g = Err EIndex.
Proof.
  intros tr g H. unfold velocity_trajectory_to_xarray. replace (Z.to_nat (Z.of_nat (length tr) - Z.of_nat (gndim g))) with (S (S (length tr - gndim g - 2))) by lia.
  cbn [seq mapM]. rewrite !py_index_nat. destruct tr as [|a [|b tr]]; [cbn in H; lia | cbn in H; lia |]. reflexivity.
Qed.
(* @ex *)
Lemma trajectory_two_scalars_ex_lem : let g := mkgrid [3%nat] [1%R] [(0%R, 3%R)] in (gndim g + 2 <= length [afull [3%nat] 1%R; afull [3%nat] 2%R; afull [3%nat] 3%R])%nat.
Proof. unfold gndim; cbn; lia. Qed.
(* @prop C60 A trajectory with too few components is not rejected: with one component on a two-dimensional grid, velocity_trajectory_to_xarray stores that component both as u and as v. *)
Lemma trajectory_missing_component_refuted_lem : ~ (forall (trajectory : list (arr R)) (g : grid), wfg g -> (length trajectory < gndim g)%nat ->
  ~ is_ok (velocity_trajectory_to_xarray trajectory g)).
Proof.
  intros H. apply (H [afull [3%nat; 2%nat] 1%R] (mkgrid [3%nat; 2%nat] [1%R; 2%R] [(0%R, 3%R); (0%R, 4%R)])).
  - repeat split; repeat constructor; (lia || lra).
  - unfold gndim; cbn; lia.
  - exact I || (eexists; reflexivity).
Qed.

(** ** Vorticity *)
Lemma vort_roll g u ax ix : shp (gdata u) = gshape g -> (ax < 2)%nat -> gndim g = 2%nat -> inb (gshape g) ix ->
  get (xr_roll ax (-1) (gdata u)) ix = pval u (next ax ix).
Proof.
  intros Hs Hax Hd Hi. unfold pval, xr_roll, next, shiftix. cbn [get]. rewrite Hs. unfold gndim in Hd.
  destruct (gshape g) as [|n [|m [|? ?]]]; try discriminate Hd. destruct ix as [|i [|j [|? ?]]]; try (cbn [inb] in Hi; tauto).
  cbn [inb] in Hi. destruct ax as [|[|ax]]; try lia; cbn [upd nth wrap]; repeat f_equal; rewrite ?Z.mod_small; lia.
Qed.
(* @prop C60 vorticity_2d of the dataset made from a periodic staggered two-dimensional velocity is, entry by entry, curl_2d of that velocity (whatever the grid steps), and enstrophy_2d is half its square. *)
Lemma vorticity_2d_is_curl_lem : forall (g : grid) (o : list Q) (u v : gvar), periodic_vec g [u; v] -> face_aligned o [u; v] -> length o = 2%nat -> gndim g = 2%nat -> Forall (fun n => (2 <= n)%nat) (gshape g) ->
  exists ds w e c, velocity_trajectory_to_xarray [gdata (garray u); gdata (garray v)] g = Ok ([], ds) /\
    vorticity_2d ds = Ok w /\ enstrophy_2d ds = Ok e /\ curl_2d [u; v] = Ok c /\
    shp w = gshape g /\ shp e = gshape g /\ shp (gdata c) = gshape g /\
    forall ix, inb (gshape g) ix -> get w ix = get (gdata c) ix /\ get e ix = (get (gdata c) ix ^ 2 / 2)%R.
Proof.
  intros g o u v Hv Hfa Ho Hd Hn. pose proof Hv as (_ & HF). inversion HF as [|? ? (Hu & Gu) HF2]; subst. inversion HF2 as [|? ? (Hv' & Gv) _]; subst. clear HF2.
  set (g := ggrid (garray u)) in *. assert (Hw : wfg g) by apply Hu.
  assert (Su : shp (gdata (garray u)) = gshape g) by apply Hu. assert (Sv : shp (gdata (garray v)) = gshape g) by (rewrite <- Gv; apply Hv').
  destruct (@trajectory_to_xarray_spec_lem [] [gdata (garray u); gdata (garray v)] g Hw) as (axes & Ea & HLa & Ha); [cbn; lia | lia | cbn; lia |].
  cbn [app] in Ea. rewrite Hd in HLa. destruct axes as [|ax [|ay [|? ?]]]; try discriminate HLa.
  destruct (Ha 0%nat ltac:(lia)) as (X1 & X2). destruct (Ha 1%nat ltac:(lia)) as (Y1 & Y2). cbn [nth] in X1, X2, Y1, Y2.
  assert (Hs2 : exists n m, gshape g = [n; m] /\ (2 <= n)%nat /\ (2 <= m)%nat).
  { unfold gndim in Hd. destruct (gshape g) as [|n [|m [|? ?]]]; try discriminate Hd. exists n, m. inversion Hn as [|? ? A B]; subst. inversion B; subst. auto. }
  destruct Hs2 as (n & m & Es & Hn2 & Hm2). rewrite Es in X1, Y1. cbn [nth] in X1, Y1.
  assert (Sx : coord_step ax = Ok (hstep g 0)) by (unfold coord_step; rewrite X1; replace (n <? 2)%nat with false by (symmetry; apply Nat.ltb_ge; lia); f_equal; rewrite !X2; cbn; ring).
  assert (Sy : coord_step ay = Ok (hstep g 1)) by (unfold coord_step; rewrite Y1; replace (m <? 2)%nat with false by (symmetry; apply Nat.ltb_ge; lia); f_equal; rewrite !Y2; cbn; ring).
  destruct (@forward_difference_spec_lem v 0 Hv') as (a & Ea' & Fa); [rewrite Gv; lia|].
  destruct (@forward_difference_spec_lem u 1 Hu) as (b & Eb & Fb); [fold g; lia|].
  rewrite Gv in Fa. fold g in Fb.
  assert (Pa : prep g (offs 0 (1 # 2) (offs 1 (1 # 2) o)) (fun ix => (pval (garray v) (next 0 ix) - pval (garray v) ix) / hstep g 0)%R a).
  { eapply prep_off; [|exact Fa]. pose proof (Hfa 1%nat v eq_refl) as Hov. apply off_eq_offs; [exact Hov | reflexivity]. }
  assert (Pb : prep g (offs 0 (1 # 2) (offs 1 (1 # 2) o)) (fun ix => (pval (garray u) (next 1 ix) - pval (garray u) ix) / hstep g 1)%R b).
  { eapply prep_off; [|exact Fb]. pose proof (Hfa 0%nat u eq_refl) as Hou. eapply off_eq_trans; [apply off_eq_offs; [exact Hou | reflexivity]|]. apply offs_comm. }
  destruct (prep_op2 Rminus Pa Pb) as (c & Ec & (Gc & Oc & Sc & Dc)).
  exists (mkds [ax; ay] [gdata (garray u); gdata (garray v)]).
  unfold enstrophy_2d, vorticity_2d. cbn [ds_coords ds_velocity]. rewrite Sx, Sy. cbn [bind]. unfold ew. cbn [xr_roll amap amap2 shp]. rewrite !shape_eqb_refl. cbn [bind].
  cbn [amap2 shp amap xr_roll]. rewrite Su, Sv, shape_eqb_refl. cbn [bind].
  eexists. eexists. exists c. split; [exact Ea|]. split; [reflexivity|]. split; [reflexivity|].
  split; [|split; [exact Sv | split; [exact Sv | split; [exact Sc|]]]].
  { unfold curl_2d. cbn [map]. rewrite (@consistent_grid_all g [garray u; garray v]); [|simpl; lia | simpl; intros x [<-|[<-|[]]]; auto].
    cbn [bind]. rewrite Hd. cbn [Nat.eqb negb]. rewrite Ea'. cbn [bind]. rewrite Eb. cbn [bind]. exact Ec. }
  intros ix Hi. cbn [amap amap2 get].
  assert (E : ((get (xr_roll 0 (-1)%Z (gdata (garray v))) ix - get (gdata (garray v)) ix) / hstep g 0 - (get (xr_roll 1 (-1)%Z (gdata (garray u))) ix - get (gdata (garray u)) ix) / hstep g 1 = get (gdata c) ix)%R).
  { rewrite (Dc ix Hi). rewrite !(@vort_roll g) by (auto; lia). rewrite <- (@pval_inb (garray u) ix) by (rewrite Su; exact Hi). rewrite <- (@pval_inb (garray v) ix) by (rewrite Sv; exact Hi). reflexivity. }
  cbn [xr_roll get shp] in E. rewrite Su, Sv in E. cbn [xr_roll get]. rewrite ?Su, ?Sv. split; rewrite <- E; reflexivity.
Qed.

(* @ex *)
Lemma vorticity_2d_is_curl_ex_lem :
  let g := mkgrid [3%nat; 2%nat] [1%R; 2%R] [(0%R, 3%R); (0%R, 4%R)] in
  let u := mkgv (mkga (mkarr [3%nat; 2%nat] (fun ix => IZR (nth 0 ix 0 * 10 + nth 1 ix 0)%Z)) [1%Q; (1 # 2)%Q] g) (periodic_bc 2) in
  let v := mkgv (mkga (mkarr [3%nat; 2%nat] (fun ix => IZR (nth 1 ix 0)%Z)) [(1 # 2)%Q; 1%Q] g) (periodic_bc 2) in
  periodic_vec g [u; v] /\ face_aligned [(1 # 2)%Q; (1 # 2)%Q] [u; v] /\ Forall (fun n => (2 <= n)%nat) (gshape g).
Proof.
  cbv zeta. split; [|split].
  - split; [reflexivity|]. repeat constructor; (lia || lra).
  - intros [|[|i]] w E; try (destruct i; discriminate E); injection E as <-; repeat constructor.
  - repeat constructor.
Qed.

(** ** Autocorrelation *)
Lemma dftm_shift n k j d : (0 < n)%nat -> dftm n k d = Cmul (Cconj (dftm n k j)) (dftm n k ((d + j) mod Z.of_nat n)).
Proof.
  intros Hn. unfold dftm. rewrite Cconj_cis, Ropp_involutive, cis_combine, cis_neg_form. apply cis_mod; [exact Hn|].
  pose proof (Z.div_mod (d + j) (Z.of_nat n) ltac:(lia)) as E. replace ((d + j) mod Z.of_nat n) with (d + j - Z.of_nat n * ((d + j) / Z.of_nat n)) by lia.
  replace (- (d * k) - (j * k - (d + j - Z.of_nat n * ((d + j) / Z.of_nat n)) * k)) with ((- ((d + j) / Z.of_nat n) * k) * Z.of_nat n) by ring.
  apply Z_mod_mult.
Qed.
Lemma correlation_theorem n (u v : Z -> R) k : (0 < n)%nat ->
  fft1 n (fun d => RtoC (rsum n (fun j => u j * v ((j + d) mod Z.of_nat n))))%R k = Cmul (Cconj (fft1 n (fun j => RtoC (u j)) k)) (fft1 n (fun j => RtoC (v j)) k).
Proof.
  intros Hn. unfold fft1 at 1.
  transitivity (csum n (fun d => csum n (fun j => Cmul (dftm n k d) (Cmul (RtoC (u j)) (RtoC (v ((j + d) mod Z.of_nat n))))))).
  - apply csum_ext. intros d _. rewrite RtoC_rsum. rewrite <- csum_scal. apply csum_ext. intros j _. rewrite RtoC_mul. reflexivity.
  - rewrite csum_swap. unfold fft1 at 1. rewrite Cconj_sum. rewrite <- csum_scal_r. apply csum_ext. intros j _. rewrite Cconj_mul, Cconj_RtoC.
    transitivity (Cmul (Cmul (Cconj (dftm n k j)) (RtoC (u j))) (csum n (fun d => (fun p => Cmul (dftm n k p) (RtoC (v p))) ((d + j) mod Z.of_nat n)))).
    + rewrite <- csum_scal. apply csum_ext. intros d _. rewrite (@dftm_shift n k j d Hn) at 1. rewrite (Z.add_comm j d). ring.
    + rewrite (@csum_mod_shift n j (fun p => Cmul (dftm n k p) (RtoC (v p)))) by exact Hn. reflexivity.
Qed.
Lemma periodic_correlate_value n u v d : 0 <= d < Z.of_nat n -> periodic_correlate n u v d = rsum n (fun j => u j * v ((j + d) mod Z.of_nat n))%R.
Proof.
  intros Hd. assert (Hn : (0 < n)%nat) by lia. unfold periodic_correlate.
  rewrite (@ifft1_ext n _ (fft1 n (fun d => RtoC (rsum n (fun j => u j * v ((j + d) mod Z.of_nat n))%R)))) by (intros k _; symmetry; apply correlation_theorem; exact Hn).
  rewrite ifft1_fft1 by exact Hd. reflexivity.
Qed.
(* @prop C60 spatial_autocorrelation reports, for displacement number d < n/2, the mean over the line of u_i * u_{i+d} (periodic): the mean square at displacement 0, and no larger in magnitude anywhere; the same mean for displacement n-d. Neighbouring displacement labels differ by the grid step. *)
Lemma autocorrelation_spec_lem : forall (c : coordinate) (u : Z -> R) h, uniform_axis c h ->
  let r := spatial_autocorrelation c u in let n := fst c in
  let cor := fun d => (rsum n (fun i => u i * u ((i + d) mod Z.of_nat n)) / INR n)%R in
  fst (fst r) = (n / 2)%nat /\
  (forall d, 0 <= d < Z.of_nat (n / 2) -> snd r d = cor d) /\
  snd r 0 = (rsum n (fun i => u i ^ 2) / INR n)%R /\
  (forall d, (Rabs (cor d) <= cor 0%Z)%R) /\ (forall d, cor (Z.of_nat n - d) = cor d) /\
  forall d, snd (fst r) (d + 1) = (snd (fst r) d + h)%R.
Proof.
  intros c u h (H2 & Hh & Hc) r n cor. fold n in H2. assert (Hn : (0 < INR n)%R) by (apply lt_0_INR; lia).
  assert (Hdiv : Z.of_nat (n / 2) <= Z.of_nat n) by (apply inj_le, Nat.lt_le_incl, Nat.div_lt; lia).
  split; [reflexivity|]. split; [|split; [|split; [|split]]].
  - intros d Hd. unfold r, spatial_autocorrelation, cor. cbn [snd fst]. fold n. rewrite periodic_correlate_value by lia. reflexivity.
  - unfold r, spatial_autocorrelation. cbn [snd fst]. fold n. rewrite periodic_correlate_value by lia. f_equal. apply rsum_ext. intros i Hi.
    rewrite Z.add_0_r, Z.mod_small by lia. ring.
  - intros d. unfold cor. unfold Rdiv. rewrite Rabs_mult, (Rabs_right (/ INR n)) by (left; apply Rinv_0_lt_compat; exact Hn).
    apply Rmult_le_compat_r; [left; apply Rinv_0_lt_compat; exact Hn|].
    assert (S1 : rsum n (fun i => u i * u ((i + 0) mod Z.of_nat n))%R = rsum n (fun i => Rsqr (u i))).
    { apply rsum_ext. intros i Hi. rewrite Z.add_0_r, Z.mod_small by lia. reflexivity. }
    assert (S2 : rsum n (fun i => Rsqr (u ((i + d) mod Z.of_nat n))) = rsum n (fun i => Rsqr (u i))) by (apply (@rsum_mod_shift n d (fun i => Rsqr (u i))); lia).
    rewrite S1. apply Rabs_le.
    assert (A : (rsum n (fun i => u i * u ((i + d) mod Z.of_nat n)) <= rsum n (fun i => / 2 * (Rsqr (u i) + Rsqr (u ((i + d) mod Z.of_nat n)))))%R).
    { apply rsum_le. intros i _. pose proof (Rle_0_sqr (u i - u ((i + d) mod Z.of_nat n))) as Q. unfold Rsqr in *. lra. }
    assert (B : (rsum n (fun i => - / 2 * (Rsqr (u i) + Rsqr (u ((i + d) mod Z.of_nat n)))) <= rsum n (fun i => u i * u ((i + d) mod Z.of_nat n)))%R).
    { apply rsum_le. intros i _. pose proof (Rle_0_sqr (u i + u ((i + d) mod Z.of_nat n))) as Q. unfold Rsqr in *. lra. }
    rewrite rsum_scal, rsum_plus, S2 in A, B. lra.
  - intros d. unfold cor. f_equal.
    rewrite <- (@rsum_mod_shift n d (fun i => u i * u ((i + (Z.of_nat n - d)) mod Z.of_nat n))%R) by lia. apply rsum_ext. intros i Hi.
    rewrite Rmult_comm. f_equal. f_equal. rewrite Zplus_mod_idemp_l. replace (i + d + (Z.of_nat n - d)) with (i + 1 * Z.of_nat n) by ring.
    rewrite Z_mod_plus_full. apply Z.mod_small. lia.
  - intros d. unfold r, spatial_autocorrelation. cbn [fst snd]. rewrite (Hc (d + 1)), (Hc d), plus_IZR. ring.
Qed.
(* @ex *)
Lemma autocorrelation_spec_ex_lem : uniform_axis (ex_axis 4 (1/4)) (1/4).
Proof. apply ex_axis_uniform; [lia | lra]. Qed.
(* @prop C60 The displacement labels are not the displacements: they are the coordinates of the first cell centres, so with the coordinates a dataset has on the grid of 4 cells on [0, 4] the zero displacement (the mean square) is labelled 1/2. *)
Lemma autocorrelation_labels_refuted_lem : ~ (forall (g : grid) c u, wfg g -> grid_axes g (Some (cell_center g)) = Ok [c] -> snd (fst (spatial_autocorrelation c u)) 0 = 0%R).
Proof.
  intros H. specialize (H (mkgrid [4%nat] [1%R] [(0%R, 4%R)]) (4%nat, fun i => (0 + (IZR i + Q2R (1 # 2)) * 1)%R) (fun _ => 0%R)).
  assert (E : snd (fst (spatial_autocorrelation (4%nat, fun i : Z => (0 + (IZR i + Q2R (1 # 2)) * 1)%R) (fun _ : Z => 0%R))) 0 = 0%R).
  { apply H; [repeat split; repeat constructor; (lia || lra) | reflexivity]. }
  unfold spatial_autocorrelation in E. cbn [fst snd] in E. unfold Q2R in E. cbn in E. lra.
Qed.
(* @prop C60 The reported half does not contain every distinct displacement: on a line of two cells only displacement 0 is reported, although the correlation at displacement 1 differs from it. *)
Lemma autocorrelation_half_refuted_lem : ~ (forall (c : coordinate) (u : Z -> R) h, uniform_axis c h -> forall d, 0 <= d < Z.of_nat (fst c) ->
  exists d', 0 <= d' < Z.of_nat (fst (fst (spatial_autocorrelation c u))) /\
    snd (spatial_autocorrelation c u) d' = (rsum (fst c) (fun i => u i * u ((i + d) mod Z.of_nat (fst c))) / INR (fst c))%R).
Proof.
  intros H. destruct (H (ex_axis 2 1) (fun i => IZR i) 1%R) with (d := 1) as (d' & Hd & E); [apply ex_axis_uniform; [lia | lra] | cbn; lia |].
  assert (d' = 0) by (cbn in Hd; lia). subst d'.
  pose proof (@autocorrelation_spec_lem (ex_axis 2 1) (fun i => IZR i) 1%R (ex_axis_uniform (le_n 2) Rlt_0_1)) as (_ & _ & E0 & _).
  rewrite E0 in E. cbn in E. lra.
Qed.

(** ** Shell-summed spectrum *)
Definition isbelow (x b : R) : bool := if Rlt_dec b x then true else false.
Lemma isbelow_iff x b : isbelow x b = true <-> (b < x)%R.
Proof. unfold isbelow. destruct (Rlt_dec b x); split; intros; auto; try discriminate; contradiction. Qed.
Lemma below_count (f : nat -> R) x : (forall i j, (i < j)%nat -> (f i < f j)%R) -> forall m,
  let c := length (filter (isbelow x) (map f (seq 0 m))) in (c <= m)%nat /\ forall j, (j < m)%nat -> ((f j < x)%R <-> (j < c)%nat).
Proof.
  intros Hf. induction m as [|m (IH1 & IH2)]; [split; [reflexivity|intros; lia]|].
  rewrite seq_S, map_app, filter_app, app_length. cbn [Nat.add map filter]. set (c := length (filter (isbelow x) (map f (seq 0 m)))) in *.
  destruct (isbelow x (f m)) eqn:E; cbn [length].
  - apply isbelow_iff in E. assert (Hc : c = m).
    { destruct m as [|m']; [lia|]. assert ((m' < c)%nat); [|lia]. apply IH2; [lia|]. pose proof (Hf m' (S m') ltac:(lia)). lra. }
    split; [lia|]. intros j Hj. split; [intros _; lia|]. intros _. destruct (Nat.eq_dec j m) as [->|]; [exact E|]. apply IH2; lia.
  - split; [lia|]. intros j Hj. rewrite Nat.add_0_r. destruct (Nat.eq_dec j m) as [->|]; [|apply IH2; lia].
    split; [intros Hx; apply isbelow_iff in Hx; congruence | intros; lia].
Qed.
Lemma cut_iff (f : nat -> R) x K i : (forall i j, (i < j)%nat -> (f i < f j)%R) -> cut (map f (seq 0 (S K))) x = Some i <-> (i < K)%nat /\ (f i < x)%R /\ (x <= f (S i))%R.
Proof.
  intros Hf. pose proof (@below_count f x Hf (S K)) as H. cbv zeta in H. unfold cut. fold (isbelow x).
  change (filter (fun b : R => if Rlt_dec b x then true else false)) with (filter (isbelow x)).
  set (c := length (filter (isbelow x) (map f (seq 0 (S K))))) in *. rewrite map_length, seq_length. destruct H as (H1 & H2).
  destruct (Nat.eqb_spec c 0) as [E0|E0]; [|destruct (Nat.eqb_spec c (S K)) as [E1|E1]]; cbn [orb].
  - split; [discriminate|]. intros (A & B & _). apply H2 in B; lia.
  - split; [discriminate|]. intros (A & B & C). assert (f (S i) < x)%R by (apply H2; lia). lra.
  - split.
    + intros E. injection E as <-. split; [lia|]. split; [apply H2; lia|]. apply Rnot_lt_le. intros C. apply H2 in C; lia.
    + intros (A & B & C). f_equal. apply H2 in B; [|lia]. destruct (Nat.eq_dec c (S i)); [lia|]. assert (f (S i) < x)%R by (apply H2; lia). lra.
Qed.
Lemma shell_join s ks e a b c : (a <= b)%R -> (b <= c)%R -> (shell_energy s ks e a b + shell_energy s ks e b c = shell_energy s ks e a c)%R.
Proof.
  intros H1 H2. unfold shell_energy. rewrite <- asum_plus. apply asum_ext. intros ix _.
  destruct (Rlt_dec a (wave_magnitude ks ix)), (Rle_dec (wave_magnitude ks ix) b), (Rlt_dec b (wave_magnitude ks ix)), (Rle_dec (wave_magnitude ks ix) c); try lra.
Qed.
Lemma shell_empty s ks e a : shell_energy s ks e a a = 0%R.
Proof.
  unfold shell_energy. transitivity (asum s (fun _ => 0%R)); [|apply asum_0]. apply asum_ext. intros ix _.
  destruct (Rlt_dec a (wave_magnitude ks ix)), (Rle_dec (wave_magnitude ks ix) a); lra.
Qed.
Lemma wave_square_map ks ix : wave_square ks ix = fold_right Rplus 0%R (map (fun ci => real_n2 (snd (fst ci) (snd ci))) (combine ks ix)).
Proof. revert ix. induction ks as [|k ks IH]; intros [|i ix]; try reflexivity. cbn. rewrite IH. unfold real_n2. ring. Qed.
Lemma fold_max_spec l : forall x y, (In y (x :: l)) -> (forall z, In z (x :: l) -> (z <= y)%R) -> fold_left Rmax l x = y.
Proof.
  induction l as [|a l IH]; intros x y Hi Hy.
  - destruct Hi as [-> | []]. reflexivity.
  - cbn [fold_left]. apply IH.
    + destruct Hi as [-> | [-> | Hi]]; [left; apply Rmax_left, Hy; right; left; reflexivity | left; apply Rmax_right, Hy; left; reflexivity | right; exact Hi].
    + intros z [<- | Hz]; [|apply Hy; right; right; exact Hz]. apply Rmax_lub; apply Hy; [left | right; left]; reflexivity.
Qed.
Lemma spaced_step c h : spaced_axis c h -> coord_step c = Ok h.
Proof.
  intros (H1 & H2 & H3). unfold coord_step. destruct (Nat.ltb_spec (fst c) 2); [lia|]. rewrite (H3 1) by lia. f_equal. ring.
Qed.
Lemma spaced_max c h : spaced_axis c h -> coord_max c = Ok (snd c (Z.of_nat (fst c) - 1)).
Proof.
  intros (H1 & H2 & H3). unfold coord_max. destruct (fst c) as [|n] eqn:En; [lia|]. cbn [seq map]. f_equal. apply fold_max_spec.
  - right. replace (Z.of_nat (S n) - 1) with (Z.of_nat n) by lia. apply (in_map (fun i => snd c (Z.of_nat i))). apply in_seq. lia.
  - intros z Hz. assert (exists i, (i <= n)%nat /\ z = snd c (Z.of_nat i)) as (i & Hi & ->).
    { destruct Hz as [<- | Hz]; [exists 0%nat; split; [lia|reflexivity]|]. apply in_map_iff in Hz. destruct Hz as (i & <- & Hi). apply in_seq in Hi. exists i. split; [lia|reflexivity]. }
    rewrite (H3 (Z.of_nat i)), (H3 (Z.of_nat (S n) - 1)) by lia. apply Rplus_le_compat_l, Rmult_le_compat_r; [lra|]. apply IZR_le. lia.
Qed.
Lemma max_of_spec l x : In x l -> (forall z, In z l -> (z <= x)%R) -> max_of l = Ok x.
Proof. destruct l as [|a l]; intros H1 H2; [destruct H1|]. unfold max_of. f_equal. apply fold_max_spec; auto. Qed.
Lemma steps_ok ks ds : Forall2 spaced_axis ks ds -> mapM coord_step ks = Ok ds.
Proof. induction 1 as [|k d ks ds H1 H2 IH]; [reflexivity|]. cbn [mapM]. rewrite (spaced_step H1). cbn [bind]. rewrite IH. reflexivity. Qed.
Lemma maxima_ok ks ds : Forall2 spaced_axis ks ds -> mapM coord_max ks = Ok (map (fun k => snd k (Z.of_nat (fst k) - 1)) ks).
Proof. induction 1 as [|k d ks ds H1 H2 IH]; [reflexivity|]. cbn [mapM map]. rewrite (spaced_max H1). cbn [bind]. rewrite IH. reflexivity. Qed.
Lemma fold_min_in l : forall x, In (fold_left Rmin l x) (x :: l).
Proof.
  induction l as [|a l IH]; intros x; [left; reflexivity|]. cbn [fold_left]. destruct (IH (Rmin x a)) as [E | Hi]; [|right; right; exact Hi].
  rewrite <- E. unfold Rmin. destruct (Rle_dec x a); [left | right; left]; reflexivity.
Qed.
Lemma py_round_bound x : (IZR (py_round x) - 1 / 2 <= x <= IZR (py_round x) + 1 / 2)%R.
Proof.
  unfold py_round. pose proof (base_Int_part x) as (A & B). set (f := Int_part x) in *.
  destruct (Rlt_dec (x - IZR f) (1 / 2)); [lra|]. destruct (Rlt_dec (1 / 2) (x - IZR f)); [rewrite plus_IZR; lra|]. destruct (Z.even f); rewrite ?plus_IZR; lra.
Qed.
Lemma py_round_nonneg x : (- (1 / 2) <= x)%R -> 0 <= py_round x.
Proof.
  intros H. unfold py_round. pose proof (base_Int_part x) as (A & B). set (f := Int_part x) in *.
  assert (-2 < f) by (apply lt_IZR; lra). destruct (Z.eq_dec f (-1)) as [E|E].
  - rewrite E in *. destruct (Rlt_dec (x - -1) (1 / 2)); [lra|]. destruct (Rlt_dec (1 / 2) (x - -1)); cbn; lia.
  - destruct (Rlt_dec (x - IZR f) (1 / 2)); [lia|]. destruct (Rlt_dec (1 / 2) (x - IZR f)); [lia|]. destruct (Z.even f); lia.
Qed.
(* @prop C60 The binsum spectrum of an energy array over wave numbers with uniform spacing (coordinates reaching at least 0 on every axis): with dk the largest spacing, entry j is labelled (j+1) dk and holds exactly the energy of the modes with wave number magnitude in ((j+1/2) dk, (j+3/2) dk], so no mode is counted twice; the sum of the spectrum is the energy of the modes between dk/2 and (K+1/2) dk, never more than the total energy. *)
Lemma binsum_shells_lem : forall (ks : list coordinate) (dks : list R) dk (e : arr R), ks <> [] -> Forall2 spaced_axis ks dks ->
  Forall (fun k => (0 <= snd k (Z.of_nat (fst k) - 1)%Z)%R) ks -> shp e = map fst ks ->
  In dk dks -> (forall d, In d dks -> (d <= dk)%R) ->
  exists labels b K, isotropize_binsum ks e = Ok (labels, b) /\ length labels = K /\ shp b = [K] /\
    (forall j, (j < K)%nat -> nth j labels 0%R = (INR (j + 1) * dk)%R /\
       get b [Z.of_nat j] = shell_energy (shp e) ks (get e) ((INR j + 1 / 2) * dk) ((INR j + 3 / 2) * dk)) /\
    asum [K] (get b) = shell_energy (shp e) ks (get e) (dk / 2) ((INR K + 1 / 2) * dk) /\
    ((forall ix, inb (shp e) ix -> (0 <= get e ix)%R) -> (asum [K] (get b) <= asum (shp e) (get e))%R).
Proof.
  intros ks dks dk e Hne Hks Hpos He Hin Hmax.
  assert (Hdk : (0 < dk)%R).
  { clear - Hks Hin. induction Hks as [|k d ks ds H1 H2 IH]; [destruct Hin|]. destruct Hin as [<- | Hin]; [apply H1 | auto]. }
  unfold isotropize_binsum. rewrite (steps_ok Hks). cbn [bind]. rewrite (@max_of_spec dks dk Hin Hmax). cbn [bind]. rewrite (maxima_ok Hks). cbn [bind].
  destruct ks as [|k ks]; [contradiction|]. cbn [map]. unfold min_of at 1. cbn [bind].
  set (M := fold_left Rmin _ _). assert (HM : (0 <= M)%R).
  { pose proof (fold_min_in (map (fun k0 : coordinate => snd k0 (Z.of_nat (fst k0) - 1)) ks) (snd k (Z.of_nat (fst k) - 1))) as Hi. fold M in Hi.
    change (In M (map (fun k0 : coordinate => snd k0 (Z.of_nat (fst k0) - 1)) (k :: ks))) in Hi. apply in_map_iff in Hi. destruct Hi as (k0 & <- & Hk).
    rewrite Forall_forall in Hpos. apply Hpos. exact Hk. }
  set (num := py_round _). assert (Hnum : 0 <= num).
  { apply py_round_nonneg. unfold Rdiv at 2. rewrite Rmult_minus_distr_r. assert (0 <= M * / dk)%R by (apply Rmult_le_pos; [lra | left; apply Rinv_0_lt_compat; lra]).
    replace (1 / 2 * dk * / dk)%R with (1 / 2)%R by (field; lra). lra. }
  set (K := Z.to_nat num). replace (Z.to_nat (num + 1)) with (S K) by (unfold K; lia).
  set (f := fun j : nat => (dk * (INR (S j) - 1 / 2))%R). assert (Hf : forall i j, (i < j)%nat -> (f i < f j)%R).
  { intros i j Hij. unfold f. apply Rmult_lt_compat_l; [exact Hdk|]. apply lt_INR in Hij. rewrite !S_INR. lra. }
  unfold groupby_bins_sum. cbn [shp]. replace (shape_eqb (shp e) (fst k :: map fst ks)) with true by (symmetry; rewrite He; apply shape_eqb_refl). cbn [negb]. rewrite map_length, seq_length. cbn [Nat.eqb bind].
  eexists. eexists. exists K. split; [reflexivity|]. split; [rewrite map_length, seq_length; reflexivity|].
  split; [cbn [shp]; f_equal; lia|]. cbn [shp get nth].
  assert (Hb : forall j, (j < K)%nat -> asum (shp e) (fun ix => match cut (map f (seq 0 (S K))) (sqrt (fold_right Rplus 0%R (map (fun ci => real_n2 (snd (fst ci) (snd ci))) (combine (k :: ks) ix)))) with
       | Some i => if Z.of_nat i =? Z.of_nat j then get e ix else 0%R | None => 0%R end) = shell_energy (shp e) (k :: ks) (get e) ((INR j + 1 / 2) * dk) ((INR j + 3 / 2) * dk)).
  { intros j Hj. unfold shell_energy. apply asum_ext. intros ix _. rewrite <- wave_square_map. fold (wave_magnitude (k :: ks) ix).
    pose proof (fun i => @cut_iff f (wave_magnitude (k :: ks) ix) K i Hf) as Hc. set (x := wave_magnitude (k :: ks) ix) in *.
    assert (F0 : ((INR j + 1 / 2) * dk = f j)%R) by (unfold f; rewrite S_INR; field). assert (F1 : ((INR j + 3 / 2) * dk = f (S j))%R) by (unfold f; rewrite !S_INR; field).
    rewrite F0, F1. destruct (cut (map f (seq 0 (S K))) x) as [i|] eqn:E.
    - destruct (proj1 (Hc i) eq_refl) as (A & B & C). destruct (Z.eqb_spec (Z.of_nat i) (Z.of_nat j)) as [Eij|Nij].
      + apply Nat2Z.inj in Eij. subst i. destruct (Rlt_dec (f j) x); [|lra]. destruct (Rle_dec x (f (S j))); [reflexivity | lra].
      + destruct (Rlt_dec (f j) x) as [L|]; [|reflexivity]. destruct (Rle_dec x (f (S j))) as [L2|]; [|reflexivity]. exfalso. apply Nij. f_equal.
        destruct (lt_eq_lt_dec i j) as [[Hlt | ->] | Hlt]; [|reflexivity|].
        * assert (f (S i) <= f j)%R; [|lra]. destruct (Nat.eq_dec (S i) j) as [->|]; [lra|]. left. apply Hf. lia.
        * assert (f (S j) <= f i)%R; [|lra]. destruct (Nat.eq_dec (S j) i) as [->|]; [lra|]. left. apply Hf. lia.
    - destruct (Rlt_dec (f j) x) as [L|]; [|reflexivity]. destruct (Rle_dec x (f (S j))) as [L2|]; [|reflexivity].
      exfalso. pose proof (proj2 (Hc j) (conj Hj (conj L L2))) as X. discriminate X. }
  assert (Ht : forall L, (L <= K)%nat -> asum [L] (fun b => asum (shp e) (fun ix => match cut (map f (seq 0 (S K))) (sqrt (fold_right Rplus 0%R (map (fun ci => real_n2 (snd (fst ci) (snd ci))) (combine (k :: ks) ix)))) with
       | Some i => if Z.of_nat i =? nth 0 b 0 then get e ix else 0%R | None => 0%R end)) = shell_energy (shp e) (k :: ks) (get e) (dk / 2) ((INR L + 1 / 2) * dk)).
  { induction L as [|L IH]; intros HL.
    - cbn [asum rsum INR]. replace ((0 + 1 / 2) * dk)%R with (dk / 2)%R by field. rewrite shell_empty. reflexivity.
    - specialize (IH ltac:(lia)). cbn [asum rsum nth] in *. rewrite IH. rewrite (Hb L) by lia.
      rewrite shell_join; [f_equal; rewrite S_INR; lra| |]; pose proof (pos_INR L); [|apply Rmult_le_compat_r; lra].
      replace (dk / 2)%R with (1 / 2 * dk)%R by field. apply Rmult_le_compat_r; lra. }
  split; [|split].
  - intros j Hj. split; [|exact (Hb j Hj)].
    rewrite (nth_indep _ 0%R ((fun j => dk * INR (S j))%R 0%nat)) by (rewrite map_length, seq_length; exact Hj). rewrite (map_nth (fun j => (dk * INR (S j))%R)), seq_nth by exact Hj.
    replace (0 + j)%nat with j by lia. replace (j + 1)%nat with (S j) by lia. ring.
  - exact (Ht K (le_n K)).
  - intros Hpe. rewrite (Ht K (le_n K)). unfold shell_energy. apply asum_le. intros ix Hix. pose proof (Hpe ix Hix) as P.
    destruct (Rlt_dec _ _); [destruct (Rle_dec _ _); lra | exact P].
Qed.
(* @ex *)
Lemma binsum_shells_ex_lem : exists k, fourier_coord (ex_axis 8 1) = Ok k /\ Forall2 spaced_axis [k; k] [(PI / 4)%R; (PI / 4)%R] /\
  Forall (fun k => (0 <= snd k (Z.of_nat (fst k) - 1)%Z)%R) [k; k] /\ In (PI / 4)%R [(PI / 4)%R; (PI / 4)%R] /\ (forall d, In d [(PI / 4)%R; (PI / 4)%R] -> (d <= PI / 4)%R).
Proof.
  pose proof PI_RGT_0 as HP. exists (kcoord (ex_axis 8 1) 1). unfold fourier_coord. rewrite (coord_step_uniform (@ex_axis_uniform 8 1 ltac:(lia) ltac:(lra))). cbn [bind]. split; [reflexivity|].
  assert (S : spaced_axis (kcoord (ex_axis 8 1) 1) (PI / 4)).
  { split; [cbn; lia|]. split; [lra|]. intros i Hi. unfold kcoord in *. cbn [fst snd ex_axis] in *. rewrite !half_freq by lia. rewrite !minus_IZR. change (IZR (Z.of_nat (8 / 2))) with 4%R. change (INR 8) with (IZR (Z.of_nat 8)) || (rewrite (INR_IZR_INZ 8)). change (IZR (Z.of_nat 8)) with 8%R. field. }
  assert (P : (0 <= snd (kcoord (ex_axis 8 1) 1) (Z.of_nat (fst (kcoord (ex_axis 8 1) 1)) - 1)%Z)%R).
  { unfold kcoord. cbn [fst snd ex_axis]. rewrite half_freq by lia. change (IZR (Z.of_nat 8 - 1 - Z.of_nat (8 / 2))) with 3%R. rewrite (INR_IZR_INZ 8). change (IZR (Z.of_nat 8)) with 8%R. lra. }
  split; [constructor; [exact S|]; constructor; [exact S|]; constructor|]. split; [constructor; [exact P|]; constructor; [exact P|]; constructor|]. split; [left; reflexivity|]. intros d [<- | [<- | []]]; lra.
Qed.
Lemma py_round_half (M : nat) : py_round (INR M - 1 / 2) = if Nat.even M then Z.of_nat M else Z.of_nat M - 1.
Proof.
  unfold py_round. assert (E : Int_part (INR M - 1 / 2) = Z.of_nat M - 1).
  { pose proof (base_Int_part (INR M - 1 / 2)) as (A & B). set (f := Int_part _) in *. rewrite INR_IZR_INZ in A, B.
    assert (f < Z.of_nat M) by (apply lt_IZR; lra). assert (Z.of_nat M - 2 < f) by (apply lt_IZR; rewrite minus_IZR; lra). lia. }
  rewrite E, minus_IZR, <- INR_IZR_INZ.
  destruct (Rlt_dec (INR M - 1 / 2 - (INR M - 1)) (1 / 2)); [lra|]. destruct (Rlt_dec (1 / 2) (INR M - 1 / 2 - (INR M - 1))); [lra|].
  replace (Z.even (Z.of_nat M - 1)) with (negb (Nat.even M)).
  - destruct (Nat.even M); cbn [negb]; lia.
  - rewrite Z.even_sub. change (Z.even 1) with false. rewrite <- (Nat2Z.id M) at 1. destruct (Nat.even (Z.to_nat (Z.of_nat M))) eqn:Ev; rewrite Nat2Z.id in Ev.
    + apply Nat.even_spec in Ev. destruct Ev as (q & ->). replace (Z.of_nat (2 * q)) with (2 * Z.of_nat q) by lia. rewrite Z.even_mul. reflexivity.
    + assert (O : Nat.odd M = true) by (unfold Nat.odd; rewrite Ev; reflexivity). apply Nat.odd_spec in O. destruct O as (q & ->).
      replace (Z.of_nat (2 * q + 1)) with (2 * Z.of_nat q + 1) by lia. rewrite Z.even_add, Z.even_mul. reflexivity.
Qed.
Lemma kcoord_spaced c h : uniform_axis c h -> spaced_axis (kcoord c h) (2 * PI / (INR (fst c) * h)) /\
  snd (kcoord c h) (Z.of_nat (fst c) - 1) = (INR ((fst c - 1) / 2) * (2 * PI / (INR (fst c) * h)))%R.
Proof.
  intros (H1 & H2 & H3). pose proof PI_RGT_0. assert (HN : (0 < INR (fst c))%R) by (apply lt_0_INR; lia).
  assert (HM : (0 < INR (fst c) * h)%R) by (apply Rmult_lt_0_compat; lra). split; [split; [exact H1|]; split|].
  - apply Rdiv_lt_0_compat; lra.
  - intros i Hi. unfold kcoord in *. cbn [fst snd] in *. rewrite !half_freq by lia. rewrite !minus_IZR. field. lra.
  - unfold kcoord. cbn [fst snd]. rewrite half_freq by lia. replace (Z.of_nat (fst c) - 1 - Z.of_nat (fst c / 2)) with (Z.of_nat ((fst c - 1) / 2)).
    + rewrite <- INR_IZR_INZ. field. lra.
    + destruct (Nat.Even_or_Odd (fst c)) as [(q & E) | (q & E)]; rewrite E.
      * rewrite (Nat.mul_comm 2 q), Nat.div_mul by lia. destruct q as [|q]; [lia|]. replace (S q * 2 - 1)%nat with (1 + q * 2)%nat by lia. rewrite Nat.div_add by lia. change (1 / 2)%nat with 0%nat. lia.
      * replace (2 * q + 1 - 1)%nat with (q * 2)%nat by lia. replace (2 * q + 1)%nat with (1 + q * 2)%nat by lia. rewrite Nat.div_mul, Nat.div_add by lia. change (1 / 2)%nat with 0%nat. lia.
Qed.
(* @prop C60 On a dataset with the same number of points n and the same step on every axis, the binsum spectrum of its energy_spectrum has 2 * floor((n-1)/4) shells (halves are rounded to the even neighbour), spaced by 2 pi / (n h). *)
Lemma binsum_shell_count_lem : forall (ds : dataset) n h, uniform_axis (n, fun i => (IZR i * h)%R) h -> ds_coords ds <> [] -> Forall (fun c => fst c = n /\ uniform_axis c h) (ds_coords ds) ->
  ds_velocity ds <> [] -> (forall a, In a (ds_velocity ds) -> shp a = map fst (ds_coords ds)) ->
  exists ks e labels b, energy_spectrum ds = Ok (ks, e) /\ isotropize_binsum ks e = Ok (labels, b) /\ length labels = (2 * ((n - 1) / 4))%nat /\
    forall j, (j < length labels)%nat -> nth j labels 0%R = (INR (j + 1) * (2 * PI / (INR n * h)))%R.
Proof.
  intros ds n h Hnh Hne Hc Hvne Hv. set (cs := ds_coords ds) in *. set (hs := repeat h (length cs)).
  assert (HU : Forall2 uniform_axis cs hs).
  { unfold hs. clear - Hc. induction Hc as [|c cs (_ & H) HF IH]; cbn; constructor; auto. }
  destruct (fourier_coords_ok HU) as (ks & Eks & Fks & Mks).
  destruct (@energy_spectrum_parseval_lem ds hs HU Hvne Hv) as (ks' & e & e0 & Ee & _ & Se & _).
  assert (ks' = ks). { unfold energy_spectrum in Ee. apply bind_Ok_inv in Ee. destruct Ee as (? & _ & Ee). apply bind_Ok_inv in Ee. destruct Ee as (? & _ & Ee). fold cs in Ee. rewrite Eks in Ee. cbn [bind] in Ee. congruence. }
  subst ks'. set (dk := (2 * PI / (INR n * h))%R). destruct Hnh as (Hn & Hh & _). cbn [fst] in Hn. pose proof PI_RGT_0.
  assert (Hdk : (0 < dk)%R) by (apply Rdiv_lt_0_compat; [lra|]; apply Rmult_lt_0_compat; [apply lt_0_INR; lia | lra]).
  assert (Hks : Forall (fun k => spaced_axis k dk /\ snd k (Z.of_nat (fst k) - 1) = (INR ((n - 1) / 2) * dk)%R) ks).
  { unfold hs in Fks. clear - Hc Fks. revert ks Fks. induction Hc as [|c cs (Hn & H) HF IH]; intros ks F; cbn in F; inversion F as [|k ? ks' ? Ek F']; subst; constructor; auto.
    cbn [fst snd]. destruct (kcoord_spaced H) as (A & B). split; [exact A|]. exact B. }
  pose proof (f_equal (@length _) Mks) as Hlen. rewrite !map_length in Hlen.
  destruct ks as [|k ks]; [destruct cs; [contradiction|discriminate Hlen]|]. clear Hlen.
  assert (HF2 : Forall2 spaced_axis (k :: ks) (repeat dk (length (k :: ks)))).
  { clear - Hks. induction Hks as [|c cs (H & _) HF IH]; cbn; constructor; auto. }
  assert (Hpos : Forall (fun k : coordinate => (0 <= snd k (Z.of_nat (fst k) - 1)%Z)%R) (k :: ks)).
  { eapply Forall_impl; [|exact Hks]. intros k0 (_ & ->). apply Rmult_le_pos; [apply pos_INR | lra]. }
  assert (Hin : In dk (repeat dk (length (k :: ks)))) by (left; reflexivity).
  destruct (@binsum_shells_lem (k :: ks) (repeat dk (length (k :: ks))) dk e ltac:(discriminate) HF2 Hpos) as (labels & b & K & Eb & Lb & Sb & Hb & _);
    [rewrite Se, Mks; reflexivity | exact Hin | intros d Hd; apply repeat_spec in Hd; subst; lra |].
  exists (k :: ks), e, labels, b. split; [exact Ee|]. split; [exact Eb|]. split; [|intros j Hj; rewrite Lb in Hj; apply (Hb j Hj)].
  clear Hb Sb Lb. unfold isotropize_binsum in Eb. rewrite (steps_ok HF2) in Eb. cbn [bind] in Eb.
  rewrite (@max_of_spec _ dk Hin) in Eb by (intros d Hd; apply repeat_spec in Hd; subst; lra). cbn [bind] in Eb. rewrite (maxima_ok HF2) in Eb. cbn [bind] in Eb.
  assert (Em : min_of (map (fun k0 : coordinate => snd k0 (Z.of_nat (fst k0) - 1)) (k :: ks)) = Ok (INR ((n - 1) / 2) * dk)%R).
  { cbn [map]. unfold min_of. f_equal. pose proof (fold_min_in (map (fun k0 : coordinate => snd k0 (Z.of_nat (fst k0) - 1)) ks) (snd k (Z.of_nat (fst k) - 1))) as Hi.
    match type of Hi with In ?M _ => set (m := M) in * end. change (In m (map (fun k0 : coordinate => snd k0 (Z.of_nat (fst k0) - 1)) (k :: ks))) in Hi.
    apply in_map_iff in Hi. destruct Hi as (k0 & <- & Hk). rewrite Forall_forall in Hks. apply (Hks k0 Hk). }
  match type of Eb with context [min_of ?l] => replace (min_of l) with (Ok (INR ((n - 1) / 2) * dk)%R) in Eb by (symmetry; exact Em) end. cbn [bind] in Eb. apply bind_Ok_inv in Eb. destruct Eb as (b' & _ & Eb). assert (El : labels = map (fun j => (dk * INR (S j))%R) (seq 0 (Z.to_nat (py_round ((INR ((n - 1) / 2) * dk - 1 / 2 * dk) / dk)))))  by congruence. rewrite El, map_length, seq_length.
  replace ((INR ((n - 1) / 2) * dk - 1 / 2 * dk) / dk)%R with (INR ((n - 1) / 2) - 1 / 2)%R by (field; lra). rewrite py_round_half.
  set (M := ((n - 1) / 2)%nat). assert (EM : ((n - 1) / 4)%nat = (M / 2)%nat) by (unfold M; rewrite Nat.div_div by lia; reflexivity). rewrite EM.
  destruct (Nat.even M) eqn:Ev.
  - apply Nat.even_spec in Ev. destruct Ev as (q & ->). rewrite Nat2Z.id, (Nat.mul_comm 2 q), Nat.div_mul by lia. lia.
  - assert (O : Nat.odd M = true) by (unfold Nat.odd; rewrite Ev; reflexivity). apply Nat.odd_spec in O. destruct O as (q & ->).
    replace (2 * q + 1)%nat with (1 + q * 2)%nat by lia. rewrite Nat.div_add by lia. change (1 / 2)%nat with 0%nat. lia.
Qed.
(* @ex *)
Lemma binsum_shell_count_ex_lem : let ds := mkds [ex_axis 10 1; ex_axis 10 1] [afull [10%nat; 10%nat] 1%R; afull [10%nat; 10%nat] 2%R] in
  uniform_axis (10%nat, fun i => (IZR i * 1)%R) 1 /\ ds_coords ds <> [] /\ Forall (fun c => fst c = 10%nat /\ uniform_axis c 1) (ds_coords ds) /\
  ds_velocity ds <> [] /\ (forall a, In a (ds_velocity ds) -> shp a = map fst (ds_coords ds)) /\ (2 * ((10 - 1) / 4))%nat = 4%nat.
Proof.
  assert (U : uniform_axis (ex_axis 10 1) 1) by (apply ex_axis_uniform; [lia|lra]).
  cbv zeta. split; [split; [cbn; lia|]; split; [lra|]; intros i; cbn; ring|]. split; [discriminate|]. split; [constructor; [split; [reflexivity|exact U]|]; constructor; [split; [reflexivity|exact U]|]; constructor|].
  split; [discriminate|]. split; [|reflexivity]. intros a [<- | [<- | []]]; reflexivity.
Qed.
(* @prop C60 The shells are not confined to the resolved wave numbers: with 10 points per axis the last shell is (3.5 dk, 4.5 dk] although the largest wave number along an axis is 4 dk, so it is only partly filled. *)
Lemma binsum_resolved_refuted_lem : ~ (forall (c : coordinate) h k (e : arr R) labels b, uniform_axis c h -> fourier_coord c = Ok k -> shp e = [fst c; fst c] ->
  isotropize_binsum [k; k] e = Ok (labels, b) -> forall j, (j < length labels)%nat -> (nth j labels 0%R + PI / (INR (fst c) * h) <= snd k (Z.of_nat (fst c) - 1)%Z)%R).
Proof.
  intros H. destruct binsum_shell_count_ex_lem as (U & A1 & A2 & A3 & A4 & A5).
  destruct (@binsum_shell_count_lem _ 10 1%R U A1 A2 A3 A4) as (ks & e & labels & b & E1 & E2 & E3 & E4). rewrite A5 in E3.
  assert (U1 : uniform_axis (ex_axis 10 1) 1) by (apply ex_axis_uniform; [lia|lra]).
  set (ds := mkds [ex_axis 10 1; ex_axis 10 1] [afull [10%nat; 10%nat] 1%R; afull [10%nat; 10%nat] 2%R]) in *.
  assert (HU : Forall2 uniform_axis (ds_coords ds) [1%R; 1%R]) by (constructor; [exact U1|]; constructor; [exact U1|]; constructor).
  destruct (@energy_spectrum_parseval_lem ds [1%R; 1%R] HU A3 A4) as (ks' & e' & e0 & Ee & _ & Se & _). rewrite E1 in Ee. injection Ee as <- <-.
  assert (Ek : fourier_coord (ex_axis 10 1) = Ok (kcoord (ex_axis 10 1) 1)) by (unfold fourier_coord; rewrite (coord_step_uniform U1); reflexivity).
  assert (Hks : ks = [kcoord (ex_axis 10 1) 1; kcoord (ex_axis 10 1) 1]).
  { unfold energy_spectrum in E1. apply bind_Ok_inv in E1. destruct E1 as (? & _ & E1). apply bind_Ok_inv in E1. destruct E1 as (? & _ & E1).
    unfold ds in E1. cbn [ds_coords mapM] in E1. rewrite Ek in E1. cbn [bind] in E1. congruence. }
  rewrite Hks in *. specialize (H (ex_axis 10 1) 1%R (kcoord (ex_axis 10 1) 1) e labels b U1 Ek Se E2 3%nat ltac:(lia)). rewrite E4 in H by lia.
  destruct (kcoord_spaced U1) as (_ & B). cbn [fst ex_axis] in B, H. rewrite B in H. change ((10 - 1) / 2)%nat with 4%nat in H. pose proof PI_RGT_0.
  rewrite (INR_IZR_INZ 10), (INR_IZR_INZ (3 + 1)), (INR_IZR_INZ 4) in H. change (IZR (Z.of_nat 10)) with 10%R in H. change (IZR (Z.of_nat (3 + 1))) with 4%R in H. change (IZR (Z.of_nat 4)) with 4%R in H.
  lra.
Qed.
