(** * C66: runs of the nonlinear Schroedinger equation commute with its symmetries *)
From Verif Require Import Prelude NdArr LinAlg Cplx Grids_model FastDiag_model TimeStep_model FourierProofs FourierLine Spectral_model SpectralProps SpectralUtilProps SpectralPadProps FourierShift SpecFourier SpectralStep_model SpecStep StepRel SpecNLS NLSBase NS2DBase NS2DRunProps NLSProps.
Set Implicit Arguments.
Local Open Scope Z_scope.

Lemma moved_phase n c s k : moved_mode n c s k = Cmul c (phase n s k). Proof. reflexivity. Qed.
Lemma fft1_cmul n c f k : fft1 n (fun j => Cmul c (f j)) k = Cmul c (fft1 n f k).
Proof. unfold fft1. rewrite <- csum_scal. apply csum_ext. intros. ring. Qed.
Lemma ifft1_cmul n c f k : ifft1 n (fun j => Cmul c (f j)) k = Cmul c (ifft1 n f k).
Proof. unfold ifft1. rewrite <- csum_scal. apply csum_ext. intros. ring. Qed.
(* @prop C66 Runs of the nonlinear Schroedinger equation commute with rotating the phase and with translations: for every grid with an even number of points, with or without dealiasing, every time stepping scheme, step size and number of steps, and all initial fields psi and psi' with psi'[j] = c psi[(j + s) mod n], |c| = 1, starting from their Fourier transforms, the two runs either both succeed, and the field of the second is the field of the first rotated by c and translated by s cells, or fail with the same error. *)
Lemma nls_symmetries_lem : forall (g : grid) (q : nat) (h : R) (smooth : bool) (k : spectral_scheme) (dt : R) (steps : nat) (c : cplx) (s : Z) (psi psi' : arr cplx),
  (1 <= q)%nat -> grid1 g (2 * q) h -> Cn2 c = 1%R -> shp psi = [(2 * q)%nat] -> shp psi' = [(2 * q)%nat] ->
  (forall j, 0 <= j < Z.of_nat (2 * q) -> get psi' [j] = Cmul c (get psi [(j + s) mod Z.of_nat (2 * q)])) ->
  res_rel (fun V V' => shp V = [(2 * q)%nat] /\ shp V' = [(2 * q)%nat] /\
                       forall j, 0 <= j < Z.of_nat (2 * q) -> get (ifftn V') [j] = Cmul c (get (ifftn V) [(j + s) mod Z.of_nat (2 * q)]))
    (nls_run g smooth k dt steps (fftn psi)) (nls_run g smooth k dt steps (fftn psi')).
Proof.
  intros g q h smooth k dt steps c s psi psi' Hq Hg Hc Sp Sp' HP. destruct (@nls_form g q h smooth Hq Hg) as (M & t & E & e & HE & Et & HF). set (n := (2 * q)%nat) in *. assert (Hn : (0 < n)%nat) by (unfold n; lia).
  destruct (@fftn1 psi n Sp) as [S1 G1]. destruct (@fftn1 psi' n Sp') as [S1' G1']. unfold nls_run. rewrite S1, S1'. set (sh := [n]).
  set (Rl := fun u v : cvec => forall i, 0 <= i < Z.of_nat n -> get (to_carr sh v) [i] = Cmul (moved_mode n c s i) (get (to_carr sh u) [i])).
  assert (H0 : res_rel Rl (spectral_steps k (nls_F g sh smooth) (nls_G g sh) (nls_Ginv g sh) dt steps (of_carr (fftn psi))) (spectral_steps k (nls_F g sh smooth) (nls_G g sh) (nls_Ginv g sh) dt steps (of_carr (fftn psi')))).
  { apply steps_rel.
    - intros i _. change (get (to_carr sh vzero) [i]) with C0. ring.
    - intros u v u' v' H1 H2 i Hi. rewrite !to_carr_add, H1, H2 by exact Hi. ring.
    - intros a u u' H1 i Hi. rewrite !to_carr_scal, H1 by exact Hi. ceq.
    - intros u v H1 i Hi. destruct (HF (to_carr sh u) eq_refl) as (p & N & _ & _ & _ & EN & SN & GN). destruct (HF (to_carr sh v) eq_refl) as (p' & N' & _ & _ & _ & EN' & SN' & GN').
      unfold nls_F. rewrite (@unwrapped_get sh (nls_explicit_terms g smooth) u N _ EN), (@unwrapped_get sh (nls_explicit_terms g smooth) v N' _ EN'), GN, GN' by exact Hi.
      set (P := nls_grid_values M (IZR t) E (fun k => get (to_carr sh u) [k])) in *.
      rewrite (@fft1_ext M (cubic (nls_grid_values M (IZR t) E (fun k => get (to_carr sh v) [k]))) (fun j => Cmul c (cubic P (j + t * s)))).
      + rewrite fft1_cmul. rewrite fft1_shift; [|apply (emb_pos HE)|intros j; unfold cubic, P, nls_grid_values; rewrite ifft1_mod by apply (emb_pos HE); reflexivity].
        rewrite (emb_place HE). rewrite moved_phase. set (y := fft1 _ _ _). set (ph := phase _ _ _). generalize y ph. intros y0 ph0. ceq.
      + intros j _. transitivity (cubic (fun j => Cmul c (P (j + t * s))) j); [|exact (@cubic_rotate c (fun j => P (j + t * s)) Hc j)]. unfold cubic. unfold P. rewrite <- (values_moved HE). rewrite (@values_ext n M t E e HE (IZR t) (fun k => get (to_carr sh v) [k]) (fun k => Cmul (moved_mode n c s k) (get (to_carr sh u) [k])) j H1). reflexivity.
    - intros u v H1 i Hi. destruct (proj1 (@nls_linear_get g q h (to_carr sh u) Hq Hg eq_refl)) as (N & EN & SN & GN). destruct (proj1 (@nls_linear_get g q h (to_carr sh v) Hq Hg eq_refl)) as (N' & EN' & SN' & GN').
      unfold nls_G. rewrite (@unwrapped_get sh (nls_implicit_terms g) u N _ EN), (@unwrapped_get sh (nls_implicit_terms g) v N' _ EN'), GN, GN', H1 by exact Hi. ring.
    - intros u v r H1 i Hi. destruct (proj2 (@nls_linear_get g q h (to_carr sh u) Hq Hg eq_refl) r) as (N & EN & SN & GN). destruct (proj2 (@nls_linear_get g q h (to_carr sh v) Hq Hg eq_refl) r) as (N' & EN' & SN' & GN').
      unfold nls_Ginv. rewrite (@unwrapped_get sh (fun a => nls_implicit_solve g a r) u N _ EN), (@unwrapped_get sh (fun a => nls_implicit_solve g a r) v N' _ EN'), GN, GN', H1 by exact Hi. ring.
    - intros i Hi. unfold sh. rewrite <- S1 at 2. rewrite <- S1' at 1. rewrite !to_of, G1, G1'.
      rewrite (@fft1_ext n (fun j => get psi' [j]) (fun j => Cmul c (get psi [(j + s) mod Z.of_nat n]))) by exact HP. rewrite fft1_cmul.
      rewrite (@fft1_shift n s (fun j => get psi [j mod Z.of_nat n]) i Hn) by (intros j; rewrite Z.mod_mod by lia; reflexivity). rewrite moved_phase.
      rewrite (@fft1_ext n (fun j => get psi [j mod Z.of_nat n]) (fun j => get psi [j])) by (intros j Hj; rewrite Z.mod_small by exact Hj; reflexivity). ring. }
  destruct (spectral_steps k _ _ _ dt steps (of_carr (fftn psi))) as [u|], (spectral_steps k _ _ _ dt steps (of_carr (fftn psi'))) as [v|]; cbn [res_rel bind] in H0 |- *; try exact H0.
  split; [reflexivity|]. split; [reflexivity|]. intros j Hj. destruct (@ifftn1 (to_carr sh u) n eq_refl) as [_ Gu]. destruct (@ifftn1 (to_carr sh v) n eq_refl) as [_ Gv]. rewrite Gu, Gv.
  rewrite ifft1_mod by exact Hn. rewrite <- ifft1_phase by exact Hn. rewrite <- ifft1_cmul. apply ifft1_ext. intros i Hi. rewrite (H0 i Hi), moved_phase. ring.
Qed.
(* @ex *)
Lemma nls_symmetries_ex_lem : exists psi psi' : arr cplx, grid1 ex_grid1 (2 * 2) (1/4) /\ Cn2 (mkC 0 1) = 1%R /\ shp psi = [(2 * 2)%nat] /\ shp psi' = [(2 * 2)%nat] /\
  (forall j, 0 <= j < Z.of_nat (2 * 2) -> get psi' [j] = Cmul (mkC 0 1) (get psi [(j + 1) mod Z.of_nat (2 * 2)])) /\ get psi' [0] <> get psi [0].
Proof.
  set (p := fun j : Z => mkC (IZR j) 1). exists (mkarr [4%nat] (fun ix => p (nth 0%nat ix 0))), (mkarr [4%nat] (fun ix => Cmul (mkC 0 1) (p ((nth 0%nat ix 0 + 1) mod 4)))).
  split; [repeat split; try lia; lra|]. split; [unfold Cn2; cbn; ring|]. split; [reflexivity|]. split; [reflexivity|]. split; [intros; reflexivity|]. intros H. apply (f_equal re) in H. cbn in H. lra.
Qed.
(* @prop C66 A plane wave stays a plane wave: for every grid with an even number of points, with or without dealiasing, every time stepping scheme, step size and number of steps, a run of the nonlinear Schroedinger equation started from a exp(2 pi i w j / n) ends, if it does not fail, with a multiple of exp(2 pi i w j / n). *)
Lemma nls_plane_wave_lem : forall (g : grid) (q : nat) (h : R) (smooth : bool) (k : spectral_scheme) (dt : R) (steps : nat) (a : cplx) (w : Z) (psi V : arr cplx),
  (1 <= q)%nat -> grid1 g (2 * q) h -> shp psi = [(2 * q)%nat] ->
  (forall j, 0 <= j < Z.of_nat (2 * q) -> get psi [j] = Cmul a (cis (2 * PI * IZR (w * j) / INR (2 * q)))) ->
  nls_run g smooth k dt steps (fftn psi) = Ok V ->
  exists b, forall j, 0 <= j < Z.of_nat (2 * q) -> get (ifftn V) [j] = Cmul b (cis (2 * PI * IZR (w * j) / INR (2 * q))).
Proof.
  intros g q h smooth k dt steps a w psi V Hq Hg Sp HP EV. set (n := (2 * q)%nat) in *. assert (Hn : (0 < n)%nat) by (unfold n; lia).
  assert (Hph : forall j, cis (2 * PI * IZR (w * j) / INR n) = phase n j w) by reflexivity.
  assert (H1 : forall j, Cmul (Cconj (phase n 1 w)) (phase n (j + 1) w) = phase n j w).
  { intros j. replace (phase n (j + 1) w) with (Cmul (phase n 1 w) (phase n j w)); [transitivity (Cmul (Cmul (phase n 1 w) (Cconj (phase n 1 w))) (phase n j w)); [ring | rewrite phase_unit; ring]|].
    unfold phase. rewrite <- cis_add. f_equal. rewrite <- Rdiv_plus_distr. f_equal. rewrite Z.mul_add_distr_l, plus_IZR. ring. }
  assert (Hm : forall j, phase n (j mod Z.of_nat n) w = phase n j w).
  { intros j. unfold phase. apply cis_mod; [exact Hn|]. rewrite <- Z.mul_sub_distr_l. rewrite Z.mul_mod by lia. rewrite Zminus_mod_idemp_l, Z.sub_diag. rewrite Z.mod_0_l by lia. rewrite Z.mul_0_r. apply Z.mod_0_l. lia. }
  pose proof (@nls_symmetries_lem g q h smooth k dt steps (Cconj (phase n 1 w)) 1 psi psi Hq Hg) as S.
  assert (Hc : Cn2 (Cconj (phase n 1 w)) = 1%R) by (transitivity (Cn2 (phase n 1 w)); [unfold Cn2; cbn; ring | apply phase_Cn2]).
  specialize (S Hc Sp Sp). fold n in S. assert (HS : forall j, 0 <= j < Z.of_nat n -> get psi [j] = Cmul (Cconj (phase n 1 w)) (get psi [(j + 1) mod Z.of_nat n])).
  { intros j Hj. rewrite HP by exact Hj. rewrite HP by (apply Z.mod_pos_bound; lia). rewrite !Hph, Hm, <- (H1 j). ring. }
  specialize (S HS). rewrite EV in S. destruct S as (_ & _ & S).
  exists (get (ifftn V) [0]). assert (Hi : forall m : nat, (m < n)%nat -> get (ifftn V) [Z.of_nat m] = Cmul (get (ifftn V) [0]) (cis (2 * PI * IZR (w * Z.of_nat m) / INR n))).
  { induction m as [|m IH]; intros Hm'.
    - change (Z.of_nat 0) with 0. rewrite Z.mul_0_r. replace (2 * PI * 0 / INR n)%R with 0%R by (unfold Rdiv; ring). rewrite cis_0. ring.
    - specialize (IH ltac:(lia)). rewrite (S (Z.of_nat m)) in IH by lia. rewrite Z.mod_small in IH by lia. replace (Z.of_nat (Datatypes.S m)) with (Z.of_nat m + 1) by lia. rewrite Hph in *.
      transitivity (Cmul (Cmul (phase n 1 w) (Cconj (phase n 1 w))) (get (ifftn V) [Z.of_nat m + 1])); [rewrite phase_unit; ring|].
      transitivity (Cmul (phase n 1 w) (Cmul (Cconj (phase n 1 w)) (get (ifftn V) [Z.of_nat m + 1]))); [ring|]. rewrite IH, <- (H1 (Z.of_nat m)).
      transitivity (Cmul (Cmul (phase n 1 w) (Cconj (phase n 1 w))) (Cmul (get (ifftn V) [0]) (phase n (Z.of_nat m + 1) w))); [ring | rewrite phase_unit; ring]. }
  intros j Hj. specialize (Hi (Z.to_nat j) ltac:(lia)). rewrite Z2Nat.id in Hi by lia. exact Hi.
Qed.
(* @ex *)
Lemma nls_plane_wave_ex_lem : exists psi V : arr cplx, grid1 ex_grid1 (2 * 2) (1/4) /\ shp psi = [(2 * 2)%nat] /\
  (forall j, 0 <= j < Z.of_nat (2 * 2) -> get psi [j] = Cmul C1 (cis (2 * PI * IZR (1 * j) / INR (2 * 2)))) /\ nls_run ex_grid1 true CrankNicolsonRK2 1 3 (fftn psi) = Ok V.
Proof.
  exists (mkarr [4%nat] (fun ix => Cmul C1 (cis (2 * PI * IZR (1 * nth 0%nat ix 0) / INR (2 * 2))))). eexists.
  split; [repeat split; try lia; lra|]. split; [reflexivity|]. split; [intros; reflexivity|]. unfold nls_run, spectral_steps, spectral_step. cbv beta iota delta [bind]. reflexivity.
Qed.
