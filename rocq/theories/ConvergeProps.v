(** * C81: runs converge to the exact solutions *)
From Verif Require Import Prelude NdArr Grids_model Spec SpecLin SpecDiff Boundaries_model BoundariesPeriodic FD_model Interp_model Advection_model Diffusion_model PRep FDProofs FDProps InterpProps AdvectionProofs AdvectionProps MonotoneProps DiffusionProps SpecNS SpecAcc AccBase AccuracyProps SpecConv.
Set Implicit Arguments.
Local Open Scope R_scope.

(** ** Taylor in time, on a half line *)
Lemma grow_on f f' K n L : (forall t, 0 <= t <= L -> derivable_pt_lim f t (f' t)) -> f 0 = 0 -> (forall t, 0 <= t <= L -> Rabs (f' t) <= K * t ^ n) -> forall t, 0 <= t <= L -> Rabs (f t) <= K / INR (S n) * t ^ S n.
Proof.
  intros H F0 HK t [[Ht|<-] HtL]; [|rewrite F0, Rabs_R0; cbn; lra]. assert (HS : INR (S n) <> 0) by (apply not_0_INR; lia).
  set (p := fun t => K / INR (S n) * t ^ S n). assert (Hp : der p (fun t => K * t ^ n)).
  { apply (@der_ext p _ (fun t => K / INR (S n) * (INR (S n) * t ^ n))); [reflexivity | intros s; field; exact HS|]. apply der_scal. apply der_pow. }
  assert (P0 : p 0 = 0) by (unfold p; cbn [pow]; ring). fold (p t).
  apply Rabs_le. split.
  - destruct (@MVT_cor2 (fun s => f s + p s) (fun s => f' s + K * s ^ n) 0 t Ht) as (c & E & Hc); [intros c Hc; apply (@derivable_pt_lim_plus f p); [apply H; lra | apply Hp]|]. rewrite F0, P0 in E. specialize (HK c ltac:(lra)).
    assert (HK2 : - (K * c ^ n) <= f' c) by (pose proof (Rle_abs (- f' c)); rewrite Rabs_Ropp in *; lra). assert (0 <= (f' c + K * c ^ n) * (t - 0)) by (apply Rmult_le_pos; lra). lra.
  - destruct (@MVT_cor2 (fun s => p s - f s) (fun s => K * s ^ n - f' s) 0 t Ht) as (c & E & Hc); [intros c Hc; apply (@derivable_pt_lim_minus p f); [apply Hp | apply H; lra]|]. rewrite F0, P0 in E. specialize (HK c ltac:(lra)).
    assert (HK2 : f' c <= K * c ^ n) by (pose proof (Rle_abs (f' c)); lra). assert (0 <= (K * c ^ n - f' c) * (t - 0)) by (apply Rmult_le_pos; lra). lra.
Qed.
Lemma dlim_shift f c t l : derivable_pt_lim f (c + t) l -> derivable_pt_lim (fun s => f (c + s)) t l.
Proof. intros H eps He. destruct (H eps He) as (d & Hd). exists d. intros s Hs Hs2. rewrite <- Rplus_assoc. apply Hd; assumption. Qed.
Lemma dlim_flip f c t l : derivable_pt_lim f (c - t) l -> derivable_pt_lim (fun s => f (c - s)) t (- l).
Proof.
  intros H. replace (- l) with (l * -1) by ring. apply (derivable_pt_lim_comp (fun s => c - s) f t (-1) l); [|exact H].
  replace (-1) with (0 - 1) by ring. apply (@derivable_pt_lim_minus (fun _ => c) id); [apply derivable_pt_lim_const | apply derivable_pt_lim_id].
Qed.
Lemma taylor_time d K u r t dt x : has_rate d K u r -> 0 <= t -> 0 <= dt -> length x = d -> Rabs (u (t + dt) x - u t x - dt * r t x) <= K / 2 * dt ^ 2.
Proof.
  intros (H1 & r' & H2) Ht Hdt Hx. replace (K / 2) with (K / INR 2) by (cbn; lra).
  apply (@grow_on (fun s => u (t + s) x - u t x - s * r t x) (fun s => r (t + s) x - r t x) K 1 dt); [| | | lra].
  - intros s Hs. apply (@derivable_pt_lim_ext (fun s => u (t + s) x - (u t x + r t x * id s))); [intros; unfold id; ring|].
    replace (r (t + s) x - r t x) with (r (t + s) x - (0 + r t x * 1)) by ring. apply (@derivable_pt_lim_minus (fun s => u (t + s) x) (fun s => u t x + r t x * id s)); [apply (@dlim_shift (fun s => u s x)); apply H1; [lra | exact Hx]|].
    apply (@derivable_pt_lim_plus (fun _ => u t x) (fun s => r t x * id s)); [apply derivable_pt_lim_const|]. apply (@derivable_pt_lim_scal id). apply derivable_pt_lim_id.
  - rewrite Rplus_0_r. ring.
  - intros s Hs. pose proof (@grow_on (fun s => r (t + s) x - r t x) (fun s => r' (t + s) x) K 0 s) as G. rewrite pow_1. cbn [INR] in G. replace (K * s) with (K / 1 * s ^ 1) by field. apply G; [| | |lra].
    + intros w Hw. replace (r' (t + w) x) with (r' (t + w) x - 0) by ring. apply (@derivable_pt_lim_minus (fun s => r (t + s) x) (fun _ => r t x)); [apply (@dlim_shift (fun s => r s x)); apply H2; [lra | exact Hx] | apply derivable_pt_lim_const].
    + rewrite Rplus_0_r. ring.
    + intros w Hw. cbn [pow]. rewrite Rmult_1_r. apply H2; [lra | exact Hx].
Qed.
Lemma taylor_back d K u r t dt x : has_rate d K u r -> 0 <= t -> 0 <= dt -> length x = d -> Rabs (u t x - u (t + dt) x + dt * r (t + dt) x) <= K / 2 * dt ^ 2.
Proof.
  intros (H1 & r' & H2) Ht Hdt Hx. set (T := t + dt). replace t with (T - dt) by (unfold T; ring). replace (K / 2) with (K / INR 2) by (cbn; lra).
  apply (@grow_on (fun s => u (T - s) x - u T x + s * r T x) (fun s => - r (T - s) x + r T x) K 1 dt); [| | | lra].
  - intros s Hs. apply (@derivable_pt_lim_ext (fun s => u (T - s) x + (- u T x + r T x * id s))); [intros; unfold id; ring|].
    replace (- r (T - s) x + r T x) with (- r (T - s) x + (0 + r T x * 1)) by ring. apply (@derivable_pt_lim_plus (fun s => u (T - s) x) (fun s => - u T x + r T x * id s)); [apply (@dlim_flip (fun s => u s x)); apply H1; [unfold T; lra | exact Hx]|].
    apply (@derivable_pt_lim_plus (fun _ => - u T x) (fun s => r T x * id s)); [apply derivable_pt_lim_const|]. apply (@derivable_pt_lim_scal id). apply derivable_pt_lim_id.
  - rewrite Rminus_0_r. ring.
  - intros s Hs. pose proof (@grow_on (fun s => - r (T - s) x + r T x) (fun s => r' (T - s) x) K 0 s) as G. rewrite pow_1. cbn [INR] in G. replace (K * s) with (K / 1 * s ^ 1) by field. apply G; [| | |lra].
    + intros w Hw. apply (@derivable_pt_lim_ext (fun s => -1 * r (T - s) x + r T x)); [intros; ring|]. replace (r' (T - w) x) with (-1 * - r' (T - w) x + 0) by ring. apply (@derivable_pt_lim_plus (fun s => -1 * r (T - s) x) (fun _ => r T x)); [|apply derivable_pt_lim_const].
      apply (@derivable_pt_lim_scal (fun s => r (T - s) x)). apply (@dlim_flip (fun s => r s x)). apply H2; [unfold T; lra | exact Hx].
    + rewrite Rminus_0_r. ring.
    + intros w Hw. cbn [pow]. rewrite Rmult_1_r. apply H2; [unfold T; lra | exact Hx].
Qed.

Lemma Rabs_def2_le x e : Rabs x <= e -> - e <= x <= e.
Proof. intros H. pose proof (Rle_abs x). pose proof (Rle_abs (- x)). rewrite Rabs_Ropp in *. lra. Qed.
(** ** Wrapped values of approximate samples *)
Lemma point_wrap g o f ix : wfg g -> box_periodic g f -> length ix = gndim g -> f (point g o (wrap (gshape g) ix)) = f (point g o ix).
Proof.
  intros (_ & _ & Hp & _) Hf Hix. apply Hf; try apply point_length. intros a Ha. set (s := gshape g) in *. exists (- (nth a ix 0%Z / Z.of_nat (nth a s 0%nat)))%Z. rewrite !point_nth by exact Ha. unfold coord. fold s. rewrite wrap_nth by assumption.
  assert (Hpa : (0 < nth a s 0)%nat) by (apply Forall_nth; [exact Hp | exact Ha]). rewrite (Z.mod_eq (nth a ix 0%Z) (Z.of_nat (nth a s 0%nat))) by lia. rewrite minus_IZR, mult_IZR, opp_IZR, <- INR_IZR_INZ. ring.
Qed.
Lemma within_pval e w g o f ix : wfg g -> within e w g o f -> box_periodic g f -> length ix = gndim g -> Rabs (pval w ix - f (point g o ix)) <= e.
Proof.
  intros Hg (_ & _ & Hs & H) Hf Hix. unfold pval. rewrite Hs. rewrite <- (point_wrap o ix Hg Hf Hix). apply H. apply inb_wrap; [apply Hg | exact Hix].
Qed.
(** The values of [f] as a variable with the cells and boundary conditions of [c]. *)
Definition like (c : gvar) (f : list R -> R) : gvar := mkgv (mkga (mkarr (gshape (ggrid (garray c))) (fun ix => f (point (ggrid (garray c)) (goff (garray c)) ix))) (goff (garray c)) (ggrid (garray c))) (gbc c).
Lemma like_pf c f : periodic_field c -> periodic_field (like c f).
Proof. intros ((A & _ & B) & C). split; [split; [exact A | split; [reflexivity | exact B]] | exact C]. Qed.
Lemma like_samples c f : samples (garray (like c f)) f.
Proof. intros ix _. reflexivity. Qed.
Lemma within_pf e c g o f : wfg g -> length o = gndim g -> perbc g (gbc c) -> within e (garray c) g o f -> periodic_field c.
Proof. intros Hg Ho Hb (A & B & C & _). split; [|rewrite A; exact Hb]. split; [rewrite A; exact Hg|]. split; [rewrite A; exact C|]. rewrite A, (off_eq_length B). exact Ho. Qed.
Lemma within_weak e e' w g o f h : within e w g o f -> (forall ix, inb (gshape g) ix -> Rabs (f (point g o ix) - h (point g o ix)) <= e') -> within (e + e') w g o h.
Proof.
  intros (A & B & C & D) H. split; [exact A|]. split; [exact B|]. split; [exact C|]. intros ix Hix. replace (get (gdata w) ix - h (point g o ix)) with ((get (gdata w) ix - f (point g o ix)) + (f (point g o ix) - h (point g o ix))) by ring.
  eapply Rle_trans; [apply Rabs_triang|]. specialize (D ix Hix). specialize (H ix Hix). lra.
Qed.
(** The discrete Laplacian of the values of a smooth function. *)
Definition disc_lap (g : grid) (F : list Z -> R) (ix : list Z) : R := nsum (gndim g) (fun a => (F (next a ix) - 2 * F ix + F (prev a ix)) / (hstep g a * hstep g a)).
Lemma disc_lap_near c f f1 f2 M ix : periodic_field c -> box_periodic (ggrid (garray c)) f -> bounded_derivatives (gndim (ggrid (garray c))) 4 M f ->
  (forall a, (a < gndim (ggrid (garray c)))%nat -> partial_derivative (gndim (ggrid (garray c))) a f (f1 a) /\ partial_derivative (gndim (ggrid (garray c))) a (f1 a) (f2 a)) -> inb (gshape (ggrid (garray c))) ix ->
  Rabs (disc_lap (ggrid (garray c)) (fun jx => f (point (ggrid (garray c)) (goff (garray c)) jx)) ix - nsum (gndim (ggrid (garray c))) (fun a => f2 a (point (ggrid (garray c)) (goff (garray c)) ix))) <= M / 12 * h2 (ggrid (garray c)).
Proof.
  intros Hc Hf B HP Hix. pose proof (like_pf f Hc) as Hl. destruct (@laplacian_second_order_lem (like c f) f f1 f2 M Hl Hf (@like_samples c f) B HP) as (w & E & (_ & _ & _ & H)). destruct (laplacian_spec_lem Hl) as (w' & E' & (_ & _ & _ & V)). rewrite E in E'. apply ok_inj in E'. subst w'.
  specialize (H ix Hix). specialize (V ix Hix). rewrite V in H. pose proof (inb_length _ _ Hix) as L. unfold disc_lap. erewrite nsum_ext; [exact H|]. intros a Ha. cbv beta.
  assert (LS : forall k, length (shiftix a k ix) = gndim (ggrid (garray c))) by (intros k; unfold shiftix; rewrite upd_length; exact L).
  unfold next, prev. rewrite !(pv_pt Hl Hf (@like_samples c f)) by (try exact L; apply LS). reflexivity.
Qed.
Lemma disc_lap_value c nu : periodic_field c -> exists w, diffuse c nu = Ok w /\ is_field w (ggrid (garray c)) (goff (garray c)) (fun ix => nu * disc_lap (ggrid (garray c)) (pval (garray c)) ix).
Proof.
  intros Hc. unfold diffuse. destruct (laplacian_spec_lem Hc) as (l & El & Hl). rewrite El. cbn [bind]. unfold ga_scale. destruct (prep_scalar_l Rmult nu Hl) as (w & Ew & Hw). exists w. split; [exact Ew | exact Hw].
Qed.
(** ** Explicit diffusion *)
Lemma stable_weights g nu dt dtmax : wfg g -> (0 < gndim g)%nat -> (forall a, (a < gndim g)%nat -> 0 < hstep g a) -> 0 < nu -> stable_time_step nu g = Ok (Some dtmax) -> 0 <= dt <= dtmax -> 2 * nsum (gndim g) (fun a => dt * nu / hstep g a ^ 2) <= 1.
Proof.
  intros Hw Hd Hh Hnu Est Hdt. destruct (@stable_time_step_value_lem nu g) as (_ & Hst). destruct Hst as (am & Ham & Hmin & Est'); [lra | exact Hw | exact Hd|].
  rewrite Est in Est'. apply ok_inj in Est'. assert (E : dtmax = hstep g am ^ 2 / (nu * 2 ^ gndim g)) by congruence. subst dtmax.
  pose proof (Hh am Ham) as Hm. set (h := hstep g am) in *.
  assert (H1 : (nsum (gndim g) (fun a => dt * nu / hstep g a ^ 2) <= INR (gndim g) * (dt * nu / h ^ 2))%R).
  { rewrite <- nsum_const. apply nsum_le. intros a Ha. specialize (Hh a Ha). specialize (Hmin a Ha). unfold Rdiv. apply Rmult_le_compat_l; [nra|]. apply Rinv_le_contravar; nra. }
  pose proof (@two_pow (gndim g) Hd) as H2. set (P := (2 ^ gndim g)%R) in *. assert (HP : (0 < P)%R) by (apply pow_lt; lra).
  assert (H3 : (dt * nu / h ^ 2 <= / P)%R).
  { apply (Rmult_le_reg_r (h ^ 2)); [nra|]. unfold Rdiv. rewrite Rmult_assoc, Rinv_l by nra. rewrite Rmult_1_r. destruct Hdt as (_ & Hdt). apply (Rmult_le_compat_r nu) in Hdt; [|lra]. eapply Rle_trans; [exact Hdt|]. right. field. split; lra. }
  assert (H4 : (0 <= INR (gndim g))%R) by apply pos_INR.
  assert (H5 : (2 * (INR (gndim g) * (dt * nu / h ^ 2)) <= 1)%R).
  { apply Rle_trans with (2 * INR (gndim g) * / P)%R; [nra|]. apply (Rmult_le_reg_r P); [exact HP|]. rewrite Rmult_assoc, Rinv_l by lra. lra. }
  lra.
Qed.
Lemma heat_step g o c c' nu dt e M f f1 f2 : wfg g -> length o = gndim g -> (forall a, (a < gndim g)%nat -> 0 < hstep g a) -> 0 < nu -> 0 <= dt -> 2 * nsum (gndim g) (fun a => dt * nu / hstep g a ^ 2) <= 1 ->
  perbc g (gbc c) -> within e (garray c) g o f -> euler_step (fun c => diffuse c nu) dt c c' -> box_periodic g f -> bounded_derivatives (gndim g) 4 M f ->
  (forall a, (a < gndim g)%nat -> partial_derivative (gndim g) a f (f1 a) /\ partial_derivative (gndim g) a (f1 a) (f2 a)) ->
  within (e + dt * (nu * (M / 12 * h2 g))) (garray c') g o (fun x => f x + dt * (nu * nsum (gndim g) (fun a => f2 a x))).
Proof.
  intros Hg Ho Hh Hnu Hdt HW Hb Hw (dd & Ed & _ & (S1 & S2 & S3 & S4)) Hf B HP. pose proof (@within_pf _ c g o _ Hg Ho Hb Hw) as Hc. destruct (disc_lap_value nu Hc) as (w & Ew & (_ & _ & _ & V)). rewrite Ed in Ew. apply ok_inj in Ew. subst w.
  pose proof Hw as (A1 & A2 & A3 & A4). rewrite A1 in *. split; [exact S1|]. split; [eapply off_eq_trans; [exact S2 | exact A2]|]. split; [exact S3|]. intros ix Hix. rewrite S4, V by exact Hix. pose proof (inb_length _ _ Hix) as L.
  pose proof (@disc_lap_near c f f1 f2 M ix Hc) as N. rewrite A1 in N. specialize (N Hf B HP Hix). rewrite (point_off_eq _ _ A2) in N.
  set (eps := fun jx => pval (garray c) jx - f (point g o jx)). assert (He : forall jx, length jx = gndim g -> - e <= eps jx <= e) by (intros jx Hj; pose proof (@within_pval e (garray c) g o f jx Hg Hw Hf Hj) as P; unfold eps; apply Rabs_def2_le in P; lra).
  assert (LS : forall a k, length (shiftix a k ix) = gndim g) by (intros a k; unfold shiftix; rewrite upd_length; exact L).
  assert (EF : disc_lap g (fun jx => f (point g (goff (garray c)) jx)) ix = disc_lap g (fun jx => f (point g o jx)) ix) by (apply nsum_ext; intros a Ha; cbv beta; rewrite !(point_off_eq _ _ A2); reflexivity). rewrite EF in N. clear EF.
  assert (ED : disc_lap g (pval (garray c)) ix = disc_lap g (fun jx => f (point g o jx)) ix + disc_lap g eps ix).
  { unfold disc_lap. rewrite <- nsum_plus. apply nsum_ext. intros a Ha. unfold eps. specialize (Hh a Ha). field. lra. }
  pose proof (@nsum_conv (gndim g) (fun a => dt * nu / hstep g a ^ 2) (fun a => eps (next a ix)) (fun a => eps (prev a ix)) (- e) e (eps ix)) as C.
  assert (C1 : - e <= eps ix + nsum (gndim g) (fun a => dt * nu / hstep g a ^ 2 * (eps (next a ix) - 2 * eps ix + eps (prev a ix))) <= e).
  { apply C; [|apply He; exact L | exact HW]. intros a Ha. specialize (Hh a Ha). split; [apply Rle_mult_inv_pos; nra|]. split; apply He; apply LS. }
  assert (C2 : nsum (gndim g) (fun a => dt * nu / hstep g a ^ 2 * (eps (next a ix) - 2 * eps ix + eps (prev a ix))) = dt * (nu * disc_lap g eps ix)).
  { unfold disc_lap. rewrite <- !nsum_scal. apply nsum_ext. intros a Ha. specialize (Hh a Ha). field. lra. }
  rewrite C2 in C1. rewrite ED. set (T1 := disc_lap g (fun jx => f (point g o jx)) ix) in *. set (T2 := nsum (gndim g) (fun a => f2 a (point g o ix))) in *.
  assert (Eg : get (gdata (garray c)) ix = f (point g o ix) + eps ix) by (unfold eps; rewrite pval_inb by (rewrite A3; exact Hix); ring). rewrite Eg.
  replace (f (point g o ix) + eps ix + dt * (nu * (T1 + disc_lap g eps ix)) - (f (point g o ix) + dt * (nu * T2))) with ((eps ix + dt * (nu * disc_lap g eps ix)) + dt * nu * (T1 - T2)) by ring.
  eapply Rle_trans; [apply Rabs_triang|]. rewrite Rabs_mult, (Rabs_right (dt * nu)) by nra. assert (X1 : Rabs (eps ix + dt * (nu * disc_lap g eps ix)) <= e) by (apply Rabs_le; exact C1). assert (X2 : dt * nu * Rabs (T1 - T2) <= dt * nu * (M / 12 * h2 g)) by (apply Rmult_le_compat_l; [nra | exact N]). lra.
Qed.
(* @prop C81 Explicit diffusion converges to the heat equation. On every periodic grid in any dimension with positive cell widths, at any offset, for nu > 0 and any time step up to stable_time_step(nu, grid): if the run starts from the values of u(0) and every state is its predecessor plus dt * diffuse(predecessor, nu), where u is a smooth box-periodic solution of du/dt = nu laplacian(u) for t >= 0 with spatial derivatives up to fourth order bounded by M and second time derivative bounded by K, then after any number n of steps the state is within n dt (K dt / 2 + nu M (h_1^2 + ... + h_d^2) / 12) of u(n dt) in every cell. *)
Lemma explicit_diffusion_converges_lem : forall (run : nat -> gvar) (nu dt dtmax M K : R) (u : R -> list R -> R) (ux uxx : R -> nat -> list R -> R),
  let g := ggrid (garray (run 0%nat)) in let o := goff (garray (run 0%nat)) in
  periodic_field (run 0%nat) -> (0 < gndim g)%nat -> (forall a, (a < gndim g)%nat -> 0 < hstep g a) -> 0 < nu -> stable_time_step nu g = Ok (Some dtmax) -> 0 <= dt <= dtmax ->
  samples (garray (run 0%nat)) (u 0) -> (forall n, euler_step (fun c => diffuse c nu) dt (run n) (run (S n))) ->
  (forall t, 0 <= t -> box_periodic g (u t) /\ bounded_derivatives (gndim g) 4 M (u t)) ->
  (forall t a, 0 <= t -> (a < gndim g)%nat -> partial_derivative (gndim g) a (u t) (ux t a) /\ partial_derivative (gndim g) a (ux t a) (uxx t a)) ->
  has_rate (gndim g) K u (fun t x => nu * nsum (gndim g) (fun a => uxx t a x)) ->
  forall n, within (INR n * dt * (K * dt / 2 + nu * M / 12 * h2 g)) (garray (run n)) g o (u (INR n * dt)).
Proof.
  intros run nu dt dtmax M K u ux uxx g o H0 Hd Hh Hnu Est Hdt HS Hrun HB HP HR. pose proof H0 as ((Hg & Hsh & Ho) & Hb). fold g in Hg, Hsh, Ho, Hb. fold o in Ho. pose proof (@stable_weights g nu dt dtmax Hg Hd Hh Hnu Est Hdt) as HW.
  assert (I : forall n, perbc g (gbc (run n)) /\ within (INR n * dt * (K * dt / 2 + nu * M / 12 * h2 g)) (garray (run n)) g o (u (INR n * dt))); [|intros n; apply I].
  induction n as [|n (IB & IW)].
  - split; [exact Hb|]. split; [reflexivity|]. split; [apply off_eq_refl|]. split; [exact Hsh|]. intros ix Hix. cbn [INR]. rewrite !Rmult_0_l. rewrite HS by exact Hix. fold g o. replace (u 0 (point g o ix) - u 0 (point g o ix)) with 0 by ring. rewrite Rabs_R0. lra.
  - specialize (Hrun n). assert (Htn : 0 <= INR n * dt) by (apply Rmult_le_pos; [apply pos_INR | lra]). destruct (HB _ Htn) as (B1 & B2).
    split; [destruct Hrun as (dd & _ & Eb & _); unfold perbc in *; rewrite Eb; exact IB|].
    pose proof (@heat_step g o (run n) (run (S n)) nu dt _ M (u (INR n * dt)) (ux (INR n * dt)) (uxx (INR n * dt)) Hg Ho Hh Hnu (proj1 Hdt) HW IB IW Hrun B1 B2 (fun a Ha => HP _ a Htn Ha)) as W.
    assert (Et : INR (S n) * dt = INR n * dt + dt) by (rewrite S_INR; ring). rewrite Et.
    replace ((INR n * dt + dt) * (K * dt / 2 + nu * M / 12 * h2 g)) with (INR n * dt * (K * dt / 2 + nu * M / 12 * h2 g) + dt * (nu * (M / 12 * h2 g)) + K / 2 * dt ^ 2) by field.
    apply (@within_weak _ _ _ _ _ _ _ W). intros ix Hix. rewrite Rabs_minus_sym. cbv beta.
    pose proof (@taylor_time (gndim g) K u _ (INR n * dt) dt (point g o ix) HR Htn (proj1 Hdt) (point_length g o ix)) as T. cbv beta in T.
    eapply Rle_trans; [|exact T]. apply Req_le. f_equal. ring.
Qed.
(** ** Upwind transport *)
Lemma upwind_step g o c c' v dt vm cm e Mc Mv dv fc fv c1 v1 : wfg g -> length o = gndim g -> (0 < gndim g)%nat -> (forall a, (a < gndim g)%nat -> 0 < hstep g a) ->
  0 < vm -> 0 <= cm -> INR (gndim g) * cm <= 1 -> advection_stable_time_step vm cm g = Ok dt -> 0 <= dt ->
  periodic_vec g v -> homogeneous_vec v -> face_aligned o v -> (forall u ix, In u v -> inb (gshape g) ix -> Rabs (get (gdata (garray u)) ix) <= vm) ->
  divergence v = Ok dv -> (forall ix, inb (gshape g) ix -> get (gdata dv) ix = 0) ->
  perbc g (gbc c) -> within e (garray c) g o fc -> euler_step (fun c => advect_upwind c v dt) dt c c' -> box_periodic g fc -> bounded_derivatives (gndim g) 3 Mc fc -> smooth_velocity g 3 Mv v fv ->
  (forall a, (a < gndim g)%nat -> partial_derivative (gndim g) a fc (c1 a) /\ partial_derivative (gndim g) a (fv a) (v1 a)) ->
  within (e + dt * (Mv * Mc * ((1 / 3 + INR (gndim g) / 2) * h2 g + nsum (gndim g) (fun a => Rabs (hstep g a))))) (garray c') g o (fun x => fc x + dt * (- nsum (gndim g) (fun a => v1 a x * fc x + fv a x * c1 a x))).
Proof.
  intros Hg Ho Hd Hh Hvm Hcm Hcd Edt Hdt Hv Hhom Hal Hvb Edv Hdv Hb Hw (dd & Ed & _ & (S1 & S2 & S3 & S4)) Hf B HV HP. pose proof (@within_pf _ c g o _ Hg Ho Hb Hw) as Hc. pose proof Hw as (A1 & A2 & A3 & A4).
  assert (Hvc : periodic_vec (ggrid (garray c)) v) by (rewrite A1; exact Hv).
  assert (Hdc : (0 < gndim (ggrid (garray c)))%nat) by (rewrite A1; exact Hd).
  destruct (@advect_upwind_flux_form_lem c v dt Hc Hdc Hvc Hhom) as (w & Ew & (_ & _ & _ & V)). rewrite Ed in Ew. apply ok_inj in Ew. subst w.
  destruct (@upwind_first_order_lem (like c fc) v dt fc fv c1 v1 Mc Mv (like_pf fc Hc) Hdc Hvc Hhom) as (wl & Ewl & (_ & _ & _ & BL)); try (cbn [like garray ggrid]; rewrite A1; assumption); [apply like_samples|].
  destruct (@advect_upwind_flux_form_lem (like c fc) v dt (like_pf fc Hc) Hdc Hvc Hhom) as (wl' & Ewl' & (_ & _ & _ & VL)). rewrite Ewl in Ewl'. apply ok_inj in Ewl'. subst wl'.
  set (ec := mkgv (mkga (mkarr (gshape g) (fun ix => get (gdata (garray c)) ix - fc (point g (goff (garray c)) ix))) (goff (garray c)) (ggrid (garray c))) (gbc c)).
  assert (Hec : periodic_field ec). { destruct Hc as ((X1 & _ & X2) & X3). split; [|exact X3]. split; [exact X1|]. split; [cbn; rewrite A1; reflexivity | exact X2]. }
  destruct (@advect_upwind_flux_form_lem ec v dt Hec Hdc Hvc Hhom) as (we & Ewe & (_ & _ & _ & VE)).
  assert (Hea : face_aligned (goff (garray ec)) v). { intros i u Eu. eapply off_eq_trans; [apply (Hal i u Eu)|]. apply off_eq_offs; [apply off_eq_sym; exact A2 | reflexivity]. }
  assert (HE : forall ix, inb (gshape g) ix -> - e <= get (gdata (garray ec)) ix <= e). { intros ix Hix. cbn [ec garray gdata get]. rewrite (point_off_eq _ _ A2). apply Rabs_def2_le. apply A4. exact Hix. }
  pose proof (@upwind_stable_step_lem ec v dt vm cm we dv (- e) e Hec Hdc Hvc Hhom Hea) as ST. cbn [ec garray ggrid] in ST. rewrite A1 in ST. specialize (ST Hh Hvm Hcm Hcd Edt Hvb Edv Hdv Ewe HE).
  cbn [like ec garray ggrid goff] in VE, VL, BL. rewrite A1 in VE, VL, BL, V, S1, S3, S4. split; [exact S1|]. split; [eapply off_eq_trans; [exact S2 | exact A2]|]. split; [exact S3|]. intros ix Hix. pose proof (inb_length _ _ Hix) as L. rewrite S4, V by exact Hix. specialize (ST ix Hix). specialize (BL ix Hix). specialize (VL ix Hix). rewrite VL in BL. rewrite (VE ix Hix) in ST. rewrite (point_off_eq _ _ A2) in BL.
  assert (FVE : forall a jx, face_velocity ec v a jx = face_velocity c v a jx) by reflexivity. assert (FVL : forall a jx, face_velocity (like c fc) v a jx = face_velocity c v a jx) by reflexivity.
  assert (LS : forall a k, length (shiftix a k ix) = gndim g) by (intros a k; unfold shiftix; rewrite upd_length; exact L).
  match type of BL with Rabs (- outflow g ?X ix - ?Y) <= _ => set (FL := X) in *; set (TG := Y) in * end. match type of ST with _ <= _ + dt * - outflow g ?X ix <= _ => set (FE := X) in * end.
  match goal with |- Rabs (_ + dt * - outflow g ?X ix - _) <= _ => set (FC := X) in * end.
  assert (EO : outflow g FC ix = outflow g FL ix + outflow g FE ix).
  { unfold outflow. rewrite <- nsum_plus. apply nsum_ext. intros a Ha. specialize (Hh a Ha).
    assert (K : forall jx, length jx = gndim g -> FC a jx = FL a jx + FE a jx). { intros jx Hj. unfold FC, FL, FE. rewrite FVE, FVL. destruct (Rlt_dec 0 (face_velocity c v a jx)); unfold pval; cbn [like ec garray gdata get shp ggrid goff]; rewrite A3, ?A1; ring. }
    rewrite !K by (try exact L; apply LS). field. lra. }
  rewrite EO. cbn [ec garray gdata get] in ST. rewrite (point_off_eq _ _ A2) in ST. set (p := point g o ix) in *. change (- nsum (gndim g) (fun a => v1 a p * fc p + fv a p * c1 a p)) with TG.
  replace (get (gdata (garray c)) ix + dt * - (outflow g FL ix + outflow g FE ix) - (fc p + dt * TG)) with ((get (gdata (garray c)) ix - fc p + dt * - outflow g FE ix) + dt * (- outflow g FL ix - TG)) by ring.
  eapply Rle_trans; [apply Rabs_triang|]. rewrite (Rabs_mult dt), (Rabs_right dt) by lra. apply Rplus_le_compat; [apply Rabs_le; exact ST|]. apply Rmult_le_compat_l; [lra | exact BL].
Qed.
(* @prop C81 Upwind transport converges. On every periodic grid in any dimension with positive cell widths: a scalar is carried by a staggered velocity (any velocity for every step, with homogeneous boundary conditions, discretely divergence-free, at most vm in size) with the time step of advection's stable_time_step(vm, cm, grid), cm at most one over the number of dimensions. If the run starts from the values of u(0), every state is its predecessor plus dt * advect_upwind(predecessor, velocity at that time), and the velocities hold the values of a smooth flow V with du/dt = - div(V u) for t >= 0 (derivatives of u and V up to third order bounded by Mc and Mv, second time derivative of u by K), then after any number n of steps the state is within n dt (K dt / 2 + Mv Mc ((1/3 + d/2) (h_1^2 + ... + h_d^2) + h_1 + ... + h_d)) of u(n dt) in every cell. *)
Lemma upwind_transport_converges_lem : forall (run : nat -> gvar) (v : nat -> list gvar) (vm cm dt Mc Mv K : R) (u : R -> list R -> R) (ux V Vx : R -> nat -> list R -> R),
  let g := ggrid (garray (run 0%nat)) in let o := goff (garray (run 0%nat)) in
  periodic_field (run 0%nat) -> (0 < gndim g)%nat -> (forall a, (a < gndim g)%nat -> 0 < hstep g a) ->
  0 < vm -> 0 <= cm -> INR (gndim g) * cm <= 1 -> advection_stable_time_step vm cm g = Ok dt ->
  (forall n, periodic_vec g (v n) /\ homogeneous_vec (v n) /\ face_aligned o (v n) /\ (forall w ix, In w (v n) -> inb (gshape g) ix -> Rabs (get (gdata (garray w)) ix) <= vm) /\
     (exists dv, divergence (v n) = Ok dv /\ forall ix, inb (gshape g) ix -> get (gdata dv) ix = 0) /\ smooth_velocity g 3 Mv (v n) (V (INR n * dt))) ->
  samples (garray (run 0%nat)) (u 0) -> (forall n, euler_step (fun c => advect_upwind c (v n) dt) dt (run n) (run (S n))) ->
  (forall t, 0 <= t -> box_periodic g (u t) /\ bounded_derivatives (gndim g) 3 Mc (u t)) ->
  (forall t a, 0 <= t -> (a < gndim g)%nat -> partial_derivative (gndim g) a (u t) (ux t a) /\ partial_derivative (gndim g) a (V t a) (Vx t a)) ->
  has_rate (gndim g) K u (fun t x => - nsum (gndim g) (fun a => Vx t a x * u t x + V t a x * ux t a x)) ->
  forall n, within (INR n * dt * (K * dt / 2 + Mv * Mc * ((1 / 3 + INR (gndim g) / 2) * h2 g + nsum (gndim g) (fun a => hstep g a)))) (garray (run n)) g o (u (INR n * dt)).
Proof.
  intros run v vm cm dt Mc Mv K u ux V Vx g o H0 Hd Hh Hvm Hcm Hcd Edt Hv HS Hrun HB HP HR. pose proof H0 as ((Hg & Hsh & Ho) & Hb). fold g in Hg, Hsh, Ho, Hb. fold o in Ho.
  assert (Hdt : 0 <= dt). { destruct (@advection_cfl_lem vm cm g dt Hvm Hcm Edt) as (_ & a & Ha & E). assert (0 < hstep g a) by (apply Hh; destruct Hg as (X & _); lia). assert (0 <= cm * hstep g a) by (apply Rmult_le_pos; lra). rewrite <- E in H1. apply (Rmult_le_reg_l vm); [exact Hvm|]. lra. }
  assert (EA : nsum (gndim g) (fun a => Rabs (hstep g a)) = nsum (gndim g) (fun a => hstep g a)) by (apply nsum_ext; intros a Ha; apply Rabs_right; specialize (Hh a Ha); lra).
  set (C := Mv * Mc * ((1 / 3 + INR (gndim g) / 2) * h2 g + nsum (gndim g) (fun a => hstep g a))).
  assert (I : forall n, perbc g (gbc (run n)) /\ within (INR n * dt * (K * dt / 2 + C)) (garray (run n)) g o (u (INR n * dt))); [|intros n; apply I].
  induction n as [|n (IB & IW)].
  - split; [exact Hb|]. split; [reflexivity|]. split; [apply off_eq_refl|]. split; [exact Hsh|]. intros ix Hix. cbn [INR]. rewrite !Rmult_0_l. rewrite HS by exact Hix. fold g o. replace (u 0 (point g o ix) - u 0 (point g o ix)) with 0 by ring. rewrite Rabs_R0. lra.
  - specialize (Hrun n). assert (Htn : 0 <= INR n * dt) by (apply Rmult_le_pos; [apply pos_INR | lra]). destruct (HB _ Htn) as (B1 & B2). destruct (Hv n) as (V1 & V2 & V3 & V4 & (dv & V5 & V6) & V7).
    split; [destruct Hrun as (dd & _ & Eb & _); unfold perbc in *; rewrite Eb; exact IB|].
    pose proof (@upwind_step g o (run n) (run (S n)) (v n) dt vm cm _ Mc Mv dv (u (INR n * dt)) (V (INR n * dt)) (ux (INR n * dt)) (Vx (INR n * dt)) Hg Ho Hd Hh Hvm Hcm Hcd Edt Hdt V1 V2 V3 V4 V5 V6 IB IW Hrun B1 B2 V7 (fun a Ha => HP _ a Htn Ha)) as W. rewrite EA in W. fold C in W.
    assert (Et : INR (S n) * dt = INR n * dt + dt) by (rewrite S_INR; ring). rewrite Et.
    replace ((INR n * dt + dt) * (K * dt / 2 + C)) with (INR n * dt * (K * dt / 2 + C) + dt * C + K / 2 * dt ^ 2) by field.
    apply (@within_weak _ _ _ _ _ _ _ W). intros ix Hix. rewrite Rabs_minus_sym. cbv beta.
    pose proof (@taylor_time (gndim g) K u _ (INR n * dt) dt (point g o ix) HR Htn Hdt (point_length g o ix)) as T. cbv beta in T.
    eapply Rle_trans; [|exact T]. apply Req_le. f_equal. ring.
Qed.

(** ** Examples: a decaying and a travelling wave on the 8 x 8 grid *)
Definition advance (rhs : gvar -> result garr) (dt : R) (c : gvar) : gvar :=
  match rhs c with
  | Ok d => mkgv (mkga (mkarr (gshape (ggrid (garray c))) (fun ix => get (gdata (garray c)) ix + dt * get (gdata d) ix)) (goff (garray c)) (ggrid (garray c))) (gbc c)
  | Err _ => c
  end.
Fixpoint advanced (rhs : gvar -> result garr) (dt : R) (c : gvar) (n : nat) : gvar := match n with O => c | S n => advance rhs dt (advanced rhs dt c n) end.
Lemma advanced_inv rhs dt c : periodic_field c -> (forall c', periodic_field c' -> ggrid (garray c') = ggrid (garray c) -> exists d, rhs c' = Ok d) ->
  forall n, periodic_field (advanced rhs dt c n) /\ ggrid (garray (advanced rhs dt c n)) = ggrid (garray c) /\ euler_step rhs dt (advanced rhs dt c n) (advanced rhs dt c (S n)).
Proof.
  intros Hc HR. assert (ST : forall c', periodic_field c' -> ggrid (garray c') = ggrid (garray c) -> periodic_field (advance rhs dt c') /\ ggrid (garray (advance rhs dt c')) = ggrid (garray c) /\ euler_step rhs dt c' (advance rhs dt c')).
  { intros c' H' E. destruct (HR c' H' E) as (d & Ed). unfold advance. rewrite Ed. split; [|split].
    - destruct H' as ((A & B & C) & D). split; [split; [exact A | split; [reflexivity | exact C]] | exact D].
    - exact E.
    - exists d. split; [exact Ed|]. split; [reflexivity|]. split; [reflexivity|]. split; [apply off_eq_refl|]. split; [reflexivity|]. intros ix _. reflexivity. }
  induction n as [|n (I1 & I2 & _)].
  - destruct (ST c Hc eq_refl) as (_ & _ & S). split; [exact Hc|]. split; [reflexivity | exact S].
  - destruct (ST _ I1 I2) as (J1 & J2 & _). split; [exact J1|]. split; [exact J2|]. apply (ST _ J1 J2).
Qed.
Definition fading (t : R) (x : list R) : R := exp (- (2 * t)) * wave 0 0 x.
Definition fading_x (t : R) (a : nat) (x : list R) : R := exp (- (2 * t)) * dwave a 0 0 x.
Definition fading_xx (t : R) (a : nat) (x : list R) : R := exp (- (2 * t)) * match a with O => wave (0 + PI / 2 + PI / 2) 0 x | _ => wave 0 (0 + PI / 2 + PI / 2) x end.
Lemma scaled_wave_bd m k : 0 <= m <= 1 -> forall p q, bounded_derivatives 2 k 1 (fun x => m * wave p q x).
Proof.
  intros Hm. induction k as [|k IH]; intros p q; (split; [intros x _; rewrite Rabs_mult, (Rabs_right m) by lra; pose proof (wave_bound p q x); pose proof (Rabs_pos (wave p q x)); nra|]); [exact I|].
  intros a Ha. exists (fun x => m * dwave a p q x). split; [apply partial_scal; apply wave_partial; exact Ha|]. destruct a; apply IH.
Qed.
Lemma fade_bound t : 0 <= t -> 0 <= exp (- (2 * t)) <= 1.
Proof. intros Ht. split; [left; apply exp_pos|]. rewrite <- exp_0. destruct (Rle_lt_or_eq_dec _ _ Ht) as [H|<-]; [left; apply exp_increasing; lra | apply Req_le; f_equal; lra]. Qed.
Lemma fade_der c k t : derivable_pt_lim (fun s => k * exp (- (2 * s)) * c) t (-2 * k * exp (- (2 * t)) * c).
Proof.
  replace (-2 * k * exp (- (2 * t)) * c) with ((k * c) * (exp (- (2 * t)) * -2)) by ring. apply (@derivable_pt_lim_ext (fun s => (k * c) * exp (- (2 * s)))); [intros; ring|]. apply (@derivable_pt_lim_scal (fun s => exp (- (2 * s)))).
  apply (derivable_pt_lim_comp (fun s => - (2 * s)) exp t (-2)); [|apply derivable_pt_lim_exp]. apply (@derivable_pt_lim_ext (fun s => -2 * id s)); [intros; unfold id; ring|]. assert (D : derivable_pt_lim (fun s => -2 * id s) t (-2 * 1)) by (apply (@derivable_pt_lim_scal id); apply derivable_pt_lim_id). rewrite Rmult_1_r in D. exact D.
Qed.
Lemma wave_half a p q x : (match a with O => wave (p + PI / 2 + PI / 2) q x | _ => wave p (q + PI / 2 + PI / 2) x end) = - wave p q x.
Proof. destruct a; unfold wave; [replace (nth 0 x 0 + (p + PI / 2 + PI / 2)) with (nth 0 x 0 + p + PI) by field | replace (nth 1 x 0 + (q + PI / 2 + PI / 2)) with (nth 1 x 0 + q + PI) by field]; rewrite neg_sin; ring. Qed.
Lemma fading_solves : (forall t, 0 <= t -> box_periodic tgg (fading t) /\ bounded_derivatives (gndim tgg) 4 1 (fading t)) /\
  (forall t a, 0 <= t -> (a < gndim tgg)%nat -> partial_derivative (gndim tgg) a (fading t) (fading_x t a) /\ partial_derivative (gndim tgg) a (fading_x t a) (fading_xx t a)) /\
  has_rate (gndim tgg) 4 fading (fun t x => 1 * nsum (gndim tgg) (fun a => fading_xx t a x)).
Proof.
  change (gndim tgg) with 2%nat. assert (ER : forall t x, 1 * nsum 2 (fun a => fading_xx t a x) = -2 * 1 * exp (- (2 * t)) * wave 0 0 x) by (intros t x; assert (EX : forall a, fading_xx t a x = exp (- (2 * t)) * - wave 0 0 x) by (intros a; unfold fading_xx; rewrite wave_half; reflexivity); unfold nsum, lsum; cbn [fold_right map seq]; rewrite !EX; ring).
  split; [|split; [|split]].
  - intros t Ht. split; [intros x y Hx Hy E; unfold fading; f_equal; exact (@wave_periodic 0 0 x y Hx Hy E) | apply (scaled_wave_bd 4 (fade_bound Ht))].
  - intros t a Ht Ha. split; apply partial_scal; [apply wave_partial; exact Ha|]. destruct a as [|[|a]]; [apply wave_partial0 | apply wave_partial1 | lia].
  - intros t x _ _. cbv beta. rewrite ER. apply (@derivable_pt_lim_ext (fun s => 1 * exp (- (2 * s)) * wave 0 0 x)); [intros; unfold fading; ring | apply fade_der].
  - exists (fun t x => -2 * (-2) * exp (- (2 * t)) * wave 0 0 x). intros t x Ht _. split.
    + apply (@derivable_pt_lim_ext (fun s => -2 * exp (- (2 * s)) * wave 0 0 x)); [intros s; cbv beta; rewrite ER; ring | apply fade_der].
    + pose proof (fade_bound Ht). pose proof (wave_bound 0 0 x). rewrite Rabs_mult. replace (-2 * -2 * exp (- (2 * t))) with (4 * exp (- (2 * t))) by ring. rewrite Rabs_right by lra. pose proof (Rabs_pos (wave 0 0 x)). nra.
Qed.
Lemma tgg_steps a : (a < gndim tgg)%nat -> hstep tgg a = PI / 4.
Proof. intros Ha. change (a < 2)%nat in Ha. destruct a as [|[|a]]; [reflexivity | reflexivity | lia]. Qed.
(* @ex *)
Lemma explicit_diffusion_converges_ex_lem : exists (run : nat -> gvar) (dtmax : R), let g := ggrid (garray (run 0%nat)) in
  run 0%nat = tgc /\ periodic_field (run 0%nat) /\ (0 < gndim g)%nat /\ (forall a, (a < gndim g)%nat -> 0 < hstep g a) /\ 0 < 1 /\ stable_time_step 1 g = Ok (Some dtmax) /\ 0 < dtmax <= dtmax /\
  samples (garray (run 0%nat)) (fading 0) /\ (forall n, euler_step (fun c => diffuse c 1) dtmax (run n) (run (S n))) /\
  (forall t, 0 <= t -> box_periodic g (fading t) /\ bounded_derivatives (gndim g) 4 1 (fading t)) /\
  (forall t a, 0 <= t -> (a < gndim g)%nat -> partial_derivative (gndim g) a (fading t) (fading_x t a) /\ partial_derivative (gndim g) a (fading_x t a) (fading_xx t a)) /\
  has_rate (gndim g) 4 fading (fun t x => 1 * nsum (gndim g) (fun a => fading_xx t a x)).
Proof.
  pose proof PI_RGT_0 as HPI. assert (Hc : periodic_field tgc) by (apply sampled_pf; reflexivity).
  destruct (@stable_time_step_value_lem 1 tgg) as (_ & H). destruct H as (a & Ha & _ & E); [lra | exact tgg_wf | cbn; lia|].
  rewrite (tgg_steps Ha) in E. exists (advanced (fun c => diffuse c 1) ((PI / 4) ^ 2 / (1 * 2 ^ gndim tgg)) tgc), ((PI / 4) ^ 2 / (1 * 2 ^ gndim tgg)). cbv zeta. change (ggrid (garray (advanced (fun c => diffuse c 1) ((PI / 4) ^ 2 / (1 * 2 ^ gndim tgg)) tgc 0))) with tgg.
  assert (RC : forall c', periodic_field c' -> ggrid (garray c') = ggrid (garray tgc) -> exists d, diffuse c' 1 = Ok d) by (intros c' H' _; destruct (disc_lap_value 1 H') as (w & Ew & _); exists w; exact Ew).
  split; [reflexivity|]. split; [exact Hc|]. split; [cbn; lia|]. split; [intros b Hb; rewrite (tgg_steps Hb); lra|]. split; [lra|]. split; [exact E|].
  split. { split; [|lra]. apply Rdiv_lt_0_compat; [apply pow_lt; lra|]. rewrite Rmult_1_l. apply pow_lt. lra. }
  split. { intros ix _. unfold fading. rewrite Rmult_0_r, Ropp_0, exp_0. symmetry. apply Rmult_1_l. }
  split; [intros n; apply (@advanced_inv (fun c => diffuse c 1) _ tgc Hc RC)|]. exact fading_solves.
Qed.
Definition drift (a : nat) (x : list R) : R := match a with O => 1 | _ => 0 end.
Definition driftv : list gvar := [sampled [1; 1 # 2]%Q (drift 0); sampled [1 # 2; 1]%Q (drift 1)].
Definition moving (t : R) : list R -> R := wave (- t) 0.
Lemma drift_partial a b : partial_derivative 2 b (drift a) (fun _ => 0).
Proof. intros x _. destruct a; unfold drift; apply (@derivable_pt_lim_const); reflexivity. Qed.
Lemma drift_bd a k : bounded_derivatives 2 k 1 (drift a).
Proof. assert (X : forall x, Rabs (drift a x) <= 1) by (intros x; destruct a; cbn [drift]; rewrite ?Rabs_R1, ?Rabs_R0; lra). destruct k as [|k]; (split; [intros x _; apply X|]); [exact I|]. intros b Hb. exists (fun _ => 0). split; [apply drift_partial | apply bd_zero; lra]. Qed.
Lemma moving_der p q x t : derivable_pt_lim (fun s => wave (p - s) q x) t (- wave (p - t + PI / 2) q x).
Proof.
  unfold wave. apply (@derivable_pt_lim_ext (fun s => sin (nth 1 x 0 + q) * sin ((nth 0 x 0 + p) - s))); [intros s; rewrite Rmult_comm; f_equal; f_equal; ring|].
  replace (- (sin (nth 0 x 0 + (p - t + PI / 2)) * sin (nth 1 x 0 + q))) with (sin (nth 1 x 0 + q) * - sin (nth 0 x 0 + (p - t + PI / 2))) by ring. apply (@derivable_pt_lim_scal (fun s => sin ((nth 0 x 0 + p) - s))). apply dlim_flip.
  replace (nth 0 x 0 + (p - t + PI / 2)) with (PI / 2 + ((nth 0 x 0 + p) - t)) by ring. rewrite <- cos_sin. apply derivable_pt_lim_sin.
Qed.
(* @ex *)
Lemma upwind_transport_converges_ex_lem : exists (run : nat -> gvar), let g := ggrid (garray (run 0%nat)) in let o := goff (garray (run 0%nat)) in
  run 0%nat = tgc /\ periodic_field (run 0%nat) /\ (0 < gndim g)%nat /\ (forall a, (a < gndim g)%nat -> 0 < hstep g a) /\
  0 < 1 /\ 0 <= 1 / 2 /\ INR (gndim g) * (1 / 2) <= 1 /\ advection_stable_time_step 1 (1 / 2) g = Ok (PI / 8) /\
  (periodic_vec g driftv /\ homogeneous_vec driftv /\ face_aligned o driftv /\ (forall w ix, In w driftv -> inb (gshape g) ix -> Rabs (get (gdata (garray w)) ix) <= 1) /\
     (exists dv, divergence driftv = Ok dv /\ forall ix, inb (gshape g) ix -> get (gdata dv) ix = 0) /\ smooth_velocity g 3 1 driftv drift) /\
  samples (garray (run 0%nat)) (moving 0) /\ (forall n, euler_step (fun c => advect_upwind c driftv (PI / 8)) (PI / 8) (run n) (run (S n))) /\
  (forall t, 0 <= t -> box_periodic g (moving t) /\ bounded_derivatives (gndim g) 3 1 (moving t)) /\
  (forall t a, 0 <= t -> (a < gndim g)%nat -> partial_derivative (gndim g) a (moving t) (dwave a (- t) 0) /\ partial_derivative (gndim g) a (drift a) (fun _ => 0)) /\
  has_rate (gndim g) 1 moving (fun t x => - nsum (gndim g) (fun a => 0 * moving t x + drift a x * dwave a (- t) 0 x)).
Proof.
  pose proof PI_RGT_0 as HPI. assert (Hc : periodic_field tgc) by (apply sampled_pf; reflexivity). exists (advanced (fun c => advect_upwind c driftv (PI / 8)) (PI / 8) tgc). cbv zeta. set (run := advanced (fun c => advect_upwind c driftv (PI / 8)) (PI / 8) tgc).
  change (ggrid (garray (run 0%nat))) with tgg. change (goff (garray (run 0%nat))) with [1 # 2; 1 # 2]%Q. change (gndim tgg) with 2%nat.
  assert (HV : periodic_vec tgg driftv) by (split; [reflexivity|]; constructor; [|constructor; [|constructor]]; (split; [apply sampled_pf; reflexivity | reflexivity])).
  assert (HH : homogeneous_vec driftv) by repeat constructor.
  assert (HF : face_aligned [1 # 2; 1 # 2]%Q driftv) by (intros [|[|[|i]]] u E; cbn in E; try discriminate E; injection E as <-; repeat constructor).
  split; [reflexivity|]. split; [exact Hc|]. split; [lia|]. split; [intros b Hb; rewrite (tgg_steps Hb); lra|]. split; [lra|]. split; [lra|]. split; [cbn; lra|].
  split. { unfold advection_stable_time_step. cbn [tgg gstep fold_left]. destruct (Req_EM_T 1 0); [lra|]. f_equal. rewrite Rmin_left by lra. field. }
  split. { split; [exact HV|]. split; [exact HH|]. split; [exact HF|]. split; [intros w ix [<-|[<-|[]]] _; cbn [sampled garray gdata get drift]; rewrite ?Rabs_R1, ?Rabs_R0; lra|]. split.
    - destruct (@divergence_spec_lem tgg [1 # 2; 1 # 2]%Q driftv ltac:(cbn; lia) HV eq_refl HF) as (dv & E & (_ & _ & _ & V)). exists dv. split; [exact E|]. intros ix Hix. rewrite V by exact Hix. change (gndim tgg) with 2%nat.
      assert (EV : forall i jx, (i < 2)%nat -> vval driftv i jx = drift i []) by (intros i jx Hi; destruct i as [|[|i]]; [reflexivity | reflexivity | lia]). unfold nsum, lsum; cbn [fold_right map seq]. rewrite !EV by lia. unfold drift. unfold Rdiv. ring.
    - intros [|[|[|i]]] u E; cbn in E; try discriminate E; injection E as <-; (split; [intros x y _ _ _; reflexivity | split; [apply sampled_samples | apply drift_bd]]). }
  split. { intros ix _. unfold moving. rewrite Ropp_0. reflexivity. }
  split. { apply advanced_inv; [exact Hc|]. intros c' H' E. destruct (@advect_upwind_flux_form_lem c' driftv (PI / 8) H') as (w & Ew & _); [rewrite E; cbn; lia | rewrite E; exact HV | exact HH | exists w; exact Ew]. }
  split; [intros t Ht; split; [apply wave_periodic | apply wave_bd]|]. split; [intros t a Ht Ha; split; [apply wave_partial; exact Ha | apply drift_partial]|].
  assert (ER : forall t x, - nsum 2 (fun a => 0 * moving t x + drift a x * dwave a (- t) 0 x) = - wave (0 - t + PI / 2) 0 x) by (intros t x; unfold nsum, lsum; cbn [fold_right map seq drift dwave]; rewrite Rminus_0_l; ring). split.
  - intros t x _ _. rewrite ER. apply (@derivable_pt_lim_ext (fun s => wave (0 - s) 0 x)); [intros s; unfold moving; rewrite Rminus_0_l; reflexivity | apply moving_der].
  - exists (fun t x => -1 * - wave (PI / 2 - t + PI / 2) 0 x). intros t x Ht _. split.
    + apply (@derivable_pt_lim_ext (fun s => -1 * wave (PI / 2 - s) 0 x)); [intros s; cbv beta; rewrite ER; replace (PI / 2 - s) with (0 - s + PI / 2) by ring; ring|]. apply (@derivable_pt_lim_scal (fun s => wave (PI / 2 - s) 0 x)). apply moving_der.
    + replace (-1 * - wave (PI / 2 - t + PI / 2) 0 x) with (wave (PI / 2 - t + PI / 2) 0 x) by ring. apply wave_bound.
Qed.
