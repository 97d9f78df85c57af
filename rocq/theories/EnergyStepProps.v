(** * C87: the kinetic energy over one explicit Euler step of Navier-Stokes *)
From Verif Require Import Prelude NdArr Grids_model Spec Boundaries_model BoundariesPeriodic FD_model Interp_model Advection_model Pressure_model PRep FDProofs FDProps InterpProps AdvectionProofs AdvectionProps ConvectProps PressureProps PressureSolveProps ProjectionProps FastDiag_model Laplacian_model PressureSolve_model Diffusion_model TimeStep_model Equations_model SpecNS EquationsProps AccuracyProps SpecEnergy.
Set Implicit Arguments.
Local Open Scope R_scope.

Lemma velocity_vval g v i ix : periodic_vec g v -> (i < gndim g)%nat -> inb (gshape g) ix -> velocity_at v i ix = vval v i ix.
Proof.
  intros Hv Hi Hix. rewrite velocity_at_nth by (destruct Hv; lia). destruct (periodic_vec_pvar Hv Hi) as ((_ & _ & _ & V) & _). apply V. exact Hix.
Qed.
Section V.
Variables (g : grid) (o : list Q) (bs : list bcs).
Hypothesis (Hd : (0 < gndim g)%nat) (Ho : length o = gndim g).
Local Notation PV := (periodic_velocity g o bs).
Lemma pv_velocity v i ix : PV v -> (i < gndim g)%nat -> inb (gshape g) ix -> velocity_at v i ix = vval v i ix.
Proof. intros (Hv & _). apply velocity_vval. exact Hv. Qed.
Lemma vel_add_vals a b : PV a -> PV b -> exists c, vel_add a b = Ok c /\ PV c /\ forall i ix, (i < gndim g)%nat -> inb (gshape g) ix -> vval c i ix = vval a i ix + vval b i ix.
Proof.
  intros Ha Hb. destruct (vel_add_pv Hd Ho Ha Hb) as (c0 & E0 & Hc0 & _). exists c0. split; [exact E0|]. split; [exact Hc0|]. intros i ix Hi Hix. rewrite <- (pv_velocity ix Hc0 Hi Hix).
  unfold vel_add in E0. rewrite (same_vars_pv Hd Ho Ha Hb) in E0. pose proof (pv_len Ha) as La. pose proof (pv_len Hb) as Lb.
  destruct (@mapM_combine gvar gvar gvar (fun ab => let* s := tree_add2 (garray (fst ab)) (garray (snd ab)) in Ok (mkgv s (gbc (fst ab))))
    (fun i w => prep g (offs i (1 # 2) o) (fun ix => vval a i ix + vval b i ix)%R (garray w)) a b dgv dgv) as (c & E & HL & Hc); [lia | |].
  { intros j Hj. assert (Hj' : (j < gndim g)%nat) by lia. cbn [fst snd]. destruct (tree_add2_prep (pv_prep Hd Ho Ha Hj') (pv_prep Hd Ho Hb Hj')) as (w & Ew & Hw). rewrite Ew. cbn [bind]. eexists; split; [reflexivity | exact Hw]. }
  rewrite E0 in E. apply ok_inj in E. subst c. rewrite velocity_at_nth by (rewrite (pv_len Hc0); exact Hi). destruct (Hc i dgv ltac:(lia)) as (_ & _ & _ & V). apply V; exact Hix.
Qed.
Lemma vel_scal_vals c a : PV a -> forall i ix, (i < gndim g)%nat -> inb (gshape g) ix -> vval (vel_scal c a) i ix = c * vval a i ix.
Proof.
  intros Ha i ix Hi Hix. pose proof (proj1 (vel_scal_pv Hd Ho c Ha)) as Hc. rewrite <- (pv_velocity ix Hc Hi Hix), <- (pv_velocity ix Ha Hi Hix). pose proof (pv_len Ha) as La. pose proof (pv_len Hc) as Lc. rewrite !velocity_at_nth by lia.
  unfold vel_scal. rewrite (nth_map' _ _ dgv dgv) by lia. reflexivity.
Qed.
(** Projection subtracts a gradient, which does no work on a divergence-free velocity. *)
Lemma projection_orth solve v u d : PV v -> PV u -> pressure_solver g o solve -> divergence v = Ok d -> (forall ix, inb (gshape g) ix -> get (gdata d) ix = 0) ->
  exists w, projection solve u = Ok w /\ PV w /\ nsum (gndim g) (fun i => asum (gshape g) (fun ix => vval v i ix * vval w i ix)) = nsum (gndim g) (fun i => asum (gshape g) (fun ix => vval v i ix * vval u i ix)).
Proof.
  intros Hv Hu Hs Ed Hz. destruct (projection_pv Hd Ho Hu Hs) as (w & Ew & Hw & _). exists w. split; [exact Ew|]. split; [exact Hw|]. pose proof (pv_wfg Hd Hu) as Hg. pose proof Hu as (Hpu & _ & Hfu & _). pose proof Hv as (Hpv & _ & Hfv & _).
  destruct (pressure_bc_periodic Hd Hpu) as (b & Eb & Hb). destruct (@projection_const g o Hd Ho solve u b Hg Hpu Eb Hb) as (q0 & Ep).
  destruct (Hs u q0 b Hpu Hfu Hb Eb) as (q & Eq & Q1 & Q2 & Q3). rewrite Ep in Ew.
  destruct (@projection_prep g o u (fun _ _ _ => solve u q0 b) q Hg Hd Hpu Ho Hfu) as (w' & E & HL & H); auto. rewrite Ew in E. apply ok_inj in E. subst w'.
  assert (Hq : periodic (gshape g) (pval q)) by (destruct Q1 as (_ & S & _); rewrite <- Q2, <- S; apply periodic_pval).
  assert (PVv : forall i, (i < gndim g)%nat -> periodic (gshape g) (vval v i)) by (intros i Hi; eapply periodic_vval; eauto).
  destruct (divergence_spec_lem Hd Hpv Ho Hfv) as (d' & Ed' & (_ & _ & _ & Vd)). rewrite Ed in Ed'. apply ok_inj in Ed'. subst d'.
  pose proof (@sbp g (pval q) (vval v) ltac:(apply Hg) Hq PVv) as S. rewrite (@asum_ext (gshape g) _ (fun _ => 0)) in S.
  2:{ intros ix Hix. replace (divF g (vval v) ix) with 0; [ring|]. rewrite <- (Hz ix Hix), (Vd ix Hix). reflexivity. }
  rewrite asum_0 in S. transitivity (nsum (gndim g) (fun i => asum (gshape g) (fun ix => vval v i ix * vval u i ix)) + - nsum (gndim g) (fun i => asum (gshape g) (fun ix => fdF g i (pval q) ix * vval v i ix))); [|rewrite <- S; ring].
  rewrite <- nsum_opp, <- nsum_plus. apply nsum_ext. intros i Hi. rewrite <- asum_opp, <- asum_plus. apply asum_ext. intros ix Hix. destruct (H i Hi) as (_ & (_ & _ & _ & V)). rewrite <- (pv_velocity ix Hw Hi Hix), velocity_at_nth by lia. rewrite V by exact Hix. ring.
Qed.
End V.
Lemma euler_core : forall g o bs density viscosity dt convect diffuse solve forcing v lc C D Fo d,
  (0 < gndim g)%nat -> length o = gndim g -> pressure_solver g o solve -> periodic_velocity g o bs v ->
  divergence v = Ok d -> (forall ix, inb (gshape g) ix -> get (gdata d) ix = 0) -> (viscosity <> None -> density <> 0) ->
  convect v = Ok lc -> fields_at g v lc C ->
  (forall nu i u, viscosity = Some nu -> nth_error v i = Some u -> exists w, diffuse u (nu / density) = Ok w /\ is_field w g (goff (garray u)) (D i)) ->
  (forall f, forcing = Some f -> exists lf, f v = Ok lf /\ fields_at g v lf Fo) ->
  exists v', semi_implicit_navier_stokes (mktab [] [1]) density viscosity dt convect diffuse solve forcing v = Ok v' /\ periodic_velocity g o bs v' /\ (exists c, periodic_velocity g o bs c /\ projection solve c = Ok v') /\
    kinetic g (velocity_at v') = kinetic g (velocity_at v)
      + 2 * dt * work g v (fun i ix => C i ix + match viscosity with Some _ => D i ix | None => 0 end + match forcing with Some _ => Fo i ix / density | None => 0 end)
      + kinetic g (fun i ix => velocity_at v' i ix - velocity_at v i ix).
Proof.
  intros g o bs density viscosity dt convect diffuse solve forcing v lc C D Fo d Hd Ho Hs Hv Ed Hz Hden Ec Hc HD HF.
  pose proof (pv_len Hv) as HL. pose proof (pv_wfg Hd Hv) as Hw. pose proof Hv as (Hpv & _ & Hf & _).
  destruct (@explicit_prep g density viscosity convect diffuse forcing v lc C D Fo) as (k & Ek & HLk & Hk); auto.
  { intros i Hi. assert (Hi' : (i < gndim g)%nat) by lia. rewrite (pv_bc Hv Hi'). destruct (pv_btypes Hd Ho Hv Hi') as (-> & _). apply repeat_length. }
  { intros nu i En Hi. apply (HD nu i); auto. apply nth_error_nth'; auto. }
  set (K := fun i ix => C i ix + opt_term viscosity (D i ix) + opt_term forcing (Fo i ix / density)).
  assert (Hk' : forall i, (i < gndim g)%nat -> gbc (nth i k dgv) = nth i bs (gbc dgv) /\ prep g (offs i (1 # 2) o) (K i) (garray (nth i k dgv))).
  { intros i Hi. destruct (Hk i ltac:(lia)) as (B & P). split; [rewrite B; apply (pv_bc Hv Hi)|]. eapply prep_off; [apply (pv_off Hd Ho Hv Hi) | exact P]. }
  assert (HPk : periodic_velocity g o bs k) by (apply (@pv_intro g o bs Hd Ho v k K Hv); [lia | exact Hk']).
  set (u := vel_scal dt (vel_scal 1 k)). assert (HPu : periodic_velocity g o bs u) by (apply (vel_scal_pv Hd Ho); apply (vel_scal_pv Hd Ho); exact HPk).
  destruct (vel_add_vals Hd Ho Hv HPu) as (c & Ea & Hpc & Va). destruct (@projection_orth g o bs Hd Ho solve v c d Hv Hpc Hs Ed Hz) as (v' & Ep & Hv' & OR). exists v'. split; [|split; [exact Hv'|]; split; [exists c; split; [exact Hpc | exact Ep]|]].
  { unfold semi_implicit_navier_stokes, vel_rk. cbn [tb ta length Nat.sub seq foldM]. rewrite Ek. cbn [bind]. unfold vel_wsum. cbn [seq foldM nth_error]. unfold nz. destruct (Req_EM_T 1 0) as [E|_]; [lra|]. cbn [bind vel_update]. fold u. rewrite Ea. exact Ep. }
  assert (VK : forall i ix, (i < gndim g)%nat -> inb (gshape g) ix -> vval c i ix = vval v i ix + dt * K i ix).
  { intros i ix Hi Hix. rewrite (Va i ix Hi Hix). unfold u. rewrite (vel_scal_vals Hd Ho dt (proj1 (vel_scal_pv Hd Ho 1 HPk)) ix Hi Hix), (vel_scal_vals Hd Ho 1 HPk ix Hi Hix). rewrite <- (pv_velocity ix HPk Hi Hix), velocity_at_nth by lia. destruct (Hk' i Hi) as (_ & (_ & _ & _ & V)). rewrite V by exact Hix. ring. }
  assert (E1 : nsum (gndim g) (fun i => asum (gshape g) (fun ix => vval v i ix * vval c i ix)) = nsum (gndim g) (fun i => asum (gshape g) (fun ix => vval v i ix ^ 2)) + dt * nsum (gndim g) (fun i => asum (gshape g) (fun ix => vval v i ix * K i ix))).
  { rewrite <- nsum_scal, <- nsum_plus. apply nsum_ext. intros i Hi. rewrite <- asum_scal, <- asum_plus. apply asum_ext. intros ix Hix. rewrite (VK i ix Hi Hix). ring. }
  unfold kinetic, work.
  assert (KE : forall f f' : nat -> list Z -> R, (forall i ix, (i < gndim g)%nat -> inb (gshape g) ix -> f i ix = f' i ix) -> nsum (gndim g) (fun i => asum (gshape g) (f i)) = nsum (gndim g) (fun i => asum (gshape g) (f' i))) by (intros f f' Hff; apply nsum_ext; intros i Hi; apply asum_ext; intros ix Hix; apply Hff; assumption).
  rewrite (KE (fun i ix => velocity_at v' i ix ^ 2) (fun i ix => vval v' i ix ^ 2)) by (intros i ix Hi Hix; rewrite (pv_velocity ix Hv' Hi Hix); reflexivity).
  rewrite (KE (fun i ix => velocity_at v i ix ^ 2) (fun i ix => vval v i ix ^ 2)) by (intros i ix Hi Hix; rewrite (pv_velocity ix Hv Hi Hix); reflexivity).
  rewrite (KE (fun i ix => velocity_at v i ix * (C i ix + match viscosity with Some _ => D i ix | None => 0 end + match forcing with Some _ => Fo i ix / density | None => 0 end)) (fun i ix => vval v i ix * K i ix)) by (intros i ix Hi Hix; rewrite (pv_velocity ix Hv Hi Hix); reflexivity).
  transitivity (nsum (gndim g) (fun i => asum (gshape g) (fun ix => vval v i ix ^ 2)) + 2 * dt * nsum (gndim g) (fun i => asum (gshape g) (fun ix => vval v i ix * K i ix)) + (nsum (gndim g) (fun i => asum (gshape g) (fun ix => vval v' i ix ^ 2)) + nsum (gndim g) (fun i => asum (gshape g) (fun ix => vval v i ix ^ 2)) - 2 * nsum (gndim g) (fun i => asum (gshape g) (fun ix => vval v i ix * vval v' i ix)))); [rewrite OR, E1; ring|].
  f_equal. unfold Rminus. rewrite (Ropp_mult_distr_l 2), <- nsum_scal, <- !nsum_plus. apply nsum_ext. intros i Hi. rewrite <- asum_scal, <- !asum_plus. apply asum_ext. intros ix Hix. rewrite (pv_velocity ix Hv' Hi Hix), (pv_velocity ix Hv Hi Hix). ring.
Qed.
(* @prop C87 One forward_euler step of semi_implicit_navier_stokes from a discretely divergence-free staggered periodic velocity, for any convection, diffusion, forcing, pressure solver and time step: the kinetic energy changes by exactly 2 dt times the work of convection, diffusion and force, plus the energy of the change of the velocity - the pressure does no work. *)
Lemma euler_step_energy_lem : forall g o bs density viscosity dt convect diffuse solve forcing v lc C D Fo d,
  (0 < gndim g)%nat -> length o = gndim g -> pressure_solver g o solve -> periodic_velocity g o bs v ->
  divergence v = Ok d -> (forall ix, inb (gshape g) ix -> get (gdata d) ix = 0) -> (viscosity <> None -> density <> 0) ->
  convect v = Ok lc -> fields_at g v lc C ->
  (forall nu i u, viscosity = Some nu -> nth_error v i = Some u -> exists w, diffuse u (nu / density) = Ok w /\ is_field w g (goff (garray u)) (D i)) ->
  (forall f, forcing = Some f -> exists lf, f v = Ok lf /\ fields_at g v lf Fo) ->
  exists v', semi_implicit_navier_stokes (mktab [] [1]) density viscosity dt convect diffuse solve forcing v = Ok v' /\ periodic_velocity g o bs v' /\
    kinetic g (velocity_at v') = kinetic g (velocity_at v)
      + 2 * dt * work g v (fun i ix => C i ix + match viscosity with Some _ => D i ix | None => 0 end + match forcing with Some _ => Fo i ix / density | None => 0 end)
      + kinetic g (fun i ix => velocity_at v' i ix - velocity_at v i ix).
Proof.
  intros g o bs density viscosity dt convect diffuse solve forcing v lc C D Fo d Hd Ho Hs Hv Ed Hz Hden Ec Hc HD HF.
  destruct (@euler_core g o bs density viscosity dt convect diffuse solve forcing v lc C D Fo d Hd Ho Hs Hv Ed Hz Hden Ec Hc HD HF) as (v' & E & Hv' & _ & EE). exists v'. auto.
Qed.
Lemma prep_self g o F a : prep g o F a -> prep g o (get (gdata a)) a.
Proof. intros (A & B & C & _). split; [exact A|]. split; [exact B|]. split; [exact C|]. reflexivity. Qed.
(* @prop C87 With the library's energy-conserving convection convect_linear, no forcing and an exact pressure solver: a forward_euler step from a divergence-free periodic velocity succeeds, is divergence-free again, and changes the kinetic energy by exactly minus 2 dt viscosity/density times the squared velocity gradients (physical dissipation) plus the energy of the change of the velocity (numerical heating). *)
Lemma euler_linear_energy_lem : forall g o bs density viscosity dt solve v d,
  (0 < gndim g)%nat -> length o = gndim g -> solves_poisson g o solve -> periodic_velocity g o bs v ->
  divergence v = Ok d -> (forall ix, inb (gshape g) ix -> get (gdata d) ix = 0) -> (viscosity <> None -> density <> 0) ->
  exists v' d', semi_implicit_navier_stokes (mktab [] [1]) density viscosity dt convect_linear diffuse solve None v = Ok v' /\ periodic_velocity g o bs v' /\
    divergence v' = Ok d' /\ (forall ix, inb (gshape g) ix -> get (gdata d') ix = 0) /\
    kinetic g (velocity_at v') = kinetic g (velocity_at v) - 2 * dt * match viscosity with Some nu => nu / density * gradient_energy g v | None => 0 end
      + kinetic g (fun i ix => velocity_at v' i ix - velocity_at v i ix).
Proof.
  intros g o bs density viscosity dt solve v d Hd Ho Hs Hv Ed Hz Hden. pose proof (pv_len Hv) as HL. pose proof (pv_wfg Hd Hv) as Hw. pose proof Hv as (Hpv & Hh & Hf & _).
  destruct (convect_prep Hd Hpv Hh Ho Hf) as (lc & Ec & HLc & Hc). set (C := fun i => get (gdata (nth i lc dga))). set (D := fun i ix => match viscosity with Some nu => nu / density * lapF g (vval v i) ix | None => 0 end).
  assert (HC : fields_at g v lc C). { apply fields_at_intro; [lia|]. intros i Hi. assert (Hi' : (i < gndim g)%nat) by lia. apply prep_self with (F := fun ix => get (gdata (nth i lc dga)) ix). eapply prep_off; [apply off_eq_sym; apply (pv_off Hd Ho Hv Hi') | eapply prep_self; apply (Hc i Hi')]. }
  destruct (@euler_core g o bs density viscosity dt convect_linear diffuse solve None v lc C D (fun _ _ => 0) d Hd Ho (solves_is_solver Hs) Hv Ed Hz Hden Ec HC) as (v' & E & Hv' & (c & Hpc & Ep) & EE).
  { intros nu i u En Hu. assert (Hi : (i < gndim g)%nat) by (rewrite <- HL; apply nth_error_Some; congruence). destruct (@diffuse_prep g o bs v (nu / density) i Hv Hi) as (w & Ew & Pw). rewrite (nth_error_nth _ _ _ Hu) in Ew, Pw. exists w. split; [exact Ew|]. unfold D. rewrite En. exact Pw. }
  { discriminate. }
  destruct (@projection_div g o bs Hd Ho solve c Hpc Hs) as (w & d' & Ew & Ed' & (_ & _ & Sd & Zd)). rewrite Ep in Ew. apply ok_inj in Ew. subst w.
  exists v', d'. split; [exact E|]. split; [exact Hv'|]. split; [exact Ed'|]. split; [intros ix Hix; apply Zd; exact Hix|]. rewrite EE. f_equal. unfold Rminus. f_equal.
  assert (W : work g v (fun i ix => C i ix + match viscosity with Some _ => D i ix | None => 0 end + 0) = - match viscosity with Some nu => nu / density * gradient_energy g v | None => 0 end); [|rewrite W; ring].
  assert (WC : forall i, (i < gndim g)%nat -> asum (gshape g) (fun ix => vval v i ix * C i ix) = 0).
  { intros i Hi. rewrite <- (@convection_conserves_energy_lem g o v lc d Hd Hpv Hh Ho Hf Ec Ed Hz i (nth i v dgv) (nth i lc dga)) by (apply nth_error_nth'; lia). apply asum_ext. intros ix Hix. rewrite <- (pv_velocity ix Hv Hi Hix), velocity_at_nth by lia. reflexivity. }
  unfold work. destruct viscosity as [nu|].
  - unfold gradient_energy. rewrite <- nsum_scal, <- nsum_opp. apply nsum_ext. intros i Hi. assert (PV1 : periodic (gshape g) (vval v i)) by (eapply periodic_vval; eauto).
    transitivity (asum (gshape g) (fun ix => vval v i ix * C i ix) + nu / density * asum (gshape g) (fun ix => vval v i ix * lapF g (vval v i) ix)).
    + rewrite <- asum_scal, <- asum_plus. apply asum_ext. intros ix Hix. rewrite (pv_velocity ix Hv Hi Hix). unfold D. ring.
    + rewrite (WC i Hi), (@lapF_neg g (vval v i) (vval v i) ltac:(apply Hw) PV1 PV1), Rplus_0_l, Ropp_mult_distr_r_reverse. f_equal. f_equal. apply nsum_ext. intros a Ha. apply asum_ext. intros ix Hix.
      assert (Hl : length (next a ix) = gndim g) by (unfold next; rewrite shiftix_length; apply inb_len; exact Hix).
      rewrite (pv_velocity ix Hv Hi Hix), (@pv_velocity g o bs v i (wrap (gshape g) (next a ix)) Hv Hi) by (apply inb_wrap; [apply Hw | exact Hl]). rewrite (PV1 _ Hl). unfold fdF, next. ring.
  - rewrite Ropp_0. rewrite (@nsum_ext (gndim g) _ (fun _ => 0)); [apply nsum_zero; reflexivity|]. intros i Hi. transitivity (asum (gshape g) (fun ix => vval v i ix * C i ix)); [|apply (WC i Hi)]. apply asum_ext. intros ix Hix. rewrite (pv_velocity ix Hv Hi Hix). ring.
Qed.
Lemma kinetic_nonneg g f : 0 <= kinetic g f.
Proof. apply nsum_nonneg. intros i _. apply asum_nonneg. intros ix _. apply pow2_ge_0. Qed.
(* @prop C87 So an inviscid, unforced flow computed with forward_euler, energy-conserving convection and exact projections never loses kinetic energy: over any number of steps, with any time steps, the energy never decreases, and it stays the same over a step only if no velocity changes. *)
Lemma inviscid_euler_gains_lem : forall g o bs density (dt : nat -> R) solve (run : nat -> list gvar) d,
  (0 < gndim g)%nat -> length o = gndim g -> solves_poisson g o solve -> periodic_velocity g o bs (run 0%nat) ->
  divergence (run 0%nat) = Ok d -> (forall ix, inb (gshape g) ix -> get (gdata d) ix = 0) ->
  (forall n, semi_implicit_navier_stokes (mktab [] [1]) density None (dt n) convect_linear diffuse solve None (run n) = Ok (run (S n))) ->
  (forall n m, (n <= m)%nat -> kinetic g (velocity_at (run n)) <= kinetic g (velocity_at (run m))) /\
  (forall n, kinetic g (velocity_at (run (S n))) = kinetic g (velocity_at (run n)) -> forall i ix, (i < gndim g)%nat -> inb (gshape g) ix -> velocity_at (run (S n)) i ix = velocity_at (run n) i ix).
Proof.
  intros g o bs density dt solve run d Hd Ho Hs H0 Ed Hz Hrun.
  assert (INV : forall n, periodic_velocity g o bs (run n) /\ exists d, divergence (run n) = Ok d /\ forall ix, inb (gshape g) ix -> get (gdata d) ix = 0).
  { induction n as [|n (IHp & dn & IHd & IHz)]; [split; [exact H0 | exists d; auto]|]. destruct (@euler_linear_energy_lem g o bs density None (dt n) solve (run n) dn Hd Ho Hs IHp IHd IHz ltac:(congruence)) as (v' & d' & E & P & E' & Z & _). rewrite Hrun in E. apply ok_inj in E. subst v'. split; [exact P | exists d'; auto]. }
  assert (ST : forall n, kinetic g (velocity_at (run (S n))) = kinetic g (velocity_at (run n)) + kinetic g (fun i ix => velocity_at (run (S n)) i ix - velocity_at (run n) i ix)).
  { intros n. destruct (INV n) as (IHp & dn & IHd & IHz). destruct (@euler_linear_energy_lem g o bs density None (dt n) solve (run n) dn Hd Ho Hs IHp IHd IHz ltac:(congruence)) as (v' & d' & E & _ & _ & _ & EE). rewrite Hrun in E. apply ok_inj in E. subst v'. rewrite EE. ring. }
  split.
  - intros n m Hnm. induction Hnm as [|m Hnm IH]; [lra|]. rewrite ST. pose proof (@kinetic_nonneg g (fun i ix => velocity_at (run (S m)) i ix - velocity_at (run m) i ix)). lra.
  - intros n En i ix Hi Hix. rewrite ST in En. assert (Z : kinetic g (fun i ix => velocity_at (run (S n)) i ix - velocity_at (run n) i ix) = 0) by lra. unfold kinetic in Z.
    assert (Z1 : asum (gshape g) (fun ix => (velocity_at (run (S n)) i ix - velocity_at (run n) i ix) ^ 2) = 0).
    { apply (@nsum_nonneg_0 (gndim g) (fun i => asum (gshape g) (fun ix => (velocity_at (run (S n)) i ix - velocity_at (run n) i ix) ^ 2))); auto. intros j Hj. apply asum_nonneg. intros; apply pow2_ge_0. }
    assert (Z2 : (velocity_at (run (S n)) i ix - velocity_at (run n) i ix) ^ 2 = 0) by (apply (@asum_nonneg_0 (gshape g) (fun ix => (velocity_at (run (S n)) i ix - velocity_at (run n) i ix) ^ 2)); auto; intros; apply pow2_ge_0).
    assert (Z3 : velocity_at (run (S n)) i ix - velocity_at (run n) i ix = 0) by (apply Rsqr_0_uniq; unfold Rsqr; rewrite <- Z2; ring). lra.
Qed.
Section Ex.
Variables (tpu : bool) (eigh : arr R -> arr R * arr R).
Let solve := (fun (v : list gvar) (_ : gvar) (b : bcs) => pressure_solve_fast_diag tpu eigh (1 / 1000) v (Some b) (Some Fft)).
Let bs2 := [periodic_bc 2; periodic_bc 2].
Definition projected34 : list gvar := match projection solve p34v with Ok w => w | Err _ => p34v end.
Lemma projected34_ok : periodic_velocity p34g half2 bs2 projected34 /\ exists d, divergence projected34 = Ok d /\ forall ix, inb (gshape p34g) ix -> get (gdata d) ix = 0.
Proof.
  destruct (@projection_div p34g half2 bs2 ltac:(cbn; lia) eq_refl solve p34v p34_pv (p34_solver tpu eigh)) as (w & d & E & Ed & (_ & _ & _ & Z)).
  destruct (@projection_pv p34g half2 bs2 ltac:(cbn; lia) eq_refl solve p34v p34_pv (solves_is_solver (p34_solver tpu eigh))) as (w' & E' & P & _). rewrite E in E'. apply ok_inj in E'. subst w'. unfold projected34. rewrite E. split; [exact P | exists d; split; [exact Ed | exact Z]].
Qed.
Definition heated (n : nat) : list gvar := Nat.iter n (fun v => match semi_implicit_navier_stokes (mktab [] [1]) 2 None 1 convect_linear diffuse solve None v with Ok w => w | Err _ => v end) projected34.
Lemma heated_ok n : (periodic_velocity p34g half2 bs2 (heated n) /\ exists d, divergence (heated n) = Ok d /\ forall ix, inb (gshape p34g) ix -> get (gdata d) ix = 0) /\
  semi_implicit_navier_stokes (mktab [] [1]) 2 None 1 convect_linear diffuse solve None (heated n) = Ok (heated (S n)).
Proof.
  assert (ST : forall v, (periodic_velocity p34g half2 bs2 v /\ exists d, divergence v = Ok d /\ forall ix, inb (gshape p34g) ix -> get (gdata d) ix = 0) -> exists v', semi_implicit_navier_stokes (mktab [] [1]) 2 None 1 convect_linear diffuse solve None v = Ok v' /\ (periodic_velocity p34g half2 bs2 v' /\ exists d, divergence v' = Ok d /\ forall ix, inb (gshape p34g) ix -> get (gdata d) ix = 0)).
  { intros v (P & d & E & Z). destruct (@euler_linear_energy_lem p34g half2 bs2 2 None 1 solve v d ltac:(cbn; lia) eq_refl (p34_solver tpu eigh) P E Z ltac:(congruence)) as (v' & d' & E1 & P1 & E2 & Z2 & _). exists v'. split; [exact E1|]. split; [exact P1 | exists d'; auto]. }
  induction n as [|n ((P & D) & E)].
  - split; [exact projected34_ok|]. destruct (ST _ projected34_ok) as (v' & E & _). change (heated 1) with (match semi_implicit_navier_stokes (mktab [] [1]) 2 None 1 convect_linear diffuse solve None (heated 0) with Ok w => w | Err _ => heated 0 end). change (heated 0) with projected34. rewrite E. reflexivity.
  - destruct (ST _ (conj P D)) as (v' & E' & I'). rewrite E in E'. apply ok_inj in E'. subst v'. split; [exact I'|]. destruct (ST _ I') as (v'' & E'' & _). change (heated (S (S n))) with (match semi_implicit_navier_stokes (mktab [] [1]) 2 None 1 convect_linear diffuse solve None (heated (S n)) with Ok w => w | Err _ => heated (S n) end). rewrite E''. reflexivity.
Qed.
End Ex.
(* @ex *)
Lemma euler_step_energy_ex_lem : forall tpu eigh, (0 < gndim p34g)%nat /\ length half2 = gndim p34g /\ pressure_solver p34g half2 (fun v _ b => pressure_solve_fast_diag tpu eigh (1 / 1000) v (Some b) (Some Fft)) /\
  (periodic_velocity p34g half2 [periodic_bc 2; periodic_bc 2] (projected34 tpu eigh) /\ exists d, divergence (projected34 tpu eigh) = Ok d /\ forall ix, inb (gshape p34g) ix -> get (gdata d) ix = 0) /\
  (exists lc C, default_convect 1 (projected34 tpu eigh) = Ok lc /\ fields_at p34g (projected34 tpu eigh) lc C) /\ exists lf Fo, push (projected34 tpu eigh) = Ok lf /\ fields_at p34g (projected34 tpu eigh) lf Fo.
Proof.
  intros tpu eigh. split; [cbn; lia|]. split; [reflexivity|]. split; [exact (solves_is_solver (p34_solver tpu eigh))|]. pose proof (projected34_ok tpu eigh) as (P & D). split; [split; assumption|]. split; [|apply (push_fields P)].
  destruct (@default_convect_prep p34g half2 [periodic_bc 2; periodic_bc 2] (projected34 tpu eigh) 1 ltac:(cbn; lia) P) as (lc & C & E & F & _). exists lc, C. auto.
Qed.
(* @ex *)
Lemma euler_linear_energy_ex_lem : forall tpu eigh, (0 < gndim p34g)%nat /\ length half2 = gndim p34g /\ solves_poisson p34g half2 (fun v _ b => pressure_solve_fast_diag tpu eigh (1 / 1000) v (Some b) (Some Fft)) /\
  periodic_velocity p34g half2 [periodic_bc 2; periodic_bc 2] (projected34 tpu eigh) /\ exists d, divergence (projected34 tpu eigh) = Ok d /\ forall ix, inb (gshape p34g) ix -> get (gdata d) ix = 0.
Proof. intros tpu eigh. split; [cbn; lia|]. split; [reflexivity|]. split; [exact (p34_solver tpu eigh)|]. exact (projected34_ok tpu eigh). Qed.
(* @ex *)
Lemma inviscid_euler_gains_ex_lem : forall tpu eigh, (0 < gndim p34g)%nat /\ length half2 = gndim p34g /\ solves_poisson p34g half2 (fun v _ b => pressure_solve_fast_diag tpu eigh (1 / 1000) v (Some b) (Some Fft)) /\
  periodic_velocity p34g half2 [periodic_bc 2; periodic_bc 2] (heated tpu eigh 0) /\ (exists d, divergence (heated tpu eigh 0) = Ok d /\ forall ix, inb (gshape p34g) ix -> get (gdata d) ix = 0) /\
  forall n, semi_implicit_navier_stokes (mktab [] [1]) 2 None 1 convect_linear diffuse (fun v _ b => pressure_solve_fast_diag tpu eigh (1 / 1000) v (Some b) (Some Fft)) None (heated tpu eigh n) = Ok (heated tpu eigh (S n)).
Proof. intros tpu eigh. split; [cbn; lia|]. split; [reflexivity|]. split; [exact (p34_solver tpu eigh)|]. destruct (projected34_ok tpu eigh) as (P & D). split; [exact P|]. split; [exact D|]. intros n. apply (heated_ok tpu eigh n). Qed.
