(** * C64: copies of velocities under projection and under the steps of the Navier-Stokes solvers *)
From Verif Require Import Prelude NdArr Grids_model Spec SpecLin SpecDiag SpecDiff LinAlg Cplx Boundaries_model BoundariesPeriodic FD_model LaplacianProps PRep FDProofs FDProps WallBC WallBCProps ImposeProps WallFD Pressure_model PressureProps WallFDProps ProjectionProps Interp_model InterpProofs InterpProps UpwindProps TvdProps Advection_model AdvectionProofs AdvectionProps FastDiag_model Laplacian_model PressureSolve_model PressureSolveProps Diffusion_model DiffusionProps ImplicitDiffusionProps QRProps TimeStep_model Equations_model SpecNS EquationsProps EquationsMoreProps LearnedProps SpecRollout SpecSym SymBase SymEx SymProps.
Set Implicit Arguments.
Local Open Scope Z_scope.

Lemma lapF_minus g F G ix : lapF g (fun jx => F jx - G jx)%R ix = (lapF g F ix - lapF g G ix)%R.
Proof. unfold lapF. rewrite <- nsum_minus. apply nsum_ext. intros i Hi. ring. Qed.

(** ** projection *)
Lemma poisson_values gg oo bb solve v q0 b : (0 < gndim gg)%nat -> length oo = gndim gg -> periodic_velocity gg oo bb v -> solves_poisson gg oo solve ->
  pressure_bc_from_velocity v = Ok b -> perbc gg b ->
  exists q, solve v q0 b = Ok q /\ wf_garr q /\ ggrid q = gg /\ off_eq (goff q) oo /\ periodic (gshape gg) (pval q) /\
    forall ix, length ix = gndim gg -> lapF gg (pval q) ix = divF gg (vval v) ix.
Proof.
  intros Hdd Hoo' Hv Hsol Eb Hb. pose proof (pv_wfg Hdd Hv) as Hw. pose proof Hv as (Hpv & _ & Hf & _).
  destruct (Hsol v q0 b Hpv Hf Hb Eb) as (q & dv & lq & Eq & Q1 & Q2 & Q3 & Ed & El & Hae).
  assert (Hqper : periodic (gshape gg) (pval q)) by (destruct Q1 as (_ & S & _); rewrite <- Q2, <- S; apply periodic_pval).
  exists q. do 5 (split; [assumption|]).
  assert (Pq : pvar gg (goff q) (pval q) (mkgv q b)).
  { split; [|exact Hb]. cbn [garray]. rewrite <- Q2. apply prep_pval. apply Q1. }
  destruct (@lap_prep gg (goff q) (pval q) (mkgv q b) Hw Hqper) as (l2 & El2 & (_ & _ & S2 & V2)); [rewrite (off_eq_length Q3); auto | exact Pq|].
  rewrite El in El2. injection El2 as <-. destruct (@div_pv gg oo bb Hdd Hoo' v Hv) as (d2 & Ed2 & (_ & _ & S3 & V3)). rewrite Ed in Ed2. injection Ed2 as <-.
  apply (@periodic_ext_all (gshape gg)).
  - apply Hw.
  - apply periodic_lapF; exact Hqper.
  - apply periodic_divF. intros i Hi. apply (periodic_vval Hpv Hi).
  - intros ix Hix. rewrite <- V2, <- V3 by auto. apply Hae. rewrite S2. exact Hix.
Qed.
Lemma projection_values gg oo bb solve v : (0 < gndim gg)%nat -> length oo = gndim gg -> periodic_velocity gg oo bb v -> solves_poisson gg oo solve ->
  exists w Q, projection solve v = Ok w /\ length w = gndim gg /\ periodic (gshape gg) Q /\
    (forall ix, length ix = gndim gg -> lapF gg Q ix = divF gg (vval v) ix) /\
    forall i, (i < gndim gg)%nat -> gbc (nth i w dgv) = nth i bb (gbc dgv) /\ prep gg (offs i (1 # 2) oo) (fun ix => vval v i ix - fdF gg i Q ix)%R (garray (nth i w dgv)).
Proof.
  intros Hdd Hoo' Hv Hsol. pose proof (pv_wfg Hdd Hv) as Hw. pose proof Hv as (Hpv & _ & Hf & _).
  destruct (pressure_bc_periodic Hdd Hpv) as (b & Eb & Hb). destruct (@projection_const gg oo Hdd Hoo' solve v b Hw Hpv Eb Hb) as (q0 & Ep).
  destruct (@poisson_values gg oo bb solve v q0 b Hdd Hoo' Hv Hsol Eb Hb) as (q & Eq & Q1 & Q2 & Q3 & Qp & QL). rewrite Ep.
  destruct (@projection_prep gg oo v (fun _ _ _ => solve v q0 b) q Hw Hdd Hpv Hoo' Hf) as (w & E & HL & H); auto.
  exists w, (pval q). split; [exact E|]. split; [exact HL|]. split; [exact Qp|]. split; [exact QL|]. intros i Hi. destruct (H i Hi) as (B & P).
  split; [rewrite B; apply (pv_bc Hv Hi)|]. eapply prep_off; [apply (pv_off Hdd Hoo' Hv Hi) | exact P].
Qed.

Section Vel.
Variables (g g' : grid) (p : placement) (s : R) (o o' : list Q) (bs bs' : list bcs).
Hypothesis (Hg : copied_grid p s g g') (Hs : (0 < s)%R) (Hd : (0 < gndim g)%nat) (Hoo : copied_offset (gndim g) p o o').
Let n := gndim g.
Local Notation rel := (copied_values n p).
Local Notation PV := (periodic_velocity g o bs).
Local Notation PV' := (periodic_velocity g' o' bs').
Let Hn : gndim g' = n := proj1 Hg.
Let Hp : relabelling n p := proj1 (proj2 Hg).
Let Ho : length o = gndim g := proj1 Hoo.
Lemma sv_Ho' : length o' = gndim g'.
Proof. rewrite Hn. apply Hoo. Qed.
Lemma sv_Hd' : (0 < gndim g')%nat.
Proof. rewrite Hn. exact Hd. Qed.
Definition vrel (m : R) (v v' : list gvar) : Prop := PV v /\ PV' v' /\ copied_velocity n p m v v'.

Lemma vrel_intro m v0 v0' w w' F F' : PV v0 -> PV' v0' -> length w = n -> length w' = n ->
  (forall i, (i < n)%nat -> gbc (nth i w dgv) = nth i bs (gbc dgv) /\ prep g (offs i (1 # 2) o) (F i) (garray (nth i w dgv))) ->
  (forall i, (i < n)%nat -> gbc (nth i w' dgv) = nth i bs' (gbc dgv) /\ prep g' (offs i (1 # 2) o') (F' i) (garray (nth i w' dgv))) ->
  (forall i, (i < n)%nat -> periodic (gshape g) (F i)) -> (forall i, (i < n)%nat -> rel m (F (to_axis p i)) (F' i)) -> vrel m w w'.
Proof.
  intros H0 H0' L L' H H' HP HR. pose proof (pv_wfg Hd H0) as Hw. pose proof (pv_wfg sv_Hd' H0') as Hw'.
  split; [exact (pv_intro Hd Ho _ _ H0 L H)|]. split; [apply (pv_intro sv_Hd' sv_Ho' w' F' H0'); [lia | intros i Hi; apply H'; lia]|].
  intros i Hi. pose proof (Hp Hi) as (A & _). destruct (under_comp_nth Hg w w' L L' Hi) as (E & E').
  fold n. rewrite E, E'. refine (prep_rel Hg Hw (proj1 (proj2 (proj2 Hw'))) (proj2 (H _ A)) (proj2 (H' _ Hi)) _ _); [apply HP | apply HR]; auto.
Qed.

Lemma vrel_per v v' m i : vrel m v v' -> (i < n)%nat -> periodic (gshape g) (vval v i).
Proof. intros (Hv & _) Hi. apply (periodic_vval (proj1 Hv) Hi). Qed.

Lemma vel_add_rel m a a' b b' : vrel m a a' -> vrel m b b' -> exists c c', vel_add a b = Ok c /\ vel_add a' b' = Ok c' /\ vrel m c c'.
Proof.
  intros (A & A' & RA) (B & B' & RB). destruct (vel_add_vals Hd Ho A B) as (c & E & Pc & Vc). destruct (vel_add_vals sv_Hd' sv_Ho' A' B') as (c' & E' & Pc' & Vc').
  exists c, c'. split; [exact E|]. split; [exact E'|]. split; [exact Pc|]. split; [exact Pc'|]. intros i Hi. pose proof (Hp Hi) as (Ti & _).
  pose proof (pv_wfg Hd A) as Hw. pose proof (pv_wfg sv_Hd' A') as Hw'. assert (Hi' : (i < gndim g')%nat) by lia.
  apply rel_ext with (F := fun ix => (vval a (to_axis p i) ix + vval b (to_axis p i) ix)%R) (F' := fun ix => (vval a' i ix + vval b' i ix)%R).
  - intros ix HL. symmetry. apply (@periodic_ext_all (gshape g) (vval c (to_axis p i)) (fun ix => vval a (to_axis p i) ix + vval b (to_axis p i) ix)%R); auto.
    + apply Hw. + apply (periodic_vval (proj1 Pc) Ti).
    + intros jx HLj. rewrite (periodic_vval (proj1 A) Ti jx HLj), (periodic_vval (proj1 B) Ti jx HLj). reflexivity.
  - intros ix HL. symmetry. apply (@periodic_ext_all (gshape g') (vval c' i) (fun ix => vval a' i ix + vval b' i ix)%R); auto.
    + apply Hw'. + apply (periodic_vval (proj1 Pc') Hi').
    + intros jx HLj. rewrite (periodic_vval (proj1 A') Hi' jx HLj), (periodic_vval (proj1 B') Hi' jx HLj). reflexivity.
    + rewrite HL. symmetry. exact Hn.
  - apply rel_plus; [apply RA | apply RB]; auto.
Qed.
Lemma vel_scal_val t (a : list gvar) i ix : (i < length a)%nat -> vval (vel_scal t a) i ix = (t * vval a i ix)%R.
Proof.
  intros Hi. unfold vval, vel_scal. rewrite (nth_error_nth' a dgv) by auto. rewrite (nth_error_nth' _ dgv) by (rewrite map_length; auto).
  rewrite (nth_map' _ _ dgv dgv) by auto. reflexivity.
Qed.
Lemma vel_scal_rel m m2 t t' a a' : (t' * m = m2 * t)%R -> vrel m a a' -> vrel m2 (vel_scal t a) (vel_scal t' a').
Proof.
  intros Et (A & A' & RA). split; [apply (vel_scal_pv Hd Ho t A)|]. split; [apply (vel_scal_pv sv_Hd' sv_Ho' t' A')|].
  pose proof (pv_len A) as LA. pose proof (pv_len A') as LA'. intros i Hi ix HL. pose proof (Hp Hi) as (Ti & _).
  rewrite !vel_scal_val by (unfold n in *; lia). rewrite (RA i Hi ix HL). fold n. rewrite <- !Rmult_assoc. rewrite Et. reflexivity.
Qed.
Lemma vel_wsum_rel M row ks ks' r : (r <= length row)%nat -> (r <= length ks)%nat -> (r <= length ks')%nat -> (forall j, (j < r)%nat -> vrel M (nth j ks []) (nth j ks' [])) ->
  exists x x', vel_wsum row ks r = Ok x /\ vel_wsum row ks' r = Ok x' /\ match x, x' with None, None => True | Some x, Some x' => vrel M x x' | _, _ => False end.
Proof.
  intros Hr Hk Hk' H. unfold vel_wsum. induction r as [|r IH].
  - exists None, None. split; [reflexivity|]. split; [reflexivity | exact I].
  - destruct IH as (x & x' & E & E' & Hx); [lia | lia | lia | intros j Hj; apply H; lia|]. rewrite !seq_S, !foldM_app, E, E'. cbn [bind foldM Nat.add].
    rewrite (nth_error_nth' row 0%R) by lia. rewrite (nth_error_nth' ks []), (nth_error_nth' ks' []) by lia.
    destruct (nz (nth r row 0%R)); [|exists x, x'; split; [reflexivity|]; split; [reflexivity | exact Hx]].
    assert (Z : vrel M (vel_scal (nth r row 0%R) (nth r ks [])) (vel_scal (nth r row 0%R) (nth r ks' []))) by (apply (@vel_scal_rel M M); [ring | apply H; lia]).
    destruct x as [x|], x' as [x'|]; try contradiction.
    + destruct (vel_add_rel Hx Z) as (c & c' & Ec & Ec' & Hc). rewrite Ec, Ec'. cbn [bind]. exists (Some c), (Some c'). auto.
    + cbn [bind]. eexists _, _. split; [reflexivity|]. split; [reflexivity | exact Z].
Qed.
Lemma vel_update_rel k M dt dt' u u' x x' : (dt' * M = k * dt)%R -> vrel k u u' -> match x, x' with None, None => True | Some x, Some x' => vrel M x x' | _, _ => False end ->
  exists w w', vel_update u dt x = Ok w /\ vel_update u' dt' x' = Ok w' /\ vrel k w w'.
Proof.
  intros Et Hu Hx. destruct x as [x|], x' as [x'|]; try contradiction; cbn [vel_update].
  - apply vel_add_rel; [exact Hu|]. apply (vel_scal_rel Et Hx).
  - exists u, u'. auto.
Qed.
Lemma vel_rk_rel t F F' P P' k M dt dt' u u' : explicit_tableau t -> (dt' * M = k * dt)%R ->
  (forall v v', vrel k v v' -> exists w w', F v = Ok w /\ F' v' = Ok w' /\ vrel M w w') ->
  (forall v v', vrel k v v' -> exists w w', P v = Ok w /\ P' v' = Ok w' /\ vrel k w w') -> vrel k u u' ->
  exists w w', vel_rk t F P dt u = Ok w /\ vel_rk t F' P' dt' u' = Ok w' /\ vrel k w w'.
Proof.
  intros (Hab & Hrow) Et HF HP H0. unfold vel_rk. destruct (length (tb t)) as [|m] eqn:Hlen; [lia|].
  destruct (HF u u' H0) as (k0 & k0' & Ek0 & Ek0' & Hk0). rewrite Ek0, Ek0'. cbn [bind]. replace (S m - 1)%nat with m by lia.
  set (stage := fun (F P : list gvar -> result (list gvar)) dt u0 ks i => match nth_error (ta t) (i - 1) with
       | None => Err EIndex
       | Some row => let* s := vel_wsum row ks i in let* u_star := vel_update u0 dt s in let* ui := P u_star in let* ki := F ui in Ok (ks ++ [ki]) end).
  assert (Hgen : forall j, (j <= m)%nat -> exists ks ks', foldM (stage F P dt u) [k0] (seq 1 j) = Ok ks /\ foldM (stage F' P' dt' u') [k0'] (seq 1 j) = Ok ks' /\
       length ks = S j /\ length ks' = S j /\ forall l, (l < S j)%nat -> vrel M (nth l ks []) (nth l ks' [])).
  { induction j as [|j IH]; intros Hj.
    - exists [k0], [k0']. do 4 (split; [reflexivity|]). intros [|l] Hl; [exact Hk0 | lia].
    - destruct IH as (ks & ks' & E & E' & HL & HL' & Hks); [lia|]. rewrite !seq_S, !foldM_app, E, E'. cbn [bind foldM]. unfold stage. replace (1 + j - 1)%nat with j by lia.
      assert (Hj' : (j < length (ta t))%nat) by lia. rewrite (nth_error_nth' (ta t) []) by auto.
      pose proof (Hrow j (nth j (ta t) []) (nth_error_nth' _ _ Hj')) as Hlr.
      destruct (@vel_wsum_rel M (nth j (ta t) []) ks ks' (1 + j)) as (x & x' & Es & Es' & Hx); [lia | lia | lia | intros l Hl; apply Hks; lia|].
      rewrite Es, Es'. cbn [bind]. destruct (vel_update_rel x x' Et H0 Hx) as (w & w' & Ew & Ew' & Hw). rewrite Ew, Ew'. cbn [bind].
      destruct (HP w w' Hw) as (ui & ui' & Eui & Eui' & Hui). rewrite Eui, Eui'. cbn [bind]. destruct (HF ui ui' Hui) as (ki & ki' & Eki & Eki' & Hki). rewrite Eki, Eki'. cbn [bind].
      exists (ks ++ [ki]), (ks' ++ [ki']). split; [reflexivity|]. split; [reflexivity|]. split; [rewrite app_length; simpl; lia|]. split; [rewrite app_length; simpl; lia|]. intros l Hl.
      destruct (Nat.eq_dec l (S j)) as [->|Hne]; [rewrite !app_nth2 by lia; rewrite HL, HL', Nat.sub_diag; exact Hki | rewrite !app_nth1 by lia; apply Hks; lia]. }
  destruct (Hgen m (le_n m)) as (ks & ks' & E & E' & HL & HL' & Hks).
  change (exists w w', (let* ks := foldM (stage F P dt u) [k0] (seq 1 m) in let* s := vel_wsum (tb t) ks (S m) in let* us := vel_update u dt s in P us) = Ok w /\
    (let* ks := foldM (stage F' P' dt' u') [k0'] (seq 1 m) in let* s := vel_wsum (tb t) ks (S m) in let* us := vel_update u' dt' s in P' us) = Ok w' /\ vrel k w w').
  rewrite E, E'. cbn [bind].
  destruct (@vel_wsum_rel M (tb t) ks ks' (S m)) as (x & x' & Es & Es' & Hx); [lia | lia | lia | exact Hks|]. rewrite Es, Es'. cbn [bind].
  destruct (vel_update_rel x x' Et H0 Hx) as (w & w' & Ew & Ew' & Hw). rewrite Ew, Ew'. cbn [bind]. apply HP. exact Hw.
Qed.

Lemma projection_rel k solve solve' v v' : solves_poisson g o solve -> solves_poisson g' o' solve' -> vrel k v v' ->
  exists w w', projection solve v = Ok w /\ projection solve' v' = Ok w' /\ vrel k w w'.
Proof.
  intros Hsol Hsol' (A & A' & RA). pose proof (pv_wfg Hd A) as Hw. pose proof (pv_wfg sv_Hd' A') as Hw'.
  destruct (projection_values Hd Ho A Hsol) as (w & Q & E & L & PQ & LQ & W). destruct (projection_values sv_Hd' sv_Ho' A' Hsol') as (w' & Q' & E' & L' & PQ' & LQ' & W').
  exists w, w'. split; [exact E|]. split; [exact E'|].
  set (G := fun ix => (k * s * Q (under n p ix))%R). assert (RG : rel (k * s) Q G) by (intros ix _; reflexivity).
  assert (PG : periodic (gshape g') G) by exact (rel_periodic Hg RG PQ).
  assert (ZD : forall i ix, (i < n)%nat -> length ix = n -> fdF g' i (fun jx => Q' jx - G jx)%R ix = 0%R).
  { intros i ix Hi HL. apply (harmonic_const Hg); auto; [apply Hw' | intros jx HLj; rewrite (PQ' jx HLj), (PG jx HLj); reflexivity|].
    intros jx Hjx. pose proof (inb_length _ _ Hjx) as HLj. assert (HLn : length jx = n) by (rewrite <- Hn; exact HLj).
    rewrite lapF_minus, LQ' by exact HLj. rewrite (rel_lapF Hg Hs Hw RG jx HLn).
    rewrite (@rel_divF g g' p s Hg Hs Hw k (vval v) (vval v') RA jx HLn). fold n. rewrite LQ by apply under_length. field. lra. }
  refine (@vrel_intro k v v' w w' (fun i ix => vval v i ix - fdF g i Q ix)%R (fun i ix => vval v' i ix - fdF g' i Q' ix)%R A A' L _ W _ _ _).
  - rewrite <- Hn. exact L'.
  - intros i Hi. apply W'. lia.
  - intros i Hi ix HL. rewrite (periodic_vval (proj1 A) Hi ix HL). rewrite (@periodic_fdF g i Q PQ ix HL). reflexivity.
  - intros i Hi. apply rel_minus; [apply RA; auto|].
    apply rel_ext with (F := fdF g (to_axis p i) Q) (F' := fdF g' i G); [reflexivity | |].
    + intros ix HL. pose proof (ZD i ix Hi HL) as Z. unfold fdF in Z |- *. unfold Rdiv in *. lra.
    + apply (@rel_eq g p (k * s / s)); [field; lra|]. apply (rel_fdF Hg Hs Hw Hi RG).
Qed.
End Vel.

(** ** convection *)
Lemma same_fields_at g v l : length l = length v -> (forall i, (i < length v)%nat -> ggrid (nth i l dga) = g /\ off_eq (goff (nth i l dga)) (goff (garray (nth i v dgv))) /\ shp (gdata (nth i l dga)) = gshape g) ->
  fields_at g v l (fun i => get (gdata (nth i l dga))).
Proof. intros L H. apply fields_at_intro; auto. intros i Hi. destruct (H i Hi) as (A & B & C). split; [exact A|]. split; [exact B|]. split; [exact C|]. intros; reflexivity. Qed.

Definition convects (adv : gvar -> list gvar -> R -> result garr) : Prop :=
  forall c v dt, periodic_field c -> (0 < gndim (ggrid (garray c)))%nat -> periodic_vec (ggrid (garray c)) v -> homogeneous_vec v ->
    exists w F, adv c v dt = Ok w /\ is_field w (ggrid (garray c)) (goff (garray c)) F.
Lemma convect_all g o bs adv dt v : convects adv -> (0 < gndim g)%nat -> periodic_velocity g o bs v ->
  exists l, mapM (fun u => adv u v dt) v = Ok l /\ fields_at g v l (fun i => get (gdata (nth i l dga))) /\
    forall i, (i < gndim g)%nat -> adv (nth i v dgv) v dt = Ok (nth i l dga).
Proof.
  intros Ha Hd Hv. pose proof (pv_len Hv) as L. pose proof Hv as (Hpv & Hh & _).
  destruct (@mapM_enum gvar garr (fun iu => adv (snd iu) v dt) (fun i w => adv (nth i v dgv) v dt = Ok w /\ exists F, prep g (goff (garray (nth i v dgv))) F w) v dgv) as (l & E & HL & H).
  { intros i Hi. assert (Hi' : (i < gndim g)%nat) by lia. destruct (periodic_vec_nth Hpv Hi') as (Hp & Hg). cbn [snd].
    destruct (Ha (nth i v dgv) v dt Hp) as (w & F & Ew & Hw); [rewrite Hg; auto | rewrite Hg; auto | auto|]. rewrite Hg in Hw. exists w. split; [exact Ew|]. split; [exact Ew | exists F; exact Hw]. }
  rewrite (mapM_enum_snd (fun u => adv u v dt)) in E. exists l. split; [exact E|]. split.
  - apply same_fields_at; auto. intros i Hi. destruct (H i dga Hi) as (_ & F & (A & B & C & _)). auto.
  - intros i Hi. apply (H i dga). lia.
Qed.
Lemma convects_linear : convects advect_linear.
Proof. intros c v dt A B C D. destruct (adv_linear_prep dt A B C D) as (w & E & H). exists w. eexists. split; [exact E | exact H]. Qed.
Lemma convects_upwind : convects advect_upwind.
Proof. intros c v dt A B C D. destruct (adv_upwind_prep dt A B C D) as (w & E & H). exists w. eexists. split; [exact E | exact H]. Qed.
Lemma convects_limited phi : convects (fun c v dt => advect_general c v linear_fn (apply_tvd_limiter lax_wendroff phi) dt).
Proof. intros c v dt A B C D. destruct (adv_limited_prep dt A B C D phi) as (w & E & H). exists w. eexists. split; [exact E | exact H]. Qed.

(* @prop C64 Convection of a velocity by itself treats copies alike: if one velocity is k times a translated, axis-relabelled copy of another on a grid with cells s times as wide (and the time step is s/k times the other's), the convection of one is k^2/s times the copied convection of the other, for linear, upwind and flux-limited convection (any limiter); the default convection of the Navier-Stokes solvers is the last with van Leer's limiter. *)
Lemma convection_treats_copies_alike_lem : forall g g' o o' bs bs' p s k dt dt', copied_grid p s g g' -> (0 < s)%R -> (0 < gndim g)%nat -> copied_offset (gndim g) p o o' ->
  (0 < k)%R -> (dt' * k = dt * s)%R ->
  treat_alike g g' o o' bs bs' p k (k * k / s) (fun v => mapM (fun u => advect_linear u v dt) v) (fun v => mapM (fun u => advect_linear u v dt') v) /\
  treat_alike g g' o o' bs bs' p k (k * k / s) (fun v => mapM (fun u => advect_upwind u v dt) v) (fun v => mapM (fun u => advect_upwind u v dt') v) /\
  (forall phi, treat_alike g g' o o' bs bs' p k (k * k / s)
     (fun v => mapM (fun u => advect_general u v linear_fn (apply_tvd_limiter lax_wendroff phi) dt) v)
     (fun v => mapM (fun u => advect_general u v linear_fn (apply_tvd_limiter lax_wendroff phi) dt') v)) /\
  treat_alike g g' o o' bs bs' p k (k * k / s) (default_convect dt) (default_convect dt').
Proof.
  intros g g' o o' bs bs' p s k dt dt' Hg Hs Hd Hoo Hk Hdt. pose proof (proj1 Hg) as Hn. pose proof (proj1 (proj2 Hg)) as Hp.
  assert (Gen : forall adv, convects adv ->
    (forall v v' i, periodic_velocity g o bs v -> periodic_velocity g' o' bs' v' -> copied_velocity (gndim g) p k v v' -> (i < gndim g)%nat ->
       exists w w', adv (nth (to_axis p i) v dgv) v dt = Ok w /\ adv (nth i v' dgv) v' dt' = Ok w' /\ copied_array p (k * k / s) w w') ->
    treat_alike g g' o o' bs bs' p k (k * k / s) (fun v => mapM (fun u => adv u v dt) v) (fun v => mapM (fun u => adv u v dt') v)).
  { intros adv Ha H v v' Hv Hv' R. destruct (@convect_all g o bs adv dt v Ha Hd Hv) as (l & E & Fl & Vl).
    destruct (@convect_all g' o' bs' adv dt' v' Ha ltac:(lia) Hv') as (l' & E' & Fl' & Vl').
    exists l, l'. eexists _, _. split; [exact E|]. split; [exact E'|]. split; [exact Fl|]. split; [exact Fl'|].
    intros i w w' Hi Ew Ew'. pose proof (Hp i Hi) as (Ti & _). destruct (H v v' i Hv Hv' R Hi) as (x & x' & Ex & Ex' & Rx).
    rewrite (Vl _ Ti) in Ex. rewrite (Vl' i) in Ex' by lia. rewrite (nth_error_nth _ _ _ Ew) in Ex. rewrite (nth_error_nth _ _ _ Ew') in Ex'.
    injection Ex as <-. injection Ex' as <-. unfold copied_array in Rx.
    assert (Gw : ggrid w = g) by (pose proof (pv_len Hv) as LV; rewrite <- (nth_error_nth _ _ dga Ew); apply (fields_at_nth Fl); lia). rewrite Gw in Rx. exact Rx. }
  assert (Adv : forall v v' i, periodic_velocity g o bs v -> periodic_velocity g' o' bs' v' -> copied_velocity (gndim g) p k v v' -> (i < gndim g)%nat ->
     _) by (intros v v' i Hv Hv' R Hi;
    exact (fun P1 P2 P3 P4 P5 P6 P7 => @advection_of_copies_lem g g' p s (nth (to_axis p i) v dgv) (nth i v' dgv) v v' k k dt dt' Hg Hs Hd P1 P2 P3 P4 (proj1 Hv) (proj1 Hv') (proj1 (proj2 Hv)) (proj1 (proj2 Hv')) P5 P6 P7 R Hk Hdt)).
  assert (Adv2 : forall v v' i, periodic_velocity g o bs v -> periodic_velocity g' o' bs' v' -> copied_velocity (gndim g) p k v v' -> (i < gndim g)%nat ->
    (exists w w', advect_linear (nth (to_axis p i) v dgv) v dt = Ok w /\ advect_linear (nth i v' dgv) v' dt' = Ok w' /\ copied_array p (k * k / s) w w') /\
    (exists w w', advect_upwind (nth (to_axis p i) v dgv) v dt = Ok w /\ advect_upwind (nth i v' dgv) v' dt' = Ok w' /\ copied_array p (k * k / s) w w') /\
    (forall phi, exists w w', advect_general (nth (to_axis p i) v dgv) v linear_fn (apply_tvd_limiter lax_wendroff phi) dt = Ok w /\
      advect_general (nth i v' dgv) v' linear_fn (apply_tvd_limiter lax_wendroff phi) dt' = Ok w' /\ copied_array p (k * k / s) w w')).
  { intros v v' i Hv Hv' R Hi. pose proof (Hp i Hi) as (Ti & _). assert (Hi' : (i < gndim g')%nat) by lia.
    destruct (periodic_vec_nth (proj1 Hv) Ti) as (P1 & P3). destruct (periodic_vec_nth (proj1 Hv') Hi') as (P2 & P4).
    assert (Off : forall j, (j < gndim g)%nat -> copied_offset (gndim g) p (goff (garray (nth (to_axis p j) v dgv))) (goff (garray (nth j v' dgv)))).
    { intros j Hj. pose proof (Hp j Hj) as (Tj & _). apply (@off_eq_copied g p (offs (to_axis p j) (1 # 2) o) (offs j (1 # 2) o')).
      - apply off_eq_sym. apply (pv_off Hd (proj1 Hoo) Hv Tj).
      - apply off_eq_sym. apply (@pv_off g' o' bs' ltac:(lia) ltac:(rewrite Hn; apply Hoo) v' j Hv'). lia.
      - apply (offs_copied Hg (1 # 2) Hoo Hj). }
    apply (Adv v v' i Hv Hv' R Hi P1 P2 P3 P4).
    - apply Off; auto.
    - intros j u u' Eu Eu'. pose proof (pv_len Hv') as LV'. assert (Hj : (j < gndim g)%nat) by (rewrite <- Hn, <- LV'; apply nth_error_Some; congruence).
      specialize (Off j Hj). rewrite (nth_error_nth _ _ _ Eu), (nth_error_nth _ _ _ Eu') in Off. exact Off.
    - unfold copied_array. rewrite P3. pose proof (pv_len Hv) as LV. pose proof (pv_len Hv') as LV'. rewrite Hn in LV'.
      destruct (under_comp_nth Hg v v' LV LV' Hi) as (E & E'). rewrite <- E, <- E'. apply R; auto. }
  split; [|split; [|split]].
  - apply (Gen _ convects_linear). intros v v' i A B C D. apply (Adv2 v v' i A B C D).
  - apply (Gen _ convects_upwind). intros v v' i A B C D. apply (Adv2 v v' i A B C D).
  - intros phi. apply (Gen _ (convects_limited phi)). intros v v' i A B C D. apply (Adv2 v v' i A B C D).
  - apply (Gen _ (convects_limited van_leer_limiter)). intros v v' i A B C D. apply (Adv2 v v' i A B C D).
Qed.

(* @ex *)
Lemma convection_treats_copies_alike_ex_lem : copied_grid swapped 2 p34g p43g /\ (0 < gndim p34g)%nat /\ copied_offset (gndim p34g) swapped half2 half2 /\ (4 * 3 = 6 * 2)%R /\
  periodic_velocity p34g half2 [periodic_bc 2; periodic_bc 2] p34v /\ periodic_velocity p43g half2 [periodic_bc 2; periodic_bc 2] p43v /\ copied_velocity (gndim p34g) swapped 3 p34v p43v.
Proof. split; [exact p43_grid|]. split; [cbn; lia|]. split; [exact half_copy|]. split; [lra|]. split; [exact p34_pv|]. split; [exact p43_pv | exact p43_copy]. Qed.
