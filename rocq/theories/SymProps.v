(** * C64: copies of periodic problems have copied solutions (advection, diffusion, projection) *)
From Verif Require Import Prelude NdArr Grids_model Spec SpecLin SpecDiag SpecDiff LinAlg Cplx Boundaries_model BoundariesPeriodic FD_model LaplacianProps PRep FDProofs FDProps WallBC WallBCProps ImposeProps WallFD Pressure_model PressureProps WallFDProps ProjectionProps Interp_model InterpProofs InterpProps UpwindProps TvdProps Advection_model AdvectionProofs AdvectionProps FastDiag_model Laplacian_model PressureSolve_model PressureSolveProps Diffusion_model DiffusionProps QRProps TimeStep_model Equations_model SpecNS EquationsProps EquationsMoreProps SpecSym SymBase SymEx.
Set Implicit Arguments.
Local Open Scope Z_scope.

Section Sym.
Variables (g g' : grid) (p : placement) (s : R).
Hypothesis (Hg : copied_grid p s g g') (Hs : (0 < s)%R) (Hw : wfg g).
Let n := gndim g.
Local Notation rel := (copied_values n p).
Let Hn : gndim g' = n := proj1 Hg.
Let Hp : relabelling n p := proj1 (proj2 Hg).

Lemma rel_periodic m F F' : rel m F F' -> periodic (gshape g) F -> periodic (gshape g') F'.
Proof.
  intros H HF ix HL. assert (HL' : length ix = n) by (rewrite <- Hn; exact HL).
  rewrite (H ix HL'), (H (wrap (gshape g') ix)) by (rewrite wrap_length by exact HL; exact Hn).
  f_equal. exact (sym_periodic Hg HF ix HL).
Qed.
Lemma prep_pval_all gg o F w ix : prep gg o F w -> allpos (gshape gg) -> periodic (gshape gg) F -> length ix = gndim gg -> pval w ix = F ix.
Proof. intros (_ & _ & S & V) Ha HF HL. unfold pval. rewrite S, V by (apply inb_wrap; auto). apply HF. exact HL. Qed.
Lemma prep_rel m F F' o o' w w' : allpos (gshape g') -> prep g o F w -> prep g' o' F' w' -> periodic (gshape g) F -> rel m F F' -> rel m (pval w) (pval w').
Proof.
  intros Ha' A B HF H. pose proof (rel_periodic H HF) as HF'. eapply rel_ext; [| |exact H].
  - intros ix HL. symmetry. eapply prep_pval_all; eauto. apply Hw.
  - intros ix HL. symmetry. eapply prep_pval_all; eauto. rewrite Hn. exact HL.
Qed.
Lemma offs_copied o o' a q : copied_offset n p o o' -> (a < n)%nat -> copied_offset n p (offs (to_axis p a) q o) (offs a q o').
Proof.
  intros (L & L' & H) Ha. split; [rewrite offs_length; auto|]. split; [rewrite offs_length; auto|]. intros b Hb. unfold offs.
  pose proof (Hp Ha) as (A1 & _). pose proof (Hp Hb) as (B1 & _).
  destruct (Nat.eq_dec b a) as [->|Hne].
  - rewrite !nth_upd_same by lia. rewrite (H a Ha). reflexivity.
  - rewrite nth_upd_other by auto. rewrite nth_upd_other by (intros E; apply Hne; symmetry; apply (to_inj Hp); auto). apply H; auto.
Qed.
Lemma off_eq_copied o o' q q' : off_eq o q -> off_eq o' q' -> copied_offset n p o o' -> copied_offset n p q q'.
Proof.
  intros A B (L & L' & H). split; [rewrite <- (off_eq_length A); auto|]. split; [rewrite <- (off_eq_length B); auto|].
  intros a Ha. rewrite <- (off_eq_nth a B), <- (off_eq_nth (to_axis p a) A). auto.
Qed.
Lemma under_comp_nth v v' i : length v = n -> length v' = n -> (i < n)%nat ->
  vval v (to_axis p i) = pval (garray (nth (to_axis p i) v dgv)) /\ vval v' i = pval (garray (nth i v' dgv)).
Proof.
  intros L L' Hi. pose proof (Hp Hi) as (A & _). unfold vval.
  split; [rewrite (nth_error_nth' v dgv) by lia | rewrite (nth_error_nth' v' dgv) by lia]; reflexivity.
Qed.

(** ** advection *)
Section Adv.
Variables (c c' : gvar) (v v' : list gvar) (m k : R) (dt dt' : R).
Hypothesis (Hc : periodic_field c) (Hc' : periodic_field c') (Gc : ggrid (garray c) = g) (Gc' : ggrid (garray c') = g')
  (Hv : periodic_vec g v) (Hv' : periodic_vec g' v') (Hd : (0 < n)%nat)
  (Hoc : copied_offset n p (goff (garray c)) (goff (garray c')))
  (Hov : forall i, (i < n)%nat -> copied_offset n p (goff (garray (nth (to_axis p i) v dgv))) (goff (garray (nth i v' dgv))))
  (Rc : rel m (pval (garray c)) (pval (garray c'))) (Rv : copied_velocity n p k v v') (Hk : (0 < k)%R)
  (Hdt : (dt' * k = dt * s)%R).

Lemma rel_face a : (a < n)%nat -> rel k (face_velocity c v (to_axis p a)) (face_velocity c' v' a).
Proof.
  intros Ha. pose proof (proj1 (Hp Ha)) as A1. destruct Hv as (LV & _). destruct Hv' as (LV' & _). rewrite Hn in LV'.
  rewrite !face_velocity_nth by (fold n in LV; lia). rewrite Gc, Gc', Hn. fold n. apply (rel_lerp Hg).
  - intros b Hb. destruct (Hov Ha) as (_ & _ & E1). destruct (offs_copied (1 # 2) Hoc Ha) as (_ & _ & E2). rewrite (E1 b Hb), (E2 b Hb). reflexivity.
  - destruct (@under_comp_nth v v' a LV LV' Ha) as (E & E'). rewrite <- E, <- E'. apply Rv; auto.
Qed.
Lemma rel_linear_value a : (a < n)%nat -> rel m (linear_value c (to_axis p a)) (linear_value c' a).
Proof.
  intros Ha. unfold linear_value. rewrite Gc, Gc', Hn. fold n. apply (rel_lerp Hg); [|exact Rc].
  intros b Hb. destruct Hoc as (_ & _ & E1). destruct (offs_copied (1 # 2) Hoc Ha) as (_ & _ & E2). rewrite (E1 b Hb), (E2 b Hb). reflexivity.
Qed.
Lemma pos_scal x : (if Rlt_dec 0 (k * x) then true else false) = (if Rlt_dec 0 x then true else false).
Proof.
  destruct (Rlt_dec 0 (k * x)) as [H|H], (Rlt_dec 0 x) as [H'|H']; auto; exfalso.
  - apply H'. apply (Rmult_lt_reg_l k); lra.
  - apply H. apply Rmult_lt_0_compat; auto.
Qed.
Lemma if_pos {A} x (y z : A) : (if Rlt_dec 0 (k * x) then y else z) = (if Rlt_dec 0 x then y else z).
Proof. pose proof (pos_scal x). destruct (Rlt_dec 0 (k * x)), (Rlt_dec 0 x); congruence. Qed.
Lemma rel_upwind_value a : (a < n)%nat -> rel m (upwind_value c v (to_axis p a)) (upwind_value c' v' a).
Proof.
  intros Ha ix HL. unfold upwind_value, next. rewrite (rel_face Ha ix HL). rewrite if_pos.
  rewrite (Rc ix HL), (rel_shift Hg 1 Ha Rc ix HL). destruct (Rlt_dec _ _); reflexivity.
Qed.
Lemma safe_div_scal (phi : R -> R) x y w z : (w * phi (safe_div (m * x) (m * y)) * (m * z) = m * (w * phi (safe_div x y) * z))%R \/ (m * y = 0)%R.
Proof.
  destruct (Req_dec (m * y) 0) as [E|E]; [right; exact E | left]. unfold safe_div.
  destruct (Req_EM_T (m * y) 0); [contradiction|]. destruct (Req_EM_T y 0) as [->|Hy]; [exfalso; apply E; ring|].
  replace (m * x / (m * y))%R with (x / y)%R; [ring|]. field. split; [exact Hy|]. intros ->. apply E; ring.
Qed.
Lemma rel_limited_value phi a : (a < n)%nat -> rel m (limited_value phi c v dt (to_axis p a)) (limited_value phi c' v' dt' a).
Proof.
  intros Ha ix HL. unfold limited_value. cbv zeta. rewrite Gc, Gc'. rewrite (rel_face Ha ix HL).
  rewrite (Rc ix HL). unfold next, prev. rewrite (rel_shift Hg 1 Ha Rc ix HL), (rel_shift Hg (-1) Ha Rc ix HL), (rel_shift Hg 2 Ha Rc ix HL).
  rewrite (sym_h Hg Ha). pose proof (sym_h0 Hg Hw (proj1 (Hp Ha))) as Hh.
  fold n. set (U := face_velocity c v (to_axis p a) (under n p ix)). set (h := hstep g (to_axis p a)) in *.
  set (A := pval (garray c) (under n p ix)). set (B := pval (garray c) (shiftix (to_axis p a) 1 (under n p ix))).
  set (L := pval (garray c) (shiftix (to_axis p a) (-1) (under n p ix))). set (N := pval (garray c) (shiftix (to_axis p a) 2 (under n p ix))).
  assert (Ecn : (dt' * (k * U) / (s * h) = dt * U / h)%R).
  { replace (dt' * (k * U))%R with (dt' * k * U)%R by ring. rewrite Hdt. field. split; [exact Hh | lra]. }
  rewrite Ecn, if_pos. rewrite <- !Rmult_minus_distr_l.
  destruct (Rlt_dec 0 U).
  - destruct (safe_div_scal phi (A - L) (B - A) (/ 2 * (1 - dt * U / h)) (B - A)) as [E|E].
    + rewrite E. ring.
    + rewrite E. apply Rmult_integral in E. destruct E as [E|E]; rewrite E; ring.
  - destruct (safe_div_scal phi (N - B) (B - A) (/ 2 * (1 + dt * U / h)) (A - B)) as [E|E].
    + rewrite E. ring.
    + replace (m * (A - B))%R with (- (m * (B - A)))%R by ring. rewrite E. apply Rmult_integral in E. destruct E as [E|E]; [rewrite E; ring|].
      replace (A - B)%R with (- (B - A))%R by ring. rewrite E. ring.
Qed.

Lemma per_flux C a : periodic (gshape g) (C a) -> (a < n)%nat -> periodic (gshape g) (fun ix => C a ix * face_velocity c v a ix)%R.
Proof. intros H Ha ix HL. rewrite (H ix HL). rewrite (@face_velocity_periodic g c v a Hv Gc Ha ix HL). reflexivity. Qed.
Lemma per_linear a : periodic (gshape g) (linear_value c a).
Proof. unfold linear_value. apply lerp_periodic. rewrite <- Gc. apply pf_per; auto. Qed.
Lemma per_upwind a : (a < n)%nat -> periodic (gshape g) (upwind_value c v a).
Proof.
  intros Ha. pose proof (pf_per Hc) as P. rewrite Gc in P. unfold upwind_value.
  apply periodic_if; [apply (@face_velocity_periodic g c v a Hv Gc Ha) | exact P | apply periodic_next; exact P].
Qed.
Lemma per_limited phi i : (i < n)%nat -> periodic (gshape g) (limited_value phi c v dt i).
Proof.
  intros Hi. pose proof (pf_per Hc) as Pc. rewrite Gc in Pc. unfold limited_value. pose proof (@face_velocity_periodic g c v i Hv Gc Hi) as Pv.
  intros ix Hix. cbv beta zeta. pose proof (periodic_shift i 2 Pc ix Hix) as P2. cbv beta in P2. pose proof (periodic_shift i (-1) Pc ix Hix) as P1. cbv beta in P1.
  pose proof (periodic_shift i 1 Pc ix Hix) as P3. cbv beta in P3. unfold next, prev. rewrite (Pv ix Hix), (Pc ix Hix), P1, P2, P3. reflexivity.
Qed.
Lemma rel_tendency C C' : (forall a, (a < n)%nat -> rel m (C (to_axis p a)) (C' a)) ->
  rel (m * k / s) (fun ix => - outflow g (fun a jx => C a jx * face_velocity c v a jx) ix)%R
                  (fun ix => - outflow g' (fun a jx => C' a jx * face_velocity c' v' a jx) ix)%R.
Proof.
  intros H. apply rel_opp. apply (@rel_divF g g' p s Hg Hs Hw (m * k) (fun a jx => C a jx * face_velocity c v a jx)%R (fun a jx => C' a jx * face_velocity c' v' a jx)%R).
  intros i Hi. apply rel_mult; [apply H; auto | apply rel_face; auto].
Qed.
Lemma per_tendency C : (forall a, (a < n)%nat -> periodic (gshape g) (C a)) -> periodic (gshape g) (fun ix => - outflow g (fun a jx => C a jx * face_velocity c v a jx) ix)%R.
Proof.
  intros H ix HL. rewrite !outflow_divF. f_equal. apply (@periodic_divF g (fun a jx => C a jx * face_velocity c v a jx)%R); [|exact HL].
  intros i Hi. apply per_flux; auto.
Qed.
End Adv.
End Sym.

(* @prop C64 Advection commutes with relabelling the axes, translating, rescaling the scalar by any m, the velocity by k > 0 and the cell widths by s > 0 (with the time step rescaled by s/k so that Courant numbers are the same): the tendency of the copied scalar is m k/s times the copied tendency, at every cell, for linear and upwind advection and for flux-limited advection with any limiter. *)
Lemma advection_of_copies_lem : forall g g' p s c c' v v' m k dt dt', copied_grid p s g g' -> (0 < s)%R -> (0 < gndim g)%nat ->
  periodic_field c -> periodic_field c' -> ggrid (garray c) = g -> ggrid (garray c') = g' ->
  periodic_vec g v -> periodic_vec g' v' -> homogeneous_vec v -> homogeneous_vec v' ->
  copied_offset (gndim g) p (goff (garray c)) (goff (garray c')) ->
  (forall i u u', nth_error v (to_axis p i) = Some u -> nth_error v' i = Some u' -> copied_offset (gndim g) p (goff (garray u)) (goff (garray u'))) ->
  copied_array p m (garray c) (garray c') -> copied_velocity (gndim g) p k v v' -> (0 < k)%R -> (dt' * k = dt * s)%R ->
  (exists w w', advect_linear c v dt = Ok w /\ advect_linear c' v' dt' = Ok w' /\ copied_array p (m * k / s) w w') /\
  (exists w w', advect_upwind c v dt = Ok w /\ advect_upwind c' v' dt' = Ok w' /\ copied_array p (m * k / s) w w') /\
  (forall phi, exists w w', advect_general c v linear_fn (apply_tvd_limiter lax_wendroff phi) dt = Ok w /\
     advect_general c' v' linear_fn (apply_tvd_limiter lax_wendroff phi) dt' = Ok w' /\ copied_array p (m * k / s) w w').
Proof.
  intros g g' p s c c' v v' m k dt dt' Hg Hs Hd Hc Hc' Gc Gc' Hv Hv' Hh Hh' Hoc Hov Rc Rv Hk Hdt.
  pose proof (proj1 Hg) as Hn. pose proof (proj1 (proj2 Hg)) as Hp.
  assert (Hw : wfg g) by (rewrite <- Gc; apply (pf_wfg Hc)). assert (Hw' : wfg g') by (rewrite <- Gc'; apply (pf_wfg Hc')).
  assert (Hov' : forall i, (i < gndim g)%nat -> copied_offset (gndim g) p (goff (garray (nth (to_axis p i) v dgv))) (goff (garray (nth i v' dgv)))).
  { intros i Hi. pose proof (Hp i Hi) as (A & _). destruct Hv as (LV & _). destruct Hv' as (LV' & _). apply (Hov i); apply nth_error_nth'; lia. }
  assert (Rc' : copied_values (gndim g) p m (pval (garray c)) (pval (garray c'))) by (unfold copied_array in Rc; rewrite Gc in Rc; exact Rc).
  assert (Fin : forall w w' C C', prep g (goff (garray c)) (fun ix => - outflow g (fun a jx => C a jx * face_velocity c v a jx) ix)%R w ->
     prep g' (goff (garray c')) (fun ix => - outflow g' (fun a jx => C' a jx * face_velocity c' v' a jx) ix)%R w' ->
     (forall a, (a < gndim g)%nat -> periodic (gshape g) (C a)) -> (forall a, (a < gndim g)%nat -> copied_values (gndim g) p m (C (to_axis p a)) (C' a)) ->
     copied_array p (m * k / s) w w').
  { intros w w' C C' A B P H. unfold copied_array. rewrite (proj1 A). refine (prep_rel Hg Hw (proj1 (proj2 (proj2 Hw'))) A B _ _).
    - exact (@per_tendency g c v Gc Hv C P).
    - exact (@rel_tendency g g' p s Hg Hs Hw c c' v v' m k Gc Gc' Hv Hv' Hd Hoc Hov' Rv C C' H). }
  split; [|split].
  - destruct (@adv_linear_prep c v dt Hc) as (w & E & A); [rewrite Gc; auto | rewrite Gc; auto | auto|].
    destruct (@adv_linear_prep c' v' dt' Hc') as (w' & E' & A'); [rewrite Gc'; lia | rewrite Gc'; auto | auto|].
    exists w, w'. split; [exact E|]. split; [exact E'|]. rewrite Gc in A. rewrite Gc' in A'. apply (Fin _ _ _ _ A A').
    + intros a Ha. exact (@per_linear g c Hc Gc a).
    + intros a Ha. exact (@rel_linear_value g g' p s Hg c c' m Gc Gc' Hoc Rc' a Ha).
  - destruct (@adv_upwind_prep c v dt Hc) as (w & E & A); [rewrite Gc; auto | rewrite Gc; auto | auto|].
    destruct (@adv_upwind_prep c' v' dt' Hc') as (w' & E' & A'); [rewrite Gc'; lia | rewrite Gc'; auto | auto|].
    exists w, w'. split; [exact E|]. split; [exact E'|]. rewrite Gc in A. rewrite Gc' in A'. apply (Fin _ _ _ _ A A').
    + intros a Ha. exact (@per_upwind g c v Hc Gc Hv a Ha).
    + intros a Ha. exact (@rel_upwind_value g g' p s Hg c c' v v' m k Gc Gc' Hv Hv' Hd Hoc Hov' Rc' Rv Hk a Ha).
  - intros phi. destruct (@adv_limited_prep c v dt Hc ltac:(rewrite Gc; auto) ltac:(rewrite Gc; auto) Hh phi) as (w & E & A).
    destruct (@adv_limited_prep c' v' dt' Hc' ltac:(rewrite Gc'; lia) ltac:(rewrite Gc'; auto) Hh' phi) as (w' & E' & A').
    exists w, w'. split; [exact E|]. split; [exact E'|]. rewrite Gc in A. rewrite Gc' in A'. apply (Fin _ _ _ _ A A').
    + intros a Ha. exact (@per_limited g c v dt Hc Gc Hv phi a Ha).
    + intros a Ha. exact (@rel_limited_value g g' p s Hg Hs Hw c c' v v' m k dt dt' Gc Gc' Hv Hv' Hd Hoc Hov' Rc' Rv Hk Hdt phi a Ha).
Qed.

(* @ex *)
Lemma advection_of_copies_ex_lem : copied_grid swapped 2 p34g p43g /\ (0 < gndim p34g)%nat /\
  periodic_field (nth 0 p34v dgv) /\ periodic_field (nth 1 p43v dgv) /\
  periodic_vec p34g p34v /\ periodic_vec p43g p43v /\ homogeneous_vec p34v /\ homogeneous_vec p43v /\
  copied_offset (gndim p34g) swapped (goff (garray (nth 0 p34v dgv))) (goff (garray (nth 1 p43v dgv))) /\
  (forall i u u', nth_error p34v (to_axis swapped i) = Some u -> nth_error p43v i = Some u' -> copied_offset (gndim p34g) swapped (goff (garray u)) (goff (garray u'))) /\
  copied_array swapped 3 (garray (nth 0 p34v dgv)) (garray (nth 1 p43v dgv)) /\ copied_velocity (gndim p34g) swapped 3 p34v p43v /\ (4 * 3 = 6 * 2)%R.
Proof.
  split; [exact p43_grid|]. split; [cbn; lia|]. split; [apply (@periodic_vec_nth p34g p34v 0 (proj1 p34_pv)); cbn; lia|].
  split; [apply (@periodic_vec_nth p43g p43v 1 (proj1 p43_pv)); cbn; lia|].
  split; [apply p34_pv|]. split; [apply p43_pv|]. split; [apply p34_pv|]. split; [apply p43_pv|].
  assert (Two : forall a, (a < gndim p34g)%nat -> a = 0%nat \/ a = 1%nat) by (intros a Ha; unfold gndim in Ha; cbn in Ha; lia).
  split; [split; [reflexivity|]; split; [reflexivity|]; intros a Ha; destruct (Two a Ha) as [-> | ->]; reflexivity|].
  split; [|split; [exact (p43_copy (i := 1%nat) ltac:(cbn; lia)) | split; [exact p43_copy | lra]]].
  intros [|[|[|i]]] u u' E E'; cbn in E, E'; try discriminate; injection E as <-; injection E' as <-;
    (split; [reflexivity|]; split; [reflexivity|]; intros a Ha; destruct (Two a Ha) as [-> | ->]; reflexivity).
Qed.
