(** * C77: mirror images of periodic flows under advection, projection and convection *)
From Verif Require Import Prelude NdArr Grids_model Spec SpecLin SpecDiag SpecDiff LinAlg Cplx Boundaries_model BoundariesPeriodic FD_model LaplacianProps PRep FDProofs FDProps WallBC WallBCProps ImposeProps WallFD Pressure_model PressureProps WallFDProps ProjectionProps Interp_model InterpProofs InterpProps UpwindProps TvdProps Advection_model AdvectionProofs AdvectionProps FastDiag_model Laplacian_model PressureSolve_model PressureSolveProps Diffusion_model DiffusionProps ImplicitDiffusionProps QRProps TimeStep_model Equations_model SpecNS EquationsProps EquationsMoreProps LearnedProps SpecRollout SpecSym SymBase SymEx SymProps SymVelProps SymStepProps SymMoreProps SpecReflect ReflectBase.
Set Implicit Arguments.
Local Open Scope Z_scope.

Lemma lerp_diff n o1 o2 q1 q2 F : (forall b, (b < n)%nat -> (nth b o2 0 - nth b o1 0 == nth b q2 0 - nth b q1 0)%Q) -> forall ix, lerp n o1 o2 F ix = lerp n q1 q2 F ix.
Proof.
  intros H. induction n as [|m IH]; intros ix; [reflexivity|]. cbn [lerp]. rewrite (@lerp_axis_comp m _ _ _ ix (H m ltac:(lia))).
  unfold lerp_axis. rewrite !IH by (intros; apply H; lia). reflexivity.
Qed.
Lemma half_offset a i (o : list Q) : (i < length o)%nat -> (nth a (offs i (1 # 2) o) 0 == nth a o 0 + (if (i =? a)%nat then 1 # 2 else 0))%Q.
Proof.
  intros Hi. unfold offs. destruct (Nat.eqb_spec i a) as [E|Hne].
  - subst i. rewrite nth_upd_same by auto. reflexivity.
  - rewrite nth_upd_other by auto. ring.
Qed.

Section Flux.
Variables (g : grid) (a : nat) (m : Z).
Let n := gndim g.
Hypothesis (Ha : (a < n)%nat) (Hw : wfg g).
Local Notation rel := (mrel g a m).
Local Notation hd := (hd a).
Local Notation sg := (sg a).

Lemma sg_sq i : (sg i * sg i = 1)%R.
Proof. unfold ReflectBase.sg. destruct (i =? a)%nat; lra. Qed.
Lemma vector_iff F F' : mirrored_vector n a m F F' <-> forall i, (i < n)%nat -> rel (hd i) (sg i) (F i) (F' i).
Proof.
  split.
  - intros H i Hi ix HL. rewrite (H i ix Hi HL). unfold ReflectBase.hd, ReflectBase.sg. destruct (i =? a)%nat; [ring|]. rewrite Z.sub_0_r. ring.
  - intros H i ix Hi HL. rewrite (H i Hi ix HL). unfold ReflectBase.hd, ReflectBase.sg. destruct (i =? a)%nat; [ring|]. rewrite Z.sub_0_r. ring.
Qed.
Lemma rel_mult d s t F F' G G' : rel d s F F' -> rel d t G G' -> rel d (s * t) (fun ix => F ix * G ix)%R (fun ix => F' ix * G' ix)%R.
Proof. intros A B ix HL. rewrite (A ix HL), (B ix HL). ring. Qed.

Section Adv.
Variables (c c' : gvar) (v v' : list gvar) (o : list Q) (d : Z) (s : R) (dt : R).
Hypothesis (Gc : ggrid (garray c) = g) (Gc' : ggrid (garray c') = g) (Oc : length (goff (garray c)) = n)
  (Occ : off_eq (goff (garray c)) (goff (garray c')))
  (Hd : (2 * (nth a (goff (garray c)) 0 - nth a o 0) == inject_Z d)%Q)
  (Ho : length o = n) (Hv : periodic_vec g v) (Hv' : periodic_vec g v') (Hf : face_aligned o v) (Hf' : face_aligned o v')
  (Hs : s <> 0%R) (Rc : rel d s (pval (garray c)) (pval (garray c'))) (Rv : forall i, (i < n)%nat -> rel (hd i) (sg i) (vval v i) (vval v' i)).

Lemma face_lerp (x : gvar) (w : list gvar) i ix : ggrid (garray x) = g -> off_eq (goff (garray c)) (goff (garray x)) -> periodic_vec g w -> face_aligned o w -> (i < n)%nat ->
  face_velocity x w i ix = lerp n (offs i (1 # 2) o) (offs i (1 # 2) (goff (garray c))) (vval w i) ix.
Proof.
  intros Gx Ox (LW & _) Hfw Hi. change (length w = n) in LW. rewrite face_velocity_nth by lia. unfold vval. rewrite (nth_error_nth' w dgv) by lia. rewrite Gx. fold n.
  apply lerp_diff. intros b Hb. assert (Hi2 : (i < length w)%nat) by lia. rewrite (off_eq_nth b (Hfw i _ (nth_error_nth' w dgv Hi2))).
  assert (Lx : length (goff (garray x)) = n) by (rewrite <- (off_eq_length Ox); exact Oc).
  rewrite !half_offset by (rewrite ?Lx, ?Ho, ?Oc; exact Hi). rewrite (off_eq_nth b Ox). reflexivity.
Qed.
Lemma mrel_face i : (i < n)%nat -> rel (d + hd i) (sg i) (face_velocity c v i) (face_velocity c' v' i).
Proof.
  intros Hi. apply (@mrel_ext g a m) with (F := lerp n (offs i (1 # 2) o) (offs i (1 # 2) (goff (garray c))) (vval v i)) (F' := lerp n (offs i (1 # 2) o) (offs i (1 # 2) (goff (garray c))) (vval v' i)).
  - intros ix _. symmetry. apply face_lerp; auto. apply off_eq_refl.
  - intros ix _. symmetry. apply face_lerp; auto.
  - apply (@mrel_eq g a m (hd i + d) (d + hd i) (sg i) (sg i)); [lia | reflexivity|]. apply (@mrel_lerp g a m Ha); [|apply Rv; auto].
    rewrite !half_offset by (rewrite ?Ho, ?Oc; exact Hi). rewrite <- Hd. ring.
Qed.
Lemma mrel_linear i : (i < n)%nat -> rel (d + hd i) (s * sg i) (fun ix => linear_value c i ix * face_velocity c v i ix)%R (fun ix => linear_value c' i ix * face_velocity c' v' i ix)%R.
Proof.
  intros Hi. apply rel_mult; [|apply mrel_face; auto]. unfold linear_value. rewrite Gc, Gc'. fold n.
  apply (@mrel_ext g a m) with (F := lerp n (goff (garray c)) (offs i (1 # 2) (goff (garray c))) (pval (garray c))) (F' := lerp n (goff (garray c)) (offs i (1 # 2) (goff (garray c))) (pval (garray c'))).
  - reflexivity.
  - intros ix _. apply lerp_diff. intros b Hb. assert (Lx : length (goff (garray c')) = n) by (rewrite <- (off_eq_length Occ); exact Oc). rewrite !half_offset by (rewrite ?Lx, ?Oc; exact Hi). rewrite (off_eq_nth b Occ). reflexivity.
  - apply (@mrel_lerp g a m Ha); [|exact Rc]. rewrite half_offset by (rewrite Oc; exact Hi). unfold ReflectBase.hd. destruct (i =? a)%nat; [change (inject_Z 1) with 1%Q | change (inject_Z 0) with 0%Q]; ring.
Qed.
Lemma near ix j e : length ix = n -> e = m - d - j -> pval (garray c') (shiftix a j ix) = (s * pval (garray c) (mirror_cell a e ix))%R.
Proof. intros HL ->. rewrite (Rc (shiftix a j ix)) by (rewrite shiftix_length; exact HL). rewrite (@mir_shift g a Ha) by exact HL. reflexivity. Qed.
Lemma mrel_upwind i : (i < n)%nat -> rel (d + hd i) (s * sg i) (fun ix => upwind_value c v i ix * face_velocity c v i ix)%R (fun ix => upwind_value c' v' i ix * face_velocity c' v' i ix)%R.
Proof.
  intros Hi ix HL. unfold upwind_value, next. pose proof (mrel_face Hi ix HL) as RF. unfold ReflectBase.hd, ReflectBase.sg in *. destruct (Nat.eqb_spec i a) as [Ei|Hne].
  - subst i. rewrite RF. rewrite (@near ix 1 (m - (d + 1))) by (auto; lia). rewrite (@mir_shift_out g a Ha) by exact HL. replace (m - (d + 1) + 1) with (m - d) by lia.
    rewrite (Rc ix HL). set (U := face_velocity c v a (mirror_cell a (m - (d + 1)) ix)). set (A := pval (garray c) (mirror_cell a (m - d) ix)). set (B := pval (garray c) (mirror_cell a (m - (d + 1)) ix)).
    destruct (Rlt_dec 0 (-1 * U)), (Rlt_dec 0 U); try ring; [exfalso; lra|]. replace U with 0%R by lra. ring.
  - rewrite RF, (Rc ix HL). rewrite (mrel_shift_o 1 Hne Rc ix HL). rewrite Z.add_0_r. rewrite Rmult_1_l. destruct (Rlt_dec 0 _); ring.
Qed.
Lemma safe_div_same x y : safe_div (s * x) (s * y) = safe_div x y \/ y = 0%R.
Proof.
  destruct (Req_dec y 0) as [E|E]; [right; exact E | left]. unfold safe_div.
  destruct (Req_EM_T (s * y) 0) as [E2|_]; [apply Rmult_integral in E2; tauto|]. destruct (Req_EM_T y 0); [contradiction|]. field. auto.
Qed.
Lemma safe_div_opp x y : y <> 0%R -> safe_div (- x) (- y) = safe_div x y.
Proof. intros H. unfold safe_div. destruct (Req_EM_T (- y) 0); [exfalso; lra|]. destruct (Req_EM_T y 0); [contradiction|]. field. exact H. Qed.
Lemma mrel_limited phi i : (i < n)%nat ->
  rel (d + hd i) (s * sg i) (fun ix => limited_value phi c v dt i ix * face_velocity c v i ix)%R (fun ix => limited_value phi c' v' dt i ix * face_velocity c' v' i ix)%R.
Proof.
  intros Hi ix HL. unfold limited_value, next, prev. cbv zeta. rewrite Gc, Gc'. pose proof (mrel_face Hi ix HL) as RF. unfold ReflectBase.hd, ReflectBase.sg in *. destruct (Nat.eqb_spec i a) as [Ei|Hne].
  - subst i. rewrite RF. rewrite (@near ix 1 (m - (d + 1))) by (auto; lia). rewrite (@near ix (-1) (m - (d + 1) + 2)) by (auto; lia). rewrite (@near ix 2 (m - (d + 1) + -1)) by (auto; lia).
    rewrite !(@mir_shift_out g a Ha) by exact HL. replace (m - (d + 1) + 1) with (m - d) by lia. rewrite (Rc ix HL).
    set (U := face_velocity c v a (mirror_cell a (m - (d + 1)) ix)). set (B := pval (garray c) (mirror_cell a (m - d) ix)). set (A := pval (garray c) (mirror_cell a (m - (d + 1)) ix)).
    set (N := pval (garray c) (mirror_cell a (m - (d + 1) + 2) ix)). set (L := pval (garray c) (mirror_cell a (m - (d + 1) + -1) ix)). set (h := hstep g a). clearbody U A B N L h.
    rewrite <- !Rmult_minus_distr_l.
    destruct (Rlt_dec 0 (-1 * U)), (Rlt_dec 0 U); [exfalso; lra | | |replace U with 0%R by lra; ring].
    + destruct (safe_div_same (B - N) (A - B)) as [E|E].
      * rewrite E. destruct (Req_dec (A - B) 0) as [Z|Z]; [rewrite Z; ring|]. replace (N - B)%R with (- (B - N))%R by ring. replace (B - A)%R with (- (A - B))%R by ring.
        rewrite (safe_div_opp _ Z). unfold Rdiv. ring.
      * rewrite E. ring.
    + destruct (safe_div_same (L - A) (A - B)) as [E|E].
      * rewrite E. destruct (Req_dec (A - B) 0) as [Z|Z]; [replace (B - A)%R with (- (A - B))%R by ring; rewrite Z; ring|]. replace (A - L)%R with (- (L - A))%R by ring. replace (B - A)%R with (- (A - B))%R by ring.
        rewrite (safe_div_opp _ Z). unfold Rdiv. ring.
      * replace (B - A)%R with (- (A - B))%R by ring. rewrite E. ring.
  - rewrite RF, (Rc ix HL). rewrite (mrel_shift_o 1 Hne Rc ix HL), (mrel_shift_o (-1) Hne Rc ix HL), (mrel_shift_o 2 Hne Rc ix HL). rewrite Z.add_0_r. rewrite Rmult_1_l.
    set (U := face_velocity c v i (mirror_cell a (m - d) ix)). set (A := pval (garray c) (mirror_cell a (m - d) ix)). set (B := pval (garray c) (shiftix i 1 (mirror_cell a (m - d) ix))).
    set (L := pval (garray c) (shiftix i (-1) (mirror_cell a (m - d) ix))). set (N := pval (garray c) (shiftix i 2 (mirror_cell a (m - d) ix))). clearbody U A B N L.
    rewrite <- !Rmult_minus_distr_l. destruct (Rlt_dec 0 U).
    + destruct (safe_div_same (A - L) (B - A)) as [E|E]; rewrite E; ring.
    + destruct (safe_div_same (N - B) (B - A)) as [E|E]; [rewrite E; ring|]. replace (A - B)%R with (- (B - A))%R by ring. rewrite E. ring.
Qed.
Lemma mrel_tendency P P' : (forall i, (i < n)%nat -> rel (d + hd i) (s * sg i) (P i) (P' i)) -> rel d s (fun ix => - outflow g P ix)%R (fun ix => - outflow g P' ix)%R.
Proof.
  intros H. apply mrel_opp. apply (@mrel_ext g a m) with (F := divF g P) (F' := divF g P'); [intros; symmetry; apply outflow_divF | intros; symmetry; apply outflow_divF|].
  apply (@mrel_divF g a m Ha). exact H.
Qed.
Lemma prep_mrel e t F F' p p' w w' : prep g p F w -> prep g p' F' w' -> periodic (gshape g) F -> rel e t F F' -> rel e t (pval w) (pval w').
Proof.
  intros A B HF H. pose proof (@mrel_periodic g a m Ha e t F F' H HF) as HF'. eapply (@mrel_ext g a m); [| |exact H].
  - intros ix HL. symmetry. eapply prep_pval_all; eauto. apply Hw.
  - intros ix HL. symmetry. eapply prep_pval_all; eauto. apply Hw.
Qed.
End Adv.
End Flux.

(** ** the three advection schemes *)
Lemma adv_mirror g a m o c c' v v' d s dt : (a < gndim g)%nat -> length o = gndim g -> periodic_field c -> periodic_field c' -> ggrid (garray c) = g -> ggrid (garray c') = g ->
  off_eq (goff (garray c)) (goff (garray c')) -> (2 * (nth a (goff (garray c)) 0 - nth a o 0) == inject_Z d)%Q ->
  periodic_vec g v -> periodic_vec g v' -> homogeneous_vec v -> homogeneous_vec v' -> face_aligned o v -> face_aligned o v' -> s <> 0%R ->
  mrel g a m d s (pval (garray c)) (pval (garray c')) -> (forall i, (i < gndim g)%nat -> mrel g a m (hd a i) (sg a i) (vval v i) (vval v' i)) ->
  (exists w w', advect_linear c v dt = Ok w /\ advect_linear c' v' dt = Ok w' /\ mrel g a m d s (pval w) (pval w')) /\
  (exists w w', advect_upwind c v dt = Ok w /\ advect_upwind c' v' dt = Ok w' /\ mrel g a m d s (pval w) (pval w')) /\
  (forall phi, exists w w', advect_general c v linear_fn (apply_tvd_limiter lax_wendroff phi) dt = Ok w /\
     advect_general c' v' linear_fn (apply_tvd_limiter lax_wendroff phi) dt = Ok w' /\ mrel g a m d s (pval w) (pval w')).
Proof.
  intros Ha Ho Hc Hc' Gc Gc' Occ Hd Hv Hv' Hh Hh' Hf Hf' Hs Rc Rv. assert (Hw : wfg g) by (rewrite <- Gc; apply (pf_wfg Hc)).
  assert (Oc : length (goff (garray c)) = gndim g) by (rewrite <- Gc; apply (pf_off Hc)).
  assert (Hn : (0 < gndim g)%nat) by lia.
  assert (Fin : forall w w' C C', prep g (goff (garray c)) (fun ix => - outflow g (fun a jx => C a jx * face_velocity c v a jx) ix)%R w ->
     prep g (goff (garray c')) (fun ix => - outflow g (fun a jx => C' a jx * face_velocity c' v' a jx) ix)%R w' ->
     (forall b, (b < gndim g)%nat -> periodic (gshape g) (C b)) ->
     (forall i, (i < gndim g)%nat -> mrel g a m (d + hd a i) (s * sg a i) (fun ix => C i ix * face_velocity c v i ix)%R (fun ix => C' i ix * face_velocity c' v' i ix)%R) ->
     mrel g a m d s (pval w) (pval w')).
  { intros w w' C C' A B P H. refine (@prep_mrel g a m Ha Hw d s _ _ _ _ w w' A B _ _).
    - exact (@per_tendency g c v Gc Hv C P).
    - exact (@mrel_tendency g a m Ha d s (fun i ix => C i ix * face_velocity c v i ix)%R (fun i ix => C' i ix * face_velocity c' v' i ix)%R H). }
  split; [|split].
  - destruct (@adv_linear_prep c v dt Hc) as (w & E & A); [rewrite Gc; auto | rewrite Gc; auto | auto|].
    destruct (@adv_linear_prep c' v' dt Hc') as (w' & E' & A'); [rewrite Gc'; auto | rewrite Gc'; auto | auto|].
    exists w, w'. split; [exact E|]. split; [exact E'|]. rewrite Gc in A. rewrite Gc' in A'. apply (Fin _ _ _ _ A A').
    + intros b Hb. exact (@per_linear g c Hc Gc b).
    + intros i Hi. exact (@mrel_linear g a m Ha c c' v v' o d s Gc Gc' Oc Occ Hd Ho Hv Hv' Hf Hf' Rc Rv i Hi).
  - destruct (@adv_upwind_prep c v dt Hc) as (w & E & A); [rewrite Gc; auto | rewrite Gc; auto | auto|].
    destruct (@adv_upwind_prep c' v' dt Hc') as (w' & E' & A'); [rewrite Gc'; auto | rewrite Gc'; auto | auto|].
    exists w, w'. split; [exact E|]. split; [exact E'|]. rewrite Gc in A. rewrite Gc' in A'. apply (Fin _ _ _ _ A A').
    + intros b Hb. exact (@per_upwind g c v Hc Gc Hv b Hb).
    + intros i Hi. exact (@mrel_upwind g a m Ha c c' v v' o d s Gc Gc' Oc Occ Hd Ho Hv Hv' Hf Hf' Rc Rv i Hi).
  - intros phi. destruct (@adv_limited_prep c v dt Hc ltac:(rewrite Gc; auto) ltac:(rewrite Gc; auto) Hh phi) as (w & E & A).
    destruct (@adv_limited_prep c' v' dt Hc' ltac:(rewrite Gc'; auto) ltac:(rewrite Gc'; auto) Hh' phi) as (w' & E' & A').
    exists w, w'. split; [exact E|]. split; [exact E'|]. rewrite Gc in A. rewrite Gc' in A'. apply (Fin _ _ _ _ A A').
    + intros b Hb. exact (@per_limited g c v dt Hc Gc Hv phi b Hb).
    + intros i Hi. exact (@mrel_limited g a m Ha c c' v v' o d s dt Gc Gc' Oc Occ Hd Ho Hv Hv' Hf Hf' Hs Rc Rv phi i Hi).
Qed.

Lemma mrel_centre g a m F F' : mirrored_values (gndim g) a m F F' <-> mrel g a m 0 1 F F'.
Proof. split; intros H ix HL; rewrite (H ix HL), Z.sub_0_r; ring. Qed.

(* @prop C77 Advection commutes with mirrors: if a scalar kept at the centres along the mirror's axis and the velocity advecting it are both replaced by their mirror images (the velocity component across the mirror also changes sign), the tendency of the scalar is replaced by its mirror image, at every cell, for linear and upwind advection and for flux-limited advection with any limiter: there is no preferred direction in the schemes. *)
Lemma advection_of_mirror_images_lem : forall g a k o c c' v v' dt, (a < gndim g)%nat -> length o = gndim g -> periodic_field c -> periodic_field c' -> ggrid (garray c) = g -> ggrid (garray c') = g ->
  off_eq (goff (garray c)) (goff (garray c')) -> (nth a (goff (garray c)) 0 == nth a o 0)%Q ->
  periodic_vec g v -> periodic_vec g v' -> homogeneous_vec v -> homogeneous_vec v' -> face_aligned o v -> face_aligned o v' ->
  mirrored_values (gndim g) a k (pval (garray c)) (pval (garray c')) -> mirrored_velocity (gndim g) a k v v' ->
  (exists w w', advect_linear c v dt = Ok w /\ advect_linear c' v' dt = Ok w' /\ mirrored_values (gndim g) a k (pval w) (pval w')) /\
  (exists w w', advect_upwind c v dt = Ok w /\ advect_upwind c' v' dt = Ok w' /\ mirrored_values (gndim g) a k (pval w) (pval w')) /\
  (forall phi, exists w w', advect_general c v linear_fn (apply_tvd_limiter lax_wendroff phi) dt = Ok w /\
     advect_general c' v' linear_fn (apply_tvd_limiter lax_wendroff phi) dt = Ok w' /\ mirrored_values (gndim g) a k (pval w) (pval w')).
Proof.
  intros g a k o c c' v v' dt Ha Ho Hc Hc' Gc Gc' Occ Hd Hv Hv' Hh Hh' Hf Hf' Rc Rv.
  destruct (@adv_mirror g a k o c c' v v' 0 1 dt Ha Ho Hc Hc' Gc Gc' Occ) as (A & B & C); auto.
  - rewrite Hd. change (inject_Z 0) with 0%Q. ring.
  - apply mrel_centre. exact Rc.
  - apply vector_iff. exact Rv.
  - split; [|split].
    + destruct A as (w & w' & E & E' & R). exists w, w'. split; [exact E|]. split; [exact E'|]. apply mrel_centre. exact R.
    + destruct B as (w & w' & E & E' & R). exists w, w'. split; [exact E|]. split; [exact E'|]. apply mrel_centre. exact R.
    + intros phi. destruct (C phi) as (w & w' & E & E' & R). exists w, w'. split; [exact E|]. split; [exact E'|]. apply mrel_centre. exact R.
Qed.

(** ** an example: the 3 x 4 velocity and its mirror image across axis 0 *)
Definition p34mirror : list gvar :=
  [mkgv (mkga (mkarr [3%nat; 4%nat] (fun ix => - vval p34v 0 (mirror_cell 0 (2 - 1) ix))%R) (offs 0 (1 # 2) half2) p34g) (periodic_bc 2);
   mkgv (mkga (mkarr [3%nat; 4%nat] (fun ix => vval p34v 1 (mirror_cell 0 2 ix))) (offs 1 (1 # 2) half2) p34g) (periodic_bc 2)].
Lemma p34mirror_pv : periodic_velocity p34g half2 [periodic_bc 2; periodic_bc 2] p34mirror.
Proof.
  split; [|split; [|split]].
  - split; [reflexivity|]. repeat constructor; (lia || lra || reflexivity).
  - repeat constructor.
  - intros [|[|[|i]]] u H; cbn in H; try discriminate; injection H as <-; apply off_eq_refl.
  - reflexivity.
Qed.
Lemma p34mirror_image : mirrored_velocity (gndim p34g) 0 2 p34v p34mirror.
Proof.
  assert (P : forall i e, (i < 2)%nat -> periodic (gshape p34g) (fun ix => vval p34v i (mirror_cell 0 e ix))).
  { intros i e Hi. apply (@mir_periodic p34g 0 ltac:(cbn; lia)). apply (periodic_vval (proj1 p34_pv)). exact Hi. }
  intros i ix Hi HL. change (gndim p34g) with 2%nat in *. destruct i as [|[|i]]; [| |lia]; cbn [Nat.eqb].
  - change (vval p34mirror 0 ix) with (- vval p34v 0 (mirror_cell 0 (2 - 1) (wrap (gshape p34g) ix)))%R. f_equal. exact (P 0%nat (2 - 1) ltac:(lia) ix HL).
  - change (vval p34mirror 1 ix) with (vval p34v 1 (mirror_cell 0 2 (wrap (gshape p34g) ix)))%R. exact (P 1%nat 2 ltac:(lia) ix HL).
Qed.
(* @ex *)
Lemma advection_of_mirror_images_ex_lem : (0 < gndim p34g)%nat /\ length half2 = gndim p34g /\
  periodic_field (nth 1 p34v dgv) /\ periodic_field (nth 1 p34mirror dgv) /\ off_eq (goff (garray (nth 1 p34v dgv))) (goff (garray (nth 1 p34mirror dgv))) /\
  (nth 0 (goff (garray (nth 1%nat p34v dgv))) 0 == nth 0 half2 0)%Q /\
  periodic_velocity p34g half2 [periodic_bc 2; periodic_bc 2] p34v /\ periodic_velocity p34g half2 [periodic_bc 2; periodic_bc 2] p34mirror /\
  mirrored_values (gndim p34g) 0 2 (pval (garray (nth 1 p34v dgv))) (pval (garray (nth 1 p34mirror dgv))) /\ mirrored_velocity (gndim p34g) 0 2 p34v p34mirror.
Proof.
  split; [cbn; lia|]. split; [reflexivity|]. split; [apply (@periodic_vec_nth p34g p34v 1 (proj1 p34_pv)); cbn; lia|].
  split; [apply (@periodic_vec_nth p34g p34mirror 1 (proj1 p34mirror_pv)); cbn; lia|]. split; [repeat constructor|]. split; [reflexivity|]. split; [exact p34_pv|]. split; [exact p34mirror_pv|].
  split; [|exact p34mirror_image]. intros ix HL. exact (@p34mirror_image 1%nat ix ltac:(cbn; lia) HL).
Qed.
