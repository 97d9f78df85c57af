(** * C47: elementary forcings and the Kolmogorov forcing *)
From Verif Require Import Prelude NdArr LinAlg Cplx Grids_model Spec Boundaries_model FD_model PRep FDProofs FDProps GridProps FastDiag_model Advection_model PressureProps Equations_model PressureSolveProps SpecNS EquationsProps EquationsMoreProps FilterProps Forcings_model SpecForce.
From Coq Require Import Qreals.
Set Implicit Arguments.
Local Open Scope Z_scope.

(** the components of [v], each scaled *)
Lemma scaled_fields g v c : periodic_vec g v ->
  exists l, mapM (fun u => ga_scale c (garray u)) v = Ok l /\ fields_at g v l (fun i ix => c * vval v i ix)%R.
Proof.
  intros Hv. assert (HL : length v = gndim g) by apply Hv.
  destruct (@mapM_enum gvar garr (fun iu => ga_scale c (garray (snd iu))) (fun i w => prep g (goff (garray (nth i v dgv))) (fun ix => c * vval v i ix)%R w) v dgv) as (l & E & HL' & Hl).
  { intros i Hi. cbn [snd]. assert (Hi' : (i < gndim g)%nat) by lia. exact (prep_scalar_l Rmult c (proj1 (periodic_vec_pvar Hv Hi'))). }
  rewrite (mapM_enum_snd (fun u => ga_scale c (garray u)) v) in E. exists l. split; [exact E|]. apply fields_at_intro; [exact HL'|]. intros i Hi. exact (Hl i dga Hi).
Qed.

(* @prop C47 no_forcing returns for every velocity zero fields at the velocity's offsets, and linear_forcing with coefficient c returns c times each component (energy input rate exactly 2c times the kinetic energy density sum). *)
Lemma elementary_forcings_lem : forall g v c, periodic_vec g v ->
  (exists l, no_forcing v = Ok l /\ fields_at g v l (fun _ _ => 0%R)) /\
  (exists l, linear_forcing c v = Ok l /\ fields_at g v l (fun i ix => c * vval v i ix)%R).
Proof.
  intros g v c Hv. split.
  - destruct (@scaled_fields g v 0 Hv) as (l & E & H). exists l. split; [exact E|]. apply fields_at_intro; [apply H|]. intros i Hi.
    eapply prep_ext; [|exact (fields_at_nth H Hi)]. intros ix _. cbv beta. ring.
  - exact (@scaled_fields g v c Hv).
Qed.

(* @prop C47 sum_forcings of any nonempty list of forcings that return fields on the velocity's grid and offsets is the pointwise sum of what the parts return for the same velocity; with an empty list it raises. *)
Lemma sum_forcings_pointwise_lem : forall g v fs Fs,
  (forall v', sum_forcings [] v' = Err EType) /\
  ((0 < length fs)%nat -> (forall k f, nth_error fs k = Some f -> exists l, f v = Ok l /\ fields_at g v l (Fs k)) ->
   exists l, sum_forcings fs v = Ok l /\ fields_at g v l (fun i ix => nsum (length fs) (fun k => Fs k i ix))).
Proof.
  intros g v fs Fs. split; [reflexivity|]. intros Hn H. unfold sum_forcings.
  destruct (@mapM_enum (list gvar -> result (list garr)) (list garr) (fun kf => snd kf v) (fun k l => fields_at g v l (Fs k)) fs (fun _ => Err EType)) as (ls & E & HL & Hl).
  { intros k Hk. cbn [snd]. apply (H k). apply nth_error_nth'. exact Hk. }
  rewrite (mapM_enum_snd (fun f => f v) fs) in E. rewrite E. cbn [bind].
  destruct (@sum_fields_pointwise_lem g v ls Fs) as (l & El & Hf).
  - lia.
  - intros k l Hk. assert (Hk' : (k < length fs)%nat) by (rewrite <- HL; apply nth_error_Some; congruence). specialize (Hl k [] Hk'). rewrite (nth_error_nth _ _ _ Hk) in Hl. exact Hl.
  - exists l. split; [exact El|]. rewrite HL in Hf. exact Hf.
Qed.

(** ** offsets and coordinates *)
Lemma face_len g i : (i < gndim g)%nat -> length (nth i (cell_faces g) []) = gndim g.
Proof. intros Hi. destruct (@cell_faces_spec_lem g i Hi) as (_ & H & _). rewrite (off_eq_length H), offs_length. apply repeat_length. Qed.
Lemma face_get g i : (i < gndim g)%nat -> getM (cell_faces g) i = Ok (nth i (cell_faces g) []).
Proof. intros Hi. unfold getM. rewrite (nth_error_nth' _ []); [reflexivity|]. rewrite (proj1 (@cell_faces_spec_lem g i Hi)). exact Hi. Qed.
Lemma coord_face g i a ix : (i < gndim g)%nat -> (a < gndim g)%nat -> i <> a -> coord g (nth i (cell_faces g) []) a ix = coord g (cell_center g) a ix.
Proof.
  intros Hi Ha Hne. unfold coord. do 3 f_equal. apply Qeq_eqR. destruct (@cell_faces_spec_lem g i Hi) as (_ & H & _).
  rewrite (off_eq_nth a H). unfold offs. rewrite nth_upd_other by auto. reflexivity.
Qed.
Lemma mesh_at g o a : wfg g -> length o = gndim g -> (a < gndim g)%nat ->
  exists m x, grid_mesh g (Some o) = Ok m /\ getM m a = Ok x /\ shp x = gshape g /\ forall ix, get x ix = coord g o a ix.
Proof.
  intros Hw Ho Ha. destruct (proj1 (@mesh_points_lem g o Hw) Ho) as (m & E & HL & H). destruct (H a Ha) as (S & V).
  exists m, (nth a m (afull [] 0%R)). split; [exact E|]. split; [unfold getM; rewrite (nth_error_nth' _ (afull [] 0%R)) by lia; reflexivity|]. split; auto.
Qed.
Lemma as_periodic_vec g f F : wfg g -> length f = gndim g -> (forall i, (i < gndim g)%nat -> prep g (offs i (1 # 2) (cell_center g)) (F i) (nth i f dga)) ->
  periodic_vec g (as_periodic g f) /\ face_aligned (cell_center g) (as_periodic g f) /\
  forall i ix, (i < gndim g)%nat -> length ix = gndim g -> vval (as_periodic g f) i ix = F i (wrap (gshape g) ix).
Proof.
  intros Hw HL H. unfold as_periodic. assert (HLm : length (map (fun a => mkgv a (periodic_bc (gndim g))) f) = gndim g) by (rewrite map_length; exact HL).
  assert (Hn : forall i u, nth_error (map (fun a => mkgv a (periodic_bc (gndim g))) f) i = Some u -> (i < gndim g)%nat /\ garray u = nth i f dga /\ gbc u = periodic_bc (gndim g)).
  { intros i u Hu. assert (Hi : (i < gndim g)%nat) by (rewrite <- HLm; apply nth_error_Some; congruence). split; [exact Hi|].
    rewrite nth_error_map, (nth_error_nth' _ dga) in Hu by lia. cbn [option_map] in Hu. injection Hu as <-. auto. }
  split; [|split].
  - split; [exact HLm|]. apply Forall_forall. intros u Hu. destruct (In_nth_error _ _ Hu) as (i & Hi). destruct (Hn i u Hi) as (Hlt & Ea & Eb).
    destruct (H i Hlt) as (A & B & C & D). assert (Eg : ggrid (garray u) = g) by (rewrite Ea; exact A). split; [|exact Eg]. split; [|rewrite Eb, Eg; reflexivity].
    unfold wf_garr. rewrite Eg, Ea. split; [exact Hw|]. split; [exact C|]. rewrite (off_eq_length B), offs_length. apply repeat_length.
  - intros i u Hu. destruct (Hn i u Hu) as (Hlt & Ea & _). rewrite Ea. apply (H i Hlt).
  - intros i ix Hi Hix. unfold vval. rewrite nth_error_map, (nth_error_nth' _ dga) by lia. cbn [option_map]. unfold pval. cbn [garray].
    destruct (H i Hi) as (A & B & C & D). rewrite C. apply D. apply inb_wrap; [apply Hw | exact Hix].
Qed.

(** ** Kolmogorov *)
Definition kol_axis (swap : bool) : nat := if swap then 1%nat else 0%nat.
Lemma kol_force g scale k i b o : wfg g -> (i < gndim g)%nat -> (b < gndim g)%nat -> i <> b -> o = nth i (cell_faces g) [] ->
  exists m x w, grid_mesh g (Some o) = Ok m /\ getM m b = Ok x /\ ga_scale scale (mkga (amap (fun x => sin (k * x))%R x) o g) = Ok w /\
    prep g (offs i (1 # 2) (cell_center g)) (fun ix => scale * sin (k * coord g (cell_center g) b ix))%R w.
Proof.
  intros Hw Hi Hb Hne ->. destruct (@mesh_at g (nth i (cell_faces g) []) b Hw (face_len _ Hi) Hb) as (m & x & E1 & E2 & S & V).
  exists m, x. assert (P : prep g (offs i (1 # 2) (cell_center g)) (fun ix => sin (k * coord g (cell_center g) b ix))%R (mkga (amap (fun x => sin (k * x))%R x) (nth i (cell_faces g) []) g)).
  { split; [reflexivity|]. split; [apply (@cell_faces_spec_lem g i Hi)|]. split; [exact S|]. intros ix _. cbn [gdata amap get]. rewrite V, coord_face by auto. reflexivity. }
  destruct (prep_scalar_l Rmult scale P) as (w & E & H). exists w. auto.
Qed.

(* @prop C47 kolmogorov_forcing on every 2- or 3-dimensional grid succeeds and returns a force that does not depend on the velocity, on the cell faces of the grid: the first component is scale * sin(k * y) at the y coordinate of the face (with swap_xy the second one is scale * sin(k * x)) and the others are zero. *)
Lemma kolmogorov_forcing_spec_lem : forall g scale k swap, wfg g -> gndim g = 2%nat \/ gndim g = 3%nat ->
  exists F f, kolmogorov_forcing g scale k swap None = Ok F /\ (forall v, F v = Ok f) /\ length f = gndim g /\
    forall i w, nth_error f i = Some w -> is_field w g (offs i (1 # 2) (cell_center g)) (fun ix =>
      if (i =? (if swap then 1 else 0))%nat then (scale * sin (k * coord g (cell_center g) (if swap then 0 else 1)%nat ix))%R else 0%R).
Proof.
  intros g scale k swap Hw Hd.
  assert (Hz : forall i o u, (i < gndim g)%nat -> shp (gdata u) = gshape g -> off_eq o (offs i (1 # 2) (cell_center g)) -> prep g (offs i (1 # 2) (cell_center g)) (fun _ => 0%R) (mkga (afull (shp (gdata u)) 0%R) o g)).
  { intros i o u _ Su Ho. split; [reflexivity|]. split; [exact Ho|]. split; [exact Su|]. intros; reflexivity. }
  unfold kolmogorov_forcing. destruct swap.
  - rewrite (@face_get g 1) by lia. cbn [bind].
    destruct (@kol_force g scale k 1%nat 0%nat _ Hw ltac:(lia) ltac:(lia) ltac:(lia) eq_refl) as (m & x & w & E1 & E2 & E3 & P). rewrite E1. cbn [bind]. rewrite E2. cbn [bind]. rewrite E3. cbn [bind].
    assert (Sw : shp (gdata w) = gshape g) by apply P.
    destruct Hd as [Hd|Hd]; rewrite Hd; cbn [Nat.eqb].
    + eexists; eexists; split; [reflexivity|]. split; [intros v; reflexivity|]. split; [reflexivity|].
      intros i u Hu. destruct i as [|[|i]]; cbn [nth_error Nat.eqb] in *; [| |destruct i; discriminate]; injection Hu as <-.
      * apply Hz; [lia | exact Sw|]. unfold cell_center. rewrite Hd. repeat constructor.
      * exact P.
    + eexists; eexists; split; [reflexivity|]. split; [intros v; reflexivity|]. split; [reflexivity|].
      intros i u Hu. destruct i as [|[|[|i]]]; cbn [nth_error Nat.eqb] in *; [| | |destruct i; discriminate]; injection Hu as <-.
      * apply Hz; [lia | exact Sw|]. unfold cell_center. rewrite Hd. repeat constructor.
      * exact P.
      * apply Hz; [lia | exact Sw|]. unfold cell_center. rewrite Hd. repeat constructor.
  - rewrite (@face_get g 0) by lia. cbn [bind].
    destruct (@kol_force g scale k 0%nat 1%nat _ Hw ltac:(lia) ltac:(lia) ltac:(lia) eq_refl) as (m & x & w & E1 & E2 & E3 & P). rewrite E1. cbn [bind]. rewrite E2. cbn [bind]. rewrite E3. cbn [bind].
    assert (Sw : shp (gdata w) = gshape g) by apply P.
    destruct Hd as [Hd|Hd]; rewrite Hd; cbn [Nat.eqb].
    + eexists; eexists; split; [reflexivity|]. split; [intros v; reflexivity|]. split; [reflexivity|].
      intros i u Hu. destruct i as [|[|i]]; cbn [nth_error Nat.eqb] in *; [| |destruct i; discriminate]; injection Hu as <-.
      * exact P.
      * apply Hz; [lia | exact Sw|]. unfold cell_center. rewrite Hd. repeat constructor.
    + eexists; eexists; split; [reflexivity|]. split; [intros v; reflexivity|]. split; [reflexivity|].
      intros i u Hu. destruct i as [|[|[|i]]]; cbn [nth_error Nat.eqb] in *; [| | |destruct i; discriminate]; injection Hu as <-.
      * exact P.
      * apply Hz; [lia | exact Sw|]. unfold cell_center. rewrite Hd. repeat constructor.
      * apply Hz; [lia | exact Sw|]. unfold cell_center. rewrite Hd. repeat constructor.
Qed.

(* @prop C47 kolmogorov_forcing raises on every grid with fewer than two or more than three dimensions. *)
Lemma kolmogorov_forcing_dimensions_lem : forall g scale k swap, wfg g ->
  ((gndim g < 2)%nat -> kolmogorov_forcing g scale k swap None = Err EIndex) /\
  ((3 < gndim g)%nat -> kolmogorov_forcing g scale k swap None = Err ENotImpl).
Proof.
  intros g scale k swap Hw. split; intros Hd.
  - unfold kolmogorov_forcing. destruct swap.
    + unfold getM at 1. assert (HLf : length (cell_faces g) = gndim g) by (unfold cell_faces; rewrite map_length, seq_length; reflexivity).
      destruct (nth_error (cell_faces g) 1) eqn:E; [|reflexivity]. exfalso. assert (1 < length (cell_faces g))%nat by (apply nth_error_Some; congruence). lia.
    + destruct (gndim g) as [|[|d]] eqn:Eg; [unfold cell_faces; rewrite Eg; reflexivity| |lia].
      rewrite (@face_get g 0) by lia. cbn [bind]. destruct (proj1 (@mesh_points_lem g _ Hw) (@face_len g 0%nat ltac:(lia))) as (m & E & HL & _). rewrite E. cbn [bind].
      unfold getM. destruct (nth_error m 1) eqn:E1; [|reflexivity]. exfalso. assert (1 < length m)%nat by (apply nth_error_Some; congruence). lia.
  - unfold kolmogorov_forcing. destruct swap.
    + rewrite (@face_get g 1) by lia. cbn [bind].
      destruct (@kol_force g scale k 1%nat 0%nat _ Hw ltac:(lia) ltac:(lia) ltac:(lia) eq_refl) as (m & x & w & E1 & E2 & E3 & P). rewrite E1. cbn [bind]. rewrite E2. cbn [bind]. rewrite E3. cbn [bind].
      destruct (gndim g) as [|[|[|[|d]]]]; try lia. reflexivity.
    + rewrite (@face_get g 0) by lia. cbn [bind].
      destruct (@kol_force g scale k 0%nat 1%nat _ Hw ltac:(lia) ltac:(lia) ltac:(lia) eq_refl) as (m & x & w & E1 & E2 & E3 & P). rewrite E1. cbn [bind]. rewrite E2. cbn [bind]. rewrite E3. cbn [bind].
      destruct (gndim g) as [|[|[|[|d]]]]; try lia. reflexivity.
Qed.

Lemma prev_wrap_nth s ix a b : length ix = length s -> (b < length s)%nat -> a <> b -> nth b (wrap s (prev a ix)) 0 = nth b (wrap s ix) 0.
Proof.
  intros HL Hb Hne. unfold prev. rewrite !wrap_nth by (rewrite ?shiftix_length; auto). f_equal. unfold shiftix. rewrite nth_upd_other by auto. reflexivity.
Qed.

(* @prop C47 The Kolmogorov force is discretely divergence free on every periodic 2- or 3-dimensional grid, for every scale, wave number and orientation, and even when the force is not periodic over the domain. *)
Lemma kolmogorov_forcing_divergence_free_lem : forall g scale k swap, wfg g -> gndim g = 2%nat \/ gndim g = 3%nat ->
  exists F f d, kolmogorov_forcing g scale k swap None = Ok F /\ (forall v, F v = Ok f) /\
    divergence (as_periodic g f) = Ok d /\ is_field d g (cell_center g) (fun _ => 0%R).
Proof.
  intros g scale k swap Hw Hd. destruct (@kolmogorov_forcing_spec_lem g scale k swap Hw Hd) as (F & f & E & Hf & HL & V).
  exists F, f. destruct (@as_periodic_vec g f (fun i ix => if (i =? (if swap then 1 else 0))%nat then (scale * sin (k * coord g (cell_center g) (if swap then 0 else 1)%nat ix))%R else 0%R) Hw HL) as (Hp & Ha & Hv).
  { intros i Hi. apply V. apply nth_error_nth'. lia. }
  destruct (@divergence_spec_lem g (cell_center g) (as_periodic g f) ltac:(lia) Hp (repeat_length _ _) Ha) as (d & Ed & Hdv).
  exists d. split; [exact E|]. split; [exact Hf|]. split; [exact Ed|]. eapply prep_ext; [|exact Hdv]. intros ix Hix. cbv beta. pose proof (inb_length _ _ Hix) as HLx.
  apply nsum_zero. intros i Hi. assert (Hpl : length (prev i ix) = gndim g) by (unfold prev; rewrite shiftix_length; exact HLx).
  rewrite !Hv by auto. destruct (Nat.eqb_spec i (if swap then 1 else 0)) as [->|]; [|unfold Rdiv; ring].
  unfold coord. rewrite prev_wrap_nth; [unfold Rdiv; ring | exact HLx | unfold gndim in Hd; destruct swap; lia | destruct swap; lia].
Qed.

(** ** totals *)
Lemma sin_rev_sum n lo h k : sin (k * (lo + INR n * h / 2))%R = 0%R -> rsum n (fun j => sin (k * (lo + (IZR j + 1 / 2) * h)))%R = 0%R.
Proof.
  intros H0. assert (E : forall j, (sin (k * (lo + (IZR j + 1 / 2) * h)) + sin (k * (lo + (IZR (Z.of_nat n - 1 - j) + 1 / 2) * h)) = 0)%R).
  { intros j. rewrite !minus_IZR, <- INR_IZR_INZ. set (M := (k * (lo + INR n * h / 2))%R) in *. set (D := (k * ((IZR j + 1 / 2) - INR n / 2) * h)%R).
    replace (k * (lo + (IZR j + 1 / 2) * h))%R with (M + D)%R by (unfold M, D; field). replace (k * (lo + (INR n - 1 - IZR j + 1 / 2) * h))%R with (M - D)%R by (unfold M, D; field).
    rewrite sin_plus, sin_minus, H0. ring. }
  assert (T : (rsum n (fun j => sin (k * (lo + (IZR j + 1 / 2) * h))) + rsum n (fun j => sin (k * (lo + (IZR j + 1 / 2) * h))) = 0)%R).
  { rewrite (@rsum_rev n (fun j => sin (k * (lo + (IZR j + 1 / 2) * h)))%R) at 2. rewrite <- rsum_plus, <- (rsum_0 n). apply rsum_ext. intros j _. apply E. }
  lra.
Qed.
Lemma asum_axis_zero s a f : (a < length s)%nat -> rsum (nth a s 0%nat) f = 0%R -> asum s (fun ix => f (nth a ix 0)) = 0%R.
Proof.
  intros Ha H. rewrite (asum_axis _ _ Ha). rewrite <- (asum_0 (upd a 1%nat s)). apply asum_ext. intros ix Hix. rewrite <- H. apply rsum_ext. intros i _.
  f_equal. apply nth_upd_same. rewrite (inb_length _ _ Hix), upd_length. exact Ha.
Qed.

(* @prop C47 The Kolmogorov force adds no net momentum (each component sums to zero) whenever sin(k * midpoint) = 0 at the middle of the axis it varies along, for instance for every integer wave number on a domain [0, 2 pi]. *)
Lemma kolmogorov_forcing_total_lem : forall g scale k (swap : bool), wfg g -> gndim g = 2%nat \/ gndim g = 3%nat ->
  (let a := (if swap then 0 else 1)%nat in sin (k * (fst (nth a (gdomain g) (0, 0)) + INR (nth a (gshape g) 0%nat) * hstep g a / 2)) = 0)%R ->
  exists F f, kolmogorov_forcing g scale k swap None = Ok F /\ (forall v, F v = Ok f) /\ forall w, In w f -> total (gdata w) = 0%R.
Proof.
  intros g scale k swap Hw Hd Hs. cbv zeta in Hs. destruct (@kolmogorov_forcing_spec_lem g scale k swap Hw Hd) as (F & f & E & Hf & HL & V).
  exists F, f. split; [exact E|]. split; [exact Hf|]. intros w Hin. destruct (In_nth_error _ _ Hin) as (i & Hi). destruct (V i w Hi) as (_ & _ & Sw & Vw).
  unfold total. rewrite Sw, (@asum_ext _ _ _ Vw). destruct (i =? (if swap then 1 else 0))%nat; [|apply asum_0].
  rewrite asum_scal. set (a := (if swap then 0 else 1)%nat) in *. assert (Ha : (a < length (gshape g))%nat) by (unfold a, gndim in *; destruct swap; lia).
  set (fj := fun j => sin (k * (fst (nth a (gdomain g) (0, 0)) + (IZR j + 1 / 2) * hstep g a))%R).
  rewrite (@asum_ext _ _ (fun ix => fj (nth a ix 0))).
  - rewrite (@asum_axis_zero _ a fj Ha); [ring|]. apply sin_rev_sum. exact Hs.
  - intros ix _. unfold fj. unfold coord, cell_center. rewrite nth_repeat' by exact Ha. do 3 f_equal.
Qed.

(* @prop C47 Custom offsets are not honoured throughout: for collocated offsets kolmogorov_forcing returns a zero component at the staggered position instead of the requested one. *)
Lemma kolmogorov_offsets_honoured_refuted_lem :
  ~ (forall g scale k swap offsets F f, wfg g -> (forall o, In o offsets -> length o = gndim g) -> length offsets = gndim g ->
       kolmogorov_forcing g scale k swap (Some offsets) = Ok F -> F [] = Ok f ->
       forall i w o, nth_error f i = Some w -> nth_error offsets i = Some o -> off_eq (goff w) o).
Proof.
  intros H. set (g := mkgrid [2%nat; 2%nat] [1%R; 1%R] [(0%R, 2%R); (0%R, 2%R)]). set (c := [1 # 2; 1 # 2]%Q).
  assert (Hw : wfg g) by (repeat constructor; (lia || lra)).
  destruct (@mesh_at g c 1%nat Hw eq_refl ltac:(cbn; lia)) as (m & x & E1 & E2 & S & V).
  assert (P : prep g c (fun ix => sin (1 * coord g c 1 ix))%R (mkga (amap (fun y => sin (1 * y))%R x) c g)).
  { split; [reflexivity|]. split; [apply off_eq_refl|]. split; [exact S|]. intros ix _. cbn [gdata amap get]. rewrite V. reflexivity. }
  destruct (prep_scalar_l Rmult 1%R P) as (w & E & _).
  assert (EF : kolmogorov_forcing g 1 1 false (Some [c; c]) = Ok (fun _ => Ok [w; mkga (afull (shp (gdata w)) 0%R) [1 # 2; 1]%Q g])).
  { unfold kolmogorov_forcing. change (getM [c; c] 0) with (Ok c). cbn [bind]. rewrite E1. cbn [bind]. rewrite E2. cbn [bind]. unfold ga_scale. rewrite E. reflexivity. }
  specialize (H g 1%R 1%R false [c; c] _ _ Hw ltac:(intros o [<- | [<- | []]]; reflexivity) eq_refl EF eq_refl 1%nat _ c eq_refl eq_refl).
  cbn [goff] in H. inversion H as [|? ? ? ? _ H1]; subst. inversion H1 as [|? ? ? ? H2 _]; subst. discriminate H2.
Qed.

(* @prop C47 simple_turbulence_forcing rejects unknown names; on every periodic 2- or 3-dimensional staggered velocity the 'kolmogorov' force is linear_coefficient times the velocity plus the Kolmogorov force. *)
Lemma simple_turbulence_kolmogorov_lem : forall g magnitude k lin v, wfg g -> gndim g = 2%nat \/ gndim g = 3%nat -> periodic_vec g v -> face_aligned (cell_center g) v ->
  simple_turbulence_forcing g magnitude k lin FUnknown = Err EValue /\
  exists F l, simple_turbulence_forcing g magnitude k lin FKolmogorov = Ok F /\ F v = Ok l /\
    fields_at g v l (fun i ix => lin * vval v i ix + (if (i =? 0)%nat then magnitude * sin (k * coord g (cell_center g) 1 ix) else 0))%R.
Proof.
  intros g magnitude k lin v Hw Hd Hv Ha. split; [reflexivity|].
  destruct (@kolmogorov_forcing_spec_lem g magnitude k false Hw Hd) as (F & f & E & Hf & HL & V).
  unfold simple_turbulence_forcing. rewrite E. cbn [bind]. eexists.
  destruct (proj2 (elementary_forcings_lem lin Hv)) as (ll & El & Hl).
  destruct (proj2 (@sum_forcings_pointwise_lem g v [linear_forcing lin; F] (fun kk => match kk with O => fun i ix => lin * vval v i ix | _ => fun i ix => if (i =? 0)%nat then magnitude * sin (k * coord g (cell_center g) 1 ix) else 0 end)%R)) as (l & Es & Hs).
  - cbn; lia.
  - intros [|[|kk]] f' Hk; cbn [nth_error] in Hk; [injection Hk as <-; exists ll; auto | | destruct kk; discriminate]. injection Hk as <-. exists f. split; [apply Hf|].
    assert (HLv : length f = length v) by (rewrite HL; symmetry; apply Hv). split; [exact HLv|]. intros i u w Hu Hwi. eapply prep_off; [apply off_eq_sym; exact (Ha i u Hu) | exact (V i w Hwi)].
  - exists l. split; [reflexivity|]. split; [exact Es|]. apply fields_at_intro; [apply Hs|]. intros i Hi. eapply prep_ext; [|exact (fields_at_nth Hs Hi)]. intros ix _. unfold nsum. cbn. ring.
Qed.

(** ** examples *)
(* @ex *)
Lemma elementary_forcings_ex_lem : periodic_vec p34g p34v /\ momentum p34v 1 = 9%R.
Proof. split; [exact (proj1 p34_pv)|]. unfold momentum, total. cbn. lra. Qed.
(* @ex *)
Lemma sum_forcings_pointwise_ex_lem : exists Fs : nat -> nat -> list Z -> R, (0 < length [no_forcing; linear_forcing 2])%nat /\
  (forall k f, nth_error [no_forcing; linear_forcing 2] k = Some f -> exists l, f p34v = Ok l /\ fields_at p34g p34v l (Fs k)).
Proof.
  exists (fun k i ix => match k with O => 0 | _ => 2 * vval p34v i ix end)%R. split; [cbn; lia|]. destruct (elementary_forcings_lem 2 (proj1 p34_pv)) as (A & B).
  intros [|[|k]] f Hk; cbn [nth_error] in Hk; [injection Hk as <-; exact A | injection Hk as <-; exact B | destruct k; discriminate].
Qed.
(* @ex *)
Lemma kolmogorov_forcing_spec_ex_lem : wfg p34g /\ gndim p34g = 2%nat /\ coord p34g (cell_center p34g) 1 [0; 1] = (3 / 4)%R.
Proof. split; [exact p34_wfg|]. split; [reflexivity|]. unfold coord, hstep, Q2R; cbn. lra. Qed.
(* @ex *)
Lemma kolmogorov_forcing_dimensions_ex_lem : wfg (mkgrid [2%nat] [1%R] [(0%R, 2%R)]) /\ (gndim (mkgrid [2%nat] [1%R] [(0%R, 2%R)]) < 2)%nat /\
  wfg (mkgrid [2; 2; 1; 3]%nat [1; 1; 1; 1]%R (repeat (0, 2)%R 4)) /\ (3 < gndim (mkgrid [2; 2; 1; 3]%nat [1; 1; 1; 1]%R (repeat (0, 2)%R 4)))%nat.
Proof. split; [repeat constructor; (lia || lra)|]. split; [cbn; lia|]. split; [repeat constructor; (lia || lra) | cbn; lia]. Qed.
(* @ex *)
Lemma kolmogorov_forcing_divergence_free_ex_lem : let g := mkgrid [3; 4; 2]%nat [1; 2; 3]%R [(0, 3); (1, 9); (0, 6)]%R in wfg g /\ gndim g = 3%nat.
Proof. split; [repeat constructor; (lia || lra) | reflexivity]. Qed.
(* @ex *)
Lemma kolmogorov_forcing_total_ex_lem : let g := mkgrid [3; 4]%nat [1; PI / 2]%R [(0, 3); (0, 2 * PI)]%R in wfg g /\ gndim g = 2%nat /\
  (sin (3 * (fst (nth 1 (gdomain g) (0, 0)) + INR (nth 1 (gshape g) 0%nat) * hstep g 1 / 2)) = 0)%R.
Proof.
  cbv zeta. pose proof PI_RGT_0. split; [repeat constructor; (lia || lra)|]. split; [reflexivity|]. unfold hstep. cbn [gdomain gshape gstep nth fst]. 
  replace (3 * (0 + INR 4 * (PI / 2) / 2))%R with (IZR 3 * PI)%R by (simpl; field). apply sin_eq_0_1. exists 3. reflexivity.
Qed.
(* @ex *)
Lemma simple_turbulence_kolmogorov_ex_lem : wfg p34g /\ gndim p34g = 2%nat /\ periodic_vec p34g p34v /\ face_aligned (cell_center p34g) p34v.
Proof. split; [exact p34_wfg|]. split; [reflexivity|]. split; [exact (proj1 p34_pv) | exact (proj1 (proj2 (proj2 p34_pv)))]. Qed.
