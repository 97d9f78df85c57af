(** * C48: dissipation, the Smagorinsky viscosity, and the steppers built on it *)
From Verif Require Import Prelude NdArr Grids_model Spec Boundaries_model FD_model PRep FDProofs FDProps Pressure_model Interp_model InterpProofs InterpProps Advection_model AdvectionProps Diffusion_model PressureProps FastDiag_model PressureSolve_model PressureSolveProps QRProps TimeStep_model Equations_model SpecNS EquationsProps EquationsMoreProps Forcings_model ForcingsProps Subgrid_model SpecSub SubgridProps.
Set Implicit Arguments.
Local Open Scope Z_scope.

Lemma work_fields g v l A : length v = gndim g -> fields_at g v l A ->
  work g v l = nsum (gndim g) (fun i => asum (gshape g) (fun ix => vval v i ix * A i ix)%R).
Proof.
  intros HL H. unfold work. apply nsum_ext. intros i Hi. assert (Hi' : (i < length v)%nat) by lia. destruct (fields_at_nth H Hi') as (_ & _ & S & V).
  rewrite (nth_error_nth' l dga) by (rewrite (proj1 H); lia). apply asum_ext. intros ix Hix. rewrite (V ix Hix). reflexivity.
Qed.

(* @prop C48 Eddy viscosity only dissipates: with a viscosity tensor symmetric in its two indices, the work done on the flow by the acceleration is exactly minus twice the sum over cells and index pairs of viscosity times squared strain rate, hence never positive where the viscosity is nonnegative. *)
Lemma evm_dissipation_lem : forall g o v N viscosity_fn, (0 < gndim g)%nat -> length o = gndim g -> periodic_vec g v -> face_aligned o v ->
  (forall s, tensor_at g o s (strain g v) -> exists m, viscosity_fn s v = Ok m /\ tensor_at g o m N) ->
  (forall i j ix, (i < gndim g)%nat -> (j < gndim g)%nat -> inb (gshape g) ix -> N i j ix = N j i ix) ->
  exists l, evm_model viscosity_fn v = Ok l /\
    work g v l = (- 2 * nsum (gndim g) (fun i => nsum (gndim g) (fun j => asum (gshape g) (fun ix => N i j ix * strain g v i j ix ^ 2))))%R /\
    ((forall i j ix, (i < gndim g)%nat -> (j < gndim g)%nat -> inb (gshape g) ix -> (0 <= N i j ix)%R) -> (work g v l <= 0)%R).
Proof.
  intros g o v N viscosity_fn Hd Ho Hv Hf HN Hsym. destruct (@evm_calc g o v _ _ Hd Ho Hv Hf HN) as (l & E & H). exists l. split; [exact E|].
  pose proof (periodic_vec_wfg Hd Hv) as Hw. assert (Hp : allpos (gshape g)) by apply Hw.
  assert (W : work g v l = (- 2 * nsum (gndim g) (fun i => nsum (gndim g) (fun j => asum (gshape g) (fun ix => N i j ix * strain g v i j ix ^ 2))))%R).
  { rewrite (@work_fields g v l _ (proj1 Hv) H).
    set (P := fun i j => asum (gshape g) (fun ix => 2 * N i j ix * strain g v i j ix * fdF g j (vval v i) ix)%R).
    transitivity (nsum (gndim g) (fun i => - nsum (gndim g) (fun j => P i j)))%R.
    - apply nsum_ext. intros i Hi. unfold evmF. rewrite (@sbp g (vval v i) (fun j jx => 2 * wrapped g (N i j) jx * strain g v i j jx)%R Hp (periodic_vval Hv Hi)).
      + f_equal. apply nsum_ext. intros j Hj. unfold P. apply asum_ext. intros ix Hix. unfold wrapped. rewrite wrap_inb by exact Hix. ring.
      + intros j Hj. apply periodic_mult; [|apply strain_periodic; auto]. intros ix Hix. pose proof (@wrapped_periodic g (N i j) Hp ix Hix) as E2. rewrite E2. reflexivity.
    - rewrite nsum_opp. set (X := nsum (gndim g) (fun i => nsum (gndim g) (fun j => P i j))).
      set (Y := nsum (gndim g) (fun i => nsum (gndim g) (fun j => asum (gshape g) (fun ix => N i j ix * strain g v i j ix ^ 2)%R))).
      assert (EX : (X + X = 4 * Y)%R); [|lra].
      unfold X at 2. rewrite nsum_swap. unfold X, Y. rewrite <- nsum_plus, <- nsum_scal. apply nsum_ext. intros i Hi. rewrite <- nsum_plus, <- nsum_scal. apply nsum_ext. intros j Hj.
      unfold P. rewrite <- asum_plus, <- asum_scal. apply asum_ext. intros ix Hix. rewrite (Hsym j i ix Hj Hi Hix), (strain_sym g v j i), (strain_fd g v i j). field. }
  split; [exact W|]. intros Hpos. rewrite W.
  assert (0 <= nsum (gndim g) (fun i => nsum (gndim g) (fun j => asum (gshape g) (fun ix => N i j ix * strain g v i j ix ^ 2))))%R; [|lra].
  apply nsum_nonneg. intros i Hi. apply nsum_nonneg. intros j Hj. apply asum_nonneg. intros ix Hix. apply Rmult_le_pos; [apply Hpos; auto | apply pow2_ge_0].
Qed.

(** ** Smagorinsky viscosity *)
Lemma lerp_ext (s : list nat) n o o' F G : (forall ix, length ix = length s -> F ix = G ix) -> forall ix, length ix = length s -> lerp n o o' F ix = lerp n o o' G ix.
Proof. intros H. induction n as [|n IH]; cbn [lerp]; [exact H|]. apply lerp_axis_ext; exact IH. Qed.
Lemma lerp_src s n o p o' F : off_eq o p -> forall ix, length ix = length (s : list nat) -> lerp n o o' F ix = lerp n p o' F ix.
Proof.
  intros H. induction n as [|n IH]; intros ix HL; [reflexivity|]. cbn [lerp]. rewrite (@lerp_axis_comp n _ (nth n o' 0 - nth n p 0)%Q) by (rewrite (off_eq_nth n H); reflexivity).
  apply (@lerp_axis_ext s); auto.
Qed.
Lemma prep_wrap_interp g o p F c : wfg g -> length o = gndim g -> length p = gndim g -> periodic (gshape g) F -> prep g o F c ->
  exists w, (let* u := mk_gvar c (periodic_bc (gndim g)) in let* w := linear_interp u p in Ok (garray w)) = Ok w /\ prep g p (lerp (gndim g) o p F) w.
Proof.
  intros Hw Ho Hp HF P. pose proof P as (A & B & S & V). unfold mk_gvar. rewrite A. change (btypes (periodic_bc (gndim g))) with (repeat (Periodic, Periodic) (gndim g)). rewrite repeat_length, Nat.eqb_refl. cbn [bind].
  assert (Hpf : periodic_field (mkgv c (periodic_bc (gndim g)))).
  { split; cbn [garray gbc]; [|rewrite A; reflexivity]. split; [rewrite A; exact Hw|]. split; [rewrite A; exact S|]. rewrite A, (off_eq_length B). exact Ho. }
  destruct (@linear_interpolation_spec_lem (mkgv c (periodic_bc (gndim g))) p Hpf) as (w & Ew & _ & Pw); [cbn [garray]; rewrite A; exact Hp|].
  rewrite Ew. cbn [bind]. eexists; split; [reflexivity|]. cbn [garray] in Pw. rewrite A in Pw. eapply prep_ext; [|exact Pw]. intros ix Hix. pose proof (inb_length _ _ Hix) as HL.
  rewrite (@lerp_src (gshape g) _ _ o p _ B ix HL). apply (@lerp_ext (gshape g)); [|exact HL]. intros jx HLj. apply (@pval_prep g o F c jx); auto. apply Hw.
Qed.
Lemma obj_sum_prep g o : forall l F, (0 < length l)%nat -> (forall k, (k < length l)%nat -> prep g o (F k) (nth k l dga)) ->
  exists w, obj_sum l = Ok w /\ prep g o (fun ix => nsum (length l) (fun k => F k ix)) w.
Proof.
  intros l F Hl H. destruct l as [|a r]; [simpl in Hl; lia|]. unfold obj_sum.
  assert (Hgen : forall r' st acc G, (forall k, (k < length r')%nat -> prep g o (F (st + k)%nat) (nth k r' dga)) -> prep g o G acc ->
    exists w, foldM ga_add acc r' = Ok w /\ prep g o (fun ix => G ix + lsum (map (fun k => F k ix) (seq st (length r'))))%R w).
  { induction r' as [|x r' IH]; intros st acc G Hk Ha.
    - exists acc. split; [reflexivity|]. eapply prep_ext; [|exact Ha]. intros ix _. simpl. ring.
    - pose proof (Hk 0%nat ltac:(simpl; lia)) as P0. cbn [nth] in P0. rewrite Nat.add_0_r in P0. destruct (prep_op2 Rplus Ha P0) as (s & Es & Ps). cbn [foldM]. unfold ga_add at 1. rewrite Es. cbn [bind].
      destruct (IH (S st) s (fun ix => G ix + F st ix)%R) as (w & Ew & Pw).
      + intros k Hk'. specialize (Hk (S k) ltac:(simpl; lia)). cbn [nth] in Hk. rewrite Nat.add_succ_r in Hk. exact Hk.
      + exact Ps.
      + exists w. split; [exact Ew|]. eapply prep_ext; [|exact Pw]. intros ix _. simpl. ring. }
  destruct (Hgen r 1%nat a (F 0%nat)) as (w & Ew & Pw).
  - intros k Hk. apply (H (S k)). simpl; lia.
  - apply (H 0%nat). simpl; lia.
  - exists w. split; [exact Ew|]. eapply prep_ext; [|exact Pw]. intros ix _. unfold nsum. simpl. ring.
Qed.
Lemma tensor_map g o (f : garr -> result garr) (p : nat -> nat -> list Q) T F G : (0 < gndim g)%nat -> tensor_at g o T F ->
  (forall i j w, (i < gndim g)%nat -> (j < gndim g)%nat -> prep g (offs j (1 # 2) (offs i (1 # 2) o)) (F i j) w -> exists w', f w = Ok w' /\ prep g (p i j) (G i j) w') ->
  exists T', mapM (mapM f) T = Ok T' /\ length T' = gndim g /\ forall i j, (i < gndim g)%nat -> (j < gndim g)%nat -> length (nth i T' []) = gndim g /\ prep g (p i j) (G i j) (nth j (nth i T' []) dga).
Proof.
  intros Hd HT Hf. assert (LT : length T = gndim g) by apply HT.
  destruct (@mapM_enum (list garr) (list garr) (fun ia => mapM f (snd ia)) (fun i row => length row = gndim g /\ forall j, (j < gndim g)%nat -> prep g (p i j) (G i j) (nth j row dga)) T []) as (T' & E & L & P).
  { intros i Hi. rewrite LT in Hi. cbn [snd]. destruct (tensor_nth HT Hi Hd) as (Lr & _).
    destruct (@mapM_enum garr garr (fun ja => f (snd ja)) (fun j w => prep g (p i j) (G i j) w) (nth i T []) dga) as (row & E & L & P).
    - intros j Hj. rewrite Lr in Hj. cbn [snd]. apply (Hf i j); auto. exact (proj2 (tensor_nth HT Hi Hj)).
    - rewrite (mapM_enum_snd f (nth i T [])) in E. exists row. split; [exact E|]. split; [lia|]. intros j Hj. apply P. lia. }
  rewrite (mapM_enum_snd (mapM f) T) in E. exists T'. split; [exact E|]. split; [lia|]. intros i j Hi Hj. destruct (P i [] ltac:(lia)) as (A & B). split; [exact A | apply B; exact Hj].
Qed.
Lemma centred_sym g o v i j : forall ix, length ix = gndim g -> centred_strain g o v i j ix = centred_strain g o v j i ix.
Proof.
  intros ix HL. unfold centred_strain. rewrite (@lerp_src (gshape g) _ _ (offs i (1 # 2) (offs j (1 # 2) o)) _ _ (offs_comm _ _ _ _ _) ix HL).
  apply (@lerp_ext (gshape g)); [|exact HL]. intros jx _. apply strain_sym.
Qed.
Lemma centred_periodic g o v i j : periodic_vec g v -> (i < gndim g)%nat -> (j < gndim g)%nat -> periodic (gshape g) (centred_strain g o v i j).
Proof. intros Hv Hi Hj. apply lerp_periodic. apply strain_periodic; auto. Qed.
Lemma size_periodic g o v : periodic_vec g v -> periodic (gshape g) (strain_size g o v).
Proof.
  intros Hv ix HL. unfold strain_size. do 2 f_equal. apply nsum_ext. intros i Hi. apply nsum_ext. intros j Hj. rewrite (@centred_periodic g o v i j Hv Hi Hj ix HL). reflexivity.
Qed.
Lemma unique_bc_same v b : (0 < length v)%nat -> (forall u, In u v -> gbc u = b) -> unique_boundary_conditions v = Ok b.
Proof.
  intros Hl H. destruct v as [|u r]; [simpl in Hl; lia|]. cbn [unique_boundary_conditions]. rewrite (H u (or_introl eq_refl)).
  replace (forallb _ r) with true; [reflexivity|]. symmetry. apply forallb_forall. intros w Hw. rewrite (H w (or_intror Hw)). destruct (bcs_eq_dec b b); [reflexivity | congruence].
Qed.

(* @prop C48 smagorinsky_viscosity with linear interpolation, on the strain rate of a staggered periodic velocity whose components have the same boundary conditions: succeeds and returns, at the place of each entry of the strain-rate tensor, (cs * delta)^2 * sqrt(2 S:S) interpolated linearly from the cell centres, where S is the strain rate interpolated linearly to the cell centres and delta the geometric mean of the cell widths; the values are nonnegative and the tensor is symmetric. *)
Lemma smagorinsky_viscosity_spec_lem : forall g o cs v b s, (0 < gndim g)%nat -> length o = gndim g -> periodic_vec g v -> (forall u, In u v -> gbc u = b) ->
  tensor_at g o s (strain g v) ->
  (exists m, smagorinsky_viscosity linear_fn cs s v = Ok m /\ tensor_at g o m (eddy_viscosity g o cs v)) /\
  (forall i j ix, length ix = gndim g -> (0 <= eddy_viscosity g o cs v i j ix)%R) /\
  (forall i j ix, length ix = gndim g -> eddy_viscosity g o cs v i j ix = eddy_viscosity g o cs v j i ix).
Proof.
  intros g o cs v b s Hd Ho Hv Hb Hs. pose proof (periodic_vec_wfg Hd Hv) as Hw. assert (HLv : length v = gndim g) by apply Hv. split; [|split].
  - unfold smagorinsky_viscosity. rewrite (pvec_all_periodic Hv). cbn [negb]. rewrite (@unique_bc_same v b) by (lia || auto). cbn [bind].
    rewrite (@consistent_grid_all g).
    2:{ rewrite app_length, map_length. lia. }
    2:{ intros u Hu. apply in_app_or in Hu. destruct Hu as [Hu|Hu].
        - apply in_concat in Hu. destruct Hu as (row & Hr & Hu). destruct (In_nth_error _ _ Hr) as (i & Hi). destruct (In_nth_error _ _ Hu) as (j & Hj).
          destruct (proj2 Hs i row Hi) as (_ & H). apply (H j u Hj).
        - apply in_map_iff in Hu. destruct Hu as (w & <- & Hwi). destruct Hv as (_ & HF). rewrite Forall_forall in HF. apply HF. exact Hwi. }
    cbn [bind]. set (wrapped_interp := fun c p => let* u := mk_gvar c (periodic_bc (gndim g)) in let* w := linear_fn u p v in Ok (garray w)).
    destruct (@tensor_map g o (fun x => wrapped_interp x (cell_center g)) (fun _ _ => cell_center g) s (strain g v) (centred_strain g o v) Hd Hs) as (ce & Ec & Lc & Pc).
    { intros i j w Hi Hj P. apply (@prep_wrap_interp g _ (cell_center g) (strain g v i j) w Hw); auto; [rewrite !offs_length; exact Ho | apply repeat_length | apply strain_periodic; auto]. }
    unfold wrapped_interp in Ec. cbv beta in Ec. rewrite Ec. cbn [bind]. rewrite Lc.
    destruct (@mapM_seq garr (fun i => let* products := mapM (fun k => let* a := (let* row := getM ce i in getM row k) in let* b0 := (let* row := getM ce k in getM row i) in ga_mul a b0) (seq 0 (gndim g)) in obj_sum products)
      (fun i w => prep g (cell_center g) (fun ix => nsum (gndim g) (fun k => centred_strain g o v i k ix ^ 2))%R w) (gndim g)) as (di & Ed & Ld & Pd).
    { intros i Hi. destruct (@mapM_seq garr (fun k => let* a := (let* row := getM ce i in getM row k) in let* b0 := (let* row := getM ce k in getM row i) in ga_mul a b0)
        (fun k w => prep g (cell_center g) (fun ix => centred_strain g o v i k ix ^ 2)%R w) (gndim g)) as (pr & Ep & Lp & Pp).
      - intros k Hk. destruct (Pc i k Hi Hk) as (L1 & P1). destruct (Pc k i Hk Hi) as (L2 & P2). unfold getM. rewrite !(nth_error_nth' ce []) by lia. cbn [bind]. rewrite (nth_error_nth' (nth i ce []) dga), (nth_error_nth' (nth k ce []) dga) by lia. cbn [bind].
        destruct (prep_op2 Rmult P1 P2) as (w & Ew & Pw). exists w. split; [exact Ew|]. eapply prep_ext; [|exact Pw]. intros ix Hix. cbv beta. rewrite (@centred_sym g o v k i ix (inb_length _ _ Hix)). ring.
      - rewrite Ep. cbn [bind]. destruct (@obj_sum_prep g (cell_center g) pr (fun k ix => centred_strain g o v i k ix ^ 2)%R) as (w & Ew & Pw); [lia | intros k Hk; apply Pp; lia|].
        exists w. split; [exact Ew|]. rewrite Lp in Pw. exact Pw. }
    rewrite Ed. cbn [bind].
    destruct (@obj_sum_prep g (cell_center g) di (fun i ix => nsum (gndim g) (fun k => centred_strain g o v i k ix ^ 2))%R) as (tr & Et & Pt); [lia | intros k Hk; apply Pd; lia|]. rewrite Et, Ld in *. cbn [bind].
    destruct (prep_scalar_l Rmult 2 Pt) as (t2 & Et2 & Pt2). unfold ga_scale at 1. rewrite Et2. cbn [bind].
    assert (Hroot : exists r, array_ufunc (raw1 sqrt) [OGA t2] = Ok r /\ prep g (cell_center g) (strain_size g o v) r).
    { destruct Pt2 as (A1 & B1 & C1 & D1). unfold array_ufunc. simpl. eexists; split; [reflexivity|]. repeat split; simpl; auto. intros ix Hi. rewrite D1; auto. }
    destruct Hroot as (r & Er & Pr). rewrite Er. cbn [bind]. destruct (prep_scalar_l Rmult ((cs * mean_step g) ^ 2) Pr) as (nu & En & Pn). unfold ga_scale. fold (mean_step g). rewrite En. cbn [bind].
    assert (Hper : periodic (gshape g) (fun ix => (cs * mean_step g) ^ 2 * strain_size g o v ix)%R) by (intros ix HL; pose proof (@size_periodic g o v Hv ix HL) as E; rewrite E; reflexivity).
    destruct (@tensor_map g o (fun s0 => let* w := wrapped_interp nu (goff s0) in Ok (mkga (gdata w) (goff s0) (ggrid s0))) (fun i j => offs j (1 # 2) (offs i (1 # 2) o)) s (strain g v) (eddy_viscosity g o cs v) Hd Hs) as (m & Em & Lm & Pm).
    { intros i j w Hi Hj (W1 & W2 & W3 & W4). pose proof (off_eq_length W2) as Lo. rewrite !offs_length, Ho in Lo.
      destruct (@prep_wrap_interp g (cell_center g) (goff w) _ nu Hw (repeat_length _ _) Lo Hper Pn) as (x & Ex & (X1 & X2 & X3 & X4)).
      unfold wrapped_interp, linear_fn. rewrite Ex. cbn [bind]. eexists; split; [reflexivity|]. split; [exact W1|]. split; [exact W2|]. split; [exact X3|]. intros ix Hix. cbn [gdata]. rewrite (X4 ix Hix).
      unfold eddy_viscosity. apply (@lerp_off_eq (gshape g)); [exact W2 | exact (inb_length _ _ Hix)]. }
    unfold wrapped_interp in Em. cbv beta in Em. exists m. split; [exact Em|]. apply tensor_intro; [exact Lm|]. intros i Hi. split; [apply (Pm i i Hi Hi)|]. intros j Hj. apply (Pm i j Hi Hj).
  - intros i j ix HL. unfold eddy_viscosity. 
    assert (H : forall F, (forall jx, length jx = length (gshape g) -> (0 <= F jx)%R) -> forall n p q jx, length jx = length (gshape g) -> (0 <= lerp n p q F jx)%R).
    { intros F HF. induction n as [|n IH]; intros p q jx HLj; [apply HF; exact HLj|]. cbn [lerp]. unfold lerp_axis. set (d := (nth n q 0 - nth n p 0)%Q).
      assert (Hfr : (0 <= Q2R (d - inject_Z (Qfloor d)) < 1)%R) by apply frac_range.
      pose proof (IH p q (shiftix n (Qfloor d) jx) ltac:(rewrite shiftix_length; exact HLj)). pose proof (IH p q (shiftix n (Qfloor d + 1) jx) ltac:(rewrite shiftix_length; exact HLj)).
      apply Rplus_le_le_0_compat; apply Rmult_le_pos; lra. }
    apply H; [|exact HL]. intros jx _. apply Rmult_le_pos; [apply pow2_ge_0 | apply sqrt_pos].
  - intros i j ix HL. unfold eddy_viscosity. apply (@lerp_off_eq (gshape g)); [apply offs_comm | exact HL].
Qed.

(* @prop C48 The Smagorinsky viscosity is only defined on periodic domains with one set of boundary conditions: a velocity with a component that is not periodic on some axis raises ValueError, and a periodic velocity whose components have different boundary conditions raises InconsistentBoundaryConditionsError, whatever the interpolation. *)
Lemma smagorinsky_rejects_lem : forall interp cs s v,
  ((exists u a, In u v /\ (a < gndim (ggrid (garray u)))%nat /\ fst (btype (gbc u) a) <> Periodic) -> smagorinsky_viscosity interp cs s v = Err EValue) /\
  ((forall u a, In u v -> (a < gndim (ggrid (garray u)))%nat -> fst (btype (gbc u) a) = Periodic) -> (exists u w, In u v /\ In w v /\ gbc u <> gbc w) ->
     smagorinsky_viscosity interp cs s v = Err EBC).
Proof.
  intros interp cs s v. split.
  - intros (u & a & Hu & Ha & Hb). unfold smagorinsky_viscosity. replace (has_all_periodic v) with false; [reflexivity|]. symmetry. apply not_true_is_false. intros H.
    unfold has_all_periodic in H. rewrite forallb_forall in H. specialize (H u Hu). rewrite forallb_forall in H. specialize (H a). unfold is_periodic_bc in H. apply Hb.
    assert (Hin : In a (seq 0 (gndim (ggrid (garray u))))) by (apply in_seq; lia). specialize (H Hin). destruct (fst (btype (gbc u) a)); cbn in H; congruence.
  - intros Hp (u & w & Hu & Hw & Hne). unfold smagorinsky_viscosity. replace (has_all_periodic v) with true.
    2:{ symmetry. unfold has_all_periodic. apply forallb_forall. intros x Hx. apply forallb_forall. intros a Ha. apply in_seq in Ha. unfold is_periodic_bc. rewrite (Hp x a Hx (proj2 Ha)). reflexivity. }
    cbn [negb]. destruct v as [|x r]; [destruct Hu|]. cbn [unique_boundary_conditions].
    replace (forallb _ r) with false; [reflexivity|]. symmetry. apply not_true_is_false. intros H. rewrite forallb_forall in H.
    assert (A : forall z, In z (x :: r) -> gbc z = gbc x).
    { intros z [->|Hz]; [reflexivity|]. specialize (H z Hz). destruct (bcs_eq_dec (gbc x) (gbc z)); [congruence | discriminate]. }
    apply Hne. rewrite (A u Hu), (A w Hw). reflexivity.
Qed.

Lemma smag_calc g o cs v b : (0 < gndim g)%nat -> length o = gndim g -> periodic_vec g v -> face_aligned o v -> (forall u, In u v -> gbc u = b) ->
  forall s, tensor_at g o s (strain g v) -> exists m, smagorinsky_viscosity linear_fn cs s v = Ok m /\ tensor_at g o m (eddy_viscosity g o cs v).
Proof. intros Hd Ho Hv Hf Hb s Hs. apply (@smagorinsky_viscosity_spec_lem g o cs v b s Hd Ho Hv Hb Hs). Qed.

(* @prop C48 The Smagorinsky acceleration of any staggered periodic velocity (components with equal boundary conditions) exists, adds no momentum to any component, and takes energy out: its work on the flow is -2 * sum of viscosity * strain^2 <= 0. *)
Lemma smagorinsky_dissipates_lem : forall g o cs v b, (0 < gndim g)%nat -> length o = gndim g -> periodic_vec g v -> face_aligned o v -> (forall u, In u v -> gbc u = b) ->
  exists l, evm_model (smagorinsky_viscosity linear_fn cs) v = Ok l /\ length l = gndim g /\ (forall w, In w l -> total (gdata w) = 0%R) /\
    work g v l = (- 2 * nsum (gndim g) (fun i => nsum (gndim g) (fun j => asum (gshape g) (fun ix => eddy_viscosity g o cs v i j ix * strain g v i j ix ^ 2))))%R /\
    (work g v l <= 0)%R.
Proof.
  intros g o cs v b Hd Ho Hv Hf Hb. pose proof (@smag_calc g o cs v b Hd Ho Hv Hf Hb) as HN. pose proof (periodic_vec_wfg Hd Hv) as Hw.
  destruct (@strain_tensor g o v Hd Ho Hv Hf) as (s & _ & Hs). destruct (@smagorinsky_viscosity_spec_lem g o cs v b s Hd Ho Hv Hb Hs) as (_ & Hpos & Hsym).
  destruct (@evm_model_momentum_lem g o v _ _ Hd Ho Hv Hf HN) as (l & E & HL & Hm).
  destruct (@evm_dissipation_lem g o v _ _ Hd Ho Hv Hf HN) as (l' & E' & W & Hneg).
  { intros i j ix _ _ Hix. apply Hsym. exact (inb_length _ _ Hix). }
  rewrite E in E'. injection E' as <-. exists l. split; [exact E|]. split; [exact HL|]. split; [exact Hm|]. split; [exact W|]. apply Hneg. intros i j ix _ _ Hix. apply Hpos. exact (inb_length _ _ Hix).
Qed.

(** ** time steps *)
Lemma pv_same g o b v : periodic_velocity g o (repeat b (gndim g)) v -> forall u, In u v -> gbc u = b.
Proof.
  intros (Hv & _ & _ & Hb) u Hu. apply (in_map gbc) in Hu. rewrite Hb in Hu. exact (repeat_spec _ _ _ Hu).
Qed.
Lemma smag_fields g o cs b w : (0 < gndim g)%nat -> length o = gndim g -> periodic_velocity g o (repeat b (gndim g)) w ->
  exists l, evm_model (smagorinsky_viscosity linear_fn cs) w = Ok l /\ fields_at g w l (evmF g w (eddy_viscosity g o cs w)).
Proof.
  intros Hd Ho Hw. pose proof (@pv_same g o b w Hw) as Hs. destruct Hw as (Hv & _ & Hf & _). exact (@evm_calc g o w _ _ Hd Ho Hv Hf (@smag_calc g o cs w b Hd Ho Hv Hf Hs)).
Qed.

(* @prop C48 One step of explicit_smagorinsky_navier_stokes, for every explicit Runge-Kutta tableau, density, viscosity, Smagorinsky constant and time step and for every staggered periodic velocity with one set of boundary conditions: it succeeds; without other forcing it conserves the total of every velocity component, whatever fields the pressure solver returns; and if the pressure solver solves its Poisson equation the result has zero divergence in every cell, with or without other forcing. *)
Lemma explicit_smagorinsky_step_lem : forall t g o b density viscosity dt cs solve forcing v,
  (0 < gndim g)%nat -> length o = gndim g -> explicit_tableau t -> (viscosity <> None -> density <> 0%R) -> pressure_solver g o solve ->
  periodic_velocity g o (repeat b (gndim g)) v ->
  (forall f w, forcing = Some f -> periodic_velocity g o (repeat b (gndim g)) w -> exists lf Fo, f w = Ok lf /\ fields_at g w lf Fo) ->
  (forcing = None -> exists v', explicit_smagorinsky_navier_stokes t density viscosity dt cs (default_convect dt) diffuse solve forcing v = Ok v' /\
     periodic_velocity g o (repeat b (gndim g)) v' /\ forall i, momentum v' i = momentum v i) /\
  (solves_poisson g o solve -> exists v' d, explicit_smagorinsky_navier_stokes t density viscosity dt cs (default_convect dt) diffuse solve forcing v = Ok v' /\
     periodic_velocity g o (repeat b (gndim g)) v' /\ divergence v' = Ok d /\ is_field d g o (fun _ => 0%R)).
Proof.
  intros t g o b density viscosity dt cs solve forcing v Hd Ho Ht Hden Hs Hv HF. split.
  - intros ->. unfold explicit_smagorinsky_navier_stokes. cbv zeta iota. unfold semi_implicit_navier_stokes. set (f := evm_model (smagorinsky_viscosity linear_fn cs)).
    destruct (@vel_rk_pv g o (repeat b (gndim g)) Hd Ho 1 t (navier_stokes_explicit_terms density viscosity (default_convect dt) diffuse (Some f)) (projection solve) dt v Ht) as (u & E & Hu & Hm).
    + intros w Hw. destruct (@explicit_default g o _ density viscosity (Some f) dt w Hd Ho Hw Hden) as (l & El & Hl & Hml).
      { intros f' Ef. injection Ef as <-. destruct (@smag_fields g o cs b w Hd Ho Hw) as (lf & Elf & Hlf). exists lf, (evmF g w (eddy_viscosity g o cs w)). auto. }
      exists l. split; [exact El|]. split; [exact Hl|]. intros i. destruct (Nat.lt_ge_cases i (gndim g)) as [Hi|Hi].
      * rewrite (Hml i Hi). destruct Hw as (Hvw & Hh & Hfw & Hbw). destruct (@smagorinsky_dissipates_lem g o cs w b Hd Ho Hvw Hfw) as (lf & Elf & HL & Hz & _).
        { intros x Hx. apply (@pv_same g o b w); [repeat split; auto; apply Hvw | exact Hx]. }
        fold f in Elf. rewrite Elf. rewrite Hz by (apply nth_In; lia). unfold Rdiv. ring.
      * rewrite momentum_out by (rewrite (pv_len Hl); exact Hi). ring.
    + intros w Hw. destruct (@projection_pv g o _ Hd Ho solve w Hw Hs) as (w' & Ew & Hw' & _). eauto.
    + exact Hv.
    + rewrite E. destruct (@projection_pv g o _ Hd Ho solve u Hu Hs) as (w' & Ew & Hw' & Hmw). exists w'. split; [exact Ew|]. split; [exact Hw'|].
      intros i. rewrite Hmw. specialize (Hm i). lra.
  - intros Hsol. unfold explicit_smagorinsky_navier_stokes. cbv zeta.
    apply (@semi_implicit_divergence_free_lem t g o (repeat b (gndim g)) density viscosity dt solve _ v Hd Ho Ht Hden Hsol Hv).
    intros f w Ef Hw. destruct (@smag_fields g o cs b w Hd Ho Hw) as (lf & Elf & Hlf). destruct forcing as [f0|]; injection Ef as <-.
    + destruct (HF f0 w eq_refl Hw) as (l0 & F0 & E0 & H0).
      destruct (proj2 (@sum_forcings_pointwise_lem g w [f0; evm_model (smagorinsky_viscosity linear_fn cs)] (fun k => match k with O => F0 | _ => evmF g w (eddy_viscosity g o cs w) end))) as (l & El & Hl).
      * simpl; lia.
      * intros [|[|k]] f Hf; cbn in Hf; try (destruct k; discriminate); injection Hf as <-; eauto.
      * eauto.
    + eauto.
Qed.

(** ** implicit solve *)
Lemma evm_op_calc g o b nu dt model w A : (0 < gndim g)%nat -> length o = gndim g -> periodic_velocity g o (repeat b (gndim g)) w ->
  (exists l, model w = Ok l /\ fields_at g w l A) ->
  exists y, evm_linear_op b nu dt model (map garray w) = Ok y /\ fields_at g w y (fun i ix => vval w i ix - dt * (A i ix + nu * lapF g (vval w i) ix))%R.
Proof.
  intros Hd Ho Hw (l & El & Hl). pose proof (pv_len Hw) as HL. pose proof (pv_wfg Hd Hw) as Hg. unfold evm_linear_op.
  assert (Emk : mapM (fun u => mk_gvar u b) (map garray w) = Ok w).
  { pose proof (@pv_same g o b w Hw) as Hb. destruct Hw as ((_ & HF) & _). clear HL El Hl. induction w as [|u w IH]; [reflexivity|]. cbn [map mapM]. inversion HF; subst.
    assert (Eu : mk_gvar (garray u) b = Ok u).
    { unfold mk_gvar. rewrite <- (Hb u (or_introl eq_refl)). destruct H1 as ((_ & Hp) & _). rewrite Hp, repeat_length, Nat.eqb_refl. destruct u; reflexivity. }
    rewrite Eu. cbn [bind]. rewrite IH; [reflexivity | assumption | intros x Hx; apply Hb; right; exact Hx]. }
  rewrite Emk. cbn [bind]. rewrite El. cbn [bind].
  destruct (@mapM_enum gvar garr (fun iu => laplacian (snd iu)) (fun i x => prep g (goff (garray (nth i w dgv))) (lapF g (vval w i)) x) w dgv) as (la & Ela & Lla & Pla).
  { intros i Hi. cbn [snd]. assert (Hi' : (i < gndim g)%nat) by lia. apply lap_prep; [exact Hg | exact (periodic_vval (proj1 Hw) Hi') | | exact (periodic_vec_pvar (proj1 Hw) Hi')].
    destruct (periodic_vec_nth (proj1 Hw) Hi') as (((_ & _ & X) & _) & G). rewrite G in X. exact X. }
  rewrite (mapM_enum_snd laplacian w) in Ela. rewrite Ela. cbn [bind]. rewrite map_length, (proj1 Hl), Lla, Nat.eqb_refl. cbn [andb].
  destruct (@mapM_combine garr (garr * garr) garr (fun ual => let '(u, (a, l0)) := ual in let* s := ga_scale nu l0 in let* t := ga_add a s in let* r := ga_scale dt t in ga_sub u r)
     (fun i x => prep g (goff (garray (nth i w dgv))) (fun ix => vval w i ix - dt * (A i ix + nu * lapF g (vval w i) ix))%R x) (map garray w) (combine l la) dga (dga, dga)) as (y & Ey & Ly & Py).
  { rewrite map_length, combine_length, (proj1 Hl), Lla. lia. }
  { intros i Hi. rewrite map_length in Hi. rewrite combine_nth by (rewrite (proj1 Hl); lia). rewrite (nth_map' _ _ dgv dga) by exact Hi. assert (Hi' : (i < gndim g)%nat) by lia.
    destruct (prep_scalar_l Rmult nu (Pla i dga Hi)) as (s & Es & Ps). unfold ga_scale at 1. rewrite Es. cbn [bind].
    destruct (prep_op2 Rplus (fields_at_nth Hl Hi) Ps) as (t & Et & Pt). unfold ga_add. rewrite Et. cbn [bind].
    destruct (prep_scalar_l Rmult dt Pt) as (r & Er & Pr). unfold ga_scale. rewrite Er. cbn [bind].
    exact (prep_op2 Rminus (proj1 (periodic_vec_pvar (proj1 Hw) Hi')) Pr). }
  exists y. split; [exact Ey|]. rewrite map_length in Ly. apply fields_at_intro; [exact Ly|]. intros i Hi. apply Py. rewrite map_length. exact Hi.
Qed.

Lemma implicit_evm_core g o b nu dt model cg v x y A : (0 < gndim g)%nat -> length o = gndim g -> periodic_velocity g o (repeat b (gndim g)) v ->
  (forall w, periodic_velocity g o (repeat b (gndim g)) w -> exists l, model w = Ok l /\ fields_at g w l (A w)) ->
  cg (evm_linear_op b nu dt model) (map garray v) = Ok x -> (exists X, fields_at g v x X) ->
  evm_linear_op b nu dt model x = Ok y -> fields_at g v y (vval v) ->
  exists v', implicit_evm_solve_with_diffusion cg model v nu dt = Ok v' /\ periodic_velocity g o (repeat b (gndim g)) v' /\ map garray v' = x /\
    forall i ix, (i < gndim g)%nat -> inb (gshape g) ix -> (vval v' i ix - dt * (A v' i ix + nu * lapF g (vval v' i) ix) = vval v i ix)%R.
Proof.
  intros Hd Ho Hv Hm Ec (X & Hx) Ey Hy. pose proof (pv_len Hv) as HL. pose proof (pv_wfg Hd Hv) as Hg. unfold implicit_evm_solve_with_diffusion.
  rewrite (pvec_all_periodic (proj1 Hv)). cbn [negb]. rewrite (@unique_bc_same v b) by (lia || exact (@pv_same g o b v Hv)). cbn [bind]. rewrite Ec. cbn [bind].
  destruct (@mapM_combine garr gvar gvar (fun uu => mk_gvar (fst uu) (gbc (snd uu))) (fun i w => w = mkgv (nth i x dga) b) x v dga dgv) as (v' & Ev & Lv & Pv).
  { apply Hx. }
  { intros i Hi. cbn [fst snd]. assert (Hi' : (i < length v)%nat) by (rewrite <- (proj1 Hx); exact Hi). pose proof (fields_at_nth Hx Hi') as (G & _).
    unfold mk_gvar. rewrite G. rewrite (@pv_same g o b v Hv (nth i v dgv)) by (apply nth_In; exact Hi').
    assert (Hb : length (btypes b) = gndim g).
    { rewrite <- (@pv_same g o b v Hv (nth i v dgv)) by (apply nth_In; exact Hi'). destruct (periodic_vec_nth (proj1 Hv) (i := i)) as ((_ & Hb) & Gv); [lia|]. rewrite Hb, Gv. apply repeat_length. }
    rewrite Hb, Nat.eqb_refl. eexists; split; reflexivity. }
  pose proof (proj1 Hx) as Lx.
  assert (Hv' : periodic_velocity g o (repeat b (gndim g)) v').
  { apply (@pv_intro g o _ Hd Ho v v' X Hv); [lia|]. intros i Hi. rewrite (Pv i dgv) by lia. cbn [gbc garray]. split; [rewrite nth_repeat' by exact Hi; reflexivity|].
    assert (Hi' : (i < length v)%nat) by lia. eapply prep_off; [apply (pv_off Hd Ho Hv Hi) | exact (fields_at_nth Hx Hi')]. }
  assert (Mx : map garray v' = x).
  { apply (list_ext_nth dga); [rewrite map_length; lia|]. intros k Hk. rewrite map_length in Hk. rewrite (nth_map' _ _ dgv dga) by exact Hk. rewrite (Pv k dgv) by lia. reflexivity. }
  exists v'. split; [exact Ev|]. split; [exact Hv'|]. split; [exact Mx|]. intros i ix Hi Hix.
  destruct (@evm_op_calc g o b nu dt model v' (A v') Hd Ho Hv' (Hm v' Hv')) as (y' & Ey' & Hy'). rewrite Mx, Ey in Ey'. injection Ey' as <-.
  assert (Hi1 : (i < length v)%nat) by lia. assert (Hi2 : (i < length v')%nat) by lia. destruct (fields_at_nth Hy Hi1) as (_ & _ & _ & V1). destruct (fields_at_nth Hy' Hi2) as (_ & _ & _ & V2).
  rewrite <- (V1 ix Hix), <- (V2 ix Hix). reflexivity.
Qed.

(* @prop C48 implicit_evm_solve_with_diffusion with the Smagorinsky model, for every viscosity >= 0 and time step >= 0: whenever the inner solver returns a solution v' of v' - dt * (acceleration(v') + viscosity * laplacian(v')) = v, the result keeps grid, offsets and boundary conditions, has the same total in every component, and its kinetic energy does not exceed that of v. *)
Lemma implicit_smagorinsky_solve_lem : forall cg g o b cs nu dt v x y, (0 < gndim g)%nat -> length o = gndim g -> periodic_velocity g o (repeat b (gndim g)) v -> (0 <= nu)%R -> (0 <= dt)%R ->
  cg (evm_linear_op b nu dt (evm_model (smagorinsky_viscosity linear_fn cs))) (map garray v) = Ok x -> (exists X, fields_at g v x X) ->
  evm_linear_op b nu dt (evm_model (smagorinsky_viscosity linear_fn cs)) x = Ok y -> fields_at g v y (vval v) ->
  exists v', implicit_evm_solve_with_diffusion cg (evm_model (smagorinsky_viscosity linear_fn cs)) v nu dt = Ok v' /\
    periodic_velocity g o (repeat b (gndim g)) v' /\ (forall i, momentum v' i = momentum v i) /\
    (kinetic g (vval v') <= kinetic g (vval v))%R.
Proof.
  intros cg g o b cs nu dt v x y Hd Ho Hv Hnu Hdt Ec Hx Ey Hy. pose proof (pv_wfg Hd Hv) as Hg. assert (Hp : allpos (gshape g)) by apply Hg.
  destruct (@implicit_evm_core g o b nu dt _ cg v x y (fun w => evmF g w (eddy_viscosity g o cs w)) Hd Ho Hv (fun w => @smag_fields g o cs b w Hd Ho) Ec Hx Ey Hy) as (v' & E & Hv' & _ & Eq).
  exists v'. split; [exact E|]. split; [exact Hv'|].
  destruct (@smag_fields g o cs b v' Hd Ho Hv') as (l & El & Hl).
  destruct (@smagorinsky_dissipates_lem g o cs v' b Hd Ho (proj1 Hv') (proj1 (proj2 (proj2 Hv'))) (@pv_same g o b v' Hv')) as (l' & El' & Ll & Zl & _ & Wl). rewrite El in El'. injection El' as <-.
  assert (Hper : forall i, (i < gndim g)%nat -> periodic (gshape g) (vval v' i)) by (intros; eapply periodic_vval; [apply Hv' | assumption]).
  split.
  - intros i. destruct (Nat.lt_ge_cases i (gndim g)) as [Hi|Hi].
    + rewrite (momentum_pv Hd Ho Hv' Hi), (momentum_pv Hd Ho Hv Hi). rewrite (@asum_ext (gshape g) (vval v i) _ (fun ix Hix => eq_sym (Eq i ix Hi Hix))).
      rewrite asum_minus, asum_scal, asum_plus, asum_scal, sum_lapF by auto.
      assert (Z : asum (gshape g) (evmF g v' (eddy_viscosity g o cs v') i) = 0%R).
      { assert (Hi' : (i < length v')%nat) by (rewrite (pv_len Hv'); exact Hi). pose proof (fields_at_nth Hl Hi') as P. rewrite <- (total_is P). apply Zl. apply nth_In. lia. }
      rewrite Z. ring.
    + rewrite !momentum_out by (rewrite ?(pv_len Hv'), ?(pv_len Hv); exact Hi). reflexivity.
  - rewrite (@work_fields g v' l _ (pv_len Hv') Hl) in Wl.
    set (ip := nsum (gndim g) (fun i => asum (gshape g) (fun ix => vval v' i ix * vval v i ix)%R)).
    set (W := nsum (gndim g) (fun i => asum (gshape g) (fun ix => vval v' i ix * evmF g v' (eddy_viscosity g o cs v') i ix)%R)) in *.
    set (L := nsum (gndim g) (fun i => asum (gshape g) (fun ix => vval v' i ix * lapF g (vval v' i) ix)%R)).
    assert (EL : (L <= 0)%R).
    { unfold L. rewrite (@nsum_ext _ _ (fun i => - nsum (gndim g) (fun a => asum (gshape g) (fun ix => fdF g a (vval v' i) ix * fdF g a (vval v' i) ix)))%R) by (intros i Hi; apply lapF_neg; auto).
      rewrite nsum_opp. assert (0 <= nsum (gndim g) (fun i => nsum (gndim g) (fun a => asum (gshape g) (fun ix => fdF g a (vval v' i) ix * fdF g a (vval v' i) ix))))%R; [|lra].
      apply nsum_nonneg. intros i _. apply nsum_nonneg. intros a _. apply asum_nonneg. intros ix _. apply Rle_0_sqr. }
    assert (Eip : (ip = kinetic g (vval v') - dt * (W + nu * L))%R).
    { unfold ip, kinetic, W, L. rewrite <- nsum_scal, <- nsum_plus, <- nsum_scal, <- nsum_minus. apply nsum_ext. intros i Hi. rewrite <- asum_scal, <- asum_plus, <- asum_scal, <- asum_minus. apply asum_ext. intros ix Hix.
      rewrite <- (Eq i ix Hi Hix). ring. }
    assert (Esq : (0 <= kinetic g (vval v) - 2 * ip + kinetic g (vval v'))%R).
    { unfold ip, kinetic. rewrite <- nsum_scal, <- nsum_minus, <- nsum_plus. apply nsum_nonneg. intros i Hi. rewrite <- asum_scal, <- asum_minus, <- asum_plus. apply asum_nonneg. intros ix _.
      replace (vval v i ix ^ 2 - 2 * (vval v' i ix * vval v i ix) + vval v' i ix ^ 2)%R with ((vval v i ix - vval v' i ix) ^ 2)%R by ring. apply pow2_ge_0. }
    assert (dt * (W + nu * L) <= 0)%R; [|lra].
    assert (nu * L <= 0)%R by nra. nra.
Qed.

(** ** examples *)
(* @ex *)
Lemma evm_dissipation_ex_lem : (0 < gndim p34g)%nat /\ length half2 = gndim p34g /\ periodic_vec p34g p34v /\ face_aligned half2 p34v /\
  (forall s, tensor_at p34g half2 s (strain p34g p34v) -> exists m, const_visc s p34v = Ok m /\ tensor_at p34g half2 m (fun _ _ _ => 3%R)) /\
  (forall i j ix, (i < gndim p34g)%nat -> (j < gndim p34g)%nat -> inb (gshape p34g) ix -> (fun _ _ _ => 3%R) i j ix = (fun (_ _ : nat) (_ : list Z) => 3%R) j i ix) /\
  exists l, evm_model const_visc p34v = Ok l /\ (work p34g p34v l < 0)%R.
Proof.
  destruct evm_model_spec_ex_lem as (A & B & C & D & E & _). split; [exact A|]. split; [exact B|]. split; [exact C|]. split; [exact D|]. split; [exact E|]. split; [reflexivity|].
  destruct (@evm_dissipation_lem p34g half2 p34v (fun _ _ _ => 3%R) const_visc A B C D E) as (l & El & W & _); [reflexivity|]. exists l. split; [exact El|]. rewrite W.
  unfold nsum. simpl. unfold strain, vval, pval, hstep; cbn. lra.
Qed.
Lemma p34_same u : In u p34v -> gbc u = periodic_bc 2.
Proof. intros [<- | [<- | []]]; reflexivity. Qed.
(* @ex *)
Lemma smagorinsky_viscosity_spec_ex_lem : exists s, (0 < gndim p34g)%nat /\ length half2 = gndim p34g /\ periodic_vec p34g p34v /\ (forall u, In u p34v -> gbc u = periodic_bc 2) /\
  tensor_at p34g half2 s (strain p34g p34v).
Proof.
  destruct evm_model_spec_ex_lem as (A & B & C & D & _). destruct (@strain_tensor p34g half2 p34v A B C D) as (s & _ & Hs). exists s.
  split; [exact A|]. split; [exact B|]. split; [exact C|]. split; [exact p34_same | exact Hs].
Qed.
Definition wall_u : gvar := mkgv (garray ipc) (mkbc [(Dirichlet, Dirichlet); (Periodic, Periodic)] [(Some 0%R, Some 0%R); (None, None)] true).
Definition other_u : gvar := mkgv (garray ipc) (mkbc [(Periodic, Periodic); (Periodic, Periodic)] [(Some 1%R, Some 0%R); (None, None)] false).
(* @ex *)
Lemma smagorinsky_rejects_ex_lem :
  (exists u a, In u [ipc; wall_u] /\ (a < gndim (ggrid (garray u)))%nat /\ fst (btype (gbc u) a) <> Periodic) /\
  (forall u a, In u [ipc; other_u] -> (a < gndim (ggrid (garray u)))%nat -> fst (btype (gbc u) a) = Periodic) /\ (exists u w, In u [ipc; other_u] /\ In w [ipc; other_u] /\ gbc u <> gbc w).
Proof.
  split; [|split].
  - exists wall_u, 0%nat. split; [right; left; reflexivity|]. split; [cbn; lia | cbn; discriminate].
  - intros u [|[|a]] [<- | [<- | []]] Ha; cbn in Ha |- *; try reflexivity; lia.
  - exists ipc, other_u. split; [left; reflexivity|]. split; [right; left; reflexivity|]. cbn. discriminate.
Qed.
(* @ex *)
Lemma smagorinsky_dissipates_ex_lem : (0 < gndim p34g)%nat /\ length half2 = gndim p34g /\ periodic_vec p34g p34v /\ face_aligned half2 p34v /\ (forall u, In u p34v -> gbc u = periodic_bc 2) /\
  (0 < strain_size p34g half2 p34v [0%Z; 0%Z])%R.
Proof.
  destruct evm_model_spec_ex_lem as (A & B & C & D & _). split; [exact A|]. split; [exact B|]. split; [exact C|]. split; [exact D|]. split; [exact p34_same|].
  unfold strain_size. apply sqrt_lt_R0. apply Rmult_lt_0_compat; [lra|].
  assert (H : forall i j, (i < gndim p34g)%nat -> (j < gndim p34g)%nat -> (0 <= centred_strain p34g half2 p34v i j [0%Z; 0%Z] ^ 2)%R) by (intros; apply pow2_ge_0).
  assert (K : (0 < centred_strain p34g half2 p34v 0 0 [0%Z; 0%Z] ^ 2)%R).
  { unfold centred_strain. cbn -[Q2R strain Qfloor pow]. unfold lerp_axis. unfold half2, offs. cbn -[Q2R strain pow]. unfold Q2R; cbn -[strain pow]. unfold strain, vval, pval, hstep; cbn -[pow]. lra. }
  change (gndim p34g) with 2%nat in *. unfold nsum. cbn -[centred_strain pow]. pose proof (H 0%nat 1%nat ltac:(lia) ltac:(lia)). pose proof (H 1%nat 0%nat ltac:(lia) ltac:(lia)). pose proof (H 1%nat 1%nat ltac:(lia) ltac:(lia)). lra.
Qed.
(* @ex *)
Lemma explicit_smagorinsky_step_ex_lem : forall tpu eigh,
  (0 < gndim p34g)%nat /\ length half2 = gndim p34g /\ explicit_tableau (mktab [[1 / 2]; [0; 1 / 2]; [0; 0; 1]] [1 / 6; 1 / 3; 1 / 3; 1 / 6])%R /\
  solves_poisson p34g half2 (fun v _ b => pressure_solve_fast_diag tpu eigh (1 / 1000) v (Some b) (Some Fft)) /\
  pressure_solver p34g half2 (fun v _ b => pressure_solve_fast_diag tpu eigh (1 / 1000) v (Some b) (Some Fft)) /\
  periodic_velocity p34g half2 (repeat (periodic_bc 2) (gndim p34g)) p34v /\
  (forall f w, Some push = Some f -> periodic_velocity p34g half2 (repeat (periodic_bc 2) (gndim p34g)) w -> exists lf Fo, f w = Ok lf /\ fields_at p34g w lf Fo).
Proof.
  intros tpu eigh. split; [cbn; lia|]. split; [reflexivity|]. split; [exact rk4_explicit|]. split; [exact (p34_solver tpu eigh)|]. split; [exact (solves_is_solver (p34_solver tpu eigh))|]. split; [exact p34_pv|].
  intros f w E Hw. injection E as <-. exact (push_fields Hw).
Qed.
(* @ex *)
Lemma implicit_smagorinsky_solve_ex_lem : exists cg v x y,
  (0 < gndim p34g)%nat /\ length half2 = gndim p34g /\ periodic_velocity p34g half2 (repeat (periodic_bc 2) (gndim p34g)) v /\ (0 <= 1)%R /\
  cg (evm_linear_op (periodic_bc 2) 1 1 (evm_model (smagorinsky_viscosity linear_fn 1))) (map garray v) = Ok x /\ (exists X, fields_at p34g v x X) /\
  evm_linear_op (periodic_bc 2) 1 1 (evm_model (smagorinsky_viscosity linear_fn 1)) x = Ok y /\ fields_at p34g v y (vval v) /\ x = map garray p34v.
Proof.
  assert (Hd : (0 < gndim p34g)%nat) by (cbn; lia). assert (Ho : length half2 = gndim p34g) by reflexivity.
  destruct (@evm_op_calc p34g half2 (periodic_bc 2) 1 1 _ p34v _ Hd Ho p34_pv (@smag_fields p34g half2 1 (periodic_bc 2) p34v Hd Ho p34_pv)) as (y & Ey & Hy).
  set (F := fun i ix => (vval p34v i ix - 1 * (evmF p34g p34v (eddy_viscosity p34g half2 1 p34v) i ix + 1 * lapF p34g (vval p34v i) ix))%R) in *.
  set (v := map (fun a => mkgv a (periodic_bc 2)) y). assert (Ly : length y = 2%nat) by (rewrite (proj1 Hy); reflexivity).
  assert (Hnth : forall i, (i < 2)%nat -> nth i v dgv = mkgv (nth i y dga) (periodic_bc 2)) by (intros i Hi; unfold v; rewrite (nth_map' _ _ dga dgv) by lia; reflexivity).
  assert (Hv : periodic_velocity p34g half2 (repeat (periodic_bc 2) (gndim p34g)) v).
  { apply (@pv_intro p34g half2 _ Hd Ho p34v v F p34_pv); [unfold v; rewrite map_length; exact Ly|]. intros i Hi. rewrite (Hnth i Hi). cbn [gbc garray]. split; [destruct i as [|[|i]]; [reflexivity | reflexivity | cbn in Hi; lia]|].
    eapply prep_off; [apply (pv_off Hd Ho p34_pv Hi) | exact (fields_at_nth Hy Hi)]. }
  exists (fun _ _ => Ok (map garray p34v)), v, (map garray p34v), y. split; [exact Hd|]. split; [exact Ho|]. split; [exact Hv|]. split; [lra|]. split; [reflexivity|].
  assert (Lv : length v = 2%nat) by (unfold v; rewrite map_length; exact Ly).
  split; [|split; [exact Ey|]; split; [|reflexivity]].
  - exists (vval p34v). apply fields_at_intro; [rewrite map_length, Lv; reflexivity|]. intros i Hi. rewrite Lv in Hi. rewrite (nth_map' _ _ dgv dga) by exact Hi. rewrite (Hnth i Hi). cbn [garray].
    eapply prep_off; [apply off_eq_sym; apply (fields_at_nth Hy Hi)|]. exact (proj1 (periodic_vec_pvar (proj1 p34_pv) Hi)).
  - apply fields_at_intro; [rewrite Lv; exact Ly|]. intros i Hi. rewrite Lv in Hi. pose proof (proj1 (periodic_vec_pvar (proj1 Hv) Hi)) as P. rewrite (Hnth i Hi) in P |- *. exact P.
Qed.
