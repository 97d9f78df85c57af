(** * C49: sums of accelerations, time steps, and the step with implicit diffusion *)
From Verif Require Import Prelude NdArr Grids_model Spec SpecLin SpecDiag SpecDiff LinAlg Cplx Boundaries_model BoundariesPeriodic FD_model LaplacianProps PRep FDProofs FDProps WallBC WallBCProps ImposeProps WallFD Pressure_model PressureProps WallFDProps ProjectionProps Interp_model InterpProofs InterpProps UpwindProps TvdProps Advection_model AdvectionProofs AdvectionProps MonotoneProps FastDiag_model Laplacian_model PressureSolve_model PressureSolveProps Diffusion_model DiffusionProps ImplicitDiffusionProps QRProps TimeStep_model Equations_model SpecNS EquationsProps.
Set Implicit Arguments.
Local Open Scope Z_scope.

(** ** sums of fields *)
Lemma raw_sum_vals s : forall l (F : nat -> list Z -> R), (0 < length l)%nat ->
  (forall k, (k < length l)%nat -> shp (nth k l (afull [] 0%R)) = s /\ forall ix, inb s ix -> get (nth k l (afull [] 0%R)) ix = F k ix) ->
  exists d, raw_sum l = Ok d /\ shp d = s /\ forall ix, inb s ix -> get d ix = nsum (length l) (fun k => F k ix).
Proof.
  intros l F Hl H. unfold raw_sum.
  assert (Hgen : forall l' st acc G, (forall k, (k < length l')%nat -> shp (nth k l' (afull [] 0%R)) = s /\ forall ix, inb s ix -> get (nth k l' (afull [] 0%R)) ix = F (st + k)%nat ix) ->
    shp acc = s -> (forall ix, inb s ix -> get acc ix = G ix) ->
    exists d, foldM (fun a b => raw2 Rplus [a; b]) acc l' = Ok d /\ shp d = s /\ forall ix, inb s ix -> get d ix = (G ix + lsum (map (fun k => F k ix) (seq st (length l'))))%R).
  { induction l' as [|x l' IH]; intros st acc G Hk Sa Ga.
    - exists acc. split; [reflexivity|]. split; [exact Sa|]. intros ix Hix. rewrite Ga by auto. cbn. ring.
    - destruct (Hk 0%nat ltac:(simpl; lia)) as (Sx & Gx). cbn [nth] in Sx, Gx. rewrite Nat.add_0_r in Gx. cbn [foldM]. unfold raw2 at 1. rewrite Sa, Sx, shape_eqb_refl. cbn [bind].
      destruct (IH (S st) (amap2 Rplus acc x) (fun ix => G ix + F st ix)%R) as (d & E & Sd & Gd).
      + intros k Hk'. specialize (Hk (S k) ltac:(simpl; lia)). cbn [nth] in Hk. rewrite Nat.add_succ_r in Hk. exact Hk.
      + exact Sa.
      + intros ix Hix. cbn [amap2 get]. rewrite Ga, Gx by auto. reflexivity.
      + exists d. split; [exact E|]. split; [exact Sd|]. intros ix Hix. rewrite Gd by auto. simpl. ring. }
  destruct l as [|x l]; [simpl in Hl; lia|]. cbn [foldM]. destruct (H 0%nat ltac:(simpl; lia)) as (Sx & Gx). cbn [nth] in Sx, Gx.
  assert (E0 : exists a0, raw2 Rplus [afull [] 0%R; x] = Ok a0 /\ shp a0 = s /\ forall ix, inb s ix -> get a0 ix = F 0%nat ix).
  { unfold raw2. destruct (shape_eqb (shp (afull [] 0%R)) (shp x)) eqn:Es.
    - eexists; split; [reflexivity|]. unfold shape_eqb in Es. destruct (list_eq_dec _ _ _) as [Es'|] in Es; [clear Es; rename Es' into Es | discriminate]. split; [cbn [amap2 shp]; rewrite <- Sx; exact Es|]. intros ix Hix. cbn [amap2 get afull]. rewrite Gx by auto. ring.
    - cbn [afull shp]. eexists; split; [reflexivity|]. split; [exact Sx|]. intros ix Hix. cbn [amap get afull]. rewrite Gx by auto. ring. }
  destruct E0 as (a0 & E0 & S0 & G0). rewrite E0. cbn [bind].
  destruct (Hgen l 1%nat a0 (F 0%nat)) as (d & E & Sd & Gd).
  - intros k Hk. apply (H (S k)). simpl; lia.
  - exact S0.
  - exact G0.
  - exists d. split; [exact E|]. split; [exact Sd|]. intros ix Hix. rewrite Gd by auto. unfold nsum. simpl. ring.
Qed.

(* @prop C49 sum_fields of any positive number of tuples of fields with matching offsets and grids is, component by component, the pointwise sum at the same offsets. *)
Lemma sum_fields_pointwise_lem : forall g v ls Fs, (0 < length ls)%nat ->
  (forall k l, nth_error ls k = Some l -> fields_at g v l (Fs k)) ->
  exists l, sum_fields ls = Ok l /\ fields_at g v l (fun i ix => nsum (length ls) (fun k => Fs k i ix)).
Proof.
  intros g v ls Fs Hn H. destruct ls as [|t rest]; [simpl in Hn; lia|]. unfold sum_fields.
  pose proof (H 0%nat t eq_refl) as Ht. pose proof (proj1 Ht) as HLt.
  assert (Hall : forallb (same_trees t) rest = true).
  { apply forallb_forall. intros r Hr. destruct (In_nth_error _ _ Hr) as (k & Hk). pose proof (H (S k) r Hk) as Hr'.
    apply same_trees_nth; [rewrite HLt; symmetry; apply Hr'|]. intros i Hi. rewrite HLt in Hi. exact (same_tree_prep (fields_at_nth Ht Hi) (fields_at_nth Hr' Hi)). }
  rewrite Hall.
  destruct (@mapM_enum garr garr (fun ia => let '(i, a) := ia in let* d := raw_sum (gdata a :: map (fun r => gdata (nth i r a)) rest) in Ok (mkga d (goff a) (ggrid a)))
    (fun i w => prep g (goff (garray (nth i v dgv))) (fun ix => nsum (length (t :: rest)) (fun k => Fs k i ix)) w) t dga) as (ws & E & HL & Hw).
  { intros i Hi. assert (Hi' : (i < length v)%nat) by lia. destruct (fields_at_nth Ht Hi') as (A1 & A2 & A3 & A4).
    destruct (@raw_sum_vals (gshape g) (gdata (nth i t dga) :: map (fun r => gdata (nth i r (nth i t dga))) rest) (fun k => Fs k i)) as (d & Ed & Sd & Gd).
    - simpl; lia.
    - intros [|k] Hk; cbn [nth]; [split; [exact A3 | exact A4]|]. cbn [length] in Hk. rewrite map_length in Hk.
      rewrite (nth_map' _ _ [] (afull [] 0%R)) by lia. assert (Hk' : (k < length rest)%nat) by lia. pose proof (H (S k) (nth k rest []) (nth_error_nth' rest [] Hk')) as Hr.
      rewrite (nth_indep _ (nth i t dga) dga) by (rewrite (proj1 Hr); exact Hi'). destruct (fields_at_nth Hr Hi') as (_ & _ & B3 & B4). auto.
    - rewrite Ed. cbn [bind]. eexists; split; [reflexivity|]. split; [exact A1|]. split; [exact A2|]. split; [exact Sd|]. intros ix Hix. cbn [gdata]. rewrite Gd by auto.
      cbn [length]. rewrite map_length. reflexivity. }
  exists ws. split; [exact E|]. apply fields_at_intro; [lia|]. intros i Hi. apply Hw. lia.
Qed.
(* @ex *)
Lemma sum_fields_pointwise_ex_lem : exists lc lf C Fo, default_convect 1 p34v = Ok lc /\ push p34v = Ok lf /\
  (forall k l, nth_error [lc; lf; lf] k = Some l -> fields_at p34g p34v l (nth k [C; Fo; Fo] C)).
Proof.
  destruct (@default_convect_prep p34g half2 _ p34v 1 ltac:(cbn; lia) p34_pv) as (lc & C & Ec & Hc & _).
  destruct (push_fields p34_pv) as (lf & Fo & Ef & Hf). exists lc, lf, C, Fo. split; [exact Ec|]. split; [exact Ef|].
  intros [|[|[|k]]] l E; cbn in E; try (injection E as <-; assumption). destruct k; discriminate.
Qed.

Lemma same_trees_inv l : forall l', same_trees l l' = true -> length l = length l' /\
  forall i a b, nth_error l i = Some a -> nth_error l' i = Some b -> off_eq (goff a) (goff b) /\ ggrid a = ggrid b.
Proof.
  induction l as [|a l IH]; intros [|b l'] H; try discriminate.
  - split; [reflexivity|]. intros [|i] ? ? E; discriminate.
  - cbn [same_trees] in H. apply andb_prop in H. destruct H as (H1 & H2). destruct (IH l' H2) as (A & B). split; [simpl; lia|].
    intros [|i] x y Ex Ey; cbn in Ex, Ey; [|apply (B i x y Ex Ey)]. injection Ex as <-. injection Ey as <-.
    unfold same_tree in H1. apply andb_prop in H1. destruct H1 as (H1 & H3). split; [apply off_eqb_iff; exact H1 | apply grid_eqb_eq; exact H3].
Qed.
(* @prop C49 sum_fields never mixes fields of different points: if two tuples differ in length, or in some component's offset or grid, it raises ValueError; in particular whenever it succeeds all tuples agree in all of these. *)
Lemma sum_fields_rejects_mismatch_lem : forall t rest r, In r rest ->
  (length r <> length t \/ exists i a b, nth_error t i = Some a /\ nth_error r i = Some b /\ (~ off_eq (goff a) (goff b) \/ ggrid a <> ggrid b)) ->
  sum_fields (t :: rest) = Err EValue.
Proof.
  intros t rest r Hr H. unfold sum_fields. destruct (forallb (same_trees t) rest) eqn:E; [exfalso | reflexivity].
  rewrite forallb_forall in E. destruct (same_trees_inv _ _ (E r Hr)) as (A & B). destruct H as [H | (i & a & b & Ha & Hb & H)]; [congruence|].
  destruct (B i a b Ha Hb) as (B1 & B2). tauto.
Qed.
(* @ex *)
Lemma sum_fields_rejects_mismatch_ex_lem : In (@nil garr) [[garray ipc]; []] /\ length (@nil garr) <> length [garray ipc].
Proof. split; [right; left; reflexivity | discriminate]. Qed.

(** ** time steps *)
(* @prop C49 stable_time_step of the equations module: any time step it returns satisfies the advective limit max_velocity * dt <= max_courant * step on every axis, and, unless diffusion is implicit, does not exceed the stable time step of explicit diffusion; when the advective limit is the larger one it raises ValueError instead of returning an unstable step. *)
Lemma ns_time_step_stable_lem : forall vm cm nu g imp,
  (forall dt, (0 < vm)%R -> (0 <= cm)%R -> ns_stable_time_step vm cm nu g imp = Ok dt ->
     (forall a, (a < length (gstep g))%nat -> (vm * dt <= cm * hstep g a)%R) /\
     (imp = false -> forall d, stable_time_step nu g = Ok (Some d) -> (dt <= d)%R)) /\
  (forall dt d, advection_stable_time_step vm cm g = Ok dt -> stable_time_step nu g = Ok (Some d) -> (d < dt)%R ->
     ns_stable_time_step vm cm nu g false = Err EValue /\ ns_stable_time_step vm cm nu g true = Ok dt).
Proof.
  intros vm cm nu g imp. split.
  - intros dt Hv Hc E. unfold ns_stable_time_step in E. apply bind_Ok_inv in E. destruct E as (dt' & E1 & E2).
    assert (dt' = dt /\ (imp = false -> forall d, stable_time_step nu g = Ok (Some d) -> (dt <= d)%R)) as (-> & H).
    { destruct imp; [split; [congruence | discriminate]|]. apply bind_Ok_inv in E2. destruct E2 as (o & E2 & E3). destruct o as [d|].
      - destruct (Rlt_dec d dt') as [|Hn]; [discriminate|]. injection E3 as <-. split; [reflexivity|]. intros _ d' Ed. rewrite E2 in Ed. injection Ed as <-. lra.
      - injection E3 as <-. split; [reflexivity|]. intros _ d' Ed. rewrite E2 in Ed. discriminate. }
    split; [|exact H]. apply (@advection_cfl_lem vm cm g dt Hv Hc E1).
  - intros dt d E1 E2 Hlt. unfold ns_stable_time_step. rewrite E1. cbn [bind]. split; [|reflexivity]. rewrite E2. cbn [bind]. destruct (Rlt_dec d dt); [reflexivity | contradiction].
Qed.
(* @ex *)
Lemma ns_time_step_stable_ex_lem : exists dt d, (0 < 3)%R /\ (0 <= 1 / 2)%R /\ ns_stable_time_step 3 (1 / 2) (1 / 100) ipg false = Ok dt /\
  advection_stable_time_step 3 (1 / 2) ipg = Ok dt /\ stable_time_step 1000 ipg = Ok (Some d) /\ (d < dt)%R.
Proof.
  assert (Hm : Rmin 1 2 = 1%R) by (unfold Rmin; destruct (Rle_dec 1 2); lra).
  exists (1 / 2 * Rmin 1 2 / 3)%R, (Rmin 1 2 ^ 2 / (1000 * 2 ^ 2))%R. split; [lra|]. split; [lra|].
  assert (E1 : advection_stable_time_step 3 (1 / 2) ipg = Ok (1 / 2 * Rmin 1 2 / 3)%R).
  { unfold advection_stable_time_step. cbn [ipg gstep fold_left]. destruct (Req_EM_T 3 0); [lra | reflexivity]. }
  assert (E2 : forall nu, nu <> 0%R -> stable_time_step nu ipg = Ok (Some (Rmin 1 2 ^ 2 / (nu * 2 ^ 2))%R)).
  { intros nu Hn. unfold stable_time_step. destruct (Req_EM_T nu 0); [lra|]. reflexivity. }
  split; [|split; [exact E1 | split; [apply E2; lra | rewrite Hm; lra]]].
  unfold ns_stable_time_step. rewrite E1. cbn [bind]. rewrite E2 by lra. cbn [bind]. destruct (Rlt_dec _ _) as [H|]; [rewrite Hm in H; lra | reflexivity].
Qed.

Lemma all_indices_inb s : forall ix, inb s ix -> In ix (all_indices s).
Proof.
  induction s as [|n s IH]; intros [|i ix] H; cbn [inb] in H; try tauto; [left; reflexivity|].
  destruct H as (Hi & H). cbn [all_indices]. apply in_flat_map. exists (Z.to_nat i). split; [apply in_seq; lia|]. rewrite Z2Nat.id by lia. apply in_map. apply IH. exact H.
Qed.
Lemma fold_Rmax l : forall x, (x <= fold_left Rmax l x)%R /\ forall y, In y l -> (y <= fold_left Rmax l x)%R.
Proof.
  induction l as [|z l IH]; intros x; cbn [fold_left]; [split; [lra | intros y []]|].
  destruct (IH (Rmax x z)) as (A & B). pose proof (Rmax_l x z). pose proof (Rmax_r x z). split; [lra|]. intros y [-> | Hy]; [lra | apply B; exact Hy].
Qed.
Lemma list_max_ub l m : list_max l = Ok m -> forall y, In y l -> (y <= m)%R.
Proof. destruct l as [|x l]; [discriminate|]. intros E. injection E as <-. destruct (fold_Rmax l x) as (A & B). intros y [<- | Hy]; [exact A | apply B; exact Hy]. Qed.

(* @prop C49 dynamic_time_step: any time step it returns respects the CFL limit of the velocity it is given: in every cell and along every axis, the speed sqrt(sum of squared components) times dt is at most max_courant times the grid step; and unless diffusion is implicit it does not exceed the stable time step of explicit diffusion. *)
Lemma dynamic_time_step_cfl_lem : forall v cm nu g imp dt, (0 < length v)%nat ->
  (forall u, In u v -> shp (gdata (garray u)) = gshape g) -> (0 <= cm)%R -> (forall a, (a < length (gstep g))%nat -> (0 < hstep g a)%R) ->
  dynamic_time_step v cm nu g imp = Ok dt ->
  (forall ix a, inb (gshape g) ix -> (a < length (gstep g))%nat -> (sqrt (nsum (length v) (fun i => vval v i ix ^ 2)) * dt <= cm * hstep g a)%R) /\
  (imp = false -> forall d, stable_time_step nu g = Ok (Some d) -> (dt <= d)%R).
Proof.
  intros v cm nu g imp dt Hv Hs Hc Hh E. unfold dynamic_time_step in E.
  destruct (@raw_sum_vals (gshape g) (map (fun u => amap (fun x => x ^ 2)%R (gdata (garray u))) v) (fun i ix => vval v i ix ^ 2)%R) as (d & Ed & Sd & Gd).
  { rewrite map_length. exact Hv. }
  { rewrite map_length. intros k Hk. rewrite (nth_map' _ _ dgv (afull [] 0%R)) by auto. cbn [amap shp get]. pose proof (Hs (nth k v dgv) (nth_In _ _ Hk)) as Sk.
    split; [exact Sk|]. intros ix Hix. f_equal. unfold vval, pval. rewrite (nth_error_nth' v dgv) by auto. rewrite Sk, wrap_inb by auto. reflexivity. }
  rewrite Ed in E. cbn [bind] in E. apply bind_Ok_inv in E. destruct E as (m & Em & E).
  assert (Hub : forall ix, inb (gshape g) ix -> (nsum (length v) (fun i => vval v i ix ^ 2) <= m)%R).
  { intros ix Hix. rewrite map_length in Gd. rewrite <- Gd by auto. apply (list_max_ub _ Em). apply in_map. rewrite Sd. apply all_indices_inb. exact Hix. }
  assert (Hsq : (0 <= sqrt m)%R) by apply sqrt_pos.
  destruct (Req_dec (sqrt m) 0) as [Hz|Hz].
  { exfalso. unfold ns_stable_time_step, advection_stable_time_step in E. destruct (gstep g); [discriminate|]. destruct (Req_EM_T (sqrt m) 0); [discriminate | contradiction]. }
  destruct (@ns_time_step_stable_lem (sqrt m) cm nu g imp) as (H & _). destruct (H dt ltac:(lra) Hc E) as (H1 & H2). split; [|exact H2].
  intros ix a Hix Ha. eapply Rle_trans; [|apply (H1 a Ha)].
  assert (0 <= dt)%R.
  { unfold ns_stable_time_step in E. apply bind_Ok_inv in E. destruct E as (dt' & E1 & E2). assert (dt' = dt).
    { destruct imp; [congruence|]. apply bind_Ok_inv in E2. destruct E2 as (od & _ & E2). destruct od; [destruct (Rlt_dec r dt'); congruence | congruence]. } subst dt'.
    destruct (@advection_cfl_lem (sqrt m) cm g dt ltac:(lra) Hc E1) as (_ & b & Hb & Eq). pose proof (Hh b Hb).
    assert (0 <= cm * hstep g b)%R by (apply Rmult_le_pos; lra). rewrite <- Eq in *. apply (Rmult_le_reg_l (sqrt m)); lra. }
  apply Rmult_le_compat_r; [lra|]. apply sqrt_le_1_alt. apply Hub. exact Hix.
Qed.
(* @ex *)
Lemma dynamic_time_step_cfl_ex_lem : (0 < length p34v)%nat /\ (forall u, In u p34v -> shp (gdata (garray u)) = gshape p34g) /\ (0 <= 1 / 2)%R /\
  (forall a, (a < length (gstep p34g))%nat -> (0 < hstep p34g a)%R) /\ exists dt, dynamic_time_step p34v (1 / 2) 0 p34g false = Ok dt.
Proof.
  split; [cbn; lia|]. split; [intros u [<- | [<- | []]]; reflexivity|]. split; [lra|]. split.
  { intros [|[|a]] Ha; [unfold hstep; cbn; lra | unfold hstep; cbn; lra | cbn in Ha; lia]. }
  unfold dynamic_time_step.
  destruct (@raw_sum_vals [3%nat; 4%nat] (map (fun u => amap (fun x => x ^ 2)%R (gdata (garray u))) p34v) (fun i ix => vval p34v i ix ^ 2)%R) as (d & Ed & Sd & Gd).
  { cbn; lia. }
  { intros [|[|k]] Hk; [| |cbn in Hk; lia]; (split; [reflexivity|]; intros ix Hix; unfold vval, pval; cbn [nth_error p34v garray gdata shp map nth amap get]; rewrite wrap_inb by exact Hix; reflexivity). }
  rewrite Ed. cbn [bind]. rewrite Sd.
  destruct (list_max (map (get d) (all_indices [3%nat; 4%nat]))) as [m|e] eqn:Em; [|discriminate Em]. cbn [bind].
  assert (H1 : (1 <= m)%R).
  { eapply Rle_trans; [|apply (list_max_ub _ Em (get d [0; 0]))].
    - rewrite Gd by (cbn; lia). cbn. lra.
    - apply in_map. apply all_indices_inb. cbn. lia. }
  unfold ns_stable_time_step, advection_stable_time_step. cbn [p34g gstep]. destruct (Req_EM_T (sqrt m) 0) as [H|H].
  { exfalso. assert (0 < sqrt m)%R by (apply sqrt_lt_R0; lra). lra. }
  cbn [bind]. unfold stable_time_step. destruct (Req_EM_T 0 0); [|congruence]. cbn [bind]. eauto.
Qed.

(** ** implicit diffusion *)
Lemma periodic_ext_all s F G : allpos s -> periodic s F -> periodic s G -> (forall ix, inb s ix -> F ix = G ix) -> forall ix, length ix = length s -> F ix = G ix.
Proof. intros Hp HF HG H ix HL. rewrite <- HF, <- HG by auto. apply H. apply inb_wrap; auto. Qed.
Lemma periodic_lapF g F : periodic (gshape g) F -> periodic (gshape g) (lapF g F).
Proof.
  intros HF ix HL. rewrite !lapF_is_div_grad. unfold divF. apply nsum_ext. intros i Hi. apply periodic_bdF; [apply periodic_fdF; exact HF | exact HL].
Qed.
Lemma periodic_divF g Fs : (forall i, (i < gndim g)%nat -> periodic (gshape g) (Fs i)) -> periodic (gshape g) (divF g Fs).
Proof. intros H. unfold divF. apply periodic_nsum. intros i Hi. apply periodic_bdF. apply H. exact Hi. Qed.
Lemma bdF_lin g a c F G ix : bdF g a (fun jx => F jx - c * G jx)%R ix = (bdF g a F ix - c * bdF g a G ix)%R.
Proof. unfold bdF, Rdiv. ring. Qed.
Lemma bdF_lapF g a F ix : bdF g a (lapF g F) ix = lapF g (bdF g a F) ix.
Proof.
  unfold bdF at 1, lapF. rewrite <- nsum_minus. unfold Rdiv. rewrite Rmult_comm, <- nsum_scal. apply nsum_ext. intros i Hi. unfold bdF.
  rewrite !(shiftix_comm a i). unfold Rdiv. ring.
Qed.
Lemma divF_lapF g Fs ix : divF g (fun i => lapF g (Fs i)) ix = lapF g (divF g Fs) ix.
Proof.
  unfold divF at 1. rewrite (@nsum_ext (gndim g) _ (fun i => lapF g (bdF g i (Fs i)) ix)) by (intros; apply bdF_lapF).
  unfold lapF at 1. rewrite nsum_swap. apply nsum_ext. intros a Ha. unfold divF.
  rewrite <- nsum_scal, <- nsum_minus, <- nsum_plus, Rmult_comm, <- nsum_scal. apply nsum_ext. intros i Hi. ring.
Qed.
Lemma helmholtz_zero g c D : allpos (gshape g) -> (0 <= c)%R -> periodic (gshape g) D ->
  (forall ix, inb (gshape g) ix -> (D ix - c * lapF g D ix = 0)%R) -> forall ix, inb (gshape g) ix -> D ix = 0%R.
Proof.
  intros Hp Hc HD H.
  assert (E : asum (gshape g) (fun ix => D ix * D ix)%R = (- c * nsum (gndim g) (fun i => asum (gshape g) (fun ix => fdF g i D ix * fdF g i D ix)))%R).
  { rewrite (asum_ext _ _ (fun ix => c * (D ix * lapF g D ix))%R); [|intros ix Hix; specialize (H ix Hix); replace (D ix * D ix)%R with (D ix * (D ix - c * lapF g D ix) + c * (D ix * lapF g D ix))%R by ring; rewrite H; ring].
    rewrite asum_scal, lapF_neg by auto. ring. }
  assert (N : (0 <= nsum (gndim g) (fun i => asum (gshape g) (fun ix => fdF g i D ix * fdF g i D ix)))%R).
  { apply nsum_nonneg. intros i Hi. apply asum_nonneg. intros ix _. apply Rle_0_sqr. }
  assert (P : (0 <= asum (gshape g) (fun ix => D ix * D ix))%R) by (apply asum_nonneg; intros; apply Rle_0_sqr).
  assert (Z : asum (gshape g) (fun ix => D ix * D ix)%R = 0%R).
  { pose proof (Rmult_le_pos _ _ Hc N) as Q. lra. }
  intros ix Hix. assert (Z2 : (D ix * D ix = 0)%R) by (apply (@asum_nonneg_0 (gshape g) (fun jx => D jx * D jx)%R); auto; intros; apply Rle_0_sqr).
  apply Rmult_integral in Z2. tauto.
Qed.

Section Imp.
Variables (g : grid) (o : list Q) (bs : list bcs).
Hypothesis (Hd : (0 < gndim g)%nat) (Ho : length o = gndim g).
Notation PV := (periodic_velocity g o bs).

Lemma diffused_pv c v v' : PV v -> Forall2 (implicitly_diffused c) v v' -> PV v' /\
  forall i ix, (i < gndim g)%nat -> length ix = gndim g -> (vval v' i ix - c * lapF g (vval v' i) ix = vval v i ix)%R.
Proof.
  intros Hv HF. pose proof (pv_len Hv) as HL. pose proof (Forall2_length' HF) as HL'. pose proof (pv_wfg Hd Hv) as Hw.
  assert (Hi2 : forall i, (i < gndim g)%nat -> implicitly_diffused c (nth i v dgv) (nth i v' dgv)).
  { intros i Hi. apply (@Forall2_nth' _ _ _ _ _ i dgv dgv HF). lia. }
  assert (Hpv : PV v').
  { apply (@pv_intro g o bs Hd Ho v v' (fun i => get (gdata (garray (nth i v' dgv)))) Hv); [lia|]. intros i Hi.
    destruct (Hi2 i Hi) as (B & G & O & S & _). pose proof (pv_prep Hd Ho Hv Hi) as (P1 & P2 & P3 & _). rewrite P1 in *.
    split; [rewrite B; apply (pv_bc Hv Hi)|]. split; [exact G|]. split; [eapply off_eq_trans; [exact O | exact P2]|]. split; [exact S | reflexivity]. }
  split; [exact Hpv|]. intros i ix Hi.
  revert ix. apply (@periodic_ext_all (gshape g) (fun ix => vval v' i ix - c * lapF g (vval v' i) ix)%R (vval v i)).
  - apply Hw.
  - intros ix HLx. rewrite (@periodic_lapF g _ (periodic_vval (proj1 Hpv) Hi)) by auto. rewrite (periodic_vval (proj1 Hpv) Hi) by auto. reflexivity.
  - apply (periodic_vval (proj1 Hv) Hi).
  - intros ix Hix. destruct (Hi2 i Hi) as (B & G & O & S & V & _). destruct (periodic_vec_nth (proj1 Hv) Hi) as (Hp & Hg). destruct (periodic_vec_nth (proj1 Hpv) Hi) as (Hp' & Hg').
    rewrite Hg in *.
    assert (Hax : forall a, (a < gndim g)%nat -> periodic_axis (gbc (nth i v dgv)) a).
    { intros a Ha. destruct Hp as (_ & Hb). unfold periodic_axis. rewrite Hb, Hg. apply nth_error_repeat. exact Ha. }
    specialize (V ix Hix). rewrite !vval_nth by lia. unfold pval. rewrite S. destruct Hp as ((_ & Sv & _) & _). rewrite Sv, Hg, wrap_inb by auto. rewrite <- V.
    + f_equal. f_equal.
      destruct (@lap_wall (nth i v' dgv)) as (w & Ew & (_ & _ & _ & W)); [apply Hp' | rewrite Hg', B; intros a Ha; left; apply Hax; exact Ha|].
      destruct (@lap_prep _ _ _ (nth i v' dgv) (pf_wfg Hp') (pf_per Hp') (pf_off Hp') (pf_pvar Hp')) as (w2 & Ew2 & (_ & _ & _ & W2)).
      rewrite Ew in Ew2. injection Ew2 as <-. rewrite Hg' in *. specialize (W ix Hix). specialize (W2 ix Hix). rewrite W in W2. unfold lapW in W2. rewrite B in W2. rewrite Hg' in W2.
      unfold second_difference. rewrite Hg'. unfold at_ in W2. rewrite W2. unfold lapF. apply nsum_ext. intros a Ha. rewrite !vval_nth by lia. reflexivity.
    + intros a Ha. unfold wall_value, edge_side. rewrite (Hax a Ha). reflexivity.
Qed.
Lemma div_pv v : PV v -> exists d, divergence v = Ok d /\ prep g o (divF g (vval v)) d.
Proof. intros (Hv & _ & Hf & _). exact (@divergence_spec_lem g o v Hd Hv Ho Hf). Qed.
End Imp.

(** the explicit part of the step *)
Lemma implicit_explicit_part g o bs density viscosity dt convect diffusion_solve solve forcing v lc C Fo :
  (0 < gndim g)%nat -> length o = gndim g -> periodic_velocity g o bs v ->
  convect v = Ok lc -> fields_at g v lc C ->
  (forall f, forcing = Some f -> exists lf, f v = Ok lf /\ fields_at g v lf Fo) ->
  exists star, periodic_velocity g o bs star /\
    (forall i, (i < gndim g)%nat -> is_field (garray (nth i star dgv)) g (goff (garray (nth i v dgv))) (fun ix =>
       vval v i ix + dt * (C i ix + match forcing with Some _ => Fo i ix / density | None => 0 end))%R) /\
    implicit_diffusion_navier_stokes density viscosity dt convect diffusion_solve solve forcing v =
      (let* vp := projection solve star in diffusion_solve vp viscosity dt).
Proof.
  intros Hd Ho Hv Ec Hc HF. pose proof (pv_len Hv) as HL.
  unfold implicit_diffusion_navier_stokes. rewrite Ec. cbn [bind].
  set (T := fun i ix => (C i ix + match forcing with Some _ => Fo i ix / density | None => 0 end)%R).
  assert (Hacc : exists acc dvdt, (match forcing with None => Ok [lc] | Some f => let* fv := f v in let* fd := mapM (fun a => ga_div_scalar a density) fv in Ok [lc; fd] end) = Ok acc /\
     sum_fields acc = Ok dvdt /\ fields_at g v dvdt T).
  { unfold T. destruct forcing as [f|].
    - destruct (HF f eq_refl) as (lf & Ef & Hf). rewrite Ef. cbn [bind].
      destruct (@mapM_enum garr garr (fun iu => ga_div_scalar (snd iu) density) (fun i w => prep g (goff (garray (nth i v dgv))) (fun ix => Fo i ix / density)%R w) lf dga) as (fd & E & HLd & Hfd).
      { intros i Hi. cbn [snd]. apply prep_scalar_r. apply (fields_at_nth Hf). destruct Hf as (Hf & _). lia. }
      rewrite (mapM_enum_snd (fun a => ga_div_scalar a density) lf) in E. rewrite E. cbn [bind].
      destruct (@sum_fields_pointwise_lem g v [lc; fd] (fun k => match k with O => C | _ => fun i ix => (Fo i ix / density)%R end)) as (l & El & Hl).
      + cbn; lia.
      + destruct Hf as (HLf & _). intros [|[|k]] l E'; cbn in E'; [injection E' as <-; exact Hc | injection E' as <- | destruct k; discriminate].
        apply fields_at_intro; [lia|]. intros i Hi. apply Hfd. lia.
      + exists [lc; fd], l. split; [reflexivity|]. split; [exact El|]. destruct Hl as (A & B). split; [exact A|]. intros i u w Hu Hw. eapply prep_ext; [|exact (B i u w Hu Hw)]. intros ix _. unfold nsum. cbn. ring.
    - destruct (@sum_fields_pointwise_lem g v [lc] (fun _ => C)) as (l & El & Hl).
      + cbn; lia.
      + intros [|k] l E'; cbn in E'; [injection E' as <-; exact Hc | destruct k; discriminate].
      + exists [lc], l. split; [reflexivity|]. split; [exact El|]. destruct Hl as (A & B). split; [exact A|]. intros i u w Hu Hw. eapply prep_ext; [|exact (B i u w Hu Hw)]. intros ix _. unfold nsum. cbn. ring. }
  destruct Hacc as (acc & dvdt & Ea & Es & Hdv). rewrite Ea. cbn [bind]. rewrite Es. cbn [bind].
  destruct (@mapM_combine gvar garr gvar (fun ud => let* t := array_ufunc (raw2 Rmult) [OGA (snd ud); OScalar dt] in let* s := ga_add (garray (fst ud)) t in mk_gvar s (gbc (fst ud)))
    (fun i w => gbc w = gbc (nth i v dgv) /\ prep g (goff (garray (nth i v dgv))) (fun ix => vval v i ix + dt * T i ix)%R (garray w)) v dvdt dgv dga) as (star & E & HLs & Hs).
  { symmetry. apply Hdv. }
  { intros i Hi. cbn [fst snd]. assert (Hi' : (i < gndim g)%nat) by lia. destruct (prep_scalar_r Rmult dt (fields_at_nth Hdv Hi)) as (t & Et & Ht). rewrite Et. cbn [bind].
    destruct (prep_op2 Rplus (proj1 (periodic_vec_pvar (proj1 Hv) Hi')) Ht) as (s & Es' & Hs'). unfold ga_add. rewrite Es'. cbn [bind].
    unfold mk_gvar. rewrite (proj1 Hs'). destruct (periodic_vec_nth (proj1 Hv) Hi') as ((_ & Hb) & Hg). rewrite Hb, Hg, repeat_length, Nat.eqb_refl.
    eexists; split; [reflexivity|]. cbn [gbc garray]. split; [reflexivity|]. eapply prep_ext; [|exact Hs']. intros ix _. cbv beta. ring. }
  rewrite E. cbn [bind]. exists star. split.
  - apply (@pv_intro g o bs Hd Ho v star (fun i ix => vval v i ix + dt * T i ix)%R Hv); [lia|]. intros i Hi. destruct (Hs i dgv ltac:(lia)) as (A & B). split; [rewrite A; apply (pv_bc Hv Hi)|].
    eapply prep_off; [apply (pv_off Hd Ho Hv Hi) | exact B].
  - split; [|reflexivity]. intros i Hi. apply (Hs i dgv). lia.
Qed.

(* @prop C49 One step of implicit_diffusion_navier_stokes on a staggered periodic velocity, for every convection and forcing function that returns one field per component at that component's offset, every pressure solver and every diffusion solver: it is explicit Euler with convection + forcing / density, then projection, then an implicit diffusion step with coefficient viscosity * dt. The viscosity is not divided by the density (unlike in the explicit equations), so without forcing the density has no effect. *)
Lemma implicit_step_equation_lem : forall g o bs density viscosity dt convect diffusion_solve solve forcing v lc C Fo,
  (0 < gndim g)%nat -> length o = gndim g -> periodic_velocity g o bs v ->
  convect v = Ok lc -> fields_at g v lc C ->
  (forall f, forcing = Some f -> exists lf, f v = Ok lf /\ fields_at g v lf Fo) ->
  pressure_solver g o solve ->
  (forall u, periodic_velocity g o bs u -> exists u', diffusion_solve u viscosity dt = Ok u' /\ Forall2 (implicitly_diffused (dt * viscosity)) u u') ->
  exists star vp v',
    (forall i u, nth_error star i = Some u -> exists o', is_field (garray u) g o' (fun ix =>
       vval v i ix + dt * (C i ix + match forcing with Some _ => Fo i ix / density | None => 0 end))%R) /\
    projection solve star = Ok vp /\
    implicit_diffusion_navier_stokes density viscosity dt convect diffusion_solve solve forcing v = Ok v' /\
    periodic_velocity g o bs v' /\ Forall2 (implicitly_diffused (dt * viscosity)) vp v'.
Proof.
  intros g o bs density viscosity dt convect ds solve forcing v lc C Fo Hd Ho Hv Ec Hc HF Hs HD.
  destruct (@implicit_explicit_part g o bs density viscosity dt convect ds solve forcing v lc C Fo Hd Ho Hv Ec Hc HF) as (star & Hst & Vst & E).
  destruct (@projection_pv g o bs Hd Ho solve star Hst Hs) as (vp & Ep & Hvp & _). destruct (HD vp Hvp) as (v' & Ev & H2).
  exists star, vp, v'. split.
  - intros i u Hu. pose proof (pv_len Hst) as HL. assert (Hi : (i < gndim g)%nat) by (rewrite <- HL; apply nth_error_Some; congruence).
    specialize (Vst i Hi). rewrite (nth_error_nth _ _ _ Hu) in Vst. eauto.
  - split; [exact Ep|]. split; [rewrite E, Ep; exact Ev|]. split; [apply (@diffused_pv g o bs Hd Ho _ _ _ Hvp H2) | exact H2].
Qed.

(* @prop C49 One step of implicit_diffusion_navier_stokes without forcing (default convection) conserves the total of every velocity component, for every viscosity, time step, density, pressure solver and exact diffusion solver. *)
Lemma implicit_step_conserves_momentum_lem : forall g o bs density viscosity dt diffusion_solve solve v,
  (0 < gndim g)%nat -> length o = gndim g -> periodic_velocity g o bs v -> pressure_solver g o solve ->
  (forall u, periodic_velocity g o bs u -> exists u', diffusion_solve u viscosity dt = Ok u' /\ Forall2 (implicitly_diffused (dt * viscosity)) u u') ->
  exists v', implicit_diffusion_navier_stokes density viscosity dt (default_convect dt) diffusion_solve solve None v = Ok v' /\
    periodic_velocity g o bs v' /\ forall i, momentum v' i = momentum v i.
Proof.
  intros g o bs density viscosity dt ds solve v Hd Ho Hv Hs HD. pose proof (pv_wfg Hd Hv) as Hw.
  destruct (@default_convect_prep g o bs v dt Hd Hv) as (lc & C & Ec & Hc & Sc).
  destruct (@implicit_explicit_part g o bs density viscosity dt (default_convect dt) ds solve None v lc C (fun _ _ => 0%R) Hd Ho Hv Ec Hc) as (star & Hst & Vst & E); [discriminate|].
  destruct (@projection_pv g o bs Hd Ho solve star Hst Hs) as (vp & Ep & Hvp & Mp). destruct (HD vp Hvp) as (v' & Ev & H2).
  destruct (@diffused_pv g o bs Hd Ho _ _ _ Hvp H2) as (Hv' & Eq).
  exists v'. split; [rewrite E, Ep; exact Ev|]. split; [exact Hv'|]. intros i.
  destruct (Nat.lt_ge_cases i (gndim g)) as [Hi|Hi].
  - transitivity (momentum vp i).
    + rewrite (momentum_pv Hd Ho Hv' Hi), (momentum_pv Hd Ho Hvp Hi).
      rewrite (@asum_ext (gshape g) (vval vp i) (fun ix => vval v' i ix - (dt * viscosity) * lapF g (vval v' i) ix)%R) by (intros ix Hix; symmetry; apply Eq; [exact Hi | exact (inb_length _ _ Hix)]).
      rewrite asum_minus, asum_scal, sum_lapF; [ring | apply Hw | apply (periodic_vval (proj1 Hv') Hi)].
    + rewrite Mp. rewrite momentum_nth by (rewrite (pv_len Hst); exact Hi). rewrite (total_is (Vst i Hi)), (momentum_pv Hd Ho Hv Hi).
      rewrite asum_plus, asum_scal, asum_plus, (Sc i Hi), asum_0. ring.
  - rewrite !momentum_out by (rewrite ?(pv_len Hv'), ?(pv_len Hv); exact Hi). reflexivity.
Qed.

(* @prop C49 One step of implicit_diffusion_navier_stokes, with any forcing, whose pressure solver solves its Poisson equation and whose diffusion solver solves its equation with viscosity * dt >= 0, returns a velocity of zero divergence in every cell: implicit diffusion after the projection does not spoil incompressibility. *)
Lemma implicit_step_divergence_free_lem : forall g o bs density viscosity dt diffusion_solve solve forcing v,
  (0 < gndim g)%nat -> length o = gndim g -> periodic_velocity g o bs v -> solves_poisson g o solve -> (0 <= dt * viscosity)%R ->
  (forall u, periodic_velocity g o bs u -> exists u', diffusion_solve u viscosity dt = Ok u' /\ Forall2 (implicitly_diffused (dt * viscosity)) u u') ->
  (forall f, forcing = Some f -> exists lf Fo, f v = Ok lf /\ fields_at g v lf Fo) ->
  exists v' d, implicit_diffusion_navier_stokes density viscosity dt (default_convect dt) diffusion_solve solve forcing v = Ok v' /\
    periodic_velocity g o bs v' /\ divergence v' = Ok d /\ is_field d g o (fun _ => 0%R).
Proof.
  intros g o bs density viscosity dt ds solve forcing v Hd Ho Hv Hs Hc0 HD HF. pose proof (pv_wfg Hd Hv) as Hw.
  destruct (@default_convect_prep g o bs v dt Hd Hv) as (lc & C & Ec & Hc & Sc).
  assert (HF' : exists Fo, forall f, forcing = Some f -> exists lf, f v = Ok lf /\ fields_at g v lf Fo).
  { destruct forcing as [f|]; [|exists (fun _ _ => 0%R); discriminate]. destruct (HF f eq_refl) as (lf & Fo & E & H). exists Fo. intros f' E'. injection E' as <-. eauto. }
  destruct HF' as (Fo & HF').
  destruct (@implicit_explicit_part g o bs density viscosity dt (default_convect dt) ds solve forcing v lc C Fo Hd Ho Hv Ec Hc HF') as (star & Hst & Vst & E).
  destruct (@projection_pv g o bs Hd Ho solve star Hst (solves_is_solver Hs)) as (vp & Ep & Hvp & _).
  destruct (@projection_div g o bs Hd Ho solve star Hst Hs) as (vp2 & dp & Ep2 & Edp & Zdp). rewrite Ep in Ep2. injection Ep2 as <-.
  destruct (HD vp Hvp) as (v' & Ev & H2). destruct (@diffused_pv g o bs Hd Ho _ _ _ Hvp H2) as (Hv' & Eq).
  destruct (@div_pv g o bs Hd Ho v' Hv') as (d & Ed & (D1 & D2 & D3 & D4)). destruct (@div_pv g o bs Hd Ho vp Hvp) as (dp' & Edp' & (_ & _ & _ & P4)). rewrite Edp in Edp'. injection Edp' as <-.
  exists v', d. split; [rewrite E, Ep; exact Ev|]. split; [exact Hv'|]. split; [exact Ed|]. split; [exact D1|]. split; [exact D2|]. split; [exact D3|].
  intros ix Hix. rewrite D4 by exact Hix. apply (@helmholtz_zero g (dt * viscosity) (divF g (vval v'))); auto.
  - apply Hw.
  - apply periodic_divF. intros i Hi. apply (periodic_vval (proj1 Hv') Hi).
  - clear ix Hix. intros ix Hix. rewrite <- divF_lapF.
    transitivity (divF g (vval vp) ix); [|rewrite <- P4 by exact Hix; apply Zdp; exact Hix].
    unfold divF. rewrite <- nsum_scal, <- nsum_minus. apply nsum_ext. intros i Hi. rewrite <- bdF_lin. unfold bdF. 
    pose proof (inb_length _ _ Hix) as HLx. rewrite !Eq by (auto; rewrite shiftix_length; exact HLx). reflexivity.
Qed.

(* @prop C49 solve_fast_diag of the diffusion module, the default diffusion solver, is an exact diffusion solver for staggered periodic velocities in any dimension (at least 3 cells per axis, viscosity * dt >= 0, usable implementation), so the two theorems above hold with the default solvers. *)
Lemma default_diffusion_solver_lem : forall tpu eigh imp g o bs nu dt u, (0 < gndim g)%nat -> (0 <= dt * nu)%R ->
  (forall a, (a < gndim g)%nat -> (3 <= nth a (gshape g) 0)%nat) ->
  (forall oo b Ls, perbc g b -> laplacian_matrix_w_boundaries g oo b = Ok Ls -> implementation_ready eigh Ls true imp) ->
  periodic_velocity g o bs u ->
  exists u', diffusion_solve_fast_diag tpu eigh u nu dt imp = Ok u' /\ Forall2 (implicitly_diffused (dt * nu)) u u'.
Proof.
  intros tpu eigh imp g o bs nu dt u Hd Hc H3 Hr ((HL & HF) & _). rewrite Forall_forall in HF.
  assert (Hap : has_all_periodic u = true).
  { unfold has_all_periodic. apply forallb_forall. intros x Hx. apply forallb_forall. intros a Ha. apply in_seq in Ha. destruct (HF x Hx) as ((_ & Hb) & Hg).
    unfold is_periodic_bc, btype. rewrite Hb. rewrite nth_repeat' by (destruct Ha; lia). reflexivity. }
  destruct (@implicit_diffusion_insulated_lem tpu eigh imp u nu dt Hc) as (u' & E & H & _); [|exists u'; auto].
  intros x Hx. destruct (HF x Hx) as ((Hw & Hb) & Hg). rewrite Hg in *. split; [exact Hw|]. split; [exact Hd|]. split; [rewrite Hb; apply repeat_length|]. split.
  - intros a Ha. split; [|apply H3; exact Ha]. left. unfold periodic_axis. rewrite Hb. apply nth_error_repeat. exact Ha.
  - intros Ls EL. rewrite Hap. apply (Hr _ _ _ Hb EL).
Qed.
Definition p34_ds tpu eigh (u : list gvar) (nu dt : R) := diffusion_solve_fast_diag tpu eigh u nu dt (Some Fft).
Lemma p34_3 : forall a, (a < gndim p34g)%nat -> (3 <= nth a (gshape p34g) 0)%nat.
Proof. intros [|[|a]] Ha; cbn; [lia | lia | unfold gndim in Ha; cbn in Ha; lia]. Qed.
Lemma p34_diff tpu eigh nu dt : (0 <= dt * nu)%R -> forall u, periodic_velocity p34g half2 [periodic_bc 2; periodic_bc 2] u ->
  exists u', p34_ds tpu eigh u nu dt = Ok u' /\ Forall2 (implicitly_diffused (dt * nu)) u u'.
Proof. intros Hc u Hu. apply (@default_diffusion_solver_lem tpu eigh (Some Fft) p34g half2 [periodic_bc 2; periodic_bc 2]); [cbn; lia | exact Hc | exact p34_3 | intros; exact I | exact Hu]. Qed.
(* @ex *)
Lemma default_diffusion_solver_ex_lem : forall eigh, (0 < gndim p34g)%nat /\ (0 <= 1 * 3)%R /\ (forall a, (a < gndim p34g)%nat -> (3 <= nth a (gshape p34g) 0)%nat) /\
  (forall oo b Ls, perbc p34g b -> laplacian_matrix_w_boundaries p34g oo b = Ok Ls -> implementation_ready eigh Ls true (Some Fft)) /\
  periodic_velocity p34g half2 [periodic_bc 2; periodic_bc 2] p34v.
Proof. intros eigh. split; [cbn; lia|]. split; [lra|]. split; [exact p34_3|]. split; [intros; exact I | exact p34_pv]. Qed.
(* @ex *)
Lemma implicit_step_equation_ex_lem : forall tpu eigh, exists lc C lf Fo,
  (0 < gndim p34g)%nat /\ length half2 = gndim p34g /\ periodic_velocity p34g half2 [periodic_bc 2; periodic_bc 2] p34v /\
  default_convect 1 p34v = Ok lc /\ fields_at p34g p34v lc C /\ push p34v = Ok lf /\ fields_at p34g p34v lf Fo /\
  pressure_solver p34g half2 (fun v _ b => pressure_solve_fast_diag tpu eigh (1 / 1000) v (Some b) (Some Fft)) /\
  (forall u, periodic_velocity p34g half2 [periodic_bc 2; periodic_bc 2] u -> exists u', p34_ds tpu eigh u 3 1 = Ok u' /\ Forall2 (implicitly_diffused (1 * 3)) u u').
Proof.
  intros tpu eigh. destruct (@default_convect_prep p34g half2 _ p34v 1 ltac:(cbn; lia) p34_pv) as (lc & C & Ec & Hc & _).
  destruct (push_fields p34_pv) as (lf & Fo & Ef & Hf). exists lc, C, lf, Fo. split; [cbn; lia|]. split; [reflexivity|]. split; [exact p34_pv|]. split; [exact Ec|]. split; [exact Hc|]. split; [exact Ef|]. split; [exact Hf|].
  split; [exact (solves_is_solver (p34_solver tpu eigh))|]. apply p34_diff. lra.
Qed.
(* @ex *)
Lemma implicit_step_conserves_momentum_ex_lem : forall tpu eigh,
  (0 < gndim p34g)%nat /\ length half2 = gndim p34g /\ periodic_velocity p34g half2 [periodic_bc 2; periodic_bc 2] p34v /\
  pressure_solver p34g half2 (fun v _ b => pressure_solve_fast_diag tpu eigh (1 / 1000) v (Some b) (Some Fft)) /\
  (forall u, periodic_velocity p34g half2 [periodic_bc 2; periodic_bc 2] u -> exists u', p34_ds tpu eigh u 3 1 = Ok u' /\ Forall2 (implicitly_diffused (1 * 3)) u u') /\
  momentum p34v 0 = 4%R.
Proof.
  intros tpu eigh. split; [cbn; lia|]. split; [reflexivity|]. split; [exact p34_pv|]. split; [exact (solves_is_solver (p34_solver tpu eigh))|]. split; [apply p34_diff; lra|].
  unfold momentum, total. cbn. lra.
Qed.
(* @ex *)
Lemma implicit_step_divergence_free_ex_lem : forall tpu eigh,
  (0 < gndim p34g)%nat /\ length half2 = gndim p34g /\ periodic_velocity p34g half2 [periodic_bc 2; periodic_bc 2] p34v /\
  solves_poisson p34g half2 (fun v _ b => pressure_solve_fast_diag tpu eigh (1 / 1000) v (Some b) (Some Fft)) /\ (0 <= 1 * 3)%R /\
  (forall u, periodic_velocity p34g half2 [periodic_bc 2; periodic_bc 2] u -> exists u', p34_ds tpu eigh u 3 1 = Ok u' /\ Forall2 (implicitly_diffused (1 * 3)) u u') /\
  (forall f, Some push = Some f -> exists lf Fo, f p34v = Ok lf /\ fields_at p34g p34v lf Fo).
Proof.
  intros tpu eigh. split; [cbn; lia|]. split; [reflexivity|]. split; [exact p34_pv|]. split; [exact (p34_solver tpu eigh)|]. split; [lra|]. split; [apply p34_diff; lra|].
  intros f E. injection E as <-. exact (push_fields p34_pv).
Qed.

(* @prop C49 The implicit step does not use the kinematic viscosity viscosity / density: for a shear flow without convection and forcing, with viscosity 1, density 2 and dt 1, the result does not satisfy u_new - dt (viscosity / density) Laplacian u_new = u. *)
Lemma implicit_kinematic_viscosity_refuted_lem : exists v v', periodic_velocity p34g half2 [periodic_bc 2; periodic_bc 2] v /\
  implicit_diffusion_navier_stokes 2 1 1 (fun v => Ok (map (fun u => mkga (afull (gshape p34g) 0%R) (goff (garray u)) p34g) v))
    (p34_ds false (fun A => (A, A))) (fun _ _ _ => Ok (mkga (afull (gshape p34g) 0%R) half2 p34g)) None v = Ok v' /\
  (exists d, divergence v = Ok d /\ is_field d p34g half2 (fun _ => 0%R)) /\
  ~ Forall2 (implicitly_diffused (1 * (1 / 2))) v v'.
Proof.
  set (w := [mkgv (mkga (mkarr [3%nat; 4%nat] (fun ix => if nth 1 ix 0 =? 2 then 3%R else 0%R)) [1%Q; (1 # 2)%Q] p34g) (periodic_bc 2);
             mkgv (mkga (mkarr [3%nat; 4%nat] (fun _ => 0%R)) [(1 # 2)%Q; 1%Q] p34g) (periodic_bc 2)]).
  assert (Hw : periodic_velocity p34g half2 [periodic_bc 2; periodic_bc 2] w).
  { split; [|split; [|split; [|reflexivity]]].
    - split; [reflexivity|]. repeat constructor; (lia || lra).
    - repeat constructor.
    - intros [|[|[|i]]] u H; simpl in H; try discriminate; injection H as <-; repeat constructor. }
  set (q := mkga (afull (gshape p34g) 0%R) half2 p34g). set (solve := fun (_ : list gvar) (_ : gvar) (_ : bcs) => Ok q).
  set (cv := fun v : list gvar => Ok (map (fun u => mkga (afull (gshape p34g) 0%R) (goff (garray u)) p34g) v)).
  assert (Hd : (0 < gndim p34g)%nat) by (unfold gndim; cbn; lia). assert (Ho : length half2 = gndim p34g) by reflexivity.
  destruct (@implicit_explicit_part p34g half2 _ 2 1 1 cv (p34_ds false (fun A => (A, A))) solve None w (map (fun u => mkga (afull (gshape p34g) 0%R) (goff (garray u)) p34g) w) (fun _ _ => 0%R) (fun _ _ => 0%R) Hd Ho Hw eq_refl)
    as (star & Hst & Vst & E).
  { apply fields_at_intro; [reflexivity|]. intros i Hi. rewrite (nth_map' _ _ dgv dga) by exact Hi. split; [reflexivity|]. split; [apply off_eq_refl|]. split; reflexivity. }
  { discriminate. }
  assert (Hqw : wf_garr q) by (repeat split; repeat constructor; (lia || lra)).
  destruct (@projection_prep p34g half2 star solve q (pv_wfg Hd Hst) Hd (proj1 Hst) Ho (proj1 (proj2 (proj2 Hst)))) as (vp & Ep & HLp & Hvp); auto; [apply off_eq_refl|].
  destruct (@projection_pv p34g half2 _ Hd Ho solve star Hst) as (vp' & Ep' & Pvp & _).
  { intros v q0 b _ _ _ _. exists q. split; [reflexivity|]. split; [exact Hqw|]. split; [reflexivity | apply off_eq_refl]. }
  rewrite Ep in Ep'. injection Ep' as <-.
  destruct (@p34_diff false (fun A => (A, A)) 1 1 ltac:(lra) vp Pvp) as (v' & Ev & H2).
  exists w, v'. split; [exact Hw|]. split; [rewrite E, Ep; exact Ev|]. split.
  { destruct (@div_pv p34g half2 _ Hd Ho w Hw) as (d & Ed & Hdd). exists d. split; [exact Ed|]. eapply prep_ext; [|exact Hdd]. intros ix Hix. unfold divF, nsum, bdF. cbn [gndim gshape p34g length seq map lsum fold_right].
    rewrite !vval_nth by (cbn; lia). unfold pval. destruct ix as [|i [|j [|k ix]]]; cbn [inb p34g gshape] in Hix; try tauto. cbn. unfold Rdiv. ring. }
  intros HN. destruct (@diffused_pv p34g half2 _ Hd Ho _ _ _ Hw HN) as (Hv' & Eq1). destruct (@diffused_pv p34g half2 _ Hd Ho _ _ _ Pvp H2) as (_ & Eq2).
  assert (Evp : forall ix, length ix = gndim p34g -> vval vp 0 ix = vval w 0 ix).
  { apply (@periodic_ext_all (gshape p34g)); [apply (pv_wfg Hd Hst) | apply (periodic_vval (proj1 Pvp) Hd) | apply (periodic_vval (proj1 Hw) Hd)|].
    intros ix Hix. destruct (Hvp 0%nat Hd) as (_ & (_ & _ & _ & V)). pose proof (pv_prep Hd Ho Pvp Hd) as (_ & _ & _ & V'). rewrite <- V' by exact Hix. rewrite V by exact Hix.
    pose proof (pv_prep Hd Ho Hst Hd) as (_ & _ & _ & V2). rewrite <- V2 by exact Hix. destruct (Vst 0%nat Hd) as (_ & _ & _ & V3). rewrite V3 by exact Hix. unfold fdF, pval. cbn. unfold Rdiv. ring. }
  assert (Lz : forall ix, length ix = gndim p34g -> lapF p34g (vval v' 0) ix = 0%R).
  { intros ix HL. pose proof (Eq1 0%nat ix Hd HL). pose proof (Eq2 0%nat ix Hd HL) as X. rewrite Evp in X by exact HL. lra. }
  assert (Es : forall ix, length ix = gndim p34g -> vval v' 0 ix = vval w 0 ix).
  { intros ix HL. pose proof (Eq1 0%nat ix Hd HL) as X. rewrite Lz in X by exact HL. lra. }
  pose proof (Lz [0; 2] eq_refl) as Z. unfold lapF, nsum in Z. cbn [gndim gshape p34g length seq map lsum fold_right] in Z.
  rewrite !Es in Z by (rewrite ?shiftix_length; reflexivity). unfold vval, pval, hstep in Z. cbn in Z. unfold Rsqr in Z. lra.
Qed.
