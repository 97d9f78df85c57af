(** * C48: eddy-viscosity models *)
From Verif Require Import Prelude NdArr Grids_model Spec Boundaries_model FD_model PRep FDProofs FDProps Interp_model InterpProofs InterpProps Advection_model Diffusion_model PressureProps PressureSolveProps TimeStep_model Equations_model SpecNS EquationsProps EquationsMoreProps Forcings_model Subgrid_model SpecSub.
Set Implicit Arguments.
Local Open Scope Z_scope.

Lemma tensor_nth g o T F i j : tensor_at g o T F -> (i < gndim g)%nat -> (j < gndim g)%nat ->
  length (nth i T []) = gndim g /\ prep g (offs j (1 # 2) (offs i (1 # 2) o)) (F i j) (nth j (nth i T []) dga).
Proof.
  intros (HL & H) Hi Hj. destruct (H i (nth i T [])) as (HL' & H'); [apply nth_error_nth'; lia|]. split; [exact HL'|]. apply H'. apply nth_error_nth'. lia.
Qed.
Lemma tensor_intro g o T F : length T = gndim g -> (forall i, (i < gndim g)%nat -> length (nth i T []) = gndim g /\
  forall j, (j < gndim g)%nat -> prep g (offs j (1 # 2) (offs i (1 # 2) o)) (F i j) (nth j (nth i T []) dga)) -> tensor_at g o T F.
Proof.
  intros HL H. split; [exact HL|]. intros i row Hr. assert (Hi : (i < gndim g)%nat) by (rewrite <- HL; apply nth_error_Some; congruence).
  destruct (H i Hi) as (L & K). rewrite (nth_error_nth _ _ _ Hr) in L, K. split; [exact L|]. intros j w Hj. assert (Hj' : (j < gndim g)%nat) by (rewrite <- L; apply nth_error_Some; congruence).
  specialize (K j Hj'). rewrite (nth_error_nth _ _ _ Hj) in K. exact K.
Qed.
Lemma pvec_all_periodic g v : periodic_vec g v -> has_all_periodic v = true.
Proof.
  intros (HL & HF). unfold has_all_periodic. apply forallb_forall. intros u Hu. rewrite Forall_forall in HF. destruct (HF u Hu) as ((_ & Hb) & _).
  apply forallb_forall. intros a Ha. apply in_seq in Ha. unfold is_periodic_bc, btype. rewrite Hb, nth_repeat' by (exact (proj2 Ha)). reflexivity.
Qed.
Lemma pvec_grid g v : (0 < gndim g)%nat -> periodic_vec g v -> consistent_grid (map garray v) = Ok g.
Proof.
  intros Hd (HL & HF). apply consistent_grid_all; [rewrite map_length; lia|]. intros u Hu. apply in_map_iff in Hu. destruct Hu as (w & <- & Hw). rewrite Forall_forall in HF. apply HF. exact Hw.
Qed.
Lemma face_nth g o v i : periodic_vec g v -> face_aligned o v -> (i < gndim g)%nat -> off_eq (goff (garray (nth i v dgv))) (offs i (1 # 2) o).
Proof. intros (HL & _) Hf Hi. apply (Hf i). apply nth_error_nth'. lia. Qed.

Lemma strain_tensor g o v : (0 < gndim g)%nat -> length o = gndim g -> periodic_vec g v -> face_aligned o v ->
  exists s, strain_rate (gndim g) v = Ok s /\ tensor_at g o s (strain g v).
Proof.
  intros Hd Ho Hv Hf. pose proof (periodic_vec_wfg Hd Hv) as Hw. assert (HL : length v = gndim g) by apply Hv. unfold strain_rate.
  assert (Hrow : forall i, (i < gndim g)%nat -> exists row, mapM (fun j => let* vi := getM v i in let* a := forward_difference vi j in let* vj := getM v j in let* b := forward_difference vj i in
      let* s := ga_add a b in ga_scale (1 / 2) s) (seq 0 (gndim g)) = Ok row /\ length row = gndim g /\
      forall j, (j < gndim g)%nat -> prep g (offs j (1 # 2) (offs i (1 # 2) o)) (strain g v i j) (nth j row dga)).
  { intros i Hi.
    destruct (@mapM_seq garr (fun j => let* vi := getM v i in let* a := forward_difference vi j in let* vj := getM v j in let* b := forward_difference vj i in let* s := ga_add a b in ga_scale (1 / 2) s)
      (fun j w => prep g (offs j (1 # 2) (offs i (1 # 2) o)) (strain g v i j) w) (gndim g)) as (row & E & L & P).
    { intros j Hj. unfold getM. rewrite !(nth_error_nth' v dgv) by lia. cbn [bind].
      destruct (periodic_vec_nth Hv Hi) as (Pi & Gi). destruct (periodic_vec_nth Hv Hj) as (Pj & Gj).
      destruct (@forward_difference_spec_lem (nth i v dgv) j Pi ltac:(rewrite Gi; exact Hj)) as (a & Ea & Pa). rewrite Ea. cbn [bind]. rewrite Gi in Pa.
      destruct (@forward_difference_spec_lem (nth j v dgv) i Pj ltac:(rewrite Gj; exact Hi)) as (b & Eb & Pb). rewrite Eb. cbn [bind]. rewrite Gj in Pb.
      eapply (prep_off (p := offs j (1 # 2) (offs i (1 # 2) o))) in Pa; [|apply off_eq_offs; [exact (face_nth Hv Hf Hi) | reflexivity]].
      eapply (prep_off (p := offs j (1 # 2) (offs i (1 # 2) o))) in Pb; [|eapply off_eq_trans; [apply off_eq_offs; [exact (face_nth Hv Hf Hj) | reflexivity] | apply offs_comm]].
      destruct (prep_op2 Rplus Pa Pb) as (s & Es & Ps). unfold ga_add. rewrite Es. cbn [bind]. destruct (prep_scalar_l Rmult (1 / 2) Ps) as (w & Ew & Pw).
      exists w. split; [exact Ew|]. eapply prep_ext; [|exact Pw]. intros ix _. unfold strain. rewrite !vval_nth by lia. field. 
      pose proof (proj2 (proj2 (proj2 Hw))) as Hst. rewrite Forall_forall in Hst. split; unfold hstep; apply Hst; apply nth_In; rewrite (proj1 Hw); assumption. }
    exists row. split; [exact E|]. split; [exact L|]. intros j Hj. exact (P j dga Hj). }
  destruct (@mapM_seq (list garr) (fun i => mapM (fun j => let* vi := getM v i in let* a := forward_difference vi j in let* vj := getM v j in let* b := forward_difference vj i in let* s := ga_add a b in ga_scale (1 / 2) s) (seq 0 (gndim g)))
    (fun i row => length row = gndim g /\ forall j, (j < gndim g)%nat -> prep g (offs j (1 # 2) (offs i (1 # 2) o)) (strain g v i j) (nth j row dga)) (gndim g)) as (T & E & L & P).
  { intros i Hi. destruct (Hrow i Hi) as (row & A & B). exists row. auto. }
  exists T. split; [exact E|]. apply tensor_intro; [exact L|]. intros i Hi. exact (P i [] Hi).
Qed.

Lemma stress_tensor g o m s N S : (0 < gndim g)%nat -> tensor_at g o m N -> tensor_at g o s S ->
  exists t, stress m s = Ok t /\ tensor_at g o t (fun i j ix => - 2 * N i j ix * S i j ix)%R.
Proof.
  intros Hd Hm Hs. assert (Lm : length m = gndim g) by apply Hm. assert (Ls : length s = gndim g) by apply Hs. unfold stress. rewrite Lm, Ls, Nat.eqb_refl. cbn [andb].
  assert (HST : forallb (fun rr => same_trees (fst rr) (snd rr)) (combine m s) = true).
  { apply forallb_forall. intros [r1 r2] Hin. cbn [fst snd]. destruct (In_nth _ _ ([], []) Hin) as (i & Hi & E). rewrite combine_length, Lm, Ls, Nat.min_id in Hi.
    rewrite combine_nth in E by lia. injection E as <- <-. destruct (tensor_nth Hm Hi Hd) as (A & _). destruct (tensor_nth Hs Hi Hd) as (B & _).
    apply same_trees_nth; [lia|]. intros j Hj. rewrite A in Hj. exact (same_tree_prep (proj2 (tensor_nth Hm Hi Hj)) (proj2 (tensor_nth Hs Hi Hj))). }
  rewrite HST.
  destruct (@mapM_combine (list garr) (list garr) (list garr) (fun rr => mapM (fun xy => let* d := raw2 (fun x y => -2 * x * y)%R [gdata (fst xy); gdata (snd xy)] in Ok (mkga d (goff (fst xy)) (ggrid (fst xy)))) (combine (fst rr) (snd rr)))
    (fun i row => length row = gndim g /\ forall j, (j < gndim g)%nat -> prep g (offs j (1 # 2) (offs i (1 # 2) o)) (fun ix => - 2 * N i j ix * S i j ix)%R (nth j row dga)) m s [] []) as (t & E & L & P).
  { lia. }
  { intros i Hi. rewrite Lm in Hi. cbn [fst snd]. destruct (tensor_nth Hm Hi Hd) as (A & _). destruct (tensor_nth Hs Hi Hd) as (B & _).
    destruct (@mapM_combine garr garr garr (fun xy => let* d := raw2 (fun x y => -2 * x * y)%R [gdata (fst xy); gdata (snd xy)] in Ok (mkga d (goff (fst xy)) (ggrid (fst xy))))
      (fun j w => prep g (offs j (1 # 2) (offs i (1 # 2) o)) (fun ix => - 2 * N i j ix * S i j ix)%R w) (nth i m []) (nth i s []) dga dga) as (row & E & L & P).
    - lia.
    - intros j Hj. rewrite A in Hj. cbn [fst snd]. destruct (proj2 (tensor_nth Hm Hi Hj)) as (M1 & M2 & M3 & M4). destruct (proj2 (tensor_nth Hs Hi Hj)) as (S1 & S2 & S3 & S4).
      unfold raw2. rewrite M3, S3, shape_eqb_refl. cbn [bind]. eexists; split; [reflexivity|]. split; [exact M1|]. split; [exact M2|]. split; [exact M3|]. intros ix Hix. cbn [gdata amap2 get]. rewrite M4, S4 by exact Hix. reflexivity.
    - exists row. split; [exact E|]. split; [lia|]. intros j Hj. exact (P j dga ltac:(lia)). }
  exists t. split; [exact E|]. apply tensor_intro; [lia|]. intros i Hi. exact (P i [] ltac:(lia)).
Qed.
Lemma strain_sym g v i j ix : strain g v i j ix = strain g v j i ix.
Proof. unfold strain. f_equal. ring. Qed.
Lemma strain_periodic g v i j : periodic_vec g v -> (i < gndim g)%nat -> (j < gndim g)%nat -> periodic (gshape g) (strain g v i j).
Proof.
  intros Hv Hi Hj ix HL. pose proof (periodic_fdF g j (periodic_vval Hv Hi) ix HL) as A. pose proof (periodic_fdF g i (periodic_vval Hv Hj) ix HL) as B.
  unfold fdF in A, B. unfold strain, next. rewrite A, B. reflexivity.
Qed.
Lemma wrapped_periodic g F : allpos (gshape g) -> periodic (gshape g) (wrapped g F).
Proof. intros Hp ix HL. unfold wrapped. f_equal. apply wrap_inb. apply inb_wrap; auto. Qed.

(** accelerations in terms of a periodic viscosity tensor *)
Definition evmF (g : grid) (v : list gvar) (N : nat -> nat -> list Z -> R) (i : nat) (ix : list Z) : R :=
  divF g (fun j jx => 2 * wrapped g (N i j) jx * strain g v i j jx)%R ix.
Lemma evm_calc g o v N viscosity_fn : (0 < gndim g)%nat -> length o = gndim g -> periodic_vec g v -> face_aligned o v ->
  (forall s, tensor_at g o s (strain g v) -> exists m, viscosity_fn s v = Ok m /\ tensor_at g o m N) ->
  exists l, evm_model viscosity_fn v = Ok l /\ fields_at g v l (evmF g v N).
Proof.
  intros Hd Ho Hv Hf HN. pose proof (periodic_vec_wfg Hd Hv) as Hw. assert (HL : length v = gndim g) by apply Hv. unfold evm_model. rewrite (pvec_all_periodic Hv). cbn [negb]. rewrite (pvec_grid Hd Hv). cbn [bind].
  destruct (strain_tensor Hd Ho Hv Hf) as (s & Es & Hs). rewrite Es. cbn [bind]. destruct (HN s Hs) as (m & Em & Hm). rewrite Em. cbn [bind].
  destruct (stress_tensor Hd Hm Hs) as (t & Et & Ht). rewrite Et. cbn [bind]. assert (Lt : length t = gndim g) by apply Ht.
  destruct (@mapM_seq garr (fun i => let* row := getM t i in let* vs := mapM (fun a => mk_gvar a (periodic_bc (gndim g))) row in let* d := divergence vs in ga_neg d)
    (fun i w => prep g (offs i (1 # 2) o) (evmF g v N i) w) (gndim g)) as (l & El & Ll & Pl).
  - intros i Hi. unfold getM. rewrite (nth_error_nth' t []) by lia. cbn [bind]. destruct (tensor_nth Ht Hi Hd) as (Lr & _).
    destruct (@mapM_enum garr gvar (fun ia => mk_gvar (snd ia) (periodic_bc (gndim g))) (fun j w => pvar g (offs j (1 # 2) (offs i (1 # 2) o)) (fun ix => - 2 * wrapped g (N i j) ix * strain g v i j ix)%R w) (nth i t []) dga) as (vs & Ev & Lv & Pv).
    { intros j Hj. rewrite Lr in Hj. cbn [snd]. pose proof (proj2 (tensor_nth Ht Hi Hj)) as P. unfold mk_gvar. rewrite (proj1 P). change (btypes (periodic_bc (gndim g))) with (repeat (Periodic, Periodic) (gndim g)). rewrite repeat_length, Nat.eqb_refl.
      eexists; split; [reflexivity|]. split; [|reflexivity]. cbn [garray]. eapply prep_ext; [|exact P]. intros ix Hix. cbv beta. unfold wrapped. rewrite wrap_inb by exact Hix. reflexivity. }
    rewrite (mapM_enum_snd (fun a => mk_gvar a (periodic_bc (gndim g))) (nth i t [])) in Ev. rewrite Ev. cbn [bind].
    destruct (@div_prep g (offs i (1 # 2) o) (fun j => offs j (1 # 2) (offs i (1 # 2) o)) (fun j ix => - 2 * wrapped g (N i j) ix * strain g v i j ix)%R vs Hw Hd) as (d & Ed & Pd).
    + split; [lia|]. intros j Hj. apply Pv. lia.
    + intros j Hj. apply periodic_mult; [|apply strain_periodic; auto]. intros ix Hix. pose proof (@wrapped_periodic g (N i j) (proj1 (proj2 (proj2 Hw))) ix Hix) as E. rewrite E. reflexivity.
    + intros j Hj. split; [rewrite !offs_length; exact Ho|]. eapply off_eq_trans; [apply offs_offs|]. eapply off_eq_trans; [|apply offs_0]. apply off_eq_offs; [apply off_eq_refl | reflexivity].
    + rewrite Ed. cbn [bind]. destruct (prep_neg Pd) as (w & Ew & Pw). exists w. split; [exact Ew|]. eapply prep_ext; [|exact Pw]. intros ix _. cbv beta. unfold evmF, divF. rewrite <- nsum_opp. apply nsum_ext. intros j _. unfold bdF, Rdiv. ring.
  - exists l. split; [exact El|]. apply fields_at_intro; [lia|]. intros i Hi. rewrite HL in Hi. eapply prep_off; [apply off_eq_sym; exact (face_nth Hv Hf Hi) | exact (Pl i dga Hi)].
Qed.

(* @prop C48 evm_model, for every viscosity function that returns one array per entry of the strain-rate tensor at the same places, succeeds on every staggered periodic velocity and returns, at the velocity's own points, the divergence of 2 * viscosity * strain rate, where the strain rate handed to the function is (d_j v_i + d_i v_j)/2; a velocity that is not periodic on some axis is rejected. *)
Lemma evm_model_spec_lem : forall g o v N viscosity_fn, (0 < gndim g)%nat -> length o = gndim g -> periodic_vec g v -> face_aligned o v ->
  (forall s, tensor_at g o s (strain g v) -> exists m, viscosity_fn s v = Ok m /\ tensor_at g o m N) ->
  (exists l, evm_model viscosity_fn v = Ok l /\
    fields_at g v l (fun i ix => nsum (gndim g) (fun j =>
      (2 * wrapped g (N i j) ix * strain g v i j ix - 2 * wrapped g (N i j) (prev j ix) * strain g v i j (prev j ix)) / hstep g j))%R) /\
  (forall v', (exists u a, In u v' /\ (a < gndim (ggrid (garray u)))%nat /\ fst (btype (gbc u) a) <> Periodic) -> evm_model viscosity_fn v' = Err EValue).
Proof.
  intros g o v N viscosity_fn Hd Ho Hv Hf HN. split; [exact (@evm_calc g o v _ _ Hd Ho Hv Hf HN)|].
  intros v' (u & a & Hu & Ha & Hb). unfold evm_model. replace (has_all_periodic v') with false; [reflexivity|]. symmetry. apply not_true_is_false. intros H.
  unfold has_all_periodic in H. rewrite forallb_forall in H. specialize (H u Hu). rewrite forallb_forall in H. specialize (H a). unfold is_periodic_bc in H. apply Hb.
  assert (Hin : In a (seq 0 (gndim (ggrid (garray u))))) by (apply in_seq; lia). specialize (H Hin). destruct (fst (btype (gbc u) a)); cbn in H; congruence.
Qed.

(* @prop C48 The eddy-viscosity acceleration adds no momentum: each component sums to zero over the periodic domain, for every velocity and every viscosity function. *)
Lemma evm_model_momentum_lem : forall g o v N viscosity_fn, (0 < gndim g)%nat -> length o = gndim g -> periodic_vec g v -> face_aligned o v ->
  (forall s, tensor_at g o s (strain g v) -> exists m, viscosity_fn s v = Ok m /\ tensor_at g o m N) ->
  exists l, evm_model viscosity_fn v = Ok l /\ length l = gndim g /\ forall w, In w l -> total (gdata w) = 0%R.
Proof.
  intros g o v N viscosity_fn Hd Ho Hv Hf HN. destruct (@evm_calc g o v _ _ Hd Ho Hv Hf HN) as (l & E & H). exists l. split; [exact E|].
  assert (HL : length l = gndim g) by (rewrite (proj1 H); apply Hv). split; [exact HL|]. intros w Hin. destruct (In_nth_error _ _ Hin) as (i & Hi).
  assert (Hlt : (i < gndim g)%nat) by (rewrite <- HL; apply nth_error_Some; congruence). assert (Hlt' : (i < length v)%nat) by (rewrite (proj1 Hv); exact Hlt). pose proof (fields_at_nth H Hlt') as (_ & _ & S & V). rewrite (nth_error_nth _ _ _ Hi) in S, V.
  pose proof (periodic_vec_wfg Hd Hv) as Hw. assert (Hp : allpos (gshape g)) by apply Hw.
  unfold total. rewrite S, (@asum_ext _ _ _ V). apply sum_divF; [exact Hp|]. intros j Hj. apply periodic_mult; [|apply strain_periodic; auto].
  intros ix Hix. pose proof (@wrapped_periodic g (N i j) Hp ix Hix) as E2. rewrite E2. reflexivity.
Qed.

Lemma strain_fd g v i j ix : (strain g v i j ix = (fdF g j (vval v i) ix + fdF g i (vval v j) ix) / 2)%R.
Proof. reflexivity. Qed.

(* @prop C48 With a constant viscosity nu the acceleration is nu * (laplacian of v_i + d_i(div v)), so for a discretely divergence-free velocity it is exactly ordinary diffusion. *)
Lemma evm_constant_viscosity_lem : forall g o v nu viscosity_fn, (0 < gndim g)%nat -> length o = gndim g -> periodic_vec g v -> face_aligned o v ->
  (forall s, tensor_at g o s (strain g v) -> exists m, viscosity_fn s v = Ok m /\ tensor_at g o m (fun _ _ _ => nu)) ->
  exists l dv, evm_model viscosity_fn v = Ok l /\ divergence v = Ok dv /\
    (forall i u w, nth_error v i = Some u -> nth_error l i = Some w -> exists lu, laplacian u = Ok lu /\
      is_field w g (goff (garray u)) (fun ix => nu * (get (gdata lu) ix + (pval dv (next i ix) - pval dv ix) / hstep g i))%R) /\
    (aeq (gdata dv) (afull (gshape g) 0%R) -> forall i u w, nth_error v i = Some u -> nth_error l i = Some w ->
       exists x, diffuse u nu = Ok x /\ aeq (gdata w) (gdata x)).
Proof.
  intros g o v nu viscosity_fn Hd Ho Hv Hf HN. destruct (@evm_calc g o v _ _ Hd Ho Hv Hf HN) as (l & E & H). pose proof (periodic_vec_wfg Hd Hv) as Hw. assert (Hp : allpos (gshape g)) by apply Hw.
  destruct (@divergence_spec_lem g o v Hd Hv Ho Hf) as (dv & Ed & Pd).
  assert (Hdiv : forall ix, length ix = gndim g -> pval dv ix = divF g (vval v) ix).
  { intros ix HL. apply (@pval_prep g o (divF g (vval v)) dv ix); auto. apply periodic_divF. intros i Hi. eapply periodic_vval; eauto. }
  assert (K : forall i, (i < gndim g)%nat -> forall ix, length ix = gndim g -> (evmF g v (fun _ _ _ => nu) i ix = nu * (lapF g (vval v i) ix + fdF g i (divF g (vval v)) ix))%R).
  { intros i Hi ix HL. unfold evmF. rewrite lapF_is_div_grad. unfold divF.
    transitivity (nsum (gndim g) (fun j => nu * (bdF g j (fdF g j (vval v i)) ix + bdF g j (fdF g i (vval v j)) ix))%R).
    - apply nsum_ext. intros j _. unfold wrapped, bdF. rewrite !strain_fd. unfold Rdiv. generalize (/ hstep g j)%R. intros. field.
    - rewrite nsum_scal, nsum_plus. do 2 f_equal. unfold fdF at 2. unfold Rdiv. rewrite <- nsum_minus. rewrite Rmult_comm, <- nsum_scal. apply nsum_ext. intros j _. rewrite bdF_fdF_comm. unfold fdF, Rdiv. ring. }
  assert (A : forall i u w, nth_error v i = Some u -> nth_error l i = Some w -> exists lu, laplacian u = Ok lu /\
      is_field w g (goff (garray u)) (fun ix => nu * (get (gdata lu) ix + (pval dv (next i ix) - pval dv ix) / hstep g i))%R).
  { intros i u w Hu Hwi. assert (Hi : (i < gndim g)%nat) by (rewrite <- (proj1 Hv); apply nth_error_Some; congruence).
    destruct (periodic_vec_nth Hv Hi) as (Pu & Gu). pose proof (nth_error_nth _ _ dgv Hu) as Eu. rewrite Eu in Pu, Gu.
    destruct (@lap_prep g (goff (garray u)) (vval v i) u Hw (periodic_vval Hv Hi)) as (lu & El & (_ & _ & _ & Vl)).
    - rewrite <- Gu. apply Pu.
    - rewrite <- Eu. exact (periodic_vec_pvar Hv Hi).
    - exists lu. split; [exact El|]. eapply prep_ext; [|exact ((proj2 H) i u w Hu Hwi)]. intros ix Hix. pose proof (inb_length _ _ Hix) as HLx.
      rewrite (K i Hi ix HLx). rewrite Vl by exact Hix. rewrite !Hdiv by (unfold next; rewrite ?shiftix_length; exact HLx). reflexivity. }
  exists l, dv. split; [exact E|]. split; [exact Ed|]. split; [exact A|].
  intros Hz i u w Hu Hwi. destruct (A i u w Hu Hwi) as (lu & El & (_ & _ & Sw & Vw)). unfold diffuse. rewrite El. cbn [bind].
  assert (Hi : (i < gndim g)%nat) by (rewrite <- (proj1 Hv); apply nth_error_Some; congruence).
  destruct (@lap_prep g (goff (garray u)) (vval v i) u Hw (periodic_vval Hv Hi)) as (lu' & El' & Pl).
  { destruct (periodic_vec_nth Hv Hi) as (Pu & Gu). rewrite (nth_error_nth _ _ _ Hu) in Pu, Gu. rewrite <- Gu. apply Pu. }
  { pose proof (periodic_vec_pvar Hv Hi) as X. rewrite (nth_error_nth _ _ _ Hu) in X. exact X. }
  rewrite El in El'. injection El' as <-. destruct (prep_scalar_l Rmult nu Pl) as (x & Ex & (_ & _ & Sx & Vx)). exists x. split; [exact Ex|]. split; [congruence|].
  intros ix Hix. rewrite Sw in Hix. rewrite (Vw ix Hix), (Vx ix Hix). destruct Pl as (_ & _ & _ & Vl). rewrite (Vl ix Hix).
  assert (Z0 : forall jx, length jx = gndim g -> pval dv jx = 0%R).
  { intros jx HL. unfold pval. destruct Pd as (_ & _ & Sd & _). rewrite Sd. pose proof (proj2 Hz (wrap (gshape g) jx)) as Z1. cbn [afull get] in Z1. apply Z1. rewrite Sd. apply inb_wrap; auto. }
  rewrite !Z0 by (unfold next; rewrite ?shiftix_length; exact (inb_length _ _ Hix)). unfold Rdiv. ring.
Qed.

(** ** examples: viscosity 3 everywhere *)
Definition const_visc (s : tensor) (v : list gvar) : result tensor := Ok (map (map (fun a => mkga (afull (shp (gdata a)) 3%R) (goff a) (ggrid a))) s).
Lemma const_visc_tensor g o s S v : tensor_at g o s S -> exists m, const_visc s v = Ok m /\ tensor_at g o m (fun _ _ _ => 3%R).
Proof.
  intros (HL & H). eexists; split; [reflexivity|]. split; [rewrite map_length; exact HL|]. intros i row Hr. rewrite nth_error_map in Hr. destruct (nth_error s i) as [r|] eqn:Er; [|discriminate]. injection Hr as <-.
  destruct (H i r Er) as (L & K). split; [rewrite map_length; exact L|]. intros j w Hw. rewrite nth_error_map in Hw. destruct (nth_error r j) as [a|] eqn:Ea; [|discriminate]. injection Hw as <-.
  destruct (K j a Ea) as (A & B & C & _). split; [exact A|]. split; [exact B|]. split; [exact C|]. intros ix _. reflexivity.
Qed.
(* @ex *)
Lemma evm_model_spec_ex_lem : (0 < gndim p34g)%nat /\ length half2 = gndim p34g /\ periodic_vec p34g p34v /\ face_aligned half2 p34v /\
  (forall s, tensor_at p34g half2 s (strain p34g p34v) -> exists m, const_visc s p34v = Ok m /\ tensor_at p34g half2 m (fun _ _ _ => 3%R)) /\
  strain p34g p34v 0 0 [0; 0] = (-1)%R /\ strain p34g p34v 1 1 [0; 1] = 6%R.
Proof.
  split; [cbn; lia|]. split; [reflexivity|]. split; [apply p34_pv|]. split; [apply p34_pv|]. split; [intros s Hs; apply (const_visc_tensor p34v Hs)|].
  split; unfold strain, vval, pval, hstep; cbn; lra.
Qed.
(* @ex *)
Lemma evm_model_momentum_ex_lem : (0 < gndim p34g)%nat /\ length half2 = gndim p34g /\ periodic_vec p34g p34v /\ face_aligned half2 p34v /\
  (forall s, tensor_at p34g half2 s (strain p34g p34v) -> exists m, const_visc s p34v = Ok m /\ tensor_at p34g half2 m (fun _ _ _ => 3%R)).
Proof. destruct evm_model_spec_ex_lem as (A & B & C & D & E & _). tauto. Qed.
(* @ex *)
Lemma evm_constant_viscosity_ex_lem : (0 < gndim p34g)%nat /\ length half2 = gndim p34g /\ periodic_vec p34g p34v /\ face_aligned half2 p34v /\
  (forall s, tensor_at p34g half2 s (strain p34g p34v) -> exists m, const_visc s p34v = Ok m /\ tensor_at p34g half2 m (fun _ _ _ => 3%R)).
Proof. exact evm_model_momentum_ex_lem. Qed.
