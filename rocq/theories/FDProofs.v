(** * Finite differences on periodic grids: laplacian, divergence, curl, sums *)
From Verif Require Import Prelude NdArr Grids_model Spec Boundaries_model BoundariesPeriodic FD_model PRep.
Set Implicit Arguments.

(** ** sums over axes *)

Lemma lsum_app l l' : lsum (l ++ l') = (lsum l + lsum l')%R.
Proof. induction l as [|x l IH]; simpl; [ring|]. rewrite IH; ring. Qed.
Lemma nsum_S d f : nsum (S d) f = (nsum d f + f d)%R.
Proof. unfold nsum. rewrite seq_S, map_app, lsum_app. simpl. ring. Qed.
Lemma nsum_0 f : nsum 0 f = 0%R. Proof. reflexivity. Qed.
Lemma nsum_ext d f g : (forall i, (i < d)%nat -> f i = g i) -> nsum d f = nsum d g.
Proof. induction d as [|d IH]; intros H; [reflexivity|]. rewrite !nsum_S, IH, H by auto. reflexivity. Qed.
Lemma nsum_plus d f g : nsum d (fun i => f i + g i)%R = (nsum d f + nsum d g)%R.
Proof. induction d as [|d IH]; [rewrite !nsum_0; ring|]. rewrite !nsum_S, IH; ring. Qed.
Lemma nsum_minus d f g : nsum d (fun i => f i - g i)%R = (nsum d f - nsum d g)%R.
Proof. induction d as [|d IH]; [rewrite !nsum_0; ring|]. rewrite !nsum_S, IH; ring. Qed.
Lemma nsum_scal d c f : nsum d (fun i => c * f i)%R = (c * nsum d f)%R.
Proof. induction d as [|d IH]; [rewrite !nsum_0; ring|]. rewrite !nsum_S, IH; ring. Qed.
Lemma nsum_opp d f : nsum d (fun i => - f i)%R = (- nsum d f)%R.
Proof. induction d as [|d IH]; [rewrite !nsum_0; ring|]. rewrite !nsum_S, IH; ring. Qed.
Lemma nsum_zero d f : (forall i, (i < d)%nat -> f i = 0%R) -> nsum d f = 0%R.
Proof. induction d as [|d IH]; intros H; [reflexivity|]. rewrite nsum_S, IH, H by auto; ring. Qed.
Lemma nsum_const d c : nsum d (fun _ => c) = (INR d * c)%R.
Proof. induction d as [|d IH]; [rewrite nsum_0; simpl; ring|]. rewrite nsum_S, IH, S_INR; ring. Qed.
Lemma nsum_le d f g : (forall i, (i < d)%nat -> (f i <= g i)%R) -> (nsum d f <= nsum d g)%R.
Proof. induction d as [|d IH]; intros H; [rewrite !nsum_0; lra|]. rewrite !nsum_S. apply Rplus_le_compat; auto. Qed.
Lemma nsum_nonneg d f : (forall i, (i < d)%nat -> (0 <= f i)%R) -> (0 <= nsum d f)%R.
Proof. intros H. rewrite <- (@nsum_zero d (fun _ => 0%R)) by auto. apply nsum_le; auto. Qed.
Lemma asum_nsum s d (f : nat -> list Z -> R) :
  asum s (fun ix => nsum d (fun i => f i ix)) = nsum d (fun i => asum s (f i)).
Proof.
  induction d as [|d IH].
  - rewrite nsum_0. rewrite <- (asum_0 s). apply asum_ext; reflexivity.
  - rewrite nsum_S, <- IH, <- asum_plus. apply asum_ext; intros. apply nsum_S.
Qed.

Lemma fold_left_Rplus l a : fold_left Rplus l a = (a + lsum l)%R.
Proof. revert a; induction l as [|x l IH]; intros a; simpl; [ring|]. rewrite IH; ring. Qed.
Lemma lsum_nth l : lsum l = nsum (length l) (fun i => nth i l 0%R).
Proof.
  induction l as [|x l IH] using rev_ind; [reflexivity|].
  rewrite app_length; simpl. rewrite Nat.add_1_r, nsum_S, lsum_app. simpl.
  rewrite IH, app_nth2, Nat.sub_diag by lia. simpl. rewrite Rplus_0_r. f_equal.
  apply nsum_ext; intros i Hi. rewrite app_nth1 by auto. reflexivity.
Qed.

(** ** loops *)
Lemma foldM_axes g o (step : garr -> nat -> result garr) (T : nat -> list Z -> R) d :
  (forall acc ax G, (ax < d)%nat -> prep g o G acc ->
     exists w, step acc ax = Ok w /\ prep g o (fun ix => G ix + T ax ix)%R w) ->
  forall acc G, prep g o G acc ->
    exists w, foldM step acc (seq 0 d) = Ok w /\ prep g o (fun ix => G ix + nsum d (fun ax => T ax ix))%R w.
Proof.
  intros Hstep.
  assert (Hgen : forall n s acc G, (s + n <= d)%nat -> prep g o G acc ->
    exists w, foldM step acc (seq s n) = Ok w /\
              prep g o (fun ix => G ix + lsum (map (fun ax => T ax ix) (seq s n)))%R w).
  { induction n as [|n IH]; intros s acc G Hs Hacc; simpl.
    - exists acc; split; auto. eapply prep_ext; [|exact Hacc]. intros; simpl; ring.
    - destruct (Hstep acc s G) as (a1 & E1 & H1); [lia | auto|]. rewrite E1. simpl.
      destruct (IH (S s) a1 _ ltac:(lia) H1) as (w & E & H). exists w; split; auto.
      eapply prep_ext; [|exact H]. intros ix Hi. simpl. ring. }
  intros acc G Hacc. apply Hgen; auto.
Qed.

Lemma mapM_enum {A B} (f : nat * A -> result B) (P : nat -> B -> Prop) l da :
  (forall i, (i < length l)%nat -> exists w, f (i, nth i l da) = Ok w /\ P i w) ->
  exists ws, mapM f (enumerate l) = Ok ws /\ length ws = length l /\
             forall i dw, (i < length l)%nat -> P i (nth i ws dw).
Proof.
  intros H. unfold enumerate.
  assert (Hgen : forall s l', (forall i, (i < length l')%nat -> exists w, f ((s + i)%nat, nth i l' da) = Ok w /\ P (s + i)%nat w) ->
    exists ws, mapM f (combine (seq s (length l')) l') = Ok ws /\ length ws = length l' /\
               forall i dw, (i < length l')%nat -> P (s + i)%nat (nth i ws dw)).
  { intros s l'; revert s; induction l' as [|x l' IH]; intros s Hl; simpl.
    - exists []; repeat split; auto. intros; lia.
    - destruct (Hl 0%nat) as (w & Ew & Hw); [simpl; lia|]. simpl in Ew. rewrite Nat.add_0_r in *. rewrite Ew. simpl.
      destruct (IH (S s)) as (ws & E & HL & Hws).
      { intros i Hi. destruct (Hl (S i)) as (w' & Ew' & Hw'); [simpl; lia|]. exists w'.
        simpl in Ew'. rewrite Nat.add_succ_r in *. split; auto. }
      rewrite E. simpl. exists (w :: ws). repeat split; simpl; auto.
      intros [|i] dw Hi; simpl; [rewrite Nat.add_0_r; auto|].
      specialize (Hws i dw). rewrite Nat.add_succ_r. simpl in Hws. apply Hws; lia. }
  destruct (Hgen 0%nat l) as (ws & E & HL & Hws); [exact H|]. exists ws; auto.
Qed.

Definition dga : garr := mkga (afull [] 0%R) [] (mkgrid [] [] []).
Definition dgv : gvar := mkgv dga (mkbc [] [] true).

Lemma ga_sum_prep g o (T : nat -> list Z -> R) ws :
  (0 < length ws)%nat -> (forall i, (i < length ws)%nat -> prep g o (T i) (nth i ws dga)) ->
  exists w, ga_sum ws = Ok w /\ prep g o (fun ix => nsum (length ws) (fun i => T i ix)) w.
Proof.
  intros Hn H. destruct ws as [|d0 ws]; [simpl in Hn; lia|]. simpl ga_sum.
  pose proof (H 0%nat ltac:(simpl; lia)) as H0. simpl in H0.
  destruct (prep_scalar_l Rplus 0%R H0) as (a0 & E0 & Ha0). rewrite E0. cbn [bind].
  assert (Hgen : forall l s acc G, (forall i, (i < length l)%nat -> prep g o (T (s + i)%nat) (nth i l dga)) ->
    prep g o G acc -> exists w, foldM ga_add acc l = Ok w /\
      prep g o (fun ix => G ix + lsum (map (fun i => T i ix) (seq s (length l))))%R w).
  { induction l as [|x l IH]; intros s acc G Hl Hacc; simpl.
    - exists acc; split; auto. eapply prep_ext; [|exact Hacc]. intros; ring.
    - pose proof (Hl 0%nat ltac:(simpl; lia)) as Hx. simpl in Hx. rewrite Nat.add_0_r in Hx.
      destruct (prep_op2 Rplus Hacc Hx) as (a1 & E1 & H1). unfold ga_add at 1. rewrite E1. simpl.
      destruct (IH (S s) a1 (fun ix => G ix + T s ix)%R) as (w & Ew & Hw); auto.
      { intros i Hi. specialize (Hl (S i) ltac:(simpl; lia)). simpl in Hl. rewrite Nat.add_succ_r in Hl. auto. }
      exists w; split; auto. eapply prep_ext; [|exact Hw]. intros; simpl; ring. }
  destruct (Hgen ws 1%nat a0 (fun ix => 0 + T 0%nat ix)%R) as (w & Ew & Hw); auto.
  { intros i Hi. apply (H (S i)). simpl; lia. }
  exists w; split; [exact Ew|]. eapply prep_ext; [|exact Hw].
  intros ix Hi. unfold nsum. simpl. ring.
Qed.

(** ** laplacian *)

Definition lapF (g : grid) (F : list Z -> R) (ix : list Z) : R :=
  nsum (gndim g) (fun ax => (F (shiftix ax 1 ix) - 2 * F ix + F (shiftix ax (-1) ix)) * Rsqr (1 / hstep g ax))%R.

Lemma lap_prep g o F u :
  wfg g -> periodic (gshape g) F -> length o = gndim g -> pvar g o F u ->
  exists w, laplacian u = Ok w /\ prep g o (lapF g F) w.
Proof.
  intros Hw HF Ho Hu. unfold laplacian.
  assert (Hg : ggrid (garray u) = g) by (destruct Hu as ((A & _) & _); auto).
  assert (Hd : vndim u = gndim g) by (unfold vndim; rewrite Hg; auto).
  rewrite Hg, Hd.
  set (scales := map (fun h => Rsqr (1 / h)) (gstep g)).
  destruct Hu as (Hp & Hb). unfold ga_scale.
  destruct (prep_scalar_l Rmult (-2)%R Hp) as (r0 & E0 & H0). rewrite E0. cbn [bind].
  destruct (prep_scalar_r Rmult (fold_left Rplus scales 0%R) H0) as (r & Er & Hr). rewrite Er. cbn [bind].
  destruct (@foldM_axes g o
     (fun acc ax => let* a := gv_shift u (-1) ax in let* b := gv_shift u 1 ax in
                    let* s := stencil_sum [a; b] in
                    let* t := array_ufunc (raw2 Rmult) [OGA s; OScalar (nth ax scales 0%R)] in ga_add acc t)
     (fun ax ix => (F (shiftix ax (-1) ix) + F (shiftix ax 1 ix)) * nth ax scales 0)%R (gndim g)) with
     (acc := r) (G := (fun ix : list Z => -2 * F ix * fold_left Rplus scales 0)%R) as (w & Ew & Hww); auto.
  - intros acc ax G Hax Hacc.
    destruct (@pvar_shift g o F u (-1) ax) as (a & Ea & Ha); auto; [split; auto|]. rewrite Ea. cbn [bind].
    destruct (@pvar_shift g o F u 1 ax) as (b & Eb & Hbb); auto; [split; auto|]. rewrite Eb. cbn [bind].
    assert (Hl : (ax < length o)%nat) by lia.
    destruct (prep_stencil_shifts _ _ _ Hl Ha Hbb) as (s & Es & Hs). rewrite Es. cbn [bind].
    destruct (prep_scalar_r Rmult (nth ax scales 0%R) Hs) as (t & Et & Ht). rewrite Et. cbn [bind].
    assert (Ht' : prep g o (fun ix => (F (shiftix ax (-1) ix) + F (shiftix ax 1 ix)) * nth ax scales 0)%R t).
    { eapply prep_off; [|exact Ht]. eapply off_eq_trans; [|apply offs_0 with (ax := ax)].
      apply off_eq_offs; [apply off_eq_refl | reflexivity]. }
    destruct (prep_op2 Rplus Hacc Ht') as (w & Ew & Hww). exists w; split; auto.
  - exists w; split; [exact Ew|]. eapply prep_ext; [|exact Hww].
    intros ix Hi. unfold lapF. rewrite fold_left_Rplus, lsum_nth.
    assert (HL : length scales = gndim g) by (unfold scales; rewrite map_length; apply Hw).
    rewrite HL, Rplus_0_l, <- nsum_scal, <- nsum_plus. apply nsum_ext; intros i Hii.
    unfold scales. rewrite (@nth_map' R R _ (gstep g) i 0%R) by (destruct Hw as (Hst & _); lia).
    fold (hstep g i). ring.
Qed.

(** ** divergence *)
Definition pvec (g : grid) (os : nat -> list Q) (Fs : nat -> list Z -> R) (v : list gvar) : Prop :=
  length v = gndim g /\ forall i, (i < gndim g)%nat -> pvar g (os i) (Fs i) (nth i v dgv).

Definition bdF (g : grid) (ax : nat) (F : list Z -> R) (ix : list Z) : R :=
  ((F ix - F (shiftix ax (-1) ix)) / hstep g ax)%R.
Definition fdF (g : grid) (ax : nat) (F : list Z -> R) (ix : list Z) : R :=
  ((F (shiftix ax 1 ix) - F ix) / hstep g ax)%R.
Definition cdF (g : grid) (ax : nat) (F : list Z -> R) (ix : list Z) : R :=
  ((F (shiftix ax 1 ix) - F (shiftix ax (-1) ix)) / (2 * hstep g ax))%R.
Definition divF (g : grid) (Fs : nat -> list Z -> R) (ix : list Z) : R :=
  nsum (gndim g) (fun i => bdF g i (Fs i) ix).
Definition cdivF (g : grid) (Fs : nat -> list Z -> R) (ix : list Z) : R :=
  nsum (gndim g) (fun i => cdF g i (Fs i) ix).

Lemma consistent_grid_all g l : (0 < length l)%nat -> (forall u, In u l -> ggrid u = g) -> consistent_grid l = Ok g.
Proof.
  destruct l as [|a l]; simpl; intros Hl H; [lia|].
  rewrite (H a) by auto. replace (forallb _ l) with true; auto.
  symmetry. apply forallb_forall. intros x Hx. rewrite (H x) by auto. apply grid_eqb_refl.
Qed.

Lemma pvec_consistent g os Fs v : (0 < gndim g)%nat -> pvec g os Fs v -> consistent_grid (map garray v) = Ok g.
Proof.
  intros Hd (HL & H). apply consistent_grid_all; [rewrite map_length; lia|].
  intros u Hu. apply in_map_iff in Hu. destruct Hu as (x & <- & Hx).
  apply (In_nth _ _ dgv) in Hx. destruct Hx as (i & Hi & <-).
  destruct (H i) as ((A & _) & _); [lia | auto].
Qed.

Lemma div_prep g o os Fs v :
  wfg g -> (0 < gndim g)%nat -> pvec g os Fs v ->
  (forall i, (i < gndim g)%nat -> periodic (gshape g) (Fs i)) ->
  (forall i, (i < gndim g)%nat -> length (os i) = gndim g /\ off_eq (offs i (- 1 # 2) (os i)) o) ->
  exists w, divergence v = Ok w /\ prep g o (divF g Fs) w.
Proof.
  intros Hw Hd Hv HF Ho. unfold divergence. rewrite (pvec_consistent Hd Hv). cbn [bind].
  destruct Hv as (HL & Hv). rewrite HL, Nat.eqb_refl. cbn [negb].
  destruct (@mapM_enum gvar garr (fun au => backward_difference (snd au) (fst au))
              (fun i w => prep g o (bdF g i (Fs i)) w) v dgv) as (ws & E & HLw & Hws).
  - intros i Hi. rewrite HL in Hi. destruct (Ho i Hi) as (Hol & Hoe).
    destruct (@bwd_prep g (os i) (Fs i) (nth i v dgv) i) as (w & Ew & Hww); auto.
    exists w; split; [exact Ew|]. eapply prep_off; [exact Hoe | exact Hww].
  - rewrite E. cbn [bind].
    destruct (@ga_sum_prep g o (fun i => bdF g i (Fs i)) ws) as (w & Ew & Hww).
    + lia.
    + intros i Hi. apply Hws. lia.
    + exists w; split; [exact Ew|]. rewrite HLw, HL in Hww. exact Hww.
Qed.

Lemma cdiv_prep g o os Fs v :
  wfg g -> (0 < gndim g)%nat -> pvec g os Fs v ->
  (forall i, (i < gndim g)%nat -> periodic (gshape g) (Fs i)) ->
  (forall i, (i < gndim g)%nat -> length (os i) = gndim g /\ off_eq (os i) o) ->
  exists w, centered_divergence v = Ok w /\ prep g o (cdivF g Fs) w.
Proof.
  intros Hw Hd Hv HF Ho. unfold centered_divergence. rewrite (pvec_consistent Hd Hv). cbn [bind].
  destruct Hv as (HL & Hv). rewrite HL, Nat.eqb_refl. cbn [negb].
  destruct (@mapM_enum gvar garr (fun au => central_difference (snd au) (fst au))
              (fun i w => prep g o (cdF g i (Fs i)) w) v dgv) as (ws & E & HLw & Hws).
  - intros i Hi. rewrite HL in Hi. destruct (Ho i Hi) as (Hol & Hoe).
    destruct (@ctr_prep g (os i) (Fs i) (nth i v dgv) i) as (w & Ew & Hww); auto.
    exists w; split; [exact Ew|]. eapply prep_off; [exact Hoe | exact Hww].
  - rewrite E. cbn [bind].
    destruct (@ga_sum_prep g o (fun i => cdF g i (Fs i)) ws) as (w & Ew & Hww).
    + lia.
    + intros i Hi. apply Hws. lia.
    + exists w; split; [exact Ew|]. rewrite HLw, HL in Hww. exact Hww.
Qed.

(** ** algebra of periodic stencils *)
Lemma periodic_bdF g ax F : periodic (gshape g) F -> periodic (gshape g) (bdF g ax F).
Proof.
  intros HF ix HL. unfold bdF. rewrite (HF ix HL).
  pose proof (@periodic_shift (gshape g) ax (-1) F HF ix HL) as H. simpl in H. rewrite H. reflexivity.
Qed.
Lemma periodic_fdF g ax F : periodic (gshape g) F -> periodic (gshape g) (fdF g ax F).
Proof.
  intros HF ix HL. unfold fdF. rewrite (HF ix HL).
  pose proof (@periodic_shift (gshape g) ax 1 F HF ix HL) as H. simpl in H. rewrite H. reflexivity.
Qed.
Lemma periodic_nsum s d (f : nat -> list Z -> R) :
  (forall i, (i < d)%nat -> periodic s (f i)) -> periodic s (fun ix => nsum d (fun i => f i ix)).
Proof. intros H ix HL. apply nsum_ext; intros i Hi. apply H; auto. Qed.

Lemma lapF_is_div_grad g F ix : lapF g F ix = divF g (fun i => fdF g i F) ix.
Proof.
  unfold lapF, divF, bdF, fdF. apply nsum_ext; intros i Hi.
  rewrite shiftix_add. simpl. rewrite shiftix_0. unfold Rsqr, Rdiv. ring.
Qed.

Lemma sum_bdF g ax F : allpos (gshape g) -> periodic (gshape g) F -> asum (gshape g) (bdF g ax F) = 0%R.
Proof.
  intros Hp HF. unfold bdF, Rdiv.
  rewrite asum_scal_r, asum_minus, asum_shift_periodic by auto. ring.
Qed.
Lemma sum_fdF g ax F : allpos (gshape g) -> periodic (gshape g) F -> asum (gshape g) (fdF g ax F) = 0%R.
Proof.
  intros Hp HF. unfold fdF, Rdiv.
  rewrite asum_scal_r, asum_minus, asum_shift_periodic by auto. ring.
Qed.
Lemma sum_cdF g ax F : allpos (gshape g) -> periodic (gshape g) F -> asum (gshape g) (cdF g ax F) = 0%R.
Proof.
  intros Hp HF. unfold cdF, Rdiv.
  rewrite asum_scal_r, asum_minus, !asum_shift_periodic by auto. ring.
Qed.
Lemma sum_divF g Fs : allpos (gshape g) -> (forall i, (i < gndim g)%nat -> periodic (gshape g) (Fs i)) ->
  asum (gshape g) (divF g Fs) = 0%R.
Proof.
  intros Hp HF. unfold divF. rewrite asum_nsum. apply nsum_zero; intros i Hi. apply sum_bdF; auto.
Qed.
Lemma sum_cdivF g Fs : allpos (gshape g) -> (forall i, (i < gndim g)%nat -> periodic (gshape g) (Fs i)) ->
  asum (gshape g) (cdivF g Fs) = 0%R.
Proof.
  intros Hp HF. unfold cdivF. rewrite asum_nsum. apply nsum_zero; intros i Hi. apply sum_cdF; auto.
Qed.
Lemma sum_lapF g F : allpos (gshape g) -> periodic (gshape g) F -> asum (gshape g) (lapF g F) = 0%R.
Proof.
  intros Hp HF. rewrite (asum_ext (gshape g) (lapF g F) (divF g (fun i => fdF g i F))) by (intros; apply lapF_is_div_grad).
  apply sum_divF; auto. intros; apply periodic_fdF; auto.
Qed.

Lemma periodic_mult s F G : periodic s F -> periodic s G -> periodic s (fun ix => F ix * G ix)%R.
Proof. intros HF HG ix HL. rewrite HF, HG by auto. reflexivity. Qed.

(** summation by parts along one axis *)
Lemma sbp_axis g ax F G : allpos (gshape g) -> periodic (gshape g) F -> periodic (gshape g) G ->
  asum (gshape g) (fun ix => F ix * bdF g ax G ix)%R = (- asum (gshape g) (fun ix => fdF g ax F ix * G ix))%R.
Proof.
  intros Hp HF HG. unfold bdF, fdF, Rdiv.
  assert (E1 : asum (gshape g) (fun ix => F ix * ((G ix - G (shiftix ax (-1) ix)) * / hstep g ax))%R
    = (/ hstep g ax * (asum (gshape g) (fun ix => F ix * G ix) - asum (gshape g) (fun ix => F ix * G (shiftix ax (-1) ix))))%R).
  { rewrite <- asum_minus, <- asum_scal. apply asum_ext; intros; ring. }
  assert (E2 : asum (gshape g) (fun ix => (F (shiftix ax 1 ix) - F ix) * / hstep g ax * G ix)%R
    = (/ hstep g ax * (asum (gshape g) (fun ix => F (shiftix ax 1 ix) * G ix) - asum (gshape g) (fun ix => F ix * G ix)))%R).
  { rewrite <- asum_minus, <- asum_scal. apply asum_ext; intros; ring. }
  rewrite E1, E2.
  assert (E3 : asum (gshape g) (fun ix => F ix * G (shiftix ax (-1) ix))%R = asum (gshape g) (fun ix => F (shiftix ax 1 ix) * G ix)%R).
  { rewrite <- (@asum_shift_periodic (gshape g) ax 1 (fun ix => F ix * G (shiftix ax (-1) ix))%R); auto.
    - apply asum_ext; intros ix Hi. rewrite shiftix_add. simpl. rewrite shiftix_0. reflexivity.
    - apply periodic_mult; auto. apply periodic_shift; auto. }
  rewrite E3. ring.
Qed.

Lemma sbp g F Gs : allpos (gshape g) -> periodic (gshape g) F -> (forall i, (i < gndim g)%nat -> periodic (gshape g) (Gs i)) ->
  asum (gshape g) (fun ix => F ix * divF g Gs ix)%R
  = (- nsum (gndim g) (fun i => asum (gshape g) (fun ix => fdF g i F ix * Gs i ix)))%R.
Proof.
  intros Hp HF HG. unfold divF. rewrite <- nsum_opp.
  rewrite (asum_ext _ _ (fun ix => nsum (gndim g) (fun i => F ix * bdF g i (Gs i) ix)))%R
    by (intros; rewrite nsum_scal; reflexivity).
  rewrite asum_nsum. apply nsum_ext; intros i Hi. apply sbp_axis; auto.
Qed.

Lemma lapF_neg g F G : allpos (gshape g) -> periodic (gshape g) F -> periodic (gshape g) G ->
  asum (gshape g) (fun ix => F ix * lapF g G ix)%R
  = (- nsum (gndim g) (fun i => asum (gshape g) (fun ix => fdF g i F ix * fdF g i G ix)))%R.
Proof.
  intros Hp HF HG.
  rewrite (asum_ext _ _ (fun ix => F ix * divF g (fun i => fdF g i G) ix))%R
    by (intros; rewrite lapF_is_div_grad; reflexivity).
  apply sbp; auto. intros; apply periodic_fdF; auto.
Qed.

(** ** curl *)
Lemma fdF_comm g a b F ix : fdF g a (fdF g b F) ix = fdF g b (fdF g a F) ix.
Proof. unfold fdF. rewrite (shiftix_comm a b). unfold Rdiv. ring. Qed.
Lemma bdF_fdF_comm g a b F ix : bdF g a (fdF g b F) ix = fdF g b (bdF g a F) ix.
Proof. unfold fdF, bdF. rewrite (shiftix_comm b a). unfold Rdiv. ring. Qed.
