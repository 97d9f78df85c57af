(** * Interpolation of periodic fields *)
From Coq Require Import Qreals.
From Verif Require Import Prelude NdArr Grids_model Spec Boundaries_model BoundariesPeriodic FD_model PRep FDProofs FDProps Interp_model.
Set Implicit Arguments.

Lemma foldM_app {A B} (f : A -> B -> result A) a l l' : foldM f a (l ++ l') = let* b := foldM f a l in foldM f b l'.
Proof. revert a; induction l as [|x l IH]; intros a; simpl; [reflexivity|]. destruct (f a x); simpl; auto. Qed.
Lemma Qfloor_inject z : Qfloor (inject_Z z) = z.
Proof. unfold Qfloor, inject_Z. apply Z.div_1_r. Qed.
Lemma lerp_axis_comp ax d d' F ix : (d == d')%Q -> lerp_axis ax d F ix = lerp_axis ax d' F ix.
Proof.
  intros H. unfold lerp_axis. rewrite (Qfloor_comp _ _ H).
  rewrite (Qeq_eqR _ (d' - inject_Z (Qfloor d'))) by (rewrite H; reflexivity). reflexivity.
Qed.
Lemma lerp_axis_int ax z F ix : lerp_axis ax (inject_Z z) F ix = F (shiftix ax z ix).
Proof.
  unfold lerp_axis. rewrite Qfloor_inject.
  rewrite (Qeq_eqR _ 0) by ring. rewrite RMicromega.Q2R_0. ring.
Qed.
Lemma lerp_axis_ext (s : list nat) ax d F G : (forall ix, length ix = length s -> F ix = G ix) ->
  forall ix, length ix = length s -> lerp_axis ax d F ix = lerp_axis ax d G ix.
Proof. intros H ix HL. unfold lerp_axis. rewrite !H by (rewrite shiftix_length; auto). reflexivity. Qed.
Lemma lerp_axis_periodic s ax d F : periodic s F -> periodic s (lerp_axis ax d F).
Proof.
  intros HF ix HL. unfold lerp_axis.
  rewrite (@periodic_shift s ax (Qfloor d) F HF ix HL), (@periodic_shift s ax (Qfloor d + 1) F HF ix HL). reflexivity.
Qed.

Lemma frac_range d : (0 <= Q2R (d - inject_Z (Qfloor d)) < 1)%R.
Proof.
  pose proof (Qfloor_le d) as H1. pose proof (Qlt_floor d) as H2.
  split.
  - rewrite <- RMicromega.Q2R_0. apply Qle_Rle. Lqa.lra.
  - replace 1%R with (Q2R 1) by (unfold Q2R; simpl; lra). apply Qlt_Rlt.
    rewrite inject_Z_plus in H2. change (inject_Z 1) with 1%Q in H2. Lqa.lra.
Qed.

Lemma lerp_axis_bounds (s : list nat) ax d F m M : (forall ix, length ix = length s -> (m <= F ix <= M)%R) ->
  forall ix, length ix = length s -> (m <= lerp_axis ax d F ix <= M)%R.
Proof.
  intros H ix HL. unfold lerp_axis. pose proof (frac_range d) as Hf. set (f := Q2R _) in *.
  pose proof (H (shiftix ax (Qfloor d) ix)) as H1. pose proof (H (shiftix ax (Qfloor d + 1) ix)) as H2.
  rewrite !shiftix_length in *. specialize (H1 HL). specialize (H2 HL). nra.
Qed.
Lemma lerp_axis_sum s ax d F : allpos s -> periodic s F -> asum s (lerp_axis ax d F) = asum s F.
Proof.
  intros Hp HF. unfold lerp_axis. set (f := Q2R _).
  rewrite asum_plus, !asum_scal, !asum_shift_periodic by auto. ring.
Qed.

(** Qfloor + 1 = Qceiling for non-integers *)
Lemma int_case d : (inject_Z (py_int d) == d)%Q \/ (Qeq_bool (inject_Z (py_int d)) d = false).
Proof. destruct (Qeq_bool _ d) eqn:E; [left; apply Qeq_bool_iff; auto | right; auto]. Qed.
Lemma py_int_inject z d : (d == inject_Z z)%Q -> py_int d = z.
Proof.
  unfold Qeq, py_int, inject_Z. simpl. rewrite Z.mul_1_r. intros ->. apply Z.quot_mul. lia.
Qed.
Lemma ceil_floor d : Qeq_bool (inject_Z (py_int d)) d = false -> Qceiling d = (Qfloor d + 1)%Z.
Proof.
  intros H. unfold Qceiling.
  assert (Hn : ~ (d == inject_Z (Qfloor d))%Q).
  { intros E. rewrite (py_int_inject E) in H. apply Qeq_bool_neq in H. apply H. symmetry. exact E. }
  assert (Hf : Qfloor (- d) = (- Qfloor d - 1)%Z); [|lia].
  pose proof (Qfloor_le d) as H1. pose proof (Qlt_floor d) as H2. pose proof (Qfloor_le (- d)) as H3. pose proof (Qlt_floor (- d)) as H4.
  rewrite inject_Z_plus in H2, H4. change (inject_Z 1) with 1%Q in *.
  assert (A1 : (inject_Z (Qfloor d) < d)%Q) by (apply Qle_lteq in H1; destruct H1; auto; exfalso; apply Hn; symmetry; auto).
  assert (B1 : (inject_Z (Qfloor (- d)) < inject_Z (- Qfloor d))%Q) by (rewrite inject_Z_opp; Lqa.lra).
  assert (B2 : (inject_Z (- Qfloor d - 2) < inject_Z (Qfloor (- d)))%Q).
  { unfold Z.sub. rewrite inject_Z_plus, !inject_Z_opp. change (inject_Z 2) with 2%Q. Lqa.lra. }
  rewrite <- Zlt_Qlt in B1, B2. lia.
Qed.

Lemma perbc_length g b : perbc g b -> length (btypes b) = gndim g.
Proof. intros H. unfold perbc in H. rewrite H, repeat_length. reflexivity. Qed.
Lemma mk_gvar_ok g u b : ggrid u = g -> perbc g b -> mk_gvar u b = Ok (mkgv u b).
Proof. intros H Hb. unfold mk_gvar. rewrite H, (perbc_length Hb), Nat.eqb_refl. reflexivity. Qed.

Lemma raw2_ok f a b s F G : shp a = s -> shp b = s ->
  (forall ix, inb s ix -> get a ix = F ix) -> (forall ix, inb s ix -> get b ix = G ix) ->
  exists d, raw2 f [a; b] = Ok d /\ shp d = s /\ forall ix, inb s ix -> get d ix = f (F ix) (G ix).
Proof.
  intros Ha Hb HF HG. unfold raw2. rewrite Ha, Hb, shape_eqb_refl. eexists; split; [reflexivity|]. split; [exact Ha|].
  intros ix Hi. simpl. rewrite HF, HG by auto. reflexivity.
Qed.

Section Lin.
Variables (g : grid) (o : list Q) (F : list Z -> R) (c : gvar) (ax : nat).
Hypothesis (Hw : wfg g) (HF : periodic (gshape g) F) (Hax : (ax < gndim g)%nat)
           (Ho : length o = gndim g) (Hc : pvar g o F c).

Lemma lin_axis_prep off : exists w, linear_along_axis c off ax = Ok w /\ gbc w = gbc c /\
  pvar g (upd ax off o) (lerp_axis ax (off - nth ax o 0)%Q F) w.
Proof.
  pose proof Hc as ((A & B & C & D) & Hb).
  unfold linear_along_axis. set (d := (off - nth ax (goff (garray c)) 0)%Q).
  assert (Ed : (d == off - nth ax o 0)%Q) by (unfold d; rewrite (off_eq_nth ax B); reflexivity).
  destruct (Qeq_bool d 0) eqn:E0.
  { apply Qeq_bool_iff in E0. exists c. split; [reflexivity|]. split; [reflexivity|]. split; [|exact Hb].
    eapply prep_off; [|eapply prep_ext; [|apply Hc]].
    - apply off_eq_intro; [rewrite upd_length; reflexivity|]. intros k Hk.
      destruct (Nat.eq_dec k ax) as [->|Hne]; [rewrite nth_upd_same by auto | rewrite nth_upd_other by auto; reflexivity].
      rewrite Ed in E0. Lqa.lra.
    - intros ix Hix. rewrite <- (lerp_axis_comp ax F ix Ed). rewrite (lerp_axis_comp ax F ix E0).
      change 0%Q with (inject_Z 0). rewrite lerp_axis_int, shiftix_0. reflexivity. }
  destruct (Qeq_bool (inject_Z (py_int d)) d) eqn:E1.
  - apply Qeq_bool_iff in E1.
    destruct (pvar_shift (py_int d) Hw HF Hax Ho Hc) as (s & Es & (A1 & B1 & C1 & D1)). rewrite Es. cbn [bind].
    rewrite (@mk_gvar_ok g _ (gbc c)) by auto. eexists; split; [reflexivity|]. split; [reflexivity|]. split; [|exact Hb].
    split; [exact A|]. split; [cbn [goff garray]; apply off_eq_upd; auto; reflexivity|]. split; [exact C1|]. intros ix Hix. cbn [garray gdata].
    rewrite D1 by auto. rewrite <- (lerp_axis_comp ax F ix Ed), <- (lerp_axis_comp ax F ix E1), lerp_axis_int. reflexivity.
  - pose proof (ceil_floor _ E1) as Ec.
    destruct (pvar_shift (Qfloor d) Hw HF Hax Ho Hc) as (s1 & Es1 & (A1 & B1 & C1 & D1)). rewrite Es1. cbn [bind].
    destruct (pvar_shift (Qceiling d) Hw HF Hax Ho Hc) as (s2 & Es2 & (A2 & B2 & C2 & D2)). rewrite Es2. cbn [bind].
    set (fw := (inject_Z (Qceiling d) - d)%Q).
    destruct (@raw2_ok Rplus (amap (Rmult (Q2R fw)) (gdata s1)) (amap (Rmult (Q2R (1 - fw))) (gdata s2)) (gshape g)
      (fun ix => Q2R fw * F (shiftix ax (Qfloor d) ix))%R (fun ix => Q2R (1 - fw) * F (shiftix ax (Qceiling d) ix))%R) as (dd & Edd & Sd & Vd); auto.
    { intros ix Hix. cbn. rewrite D1 by auto. reflexivity. }
    { intros ix Hix. cbn. rewrite D2 by auto. reflexivity. }
    rewrite Edd. cbn [bind]. rewrite (@mk_gvar_ok g _ (gbc c)) by auto. eexists; split; [reflexivity|]. split; [reflexivity|]. split; [|exact Hb].
    split; [exact A|]. split; [cbn [goff garray]; apply off_eq_upd; auto; reflexivity|]. split; [exact Sd|]. intros ix Hix. cbn [garray gdata].
    rewrite Vd by auto. rewrite <- (lerp_axis_comp ax F ix Ed). unfold lerp_axis. rewrite Ec.
    unfold fw. rewrite Ec. rewrite inject_Z_plus. change (inject_Z 1) with 1%Q.
    rewrite (Qeq_eqR (1 - (inject_Z (Qfloor d) + 1 - d)) (d - inject_Z (Qfloor d))) by ring.
    rewrite (Qeq_eqR (inject_Z (Qfloor d) + 1 - d) (1 - (d - inject_Z (Qfloor d)))) by ring.
    rewrite (Q2R_minus 1). replace (Q2R 1) with 1%R by (unfold Q2R; simpl; lra). reflexivity.
Qed.
End Lin.

Lemma lerp_periodic s n o o' F : periodic s F -> periodic s (lerp n o o' F).
Proof. intros HF. induction n; simpl; auto. apply lerp_axis_periodic; auto. Qed.

Lemma lin_all_prep g o F c o' : wfg g -> periodic (gshape g) F -> length o = gndim g -> length o' = gndim g -> pvar g o F c ->
  exists w, linear_interp c o' = Ok w /\ gbc w = gbc c /\ pvar g o' (lerp (gndim g) o o' F) w.
Proof.
  intros Hw HF Ho Ho' Hc. unfold linear_interp.
  assert (Hl : length (goff (garray c)) = gndim g) by (destruct Hc as ((_ & B & _) & _); rewrite (off_eq_length B); auto).
  rewrite Hl, Ho', Nat.eqb_refl. cbn [negb].
  assert (Hgen : forall n, (n <= gndim g)%nat ->
    exists w, foldM (fun acc ao => linear_along_axis acc (snd ao) (fst ao)) c (firstn n (combine (seq 0 (gndim g)) o')) = Ok w /\
      gbc w = gbc c /\ pvar g (firstn n o' ++ skipn n o) (lerp n o o' F) w).
  { induction n as [|n IH]; intros Hn.
    - exists c. split; [reflexivity|]. split; [reflexivity|]. exact Hc.
    - destruct IH as (w & E & Eb & Hww); [lia|].
      assert (Hcl : length (combine (seq 0 (gndim g)) o') = gndim g) by (rewrite combine_length, seq_length; lia).
      assert (Es : firstn (S n) (combine (seq 0 (gndim g)) o') = firstn n (combine (seq 0 (gndim g)) o') ++ [(n, nth n o' 0%Q)]).
      { rewrite <- (firstn_skipn n (combine (seq 0 (gndim g)) o')) at 1.
        rewrite firstn_app, firstn_firstn. rewrite Nat.min_r by lia. f_equal. rewrite firstn_length, Hcl. rewrite Nat.min_l by lia.
        replace (S n - n)%nat with 1%nat by lia.
        assert (Hnt : nth n (combine (seq 0 (gndim g)) o') (0%nat, 0%Q) = (n, nth n o' 0%Q)).
        { rewrite combine_nth by (rewrite seq_length; auto). rewrite seq_nth by lia. reflexivity. }
        assert (Hsk : skipn n (combine (seq 0 (gndim g)) o') = nth n (combine (seq 0 (gndim g)) o') (0%nat, 0%Q) :: skipn (S n) (combine (seq 0 (gndim g)) o')).
        { clear - Hcl Hn. set (l := combine (seq 0 (gndim g)) o') in *. assert (Hln : (n < length l)%nat) by lia. clearbody l. clear Hcl Hn. revert l Hln. induction n as [|n IH]; intros [|x l] Hl; simpl in *; try lia; auto. apply IH. lia. }
        rewrite Hsk, Hnt. reflexivity. }
      rewrite Es. rewrite foldM_app, E. cbn [bind foldM fst snd].
      destruct (@lin_axis_prep g (firstn n o' ++ skipn n o) (lerp n o o' F) w n Hw) with (off := nth n o' 0%Q) as (w' & E' & Eb' & H'); auto; try lia.
      { apply lerp_periodic; auto. }
      { rewrite app_length, firstn_length, skipn_length. lia. }
      rewrite E'. cbn [bind]. exists w'. split; [reflexivity|]. split; [congruence|].
      assert (Hnn : nth n (firstn n o' ++ skipn n o) 0%Q = nth n o 0%Q).
      { rewrite app_nth2; rewrite firstn_length; [|lia]. rewrite Nat.min_l by lia. rewrite Nat.sub_diag. rewrite <- (firstn_skipn n o) at 2.
        rewrite app_nth2; rewrite firstn_length; [|lia]. rewrite Nat.min_l by lia. rewrite Nat.sub_diag. reflexivity. }
      rewrite Hnn in H'. destruct H' as (P & Q). split; [|exact Q]. cbn [lerp].
      eapply prep_off; [|exact P].
      apply off_eq_intro.
      { rewrite upd_length, !app_length, !firstn_length, !skipn_length. lia. }
      intros k Hk. rewrite upd_length, app_length, firstn_length, skipn_length in Hk.
      assert (Hkd : (k < gndim g)%nat) by lia.
      assert (Hmix : forall m, (m <= gndim g)%nat -> nth k (firstn m o' ++ skipn m o) 0%Q = if (k <? m)%nat then nth k o' 0%Q else nth k o 0%Q).
      { intros m Hm. destruct (Nat.ltb_spec k m) as [Hlt|Hge].
        - rewrite app_nth1 by (rewrite firstn_length; lia). rewrite <- (firstn_skipn m o') at 2. rewrite app_nth1 by (rewrite firstn_length; lia). reflexivity.
        - rewrite app_nth2 by (rewrite firstn_length; lia). rewrite <- (firstn_skipn m o) at 2. rewrite app_nth2 by (rewrite firstn_length; lia).
          rewrite !firstn_length, !Nat.min_l by lia. reflexivity. }
      destruct (Nat.eq_dec k n) as [->|Hne].
      + rewrite nth_upd_same by (rewrite app_length, firstn_length, skipn_length; lia). rewrite Hmix by lia.
        destruct (Nat.ltb_spec n (S n)); [reflexivity | lia].
      + rewrite nth_upd_other by auto. rewrite !Hmix by lia. destruct (Nat.ltb_spec k n), (Nat.ltb_spec k (S n)); try lia; reflexivity. }
  destruct (Hgen (gndim g) (Nat.le_refl _)) as (w & E & Eb & Hww).
  rewrite firstn_all2 in E by (rewrite combine_length, seq_length; lia).
  exists w. split; [exact E|]. split; [exact Eb|].
  rewrite firstn_all2 in Hww by lia. rewrite skipn_all2 in Hww by lia. rewrite app_nil_r in Hww. exact Hww.
Qed.
