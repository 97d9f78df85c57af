(** * Advection of periodic fields *)
From Coq Require Import Qreals.
From Verif Require Import Prelude NdArr Grids_model Spec Boundaries_model BoundariesPeriodic FD_model PRep FDProofs FDProps WallBC WallBCProps ImposeProps Pressure_model PressureProps Interp_model InterpProofs InterpProps UpwindProps TvdProps Advection_model.
Set Implicit Arguments.

Definition wrapF (g : grid) (F : list Z -> R) (ix : list Z) : R := F (wrap (gshape g) ix).
Lemma wrapF_periodic g F : periodic (gshape g) (wrapF g F).
Proof. intros ix HL. unfold wrapF. rewrite wrap_wrap by auto. reflexivity. Qed.
Lemma wrapF_prep g o F u : prep g o F u -> prep g o (wrapF g F) u.
Proof. apply prep_ext. intros ix Hix. unfold wrapF. rewrite wrap_inb by auto. reflexivity. Qed.
Lemma wrapF_inb g F ix : inb (gshape g) ix -> wrapF g F ix = F ix.
Proof. intros H. unfold wrapF. rewrite wrap_inb by auto. reflexivity. Qed.

Lemma flux_bc_inv g u c i b : perbc g (gbc u) -> gndim (ggrid (garray c)) = gndim g ->
  advection_flux_bc u c i = Ok b -> perbc g b.
Proof.
  intros Hu Hc E. unfold advection_flux_bc in E. destruct (negb (bhom (gbc u))); [discriminate|].
  rewrite Hc in E. apply bind_Ok_inv in E. destruct E as (l & El & E). injection E as <-.
  rewrite (@mapM_Ok _ _ _ (fun _ => ((Periodic, Periodic), (None, None)))) in El.
  - injection El as <-. unfold perbc. cbn [constant_bc btypes]. rewrite map_map.
    assert (Hm : forall n s, map (fun _ : nat => fst (Periodic, Periodic, (@None R, @None R))) (seq s n) = repeat (Periodic, Periodic) n).
    { induction n; intros s; simpl; auto. f_equal. apply IHn. }
    apply Hm.
  - intros ax Hax. apply in_seq in Hax. rewrite (@btype_perbc g) by (auto; lia). reflexivity.
Qed.
Lemma flux_bc_ok g u c i : perbc g (gbc u) -> bhom (gbc u) = true -> gndim (ggrid (garray c)) = gndim g ->
  exists b, advection_flux_bc u c i = Ok b /\ perbc g b.
Proof.
  intros Hu Hh Hc.
  assert (E : exists b, advection_flux_bc u c i = Ok b).
  { unfold advection_flux_bc. rewrite Hh. cbn [negb]. rewrite Hc.
    rewrite (@mapM_Ok _ _ _ (fun _ => ((Periodic, Periodic), (None, None)))); [cbn [bind]; eauto|].
    intros ax Hax. apply in_seq in Hax. rewrite (@btype_perbc g) by (auto; lia). reflexivity. }
  destruct E as (b & E). exists b. split; [exact E|]. eapply flux_bc_inv; eauto.
Qed.

Lemma mapM_length {A B} (f : A -> result B) l r : mapM f l = Ok r -> length r = length l.
Proof.
  revert r; induction l as [|x l IH]; intros r E; simpl in E; [injection E as <-; reflexivity|].
  apply bind_Ok_inv in E. destruct E as (y & _ & E). apply bind_Ok_inv in E. destruct E as (ys & Ey & E). injection E as <-. simpl. f_equal. auto.
Qed.
Lemma mapM_inv {A B} (f : A -> result B) l r : mapM f l = Ok r ->
  forall k da db, (k < length l)%nat -> f (nth k l da) = Ok (nth k r db).
Proof.
  revert r; induction l as [|x l IH]; intros r E k da db Hk; simpl in *; [lia|].
  apply bind_Ok_inv in E. destruct E as (y & Ey & E). apply bind_Ok_inv in E. destruct E as (ys & Eys & E). injection E as <-.
  destruct k as [|k]; simpl; [exact Ey|]. apply IH; auto. lia.
Qed.

(** The flux through the faces, as computed by [_advect_aligned]. *)
Lemma aligned_prep g o os U C ac av :
  wfg g -> (0 < gndim g)%nat -> length ac = gndim g -> length av = gndim g ->
  (forall i, (i < gndim g)%nat -> pvar g (os i) (U i) (nth i av dgv) /\ bhom (gbc (nth i av dgv)) = true /\
     prep g (os i) (C i) (garray (nth i ac dgv)) /\ length (os i) = gndim g /\
     off_eq (offs i (- 1 # 2) (os i)) o /\ periodic (gshape g) (U i) /\ periodic (gshape g) (C i)) ->
  exists w, advect_aligned ac av = Ok w /\ prep g o (fun ix => - divF g (fun i jx => C i jx * U i jx) ix)%R w.
Proof.
  intros Hw Hd Hc Hv H. unfold advect_aligned. rewrite Hc, Hv, Nat.eqb_refl. cbn [negb].
  destruct (@mapM_combine gvar gvar garr (fun cu => ga_mul (garray (fst cu)) (garray (snd cu)))
    (fun i w => prep g (os i) (fun jx => C i jx * U i jx)%R w) ac av dgv dgv) as (fl & Ef & HLf & Hf); [lia | |].
  { intros i Hi. rewrite Hc in Hi. destruct (H i Hi) as ((Pu & _) & _ & Pc & _). apply prep_op2; auto. }
  rewrite Ef. cbn [bind].
  destruct (@mapM_enum (gvar * gvar) bcs (fun icu => advection_flux_bc (snd (snd icu)) (fst (snd icu)) (fst icu))
    (fun i b => perbc g b) (combine ac av) (dgv, dgv)) as (bs & Eb & HLb & Hb).
  { intros i Hi. rewrite combine_length, Hc, Hv, Nat.min_id in Hi. rewrite combine_nth by lia. cbn [fst snd].
    destruct (H i Hi) as ((Pu & Pb) & Hh & (Gc & _) & _). apply flux_bc_ok; auto. rewrite Gc. reflexivity. }
  rewrite Eb. cbn [bind]. rewrite combine_length, Hc, Hv, Nat.min_id in HLb, Hb.
  destruct (@mapM_combine garr bcs gvar (fun fb => impose_bc (snd fb) (fst fb))
    (fun i w => pvar g (os i) (fun jx => C i jx * U i jx)%R w) fl bs dga (mkbc [] [] true)) as (fs & Efs & HLs & Hs); [lia | |].
  { intros i Hi. assert (Hi' : (i < gndim g)%nat) by lia. cbn [fst snd].
    destruct (H i Hi') as (_ & _ & _ & Ho & _).
    destruct (@impose_prep g (os i) (fun jx => C i jx * U i jx)%R (nth i bs (mkbc [] [] true)) (nth i fl dga)) as (w & Ew & Pw); auto.
    { apply Hf. lia. }
    exists (mkgv w (nth i bs (mkbc [] [] true))). split; [exact Ew|]. split; [exact Pw|]. apply (Hb i). auto. }
  rewrite Efs. cbn [bind].
  destruct (@div_prep g o os (fun i jx => C i jx * U i jx)%R fs) as (d & Ed & Pd); auto.
  { split; [lia|]. intros i Hi. apply Hs. lia. }
  { intros i Hi. destruct (H i Hi) as (_ & _ & _ & _ & _ & P1 & P2). apply periodic_mult; auto. }
  { intros i Hi. destruct (H i Hi) as (_ & _ & _ & H1 & H2 & _). auto. }
  rewrite Ed. cbn [bind]. apply prep_neg. exact Pd.
Qed.

(** Whatever is interpolated, the fluxes that [_advect_aligned] differences are periodic. *)
Lemma aligned_conserves g ac av w :
  wfg g -> (0 < gndim g)%nat ->
  (forall i, (i < length av)%nat -> periodic_field (nth i av dgv) /\ ggrid (garray (nth i av dgv)) = g) ->
  (forall i, (i < length ac)%nat -> wf_garr (garray (nth i ac dgv)) /\ ggrid (garray (nth i ac dgv)) = g) ->
  advect_aligned ac av = Ok w -> total (gdata w) = 0%R.
Proof.
  intros Hw Hd Hv Hc E. unfold advect_aligned in E.
  destruct (Nat.eqb_spec (length ac) (length av)) as [HL|]; [|discriminate]. cbn [negb] in E.
  apply bind_Ok_inv in E. destruct E as (fl & Ef & E).
  apply bind_Ok_inv in E. destruct E as (bs & Eb & E).
  apply bind_Ok_inv in E. destruct E as (fs & Efs & E).
  apply bind_Ok_inv in E. destruct E as (d & Ed & E).
  pose proof (mapM_length _ _ Ef) as Lf. pose proof (mapM_length _ _ Eb) as Lb. pose proof (mapM_length _ _ Efs) as Lfs.
  unfold enumerate in Lb. rewrite combine_length in *. rewrite ?seq_length, ?combine_length in *.
  set (n := length av) in *. rewrite HL in *. rewrite Nat.min_id in *. rewrite Nat.min_id in Lb. rewrite Lf, Lb, Nat.min_id in Lfs.
  assert (Hfs : forall i, (i < n)%nat -> periodic_field (nth i fs dgv) /\ ggrid (garray (nth i fs dgv)) = g).
  { intros i Hi.
    pose proof (mapM_inv _ _ Ef (k := i) (dgv, dgv) dga) as F1. rewrite combine_length, HL in F1. fold n in F1. rewrite Nat.min_id in F1. specialize (F1 Hi).
    rewrite combine_nth in F1 by (fold n; lia). cbn [fst snd] in F1.
    pose proof (mapM_inv _ _ Eb (k := i) (0%nat, (dgv, dgv)) (mkbc [] [] true)) as B1. rewrite enumerate_length, combine_length, HL in B1. fold n in B1. rewrite Nat.min_id in B1. specialize (B1 Hi).
    rewrite enumerate_nth in B1 by (rewrite combine_length; fold n; lia). rewrite combine_nth in B1 by (fold n; lia). cbn [fst snd] in B1.
    pose proof (mapM_inv _ _ Efs (k := i) (dga, mkbc [] [] true) dgv) as S1. rewrite combine_length, Lf, Lb, Nat.min_id in S1. specialize (S1 Hi).
    rewrite combine_nth in S1 by lia. cbn [fst snd] in S1.
    destruct (Hv i Hi) as (Pu & Gu). destruct (Hc i) as (Wc & Gc); [lia|].
    pose proof (ga_op2_ok _ _ _ F1) as (G1 & G2 & O1 & O2).
    assert (Pb : perbc g (nth i bs (mkbc [] [] true))).
    { eapply flux_bc_inv; [| |exact B1]; [destruct Pu as (_ & Pb); rewrite Gu in Pb; exact Pb | rewrite Gc; reflexivity]. }
    destruct Wc as (_ & Sc & Oc). destruct Pu as ((_ & Su & Ou) & _).
    assert (Pf : prep g (goff (garray (nth i av dgv))) (get (gdata (nth i fl dga))) (nth i fl dga)).
    { unfold ga_mul, ga_op2, array_ufunc in F1. cbn [existsb is_gv orb map raw raw2] in F1. rewrite Sc, Su, Gc, Gu, shape_eqb_refl in F1. cbn [bind] in F1.
      apply bind_Ok_inv in F1. destruct F1 as (oo & F1 & F2). apply bind_Ok_inv in F2. destruct F2 as (gg & F2 & F3). injection F3 as F3.
      split; [congruence|]. split; [apply off_eq_sym; exact O2|]. split; [rewrite <- F3; cbn; congruence | reflexivity]. }
    destruct (@impose_prep g _ _ (nth i bs (mkbc [] [] true)) _ Hw ltac:(rewrite Ou, Gu; reflexivity) Pb Pf) as (w0 & Ew & (A & B & C & D)).
    rewrite Ew in S1. injection S1 as S1. rewrite <- S1. cbn [garray]. split; [|exact A].
    split; [|cbn [garray gbc]; rewrite A; exact Pb]. split; [cbn; rewrite A; exact Hw|]. cbn [garray]. split; [congruence|]. rewrite (off_eq_length B), Ou, Gu, A. reflexivity. }
  assert (Hlen : n = gndim g).
  { unfold divergence in Ed. apply bind_Ok_inv in Ed. destruct Ed as (gg & Eg & Ed).
    destruct (Nat.eqb_spec (length fs) (gndim gg)) as [E1|]; [|discriminate].
    destruct fs as [|f0 fs']; [discriminate Eg|]. simpl in Eg.
    destruct (forallb _ _) in Eg; [|discriminate]. injection Eg as Eg.
    destruct (Hfs 0%nat) as (_ & G0); [simpl in Lfs; lia|]. simpl in G0. rewrite <- Eg, G0 in E1. lia. }
  assert (Hpv : periodic_vec g fs).
  { split; [lia|]. apply Forall_forall. intros x Hx. apply (In_nth _ _ dgv) in Hx. destruct Hx as (i & Hi & <-). apply Hfs. lia. }
  pose proof (@divergence_conserves_lem g fs d Hd Hpv (or_introl Ed)) as Ht.
  unfold ga_neg, array_ufunc in E. cbn [existsb is_gv orb map raw raw1 bind consistent_offset consistent_grid gas forallb] in E. injection E as <-.
  unfold total in *. cbn [gdata shp amap get]. rewrite asum_ext with (g := fun ix => (-1 * get (gdata d) ix)%R) by (intros; ring).
  rewrite asum_scal, Ht. ring.
Qed.

Lemma has_all_periodic_pf c : periodic_field c -> has_all_periodic [c] = true.
Proof.
  intros (_ & Hb). unfold has_all_periodic. cbn [forallb]. rewrite andb_true_r. apply forallb_forall. intros a Ha. apply in_seq in Ha.
  unfold is_periodic_bc. rewrite (@btype_perbc (ggrid (garray c))) by (auto; lia). reflexivity.
Qed.

Lemma cv_length o : length (cv_offsets o) = length o.
Proof. unfold cv_offsets. rewrite map_length, seq_length. reflexivity. Qed.
Lemma cv_nth o i : (i < length o)%nat -> off_eq (nth i (cv_offsets o) []) (offs i (1 # 2) o).
Proof.
  intros Hi. unfold cv_offsets. rewrite nth_map_seq by auto. unfold offs. apply off_eq_intro.
  { rewrite map_length, combine_length, seq_length, upd_length. lia. }
  intros k Hk. rewrite map_length, combine_length, seq_length, Nat.min_id in Hk.
  rewrite (@nth_map' (nat * Q) Q _ (combine (seq 0 (length o)) o) k (0%nat, 0%Q)) by (rewrite combine_length, seq_length; lia).
  rewrite combine_nth by (rewrite seq_length; auto). rewrite seq_nth by auto. cbn [fst snd Nat.add].
  destruct (Nat.eqb_spec k i) as [->|Hne]; [rewrite nth_upd_same by auto; reflexivity | rewrite nth_upd_other by auto; reflexivity].
Qed.
Lemma cv_nth_length o i : (i < length o)%nat -> length (nth i (cv_offsets o) []) = length o.
Proof. intros Hi. rewrite (off_eq_length (cv_nth o Hi)), offs_length. reflexivity. Qed.
