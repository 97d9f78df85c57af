(** * Property C19: pressure projection *)
From Verif Require Import Prelude NdArr Grids_model Spec Boundaries_model BoundariesPeriodic FD_model PRep FDProofs FDProps WallBC WallBCProps ImposeProps Pressure_model.
Set Implicit Arguments.

Lemma impose_prep g o F b u : wfg g -> length o = gndim g -> perbc g b -> prep g o F u ->
  exists w, impose_bc b u = Ok (mkgv w b) /\ prep g o F w.
Proof.
  intros Hg Ho Hb (A & B & C & D).
  destruct (@impose_bc_no_walls_lem b u) as (r & E & (S1 & S2 & S3 & S4)).
  - split; [rewrite A; auto|]. split; [congruence|]. rewrite (off_eq_length B), A. auto.
  - rewrite A, Hb, repeat_length. reflexivity.
  - rewrite A. intros a Ha. left. unfold periodic_axis. rewrite Hb. apply nth_error_repeat; auto.
  - exists r. split; [exact E|]. split; [congruence|]. split; [eapply off_eq_trans; eauto|]. split; [congruence|].
    intros ix Hi. rewrite S4 by (rewrite S3, C; auto). apply D; auto.
Qed.

Lemma pressure_bc_periodic g v : (0 < gndim g)%nat -> periodic_vec g v ->
  exists b, pressure_bc_from_velocity v = Ok b /\ perbc g b.
Proof.
  intros Hd (HL & HF). destruct v as [|u0 v]; [simpl in HL; lia|].
  rewrite Forall_forall in HF.
  assert (Hp : forall c a, In c (u0 :: v) -> (a < gndim g)%nat -> is_periodic_bc c a = true).
  { intros c a Hc Ha. destruct (HF c Hc) as ((_ & Hb) & Hg). unfold is_periodic_bc.
    rewrite (@btype_perbc g (gbc c) a); auto. rewrite <- Hg; auto. }
  assert (Hg0 : ggrid (garray u0) = g) by (apply HF; left; auto).
  assert (E : consistent_bc (u0 :: v) = Ok (repeat true (gndim g))).
  { unfold consistent_bc. rewrite Hg0. rewrite mapM_Ok with (g := fun _ => true).
    - f_equal. apply (list_ext_nth false); rewrite map_length, seq_length, ?repeat_length; auto.
      intros k Hk. rewrite nth_repeat' by auto. rewrite nth_map_seq by auto. reflexivity.
    - intros a Ha. apply in_seq in Ha. rewrite (Hp u0) by (try (left; reflexivity); lia).
      replace (forallb _ v) with true; [reflexivity|]. symmetry. apply forallb_forall. intros c Hc.
      rewrite (Hp c) by (try (right; exact Hc); lia). reflexivity. }
  unfold pressure_bc_from_velocity. rewrite E. cbn [bind]. eexists; split; [reflexivity|].
  unfold perbc. cbn [btypes homogeneous]. apply (list_ext_nth (BCOther, BCOther)); rewrite map_length, !repeat_length; auto.
  intros k Hk. rewrite (@nth_map' _ _ _ (repeat true (gndim g)) k false) by (rewrite repeat_length; auto).
  rewrite !nth_repeat' by auto. reflexivity.
Qed.

Lemma cell_center_length g : length (cell_center g) = gndim g.
Proof. unfold cell_center. apply repeat_length. Qed.

Lemma mapM_combine {A B C} (f : A * B -> result C) (P : nat -> C -> Prop) l l' da db : length l = length l' ->
  (forall i, (i < length l)%nat -> exists w, f (nth i l da, nth i l' db) = Ok w /\ P i w) ->
  exists ws, mapM f (combine l l') = Ok ws /\ length ws = length l /\ forall i dw, (i < length l)%nat -> P i (nth i ws dw).
Proof.
  revert l' P. induction l as [|x l IH]; intros [|y l'] P HL H; simpl in HL; try lia.
  - exists []; repeat split; auto. simpl; intros; lia.
  - destruct (H 0%nat) as (w & E & Hw); [simpl; lia|]. cbn [nth] in E. cbn [combine mapM]. rewrite E. cbn [bind].
    destruct (IH l' (fun i => P (S i))) as (ws & Es & HLs & Hws); [lia | |].
    { intros i Hi. apply (H (S i)). simpl; lia. }
    rewrite Es. cbn [bind]. exists (w :: ws). repeat split; simpl; auto.
    intros [|i] dw Hi; [exact Hw|]. apply Hws; lia.
Qed.

Lemma periodic_vec_pvar g v i : periodic_vec g v -> (i < gndim g)%nat ->
  pvar g (goff (garray (nth i v dgv))) (vval v i) (nth i v dgv).
Proof.
  intros Hv Hi. destruct (periodic_vec_nth Hv Hi) as (Hf & Hg). pose proof (pf_pvar Hf) as (A & B).
  rewrite Hg in A, B. split; [|exact B]. eapply prep_ext; [|exact A]. intros ix _. rewrite vval_nth by (destruct Hv; lia). reflexivity.
Qed.

(** What projection returns for a periodic velocity, in terms of the solver's pressure. *)
Lemma projection_prep g o v solve q :
  wfg g -> (0 < gndim g)%nat -> periodic_vec g v -> length o = gndim g -> face_aligned o v ->
  (forall b q0, perbc g b -> solve v q0 b = Ok q) -> wf_garr q -> ggrid q = g -> off_eq (goff q) o ->
  exists v', projection solve v = Ok v' /\ length v' = gndim g /\
    forall i, (i < gndim g)%nat -> gbc (nth i v' dgv) = gbc (nth i v dgv) /\
      prep g (goff (garray (nth i v dgv))) (fun ix => vval v i ix - fdF g i (pval q) ix)%R (garray (nth i v' dgv)).
Proof.
  intros Hw Hd Hv Hol Hfa Hsolve Hq Hgq Hoq. pose proof Hv as (HL & HF).
  assert (Hcg : consistent_grid (map garray v) = Ok g).
  { apply consistent_grid_all; [rewrite map_length; lia|]. intros a Ha. apply in_map_iff in Ha. destruct Ha as (x & <- & Hx).
    rewrite Forall_forall in HF. apply HF; auto. }
  destruct (pressure_bc_periodic Hd Hv) as (b & Eb & Hb).
  destruct (@impose_prep g (cell_center g) (fun _ => 0%R) b (mkga (afull (gshape g) 0%R) (cell_center g) g)) as (q0 & E0 & H0); auto.
  { apply cell_center_length. }
  { repeat split; simpl; auto. apply off_eq_refl. }
  assert (HqP : prep g o (pval q) q).
  { pose proof Hq as (_ & Hs & _). apply prep_pval in Hs. rewrite Hgq in Hs. eapply prep_off; [exact Hoq | exact Hs]. }
  assert (Hqper : periodic (gshape g) (pval q)).
  { destruct Hq as (_ & Hs & _). rewrite <- Hgq, <- Hs. apply periodic_pval. }
  destruct (impose_prep Hw Hol Hb HqP) as (qi & Ei & Hi).
  unfold projection. rewrite Hcg. cbn [bind]. rewrite Eb. cbn [bind]. rewrite E0. cbn [bind].
  rewrite (Hsolve b (mkgv q0 b) Hb). cbn [bind]. rewrite Ei. cbn [bind].
  assert (Hgrad : exists qg, forward_gradient (mkgv qi b) = Ok qg /\ length qg = gndim g /\
     forall i dw, (i < gndim g)%nat -> prep g (offs i (1 # 2) o) (fdF g i (pval q)) (nth i qg dw)).
  { unfold forward_gradient, all_axes, vndim. cbn [garray]. replace (ggrid qi) with g by (symmetry; apply Hi).
    apply (@mapM_seq garr _ (fun i w => prep g (offs i (1 # 2) o) (fdF g i (pval q)) w)). intros i Hii. apply (@fwd_prep g o (pval q) (mkgv qi b) i); auto. split; auto. }
  destruct Hgrad as (qg & Eg & HLg & Hqg). rewrite Eg. cbn [bind].
  destruct (@mapM_combine gvar garr gvar (fun uq => let* d := ga_sub (garray (fst uq)) (snd uq) in impose_bc (gbc (fst uq)) d)
     (fun i w => gbc w = gbc (nth i v dgv) /\ prep g (goff (garray (nth i v dgv))) (fun ix => vval v i ix - fdF g i (pval q) ix)%R (garray w))
     v qg dgv dga) as (v' & E' & HL' & Hv'); [lia | |].
  - intros i Hii. rewrite HL in Hii. cbn [fst snd].
    pose proof (periodic_vec_pvar Hv Hii) as (Pv & Pb).
    assert (Hoi : off_eq (offs i (1 # 2) o) (goff (garray (nth i v dgv)))).
    { apply off_eq_sym. apply (Hfa i). apply nth_error_nth'. lia. }
    destruct (@prep_op2 Rminus g (goff (garray (nth i v dgv))) (vval v i) (fdF g i (pval q)) (garray (nth i v dgv)) (nth i qg dga)) as (d & Ed & Hdd); auto.
    { eapply prep_off; [exact Hoi | apply Hqg; auto]. }
    unfold ga_sub. rewrite Ed. cbn [bind].
    destruct (periodic_vec_nth Hv Hii) as (Hf & Hgi).
    destruct (@impose_prep g (goff (garray (nth i v dgv))) (fun ix => vval v i ix - fdF g i (pval q) ix)%R (gbc (nth i v dgv)) d) as (w & Ew & Hww); auto.
    { rewrite <- Hgi. apply Hf. }
    exists (mkgv w (gbc (nth i v dgv))). split; [exact Ew|]. split; [reflexivity | exact Hww].
  - exists v'. split; [exact E'|]. split; [lia|]. intros i Hii. apply Hv'. lia.
Qed.

(* @prop C19 For a staggered periodic velocity on any grid, if the pressure solver returns (whatever starting guess it is given) a field q whose laplacian is the divergence of v, then projection returns a velocity with the same grid, offsets and boundary conditions whose divergence is zero in every cell. *)
Lemma projection_divergence_free_lem : forall g o v solve q b dv lq,
  wfg g -> (0 < gndim g)%nat -> periodic_vec g v -> length o = gndim g -> face_aligned o v ->
  (forall b q0, perbc g b -> solve v q0 b = Ok q) -> wf_garr q -> ggrid q = g -> off_eq (goff q) o ->
  perbc g b -> divergence v = Ok dv -> laplacian (mkgv q b) = Ok lq -> aeq (gdata lq) (gdata dv) ->
  exists v' d, projection solve v = Ok v' /\ periodic_vec g v' /\ face_aligned o v' /\
    (forall i u u', nth_error v i = Some u -> nth_error v' i = Some u' -> gbc u' = gbc u) /\
    divergence v' = Ok d /\ is_field d g o (fun _ => 0%R).
Proof.
  intros g o v solve q b dv lq Hw Hd Hv Hol Hfa Hsolve Hq Hgq Hoq Hb Edv Elq Heq.
  destruct (@projection_prep g o v solve q Hw Hd Hv Hol Hfa Hsolve Hq Hgq Hoq) as (v' & E & HL & Hn).
  pose proof Hv as (HLv & HFv).
  assert (Hqper : periodic (gshape g) (pval q)).
  { destruct Hq as (_ & Hs & _). rewrite <- Hgq, <- Hs. apply periodic_pval. }
  assert (Hpv : forall i, (i < gndim g)%nat -> periodic_field (nth i v dgv)) by (intros; eapply periodic_vec_nth; eauto).
  assert (Hoi : forall i, (i < gndim g)%nat -> off_eq (goff (garray (nth i v dgv))) (offs i (1 # 2) o)).
  { intros i Hi. apply (Hfa i). apply nth_error_nth'. lia. }
  destruct (@div_prep g o (fun i => goff (garray (nth i v dgv))) (fun i ix => (vval v i ix - fdF g i (pval q) ix)%R) v') as (d & Ed & Hdd); auto.
  { split; [auto|]. intros i Hi. destruct (Hn i Hi) as (B & P). split; [exact P|]. rewrite B.
    destruct (periodic_vec_nth Hv Hi) as ((_ & Hbi) & Hgi). rewrite <- Hgi. exact Hbi. }
  { intros i Hi ix HLi. rewrite (periodic_vval Hv Hi ix HLi). rewrite (@periodic_fdF g i _ Hqper ix HLi). reflexivity. }
  { intros i Hi. split.
    - destruct (periodic_vec_nth Hv Hi) as (Hf & Hgi). rewrite <- Hgi. apply Hf.
    - eapply off_eq_trans; [apply off_eq_offs; [apply Hoi; auto | reflexivity] | apply offs_half_back]. }
  exists v', d. split; [exact E|]. split; [|split; [|split; [|split]]].
  - split; [auto|]. apply Forall_forall. intros x Hx. apply (In_nth _ _ dgv) in Hx. destruct Hx as (i & Hi & <-).
    rewrite HL in Hi. destruct (Hn i Hi) as (B & (G1 & G2 & G3 & _)). destruct (periodic_vec_nth Hv Hi) as (Hf & Hgi).
    split; [|exact G1]. split.
    + split; [rewrite G1; auto|]. split; [congruence|]. rewrite (off_eq_length G2), G1. rewrite <- Hgi. apply Hf.
    + rewrite G1, B. rewrite <- Hgi. apply Hf.
  - intros i u' Hu'. assert (Hi : (i < gndim g)%nat) by (rewrite <- HL; apply nth_error_Some; congruence).
    destruct (Hn i Hi) as (_ & (_ & G2 & _)). rewrite (nth_error_nth _ _ _ Hu') in G2.
    eapply off_eq_trans; [exact G2 | apply Hoi; auto].
  - intros i u u' Hu Hu'. assert (Hi : (i < gndim g)%nat) by (rewrite <- HL; apply nth_error_Some; congruence).
    destruct (Hn i Hi) as (B & _). rewrite (nth_error_nth _ _ _ Hu'), (nth_error_nth _ _ _ Hu) in B. exact B.
  - exact Ed.
  - eapply prep_ext; [|exact Hdd]. intros ix Hi. cbn beta.
    destruct (@lap_prep g o (pval q) (mkgv q b)) as (lq' & El & (_ & _ & Sl & Dl)); auto.
    { split; [|exact Hb]. cbn [garray]. pose proof Hq as (_ & Hs & _). apply prep_pval in Hs. rewrite Hgq in Hs. eapply prep_off; [exact Hoq | exact Hs]. }
    rewrite Elq in El. injection El as <-.
    destruct (divergence_returns Hd Hv Edv) as (_ & _ & Sd & Dd).
    destruct Heq as (_ & Hval). rewrite Sl in Hval. specialize (Hval ix Hi). rewrite Dl, Dd in Hval by auto.
    rewrite lapF_is_div_grad in Hval. unfold divF in *.
    transitivity (nsum (gndim g) (fun i => bdF g i (vval v i) ix) - nsum (gndim g) (fun i => bdF g i (fdF g i (pval q)) ix))%R.
    + rewrite <- nsum_minus. apply nsum_ext; intros i Hii. unfold bdF, Rdiv. ring.
    + rewrite Hval. ring.
Qed.

(** A 2 x 2 periodic example with divergence u = [[1,-1],[-1,1]] and its pressure. *)
Definition prg : grid := mkgrid [2%nat; 2%nat] [1%R; 1%R] [(0%R, 2%R); (0%R, 2%R)].
Definition prF (ix : list Z) : R := if Z.eqb (nth 0 ix 0 mod 2)%Z (nth 1 ix 0 mod 2)%Z then 1%R else (-1)%R.
Definition prv : list gvar :=
  [mkgv (mkga (mkarr [2%nat; 2%nat] (fun ix => prF ix / 2)%R) [1%Q; (1 # 2)%Q] prg) (periodic_bc 2);
   mkgv (mkga (mkarr [2%nat; 2%nat] (fun _ => 3%R)) [(1 # 2)%Q; 1%Q] prg) (periodic_bc 2)].
Definition prq : garr := mkga (mkarr [2%nat; 2%nat] (fun ix => - prF ix / 8)%R) [(1 # 2)%Q; (1 # 2)%Q] prg.
Lemma prg_wf : wfg prg. Proof. repeat split; repeat constructor; (lia || lra). Qed.
Lemma prv_per : periodic_vec prg prv.
Proof. split; [reflexivity|]. repeat constructor; (lia || lra). Qed.
Lemma prv_face : face_aligned [(1 # 2)%Q; (1 # 2)%Q] prv.
Proof. intros [|[|[|i]]] u Hu; simpl in Hu; try discriminate; injection Hu as <-; repeat constructor. Qed.
Lemma prq_wf : wf_garr prq. Proof. repeat split; repeat constructor; (lia || lra). Qed.

Lemma inb22 ix : inb [2%nat; 2%nat] ix -> In ix [[0%Z; 0%Z]; [0%Z; 1%Z]; [1%Z; 0%Z]; [1%Z; 1%Z]].
Proof.
  destruct ix as [|i [|j [|]]]; simpl; try tauto. intros (Hi & Hj & _).
  assert (i = 0 \/ i = 1)%Z as [-> | ->] by lia; assert (j = 0 \/ j = 1)%Z as [-> | ->] by lia; tauto.
Qed.

(* @ex *)
Lemma projection_divergence_free_ex_lem :
  exists dv lq, divergence prv = Ok dv /\ laplacian (mkgv prq (periodic_bc 2)) = Ok lq /\ aeq (gdata lq) (gdata dv) /\
    get (gdata dv) [0%Z; 0%Z] = 1%R /\
  exists v' d, projection (fun _ _ _ => Ok prq) prv = Ok v' /\ divergence v' = Ok d /\ get (gdata d) [0%Z; 0%Z] = 0%R.
Proof.
  destruct (@divergence_spec_lem prg [(1 # 2)%Q; (1 # 2)%Q] prv) as (dv & Ed & (A1 & A2 & A3 & A4)).
  { unfold gndim; simpl; lia. } { exact prv_per. } { reflexivity. } { exact prv_face. }
  destruct (@laplacian_spec_lem (mkgv prq (periodic_bc 2))) as (lq & El & (B1 & B2 & B3 & B4)).
  { split; [exact prq_wf | reflexivity]. }
  assert (Heq : aeq (gdata lq) (gdata dv)).
  { split; [rewrite A3, B3; reflexivity|]. intros ix Hix. rewrite B3 in Hix. rewrite A4, B4 by exact Hix.
    apply inb22 in Hix. destruct Hix as [<-|[<-|[<-|[<-|[]]]]]; unfold nsum, vval, pval, hstep, next, prev, shiftix, gndim; cbn; lra. }
  exists dv, lq. split; [exact Ed|]. split; [exact El|]. split; [exact Heq|]. split.
  { rewrite A4 by (simpl; lia). unfold nsum, vval, pval, hstep, next, prev, shiftix, gndim; cbn; lra. }
  destruct (@projection_divergence_free_lem prg [(1 # 2)%Q; (1 # 2)%Q] prv (fun _ _ _ => Ok prq) prq (periodic_bc 2) dv lq)
    as (v' & d & E & _ & _ & _ & Edd & (_ & _ & _ & D)); auto using prg_wf, prv_per, prv_face, prq_wf.
  { unfold gndim; simpl; lia. } { apply off_eq_refl. } { reflexivity. }
  exists v', d. split; [exact E|]. split; [exact Edd|]. apply D. simpl; lia.
Qed.

(* @prop C19 If the solver returns a constant pressure, projection returns the velocity unchanged (so with a solver that returns constants for zero right-hand sides, divergence-free fields are fixed points). *)
Lemma projection_constant_pressure_lem : forall g o v solve q c,
  wfg g -> (0 < gndim g)%nat -> periodic_vec g v -> length o = gndim g -> face_aligned o v ->
  (forall b q0, perbc g b -> solve v q0 b = Ok q) -> wf_garr q -> ggrid q = g -> off_eq (goff q) o ->
  (forall ix, inb (gshape g) ix -> get (gdata q) ix = c) ->
  exists v', projection solve v = Ok v' /\ Forall2 (fun u u' => same_field (garray u') (garray u) /\ gbc u' = gbc u) v v'.
Proof.
  intros g o v solve q c Hw Hd Hv Hol Hfa Hsolve Hq Hgq Hoq Hc.
  destruct (@projection_prep g o v solve q Hw Hd Hv Hol Hfa Hsolve Hq Hgq Hoq) as (v' & E & HL & Hn).
  exists v'. split; [exact E|]. pose proof Hv as (HLv & HFv).
  apply Forall2_intro_nth with (da := dgv) (db := dgv); [lia|]. rewrite HLv. intros i Hi.
  destruct (Hn i Hi) as (B & (G1 & G2 & G3 & G4)). destruct (periodic_vec_nth Hv Hi) as (Hf & Hgi).
  split; [|exact B]. split; [congruence|]. split; [auto|].
  assert (Hs : shp (gdata (garray (nth i v dgv))) = gshape g) by (rewrite <- Hgi; apply Hf).
  split; [congruence|]. intros ix Hix. rewrite G3 in Hix. rewrite G4 by auto.
  rewrite vval_nth by lia. rewrite pval_inb by (rewrite Hs; auto).
  assert (Hq0 : forall jx, length jx = gndim g -> pval q jx = c).
  { intros jx Hjx. unfold pval. destruct Hq as (_ & Hsq & _). rewrite Hsq, Hgq. apply Hc. apply inb_wrap; auto. apply Hw. }
  pose proof (inb_length _ _ Hix) as HLi. unfold fdF. rewrite !Hq0 by (rewrite ?shiftix_length; auto). unfold Rdiv; ring.
Qed.

(* @ex *)
Lemma projection_constant_pressure_ex_lem :
  exists v', projection (fun _ _ _ => Ok (mkga (afull [2%nat; 2%nat] 4%R) [(1 # 2)%Q; (1 # 2)%Q] prg)) prv = Ok v' /\
    Forall2 (fun u u' => same_field (garray u') (garray u) /\ gbc u' = gbc u) prv v'.
Proof.
  apply (@projection_constant_pressure_lem prg [(1 # 2)%Q; (1 # 2)%Q] prv _ (mkga (afull [2%nat; 2%nat] 4%R) [(1 # 2)%Q; (1 # 2)%Q] prg) 4%R);
    auto using prg_wf, prv_per, prv_face, off_eq_refl.
  - unfold gndim; simpl; lia.
  - repeat split; repeat constructor; (lia || lra).
Qed.
