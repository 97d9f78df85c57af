(** * Property C57: projection is an orthogonal projection *)
From Verif Require Import Prelude NdArr Grids_model Spec Boundaries_model FD_model PRep FDProofs FDProps WallBC WallBCProps ImposeProps WallFD Pressure_model PressureProps WallFDProps.
Set Implicit Arguments.
Local Open Scope Z_scope.

Definition upv (p : bool) (n : Z) (q : Z -> R) (j : Z) : R :=
  if p then q ((j + 1) mod n) else if ((j + 1 <? 0) || (n <=? j + 1)) then q j else q (j + 1).
Definition dnv (p : bool) (n : Z) (f : Z -> R) (j : Z) : R :=
  if p then f ((j - 1) mod n) else if j =? 0 then 0%R else f (j - 1).
(** Summation by parts on one line. *)
Lemma line_sbp p n q f : (0 < n)%nat -> (p = false -> f (Z.of_nat n - 1) = 0%R) ->
  rsum n (fun j => f j * (upv p (Z.of_nat n) q j - q j))%R = (- rsum n (fun j => q j * (f j - dnv p (Z.of_nat n) f j)))%R.
Proof.
  intros Hn Hf. rewrite <- rsum_opp. set (N := Z.of_nat n).
  assert (E : rsum n (fun j => f j * upv p N q j)%R = rsum n (fun j => q j * dnv p N f j)%R).
  { unfold upv, dnv. destruct p.
    - rewrite <- (@rsum_mod_shift n 1 (fun j => q j * f ((j - 1) mod N))%R Hn). apply rsum_ext. intros j Hj. fold N in Hj |- *.
      replace (((j + 1) mod N - 1) mod N) with j; [ring|]. rewrite Zminus_mod_idemp_l. replace (j + 1 - 1) with j by lia. rewrite Z.mod_small; lia.
    - destruct n as [|m]; [lia|]. rewrite (rsum_S_l m (fun j => q j * (if j =? 0 then 0 else f (j - 1)%Z))%R). cbn [rsum]. 
      replace ((Z.of_nat m + 1 <? 0) || (N <=? Z.of_nat m + 1)) with true by (symmetry; apply orb_true_iff; right; apply Z.leb_le; lia).
      specialize (Hf eq_refl). replace (Z.of_nat (S m) - 1) with (Z.of_nat m) in Hf by lia. rewrite Hf. change (0 =? 0) with true. cbn [rsum].
      rewrite (@rsum_ext m (fun j => f j * (if (j + 1 <? 0) || (N <=? j + 1) then q j else q (j + 1)%Z))%R (fun j => q (j + 1)%Z * (if j + 1 =? 0 then 0 else f (j + 1 - 1)%Z))%R); [ring|].
      intros j Hj. replace (j + 1 <? 0) with false by (symmetry; apply Z.ltb_ge; lia). replace (N <=? j + 1) with false by (symmetry; apply Z.leb_gt; lia).
      destruct (Z.eqb_spec (j + 1) 0); [lia|]. cbn [orb]. replace (j + 1 - 1) with j by lia. ring. }
  transitivity (rsum n (fun j => f j * upv p N q j)%R - rsum n (fun j => f j * q j)%R)%R; [rewrite <- rsum_minus; apply rsum_ext; intros; ring|].
  rewrite E. rewrite <- rsum_minus. apply rsum_ext. intros; ring.
Qed.
Definition upA (p : bool) (g : grid) (i : nat) (q : list Z -> R) (ix : list Z) : R := upv p (Z.of_nat (nth i (gshape g) 0%nat)) (fun j => q (upd i j ix)) (nth i ix 0).
Definition dnA (p : bool) (g : grid) (i : nat) (f : list Z -> R) (ix : list Z) : R := dnv p (Z.of_nat (nth i (gshape g) 0%nat)) (fun j => f (upd i j ix)) (nth i ix 0).
Lemma array_sbp p g i q f : wfg g -> (i < gndim g)%nat ->
  (p = false -> forall ix, inb (gshape g) ix -> nth i ix 0 = Z.of_nat (nth i (gshape g) 0%nat) - 1 -> f ix = 0%R) ->
  asum (gshape g) (fun ix => f ix * (upA p g i q ix - q ix))%R = (- asum (gshape g) (fun ix => q ix * (f ix - dnA p g i f ix)))%R.
Proof.
  intros Hw Hi Hf. assert (Hil : (i < length (gshape g))%nat) by exact Hi. rewrite (@asum_axis (gshape g) i (fun ix => f ix * (upA p g i q ix - q ix))%R Hil), (@asum_axis (gshape g) i (fun ix => q ix * (f ix - dnA p g i f ix))%R Hil). rewrite <- asum_opp. apply asum_ext. intros ix Hix.
  assert (Hli : (i < length ix)%nat) by (rewrite (inb_length _ _ Hix), upd_length; exact Hil).
  assert (Hn : (0 < nth i (gshape g) 0)%nat) by (apply allpos_nth; [apply Hw | exact Hil]).
  pose proof (@line_sbp p (nth i (gshape g) 0%nat) (fun j => q (upd i j ix)) (fun j => f (upd i j ix)) Hn) as H.
  cbv beta in H. etransitivity; [|etransitivity; [apply H|]].
  - apply rsum_ext. intros j Hj. unfold upA. rewrite nth_upd_same by exact Hli. f_equal. f_equal. unfold upv. rewrite !upd_upd_same. reflexivity.
  - intros Hp. apply Hf; [exact Hp | | rewrite nth_upd_same by exact Hli; reflexivity]. eapply inb_upd_inv; [exact Hix | exact Hil | lia].
  - apply (f_equal Ropp). apply rsum_ext. intros j Hj. unfold dnA. rewrite nth_upd_same by exact Hli. f_equal. f_equal. unfold dnv. rewrite !upd_upd_same. reflexivity.
Qed.
Lemma nsum_nonneg_0 d f : (forall i, (i < d)%nat -> (0 <= f i)%R) -> nsum d f = 0%R -> forall i, (i < d)%nat -> f i = 0%R.
Proof.
  induction d as [|d IH]; intros H E i Hi; [lia|]. rewrite nsum_S in E. pose proof (H d ltac:(lia)).
  assert (0 <= nsum d f)%R by (apply nsum_nonneg; intros; apply H; lia).
  destruct (Nat.eq_dec i d) as [->|N]; [lra|]. apply IH; [intros; apply H; lia | lra | lia].
Qed.

Section Proj.
Variables (g : grid) (per : nat -> bool) (q : garr).
Hypothesis (Hw : wfg g) (Hq : wf_garr q) (Hgq : ggrid q = g) (Hoq : off_eq (goff q) (cell_center g)).
Let pb := homogeneous (map (fun a => if per a then (Periodic, Periodic) else (Neumann, Neumann)) (seq 0 (gndim g))).
Let G i ix := ((nbr pb q i 1 ix - get (gdata q) ix) / hstep g i)%R.
Lemma hstep_nz i : (i < gndim g)%nat -> hstep g i <> 0%R.
Proof. intros Hi. destruct Hw as (Hst & _ & _ & Hnz). unfold hstep. rewrite Forall_forall in Hnz. apply Hnz. apply nth_In. rewrite Hst. exact Hi. Qed.
Lemma nbr_up i ix : (i < gndim g)%nat -> inb (gshape g) ix -> nbr pb q i 1 ix = upA (per i) g i (get (gdata q)) ix.
Proof.
  intros Hi Hix. unfold pb. rewrite (@pb_nbr g per q i 1 ix) by auto. unfold upA, upv. rewrite upd_nth_same. reflexivity.
Qed.
Lemma G_wall i ix : (i < gndim g)%nat -> per i = false -> inb (gshape g) ix -> nth i ix 0 = Z.of_nat (nth i (gshape g) 0%nat) - 1 -> G i ix = 0%R.
Proof.
  intros Hi Hp Hix Hn. unfold G. rewrite nbr_up by auto. unfold upA, upv. rewrite Hp.
  replace (_ <=? nth i ix 0 + 1) with true by (symmetry; apply Z.leb_le; lia). rewrite orb_true_r, upd_nth_same. unfold Rdiv. ring.
Qed.
(** The gradient is adjoint to minus the divergence. *)
Lemma grad_adjoint i f : (i < gndim g)%nat ->
  (per i = false -> forall ix, inb (gshape g) ix -> nth i ix 0 = Z.of_nat (nth i (gshape g) 0%nat) - 1 -> f ix = 0%R) ->
  asum (gshape g) (fun ix => f ix * G i ix)%R = (- asum (gshape g) (fun ix => get (gdata q) ix * ((f ix - dnA (per i) g i f ix) / hstep g i)))%R.
Proof.
  intros Hi Hf. pose proof (hstep_nz Hi) as Hh. pose proof (@array_sbp (per i) g i (get (gdata q)) f Hw Hi Hf) as E.
  transitivity (/ hstep g i * asum (gshape g) (fun ix => f ix * (upA (per i) g i (get (gdata q)) ix - get (gdata q) ix)))%R.
  { rewrite <- asum_scal. apply asum_ext. intros ix Hix. unfold G. rewrite nbr_up by auto. field. exact Hh. }
  rewrite E. rewrite <- asum_opp, <- asum_scal, <- asum_opp. apply asum_ext. intros ix Hix. field. exact Hh.
Qed.
(** sum of squared gradients = - sum of q * laplacian q *)
Lemma grad_energy : nsum (gndim g) (fun i => asum (gshape g) (fun ix => G i ix * G i ix))%R = (- asum (gshape g) (fun ix => get (gdata q) ix * lapW (mkgv q pb) ix))%R.
Proof.
  rewrite (@asum_ext _ (fun ix => get (gdata q) ix * lapW (mkgv q pb) ix)%R (fun ix => nsum (gndim g) (fun i => get (gdata q) ix * ((G i ix - dnA (per i) g i (G i) ix) / hstep g i)))%R).
  - rewrite asum_nsum, <- nsum_opp. apply nsum_ext. intros i Hi. apply grad_adjoint; [exact Hi|]. intros Hp ix Hix Hn. apply G_wall; auto.
  - intros ix Hix. rewrite nsum_scal. f_equal. unfold lapW. cbn [garray gbc]. rewrite Hgq. apply nsum_ext. intros i Hi. unfold at_. cbn [garray].
    pose proof (hstep_nz Hi) as Hh. pose proof (@inb_nth _ _ i Hix Hi) as Hr. set (N := nth i (gshape g) 0%nat) in *.
    assert (Hli : (i < length ix)%nat) by (rewrite (inb_length _ _ Hix); exact Hi).
    assert (E : dnA (per i) g i (G i) ix = ((get (gdata q) ix - nbr pb q i (-1) ix) / hstep g i)%R).
    { unfold dnA, dnv. fold N. unfold pb. rewrite (@pb_nbr g per q i (-1) ix) by auto. cbv zeta. fold N. change (nth i ix 0 + -1) with (nth i ix 0 - 1).
      assert (Hin : forall j, 0 <= j < Z.of_nat N -> inb (gshape g) (upd i j ix)) by (intros j Hj; apply inb_upd_same; auto).
      destruct (per i) eqn:Ep.
      - assert (Hm : 0 <= (nth i ix 0 - 1) mod Z.of_nat N < Z.of_nat N) by (apply Z.mod_pos_bound; lia).
        unfold G. rewrite nbr_up by auto. unfold upA, upv. rewrite Ep. fold N. rewrite !nth_upd_same by auto. rewrite !upd_upd_same.
        rewrite Zplus_mod_idemp_l. replace (nth i ix 0 - 1 + 1) with (nth i ix 0) by lia. rewrite Z.mod_small by lia. rewrite upd_nth_same. reflexivity.
      - destruct (Z.eqb_spec (nth i ix 0) 0) as [H0|H0].
        + replace (nth i ix 0 - 1 <? 0) with true by (symmetry; apply Z.ltb_lt; lia). cbn [orb]. unfold Rdiv. ring.
        + replace (nth i ix 0 - 1 <? 0) with false by (symmetry; apply Z.ltb_ge; lia). replace (Z.of_nat N <=? nth i ix 0 - 1) with false by (symmetry; apply Z.leb_gt; lia). cbn [orb].
          unfold G. rewrite nbr_up by (auto; apply Hin; lia). unfold upA, upv. rewrite Ep. fold N. rewrite !nth_upd_same by auto. rewrite !upd_upd_same.
          replace (nth i ix 0 - 1 + 1) with (nth i ix 0) by lia.
          replace (nth i ix 0 <? 0) with false by (symmetry; apply Z.ltb_ge; lia). replace (Z.of_nat N <=? nth i ix 0) with false by (symmetry; apply Z.leb_gt; lia). cbn [orb].
          rewrite upd_nth_same. reflexivity. }
    rewrite E. unfold G. field. exact Hh.
Qed.
Lemma grad_zero : (forall ix, inb (gshape g) ix -> lapW (mkgv q pb) ix = 0%R) -> forall i ix, (i < gndim g)%nat -> inb (gshape g) ix -> G i ix = 0%R.
Proof.
  intros H i ix Hi Hix. pose proof grad_energy as E. rewrite (@asum_ext _ _ (fun _ => 0%R)) in E by (intros jx Hj; rewrite H by exact Hj; ring). rewrite asum_0, Ropp_0 in E.
  assert (H1 : asum (gshape g) (fun ix => G i ix * G i ix)%R = 0%R).
  { apply (@nsum_nonneg_0 (gndim g) (fun i => asum (gshape g) (fun ix => G i ix * G i ix))%R); auto. intros j Hj. apply asum_nonneg. intros; apply Rle_0_sqr. }
  assert (H2 : (G i ix * G i ix = 0)%R) by (apply (@asum_nonneg_0 (gshape g) (fun ix => G i ix * G i ix)%R); auto; intros; apply Rle_0_sqr).
  nra.
Qed.
End Proj.

Lemma velocity_at_nth v i ix : (i < length v)%nat -> velocity_at v i ix = get (gdata (garray (nth i v dgv))) ix.
Proof. intros Hi. unfold velocity_at. rewrite (nth_error_nth' v dgv) by exact Hi. reflexivity. Qed.

(* @prop C57 In a box with periodic axes or walls, projection leaves a velocity whose divergence is zero exactly as it is (so projecting twice is projecting once), whatever solution q of the Poisson equation the solver returns. *)
Lemma projection_fixes_divergence_free_lem : forall g per v solve q pb dv lq,
  (0 < gndim g)%nat -> wfg g -> box_velocity g per v ->
  pressure_bc_from_velocity v = Ok pb -> (forall q0, solve v q0 pb = Ok q) ->
  wf_garr q -> ggrid q = g -> off_eq (goff q) (repeat (1 # 2)%Q (gndim g)) ->
  divergence v = Ok dv -> (forall ix, inb (gshape g) ix -> get (gdata dv) ix = 0%R) ->
  laplacian (mkgv q pb) = Ok lq -> (forall ix, inb (gshape g) ix -> get (gdata lq) ix = get (gdata dv) ix) ->
  exists v', projection solve v = Ok v' /\ Forall2 (fun u u' => same_field (garray u') (garray u) /\ gbc u' = gbc u) v v'.
Proof.
  intros g per v solve q pb dv lq Hd Hw Hv Epb Hsolve Hq Hgq Hoq Edv Hz Elq Heq.
  destruct (@projection_box_gen g per v solve q pb dv lq) as (v' & E & Hb & Hm & Hf & _); auto.
  exists v'. split; [exact E|]. pose proof Hv as (HL & HF). pose proof Hb as (HL' & _).
  assert (Epb' : pb = homogeneous (map (fun a => if per a then (Periodic, Periodic) else (Neumann, Neumann)) (seq 0 (gndim g)))).
  { rewrite (pressure_bc_box Hd Hv) in Epb. injection Epb as <-. reflexivity. }
  assert (Hl : forall ix, inb (gshape g) ix -> lapW (mkgv q pb) ix = 0%R).
  { intros ix Hix. destruct (@lap_wall (mkgv q pb)) as (lq' & Elq' & (_ & _ & _ & Vlq)); cbn [garray gbc] in *; auto.
    { rewrite Hgq. intros a Ha. rewrite Epb'. apply pb_walled; auto. }
    rewrite Elq in Elq'. injection Elq' as <-. rewrite Hgq in Vlq. rewrite <- Vlq by exact Hix. rewrite Heq, Hz by exact Hix. reflexivity. }
  apply Forall2_intro_nth with (da := dgv) (db := dgv); [lia|]. rewrite HL. intros i Hi.
  destruct (Hf i Hi) as (F1 & F2 & F3 & F4). destruct (HF i (nth i v dgv) (box_nth Hv Hi)) as (A & B & _).
  split.
  - split; [congruence|]. split; [exact F2|]. split; [rewrite F3, <- B; symmetry; apply A|]. intros ix Hix. rewrite F3 in Hix. rewrite F4 by exact Hix.
    pose proof (@grad_zero g per q Hw Hgq Hoq) as HG. cbv zeta in HG. rewrite <- Epb' in HG. specialize (HG Hl i ix Hi Hix). rewrite HG. ring.
  - pose proof (f_equal (fun l => nth i l (gbc dgv)) Hm) as Hn. cbv beta in Hn. rewrite !map_nth in Hn. exact Hn.
Qed.

(* @prop C57 In a box with periodic axes or impermeable walls (zero normal wall velocity), projection splits the velocity orthogonally: the sum of squares of v is that of the projected velocity plus that of the difference; so projection never increases kinetic energy. *)
Lemma projection_pythagoras_lem : forall g per v solve q pb dv lq,
  (0 < gndim g)%nat -> wfg g -> box_velocity g per v -> impermeable per v ->
  pressure_bc_from_velocity v = Ok pb -> (forall q0, solve v q0 pb = Ok q) ->
  wf_garr q -> ggrid q = g -> off_eq (goff q) (repeat (1 # 2)%Q (gndim g)) ->
  divergence v = Ok dv -> laplacian (mkgv q pb) = Ok lq ->
  (forall ix, inb (gshape g) ix -> get (gdata lq) ix = get (gdata dv) ix) ->
  exists v', projection solve v = Ok v' /\
    kinetic g (velocity_at v) = (kinetic g (velocity_at v') + kinetic g (fun i ix => velocity_at v i ix - velocity_at v' i ix))%R /\
    (kinetic g (velocity_at v') <= kinetic g (velocity_at v))%R.
Proof.
  intros g per v solve q pb dv lq Hd Hw Hv Himp Epb Hsolve Hq Hgq Hoq Edv Elq Heq.
  destruct (@projection_box_gen g per v solve q pb dv lq) as (v' & E & Hb & Hm & Hf & w & Ew & Vw); auto.
  exists v'. split; [exact E|]. pose proof Hv as (HL & HF). pose proof Hb as (HL' & HF').
  assert (Epb' : pb = homogeneous (map (fun a => if per a then (Periodic, Periodic) else (Neumann, Neumann)) (seq 0 (gndim g)))).
  { rewrite (pressure_bc_box Hd Hv) in Epb. injection Epb as <-. reflexivity. }
  set (G := fun i ix => ((nbr pb q i 1 ix - get (gdata q) ix) / hstep g i)%R).
  assert (Hd0 : forall ix, inb (gshape g) ix -> divW v' g ix = 0%R).
  { intros ix Hix. destruct (box_div Hd Hb) as (w' & Ew' & (_ & _ & _ & V')). rewrite Ew in Ew'. injection Ew' as <-. rewrite <- V', Vw, Heq by exact Hix. ring. }
  assert (Hbc : forall i, (i < gndim g)%nat -> gbc (nth i v' dgv) = gbc (nth i v dgv)).
  { intros i Hi. pose proof (f_equal (fun l => nth i l (gbc dgv)) Hm) as Hn. cbv beta in Hn. rewrite !map_nth in Hn. exact Hn. }
  set (V' := fun i ix => get (gdata (garray (nth i v' dgv))) ix).
  assert (Hwall : forall i, (i < gndim g)%nat -> per i = false -> forall ix, inb (gshape g) ix -> nth i ix 0 = Z.of_nat (nth i (gshape g) 0%nat) - 1 -> V' i ix = 0%R).
  { intros i Hi Hp ix Hix Hn. destruct (HF' i (nth i v' dgv) (box_nth Hb Hi)) as (_ & _ & _ & _ & _ & Gw). destruct (Gw Hp) as (hi & He & Hh).
    unfold V'. rewrite Hh by auto. unfold edge_side in He. rewrite (Hbc i Hi) in He.
    rewrite (Himp i (nth i v dgv) (box_nth Hv Hi) Hp) in He.
    destruct (nth_error (btypes _) i) as [[[] []]|]; try discriminate. destruct (Qeq_bool _ 1); [injection He as <-; reflexivity|]. destruct (Qeq_bool _ 0); discriminate. }
  assert (Horth : nsum (gndim g) (fun i => asum (gshape g) (fun ix => V' i ix * G i ix)%R) = 0%R).
  { pose proof (@grad_adjoint g per q Hw Hgq Hoq) as GA. cbv zeta in GA. rewrite <- Epb' in GA.
    rewrite (@nsum_ext (gndim g) _ (fun i => - asum (gshape g) (fun ix => get (gdata q) ix * ((V' i ix - dnA (per i) g i (V' i) ix) / hstep g i)))%R).
    2:{ intros i Hi. apply GA; auto. }
    rewrite nsum_opp, <- asum_nsum. rewrite (@asum_ext _ _ (fun _ => 0%R)); [rewrite asum_0; ring|].
    intros ix Hix. rewrite nsum_scal. replace (nsum (gndim g) (fun i => (V' i ix - dnA (per i) g i (V' i) ix) / hstep g i)%R) with (divW v' g ix); [rewrite Hd0 by exact Hix; ring|].
    unfold divW. apply nsum_ext. intros i Hi. cbv zeta. pose proof (@box_lower g per v' i ix Hb Hi Hix) as L. cbv zeta in L. rewrite L. f_equal. f_equal.
    unfold dnA, dnv. destruct (per i) eqn:Ep; [reflexivity|]. destruct (_ =? 0); [|reflexivity].
    rewrite (Hbc i Hi). rewrite (nth_error_nth _ _ _ (Himp i (nth i v dgv) (box_nth Hv Hi) Ep)). reflexivity. }
  assert (HV : forall i ix, (i < gndim g)%nat -> inb (gshape g) ix -> velocity_at v i ix = (V' i ix + G i ix)%R /\ velocity_at v' i ix = V' i ix).
  { intros i ix Hi Hix. rewrite !velocity_at_nth by lia. destruct (Hf i Hi) as (_ & _ & _ & F4). unfold V'. rewrite F4 by exact Hix. unfold G. split; [ring | reflexivity]. }
  assert (Hpyth : kinetic g (velocity_at v) = (kinetic g (velocity_at v') + kinetic g (fun i ix => velocity_at v i ix - velocity_at v' i ix))%R).
  { unfold kinetic. rewrite <- nsum_plus.
    rewrite (@nsum_ext (gndim g) (fun i => asum (gshape g) (fun ix => velocity_at v i ix ^ 2))%R
      (fun i => (asum (gshape g) (fun ix => velocity_at v' i ix ^ 2) + asum (gshape g) (fun ix => (velocity_at v i ix - velocity_at v' i ix) ^ 2)) + 2 * asum (gshape g) (fun ix => V' i ix * G i ix))%R).
    - rewrite nsum_plus, nsum_scal, Horth. ring.
    - intros i Hi. rewrite <- asum_scal, <- !asum_plus. apply asum_ext. intros ix Hix. destruct (HV i ix Hi Hix) as (-> & ->). ring. }
  split; [exact Hpyth|]. rewrite Hpyth.
  assert (0 <= kinetic g (fun i ix => velocity_at v i ix - velocity_at v' i ix))%R; [|lra].
  apply nsum_nonneg. intros i _. apply asum_nonneg. intros ix _. apply pow2_ge_0.
Qed.
(* @ex *)
Lemma projection_pythagoras_ex_lem :
  (0 < gndim prg)%nat /\ wfg prg /\ box_velocity prg chper chv /\ impermeable chper chv /\
  pressure_bc_from_velocity chv = Ok chpb /\ wf_garr chq /\ off_eq (goff chq) (repeat (1 # 2)%Q (gndim prg)) /\
  exists dv lq, divergence chv = Ok dv /\ laplacian (mkgv chq chpb) = Ok lq /\ get (gdata dv) [0; 0] = 1%R /\
    forall ix, inb (gshape prg) ix -> get (gdata lq) ix = get (gdata dv) ix.
Proof.
  destruct projection_in_box_ex_lem as (A & B & C & D). split; [exact A|]. split; [exact B|]. split; [exact C|]. split; [|exact D].
  intros [|[|[|i]]] u Hu Hp; simpl in Hu; try discriminate; injection Hu as <-; first [discriminate | reflexivity].
Qed.
Definition chv0 : list gvar :=
  [mkgv (mkga (mkarr [2%nat; 2%nat] (fun ix => if nth 1 ix 0 =? 0 then 3%R else 4%R)) [1%Q; (1 # 2)%Q] prg) chb;
   mkgv (mkga (afull [2%nat; 2%nat] 0%R) [(1 # 2)%Q; 1%Q] prg) chb].
Definition chq0 : garr := mkga (afull [2%nat; 2%nat] 7%R) [(1 # 2)%Q; (1 # 2)%Q] prg.
Lemma chv0_box : box_velocity prg chper chv0.
Proof.
  split; [reflexivity|]. intros [|[|[|i]]] u H; simpl in H; try discriminate; injection H as <-.
  - split; [repeat split; repeat constructor; (lia || lra)|]. split; [reflexivity|]. split; [repeat constructor|]. split; [reflexivity|]. split; [|discriminate].
    intros [|[|a]] Ha; cbn; [reflexivity | exists Dirichlet, Dirichlet; split; [reflexivity | discriminate] | unfold gndim in Ha; simpl in Ha; lia].
  - split; [repeat split; repeat constructor; (lia || lra)|]. split; [reflexivity|]. split; [repeat constructor|]. split; [reflexivity|]. split.
    + intros [|[|a]] Ha; cbn; [reflexivity | exists Dirichlet, Dirichlet; split; [reflexivity | discriminate] | unfold gndim in Ha; simpl in Ha; lia].
    + intros _. exists 0%R. split; [reflexivity|]. intros ix _ H. reflexivity.
Qed.
(* @ex *)
Lemma projection_fixes_divergence_free_ex_lem :
  (0 < gndim prg)%nat /\ wfg prg /\ box_velocity prg chper chv0 /\
  pressure_bc_from_velocity chv0 = Ok chpb /\ wf_garr chq0 /\ off_eq (goff chq0) (repeat (1 # 2)%Q (gndim prg)) /\
  exists dv lq, divergence chv0 = Ok dv /\ laplacian (mkgv chq0 chpb) = Ok lq /\
    (forall ix, inb (gshape prg) ix -> get (gdata dv) ix = 0%R) /\
    forall ix, inb (gshape prg) ix -> get (gdata lq) ix = get (gdata dv) ix.
Proof.
  split; [unfold gndim; simpl; lia|]. split; [apply prg_wf|]. split; [apply chv0_box|]. split; [reflexivity|].
  assert (Hq : wf_garr chq0) by (repeat split; repeat constructor; (lia || lra)). split; [exact Hq|]. split; [repeat constructor|].
  destruct (@box_div prg chper chv0) as (dv & Ed & (_ & _ & _ & Vd)); [unfold gndim; simpl; lia | apply chv0_box|].
  destruct (@lap_wall (mkgv chq0 chpb)) as (lq & El & (_ & _ & _ & Vl)); [exact Hq | |].
  { intros [|[|a]] Ha; [left; reflexivity | | unfold gndim in Ha; simpl in Ha; lia].
    right; left. split; [reflexivity|]. exists Neumann, 0%R, Neumann, 0%R. unfold lower_wall, upper_wall. cbn.
    split; [eauto|]. split; [eauto|]. auto. }
  exists dv, lq. split; [exact Ed|]. split; [exact El|].
  assert (Hz : forall ix, inb (gshape prg) ix -> get (gdata dv) ix = 0%R).
  { intros ix Hix. rewrite Vd by auto. destruct (inb22 _ Hix) as [<- | [<- | [<- | [<- | []]]]]; cbn; lra. }
  split; [exact Hz|]. intros ix Hix. rewrite Hz by exact Hix. rewrite Vl by auto.
  destruct (inb22 _ Hix) as [<- | [<- | [<- | [<- | []]]]]; cbn; lra.
Qed.
