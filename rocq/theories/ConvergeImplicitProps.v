(** * C81: implicit diffusion converges for every time step; examples *)
From Verif Require Import Prelude NdArr LinAlg Grids_model Spec SpecLin SpecDiff SpecDiag Boundaries_model BoundariesPeriodic FD_model Laplacian_model FastDiag_model Interp_model Advection_model Diffusion_model PRep FDProofs FDProps PeriodicBCProps InterpProps AdvectionProofs AdvectionProps MonotoneProps DiffusionProps ImplicitDiffusionProps SpecNS SpecAcc AccBase AccuracyProps SpecConv ConvergeProps.
Set Implicit Arguments.
Local Open Scope R_scope.

(** ** A largest value *)
Lemma line_max n (F : nat -> R) : (0 < n)%nat -> exists i, (i < n)%nat /\ forall j, (j < n)%nat -> F j <= F i.
Proof.
  induction n as [|n IH]; intros H; [lia|]. destruct n as [|n]; [exists 0%nat; split; [lia|]; intros j Hj; replace j with 0%nat by lia; lra|].
  destruct (IH ltac:(lia)) as (i & Hi & Hm). destruct (Rle_lt_dec (F i) (F (S n))) as [L|L].
  - exists (S n). split; [lia|]. intros j Hj. destruct (Nat.eq_dec j (S n)) as [->|N]; [lra|]. specialize (Hm j ltac:(lia)). lra.
  - exists i. split; [lia|]. intros j Hj. destruct (Nat.eq_dec j (S n)) as [->|N]; [lra|]. apply Hm. lia.
Qed.
Lemma index_max s : allpos s -> forall F : list Z -> R, exists ix, inb s ix /\ forall jx, inb s jx -> F jx <= F ix.
Proof.
  induction s as [|n s IH]; intros Hp F.
  - exists []. split; [apply inb_intro; [reflexivity | intros a Ha; cbn in Ha; lia]|]. intros jx Hj. apply inb_length in Hj. destruct jx; [lra | cbn in Hj; lia].
  - assert (Hn : (0 < n)%nat /\ allpos s) by (inversion Hp; subst; split; assumption). destruct Hn as (Hn & Hs).
    assert (H : forall i : nat, exists ix, inb s ix /\ forall jx, inb s jx -> F (Z.of_nat i :: jx) <= F (Z.of_nat i :: ix)) by (intros i; apply (IH Hs (fun jx => F (Z.of_nat i :: jx)))).
    assert (Hc : exists f : nat -> list Z, forall i, (i < n)%nat -> inb s (f i) /\ forall jx, inb s jx -> F (Z.of_nat i :: jx) <= F (Z.of_nat i :: f i)).
    { clear - H. induction n as [|n IHn]; [exists (fun _ => []); intros; lia|]. destruct IHn as (f & Hf). destruct (H n) as (ix & Hix). exists (fun i => if Nat.eq_dec i n then ix else f i). intros i Hi. destruct (Nat.eq_dec i n) as [->|N]; [exact Hix | apply Hf; lia]. }
    destruct Hc as (f & Hf). destruct (line_max (fun i => F (Z.of_nat i :: f i)) Hn) as (i & Hi & Hm). exists (Z.of_nat i :: f i). destruct (Hf i Hi) as (Hin & _).
    assert (Hcons : forall z jx, inb (n :: s) (z :: jx) <-> (0 <= z < Z.of_nat n)%Z /\ inb s jx).
    { intros z jx. split.
      - intros Hz. split; [apply (@inb_nth _ _ 0%nat Hz); cbn; lia|]. pose proof (inb_length _ _ Hz) as L. cbn in L. apply inb_intro; [lia|]. intros a Ha. apply (@inb_nth _ _ (S a) Hz). cbn. lia.
      - intros (Hz & Hj). pose proof (inb_length _ _ Hj) as L. apply inb_intro; [cbn; lia|]. intros [|a] Ha; [exact Hz|]. cbn [nth]. apply (@inb_nth _ _ a Hj). cbn in Ha. lia. }
    split; [apply Hcons; split; [lia | exact Hin]|]. intros jx Hj. destruct jx as [|z jx]; [apply inb_length in Hj; cbn in Hj; lia|]. apply Hcons in Hj. destruct Hj as (Hz & Hj).
    replace z with (Z.of_nat (Z.to_nat z)) by lia. assert (Hzn : (Z.to_nat z < n)%nat) by lia. destruct (Hf _ Hzn) as (_ & Hb). eapply Rle_trans; [apply Hb; exact Hj | apply Hm; exact Hzn].
Qed.
(** A periodic field whose implicit step is bounded is bounded. *)
Lemma implicit_bound g (F : list Z -> R) lam b : wfg g -> (forall a, (a < gndim g)%nat -> 0 < hstep g a) -> 0 <= lam -> (forall ix, length ix = gndim g -> F (wrap (gshape g) ix) = F ix) ->
  (forall ix, inb (gshape g) ix -> Rabs (F ix - lam * disc_lap g F ix) <= b) -> forall ix, inb (gshape g) ix -> Rabs (F ix) <= b.
Proof.
  intros Hg Hh Hlam HF HB ix Hix. assert (Hp : allpos (gshape g)) by apply Hg. destruct (index_max Hp (fun ix => Rabs (F ix))) as (mx & Hmx & Hm). cbv beta in Hm. apply Rle_trans with (Rabs (F mx)); [apply Hm; exact Hix|].
  pose proof (inb_length _ _ Hmx) as L. assert (N : forall a k, Rabs (F (shiftix a k mx)) <= Rabs (F mx)).
  { intros a k. rewrite <- HF by (unfold shiftix; rewrite upd_length; exact L). apply Hm. apply inb_wrap; [exact Hp | unfold shiftix; rewrite upd_length; exact L]. }
  specialize (HB mx Hmx). apply Rabs_def2_le in HB. destruct (Rcase_abs (F mx)) as [S|S].
  - rewrite (Rabs_left (F mx)) in * by exact S. assert (D : 0 <= disc_lap g F mx).
    { apply nsum_nonneg. intros a Ha. specialize (Hh a Ha). pose proof (@Rabs_def2_le _ _ (N a 1%Z)) as N1. pose proof (@Rabs_def2_le _ _ (N a (-1)%Z)) as N2. apply Rle_mult_inv_pos; [unfold next, prev; lra | nra]. }
    assert (0 <= lam * disc_lap g F mx) by (apply Rmult_le_pos; assumption). lra.
  - rewrite (Rabs_right (F mx)) in * by exact S. assert (D : disc_lap g F mx <= 0).
    { assert (0 <= - disc_lap g F mx); [|lra]. unfold disc_lap. rewrite <- nsum_opp. apply nsum_nonneg. intros a Ha. specialize (Hh a Ha). pose proof (@Rabs_def2_le _ _ (N a 1%Z)) as N1. pose proof (@Rabs_def2_le _ _ (N a (-1)%Z)) as N2.
      unfold Rdiv. rewrite <- Ropp_mult_distr_l_reverse. apply Rle_mult_inv_pos; [unfold next, prev; lra | nra]. }
    assert (0 <= lam * - disc_lap g F mx) by (apply Rmult_le_pos; lra). lra.
Qed.
Lemma nbr_pval b u a k ix : periodic_axis b a -> shp (gdata u) = gshape (ggrid u) -> (a < gndim (ggrid u))%nat -> inb (gshape (ggrid u)) ix -> nbr b u a k ix = pval u (shiftix a k ix).
Proof.
  intros Hb Hs Ha Hix. unfold nbr. rewrite (nth_error_nth _ _ _ Hb). destruct (nth a (bvals b) (None, None)) as [v1 v2]. unfold pval. rewrite Hs. f_equal. pose proof (inb_length _ _ Hix) as L.
  apply (list_ext_nth 0%Z); [rewrite upd_length, wrap_length by (unfold shiftix; rewrite upd_length; exact L); exact L|]. intros i Hi. rewrite ?upd_length in Hi. rewrite wrap_nth by first [rewrite <- L; exact Hi | unfold shiftix; rewrite upd_length; exact L]. unfold shiftix.
  destruct (Nat.eq_dec i a) as [->|N]; [rewrite !nth_upd_same by exact Hi; reflexivity|]. rewrite !nth_upd_other by auto. symmetry. apply Z.mod_small. apply (@inb_nth _ _ i Hix). rewrite <- L. exact Hi.
Qed.
Lemma implicit_step g o c c' nu dt e t M K u r ux uxx : wfg g -> length o = gndim g -> (forall a, (a < gndim g)%nat -> 0 < hstep g a) -> 0 <= nu -> 0 <= dt -> 0 <= t ->
  perbc g (gbc c) -> within e (garray c) g o (u t) -> implicitly_diffused (dt * nu) c c' -> (forall s, 0 <= s -> box_periodic g (u s) /\ bounded_derivatives (gndim g) 4 M (u s)) ->
  (forall s a, 0 <= s -> (a < gndim g)%nat -> partial_derivative (gndim g) a (u s) (ux s a) /\ partial_derivative (gndim g) a (ux s a) (uxx s a)) ->
  has_rate (gndim g) K u r -> (forall s x, r s x = nu * nsum (gndim g) (fun a => uxx s a x)) ->
  within (e + dt * (nu * (M / 12 * h2 g)) + K / 2 * dt ^ 2) (garray c') g o (u (t + dt)).
Proof.
  intros Hg Ho Hh Hnu Hdt Ht Hb Hw (I1 & I2 & I3 & I4 & I5 & _) HB HP HR Hr. pose proof (@within_pf _ c g o _ Hg Ho Hb Hw) as Hc. pose proof Hw as (A1 & A2 & A3 & A4). rewrite A1 in *.
  assert (Hc' : periodic_field c'). { split; [|rewrite I1, I2; exact Hb]. split; [rewrite I2; exact Hg|]. split; [rewrite I2; exact I4|]. rewrite I2, (off_eq_length I3). rewrite (off_eq_length A2). exact Ho. }
  assert (Oc' : off_eq (goff (garray c')) o) by (eapply off_eq_trans; [exact I3 | exact A2]). destruct (HB (t + dt) ltac:(lra)) as (B1 & B2).
  set (f := u (t + dt)) in *. set (F := fun ix => pval (garray c') ix - f (point g o ix)).
  split; [exact I2|]. split; [exact Oc'|]. split; [exact I4|]. intros ix0 Hix0.
  assert (G : Rabs (F ix0) <= e + dt * (nu * (M / 12 * h2 g)) + K / 2 * dt ^ 2); [|unfold F in G; rewrite pval_inb in G by (rewrite I4; exact Hix0); exact G].
  apply (@implicit_bound g F (dt * nu)); try assumption; [apply Rmult_le_pos; assumption | |].
  - intros ix Hix. unfold F. rewrite (point_wrap o ix Hg B1 Hix). f_equal. unfold pval. rewrite I4. rewrite wrap_inb; [reflexivity | apply inb_wrap; [apply Hg | exact Hix]].
  - intros ix Hix. pose proof (inb_length _ _ Hix) as L.
    assert (NW : forall a, (a < gndim g)%nat -> wall_value (gbc c) (garray c) a ix = None) by (intros a Ha; unfold wall_value; rewrite (@insulated_no_edge (gbc c) (garray c) a); [reflexivity | left; apply (perbc_axis Hb Ha)]).
    specialize (I5 ix Hix NW).
    assert (ES : nsum (gndim g) (fun a => second_difference (gbc c) (garray c') a ix) = disc_lap g (pval (garray c')) ix).
    { apply nsum_ext. intros a Ha. unfold second_difference. pose proof (perbc_axis Hb Ha) as Pa. rewrite !nbr_pval by (try exact Pa; rewrite I2; assumption). rewrite I2. rewrite (@pval_inb (garray c') ix) by (rewrite I4; exact Hix). specialize (Hh a Ha). unfold next, prev. field. lra. }
    rewrite ES in I5. pose proof (@disc_lap_near c' f (ux (t + dt)) (uxx (t + dt)) M ix Hc') as N. rewrite I2 in N. specialize (N B1 B2 (fun a Ha => HP (t + dt) a ltac:(lra) Ha) Hix). rewrite (point_off_eq _ _ Oc') in N.
    assert (EF : disc_lap g (fun jx => f (point g (goff (garray c')) jx)) ix = disc_lap g (fun jx => f (point g o jx)) ix) by (apply nsum_ext; intros a Ha; cbv beta; rewrite !(point_off_eq _ _ Oc'); reflexivity). rewrite EF in N. clear EF.
    assert (ED : disc_lap g F ix = disc_lap g (pval (garray c')) ix - disc_lap g (fun jx => f (point g o jx)) ix).
    { unfold disc_lap. rewrite <- nsum_minus. apply nsum_ext. intros a Ha. unfold F. specialize (Hh a Ha). field. lra. }
    rewrite ED. unfold F. rewrite (@pval_inb (garray c') ix) by (rewrite I4; exact Hix). set (p := point g o ix) in *. set (T1 := disc_lap g (fun jx => f (point g o jx)) ix) in *. set (T2 := nsum (gndim g) (fun a => uxx (t + dt) a p)) in *.
    pose proof (@taylor_back (gndim g) K u r t dt p HR Ht Hdt (point_length g o ix)) as TB. rewrite (Hr (t + dt) p) in TB. fold f in TB. change (nsum (gndim g) (fun a => uxx (t + dt) a p)) with T2 in TB.
    specialize (A4 ix Hix). fold p in A4.
    replace (get (gdata (garray c')) ix - f p - dt * nu * (disc_lap g (pval (garray c')) ix - T1)) with ((get (gdata (garray c)) ix - u t p) + (dt * nu) * (T1 - T2) + (u t p - f p + dt * (nu * T2))) by (rewrite <- I5; ring).
    eapply Rle_trans; [apply Rabs_triang|]. apply Rplus_le_compat; [|exact TB]. eapply Rle_trans; [apply Rabs_triang|]. apply Rplus_le_compat; [exact A4|]. rewrite Rabs_mult, (Rabs_right (dt * nu)) by (apply Rle_ge; apply Rmult_le_pos; assumption).
    rewrite <- Rmult_assoc. apply Rmult_le_compat_l; [apply Rmult_le_pos; assumption | exact N].
Qed.
(* @prop C81 Implicit diffusion converges for every time step. On every periodic grid in any dimension with positive cell widths and at least 3 cells per axis, for nu >= 0 and any time step dt >= 0 (no stability limit), any implementation whose requirements hold: if the run starts from the values of u(0) and every state is the result of diffusion.solve_fast_diag on its predecessor, where u is a smooth box-periodic solution of du/dt = nu laplacian(u) for t >= 0 (spatial derivatives up to fourth order bounded by M, second time derivative by K), then after any number n of steps the state is within n dt (K dt / 2 + nu M (h_1^2 + ... + h_d^2) / 12) of u(n dt) in every cell. *)
Lemma implicit_diffusion_converges_lem : forall (tpu : bool) (eigh : arr R -> arr R * arr R) (imp : option impl) (run : nat -> gvar) (nu dt M K : R) (u : R -> list R -> R) (ux uxx : R -> nat -> list R -> R),
  let g := ggrid (garray (run 0%nat)) in let o := goff (garray (run 0%nat)) in
  periodic_field (run 0%nat) -> (0 < gndim g)%nat -> (forall a, (a < gndim g)%nat -> 0 < hstep g a /\ (3 <= nth a (gshape g) 0)%nat) -> 0 <= nu -> 0 <= dt ->
  (forall n Ls, laplacian_matrix_w_boundaries g (goff (garray (run n))) (gbc (run n)) = Ok Ls -> implementation_ready eigh Ls (has_all_periodic [run n]) imp) ->
  samples (garray (run 0%nat)) (u 0) -> (forall n, diffusion_solve_fast_diag tpu eigh [run n] nu dt imp = Ok [run (S n)]) ->
  (forall t, 0 <= t -> box_periodic g (u t) /\ bounded_derivatives (gndim g) 4 M (u t)) ->
  (forall t a, 0 <= t -> (a < gndim g)%nat -> partial_derivative (gndim g) a (u t) (ux t a) /\ partial_derivative (gndim g) a (ux t a) (uxx t a)) ->
  has_rate (gndim g) K u (fun t x => nu * nsum (gndim g) (fun a => uxx t a x)) ->
  forall n, within (INR n * dt * (K * dt / 2 + nu * M / 12 * h2 g)) (garray (run n)) g o (u (INR n * dt)).
Proof.
  intros tpu eigh imp run nu dt M K u ux uxx g o H0 Hd Hh Hnu Hdt Hready HS Hrun HB HP HR. pose proof H0 as ((Hg & Hsh & Ho) & Hb). fold g in Hg, Hsh, Ho, Hb. fold o in Ho.
  assert (I : forall n, perbc g (gbc (run n)) /\ within (INR n * dt * (K * dt / 2 + nu * M / 12 * h2 g)) (garray (run n)) g o (u (INR n * dt))); [|intros n; apply I].
  induction n as [|n (IB & IW)].
  - split; [exact Hb|]. split; [reflexivity|]. split; [apply off_eq_refl|]. split; [exact Hsh|]. intros ix Hix. cbn [INR]. rewrite !Rmult_0_l. rewrite HS by exact Hix. fold g o. replace (u 0 (point g o ix) - u 0 (point g o ix)) with 0 by ring. rewrite Rabs_R0. lra.
  - specialize (Hrun n). assert (Htn : 0 <= INR n * dt) by (apply Rmult_le_pos; [apply pos_INR | lra]). pose proof (@within_pf _ (run n) g o _ Hg Ho IB IW) as Hpf. pose proof IW as (Gn & _).
    destruct (@implicit_diffusion_insulated_lem tpu eigh imp [run n] nu dt) as (v' & Ev & F2 & _).
    { apply Rmult_le_pos; assumption. }
    { intros w [<-|[]]. split; [apply Hpf|]. rewrite Gn. split; [exact Hd|]. split; [rewrite IB; apply repeat_length|]. split; [|apply Hready]. intros a Ha. split; [left; apply (perbc_axis IB Ha) | apply (Hh a Ha)]. }
    rewrite Hrun in Ev. apply ok_inj in Ev. subst v'. inversion F2 as [|? ? ? ? HI _]; subst.
    split; [destruct HI as (Eb & _); unfold perbc in *; rewrite Eb; exact IB|].
    assert (Et : INR (S n) * dt = INR n * dt + dt) by (rewrite S_INR; ring). rewrite Et.
    replace ((INR n * dt + dt) * (K * dt / 2 + nu * M / 12 * h2 g)) with (INR n * dt * (K * dt / 2 + nu * M / 12 * h2 g) + dt * (nu * (M / 12 * h2 g)) + K / 2 * dt ^ 2) by field.
    apply (@implicit_step g o (run n) (run (S n)) nu dt _ (INR n * dt) M K u _ ux uxx Hg Ho (fun a Ha => proj1 (Hh a Ha)) Hnu Hdt Htn IB IW HI HB HP HR). reflexivity.
Qed.
(** ** Example: the decaying wave, with a time step far beyond the explicit limit *)
Definition solved tpu eigh imp (nu dt : R) (c : gvar) : gvar := match diffusion_solve_fast_diag tpu eigh [c] nu dt imp with Ok [c'] => c' | _ => c end.
Fixpoint solved_run tpu eigh imp (nu dt : R) (c : gvar) (n : nat) : gvar := match n with O => c | S n => solved tpu eigh imp nu dt (solved_run tpu eigh imp nu dt c n) end.
Lemma fft_ready eigh Ls b : b = true -> implementation_ready eigh Ls b (Some Fft).
Proof. intros ->. exact I. Qed.
(* @ex *)
Lemma implicit_diffusion_converges_ex_lem : forall tpu eigh, exists (run : nat -> gvar), let g := ggrid (garray (run 0%nat)) in
  run 0%nat = tgc /\ periodic_field (run 0%nat) /\ (0 < gndim g)%nat /\ (forall a, (a < gndim g)%nat -> 0 < hstep g a /\ (3 <= nth a (gshape g) 0)%nat) /\ 0 <= 1 /\ 0 <= 10 /\
  (forall n Ls, laplacian_matrix_w_boundaries g (goff (garray (run n))) (gbc (run n)) = Ok Ls -> implementation_ready eigh Ls (has_all_periodic [run n]) (Some Fft)) /\
  samples (garray (run 0%nat)) (fading 0) /\ (forall n, diffusion_solve_fast_diag tpu eigh [run n] 1 10 (Some Fft) = Ok [run (S n)]) /\
  (forall t, 0 <= t -> box_periodic g (fading t) /\ bounded_derivatives (gndim g) 4 1 (fading t)) /\
  (forall t a, 0 <= t -> (a < gndim g)%nat -> partial_derivative (gndim g) a (fading t) (fading_x t a) /\ partial_derivative (gndim g) a (fading_x t a) (fading_xx t a)) /\
  has_rate (gndim g) 4 fading (fun t x => 1 * nsum (gndim g) (fun a => fading_xx t a x)).
Proof.
  intros tpu eigh. pose proof PI_RGT_0 as HPI. assert (Hc : periodic_field tgc) by (apply sampled_pf; reflexivity). exists (solved_run tpu eigh (Some Fft) 1 10 tgc). cbv zeta. set (run := solved_run tpu eigh (Some Fft) 1 10 tgc).
  change (ggrid (garray (run 0%nat))) with tgg.
  assert (HA : forall a, (a < gndim tgg)%nat -> 0 < hstep tgg a /\ (3 <= nth a (gshape tgg) 0)%nat) by (intros a Ha; split; [rewrite (tgg_steps Ha); lra|]; change (a < 2)%nat in Ha; destruct a as [|[|a]]; cbn; lia).
  assert (ST : forall c, periodic_field c -> ggrid (garray c) = tgg -> exists c', diffusion_solve_fast_diag tpu eigh [c] 1 10 (Some Fft) = Ok [c'] /\ periodic_field c' /\ ggrid (garray c') = tgg).
  { intros c H E. destruct (@implicit_diffusion_insulated_lem tpu eigh (Some Fft) [c] 1 10) as (v' & Ev & F2 & _); [lra| |].
    - intros w [<-|[]]. split; [apply H|]. rewrite E. split; [cbn; lia|]. destruct H as (H1 & H2). rewrite E in H2. split; [rewrite H2; apply repeat_length|]. split; [intros a Ha; split; [left; apply (perbc_axis H2 Ha) | apply (HA a Ha)]|].
      intros Ls _. apply fft_ready. apply has_all_periodic_pf. split; [exact H1 | rewrite E; exact H2].
    - inversion F2 as [|? c' ? ? HI N]; subst. inversion N; subst. exists c'. split; [exact Ev|]. destruct HI as (I1 & I2 & I3 & I4 & _). split; [|rewrite I2; exact E]. destruct H as ((X1 & X2 & X3) & X4). split; [|unfold perbc in *; rewrite I1, I2; exact X4].
      split; [rewrite I2; exact X1|]. split; [rewrite I2; exact I4|]. rewrite I2, (off_eq_length I3). exact X3. }
  assert (IN : forall n, periodic_field (run n) /\ ggrid (garray (run n)) = tgg /\ diffusion_solve_fast_diag tpu eigh [run n] 1 10 (Some Fft) = Ok [run (S n)]).
  { assert (IS : forall n, periodic_field (run n) /\ ggrid (garray (run n)) = tgg -> (periodic_field (run (S n)) /\ ggrid (garray (run (S n))) = tgg) /\ diffusion_solve_fast_diag tpu eigh [run n] 1 10 (Some Fft) = Ok [run (S n)]).
    { intros n (H1 & H2). destruct (ST _ H1 H2) as (c' & E & P1 & P2). assert (ER : run (S n) = c') by (change (run (S n)) with (solved tpu eigh (Some Fft) 1 10 (run n)); unfold solved; rewrite E; reflexivity). rewrite ER. auto. }
    assert (IB : forall n, periodic_field (run n) /\ ggrid (garray (run n)) = tgg) by (induction n as [|n IH]; [split; [exact Hc | reflexivity] | apply (IS n IH)]).
    intros n. split; [apply IB|]. split; [apply IB|]. apply (IS n (IB n)). }
  split; [reflexivity|]. split; [exact Hc|]. split; [cbn; lia|]. split; [exact HA|]. split; [lra|]. split; [lra|].
  split; [intros n Ls _; apply fft_ready; apply has_all_periodic_pf; apply IN|].
  split. { intros ix _. unfold fading. rewrite Rmult_0_r, Ropp_0, exp_0. symmetry. apply Rmult_1_l. }
  split; [intros n; apply IN|]. exact fading_solves.
Qed.
