(** * Property C85: the fast-diagonalisation pressure solver with explicitly given open (Dirichlet) pressure boundaries *)
From Verif Require Import Prelude NdArr Grids_model Spec SpecLin LinAlg Cplx Boundaries_model FD_model PRep FDProofs FDProps WallBC WallBCProps ImposeProps WallFD Pressure_model PressureProps WallFDProps FastDiag_model FastDiagProofs FastDiagProps FastDiagCalc SpecDiag FastDiagImplProps Laplacian_model LaplacianProofs LaplacianProps LapSign Poincare PressureSolve_model ProjectionProps PressureSolveProps SpecOpen.
Set Implicit Arguments.
Local Open Scope Z_scope.

(** ** A Poincare inequality for an axis with an end held at zero *)
Lemma grounded_quad n h A u e : (0 < n)%nat -> h <> 0%R -> dissip A -> shp A = [n; n] -> coupled h A -> 0 <= e < Z.of_nat n ->
  (rsum n (fun j => get A [e; j]) <= - / h ^ 2)%R ->
  (/ h ^ 2 * (u e * u e + steps2 n u) <= - rsum n (fun i => u i * rsum n (fun j => get A [i; j] * u j)))%R.
Proof.
  intros Hn Hh HD S Hc He Hr. set (k := (/ h ^ 2)%R) in *.
  set (A' := mkarr [n; n] (fun ix => get A [nth 0 ix 0%Z; nth 1 ix 0%Z] + k * (dl e (nth 0 ix 0%Z) * dl e (nth 1 ix 0%Z)))%R).
  assert (Hrow : forall i f, 0 <= i < Z.of_nat n -> rsum n (fun j => get A' [i; j] * f j)%R = (rsum n (fun j => get A [i; j] * f j) + k * (dl e i * f e))%R).
  { intros i f Hi. cbn [A' get nth]. rewrite (@rsum_ext n _ (fun j => get A [i; j] * f j + k * dl e i * (dl e j * f j))%R) by (intros; ring).
    rewrite rsum_plus, rsum_scal. f_equal. rewrite Rmult_assoc. f_equal. f_equal. apply rsum_dl. exact He. }
  assert (HA' : dissip A').
  { destruct HD as (n' & _ & S' & D1 & D2 & D3 & D4). rewrite S in S'. injection S' as <-. exists n. split; [exact Hn|]. split; [reflexivity|].
    split; [|split; [|split]].
    - intros i j Hi Hj. cbn [A' get nth]. rewrite D1 by auto. ring.
    - intros i j Hi Hj N. cbn [A' get nth]. specialize (D2 i j Hi Hj N). unfold dl. destruct (Z.eqb_spec e i); destruct (Z.eqb_spec e j); try lia; lra.
    - intros i Hi. rewrite (@rsum_ext n _ (fun j => get A' [i; j] * 1)%R) by (intros; ring). rewrite (Hrow i (fun _ => 1%R)) by exact Hi.
      rewrite (@rsum_ext n _ (fun j => get A [i; j])) by (intros; ring). specialize (D3 i Hi). unfold dl. destruct (Z.eqb_spec e i) as [<-|]; lra.
    - intros i Hi Hi1. cbn [A' get nth]. specialize (D4 i Hi Hi1). unfold dl. destruct (Z.eqb_spec e i); destruct (Z.eqb_spec e (i + 1)); try lia; lra. }
  assert (Hc' : coupled h A').
  { unfold coupled in *. rewrite S in Hc. cbn [A' shp nth get] in *. intros i Hi Hi1. specialize (Hc i Hi Hi1). unfold dl. destruct (Z.eqb_spec e i); destruct (Z.eqb_spec e (i + 1)); try lia; lra. }
  pose proof (@linq_steps [A'] (fun ix => u (nth 0 ix 0%Z)) 0%nat [0] h (Forall_cons _ HA' (Forall_nil _)) ltac:(cbn; lia) Hc' Hh) as H.
  unfold linq in H. rewrite sizes_nth in H by (cbn; lia). change (nth 0 (shp (nth 0 [A'] (afull [] 0%R))) 0%nat) with n in H. cbn [upd nth] in H.
  rewrite (@rsum_ext n (fun i => u i * rsum n (fun j => get A' [i; j] * u j))%R (fun i => u i * rsum n (fun j => get A [i; j] * u j) + k * u e * (dl e i * u i))%R) in H
    by (intros i Hi; rewrite Hrow by exact Hi; ring).
  rewrite rsum_plus, rsum_scal, (@rsum_dl n e u He) in H. fold k in H. change (fun i => u i) with u in H. lra.
Qed.
Lemma grounded_poincare n u e : (0 < n)%nat -> 0 <= e < Z.of_nat n ->
  (rsum n (fun i => u i * u i) <= INR n * INR n * (u e * u e + steps2 n u))%R.
Proof.
  intros Hn He. rewrite Rmult_assoc. rewrite <- (rsum_const n). apply rsum_le. intros i Hi.
  pose proof (steps2_nonneg n u) as Hs.
  assert (Hd : ((u i - u e) * (u i - u e) <= INR (n - 1) * steps2 n u)%R).
  { assert (Hkn : forall k, (k <= n - 1)%nat -> (INR k * steps2 n u <= INR (n - 1) * steps2 n u)%R) by (intros k Hk; apply Rmult_le_compat_r; [exact Hs | apply le_INR; exact Hk]).
    destruct (Z.le_ge_cases i e) as [Hie|Hie].
    - pose proof (@steps2_diff n u (Z.to_nat (e - i)) i ltac:(lia) ltac:(lia)) as H. replace (i + Z.of_nat (Z.to_nat (e - i))) with e in H by lia.
      specialize (Hkn (Z.to_nat (e - i)) ltac:(lia)). lra.
    - pose proof (@steps2_diff n u (Z.to_nat (i - e)) e ltac:(lia) ltac:(lia)) as H. replace (e + Z.of_nat (Z.to_nat (i - e))) with i in H by lia.
      specialize (Hkn (Z.to_nat (i - e)) ltac:(lia)). lra. }
  pose proof (@cs_step (n - 1) (u i - u e) (u e) (steps2 n u) Hs Hd) as H. replace (Datatypes.S (n - 1)) with n in H by lia.
  replace (u i - u e + u e)%R with (u i) in H by ring. lra.
Qed.
(** Every eigenvalue is at most minus one over the squared length of the axis with a grounded end. *)
Lemma grounded_gap ops h a e x : Forall dissip ops -> (a < length ops)%nat -> h <> 0%R -> coupled h (nth a ops (afull [] 0%R)) ->
  0 <= e < Z.of_nat (nth a (sizes ops) 0%nat) ->
  (rsum (nth a (sizes ops) 0%nat) (fun j => get (nth a ops (afull [] 0%R)) [e; j]) <= - / h ^ 2)%R ->
  eigenvalue_of ops x -> (1 <= - x * (INR (nth a (sizes ops) 0%nat) * h) ^ 2)%R.
Proof.
  intros HF Ha Hh Hc He Hr (w & (ix & Hi & Hw) & Hx). set (n := nth a (sizes ops) 0%nat) in *.
  assert (HD : dissip (nth a ops (afull [] 0%R))) by (rewrite Forall_forall in HF; apply HF; apply nth_In; exact Ha).
  assert (S : shp (nth a ops (afull [] 0%R)) = [n; n]). { pose proof HD as (m & _ & S & _). unfold n. rewrite sizes_nth by exact Ha. rewrite S. reflexivity. }
  assert (Hn : (0 < n)%nat) by lia.
  set (Q2 := asum (sizes ops) (fun jx => w jx * w jx)%R).
  assert (HQ : (0 < Q2)%R).
  { assert (Hq : forall jx, inb (sizes ops) jx -> (0 <= w jx * w jx)%R) by (intros jx _; apply Rle_0_sqr).
    assert (0 <= Q2)%R by (apply asum_nonneg; exact Hq). assert (Q2 <> 0)%R; [|lra]. intros E0. apply Hw.
    assert (w ix * w ix = 0)%R by (apply (@asum_nonneg_0 (sizes ops) (fun jx => w jx * w jx)%R Hq E0 ix Hi)). nra. }
  assert (Hin : inner (sizes ops) w (separable ops w) = (x * Q2)%R).
  { unfold inner, Q2. rewrite <- asum_scal. apply asum_ext. intros jx Hj. rewrite Hx by exact Hj. ring. }
  rewrite inner_sep in Hin. set (G := fun a => asum (upd a 1%nat (sizes ops)) (linq ops w a)) in Hin.
  assert (HG : forall b, (b < length ops)%nat -> (0 <= - G b)%R).
  { intros b Hb. assert (H : (G b <= 0)%R); [|lra]. unfold G. rewrite <- (asum_0 (upd b 1%nat (sizes ops))). apply asum_le. intros jx _. unfold linq.
    assert (HDb : dissip (nth b ops (afull [] 0%R))) by (rewrite Forall_forall in HF; apply HF; apply nth_In; exact Hb).
    apply (@dissip_quad _ (fun i => w (upd b i jx)) _ HDb). destruct HDb as (m & _ & Sb & _). rewrite sizes_nth by exact Hb. rewrite Sb. reflexivity. }
  pose proof (@nsum_term (length ops) (fun b => - G b)%R a HG Ha) as H1. rewrite nsum_opp in H1. cbv beta in H1. rewrite Hin in H1.
  assert (Hn0 : (0 < INR n)%R) by (apply lt_0_INR; exact Hn).
  assert (Hh2 : (0 < h ^ 2)%R) by (pose proof (Rlt_0_sqr h Hh) as H; unfold Rsqr in H; cbn; lra).
  assert (H2 : (Q2 <= (INR n * h) ^ 2 * - G a)%R).
  { unfold Q2. assert (HL : (a < length (sizes ops))%nat) by (unfold sizes; rewrite map_length; exact Ha).
    rewrite asum_axis with (ax := a) by exact HL. unfold G. rewrite <- asum_opp, <- asum_scal. apply asum_le. intros jx Hj. fold n.
    pose proof (@grounded_poincare n (fun i => w (upd a i jx)) e Hn He) as P1.
    pose proof (@grounded_quad n h _ (fun i => w (upd a i jx)) e Hn Hh HD S Hc He Hr) as P2. unfold linq. fold n. cbv beta in P1, P2.
    eapply Rle_trans; [exact P1|]. match type of P2 with (_ * ?B <= ?T)%R => assert (P3 : (B <= h ^ 2 * T)%R) end.
    { apply Rmult_le_reg_l with (r := (/ h ^ 2)%R); [apply Rinv_0_lt_compat; exact Hh2|]. rewrite <- (Rmult_assoc (/ h ^ 2) (h ^ 2)), Rinv_l, Rmult_1_l by lra. exact P2. }
    match type of P3 with (?B <= _ * ?T)%R => apply Rle_trans with (INR n * INR n * (h ^ 2 * T))%R end; [|right; ring].
    apply Rmult_le_compat_l; [apply Rmult_le_pos; lra | exact P3]. }
  assert (H3 : ((INR n * h) ^ 2 * - G a <= (INR n * h) ^ 2 * - (x * Q2))%R).
  { apply Rmult_le_compat_l; [apply pow2_ge_0 | exact H1]. }
  apply Rmult_le_reg_r with (r := Q2); [exact HQ|]. lra.
Qed.

Section Open.
Variables (tpu : bool) (eigh : arr R -> arr R * arr R) (cutoff : R) (imp : option impl) (g : grid) (v : list gvar) (dv : garr) (pb : bcs) (Ls : list (arr R)) (a0 : nat).
Hypothesis (Hd : (0 < gndim g)%nat) (H3 : forall a, (a < gndim g)%nat -> (3 <= nth a (gshape g) 0)%nat).
Hypothesis (Hnp : not_all_periodic v) (Ed : divergence v = Ok dv) (Hdv : wf_garr dv) (D1 : ggrid dv = g) (D2 : off_eq (goff dv) (repeat (1 # 2)%Q (gndim g))).
Hypothesis (Hpb : pressure_conditions g pb) (EL : laplacian_matrix_w_boundaries g (repeat (1 # 2)%Q (gndim g)) pb = Ok Ls).
Hypothesis (Hr : Forall (fun A => eigen_decomposition A (eigh A)) Ls).
Hypothesis (Ha0 : (a0 < gndim g)%nat) (Hop : open_side pb a0).
Hypothesis (Hcut0 : (0 <= cutoff)%R) (Hcut : (cutoff * (INR (nth a0 (gshape g) 0%nat) * hstep g a0) ^ 2 < 1)%R).
Let Hw : wfg g. Proof. destruct Hdv as (H & _). rewrite D1 in H. exact H. Qed.
Lemma open_not_periodic : has_all_periodic v = false.
Proof.
  destruct Hnp as (c & a & t1 & t2 & Hc & Ha & E & Hne). destruct (has_all_periodic v) eqn:H; [|reflexivity]. exfalso.
  unfold has_all_periodic in H. rewrite forallb_forall in H. specialize (H c Hc). rewrite forallb_forall in H. specialize (H a ltac:(apply in_seq; lia)).
  unfold is_periodic_bc, btype in H. rewrite (nth_error_nth _ _ _ E) in H. destruct t1; cbn in H; congruence.
Qed.
Lemma open_axes q : ggrid q = g -> off_eq (goff q) (repeat (1 # 2)%Q (gndim g)) ->
  forall a, (a < gndim (ggrid q))%nat -> homogeneous_axis pb q a /\ edge_side pb (goff q) a = None /\ (3 <= nth a (gshape (ggrid q)) 0)%nat.
Proof.
  intros Hq Ho a Ha. rewrite Hq in Ha |- *.
  assert (Hcen : centred q a). { unfold centred. rewrite (off_eq_nth a Ho). rewrite nth_repeat' by auto. reflexivity. }
  split; [|split; [apply edge_not_half; exact Hcen | apply H3; exact Ha]].
  destruct (Hpb Ha) as [Hp | (t1 & t2 & W1 & W2 & T1 & T2)]; [left; exact Hp|]. right; left. split; [exact Hcen|]. exists t1, t2. auto.
Qed.
Lemma open_wf d : shp d = gshape g -> wf_garr (mkga d (goff dv) (ggrid dv)).
Proof.
  intros Sd. split; [cbn; rewrite D1; exact Hw|]. split; [cbn; rewrite D1; exact Sd|]. cbn. rewrite (off_eq_length D2), D1. apply repeat_length.
Qed.
Lemma open_plain d : shp d = gshape g -> sizes Ls = gshape g /\ length Ls = gndim g /\ Forall dissip Ls /\
     (forall a, (a < gndim g)%nat -> coupled (hstep g a) (nth a Ls (afull [] 0%R))) /\
     exists w, laplacian (mkgv (mkga d (goff dv) (ggrid dv)) pb) = Ok w /\ is_field w g (goff dv) (separable Ls (get d)).
Proof.
  intros Sd. destruct (@lap_matrices_plain (mkga d (goff dv) (ggrid dv)) pb (@open_wf d Sd) (@open_axes (mkga d (goff dv) (ggrid dv)) D1 D2)) as (Ls' & EL' & HL' & HS' & HD' & HC' & HP' & w & Ew & Hww).
  cbn [ggrid goff gdata] in *. rewrite D1 in EL', HL', HS', HC', HP', Hww. rewrite (@lap_matrices_off g _ _ pb D2), EL in EL'. injection EL' as <-.
  split; [exact HS'|]. split; [exact HL'|]. split; [exact HD'|]. split; [exact HP'|]. exists w. split; [exact Ew | exact Hww].
Qed.
Lemma open_row : exists e, 0 <= e < Z.of_nat (nth a0 (gshape g) 0%nat) /\
  (rsum (nth a0 (gshape g) 0%nat) (fun j => get (nth a0 Ls (afull [] 0%R)) [e; j]) <= - / hstep g a0 ^ 2)%R.
Proof.
  set (u1 := mkga (afull (gshape g) 1%R) (goff dv) (ggrid dv)).
  assert (Hax : forall a, (a < gndim (ggrid u1))%nat -> homogeneous_axis pb u1 a /\ enough_cells (ggrid u1) pb (goff u1) a).
  { intros a Ha. destruct (@open_axes u1 D1 D2 a Ha) as (A & B & C). split; [exact A|]. split; [lia | intros _; exact C]. }
  destruct (@laplacian_matrices_axis_lem u1 pb (@open_wf (afull (gshape g) 1%R) eq_refl) Hax) as (Ls' & EL' & _ & HA).
  cbn [u1 ggrid goff] in EL'. rewrite D1, (@lap_matrices_off g _ _ pb D2), EL in EL'. injection EL' as <-.
  assert (Ha0' : (a0 < gndim (ggrid u1))%nat) by (cbn [u1 ggrid]; rewrite D1; exact Ha0).
  destruct (@open_axes u1 D1 D2 a0 Ha0') as (Hh & Hes & _).
  destruct (HA a0 Ha0') as (_ & _ & V). cbv zeta in V. unfold inner_size, inner_start in V. rewrite Hes in V. cbn [u1 ggrid] in V. rewrite D1 in V. fold u1 in V.
  set (n := nth a0 (gshape g) 0%nat) in *. pose proof (H3 Ha0) as Hn. fold n in Hn.
  assert (Hrow : forall e, 0 <= e < Z.of_nat n -> rsum n (fun j => get (nth a0 Ls (afull [] 0%R)) [e; j])%R = second_difference pb u1 a0 (upd a0 e (repeat 0 (gndim g)))).
  { intros e He. assert (Hix : inb (gshape g) (upd a0 e (repeat 0 (gndim g)))).
    { apply inb_upd_same; [|exact He]. destruct Hw as (_ & _ & Hpos & _). unfold gndim. clear -Hpos. induction Hpos as [|m s Hm Hp IH]; cbn; [exact I | split; [lia | exact IH]]. }
    rewrite <- (V _ Hix) by (rewrite nth_upd_same by (rewrite repeat_length; exact Ha0); fold n; lia).
    rewrite nth_upd_same by (rewrite repeat_length; exact Ha0). rewrite Z.sub_0_r. apply rsum_ext. intros j Hj. cbn [u1 gdata afull get]. ring. }
  assert (Hi2 : (0 < / hstep g a0 ^ 2)%R). { apply Rinv_0_lt_compat. pose proof (@hstep_nz g Hw a0 Ha0) as Hh0. pose proof (Rlt_0_sqr _ Hh0) as H. unfold Rsqr in H. cbn. lra. }
  destruct (Hpb Ha0) as [Hp | (t1 & t2 & W1 & W2 & T1 & T2)].
  { exfalso. unfold periodic_axis in Hp. destruct Hop as [(x1 & y1 & E & _) | (x1 & y1 & E & _)]; rewrite Hp in E; discriminate E. }
  destruct W1 as (x1 & y1 & E1 & V1). destruct W2 as (x2 & y2 & E2 & V2). rewrite E1 in E2. injection E2 as Ea Eb. subst x2 x1. rewrite V1 in V2. injection V2 as Ec Ee. subst y1 y2.
  assert (Hnbr : forall e k, (k = 1 \/ k = -1) -> 0 <= e < Z.of_nat n ->
     nbr pb u1 a0 k (upd a0 e (repeat 0 (gndim g))) = (if e + k <? 0 then beyond t1 0 (hstep g a0) (-1) 1 else if Z.of_nat n <=? e + k then beyond t2 0 (hstep g a0) 1 1 else 1)%R).
  { intros e k Hk He. unfold nbr. rewrite Hes. rewrite nth_upd_same by (rewrite repeat_length; exact Ha0).
    rewrite (nth_error_nth _ _ _ E1), (nth_error_nth _ _ _ V1). cbn [u1 ggrid gdata afull get]. rewrite D1. fold n.
    destruct T1 as [-> | ->]; destruct T2 as [-> | ->]; reflexivity. }
  destruct Hop as [(x & y & E & _) | (x & y & E & _)]; rewrite E1 in E; injection E as Ef Eg; [subst t1 | subst t2].
  - exists 0. split; [lia|]. rewrite Hrow by lia. unfold second_difference. rewrite !Hnbr by lia. cbn [u1 ggrid gdata afull get]. rewrite D1.
    change (0 + -1 <? 0) with true. change (0 + 1 <? 0) with false. destruct (Z.leb_spec (Z.of_nat n) (0 + 1)); [lia|]. cbv iota. unfold beyond, Rdiv. lra.
  - exists (Z.of_nat n - 1). split; [lia|]. rewrite Hrow by lia. unfold second_difference. rewrite !Hnbr by lia. cbn [u1 ggrid gdata afull get]. rewrite D1.
    destruct (Z.ltb_spec (Z.of_nat n - 1 + 1) 0); [lia|]. destruct (Z.leb_spec (Z.of_nat n) (Z.of_nat n - 1 + 1)); [|lia].
    destruct (Z.ltb_spec (Z.of_nat n - 1 + -1) 0); [lia|]. destruct (Z.leb_spec (Z.of_nat n) (Z.of_nat n - 1 + -1)); [lia|]. unfold beyond, Rdiv. lra.
Qed.
Lemma open_solve : exists q lq, pressure_solve_fast_diag tpu eigh cutoff v (Some pb) imp = Ok q /\
  wf_garr q /\ ggrid q = g /\ off_eq (goff q) (repeat (1 # 2)%Q (gndim g)) /\ laplacian (mkgv q pb) = Ok lq /\
  forall ix, inb (gshape g) ix -> get (gdata lq) ix = get (pressure_rhs_transform dv pb) ix.
Proof.
  pose proof Hdv as (_ & D3 & _). rewrite D1 in D3. pose proof Hw as (_ & _ & Hpos & _).
  destruct (@open_plain _ D3) as (HS & HLL & HD & HP & _).
  destruct open_row as (e & He & Hrow). pose proof (@hstep_nz g Hw a0 Ha0) as Hh0.
  assert (Hgap : forall x, eigenvalue_of Ls x -> (cutoff < Rabs x)%R).
  { intros x Hx. pose proof (@grounded_gap Ls (hstep g a0) a0 e x HD) as H. rewrite HLL, HS in H. specialize (H Ha0 Hh0 (HP a0 Ha0) He Hrow Hx).
    pose proof (eig_nonpos HD Hx) as Hneg. rewrite Rabs_left1 by exact Hneg.
    assert (0 <= (INR (nth a0 (gshape g) 0%nat) * hstep g a0) ^ 2)%R by apply pow2_ge_0. nra. }
  assert (Hne : Ls <> []) by (intros ->; cbn in HLL; lia).
  assert (Hsym : Forall symmetric Ls) by (eapply Forall_impl; [|exact HD]; intros A; apply dissip_symmetric).
  destruct (@transform_selected tpu eigh (pinv_fun cutoff) Ls false imp Hne Hsym ltac:(intros H; discriminate H) Hr) as (i & Hus & Etr).
  destruct (@transform_calc tpu eigh (pinv_fun cutoff) Ls i Hne Hus (pinv_real Hcut0)) as (F & sp & FF & EF & HK & HF).
  assert (HpR : allpos (shp (gdata dv))) by (rewrite D3; exact Hpos).
  destruct (@rhs_transform_spec dv pb HpR) as (SR & _).
  destruct (HF (pressure_rhs_transform dv pb)) as (x & Ex & Sx & Vx); [rewrite SR, D3, HS; reflexivity|].
  rewrite HS in Sx. destruct (@open_plain _ Sx) as (_ & _ & _ & _ & lq & Elq & (Q1 & Q2 & Q3 & Q4)).
  exists (mkga x (goff dv) (ggrid dv)), lq. split.
  { unfold pressure_solve_fast_diag. cbn [bind]. rewrite open_not_periodic, Ed. cbn [bind]. rewrite D1, (@lap_matrices_off g _ _ pb D2), EL. cbn [bind].
    unfold pseudoinverse. rewrite Etr, EF. cbn [bind]. rewrite Ex. reflexivity. }
  split; [apply open_wf; exact Sx|]. split; [exact D1|]. split; [exact D2|]. split; [exact Elq|].
  intros ix Hix. rewrite Q4 by exact Hix. rewrite <- HS in Hix.
  rewrite (@separable_ext Ls _ (FF (onR (pinv_fun cutoff)) (get (pressure_rhs_transform dv pb))) ix Vx Hix).
  apply (@fcalc_pinv Ls sp FF cutoff (get (pressure_rhs_transform dv pb)) HK Hsym Hcut0); [| |exact Hix].
  { intros y Hy. right. apply Hgap. exact Hy. }
  (* the kernel is trivial *)
  intros w Hker.
  assert (Hz : forall jx, inb (sizes Ls) jx -> w jx = 0%R).
  { intros jx Hj. destruct (Req_EM_T (w jx) 0) as [|N]; [assumption|]. exfalso.
    assert (H0 : eigenvalue_of Ls 0) by (exists w; split; [exists jx; auto|]; intros kx Hk; rewrite Hker by exact Hk; ring).
    specialize (Hgap 0%R H0). rewrite Rabs_R0 in Hgap. lra. }
  unfold inner. rewrite <- (asum_0 (sizes Ls)). apply asum_ext. intros jx Hj. rewrite Hz by exact Hj. ring.
Qed.
End Open.

(** With an open side and no axis bounded by walls on both sides the right-hand side is left alone. *)
Lemma rhs_no_closed dv pb g : pressure_conditions g pb -> ggrid dv = g -> allpos (shp (gdata dv)) -> (forall a, (a < gndim g)%nat -> ~ closed_axis pb a) ->
  forall ix, get (pressure_rhs_transform dv pb) ix = get (gdata dv) ix.
Proof.
  intros Hpb Hg Hp Hno ix. destruct (@rhs_transform_spec dv pb Hp) as (_ & ->). destruct (existsb _ _) eqn:E; [|ring]. exfalso.
  apply existsb_exists in E. destruct E as (a & Ha & E). apply in_seq in Ha. rewrite Hg in Ha. apply (Hno a ltac:(lia)). apply andb_true_iff in E. destruct E as (E1 & E2).
  unfold btype in E1, E2. destruct (Hpb a ltac:(lia)) as [P | (t1 & t2 & (x1 & y1 & T1 & V1) & (x2 & y2 & T2 & V2) & _ & _)].
  - unfold periodic_axis in P. rewrite (nth_error_nth _ _ _ P) in E1. discriminate E1.
  - rewrite (nth_error_nth _ _ _ T1) in E1. rewrite (nth_error_nth _ _ _ T2) in E2. cbn [fst snd] in *.
    destruct t1; try discriminate E1. destruct t2; try discriminate E2. split; [exists x1, y1 | exists x2, y2]; auto.
Qed.
Lemma rhs_closed dv pb g a : ggrid dv = g -> allpos (shp (gdata dv)) -> (a < gndim g)%nat -> closed_axis pb a ->
  forall ix, get (pressure_rhs_transform dv pb) ix = (get (gdata dv) ix - amean (gdata dv))%R.
Proof.
  intros Hg Hp Ha ((x1 & y1 & T1 & V1) & (x2 & y2 & T2 & V2)) ix. destruct (@rhs_transform_spec dv pb Hp) as (_ & ->).
  replace (existsb _ _) with true; [reflexivity|]. symmetry. apply existsb_exists. exists a. rewrite Hg. split; [apply in_seq; lia|].
  unfold btype. rewrite T1 in T2. injection T2 as Ea Eb. subst x1 x2. rewrite (nth_error_nth _ _ _ T1). reflexivity.
Qed.

(* @prop C85 Open boundaries: for every velocity that is not periodic along all axes, and explicitly given pressure conditions (periodic, Dirichlet or Neumann, zero values) with at least one Dirichlet side and no axis with walls on both sides, solve_fast_diag returns a solution of the pressure equation: the laplacian of its result under these conditions is the divergence of the velocity, without subtracting a mean. *)
Lemma open_pressure_solves_poisson_lem : forall tpu eigh cutoff imp g v dv pb Ls a0,
  (0 < gndim g)%nat -> (forall a, (a < gndim g)%nat -> (3 <= nth a (gshape g) 0)%nat) ->
  not_all_periodic v -> divergence v = Ok dv -> wf_garr dv -> ggrid dv = g -> off_eq (goff dv) (repeat (1 # 2)%Q (gndim g)) ->
  pressure_conditions g pb -> (a0 < gndim g)%nat -> open_side pb a0 -> (forall a, (a < gndim g)%nat -> ~ closed_axis pb a) ->
  laplacian_matrix_w_boundaries g (repeat (1 # 2)%Q (gndim g)) pb = Ok Ls -> Forall (fun A => eigen_decomposition A (eigh A)) Ls ->
  (0 <= cutoff)%R -> (cutoff * (INR (nth a0 (gshape g) 0%nat) * hstep g a0) ^ 2 < 1)%R ->
  exists q lq, pressure_solve_fast_diag tpu eigh cutoff v (Some pb) imp = Ok q /\
    wf_garr q /\ ggrid q = g /\ off_eq (goff q) (repeat (1 # 2)%Q (gndim g)) /\ laplacian (mkgv q pb) = Ok lq /\
    forall ix, inb (gshape g) ix -> get (gdata lq) ix = get (gdata dv) ix.
Proof.
  intros tpu eigh cutoff imp g v dv pb Ls a0 Hd H3 Hnp Ed Hdv D1 D2 Hpb Ha0 Hop Hno EL Hr Hc0 Hc.
  destruct (@open_solve tpu eigh cutoff imp g v dv pb Ls a0) as (q & lq & E1 & E2 & E3 & E4 & E5 & V); auto.
  exists q, lq. do 5 (split; [assumption|]). intros ix Hix. rewrite V by exact Hix. apply (@rhs_no_closed dv pb g); auto.
  destruct Hdv as ((_ & _ & Hp & _) & S & _). rewrite S. exact Hp.
Qed.
(* @prop C85 An open boundary together with an axis between two walls: although the pressure equation then has a unique solution for every right-hand side, solve_fast_diag subtracts the mean of the divergence first, so the laplacian of its result is the divergence minus its mean. *)
Lemma open_pressure_mean_deficit_lem : forall tpu eigh cutoff imp g v dv pb Ls a0 a1,
  (0 < gndim g)%nat -> (forall a, (a < gndim g)%nat -> (3 <= nth a (gshape g) 0)%nat) ->
  not_all_periodic v -> divergence v = Ok dv -> wf_garr dv -> ggrid dv = g -> off_eq (goff dv) (repeat (1 # 2)%Q (gndim g)) ->
  pressure_conditions g pb -> (a0 < gndim g)%nat -> open_side pb a0 -> (a1 < gndim g)%nat -> closed_axis pb a1 ->
  laplacian_matrix_w_boundaries g (repeat (1 # 2)%Q (gndim g)) pb = Ok Ls -> Forall (fun A => eigen_decomposition A (eigh A)) Ls ->
  (0 <= cutoff)%R -> (cutoff * (INR (nth a0 (gshape g) 0%nat) * hstep g a0) ^ 2 < 1)%R ->
  exists q lq, pressure_solve_fast_diag tpu eigh cutoff v (Some pb) imp = Ok q /\
    wf_garr q /\ ggrid q = g /\ off_eq (goff q) (repeat (1 # 2)%Q (gndim g)) /\ laplacian (mkgv q pb) = Ok lq /\
    forall ix, inb (gshape g) ix -> get (gdata lq) ix = (get (gdata dv) ix - total (gdata dv) / INR (asize (gshape g)))%R.
Proof.
  intros tpu eigh cutoff imp g v dv pb Ls a0 a1 Hd H3 Hnp Ed Hdv D1 D2 Hpb Ha0 Hop Ha1 Hcl EL Hr Hc0 Hc.
  destruct (@open_solve tpu eigh cutoff imp g v dv pb Ls a0) as (q & lq & E1 & E2 & E3 & E4 & E5 & V); auto.
  exists q, lq. do 5 (split; [assumption|]). intros ix Hix. rewrite V by exact Hix.
  destruct Hdv as ((_ & _ & Hp & _) & S & _). rewrite (@rhs_closed dv pb g a1 D1) by (auto; rewrite S; exact Hp). unfold amean. rewrite S, D1. reflexivity.
Qed.
(* @prop C85 With an open side the pressure equation has at most one solution: two cell-centred pressures with the same laplacian under these conditions are equal, so every solver that solves it returns the same pressure. *)
Lemma open_pressure_unique_lem : forall g pb a0 p1 p2 l1 l2,
  (forall a, (a < gndim g)%nat -> (3 <= nth a (gshape g) 0)%nat) ->
  pressure_conditions g pb -> (a0 < gndim g)%nat -> open_side pb a0 ->
  wf_garr p1 -> ggrid p1 = g -> off_eq (goff p1) (repeat (1 # 2)%Q (gndim g)) ->
  wf_garr p2 -> ggrid p2 = g -> off_eq (goff p2) (repeat (1 # 2)%Q (gndim g)) ->
  laplacian (mkgv p1 pb) = Ok l1 -> laplacian (mkgv p2 pb) = Ok l2 ->
  (forall ix, inb (gshape g) ix -> get (gdata l1) ix = get (gdata l2) ix) ->
  forall ix, inb (gshape g) ix -> get (gdata p1) ix = get (gdata p2) ix.
Proof.
  intros g pb a0 p1 p2 l1 l2 H3 Hpb Ha0 Hop W1 G1 O1 W2 G2 O2 E1 E2 Heq.
  destruct (@lap_matrices_plain p1 pb W1 (@open_axes g pb H3 Hpb p1 G1 O1)) as (Ls & EL & HL & HS & HD & _ & HP & w1 & Ew1 & (_ & _ & _ & V1)).
  destruct (@lap_matrices_plain p2 pb W2 (@open_axes g pb H3 Hpb p2 G2 O2)) as (Ls2 & EL2 & _ & _ & _ & _ & _ & w2 & Ew2 & (_ & _ & _ & V2)).
  rewrite G1 in EL, HL, HS, HP, V1. rewrite G2 in EL2, V2. rewrite (@lap_matrices_off g _ _ pb O1) in EL. rewrite (@lap_matrices_off g _ _ pb O2), EL in EL2. injection EL2 as <-.
  assert (A1 : l1 = w1) by congruence. assert (A2 : l2 = w2) by congruence. subst l1 l2.
  destruct (@open_row g p1 pb Ls a0 ltac:(lia)) as (e & He & Hrow); [assumption ..|].
  intros ix Hix. destruct (Req_EM_T (get (gdata p1) ix) (get (gdata p2) ix)) as [|N]; [assumption|]. exfalso.
  assert (Hw : wfg g) by (rewrite <- G1; apply W1).
  assert (H0 : eigenvalue_of Ls 0).
  { exists (fun jx => get (gdata p1) jx - get (gdata p2) jx)%R. rewrite HS. split; [exists ix; split; [exact Hix | lra]|].
    intros jx Hj. rewrite Rmult_0_l. transitivity (separable Ls (get (gdata p1)) jx - separable Ls (get (gdata p2)) jx)%R.
    - unfold separable. rewrite <- nsum_minus. apply nsum_ext. intros a Ha. unfold matrix_along. rewrite <- rsum_minus. apply rsum_ext. intros; ring.
    - rewrite <- V1, <- V2 by exact Hj. rewrite (Heq jx Hj). ring. }
  pose proof (@grounded_gap Ls (hstep g a0) a0 e 0 HD) as H. rewrite HL, HS in H.
  specialize (H Ha0 (@hstep_nz g Hw a0 Ha0) (HP a0 Ha0) He Hrow H0). lra.
Qed.

(** Examples: 3 x 3 unit cells; fluid leaves with speed 1 through the upper end of the second axis. *)
Definition opg : grid := mkgrid [3%nat; 3%nat] [1%R; 1%R] [(0%R, 3%R); (0%R, 3%R)].
Definition opb0 : bcs := constant_bc [(Dirichlet, Dirichlet); (Dirichlet, Dirichlet)] [(Some 0%R, Some 0%R); (Some 0%R, Some 0%R)].
Definition opb1 : bcs := constant_bc [(Dirichlet, Dirichlet); (Dirichlet, Dirichlet)] [(Some 0%R, Some 0%R); (Some 0%R, Some 1%R)].
Definition opv : list gvar :=
  [mkgv (mkga (mkarr [3%nat; 3%nat] (fun _ => 0%R)) [1%Q; (1 # 2)%Q] opg) opb0;
   mkgv (mkga (mkarr [3%nat; 3%nat] (fun ix => if nth 1 ix 0 =? 2 then 1%R else 0%R)) [(1 # 2)%Q; 1%Q] opg) opb1].
Definition op_open : bcs := homogeneous [(Dirichlet, Dirichlet); (Dirichlet, Dirichlet)].
Definition op_mixed : bcs := homogeneous [(Neumann, Neumann); (Dirichlet, Dirichlet)].
Definition opD : arr R := lap_boundary (-1) 1 true (lap_boundary (-1) 1 false (mkarr [3%nat; 3%nat] (fun ix => lap_column 3 1 ((nth 0 ix 0 - nth 1 ix 0) mod 3)))).
Definition opDeigh : arr R * arr R :=
  (mkarr [3%nat] (fun kx => if nth 0 kx 0 =? 0 then (-1)%R else if nth 0 kx 0 =? 1 then (-3)%R else (-4)%R),
   mkarr [3%nat; 3%nat] (fun ix => let i := nth 0 ix 0 in
     if nth 1 ix 0 =? 0 then (if i =? 1 then 2 * sqrt (/ 6) else sqrt (/ 6))%R
     else if nth 1 ix 0 =? 1 then (if i =? 0 then sqrt (/ 2) else if i =? 1 then 0 else - sqrt (/ 2))%R
     else (if i =? 1 then - sqrt (/ 3) else sqrt (/ 3))%R)).
Definition opeigh (A : arr R) : arr R * arr R := if Req_EM_T (get A [0; 0]) (-1) then w3eigh A else opDeigh.
Lemma opg_wf : wfg opg. Proof. repeat split; repeat constructor; (lia || lra). Qed.
Lemma opv_box : box_velocity opg (fun _ => false) opv.
Proof.
  split; [reflexivity|]. intros [|[|[|i]]] u H; simpl in H; try discriminate H; injection H as <-;
    (split; [repeat split; repeat constructor; (lia || lra)|]); (split; [reflexivity|]); (split; [repeat constructor|]); (split; [reflexivity|]); split.
  - intros [|[|a]] Ha; cbn; [exists Dirichlet, Dirichlet; split; [reflexivity | intros E; discriminate E] .. | unfold gndim in Ha; simpl in Ha; lia].
  - intros _. exists 0%R. split; [reflexivity|]. intros ix _ H. reflexivity.
  - intros [|[|a]] Ha; cbn; [exists Dirichlet, Dirichlet; split; [reflexivity | intros E; discriminate E] .. | unfold gndim in Ha; simpl in Ha; lia].
  - intros _. exists 1%R. split; [reflexivity|]. intros ix _ H. cbn [garray gdata get]. rewrite H. reflexivity.
Qed.
Lemma opD_eig : eigen_decomposition opD opDeigh.
Proof.
  pose proof (sqrt_sqrt (/ 3) ltac:(lra)) as H3. pose proof (sqrt_sqrt (/ 2) ltac:(lra)) as H2. pose proof (sqrt_sqrt (/ 6) ltac:(lra)) as H6.
  exists 3%nat. split; [reflexivity|]. split; [reflexivity|]. split; [reflexivity|].
  unfold opDeigh. cbn [fst snd]. set (a := sqrt (/ 3)) in *. set (b := sqrt (/ 2)) in *. set (c := sqrt (/ 6)) in *.
  split; [|split]; intros i k Hi Hk; destruct (lt3 Hi) as [-> | [-> | ->]]; destruct (lt3 Hk) as [-> | [-> | ->]]; cbn; lra.
Qed.
Lemma opD_eigh : eigen_decomposition opD (opeigh opD).
Proof. unfold opeigh. destruct (Req_EM_T _ _) as [E|_]; [exfalso; cbn in E; lra | apply opD_eig]. Qed.
Lemma w3L_eigh : eigen_decomposition w3L (opeigh w3L).
Proof. unfold opeigh. destruct (Req_EM_T _ _) as [_|N]; [apply w3L_eig | exfalso; apply N; cbn; lra]. Qed.
Lemma op_open_eq : laplacian_matrix_w_boundaries opg [(1 # 2)%Q; (1 # 2)%Q] op_open = Ok [opD; opD].
Proof. reflexivity. Qed.
Lemma op_mixed_eq : laplacian_matrix_w_boundaries opg [(1 # 2)%Q; (1 # 2)%Q] op_mixed = Ok [w3L; opD].
Proof. reflexivity. Qed.
Lemma op_np : not_all_periodic opv.
Proof. exists (nth 0 opv dgv), 0%nat, Dirichlet, Dirichlet. split; [left; reflexivity|]. split; [unfold gndim; cbn; lia|]. split; [reflexivity | intros E; discriminate E]. Qed.
Lemma op_wall : forall t1 t2 b k, nth_error (btypes b) k = Some (t1, t2) -> nth_error (bvals b) k = Some (Some 0%R, Some 0%R) -> lower_wall b k t1 0 /\ upper_wall b k t2 0.
Proof. intros t1 t2 b k H1 H2. split; [exists t2, (Some 0%R) | exists t1, (Some 0%R)]; auto. Qed.
Lemma op_open_pc : pressure_conditions opg op_open.
Proof. intros [|[|a]] Ha; [| | unfold gndim in Ha; simpl in Ha; lia]; right; exists Dirichlet, Dirichlet; destruct (@op_wall Dirichlet Dirichlet op_open) with (k := 0%nat); try reflexivity; destruct (@op_wall Dirichlet Dirichlet op_open) with (k := 1%nat); try reflexivity; auto. Qed.
Lemma op_mixed_pc : pressure_conditions opg op_mixed.
Proof.
  intros [|[|a]] Ha; [| | unfold gndim in Ha; simpl in Ha; lia]; right.
  - exists Neumann, Neumann. destruct (@op_wall Neumann Neumann op_mixed 0%nat); try reflexivity. auto.
  - exists Dirichlet, Dirichlet. destruct (@op_wall Dirichlet Dirichlet op_mixed 1%nat); try reflexivity. auto.
Qed.
Lemma op_div : exists dv, divergence opv = Ok dv /\ wf_garr dv /\ ggrid dv = opg /\ off_eq (goff dv) (repeat (1 # 2)%Q (gndim opg)) /\
  forall ix, inb (gshape opg) ix -> get (gdata dv) ix = (if nth 1 ix 0%Z =? 2 then 1 else 0)%R.
Proof.
  destruct (@box_div opg (fun _ => false) opv ltac:(unfold gndim; cbn; lia) opv_box) as (dv & E & (D1 & D2 & D3 & D4)). exists dv. split; [exact E|].
  split; [split; [rewrite D1; apply opg_wf|]; split; [rewrite D1; exact D3|]; rewrite (off_eq_length D2), D1; reflexivity|].
  split; [exact D1|]. split; [exact D2|]. intros ix Hix. rewrite D4 by exact Hix.
  destruct ix as [|i [|j [|k ix]]]; cbn [inb gshape opg] in Hix; try tauto. destruct Hix as (Hi & Hj & _).
  destruct (lt3 Hi) as [-> | [-> | ->]]; destruct (lt3 Hj) as [-> | [-> | ->]]; cbn; lra.
Qed.
(* @ex *)
Lemma open_pressure_solves_poisson_ex_lem : exists dv Ls,
  (0 < gndim opg)%nat /\ (forall a, (a < gndim opg)%nat -> (3 <= nth a (gshape opg) 0)%nat) /\
  not_all_periodic opv /\ divergence opv = Ok dv /\ wf_garr dv /\ ggrid dv = opg /\ off_eq (goff dv) (repeat (1 # 2)%Q (gndim opg)) /\
  pressure_conditions opg op_open /\ (1 < gndim opg)%nat /\ open_side op_open 1 /\ (forall a, (a < gndim opg)%nat -> ~ closed_axis op_open a) /\
  laplacian_matrix_w_boundaries opg (repeat (1 # 2)%Q (gndim opg)) op_open = Ok Ls /\ Forall (fun A => eigen_decomposition A (opeigh A)) Ls /\
  (0 <= 1 / 1000)%R /\ (1 / 1000 * (INR (nth 1 (gshape opg) 0%nat) * hstep opg 1) ^ 2 < 1)%R.
Proof.
  destruct op_div as (dv & E & W & G & O & _). exists dv, [opD; opD].
  split; [unfold gndim; cbn; lia|]. split; [intros [|[|a]] Ha; [cbn; lia .. | unfold gndim in Ha; simpl in Ha; lia]|].
  split; [apply op_np|]. do 4 (split; [assumption|]). split; [apply op_open_pc|]. split; [unfold gndim; cbn; lia|].
  split; [left; apply (@op_wall Dirichlet Dirichlet); reflexivity|]. split.
  { intros [|[|a]] Ha ((x & y & H & _) & _); [discriminate H .. | unfold gndim in Ha; simpl in Ha; lia]. }
  split; [apply op_open_eq|]. split; [constructor; [apply opD_eigh|]; constructor; [apply opD_eigh | constructor]|]. split; [lra|]. unfold hstep. cbn. lra.
Qed.
Lemma op_mixed_closed : closed_axis op_mixed 0.
Proof. apply (@op_wall Neumann Neumann); reflexivity. Qed.
(* @ex *)
Lemma open_pressure_mean_deficit_ex_lem : exists dv Ls,
  (0 < gndim opg)%nat /\ (forall a, (a < gndim opg)%nat -> (3 <= nth a (gshape opg) 0)%nat) /\
  not_all_periodic opv /\ divergence opv = Ok dv /\ wf_garr dv /\ ggrid dv = opg /\ off_eq (goff dv) (repeat (1 # 2)%Q (gndim opg)) /\
  pressure_conditions opg op_mixed /\ (1 < gndim opg)%nat /\ open_side op_mixed 1 /\ (0 < gndim opg)%nat /\ closed_axis op_mixed 0 /\
  laplacian_matrix_w_boundaries opg (repeat (1 # 2)%Q (gndim opg)) op_mixed = Ok Ls /\ Forall (fun A => eigen_decomposition A (opeigh A)) Ls /\
  (0 <= 1 / 1000)%R /\ (1 / 1000 * (INR (nth 1 (gshape opg) 0%nat) * hstep opg 1) ^ 2 < 1)%R /\ total (gdata dv) = 3%R.
Proof.
  destruct op_div as (dv & E & W & G & O & V). exists dv, [w3L; opD].
  split; [unfold gndim; cbn; lia|]. split; [intros [|[|a]] Ha; [cbn; lia .. | unfold gndim in Ha; simpl in Ha; lia]|].
  split; [apply op_np|]. do 4 (split; [assumption|]). split; [apply op_mixed_pc|]. split; [unfold gndim; cbn; lia|].
  split; [left; apply (@op_wall Dirichlet Dirichlet); reflexivity|]. split; [unfold gndim; cbn; lia|]. split; [apply op_mixed_closed|].
  split; [apply op_mixed_eq|]. split; [constructor; [apply w3L_eigh|]; constructor; [apply opD_eigh | constructor]|]. split; [lra|]. split; [unfold hstep; cbn; lra|].
  unfold total. destruct W as (_ & S & _). rewrite S, G, (@asum_ext _ _ _ V). cbn. lra.
Qed.
(* @ex *)
Lemma open_pressure_unique_ex_lem : exists l1,
  (forall a, (a < gndim opg)%nat -> (3 <= nth a (gshape opg) 0)%nat) /\ pressure_conditions opg op_mixed /\ (1 < gndim opg)%nat /\ open_side op_mixed 1 /\
  let p := mkga (mkarr [3%nat; 3%nat] (fun ix => IZR (nth 0 ix 0 + nth 1 ix 0))) [(1 # 2)%Q; (1 # 2)%Q] opg in
  wf_garr p /\ ggrid p = opg /\ off_eq (goff p) (repeat (1 # 2)%Q (gndim opg)) /\ laplacian (mkgv p op_mixed) = Ok l1.
Proof.
  set (p := mkga (mkarr [3%nat; 3%nat] (fun ix => IZR (nth 0 ix 0 + nth 1 ix 0))) [(1 # 2)%Q; (1 # 2)%Q] opg).
  assert (H3 : forall a, (a < gndim opg)%nat -> (3 <= nth a (gshape opg) 0)%nat) by (intros [|[|a]] Ha; [cbn; lia .. | unfold gndim in Ha; simpl in Ha; lia]).
  assert (W : wf_garr p) by (split; [apply opg_wf | split; reflexivity]).
  assert (O : off_eq (goff p) (repeat (1 # 2)%Q (gndim opg))) by (repeat constructor).
  destruct (@lap_matrices_plain p op_mixed W (@open_axes opg op_mixed H3 op_mixed_pc p eq_refl O)) as (_ & _ & _ & _ & _ & _ & _ & w & Ew & _).
  exists w. split; [exact H3|]. split; [apply op_mixed_pc|]. split; [unfold gndim; cbn; lia|]. split; [left; apply (@op_wall Dirichlet Dirichlet); reflexivity|].
  split; [exact W|]. split; [reflexivity|]. split; [exact O | exact Ew].
Qed.
(* @prop C85 The docstring of solve_fast_diag promises a solution of the pressure equation for every pressure_bc. That is false: with walls across one axis and open ends along the other, where a unique solution exists, fluid leaving the box makes the result solve a different equation. *)
Lemma fast_diag_any_pressure_bc_refuted_lem : exists g v dv pb eigh cutoff q lq,
  wfg g /\ box_velocity g (fun _ => false) v /\ pressure_conditions g pb /\ (exists a, (a < gndim g)%nat /\ open_side pb a) /\
  divergence v = Ok dv /\ pressure_solve_fast_diag false eigh cutoff v (Some pb) None = Ok q /\ laplacian (mkgv q pb) = Ok lq /\
  (exists Ls, laplacian_matrix_w_boundaries g (repeat (1 # 2)%Q (gndim g)) pb = Ok Ls /\ Forall (fun A => eigen_decomposition A (eigh A)) Ls) /\
  forall ix, inb (gshape g) ix -> get (gdata lq) ix = (get (gdata dv) ix - 1 / 3)%R.
Proof.
  destruct open_pressure_mean_deficit_ex_lem as (dv & Ls & H1 & H2 & H3 & H4 & H5 & H6 & H7 & H8 & H9 & H10 & H11 & H12 & H13 & H14 & H15 & H16 & HT).
  destruct (@open_pressure_mean_deficit_lem false opeigh (1 / 1000)%R None opg opv dv op_mixed Ls 1%nat 0%nat) as (q & lq & Q1 & Q2 & Q3 & Q4 & Q5 & Q6); auto.
  exists opg, opv, dv, op_mixed, opeigh, (1 / 1000)%R, q, lq. split; [apply opg_wf|]. split; [apply opv_box|]. split; [exact H8|]. split; [exists 1%nat; auto|].
  split; [exact H4|]. split; [exact Q1|]. split; [exact Q5|]. split; [exists Ls; auto|]. intros ix Hix. rewrite Q6, HT by exact Hix. f_equal. cbn. lra.
Qed.
