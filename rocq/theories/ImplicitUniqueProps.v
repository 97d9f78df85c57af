(** * Property C22: the implicit diffusion equation has one solution; the iterative solver *)
From Verif Require Import Prelude NdArr Grids_model GridProps Spec SpecLin SpecDiff LinAlg Cplx Boundaries_model FD_model PRep FDProofs FDProps WallBC WallBCProps ImposeProps WallFD Pressure_model PressureProps WallFDProps FastDiag_model FastDiagProofs FastDiagProps FastDiagCalc SpecDiag FastDiagImplProps Laplacian_model LaplacianProofs LaplacianProps LapSign PressureSolve_model PressureSolveProps Diffusion_model DiffusionProps ImplicitDiffusionProps ImplicitDirichletProps.
From Coq Require Import Classical_Prop.
Set Implicit Arguments.
Local Open Scope Z_scope.

Section Unique.
Variables (c : R) (u : gvar) (u1 u2 : gvar).
Let g := ggrid (garray u).
Let o := goff (garray u).
Let b := gbc u.
Hypothesis (Hu : wf_garr (garray u)) (Hc : (0 <= c)%R).
Hypothesis (Hax : forall a, (a < gndim g)%nat -> walled_axis b (garray u) a /\ enough_cells g b o a).
Hypothesis (H1 : implicitly_diffused c u u1) (H2 : implicitly_diffused c u u2).

Lemma sd_shape b' w (a : nat) ix : ggrid w = g -> off_eq (goff w) o -> second_difference b' w a ix = second_difference b' (mkga (mkarr (gshape g) (get (gdata w))) o g) a ix.
Proof.
  intros Hg Ho. unfold second_difference. assert (Hnb : forall k, nbr b' w a k ix = nbr b' (mkga (mkarr (gshape g) (get (gdata w))) o g) a k ix).
  { intros k. unfold nbr. cbn [ggrid gdata get goff]. rewrite Hg, (@edge_side_off b' _ _ a Ho). reflexivity. }
  rewrite !Hnb. cbn [ggrid gdata get]. rewrite Hg. reflexivity.
Qed.
Lemma unique_values ix : inb (gshape g) ix -> get (gdata (garray u1)) ix = get (gdata (garray u2)) ix.
Proof.
  destruct H1 as (_ & G1 & O1 & _ & V1 & W1). destruct H2 as (_ & G2 & O2 & _ & V2 & W2). fold g o b in G1, O1, V1, W1, G2, O2, V2, W2.
  set (f1 := get (gdata (garray u1))) in *. set (f2 := get (gdata (garray u2))) in *.
  (* walls *)
  assert (Hwall : forall ix, inb (gshape g) ix -> ~ (forall a, (a < gndim g)%nat -> wall_value b (garray u) a ix = None) -> f1 ix = f2 ix).
  { intros jx Hj Hn. assert (Hlast : forall k, (k <= gndim g)%nat -> (forall a, (k <= a < gndim g)%nat -> wall_value b (garray u) a jx = None) -> f1 jx = f2 jx).
    { induction k as [|k IH]; intros Hk Hnone; [exfalso; apply Hn; intros a Ha; apply Hnone; lia|].
      destruct (wall_value b (garray u) k jx) as [x|] eqn:E.
      - transitivity x; [|symmetry]; [apply (W1 jx k x Hj ltac:(lia) E) | apply (W2 jx k x Hj ltac:(lia) E)]; intros a' Ha'; apply Hnone; lia.
      - apply IH; [lia|]. intros a Ha. destruct (Nat.eq_dec a k) as [->|N]; [exact E | apply Hnone; lia]. }
    apply (Hlast (gndim g)); [lia|]. intros a Ha. lia. }
  set (z := mkga (mkarr (gshape g) (fun ix => f1 ix - f2 ix)%R) o g).
  assert (Hz : wf_garr z) by (destruct Hu as (A & _ & B); split; [exact A|]; split; [reflexivity | exact B]).
  assert (Hcomp : forall a, (a < gndim g)%nat -> homogeneous_axis (bc0 b) z a /\ enough_cells g (bc0 b) o a).
  { intros a Ha. destruct (Hax Ha) as (Hw & He). split; [exact (bc0_homogeneous Hw)|]. destruct He as (E2 & E3). split; [exact E2|].
    intros E. apply E3. pose proof (edge_side_bc0 Hw) as H. fold o in H. destruct (edge_side b o a) as [[s x]|]; [congruence | reflexivity]. }
  destruct (@laplacian_matrices_axis_lem z (bc0 b) Hz Hcomp) as (Ls & EL & HLL & HA). cbn [z ggrid goff] in EL, HLL, HA.
  destruct (@lap_matrices_dissip z (bc0 b) Ls Hz Hcomp EL) as (HD & _ & _).
  assert (Hsz : forall a, (a < gndim g)%nat -> nth a (sizes Ls) 0%nat = inner_size g b o a).
  { intros a Ha. rewrite sizes_nth by lia. destruct (HA a Ha) as (-> & _). cbn [nth]. destruct (inner_bc0 (proj1 (Hax Ha))) as (_ & E). exact E. }
  assert (Hszl : length (sizes Ls) = gndim g) by (unfold sizes; rewrite map_length; exact HLL).
  set (zz := fun jx => (f1 (lift_ix g o b jx) - f2 (lift_ix g o b jx))%R).
  assert (Hin : forall jx, inb (sizes Ls) jx -> inb (gshape g) (lift_ix g o b jx) /\ (forall a, (a < gndim g)%nat -> inner_start b o a <= nth a (lift_ix g o b jx) 0 < inner_start b o a + Z.of_nat (inner_size g b o a))).
  { intros kx Hk. assert (Hrng : forall a, (a < gndim g)%nat -> inner_start b o a <= nth a (lift_ix g o b kx) 0 < inner_start b o a + Z.of_nat (inner_size g b o a)).
    { intros a Ha. rewrite lift_ix_nth by exact Ha. pose proof (@inb_nth _ _ a Hk) as H. rewrite Hszl in H. specialize (H Ha). rewrite Hsz in H by exact Ha. lia. }
    split; [|exact Hrng]. apply inb_intro; [apply lift_ix_length|]. intros a Ha. specialize (Hrng a Ha). pose proof (allpos_nth (proj1 (proj2 (proj2 (proj1 Hu)))) Ha).
    unfold inner_start, inner_size in Hrng. fold g in H. destruct (edge_side b o a) as [[[] x]|]; lia. }
  assert (Heq : forall jx, inb (sizes Ls) jx -> zz jx = (c * separable Ls zz jx)%R).
  { intros jx Hj. destruct (Hin jx Hj) as (Hl & Hr). set (lx := lift_ix g o b jx) in *.
    assert (HLj : length jx = gndim g) by (rewrite (inb_length _ _ Hj); exact Hszl).
    assert (Hnw : forall a, (a < gndim g)%nat -> wall_value b (garray u) a lx = None) by (exact (proj2 (@not_wall g o b (gdata (garray u)) lx Hl) Hr)).
    pose proof (V1 lx Hl Hnw) as E1. pose proof (V2 lx Hl Hnw) as E2. fold f1 in E1. fold f2 in E2.
    assert (Es : separable Ls zz jx = (nsum (gndim g) (fun a => second_difference b (garray u1) a lx) - nsum (gndim g) (fun a => second_difference b (garray u2) a lx))%R).
    { rewrite <- nsum_minus. unfold separable. rewrite HLL. apply nsum_ext. intros a Ha. destruct (HA a Ha) as (Sa & _ & Va). destruct (inner_bc0 (proj1 (Hax Ha))) as (F1 & F2). fold o g b in F1, F2.
      rewrite F1, F2 in Va. specialize (Va lx Hl (Hr a Ha)).
      unfold matrix_along. rewrite Sa. cbn [nth]. rewrite F2.
      transitivity (second_difference (bc0 b) z a lx).
      - rewrite <- Va. apply rsum_ext. intros j Hjr. f_equal.
        + f_equal. f_equal. unfold lx. rewrite lift_ix_nth by exact Ha. lia.
        + cbn [z gdata get]. unfold zz. rewrite lift_upd by auto. reflexivity.
      - rewrite (@sd_shape b (garray u1) a lx G1 O1), (@sd_shape b (garray u2) a lx G2 O2). fold f1 f2. unfold second_difference. cbn [z ggrid gdata get].
        assert (Hwl : walled_axis b (mkga (mkarr (gshape g) f1) o g) a) by exact (proj1 (Hax Ha)).
        rewrite (@nbr_split b o g f1 f2 a 1 lx Hwl), (@nbr_split b o g f1 f2 a (-1) lx Hwl) by auto. fold z.
        pose proof (@ProjectionProps.hstep_nz g (proj1 Hu) a Ha) as Hh. field. exact Hh. }
    rewrite Es. unfold zz. fold lx. lra. }
  assert (Hzero : forall jx, inb (sizes Ls) jx -> zz jx = 0%R).
  { apply inner_self. pose proof (proj1 (@sep_dissip Ls zz HD)) as Hd.
    assert (Hpos : (0 <= inner (sizes Ls) zz zz)%R) by (apply asum_nonneg; intros jx _; apply Rle_0_sqr).
    assert (E : inner (sizes Ls) zz zz = (c * inner (sizes Ls) zz (separable Ls zz))%R).
    { unfold inner. rewrite <- asum_scal. apply asum_ext. intros jx Hj. rewrite (Heq jx Hj) at 2. ring. }
    nra. }
  intros Hix. destruct (classic (forall a, (a < gndim g)%nat -> wall_value b (garray u) a ix = None)) as [Hnw|Hw]; [|apply Hwall; assumption].
  pose proof (proj1 (@not_wall g o b (gdata (garray u)) ix Hix) Hnw) as Hr.
  assert (HLix : length ix = gndim g) by (apply (inb_length _ _ Hix)).
  assert (Hj : inb (sizes Ls) (drop_ix g o b ix)).
  { apply inb_intro; [rewrite drop_ix_length; congruence|]. intros a Ha. rewrite Hszl in Ha. rewrite Hsz by exact Ha. rewrite drop_ix_nth by exact Ha. specialize (Hr a Ha). lia. }
  pose proof (Hzero _ Hj) as E. unfold zz in E. rewrite lift_drop in E by exact HLix. lra.
Qed.
End Unique.

(* @prop C22 The implicit step is determined: with nu * dt >= 0, axes periodic or walled (cell-centred with any Dirichlet/Neumann values, or edge-aligned between Dirichlet walls) of at least 3 cells (2 when edge-aligned), two fields that both satisfy the implicit equation for the same u agree in every cell; so whichever implementation is chosen and whichever solver, the answers coincide. *)
Lemma implicit_diffusion_unique_lem : forall c u u1 u2, (0 <= c)%R -> wf_garr (garray u) ->
  (forall a, (a < gndim (ggrid (garray u)))%nat -> walled_axis (gbc u) (garray u) a /\ enough_cells (ggrid (garray u)) (gbc u) (goff (garray u)) a) ->
  implicitly_diffused c u u1 -> implicitly_diffused c u u2 ->
  forall ix, inb (gshape (ggrid (garray u))) ix -> get (gdata (garray u1)) ix = get (gdata (garray u2)) ix.
Proof. intros c u u1 u2 Hc Hu Hax H1 H2 ix Hix. eapply unique_values; eassumption. Qed.
(* @ex *)
Lemma implicit_diffusion_unique_ex_lem : exists u u1, (0 <= 1)%R /\ wf_garr (garray u) /\
  (forall a, (a < gndim (ggrid (garray u)))%nat -> walled_axis (gbc u) (garray u) a /\ enough_cells (ggrid (garray u)) (gbc u) (goff (garray u)) a) /\
  implicitly_diffused 1 u u1 /\ get (gdata (garray u1)) [2; 2] = 5%R.
Proof.
  set (u := v33 [(1 # 2)%Q; 1%Q] [(Neumann, Neumann); (Dirichlet, Dirichlet)] [(Some 0%R, Some 0%R); (Some 2%R, Some 5%R)] (fun ix => IZR (nth 0 ix 0))).
  destruct implicit_diffusion_walls_ex_lem as (_ & Hx). fold u in Hx.
  destruct (@implicit_diffusion_walls_lem false exeigh (Some Fft) [u] 1 1) as (v' & E & HF); [lra | intros u' [<- | []]; exact Hx |].
  inversion HF as [|? u1 ? ? Hu1 _ ]; subst. exists u, u1. split; [lra|]. split; [apply Hx|]. split.
  { intros [|[|a]] Ha; [| |unfold gndim in Ha; cbn in Ha; lia]; (split; [|apply Hx; lia]).
    - apply insulated_walled. right. split; [reflexivity|]. split; eexists; eexists; (split; reflexivity).
    - right; right. discriminate. }
  rewrite Rmult_1_l in Hu1. split; [exact Hu1|]. destruct Hu1 as (_ & _ & _ & _ & _ & W). apply (W [2; 2] 1%nat); [cbn; lia | unfold gndim; cbn; lia | reflexivity|]. intros a' Ha'. unfold gndim in Ha'. cbn in Ha'. lia.
Qed.

(* @prop C22 solve_cg raises ValueError unless every component is periodic on every axis; otherwise, if conjugate gradients return for each component (same grid, offset and shape) a field on which the operator they were given takes the value u, every component of the result satisfies (1 - nu dt Laplacian) u_new = u. *)
Lemma diffusion_solve_cg_solves_lem : forall cg v nu dt,
  (has_all_periodic v = false -> diffusion_solve_cg cg v nu dt = Err EValue) /\
  ((forall u, In u v -> periodic_field u) ->
   (forall u, In u v -> exists x, cg (diffusion_op (gbc u) (dt * nu)) (garray u) (garray u) = Ok x /\
      ggrid x = ggrid (garray u) /\ off_eq (goff x) (goff (garray u)) /\ shp (gdata x) = gshape (ggrid (garray u)) /\
      forall y, diffusion_op (gbc u) (dt * nu) x = Ok y -> same_field y (garray u)) ->
   exists v', diffusion_solve_cg cg v nu dt = Ok v' /\ Forall2 (implicitly_diffused (dt * nu)) v v').
Proof.
  intros cg v nu dt. split; [intros H; unfold diffusion_solve_cg; rewrite H; reflexivity|]. intros Hv Hcg. unfold diffusion_solve_cg.
  assert (Hper : forall u a, In u v -> (a < gndim (ggrid (garray u)))%nat -> periodic_axis (gbc u) a).
  { intros u a Hu Ha. destruct (Hv u Hu) as (_ & Hp). unfold periodic_axis. unfold perbc in Hp. rewrite Hp. rewrite (nth_error_nth' _ (Periodic, Periodic)) by (rewrite repeat_length; exact Ha). rewrite nth_repeat' by exact Ha. reflexivity. }
  assert (Hall : has_all_periodic v = true).
  { unfold has_all_periodic. apply forallb_forall. intros u Hu. apply forallb_forall. intros a Ha. apply in_seq in Ha. unfold is_periodic_bc, btype. rewrite (nth_error_nth _ _ _ (Hper u a Hu ltac:(lia))). reflexivity. }
  rewrite Hall. cbn [negb]. apply mapM_Forall2. intros u Hu. destruct (Hcg u Hu) as (x & Ex & X1 & X2 & X3 & X4). rewrite Ex. cbn [bind].
  destruct (Hv u Hu) as (Hw & Hp). set (g := ggrid (garray u)) in *.
  assert (HL : length (btypes (gbc u)) = gndim g) by (unfold perbc in Hp; rewrite Hp, repeat_length; reflexivity).
  assert (Emk : forall y, ggrid y = g -> mk_gvar y (gbc u) = Ok (mkgv y (gbc u))) by (intros y Hy; unfold mk_gvar; rewrite Hy, HL, Nat.eqb_refl; reflexivity).
  rewrite Emk by exact X1. eexists. split; [reflexivity|].
  assert (Hwx : wf_garr x). { split; [rewrite X1; apply Hw|]. split; [congruence|]. rewrite (off_eq_length X2), X1. apply Hw. }
  destruct (@lap_wall (mkgv x (gbc u))) as (l & El & (L1 & L2 & L3 & L4)); [exact Hwx | |].
  { cbn [garray gbc]. rewrite X1. intros a Ha. left. apply Hper; assumption. }
  cbn [garray gbc] in L1, L2, L3, L4. rewrite X1 in *.
  assert (Hop : exists y, diffusion_op (gbc u) (dt * nu) x = Ok y /\ forall ix, inb (gshape g) ix -> get (gdata y) ix = (get (gdata x) ix - dt * nu * nsum (gndim g) (fun a => second_difference (gbc u) x a ix))%R).
  { unfold diffusion_op. rewrite Emk by exact X1. cbn [bind]. rewrite El. cbn [bind].
    assert (Px : prep g (goff x) (get (gdata x)) x) by (split; [exact X1|]; split; [apply off_eq_refl|]; split; [exact X3 | reflexivity]).
    assert (Pl : prep g (goff x) (lapW (mkgv x (gbc u))) l) by (split; [exact L1|]; split; [exact L2|]; split; [exact L3 | exact L4]).
    unfold ga_scale, ga_sub. destruct (prep_scalar_l Rmult (dt * nu) Pl) as (s & Es & Ps). rewrite Es. cbn [bind]. cbn [garray].
    destruct (prep_op2 Rminus Px Ps) as (y & Ey & (Y1 & Y2 & Y3 & Y4)). exists y. split; [exact Ey|]. intros ix Hix. rewrite Y4 by exact Hix. unfold lapW, second_difference, at_. cbn [garray gbc]. rewrite X1. reflexivity. }
  destruct Hop as (y & Ey & Vy). destruct (X4 y Ey) as (Y1 & Y2 & Y3 & Y4).
  split; [reflexivity|]. split; [exact X1|]. split; [exact X2|]. split; [exact X3|]. cbn [garray]. fold g. split.
  - intros ix Hix _. rewrite <- Vy by exact Hix. apply Y4. rewrite Y3. destruct Hw as (_ & -> & _). exact Hix.
  - intros ix a z Hix Ha Hwv. exfalso. unfold wall_value, edge_side in Hwv. rewrite (Hper u a Hu Ha) in Hwv. discriminate.
Qed.
(* @ex *)
Lemma diffusion_solve_cg_solves_ex_lem : let u := v33 [(1 # 2)%Q; 1%Q] [(Periodic, Periodic); (Periodic, Periodic)] [(None, None); (None, None)] (fun _ => 7%R) in
  let cg := fun (op : garr -> result garr) (b x0 : garr) => Ok x0 in
  periodic_field u /\ exists x, cg (diffusion_op (gbc u) (1 * 2)) (garray u) (garray u) = Ok x /\
      ggrid x = ggrid (garray u) /\ off_eq (goff x) (goff (garray u)) /\ shp (gdata x) = gshape (ggrid (garray u)) /\
      forall y, diffusion_op (gbc u) (1 * 2) x = Ok y -> same_field y (garray u).
Proof.
  intros u cg. split; [split; [apply v33_wf; reflexivity | reflexivity]|]. exists (garray u). split; [reflexivity|]. split; [reflexivity|]. split; [apply off_eq_refl|]. split; [reflexivity|].
  intros y E. unfold diffusion_op in E. change (mk_gvar (garray u) (gbc u)) with (Ok u) in E. cbn [bind] in E.
  destruct (@laplacian_spec_lem u) as (l & El & (L1 & L2 & L3 & L4)); [split; [apply v33_wf; reflexivity | reflexivity]|].
  destruct (@laplacian_constant_lem u 7%R) as (l' & El' & Hl); [split; [apply v33_wf; reflexivity | reflexivity] | intros ix Hix; reflexivity |].
  rewrite El in El'. injection El' as <-. rewrite El in E. cbn [bind] in E.
  assert (Pl : prep g33 (goff (garray u)) (fun _ => 0%R) l) by (split; [exact L1|]; split; [exact L2|]; split; [exact L3 | exact Hl]).
  assert (Px : prep g33 (goff (garray u)) (fun _ => 7%R) (garray u)) by (split; [reflexivity|]; split; [apply off_eq_refl|]; split; [reflexivity | intros; reflexivity]).
  unfold ga_scale in E. destruct (prep_scalar_l Rmult (1 * 2) Pl) as (s & Es & Ps). rewrite Es in E. cbn [bind] in E. unfold ga_sub in E.
  destruct (prep_op2 Rminus Px Ps) as (w & Ew & (Y1 & Y2 & Y3 & Y4)). rewrite Ew in E. injection E as <-.
  split; [exact Y1|]. split; [exact Y2|]. split; [exact Y3|]. rewrite Y3. intros ix Hix. rewrite Y4 by exact Hix. cbn. lra.
Qed.
