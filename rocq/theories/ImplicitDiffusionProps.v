(** * Property C22: implicit diffusion *)
From Verif Require Import Prelude NdArr Grids_model Spec SpecLin SpecDiff LinAlg Cplx Boundaries_model FD_model PRep FDProofs FDProps WallBC WallBCProps ImposeProps WallFD Pressure_model PressureProps WallFDProps FastDiag_model FastDiagProofs FastDiagProps FastDiagCalc SpecDiag FastDiagImplProps Laplacian_model LaplacianProofs LaplacianProps LapSign PressureSolve_model PressureSolveProps Diffusion_model DiffusionProps.
Set Implicit Arguments.
Local Open Scope Z_scope.

Lemma diffusion_real c : real_on_reals (diffusion_fun c).
Proof.
  intros x. cbn [onC onR diffusion_fun]. unfold Cdiv, Cinv, Cn2, Cscal, Csub, C1, RtoC, Cmul. cbn [re im].
  destruct (Req_EM_T (1 - c * x) 0) as [E|E].
  - apply Ceq; cbn [re im]; rewrite E; unfold Rdiv; rewrite ?Rinv_0; ring.
  - apply Ceq; cbn [re im]; field; repeat split; try exact E; intros H; apply E; nra.
Qed.

Lemma edge_side_off b o o' a : off_eq o o' -> edge_side b o a = edge_side b o' a.
Proof.
  intros Ho. pose proof (off_eq_nth a Ho) as E. unfold edge_side.
  assert (H1 : Qeq_bool (nth a o 0%Q) 1 = Qeq_bool (nth a o' 0%Q) 1) by (rewrite E; reflexivity).
  assert (H2 : Qeq_bool (nth a o 0%Q) 0 = Qeq_bool (nth a o' 0%Q) 0) by (rewrite E; reflexivity).
  rewrite H1, H2. reflexivity.
Qed.
Lemma walled_off b u u' a : off_eq (goff u) (goff u') -> walled_axis b u a -> walled_axis b u' a.
Proof.
  intros Ho [H|[(Hc & H)|H]]; [left; exact H | right; left; split; [|exact H] | right; right].
  - unfold centred in *. rewrite <- (off_eq_nth a Ho). exact Hc.
  - rewrite <- (@edge_side_off b _ _ a Ho). exact H.
Qed.

(** The same conditions with zero values. *)
Definition bc0 (b : bcs) : bcs := homogeneous (btypes b).
Lemma bc0_val b a p : nth_error (btypes b) a = Some p -> nth_error (bvals (bc0 b)) a = Some (Some 0%R, Some 0%R).
Proof.
  intros H. unfold bc0, homogeneous. cbn [bvals]. assert (a < length (btypes b))%nat by (apply nth_error_Some; congruence).
  rewrite (nth_error_nth' _ (None, None)) by (rewrite repeat_length; auto). rewrite nth_repeat' by auto. reflexivity.
Qed.
Arguments bc0_val {b a p}.
Lemma walled_types b u a : walled_axis b u a -> exists t1 t2, nth_error (btypes b) a = Some (t1, t2).
Proof.
  intros [H|[(_ & t1 & v1 & t2 & v2 & (x & y & H & _) & _)|H]]; [eexists; eexists; exact H | eexists; eexists; exact H|].
  unfold edge_side in H. destruct (nth_error (btypes b) a) as [[t1 t2]|]; [eauto | congruence].
Qed.
Lemma edge_side_bc0 b u a : walled_axis b u a -> 
  match edge_side b (goff u) a with Some (s, _) => edge_side (bc0 b) (goff u) a = Some (s, 0%R) | None => edge_side (bc0 b) (goff u) a = None end.
Proof.
  intros Hw. destruct (walled_types Hw) as (t1 & t2 & Et).
  assert (E : edge_side (bc0 b) (goff u) a = match t1, t2 with Dirichlet, Dirichlet => if Qeq_bool (nth a (goff u) 0%Q) 1 then Some (true, 0%R) else if Qeq_bool (nth a (goff u) 0%Q) 0 then Some (false, 0%R) else None | _, _ => None end).
  { unfold edge_side. rewrite (bc0_val Et). cbn [bc0 homogeneous btypes]. rewrite Et. destruct t1, t2; reflexivity. }
  rewrite E. clear E. destruct Hw as [H|[(Hc & _)|H]].
  - unfold periodic_axis in H. rewrite Et in H. injection H as -> ->. unfold edge_side. rewrite Et. reflexivity.
  - rewrite edge_not_half by exact Hc. unfold centred in Hc.
    assert (H1 : Qeq_bool (nth a (goff u) 0%Q) 1 = false) by (rewrite Hc; reflexivity).
    assert (H2 : Qeq_bool (nth a (goff u) 0%Q) 0 = false) by (rewrite Hc; reflexivity). rewrite H1, H2. destruct t1, t2; reflexivity.
  - revert H. unfold edge_side. rewrite Et. destruct t1, t2; try congruence. destruct (nth_error (bvals b) a) as [[[lo|] [hi|]]|]; try congruence.
    destruct (Qeq_bool _ 1); [reflexivity|]. destruct (Qeq_bool _ 0); [reflexivity | congruence].
Qed.
Lemma bc0_homogeneous b u a : walled_axis b u a -> homogeneous_axis (bc0 b) u a.
Proof.
  intros Hw. pose proof (edge_side_bc0 Hw) as He. destruct Hw as [H|[(Hc & t1 & v1 & t2 & v2 & (x & y & A & A') & (x' & y' & B & B') & C & D)|H]].
  - left. exact H.
  - right; left. split; [exact Hc|]. rewrite A in B. injection B as <- ->. exists t1, t2.
    split; [exists t2, (Some 0%R); split; [exact A | apply (bc0_val A)]|]. split; [exists t1, (Some 0%R); split; [exact A | apply (bc0_val A)]|]. auto.
  - right; right. destruct (edge_side b (goff u) a) as [[s v]|] eqn:E; [|congruence]. rewrite He. split; [discriminate|].
    unfold edge_side in E. destruct (nth_error (btypes b) a) as [p|] eqn:E2; [|discriminate]. apply (bc0_val E2).
Qed.
Lemma inner_bc0 b u a : walled_axis b u a -> inner_start (bc0 b) (goff u) a = inner_start b (goff u) a /\ inner_size (ggrid u) (bc0 b) (goff u) a = inner_size (ggrid u) b (goff u) a.
Proof.
  intros Hw. pose proof (edge_side_bc0 Hw) as He. unfold inner_start, inner_size. destruct (edge_side b (goff u) a) as [[s v]|]; rewrite He; auto.
Qed.

(** Neighbour values are affine in the data: values for [b] = values for [bc0 b] of the difference plus values of [w]. *)
Lemma nbr_split b o g f w a k ix : walled_axis b (mkga (mkarr (gshape g) f) o g) a -> (k = 1 \/ k = -1) ->
  nbr b (mkga (mkarr (gshape g) f) o g) a k ix =
  (nbr (bc0 b) (mkga (mkarr (gshape g) (fun ix => f ix - w ix)) o g) a k ix + nbr b (mkga (mkarr (gshape g) w) o g) a k ix)%R.
Proof.
  intros Hw Hk. destruct (walled_types Hw) as (t1 & t2 & Et). pose proof (edge_side_bc0 Hw) as He. cbn [goff] in He.
  unfold nbr. cbn [ggrid gdata get goff bc0 homogeneous btypes]. rewrite (nth_error_nth _ _ _ Et). fold (homogeneous (btypes b)). fold (bc0 b).
  rewrite (nth_error_nth _ _ _ (bc0_val Et)). destruct (nth a (bvals b) (None, None)) as [v1 v2].
  set (i := nth a ix 0 + k). set (n := Z.of_nat (nth a (gshape g) 0%nat)).
  assert (HP : (t1 = Periodic /\ t2 = Periodic) \/ (t1 <> Periodic /\ t2 <> Periodic)).
  { destruct Hw as [H|[(Hc & x1 & x2 & x3 & x4 & (y1 & y2 & A & A') & (z1 & z2 & B & B') & C & D)|H]].
    - unfold periodic_axis in H. rewrite Et in H. injection H as -> ->. left; auto.
    - rewrite Et in A. injection A as -> ->. rewrite Et in B. injection B as -> ->. right. split; [destruct C; subst; discriminate | destruct D; subst; discriminate].
    - right. unfold edge_side in H. rewrite Et in H. destruct t1, t2; try congruence; split; discriminate. }
  destruct HP as [(-> & ->) | (N1 & N2)]; [ring|].
  assert (Hgen : forall (A : Type) (x y : A), match t1 with Periodic => match t2 with Periodic => x | _ => y end | _ => y end = y).
  { intros A x y. destruct t1; try reflexivity. congruence. }
  destruct (edge_side b o a) as [[s v]|]; rewrite He.
  - assert (H3 : forall x y z : R, match t1 with Periodic => match t2 with Periodic => x | _ => y end | _ => y end = y) by (intros; apply Hgen).
    destruct t1; [congruence| | |]; cbv beta iota zeta; (destruct (i <? (if s then 0 else 1)); [ring|]; destruct ((if s then n - 1 else n) <=? i); ring).
  - destruct t1; [congruence| | |]; destruct t2; try congruence; cbv beta iota zeta; cbn [beyond];
      (destruct (i <? 0); [ring|]; destruct (n <=? i); ring).
Qed.

Lemma lap_types g o b : laplacian_matrix_w_boundaries g o (bc0 b) = laplacian_matrix_w_boundaries g o b.
Proof. reflexivity. Qed.

Lemma ga_op2_any f a d : shp (gdata a) = shp d -> exists r, ga_op2 f a (mkga d (goff a) (ggrid a)) = Ok r /\ ggrid r = ggrid a /\ off_eq (goff r) (goff a) /\
  shp (gdata r) = shp (gdata a) /\ forall ix, get (gdata r) ix = f (get (gdata a) ix) (get d ix).
Proof.
  intros HS. unfold ga_op2, array_ufunc. cbn [existsb is_gv orb map raw gas gdata raw2]. unfold shape_eqb.
  destruct (list_eq_dec Nat.eq_dec (shp (gdata a)) (shp d)) as [_|N]; [|congruence]. cbn [bind consistent_offset consistent_grid forallb goff ggrid].
  rewrite (proj2 (off_eqb_iff _ _)) by apply off_eq_refl. rewrite grid_eqb_refl. cbn [andb bind]. eexists. split; [reflexivity|]. cbn [ggrid goff gdata shp amap2 get].
  split; [reflexivity|]. split; [apply off_eq_refl|]. split; [reflexivity|]. intros; reflexivity.
Qed.
Section Component.
Variables (tpu : bool) (eigh : arr R -> arr R * arr R) (circ : bool) (imp : option impl) (nu dt : R) (g : grid) (o : list Q) (b : bcs) (dat : arr R).
Let u := mkga dat o g.
Variables (Ls : list (arr R)) (W : list Z -> R).
Hypothesis (Hu : wf_garr u) (Hd : (0 < gndim g)%nat) (Hlen : length (btypes b) = gndim g) (Hc0 : (0 <= dt * nu)%R).
Hypothesis (Hax : forall a, (a < gndim g)%nat -> walled_axis b u a /\ enough_cells g b o a).
Hypothesis (Hcirc : circ = true -> forall a, (a < gndim g)%nat -> periodic_axis b a).
Hypothesis (EL : laplacian_matrix_w_boundaries g o b = Ok Ls).
Hypothesis (Hr : implementation_ready eigh Ls circ imp).
Let start a := inner_start b o a.
Definition lift_ix (ix : list Z) : list Z := map (fun a => nth a ix 0 + inner_start b o a) (seq 0 (gndim g)).
Definition drop_ix (ix : list Z) : list Z := map (fun a => nth a ix 0 - inner_start b o a) (seq 0 (gndim g)).
Hypothesis Hrhs : forall w, trim_boundary b u = Ok w -> exists xt, diffusion_rhs_transform w b = Ok xt /\ shp xt = shp (gdata w) /\
  forall jx, inb (shp (gdata w)) jx -> get xt jx = (get (gdata w) jx - W (lift_ix jx))%R.

Lemma comp_axes : forall a, (a < gndim g)%nat -> homogeneous_axis (bc0 b) u a /\ enough_cells g (bc0 b) o a.
Proof.
  intros a Ha. destruct (Hax Ha) as (Hw & He). split; [apply bc0_homogeneous; exact Hw|]. destruct He as (H2 & H3). split; [exact H2|].
  intros E. apply H3. pose proof (edge_side_bc0 Hw) as H. cbn [goff u] in H. destruct (edge_side b o a) as [[s v]|]; [|reflexivity]. unfold u in H. cbn [goff] in H. congruence.
Qed.
Lemma comp_regular a : (a < gndim g)%nat -> regular_axis b u a.
Proof. intros Ha. destruct (Hax Ha) as ([H|[(H & _)|H]] & _); [left; exact H | right; left; exact H | right; right; exact H]. Qed.
Lemma isbot_start a : (if isbot (edge_side b o a) then 1 else 0) = inner_start b o a.
Proof. unfold inner_start, isbot. destruct (edge_side b o a) as [[[] v]|]; reflexivity. Qed.
Lemma lift_ix_length ix : length (lift_ix ix) = gndim g. Proof. unfold lift_ix. rewrite map_length, seq_length. reflexivity. Qed.
Lemma drop_ix_length ix : length (drop_ix ix) = gndim g. Proof. unfold drop_ix. rewrite map_length, seq_length. reflexivity. Qed.
Lemma lift_ix_nth ix a : (a < gndim g)%nat -> nth a (lift_ix ix) 0 = nth a ix 0 + inner_start b o a.
Proof. intros Ha. unfold lift_ix. rewrite nth_map_seq by auto. reflexivity. Qed.
Lemma drop_ix_nth ix a : (a < gndim g)%nat -> nth a (drop_ix ix) 0 = nth a ix 0 - inner_start b o a.
Proof. intros Ha. unfold drop_ix. rewrite nth_map_seq by auto. reflexivity. Qed.
Lemma drop_lift ix : length ix = gndim g -> drop_ix (lift_ix ix) = ix.
Proof. clear Hd Hlen. intros HL. apply (list_ext_nth 0); [rewrite drop_ix_length; auto|]. rewrite drop_ix_length. intros a Ha. rewrite drop_ix_nth, lift_ix_nth by auto. lia. Qed.
Lemma lift_drop ix : length ix = gndim g -> lift_ix (drop_ix ix) = ix.
Proof. clear Hd Hlen. intros HL. apply (list_ext_nth 0); [rewrite lift_ix_length; auto|]. rewrite lift_ix_length. intros a Ha. rewrite lift_ix_nth, drop_ix_nth by auto. lia. Qed.
Lemma lift_upd a j ix : (a < gndim g)%nat -> length ix = gndim g -> lift_ix (upd a j ix) = upd a (j + inner_start b o a) (lift_ix ix).
Proof. clear Hd Hlen.
  intros Ha HL. apply (list_ext_nth 0); [rewrite upd_length, !lift_ix_length; auto|]. rewrite lift_ix_length. intros i Hi. rewrite lift_ix_nth by auto.
  destruct (Nat.eq_dec i a) as [->|N]; [rewrite !nth_upd_same by (rewrite ?lift_ix_length; lia); reflexivity|]. rewrite !nth_upd_other by auto. rewrite lift_ix_nth by auto. reflexivity.
Qed.
Lemma not_wall ix : inb (gshape g) ix -> ((forall a, (a < gndim g)%nat -> wall_value b u a ix = None) <->
  (forall a, (a < gndim g)%nat -> inner_start b o a <= nth a ix 0 < inner_start b o a + Z.of_nat (inner_size g b o a))).
Proof.
  clear - Hu. intros Hix. assert (Hone : forall a, (a < gndim g)%nat -> (wall_value b u a ix = None <-> inner_start b o a <= nth a ix 0 < inner_start b o a + Z.of_nat (inner_size g b o a))).
  { intros a Ha. pose proof (@inb_nth _ _ a Hix Ha) as Hrg. unfold wall_value, inner_start, inner_size. cbn [u goff ggrid].
    destruct (edge_side b o a) as [[[] v]|].
    - destruct (Z.eqb_spec (nth a ix 0) (Z.of_nat (nth a (gshape g) 0%nat) - 1)); split; intros H; try discriminate; try reflexivity; lia.
    - destruct (Z.eqb_spec (nth a ix 0) 0); split; intros H; try discriminate; try reflexivity; lia.
    - split; intros; [lia | reflexivity]. }
  split; intros H a Ha; apply (Hone a Ha); auto.
Qed.

Lemma component_solves : exists r l, diffusion_component tpu eigh circ (if circ then imp else Some Matmul) nu dt (mkgv u b) = Ok (mkgv r b) /\
  ggrid r = g /\ off_eq (goff r) o /\ shp (gdata r) = gshape g /\ laplacian (mkgv r b) = Ok l /\
  (forall ix, inb (gshape g) ix -> (forall a, (a < gndim g)%nat -> wall_value b u a ix = None) ->
     (get (gdata r) ix - dt * nu * get (gdata l) ix = get dat ix - dt * nu * nsum (gndim g) (fun a => second_difference b (mkga (mkarr (gshape g) W) o g) a ix))%R) /\
  (forall ix a x, inb (gshape g) ix -> (a < gndim g)%nat -> wall_value b u a ix = Some x ->
     (forall a', (a < a' < gndim g)%nat -> wall_value b u a' ix = None) -> get (gdata r) ix = x).
Proof.
  destruct (@laplacian_matrices_axis_lem u (bc0 b) Hu comp_axes) as (Ls' & EL' & HLL & HA). cbn [u ggrid goff] in EL', HLL, HA.
  rewrite lap_types, EL in EL'. injection EL' as <-.
  destruct (@lap_matrices_dissip u (bc0 b) Ls Hu comp_axes EL) as (HD & HC & _).
  assert (Hsym : Forall symmetric Ls) by (eapply Forall_impl; [|exact HD]; intros A; apply dissip_symmetric).
  assert (Hne : Ls <> []) by (intros E; rewrite E in HLL; cbn in HLL; lia).
  assert (HC' : circ = true -> Forall circulant Ls). { intros E. apply HC. intros a Ha. exact (Hcirc E Ha). }
  assert (Hsz : forall a, (a < gndim g)%nat -> nth a (sizes Ls) 0%nat = inner_size g b o a).
  { intros a Ha. rewrite sizes_nth by lia. destruct (HA a Ha) as (-> & _). cbn [nth]. destruct (inner_bc0 (proj1 (Hax Ha))) as (_ & E). exact E. }
  assert (Hszl : length (sizes Ls) = gndim g) by (unfold sizes; rewrite map_length; exact HLL).
  (* interior *)
  destruct (@trim_boundary_regular b u Hu comp_regular) as (w & Ew & HT & Hget).
  pose proof HT as (Tg & TL & To & TLs & Ts). cbn [u ggrid goff] in Tg, TL, To, TLs, Ts, Hget.
  assert (Hlift : forall ix, map (fun a => if below (gndim g) a && isbot (edge_side b o a) then nth a ix 0 + 1 else nth a ix 0) (seq 0 (gndim g)) = lift_ix ix).
  { intros ix. apply map_ext_in. intros a Ha. apply in_seq in Ha. unfold below. replace (a <? gndim g)%nat with true by (symmetry; apply Nat.ltb_lt; lia). cbn [andb].
    rewrite <- isbot_start. destruct (isbot _); lia. }
  assert (Hsw : shp (gdata w) = sizes Ls).
  { apply (list_ext_nth 0%nat); [congruence|]. rewrite TLs. intros a Ha. rewrite Hsz by exact Ha. specialize (Ts a Ha). unfold ushape in Ts. rewrite Ts.
    unfold below. replace (a <? gndim g)%nat with true by (symmetry; apply Nat.ltb_lt; lia). cbn [andb]. unfold inner_size, isedge. destruct (edge_side b o a); reflexivity. }
  assert (Hgw : forall jx, length jx = gndim g -> get (gdata w) jx = get dat (lift_ix jx)).
  { intros jx HL. rewrite Hget by exact HL. f_equal. apply Hlift. }
  destruct (Hrhs Ew) as (xt & Ext & Sxt & Vxt).
  (* operator *)
  destruct (@transform_selected tpu eigh (diffusion_fun (dt * nu)) Ls circ imp Hne Hsym HC' Hr) as (i & Hus & Etr).
  destruct (@transform_calc tpu eigh (diffusion_fun (dt * nu)) Ls i Hne Hus (diffusion_real (dt * nu))) as (F & sp & FF & EF & HK & HF).
  destruct (HF xt) as (dd & Edd & Sdd & Vdd); [congruence|].
  set (c := (dt * nu)%R) in *.
  (* sum *)
  destruct (@ga_op2_any Rplus w dd) as (ud & Eud & U1 & U2 & U3 & U4); [congruence|].
  assert (Sud : shp (gdata ud) = sizes Ls) by congruence.
  assert (Vud : forall jx, get (gdata ud) jx = (get (gdata w) jx + get dd jx)%R) by exact U4.
  (* padding *)
  set (un := mkga (mkarr (gshape g) (fun ix => get (gdata ud) (drop_ix ix))) o g).
  assert (Hun : wf_garr un) by (destruct Hu as (A & _ & B); split; [exact A|]; split; [reflexivity | exact B]).
  assert (Hreg : forall a, (a < gndim (ggrid un))%nat -> regular_axis b un a) by (intros a Ha; apply comp_regular; exact Ha).
  assert (HTe : trimmed b un (above 0) ud).
  { split; [rewrite U1, Tg; reflexivity|]. split; [rewrite (off_eq_length U2); exact TL|]. split; [|split; [rewrite Sud; exact Hszl|]].
    - intros a Ha. unfold offat at 1. rewrite (off_eq_nth a U2). fold (offat w a). rewrite (To a Ha). unfold below, above.
      replace (a <? gndim g)%nat with true by (symmetry; apply Nat.ltb_lt; exact Ha). reflexivity.
    - intros a Ha. specialize (Ts a Ha). unfold ushape in *. rewrite Sud, <- Hsw, Ts. unfold below, above.
      replace (a <? gndim g)%nat with true by (symmetry; apply Nat.ltb_lt; exact Ha). reflexivity. }
  destruct (@pad_steps b un Hun Hreg 0%nat (gndim g) ud) as (r & Er & HTr & Hgr); [reflexivity | exact HTe | |].
  { intros ix Hix. cbn [overr]. cbn [un gdata get goff ggrid]. 
    assert (HLx : length ix = gndim g) by (rewrite (inb_length _ _ Hix), Sud; exact Hszl).
    rewrite <- (drop_lift ix HLx) at 1. f_equal. f_equal. rewrite <- Hlift. apply map_ext_in. intros a Ha. apply in_seq in Ha. unfold below, above.
    replace (a <? gndim g)%nat with true by (symmetry; apply Nat.ltb_lt; lia). reflexivity. }
  pose proof HTr as (Rg & RL & Ro & RLs & Rs). cbn [un ggrid goff] in Rg, RL, Ro, RLs, Rs, Hgr.
  assert (Habv : forall a, (a < gndim g)%nat -> above (gndim g) a = false) by (intros a Ha; apply Nat.leb_gt; exact Ha).
  assert (Hsr : shp (gdata r) = gshape g).
  { apply (list_ext_nth 0%nat); [exact RLs|]. rewrite RLs. intros a Ha. specialize (Rs a Ha). rewrite (Habv a Ha) in Rs. exact Rs. }
  assert (Hor : off_eq (goff r) o).
  { apply Forall2_intro_nth with (da := 0%Q) (db := 0%Q); [rewrite RL; symmetry; apply Hu|]. rewrite RL. intros a Ha. specialize (Ro a Ha). rewrite (Habv a Ha) in Ro. exact Ro. }
  assert (Vr : forall ix, inb (gshape g) ix -> get (gdata r) ix = overr b un (gndim g) ix (get (gdata ud) (drop_ix ix))).
  { intros ix Hix. rewrite Hgr by (rewrite Hsr; exact Hix). f_equal. cbn [un gdata get]. f_equal. f_equal.
    transitivity (map (fun a => nth a ix 0) (seq 0 (gndim g))).
    - apply map_ext_in. intros a Ha. apply in_seq in Ha. rewrite Habv by lia. reflexivity.
    - apply (list_ext_nth 0); [rewrite map_length, seq_length; symmetry; apply (inb_length _ _ Hix)|]. rewrite map_length, seq_length. intros a Ha. rewrite nth_map_seq by exact Ha. reflexivity. }
  (* laplacian of the result *)
  assert (Hwr : wf_garr r). { destruct Hu as (A & _ & B). split; [rewrite Rg; exact A|]. split; [congruence | rewrite RL, Rg; reflexivity]. }
  destruct (@lap_wall (mkgv r b)) as (l & El & (_ & _ & _ & Vl)); [exact Hwr | |].
  { cbn [garray gbc]. rewrite Rg. intros a Ha. eapply walled_off; [|apply (Hax Ha)]. cbn [u goff]. apply off_eq_sym. exact Hor. }
  exists r, l. split.
  { unfold diffusion_component. cbn [garray gbc]. cbn [u ggrid goff]. rewrite EL. cbn [bind]. fold c. rewrite Etr, EF. cbn [bind]. fold u. rewrite Ew. cbn [bind]. rewrite Ext. cbn [bind]. rewrite Edd. cbn [bind].
    unfold ga_add. rewrite Eud. cbn [bind]. unfold pad_and_impose_bc. rewrite U1, Tg. change (goff un) with o in Er. rewrite Er. cbn [bind]. unfold mk_gvar. rewrite Rg, Hlen, Nat.eqb_refl. reflexivity. }
  split; [exact Rg|]. split; [exact Hor|]. split; [exact Hsr|]. split; [exact El|]. split.
  - intros ix Hix Hnw. pose proof (proj1 (@not_wall ix Hix) Hnw) as Hin.
    set (jx := drop_ix ix).
    assert (HLix : length ix = gndim g) by (apply (inb_length _ _ Hix)).
    assert (Hjl : length jx = gndim g) by apply drop_ix_length.
    assert (Hlj : lift_ix jx = ix) by (apply lift_drop; exact HLix).
    assert (Hj : inb (sizes Ls) jx).
    { apply inb_intro; [congruence|]. intros a Ha. rewrite Hszl in Ha. rewrite Hsz by exact Ha. unfold jx. rewrite drop_ix_nth by exact Ha. specialize (Hin a Ha). lia. }
    assert (Vin : forall kx, inb (sizes Ls) kx -> inb (gshape g) (lift_ix kx) /\ get (gdata r) (lift_ix kx) = get (gdata ud) kx).
    { intros kx Hk. assert (HLk : length kx = gndim g) by (rewrite (inb_length _ _ Hk); exact Hszl).
      assert (Hrng : forall a, (a < gndim g)%nat -> inner_start b o a <= nth a (lift_ix kx) 0 < inner_start b o a + Z.of_nat (inner_size g b o a)).
      { intros a Ha. rewrite lift_ix_nth by exact Ha. pose proof (@inb_nth _ _ a Hk) as H. rewrite Hszl in H. specialize (H Ha). rewrite Hsz in H by exact Ha. lia. }
      assert (Hi : inb (gshape g) (lift_ix kx)).
      { apply inb_intro; [apply lift_ix_length|]. intros a Ha. specialize (Hrng a Ha). pose proof (allpos_nth (proj1 (proj2 (proj2 (proj1 Hu)))) Ha).
        unfold inner_start, inner_size in Hrng. cbn [u ggrid] in *. destruct (edge_side b o a) as [[[] v]|]; lia. }
      split; [exact Hi|]. rewrite Vr by exact Hi. rewrite overr_none; [rewrite drop_lift by exact HLk; reflexivity|].
      intros a Ha. exact (proj2 (@not_wall (lift_ix kx) Hi) Hrng a Ha). }
    set (z := mkga (mkarr (gshape g) (fun ix => get (gdata r) ix - W ix)%R) o g).
    assert (Hz : wf_garr z) by (destruct Hu as (A & _ & B); split; [exact A|]; split; [reflexivity | exact B]).
    assert (Hlap : get (gdata l) ix = (separable Ls (fun kx => get (gdata ud) kx - W (lift_ix kx)) jx + nsum (gndim g) (fun a => second_difference b (mkga (mkarr (gshape g) W) o g) a ix))%R).
    { rewrite Vl by (cbn [garray]; rewrite Rg; exact Hix). unfold lapW, at_. cbn [garray gbc]. rewrite Rg. unfold separable. rewrite HLL, <- nsum_plus. apply nsum_ext. intros a Ha.
      destruct (@laplacian_matrices_axis_lem z (bc0 b) Hz comp_axes) as (Lz & ELz & _ & HAz). cbn [z ggrid goff] in ELz, HAz. rewrite lap_types, EL in ELz. injection ELz as <-.
      destruct (HAz a Ha) as (Sa & _ & Va). destruct (inner_bc0 (proj1 (Hax Ha))) as (E1 & E2). cbn [u goff ggrid] in E1, E2. rewrite E1, E2 in Va. specialize (Va ix Hix (Hin a Ha)).
      unfold matrix_along. rewrite Sa. cbn [nth]. rewrite E2.
      transitivity (second_difference (bc0 b) z a ix + second_difference b (mkga (mkarr (gshape g) W) o g) a ix)%R.
      - unfold second_difference. cbn [z ggrid gdata get].
        set (rr := mkga (mkarr (gshape g) (get (gdata r))) o g).
        assert (Hnb : forall k, nbr b r a k ix = nbr b rr a k ix). { intros k. unfold nbr, rr. cbn [ggrid gdata get goff]. rewrite Rg, (@edge_side_off b _ _ a Hor). reflexivity. }
        assert (Hwl : walled_axis b rr a) by exact (proj1 (Hax Ha)).
        rewrite !Hnb. unfold rr. rewrite (@nbr_split b o g (get (gdata r)) W a 1 ix Hwl), (@nbr_split b o g (get (gdata r)) W a (-1) ix Hwl) by auto.
        pose proof (@ProjectionProps.hstep_nz g (proj1 Hu) a Ha) as Hh. fold z.
        match goal with |- ((?A + ?B - 2 * ?C + (?D + ?E)) / ?H = _)%R => transitivity (((A - 2 * (C - W ix) + D) / H) + ((B - 2 * W ix + E) / H))%R; [field; exact Hh | reflexivity] end.
      - f_equal. rewrite <- Va. apply rsum_ext. intros j Hjr. f_equal.
        + f_equal. f_equal. unfold jx. rewrite drop_ix_nth by exact Ha. reflexivity.
        + cbn [z gdata get].
          assert (Hk : inb (sizes Ls) (upd a j jx)) by (apply inb_upd_same; [exact Hj | rewrite Hsz by exact Ha; exact Hjr]).
          destruct (Vin _ Hk) as (_ & Ek). rewrite lift_upd, Hlj in Ek by auto. rewrite lift_upd, Hlj by auto. rewrite Ek. reflexivity. }
    rewrite <- Hlj at 1. rewrite (proj2 (Vin jx Hj)). rewrite Hlap.
    assert (HZ : forall kx, inb (sizes Ls) kx -> (get (gdata ud) kx - W (lift_ix kx) = FF (fun x => 1 + onR (diffusion_fun c) x)%R (get xt) kx)%R).
    { intros kx Hk. rewrite (fc_plus HK), (fc_one HK) by exact Hk. rewrite Vud, Vdd by exact Hk. rewrite Vxt by (rewrite Hsw; exact Hk). ring. }
    rewrite (@separable_ext Ls _ (FF (fun x => 1 + onR (diffusion_fun c) x)%R (get xt)) jx HZ Hj). rewrite (fc_sep HK) by exact Hj.
    assert (HS : (c * FF (fun x => x * (1 + onR (diffusion_fun c) x)) (get xt) jx = FF (onR (diffusion_fun c)) (get xt) jx)%R).
    { rewrite <- (fc_scal HK) by exact Hj. apply (fc_fun HK); [|exact Hj]. intros x Hx. pose proof (eig_nonpos HD (fc_eig HK x Hx)) as Hneg. cbn [onR diffusion_fun]. field. nra. }
    fold c. rewrite Rmult_plus_distr_l, HS. rewrite Vud, Vdd by exact Hj. rewrite Hgw by exact Hjl. rewrite Hlj. ring.
  - intros ix a x Hix Ha Hv Hl. rewrite Vr by exact Hix. apply (@overr_last b un (gndim g) ix _ a x); auto.
Qed.
End Component.

(** In general the result solves the equation with the linear part's own Laplacian as an extra source. *)
Lemma component_residual tpu eigh circ imp nu dt (u : gvar) Ls W :
  let g := ggrid (garray u) in let o := goff (garray u) in let b := gbc u in
  wf_garr (garray u) -> (0 < gndim g)%nat -> length (btypes b) = gndim g -> (0 <= dt * nu)%R ->
  (forall a, (a < gndim g)%nat -> walled_axis b (garray u) a /\ enough_cells g b o a) ->
  (circ = true -> forall a, (a < gndim g)%nat -> periodic_axis b a) ->
  laplacian_matrix_w_boundaries g o b = Ok Ls -> implementation_ready eigh Ls circ imp ->
  (forall w, trim_boundary b (garray u) = Ok w -> exists xt, diffusion_rhs_transform w b = Ok xt /\ shp xt = shp (gdata w) /\
     forall jx, inb (shp (gdata w)) jx -> get xt jx = (get (gdata w) jx - W (lift_ix g o b jx))%R) ->
  exists u', diffusion_component tpu eigh circ (if circ then imp else Some Matmul) nu dt u = Ok u' /\
  gbc u' = b /\ ggrid (garray u') = g /\ off_eq (goff (garray u')) o /\ shp (gdata (garray u')) = gshape g /\
  (forall ix, inb (gshape g) ix -> (forall a, (a < gndim g)%nat -> wall_value b (garray u) a ix = None) ->
     (get (gdata (garray u')) ix - dt * nu * nsum (gndim g) (fun a => second_difference b (garray u') a ix)
      = get (gdata (garray u)) ix - dt * nu * nsum (gndim g) (fun a => second_difference b (mkga (mkarr (gshape g) W) o g) a ix))%R) /\
  (forall ix a x, inb (gshape g) ix -> (a < gndim g)%nat -> wall_value b (garray u) a ix = Some x ->
     (forall a', (a < a' < gndim g)%nat -> wall_value b (garray u) a' ix = None) ->
     get (gdata (garray u')) ix = x).
Proof.
  destruct u as [[dat o g] b]. cbn [garray gbc ggrid goff]. intros Hu Hd HL Hc Hax Hci EL Hr Hrhs.
  destruct (@component_solves tpu eigh circ imp nu dt g o b dat Ls W Hu Hd HL Hc Hax Hci EL Hr Hrhs) as (r & l & E & R1 & R2 & R3 & El & V & Vw).
  exists (mkgv r b). split; [exact E|]. split; [reflexivity|]. split; [exact R1|]. split; [exact R2|]. split; [exact R3|]. split; [|exact Vw].
  cbn [garray gbc ggrid goff gdata] in *. intros ix Hix Hnw. rewrite <- (V ix Hix Hnw). f_equal. f_equal.
  destruct (@lap_wall (mkgv r b)) as (l' & El' & (_ & _ & _ & Vl)).
  { cbn [garray]. split; [rewrite R1; apply Hu|]. split; [congruence|]. rewrite (off_eq_length R2), R1. apply Hu. }
  { cbn [garray gbc]. rewrite R1. intros a Ha. eapply walled_off; [|apply (Hax a Ha)]. cbn [goff]. apply off_eq_sym. exact R2. }
  rewrite El in El'. injection El' as <-. rewrite Vl by (cbn [garray]; rewrite R1; exact Hix). unfold lapW. cbn [garray gbc]. rewrite R1. unfold second_difference, at_. cbn [garray]. rewrite R1. reflexivity.
Qed.
Lemma component_diffused tpu eigh circ imp nu dt (u : gvar) Ls W :
  let g := ggrid (garray u) in let o := goff (garray u) in let b := gbc u in
  wf_garr (garray u) -> (0 < gndim g)%nat -> length (btypes b) = gndim g -> (0 <= dt * nu)%R ->
  (forall a, (a < gndim g)%nat -> walled_axis b (garray u) a /\ enough_cells g b o a) ->
  (circ = true -> forall a, (a < gndim g)%nat -> periodic_axis b a) ->
  laplacian_matrix_w_boundaries g o b = Ok Ls -> implementation_ready eigh Ls circ imp ->
  (forall a ix, (a < gndim g)%nat -> inb (gshape g) ix -> (forall a', (a' < gndim g)%nat -> wall_value b (garray u) a' ix = None) ->
     second_difference b (mkga (mkarr (gshape g) W) o g) a ix = 0%R) ->
  (forall w, trim_boundary b (garray u) = Ok w -> exists xt, diffusion_rhs_transform w b = Ok xt /\ shp xt = shp (gdata w) /\
     forall jx, inb (shp (gdata w)) jx -> get xt jx = (get (gdata w) jx - W (lift_ix g o b jx))%R) ->
  exists u', diffusion_component tpu eigh circ (if circ then imp else Some Matmul) nu dt u = Ok u' /\ implicitly_diffused (dt * nu) u u'.
Proof.
  intros g o b Hu Hd HL Hc Hax Hci EL Hr HW Hrhs.
  destruct (@component_residual tpu eigh circ imp nu dt u Ls W Hu Hd HL Hc Hax Hci EL Hr Hrhs) as (u' & E & B & G & O & S & V & Vw).
  exists u'. split; [exact E|]. split; [exact B|]. split; [exact G|]. split; [exact O|]. split; [exact S|]. split; [|exact Vw].
  intros ix Hix Hnw. fold b g o in V |- *. rewrite (V ix Hix Hnw). rewrite nsum_zero by (intros a Ha; apply HW; auto). ring.
Qed.

Lemma mapM_Forall2 {A B} (f : A -> result B) (P : A -> B -> Prop) l : (forall x, In x l -> exists y, f x = Ok y /\ P x y) -> exists ys, mapM f l = Ok ys /\ Forall2 P l ys.
Proof.
  induction l as [|x l IH]; intros H; [exists []; split; [reflexivity | constructor]|].
  destruct (H x (or_introl eq_refl)) as (y & Ey & Py). destruct IH as (ys & Eys & Pys); [intros z Hz; apply H; right; exact Hz|].
  exists (y :: ys). cbn [mapM]. rewrite Ey. cbn [bind]. rewrite Eys. split; [reflexivity | constructor; auto].
Qed.
Lemma all_periodic_axes v : has_all_periodic v = true -> forall u, In u v -> forall a, (a < gndim (ggrid (garray u)))%nat -> walled_axis (gbc u) (garray u) a -> periodic_axis (gbc u) a.
Proof.
  intros H u Hu a Ha Hw. unfold has_all_periodic in H. rewrite forallb_forall in H. specialize (H u Hu). rewrite forallb_forall in H. specialize (H a ltac:(apply in_seq; lia)).
  unfold is_periodic_bc, btype in H. destruct Hw as [Hp|[(_ & t1 & v1 & t2 & v2 & (x & y & A & _) & _ & C & _)|He]]; [exact Hp| |].
  - rewrite (nth_error_nth _ _ _ A) in H. destruct C; subst; discriminate.
  - unfold edge_side in He. destruct (nth_error (btypes (gbc u)) a) as [[t1 t2]|] eqn:E; [|congruence]. rewrite (nth_error_nth _ _ _ E) in H. destruct t1; try discriminate. congruence.
Qed.

(** Insulated axes need no transformation of the data. *)
Lemma rhs_insulated w b : (forall a, (a < gndim (ggrid w))%nat -> insulated_axis b w a) -> diffusion_rhs_transform w b = Ok (gdata w).
Proof.
  intros H. unfold diffusion_rhs_transform. generalize (gdata w). intros d.
  assert (Hs : forall a s d, (a < gndim (ggrid w))%nat -> diffusion_rhs_side w b a s d = Ok d).
  { intros a s d' Ha. unfold diffusion_rhs_side, btype, bval. destruct (H a Ha) as [Hp|(_ & (t1 & v1 & A1 & A2) & (t2 & v2 & B1 & B2))].
    - rewrite (nth_error_nth _ _ _ Hp). destruct s; reflexivity.
    - rewrite A1 in B1. injection B1 as <- ->. rewrite A2 in B2. injection B2 as <- ->. rewrite (nth_error_nth _ _ _ A1), (nth_error_nth _ _ _ A2). cbn [fst snd truthy].
      destruct (Req_EM_T 0 0) as [_|N]; [|congruence]. destruct s; reflexivity. }
  assert (Hf : forall l d, (forall a, In a l -> (a < gndim (ggrid w))%nat) -> foldM (fun d axis => let* d := diffusion_rhs_side w b axis false d in diffusion_rhs_side w b axis true d) d l = Ok d).
  { induction l as [|a l IH]; intros d' Hl; [reflexivity|]. cbn [foldM]. rewrite Hs by (apply Hl; left; reflexivity). cbn [bind]. rewrite Hs by (apply Hl; left; reflexivity). cbn [bind]. apply IH. intros; apply Hl; right; assumption. }
  apply Hf. intros a Ha. apply in_seq in Ha. lia.
Qed.
Lemma nbr_zero b o g a k ix : (k = 1 \/ k = -1) -> insulated_axis b (mkga (mkarr (gshape g) (fun _ => 0%R)) o g) a -> nbr b (mkga (mkarr (gshape g) (fun _ => 0%R)) o g) a k ix = 0%R.
Proof.
  intros Hk H. unfold nbr. cbn [ggrid gdata get goff]. destruct H as [Hp|(Hc & (t1 & v1 & A1 & A2) & (t2 & v2 & B1 & B2))].
  - rewrite (nth_error_nth _ _ _ Hp). destruct (nth a (bvals b) (None, None)). reflexivity.
  - rewrite A1 in B1. injection B1 as <- ->. rewrite A2 in B2. injection B2 as <- ->. rewrite (nth_error_nth _ _ _ A1), (nth_error_nth _ _ _ A2). rewrite edge_not_half by exact Hc.
    cbv zeta beta iota. cbn [beyond]. destruct (_ <? 0); [ring|]. destruct (_ <=? _); ring.
Qed.
Lemma insulated_off b u u' a : off_eq (goff u) (goff u') -> insulated_axis b u a -> insulated_axis b u' a.
Proof. intros Ho [H|(Hc & H)]; [left; exact H | right; split; [|exact H]]. unfold centred in *. rewrite <- (off_eq_nth a Ho). exact Hc. Qed.
Lemma insulated_no_edge b u a : insulated_axis b u a -> edge_side b (goff u) a = None.
Proof.
  intros [H|(Hc & _)]; [|apply edge_not_half; exact Hc]. unfold edge_side. unfold periodic_axis in H. rewrite H. reflexivity.
Qed.

(* @prop C22 solve_fast_diag, in any dimension: when every component has all its axes periodic or cell-centred with zero gradient (at least 3 cells each) and nu * dt >= 0, it succeeds and every component of the result satisfies (1 - nu dt Laplacian) u_new = u exactly, in every cell, with the grid, offset and boundary conditions of u; for every implementation when all components are periodic. *)
Lemma implicit_diffusion_insulated_lem : forall tpu eigh imp v nu dt, (0 <= dt * nu)%R ->
  (forall u, In u v -> wf_garr (garray u) /\ (0 < gndim (ggrid (garray u)))%nat /\ length (btypes (gbc u)) = gndim (ggrid (garray u)) /\
     (forall a, (a < gndim (ggrid (garray u)))%nat -> insulated_axis (gbc u) (garray u) a /\ (3 <= nth a (gshape (ggrid (garray u))) 0)%nat) /\
     forall Ls, laplacian_matrix_w_boundaries (ggrid (garray u)) (goff (garray u)) (gbc u) = Ok Ls -> implementation_ready eigh Ls (has_all_periodic v) imp) ->
  exists v', diffusion_solve_fast_diag tpu eigh v nu dt imp = Ok v' /\ Forall2 (implicitly_diffused (dt * nu)) v v' /\
    Forall (fun u => forall ix a, inb (gshape (ggrid (garray u))) ix -> (a < gndim (ggrid (garray u)))%nat -> wall_value (gbc u) (garray u) a ix = None) v.
Proof.
  intros tpu eigh imp v nu dt Hc Hv. unfold diffusion_solve_fast_diag.
  assert (Hno : forall u, In u v -> forall a, (a < gndim (ggrid (garray u)))%nat -> edge_side (gbc u) (goff (garray u)) a = None).
  { intros u Hu a Ha. destruct (Hv u Hu) as (_ & _ & _ & H & _). apply insulated_no_edge. apply (H a Ha). }
  destruct (@mapM_Forall2 _ _ (diffusion_component tpu eigh (has_all_periodic v) (if has_all_periodic v then imp else Some Matmul) nu dt) (implicitly_diffused (dt * nu)) v) as (v' & Ev & Hv').
  { intros u Hu. destruct (Hv u Hu) as (Hw & Hd & HL & Hax & Hr). set (g := ggrid (garray u)) in *. set (o := goff (garray u)) in *.
    assert (Hen : forall a, (a < gndim g)%nat -> walled_axis (gbc u) (garray u) a /\ enough_cells g (gbc u) o a).
    { intros a Ha. destruct (Hax a Ha) as (Hi & H3). split; [apply insulated_walled; exact Hi|]. split; [lia | intros _; exact H3]. }
    assert (HLs : exists Ls, laplacian_matrix_w_boundaries g o (gbc u) = Ok Ls).
    { destruct (@laplacian_matrices_axis_lem (garray u) (bc0 (gbc u)) Hw) as (Ls & E & _).
      - intros a Ha. destruct (Hen a Ha) as (Hwl & He1 & He2). split; [apply bc0_homogeneous; exact Hwl|]. split; [exact He1|]. intros _. apply (Hax a Ha).
      - exists Ls. exact E. }
    destruct HLs as (Ls & ELs). specialize (Hr Ls ELs).
    apply (@component_diffused tpu eigh (has_all_periodic v) imp nu dt u Ls (fun _ => 0%R)); auto.
    - intros Hp a Ha. apply (@all_periodic_axes v Hp u Hu a Ha). apply insulated_walled. apply (Hax a Ha).
    - intros a ix Ha Hix _. unfold second_difference. cbn [ggrid gdata get]. rewrite !nbr_zero by (auto; apply (Hax a Ha)). unfold Rdiv. ring.
    - intros w Ew. exists (gdata w). split; [|split; [reflexivity | intros; ring]].
      destruct (@trim_boundary_regular (gbc u) (garray u) Hw) as (w' & Ew' & (Tg & TL & To & _) & _).
      { intros a Ha. destruct (Hax a Ha) as ([H|(H & _)] & _); [left; exact H | right; left; exact H]. }
      rewrite Ew in Ew'. injection Ew' as <-. apply rhs_insulated. rewrite Tg. intros a Ha. eapply insulated_off; [|apply (Hax a Ha)].
      apply Forall2_intro_nth with (da := 0%Q) (db := 0%Q); [rewrite TL; apply Hw|]. destruct Hw as (_ & _ & HLo). rewrite HLo. intros i Hi. symmetry. etransitivity; [apply (To i Hi)|].
      rewrite (Hno u Hu i Hi). cbn [isbot]. rewrite andb_false_r. reflexivity. }
  exists v'. split; [exact Ev|]. split; [exact Hv'|]. apply Forall_forall. intros u Hu ix a Hix Ha. unfold wall_value. rewrite (Hno u Hu a Ha). reflexivity.
Qed.
(* @ex *)
Lemma implicit_diffusion_insulated_ex_lem : forall eigh, (0 <= (1 / 10) * 3)%R /\
  (forall u, In u p34v -> wf_garr (garray u) /\ (0 < gndim (ggrid (garray u)))%nat /\ length (btypes (gbc u)) = gndim (ggrid (garray u)) /\
     (forall a, (a < gndim (ggrid (garray u)))%nat -> insulated_axis (gbc u) (garray u) a /\ (3 <= nth a (gshape (ggrid (garray u))) 0)%nat) /\
     forall Ls, laplacian_matrix_w_boundaries (ggrid (garray u)) (goff (garray u)) (gbc u) = Ok Ls -> implementation_ready eigh Ls (has_all_periodic p34v) (Some Rfft)).
Proof.
  intros eigh. split; [lra|]. intros u Hu.
  assert (Hc : wf_garr (garray u) /\ ggrid (garray u) = p34g /\ gbc u = periodic_bc 2).
  { destruct Hu as [<- | [<- | []]]; (split; [|split; reflexivity]); (split; [repeat split; repeat constructor; (lia || lra)|split; reflexivity]). }
  destruct Hc as (Hw & Hg & Hb). split; [exact Hw|]. rewrite Hg, Hb. split; [unfold gndim; cbn; lia|]. split; [reflexivity|]. split.
  - intros a Ha. change (a < 2)%nat in Ha. destruct a as [|[|a]]; [| |lia]; (split; [left; reflexivity | cbn; lia]).
  - assert (HL : laplacian_matrix_w_boundaries p34g (goff (garray u)) (periodic_bc 2) =
      Ok [mkarr [3%nat; 3%nat] (fun ix => lap_column 3 1 ((nth 0 ix 0 - nth 1 ix 0) mod 3)); mkarr [4%nat; 4%nat] (fun ix => lap_column 4 (1 / 2) ((nth 0 ix 0 - nth 1 ix 0) mod 4))]).
    { destruct Hu as [<- | [<- | []]]; reflexivity. }
    intros Ls E. rewrite HL in E. injection E as <-. intros l A E. match type of E with [?a; ?b] = _ => change ([a] ++ [b] = l ++ [A]) in E end. apply app_inj_tail in E. destruct E as (_ & <-). reflexivity.
Qed.
