(** * Helper lemmas for C59: repeated projection and normalisation *)
From Verif Require Import Prelude NdArr Grids_model Spec SpecInit Boundaries_model FD_model PRep FDProofs FDProps Pressure_model PressureProps Func_model FuncProps Equations_model SpecNS EquationsProps EquationsMoreProps InitialConditions_model.
Set Implicit Arguments.
Local Open Scope Z_scope.

Lemma all_indices_sound s : forall ix, In ix (all_indices s) -> inb s ix.
Proof.
  induction s as [|n s IH]; intros ix H; cbn [all_indices] in H.
  - destruct H as [<- | []]. constructor.
  - apply in_flat_map in H. destruct H as (i & Hi & H). apply in_map_iff in H. destruct H as (jx & <- & Hj). apply in_seq in Hi.
    cbn [inb]. split; [lia | apply IH; exact Hj].
Qed.
Lemma fold_Rmax_in l : forall x, In (fold_left Rmax l x) (x :: l).
Proof.
  induction l as [|y l IH]; intros x; cbn [fold_left]; [left; reflexivity|].
  destruct (IH (Rmax x y)) as [E | H]; [|right; right; exact H].
  rewrite <- E. unfold Rmax. destruct (Rle_dec x y); [right; left | left]; reflexivity.
Qed.
Lemma list_max_in l m : list_max l = Ok m -> In m l.
Proof. destruct l as [|x l]; [discriminate|]. intros E. injection E as <-. apply fold_Rmax_in. Qed.
Lemma list_max_ok l : l <> [] -> exists m, list_max l = Ok m.
Proof. destruct l; [congruence|]. intros _. eexists. reflexivity. Qed.
Lemma allpos_inb s : allpos s -> inb s (repeat 0 (length s)).
Proof. induction s as [|n s IH]; intros H; cbn [repeat length inb]; [exact I|]. inversion H; subst. split; [lia | apply IH; auto]. Qed.
Lemma is_max_speed_unique g v m m' : is_max_speed g v m -> is_max_speed g v m' -> m = m'.
Proof. intros (A & ix & Hi & <-) (B & jx & Hj & <-). apply Rle_antisym; auto. Qed.
Lemma speed_ext v w ix : length v = length w -> (forall i, (i < length v)%nat -> vval v i ix = vval w i ix) -> speed v ix = speed w ix.
Proof. intros HL H. unfold speed. rewrite <- HL. f_equal. apply nsum_ext. intros i Hi. rewrite H by exact Hi. reflexivity. Qed.
Lemma speed_scale v w c ix : (0 <= c)%R -> length v = length w -> (forall i, (i < length v)%nat -> vval w i ix = (c * vval v i ix)%R) -> speed w ix = (c * speed v ix)%R.
Proof.
  intros Hc HL H. unfold speed. rewrite <- HL.
  rewrite (@nsum_ext _ _ (fun i => c ^ 2 * (vval v i ix ^ 2))%R) by (intros i Hi; rewrite H by exact Hi; ring).
  rewrite nsum_scal, sqrt_mult_alt by (apply pow2_ge_0). rewrite sqrt_pow2 by exact Hc. reflexivity.
Qed.

Lemma repeated_result_S {X} (f : X -> result X) k x : repeated_result f (S k) x = bind (f x) (repeated_result f k).
Proof.
  unfold repeated_result. rewrite repeated_is_iteration_lem. cbn [fst].
  transitivity (Nat.iter k (fun r => bind r f) (f x)).
  { replace (S k) with (k + 1)%nat by lia. rewrite iter_plus. reflexivity. }
  destruct (f x) as [y|e]; cbn [bind].
  - rewrite repeated_is_iteration_lem. reflexivity.
  - induction k as [|k IHk]; [reflexivity|]. exact (f_equal (fun z => bind z f) IHk).
Qed.
Lemma repeated_result_0 {X} (f : X -> result X) x : repeated_result f 0 x = Ok x.
Proof. unfold repeated_result. rewrite repeated_is_iteration_lem. reflexivity. Qed.

Section Iter.
Variables (g : grid) (os : nat -> list Q) (V D : list gvar -> Prop) (project : list gvar -> result (list gvar)) (M : R).
Hypothesis Hd : (0 < gndim g)%nat.
Hypothesis Hw : wfg g.
Hypothesis HM : (0 < M)%R.
Hypothesis V_len : forall v, V v -> length v = gndim g.
Hypothesis V_prep : forall v i, V v -> (i < gndim g)%nat -> prep g (os i) (vval v i) (garray (nth i v dgv)) /\ length (btypes (gbc (nth i v dgv))) = gndim g.
Hypothesis V_intro : forall v w F, V v -> length w = gndim g ->
  (forall i, (i < gndim g)%nat -> gbc (nth i w dgv) = gbc (nth i v dgv) /\ prep g (os i) (F i) (garray (nth i w dgv))) -> V w.
Hypothesis D_scale : forall v w c, V v -> V w -> (forall i ix, (i < gndim g)%nat -> inb (gshape g) ix -> vval w i ix = (c * vval v i ix)%R) -> D v -> D w.
Hypothesis P_ok : forall v, V v -> exists w, project v = Ok w /\ V w /\ D w.
Hypothesis P_fix : forall v w, V v -> D v -> project v = Ok w -> forall i ix, (i < gndim g)%nat -> inb (gshape g) ix -> vval w i ix = vval v i ix.

Lemma max_speed_ok v : V v -> exists m, max_speed v = Ok m /\ is_max_speed g v m.
Proof.
  intros Hv. pose proof (V_len Hv) as HL. assert (Hx : exists u0 v', v = u0 :: v') by (destruct v as [|u0 v']; [cbn in HL; lia | exists u0, v'; reflexivity]). destruct Hx as (u0 & v' & Ev).
  assert (Hsh : forall u, In u v -> shp (gdata (garray u)) = gshape g).
  { intros u Hu. apply (In_nth _ _ dgv) in Hu. destruct Hu as (i & Hi & <-). rewrite HL in Hi. destruct (V_prep Hv Hi) as ((_ & _ & S & _) & _). exact S. }
  assert (Sp : forall ix, inb (gshape g) ix -> sqrt (fold_right Rplus 0%R (map (fun u => (get (gdata (garray u)) ix) ^ 2)%R v)) = speed v ix).
  { intros ix Hix. unfold speed, nsum, lsum. f_equal. f_equal. apply (list_ext_nth 0%R); [rewrite !map_length, seq_length; reflexivity|].
    intros k Hk. rewrite map_length in Hk. rewrite (nth_map' _ _ dgv 0%R) by exact Hk. rewrite (nth_map' _ _ 0%nat 0%R) by (rewrite seq_length; exact Hk).
    rewrite seq_nth by exact Hk. rewrite HL in Hk. cbn [Nat.add]. destruct (V_prep Hv Hk) as ((_ & _ & _ & P) & _). rewrite <- P by exact Hix. reflexivity. }
  unfold max_speed. replace (match v with [] => _ | _ :: _ => _ end) with (let s := shp (gdata (garray u0)) in
    if negb (forallb (fun u => shape_eqb (shp (gdata (garray u))) s) v) then Err EValue
    else list_max (map (fun ix => sqrt (fold_right Rplus 0%R (map (fun u => (get (gdata (garray u)) ix) ^ 2)%R v))) (all_indices s))) by (rewrite Ev; reflexivity). cbv zeta.
  assert (S0 : shp (gdata (garray u0)) = gshape g) by (apply Hsh; rewrite Ev; left; reflexivity). rewrite S0.
  replace (forallb (fun u => shape_eqb (shp (gdata (garray u))) (gshape g)) v) with true.
  2:{ symmetry. apply forallb_forall. intros u Hu. rewrite (Hsh u Hu). apply shape_eqb_refl. }
  cbn [negb].
  set (l := map _ (all_indices (gshape g))).
  assert (Hin : forall y, In y l <-> exists ix, inb (gshape g) ix /\ y = speed v ix).
  { intros y. unfold l. rewrite in_map_iff. split.
    - intros (ix & <- & Hx). exists ix. split; [apply all_indices_sound; exact Hx|]. apply Sp. apply all_indices_sound; exact Hx.
    - intros (ix & Hx & ->). exists ix. split; [apply Sp; exact Hx | apply all_indices_inb; exact Hx]. }
  assert (Hne : l <> []).
  { intros E. assert (Hx : inb (gshape g) (repeat 0 (length (gshape g)))) by (apply allpos_inb; apply Hw).
    assert (H : In (speed v (repeat 0 (length (gshape g)))) l) by (apply Hin; eexists; split; [exact Hx | reflexivity]). rewrite E in H. destruct H. }
  destruct (list_max_ok Hne) as (m & Em). exists m. split; [exact Em|]. split.
  - intros ix Hx. apply (list_max_ub _ Em). apply Hin. exists ix. auto.
  - apply list_max_in in Em. apply Hin in Em. destruct Em as (ix & Hx & E). exists ix. auto.
Qed.
Lemma scaled_ok v m : V v -> m <> 0%R -> exists w,
  mapM (fun u => let* a := ga_scale M (garray u) in let* a := ga_div_scalar a m in mk_gvar a (gbc u)) v = Ok w /\ V w /\
  map gbc w = map gbc v /\
  forall i ix, (i < gndim g)%nat -> inb (gshape g) ix -> vval w i ix = (M / m * vval v i ix)%R.
Proof.
  intros Hv Hm. pose proof (V_len Hv) as HL. rewrite <- mapM_enum_snd.
  match goal with |- exists w, mapM ?f _ = _ /\ _ =>
    destruct (@mapM_enum gvar gvar f (fun i w => gbc w = gbc (nth i v dgv) /\ prep g (os i) (fun ix => M * vval v i ix / m)%R (garray w)) v dgv) as (w & E & HLw & H) end.
  { intros i Hi. cbn [fst snd]. rewrite HL in Hi. destruct (V_prep Hv Hi) as (P & HB). 
    unfold ga_scale. destruct (@prep_scalar_l Rmult _ _ _ _ M P) as (a & Ea & Pa). rewrite Ea. cbn [bind].
    unfold ga_div_scalar. destruct (@prep_scalar_r Rdiv _ _ _ _ m Pa) as (b & Eb & Pb). rewrite Eb. cbn [bind].
    unfold mk_gvar. rewrite HB, (proj1 Pb), Nat.eqb_refl. eexists. split; [reflexivity|]. split; [reflexivity | exact Pb]. }
  exists w. split; [exact E|].
  assert (Hvw : V w).
  { apply (@V_intro v w (fun i ix => M * vval v i ix / m)%R Hv); [lia|]. intros i Hi. apply (H i dgv). lia. }
  split; [exact Hvw|]. split.
  - apply (list_ext_nth (gbc dgv)); rewrite !map_length; [lia|]. intros k Hk. rewrite !map_nth. apply (H k dgv). lia.
  - intros i ix Hi Hix. destruct (V_prep Hvw Hi) as ((_ & _ & _ & A) & _). rewrite <- A by exact Hix.
    destruct (H i dgv ltac:(lia)) as (_ & (_ & _ & _ & B)). rewrite B by exact Hix. unfold Rdiv. ring.
Qed.
(** one step, on a velocity whose projection is [w] with positive maximal speed [m] *)
Lemma pn_step v w m : V v -> project v = Ok w -> V w -> D w -> is_max_speed g w m -> (0 < m)%R ->
  exists r, project_and_normalize project M v = Ok r /\ V r /\ D r /\ map gbc r = map gbc w /\ is_max_speed g r M /\
    forall i ix, (i < gndim g)%nat -> inb (gshape g) ix -> vval r i ix = (M / m * vval w i ix)%R.
Proof.
  intros Hv Ew Vw Dw Hm Hpos. unfold project_and_normalize. rewrite Ew. cbn [bind].
  destruct (max_speed_ok Vw) as (m' & Em & Hm'). rewrite (is_max_speed_unique Hm' Hm) in Em. rewrite Em. cbn [bind].
  destruct (Req_EM_T m 0) as [Z | Z]; [lra|]. destruct (@scaled_ok w m Vw Z) as (r & Er & Vr & Br & Hr). rewrite Er. exists r. split; [reflexivity|].
  split; [exact Vr|]. split; [exact (@D_scale w r (M / m)%R Vw Vr Hr Dw)|]. split; [exact Br|]. split; [|exact Hr].
  assert (Hc : (0 < M / m)%R) by (apply Rdiv_lt_0_compat; lra).
  assert (S : forall ix, inb (gshape g) ix -> speed r ix = (M / m * speed w ix)%R).
  { intros ix Hx. apply speed_scale; [lra | rewrite (V_len Vw), (V_len Vr); reflexivity|]. intros i Hi. rewrite (V_len Vw) in Hi. apply Hr; auto. }
  destruct Hm as (A & ix & Hix & E). split.
  - intros jx Hj. rewrite S by exact Hj. replace M with (M / m * m)%R at 2 by (field; lra). apply Rmult_le_compat_l; [lra | auto].
  - exists ix. split; [exact Hix|]. rewrite S by exact Hix. rewrite E. field. lra.
Qed.
Lemma pn_iter v w m : V v -> project v = Ok w -> V w -> D w -> is_max_speed g w m -> (0 < m)%R -> forall k,
  exists r, repeated_result (project_and_normalize project M) (S k) v = Ok r /\ V r /\ D r /\ is_max_speed g r M /\
    forall i ix, (i < gndim g)%nat -> inb (gshape g) ix -> vval r i ix = (M / m * vval w i ix)%R.
Proof.
  intros Hv Ew Vw Dw Hm Hpos k. revert v w m Hv Ew Vw Dw Hm Hpos. induction k as [|k IH]; intros v w m Hv Ew Vw Dw Hm Hpos.
  - destruct (pn_step Hv Ew Vw Dw Hm Hpos) as (r & Er & Vr & Dr & _ & Mr & Hr). rewrite repeated_result_S, Er. cbn [bind]. rewrite repeated_result_0.
    exists r. auto.
  - destruct (pn_step Hv Ew Vw Dw Hm Hpos) as (r & Er & Vr & Dr & _ & Mr & Hr). rewrite repeated_result_S, Er. cbn [bind].
    destruct (P_ok Vr) as (w' & Ew' & Vw' & Dw'). pose proof (P_fix Vr Dr Ew') as Hfix.
    assert (Mw' : is_max_speed g w' M).
    { assert (S : forall ix, inb (gshape g) ix -> speed w' ix = speed r ix).
      { intros ix Hx. apply speed_ext; [rewrite (V_len Vw'), (V_len Vr); reflexivity|]. intros i Hi. rewrite (V_len Vw') in Hi. apply Hfix; auto. }
      destruct Mr as (A & ix & Hx & E). split; [intros jx Hj; rewrite S; auto|]. exists ix. rewrite S; auto. }
    destruct (IH r w' M Vr Ew' Vw' Dw' Mw' HM) as (r' & Er' & Vr' & Dr' & Mr' & Hr'). exists r'. split; [exact Er'|]. split; [exact Vr'|]. split; [exact Dr'|]. split; [exact Mr'|].
    intros i ix Hi Hx. rewrite Hr', Hfix, Hr by auto. field. lra.
Qed.
(** if the projection is zero the division by the maximal speed is 0/0 *)
Lemma pn_zero v w : V v -> project v = Ok w -> V w -> (forall i ix, (i < gndim g)%nat -> inb (gshape g) ix -> vval w i ix = 0%R) ->
  forall k, repeated_result (project_and_normalize project M) (S k) v = Err EZeroDiv.
Proof.
  intros Hv Ew Vw Z k. rewrite repeated_result_S. unfold project_and_normalize at 1. rewrite Ew. cbn [bind].
  destruct (max_speed_ok Vw) as (m & Em & (_ & ix & Hx & Hm)). rewrite Em. cbn [bind].
  assert (m = 0%R) as ->.
  { rewrite <- Hm. unfold speed. rewrite (@nsum_ext _ _ (fun _ => 0%R)); [|intros i Hi; rewrite (V_len Vw) in Hi; rewrite Z by auto; ring].
    rewrite nsum_const, Rmult_0_r. apply sqrt_0. }
  destruct (Req_EM_T 0 0); [reflexivity | congruence].
Qed.
End Iter.
