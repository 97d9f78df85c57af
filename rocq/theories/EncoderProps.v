(** * Encoders and decoders, input noise and training steps (C63) *)
From Coq Require Import Qreals.
From Verif Require Import Prelude NdArr Grids_model Spec SpecNS SpecRollout Boundaries_model BoundariesPeriodic FD_model Interp_model ArrayUtils_model PRep FDProofs FDProps InterpProofs InterpProps ArrayUtilsProps PressureProps PressureSolveProps EquationsProps ConvectProps Networks_model NetworksProps ForcingsProps InitProps SkillProps Rollout_model RolloutProps RolloutMoreProps.
Set Implicit Arguments.
Local Open Scope Z_scope.

Lemma slice_last_ok {A} (x : arr A) T s : shp x = T :: s -> (0 < T)%nat -> exists y, slice_last x = Ok y /\ shp y = s /\ forall ix, get y ix = get x (Z.of_nat (T - 1) :: ix).
Proof.
  intros Hs HT. unfold slice_last, slice_along_axis. cbn [same_dims forallb negb andb mapM]. unfold ndim. rewrite Hs. cbn [length Nat.eqb].
  rewrite (@denotes_norm 0 (S (length s)) 0%nat) by (unfold denotes; lia). cbn [bind]. unfold index_axis. rewrite Hs. cbn [nth]. change (-1 <? 0) with true. cbv iota zeta.
  destruct (Z.leb_spec 0 (-1 + Z.of_nat T)); [|lia]. destruct (Z.ltb_spec (-1 + Z.of_nat T) (Z.of_nat T)); [|lia]. cbn [andb bind]. unfold leaf. cbn [nth_error].
  eexists. split; [reflexivity|]. cbn [shp get]. split; [rewrite ?Hs; reflexivity|]. intros ix. unfold insert_at. cbn [firstn skipn app]. do 2 f_equal. lia.
Qed.
Lemma center_len g : length (cell_center g) = gndim g.
Proof. apply cell_center_length. Qed.
Lemma snap_nth g T x i : snapshots g T x -> (i < gndim g)%nat -> shp (nth i x darr0) = T :: gshape g.
Proof. intros (L & H) Hi. rewrite Forall_forall in H. apply H. apply nth_In. lia. Qed.
(* @prop C63 aligned_array_encoder on any grid and any number of snapshots T > 0: it returns one periodic variable per component, on the cell faces, holding exactly the last snapshot; aligned_array_decoder gives these arrays back, so decoding an encoded state reproduces the last input frame. *)
Lemma aligned_encoder_last_frame_lem : forall g T x, wfg g -> (0 < T)%nat -> snapshots g T x ->
  exists v, aligned_array_encoder g x = Ok v /\ length v = gndim g /\ length (aligned_array_decoder v) = gndim g /\
    forall i, (i < gndim g)%nat -> gbc (nth i v dgv) = periodic_bc (gndim g) /\
      is_field (garray (nth i v dgv)) g (nth i (cell_faces g) []) (fun ix => get (nth i x darr0) (Z.of_nat (T - 1) :: ix)) /\
      shp (nth i (aligned_array_decoder v) darr0) = gshape g /\
      forall ix, inb (gshape g) ix -> get (nth i (aligned_array_decoder v) darr0) ix = get (nth i x darr0) (Z.of_nat (T - 1) :: ix).
Proof.
  intros g T x Hw HT Hx. pose proof Hx as (Lx & _). unfold aligned_array_encoder.
  destruct (@mapM_combine _ _ _ (fun xo => let* y := slice_last (fst xo) in impose_bc (periodic_bc (gndim g)) (mkga y (snd xo) g))
     (fun i w => gbc w = periodic_bc (gndim g) /\ is_field (garray w) g (nth i (cell_faces g) []) (fun ix => get (nth i x darr0) (Z.of_nat (T - 1) :: ix))) x (cell_faces g) darr0 []) as (v & E & L & H).
  { rewrite faces_len. exact Lx. }
  { intros i Hi. cbn [fst snd]. rewrite Lx in Hi. destruct (slice_last_ok _ (snap_nth Hx Hi) HT) as (y & Ey & Sy & Vy). rewrite Ey. cbn [bind].
    destruct (@impose_prep g (nth i (cell_faces g) []) (fun ix => get (nth i x darr0) (Z.of_nat (T - 1) :: ix)) (periodic_bc (gndim g)) (mkga y (nth i (cell_faces g) []) g)) as (w & Ew & Pw); auto.
    { apply face_len; exact Hi. } { reflexivity. } { split; [reflexivity|]. split; [apply off_eq_refl|]. split; [exact Sy|]. intros ix _. apply Vy. }
    rewrite Ew. eexists. split; [reflexivity|]. split; [reflexivity | exact Pw]. }
  exists v. split; [exact E|]. split; [lia|]. unfold aligned_array_decoder. rewrite map_length. split; [lia|]. intros i Hi. destruct (H i dgv) as (B & P); [lia|]. split; [exact B|]. split; [exact P|].
  rewrite (nth_map' _ _ dgv darr0) by lia. destruct P as (_ & _ & S & V). split; [exact S | exact V].
Qed.
Definition enc_g : grid := mkgrid [4%nat] [1%R] [(0%R, 4%R)].
Lemma enc_wf : wfg enc_g.
Proof. repeat split; repeat constructor; (lia || lra). Qed.
Definition enc_x : list (arr R) := [mkarr [2%nat; 4%nat] (fun ix => if nth 0 ix 0 =? 0 then 7%R else if nth 1 ix 0 =? 0 then 8%R else 0%R)].
Lemma enc_snap : snapshots enc_g 2 enc_x.
Proof. split; [reflexivity|]. repeat constructor. Qed.
(* @ex *)
Lemma aligned_encoder_last_frame_ex_lem : wfg enc_g /\ snapshots enc_g 2 enc_x /\ exists v, aligned_array_encoder enc_g enc_x = Ok v /\ get (nth 0 (aligned_array_decoder v) darr0) [0] = 8%R.
Proof.
  split; [exact enc_wf|]. split; [exact enc_snap|]. destruct (@aligned_encoder_last_frame_lem enc_g 2%nat enc_x enc_wf) as (v & E & _ & _ & H); [lia | exact enc_snap|]. exists v. split; [exact E|].
  destruct (H 0%nat) as (_ & _ & _ & V); [cbn; lia|]. rewrite V by (cbn; lia). reflexivity.
Qed.

(** ** Collocated data *)
Lemma lerp_back s n o p a F : off_eq p (offs a (1 # 2) o) -> (a < length o)%nat -> forall ix, length ix = length (s : list nat) ->
  lerp n p o F ix = if (a <? n)%nat then ((F (prev a ix) + F ix) / 2)%R else F ix.
Proof.
  intros Hp Ha. induction n as [|n IH]; intros ix Hix; [reflexivity|]. simpl lerp.
  pose proof (off_eq_nth n Hp) as Hn.
  destruct (Nat.eq_dec n a) as [->|Hne].
  - unfold offs in Hn. rewrite nth_upd_same in Hn by auto.
    rewrite (@lerp_axis_comp a _ (- 1 # 2)%Q) by (rewrite Hn; ring).
    unfold lerp_axis. change (Qfloor (- 1 # 2)) with (-1). change (-1 + 1) with 0. rewrite shiftix_0. rewrite !IH by (rewrite ?shiftix_length; auto).
    replace (a <? a)%nat with false by (symmetry; apply Nat.ltb_irrefl). replace (a <? S a)%nat with true by (symmetry; apply Nat.ltb_lt; lia).
    replace (Q2R ((- 1 # 2) - inject_Z (-1))) with (/ 2)%R by (unfold Q2R; simpl; lra). unfold prev. lra.
  - unfold offs in Hn. rewrite nth_upd_other in Hn by auto.
    rewrite (@lerp_axis_comp n _ (inject_Z 0)) by (rewrite Hn; change (inject_Z 0) with 0%Q; ring).
    rewrite lerp_axis_int, shiftix_0, IH by auto.
    replace (a <? S n)%nat with (a <? n)%nat; [reflexivity|]. destruct (Nat.ltb_spec a n), (Nat.ltb_spec a (S n)); auto; lia.
Qed.
Lemma wrapped_per s F : periodic s (wrapped s F).
Proof. intros ix Hix. unfold wrapped. rewrite wrap_wrap by exact Hix. reflexivity. Qed.
Section Col.
Variables (g : grid) (T : nat) (x : list (arr R)).
Hypothesis (Hw : wfg g) (HT : (0 < T)%nat) (Hx : snapshots g T x).
Let F i := wrapped (gshape g) (fun ix => get (nth i x darr0) (Z.of_nat (T - 1) :: ix)).
Lemma col_encode : exists v, collocated_to_staggered_encoder g x = Ok v /\ length v = gndim g /\
  forall i, (i < gndim g)%nat -> gbc (nth i v dgv) = periodic_bc (gndim g) /\ pvar g (nth i (cell_faces g) []) (fun ix => (F i ix + F i (next i ix)) / 2)%R (nth i v dgv).
Proof.
  pose proof Hx as (Lx & _). unfold collocated_to_staggered_encoder.
  destruct (@mapM_F2 _ _ (fun x => let* y := slice_last x in mk_gvar (mkga y (cell_center g) g) (periodic_bc (gndim g)))
     (fun a w => gbc w = periodic_bc (gndim g) /\ pvar g (cell_center g) (wrapped (gshape g) (fun ix => get a (Z.of_nat (T - 1) :: ix))) w) x) as (pre & E & P).
  { intros a Ha. assert (Sa : shp a = T :: gshape g) by (destruct Hx as (_ & H); rewrite Forall_forall in H; apply H; exact Ha). destruct (slice_last_ok _ Sa HT) as (y & Ey & Sy & Vy). rewrite Ey. cbn [bind].
    unfold mk_gvar. cbn [periodic_bc btypes homogeneous]. rewrite repeat_length. cbn [ggrid]. rewrite Nat.eqb_refl. eexists. split; [reflexivity|]. split; [reflexivity|]. split; [|reflexivity].
    split; [reflexivity|]. split; [apply off_eq_refl|]. split; [exact Sy|]. intros ix Hix. cbn [garray gdata]. rewrite Vy. unfold wrapped. rewrite wrap_inb by exact Hix. reflexivity. }
  rewrite E. cbn [bind]. pose proof (F2_length P) as Lp.
  destruct (@mapM_combine _ _ _ (fun co => linear_interp (fst co) (snd co)) (fun i w => gbc w = periodic_bc (gndim g) /\ pvar g (nth i (cell_faces g) []) (fun ix => (F i ix + F i (next i ix)) / 2)%R w) pre (cell_faces g) dgv []) as (v & Ev & L & H).
  { rewrite faces_len. lia. }
  { intros i Hi. cbn [fst snd]. assert (Hi' : (i < gndim g)%nat) by lia.
    assert (Hix' : (i < length x)%nat) by lia. destruct (@F2_nth _ _ _ _ _ i _ _ P (nth_error_nth' x darr0 Hix') (nth_error_nth' pre dgv Hi)) as (Bp & Pp).
    destruct (@lin_all_prep g (cell_center g) (F i) (nth i pre dgv) (nth i (cell_faces g) []) Hw (@wrapped_per _ _) (center_len g) (face_len g Hi') Pp) as (w & Ew & Eb & (Pw & Pb)).
    exists w. split; [exact Ew|]. split; [congruence|]. split; [|exact Pb]. eapply prep_ext; [|exact Pw]. intros ix Hix.
    rewrite (@lerp_half (gshape g) _ _ _ i) by (auto using inb_length, face_offs; rewrite center_len; exact Hi'). replace (i <? gndim g)%nat with true by (symmetry; apply Nat.ltb_lt; auto). reflexivity. }
  exists v. split; [exact Ev|]. split; [lia|]. intros i Hi. apply H. lia.
Qed.
End Col.

(* @prop C63 Collocated data through a staggered solver and back: for every grid and T > 0 snapshots, collocated_to_staggered_encoder gives on each face the mean of the two cells it separates in the last snapshot (periodic), and staggered_to_collocated_decoder of that has in every cell a quarter of the previous, half of its own and a quarter of the next cell along the component's own axis: a smoothing that keeps the total of each component but is not the identity. *)
Lemma collocated_round_trip_lem : forall g T x, wfg g -> (0 < T)%nat -> snapshots g T x ->
  let F i := wrapped (gshape g) (fun ix => get (nth i x darr0) (Z.of_nat (T - 1) :: ix)) in
  exists v y, collocated_to_staggered_encoder g x = Ok v /\ length v = gndim g /\ staggered_to_collocated_decoder g v = Ok y /\ length y = gndim g /\
    forall i, (i < gndim g)%nat ->
      is_field (garray (nth i v dgv)) g (nth i (cell_faces g) []) (fun ix => (F i ix + F i (next i ix)) / 2)%R /\
      shp (nth i y darr0) = gshape g /\
      (forall ix, inb (gshape g) ix -> get (nth i y darr0) ix = ((F i (prev i ix) + 2 * F i ix + F i (next i ix)) / 4)%R) /\
      asum (gshape g) (get (nth i y darr0)) = asum (gshape g) (F i).
Proof.
  intros g T x Hw HT Hx F. destruct (@col_encode g T x Hw HT Hx) as (v & Ev & Lv & Hv). fold F in Hv.
  unfold staggered_to_collocated_decoder.
  destruct (@mapM_F2 _ _ (fun c => linear_interp c (cell_center g)) (fun c w => linear_interp c (cell_center g) = Ok w) v) as (l & El & Hl).
  { intros c Hc. destruct (In_nth _ _ dgv Hc) as (i & Hi & <-). assert (Hi' : (i < gndim g)%nat) by lia. destruct (Hv i Hi') as (_ & Pv).
    destruct (@lin_all_prep g _ _ (nth i v dgv) (cell_center g) Hw (avg_periodic i (@wrapped_per _ _)) (face_len g Hi') (center_len g) Pv) as (w & Ew & _). exists w. auto. }
  exists v, (map (fun x => gdata (garray x)) l). split; [exact Ev|]. split; [exact Lv|]. rewrite El. cbn [bind]. split; [reflexivity|]. pose proof (F2_length Hl) as Ll. rewrite map_length. split; [lia|].
  intros i Hi. destruct (Hv i Hi) as (_ & Pv). split; [exact (proj1 Pv)|]. rewrite (nth_map' _ _ dgv darr0) by lia.
  assert (PF : periodic (gshape g) (F i)) by apply wrapped_per.
  destruct (@lin_all_prep g _ _ (nth i v dgv) (cell_center g) Hw (avg_periodic i PF) (face_len g Hi) (center_len g) Pv) as (w & Ew & _ & ((W1 & W2 & W3 & W4) & _)).
  assert (Q1 : (i < length v)%nat) by lia. assert (Q2 : (i < length l)%nat) by lia. pose proof (@F2_nth _ _ _ _ _ i _ _ Hl (nth_error_nth' v dgv Q1) (nth_error_nth' l dgv Q2)) as E'. cbv beta in E'. rewrite Ew in E'. injection E' as <-.
  split; [exact W3|].
  assert (V : forall ix, inb (gshape g) ix -> get (gdata (garray w)) ix = ((F i (prev i ix) + 2 * F i ix + F i (next i ix)) / 4)%R).
  { intros ix Hix. rewrite W4 by exact Hix. rewrite (@lerp_back (gshape g) _ _ _ i) by (auto using inb_length, face_offs; rewrite center_len; exact Hi). replace (i <? gndim g)%nat with true by (symmetry; apply Nat.ltb_lt; auto).
    unfold avg, next, prev. cbv beta. rewrite shiftix_add. change (1 + -1) with 0. rewrite shiftix_0. lra. }
  split; [exact V|]. pose proof (proj1 (proj2 Hw)) as _. assert (Hp : allpos (gshape g)) by apply Hw.
  rewrite (asum_ext (gshape g) _ (fun ix => (1 / 4) * F i (shiftix i (-1) ix) + ((1 / 2) * F i ix + (1 / 4) * F i (shiftix i 1 ix)))%R) by (intros ix Hix; rewrite V by exact Hix; unfold next, prev; lra).
  rewrite !asum_plus, !asum_scal. rewrite (asum_shift_periodic i (-1) Hp PF), (asum_shift_periodic i 1 Hp PF). lra.
Qed.
(* @ex *)
Lemma collocated_round_trip_ex_lem : wfg enc_g /\ snapshots enc_g 2 enc_x /\ exists v y, collocated_to_staggered_encoder enc_g enc_x = Ok v /\ staggered_to_collocated_decoder enc_g v = Ok y /\ get (nth 0 y darr0) [0] = 4%R /\ get (nth 0 y darr0) [1] = 2%R.
Proof.
  split; [exact enc_wf|]. split; [exact enc_snap|]. destruct (@collocated_round_trip_lem enc_g 2%nat enc_x enc_wf) as (v & y & E & _ & E' & _ & H); [lia | exact enc_snap|]. exists v, y. split; [exact E|]. split; [exact E'|].
  destruct (H 0%nat) as (_ & _ & V & _); [cbn; lia|]. rewrite !V by (cbn; lia). unfold wrapped, prev, next. cbn. lra.
Qed.
(* @prop C63 Decoding an encoded collocated state does not reproduce the last input frame in general. *)
Lemma collocated_round_trip_identity_refuted_lem : ~ (forall g T x, wfg g -> (0 < T)%nat -> snapshots g T x ->
  exists v y, collocated_to_staggered_encoder g x = Ok v /\ staggered_to_collocated_decoder g v = Ok y /\
    forall i ix, (i < gndim g)%nat -> inb (gshape g) ix -> get (nth i y darr0) ix = get (nth i x darr0) (Z.of_nat (T - 1) :: ix)).
Proof.
  intros H. destruct (H enc_g 2%nat enc_x enc_wf ltac:(lia) enc_snap) as (v & y & E & E' & V). destruct collocated_round_trip_ex_lem as (_ & _ & v' & y' & E1 & E1' & V1 & _).
  rewrite E in E1. injection E1 as <-. rewrite E' in E1'. injection E1' as <-. rewrite (V 0%nat [0]) in V1 by (cbn; lia). cbn in V1. lra.
Qed.

(** ** Slices along the time axis *)
(* @prop C63 slice_last_state_encoder for every collection of arrays of one rank and every time axis (negative ones included) with at least one entry: each output is the last slice along that axis, the axis being dropped. *)
Lemma slice_last_state_encoder_spec_lem : forall (A : Type) time_axis (x : list (arr A)), x <> [] -> (forall a b, In a x -> In b x -> ndim a = ndim b) ->
  (forall a, In a x -> exists ax, denotes time_axis (ndim a) ax /\ (0 < nth ax (shp a) 0)%nat) ->
  exists y, slice_last_state_encoder time_axis x = Ok y /\
    Forall2 (fun a p => exists ax, denotes time_axis (ndim a) ax /\ slice_of ax (nth ax (shp a) 0 - 1)%nat a p) x y.
Proof.
  intros A t x Hne Hs Hv. unfold slice_last_state_encoder. apply slice_leaf; [exact Hne | | |].
  - intros _. unfold same_dims. destruct x as [|a l]; [congruence|]. apply forallb_forall. intros b Hb. apply Nat.eqb_eq. apply Hs; [right; exact Hb | left; reflexivity].
  - intros a Ha. destruct (Hv a Ha) as (ax & D & _). unfold denotes, valid_axis in *. lia.
  - intros a ax Ha D. destruct (Hv a Ha) as (ax' & D' & Hp). pose proof (denotes_unique D D') as <-. unfold index_axis. change (-1 <? 0) with true. cbv iota zeta.
    destruct (Z.leb_spec 0 (-1 + Z.of_nat (nth ax (shp a) 0%nat))); [|lia]. destruct (Z.ltb_spec (-1 + Z.of_nat (nth ax (shp a) 0%nat)) (Z.of_nat (nth ax (shp a) 0%nat))); [|lia]. cbn [andb]. eexists. split; [reflexivity|].
    exists ax. split; [exact D|]. split; [reflexivity|]. intros ix Hix Hk. cbn [get]. f_equal. replace (-1 + Z.of_nat (nth ax (shp a) 0%nat)) with (nth ax ix 0) by lia. apply insert_without. rewrite (inb_length _ _ Hix). exact (proj1 D).
Qed.
Definition enc_a : arr Z := mkarr [2%nat; 3%nat] (fun ix => nth 0 ix 0 * 10 + nth 1 ix 0).
(* @ex *)
Lemma slice_last_state_encoder_spec_ex_lem : (forall a, In a [enc_a] -> exists ax, denotes (-1) (ndim a) ax /\ (0 < nth ax (shp a) 0)%nat) /\
  match slice_last_state_encoder (-1) [enc_a] with Ok [p] => shp p = [2%nat] /\ get p [1] = 12 | _ => False end.
Proof. split; [intros a [<- | []]; exists 1%nat; unfold denotes; cbn; lia | vm_compute; auto]. Qed.

Lemma slice_last_n_leaf {A} n (x : list (arr A)) : 0 <= n -> x <> [] -> (forall a b, In a x -> In b x -> ndim a = ndim b) -> (forall a, In a x -> (0 < ndim a)%nat) ->
  exists y, slice_along_axis x 0 (PySlice (Some (- n)) None 1) true = Ok y /\
    Forall2 (fun a p => let T := nth 0 (shp a) 0%nat in let m := if n =? 0 then T else Nat.min (Z.to_nat n) T in shp p = m :: tl (shp a) /\ forall k ix, get p (Z.of_nat k :: ix) = get a (Z.of_nat (T - m + k) :: ix)) x y.
Proof.
  intros Hn Hne Hs Hv. apply slice_leaf; [exact Hne | | |].
  - intros _. unfold same_dims. destruct x as [|a l]; [congruence|]. apply forallb_forall. intros b Hb. apply Nat.eqb_eq. apply Hs; [right; exact Hb | left; reflexivity].
  - intros a Ha. specialize (Hv a Ha). unfold valid_axis. lia.
  - intros a ax Ha D. assert (ax = 0%nat) as -> by (destruct D; lia). specialize (Hv a Ha). unfold ndim in Hv. rewrite slice_second. eexists. split; [reflexivity|]. cbn [shp get].
    destruct (shp a) as [|T s]; [cbn in Hv; lia|]. cbn [nth upd tl]. cbv zeta.
    assert (Sp : (T - split_point T (- n))%nat = if n =? 0 then T else Nat.min (Z.to_nat n) T) by (unfold split_point; destruct (Z.eqb_spec n 0), (Z.ltb_spec (- n) 0); lia).
    split; [rewrite Sp; reflexivity|]. intros k ix. do 2 f_equal. pose proof (split_point_le T (- n)). rewrite <- Sp. lia.
Qed.
(* @prop C63 slice_last_n_state_encoder with time axis 0 and n >= 1, for every collection of arrays of one positive rank: each output has the time axis last with min(n, T) entries, and its entry k is frame T - min(n, T) + k of the input, so these are the last n frames in order. *)
Lemma slice_last_n_state_encoder_spec_lem : forall (A : Type) n (x : list (arr A)), 1 <= n -> x <> [] -> (forall a b, In a x -> In b x -> ndim a = ndim b) -> (forall a, In a x -> (0 < ndim a)%nat) ->
  exists y, slice_last_n_state_encoder n 0 x = Ok y /\
    Forall2 (fun a p => let T := nth 0 (shp a) 0%nat in let m := Nat.min (Z.to_nat n) T in shp p = tl (shp a) ++ [m] /\ forall k ix, get p (ix ++ [Z.of_nat k]) = get a (Z.of_nat (T - m + k) :: ix)) x y.
Proof.
  intros A n x Hn Hne Hs Hv. unfold slice_last_n_state_encoder. destruct (@slice_last_n_leaf A n x ltac:(lia) Hne Hs Hv) as (y & Ey & Hy). rewrite Ey. cbn [bind].
  destruct (@mapM_F2 _ _ (move_to_last 0) (fun p q => exists m s, shp p = m :: s /\ shp q = s ++ [m] /\ forall k ix, get q (ix ++ [k]) = get p (k :: ix)) y) as (z & Ez & Hz).
  { intros p Hp. destruct (In_nth_error _ _ Hp) as (j & Hj). destruct (nth_error x j) as [a|] eqn:Ea; [|apply nth_error_None in Ea; rewrite (F2_length Hy) in Ea; apply nth_error_None in Ea; congruence].
    destruct (@F2_nth _ _ _ _ _ _ _ _ Hy Ea Hj) as (S & _). cbv zeta in S. destruct (shp p) as [|m s] eqn:Esp; [discriminate|].
    unfold move_to_last. unfold ndim. rewrite Esp. rewrite (@denotes_norm 0 (length (m :: s)) 0%nat) by (unfold denotes; cbn; lia). cbn [bind]. eexists. split; [reflexivity|]. exists m, s. cbn [shp get]. split; [reflexivity|]. split; [reflexivity|].
    intros k ix. rewrite last_last, removelast_app_one. reflexivity. }
  exists z. split; [exact Ez|]. apply Forall2_of_nth; [rewrite (F2_length Hy); exact (F2_length Hz)|]. intros j a q Ha Hq. destruct (nth_error y j) as [p|] eqn:Ep; [|apply nth_error_None in Ep; rewrite (F2_length Hz) in Ep; apply nth_error_None in Ep; congruence].
  destruct (@F2_nth _ _ _ _ _ _ _ _ Hy Ha Ep) as (S1 & V1). destruct (@F2_nth _ _ _ _ _ _ _ _ Hz Ep Hq) as (m & s & S2 & S3 & V2). cbv zeta in *. destruct (Z.eqb_spec n 0) as [->|_] in S1; [lia|]. destruct (Z.eqb_spec n 0) as [->|_] in V1; [lia|].
  rewrite S1 in S2. injection S2 as <- <-. split; [exact S3|]. intros k ix. rewrite V2, V1. reflexivity.
Qed.
(* @ex *)
Lemma slice_last_n_state_encoder_spec_ex_lem : 1 <= 1 /\ match slice_last_n_state_encoder 1 0 [enc_a] with Ok [p] => shp p = [3%nat; 1%nat] /\ get p [2; 0] = 12 | _ => False end.
Proof. split; [lia | vm_compute; auto]. Qed.
(* @prop C63 slice_last_n_state_encoder ignores time_axis when slicing: it does not return the last n slices along the given time axis unless that axis is the first. *)
Lemma slice_last_n_other_axis_refuted_lem : ~ (forall (A : Type) n time_axis (a p : arr A) ax, 1 <= n -> denotes time_axis (ndim a) ax -> slice_last_n_state_encoder n time_axis [a] = Ok [p] ->
  shp p = without ax (shp a) ++ [Nat.min (Z.to_nat n) (nth ax (shp a) 0%nat)]).
Proof.
  intros H. destruct (slice_last_n_state_encoder 1 1 [enc_a]) as [[|p [|? ?]]|e] eqn:E; vm_compute in E; try discriminate.
  specialize (H Z 1 1 enc_a p 1%nat ltac:(lia) ltac:(unfold denotes; cbn; lia) E). injection E as <-. cbn in H. discriminate H.
Qed.
(* @prop C63 stack_last_n_state_encoder with time axis 0 and n >= 1 on one or more arrays of a common shape T :: s: the result has shape s with a last axis of (number of arrays) * min(n, T) channels, channel c * min(n, T) + k holding frame T - min(n, T) + k of array c. *)
Lemma stack_last_n_state_encoder_spec_lem : forall (A : Type) n T s (x : list (arr A)) (d : arr A), 1 <= n -> x <> [] -> (forall a, In a x -> shp a = T :: s) ->
  let m := Nat.min (Z.to_nat n) T in
  exists y, stack_last_n_state_encoder n 0 x = Ok y /\ shp y = s ++ [(length x * m)%nat] /\
    forall c k ix, (c < length x)%nat -> (k < m)%nat -> inb s ix -> get y (ix ++ [Z.of_nat (c * m + k)]) = get (nth c x d) (Z.of_nat (T - m + k) :: ix).
Proof.
  intros A n T s x d Hn Hne Hs m.
  destruct (@slice_last_n_state_encoder_spec_lem A n x Hn Hne) as (z & Ez & Hz).
  { intros a b Ha Hb. unfold ndim. rewrite (Hs a Ha), (Hs b Hb). reflexivity. } { intros a Ha. unfold ndim. rewrite (Hs a Ha). cbn. lia. }
  unfold slice_last_n_state_encoder in Ez. unfold stack_last_n_state_encoder. destruct (slice_along_axis x 0 (PySlice (Some (- n)) None 1) true) as [y|e]; [|discriminate]. cbn [bind] in *. rewrite Ez. cbn [bind]. clear Ez y.
  pose proof (F2_length Hz) as Lz.
  assert (Hz' : forall c, (c < length x)%nat -> forall q, nth_error z c = Some q -> shp q = s ++ [m] /\ forall k ix, get q (ix ++ [Z.of_nat k]) = get (nth c x d) (Z.of_nat (T - m + k) :: ix)).
  { intros c Hc q Hq. destruct (@F2_nth _ _ _ _ _ _ _ _ Hz (nth_error_nth' x d Hc) Hq) as (S & V). cbv zeta in *. rewrite (Hs (nth c x d)) in S, V by (apply nth_In; exact Hc). cbn [nth tl] in S, V. split; [exact S | exact V]. }
  assert (Sh : forall q, In q z -> shp q = s ++ [m]) by (intros q Hq; destruct (In_nth_error _ _ Hq) as (c & Hc); assert (c < length z)%nat by (apply nth_error_Some; congruence); apply (Hz' c ltac:(lia) q Hc)).
  destruct z as [|z0 zs] eqn:E0; [destruct x; [congruence | discriminate Lz]|]. rewrite <- E0 in *.
  assert (Em : map (fun a => [a]) z = [z0] :: map (fun a => [a]) zs) by (rewrite E0; reflexivity). unfold concat_along_axis. rewrite Em. rewrite <- Em. clear Em.
  assert (F1 : forallb (fun t' : list (arr A) => (length t' =? length [z0])%nat) (map (fun a => [a]) z) = true) by (apply forallb_forall; intros t Ht; apply in_map_iff in Ht; destruct Ht as (q & <- & _); reflexivity).
  rewrite F1. cbn [length seq mapM]. rewrite (@mapM_Ok _ _ (leaf 0) (fun t => match t with a :: _ => a | [] => z0 end)) by (intros t Ht; apply in_map_iff in Ht; destruct Ht as (q & <- & _); reflexivity).
  cbn [bind]. rewrite map_map, map_id.
  assert (Ec : concatenate z (-1) = Ok (mkarr (s ++ [(length z * m)%nat]) (concat_lines (length s) z z0))).
  { unfold concatenate. rewrite E0. rewrite <- E0. pose proof (Sh z0 ltac:(rewrite E0; left; reflexivity)) as S0. unfold ndim at 1. rewrite S0, (denotes_norm (last_axis s m)). cbn [bind].
    match goal with |- context [forallb ?f z] => assert (Fb : forallb f z = true); [|rewrite Fb] end.
    2:{ f_equal. rewrite upd_app. f_equal. f_equal. f_equal. clear - Sh. induction z as [|a l IH]; [reflexivity|]. cbn [map fold_right length Nat.mul]. rewrite (Sh a (or_introl eq_refl)), nth_app_last. rewrite IH by (intros; apply Sh; right; auto). reflexivity. }
    apply forallb_forall. intros b Hb. unfold ndim. rewrite (Sh b Hb), S0, Nat.eqb_refl. cbn [andb]. apply forallb_forall. intros j _. rewrite Nat.eqb_refl. apply orb_true_r. }
  rewrite Ec. cbn [bind leaf nth_error]. eexists. split; [reflexivity|]. cbn [shp get]. split; [rewrite Lz; reflexivity|]. intros c k ix Hc Hk Hix. pose proof (inb_length _ _ Hix) as Li.
  assert (G : forall l c, (c < length l)%nat -> (forall q, In q l -> shp q = s ++ [m]) -> concat_lines (length s) l z0 (ix ++ [Z.of_nat (c * m + k)]) = get (nth c l z0) (ix ++ [Z.of_nat k])).
  { induction l as [|q l IH]; intros c' Hc' Hl; [cbn in Hc'; lia|]. cbn [concat_lines]. rewrite (Hl q (or_introl eq_refl)), nth_app_last. rewrite <- Li at 1. rewrite nth_app_last. destruct c' as [|c'].
    - cbn [Nat.mul Nat.add nth]. destruct (Z.ltb_spec (Z.of_nat k) (Z.of_nat m)); [reflexivity | lia].
    - destruct (Z.ltb_spec (Z.of_nat (S c' * m + k)) (Z.of_nat m)); [lia|]. rewrite <- Li at 2. rewrite <- Li at 2. rewrite upd_app, nth_app_last. replace (Z.of_nat (S c' * m + k) - Z.of_nat m) with (Z.of_nat (c' * m + k)) by lia. cbn [nth]. apply IH; [cbn in Hc'; lia | intros; apply Hl; right; auto]. }
  rewrite G by (try exact Sh; lia). destruct (Hz' c Hc (nth c z z0)) as (_ & V); [apply nth_error_nth'; lia|]. apply V.
Qed.
(* @ex *)
Lemma stack_last_n_state_encoder_spec_ex_lem : (forall a, In a [enc_a; enc_a] -> shp a = [2%nat; 3%nat]) /\ match stack_last_n_state_encoder 5 0 [enc_a; enc_a] with Ok p => shp p = [3%nat; 4%nat] /\ map (get p) [[2; 0]; [2; 1]; [2; 3]] = [2; 12; 12] | _ => False end.
Proof. split; [intros a [<- | [<- | []]]; reflexivity | vm_compute; auto]. Qed.
(* @prop C63 The slicing encoders refuse (ValueError) inputs without any array and inputs whose arrays have different ranks, for every time axis and n. *)
Lemma slice_encoders_refuse_lem : forall (A : Type) n time_axis (x : list (arr A)),
  (x = [] \/ exists a b, In a x /\ In b x /\ ndim a <> ndim b) ->
  slice_last_state_encoder time_axis x = Err EValue /\ slice_last_n_state_encoder n time_axis x = Err EValue /\ stack_last_n_state_encoder n time_axis x = Err EValue.
Proof.
  intros A n t x H. assert (E : same_dims x = false).
  { destruct H as [-> |(a & b & Ha & Hb & N)]; [reflexivity|]. unfold same_dims. destruct x as [|c l]; [reflexivity|]. destruct (forallb (fun b0 => (ndim b0 =? ndim c)%nat) l) eqn:F; [|reflexivity].
    exfalso. apply N. rewrite forallb_forall in F. assert (K : forall d, In d (c :: l) -> ndim d = ndim c) by (intros d [<- |Hd]; [reflexivity | apply Nat.eqb_eq, F, Hd]). rewrite (K a Ha), (K b Hb). reflexivity. }
  unfold slice_last_state_encoder, slice_last_n_state_encoder, stack_last_n_state_encoder, slice_along_axis. rewrite E. repeat split; reflexivity.
Qed.
(* @ex *)
Lemma slice_encoders_refuse_ex_lem : In enc_a [enc_a; mkarr [5%nat] (fun _ => 0)] /\ In (mkarr [5%nat] (fun _ => 0)) [enc_a; mkarr [5%nat] (fun _ => 0)] /\ ndim enc_a <> ndim (mkarr [5%nat] (fun _ => 0)).
Proof. split; [left; reflexivity|]. split; [right; left; reflexivity | vm_compute; lia]. Qed.
