(** * Properties of shift and pad along periodic axes (boundaries.py) *)
From Verif Require Import Prelude NdArr Grids_model Spec Boundaries_model BoundariesPeriodic FD_model PRep.
Set Implicit Arguments.

Lemma periodic_axis_btype b ax : periodic_axis b ax -> btype b ax = (Periodic, Periodic).
Proof. unfold periodic_axis, btype. intros H. apply nth_error_nth; auto. Qed.

Lemma perbc_axis g b ax : perbc g b -> (ax < gndim g)%nat -> periodic_axis b ax.
Proof.
  intros H Hax. unfold periodic_axis. rewrite H.
  rewrite nth_error_nth' with (d := (Periodic, Periodic)) by (rewrite repeat_length; auto).
  rewrite nth_repeat' by auto. reflexivity.
Qed.

Lemma shift_wf b u k ax mode : wf_garr u -> (ax < gndim (ggrid u))%nat -> periodic_axis b ax ->
  exists w, bc_shift b u k ax mode = Ok w /\
    is_field w (ggrid u) (offs ax (inject_Z k) (goff u))
      (fun ix => get (gdata u) (upd ax ((nth ax ix 0 + k) mod Z.of_nat (nth ax (gshape (ggrid u)) 0%nat))%Z ix)).
Proof.
  intros (Hw & Hs & Ho) Hax Hb. apply periodic_axis_btype in Hb.
  destruct (@prep_shift (ggrid u) (goff u) (pval u) b u k ax mode) as (w & E & H); auto.
  - rewrite <- Hs. apply periodic_pval.
  - apply prep_pval; auto.
  - exists w; split; auto. eapply prep_ext; [|exact H]. intros ix Hi. simpl.
    unfold pval, shiftix. rewrite Hs, wrap_upd', (wrap_inb _ _ Hi). reflexivity.
Qed.

(* @prop C05 Along a periodic axis shift(k) never raises; the result has the same grid and shape, the offset moved by k on that axis only, and entry ix is the old entry at (ix + k) mod n along the axis. Every shift k, padding mode, offset, data; other axes may have any boundary condition. *)
Lemma shift_is_cyclic_lem : forall b u k ax mode,
  wf_garr u -> (ax < gndim (ggrid u))%nat -> periodic_axis b ax ->
  exists w, bc_shift b u k ax mode = Ok w /\
    is_field w (ggrid u) (offs ax (inject_Z k) (goff u))
      (fun ix => get (gdata u) (upd ax ((nth ax ix 0 + k) mod Z.of_nat (nth ax (gshape (ggrid u)) 0%nat))%Z ix)).
Proof. intros; apply shift_wf; auto. Qed.
(* @ex *)
Lemma shift_is_cyclic_ex_lem :
  let g := mkgrid [3%nat; 2%nat] [1%R; 1%R] [(0%R, 3%R); (0%R, 2%R)] in
  let u := mkga (mkarr [3%nat; 2%nat] (fun ix => IZR (nth 0 ix 0 * 10 + nth 1 ix 0)%Z)) [(1 # 2)%Q; 1%Q] g in
  wf_garr u /\ periodic_axis (homogeneous [(Periodic, Periodic); (Dirichlet, Neumann)]) 0 /\
  exists w, bc_shift (homogeneous [(Periodic, Periodic); (Dirichlet, Neumann)]) u (-7) 0 EXTEND = Ok w /\
            get (gdata w) [0%Z; 1%Z] = 21%R.
Proof.
  intros g u. assert (Hu : wf_garr u) by (repeat split; repeat constructor; (lia || lra)).
  split; auto. split; [reflexivity|].
  destruct (@shift_wf (homogeneous [(Periodic, Periodic); (Dirichlet, Neumann)]) u (-7) 0 EXTEND Hu) as (w & E & (_ & _ & _ & D));
    [unfold gndim; simpl; lia | reflexivity |].
  exists w. split; [exact E|]. rewrite D by (simpl; lia). reflexivity.
Qed.

Lemma is_field_wf w g o f : wfg g -> length o = gndim g -> is_field w g o f -> wf_garr w.
Proof.
  intros Hw Ho (A & B & C & D). subst g. repeat split; try apply Hw; auto. rewrite (off_eq_length B). auto.
Qed.

(* @prop C06 Along a periodic axis, shift(a) then shift(b) is shift(a+b) (data, offset and grid), for all integers a, b. *)
Lemma shift_compose_lem : forall b u i j ax mode1 mode2 mode3,
  wf_garr u -> (ax < gndim (ggrid u))%nat -> periodic_axis b ax ->
  exists w1 w2 w3,
    bc_shift b u i ax mode1 = Ok w1 /\ bc_shift b w1 j ax mode2 = Ok w2 /\
    bc_shift b u (i + j) ax mode3 = Ok w3 /\ same_field w2 w3.
Proof.
  intros b u i j ax m1 m2 m3 Hu Hax Hb.
  destruct (@shift_wf b u i ax m1 Hu Hax Hb) as (w1 & E1 & H1).
  assert (Hw1 : wf_garr w1).
  { eapply is_field_wf; [apply Hu | | exact H1]. rewrite offs_length. apply Hu. }
  pose proof H1 as (G1 & O1 & S1 & D1).
  destruct (@shift_wf b w1 j ax m2 Hw1) as (w2 & E2 & (G2 & O2 & S2 & D2)); [rewrite G1; auto | auto |].
  destruct (@shift_wf b u (i + j) ax m3 Hu Hax Hb) as (w3 & E3 & (G3 & O3 & S3 & D3)).
  exists w1, w2, w3. repeat split; auto; try congruence.
  - eapply off_eq_trans; [exact O2|]. eapply off_eq_trans; [|apply off_eq_sym; exact O3].
    eapply off_eq_trans; [apply off_eq_offs; [exact O1 | reflexivity]|].
    eapply off_eq_trans; [apply offs_offs|]. apply off_eq_offs; [apply off_eq_refl|]. rewrite inject_Z_plus. reflexivity.
  - intros ix Hi. rewrite S2 in Hi. rewrite D2 by auto. rewrite G1 in *.
    set (n := nth ax (gshape (ggrid u)) 0%nat) in *.
    assert (Hn : (0 < n)%nat) by (apply allpos_nth; [apply Hu | auto]).
    rewrite D1 by (apply inb_upd_same; auto; fold n; apply Z.mod_pos_bound; lia).
    rewrite D3 by auto. fold n.
    rewrite nth_upd_same by (rewrite (inb_length _ _ Hi); auto).
    rewrite upd_upd_same. f_equal. f_equal. rewrite Zplus_mod_idemp_l. f_equal. lia.
Qed.
(* @ex *)
Lemma shift_compose_ex_lem :
  wf_garr (mkga (mkarr [3%nat] (fun ix => IZR (nth 0 ix 0%Z))) [1%Q] (mkgrid [3%nat] [1%R] [(0%R, 3%R)])) /\
  (0 < gndim (mkgrid [3%nat] [1%R] [(0%R, 3%R)]))%nat /\ periodic_axis (periodic_bc 1) 0.
Proof. split; [repeat split; repeat constructor; (lia || lra)|]. split; [unfold gndim; simpl; lia | reflexivity]. Qed.

(* @prop C06 shift(k) then shift(-k) returns the original field. *)
Lemma shift_inverse_lem : forall b u k ax mode1 mode2,
  wf_garr u -> (ax < gndim (ggrid u))%nat -> periodic_axis b ax ->
  exists w1 w2, bc_shift b u k ax mode1 = Ok w1 /\ bc_shift b w1 (- k) ax mode2 = Ok w2 /\ same_field w2 u.
Proof.
  intros b u k ax m1 m2 Hu Hax Hb.
  destruct (@shift_compose_lem b u k (- k) ax m1 m2 m1 Hu Hax Hb) as (w1 & w2 & w3 & E1 & E2 & E3 & S).
  exists w1, w2. split; auto. split; auto. rewrite Z.add_opp_diag_r in E3.
  destruct (@shift_wf b u 0 ax m1 Hu Hax Hb) as (w & E & (G & O & Sh & D)).
  rewrite E in E3. injection E3 as <-. destruct S as (SG & SO & SA). split; [congruence|]. split.
  - eapply off_eq_trans; [exact SO|]. eapply off_eq_trans; [exact O|]. apply offs_0.
  - eapply aeq_trans; [exact SA|]. destruct Hu as (Hw & Hs & Ho). split; [congruence|]. intros ix Hi.
    rewrite Sh in Hi. rewrite D by auto. rewrite Z.add_0_r.
    rewrite Z.mod_small by (apply inb_nth; auto). rewrite upd_nth_same. reflexivity.
Qed.
(* @ex *)
Lemma shift_inverse_ex_lem :
  wf_garr (mkga (mkarr [3%nat] (fun ix => IZR (nth 0 ix 0%Z))) [1%Q] (mkgrid [3%nat] [1%R] [(0%R, 3%R)])) /\
  periodic_axis (periodic_bc 1) 0.
Proof. split; [repeat split; repeat constructor; (lia || lra) | reflexivity]. Qed.

(* @prop C06 Shifts along two periodic axes commute. *)
Lemma shift_commute_lem : forall b u i j ax bx mode1 mode2 mode3 mode4,
  wf_garr u -> (ax < gndim (ggrid u))%nat -> (bx < gndim (ggrid u))%nat ->
  periodic_axis b ax -> periodic_axis b bx ->
  exists w1 w2 w3 w4,
    bc_shift b u i ax mode1 = Ok w1 /\ bc_shift b w1 j bx mode2 = Ok w2 /\
    bc_shift b u j bx mode3 = Ok w3 /\ bc_shift b w3 i ax mode4 = Ok w4 /\ same_field w2 w4.
Proof.
  assert (Hcore : forall b u i j ax bx m1 m2, wf_garr u -> (ax < gndim (ggrid u))%nat -> (bx < gndim (ggrid u))%nat ->
    periodic_axis b ax -> periodic_axis b bx ->
    exists w1 w2, bc_shift b u i ax m1 = Ok w1 /\ bc_shift b w1 j bx m2 = Ok w2 /\
      is_field w2 (ggrid u) (offs bx (inject_Z j) (offs ax (inject_Z i) (goff u)))
        (fun ix => pval u (shiftix ax i (shiftix bx j ix)))).
  { intros b u i j ax bx m1 m2 (Hw & Hs & Ho) Hax Hbx Ha Hb.
    apply periodic_axis_btype in Ha. apply periodic_axis_btype in Hb.
    assert (HF : periodic (gshape (ggrid u)) (pval u)) by (rewrite <- Hs; apply periodic_pval).
    destruct (@prep_shift (ggrid u) (goff u) (pval u) b u i ax m1) as (w1 & E1 & H1); auto; [apply prep_pval; auto|].
    destruct (@prep_shift (ggrid u) (offs ax (inject_Z i) (goff u)) (fun ix => pval u (shiftix ax i ix)) b w1 j bx m2)
      as (w2 & E2 & H2); auto.
    - apply periodic_shift; auto.
    - rewrite offs_length; auto.
    - exists w1, w2; auto. }
  intros b u i j ax bx m1 m2 m3 m4 Hu Hax Hbx Ha Hb.
  destruct (@Hcore b u i j ax bx m1 m2) as (w1 & w2 & E1 & E2 & (G2 & O2 & S2 & D2)); auto.
  destruct (@Hcore b u j i bx ax m3 m4) as (w3 & w4 & E3 & E4 & (G4 & O4 & S4 & D4)); auto.
  exists w1, w2, w3, w4. repeat split; auto; try congruence.
  - eapply off_eq_trans; [exact O2|]. eapply off_eq_trans; [apply offs_comm|]. apply off_eq_sym; auto.
  - intros ix Hi. rewrite S2 in Hi. rewrite D2, D4 by auto. rewrite shiftix_comm. reflexivity.
Qed.
(* @ex *)
Lemma shift_commute_ex_lem :
  let g := mkgrid [3%nat; 2%nat] [1%R; 1%R] [(0%R, 3%R); (0%R, 2%R)] in
  wf_garr (mkga (mkarr [3%nat; 2%nat] (fun ix => IZR (nth 0 ix 0 * 10 + nth 1 ix 0)%Z)) [(1 # 2)%Q; 1%Q] g) /\
  periodic_axis (periodic_bc 2) 0 /\ periodic_axis (periodic_bc 2) 1.
Proof. simpl. split; [repeat split; repeat constructor; (lia || lra) | split; reflexivity]. Qed.

(** ** Padding *)
Lemma subix_length L ix : length (subix L ix) = length ix.
Proof. unfold subix. rewrite map_length, seq_length. reflexivity. Qed.
Lemma subix_nth L ix a : (a < length ix)%nat -> nth a (subix L ix) 0%Z = (nth a ix 0 - L a)%Z.
Proof. intros H. unfold subix. rewrite nth_map_seq by auto. reflexivity. Qed.
Lemma subix_upd L ax i ix : subix L (upd ax i ix) = upd ax (i - L ax)%Z (subix L ix).
Proof.
  apply (list_ext_nth 0%Z); [rewrite !upd_length, !subix_length, upd_length; reflexivity|].
  intros k Hk. rewrite subix_length, upd_length in Hk. rewrite subix_nth by (rewrite upd_length; auto).
  destruct (Nat.eq_dec k ax) as [->|Hne].
  - rewrite !nth_upd_same by (rewrite ?subix_length; auto). reflexivity.
  - rewrite !nth_upd_other by auto. rewrite subix_nth by auto. reflexivity.
Qed.
Lemma subix_0 ix : subix (fun _ => 0%Z) ix = ix.
Proof.
  apply (list_ext_nth 0%Z); [apply subix_length|]. intros k Hk. rewrite subix_length in Hk.
  rewrite subix_nth by auto. lia.
Qed.

(** Cells a padding request adds below and above. *)
Definition pad_lo (w : padwidth) : Z := match w with WInt k => Z.max 0 (- k) | WPair lo _ => lo end.
Definition pad_hi (w : padwidth) : Z := match w with WInt k => Z.max 0 k | WPair _ hi => hi end.
(** Cells a history of requests [(axis, width)] has added on axis [a]. *)
Definition hist_lo (h : list (nat * padwidth)) (a : nat) : Z :=
  fold_right (fun op s => if (fst op =? a)%nat then (pad_lo (snd op) + s)%Z else s) 0%Z h.
Definition hist_hi (h : list (nat * padwidth)) (a : nat) : Z :=
  fold_right (fun op s => if (fst op =? a)%nat then (pad_hi (snd op) + s)%Z else s) 0%Z h.

(** [w] is the window of the periodic extension of [u] with [L a] more cells below and [H a] above on axis [a]. *)
Definition extension_window (u w : garr) (L H : nat -> Z) : Prop :=
  let d := gndim (ggrid u) in
  ggrid w = ggrid u /\
  off_eq (goff w) (map (fun a => (nth a (goff u) 0 - inject_Z (L a))%Q) (seq 0 d)) /\
  shp (gdata w) = map (fun a => Z.to_nat (L a + Z.of_nat (nth a (gshape (ggrid u)) 0%nat) + H a)) (seq 0 d) /\
  forall ix, inb (shp (gdata w)) ix -> get (gdata w) ix = pval u (subix L ix).

Lemma pad__window b u w L H k ax mode :
  wf_garr u -> (ax < gndim (ggrid u))%nat -> periodic_axis b ax ->
  (forall a, (0 <= L a)%Z /\ (0 <= H a)%Z) ->
  extension_window u w L H ->
  exists w', bc_pad_ b w k ax mode = Ok w' /\
    extension_window u w' (fun a => if (ax =? a)%nat then (L a + Z.max 0 (- k))%Z else L a)
                          (fun a => if (ax =? a)%nat then (H a + Z.max 0 k)%Z else H a).
Proof.
  intros (Hw & Hs & Ho) Hax Hb Hpos (G & O & S & D).
  pose proof (periodic_axis_btype Hb) as Hbt.
  assert (Hlen : length (shp (gdata w)) = gndim (ggrid u)) by (rewrite S, map_length, seq_length; auto).
  assert (Hn : (0 < nth ax (gshape (ggrid u)) 0%nat)%nat) by (apply allpos_nth; [apply Hw | auto]).
  assert (Hus : ushape w ax = Z.to_nat (L ax + Z.of_nat (nth ax (gshape (ggrid u)) 0%nat) + H ax)).
  { unfold ushape. rewrite S. rewrite nth_map_seq by auto. reflexivity. }
  assert (Hgs : gshp w ax = nth ax (gshape (ggrid u)) 0%nat) by (unfold gshp; rewrite G; auto).
  assert (Hol : length (goff w) = gndim (ggrid u)) by (rewrite (off_eq_length O), map_length, seq_length; auto).
  destruct (@pad_periodic b w k ax mode (fun ix => pval u (subix L ix)) 0%Z) as (w' & E & G' & O' & S' & D').
  - rewrite G; auto.
  - rewrite Hlen; auto.
  - auto.
  - rewrite Hus, Hgs. specialize (Hpos ax). lia.
  - intros ix i. rewrite !subix_upd. unfold pval. rewrite Hs, !wrap_upd', Hgs. f_equal. f_equal.
    rewrite Zminus_mod_idemp_l. reflexivity.
  - intros ix Hi. rewrite shiftix_0. apply D; auto.
  - exists w'. split; [exact E|]. split; [congruence|]. split; [|split].
    + rewrite O'. apply off_eq_intro; [rewrite upd_length, map_length, seq_length; auto|].
      intros a Ha. rewrite upd_length in Ha. rewrite nth_map_seq by lia.
      pose proof (off_eq_nth a O) as Oa. rewrite nth_map_seq in Oa by lia.
      destruct (Nat.eqb_spec ax a) as [->|Hne].
      * rewrite nth_upd_same by auto. unfold offat. rewrite Oa. rewrite inject_Z_plus. ring.
      * rewrite nth_upd_other by auto. exact Oa.
    + rewrite S'. apply (list_ext_nth 0%nat); [rewrite upd_length, map_length, seq_length; auto|].
      intros a Ha. rewrite upd_length in Ha. rewrite nth_map_seq by lia.
      destruct (Nat.eqb_spec ax a) as [->|Hne].
      * rewrite nth_upd_same by auto. rewrite Hus. specialize (Hpos a). lia.
      * rewrite nth_upd_other by auto. rewrite S, nth_map_seq by lia. reflexivity.
    + intros ix Hi. rewrite D' by auto. f_equal.
      assert (Hli : length ix = gndim (ggrid u)).
      { rewrite (inb_length _ _ Hi), S', upd_length; auto. }
      apply (list_ext_nth 0%Z); [rewrite !subix_length, shiftix_length; auto|].
      intros a Ha. rewrite subix_length, shiftix_length in Ha. rewrite !subix_nth by (rewrite ?shiftix_length; auto).
      unfold shiftix. destruct (Nat.eqb_spec ax a) as [->|Hne].
      * rewrite nth_upd_same by auto. lia.
      * rewrite nth_upd_other by auto. reflexivity.
Qed.

Lemma window_ext u w L H L' H' : (forall a, L a = L' a) -> (forall a, H a = H' a) ->
  extension_window u w L H -> extension_window u w L' H'.
Proof.
  intros HL HH. assert (L = L') as <- by (apply functional_extensionality; auto).
  assert (H = H') as <- by (apply functional_extensionality; auto). auto.
Qed.

Lemma pad_window b u w L H pw ax mode :
  wf_garr u -> (ax < gndim (ggrid u))%nat -> periodic_axis b ax ->
  (forall a, (0 <= L a)%Z /\ (0 <= H a)%Z) -> (0 <= pad_lo pw)%Z -> (0 <= pad_hi pw)%Z ->
  extension_window u w L H ->
  exists w', bc_pad b w pw ax mode = Ok w' /\
    extension_window u w' (fun a => if (ax =? a)%nat then (L a + pad_lo pw)%Z else L a)
                          (fun a => if (ax =? a)%nat then (H a + pad_hi pw)%Z else H a).
Proof.
  intros Hu Hax Hb Hpos Hlo Hhi Hwin. unfold bc_pad.
  assert (Hal : is_aligned b w ax = Ok tt).
  { unfold is_aligned. rewrite (periodic_axis_btype Hb). cbn [fst snd isNeu isDir bctype_eqb andb].
    destruct Hwin as (G & _ & S & _). unfold ushape, gshp. rewrite S, nth_map_seq by auto. rewrite G.
    specialize (Hpos ax). destruct (Z.ltb_spec (Z.of_nat (Z.to_nat (L ax + Z.of_nat (nth ax (gshape (ggrid u)) 0%nat) + H ax))
      - Z.of_nat (nth ax (gshape (ggrid u)) 0%nat) + 0 + 0) 0); [lia | reflexivity]. }
  rewrite Hal. cbn [bind]. destruct pw as [k|lo hi]; cbn [pad_lo pad_hi] in *.
  - apply pad__window; auto.
  - destruct (@pad__window b u w L H (- lo) ax mode) as (w1 & E1 & H1); auto. rewrite E1. cbn [bind].
    edestruct (@pad__window b u w1) as (w2 & E2 & H2); [exact Hu | exact Hax | exact Hb | | exact H1 |].
    + intros a. specialize (Hpos a). cbv beta. destruct (Nat.eqb_spec ax a); lia.
    + exists w2. split; [exact E2|]. eapply window_ext; [| |exact H2]; intros a; cbv beta; simpl fst; simpl snd; destruct (Nat.eqb_spec ax a); lia.
Qed.

(* @prop C07 Any history of pads (any axes, any widths, any order) of a variable with periodic axes succeeds and yields exactly the window of the periodic extension of the original data with the total number of cells added below/above on each axis; the offset is lowered by the number of cells added below. *)
Lemma pads_are_periodic_extension_lem : forall b u mode h,
  wf_garr u -> perbc (ggrid u) b ->
  Forall (fun op => (fst op < gndim (ggrid u))%nat /\ (0 <= pad_lo (snd op))%Z /\ (0 <= pad_hi (snd op))%Z) h ->
  exists w, foldM (fun v op => bc_pad b v (snd op) (fst op) mode) u h = Ok w /\
            extension_window u w (hist_lo h) (hist_hi h).
Proof.
  intros b u mode h Hu Hb Hh.
  assert (Hgen : forall w L H, (forall a, (0 <= L a)%Z /\ (0 <= H a)%Z) -> extension_window u w L H ->
    exists w', foldM (fun v op => bc_pad b v (snd op) (fst op) mode) w h = Ok w' /\
      extension_window u w' (fun a => L a + hist_lo h a)%Z (fun a => H a + hist_hi h a)%Z).
  { induction Hh as [|[ax pw] h (Hax & Hlo & Hhi) HF IH]; intros w L H Hpos Hwin; simpl in *.
    - exists w; split; auto. eapply window_ext; [| |exact Hwin]; intros; simpl; lia.
    - destruct (@pad_window b u w L H pw ax mode) as (w1 & E1 & H1); auto; [eapply perbc_axis; eauto|].
      rewrite E1. cbn [bind]. edestruct (IH w1) as (w2 & E2 & H2); [| exact H1 |].
      + intros a. specialize (Hpos a). cbv beta. destruct (Nat.eqb_spec ax a); lia.
      + exists w2; split; [exact E2|]. eapply window_ext; [| |exact H2]; intros a; cbv beta; simpl fst; simpl snd; destruct (Nat.eqb_spec ax a); lia. }
  destruct (Hgen u (fun _ => 0%Z) (fun _ => 0%Z)) as (w & E & H); [intros; lia | |].
  - destruct Hu as (Hw & Hs & Ho). repeat split; auto.
    + apply off_eq_intro; [rewrite map_length, seq_length; auto|]. intros k Hk.
      rewrite nth_map_seq by lia. change (inject_Z 0) with 0%Q. ring.
    + apply (list_ext_nth 0%nat); [rewrite map_length, seq_length, Hs; auto|].
      intros k Hk. rewrite nth_map_seq by (rewrite Hs in Hk; auto). rewrite Hs. lia.
    + intros ix Hi. rewrite subix_0. unfold pval. rewrite wrap_inb by auto. reflexivity.
  - exists w; split; auto.
Qed.
(* @ex *)
Lemma pads_are_periodic_extension_ex_lem :
  let u := mkga (mkarr [3%nat] (fun ix => IZR (nth 0 ix 0%Z))) [1%Q] (mkgrid [3%nat] [1%R] [(0%R, 3%R)]) in
  exists w, foldM (fun v op => bc_pad (periodic_bc 1) v (snd op) (fst op) EXTEND) u
     [(0%nat, WPair 2 1); (0%nat, WInt (-5)); (0%nat, WInt 2)] = Ok w /\
  shp (gdata w) = [13%nat] /\ get (gdata w) [0%Z] = 2%R /\ get (gdata w) [12%Z] = 2%R /\ get (gdata w) [7%Z] = 0%R.
Proof.
  intros u. destruct (@pads_are_periodic_extension_lem (periodic_bc 1) u EXTEND [(0%nat, WPair 2 1); (0%nat, WInt (-5)); (0%nat, WInt 2)])
    as (w & E & (_ & _ & S & D)).
  - repeat split; repeat constructor; (lia || lra).
  - reflexivity.
  - repeat constructor; simpl; lia.
  - exists w. split; [exact E|]. rewrite S in D. split; [rewrite S; reflexivity|].
    split; [|split]; rewrite D by (cbn; lia); reflexivity.
Qed.

(* @prop C07 Special case, one pad: pad((lo, hi), axis) appends lo and hi cells; works when only that axis is periodic. *)
Lemma pad_is_periodic_extension_lem : forall b u lo hi ax mode,
  wf_garr u -> (ax < gndim (ggrid u))%nat -> periodic_axis b ax -> (0 <= lo)%Z -> (0 <= hi)%Z ->
  exists w, bc_pad b u (WPair lo hi) ax mode = Ok w /\ ggrid w = ggrid u /\
    off_eq (goff w) (offs ax (- inject_Z lo) (goff u)) /\
    shp (gdata w) = upd ax (Z.to_nat (lo + Z.of_nat (nth ax (gshape (ggrid u)) 0%nat) + hi)) (gshape (ggrid u)) /\
    forall ix, inb (shp (gdata w)) ix ->
      get (gdata w) ix = get (gdata u) (upd ax ((nth ax ix 0 - lo) mod Z.of_nat (nth ax (gshape (ggrid u)) 0%nat))%Z ix).
Proof.
  intros b u lo hi ax mode Hu Hax Hb Hlo Hhi.
  destruct (@pad_window b u u (fun _ => 0%Z) (fun _ => 0%Z) (WPair lo hi) ax mode) as (w & E & (G & O & S & D)); auto.
  - intros; lia.
  - destruct Hu as (Hw & Hs & Ho). repeat split; auto.
    + apply off_eq_intro; [rewrite map_length, seq_length; auto|]. intros k Hk.
      rewrite nth_map_seq by lia. change (inject_Z 0) with 0%Q. ring.
    + apply (list_ext_nth 0%nat); [rewrite map_length, seq_length, Hs; auto|].
      intros k Hk. rewrite nth_map_seq by (rewrite Hs in Hk; auto). rewrite Hs. lia.
    + intros ix Hi. rewrite subix_0. unfold pval. rewrite wrap_inb by auto. reflexivity.
  - destruct Hu as (Hw & Hs & Ho).
    assert (Ssh : shp (gdata w) = upd ax (Z.to_nat (lo + Z.of_nat (nth ax (gshape (ggrid u)) 0%nat) + hi)) (gshape (ggrid u))).
    { rewrite S. apply (list_ext_nth 0%nat); [rewrite map_length, seq_length, upd_length; auto|].
      intros k Hk. rewrite map_length, seq_length in Hk. rewrite nth_map_seq by auto. simpl.
      destruct (Nat.eqb_spec ax k) as [->|Hne]; [rewrite nth_upd_same by auto; lia | rewrite nth_upd_other by auto; lia]. }
    exists w. split; auto. split; auto. split; [|split; auto].
    + eapply off_eq_trans; [exact O|]. apply off_eq_intro; [rewrite map_length, seq_length, offs_length; auto|].
      intros k Hk. rewrite map_length, seq_length in Hk. rewrite nth_map_seq by auto. simpl. unfold offs.
      destruct (Nat.eqb_spec ax k) as [->|Hne].
      * rewrite nth_upd_same by lia. simpl. ring.
      * rewrite nth_upd_other by auto. change (inject_Z 0) with 0%Q. ring.
    + intros ix Hi. rewrite D by auto. unfold pval. rewrite Hs. f_equal. simpl.
      rewrite Ssh in Hi. set (n := nth ax (gshape (ggrid u)) 0%nat) in *.
      assert (Hn : (0 < n)%nat) by (apply allpos_nth; [apply Hw | auto]).
      assert (HL : length ix = gndim (ggrid u)) by (rewrite (inb_length _ _ Hi), upd_length; auto).
      apply (list_ext_nth 0%Z); [rewrite wrap_length, upd_length by (rewrite subix_length; auto); auto|].
      intros k Hk. rewrite wrap_length in Hk by (rewrite subix_length; auto). fold (gndim (ggrid u)) in Hk.
      rewrite wrap_nth by (try rewrite subix_length; auto). rewrite subix_nth by lia.
      destruct (Nat.eqb_spec ax k) as [->|Hne].
      * rewrite nth_upd_same by lia. fold n. f_equal. 
      * rewrite nth_upd_other by auto. rewrite Z.sub_0_r. apply Z.mod_small.
        pose proof (@inb_nth _ _ k Hi) as Hk2. rewrite upd_length, nth_upd_other in Hk2 by auto. apply Hk2; auto.
Qed.
(* @ex *)
Lemma pad_is_periodic_extension_ex_lem :
  let g := mkgrid [3%nat; 2%nat] [1%R; 1%R] [(0%R, 3%R); (0%R, 2%R)] in
  let u := mkga (mkarr [3%nat; 2%nat] (fun ix => IZR (nth 0 ix 0 * 10 + nth 1 ix 0)%Z)) [(1 # 2)%Q; 1%Q] g in
  exists w, bc_pad (channel_flow_bc 2 None) u (WPair 4 0) 0 EXTEND = Ok w /\ get (gdata w) [0%Z; 1%Z] = 21%R.
Proof.
  intros g u.
  destruct (@pad_is_periodic_extension_lem (channel_flow_bc 2 None) u 4 0 0%nat EXTEND) as (w & E & _ & _ & S & D);
    [repeat split; repeat constructor; (lia || lra) | unfold gndim; simpl; lia | reflexivity | lia | lia |].
  exists w. split; [exact E|]. rewrite D by (rewrite S; cbn; lia). reflexivity.
Qed.
