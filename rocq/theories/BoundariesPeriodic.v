(** * Proofs about padding and shifting along a periodic axis *)
From Verif Require Import Prelude NdArr Grids_model Boundaries_model.
Set Implicit Arguments.

(** [F] does not change when the coordinate on [ax] moves by whole periods. *)
Definition axper (ax n : nat) (F : list Z -> R) : Prop :=
  forall ix i, F (upd ax (i mod Z.of_nat n)%Z ix) = F (upd ax i ix).

Lemma axper_congr ax n F ix i j : (0 < n)%nat -> axper ax n F ->
  (i mod Z.of_nat n = j mod Z.of_nat n)%Z -> F (upd ax i ix) = F (upd ax j ix).
Proof. intros Hn HF H. rewrite <- (HF ix i), <- (HF ix j), H. reflexivity. Qed.

(** ** [_trim] *)
Lemma bc_trim_spec u w ax :
  (Z.abs w <= Z.of_nat (ushape u ax))%Z ->
  bc_trim u w ax =
    Ok (mkga (axmap ax (Z.to_nat (Z.of_nat (ushape u ax) - Z.abs w))
                    (fun f j => f (j + Z.max 0 (- w))%Z) (gdata u))
             (upd ax (offat u ax + inject_Z (Z.max 0 (- w)))%Q (goff u)) (ggrid u)).
Proof.
  intros H. unfold bc_trim, slice_in_dim.
  destruct (Z.ltb_spec w 0) as [Hw|Hw]; simpl fst; simpl snd.
  - replace (Z.max 0 (- w)) with (- w)%Z by lia.
    fold (ushape u ax). rewrite Z.sub_0_r.
    replace (0 <=? - w)%Z with true by (symmetry; apply Z.leb_le; lia).
    replace (- w <=? Z.of_nat (ushape u ax))%Z with true by (symmetry; apply Z.leb_le; lia).
    rewrite Z.leb_refl. simpl.
    replace (Z.abs w) with (- w)%Z by lia. reflexivity.
  - replace (Z.max 0 (- w)) with 0%Z by lia.
    fold (ushape u ax).
    replace (0 <=? Z.of_nat (ushape u ax) - w)%Z with true by (symmetry; apply Z.leb_le; lia).
    replace (Z.of_nat (ushape u ax) - w <=? Z.of_nat (ushape u ax))%Z with true by (symmetry; apply Z.leb_le; lia).
    simpl. replace (Z.abs w) with w by lia. rewrite Z.sub_0_r. reflexivity.
Qed.

Lemma nonneg_ceiling q : Qle 0 q -> (0 <= Qceiling q)%Z.
Proof.
  intros H. pose proof (Qle_ceiling q) as Hc.
  assert (Hz : Qle (inject_Z 0) (inject_Z (Qceiling q))) by (eapply Qle_trans; [exact H | exact Hc]).
  rewrite <- Zle_Qle in Hz. exact Hz.
Qed.

(** Result of trimming a periodic window: exactly one period remains. *)
Lemma trim_padding_periodic b u ax :
  btype b ax = (Periodic, Periodic) ->
  (ax < length (shp (gdata u)))%nat ->
  (gshp u ax <= ushape u ax)%nat ->
  exists t1 t2 u',
    (0 <= t1)%Z /\ (0 <= t2)%Z /\ (t1 + t2 = Z.of_nat (ushape u ax) - Z.of_nat (gshp u ax))%Z /\
    trim_padding b u ax Both = Ok (u', (t1, t2)) /\
    ggrid u' = ggrid u /\
    shp (gdata u') = upd ax (gshp u ax) (shp (gdata u)) /\
    forall ix, (ax < length ix)%nat -> get (gdata u') ix = get (gdata u) (shiftix ax t1 ix).
Proof.
  intros Hb Hax Hs.
  assert (Hoff : forall q, Qle_bool q 0 = true -> (0 <= Qceiling (- q))%Z).
  { intros q Hq. apply nonneg_ceiling. apply Qle_bool_iff in Hq.
    rewrite <- (Qopp_opp 0). apply Qopp_le_compat. exact Hq. }
  unfold trim_padding.
  replace (gshp u ax <=? ushape u ax)%nat with true by (symmetry; apply Nat.leb_le; lia).
  cbv iota.
  set (nn := (Z.of_nat (ushape u ax) - Z.of_nat (gshp u ax))%Z).
  (* left part *)
  assert (HL : exists t1 ul,
    (0 <= t1 <= nn)%Z /\
    (if Qle_bool (offat u ax) 0 && true then
       let* u' := bc_trim u (neg_trim b u ax) ax in Ok (u', neg_trim b u ax)
     else Ok (u, 0%Z)) = Ok (ul, (- t1)%Z) /\
    ggrid ul = ggrid u /\
    shp (gdata ul) = upd ax (Z.to_nat (Z.of_nat (ushape u ax) - t1)) (shp (gdata u)) /\
    forall ix, (ax < length ix)%nat -> get (gdata ul) ix = get (gdata u) (shiftix ax t1 ix)).
  { destruct (Qle_bool (offat u ax) 0) eqn:Ho; simpl andb; cbv iota zeta.
    - exists (- neg_trim b u ax)%Z. unfold neg_trim. rewrite Hb. simpl isPer. cbv iota.
      set (c := Qceiling (- offat u ax)). assert (Hc : (0 <= c)%Z) by (apply Hoff; auto).
      set (nt := Z.max (- c) (Z.of_nat (gshp u ax) - Z.of_nat (ushape u ax))).
      assert (Hnt : (- nn <= nt <= 0)%Z) by (unfold nt, nn; lia).
      rewrite bc_trim_spec by lia. simpl bind.
      eexists; split; [lia|]. split; [rewrite Z.opp_involutive; reflexivity|].
      split; [reflexivity|]. simpl. split; [f_equal; f_equal; lia|].
      intros ix Hix. unfold shiftix. replace (Z.max 0 (- nt)) with (- nt)%Z by lia. reflexivity.
    - exists 0%Z, u. split; [unfold nn; lia|]. split; [reflexivity|]. split; [reflexivity|].
      split.
      + rewrite Z.sub_0_r, Nat2Z.id. unfold ushape. rewrite upd_nth_same. reflexivity.
      + intros ix Hix. rewrite shiftix_0. reflexivity. }
  destruct HL as (t1 & ul & Ht1 & Eq & Hg & Hsh & Hget).
  rewrite Eq. simpl bind. cbv zeta.
  assert (Hul : ushape ul ax = Z.to_nat (Z.of_nat (ushape u ax) - t1)).
  { unfold ushape at 1. rewrite Hsh. rewrite nth_upd_same by auto. reflexivity. }
  assert (Hgl : gshp ul ax = gshp u ax) by (unfold gshp; rewrite Hg; reflexivity).
  unfold pos_trim. rewrite Hb. simpl isPer. cbv iota.
  rewrite Hul, Hgl.
  set (t2 := Z.max (Z.of_nat (Z.to_nat (Z.of_nat (ushape u ax) - t1)) - Z.of_nat (gshp u ax)) 0%Z).
  assert (Ht2 : t2 = (nn - t1)%Z) by (unfold t2, nn in *; lia).
  exists t1, t2. destruct (Z.ltb_spec 0 t2) as [Hpos|Hnpos].
  - rewrite bc_trim_spec by (rewrite Hul; unfold nn in *; lia).
    eexists; split; [lia|]. split; [lia|]. split; [unfold nn in *; lia|].
    split; [simpl; rewrite Z.opp_involutive; reflexivity|].
    simpl. split; [exact Hg|]. split.
    + rewrite Hsh, upd_upd_same, Hul. f_equal. unfold nn in *; lia.
    + intros ix Hix. replace (Z.max 0 (- t2)) with 0%Z by lia. rewrite Z.add_0_r.
      rewrite upd_nth_same. apply Hget; auto.
  - exists ul. split; [lia|]. split; [lia|]. split; [unfold nn in *; lia|].
    split; [simpl; rewrite Z.opp_involutive; reflexivity|].
    split; [exact Hg|]. split.
    + rewrite Hsh. f_equal. unfold nn in *; lia.
    + exact Hget.
Qed.

(** [jnp.pad(mode='wrap')] reads the source modulo its length. *)
Lemma pad1_wrap n lo f j : (0 < n)%nat -> pad1 NpWrap n lo f j = f ((j - lo) mod Z.of_nat n)%Z.
Proof.
  intros Hn. unfold pad1. destruct ((0 <=? j - lo) && (j - lo <? Z.of_nat n))%Z eqn:E; [|reflexivity].
  apply andb_true_iff in E. destruct E as [E1 E2]. apply Z.leb_le in E1. apply Z.ltb_lt in E2.
  rewrite Z.mod_small by lia. reflexivity.
Qed.

Lemma np_pad_wrap a ax lo hi : (0 <= lo)%Z -> (0 <= hi)%Z -> (0 < nth ax (shp a) 0%nat)%nat ->
  np_pad a ax (lo, hi) NpWrap =
  Ok (axmap ax (Z.to_nat (lo + Z.of_nat (nth ax (shp a) 0%nat) + hi)) (pad1 NpWrap (nth ax (shp a) 0%nat) lo) a).
Proof.
  intros Hlo Hhi Hn. unfold np_pad.
  replace (lo <? 0)%Z with false by (symmetry; apply Z.ltb_ge; lia).
  replace (hi <? 0)%Z with false by (symmetry; apply Z.ltb_ge; lia).
  simpl orb. cbv iota.
  replace (nth ax (shp a) 0 =? 0)%nat with false by (symmetry; apply Nat.eqb_neq; lia).
  reflexivity.
Qed.

(** ** Padding a window of a periodic line gives a bigger window of the same line. *)
Lemma pad_periodic b u k ax mode F c :
  (ax < gndim (ggrid u))%nat ->
  (ax < length (shp (gdata u)))%nat ->
  btype b ax = (Periodic, Periodic) ->
  (0 < gshp u ax <= ushape u ax)%nat ->
  axper ax (gshp u ax) F ->
  (forall ix, inb (shp (gdata u)) ix -> get (gdata u) ix = F (shiftix ax c ix)) ->
  exists w, bc_pad_ b u k ax mode = Ok w /\
    ggrid w = ggrid u /\
    goff w = upd ax (offat u ax - inject_Z (Z.max 0 (- k)))%Q (goff u) /\
    shp (gdata w) = upd ax (ushape u ax + Z.to_nat (Z.abs k))%nat (shp (gdata u)) /\
    forall ix, inb (shp (gdata w)) ix -> get (gdata w) ix = F (shiftix ax (c - Z.max 0 (- k)) ix).
Proof.
  intros Hd Hax Hb Hs HF Hget.
  destruct (trim_padding_periodic b u Hb Hax) as (t1 & t2 & u' & Ht1 & Ht2 & Hsum & Etp & Hg' & Hsh' & Hget'); [lia|].
  unfold bc_pad_.
  replace (ax <? gndim (ggrid u))%nat with true by (symmetry; apply Nat.ltb_lt; auto).
  simpl negb. cbv iota.
  assert (Hn : nth ax (shp (gdata u')) 0%nat = gshp u ax) by (rewrite Hsh'; apply nth_upd_same; auto).
  assert (Hgen : forall lo hi, (0 <= lo)%Z -> (0 <= hi)%Z ->
    exists data, np_pad (gdata u') ax ((lo + t1)%Z, (hi + t2)%Z) NpWrap = Ok data /\
      shp data = upd ax (ushape u ax + Z.to_nat (lo + hi))%nat (shp (gdata u)) /\
      forall ix, inb (shp data) ix -> get data ix = F (shiftix ax (c - lo) ix)).
  { intros lo hi Hlo Hhi. rewrite np_pad_wrap by (rewrite ?Hn; lia).
    eexists; split; [reflexivity|]. simpl. rewrite Hn. split.
    - rewrite Hsh', upd_upd_same. f_equal. lia.
    - intros ix Hix. rewrite pad1_wrap by lia.
      assert (HaxL : (ax < length ix)%nat).
      { rewrite (inb_length _ _ Hix), upd_length, Hsh', upd_length. auto. }
      rewrite Hget' by (rewrite upd_length; auto).
      set (m := ((nth ax ix 0 - (lo + t1)) mod Z.of_nat (gshp u ax))%Z).
      assert (Hm : (0 <= m < Z.of_nat (gshp u ax))%Z) by (apply Z.mod_pos_bound; lia).
      unfold shiftix at 1. rewrite nth_upd_same by auto. rewrite upd_upd_same.
      rewrite Hget.
      2:{ rewrite Hsh', upd_upd_same in Hix.
          eapply inb_upd_inv; [exact Hix | auto |]. unfold ushape in *. lia. }
      unfold shiftix. rewrite nth_upd_same by auto. rewrite upd_upd_same.
      apply axper_congr with (n := gshp u ax); [lia | auto |].
      unfold m.
      replace ((nth ax ix 0 - (lo + t1)) mod Z.of_nat (gshp u ax) + t1 + c)%Z
        with ((nth ax ix 0 - (lo + t1)) mod Z.of_nat (gshp u ax) + (t1 + c))%Z by lia.
      rewrite Zplus_mod_idemp_l. f_equal. lia. }
  destruct (Z.ltb_spec k 0) as [Hk|Hk]; rewrite Hb; cbn [fst snd isPer bctype_eqb]; cbv iota zeta; rewrite Etp;
    cbn [bind fst snd].
  - destruct (Hgen (- k)%Z 0%Z) as (data & E & Hsd & Hgd); [lia | lia |].
    rewrite E. simpl. eexists; split; [reflexivity|]. simpl.
    split; [auto|]. replace (Z.max 0 (- k)) with (- k)%Z by lia. split; [reflexivity|].
    split; [rewrite Hsd; f_equal; lia | exact Hgd].
  - destruct (Hgen 0%Z k) as (data & E & Hsd & Hgd); [lia | lia |].
    rewrite E. simpl. eexists; split; [reflexivity|]. simpl.
    split; [auto|]. replace (Z.max 0 (- k)) with 0%Z by lia. split; [reflexivity|].
    split; [rewrite Hsd; f_equal; lia | exact Hgd].
Qed.

(** ** Shifting a window of a periodic line moves the window. *)
Lemma shift_periodic b u k ax mode F c :
  (ax < gndim (ggrid u))%nat ->
  (ax < length (shp (gdata u)))%nat ->
  (ax < length (goff u))%nat ->
  btype b ax = (Periodic, Periodic) ->
  (0 < gshp u ax <= ushape u ax)%nat ->
  axper ax (gshp u ax) F ->
  (forall ix, inb (shp (gdata u)) ix -> get (gdata u) ix = F (shiftix ax c ix)) ->
  exists w, bc_shift b u k ax mode = Ok w /\
    ggrid w = ggrid u /\
    off_eq (goff w) (upd ax (offat u ax + inject_Z k)%Q (goff u)) /\
    shp (gdata w) = shp (gdata u) /\
    forall ix, inb (shp (gdata w)) ix -> get (gdata w) ix = F (shiftix ax (c + k) ix).
Proof.
  intros Hd Hax Hol Hb Hs HF Hget.
  destruct (@pad_periodic b u k ax mode F c Hd Hax Hb Hs HF Hget) as (w & Ew & Hgw & How & Hsw & Hgetw).
  unfold bc_shift. rewrite Ew. simpl bind.
  assert (Huw : ushape w ax = (ushape u ax + Z.to_nat (Z.abs k))%nat).
  { unfold ushape at 1. rewrite Hsw. apply nth_upd_same; auto. }
  rewrite bc_trim_spec by (rewrite Huw; lia).
  eexists; split; [reflexivity|]. simpl. split; [auto|].
  split; [|split].
  - unfold offat at 1. rewrite How. rewrite nth_upd_same by auto. rewrite upd_upd_same.
    rewrite !Z.opp_involutive.
    apply Forall2_intro_nth with (da := 0%Q) (db := 0%Q); [rewrite !upd_length; reflexivity|].
    intros j Hj. rewrite upd_length in Hj.
    destruct (Nat.eq_dec j ax) as [->|Hne].
    + rewrite !nth_upd_same by auto.
      destruct (Z_lt_le_dec k 0) as [Hk|Hk].
      * replace (Z.max 0 (- k)) with (- k)%Z by lia. replace (Z.max 0 k) with 0%Z by lia.
        rewrite inject_Z_opp. change (inject_Z 0) with 0%Q. ring.
      * replace (Z.max 0 (- k)) with 0%Z by lia. replace (Z.max 0 k) with k by lia.
        change (inject_Z 0) with 0%Q. ring.
    + rewrite !nth_upd_other by auto. reflexivity.
  - rewrite Hsw, upd_upd_same, Huw.
    replace (Z.to_nat _) with (ushape u ax) by lia.
    unfold ushape. apply upd_nth_same.
  - intros ix Hix.
    assert (HaxL : (ax < length ix)%nat).
    { rewrite (inb_length _ _ Hix), upd_length, Hsw, upd_length. auto. }
    assert (Hin : (0 <= nth ax ix 0 < Z.of_nat (ushape u ax))%Z).
    { pose proof (@inb_nth _ _ ax Hix) as Hnn. rewrite upd_length, Hsw, upd_length in Hnn.
      specialize (Hnn Hax). rewrite nth_upd_same in Hnn by (rewrite upd_length; auto).
      rewrite Huw in Hnn. lia. }
    rewrite Hgetw.
    + unfold shiftix. rewrite nth_upd_same by auto. rewrite upd_upd_same.
      f_equal. f_equal. lia.
    + eapply inb_upd_inv; [exact Hix | rewrite Hsw, upd_length; auto |].
      rewrite Hsw, nth_upd_same by auto. lia.
Qed.
