(** * Property C11: trim_boundary undoes padding *)
From Verif Require Import Prelude NdArr Grids_model Spec Boundaries_model BoundariesPeriodic WallBC PRep PeriodicBCProps WallBCProps ImposeProps.
From Coq Require Lqa.
Set Implicit Arguments.
Local Open Scope Z_scope.

Definition z01 (x : bool) : Z := if x then 1 else 0.
Definition istop (e : option (bool * R)) : bool := match e with Some (true, _) => true | _ => false end.

(** A slice of [u] along [ax]: [t1] cells removed below, [t2] above. *)
Definition slice_of (u w : garr) (ax : nat) (t1 t2 : Z) : Prop :=
  ggrid w = ggrid u /\ off_eq (goff w) (upd ax (offat u ax + inject_Z t1)%Q (goff u)) /\
  shp (gdata w) = upd ax (Z.to_nat (Z.of_nat (ushape u ax) - t1 - t2)) (shp (gdata u)) /\
  forall ix, (ax < length ix)%nat -> get (gdata w) ix = get (gdata u) (shiftix ax t1 ix).

Lemma slice_refl u ax : slice_of u u ax 0 0.
Proof.
  split; [reflexivity|]. split; [|split].
  - rewrite <- (upd_nth_same ax 0%Q (goff u)) at 1. apply off_upd_eq. unfold offat. change (inject_Z 0) with 0%Q. ring.
  - rewrite !Z.sub_0_r, Nat2Z.id. unfold ushape. rewrite upd_nth_same. reflexivity.
  - intros. rewrite shiftix_0. reflexivity.
Qed.

Lemma bc_trim_slice u w ax : (Z.abs w <= Z.of_nat (ushape u ax))%Z ->
  exists r, bc_trim u w ax = Ok r /\ slice_of u r ax (Z.max 0 (- w)) (Z.max 0 w).
Proof.
  intros H. rewrite bc_trim_spec by auto. eexists; split; [reflexivity|].
  split; [reflexivity|]. cbn [goff gdata shp axmap get]. split; [apply off_upd_eq; reflexivity|].
  split; [f_equal; f_equal; lia|]. intros. reflexivity.
Qed.

Lemma slice_compose u v w ax t1 t2 s1 s2 : (ax < length (shp (gdata u)))%nat -> (ax < length (goff u))%nat ->
  0 <= t1 -> 0 <= t2 -> 0 <= s1 -> 0 <= s2 -> t1 + t2 + s1 + s2 <= Z.of_nat (ushape u ax) ->
  slice_of u v ax t1 t2 -> slice_of v w ax s1 s2 -> slice_of u w ax (t1 + s1) (t2 + s2).
Proof.
  intros Hl Hl2 H1 H2 H3 H4 H5 (A1 & A2 & A3 & A4) (B1 & B2 & B3 & B4).
  assert (Hv : ushape v ax = Z.to_nat (Z.of_nat (ushape u ax) - t1 - t2)).
  { unfold ushape at 1. rewrite A3, nth_upd_same by auto. reflexivity. }
  assert (Hlv : length (goff v) = length (goff u)) by (rewrite (off_eq_length A2); apply upd_length).
  split; [congruence|]. split; [|split].
  - eapply off_eq_trans; [exact B2|].
    apply Forall2_intro_nth with (da := 0%Q) (db := 0%Q); [rewrite !upd_length; auto|].
    rewrite upd_length. intros k Hk.
    pose proof (@Forall2_nth' _ _ _ _ _ k 0%Q 0%Q A2 Hk) as HA.
    destruct (Nat.eq_dec k ax) as [->|Hne].
    + rewrite !nth_upd_same in * by lia. unfold offat at 1. rewrite HA, inject_Z_plus. ring.
    + rewrite !nth_upd_other in * by auto. auto.
  - rewrite B3, Hv, A3, upd_upd_same. f_equal. f_equal. lia.
  - intros ix Hix. rewrite B4, A4 by (rewrite ?shiftix_length; auto). rewrite shiftix_add. f_equal.
Qed.

(** ** Padded arrays.  [th] is the offset before padding. *)
Definition eb b u a := z01 (isbot (edge_side b (goff u) a)).
Definition et b u a := z01 (istop (edge_side b (goff u) a)).

Lemma z01_nonneg x : 0 <= z01 x <= 1.
Proof. destruct x; simpl; lia. Qed.

Lemma inject_le a c : (inject_Z a <= inject_Z c)%Q <-> a <= c.
Proof. rewrite Zle_Qle. tauto. Qed.

Lemma ceil_unique q z : (inject_Z z - 1 < q)%Q -> (q <= inject_Z z)%Q -> Qceiling q = z.
Proof.
  intros H1 H2. assert (Qceiling q <= z).
  { apply Qceiling_resp_le in H2. rewrite Qceiling_Z in H2. exact H2. }
  assert (H3 := Qle_ceiling q). assert (z - 1 < Qceiling q); [|lia].
  rewrite Zlt_Qlt. unfold Z.sub. rewrite inject_Z_plus. change (inject_Z (- (1))) with (- (1))%Q. Lqa.lra.
Qed.

(** Amount trimmed below. *)
Lemma neg_amount b u r a L N H :
  trimmable_axis b u a ->
  (offat r a == nth a (goff u) 0 - inject_Z L)%Q -> 0 <= L -> 0 <= H ->
  gshp r a = N -> (0 < N)%nat -> Z.of_nat (ushape r a) = L + Z.of_nat N + H ->
  (if Qle_bool (offat r a) 0 then neg_trim b r a else 0) = - (L + eb b u a).
Proof.
  intros Ht Ho HL HH Hg HN Hs.
  assert (HLq : (0 <= inject_Z L)%Q) by (change 0%Q with (inject_Z 0); apply inject_le; auto).
  destruct Ht as [[Hp Hth]|[[Hc (t1 & t2 & Hbt & Hn1 & Hn2)]|He]].
  - assert (Eb : eb b u a = 0).
    { unfold eb, edge_side. unfold periodic_axis in Hp. rewrite Hp. reflexivity. }
    rewrite Eb. apply periodic_axis_btype in Hp.
    destruct (Qle_bool (offat r a) 0) eqn:E.
    + unfold neg_trim. rewrite Hp. cbn [fst isPer bctype_eqb].
      rewrite (@ceil_unique (- offat r a) L); [lia | rewrite Ho; Lqa.lra | rewrite Ho; Lqa.lra].
    + assert (~ (offat r a <= 0)%Q). { intros Hx. apply Qle_bool_iff in Hx. congruence. }
      destruct (Z.eq_dec L 0) as [->|Hne]; [reflexivity|]. exfalso. apply H0.
      assert (1 <= inject_Z L)%Q by (change 1%Q with (inject_Z 1); apply inject_le; lia).
      rewrite Ho. Lqa.lra.
  - assert (Hbt' : btype b a = (t1, t2)) by (unfold btype; apply nth_error_nth; auto).
    assert (Hnp : isPer t1 = false) by (destruct t1; auto; congruence).
    unfold centred in Hc.
    assert (Ho' : (offat r a == (1 # 2) - inject_Z L)%Q) by (rewrite Ho, Hc; reflexivity).
    assert (Eb : eb b u a = 0).
    { unfold eb, edge_side. rewrite Hbt. destruct t1, t2; auto.
      destruct (nth_error (bvals b) a) as [[[x|] [y|]]|]; auto.
      assert (Hq : forall q, ~ (1 # 2 == q)%Q -> Qeq_bool (nth a (goff u) 0%Q) q = false).
      { intros q Hnq. destruct (Qeq_bool _ q) eqn:Eq; auto. apply Qeq_bool_iff in Eq. rewrite Hc in Eq. contradiction. }
      rewrite !Hq by (intro; discriminate). reflexivity. }
    rewrite Eb. destruct (Qle_bool (offat r a) 0) eqn:E.
    + unfold neg_trim. rewrite Hbt'. cbn [fst]. rewrite Hnp, (half_not_int Ho').
      rewrite (@ceil_unique (- offat r a) L); [lia | rewrite Ho'; Lqa.lra | rewrite Ho'; Lqa.lra].
    + assert (~ (offat r a <= 0)%Q). { intros Hx. apply Qle_bool_iff in Hx. congruence. }
      destruct (Z.eq_dec L 0) as [->|Hne]; [reflexivity|]. exfalso. apply H0.
      assert (1 <= inject_Z L)%Q by (change 1%Q with (inject_Z 1); apply inject_le; lia).
      rewrite Ho'. Lqa.lra.
  - destruct (edge_side b (goff u) a) as [[s v]|] eqn:E; [|congruence].
    unfold eb. rewrite E.
    destruct (edge_side_inv _ _ _ E) as (Hb & (lo & hi & Hbv & Hvv) & Hoff).
    assert (Hz : (offat r a == inject_Z ((if s then 1 else 0) - L))%Q).
    { rewrite Ho, Hoff. unfold Z.sub. rewrite inject_Z_plus, inject_Z_opp. destruct s; reflexivity. }
    destruct (Qle_bool (offat r a) 0) eqn:E2.
    + unfold neg_trim. rewrite Hb. cbn [fst isPer bctype_eqb].
      rewrite (int_isclose Hz).
      rewrite (@Qceiling_comp (- offat r a) (inject_Z (- ((if s then 1 else 0) - L)))) by (rewrite Hz, inject_Z_opp; reflexivity).
      rewrite Qceiling_Z. destruct s; cbn [isbot istop z01] in *; lia.
    + assert (Hlt : ~ (offat r a <= 0)%Q). { intros Hx. apply Qle_bool_iff in Hx. congruence. }
      rewrite Hz in Hlt. change 0%Q with (inject_Z 0) in Hlt. rewrite inject_le in Hlt.
      destruct s; simpl; lia.
Qed.

(** Amount trimmed above; [r] may already have been trimmed below. *)
Lemma pos_amount b u r a L N H :
  trimmable_axis b u a ->
  (offat r a == nth a (goff u) 0 - inject_Z L)%Q -> 0 <= H ->
  gshp r a = N -> (0 < N)%nat -> Z.of_nat (ushape r a) = L + Z.of_nat N + H ->
  (periodic_axis b a -> L = 0) ->
  pos_trim b r a = H + et b u a.
Proof.
  intros Ht Ho HH Hg HN Hs HLp.
  unfold pos_trim. rewrite Hg.
  assert (Hlast : (inject_Z (Z.of_nat (ushape r a)) + offat r a - 1 ==
                   inject_Z (Z.of_nat N) + inject_Z H + nth a (goff u) 0 - 1)%Q).
  { rewrite Ho, Hs, !inject_Z_plus. ring. }
  assert (HHq : (0 <= inject_Z H)%Q) by (change 0%Q with (inject_Z 0); apply inject_le; auto).
  set (last := (inject_Z (Z.of_nat (ushape r a)) + offat r a - 1)%Q) in *.
  destruct Ht as [[Hp Hth]|[[Hc (t1 & t2 & Hbt & Hn1 & Hn2)]|He]].
  - assert (Eb : et b u a = 0).
    { unfold et, edge_side. unfold periodic_axis in Hp. rewrite Hp. reflexivity. }
    rewrite Eb. rewrite (periodic_axis_btype Hp). cbn [snd isPer bctype_eqb].
    specialize (HLp Hp). lia.
  - assert (Hbt' : btype b a = (t1, t2)) by (unfold btype; apply nth_error_nth; auto).
    assert (Hnp : isPer t2 = false) by (destruct t2; auto; congruence).
    unfold centred in Hc.
    assert (Ho' : (offat r a == (1 # 2) - inject_Z L)%Q) by (rewrite Ho, Hc; reflexivity).
    assert (Eb : et b u a = 0).
    { unfold et, edge_side. rewrite Hbt. destruct t1, t2; auto.
      destruct (nth_error (bvals b) a) as [[[x|] [y|]]|]; auto.
      assert (Hq : forall q, ~ (1 # 2 == q)%Q -> Qeq_bool (nth a (goff u) 0%Q) q = false).
      { intros q Hnq. destruct (Qeq_bool _ q) eqn:Eq; auto. apply Qeq_bool_iff in Eq. rewrite Hc in Eq. contradiction. }
      rewrite !Hq by (intro; discriminate). reflexivity. }
    rewrite Eb, Hbt'. cbn [snd]. rewrite Hnp, (half_not_int Ho'), andb_false_r.
    rewrite Hc in Hlast. destruct (Qle_bool _ last) eqn:E.
    + rewrite (@ceil_unique (last - inject_Z (Z.of_nat N)) H); [lia | rewrite Hlast; Lqa.lra | rewrite Hlast; Lqa.lra].
    + destruct (Z.eq_dec H 0) as [->|Hne]; [reflexivity|]. exfalso.
      assert (1 <= inject_Z H)%Q by (change 1%Q with (inject_Z 1); apply inject_le; lia).
      assert (Hx : (inject_Z (Z.of_nat N) <= last)%Q) by (rewrite Hlast; Lqa.lra).
      apply Qle_bool_iff in Hx. congruence.
  - destruct (edge_side b (goff u) a) as [[s v]|] eqn:E; [|congruence].
    unfold et. rewrite E.
    destruct (edge_side_inv _ _ _ E) as (Hb & (lo & hi & Hbv & Hvv) & Hoff).
    assert (Hz : (offat r a == inject_Z ((if s then 1 else 0) - L))%Q).
    { rewrite Ho, Hoff. unfold Z.sub. rewrite inject_Z_plus, inject_Z_opp. destruct s; reflexivity. }
    rewrite Hb. cbn [snd isPer isDir bctype_eqb]. rewrite (int_isclose Hz). cbn [andb].
    rewrite Hoff in Hlast.
    assert (Hlast2 : (last == inject_Z (Z.of_nat N + H + (if s then 0 else -1)))%Q).
    { rewrite Hlast, !inject_Z_plus. destruct s; [change (inject_Z 0) with 0%Q | change (inject_Z (-1)) with (- (1))%Q]; ring. }
    destruct (Qle_bool _ last) eqn:E2.
    + rewrite (@Qceiling_comp _ (inject_Z (H + (if s then 0 else -1)))).
      * rewrite Qceiling_Z. destruct s; simpl; lia.
      * rewrite Hlast2, !inject_Z_plus. ring.
    + assert (Hlt : ~ (inject_Z (Z.of_nat N) <= last)%Q). { intros Hx. apply Qle_bool_iff in Hx. congruence. }
      rewrite Hlast2, inject_le in Hlt. destruct s; simpl; lia.
Qed.

Lemma eb_et b u a : 0 <= eb b u a /\ 0 <= et b u a /\ eb b u a + et b u a <= 1.
Proof.
  unfold eb, et. destruct (edge_side _ _ _) as [[[] v]|]; simpl; lia.
Qed.

Lemma eb_per b u a : periodic_axis b a -> eb b u a = 0 /\ et b u a = 0.
Proof. unfold eb, et, edge_side, periodic_axis. intros ->. auto. Qed.

(** [_trim_padding] of a padded axis. *)
Lemma trim_padded b u r a L N H side :
  trimmable_axis b u a ->
  (a < length (shp (gdata r)))%nat -> (a < length (goff r))%nat ->
  (offat r a == nth a (goff u) 0 - inject_Z L)%Q -> 0 <= L -> 0 <= H ->
  gshp r a = N -> (0 < N)%nat -> Z.of_nat (ushape r a) = L + Z.of_nat N + H ->
  (periodic_axis b a -> side = Both) ->
  let t1 := match side with RightSide => 0 | _ => L + eb b u a end in
  let t2 := match side with LeftSide => 0 | _ => H + et b u a end in
  exists w, trim_padding b r a side = Ok (w, (t1, t2)) /\ slice_of r w a t1 t2.
Proof.
  intros Ht Hl1 Hl2 Ho HL HH Hg HN Hs Hper t1 t2.
  pose proof (eb_et b u a) as (Hb1 & Hb2 & Hb3).
  unfold trim_padding.
  replace (gshp r a <=? ushape r a)%nat with true by (symmetry; apply Nat.leb_le; lia).
  pose proof (@neg_amount b u r a L N H Ht Ho HL HH Hg HN Hs) as Hneg.
  assert (Hleft : exists w1,
    (if Qle_bool (offat r a) 0 && (match side with RightSide => false | _ => true end)
     then let* u' := bc_trim r (neg_trim b r a) a in Ok (u', neg_trim b r a)
     else Ok (r, 0)) = Ok (w1, - t1) /\ slice_of r w1 a t1 0).
  { destruct (Qle_bool (offat r a) 0) eqn:E.
    - destruct side; cbn [andb]; cbv zeta; unfold t1.
      + rewrite Hneg. destruct (@bc_trim_slice r (- (L + eb b u a)) a) as (w1 & E1 & S1); [lia|].
        rewrite E1. cbn [bind]. exists w1. split; [reflexivity|].
        replace (Z.max 0 (- - (L + eb b u a))) with (L + eb b u a) in S1 by lia.
        replace (Z.max 0 (- (L + eb b u a))) with 0 in S1 by lia. exact S1.
      + rewrite Hneg. destruct (@bc_trim_slice r (- (L + eb b u a)) a) as (w1 & E1 & S1); [lia|].
        rewrite E1. cbn [bind]. exists w1. split; [reflexivity|].
        replace (Z.max 0 (- - (L + eb b u a))) with (L + eb b u a) in S1 by lia.
        replace (Z.max 0 (- (L + eb b u a))) with 0 in S1 by lia. exact S1.
      + exists r. split; [reflexivity | apply slice_refl].
    - cbn [andb]. assert (Hz : L + eb b u a = 0) by lia.
      exists r. unfold t1. destruct side; rewrite ?Hz; (split; [reflexivity | apply slice_refl]). }
  destruct Hleft as (w1 & E1 & S1). rewrite E1. cbn [bind]. cbv zeta.
  assert (Ht1 : 0 <= t1) by (unfold t1; destruct side; lia).
  assert (Ht1b : t1 <= L + eb b u a) by (unfold t1; destruct side; lia).
  pose proof S1 as (Sg & So & Ss & Sget).
  assert (Hus1 : Z.of_nat (ushape w1 a) = L + Z.of_nat N + H - t1).
  { unfold ushape. rewrite Ss, nth_upd_same by auto. unfold ushape in *. lia. }
  assert (Hoff1 : (offat w1 a == nth a (goff u) 0 - inject_Z (L - t1))%Q).
  { unfold offat. rewrite (@Forall2_nth' _ _ _ _ _ a 0%Q 0%Q So) by (rewrite (off_eq_length So), upd_length; auto).
    rewrite nth_upd_same by auto. rewrite Ho. unfold Z.sub. rewrite inject_Z_plus, inject_Z_opp. ring. }
  assert (Hgs1 : gshp w1 a = N) by (unfold gshp in *; rewrite Sg; exact Hg).
  assert (Ept : match side with LeftSide => 0 | _ => pos_trim b w1 a end = t2).
  { assert (Hpp : side <> LeftSide -> pos_trim b w1 a = H + et b u a).
    { intros Hside. apply (@pos_amount b u w1 a (L - t1) N H); auto; [lia|].
      intros Hp. unfold t1. rewrite (Hper Hp). destruct (eb_per u Hp) as [-> _]. lia. }
    unfold t2. destruct side; auto; apply Hpp; discriminate. }
  rewrite Ept. rewrite Z.opp_involutive.
  assert (Ht2 : 0 <= t2) by (unfold t2; destruct side; lia).
  assert (Ht2b : t2 <= H + et b u a) by (unfold t2; destruct side; lia).
  destruct (Z.ltb_spec 0 t2) as [Hp|Hp].
  - destruct (@bc_trim_slice w1 t2 a) as (w & E2 & S2); [lia|]. rewrite E2. cbn [bind].
    exists w. split; [reflexivity|].
    replace (Z.max 0 (- t2)) with 0 in S2 by lia. replace (Z.max 0 t2) with t2 in S2 by lia.
    rewrite <- (Z.add_0_r t1), <- (Z.add_0_l t2).
    eapply slice_compose; [exact Hl1 | exact Hl2 | | | | | | exact S1 | exact S2]; try lia.
  - cbn [bind]. exists w1. assert (t2 = 0) as Hz by lia. rewrite Hz. split; [reflexivity | exact S1].
Qed.

(** ** Padding keeps everything but the trimmed cells *)
Lemma np_pad_keeps a ax lo hi m d : (ax < length (shp a))%nat -> 0 <= lo -> 0 <= hi -> np_pad a ax (lo, hi) m = Ok d ->
  shp d = upd ax (Z.to_nat (lo + Z.of_nat (nth ax (shp a) 0%nat) + hi)) (shp a) /\
  forall ix, lo <= nth ax ix 0 < lo + Z.of_nat (nth ax (shp a) 0%nat) -> get d ix = get a (upd ax (nth ax ix 0 - lo) ix).
Proof.
  intros Hax Hlo Hhi H.
  assert (E : d = axmap ax (Z.to_nat (lo + Z.of_nat (nth ax (shp a) 0%nat) + hi)) (pad1 m (nth ax (shp a) 0%nat) lo) a).
  { unfold np_pad in H. destruct (_ || _); [discriminate|].
    destruct m; try (injection H as <-; reflexivity); destruct (_ =? _)%nat; try discriminate; injection H as <-; reflexivity. }
  subst d. split; [reflexivity|]. intros ix Hj. cbn [get axmap]. rewrite pad1_in by lia. reflexivity.
Qed.

Lemma pad_dirichlet_keeps b u ax lo hi mode d : (ax < length (shp (gdata u)))%nat -> 0 <= lo -> 0 <= hi ->
  pad_dirichlet b u ax (lo, hi) mode = Ok d ->
  shp d = upd ax (Z.to_nat (lo + Z.of_nat (ushape u ax) + hi)) (shp (gdata u)) /\
  forall ix, (ax < length ix)%nat -> lo <= nth ax ix 0 < lo + Z.of_nat (ushape u ax) -> get d ix = get (gdata u) (upd ax (nth ax ix 0 - lo) ix).
Proof.
  intros Hax Hlo Hhi H.
  assert (Hss : forall (m m' : npmode) (r : arr R), (let* p := np_pad (gdata u) ax (lo, hi) m in
                let* q := np_pad (gdata u) ax (lo, hi) m' in Ok (scal_sub p q)) = Ok r ->
     shp r = upd ax (Z.to_nat (lo + Z.of_nat (ushape u ax) + hi)) (shp (gdata u)) /\
     forall ix, (ax < length ix)%nat -> lo <= nth ax ix 0 < lo + Z.of_nat (ushape u ax) -> get r ix = get (gdata u) (upd ax (nth ax ix 0 - lo) ix)).
  { intros m m' r Hr. apply bind_Ok_inv in Hr. destruct Hr as (p & Hp & Hr).
    apply bind_Ok_inv in Hr. destruct Hr as (q & Hq & Hr). injection Hr as <-.
    apply np_pad_keeps in Hp; auto. apply np_pad_keeps in Hq; auto. destruct Hp as [P1 P2], Hq as [Q1 Q2].
    split; [exact P1|]. intros ix _ Hj. cbn [get scal_sub amap2]. rewrite P2, Q2 by exact Hj. ring. }
  unfold pad_dirichlet in H. cbn [fst snd] in H.
  destruct (isclose _ (1 # 2)) eqn:E1.
  - match type of H with (match ?x with MIRROR => _ | EXTEND => _ | PadOther => _ end) = _ => destruct x end; try discriminate;
      apply bind_Ok_inv in H; destruct H as (cm & _ & H); eapply Hss; exact H.
  - destruct (isclose _ 0) eqn:E2; [|discriminate].
    destruct (_ || _) eqn:E3.
    + apply bind_Ok_inv in H; destruct H as (cm & _ & H). apply np_pad_keeps in H; auto.
      destruct H as [P1 P2]. split; auto.
    + destruct (Z.ltb_spec 1 (lo + hi)) as [Hlt|Hge].
      * destruct mode; try discriminate.
        -- apply bind_Ok_inv in H; destruct H as (ex & Hex & H).
           destruct (bval b ax) as [[vlo|] [vhi|]]; try discriminate.
           destruct (forallb _ _); [|discriminate].
           apply bind_Ok_inv in H. destruct H as (p & Hp & H).
           apply bind_Ok_inv in H. destruct H as (q & Hq & H). injection H as <-.
           apply np_pad_keeps in Hp; auto. destruct Hp as [P1 P2].
           assert (Hone : forall w : Z, 0 <= w -> 0 <= (if 0 <? w then 1 else 0) /\ 0 <= (if 0 <? w then w - 1 else 0) /\
              (if 0 <? w then 1 else 0) + (if 0 <? w then w - 1 else 0) = w).
           { intros w Hw. destruct (Z.ltb_spec 0 w); lia. }
           destruct (Hone lo Hlo) as (A1 & A2 & A3). destruct (Hone hi Hhi) as (B1 & B2 & B3).
           apply np_pad_keeps in Hex; auto. destruct Hex as [X1 X2].
           apply np_pad_keeps in Hq; [| rewrite X1, upd_length; auto | auto | auto]. destruct Hq as [Q1 Q2].
           rewrite X1, nth_upd_same in Q2 by auto.
           split; [exact P1|]. intros ix Hl Hj. cbn [get scal_sub amap2]. rewrite P2 by exact Hj.
           unfold ushape in Hj. rewrite Q2 by lia. rewrite X2.
           ++ rewrite upd_upd_same, nth_upd_same by auto.
              replace (nth ax ix 0 - (if 0 <? lo then lo - 1 else 0) - (if 0 <? lo then 1 else 0)) with (nth ax ix 0 - lo) by lia.
              ring.
           ++ rewrite nth_upd_same by auto. lia.
        -- apply bind_Ok_inv in H; destruct H as (cm & _ & H). apply np_pad_keeps in H; auto.
           destruct H as [P1 P2]. split; auto.
      * exfalso. apply orb_false_iff in E3. rewrite !Z.eqb_neq in E3. lia.
Qed.

Lemma pad_neumann_keeps b u ax lo hi w mode d : (ax < length (shp (gdata u)))%nat -> 0 <= lo -> 0 <= hi ->
  pad_neumann b u ax (lo, hi) w mode = Ok d ->
  shp d = upd ax (Z.to_nat (lo + Z.of_nat (ushape u ax) + hi)) (shp (gdata u)) /\
  forall ix, (ax < length ix)%nat -> lo <= nth ax ix 0 < lo + Z.of_nat (ushape u ax) -> get d ix = get (gdata u) (upd ax (nth ax ix 0 - lo) ix).
Proof.
  intros Hax Hlo Hhi H. unfold pad_neumann in H. destruct (negb _); [discriminate|].
  apply bind_Ok_inv in H. destruct H as (m & _ & H).
  apply bind_Ok_inv in H. destruct H as (p & Hp & H).
  apply bind_Ok_inv in H. destruct H as (z & Hz & H).
  apply bind_Ok_inv in H. destruct H as (cm & _ & H).
  apply bind_Ok_inv in H. destruct H as (c & Hc & H). injection H as <-.
  apply np_pad_keeps in Hp; auto. apply np_pad_keeps in Hz; auto. apply np_pad_keeps in Hc; auto.
  destruct Hp as [P1 P2], Hz as [Z1 Z2], Hc as [C1 C2].
  split; [exact P1|]. intros ix _ Hj. cbn [get amap2]. rewrite P2, Z2, C2 by exact Hj. ring.
Qed.

Section Trim.
Variable b : bcs.
Variable u : garr.
Hypothesis Hu : wf_garr u.
Hypothesis Htr : forall a, (a < gndim (ggrid u))%nat -> trimmable_axis b u a.
Let d := gndim (ggrid u).
Let N a := nth a (gshape (ggrid u)) 0%nat.
Let EB a := eb b u a.
Let ET a := et b u a.

(** [r] is [u] with [L a] cells added below and [H a] above on every axis. *)
Definition padded (r : garr) (L H : nat -> Z) : Prop :=
  ggrid r = ggrid u /\ length (goff r) = d /\
  (forall a, (a < d)%nat -> (offat r a == nth a (goff u) 0 - inject_Z (L a))%Q) /\
  length (shp (gdata r)) = d /\
  (forall a, (a < d)%nat -> Z.of_nat (ushape r a) = L a + Z.of_nat (N a) + H a) /\
  (forall a, (a < d)%nat -> 0 <= L a /\ 0 <= H a) /\
  forall ix, length ix = d ->
    (forall a, (a < d)%nat -> L a + EB a <= nth a ix 0 < L a + Z.of_nat (N a) - ET a) ->
    get (gdata r) ix = get (gdata u) (subix L ix).

Lemma padded_start : padded u (fun _ => 0) (fun _ => 0).
Proof.
  destruct Hu as (Hg & Hs & Ho). split; [reflexivity|]. split; [exact Ho|]. split.
  { intros a Ha. unfold offat. change (inject_Z 0) with 0%Q. ring. }
  split; [rewrite Hs; reflexivity|]. split; [intros a Ha; unfold ushape; rewrite Hs; unfold N; lia|].
  split; [intros; lia|]. intros ix Hix _. rewrite subix_0. reflexivity.
Qed.

Lemma Npos' a : (a < d)%nat -> (0 < N a)%nat.
Proof. intros Ha. apply allpos_nth; [apply Hu | exact Ha]. Qed.

Definition addat (ax : nat) (w : Z) (f : nat -> Z) : nat -> Z := fun a => if (a =? ax)%nat then f a + w else f a.

Lemma subix_addat ax w L ix : (ax < length ix)%nat ->
  subix (addat ax w L) ix = subix L (shiftix ax (- w) ix).
Proof.
  intros Hax. apply (list_ext_nth 0); [rewrite !subix_length, shiftix_length; reflexivity|].
  rewrite subix_length. intros a Ha. rewrite !subix_nth by (rewrite ?shiftix_length; auto).
  unfold addat, shiftix. destruct (Nat.eqb_spec a ax) as [->|Hne].
  - rewrite nth_upd_same by auto. lia.
  - rewrite nth_upd_other by auto. reflexivity.
Qed.

Lemma side_is_periodic ax t : (ax < d)%nat -> (t = fst (btype b ax) \/ t = snd (btype b ax)) -> isPer t = true -> periodic_axis b ax.
Proof.
  intros Hax Ht Hp. destruct (Htr Hax) as [[H _]|[[_ (t1 & t2 & H & H1 & H2)]|He]]; [exact H| |].
  - exfalso. unfold btype in Ht. rewrite (nth_error_nth _ _ _ H) in Ht. cbn [fst snd] in Ht.
    destruct Ht as [-> | ->]; [destruct t1 | destruct t2]; try discriminate; congruence.
  - exfalso. destruct (edge_side b (goff u) ax) as [[s v]|] eqn:E; [|congruence].
    destruct (edge_side_inv _ _ _ E) as (Hb & _). rewrite Hb in Ht. destruct Ht as [-> | ->]; discriminate.
Qed.

Lemma pad_keeps_padded r L H w ax mode r' : (ax < d)%nat -> padded r L H ->
  bc_pad_ b r w ax mode = Ok r' ->
  padded r' (addat ax (Z.max 0 (- w)) L) (addat ax (Z.max 0 w) H).
Proof.
  intros Hax HP Hpad. pose proof HP as (Hg & HLo & Ho & HLs & Hs & Hnn & Hget).
  unfold bc_pad_ in Hpad. rewrite Hg in Hpad. fold d in Hpad.
  replace (ax <? d)%nat with true in Hpad by (symmetry; apply Nat.ltb_lt; auto). cbn [negb] in Hpad.
  set (bct := if w <? 0 then fst (btype b ax) else snd (btype b ax)).
  set (pads := if w <? 0 then (- w, 0) else (0, w)).
  replace (if w <? 0 then (fst (btype b ax), (- w, 0)) else (snd (btype b ax), (0, w))) with (bct, pads) in Hpad
    by (unfold bct, pads; destruct (w <? 0); reflexivity).
  assert (Hpl : fst pads = Z.max 0 (- w)) by (unfold pads; destruct (Z.ltb_spec w 0); simpl; lia).
  assert (Hph : snd pads = Z.max 0 w) by (unfold pads; destruct (Z.ltb_spec w 0); simpl; lia).
  set (side := if isPer bct then Both else if 0 <=? w then RightSide else LeftSide) in Hpad.
  assert (Hside : periodic_axis b ax -> side = Both).
  { intros Hp. unfold side, bct. rewrite (periodic_axis_btype Hp). destruct (w <? 0); reflexivity. }
  destruct (Hnn ax Hax) as [HL HH]. pose proof (Npos' Hax) as HN. pose proof (eb_et b u ax) as (Heb & Het & _).
  destruct (@trim_padded b u r ax (L ax) (N ax) (H ax) side) as (w1 & E1 & Hsl); auto.
  { lia. } { lia. } { unfold gshp. rewrite Hg. reflexivity. }
  set (t1 := match side with RightSide => 0 | _ => L ax + eb b u ax end) in *.
  set (t2 := match side with LeftSide => 0 | _ => H ax + et b u ax end) in *.
  assert (Ht1 : 0 <= t1 <= L ax + EB ax) by (unfold t1, EB; destruct side; lia).
  assert (Ht2 : 0 <= t2 <= H ax + ET ax) by (unfold t2, ET; destruct side; lia).
  rewrite E1 in Hpad. cbn [bind fst snd] in Hpad.
  destruct Hsl as (Sg & So & Ss & Sget).
  assert (HeN : eb b u ax + et b u ax <= 1) by apply eb_et. unfold EB, ET in *.
  assert (Hus : Z.of_nat (ushape w1 ax) = L ax + Z.of_nat (N ax) + H ax - t1 - t2).
  { unfold ushape. rewrite Ss, nth_upd_same by lia. rewrite <- (Hs ax Hax). rewrite (Hs ax Hax) at 1.
    rewrite (Hs ax Hax). lia. }
  apply bind_Ok_inv in Hpad. destruct Hpad as (data & Hdata & Hr'). injection Hr' as <-.
  assert (Hk : shp data = upd ax (Z.to_nat (fst pads + t1 + Z.of_nat (ushape w1 ax) + (snd pads + t2))) (shp (gdata w1)) /\
     forall ix, (ax < length ix)%nat -> fst pads + t1 <= nth ax ix 0 < fst pads + t1 + Z.of_nat (ushape w1 ax) ->
        get data ix = get (gdata w1) (upd ax (nth ax ix 0 - (fst pads + t1)) ix)).
  { assert (Haxs : (ax < length (shp (gdata w1)))%nat) by (rewrite Ss, upd_length; lia).
    destruct bct.
    - apply np_pad_keeps in Hdata; auto; try lia. destruct Hdata as [A B]. split; auto.
    - apply pad_dirichlet_keeps in Hdata; auto; lia.
    - apply pad_neumann_keeps in Hdata; auto; lia.
    - discriminate. }
  destruct Hk as [Hk1 Hk2].
  assert (Eus : ushape (mkga data (upd ax (offat r ax - inject_Z (fst pads))%Q (goff r)) (ggrid w1)) ax =
     Z.to_nat (fst pads + t1 + Z.of_nat (ushape w1 ax) + (snd pads + t2))).
  { unfold ushape at 1. cbn [gdata]. rewrite Hk1, nth_upd_same by (rewrite Ss, upd_length; lia). reflexivity. }
  split; [cbn [ggrid]; congruence|]. cbn [goff gdata]. split; [rewrite upd_length; auto|].
  split; [|split; [|split; [|split]]].
  - intros a Ha. unfold offat at 1. cbn [goff]. unfold addat. destruct (Nat.eqb_spec a ax) as [->|Hne].
    + rewrite nth_upd_same by lia. rewrite (Ho ax Hax), Hpl, inject_Z_plus. ring.
    + rewrite nth_upd_other by auto. apply (Ho a Ha).
  - rewrite Hk1, Ss, !upd_length. auto.
  - intros a Ha. unfold addat. destruct (Nat.eqb_spec a ax) as [->|Hne].
    + rewrite Eus. lia.
    + unfold ushape. cbn [gdata]. rewrite Hk1, Ss, !nth_upd_other by auto. apply (Hs a Ha).
  - intros a Ha. destruct (Hnn a Ha). unfold addat. destruct (a =? ax)%nat; lia.
  - intros ix Hix Hin. pose proof (Hin ax Hax) as Hinax. unfold addat, EB, ET in Hinax. rewrite Nat.eqb_refl in Hinax.
    rewrite Hk2 by lia. rewrite Sget by (rewrite upd_length; lia). unfold shiftix.
    rewrite nth_upd_same, upd_upd_same by lia.
    rewrite subix_addat by lia.
    replace (upd ax (nth ax ix 0 - (fst pads + t1) + t1) ix) with (shiftix ax (- Z.max 0 (- w)) ix)
      by (unfold shiftix; f_equal; lia).
    apply Hget; [rewrite shiftix_length; auto|].
    intros a Ha. pose proof (Hin a Ha) as Hina. unfold addat in Hina. unfold shiftix. destruct (Nat.eqb_spec a ax) as [He|Hne].
    + rewrite He in *. rewrite nth_upd_same by lia. lia.
    + rewrite nth_upd_other by auto. exact Hina.
Qed.

(** Trimming axes 0 .. k-1 of a padded array. *)
Definition tix (L : nat -> Z) (k : nat) (ix : list Z) : list Z :=
  map (fun a => if (a <? k)%nat then nth a ix 0 + (L a + EB a) else nth a ix 0) (seq 0 d).
Lemma tix_length L k ix : length (tix L k ix) = d.
Proof. unfold tix. rewrite map_length, seq_length. reflexivity. Qed.
Lemma tix_nth L k ix a : (a < d)%nat -> nth a (tix L k ix) 0 = if (a <? k)%nat then nth a ix 0 + (L a + EB a) else nth a ix 0.
Proof. intros Ha. unfold tix. rewrite nth_map_seq by auto. reflexivity. Qed.

Definition trimming (r : garr) (L H : nat -> Z) (k : nat) (w : garr) : Prop :=
  ggrid w = ggrid u /\ length (goff w) = d /\
  (forall a, (a < d)%nat -> (offat w a == if (a <? k)%nat then nth a (goff u) 0 + inject_Z (EB a) else nth a (goff u) 0 - inject_Z (L a))%Q) /\
  length (shp (gdata w)) = d /\
  (forall a, (a < d)%nat -> Z.of_nat (ushape w a) =
      if (a <? k)%nat then Z.of_nat (N a) - EB a - ET a else L a + Z.of_nat (N a) + H a) /\
  forall ix, length ix = d -> get (gdata w) ix = get (gdata r) (tix L k ix).

Lemma aligned_padded r L H w k a : padded r L H -> trimming r L H k w -> (a < d)%nat -> (k <= a)%nat -> is_aligned b w a = Ok tt.
Proof.
  intros HP (Hg & HLo & Ho & HLs & Hs & Hget) Ha Hka.
  pose proof HP as (_ & _ & _ & _ & _ & Hnn & _). destruct (Hnn a Ha) as [HL HH].
  specialize (Ho a Ha). specialize (Hs a Ha).
  replace (a <? k)%nat with false in * by (symmetry; apply Nat.ltb_ge; lia).
  unfold is_aligned.
  assert (Egs : gshp w a = N a) by (unfold gshp; rewrite Hg; reflexivity). rewrite Egs, Hs.
  assert (En : isNeu (fst (btype b a)) && isclose (mod1 (offat w a)) 0 = false).
  { destruct (Htr Ha) as [[Hp _]|[[Hc _]|He]].
    - rewrite (periodic_axis_btype Hp). reflexivity.
    - unfold centred in Hc. rewrite Hc in Ho. rewrite (half_not_int Ho). apply andb_false_r.
    - destruct (edge_side b (goff u) a) as [[s v]|] eqn:E; [|congruence].
      destruct (edge_side_inv _ _ _ E) as (Hb & _). rewrite Hb. reflexivity. }
  rewrite En. replace (_ <? 0) with false; [reflexivity|]. symmetry. apply Z.ltb_ge.
  destruct (isDir _ && _), (isDir _ && _); lia.
Qed.

Lemma trimming_step r L H w k : padded r L H -> trimming r L H k w -> (k < d)%nat ->
  exists w', (let* up := trim_padding b w k Both in Ok (fst up)) = Ok w' /\ trimming r L H (S k) w'.
Proof.
  intros HP HT Hk. pose proof HT as (Hg & HLo & Ho & HLs & Hs & Hget).
  pose proof HP as (_ & _ & _ & _ & _ & Hnn & _). destruct (Hnn k Hk) as [HL HH].
  assert (Hok := Ho k Hk). assert (Hsk := Hs k Hk). rewrite Nat.ltb_irrefl in Hok, Hsk.
  destruct (@trim_padded b u w k (L k) (N k) (H k) Both) as (w' & E & Hsl); auto; try lia.
  { unfold gshp; rewrite Hg; reflexivity. } { apply (Npos' Hk). }
  rewrite E. cbn [bind fst]. exists w'. split; [reflexivity|].
  destruct Hsl as (Sg & So & Ss & Sget).
  assert (Hlt : forall a, a <> k -> (a <? S k)%nat = (a <? k)%nat).
  { intros a Hne. destruct (Nat.ltb_spec a k), (Nat.ltb_spec a (S k)); auto; lia. }
  assert (Hlk : (k <? S k)%nat = true) by (apply Nat.ltb_lt; lia).
  pose proof (eb_et b u k) as (Heb & Het & Hsum). pose proof (Npos' Hk) as HN.
  split; [congruence|]. split; [rewrite (off_eq_length So), upd_length; auto|].
  split; [|split; [|split]].
  - intros a Ha. unfold offat. rewrite (@Forall2_nth' _ _ _ _ _ a 0%Q 0%Q So) by (rewrite (off_eq_length So), upd_length; lia).
    destruct (Nat.eq_dec a k) as [->|Hne].
    + rewrite nth_upd_same by lia. rewrite Hlk, Hok, inject_Z_plus. unfold EB. ring.
    + rewrite nth_upd_other by auto. rewrite Hlt by auto. apply (Ho a Ha).
  - rewrite Ss, upd_length; auto.
  - intros a Ha. unfold ushape. rewrite Ss. destruct (Nat.eq_dec a k) as [->|Hne].
    + rewrite nth_upd_same by lia. rewrite Hlk, Hsk. unfold EB, ET. lia.
    + rewrite nth_upd_other by auto. rewrite Hlt by auto. apply (Hs a Ha).
  - intros ix Hix. rewrite Sget by lia. rewrite Hget by (rewrite shiftix_length; auto). f_equal.
    apply (list_ext_nth 0); [rewrite !tix_length; auto|]. rewrite tix_length. intros a Ha.
    rewrite !tix_nth by auto. unfold shiftix. destruct (Nat.eq_dec a k) as [->|Hne].
    + rewrite nth_upd_same by lia. rewrite Hlk, Nat.ltb_irrefl. unfold EB. lia.
    + rewrite nth_upd_other by auto. rewrite Hlt by auto. reflexivity.
Qed.

Lemma trimming_steps r L H k m w : padded r L H -> (k + m = d)%nat -> trimming r L H k w ->
  exists w', foldM (fun u ax => let* _ := is_aligned b u ax in
                     let* up := trim_padding b u ax Both in Ok (fst up)) w (seq k m) = Ok w' /\ trimming r L H d w'.
Proof.
  intros HP. revert k w; induction m as [|m IH]; intros k w Hkm HT.
  - exists w. assert (k = d) as <- by lia. split; [reflexivity | auto].
  - cbn [seq foldM]. destruct (@trimming_step r L H w k HP HT) as (w' & E & HT'); [lia|].
    rewrite (aligned_padded HP HT) by lia. cbn [bind].
    rewrite E. cbn [bind]. apply IH; auto. lia.
Qed.

Lemma trim_padded_boundary r L H : padded r L H ->
  exists w, trim_boundary b r = Ok w /\ ggrid w = ggrid u /\ length (goff w) = d /\
    (forall a, (a < d)%nat -> (nth a (goff w) 0 == nth a (goff u) 0 + inject_Z (EB a))%Q) /\
    shp (gdata w) = map (fun a => Z.to_nat (Z.of_nat (N a) - EB a - ET a)) (seq 0 d) /\
    forall ix, inb (shp (gdata w)) ix -> get (gdata w) ix = get (gdata u) (tix (fun _ => 0) d ix).
Proof.
  intros HP. pose proof HP as (Hg & HLo & Ho & HLs & Hs & Hnn & Hget).
  destruct (@trimming_steps r L H 0%nat d r HP) as (w & E & HT); [lia| |].
  { split; [auto|]. split; [auto|]. split; [auto|]. split; [auto|]. split; [auto|].
    intros ix Hix. f_equal. apply (list_ext_nth 0); [rewrite tix_length; auto|]. rewrite Hix. intros a Ha.
    rewrite tix_nth by auto. reflexivity. }
  destruct HT as (Hg' & HLo' & Ho' & HLs' & Hs' & Hget').
  exists w. unfold trim_boundary. rewrite Hg. fold d. split; [exact E|]. split; [auto|]. split; [auto|].
  assert (Hltd : forall a, (a < d)%nat -> (a <? d)%nat = true) by (intros; apply Nat.ltb_lt; auto).
  assert (Hsh : shp (gdata w) = map (fun a => Z.to_nat (Z.of_nat (N a) - EB a - ET a)) (seq 0 d)).
  { apply (list_ext_nth 0%nat); [rewrite map_length, seq_length; auto|]. rewrite HLs'. intros a Ha.
    rewrite nth_map_seq by auto. specialize (Hs' a Ha). rewrite Hltd in Hs' by auto. unfold ushape in Hs'. lia. }
  split; [|split; [exact Hsh|]].
  - intros a Ha. specialize (Ho' a Ha). rewrite Hltd in Ho' by auto. exact Ho'.
  - intros ix Hix. pose proof (inb_length _ _ Hix) as Hl. rewrite HLs' in Hl. rewrite Hget' by auto.
    rewrite Hget.
    + f_equal. apply (list_ext_nth 0); [rewrite subix_length, !tix_length; auto|]. rewrite subix_length, tix_length.
      intros a Ha. rewrite subix_nth by (rewrite tix_length; auto). rewrite !tix_nth by auto.
      rewrite !Hltd by auto. lia.
    + apply tix_length.
    + intros a Ha. rewrite tix_nth, Hltd by auto. pose proof (@inb_nth _ _ a Hix) as Hr. rewrite HLs' in Hr.
      specialize (Hr Ha). rewrite Hsh in Hr. rewrite nth_map_seq in Hr by auto. unfold EB, ET in *.
      pose proof (eb_et b u a). destruct (Hnn a Ha). lia.
Qed.

Lemma pad_op_padded r L H pw ax mode r' : (ax < d)%nat -> padded r L H ->
  bc_pad b r pw ax mode = Ok r' -> exists L' H', padded r' L' H'.
Proof.
  intros Hax HP H0. unfold bc_pad in H0. apply bind_Ok_inv in H0. destruct H0 as (_ & _ & H0).
  destruct pw as [w|lo hi].
  - eexists; eexists; eapply pad_keeps_padded; eauto.
  - apply bind_Ok_inv in H0. destruct H0 as (r1 & H1 & H2).
    eexists; eexists; eapply pad_keeps_padded; [exact Hax | | exact H2].
    eapply pad_keeps_padded; [exact Hax | exact HP | exact H1].
Qed.
End Trim.

(* @prop C11 For data that on every axis is periodic with offset in [0,1), cell-centred between walls, or edge-aligned between Dirichlet walls: after any sequence of pads (any axes, widths on either side, any modes) that succeeds, trim_boundary returns exactly what it returns for the array before padding. *)
Lemma trim_boundary_undoes_padding_lem : forall b u h w,
  wf_garr u -> (forall a, (a < gndim (ggrid u))%nat -> trimmable_axis b u a) ->
  Forall (fun op => (fst (fst op) < gndim (ggrid u))%nat) h ->
  foldM (fun v op => bc_pad b v (snd (fst op)) (fst (fst op)) (snd op)) u h = Ok w ->
  exists t t', trim_boundary b w = Ok t /\ trim_boundary b u = Ok t' /\ same_field t t'.
Proof.
  intros b u h w Hu Htr Hh Hw.
  assert (HP : exists L H, padded b u w L H).
  { assert (Hgen : forall h r, (exists L H, padded b u r L H) -> Forall (fun op => (fst (fst op) < gndim (ggrid u))%nat) h ->
        foldM (fun v op => bc_pad b v (snd (fst op)) (fst (fst op)) (snd op)) r h = Ok w -> exists L H, padded b u w L H).
    { clear h Hh Hw. intros h. induction h as [|op h IH]; intros r HP Hh Hf.
      - injection Hf as <-. exact HP.
      - cbn [foldM] in Hf. apply bind_Ok_inv in Hf. destruct Hf as (r1 & H1 & H2). inversion Hh; subst.
        apply (IH r1); auto. destruct HP as (L & H & HP). eapply pad_op_padded; eauto. }
    apply (Hgen h u); auto. exists (fun _ => 0), (fun _ => 0). apply padded_start; auto. }
  destruct HP as (L & H & HP).
  destruct (@trim_padded_boundary b u Hu Htr w L H HP) as (t & E & A1 & A2 & A3 & A4 & A5).
  destruct (@trim_padded_boundary b u Hu Htr u _ _ (padded_start b Hu)) as (t' & E' & B1 & B2 & B3 & B4 & B5).
  exists t, t'. split; [exact E|]. split; [exact E'|]. split; [congruence|]. split.
  - apply Forall2_intro_nth with (da := 0%Q) (db := 0%Q); [congruence|]. rewrite A2. intros a Ha.
    rewrite A3, B3 by auto. reflexivity.
  - split; [congruence|]. intros ix Hix. rewrite A5, B5 by congruence. reflexivity.
Qed.

Lemma run_ok (r : result garr) sh : match r with Ok w => shp (gdata w) | Err _ => [] end = sh -> sh <> [] -> exists w, r = Ok w /\ shp (gdata w) = sh.
Proof. intros H Hn. destruct r as [w|e]; [exists w; auto | congruence]. Qed.

(* @ex *)
Lemma trim_boundary_undoes_padding_ex_lem :
  exists w, wf_garr exv /\ (forall a, (a < gndim (ggrid exv))%nat -> trimmable_axis (exb Dirichlet Dirichlet) exv a) /\
  foldM (fun v op => bc_pad (exb Dirichlet Dirichlet) v (snd (fst op)) (fst (fst op)) (snd op)) exv
     [(1%nat, WInt (-2), EXTEND); (0%nat, WPair 1 2, MIRROR); (1%nat, WInt 1, EXTEND)] = Ok w /\ shp (gdata w) = [5%nat; 6%nat].
Proof.
  match goal with |- exists w, _ /\ _ /\ ?f = _ /\ _ => destruct (@run_ok f [5%nat; 6%nat]) as (w & E & S); [lazy; reflexivity | discriminate |] end.
  exists w. split; [apply exv_wf|]. split; [|split; [exact E | exact S]].
  unfold gndim; simpl. intros [|[|a]] Ha; [left; split; [reflexivity | simpl; Lqa.lra] | right; right; discriminate | lia].
Qed.

(* @prop C11 For data that on every axis is periodic with offset in [0,1) or cell-centred between walls, trimming after any successful sequence of pads returns the original array itself. *)
Lemma trim_boundary_restores_lem : forall b u h w,
  wf_garr u ->
  (forall a, (a < gndim (ggrid u))%nat -> (periodic_axis b a /\ (0 <= nth a (goff u) 0 < 1)%Q) \/
     (centred u a /\ exists t1 t2, nth_error (btypes b) a = Some (t1, t2) /\ t1 <> Periodic /\ t2 <> Periodic)) ->
  Forall (fun op => (fst (fst op) < gndim (ggrid u))%nat) h ->
  foldM (fun v op => bc_pad b v (snd (fst op)) (fst (fst op)) (snd op)) u h = Ok w ->
  exists t, trim_boundary b w = Ok t /\ same_field t u.
Proof.
  intros b u h w Hu Hax Hh Hw.
  assert (Htr : forall a, (a < gndim (ggrid u))%nat -> trimmable_axis b u a).
  { intros a Ha. destruct (Hax a Ha) as [H|H]; [left; exact H | right; left; exact H]. }
  destruct (trim_boundary_undoes_padding_lem Hu Htr Hh Hw) as (t & t' & E & E' & Hsame).
  exists t. split; [exact E|].
  assert (Hno : forall a, (a < gndim (ggrid u))%nat -> edge_side b (goff u) a = None).
  { intros a Ha. destruct (Hax a Ha) as [[Hp _]|[Hc _]].
    - unfold edge_side. rewrite Hp. reflexivity.
    - unfold edge_side. destruct (nth_error _ a) as [[[] []]|]; auto.
      destruct (nth_error (bvals b) a) as [[[x|] [y|]]|]; auto.
      replace (Qeq_bool (nth a (goff u) 0%Q) 1) with false; [|symmetry; apply not_true_iff_false; rewrite Qeq_bool_iff; unfold centred in Hc; rewrite Hc; discriminate].
      replace (Qeq_bool (nth a (goff u) 0%Q) 0) with false; [reflexivity|symmetry; apply not_true_iff_false; rewrite Qeq_bool_iff; unfold centred in Hc; rewrite Hc; discriminate]. }
  destruct (@trim_padded_boundary b u Hu Htr u _ _ (padded_start b Hu)) as (t2 & E2 & B1 & B2 & B3 & B4 & B5).
  rewrite E2 in E'. injection E' as <-.
  destruct Hsame as (S1 & S2 & S3 & S4).
  destruct Hu as (Hg & Hs & HLo).
  assert (Hz : forall a, (a < gndim (ggrid u))%nat -> eb b u a = 0 /\ et b u a = 0).
  { intros a Ha. unfold eb, et. rewrite Hno by auto. split; reflexivity. }
  assert (Hs2 : shp (gdata t2) = shp (gdata u)).
  { rewrite B4, Hs. apply (list_ext_nth 0%nat); rewrite map_length, seq_length; [reflexivity|]. intros a Ha.
    rewrite nth_map_seq by auto. destruct (Hz a Ha) as [-> ->]. lia. }
  split; [congruence|]. split.
  - eapply off_eq_trans; [exact S2|].
    apply Forall2_intro_nth with (da := 0%Q) (db := 0%Q); [congruence|]. rewrite B2. intros a Ha.
    rewrite B3 by auto. destruct (Hz a Ha) as [-> _]. change (inject_Z 0) with 0%Q. ring.
  - split; [congruence|]. intros ix Hix. rewrite S4 by congruence. rewrite B5 by congruence. f_equal.
    assert (Hl : length ix = gndim (ggrid u)). { apply inb_length in Hix. rewrite S3, Hs2, Hs in Hix. exact Hix. }
    apply (list_ext_nth 0); [rewrite tix_length; auto|]. rewrite tix_length. intros a Ha. rewrite tix_nth by auto.
    destruct (a <? _)%nat; auto. destruct (Hz a Ha) as [-> _]. lia.
Qed.

(* @ex *)
Lemma trim_boundary_restores_ex_lem :
  exists w t, foldM (fun v op => bc_pad (exb Neumann Dirichlet) v (snd (fst op)) (fst (fst op)) (snd op)) exu
     [(1%nat, WInt (-2), MIRROR); (0%nat, WPair 1 2, MIRROR); (1%nat, WInt 1, EXTEND)] = Ok w /\ shp (gdata w) = [5%nat; 6%nat] /\
   trim_boundary (exb Neumann Dirichlet) w = Ok t /\ same_field t exu.
Proof.
  match goal with |- exists w t, ?f = _ /\ _ => destruct (@run_ok f [5%nat; 6%nat]) as (w & Ew & Sw); [lazy; reflexivity | discriminate |] end.
  edestruct (@trim_boundary_restores_lem (exb Neumann Dirichlet) exu [(1%nat, WInt (-2), MIRROR); (0%nat, WPair 1 2, MIRROR); (1%nat, WInt 1, EXTEND)] w) as (t & E & S).
  - apply exu_wf.
  - unfold gndim; simpl. intros [|[|a]] Ha; [left; split; [reflexivity | simpl; Lqa.lra] | right; split; [reflexivity|] | lia].
    exists Neumann, Dirichlet. repeat split; discriminate.
  - repeat constructor.
  - exact Ew.
  - exists w, t. auto.
Qed.

(* @prop C11 The range restriction on periodic offsets is needed: for periodic data at offset 1 padded by one cell below, trim_boundary removes the wrong cell, returning the data rolled by one at offset 0. *)
Lemma trim_boundary_periodic_edge_refuted_lem :
  ~ (forall b u h w, wf_garr u -> perbc (ggrid u) b ->
  Forall (fun op => (fst (fst op) < gndim (ggrid u))%nat) h ->
  foldM (fun v op => bc_pad b v (snd (fst op)) (fst (fst op)) (snd op)) u h = Ok w ->
  exists t t', trim_boundary b w = Ok t /\ trim_boundary b u = Ok t' /\ same_field t t').
Proof.
  intros H.
  pose (g := mkgrid [2%nat] [1%R] [(0%R, 2%R)]).
  pose (u := mkga (mkarr [2%nat] (fun ix => IZR (nth 0 ix 0))) [1%Q] g).
  destruct (@run_ok (foldM (fun v op => bc_pad (periodic_bc 1) v (snd (fst op)) (fst (fst op)) (snd op)) u [(0%nat, WInt (-1), EXTEND)]) [3%nat])
    as (w & Ew & Sw); [lazy; reflexivity | discriminate |].
  destruct (H (periodic_bc 1) u [(0%nat, WInt (-1), EXTEND)] w) as (t & t' & E & E' & Hs & Ho & _).
  - repeat split; repeat constructor; (lia || lra).
  - reflexivity.
  - repeat constructor.
  - exact Ew.
  - assert (G : (nth 0 (goff t) 0 == nth 0 (goff t') 0)%Q).
    { destruct Ho as [|x y l l' Hxy]; [reflexivity | exact Hxy]. }
    assert (E2 : (let* w := foldM (fun v op => bc_pad (periodic_bc 1) v (snd (fst op)) (fst (fst op)) (snd op)) u [(0%nat, WInt (-1), EXTEND)] in
       trim_boundary (periodic_bc 1) w) = Ok t) by (rewrite Ew; exact E).
    apply (f_equal (fun r => match r with Ok x => Qred (nth 0 (goff x) 0%Q) | Err _ => 0%Q end)) in E2.
    apply (f_equal (fun r => match r with Ok x => Qred (nth 0 (goff x) 0%Q) | Err _ => 0%Q end)) in E'.
    rewrite <- (Qred_correct (nth 0 (goff t) 0%Q)), <- (Qred_correct (nth 0 (goff t') 0%Q)) in G.
    rewrite <- E2, <- E' in G. lazy in G. discriminate.
Qed.
