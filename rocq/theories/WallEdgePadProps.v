(** * C08: padding edge-aligned data beyond Dirichlet walls *)
From Verif Require Import Prelude NdArr Grids_model Spec Boundaries_model BoundariesPeriodic WallBC PRep PeriodicBCProps WallBCProps ImposeProps WallFD.
From Coq Require Lqa.
Set Implicit Arguments.
Local Open Scope Z_scope.

Lemma refl_above N i : 1 <= N - 1 -> N <= i <= 2 * N - 2 -> refl_index N i = 2 * N - 2 - i.
Proof.
  intros HN Hi. unfold refl_index. rewrite (proj2 (Z.eqb_neq N 1)) by lia. cbv zeta.
  destruct (Z.eq_dec i (2 * N - 2)) as [E|E].
  - rewrite E, Z_mod_same_full. rewrite (proj2 (Z.ltb_lt 0 N)) by lia. lia.
  - rewrite Z.mod_small by lia. rewrite (proj2 (Z.ltb_ge i N)) by lia. reflexivity.
Qed.
Lemma refl_below N i : 1 <= N - 1 -> - (N - 1) <= i < 0 -> refl_index N i = - i.
Proof.
  intros HN Hi. unfold refl_index. rewrite (proj2 (Z.eqb_neq N 1)) by lia. cbv zeta.
  assert (E : i mod (2 * N - 2) = i + (2 * N - 2)) by (symmetry; apply Z.mod_unique with (q := -1); lia).
  rewrite E. destruct (Z.ltb_spec (i + (2 * N - 2)) N); lia.
Qed.

Definition full_values (b : bcs) : bool := forallb (fun v => match v with (Some _, Some _) => true | _ => false end) (bvals b).

Section Pad.
Variables (b : bcs) (u : garr) (ax : nat) (lo hi : R) (z : Z).
Hypothesis Hal : (ax < length (shp (gdata u)))%nat.
Hypothesis Hv : bval b ax = (Some lo, Some hi).
Hypothesis Hf : full_values b = true.
Hypothesis Ho : (offat u ax == inject_Z z)%Q.
Hypothesis Hm : (0 < ushape u ax)%nat.
Let m := Z.of_nat (ushape u ax).

Lemma mirror_upper p : 2 <= p <= m + 1 -> exists d, pad_dirichlet b u ax (0, p) MIRROR = Ok d /\ shp d = upd ax (Z.to_nat (m + p)) (shp (gdata u)) /\
  forall ix, (ax < length ix)%nat -> let j := nth ax ix 0 in 0 <= j < m + p ->
    get d ix = (if j <? m then get (gdata u) ix else if j =? m then hi else (hi - get (gdata u) (upd ax (2 * m - j)%Z ix))%R).
Proof.
  intros Hp. unfold m in *. unfold pad_dirichlet. rewrite (int_not_half Ho), (int_isclose Ho). cbn [fst snd].
  rewrite (proj2 (Z.eqb_neq (0 + p) 1)), (proj2 (Z.eqb_neq (0 + p) 0)), (proj2 (Z.ltb_lt 1 (0 + p))) by lia. cbn [orb].
  change (0 <? 0) with false. cbv iota. rewrite (proj2 (Z.ltb_lt 0 p)) by lia. fold (full_values b). rewrite Hv, Hf.
  unfold np_pad at 1. change ((0 <? 0) || (1 <? 0)) with false. cbv iota. cbn [bind].
  unfold np_pad. change (0 <? 0) with false. rewrite (proj2 (Z.ltb_ge p 0)), (proj2 (Z.ltb_ge (p - 1) 0)) by lia. cbn [orb]. cbn [bind].
  cbn [shp axmap]. rewrite nth_upd_same by exact Hal. fold (ushape u ax).
  rewrite (proj2 (Nat.eqb_neq _ 0)) by lia. cbn [bind]. eexists. split; [reflexivity|]. split; [unfold scal_sub; cbn [shp amap2 axmap]; f_equal|].
  intros ix Hix. set (j := nth ax ix 0). intros Hj. unfold scal_sub. cbn [get amap2 axmap]. fold j.
  set (N := Z.to_nat (0 + Z.of_nat (ushape u ax) + 1)). assert (EN : Z.of_nat N = Z.of_nat (ushape u ax) + 1) by (unfold N; lia).
  assert (EX : forall i, pad1 (NpConstant 0 0) (ushape u ax) 0 (fun i0 => get (gdata u) (upd ax i0 (upd ax i ix))) (nth ax (upd ax i ix) 0) =
     (if (0 <=? i) && (i <? Z.of_nat (ushape u ax)) then get (gdata u) (upd ax i ix) else 0%R)).
  { intros i. rewrite nth_upd_same by exact Hix. unfold pad1. rewrite Z.sub_0_r. destruct ((0 <=? i) && (i <? Z.of_nat (ushape u ax))); [rewrite upd_upd_same; reflexivity | destruct (i <? 0); reflexivity]. }
  assert (EQ : forall j', pad1 NpReflect N 0 (fun i => pad1 (NpConstant 0 0) (ushape u ax) 0 (fun i0 => get (gdata u) (upd ax i0 (upd ax i ix))) (nth ax (upd ax i ix) 0)) j' =
     pad1 NpReflect N 0 (fun i => if (0 <=? i) && (i <? Z.of_nat (ushape u ax)) then get (gdata u) (upd ax i ix) else 0%R) j').
  { intros j'. unfold pad1. cbv zeta. destruct ((0 <=? j' - 0) && (j' - 0 <? Z.of_nat N)); apply EX. }
  rewrite EQ. destruct (Z.ltb_spec j (Z.of_nat (ushape u ax))) as [L|L].
  - rewrite !pad1_in by lia. rewrite Z.sub_0_r. rewrite (proj2 (Z.leb_le 0 j)), (proj2 (Z.ltb_lt j (Z.of_nat (ushape u ax)))) by lia. cbn [andb].
    unfold j. rewrite upd_nth_same. ring.
  - rewrite pad1_out by lia. rewrite Z.sub_0_r. rewrite (proj2 (Z.ltb_ge j 0)) by lia. destruct (Z.eqb_spec j (Z.of_nat (ushape u ax))) as [E|E].
    + rewrite pad1_in by lia. rewrite Z.sub_0_r, (proj2 (Z.ltb_ge j (Z.of_nat (ushape u ax)))) by lia. rewrite andb_false_r. field.
    + rewrite pad1_out by lia. rewrite Z.sub_0_r. rewrite refl_above by lia. rewrite (proj2 (Z.leb_le 0 _)), (proj2 (Z.ltb_lt _ (Z.of_nat (ushape u ax)))) by lia. cbn [andb].
      replace (2 * Z.of_nat N - 2 - j) with (2 * Z.of_nat (ushape u ax) - j) by lia. field.
Qed.

Lemma mirror_lower p : 2 <= p <= m + 1 -> exists d, pad_dirichlet b u ax (p, 0) MIRROR = Ok d /\ shp d = upd ax (Z.to_nat (m + p)) (shp (gdata u)) /\
  forall ix, (ax < length ix)%nat -> let j := nth ax ix 0 in 0 <= j < m + p ->
    get d ix = (if p <=? j then get (gdata u) (upd ax (j - p) ix) else if j =? p - 1 then lo else (lo - get (gdata u) (upd ax (p - 2 - j)%Z ix))%R).
Proof.
  intros Hp. unfold m in *. unfold pad_dirichlet. rewrite (int_not_half Ho), (int_isclose Ho). cbn [fst snd].
  rewrite (proj2 (Z.eqb_neq (p + 0) 1)), (proj2 (Z.eqb_neq (p + 0) 0)), (proj2 (Z.ltb_lt 1 (p + 0))) by lia. cbn [orb].
  change (0 <? 0) with false. cbv iota. rewrite (proj2 (Z.ltb_lt 0 p)) by lia. fold (full_values b). rewrite Hv, Hf.
  unfold np_pad at 1. change ((1 <? 0) || (0 <? 0)) with false. cbv iota. cbn [bind].
  unfold np_pad. change (0 <? 0) with false. rewrite (proj2 (Z.ltb_ge p 0)), (proj2 (Z.ltb_ge (p - 1) 0)) by lia. cbn [orb]. cbn [bind].
  cbn [shp axmap]. rewrite nth_upd_same by exact Hal. fold (ushape u ax).
  rewrite (proj2 (Nat.eqb_neq _ 0)) by lia. cbn [bind]. eexists. split; [reflexivity|]. split; [unfold scal_sub; cbn [shp amap2 axmap]; f_equal; lia|].
  intros ix Hix. set (j := nth ax ix 0). intros Hj. unfold scal_sub. cbn [get amap2 axmap]. fold j.
  set (N := Z.to_nat (1 + Z.of_nat (ushape u ax) + 0)). assert (EN : Z.of_nat N = Z.of_nat (ushape u ax) + 1) by (unfold N; lia).
  assert (EX : forall i, pad1 (NpConstant 0 0) (ushape u ax) 1 (fun i0 => get (gdata u) (upd ax i0 (upd ax i ix))) (nth ax (upd ax i ix) 0) =
     (if (0 <=? i - 1) && (i - 1 <? Z.of_nat (ushape u ax)) then get (gdata u) (upd ax (i - 1) ix) else 0%R)).
  { intros i. rewrite nth_upd_same by exact Hix. unfold pad1. destruct ((0 <=? i - 1) && (i - 1 <? Z.of_nat (ushape u ax))); [rewrite upd_upd_same; reflexivity | destruct (i - 1 <? 0); reflexivity]. }
  assert (EQ : forall j', pad1 NpReflect N (p - 1) (fun i => pad1 (NpConstant 0 0) (ushape u ax) 1 (fun i0 => get (gdata u) (upd ax i0 (upd ax i ix))) (nth ax (upd ax i ix) 0)) j' =
     pad1 NpReflect N (p - 1) (fun i => if (0 <=? i - 1) && (i - 1 <? Z.of_nat (ushape u ax)) then get (gdata u) (upd ax (i - 1) ix) else 0%R) j').
  { intros j'. unfold pad1 at 1 3. cbv zeta. destruct ((0 <=? j' - (p - 1)) && (j' - (p - 1) <? Z.of_nat N)); apply EX. }
  rewrite EQ. destruct (Z.leb_spec p j) as [L|L].
  - rewrite !pad1_in by lia. rewrite (proj2 (Z.leb_le 0 _)), (proj2 (Z.ltb_lt _ (Z.of_nat (ushape u ax)))) by lia. cbn [andb].
    replace (j - (p - 1) - 1) with (j - p) by lia. ring.
  - rewrite pad1_out by lia. rewrite (proj2 (Z.ltb_lt (j - p) 0)) by lia. destruct (Z.eqb_spec j (p - 1)) as [E|E].
    + rewrite pad1_in by lia. rewrite (proj2 (Z.leb_gt 0 _)) by lia. cbn [andb]. field.
    + rewrite pad1_out by lia. rewrite refl_below by lia. rewrite (proj2 (Z.leb_le 0 _)), (proj2 (Z.ltb_lt _ (Z.of_nat (ushape u ax)))) by lia. cbn [andb].
      replace (- (j - (p - 1)) - 1) with (p - 2 - j) by lia. field.
Qed.
End Pad.

(** The entry at position [j], beyond the wall of value [v]; [x] is its mirror image *)
Definition ghost_value (mode : padmode) (v x : R) : R := match mode with MIRROR => (v - x)%R | _ => v end.
(** [u] is edge-aligned on axis [ax], between Dirichlet walls [lo] and [hi]: its last entry ([top]) or its first entry is on a wall *)
Definition edge_walls (b : bcs) (u : garr) (ax : nat) (lo hi : R) (top : bool) : Prop :=
  nth_error (btypes b) ax = Some (Dirichlet, Dirichlet) /\ nth_error (bvals b) ax = Some (Some lo, Some hi) /\ (nth ax (goff u) 0 == if top then 1 else 0)%Q.
(** Padding with mirrored ghost cells reads the values of every wall of the domain *)
Definition pad_mode_ok (b : bcs) (mode : padmode) : Prop :=
  mode = EXTEND \/ mode = MIRROR /\ forall v, In v (bvals b) -> fst v <> None /\ snd v <> None.

Lemma full_ok b : (forall v, In v (bvals b) -> fst v <> None /\ snd v <> None) -> full_values b = true.
Proof. intros H. unfold full_values. apply forallb_forall. intros [[x|] [y|]] Hx; try reflexivity; destruct (H _ Hx) as [A B]; exfalso; [apply B | apply A | apply A]; reflexivity. Qed.
Lemma edge_aligned b u ax lo hi top : wf_garr u -> (ax < gndim (ggrid u))%nat -> edge_walls b u ax lo hi top -> is_aligned b u ax = Ok tt.
Proof.
  intros Hw Hax (Hb & Hv & Ho). destruct (wf_ax Hw Hax) as (Wl & Wo & Wn & Wu & _). unfold is_aligned, btype. rewrite (nth_error_nth _ _ _ Hb). cbn [fst snd isNeu isDir bctype_eqb andb].
  rewrite Wu. destruct (isclose (offat u ax) 1); rewrite (proj2 (Z.ltb_ge _ 0)) by lia; reflexivity.
Qed.

Section PadBoth.
Variables (b : bcs) (u : garr) (ax : nat) (lo hi : R) (z : Z) (mode : padmode).
Hypothesis Hal : (ax < length (shp (gdata u)))%nat.
Hypothesis Hv : bval b ax = (Some lo, Some hi).
Hypothesis Hf : pad_mode_ok b mode.
Hypothesis Ho : (offat u ax == inject_Z z)%Q.
Let m := Z.of_nat (ushape u ax).
Lemma pad_up p : 1 <= p <= m + 1 -> exists d, pad_dirichlet b u ax (0, p) mode = Ok d /\ shp d = upd ax (Z.to_nat (m + p)) (shp (gdata u)) /\
  forall ix, (ax < length ix)%nat -> 0 <= nth ax ix 0 < m + p ->
    get d ix = (if nth ax ix 0 <? m then get (gdata u) ix else if nth ax ix 0 =? m then hi else ghost_value mode hi (get (gdata u) (upd ax (2 * m - nth ax ix 0) ix))).
Proof.
  intros Hp. destruct Hf as [-> | [-> Hff]]; [|destruct (Z.eq_dec p 1) as [->|Hp1]].
  - rewrite (@pad_const_edge b u ax lo hi 0 p z) by (auto; lia). eexists. split; [reflexivity|]. split; [reflexivity|]. intros ix Hix Hj. cbn [get axmap ghost_value]. fold m.
    destruct (Z.ltb_spec (nth ax ix 0) m).
    + rewrite pad1_in by (fold m; lia). rewrite Z.sub_0_r, upd_nth_same. reflexivity.
    + rewrite pad1_out by (fold m; lia). rewrite (proj2 (Z.ltb_ge _ 0)) by lia. destruct (nth ax ix 0 =? m); reflexivity.
  - assert (E : pad_dirichlet b u ax (0, 1) MIRROR = pad_dirichlet b u ax (0, 1) EXTEND) by (unfold pad_dirichlet; rewrite (int_not_half Ho), (int_isclose Ho); reflexivity).
    rewrite E, (@pad_const_edge b u ax lo hi 0 1 z) by (auto; lia). eexists. split; [reflexivity|]. split; [reflexivity|]. intros ix Hix Hj. cbn [get axmap ghost_value]. fold m.
    destruct (Z.ltb_spec (nth ax ix 0) m).
    + rewrite pad1_in by (fold m; lia). rewrite Z.sub_0_r, upd_nth_same. reflexivity.
    + rewrite pad1_out by (fold m; lia). rewrite (proj2 (Z.ltb_ge _ 0)) by lia. rewrite (proj2 (Z.eqb_eq _ m)) by lia. reflexivity.
  - assert (Hm : (0 < ushape u ax)%nat) by (unfold m in Hp; lia). destruct (@mirror_upper b u ax lo hi z Hal Hv (full_ok _ Hff) Ho Hm p) as (d & E & S & V); [fold m; lia|]. eauto.
Qed.
Lemma pad_down p : 1 <= p <= m + 1 -> exists d, pad_dirichlet b u ax (p, 0) mode = Ok d /\ shp d = upd ax (Z.to_nat (m + p)) (shp (gdata u)) /\
  forall ix, (ax < length ix)%nat -> 0 <= nth ax ix 0 < m + p ->
    get d ix = (if p <=? nth ax ix 0 then get (gdata u) (upd ax (nth ax ix 0 - p) ix) else if nth ax ix 0 =? p - 1 then lo else ghost_value mode lo (get (gdata u) (upd ax (p - 2 - nth ax ix 0) ix))).
Proof.
  intros Hp. destruct Hf as [-> | [-> Hff]]; [|destruct (Z.eq_dec p 1) as [->|Hp1]].
  - rewrite (@pad_const_edge b u ax lo hi p 0 z) by (auto; lia). eexists. split; [reflexivity|]. split; [cbn [shp axmap]; f_equal; fold m; lia|]. intros ix Hix Hj. cbn [get axmap ghost_value]. fold m.
    destruct (Z.leb_spec p (nth ax ix 0)).
    + rewrite pad1_in by (fold m; lia). reflexivity.
    + rewrite pad1_out by (fold m; lia). rewrite (proj2 (Z.ltb_lt _ 0)) by lia. destruct (nth ax ix 0 =? p - 1); reflexivity.
  - assert (E : pad_dirichlet b u ax (1, 0) MIRROR = pad_dirichlet b u ax (1, 0) EXTEND) by (unfold pad_dirichlet; rewrite (int_not_half Ho), (int_isclose Ho); reflexivity).
    rewrite E, (@pad_const_edge b u ax lo hi 1 0 z) by (auto; lia). eexists. split; [reflexivity|]. split; [cbn [shp axmap]; f_equal; fold m; lia|]. intros ix Hix Hj. cbn [get axmap ghost_value]. fold m.
    destruct (Z.leb_spec 1 (nth ax ix 0)).
    + rewrite pad1_in by (fold m; lia). reflexivity.
    + rewrite pad1_out by (fold m; lia). rewrite (proj2 (Z.ltb_lt _ 0)) by lia. rewrite (proj2 (Z.eqb_eq _ (1 - 1))) by lia. reflexivity.
  - assert (Hm : (0 < ushape u ax)%nat) by (unfold m in Hp; lia). destruct (@mirror_lower b u ax lo hi z Hal Hv (full_ok _ Hff) Ho Hm p) as (d & E & S & V); [fold m; lia|]. eauto.
Qed.
End PadBoth.

(** A box with walls on both axes: 1 and 2, 5 and 7 *)
Definition box_bc : bcs := constant_bc [(Dirichlet, Dirichlet); (Dirichlet, Dirichlet)] [(Some 1%R, Some 2%R); (Some 5%R, Some 7%R)].
Lemma box_edge : wf_garr exv /\ edge_walls box_bc exv 1 5 7 true /\ pad_mode_ok box_bc MIRROR.
Proof.
  split; [exact exv_wf|]. split; [split; [reflexivity|]; split; reflexivity|]. right. split; [reflexivity|]. intros v [<- |[<- |[]]]; split; discriminate.
Qed.

(* @prop C08 Padding edge-aligned data by w cells above the upper Dirichlet wall, where the wall is entry q of the result: entries below q are the data, entry q is the wall value hi, and the entries beyond it are hi with EXTEND and, with MIRROR, hi minus the mirror image about the wall (so that, unlike for cell-centred data, a ghost and its mirror image average to hi/2, not to hi). *)
Lemma edge_padding_above_lem : forall (b : bcs) (u : garr) (ax : nat) (lo hi : R) (top : bool) (w : Z) (mode : padmode),
  wf_garr u -> (ax < gndim (ggrid u))%nat -> edge_walls b u ax lo hi top -> pad_mode_ok b mode ->
  let n := Z.of_nat (nth ax (gshape (ggrid u)) 0%nat) in let q := if top then n - 1 else n in
  1 <= w -> n + w - 1 <= 2 * q ->
  exists r, bc_pad b u (WInt w) ax mode = Ok r /\ ggrid r = ggrid u /\ off_eq (goff r) (goff u) /\ shp (gdata r) = upd ax (Z.to_nat (n + w)) (gshape (ggrid u)) /\
    forall ix, (ax < length ix)%nat -> 0 <= nth ax ix 0 < n + w ->
      (nth ax ix 0 < q -> get (gdata r) ix = get (gdata u) ix) /\
      (nth ax ix 0 = q -> get (gdata r) ix = hi) /\
      (nth ax ix 0 > q -> get (gdata r) ix = ghost_value mode hi (get (gdata u) (upd ax (2 * q - nth ax ix 0) ix))).
Proof.
  intros b u ax lo hi top w mode Hw Hax He Hm n q H1 H2. pose proof (edge_aligned Hw Hax He) as Ea. destruct He as (Hb & Hv & Ho). fold (offat u ax) in Ho.
  destruct (wf_ax Hw Hax) as (Wl & Wo & Wn & Wu & _). destruct Hw as (_ & Ws & _).
  assert (Hb' : btype b ax = (Dirichlet, Dirichlet)) by (unfold btype; exact (nth_error_nth _ _ _ Hb)). assert (Hv' : bval b ax = (Some lo, Some hi)) by (unfold bval; exact (nth_error_nth _ _ _ Hv)).
  assert (EO : off_eq (upd ax (offat u ax - inject_Z 0)%Q (goff u)) (goff u)).
  { rewrite <- (upd_nth_same ax 0%Q (goff u)) at 2. apply off_upd_eq. unfold offat. transitivity (nth ax (goff u) 0 + 0)%Q; [unfold Qminus; reflexivity | ring]. }
  unfold bc_pad. rewrite Ea. cbn [bind]. unfold bc_pad_. rewrite (proj2 (Nat.ltb_lt _ _) Hax). cbn [negb]. rewrite (proj2 (Z.ltb_ge w 0)) by lia. rewrite (proj2 (Z.leb_le 0 w)) by lia.
  rewrite Hb'. cbn [fst snd isPer bctype_eqb]. fold n in Wn. destruct top.
  - rewrite trim_right_top by auto. destruct (@trim_both_top b u ax lo hi Hb' Hv' Ho Wl Wo Wu Wn) as (v & Et & Hg & Hoo & Hsv & Hget). rewrite Et. cbn [bind fst snd].
    change (0 + 0) with 0. assert (Euv : Z.of_nat (ushape v ax) = q) by (unfold ushape; rewrite Hsv, nth_upd_same by exact Wl; unfold q, n, gshp in *; lia).
    assert (Hlv : (ax < length (shp (gdata v)))%nat) by (rewrite Hsv, upd_length; exact Wl).
    assert (Hov : (offat v ax == inject_Z 1)%Q) by (unfold offat; rewrite (off_eq_nth ax Hoo); exact Ho).
    destruct (@pad_up b v ax lo hi 1 mode Hlv Hv' Hm Hov (w + 1)) as (d & E & S & V); [rewrite Euv; unfold q in *; lia|]. rewrite E. cbn [bind]. eexists. split; [reflexivity|]. cbn [ggrid goff gdata].
    split; [exact Hg|]. split; [exact EO|]. split; [rewrite S, Hsv, upd_upd_same, Ws, Euv; f_equal; unfold q; lia|]. intros ix Hix Hj. rewrite V by (rewrite ?Euv; unfold q; lia). rewrite Euv.
    rewrite !Hget by (rewrite ?upd_length; exact Hix).
    repeat split; intros K; destruct (Z.ltb_spec (nth ax ix 0) q); try lia; [reflexivity | rewrite (proj2 (Z.eqb_eq _ q) K); reflexivity | rewrite (proj2 (Z.eqb_neq _ q)) by lia; reflexivity].
  - rewrite trim_right_bot by auto. cbn [bind fst snd]. change (0 + 0) with 0. rewrite Z.add_0_r.
    assert (Euv : Z.of_nat (ushape u ax) = q) by (rewrite Wu; reflexivity).
    destruct (@pad_up b u ax lo hi 0 mode Wl Hv' Hm Ho w) as (d & E & S & V); [rewrite Euv; unfold q in *; lia|]. rewrite E. cbn [bind]. eexists. split; [reflexivity|]. cbn [ggrid goff gdata].
    split; [reflexivity|]. split; [exact EO|]. split; [rewrite S, Ws, Euv; reflexivity|]. intros ix Hix Hj. rewrite V by (rewrite ?Euv; unfold q; lia). rewrite Euv.
    repeat split; intros K; destruct (Z.ltb_spec (nth ax ix 0) q); try lia; [reflexivity | rewrite (proj2 (Z.eqb_eq _ q) K); reflexivity | rewrite (proj2 (Z.eqb_neq _ q)) by lia; reflexivity].
Qed.

(* @ex *)
Lemma edge_padding_above_ex_lem : wf_garr exv /\ edge_walls box_bc exv 1 5 7 true /\ pad_mode_ok box_bc MIRROR /\
  exists r, bc_pad box_bc exv (WInt 2) 1 MIRROR = Ok r /\ shp (gdata r) = [2; 5]%nat /\ get (gdata r) [1; 2] = 7%R /\ get (gdata r) [1; 3] = (-4)%R /\ get (gdata r) [1; 4] = (-3)%R.
Proof.
  destruct box_edge as (Hw & He & Hm). split; [exact Hw|]. split; [exact He|]. split; [exact Hm|].
  destruct (@edge_padding_above_lem box_bc exv 1 5 7 true 2 MIRROR Hw ltac:(cbn; lia) He Hm ltac:(lia) ltac:(cbn; lia)) as (r & E & _ & _ & S & V).
  exists r. split; [exact E|]. split; [exact S|]. split; [|split].
  - destruct (V [1; 2] ltac:(cbn; lia) ltac:(cbn; lia)) as (_ & K & _). apply K. reflexivity.
  - destruct (V [1; 3] ltac:(cbn; lia) ltac:(cbn; lia)) as (_ & _ & K). rewrite K by (cbn; lia). cbn. lra.
  - destruct (V [1; 4] ltac:(cbn; lia) ltac:(cbn; lia)) as (_ & _ & K). rewrite K by (cbn; lia). cbn. lra.
Qed.

(* @prop C08 The same below the lower Dirichlet wall: padding by w cells moves the data up by w entries and lowers the offset by w; with the wall at entry q, entries above q are the data, entry q is the wall value lo, and the entries below it are lo with EXTEND and lo minus the mirror image about the wall with MIRROR. *)
Lemma edge_padding_below_lem : forall (b : bcs) (u : garr) (ax : nat) (lo hi : R) (top : bool) (w : Z) (mode : padmode),
  wf_garr u -> (ax < gndim (ggrid u))%nat -> edge_walls b u ax lo hi top -> pad_mode_ok b mode ->
  let n := Z.of_nat (nth ax (gshape (ggrid u)) 0%nat) in let q := if top then w - 1 else w in
  1 <= w -> 2 * q - w < n ->
  exists r, bc_pad b u (WInt (- w)) ax mode = Ok r /\ ggrid r = ggrid u /\ off_eq (goff r) (upd ax (nth ax (goff u) 0 - inject_Z w)%Q (goff u)) /\ shp (gdata r) = upd ax (Z.to_nat (n + w)) (gshape (ggrid u)) /\
    forall ix, (ax < length ix)%nat -> 0 <= nth ax ix 0 < n + w ->
      (nth ax ix 0 > q -> get (gdata r) ix = get (gdata u) (upd ax (nth ax ix 0 - w) ix)) /\
      (nth ax ix 0 = q -> get (gdata r) ix = lo) /\
      (nth ax ix 0 < q -> get (gdata r) ix = ghost_value mode lo (get (gdata u) (upd ax (2 * q - nth ax ix 0 - w) ix))).
Proof.
  intros b u ax lo hi top w mode Hw Hax He Hm n q H1 H2. pose proof (edge_aligned Hw Hax He) as Ea. destruct He as (Hb & Hv & Ho). fold (offat u ax) in Ho.
  destruct (wf_ax Hw Hax) as (Wl & Wo & Wn & Wu & _). destruct Hw as (_ & Ws & _).
  assert (Hb' : btype b ax = (Dirichlet, Dirichlet)) by (unfold btype; exact (nth_error_nth _ _ _ Hb)). assert (Hv' : bval b ax = (Some lo, Some hi)) by (unfold bval; exact (nth_error_nth _ _ _ Hv)).
  unfold bc_pad. rewrite Ea. cbn [bind]. unfold bc_pad_. rewrite (proj2 (Nat.ltb_lt _ _) Hax). cbn [negb]. rewrite (proj2 (Z.ltb_lt (- w) 0)) by lia. rewrite (proj2 (Z.leb_gt 0 (- w))) by lia.
  rewrite Hb'. cbn [fst snd isPer bctype_eqb]. rewrite Z.opp_involutive. 
  assert (EO : off_eq (upd ax (offat u ax - inject_Z w)%Q (goff u)) (upd ax (nth ax (goff u) 0 - inject_Z w)%Q (goff u))) by (apply off_upd_eq; reflexivity).
  destruct top.
  - rewrite trim_left_top by auto. cbn [bind fst snd]. change (0 + 0) with 0. rewrite Z.add_0_r.
    assert (Euv : Z.of_nat (ushape u ax) = n) by (rewrite Wu; reflexivity).
    destruct (@pad_down b u ax lo hi 1 mode Wl Hv' Hm Ho w) as (d & E & S & V); [rewrite Euv; unfold q in *; lia|]. rewrite E. cbn [bind]. eexists. split; [reflexivity|]. cbn [ggrid goff gdata].
    split; [reflexivity|]. split; [exact EO|]. split; [rewrite S, Ws, Euv; reflexivity|]. intros ix Hix Hj. rewrite V by (rewrite ?Euv; unfold q; lia). unfold q in *.
    repeat split; intros K; destruct (Z.leb_spec w (nth ax ix 0)); try lia; [reflexivity | rewrite (proj2 (Z.eqb_eq _ (w - 1)) K); reflexivity | rewrite (proj2 (Z.eqb_neq _ (w - 1))) by lia; do 3 f_equal; lia].
  - destruct (@trim_left_bot b u ax Hb' Ho Wl Wo Wu Wn) as (v & Et & Hg & Hoo & Hsv & Hget). rewrite Et. cbn [bind fst snd]. change (0 + 0) with 0.
    assert (Euv : Z.of_nat (ushape v ax) = n - 1) by (unfold ushape; rewrite Hsv, nth_upd_same by exact Wl; unfold n, gshp in *; lia).
    assert (Hlv : (ax < length (shp (gdata v)))%nat) by (rewrite Hsv, upd_length; exact Wl).
    assert (Hov : (offat v ax == inject_Z 1)%Q) by (unfold offat; rewrite (off_eq_nth ax Hoo), nth_upd_same by exact Wo; reflexivity).
    destruct (@pad_down b v ax lo hi 1 mode Hlv Hv' Hm Hov (w + 1)) as (d & E & S & V); [rewrite Euv; unfold q in *; lia|]. rewrite E. cbn [bind]. eexists. split; [reflexivity|]. cbn [ggrid goff gdata].
    split; [exact Hg|]. split; [exact EO|]. split; [rewrite S, Hsv, upd_upd_same, Ws, Euv; f_equal; lia|]. intros ix Hix Hj. rewrite V by (rewrite ?Euv; unfold q; lia). unfold q in *.
    rewrite !Hget by (rewrite ?upd_length; exact Hix). unfold shiftix. rewrite !nth_upd_same, !upd_upd_same by exact Hix.
    repeat split; intros K; destruct (Z.leb_spec (w + 1) (nth ax ix 0)); try lia; [f_equal; f_equal; lia | rewrite (proj2 (Z.eqb_eq _ (w + 1 - 1))) by lia; reflexivity | rewrite (proj2 (Z.eqb_neq _ (w + 1 - 1))) by lia; do 3 f_equal; lia].
Qed.
(* @ex *)
Lemma edge_padding_below_ex_lem : wf_garr exv /\ edge_walls box_bc exv 1 5 7 true /\ pad_mode_ok box_bc MIRROR /\
  exists r, bc_pad box_bc exv (WInt (-2)) 1 MIRROR = Ok r /\ shp (gdata r) = [2; 5]%nat /\ get (gdata r) [1; 0] = (-5)%R /\ get (gdata r) [1; 1] = 5%R /\ get (gdata r) [1; 4] = 12%R.
Proof.
  destruct box_edge as (Hw & He & Hm). split; [exact Hw|]. split; [exact He|]. split; [exact Hm|].
  destruct (@edge_padding_below_lem box_bc exv 1 5 7 true 2 MIRROR Hw ltac:(cbn; lia) He Hm ltac:(lia) ltac:(cbn; lia)) as (r & E & _ & _ & S & V).
  exists r. split; [exact E|]. split; [exact S|]. split; [|split].
  - destruct (V [1; 0] ltac:(cbn; lia) ltac:(cbn; lia)) as (_ & _ & K). rewrite K by (cbn; lia). cbn. lra.
  - destruct (V [1; 1] ltac:(cbn; lia) ltac:(cbn; lia)) as (_ & K & _). apply K. reflexivity.
  - destruct (V [1; 4] ltac:(cbn; lia) ltac:(cbn; lia)) as (K & _ & _). rewrite K by (cbn; lia). cbn. lra.
Qed.

(* @prop C08 Refuted for edge-aligned data: with MIRROR padding a ghost and its mirror image about the wall do not average to the wall value, unless that value is 0 (the padded value is that of the wall minus the mirror image, where twice the wall value was meant). *)
Lemma edge_mirror_average_refuted_lem : ~ forall (b : bcs) (u : garr) (ax : nat) (lo hi : R) (top : bool) (w : Z) (r : garr) (ix : list Z),
  wf_garr u -> (ax < gndim (ggrid u))%nat -> edge_walls b u ax lo hi top -> pad_mode_ok b MIRROR ->
  let n := Z.of_nat (nth ax (gshape (ggrid u)) 0%nat) in let q := if top then n - 1 else n in
  1 <= w -> n + w - 1 <= 2 * q -> bc_pad b u (WInt w) ax MIRROR = Ok r ->
  (ax < length ix)%nat -> q < nth ax ix 0 < n + w ->
  ((get (gdata r) ix + get (gdata r) (upd ax (2 * q - nth ax ix 0)%Z ix)) / 2 = hi)%R.
Proof.
  intros H. destruct box_edge as (Hw & He & Hm).
  destruct (@edge_padding_above_lem box_bc exv 1 5 7 true 2 MIRROR Hw ltac:(cbn; lia) He Hm ltac:(lia) ltac:(cbn; lia)) as (r & E & _ & _ & S & V).
  specialize (H box_bc exv 1%nat 5%R 7%R true 2 r [1; 3] Hw ltac:(cbn; lia) He Hm ltac:(lia) ltac:(cbn; lia) E ltac:(cbn; lia) ltac:(cbn; lia)).
  destruct (V [1; 3] ltac:(cbn; lia) ltac:(cbn; lia)) as (_ & _ & K). rewrite K in H by (cbn; lia).
  destruct (V [1; 1] ltac:(cbn; lia) ltac:(cbn; lia)) as (K1 & _ & _). change (upd 1 (2 * (Z.of_nat (nth 1 (gshape (ggrid exv)) 0%nat) - 1) - nth 1 [1; 3] 0) [1; 3]) with [1; 1] in H.
  rewrite K1 in H by (cbn; lia). cbn in H. lra.
Qed.
