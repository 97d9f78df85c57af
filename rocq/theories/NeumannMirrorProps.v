(** * C10: mirrored padding beyond Neumann walls *)
From Verif Require Import Prelude NdArr Grids_model Spec Boundaries_model BoundariesPeriodic WallBC PRep PeriodicBCProps WallBCProps.
Set Implicit Arguments.
Local Open Scope Z_scope.

(* @prop C10 Two-sided MIRROR padding of cell-centred data between Neumann walls with derivatives g1 and g2, by any widths: the original cells are kept, and every ghost cell is its mirror image across the wall (when that is a cell of the array) plus the derivative times one cell width (above), or minus it (below). So homogeneous walls are mirrored exactly; with a nonzero derivative only the ghost next to the wall has the right slope. *)
Lemma neumann_mirror_padding_lem : forall b u lo hi ax g1 g2,
  wf_garr u -> (ax < gndim (ggrid u))%nat -> centred u ax ->
  lower_wall b ax Neumann g1 -> upper_wall b ax Neumann g2 -> (0 <= lo)%Z -> (0 <= hi)%Z ->
  let n := Z.of_nat (nth ax (gshape (ggrid u)) 0%nat) in let h := nth ax (gstep (ggrid u)) 0%R in
  exists r, bc_pad b u (WPair lo hi) ax MIRROR = Ok r /\ extends u r ax lo hi /\
    forall ix, inb (shp (gdata r)) ix ->
      (let m := (2 * lo - 1 - nth ax ix 0)%Z in
       (nth ax ix 0 < lo /\ m < lo + n)%Z -> get (gdata r) ix = (get (gdata r) (upd ax m ix) - h * g1)%R) /\
      (let m := (2 * (lo + n) - 1 - nth ax ix 0)%Z in
       (lo + n <= nth ax ix 0 /\ lo <= m)%Z -> get (gdata r) ix = (get (gdata r) (upd ax m ix) + h * g2)%R).
Proof.
  intros b u lo hi ax v1 v2 Hu Hax Hc H1 H2 Hlo Hhi n h.
  destruct (@pad_pair_full b u lo hi ax MIRROR Neumann v1 Neumann v2) as (r & E & Hext & Hl & Hh); auto;
    try (right; reflexivity); try (left; reflexivity || discriminate).
  destruct (wf_ax Hu Hax) as (_ & _ & Hn0 & _ & Hh0). unfold gshp in Hn0.
  exists r. split; [exact E|]. split; [exact Hext|]. intros ix Hix. split; intros m Hm; unfold m in *.
  - rewrite (Hl ix Hix) at 1 by lia. unfold gshp. fold n.
    rewrite ghost_src_mirror_lo by lia. cbn [ghost_val]. fold h.
    replace (lo + (-1 - (nth ax ix 0 - lo))) with (2 * lo - 1 - nth ax ix 0) by lia. change (hstep (ggrid u) ax) with h. ring.
  - rewrite (Hh ix Hix) at 1 by (unfold gshp; fold n; lia). unfold gshp. fold n.
    rewrite ghost_src_mirror_hi by lia. cbn [ghost_val]. change (hstep (ggrid u) ax) with h. ring.
Qed.
(* @ex *)
Lemma neumann_mirror_padding_ex_lem :
  exists r, bc_pad (exb Neumann Neumann) exu (WPair 2 2) 1 MIRROR = Ok r /\
    get (gdata r) (ix2 1 0) = (get (gdata r) (ix2 1 3) - 1 / 2 * 5)%R /\
    get (gdata r) (ix2 1 6) = (get (gdata r) (ix2 1 3) + 1 / 2 * 7)%R.
Proof.
  destruct (@neumann_mirror_padding_lem (exb Neumann Neumann) exu 2 2 1%nat 5 7 exu_wf exu_ax exu_centred
     (exb_lower _ _) (exb_upper _ _) ltac:(lia) ltac:(lia)) as (r & E & (Hg & Ho & Hs & _) & H).
  exists r. split; [exact E|].
  assert (I : forall j, 0 <= j < 7 -> inb (shp (gdata r)) [1; j]) by (intros j Hj; rewrite Hs; simpl; lia).
  destruct (H [1; 0] (I 0 ltac:(lia))) as [Ha _]. destruct (H [1; 6] (I 6 ltac:(lia))) as [_ Hb].
  split; [apply Ha; simpl; lia | apply Hb; simpl; lia].
Qed.

(* @prop C10 Refuted beyond the first ghost cell: with MIRROR padding by two cells, the difference between the second ghost and its mirror image, divided by their distance of three cell widths, is not the derivative prescribed at the wall. *)
Lemma neumann_mirror_slope_refuted_lem : ~ forall b u hi ax g r ix,
  wf_garr u -> (ax < gndim (ggrid u))%nat -> centred u ax -> lower_wall b ax Neumann g -> upper_wall b ax Neumann g ->
  let n := Z.of_nat (nth ax (gshape (ggrid u)) 0%nat) in let h := nth ax (gstep (ggrid u)) 0%R in
  bc_pad b u (WPair 0 hi) ax MIRROR = Ok r -> inb (shp (gdata r)) ix -> n <= nth ax ix 0 ->
  let m := 2 * n - 1 - nth ax ix 0 in 0 <= m ->
  ((get (gdata r) ix - get (gdata r) (upd ax m ix)) / (IZR (nth ax ix 0%Z - m)%Z * h) = g)%R.
Proof.
  intros H. set (b := constant_bc [(Periodic, Periodic); (Neumann, Neumann)] [(None, None); (Some 5%R, Some 5%R)]).
  assert (L : lower_wall b 1 Neumann 5) by (exists Neumann, (Some 5%R); split; reflexivity).
  assert (U : upper_wall b 1 Neumann 5) by (exists Neumann, (Some 5%R); split; reflexivity).
  destruct (@neumann_mirror_padding_lem b exu 0 2 1%nat 5 5 exu_wf exu_ax exu_centred L U ltac:(lia) ltac:(lia)) as (r & E & (Hg & Ho & Hs & _) & V).
  assert (I : inb (shp (gdata r)) [1; 4]) by (rewrite Hs; simpl; lia).
  specialize (H b exu 2 1%nat 5%R r [1; 4] exu_wf exu_ax exu_centred L U E I ltac:(cbn; lia) ltac:(cbn; lia)).
  destruct (V [1; 4] I) as [_ K]. rewrite K in H by (cbn; lia). clear K V.
  change (nth 1 [1; 4] 0) with 4 in H. change (Z.of_nat (nth 1 (gshape (ggrid exu)) 0%nat)) with 3 in H. change (nth 1 (gstep (ggrid exu)) 0%R) with (1 / 2)%R in H.
  change (2 * (0 + 3) - 1 - 4) with (2 * 3 - 1 - 4) in H. cbn [Z.mul Z.sub Z.add Z.opp Pos.mul Z.pos_sub Pos.add Pos.pred_double Pos.sub] in H.
  match type of H with context [IZR ?z] => change z with 3 in H end.
  assert (K2 : forall x : R, ((x + 1 / 2 * 5 - x) / (3 * (1 / 2)) <> 5)%R) by (intros x; lra). exact (K2 _ H).
Qed.
