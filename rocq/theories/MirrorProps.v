(** * Property C74: mirror convolutions *)
From Verif Require Import Prelude NdArr Grids_model Boundaries_model BoundariesPeriodic Spec SpecTile SpecTower SpecMirror PRep ArrayUtils_model Viscosities_model Tiling_model Towers_model TowerProps TilingProofs TilingProps FDProofs StencilProofs MirrorConv_model InterpProps ViscosityProps ArrayUtilsProps SpecVisc.
From Coq Require Lqa.
Set Implicit Arguments.
Local Open Scope Z_scope.

Lemma aligned_periodic b u ax : btype b ax = (Periodic, Periodic) -> (gshp u ax <= ushape u ax)%nat -> is_aligned b u ax = Ok tt.
Proof.
  intros Hb Hs. unfold is_aligned. rewrite Hb. cbn [fst snd isNeu isDir bctype_eqb andb]. replace (_ <? 0) with false by (symmetry; apply Z.ltb_ge; lia). reflexivity.
Qed.

(** padding one periodic axis on both sides *)
Lemma pad_pair_periodic b u lo hi ax mode F :
  (ax < gndim (ggrid u))%nat -> (ax < length (shp (gdata u)))%nat -> btype b ax = (Periodic, Periodic) -> (0 < gshp u ax <= ushape u ax)%nat ->
  axper ax (gshp u ax) F -> (forall ix, inb (shp (gdata u)) ix -> get (gdata u) ix = F ix) -> 0 <= lo -> 0 <= hi ->
  exists w, bc_pad b u (WPair lo hi) ax mode = Ok w /\ ggrid w = ggrid u /\ length (goff w) = length (goff u) /\
    shp (gdata w) = upd ax (ushape u ax + Z.to_nat lo + Z.to_nat hi)%nat (shp (gdata u)) /\
    forall ix, inb (shp (gdata w)) ix -> get (gdata w) ix = F (shiftix ax (- lo) ix).
Proof.
  intros Hd Hax Hb Hs HF Hget Hlo Hhi. unfold bc_pad. rewrite (@aligned_periodic b u ax Hb ltac:(lia)). cbn [bind].
  destruct (@pad_periodic b u (- lo) ax mode F 0 Hd Hax Hb Hs HF) as (v & Ev & Gv & Ov & Sv & Vv).
  { intros ix Hi. rewrite shiftix_0. apply Hget; exact Hi. }
  rewrite Ev. cbn [bind].
  assert (Uv : ushape v ax = (ushape u ax + Z.to_nat lo)%nat) by (unfold ushape at 1; rewrite Sv, nth_upd_same by auto; lia).
  assert (Nv : gshp v ax = gshp u ax) by (unfold gshp; rewrite Gv; reflexivity).
  destruct (@pad_periodic b v hi ax mode F (0 - Z.max 0 (- - lo))) as (w & Ew & Gw & Ow & Sw & Vw).
  - rewrite Gv; exact Hd.
  - rewrite Sv, upd_length; exact Hax.
  - exact Hb.
  - rewrite Uv, Nv. lia.
  - rewrite Nv; exact HF.
  - exact Vv.
  - exists w. split; [exact Ew|]. split; [congruence|]. split; [rewrite Ow, upd_length, Ov, upd_length; reflexivity|]. split.
    + rewrite Sw, Sv, upd_upd_same, Uv. f_equal. lia.
    + intros ix Hi. rewrite Vw by exact Hi. f_equal. f_equal. lia.
Qed.

(** trimming a periodic axis with a nonnegative offset takes cells from the upper end only *)
Lemma trim_upper b u ax : btype b ax = (Periodic, Periodic) -> (ax < length (shp (gdata u)))%nat -> (gshp u ax <= ushape u ax)%nat -> (0 <= offat u ax)%Q ->
  exists w p, trim_padding b u ax Both = Ok (w, p) /\ ggrid w = ggrid u /\ off_eq (goff w) (goff u) /\ shp (gdata w) = upd ax (gshp u ax) (shp (gdata u)) /\
    forall ix, get (gdata w) ix = get (gdata u) ix.
Proof.
  intros Hb Hax Hs Ho. unfold trim_padding. replace (gshp u ax <=? ushape u ax)%nat with true by (symmetry; apply Nat.leb_le; exact Hs).
  assert (Hleft : exists v nt, (if Qle_bool (offat u ax) 0 && true then let nt := neg_trim b u ax in let* u' := bc_trim u nt ax in Ok (u', nt) else Ok (u, 0)) = Ok (v, nt) /\
     ggrid v = ggrid u /\ off_eq (goff v) (goff u) /\ shp (gdata v) = shp (gdata u) /\ forall ix, get (gdata v) ix = get (gdata u) ix).
  { destruct (Qle_bool (offat u ax) 0) eqn:E; cbn [andb].
    - apply Qle_bool_iff in E. assert (E0 : (offat u ax == 0)%Q) by Lqa.lra.
      assert (En : neg_trim b u ax = 0). { unfold neg_trim. rewrite Hb. cbn [fst isPer bctype_eqb]. rewrite (Qceiling_comp (- offat u ax) 0) by (rewrite E0; reflexivity). cbn. lia. }
      cbv zeta. rewrite En, bc_trim_spec by lia. cbn [bind]. eexists; eexists; split; [reflexivity|]. cbn [ggrid goff gdata shp axmap get].
      split; [reflexivity|]. split; [|split].
      + rewrite <- (upd_nth_same ax 0%Q (goff u)) at 2. apply off_eq_upd; [apply off_eq_refl|]. unfold offat. change (inject_Z (Z.max 0 (- 0))) with 0%Q. ring.
      + change (Z.abs 0) with 0. rewrite Z.sub_0_r, Nat2Z.id. unfold ushape. apply upd_nth_same.
      + intros ix. change (Z.max 0 (- 0)) with 0. rewrite Z.add_0_r, upd_nth_same. reflexivity.
    - exists u, 0. split; [reflexivity|]. split; [reflexivity|]. split; [apply off_eq_refl|]. split; reflexivity. }
  destruct Hleft as (v & nt & Ev & Gv & Ov & Sv & Vv).
  match type of Ev with ?a = _ => match goal with |- context [bind ?b _] => change b with a end end. rewrite Ev. cbn [bind]. cbv zeta.
  assert (Uv : ushape v ax = ushape u ax) by (unfold ushape; rewrite Sv; reflexivity).
  assert (Nv : gshp v ax = gshp u ax) by (unfold gshp; rewrite Gv; reflexivity).
  assert (Ep : pos_trim b v ax = Z.of_nat (ushape u ax) - Z.of_nat (gshp u ax)) by (unfold pos_trim; rewrite Hb; cbn [snd isPer bctype_eqb]; rewrite Uv, Nv; lia).
  rewrite Ep. destruct (Z.ltb_spec 0 (Z.of_nat (ushape u ax) - Z.of_nat (gshp u ax))) as [Hp|Hp].
  - rewrite bc_trim_spec by (rewrite Uv; lia). cbn [bind]. eexists; eexists; split; [reflexivity|]. cbn [ggrid goff gdata shp axmap get]. split; [exact Gv|]. split; [|split].
    + apply off_eq_trans with (goff v); [|exact Ov]. rewrite <- (upd_nth_same ax 0%Q (goff v)) at 2. apply off_eq_upd; [apply off_eq_refl|].
      replace (Z.max 0 _) with 0 by lia. unfold offat. change (inject_Z 0) with 0%Q. ring.
    + rewrite Sv, Uv. f_equal. lia.
    + intros ix. replace (Z.max 0 _) with 0 by lia. rewrite Z.add_0_r, upd_nth_same. apply Vv.
  - cbn [bind]. exists v. eexists; split; [reflexivity|]. split; [exact Gv|]. split; [exact Ov|]. split; [|exact Vv].
    rewrite Sv. symmetry. etransitivity; [|apply (upd_nth_same ax 0%nat)]. f_equal. unfold ushape in *. lia.
Qed.

Section Mirror.
Variables (g : grid) (n m : nat).
Hypotheses (Hg : gshape g = [n; m]) (Hn : (0 < n)%nat) (Hm : (0 < m)%nat).

Lemma gd2 : gndim g = 2%nat. Proof. unfold gndim. rewrite Hg. reflexivity. Qed.

Lemma impose_periodic b y o n' m' : perbc g b -> length o = 2%nat -> (forall i, (i < 2)%nat -> (0 <= nth i o 0)%Q) -> shp y = [n'; m'] -> (n <= n')%nat -> (m <= m')%nat ->
  exists w, impose_bc b (mkga y o g) = Ok (mkgv w b) /\ prep g o (get y) w.
Proof.
  intros Hb Lo Ho Sy Hn' Hm'. unfold impose_bc, trim_boundary. cbn [goff ggrid]. rewrite gd2. cbn [seq foldM].
  assert (B0 : btype b 0 = (Periodic, Periodic)) by (apply (@btype_perbc g); [exact Hb | rewrite gd2; lia]).
  assert (B1 : btype b 1 = (Periodic, Periodic)) by (apply (@btype_perbc g); [exact Hb | rewrite gd2; lia]).
  set (u := mkga y o g).
  assert (U0 : ushape u 0 = n') by (unfold ushape, u; cbn [gdata]; rewrite Sy; reflexivity).
  assert (G0 : gshp u 0 = n) by (unfold gshp, u; cbn [ggrid]; rewrite Hg; reflexivity).
  rewrite (@aligned_periodic b u 0%nat B0) by (rewrite U0, G0; lia). cbn [bind].
  destruct (@trim_upper b u 0 B0) as (v & p & Ev & Gv & Ov & Sv & Vv).
  { unfold u; cbn [gdata]; rewrite Sy; cbn; lia. } { rewrite U0, G0; lia. } { apply Ho; lia. }
  rewrite Ev. cbn [bind fst].
  assert (Sv' : shp (gdata v) = [n; m']) by (rewrite Sv, G0; unfold u; cbn [gdata]; rewrite Sy; reflexivity).
  assert (U1 : ushape v 1 = m') by (unfold ushape; rewrite Sv'; reflexivity).
  assert (G1 : gshp v 1 = m) by (unfold gshp; rewrite Gv; unfold u; cbn [ggrid]; rewrite Hg; reflexivity).
  rewrite (@aligned_periodic b v 1%nat B1) by (rewrite U1, G1; lia). cbn [bind].
  destruct (@trim_upper b v 1 B1) as (w & q & Ew & Gw & Ow & Sw & Vw).
  { rewrite Sv'; cbn; lia. } { rewrite U1, G1; lia. } { unfold offat. rewrite (off_eq_nth 1 Ov). apply (Ho 1%nat). lia. }
  rewrite Ew. cbn [bind fst].
  assert (Sw' : shp (gdata w) = [n; m]) by (rewrite Sw, G1, Sv'; reflexivity).
  assert (Ggw : ggrid w = g) by (rewrite Gw, Gv; reflexivity).
  unfold pad_and_impose_bc. rewrite Ggw, gd2. cbn [seq foldM].
  rewrite (@aligned_periodic b w 0%nat B0) by (unfold gshp, ushape; rewrite Sw', Ggw, Hg; cbn; lia). cbn [bind]. rewrite B0. cbn [fst isDir bctype_eqb andb bind].
  rewrite (@aligned_periodic b w 1%nat B1) by (unfold gshp, ushape; rewrite Sw', Ggw, Hg; cbn; lia). cbn [bind]. rewrite B1. cbn [fst isDir bctype_eqb andb bind].
  unfold mk_gvar. rewrite Hb, repeat_length, Ggw, Nat.eqb_refl. exists w. split; [reflexivity|].
  split; [exact Ggw|]. split; [apply off_eq_trans with (goff v); [exact Ow | exact Ov]|]. split; [rewrite Sw', Hg; reflexivity|].
  intros ix _. rewrite Vw, Vv. reflexivity.
Qed.

Lemma pad_all_periodic b u o P Q mode : perbc g b -> prep g o (get (gdata u)) u -> 0 <= P -> 0 <= Q ->
  exists w, bc_pad_all b u (repeat (P, Q) (gndim (ggrid u))) mode = Ok w /\ shp (gdata w) = [(n + Z.to_nat P + Z.to_nat Q)%nat; (m + Z.to_nat P + Z.to_nat Q)%nat] /\
    forall i j, inb (shp (gdata w)) [i; j] -> get (gdata w) [i; j] = get (gdata u) [(i - P) mod Z.of_nat n; (j - P) mod Z.of_nat m].
Proof.
  intros Hb (Gu & Ou & Su & _) HP HQ. unfold bc_pad_all. rewrite Gu, gd2. cbn [seq foldM repeat nth_error].
  assert (B0 : btype b 0 = (Periodic, Periodic)) by (apply (@btype_perbc g); [exact Hb | rewrite gd2; lia]).
  assert (B1 : btype b 1 = (Periodic, Periodic)) by (apply (@btype_perbc g); [exact Hb | rewrite gd2; lia]).
  rewrite Hg in Su.
  set (F := fun ix => pval u (wrap [n; m] ix)).
  assert (A0 : axper 0 n F) by (apply (@axper_of_periodic [n; m] 0 (pval u)); [rewrite <- Su; apply periodic_pval | cbn; lia]).
  assert (A1 : axper 1 m F) by (apply (@axper_of_periodic [n; m] 1 (pval u)); [rewrite <- Su; apply periodic_pval | cbn; lia]).
  assert (HF : forall ix, inb [n; m] ix -> get (gdata u) ix = F ix).
  { intros ix Hi. unfold F, pval. rewrite Su, !(wrap_inb _ _ Hi). reflexivity. }
  assert (U0 : ushape u 0 = n) by (unfold ushape; rewrite Su; reflexivity).
  assert (N0 : gshp u 0 = n) by (unfold gshp; rewrite Gu, Hg; reflexivity).
  destruct (@pad_pair_periodic b u P Q 0 mode F) as (v & Ev & Gv & Ov & Sv & Vv).
  { rewrite Gu, gd2; lia. } { rewrite Su; cbn; lia. } { exact B0. } { rewrite U0, N0; lia. } { rewrite N0; exact A0. } { rewrite Su; exact HF. } { exact HP. } { exact HQ. }
  rewrite Ev. cbn [bind]. rewrite Su, U0 in Sv. cbn [upd] in Sv.
  assert (U1 : ushape v 1 = m) by (unfold ushape; rewrite Sv; reflexivity).
  assert (N1 : gshp v 1 = m) by (unfold gshp; rewrite Gv, Gu, Hg; reflexivity).
  destruct (@pad_pair_periodic b v P Q 1 mode (fun ix => F (shiftix 0 (- P) ix))) as (w & Ew & Gw & Ow & Sw & Vw).
  { rewrite Gv, Gu, gd2; lia. } { rewrite Sv; cbn; lia. } { exact B1. } { rewrite U1, N1; lia. }
  { rewrite N1. intros ix i. unfold shiftix. rewrite !nth_upd_other by lia. rewrite !(fun x y l => @upd_upd_comm Z 0%nat 1%nat x y l ltac:(lia)). apply A1. }
  { exact Vv. } { exact HP. } { exact HQ. }
  rewrite Ew. cbn [bind]. exists w. split; [reflexivity|]. rewrite Sv, U1 in Sw. cbn [upd] in Sw. split; [exact Sw|].
  intros i j Hij. rewrite Vw by exact Hij. unfold F, shiftix, pval. cbn [nth upd wrap]. rewrite Su. cbn [wrap].
  rewrite !Z.mod_mod by lia. replace (i + - P) with (i - P) by lia. replace (j + - P) with (j - P) by lia. reflexivity.
Qed.
End Mirror.

Lemma span_reach rate k t : (0 < k)%nat -> 0 <= t < Z.of_nat k -> 0 <= Z.of_nat rate * t <= Z.of_nat (span rate k) - 1.
Proof.
  intros Hk Ht. replace (Z.of_nat (span rate k) - 1) with (Z.of_nat rate * (Z.of_nat k - 1)) by (unfold span; rewrite Nat2Z.inj_add, Nat2Z.inj_mul, Nat2Z.inj_sub by lia; lia).
  split; [apply Z.mul_nonneg_nonneg; lia | apply Z.mul_le_mono_nonneg_l; lia].
Qed.
Lemma combine_nth_error {A B} (l : list A) (r : list B) k a b : nth_error (combine l r) k = Some (a, b) -> nth_error l k = Some a /\ nth_error r k = Some b.
Proof.
  revert r k; induction l as [|x l IH]; intros [|y r] [|k] H; cbn in *; try discriminate.
  - injection H as -> ->. auto.
  - apply IH; exact H.
Qed.

(* @prop C74 For periodic fields in the plane MirrorConv2D returns on every cell the correlation with the kernel centred not on that cell but on the cell that lies half the other axis' kernel before it along each axis: the paddings of the two axes are added up. It returns as many fields as the smaller of the number of output channels and of inputs: further output channels are lost. *)
Lemma mirror_conv_displaced_lem : forall g x vs p cout k0 k1 nd rate,
  plane_fields g x vs -> vs <> [] -> (0 < rate)%nat -> (0 < k0)%nat -> (0 < k1)%nat ->
  exists ys, mirror_convolution p cout [k0; k1] nd rate vs = Ok ys /\ length ys = Nat.min cout (length vs) /\
    forall k v y, nth_error vs k = Some v -> nth_error ys k = Some y -> gbc y = gbc v /\
      is_field (garray y) g (goff (garray v))
        (fun ix => centred_correlation g k0 k1 (length vs) rate (weights p) (bias p) x
                     [nth 0 ix 0 - Z.of_nat (span rate k1 / 2); nth 1 ix 0 - Z.of_nat (span rate k0 / 2)] (Z.of_nat k)).
Proof.
  intros g x vs p cout k0 k1 nd rate ((n & m & Hg & Hn & Hm) & Hvs) Hne Hr H0 H1.
  set (e0 := span rate k0). set (e1 := span rate k1). set (h0 := (e0 / 2)%nat). set (h1 := (e1 / 2)%nat).
  set (P := Z.of_nat (h0 + h1)). set (Q := Z.of_nat (e0 - h0 - 1 + (e1 - h1 - 1))).
  assert (EP : mirror_padding rate [k0; k1] = (P, Q)).
  { unfold mirror_padding. cbn [fold_left fst snd]. rewrite !eff_span by assumption. fold e0 e1 h0 h1. f_equal; unfold P, Q; lia. }
  pose proof (half_span_le rate k0) as (_ & A0). pose proof (half_span_le rate k1) as (_ & A1). fold e0 h0 in A0. fold e1 h1 in A1.
  unfold mirror_convolution, mirror_conv_general.
  set (n' := (n + Z.to_nat P + Z.to_nat Q)%nat). set (m' := (m + Z.to_nat P + Z.to_nat Q)%nat).
  set (G := mkgrid [n'; m'] [] []).
  destruct (@mapM_F2 _ _ (expand_var rate [k0; k1]) (fun v d => shp d = [n'; m'] /\ forall i j, inb [n'; m'] [i; j] -> get d [i; j] = get (gdata (garray v)) [(i - P) mod Z.of_nat n; (j - P) mod Z.of_nat m]) vs) as (ds & Eds & Hds).
  { intros v Hv. destruct (In_nth_error _ _ Hv) as (k & Ek). destruct (Hvs k v Ek) as (Hb & Lo & Po & Hf).
    destruct (@pad_all_periodic g n m Hg Hn Hm (gbc v) (garray v) (goff (garray v)) P Q MIRROR Hb) as (w & Ew & Sw & Vw).
    { destruct Hf as (B1 & B2 & B3 & _). split; [exact B1|]. split; [exact B2|]. split; [exact B3|]. reflexivity. }
    { unfold P; lia. } { unfold Q; lia. }
    unfold expand_var. rewrite EP, Ew. cbn [bind]. exists (gdata w). split; [reflexivity|]. split; [exact Sw|]. intros i j Hij. apply Vw. rewrite Sw. exact Hij. }
  rewrite Eds. cbn [bind]. pose proof (F2_length Hds) as Lds.
  destruct (@stack_last_channels G ds (fun k ix => get x [(nth 0 ix 0 - P) mod Z.of_nat n; (nth 1 ix 0 - P) mod Z.of_nat m; Z.of_nat k])) as (z & Ez & Sz & Vz).
  { destruct vs; [congruence|]. rewrite <- Lds. cbn. lia. }
  { intros k Hk. assert (Hk' : (k < length vs)%nat) by lia. destruct (nth_error vs k) as [v|] eqn:Ev; [|apply nth_error_None in Ev; lia].
    destruct (Forall2_nth' (mkgv (mkga (mkarr [] (fun _ => 0%R)) [] g) (mkbc [] [] true)) (mkarr [] (fun _ => 0%R)) Hds Hk') as (S1 & V1).
    rewrite (nth_error_nth vs k _ Ev) in V1. split; [exact S1|]. intros ix Hix. cbn [gshape G] in Hix.
    destruct ix as [|i [|j [|]]]; cbn in Hix; try tauto. cbn [nth]. rewrite V1 by (cbn; tauto).
    destruct (Hvs k v Ev) as (_ & _ & _ & (_ & _ & _ & D)). apply D. rewrite Hg. cbn. pose proof (Z.mod_pos_bound (i - P) (Z.of_nat n) ltac:(lia)). pose proof (Z.mod_pos_bound (j - P) (Z.of_nat m) ltac:(lia)). tauto. }
  rewrite Ez. cbn [bind]. rewrite <- Lds in Sz, Vz. cbn [gshape G app] in Sz.
  destruct (@hk_conv_windows p (length vs) cout [k0; k1] rate 1 Hr ltac:(lia)) as (_ & W).
  { intros [|[|i]] Hi; cbn in *; lia. }
  set (zb := mkarr (1%nat :: shp z) (fun ix => get z (tl ix))).
  destruct (W zb 1%nat [n'; m']) as (y & Ey & Sy & Vy).
  { unfold zb. cbn [shp]. rewrite Sz. reflexivity. } { reflexivity. }
  { intros i Hi. cbn [map length] in Hi. cbn [map]. rewrite !eff_span by assumption. fold e0 e1. destruct i as [|[|i]]; cbn [nth] in *; unfold n', m', P, Q; cbn in Hi; lia. }
  cbn [map length seq nth] in Sy. rewrite !eff_span in Sy by assumption. fold e0 e1 in Sy. rewrite !Nat.div_1_r in Sy.
  unfold unbatched. fold zb. cbn [length] in Ey. rewrite Ey. cbn [bind].
  set (yo := mkarr (tl (shp y)) (fun ix => get y (0 :: ix))).
  assert (Syo : shp yo = [(n' - e0 + 1)%nat; (m' - e1 + 1)%nat; cout]) by (unfold yo; cbn [shp]; rewrite Sy; reflexivity).
  set (L := combine (channel_arrays yo) vs).
  assert (LL : length L = Nat.min cout (length vs)).
  { unfold L, channel_arrays. rewrite combine_length, map_length, seq_length, Syo. reflexivity. }
  destruct (@mapM_F2 _ _ (fun vi => let '(var, var_input) := vi in impose_bc (gbc var_input) (mkga var (goff (garray var_input)) (ggrid (garray var_input))))
     (fun vi r => gbc r = gbc (snd vi) /\ is_field (garray r) g (goff (garray (snd vi))) (get (fst vi))) L) as (ys & Eys & Hys).
  { intros (var & v) Hin. destruct (In_nth_error _ _ Hin) as (k & Ek). destruct (combine_nth_error _ _ _ Ek) as (E1 & E2).
    destruct (Hvs k v E2) as (Hb & Lo & Po & (Gv & _)). rewrite Gv.
    destruct (@impose_periodic g n m Hg Hn Hm (gbc v) var (goff (garray v)) (n' - e0 + 1)%nat (m' - e1 + 1)%nat Hb Lo) as (w & Ew & Hw).
    { intros i Hi. rewrite Forall_forall in Po. apply Po. apply nth_In. lia. }
    { unfold channel_arrays in E1. rewrite nth_error_map in E1. destruct (nth_error (seq 0 (last (shp yo) 0%nat)) k); [|discriminate]. cbn [option_map] in E1. injection E1 as <-. change (removelast (shp yo) = [(n' - e0 + 1)%nat; (m' - e1 + 1)%nat]). rewrite Syo. reflexivity. }
    { unfold n', P, Q; lia. } { unfold m', P, Q; lia. }
    rewrite Ew. eexists; split; [reflexivity|]. cbn [gbc garray fst snd]. split; [reflexivity | exact Hw]. }
  exists ys. split; [exact Eys|]. pose proof (F2_length Hys) as Lys. split; [lia|].
  intros k v r Ev Er. assert (Hk : (k < length L)%nat) by (rewrite Lys; apply nth_error_Some; congruence).
  destruct (nth_error L k) as [[var v']|] eqn:EL; [|apply nth_error_None in EL; lia].
  destruct (combine_nth_error _ _ _ EL) as (E1 & E2). rewrite Ev in E2. injection E2 as <-.
  destruct (Forall2_nth' (var, v) r Hys Hk) as (F1 & F2). rewrite (nth_error_nth L k _ EL), (nth_error_nth ys k _ Er) in F1, F2. cbn [fst snd] in F1, F2.
  split; [exact F1|]. eapply prep_ext; [|exact F2]. intros ix Hix. rewrite Hg in Hix.
  destruct ix as [|i [|j [|]]]; cbn in Hix; try tauto.
  unfold channel_arrays in E1. rewrite nth_error_map in E1. destruct (nth_error (seq 0 (last (shp yo) 0%nat)) k) as [k'|] eqn:Es; [|discriminate]. cbn [option_map] in E1. injection E1 as <-.
  assert (Hk2 : (k < cout)%nat) by (rewrite LL in Hk; lia).
  assert (k' = k). { rewrite Syo in Es. cbn [last] in Es. rewrite (nth_error_nth' _ 0%nat) in Es by (rewrite seq_length; exact Hk2). rewrite seq_nth in Es by exact Hk2. cbn [plus] in Es. injection Es as <-. reflexivity. } subst k'.
  cbn [get]. unfold yo. cbn [get]. change (0 :: [i; j] ++ [Z.of_nat k]) with (0 :: [i; j] ++ [Z.of_nat k]). rewrite Vy.
  2:{ rewrite Sy. cbn. unfold n', m', P, Q. repeat split; lia. }
  unfold centred_correlation, dilated_correlation. f_equal. apply asum_ext. intros tx Htx.
  destruct tx as [|t0 [|t1 [|c [|]]]]; cbn in Htx; try tauto. f_equal.
  unfold zb. cbn [get tl map firstn length nth seq app].
  replace c with (Z.of_nat (Z.to_nat c)) at 1 by lia.
  change ([Z.of_nat 1 * i + Z.of_nat rate * t0; Z.of_nat 1 * j + Z.of_nat rate * t1; Z.of_nat (Z.to_nat c)]) with ([Z.of_nat 1 * i + Z.of_nat rate * t0; Z.of_nat 1 * j + Z.of_nat rate * t1] ++ [Z.of_nat (Z.to_nat c)]).
  assert (T0 : 0 <= Z.of_nat rate * t0 <= Z.of_nat e0 - 1) by (apply span_reach; tauto).
  assert (T1 : 0 <= Z.of_nat rate * t1 <= Z.of_nat e1 - 1) by (apply span_reach; tauto).
  change (Z.of_nat 1) with 1. rewrite !Z.mul_1_l. rewrite Vz; [| lia | cbn [gshape G inb]; unfold n', m', P, Q; split; [|split; [|exact I]]; lia].
  cbn [nth]. rewrite Z2Nat.id by lia. rewrite Hg. unfold cell_at. cbn [seq length map nth app]. fold e0 e1 h0 h1.
  do 2 f_equal; [f_equal; unfold P; lia|]. do 2 f_equal. unfold P; lia.
Qed.

Definition mir_grid : grid := mkgrid [3; 4]%nat [1; 1]%R [(0, 3); (0, 4)]%R.
Definition mir_x : arr R := mkarr [3; 4; 1]%nat (fun ix => IZR (nth 0 ix 0)).
Definition mir_v : gvar := mkgv (mkga (mkarr [3; 4]%nat (fun ix => IZR (nth 0 ix 0))) [1 # 2; 1 # 2]%Q mir_grid) (mkbc [(Periodic, Periodic); (Periodic, Periodic)] [(Some 0, Some 0); (Some 0, Some 0)]%R true).
Lemma mir_fields : plane_fields mir_grid mir_x [mir_v].
Proof.
  split; [exists 3%nat, 4%nat; cbn; repeat split; lia|]. intros [|[|k]] v Hv; cbn in Hv; try discriminate. injection Hv as <-.
  split; [reflexivity|]. split; [reflexivity|]. split; [repeat constructor; discriminate|].
  split; [reflexivity|]. split; [apply off_eq_refl|]. split; [reflexivity|]. intros ix Hix. destruct ix as [|i [|j [|]]]; cbn in Hix; tauto || reflexivity.
Qed.
Definition centre_tap : params := mkparams (fun tx => if list_eq_dec Z.eq_dec tx [1; 1; 0; 0] then 1%R else 0%R) (fun _ => 0%R).

(* @ex *)
Lemma mirror_conv_displaced_ex_lem : plane_fields mir_grid mir_x [mir_v] /\ exists y, mirror_convolution centre_tap 1 [3; 3]%nat 2 1 [mir_v] = Ok [y] /\ get (gdata (garray y)) [0; 0] = 2%R.
Proof.
  split; [exact mir_fields|].
  destruct (@mirror_conv_displaced_lem mir_grid mir_x [mir_v] centre_tap 1%nat 3%nat 3%nat 2%nat 1%nat mir_fields ltac:(discriminate) ltac:(lia) ltac:(lia) ltac:(lia)) as (ys & E & L & H).
  cbn [length Nat.min] in L. destruct ys as [|y [|y2 ys]]; [discriminate L | | discriminate L]. exists y. split; [exact E|].
  destruct (H 0%nat mir_v y eq_refl eq_refl) as (_ & (_ & _ & _ & V)). rewrite V by (cbn; lia).
  unfold centred_correlation, dilated_correlation. cbn. ring.
Qed.

(* @prop C74 With 1 by 1 kernels MirrorConv2D computes the correlation on the cell itself. *)
Lemma mirror_conv_pointwise_lem : forall g x vs p cout nd rate,
  plane_fields g x vs -> vs <> [] -> (0 < rate)%nat ->
  exists ys, mirror_convolution p cout [1; 1]%nat nd rate vs = Ok ys /\ length ys = Nat.min cout (length vs) /\
    forall k v y, nth_error vs k = Some v -> nth_error ys k = Some y -> gbc y = gbc v /\
      is_field (garray y) g (goff (garray v)) (fun ix => centred_correlation g 1 1 (length vs) rate (weights p) (bias p) x ix (Z.of_nat k)).
Proof.
  intros g x vs p cout nd rate Hf Hne Hr. destruct (@mirror_conv_displaced_lem g x vs p cout 1%nat 1%nat nd rate Hf Hne Hr ltac:(lia) ltac:(lia)) as (ys & E & L & H).
  exists ys. split; [exact E|]. split; [exact L|]. intros k v y Ev Ey. destruct (H k v y Ev Ey) as (A & B). split; [exact A|]. eapply prep_ext; [|exact B].
  destruct Hf as ((n & m & Hg & _) & _). intros ix Hix. rewrite Hg in Hix. destruct ix as [|i [|j [|]]]; cbn in Hix; try tauto.
  cbn [nth]. replace (span rate 1 / 2)%nat with 0%nat by (unfold span; rewrite Nat.sub_diag, Nat.mul_0_r; reflexivity). rewrite !Z.sub_0_r. reflexivity.
Qed.
(* @ex *)
Lemma mirror_conv_pointwise_ex_lem : plane_fields mir_grid mir_x [mir_v] /\ [mir_v] <> [].
Proof. split; [exact mir_fields | discriminate]. Qed.

(* @prop C74 It is not the case that a 3 by 3 kernel whose only non-zero weight is a one in the centre leaves a periodic field unchanged. *)
Lemma mirror_conv_identity_refuted_lem :
  ~ (forall g x v p, plane_fields g x [v] -> (forall o, bias p o = 0%R) -> (forall tx, weights p tx = if list_eq_dec Z.eq_dec tx [1; 1; 0; 0] then 1%R else 0%R) ->
       exists y, mirror_convolution p 1 [3; 3]%nat 2 1 [v] = Ok [y] /\ is_field (garray y) g (goff (garray v)) (fun ix => get x (ix ++ [0]))).
Proof.
  intros H. destruct (H mir_grid mir_x mir_v centre_tap mir_fields (fun _ => eq_refl) (fun _ => eq_refl)) as (y & E & (_ & _ & _ & V)).
  destruct mirror_conv_displaced_ex_lem as (_ & y' & E' & V'). rewrite E in E'. injection E' as <-.
  rewrite V in V' by (cbn; lia). cbn in V'. lra.
Qed.
