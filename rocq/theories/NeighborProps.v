(** * C62: channels of neighbouring values *)
From Verif Require Import Prelude NdArr Grids_model Spec SpecNS Boundaries_model BoundariesPeriodic FD_model Interp_model Advection_model ArrayUtils_model Equations_model PRep FDProofs FDProps InterpProps ArrayUtilsProps PressureProps PressureSolveProps EquationsProps Networks_model NetworksProps TilingProofs.
Set Implicit Arguments.
Local Open Scope Z_scope.

(** Concatenation along the last axis of arrays with [n] channels each. *)
Lemma concat_lines_blocks (s : list nat) n (d : arr R) ix : length ix = length s -> forall l j k, (j < length l)%nat -> (k < n)%nat -> (forall a, In a l -> nth (length s) (shp a) 0%nat = n) ->
  concat_lines (length s) l d (ix ++ [Z.of_nat (j * n + k)]) = get (nth j l d) (ix ++ [Z.of_nat k]).
Proof.
  intros Li. induction l as [|a l IH]; intros j k Hj Hk H; [cbn in Hj; lia|]. cbn [concat_lines].
  rewrite (H a (or_introl eq_refl)). rewrite <- Li at 1. rewrite nth_app_last. destruct j as [|j].
  - cbn [Nat.mul Nat.add]. destruct (Z.ltb_spec (Z.of_nat k) (Z.of_nat n)); [reflexivity | lia].
  - destruct (Z.ltb_spec (Z.of_nat (S j * n + k)) (Z.of_nat n)); [nia|]. rewrite <- Li at 2. rewrite <- Li at 2. rewrite upd_app, nth_app_last.
    replace (Z.of_nat (S j * n + k) - Z.of_nat n) with (Z.of_nat (j * n + k)) by nia. cbn [nth]. apply IH; [cbn in Hj; lia | exact Hk | intros; apply H; right; auto].
Qed.
Lemma concat_last_ok s n (l : list (arr R)) : l <> [] -> (forall a, In a l -> shp a = s ++ [n]) ->
  exists y, (let* t := concat_along_axis (map (fun a => [a]) l) (-1) in leaf 0 t) = Ok y /\ shp y = s ++ [(length l * n)%nat] /\
    forall j k ix d, (j < length l)%nat -> (k < n)%nat -> length ix = length s -> get y (ix ++ [Z.of_nat (j * n + k)]) = get (nth j l d) (ix ++ [Z.of_nat k]).
Proof.
  intros Hne Sh. unfold concat_along_axis. destruct l as [|a0 l0] eqn:E0; [congruence|]. rewrite <- E0 in *.
  assert (Em : map (fun a => [a]) l = [a0] :: map (fun a => [a]) l0) by (rewrite E0; reflexivity). rewrite Em. rewrite <- Em. clear Em.
  assert (F1 : forallb (fun t' : list (arr R) => (length t' =? length [a0])%nat) (map (fun a => [a]) l) = true).
  { apply forallb_forall. intros t Ht. apply in_map_iff in Ht. destruct Ht as (x & <- & _). reflexivity. }
  rewrite F1. cbn [length seq mapM]. rewrite (@mapM_Ok _ _ (leaf 0) (fun t => match t with a :: _ => a | [] => a0 end)) by (intros t Ht; apply in_map_iff in Ht; destruct Ht as (x & <- & _); reflexivity).
  cbn [bind]. rewrite map_map, map_id.
  assert (Ec : concatenate l (-1) = Ok (mkarr (s ++ [(length l * n)%nat]) (concat_lines (length s) l a0))).
  { unfold concatenate. rewrite E0. rewrite <- E0. pose proof (Sh a0 ltac:(rewrite E0; left; reflexivity)) as S0.
    unfold ndim at 1. rewrite S0. rewrite (denotes_norm (last_axis s n)). cbn [bind].
    match goal with |- context [forallb ?f l] => assert (Fb : forallb f l = true); [|rewrite Fb] end.
    2:{ f_equal. rewrite upd_app. f_equal. f_equal. f_equal. clear - Sh. induction l as [|a l IH]; [reflexivity|]. cbn [map fold_right length]. rewrite (Sh a (or_introl eq_refl)), nth_app_last. rewrite IH by (intros; apply Sh; right; auto). reflexivity. }
    apply forallb_forall. intros b Hb. unfold ndim. rewrite (Sh b Hb), S0, Nat.eqb_refl. cbn [andb]. apply forallb_forall. intros j _. rewrite Nat.eqb_refl. apply orb_true_r. }
  rewrite Ec. cbn [bind]. cbn [leaf nth_error]. eexists. split; [reflexivity|]. cbn [shp get]. split; [reflexivity|]. intros j k ix d Hj Hk Hi.
  rewrite (@concat_lines_blocks s n); [|exact Hi | exact Hj | exact Hk | intros a Ha; rewrite (Sh a Ha); apply nth_app_last]. rewrite (nth_indep l d a0) by exact Hj. reflexivity.
Qed.
(** The shifts, in order: -m .. -1, 1 .. m. *)
Definition shift_block (m : nat) (r : Z) : nat := Z.to_nat (if r <? 0 then r + Z.of_nat m else r + Z.of_nat m - 1).
Lemma filter_keep {T} (f : T -> bool) l : (forall x, In x l -> f x = true) -> filter f l = l.
Proof. induction l as [|x l IH]; intros H; [reflexivity|]. cbn. rewrite (H x (or_introl eq_refl)). f_equal. apply IH. intros; apply H; right; auto. Qed.
Lemma shifts_list m : filter (fun i => negb (i =? 0)) (map (fun k => Z.of_nat k - Z.of_nat m) (seq 0 (2 * m + 1))) = map (fun k => Z.of_nat k - Z.of_nat m) (seq 0 m) ++ map (fun k => Z.of_nat k + 1) (seq 0 m).
Proof.
  replace (2 * m + 1)%nat with (m + (1 + m))%nat by lia. rewrite seq_app, map_app, filter_app. f_equal.
  - apply filter_keep. intros x Hx. apply in_map_iff in Hx. destruct Hx as (k & <- & Hk). apply in_seq in Hk. destruct (Z.eqb_spec (Z.of_nat k - Z.of_nat m) 0); [lia | reflexivity].
  - rewrite Nat.add_0_l, seq_app. cbn [seq app map filter]. destruct (Z.eqb_spec (Z.of_nat m - Z.of_nat m) 0) as [_|N]; [|lia]. cbn [negb]. rewrite filter_keep.
    + apply (list_ext_nth 0); [rewrite !map_length, !seq_length; reflexivity|]. intros k Hk. rewrite map_length, seq_length in Hk. rewrite (nth_map' _ _ 0%nat 0) by (rewrite seq_length; exact Hk). rewrite nth_map_seq by exact Hk. rewrite seq_nth by exact Hk. lia.
    + intros x Hx. apply in_map_iff in Hx. destruct Hx as (k & <- & Hk). apply in_seq in Hk. destruct (Z.eqb_spec (Z.of_nat k - Z.of_nat m) 0); [lia | reflexivity].
Qed.
Lemma flat_map_len {T U} (f : T -> list U) n l : (forall x, In x l -> length (f x) = n) -> length (flat_map f l) = (length l * n)%nat.
Proof. induction l as [|x l IH]; intros H; [reflexivity|]. cbn. rewrite app_length, IH by (intros; apply H; right; auto). rewrite (H x (or_introl eq_refl)). lia. Qed.
Lemma neighbor_shifts_spec m d : length (neighbor_shifts m d) = (2 * m * d + 1)%nat /\ nth (2 * m * d) (neighbor_shifts m d) (0, 0%nat) = (0, 0%nat) /\
  forall r a, r <> 0 -> Z.abs r <= Z.of_nat m -> (a < d)%nat -> (shift_block m r < 2 * m)%nat /\ nth (shift_block m r * d + a) (neighbor_shifts m d) (0, 0%nat) = (r, a).
Proof.
  unfold neighbor_shifts. rewrite shifts_list. set (sh := map (fun k => Z.of_nat k - Z.of_nat m) (seq 0 m) ++ map (fun k => Z.of_nat k + 1) (seq 0 m)).
  assert (Ls : length sh = (2 * m)%nat) by (unfold sh; rewrite app_length, !map_length, seq_length; lia). set (f := fun s : Z => map (fun a => (s, a)) (seq 0 d)).
  assert (Lf : forall x, In x sh -> length (f x) = d) by (intros; unfold f; rewrite map_length, seq_length; reflexivity). pose proof (@flat_map_len _ _ f d sh Lf) as LF. rewrite Ls in LF.
  split; [rewrite app_length, LF; reflexivity|]. split.
  - rewrite app_nth2 by lia. rewrite LF, Nat.sub_diag. reflexivity.
  - intros r a Hr Hm Ha. assert (HB : (shift_block m r < 2 * m)%nat) by (unfold shift_block; destruct (Z.ltb_spec r 0); lia). split; [exact HB|].
    rewrite app_nth1 by (rewrite LF; nia). rewrite (@flat_map_nth _ _ f d sh (shift_block m r) a (0, 0%nat) 0 Lf) by (rewrite ?Ls; assumption). unfold f. rewrite nth_map_seq by exact Ha. f_equal.
    unfold sh, shift_block. destruct (Z.ltb_spec r 0).
    + rewrite app_nth1 by (rewrite map_length, seq_length; lia). rewrite nth_map_seq by lia. lia.
    + rewrite app_nth2 by (rewrite map_length, seq_length; lia). rewrite map_length, seq_length. rewrite nth_map_seq by lia. lia.
Qed.
(* @prop C62 Channel layout of stack_aligned_field_with_neighbors, in any dimension d, for any number m of neighbours and any n >= 1 fields filling the grid: the result has n (2 m d + 1) channels on the grid's shape; the last n channels are the fields themselves, and for every shift r between -m and m except 0 (numbered in increasing order, 0 left out), every axis a and every field k, channel ((number of r) d + a) n + k holds in every cell the (periodic) value of field k at distance -r along a: jnp.roll by r. So every neighbour on both sides along every axis occurs. *)
Lemma neighbor_channels_lem : forall g m v, wfg g -> v <> [] -> (forall u, In u v -> ggrid (garray u) = g /\ shp (gdata (garray u)) = gshape g) -> let d := gndim g in let n := length v in (0 < d)%nat ->
  exists y, stack_aligned_field_with_neighbors g m v = Ok y /\ shp y = gshape g ++ [((2 * m * d + 1) * n)%nat] /\
    (forall k ix, (k < n)%nat -> inb (gshape g) ix -> get y (ix ++ [Z.of_nat (2 * m * d * n + k)]) = get (gdata (garray (nth k v dgv))) ix) /\
    (forall r a k ix, r <> 0 -> Z.abs r <= Z.of_nat m -> (a < d)%nat -> (k < n)%nat -> inb (gshape g) ix ->
       get y (ix ++ [Z.of_nat ((Z.to_nat (if r <? 0 then r + Z.of_nat m else r + Z.of_nat m - 1) * d + a) * n + k)]) = pval (garray (nth k v dgv)) (shiftix a (- r) ix)).
Proof.
  intros g m v Hg Hne Hv d n Hd. destruct (@stack_ok (gshape g) v Hne (fun u Hu => proj2 (Hv u Hu))) as (a0 & Ea & Sa & Ga). fold n in Sa, Ga.
  destruct (neighbor_shifts_spec m d) as (NL & NZ & NS). set (rolled := map (fun sa => roll_axis a0 (fst sa) (snd sa)) (neighbor_shifts m d)).
  destruct (@concat_last_ok (gshape g) n rolled) as (y & Ey & Sy & Gy).
  { unfold rolled. intros E. apply map_eq_nil in E. rewrite E in NL. cbn in NL. lia. }
  { intros b Hb. unfold rolled in Hb. apply in_map_iff in Hb. destruct Hb as (sa & <- & _). exact Sa. }
  assert (Lr : length rolled = (2 * m * d + 1)%nat) by (unfold rolled; rewrite map_length; exact NL). rewrite Lr in *.
  assert (RV : forall j r a k ix, nth j (neighbor_shifts m d) (0, 0%nat) = (r, a) -> (j < 2 * m * d + 1)%nat -> (a < d)%nat -> (k < n)%nat -> inb (gshape g) ix ->
    get y (ix ++ [Z.of_nat (j * n + k)]) = pval (garray (nth k v dgv)) (shiftix a (- r) ix)).
  { intros j r a k ix Hj Lj Ha Hk Hix. pose proof (inb_length _ _ Hix) as L. rewrite (Gy j k ix a0 Lj Hk L). unfold rolled. rewrite (nth_map' _ _ (0, 0%nat) a0) by (rewrite NL; exact Lj). rewrite Hj. cbn [fst snd roll_axis get].
    rewrite Sa. rewrite !app_nth1 by (first [rewrite L; exact Ha | exact Ha]). rewrite upd_app_l by (rewrite L; exact Ha).
    assert (IX : upd a ((nth a ix 0 - r) mod Z.of_nat (nth a (gshape g) 0%nat)) ix = wrap (gshape g) (shiftix a (- r) ix)).
    { assert (LS : length (shiftix a (- r) ix) = length (gshape g)) by (unfold shiftix; rewrite upd_length; exact L). apply (list_ext_nth 0); [rewrite upd_length, wrap_length by exact LS; exact L|]. intros i Hi. rewrite upd_length in Hi. rewrite wrap_nth by (try exact LS; rewrite <- L; exact Hi). unfold shiftix.
      destruct (Nat.eq_dec i a) as [->|N]; [rewrite !nth_upd_same by exact Hi; f_equal; lia|]. rewrite !nth_upd_other by auto. symmetry. apply Z.mod_small. apply (@inb_nth _ _ i Hix). rewrite <- L. exact Hi. }
    rewrite IX. destruct (Hv (nth k v dgv) (nth_In _ _ Hk)) as (Gk & Sk). unfold pval. rewrite Sk. apply Ga; [exact Hk|]. apply inb_wrap; [apply Hg | unfold shiftix; rewrite upd_length; exact L]. }
  exists y. split; [|split; [exact Sy|]].
  - unfold stack_aligned_field_with_neighbors. rewrite Ea. cbn [bind]. rewrite <- (map_map (fun sa => roll_axis a0 (fst sa) (snd sa)) (fun b => [b])). exact Ey.
  - split.
    + intros k ix Hk Hix. rewrite (RV (2 * m * d)%nat 0 0%nat k ix NZ) by (try lia; assumption). destruct (Hv (nth k v dgv) (nth_In _ _ Hk)) as (Gk & Sk).
      assert (E0 : shiftix 0 (- 0) ix = ix) by (unfold shiftix; rewrite Z.add_0_r; apply upd_nth_same). rewrite E0. apply pval_inb. rewrite Sk. exact Hix.
    + intros r a k ix Hr Hm Ha Hk Hix. destruct (NS r a Hr Hm Ha) as (B1 & B2). apply RV; try assumption. unfold shift_block in B1 |- *. fold d. nia.
Qed.
(* @ex *)
Lemma neighbor_channels_ex_lem : wfg p34g /\ p34v <> [] /\ (forall u, In u p34v -> ggrid (garray u) = p34g /\ shp (gdata (garray u)) = gshape p34g) /\ (0 < gndim p34g)%nat.
Proof. split; [assert (H : (0 < gndim p34g)%nat) by (cbn; lia); exact (pv_wfg H p34_pv)|]. split; [discriminate|]. split; [intros u [<- |[<- | []]]; split; reflexivity | cbn; lia]. Qed.
