(** * C94: velocity correlations *)
From Coq Require Import String.
From Verif Require Import Prelude NdArr Grids_model Spec Boundaries_model PRep ArrayUtilsProps LinAlg Cplx Spectral_model Xarray_model SpecData XarrayProps Correlation_model.
Set Implicit Arguments.
Local Open Scope Z_scope.
Local Open Scope list_scope.

(** The mean, over the line through the index [rest] (without its entry for [axis]), of the product of the two values [d] apart *)
Definition line_correlation (a : arr R) (axis n : nat) (rest : list Z) (d : Z) : R :=
  (rsum n (fun i => get a (firstn axis rest ++ i :: skipn axis rest) * get a (firstn axis rest ++ ((i + d) mod Z.of_nat n)%Z :: skipn axis rest)) / INR n)%R.

Lemma nth_error_combine {X Y} (l : list X) (m : list Y) k x y : nth_error l k = Some x -> nth_error m k = Some y -> nth_error (combine l m) k = Some (x, y).
Proof. revert m k. induction l as [|a l IH]; intros m k H K; destruct k, m; cbn in *; try discriminate H; try discriminate K; [injection H as ->; injection K as ->; reflexivity | apply IH; assumption]. Qed.
Lemma one_correlation (coords : list coordinate) (a : arr R) axis (c : coordinate) : shp a = map fst coords -> nth_error coords axis = Some c -> (2 <= fst c)%nat ->
  exists ce, array_autocorrelation coords a axis = Ok ce /\ shp (snd ce) = firstn axis (shp a) ++ skipn (S axis) (shp a) ++ [(fst c / 2)%nat] /\
    forall rest d, length rest = (length (shp a) - 1)%nat -> 0 <= d < Z.of_nat (fst c / 2) -> get (snd ce) (rest ++ [d]) = line_correlation a axis (fst c) rest d.
Proof.
  intros Hs Hc H2. unfold array_autocorrelation. assert (ES : shape_eqb (shp a) (map fst coords) = true) by (rewrite Hs; apply shape_eqb_refl). rewrite ES. cbn [negb]. rewrite Hc. eexists. split; [reflexivity|]. cbn [snd shp get].
  assert (Hl : (axis < length coords)%nat) by (apply nth_error_Some; rewrite Hc; discriminate).
  assert (Hn : length (firstn axis coords ++ skipn (S axis) coords) = (length (shp a) - 1)%nat).
  { rewrite app_length, firstn_length, skipn_length, Hs, map_length. unfold coordinate in *. lia. }
  split; [rewrite map_app, Hs, firstn_map, skipn_map, <- app_assoc; reflexivity|].
  intros rest d Hr Hd. rewrite Hn, <- Hr, firstn_app, Nat.sub_diag, firstn_all, firstn_O, app_nil_r, app_nth2, Nat.sub_diag by lia. cbn [nth].
  unfold spatial_autocorrelation. cbn [snd]. assert (Hdiv : (fst c / 2 <= fst c)%nat) by (apply Nat.lt_le_incl, Nat.div_lt; lia).
  rewrite periodic_correlate_value by lia. reflexivity.
Qed.
Lemma all_velocities (ds : dataset) : (length (ds_velocity ds) <= 3)%nat ->
  mapM (fun i => py_index (ds_velocity ds) (Z.of_nat i)) (seq 0 (Nat.min 3 (length (ds_velocity ds)))) = Ok (ds_velocity ds).
Proof. destruct ds as [cs vs]. cbn [ds_velocity]. intros H. destruct vs as [|a [|b [|e [|f l]]]]; [reflexivity|reflexivity|reflexivity|reflexivity|cbn in H; lia]. Qed.

(* @prop C94 velocity_spatial_correlation of a dataset with one, two or three dimensions and a velocity component for each, along any of its dimensions, with at least two points: one result per component, named u_x_correlation and so on; the axis is replaced by a last axis of half its size; the entry for displacement number d is the mean over the periodic line of the products of two values d apart. *)
Lemma velocity_correlation_values_lem : forall (ds : dataset) (axis : nat) (c : coordinate),
  (length (ds_coords ds) <= 3)%nat -> length (ds_velocity ds) = length (ds_coords ds) -> Forall (fun a => shp a = map fst (ds_coords ds)) (ds_velocity ds) ->
  nth_error (ds_coords ds) axis = Some c -> (2 <= fst c)%nat ->
  exists r, velocity_spatial_correlation ds axis = Ok r /\ length r = length (ds_coords ds) /\
    forall k a, nth_error (ds_velocity ds) k = Some a -> exists name cs e, nth_error r k = Some (name, (cs, e)) /\
      name = (nth k ["u"; "v"; "w"] "" ++ "_" ++ nth axis ["x"; "y"; "z"] "" ++ "_correlation")%string /\
      shp e = firstn axis (shp a) ++ skipn (S axis) (shp a) ++ [(fst c / 2)%nat] /\
      forall rest d, length rest = (length (shp a) - 1)%nat -> 0 <= d < Z.of_nat (fst c / 2) -> get e (rest ++ [d]) = line_correlation a axis (fst c) rest d.
Proof.
  intros ds axis c H3 Hv Hs Hc H2. unfold velocity_spatial_correlation. rewrite <- Hv, all_velocities by lia. cbn [bind].
  assert (Hl : (axis < length (ds_coords ds))%nat) by (apply nth_error_Some; rewrite Hc; discriminate).
  destruct (@mapM_F2 _ _ (fun a => array_autocorrelation (ds_coords ds) a axis) (fun a ce => shp (snd ce) = firstn axis (shp a) ++ skipn (S axis) (shp a) ++ [(fst c / 2)%nat] /\
    forall rest d, length rest = (length (shp a) - 1)%nat -> 0 <= d < Z.of_nat (fst c / 2) -> get (snd ce) (rest ++ [d]) = line_correlation a axis (fst c) rest d) (ds_velocity ds)) as (ces & E & F).
  { intros a Ha. rewrite Forall_forall in Hs. apply one_correlation; auto. }
  rewrite E. cbn [bind].
  assert (EA : py_index dim_names (Z.of_nat axis) = Ok (nth axis ["x"; "y"; "z"]%string ""%string)) by (destruct axis as [|[|[|]]]; [reflexivity|reflexivity|reflexivity|lia]).
  rewrite EA. cbn [bind]. eexists. split; [reflexivity|].
  pose proof (Forall2_length' F) as FL.
  assert (NL : length (firstn (length (ds_velocity ds)) velocity_names) = length (ds_velocity ds)) by (rewrite firstn_length; cbn [length velocity_names]; lia).
  split; [rewrite combine_length, map_length, NL, <- FL; lia|].
  intros k a Hk. assert (Hkl : (k < length (ds_velocity ds))%nat) by (apply nth_error_Some; rewrite Hk; discriminate).
  destruct (nth_error ces k) as [[cs e]|] eqn:Ek; [|apply nth_error_None in Ek; lia].
  destruct (@Forall2_nth' _ _ _ _ _ k a (cs, e) F Hkl) as (S & V). rewrite (nth_error_nth _ _ _ Hk), (nth_error_nth _ _ _ Ek) in S, V.
  exists (nth k ["u"; "v"; "w"] "" ++ "_" ++ nth axis ["x"; "y"; "z"] "" ++ "_correlation")%string, cs, e. split; [|split; [reflexivity|]; split; [exact S | exact V]].
  apply nth_error_combine; [|exact Ek]. rewrite nth_error_map. replace (nth_error (firstn (length (ds_velocity ds)) velocity_names) k) with (Some (nth k ["u"; "v"; "w"]%string ""%string)); [reflexivity|].
  rewrite (nth_error_nth' _ ""%string) by lia. f_equal. rewrite <- (firstn_skipn (length (ds_velocity ds)) ["u"; "v"; "w"]%string) at 1. rewrite app_nth1 by (change ["u"; "v"; "w"]%string with velocity_names; lia). reflexivity.
Qed.

(** A channel flow of two components on 4 by 2 points *)
Definition corr_ds : dataset := mkds [(4%nat, fun i => IZR i); (2%nat, fun i => IZR i)] [mkarr [4%nat; 2%nat] (fun ix => IZR (nth 0 ix 0)); mkarr [4%nat; 2%nat] (fun ix => IZR (nth 1 ix 0))].
(* @ex *)
Lemma velocity_correlation_values_ex_lem : exists r name cs e, velocity_spatial_correlation corr_ds 0 = Ok r /\ length r = 2%nat /\ nth_error r 0 = Some (name, (cs, e)) /\
  name = "u_x_correlation"%string /\ shp e = [2; 2]%nat /\ get e [1; 1] = 2%R.
Proof.
  destruct (@velocity_correlation_values_lem corr_ds 0 (4%nat, fun i => IZR i)) as (r & E & L & V); [cbn; lia | reflexivity | repeat constructor | reflexivity | cbn; lia |].
  destruct (V 0%nat _ eq_refl) as (name & cs & e & E1 & E2 & E3 & E4). exists r, name, cs, e. split; [exact E|]. split; [exact L|]. split; [exact E1|]. split; [exact E2|]. split; [exact E3|].
  change [1; 1] with ([1] ++ [1]). rewrite E4 by (cbn; lia). unfold line_correlation, rsum. cbn. lra.
Qed.

Lemma upd_along {X} axis (i j : X) rest : (axis <= length rest)%nat -> upd axis j (firstn axis rest ++ i :: skipn axis rest) = firstn axis rest ++ j :: skipn axis rest.
Proof. revert rest. induction axis as [|axis IH]; intros rest H; [reflexivity|]. destruct rest as [|x rest]; cbn in H; [lia|]. cbn. f_equal. apply IH. lia. Qed.
Lemma nth_along {X} axis (i d : X) rest : (axis <= length rest)%nat -> nth axis (firstn axis rest ++ i :: skipn axis rest) d = i.
Proof. intros H. rewrite app_nth2; rewrite firstn_length_le by exact H; [rewrite Nat.sub_diag; reflexivity | lia]. Qed.
Lemma roll_correlation a axis n s rest d : nth axis (shp a) 0%nat = n -> (0 < n)%nat -> (axis <= length rest)%nat -> line_correlation (xr_roll axis s a) axis n rest d = line_correlation a axis n rest d.
Proof.
  intros Hn H0 Hl. unfold line_correlation, Rdiv. f_equal. unfold xr_roll. cbn [get]. rewrite Hn.
  pose (f := fun j => get a (firstn axis rest ++ j :: skipn axis rest)).
  transitivity (rsum n (fun i => (fun j => f j * f ((j + d) mod Z.of_nat n))%R ((i + - s) mod Z.of_nat n))).
  - apply rsum_ext. intros i Hi. rewrite !nth_along, !upd_along by exact Hl. unfold f. f_equal; do 3 f_equal.
    rewrite Zplus_mod_idemp_l, Zminus_mod_idemp_l. f_equal. lia.
  - rewrite (@rsum_mod_shift n (- s) (fun j => f j * f ((j + d) mod Z.of_nat n))%R) by exact H0. reflexivity.
Qed.

(* @prop C94 Moving a periodic flow along the axis by any number of points changes no entry of the correlations along that axis. *)
Lemma velocity_correlation_moved_lem : forall (cs : list coordinate) (v : list (arr R)) (axis : nat) (c : coordinate) (s : Z),
  (length cs <= 3)%nat -> length v = length cs -> Forall (fun a => shp a = map fst cs) v -> nth_error cs axis = Some c -> (2 <= fst c)%nat ->
  exists r r', velocity_spatial_correlation (mkds cs v) axis = Ok r /\ velocity_spatial_correlation (mkds cs (map (xr_roll axis s) v)) axis = Ok r' /\ length r' = length r /\
    forall k name cs1 e, nth_error r k = Some (name, (cs1, e)) -> exists cs1' e', nth_error r' k = Some (name, (cs1', e')) /\ shp e' = shp e /\
      forall rest d, length rest = (length cs - 1)%nat -> 0 <= d < Z.of_nat (fst c / 2) -> get e' (rest ++ [d]) = get e (rest ++ [d]).
Proof.
  intros cs v axis c s H3 Hv Hs Hc H2.
  destruct (@velocity_correlation_values_lem (mkds cs v) axis c H3 Hv Hs Hc H2) as (r & E & L & V).
  assert (Hs' : Forall (fun a => shp a = map fst cs) (map (xr_roll axis s) v)) by (rewrite Forall_map; exact Hs).
  destruct (@velocity_correlation_values_lem (mkds cs (map (xr_roll axis s) v)) axis c H3 ltac:(cbn; rewrite map_length; exact Hv) Hs' Hc H2) as (r' & E' & L' & V').
  cbn [ds_coords ds_velocity] in *. exists r, r'. split; [exact E|]. split; [exact E'|]. split; [rewrite L', L; reflexivity|]. intros k name cs1 e Hk.
  assert (Hkl : (k < length v)%nat) by (rewrite Hv, <- L; apply nth_error_Some; rewrite Hk; discriminate).
  destruct (nth_error v k) as [a|] eqn:Ea; [|apply nth_error_None in Ea; lia].
  assert (Ea' : nth_error (map (xr_roll axis s) v) k = Some (xr_roll axis s a)) by (rewrite nth_error_map, Ea; reflexivity).
  destruct (V k a Ea) as (nm & c1 & e1 & A1 & A2 & A3 & A4). rewrite A1 in Hk. injection Hk as <- <- <-.
  destruct (V' k _ Ea') as (nm' & c1' & e1' & B1 & B2 & B3 & B4). exists c1', e1'. split; [rewrite B1, B2, A2; reflexivity|]. split; [rewrite B3, A3; reflexivity|].
  rewrite Forall_forall in Hs. pose proof (Hs a (nth_error_In _ _ Ea)) as Sa. assert (Sl : length (shp a) = length cs) by (rewrite Sa, map_length; reflexivity).
  assert (Hl : (axis < length cs)%nat) by (apply nth_error_Some; rewrite Hc; discriminate).
  intros rest d Hr Hd. rewrite B4 by (change (shp (xr_roll axis s a)) with (shp a); lia). rewrite A4 by lia. apply roll_correlation; [|lia | unfold coordinate in *; lia].
  rewrite Sa. change 0%nat with (fst (0%nat, fun _ : Z => 0%R)). rewrite map_nth. f_equal. apply nth_error_nth. exact Hc.
Qed.
(* @ex *)
Lemma velocity_correlation_moved_ex_lem : length (ds_velocity corr_ds) = length (ds_coords corr_ds) /\ Forall (fun a => shp a = map fst (ds_coords corr_ds)) (ds_velocity corr_ds) /\
  nth_error (ds_coords corr_ds) 0 = Some (4%nat, fun i => IZR i) /\ get (xr_roll 0 1 (mkarr [4%nat; 2%nat] (fun ix => IZR (nth 0 ix 0)))) [0; 0] = 3%R.
Proof. split; [reflexivity|]. split; [repeat constructor|]. split; [reflexivity|]. cbn. reflexivity. Qed.

(* @prop C94 At displacement 0 the correlation is the mean square over the line, which no other displacement exceeds in magnitude. *)
Lemma velocity_correlation_peak_lem : forall (ds : dataset) (axis : nat) (c : coordinate),
  (length (ds_coords ds) <= 3)%nat -> length (ds_velocity ds) = length (ds_coords ds) -> Forall (fun a => shp a = map fst (ds_coords ds)) (ds_velocity ds) ->
  nth_error (ds_coords ds) axis = Some c -> (2 <= fst c)%nat ->
  exists r, velocity_spatial_correlation ds axis = Ok r /\ length r = length (ds_coords ds) /\
    forall k a, nth_error (ds_velocity ds) k = Some a -> exists name cs e, nth_error r k = Some (name, (cs, e)) /\
      forall rest, length rest = (length (shp a) - 1)%nat ->
        get e (rest ++ [0]) = (rsum (fst c) (fun i => get a (firstn axis rest ++ i :: skipn axis rest) ^ 2) / INR (fst c))%R /\
        forall d, 0 <= d < Z.of_nat (fst c / 2) -> (Rabs (get e (rest ++ [d])) <= get e (rest ++ [0%Z]))%R.
Proof.
  intros ds axis c H3 Hv Hs Hc H2. destruct (@velocity_correlation_values_lem ds axis c H3 Hv Hs Hc H2) as (r & E & L & V). exists r. split; [exact E|]. split; [exact L|].
  intros k a Ha. destruct (V k a Ha) as (name & cs & e & A1 & A2 & A3 & A4). exists name, cs, e. split; [exact A1|]. intros rest Hr.
  assert (Hd : 0 <= 0 < Z.of_nat (fst c / 2)) by (pose proof (Nat.div_le_mono 2 (fst c) 2 ltac:(lia) H2); change (2 / 2)%nat with 1%nat in *; lia).
  assert (U : uniform_axis (fst c, fun i => IZR i) 1) by (split; [exact H2|]; split; [lra|]; intros i; cbn; lra).
  destruct (@autocorrelation_spec_lem (fst c, fun i => IZR i) (fun i => get a (firstn axis rest ++ i :: skipn axis rest)) 1%R U) as (_ & P1 & P2 & P3 & _). cbn [fst] in *.
  split.
  - rewrite A4 by assumption. unfold line_correlation. rewrite <- P2. rewrite P1 by exact Hd. reflexivity.
  - intros d Hd'. rewrite !A4 by assumption. apply (P3 d).
Qed.
(* @ex *)
Lemma velocity_correlation_peak_ex_lem : exists r name cs e, velocity_spatial_correlation corr_ds 0 = Ok r /\ nth_error r 0 = Some (name, (cs, e)) /\ get e [1; 0] = (14 / 4)%R /\ (Rabs (get e [1%Z; 1%Z]) <= 14 / 4)%R.
Proof.
  destruct (@velocity_correlation_peak_lem corr_ds 0 (4%nat, fun i => IZR i)) as (r & E & L & V); [cbn; lia | reflexivity | repeat constructor | reflexivity | cbn; lia |].
  destruct (V 0%nat _ eq_refl) as (name & cs & e & E1 & E2). exists r, name, cs, e. split; [exact E|]. split; [exact E1|].
  destruct (E2 [1] eq_refl) as (P0 & P1). assert (Q : get e [1; 0] = (14 / 4)%R) by (change [1; 0] with ([1] ++ [0]); rewrite P0; unfold rsum; cbn; lra).
  split; [exact Q|]. rewrite <- Q. apply (P1 1). cbn. lia.
Qed.
