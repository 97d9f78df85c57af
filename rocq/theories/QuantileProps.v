(** * Properties of the quantiles (C99) *)
From Coq Require Import Sorting.
From Verif Require Import Prelude NdArr Grids_model ArrayUtils_model Equations_model SpecQuantile Quantile_model.
Set Implicit Arguments.
Local Open Scope Z_scope.

Lemma rinsert_perm x l : Permutation (x :: l) (rinsert x l).
Proof. induction l as [|y l IH]; cbn; [reflexivity|]. destruct (Rle_dec x y); [reflexivity|]. eapply perm_trans; [apply perm_swap|]. apply perm_skip. exact IH. Qed.
Lemma rsort_perm l : Permutation l (rsort l).
Proof. induction l as [|x l IH]; cbn; [constructor|]. eapply perm_trans; [apply perm_skip; exact IH | apply rinsert_perm]. Qed.
Lemma rinsert_sorted x l : StronglySorted Rle l -> StronglySorted Rle (rinsert x l).
Proof.
  induction 1 as [|y l H IH F]; cbn; [constructor; [constructor | constructor]|]. destruct (Rle_dec x y) as [L|L].
  - constructor; [constructor; assumption|]. constructor; [exact L|]. eapply Forall_impl; [|exact F]. intros; lra.
  - constructor; [exact IH|]. apply (Permutation_Forall (rinsert_perm x l)). constructor; [lra | exact F].
Qed.
Lemma rsort_sorted l : StronglySorted Rle (rsort l).
Proof. induction l; cbn; [constructor | apply rinsert_sorted; assumption]. Qed.
Lemma rsort_length l : length (rsort l) = length l.
Proof. symmetry. apply Permutation_length, rsort_perm. Qed.
Lemma ss_nth l : StronglySorted Rle l -> forall i k, (i <= k < length l)%nat -> (nth i l 0 <= nth k l 0)%R.
Proof.
  induction 1 as [|y l H IH F]; intros i k Hk; cbn [length] in Hk; [lia|]. destruct i as [|i], k as [|k]; cbn [nth]; try lia; [lra | | apply IH; lia].
  rewrite Forall_forall in F. apply F, nth_In. lia.
Qed.
Lemma how_many_perm (P : R -> Prop) dec l l' : Permutation l l' -> how_many P dec l = how_many P dec l'.
Proof. induction 1; cbn [how_many]; try lia; destruct (dec x); try destruct (dec y); lia. Qed.
Lemma how_many_app (P : R -> Prop) dec l l' : how_many P dec (l ++ l') = (how_many P dec l + how_many P dec l')%nat.
Proof. induction l as [|x l IH]; cbn; [reflexivity|]. destruct (dec x); lia. Qed.
Lemma how_many_all (P : R -> Prop) dec l : Forall P l -> how_many P dec l = length l.
Proof. induction 1 as [|x l H F IH]; cbn; [reflexivity|]. destruct (dec x); [lia | contradiction]. Qed.
Lemma how_many_first (P : R -> Prop) dec l k : (k <= length l)%nat -> (forall i, (i < k)%nat -> P (nth i l 0%R)) -> (k <= how_many P dec l)%nat.
Proof.
  revert l. induction k as [|k IH]; intros l Hk H; [lia|]. destruct l as [|x l]; cbn [length] in Hk; [lia|]. cbn [how_many]. pose proof (H 0%nat ltac:(lia)) as H0. cbn [nth] in H0.
  destruct (dec x); [|contradiction]. specialize (IH l ltac:(lia) (fun i Hi => H (S i) ltac:(lia))). lia.
Qed.
Lemma how_many_last (P : R -> Prop) dec l c : (forall i, (c <= i < length l)%nat -> P (nth i l 0%R)) -> (length l - c <= how_many P dec l)%nat.
Proof.
  revert c. induction l as [|x l IH]; intros c H; cbn [length]; [lia|]. cbn [how_many length] in *. destruct c as [|c].
  - pose proof (H 0%nat ltac:(lia)) as H0. cbn [nth] in H0. destruct (dec x); [|contradiction]. specialize (IH 0%nat (fun i Hi => H (S i) ltac:(lia))). lia.
  - specialize (IH c (fun i Hi => H (S i) ltac:(lia))). destruct (dec x); lia.
Qed.
Lemma int_part_range x n : (0 <= x <= INR n)%R -> 0 <= Int_part x <= Z.of_nat n /\ (IZR (Int_part x) <= x < IZR (Int_part x) + 1)%R.
Proof.
  intros [H1 H2]. destruct (base_Int_part x) as [A B]. assert (C : (IZR (Int_part x) <= x < IZR (Int_part x) + 1)%R) by lra. split; [|exact C]. split.
  - assert (-1 < Int_part x); [|lia]. apply lt_IZR. lra.
  - apply le_IZR. rewrite <- INR_IZR_INZ. lra.
Qed.
Lemma quantile_facts values q : values <> [] -> (0 <= q <= 1)%R -> exists Q (j c : nat), np_quantile values q = Ok Q /\
  (j < length values)%nat /\ (c < length values)%nat /\ (q * INR (length values - 1) < INR j + 1)%R /\ (INR c - 1 < q * INR (length values - 1))%R /\
  (nth j (rsort values) 0 <= Q <= nth c (rsort values) 0)%R.
Proof.
  intros Hne Hq. unfold np_quantile. destruct (Nat.eqb_spec (length values) 0) as [E|Hl]; [destruct values; [congruence | cbn in E; lia]|].
  destruct (Rlt_dec q 0); [lra|]. destruct (Rlt_dec 1 q); [lra|]. cbv zeta. set (N := (length values - 1)%nat). set (pos := (q * INR N)%R). set (s := rsort values).
  pose proof (pos_INR N) as HN. assert (Hp : (0 <= pos <= INR N)%R) by (unfold pos; split; nra). destruct (int_part_range N Hp) as [R1 R2]. set (j := Int_part pos) in *.
  assert (Ej : IZR j = INR (Z.to_nat j)) by (rewrite INR_IZR_INZ, Z2Nat.id; [reflexivity | lia]).
  assert (Hs : forall i k, (i <= k < length values)%nat -> (nth i s 0 <= nth k s 0)%R) by (intros; apply ss_nth; [apply rsort_sorted | unfold s; rewrite rsort_length; assumption]).
  set (lo := nth (Z.to_nat j) s 0%R). set (h := Nat.min (Z.to_nat j + 1) N). set (hi := nth h s 0%R).
  assert (Hlh : (lo <= hi)%R) by (apply Hs; unfold h; lia).
  destruct (Req_dec pos (IZR j)) as [E|E].
  - exists (lo + (pos - IZR j) * (hi - lo))%R, (Z.to_nat j), (Z.to_nat j). split; [reflexivity|]. split; [lia|]. split; [lia|]. fold pos. rewrite <- Ej. split; [lra|]. split; [lra|]. rewrite E. fold lo. lra.
  - exists (lo + (pos - IZR j) * (hi - lo))%R, (Z.to_nat j), h. split; [reflexivity|].
    assert (Hj : (Z.to_nat j < N)%nat). { apply INR_lt. rewrite <- Ej. lra. }
    assert (Eh : h = (Z.to_nat j + 1)%nat) by (unfold h; lia).
    split; [lia|]. split; [lia|]. split; [fold pos; rewrite <- Ej; lra|]. split; [fold pos; rewrite Eh, plus_INR, <- Ej; cbn [INR]; lra|]. fold lo. fold hi. nra.
Qed.
Lemma quantile_counts values q : values <> [] -> (0 <= q <= 1)%R -> exists Q, np_quantile values q = Ok Q /\
  (q * INR (length values - 1) < INR (how_many (fun x => x <= Q)%R (fun x => Rle_dec x Q) values))%R /\
  ((1 - q) * INR (length values - 1) < INR (how_many (fun x => Q <= x)%R (fun x => Rle_dec Q x) values))%R /\
  exists lo hi, In lo values /\ In hi values /\ (lo <= Q <= hi)%R.
Proof.
  intros Hne Hq. destruct (@quantile_facts values q Hne Hq) as (Q & j & c & E & Hj & Hc & Bj & Bc & HQ). exists Q. split; [exact E|].
  assert (Hs : forall i k, (i <= k < length values)%nat -> (nth i (rsort values) 0 <= nth k (rsort values) 0)%R) by (intros; apply ss_nth; [apply rsort_sorted | rewrite rsort_length; assumption]).
  split; [|split].
  - rewrite (how_many_perm _ _ (rsort_perm values)). apply Rlt_le_trans with (INR (S j)); [rewrite S_INR; lra|]. apply le_INR, how_many_first; [rewrite rsort_length; lia|].
    intros i Hi. apply Rle_trans with (nth j (rsort values) 0%R); [apply Hs; lia | lra].
  - rewrite (how_many_perm _ _ (rsort_perm values)). apply Rlt_le_trans with (INR (length (rsort values) - c)).
    + rewrite rsort_length, minus_INR by lia. rewrite minus_INR in Bc |- * by lia. cbn [INR] in Bc |- *. nra.
    + apply le_INR, how_many_last. intros i Hi. rewrite rsort_length in Hi. apply Rle_trans with (nth c (rsort values) 0%R); [lra | apply Hs; lia].
  - exists (nth j (rsort values) 0%R), (nth c (rsort values) 0%R). split; [|split; [|exact HQ]]; apply (Permutation_in _ (Permutation_sym (rsort_perm values))), nth_In; rewrite rsort_length; assumption.
Qed.

(* @prop C99 A quantile q in [0, 1] of any nonempty list of values is defined and divides them as it should: more than q (N - 1) of the N values are at most the quantile, more than (1 - q) (N - 1) are at least the quantile, and it lies between two of the values. *)
Lemma quantile_divides_lem : forall (values : list R) (q : R), values <> [] -> (0 <= q <= 1)%R -> exists Q, np_quantile values q = Ok Q /\
  (q * INR (length values - 1) < INR (how_many (fun x => x <= Q)%R (fun x => Rle_dec x Q) values))%R /\
  ((1 - q) * INR (length values - 1) < INR (how_many (fun x => Q <= x)%R (fun x => Rle_dec Q x) values))%R /\
  exists lo hi, In lo values /\ In hi values /\ (lo <= Q <= hi)%R.
Proof. exact quantile_counts. Qed.
(* @ex *)
Lemma quantile_divides_ex_lem : exists Q, np_quantile [5; 1; 9; 4; 7]%R (1 / 2)%R = Ok Q /\ (2 < INR (how_many (fun x => x <= Q)%R (fun x => Rle_dec x Q) [5; 1; 9; 4; 7]%R))%R.
Proof.
  destruct (@quantile_divides_lem [5; 1; 9; 4; 7]%R (1 / 2)%R) as (Q & E & H & _); [congruence | lra|]. exists Q. split; [exact E|].
  eapply Rle_lt_trans; [|exact H]. cbn. lra.
Qed.
Lemma first_frame (a : arr R) ax : (0 < nth ax (shp a) 0)%nat -> index_axis a ax (PyInt 0) = Ok (mkarr (remove_at ax (shp a)) (fun ix => get a (insert_at ax 0 ix))).
Proof.
  intros H. unfold index_axis. cbn [Z.ltb Z.compare]. replace ((0 <=? 0) && (0 <? Z.of_nat (nth ax (shp a) 0%nat))) with true; [reflexivity|].
  symmetry. apply andb_true_intro. split; [reflexivity | apply Z.ltb_lt; lia].
Qed.
(* @prop C99 approximate_quantiles over an array of any shape with a nonempty time axis: the k-th result is the quantile for the k-th threshold of the values at time 0, more than q (N - 1) of which are at most and more than (1 - q) (N - 1) at least the result. *)
Lemma approximate_quantiles_first_time_lem : forall (a : arr R) (time_axis : nat) (thresholds : list R), (0 < nth time_axis (shp a) 0)%nat ->
  let values := map (fun ix => get a (insert_at time_axis 0 ix)) (all_indices (remove_at time_axis (shp a))) in
  values <> [] -> Forall (fun q => 0 <= q <= 1)%R thresholds ->
  exists Qs, approximate_quantiles a time_axis thresholds = Ok Qs /\ length Qs = length thresholds /\
    forall k, (k < length thresholds)%nat -> let q := nth k thresholds 0%R in let Q := nth k Qs 0%R in
      (q * INR (length values - 1) < INR (how_many (fun x => x <= Q)%R (fun x => Rle_dec x Q) values))%R /\
      ((1 - q) * INR (length values - 1) < INR (how_many (fun x => Q <= x)%R (fun x => Rle_dec Q x) values))%R.
Proof.
  intros a ax qs Ha values Hne Hq. unfold approximate_quantiles. rewrite first_frame by exact Ha. cbn [bind]. change (array_values _) with values. clearbody values.
  induction Hq as [|q qs H F IH]; cbn [mapM].
  - exists []. split; [reflexivity|]. split; [reflexivity|]. cbn [length]. intros k Hk. lia.
  - destruct (@quantile_counts values q Hne H) as (Q & E & C1 & C2 & _). rewrite E. cbn [bind]. destruct IH as (Qs & E' & L & V). rewrite E'. cbn [bind]. exists (Q :: Qs). split; [reflexivity|]. split; [cbn; lia|].
    intros [|k] Hk; cbn [nth length] in *; [split; assumption|]. apply V. lia.
Qed.
(* @ex *)
Lemma approximate_quantiles_first_time_ex_lem : let a := mkarr [3; 4]%nat (fun ix => IZR (nth 0 ix 0 + 2 * nth 1 ix 0)) in
  (0 < nth 1 (shp a) 0)%nat /\ map (fun ix => get a (insert_at 1 0 ix)) (all_indices (remove_at 1 (shp a))) <> [] /\ Forall (fun q => 0 <= q <= 1)%R [(1 / 4)%R; (1 / 2)%R].
Proof. intros a. split; [cbn; lia|]. split; [cbn; congruence|]. repeat constructor; lra. Qed.
(* @prop C99 quantile_normalize_fn for every image with pixels and every quantile q in [0, 1]: the colour scale is symmetric about 0, from -M to M with M >= 0, and more than q (N - 1) of the N pixels lie on it. *)
Lemma colour_scale_covers_lem : forall (image : arr R) (q : R), array_values image <> [] -> (0 <= q <= 1)%R ->
  exists M, quantile_normalize_fn image q = Ok ((- M)%R, M) /\ (0 <= M)%R /\
    (q * INR (length (array_values image) - 1) < INR (how_many (fun x => - M <= x <= M)%R (between_dec M) (array_values image)))%R.
Proof.
  intros image q Hne Hq. unfold quantile_normalize_fn. assert (EV : array_values (amap Rabs image) = map Rabs (array_values image)) by (unfold array_values; cbn [shp get amap]; rewrite map_map; reflexivity).
  rewrite EV. set (vs := array_values image) in *. destruct (@quantile_counts (map Rabs vs) q) as (Q & E & C1 & _ & lo & hi & Hlo & _ & B); [destruct vs; [congruence | cbn; congruence] | exact Hq|].
  rewrite E. cbn [bind]. exists Q. split; [reflexivity|]. split.
  - apply in_map_iff in Hlo as (x & <- & _). pose proof (Rabs_pos x). lra.
  - rewrite map_length in C1. eapply Rlt_le_trans; [exact C1|]. apply le_INR. clear. induction vs as [|x vs IH]; cbn [map how_many]; [lia|].
    assert ((if Rle_dec (Rabs x) Q then 1 else 0) <= (if between_dec Q x then 1 else 0))%nat; [|apply Nat.add_le_mono; [assumption | apply IH]].
    destruct (Rle_dec (Rabs x) Q) as [L|L]; [|lia]. destruct (between_dec Q x) as [D|D]; [lia|]. exfalso. apply D. unfold Rabs in L. destruct (Rcase_abs x); lra.
Qed.
(* @ex *)
Lemma colour_scale_covers_ex_lem : array_values (mkarr [3; 4]%nat (fun ix => IZR (nth 0 ix 0 - nth 1 ix 0))) <> [] /\ (0 <= 999 / 1000 <= 1)%R.
Proof. split; [cbn; congruence | lra]. Qed.
