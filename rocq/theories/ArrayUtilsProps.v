(** * Property C42: slicing, splitting and concatenating arrays *)
From Verif Require Import Prelude NdArr ArrayUtils_model.
Set Implicit Arguments.
Local Open Scope Z_scope.

(** ** Specification vocabulary *)
(** [axis] (possibly negative) denotes the axis number [k] of an array with [d] axes. *)
Definition denotes (axis : Z) (d k : nat) : Prop := (k < d)%nat /\ (axis = Z.of_nat k \/ axis = Z.of_nat k - Z.of_nat d).
Definition valid_axis (axis : Z) (d : nat) : Prop := - Z.of_nat d <= axis < Z.of_nat d.
(** Where a split index falls in an axis of length [n]: negative ones count from the end. *)
Definition split_point (n : nat) (i : Z) : nat :=
  Z.to_nat (if i <? 0 then Z.max 0 (i + Z.of_nat n) else Z.min i (Z.of_nat n)).

(* @prop C42 Axis arguments: accepted exactly when -ndim <= axis < ndim, in which case a negative axis counts from the last one; any other axis raises ValueError. *)
Lemma normalize_axis_spec_lem : forall axis d,
  (valid_axis axis d -> exists k, normalize_axis axis d = Ok k /\ denotes axis d k) /\
  (~ valid_axis axis d -> normalize_axis axis d = Err EValue).
Proof.
  intros axis d. unfold valid_axis, normalize_axis, denotes. split; intros H.
  - destruct (Z.leb_spec (- Z.of_nat d) axis); [|lia]. destruct (Z.ltb_spec axis (Z.of_nat d)); [|lia]. cbn [andb].
    eexists. split; [reflexivity|]. destruct (Z.ltb_spec axis 0); split; lia.
  - destruct (Z.leb_spec (- Z.of_nat d) axis); [|reflexivity]. destruct (Z.ltb_spec axis (Z.of_nat d)); [lia | reflexivity].
Qed.
(* @ex *)
Lemma normalize_axis_spec_ex_lem : valid_axis (-1) 3 /\ denotes (-1) 3 2 /\ ~ valid_axis 3 3 /\ normalize_axis (-1) 3 = Ok 2%nat.
Proof. unfold valid_axis, denotes. repeat split; lia. Qed.

Lemma norm_ok axis d : valid_axis axis d -> exists k, normalize_axis axis d = Ok k /\ denotes axis d k.
Proof. apply normalize_axis_spec_lem. Qed.
Lemma norm_inv axis d k : normalize_axis axis d = Ok k -> valid_axis axis d /\ denotes axis d k.
Proof.
  intros E. destruct (normalize_axis_spec_lem axis d) as (H1 & H2). destruct (Z_le_dec (- Z.of_nat d) axis) as [A|A]; [destruct (Z_lt_dec axis (Z.of_nat d)) as [B|B]|].
  - assert (V : valid_axis axis d) by (split; lia). destruct (H1 V) as (k' & E' & D). rewrite E in E'. injection E' as <-. auto.
  - rewrite H2 in E by (unfold valid_axis; lia). discriminate.
  - rewrite H2 in E by (unfold valid_axis; lia). discriminate.
Qed.
Lemma denotes_unique axis d k k' : denotes axis d k -> denotes axis d k' -> k = k'.
Proof. unfold denotes. lia. Qed.
Lemma denotes_norm axis d k : denotes axis d k -> normalize_axis axis d = Ok k.
Proof.
  intros H. destruct (@norm_ok axis d) as (k' & E & D); [unfold denotes, valid_axis in *; lia|]. rewrite E. f_equal. eapply denotes_unique; eassumption.
Qed.
Lemma denotes_same axis d d' k : d = d' -> denotes axis d k -> denotes axis d' k.
Proof. intros ->. auto. Qed.
Lemma split_point_le n i : (split_point n i <= n)%nat.
Proof. unfold split_point. destruct (Z.ltb_spec i 0); lia. Qed.

Section Mapm.
Context {X Y : Type}.
Lemma mapM_F2 (f : X -> result Y) (P : X -> Y -> Prop) l : (forall x, In x l -> exists y, f x = Ok y /\ P x y) -> exists ys, mapM f l = Ok ys /\ Forall2 P l ys.
Proof.
  induction l as [|x l IH]; intros H; [exists []; split; [reflexivity | constructor]|].
  destruct (H x (or_introl eq_refl)) as (y & Ey & Py). destruct IH as (ys & Eys & Pys); [intros z Hz; apply H; right; exact Hz|].
  exists (y :: ys). cbn [mapM]. rewrite Ey. cbn [bind]. rewrite Eys. split; [reflexivity | constructor; auto].
Qed.
Lemma mapM_err (f : X -> result Y) e l x : In x l -> (forall y, In y l -> is_ok (f y) \/ f y = Err e) -> f x = Err e -> mapM f l = Err e.
Proof.
  induction l as [|z l IH]; intros Hin Hall Hx; [destruct Hin|]. cbn [mapM]. destruct (Hall z (or_introl eq_refl)) as [(y & E)|E]; rewrite E; cbn [bind]; [|reflexivity].
  destruct Hin as [->|Hin]; [congruence|]. rewrite IH; auto. intros y' Hy'. apply Hall. right. exact Hy'.
Qed.
End Mapm.
Lemma F2_length {X Y} (P : X -> Y -> Prop) l l' : Forall2 P l l' -> length l = length l'.
Proof. induction 1; cbn; auto. Qed.
Lemma F2_nth {X Y} (P : X -> Y -> Prop) l l' k x y : Forall2 P l l' -> nth_error l k = Some x -> nth_error l' k = Some y -> P x y.
Proof. intros H. revert k. induction H as [|a b l l' Hab H IH]; intros [|k] Hx Hy; cbn in *; try discriminate; [congruence | eauto]. Qed.

(** What slicing one array along an axis gives. *)
Lemma slice_first {A} (a : arr A) ax i : index_axis a ax (PySlice (Some 0) (Some i) 1) =
  Ok (mkarr (upd ax (split_point (nth ax (shp a) 0%nat) i) (shp a)) (fun ix => get a (upd ax (0 + nth ax ix 0 * 1) ix))).
Proof.
  unfold index_axis. cbn [Z.leb]. change (1 <=? 0) with false. cbv iota. do 2 f_equal; [|unfold slice_start, clamp_bound; cbn [Z.ltb]; change (0 <? 0) with false; cbv iota;
    replace (Z.min 0 (Z.of_nat (nth ax (shp a) 0%nat))) with 0 by lia; reflexivity].
  f_equal. unfold slice_count, slice_start, slice_stop, clamp_bound, split_point. change (0 <? 0) with false. cbv iota. rewrite Z.div_1_r. f_equal. destruct (i <? 0); lia.
Qed.
Lemma slice_second {A} (a : arr A) ax i : index_axis a ax (PySlice (Some i) None 1) =
  Ok (mkarr (upd ax (nth ax (shp a) 0 - split_point (nth ax (shp a) 0) i)%nat (shp a)) (fun ix => get a (upd ax (Z.of_nat (split_point (nth ax (shp a) 0%nat) i) + nth ax ix 0 * 1) ix))).
Proof.
  unfold index_axis. change (1 <=? 0) with false. cbv iota. do 2 f_equal.
  - f_equal. unfold slice_count, slice_start, slice_stop, clamp_bound, split_point. rewrite Z.div_1_r. destruct (Z.ltb_spec i 0); lia.
  - unfold slice_start, clamp_bound, split_point.
    replace (Z.of_nat (Z.to_nat (if i <? 0 then Z.max 0 (i + Z.of_nat (nth ax (shp a) 0%nat)) else Z.min i (Z.of_nat (nth ax (shp a) 0%nat))))) with (if i <? 0 then Z.max 0 (i + Z.of_nat (nth ax (shp a) 0%nat)) else Z.min i (Z.of_nat (nth ax (shp a) 0%nat))) by (destruct (Z.ltb_spec i 0); lia). reflexivity.
Qed.

(** The part of [a] with indices [lo <= i < lo + n] along axis [ax]. *)
Definition part_of {A} (ax lo n : nat) (a p : arr A) : Prop :=
  shp p = upd ax n (shp a) /\ forall ix, inb (shp p) ix -> get p ix = get a (upd ax (nth ax ix 0 + Z.of_nat lo) ix).

Lemma slice_leaf {A} (inputs : list (arr A)) axis idx same (P : arr A -> arr A -> Prop) :
  inputs <> [] -> (same = true -> same_dims inputs = true) -> (forall a, In a inputs -> valid_axis axis (ndim a)) ->
  (forall a ax, In a inputs -> denotes axis (ndim a) ax -> exists p, index_axis a ax idx = Ok p /\ P a p) ->
  exists l, slice_along_axis inputs axis idx same = Ok l /\ Forall2 P inputs l.
Proof.
  intros Hne Hs Hv H. unfold slice_along_axis. assert (E : same && negb (same_dims inputs) = false) by (destruct same; [rewrite Hs by reflexivity; reflexivity | reflexivity]). rewrite E.
  apply mapM_F2. intros a Ha. specialize (Hv a Ha). destruct (ndim a =? 0)%nat eqn:E0; [apply Nat.eqb_eq in E0; unfold valid_axis in Hv; lia|].
  destruct (norm_ok Hv) as (k & Ek & Dk). rewrite Ek. cbn [bind]. apply H; assumption.
Qed.

(* @prop C42 split_along_axis on any nonempty collection of arrays (equal ranks if expect_same_dims), every valid axis and every integer split index: the first part of each array consists of its entries before the split point along the axis, the second of those from the split point on; negative split indices count from the end and indices beyond the ends are clamped. *)
Lemma split_along_axis_spec_lem : forall (A : Type) (inputs : list (arr A)) split_idx axis same,
  inputs <> [] -> (forall a, In a inputs -> valid_axis axis (ndim a)) -> (same = true -> forall a b, In a inputs -> In b inputs -> ndim a = ndim b) ->
  exists first second, split_along_axis inputs split_idx axis same = Ok (first, second) /\
    Forall2 (fun a p => exists ax, denotes axis (ndim a) ax /\ part_of ax 0 (split_point (nth ax (shp a) 0%nat) split_idx) a p) inputs first /\
    Forall2 (fun a p => exists ax, denotes axis (ndim a) ax /\
       part_of ax (split_point (nth ax (shp a) 0%nat) split_idx) (nth ax (shp a) 0 - split_point (nth ax (shp a) 0) split_idx)%nat a p) inputs second.
Proof.
  intros A inputs i axis same Hne Hv Hs. unfold split_along_axis.
  assert (Hs' : same = true -> same_dims inputs = true).
  { intros E. unfold same_dims. destruct inputs as [|a l]; [congruence|]. apply forallb_forall. intros b Hb. apply Nat.eqb_eq. apply Hs; [exact E | right; exact Hb | left; reflexivity]. }
  destruct (@slice_leaf A inputs axis (PySlice (Some 0) (Some i) 1) same (fun a p => exists ax, denotes axis (ndim a) ax /\ part_of ax 0 (split_point (nth ax (shp a) 0%nat) i) a p) Hne Hs' Hv) as (f & Ef & Hf).
  { intros a ax Ha Hd. rewrite slice_first. eexists. split; [reflexivity|]. exists ax. split; [exact Hd|]. split; [reflexivity|]. intros ix _. cbn [get]. f_equal. f_equal. lia. }
  destruct (@slice_leaf A inputs axis (PySlice (Some i) None 1) same (fun a p => exists ax, denotes axis (ndim a) ax /\ part_of ax (split_point (nth ax (shp a) 0%nat) i) (nth ax (shp a) 0 - split_point (nth ax (shp a) 0) i)%nat a p) Hne Hs' Hv) as (s & Es & Hsn).
  { intros a ax Ha Hd. rewrite slice_second. eexists. split; [reflexivity|]. exists ax. split; [exact Hd|]. split; [reflexivity|]. intros ix _. cbn [get]. f_equal. f_equal. lia. }
  rewrite Ef. cbn [bind]. rewrite Es. cbn [bind]. exists f, s. auto.
Qed.
(* @ex *)
Lemma split_along_axis_spec_ex_lem : let a := mkarr [2%nat; 5%nat] (fun ix => nth 0 ix 0 * 10 + nth 1 ix 0) in
  (forall x, In x [a] -> valid_axis (-1) (ndim x)) /\ denotes (-1) (ndim a) 1 /\ split_point 5 (-2) = 3%nat /\
  match split_along_axis [a] (-2) (-1) true with Ok ([f], [s]) => get f [1; 2] = 12 /\ get s [1; 0] = 13 /\ shp s = [2%nat; 2%nat] | _ => False end.
Proof. intros a. split; [intros x [<- | []]; unfold valid_axis; cbn; lia|]. split; [split; [cbn; lia | right; reflexivity]|]. split; [reflexivity|]. cbn. auto. Qed.

(** Concatenation of the two parts of an array. *)
Lemma concat_two {A} axis (a f s : arr A) ax k : denotes axis (ndim a) ax -> (k <= nth ax (shp a) 0)%nat -> part_of ax 0 k a f -> part_of ax k (nth ax (shp a) 0 - k)%nat a s ->
  exists r, concatenate [f; s] axis = Ok r /\ aeq r a.
Proof.
  intros Hd Hk (F1 & F2) (S1 & S2). pose proof Hd as (Hlt & _). unfold ndim in Hlt.
  assert (Df : ndim f = ndim a) by (unfold ndim; rewrite F1, upd_length; reflexivity).
  assert (Ds : ndim s = ndim a) by (unfold ndim; rewrite S1, upd_length; reflexivity).
  unfold concatenate. rewrite Df, (denotes_norm Hd). cbn [bind forallb]. rewrite Df, Ds, !Nat.eqb_refl. cbn [andb].
  assert (HF : forall l, forallb (fun j => (j =? ax)%nat || (nth j (shp f) 0 =? nth j (shp f) 0)%nat) l = true) by (intros l; apply forallb_forall; intros j _; rewrite Nat.eqb_refl; apply orb_true_r).
  assert (HS : forall l, forallb (fun j => (j =? ax)%nat || (nth j (shp s) 0 =? nth j (shp f) 0)%nat) l = true).
  { intros l. apply forallb_forall. intros j _. destruct (Nat.eqb_spec j ax) as [->|N]; [reflexivity|]. rewrite F1, S1, !nth_upd_other by auto. rewrite Nat.eqb_refl. reflexivity. }
  rewrite HF, HS. cbn [andb map fold_right]. eexists. split; [reflexivity|].
  assert (Nf : nth ax (shp f) 0%nat = k) by (rewrite F1; apply nth_upd_same; exact Hlt).
  assert (Ns : nth ax (shp s) 0%nat = (nth ax (shp a) 0 - k)%nat) by (rewrite S1; apply nth_upd_same; exact Hlt).
  assert (Hsh : upd ax (nth ax (shp f) 0 + (nth ax (shp s) 0 + 0))%nat (shp f) = shp a).
  { rewrite Nf, Ns, F1, upd_upd_same. replace (k + (nth ax (shp a) 0 - k + 0))%nat with (nth ax (shp a) 0%nat) by lia. apply upd_nth_same. }
  split; cbn [shp get]; rewrite Hsh; [reflexivity|]. intros ix Hix. cbn [concat_lines]. rewrite Nf, Ns.
  pose proof (@inb_nth _ _ ax Hix Hlt) as Hi. pose proof (inb_length _ _ Hix) as HL.
  destruct (Z.ltb_spec (nth ax ix 0) (Z.of_nat k)) as [Hl|Hl].
  - rewrite F2; [|rewrite F1; replace ix with (upd ax (nth ax ix 0) ix) by apply upd_nth_same; apply inb_upd; [exact Hix | lia]].
    rewrite Z.add_0_r, upd_nth_same. reflexivity.
  - rewrite nth_upd_same by (rewrite HL; exact Hlt). destruct (Z.ltb_spec (nth ax ix 0 - Z.of_nat k) (Z.of_nat (nth ax (shp a) 0 - k)%nat)) as [_|Hx]; [|lia].
    rewrite S2; [|rewrite S1; apply inb_upd; [exact Hix | lia]]. rewrite nth_upd_same by (rewrite HL; exact Hlt). rewrite upd_upd_same.
    replace (nth ax ix 0 - Z.of_nat k + Z.of_nat k) with (nth ax ix 0) by lia. rewrite upd_nth_same. reflexivity.
Qed.

Lemma mapM_nth_seq {X} (f : nat -> result X) (P : nat -> X -> Prop) n : (forall k, (k < n)%nat -> exists y, f k = Ok y /\ P k y) ->
  exists ys, mapM f (seq 0 n) = Ok ys /\ length ys = n /\ forall k y, nth_error ys k = Some y -> P k y.
Proof.
  intros H. destruct (@mapM_F2 _ _ f P (seq 0 n)) as (ys & E & HF); [intros k Hk; apply in_seq in Hk; apply H; lia|].
  exists ys. split; [exact E|]. pose proof (F2_length HF) as HL. rewrite seq_length in HL. split; [auto|].
  intros k y Hy. assert (Hk : (k < n)%nat) by (rewrite HL; apply nth_error_Some; congruence).
  apply (F2_nth k HF); [|exact Hy]. rewrite (nth_error_nth' _ 0%nat) by (rewrite seq_length; exact Hk). rewrite seq_nth by exact Hk. reflexivity.
Qed.
Lemma Forall2_of_nth {X Y} (P : X -> Y -> Prop) l l' : length l = length l' -> (forall k x y, nth_error l k = Some x -> nth_error l' k = Some y -> P x y) -> Forall2 P l l'.
Proof.
  revert l'. induction l as [|a l IH]; intros [|b l'] HL H; cbn in HL; try discriminate; [constructor|]. constructor; [exact (H 0%nat a b eq_refl eq_refl)|].
  apply IH; [lia|]. intros k x y. exact (H (S k) x y).
Qed.

(* @prop C42 Splitting and concatenating are inverse: for every nonempty collection of arrays, valid axis (positive or negative) and integer split index (in range, negative or beyond the ends), concat_along_axis of the two parts returned by split_along_axis gives back every array, with its shape and all its entries. *)
Lemma concat_split_identity_lem : forall (A : Type) (inputs : list (arr A)) split_idx axis same,
  inputs <> [] -> (forall a, In a inputs -> valid_axis axis (ndim a)) -> (same = true -> forall a b, In a inputs -> In b inputs -> ndim a = ndim b) ->
  exists first second outputs, split_along_axis inputs split_idx axis same = Ok (first, second) /\
    concat_along_axis [first; second] axis = Ok outputs /\ Forall2 aeq outputs inputs.
Proof.
  intros A inputs i axis same Hne Hv Hs. destruct (@split_along_axis_spec_lem A inputs i axis same Hne Hv Hs) as (f & s & E & Hf & Hsn).
  pose proof (F2_length Hf) as Lf. pose proof (F2_length Hsn) as Ls.
  exists f, s.
  unfold concat_along_axis. cbn [forallb]. assert (Efs : (length s =? length f)%nat = true) by (apply Nat.eqb_eq; congruence). rewrite Efs, Nat.eqb_refl. cbn [andb]. rewrite <- Lf.
  destruct (@mapM_nth_seq (arr A) (fun k => let* l := mapM (leaf k) [f; s] in concatenate l axis) (fun k r => forall a, nth_error inputs k = Some a -> aeq r a) (length inputs)) as (out & Eo & Lo & Ho).
  { intros k Hk. destruct (nth_error inputs k) as [a|] eqn:Ea; [|apply nth_error_None in Ea; lia].
    destruct (nth_error f k) as [fk|] eqn:Efk; [|apply nth_error_None in Efk; lia]. destruct (nth_error s k) as [sk|] eqn:Esk; [|apply nth_error_None in Esk; lia].
    destruct (F2_nth _ Hf Ea Efk) as (ax & D & P1). destruct (F2_nth _ Hsn Ea Esk) as (ax' & D' & P2). rewrite <- (denotes_unique D D') in P2.
    destruct (@concat_two A axis a fk sk ax (split_point (nth ax (shp a) 0%nat) i) D (split_point_le _ _) P1 P2) as (r & Er & Hr).
    exists r. cbn [mapM]. unfold leaf. rewrite Efk, Esk. cbn [bind]. split; [exact Er|]. intros a' Ea'. injection Ea' as <-. exact Hr. }
  exists out. split; [exact E|]. split; [exact Eo|]. apply Forall2_of_nth; [exact Lo|]. intros k x y Hx Hy. exact (Ho k x Hx y Hy).
Qed.
(* @ex *)
Lemma concat_split_identity_ex_lem : let a := mkarr [2%nat; 5%nat] (fun ix => nth 0 ix 0 * 10 + nth 1 ix 0) in
  let b := mkarr [3%nat] (fun ix => nth 0 ix 0) in
  (forall x, In x [a; b] -> valid_axis (-1) (ndim x)) /\ ndim a <> ndim b /\
  match split_along_axis [a; b] 2 (-1) false with Ok (f, s) => match concat_along_axis [f; s] (-1) with Ok [x; y] => get x [1; 3] = 13 /\ get y [2] = 2 | _ => False end | _ => False end.
Proof. intros a b. split; [intros x [<- | [<- | []]]; unfold valid_axis; cbn; lia|]. split; [cbn; lia|]. vm_compute. auto. Qed.

(* @prop C42 Invalid requests raise ValueError instead of returning data: an axis outside [-ndim, ndim) for one of the arrays (all having at least one axis), or arrays of different ranks (or none at all) when expect_same_dims is set. *)
Lemma split_along_axis_errors_lem : forall (A : Type) (inputs : list (arr A)) split_idx axis same,
  ((exists a, In a inputs /\ (0 < ndim a)%nat /\ ~ valid_axis axis (ndim a)) -> split_along_axis inputs split_idx axis same = Err EValue) /\
  ((inputs = [] \/ exists a b, In a inputs /\ In b inputs /\ ndim a <> ndim b) -> split_along_axis inputs split_idx axis true = Err EValue).
Proof.
  intros A inputs i axis same. split.
  - intros (a & Ha & Hd & Hv). unfold split_along_axis.
    assert (E : slice_along_axis inputs axis (PySlice (Some 0) (Some i) 1) same = Err EValue); [|rewrite E; reflexivity].
    unfold slice_along_axis. destruct (same && negb (same_dims inputs)); [reflexivity|]. apply (@mapM_err _ _ _ EValue inputs a Ha).
    + intros y _. destruct (ndim y =? 0)%nat; [left; eexists; reflexivity|]. destruct (normalize_axis axis (ndim y)) as [k|e] eqn:Ek; cbn [bind].
      * left. rewrite slice_first. eexists; reflexivity.
      * right. destruct (normalize_axis_spec_lem axis (ndim y)) as (H1 & H2). destruct (Z_le_dec (- Z.of_nat (ndim y)) axis) as [B|B]; [destruct (Z_lt_dec axis (Z.of_nat (ndim y))) as [C|C]|].
        -- destruct H1 as (k & E & _); [split; lia|]. congruence.
        -- rewrite H2 in Ek by (unfold valid_axis; lia). congruence.
        -- rewrite H2 in Ek by (unfold valid_axis; lia). congruence.
    + replace (ndim a =? 0)%nat with false by (symmetry; apply Nat.eqb_neq; lia). rewrite (proj2 (normalize_axis_spec_lem axis (ndim a)) Hv). reflexivity.
  - intros H. unfold split_along_axis, slice_along_axis. assert (E : same_dims inputs = false).
    { destruct H as [->|(a & b & Ha & Hb & N)]; [reflexivity|]. unfold same_dims. destruct inputs as [|c l]; [reflexivity|]. destruct (forallb (fun b0 => (ndim b0 =? ndim c)%nat) l) eqn:E; [|reflexivity].
      rewrite forallb_forall in E. exfalso. apply N. assert (Hc : forall x, In x (c :: l) -> ndim x = ndim c) by (intros x [<- | Hx]; [reflexivity | apply Nat.eqb_eq; apply E; exact Hx]). rewrite (Hc a Ha), (Hc b Hb). reflexivity. }
    rewrite E. reflexivity.
Qed.
(* @ex *)
Lemma split_along_axis_errors_ex_lem : let a := mkarr [2%nat; 5%nat] (fun _ => 0) in let b := mkarr [3%nat] (fun _ => 1) in
  (exists x, In x [a; b] /\ (0 < ndim x)%nat /\ ~ valid_axis 1 (ndim x)) /\ (exists x y, In x [a; b] /\ In y [a; b] /\ ndim x <> ndim y).
Proof. intros a b. split; [exists b | exists a, b]; (split; [cbn; auto|]); cbn; [split; [lia | unfold valid_axis; lia] | auto]. Qed.

(** ** One slice at a time *)
(** An index of [a] with its entry for axis [ax] left out. *)
Definition without {T} (ax : nat) (l : list T) : list T := firstn ax l ++ skipn (S ax) l.
(** [p] is the slice of [a] at position [k] of axis [ax], the axis being dropped. *)
Definition slice_of {A} (ax k : nat) (a p : arr A) : Prop :=
  shp p = without ax (shp a) /\ forall ix, inb (shp a) ix -> nth ax ix 0 = Z.of_nat k -> get p (without ax ix) = get a ix.

Lemma insert_without {T} ax (l : list T) d : (ax < length l)%nat -> insert_at ax (nth ax l d) (without ax l) = l.
Proof.
  unfold insert_at, without. revert l. induction ax as [|ax IH]; intros [|x l] H; cbn [length] in H; try lia; [reflexivity|].
  cbn [firstn skipn app nth]. f_equal. apply IH. lia.
Qed.
Lemma without_upd {T} ax (l : list T) x : without ax (upd ax x l) = without ax l.
Proof. unfold without. revert l. induction ax as [|ax IH]; intros [|y l]; cbn [firstn skipn app upd]; try reflexivity. f_equal. apply IH. Qed.

(* @prop C42 slice_along_axis with an integer index (negative ones counting from the end) returns the slice at that position with the axis dropped, for every array, axis and position in range. *)
Lemma slice_along_axis_int_lem : forall (A : Type) (inputs : list (arr A)) axis i,
  inputs <> [] -> (forall a, In a inputs -> valid_axis axis (ndim a)) ->
  (forall a ax, In a inputs -> denotes axis (ndim a) ax -> - Z.of_nat (nth ax (shp a) 0%nat) <= i < Z.of_nat (nth ax (shp a) 0%nat)) ->
  exists outputs, slice_along_axis inputs axis (PyInt i) false = Ok outputs /\
    Forall2 (fun a p => exists ax k, denotes axis (ndim a) ax /\ (i = Z.of_nat k \/ i = Z.of_nat k - Z.of_nat (nth ax (shp a) 0%nat)) /\ slice_of ax k a p) inputs outputs.
Proof.
  intros A inputs axis i Hne Hv Hi. apply slice_leaf; [exact Hne | discriminate | exact Hv|].
  intros a ax Ha Hd. specialize (Hi a ax Ha Hd). unfold index_axis. set (n := nth ax (shp a) 0%nat) in *. cbv zeta.
  set (j := if i <? 0 then i + Z.of_nat n else i). assert (Hj : 0 <= j < Z.of_nat n) by (unfold j; destruct (Z.ltb_spec i 0); lia).
  destruct (Z.leb_spec 0 j); [|lia]. destruct (Z.ltb_spec j (Z.of_nat n)); [|lia]. cbn [andb]. eexists. split; [reflexivity|].
  exists ax, (Z.to_nat j). split; [exact Hd|]. split; [unfold j; destruct (Z.ltb_spec i 0); lia|]. split; [reflexivity|].
  intros ix Hix Hk. cbn [get]. f_equal. rewrite Z2Nat.id in Hk by lia. rewrite <- Hk. apply insert_without. rewrite (inb_length _ _ Hix). exact (proj1 Hd).
Qed.
(* @ex *)
Lemma slice_along_axis_int_ex_lem : let a := mkarr [2%nat; 5%nat] (fun ix => nth 0 ix 0 * 10 + nth 1 ix 0) in
  match slice_along_axis [a] (-1) (PyInt (-2)) false with Ok [p] => shp p = [2%nat] /\ get p [1] = 13 | _ => False end /\ denotes (-1) (ndim a) 1 /\ - 5 <= -2 < 5.
Proof. split; [vm_compute; auto|]. split; [unfold denotes; cbn; lia | lia]. Qed.

(* @prop C42 slice_along_axis with slice(start, None, step): entry i of the result along the axis is entry start + i*step of the array, and the result has exactly as many entries as there are such positions. *)
Lemma slice_along_axis_stride_lem : forall (A : Type) (inputs : list (arr A)) axis start step,
  inputs <> [] -> (forall a, In a inputs -> valid_axis axis (ndim a)) -> 0 <= start -> 0 < step ->
  exists outputs, slice_along_axis inputs axis (PySlice (Some start) None step) false = Ok outputs /\
    Forall2 (fun a p => exists ax, denotes axis (ndim a) ax /\ (forall j, j <> ax -> nth j (shp p) 0%nat = nth j (shp a) 0%nat) /\ length (shp p) = length (shp a) /\
       (forall i, 0 <= i -> (i < Z.of_nat (nth ax (shp p) 0%nat) <-> start + i * step < Z.of_nat (nth ax (shp a) 0%nat))) /\
       forall ix, inb (shp p) ix -> get p ix = get a (upd ax (start + nth ax ix 0 * step) ix)) inputs outputs.
Proof.
  intros A inputs axis start step Hne Hv H0 Hp. apply slice_leaf; [exact Hne | discriminate | exact Hv|].
  intros a ax Ha Hd. unfold index_axis. destruct (Z.leb_spec step 0); [lia|]. eexists. split; [reflexivity|]. cbn [shp get].
  pose proof (proj1 Hd) as Hlt. unfold ndim in Hlt.
  exists ax. split; [exact Hd|]. split; [intros j Hj; apply nth_upd_other; auto|]. split; [apply upd_length|].
  set (n := Z.of_nat (nth ax (shp a) 0%nat)). assert (Hn : 0 <= n) by (unfold n; lia).
  assert (E : slice_start (nth ax (shp a) 0%nat) (Some start) = Z.min start n) by (unfold slice_start, clamp_bound; destruct (Z.ltb_spec start 0); [lia | reflexivity]).
  assert (Count : forall i, 0 <= i -> (i < Z.of_nat (slice_count (nth ax (shp a) 0%nat) (Some start) None step) <-> start + i * step < n)).
  { intros i Hi. unfold slice_count. rewrite E. unfold slice_stop, clamp_bound. fold n.
    pose proof (Z.div_mod (n - Z.min start n + step - 1) step ltac:(lia)) as D. pose proof (Z.mod_pos_bound (n - Z.min start n + step - 1) step Hp) as B.
    set (q := (n - Z.min start n + step - 1) / step) in *. set (r := (n - Z.min start n + step - 1) mod step) in *.
    assert (Hq : 0 <= q). { unfold q. apply Z.div_pos; lia. } rewrite Z2Nat.id by exact Hq.
    destruct (Z.le_gt_cases start n) as [L|L]; [rewrite Z.min_l in D by lia; split; intros; nia | rewrite Z.min_r in D by lia; split; intros; nia]. }
  split; [intros i Hi; rewrite nth_upd_same by exact Hlt; apply Count; exact Hi|].
  intros ix Hix. rewrite E. pose proof (@inb_nth _ _ ax Hix ltac:(rewrite upd_length; exact Hlt)) as Hb. rewrite nth_upd_same in Hb by exact Hlt.
  assert (Hb2 : nth ax ix 0 < Z.of_nat (slice_count (nth ax (shp a) 0%nat) (Some start) None step)) by lia. apply Count in Hb2; [|lia]. rewrite Z.min_l by nia. reflexivity.
Qed.
(* @ex *)
Lemma slice_along_axis_stride_ex_lem : let a := mkarr [7%nat] (fun ix => nth 0 ix 0) in
  match slice_along_axis [a] 0 (PySlice (Some 2) None 3) false with Ok [p] => shp p = [2%nat] /\ get p [1] = 5 | _ => False end.
Proof. vm_compute. auto. Qed.

Lemma split_parts {A} (a : arr A) axis ax n : denotes axis (ndim a) ax -> nth ax (shp a) 0%nat = n -> (0 < n)%nat ->
  exists l, jnp_split a n axis = Ok l /\ length l = n /\ forall k p, nth_error l k = Some p -> part_of ax k 1 a p.
Proof.
  intros Hd Hn Hp. unfold jnp_split. rewrite (denotes_norm Hd). cbn [bind]. rewrite Hn. destruct (Nat.eqb_spec n 0); [lia|]. rewrite Nat.mod_same, Nat.div_same by lia. rewrite Nat.eqb_refl.
  eexists. split; [reflexivity|]. rewrite map_length, seq_length. split; [reflexivity|]. intros k p Hk.
  assert (Hkn : (k < n)%nat) by (rewrite <- (seq_length n 0); eapply Nat.lt_le_trans; [apply nth_error_Some; rewrite Hk; discriminate | rewrite map_length; apply le_n]).
  rewrite nth_error_map in Hk. rewrite (nth_error_nth' _ 0%nat) in Hk by (rewrite seq_length; exact Hkn). rewrite seq_nth in Hk by exact Hkn. cbn [option_map] in Hk. injection Hk as <-.
  split; [reflexivity|]. intros ix _. cbn [get]. f_equal. f_equal. rewrite Nat.mul_1_r. reflexivity.
Qed.
Lemma squeeze_part {A} (a p : arr A) axis ax k : denotes axis (ndim a) ax -> part_of ax k 1 a p -> exists q, jnp_squeeze p axis = Ok q /\ slice_of ax k a q.
Proof.
  intros Hd (P1 & P2). assert (Dp : ndim p = ndim a) by (unfold ndim; rewrite P1, upd_length; reflexivity). pose proof (proj1 Hd) as Hlt. unfold ndim in Hlt.
  unfold jnp_squeeze. rewrite Dp, (denotes_norm Hd). cbn [bind]. rewrite P1, nth_upd_same by exact Hlt. cbn [Nat.eqb]. eexists. split; [reflexivity|].
  split; [cbn [shp]; apply without_upd|]. intros ix Hix Hk. cbn [get].
  pose proof (inb_length _ _ Hix) as HL. assert (E : insert_at ax 0 (without ax ix) = upd ax 0 ix).
  { pose proof (@insert_without _ ax (upd ax 0 ix) 0 ltac:(rewrite upd_length, HL; exact Hlt)) as X. rewrite nth_upd_same in X by (rewrite HL; exact Hlt). rewrite without_upd in X. exact X. }
  rewrite E, P2; [|rewrite P1; apply inb_upd; [exact Hix | lia]]. rewrite nth_upd_same by (rewrite HL; exact Hlt). rewrite upd_upd_same. f_equal. rewrite Z.add_0_l, <- Hk. apply upd_nth_same.
Qed.
Lemma split_axis_gen {A} (inputs : list (arr A)) axis n keep : inputs <> [] -> (0 < n)%nat ->
  (forall a, In a inputs -> exists ax, denotes axis (ndim a) ax /\ nth ax (shp a) 0%nat = n) ->
  exists outputs, split_axis inputs axis keep = Ok outputs /\ length outputs = n /\
    forall k tree, nth_error outputs k = Some tree ->
      Forall2 (fun a p => exists ax, denotes axis (ndim a) ax /\ (if keep then part_of ax k 1 a p else slice_of ax k a p)) inputs tree.
Proof.
  intros Hne Hn H. unfold split_axis.
  destruct (@mapM_F2 _ _ (fun a : arr A => shape_at a axis) (fun _ m => m = n) inputs) as (sizes & Es & Hs).
  { intros a Ha. destruct (H a Ha) as (ax & D & E). unfold shape_at. rewrite (denotes_norm D). eexists. split; [reflexivity | exact E]. }
  rewrite Es. cbn [bind]. destruct Hs as [|a m l rest Hm Hs]; [congruence|]. subst m.
  assert (Eall : forallb (fun m => (m =? n)%nat) rest = true).
  { apply forallb_forall. intros m Hin. apply Nat.eqb_eq. clear - Hs Hin. induction Hs as [|? ? ? ? X Y IH]; [destruct Hin|]. destruct Hin as [<- | Hin]; auto. }
  rewrite Eall. set (inp := a :: l) in *.
  destruct (@mapM_F2 _ _ (fun a : arr A => jnp_split a n axis) (fun a l => exists ax, denotes axis (ndim a) ax /\ length l = n /\ forall k p, nth_error l k = Some p -> part_of ax k 1 a p) inp) as (sp & Esp & Hsp).
  { intros b Hb. destruct (H b Hb) as (ax & D & E). destruct (@split_parts A b axis ax n D E Hn) as (lb & Elb & L1 & L2). exists lb. split; [exact Elb|]. exists ax. auto. }
  rewrite Esp. cbn [bind].
  assert (Fin : exists sp', (if keep then Ok sp else mapM (mapM (fun a0 => jnp_squeeze a0 axis)) sp) = Ok sp' /\
    Forall2 (fun a l => exists ax, denotes axis (ndim a) ax /\ length l = n /\ forall k p, nth_error l k = Some p -> if keep then part_of ax k 1 a p else slice_of ax k a p) inp sp').
  { destruct keep; [exists sp; split; [reflexivity | exact Hsp]|]. clear - Hsp.
    induction Hsp as [|b lb inp sp (ax & D & L & P) Hsp IH]; [exists []; split; [reflexivity | constructor]|].
    destruct IH as (sp' & E & HF). cbn [mapM].
    assert (Sq : forall lb k0, (forall k p, nth_error lb k = Some p -> part_of ax (k + k0) 1 b p) -> exists lq, mapM (fun a0 => jnp_squeeze a0 axis) lb = Ok lq /\ length lq = length lb /\ forall k p, nth_error lq k = Some p -> slice_of ax (k + k0) b p).
    { clear - D. induction lb as [|p lb IHl]; intros k0 P; [exists []; split; [reflexivity|]; split; [reflexivity|]; intros [|k] p' X; discriminate|].
      destruct (squeeze_part D (P 0%nat p eq_refl)) as (q & Eq & Hq). destruct (IHl (S k0)) as (lq & Elq & Llq & Hlq).
      { intros k p' Hk. replace (k + S k0)%nat with (S k + k0)%nat by lia. apply P. exact Hk. }
      exists (q :: lq). cbn [mapM]. rewrite Eq. cbn [bind]. rewrite Elq. split; [reflexivity|]. split; [cbn; lia|]. intros [|k] p' X; cbn [nth_error] in X; [injection X as <-; exact Hq|].
      replace (S k + k0)%nat with (k + S k0)%nat by lia. apply Hlq. exact X. }
    destruct (Sq lb 0%nat) as (lq & Elq & Llq & Hlq); [intros k p X; rewrite Nat.add_0_r; apply P; exact X|]. rewrite Elq. cbn [bind]. rewrite E. cbn [bind].
    exists (lq :: sp'). split; [reflexivity|]. constructor; [|exact HF]. exists ax. split; [exact D|]. split; [congruence|]. intros k p X. specialize (Hlq k p X). rewrite Nat.add_0_r in Hlq. exact Hlq. }
  destruct Fin as (sp' & Esp' & Hsp'). rewrite Esp'. cbn [bind].
  apply mapM_nth_seq. intros k Hk.
  clear - Hsp' Hk. induction Hsp' as [|b lb inp sp (ax & D & L & P) Hsp IH]; [exists []; split; [reflexivity | constructor]|].
  destruct IH as (tree & E & HF). destruct (nth_error lb k) as [p|] eqn:Ep; [|apply nth_error_None in Ep; lia].
  exists (p :: tree). cbn [mapM]. unfold leaf at 1. rewrite Ep. cbn [bind]. rewrite E. split; [reflexivity|]. constructor; [|exact HF]. exists ax. split; [exact D|]. apply P. exact Ep.
Qed.

(* @prop C42 split_axis on any nonempty collection of arrays whose axis has the same size n > 0 returns exactly n trees; leaf j of tree k is the k-th slice of array j, in order, with the axis kept at size one if keep_dims is set and dropped otherwise. *)
Lemma split_axis_spec_lem : forall (A : Type) (inputs : list (arr A)) axis n (keep_dims : bool), inputs <> [] -> (0 < n)%nat ->
  (forall a, In a inputs -> exists ax, denotes axis (ndim a) ax /\ nth ax (shp a) 0%nat = n) ->
  exists outputs, split_axis inputs axis keep_dims = Ok outputs /\ length outputs = n /\
    forall k tree, nth_error outputs k = Some tree ->
      Forall2 (fun a p => exists ax, denotes axis (ndim a) ax /\ (if keep_dims then part_of ax k 1 a p else slice_of ax k a p)) inputs tree.
Proof. intros A inputs axis n keep. apply split_axis_gen. Qed.
(* @ex *)
Lemma split_axis_spec_ex_lem : let a := mkarr [2%nat; 3%nat] (fun ix => nth 0 ix 0 * 10 + nth 1 ix 0) in let b := mkarr [3%nat] (fun ix => nth 0 ix 0) in
  (forall x, In x [a; b] -> exists ax, denotes (-1) (ndim x) ax /\ nth ax (shp x) 0%nat = 3%nat) /\
  match split_axis [a; b] (-1) false with Ok [_; [p; q]; _] => shp p = [2%nat] /\ get p [1] = 11 /\ shp q = [] /\ get q [] = 1 | _ => False end.
Proof. intros a b. split; [intros x [<- | [<- | []]]; [exists 1%nat | exists 0%nat]; unfold denotes; cbn; lia | vm_compute; auto]. Qed.

(* @prop C42 unstack returns the slices of an array along an axis of size n > 0, in order, with the axis dropped. *)
Lemma unstack_spec_lem : forall (A : Type) (a : arr A) axis ax, denotes axis (ndim a) ax -> (0 < nth ax (shp a) 0)%nat ->
  exists l, unstack a axis = Ok l /\ length l = nth ax (shp a) 0%nat /\ forall k p, nth_error l k = Some p -> slice_of ax k a p.
Proof.
  intros A a axis ax Hd Hn. unfold unstack, shape_at. rewrite (denotes_norm Hd). cbn [bind]. destruct (@split_parts A a axis ax _ Hd eq_refl Hn) as (l & E & L & P). rewrite E. cbn [bind].
  destruct (@mapM_F2 _ _ (fun x : arr A => jnp_squeeze x axis) (fun p q => forall k, part_of ax k 1 a p -> slice_of ax k a q) l) as (qs & Eq & Hq).
  { intros p Hp. destruct (In_nth_error _ _ Hp) as (k & Hk). destruct (squeeze_part Hd (P k p Hk)) as (q & Eq & Hq). exists q. split; [exact Eq|].
    intros k' HP'. destruct (squeeze_part Hd HP') as (q' & Eq' & Hq'). congruence. }
  exists qs. split; [exact Eq|]. pose proof (F2_length Hq) as L'. split; [congruence|]. intros k q Hk. destruct (nth_error l k) as [p|] eqn:Ep.
  - exact (F2_nth k Hq Ep Hk k (P k p Ep)).
  - apply nth_error_None in Ep. assert (k < length qs)%nat by (apply nth_error_Some; congruence). lia.
Qed.
(* @ex *)
Lemma unstack_spec_ex_lem : let a := mkarr [2%nat; 3%nat] (fun ix => nth 0 ix 0 * 10 + nth 1 ix 0) in
  denotes 0 (ndim a) 0 /\ match unstack a 0 with Ok [_; p] => shp p = [3%nat] /\ get p [2] = 12 | _ => False end.
Proof. intros a. split; [unfold denotes; cbn; lia | vm_compute; auto]. Qed.

(* @prop C42 split_axis refuses collections whose arrays differ in size along the axis (ValueError), and axes that an array does not have (IndexError from shape lookup). *)
Lemma split_axis_errors_lem : forall (A : Type) (inputs : list (arr A)) axis keep_dims,
  ((forall a, In a inputs -> valid_axis axis (ndim a)) ->
   (exists a b ax bx, In a inputs /\ In b inputs /\ denotes axis (ndim a) ax /\ denotes axis (ndim b) bx /\ nth ax (shp a) 0%nat <> nth bx (shp b) 0%nat) -> split_axis inputs axis keep_dims = Err EValue) /\
  ((exists a, In a inputs /\ ~ valid_axis axis (ndim a)) -> split_axis inputs axis keep_dims = Err EIndex).
Proof.
  intros A inputs axis keep. split.
  - intros Hv (a & b & ax & bx & Ha & Hb & Da & Db & N). unfold split_axis.
    destruct (@mapM_F2 _ _ (fun a : arr A => shape_at a axis) (fun a m => shape_at a axis = Ok m) inputs) as (sizes & Es & Hs).
    { intros c Hc. destruct (norm_ok (Hv c Hc)) as (k & Ek & _). unfold shape_at. rewrite Ek. eexists. split; reflexivity. }
    rewrite Es. cbn [bind]. destruct sizes as [|n rest]; [reflexivity|].
    destruct (forallb (fun m => (m =? n)%nat) rest) eqn:E; [|reflexivity]. exfalso. rewrite forallb_forall in E.
    assert (All : forall c, In c inputs -> shape_at c axis = Ok n).
    { intros c Hc. destruct (In_nth_error _ _ Hc) as (k & Hk). destruct (nth_error (n :: rest) k) as [m|] eqn:Em.
      - rewrite (F2_nth k Hs Hk Em). f_equal. apply nth_error_In in Em. destruct Em as [<- | Em]; [reflexivity | apply Nat.eqb_eq; apply E; exact Em].
      - apply nth_error_None in Em. rewrite <- (F2_length Hs) in Em. assert (k < length inputs)%nat by (apply nth_error_Some; congruence). lia. }
    pose proof (All a Ha) as Xa. pose proof (All b Hb) as Xb. unfold shape_at in Xa, Xb. rewrite (denotes_norm Da) in Xa. rewrite (denotes_norm Db) in Xb. congruence.
  - intros (a & Ha & Hv). unfold split_axis. assert (E : mapM (fun a0 : arr A => shape_at a0 axis) inputs = Err EIndex); [|rewrite E; reflexivity].
    apply (@mapM_err _ _ _ EIndex inputs a Ha).
    + intros y _. unfold shape_at. destruct (normalize_axis axis (ndim y)); [left; eexists; reflexivity | right; reflexivity].
    + unfold shape_at. rewrite (proj2 (normalize_axis_spec_lem axis (ndim a)) Hv). reflexivity.
Qed.
(* @ex *)
Lemma split_axis_errors_ex_lem : let a := mkarr [2%nat; 3%nat] (fun _ => 0) in let b := mkarr [4%nat] (fun _ => 1) in
  (exists x y ax bx, In x [a; b] /\ In y [a; b] /\ denotes (-1) (ndim x) ax /\ denotes (-1) (ndim y) bx /\ nth ax (shp x) 0%nat <> nth bx (shp y) 0%nat) /\ ~ valid_axis 1 (ndim b).
Proof. intros a b. split; [exists a, b, 1%nat, 0%nat; unfold denotes; cbn; repeat split; auto; lia | unfold valid_axis; cbn; lia]. Qed.

Lemma concat_slices {A} (a d : arr A) ax l : forall k0 ix, (forall k p, nth_error l k = Some p -> part_of ax (k + k0) 1 a p) -> (ax < length (shp a))%nat -> length ix = length (shp a) ->
  inb (shp a) (upd ax (nth ax ix 0 + Z.of_nat k0) ix) -> 0 <= nth ax ix 0 < Z.of_nat (length l) -> concat_lines ax l d ix = get a (upd ax (nth ax ix 0 + Z.of_nat k0) ix).
Proof.
  induction l as [|p l IH]; intros k0 ix P Hax HL Hin Hi; [cbn [length] in Hi; lia|]. cbn [concat_lines]. cbn [length] in Hi.
  destruct (P 0%nat p eq_refl) as (P1 & P2). rewrite P1, nth_upd_same by exact Hax. change (Z.of_nat 1) with 1. destruct (Z.ltb_spec (nth ax ix 0) 1) as [Hl|Hl].
  - rewrite P2; [reflexivity|]. rewrite P1. replace ix with (upd ax (nth ax ix 0) (upd ax (nth ax ix 0 + Z.of_nat k0) ix)) by (rewrite upd_upd_same; apply upd_nth_same). apply inb_upd; [exact Hin | lia].
  - assert (E : upd ax (nth ax (upd ax (nth ax ix 0 - 1) ix) 0 + Z.of_nat (S k0)) (upd ax (nth ax ix 0 - 1) ix) = upd ax (nth ax ix 0 + Z.of_nat k0) ix) by (rewrite nth_upd_same by (rewrite HL; exact Hax); rewrite upd_upd_same; f_equal; lia).
    rewrite (IH (S k0)); [rewrite E; reflexivity | | exact Hax | rewrite upd_length; exact HL | rewrite E; exact Hin | rewrite nth_upd_same by (rewrite HL; exact Hax); lia].
    intros k q Hk. replace (k + S k0)%nat with (S k + k0)%nat by lia. apply P. exact Hk.
Qed.

(* @prop C42 Concatenating the slices that split_axis returns with keep_dims gives back the arrays, with their shapes and all their entries, for every number and size of slices. *)
Lemma concat_split_axis_identity_lem : forall (A : Type) (inputs : list (arr A)) axis n, inputs <> [] -> (0 < n)%nat ->
  (forall a, In a inputs -> exists ax, denotes axis (ndim a) ax /\ nth ax (shp a) 0%nat = n) ->
  exists trees outputs, split_axis inputs axis true = Ok trees /\ concat_along_axis trees axis = Ok outputs /\ Forall2 aeq outputs inputs.
Proof.
  intros A inputs axis n Hne Hn H. destruct (@split_axis_gen A inputs axis n true Hne Hn H) as (trees & E & L & P). exists trees.
  assert (LT : forall t, In t trees -> length t = length inputs) by (intros t Ht; destruct (In_nth_error _ _ Ht) as (k & Hk); symmetry; exact (F2_length (P k t Hk))).
  destruct trees as [|t0 trees'] eqn:Et; [cbn in L; lia|]. rewrite <- Et in *. assert (Lt0 : length t0 = length inputs) by (apply LT; rewrite Et; left; reflexivity).
  assert (Ec : concat_along_axis trees axis = mapM (fun k => let* l := mapM (leaf k) trees in concatenate l axis) (seq 0 (length inputs))).
  { unfold concat_along_axis. rewrite Et at 1. assert (Ef : forallb (fun t' => (length t' =? length t0)%nat) trees = true) by (apply forallb_forall; intros t Ht; apply Nat.eqb_eq; rewrite Lt0; apply LT; exact Ht).
    rewrite Ef, Lt0. reflexivity. }
  destruct (@mapM_nth_seq (arr A) (fun k => let* l := mapM (leaf k) trees in concatenate l axis) (fun k r => forall a, nth_error inputs k = Some a -> aeq r a) (length inputs)) as (out & Eo & Lo & Ho).
  { intros j Hj. destruct (nth_error inputs j) as [a|] eqn:Ea; [|apply nth_error_None in Ea; lia].
    destruct (H a (nth_error_In _ _ Ea)) as (ax & D & En).
    destruct (@mapM_F2 _ _ (leaf j) (fun t p => nth_error t j = Some p) trees) as (l & El & Hl).
    { intros t Ht. unfold leaf. destruct (nth_error t j) as [p|] eqn:Ep; [exists p; auto | apply nth_error_None in Ep; rewrite (LT t Ht) in Ep; lia]. }
    pose proof (F2_length Hl) as Ll. rewrite L in Ll.
    assert (Pl : forall k p, nth_error l k = Some p -> part_of ax k 1 a p).
    { intros k p Hk. destruct (nth_error trees k) as [t|] eqn:Ek; [|apply nth_error_None in Ek; assert (k < length l)%nat by (apply nth_error_Some; congruence); lia].
      pose proof (F2_nth k Hl Ek Hk) as Htj. destruct (F2_nth j (P k t Ek) Ea Htj) as (ax' & D' & X). rewrite <- (denotes_unique D D') in X. exact X. }
    rewrite El. cbn [bind]. unfold concatenate. destruct l as [|p0 l'] eqn:Elp; [cbn in Ll; lia|]. rewrite <- Elp in *.
    assert (Pin : forall p, In p l -> shp p = upd ax 1%nat (shp a)) by (intros p Hp; destruct (In_nth_error _ _ Hp) as (k & Hk); exact (proj1 (Pl k p Hk))).
    assert (S0 : shp p0 = upd ax 1%nat (shp a)) by (apply Pin; rewrite Elp; left; reflexivity).
    assert (N0 : ndim p0 = ndim a) by (unfold ndim; rewrite S0, upd_length; reflexivity). rewrite N0, (denotes_norm D). cbn [bind].
    assert (EF : forallb (fun b => (ndim b =? ndim a)%nat && forallb (fun j0 => (j0 =? ax)%nat || (nth j0 (shp b) 0 =? nth j0 (shp p0) 0)%nat) (seq 0 (ndim a))) l = true).
    { apply forallb_forall. intros p Hp. unfold ndim. rewrite (Pin p Hp), S0, upd_length, Nat.eqb_refl. cbn [andb]. apply forallb_forall. intros j0 _. rewrite Nat.eqb_refl. apply orb_true_r. }
    rewrite EF. eexists. split; [reflexivity|]. intros a' Ea'. injection Ea' as <-.
    pose proof (proj1 D) as Hax. unfold ndim in Hax.
    assert (Sum : fold_right Nat.add 0%nat (map (fun b => nth ax (shp b) 0%nat) l) = n).
    { rewrite Ll. clear - Pin Hax. induction l as [|p l IH]; [reflexivity|]. cbn [map fold_right length]. rewrite IH by (intros q Hq; apply Pin; right; exact Hq). rewrite (Pin p (or_introl eq_refl)), nth_upd_same by exact Hax. reflexivity. }
    assert (Sh : upd ax n (shp p0) = shp a) by (rewrite S0, upd_upd_same, <- En; apply upd_nth_same).
    split; cbn [shp get]; rewrite Sum, Sh; [reflexivity|]. intros ix Hix. pose proof (@inb_nth _ _ ax Hix Hax) as Hi.
    rewrite (@concat_slices A a p0 ax l 0 ix); [rewrite Z.add_0_r, upd_nth_same; reflexivity | | exact Hax | exact (inb_length _ _ Hix) | rewrite Z.add_0_r, upd_nth_same; exact Hix | rewrite <- Ll, <- En; exact Hi].
    intros k p Hk. rewrite Nat.add_0_r. apply Pl. exact Hk. }
  exists out. split; [exact E|]. rewrite Ec. split; [exact Eo|]. apply Forall2_of_nth; [exact Lo|]. intros k x y Hx Hy. exact (Ho k x Hx y Hy).
Qed.
(* @ex *)
Lemma concat_split_axis_identity_ex_lem : let a := mkarr [2%nat; 3%nat] (fun ix => nth 0 ix 0 * 10 + nth 1 ix 0) in
  denotes 1 (ndim a) 1 /\ match split_axis [a] 1 true with Ok t => match concat_along_axis t 1 with Ok [x] => shp x = [2%nat; 3%nat] /\ get x [1; 2] = 12 | _ => False end | _ => False end.
Proof. intros a. split; [unfold denotes; cbn; lia | vm_compute; auto]. Qed.
