(** * Model of the skill metrics: jax_cfd/ml/metrics.py, jax_cfd/data/evaluation.py, jax_cfd/ml/train_utils.py *)
From Verif Require Import Prelude NdArr Grids_model ArrayUtils_model Equations_model Spectral_model.
Set Implicit Arguments.

(** [array.sum(axis=axes, keepdims=True)]: [mask] tells for each axis whether it is summed over; the result does not
    look at the index along summed axes (broadcasting). *)
Fixpoint msum (mask : list bool) (s : list nat) (f : list Z -> R) (ix : list Z) : R :=
  match mask, s, ix with
  | true :: mask', n :: s', _ :: ix' => rsum n (fun j => msum mask' s' (fun jx => f (j :: jx)) ix')
  | false :: mask', _ :: s', i :: ix' => msum mask' s' (fun jx => f (i :: jx)) ix'
  | _, _, _ => f []
  end.
Fixpoint kept (mask : list bool) (s : list nat) : list nat :=
  match mask, s with m :: mask', n :: s' => (if m then 1%nat else n) :: kept mask' s' | _, _ => [] end.
Definition axes_mask (d : nat) (axes : list nat) : list bool := map (fun k => existsb (Nat.eqb k) axes) (seq 0 d).
(** [jnp.stack(arrays)] *)
Definition stack0 (l : list (arr R)) : result (arr R) :=
  match l with
  | [] => Err EValue
  | a :: _ => if forallb (fun b => shape_eqb (shp b) (shp a)) l
              then Ok (mkarr (length l :: shp a) (fun ix => match ix with i :: ix' => get (nth (Z.to_nat i) l a) ix' | [] => get a [] end))
              else Err EValue
  end.
(** metrics.py:57-59 [_normalize].  A zero norm gives NaN, and so does everything computed from it: [EZeroDiv]. *)
Definition l2_norm (mask : list bool) (a : arr R) (ix : list Z) : R := sqrt (msum mask (shp a) (fun jx => get a jx * get a jx)%R ix).
Definition normalize_axes (a : arr R) (axes : list nat) : result (arr R) :=
  let mask := axes_mask (ndim a) axes in
  if forallb (fun ix => if Req_EM_T (l2_norm mask a ix) 0 then false else true) (all_indices (shp a))
  then Ok (mkarr (shp a) (fun ix => get a ix / l2_norm mask a ix)%R) else Err EZeroDiv.
(** metrics.py:62-75 [correlation_single_step] for nonnegative axis numbers and arrays of equal shapes *)
Definition state_axes (d time_axis batch_axis : nat) : list nat :=
  map (fun axis => if (axis <=? time_axis)%nat then axis else (axis - 1)%nat)
      (filter (fun axis => negb (axis =? time_axis)%nat && negb (axis =? batch_axis)%nat) (seq 0 d)).
Definition correlation_single_step (trajectory target : list (arr R)) (n : Z) (time_axis batch_axis : nat) : result R :=
  let* p := slice_along_axis trajectory (Z.of_nat time_axis) (PyInt n) true in
  let* p := stack0 p in
  let* t := slice_along_axis target (Z.of_nat time_axis) (PyInt n) true in
  let* t := stack0 t in
  let axes := state_axes (ndim p) time_axis batch_axis in
  let* p' := normalize_axes p axes in
  let* t' := normalize_axes t axes in
  let* prod := ew Rmult p' t' in
  let mask := axes_mask (ndim prod) axes in
  let s := kept mask (shp prod) in
  if (asize s =? 0)%nat then Err EZeroDiv else Ok (asum s (msum mask (shp prod) (get prod)) / INR (asize s))%R.

(** metrics.py:33-42 [l2_loss_cumulative], metrics.py:45-54 [l2_loss_single_step]; [idx] selects along the time axis *)
Definition l2_loss (trajectory target : list (arr R)) (idx : pyidx) (scale : R) (time_axis : Z) : result R :=
  let* p := slice_along_axis trajectory time_axis idx true in
  let* t := slice_along_axis target time_axis idx true in
  let* terms := mapM (fun xy => let* d := ew Rminus (fst xy) (snd xy) in Ok (total (amap (fun z => scale * (z * z))%R d))) (combine p t) in
  Ok (fold_left Rplus terms 0%R).
Definition l2_loss_cumulative (trajectory target : list (arr R)) (n : option Z) (scale : R) (time_axis : Z) : result R :=
  l2_loss trajectory target (PySlice None n 1) scale time_axis.
Definition l2_loss_single_step (trajectory target : list (arr R)) (n : Z) (scale : R) (time_axis : Z) : result R :=
  l2_loss trajectory target (PyInt n) scale time_axis.

(** Dimensions of the arrays compared by evaluation.py:50-83 [state_correlation]: part of the state, averaged over, or
    kept in the result. *)
Inductive dimkind := StateDim | AveragedDim | KeptDim.
Definition is_state (k : dimkind) : bool := match k with StateDim => true | _ => false end.
Definition is_averaged (k : dimkind) : bool := match k with AveragedDim => true | _ => false end.
(** xarray_utils.py:418-421 [normalize]; 0/0 is NaN ([None]) *)
Definition xr_normalize (dims : list dimkind) (a : arr R) : arr (option R) :=
  mkarr (shp a) (fun ix => let norm := l2_norm (map is_state dims) a ix in
                           if Req_EM_T norm 0 then None else Some (get a ix / norm)%R).
(** evaluation.py:50-83 [state_correlation]: xarray's sum skips NaN entries. *)
Definition state_correlation (dims : list dimkind) (predicted target : arr R) : result (arr R) :=
  let* prod := ew (fun x y => match x, y with Some x, Some y => Some (x * y)%R | _, _ => None end)
                  (xr_normalize dims predicted) (xr_normalize dims target) in
  let s := shp prod in
  let summed := msum (map is_state dims) s (fun ix => match get prod ix with Some x => x | None => 0%R end) in
  let s1 := kept (map is_state dims) s in
  let s2 := kept (map is_averaged dims) s1 in
  if (asize s1 =? 0)%nat then Err EZeroDiv
  else Ok (mkarr s2 (fun ix => msum (map is_averaged dims) s1 summed ix / (INR (asize s1) / INR (asize s2)))%R).

(** evaluation.py:176-207 [temporal_autocorrelation] of one line of values [u 0 .. u (length-1)] at times [time]:
    the values for displacements 0, subsample, 2 subsample, ...  [int] truncates towards zero. *)
Definition py_int_R (x : R) : Z := if Rlt_dec x 0 then (- Int_part (- x))%Z else Int_part x.
Definition temporal_autocorrelation (length : nat) (time u : Z -> R) : result (nat * (Z -> R)) :=
  if (length <? 2)%nat then Err EIndex
  else
    let dt := (time 1%Z - time 0%Z)%R in
    if Req_EM_T dt 0 then Err EZeroDiv
    else
      let subsample := Z.max 1 (py_int_R (1 / dt)) in
      let corr := fun d : Z => rsum length (fun t => if (d <=? t)%Z then (u ((t - d) mod Z.of_nat length)%Z * u t / INR length)%R else 0%R) in
      Ok (Z.to_nat ((Z.of_nat length + subsample - 1) / subsample), fun k => corr (k * subsample)%Z).

(** train_utils.py:142-168 [streaming_mean]: dictionaries are lists of (key, value) in insertion order; RuntimeError
    is [EValue]. *)
Fixpoint dict_add (m : list (nat * R)) (k : nat) (v : R) : list (nat * R) :=
  match m with
  | [] => [(k, (0 + v)%R)]
  | (k', w) :: m' => if (k =? k')%nat then (k', (w + v)%R) :: m' else (k', w) :: dict_add m' k v
  end.
Definition streaming_mean {B} (batches : list B) (eval_fn : B -> list (nat * R)) : result (list (nat * R)) :=
  let acc := fold_left (fun acc batch => (fold_left (fun m kv => dict_add m (fst kv) (snd kv)) (eval_fn batch) (fst acc), (snd acc + 1)%nat))
                       batches ([], 0%nat) in
  if (snd acc =? 0)%nat then Err EValue else Ok (map (fun kv => (fst kv, (snd kv / INR (snd acc))%R)) (fst acc)).
