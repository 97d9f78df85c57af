(** * Model of jax_cfd/base/array_utils.py (slicing, splitting, block reduction, QR, 1-d interpolation) *)
From Verif Require Import Prelude NdArr.
Set Implicit Arguments.
Local Open Scope Z_scope.

(** array_utils.py:34-40 [_normalize_axis] *)
Definition normalize_axis (axis : Z) (ndim : nat) : result nat :=
  if (- Z.of_nat ndim <=? axis) && (axis <? Z.of_nat ndim)
  then Ok (Z.to_nat (if axis <? 0 then axis + Z.of_nat ndim else axis))
  else Err EValue.

(** Python index objects: an integer or a slice(start, stop, step).
    [slice.indices(n)] for a positive step: negative bounds count from the end, both are clamped to [0, n]. *)
Inductive pyidx := PyInt (i : Z) | PySlice (start stop : option Z) (step : Z).
Definition clamp_bound (n : nat) (d : Z) (b : option Z) : Z :=
  match b with
  | None => d
  | Some i => if i <? 0 then Z.max 0 (i + Z.of_nat n) else Z.min i (Z.of_nat n)
  end.
Definition slice_start (n : nat) (start : option Z) : Z := clamp_bound n 0 start.
Definition slice_stop (n : nat) (stop : option Z) : Z := clamp_bound n (Z.of_nat n) stop.
Definition slice_count (n : nat) (start stop : option Z) (step : Z) : nat :=
  Z.to_nat ((slice_stop n stop - slice_start n start + step - 1) / step).
Definition insert_at {T} (k : nat) (x : T) (l : list T) : list T := firstn k l ++ x :: skipn k l.
Definition remove_at {T} (k : nat) (l : list T) : list T := firstn k l ++ skipn (S k) l.
(** [a\[:, ..., idx, ..., :\]] with [idx] on axis [ax]: a slice keeps the axis, an integer (negative counts from the end)
    removes it.  Simplifications: steps must be positive (the callers use only such); an integer out of range is an
    IndexError (jnp arrays clamp it instead). *)
Definition index_axis {A} (a : arr A) (ax : nat) (idx : pyidx) : result (arr A) :=
  let n := nth ax (shp a) 0%nat in
  match idx with
  | PySlice start stop step =>
      if step <=? 0 then Err EValue
      else Ok (mkarr (upd ax (slice_count n start stop step) (shp a))
                     (fun ix => get a (upd ax (slice_start n start + nth ax ix 0 * step) ix)))
  | PyInt i =>
      let j := if i <? 0 then i + Z.of_nat n else i in
      if (0 <=? j) && (j <? Z.of_nat n)
      then Ok (mkarr (remove_at ax (shp a)) (fun ix => get a (insert_at ax j ix)))
      else Err EIndex
  end.

Definition ndim {A} (a : arr A) : nat := length (shp a).
Definition same_dims {A} (l : list (arr A)) : bool :=
  match l with [] => false | a :: l' => forallb (fun b => (ndim b =? ndim a)%nat) l' end.
(** array_utils.py:43-71 [slice_along_axis].  A pytree is represented by the list of its leaves; its structure is
    kept by construction.  An array without axes is returned as it is. *)
Definition slice_along_axis {A} (inputs : list (arr A)) (axis : Z) (idx : pyidx) (expect_same_dims : bool) : result (list (arr A)) :=
  if expect_same_dims && negb (same_dims inputs) then Err EValue
  else mapM (fun a => if (ndim a =? 0)%nat then Ok a
                      else let* ax := normalize_axis axis (ndim a) in index_axis a ax idx) inputs.
(** array_utils.py:74-96 [split_along_axis] *)
Definition split_along_axis {A} (inputs : list (arr A)) (split_idx axis : Z) (expect_same_dims : bool) : result (list (arr A) * list (arr A)) :=
  let* first := slice_along_axis inputs axis (PySlice (Some 0) (Some split_idx) 1) expect_same_dims in
  let* second := slice_along_axis inputs axis (PySlice (Some split_idx) None 1) expect_same_dims in
  Ok (first, second).

(** [jnp.concatenate(arrays, axis)]: same ranks, same sizes on the other axes. *)
Fixpoint concat_lines {A} (ax : nat) (l : list (arr A)) (d : arr A) (ix : list Z) : A :=
  match l with
  | [] => get d ix
  | a :: l' => let n := Z.of_nat (nth ax (shp a) 0%nat) in
               if nth ax ix 0 <? n then get a ix
               else concat_lines ax l' d (upd ax (nth ax ix 0 - n) ix)
  end.
Definition concatenate {A} (arrays : list (arr A)) (axis : Z) : result (arr A) :=
  match arrays with
  | [] => Err EValue
  | a :: _ =>
      let* ax := normalize_axis axis (ndim a) in
      if forallb (fun b => (ndim b =? ndim a)%nat &&
                           forallb (fun j => (j =? ax)%nat || (nth j (shp b) 0 =? nth j (shp a) 0)%nat) (seq 0 (ndim a))) arrays
      then Ok (mkarr (upd ax (fold_right Nat.add 0%nat (map (fun b => nth ax (shp b) 0%nat) arrays)) (shp a))
                     (concat_lines ax arrays a))
      else Err EType
  end.
(** array_utils.py:130-133 [concat_along_axis]: leafwise; the pytrees must have the same structure (number of leaves). *)
Definition leaf {A} (k : nat) (t : list (arr A)) : result (arr A) :=
  match nth_error t k with Some a => Ok a | None => Err EValue end.
Definition concat_along_axis {A} (pytrees : list (list (arr A))) (axis : Z) : result (list (arr A)) :=
  match pytrees with
  | [] => Err EType
  | t :: _ =>
      if forallb (fun t' => (length t' =? length t)%nat) pytrees
      then mapM (fun k => let* l := mapM (leaf k) pytrees in concatenate l axis) (seq 0 (length t))
      else Err EValue
  end.

(** [a.shape\[axis\]] *)
Definition shape_at {A} (a : arr A) (axis : Z) : result nat :=
  match normalize_axis axis (ndim a) with Ok ax => Ok (nth ax (shp a) 0%nat) | Err _ => Err EIndex end.
(** [jnp.split(a, k, axis)] for an integer [k]: [k] equal parts. *)
Definition jnp_split {A} (a : arr A) (k : nat) (axis : Z) : result (list (arr A)) :=
  let* ax := normalize_axis axis (ndim a) in
  let n := nth ax (shp a) 0%nat in
  if (k =? 0)%nat then Err EZeroDiv
  else if (n mod k =? 0)%nat
  then Ok (map (fun i => mkarr (upd ax (n / k)%nat (shp a))
                               (fun ix => get a (upd ax (nth ax ix 0 + Z.of_nat (i * (n / k))) ix))) (seq 0 k))
  else Err EValue.
(** [jnp.squeeze(a, axis)] *)
Definition jnp_squeeze {A} (a : arr A) (axis : Z) : result (arr A) :=
  let* ax := normalize_axis axis (ndim a) in
  if (nth ax (shp a) 0 =? 1)%nat
  then Ok (mkarr (remove_at ax (shp a)) (fun ix => get a (insert_at ax 0 ix)))
  else Err EValue.
(** array_utils.py:293-296 [unstack] *)
Definition unstack {A} (a : arr A) (axis : Z) : result (list (arr A)) :=
  let* n := shape_at a axis in
  let* l := jnp_split a n axis in
  mapM (fun x => jnp_squeeze x axis) l.
(** array_utils.py:99-127 [split_axis]; the result is a list of pytrees.  [zip] of the lists of splits. *)
Definition split_axis {A} (inputs : list (arr A)) (axis : Z) (keep_dims : bool) : result (list (list (arr A))) :=
  let* sizes := mapM (fun a => shape_at a axis) inputs in
  match sizes with
  | [] => Err EValue
  | n :: rest =>
      if forallb (fun m => (m =? n)%nat) rest
      then let* splits := mapM (fun a => jnp_split a n axis) inputs in
           let* splits := if keep_dims then Ok splits
                          else mapM (mapM (fun a => jnp_squeeze a axis)) splits in
           mapM (fun k => mapM (leaf k) splits) (seq 0 n)
      else Err EValue
  end.

(** array_utils.py:136-165 [block_reduce]: reshape to (n0/b0, b0, n1/b1, b1, ...) and map the reduction over the
    blocks.  Simplification: block sizes and shape must have the same length. *)
Fixpoint block_ix (b : list nat) (kx jx : list Z) : list Z :=
  match b, kx, jx with
  | n :: b', k :: kx', j :: jx' => (k * Z.of_nat n + j) :: block_ix b' kx' jx'
  | _, _, _ => []
  end.
Definition block_reduce {A B} (a : arr A) (block_size : list nat) (reduction_fn : arr A -> B) : result (arr B) :=
  if negb (length block_size =? ndim a)%nat then Err EShape
  else if existsb (fun b => (b =? 0)%nat) block_size then Err EZeroDiv
  else if forallb (fun bs => (snd bs mod fst bs =? 0)%nat) (combine block_size (shp a))
  then Ok (mkarr (map (fun bs => (snd bs / fst bs)%nat) (combine block_size (shp a)))
                 (fun kx => reduction_fn (mkarr block_size (fun jx => get a (block_ix block_size kx jx)))))
  else Err EValue.

(** ** Vectors (1-d arrays) *)
(** [jnp.dot] of two vectors, [jnp.linalg.norm], [c - x * y] and [c / x] *)
Definition vdot (x y : arr R) : R := asum (shp x) (fun ix => get x ix * get y ix)%R.
Definition vnorm (x : arr R) : R := sqrt (vdot x x).
Definition vsubmul (c : arr R) (a : R) (x : arr R) : arr R := mkarr (shp c) (fun ix => get c ix - a * get x ix)%R.
Definition vdiv (c : arr R) (a : R) : arr R := amap (fun x => x / a)%R c.
(** array_utils.py:320-326 [orthogonalize]: [jax.lax.scan] over [others] is a left fold; with no [others] it is the
    plain normalisation.  Simplification: division by a zero norm gives an unspecified real instead of nan. *)
Definition orthogonalize (vector : arr R) (others : list (arr R)) : arr R :=
  let v := fold_left (fun c x => vsubmul c (vdot c x) x) others vector in
  vdiv v (vnorm v).
(** array_utils.py:332-337: the loop over the columns *)
Fixpoint gs_columns (columns q_columns : list (arr R)) : list (arr R) :=
  match columns with
  | [] => q_columns
  | c :: t => gs_columns t (q_columns ++ [orthogonalize c q_columns])
  end.
Definition vnth (l : list (arr R)) (k : Z) : arr R := nth (Z.to_nat k) l (afull [] 0%R).
(** [jnp.sign] *)
Definition sign (x : R) : R := if Rlt_dec x 0 then (-1)%R else if Rlt_dec 0 x then 1%R else 0%R.
(** [jnp.matmul] of an [m x k] and a [k x n] matrix *)
Definition matmul (a b : arr R) : arr R :=
  mkarr [nth 0 (shp a) 0%nat; nth 1 (shp b) 0%nat]
        (fun ix => rsum (nth 1 (shp a) 0%nat) (fun l => get a [nth 0 ix 0%Z; l] * get b [l; nth 1 ix 0%Z])%R).
(** array_utils.py:299-345 [gram_schmidt_qr] *)
Definition gram_schmidt_qr (matrix : arr R) : result (arr R * arr R) :=
  let* num_columns := shape_at matrix 1 in
  let* columns := unstack matrix 1 in
  let q_columns := gs_columns columns [] in
  let r_row k := fun i => if (k <=? i) then vdot (vnth columns i) (vnth q_columns k) else 0%R in  (* 333-335 *)
  let q := mkarr [nth 0 (shp matrix) 0%nat; num_columns] (fun ix => get (vnth q_columns (nth 1 ix 0)) [nth 0 ix 0]) in
  let r := mkarr [num_columns; num_columns] (fun ix => r_row (nth 0 ix 0) (nth 1 ix 0)) in
  let d := mkarr [num_columns; num_columns]
                 (fun ix => if (nth 0 ix 0 =? nth 1 ix 0) then sign (get r [nth 0 ix 0; nth 0 ix 0]) else 0%R) in  (* 341 *)
  Ok (matmul q d, matmul d r).
