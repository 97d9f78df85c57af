(** * Model of jax_cfd/base/fast_diagonalization.py

    Exact arithmetic; dtypes (and the dtype checks of lines 153-154, 221-222) are not modelled. *)
From Verif Require Import Prelude NdArr Grids_model LinAlg Cplx.
Set Implicit Arguments.
Local Open Scope nat_scope.

Inductive impl := Matmul | Fft | Rfft | OtherImpl.
(** The [func] argument: a NumPy function applied elementwise, to real eigenvalues (matmul) or complex
    ones (fft, rfft).  Elementwise functions never trigger the shape checks of lines 146-148, 187-189,
    216-218. *)
Record ufun := mkufun { onR : R -> R; onC : cplx -> cplx }.

(** [op.ndim != 2 or op.shape[0] != op.shape[1]], line 97 *)
Definition square (m : arr R) : bool := match shp m with [a; b] => a =? b | _ => false end.
Definition mrows (m : arr R) : nat := nth 0 (shp m) 0.

(** [functools.reduce(np.add.outer, l)] *)
Definition add_outer {T} (add : T -> T -> T) (x y : arr T) : arr T :=
  mkarr (shp x ++ shp y) (fun ix => add (get x (firstn (length (shp x)) ix)) (get y (skipn (length (shp x)) ix))).
Definition outer_sum {T} (add : T -> T -> T) (l : list (arr T)) : result (arr T) :=
  match l with [] => Err EType | x :: l' => Ok (fold_left (add_outer add) l' x) end.

(** [jnp.tensordot(out, v, axes=(0, k))] with k = 0 or 1: contracts the first axis of [out] with axis k of
    the matrix [v]; the other axis of [v] becomes the last axis of the result. *)
Definition tensordot (k : nat) (out v : arr R) : result (arr R) :=
  match shp out, shp v with
  | n :: s, [a; b] =>
      let c := if k =? 0 then a else b in
      let m := if k =? 0 then b else a in
      if n =? c then
        Ok (mkarr (s ++ [m]) (fun ix => rsum n (fun i =>
              get out (i :: removelast ix) * get v (if (k =? 0)%nat then [i; last ix 0%Z] else [last ix 0%Z; i]))%R))
      else Err EValue
  | _, _ => Err EValue
  end.

(** fast_diagonalization.py:129-165 [_hermitian_matmul_transform]; [eigh] stands for np.linalg.eigh
    (eigenvalues, matrix of eigenvectors). *)
Definition hermitian_matmul_transform (eigh : arr R -> arr R * arr R) (func : ufun) (ops : list (arr R))
  : result (arr R -> result (arr R)) :=
  let es := map eigh ops in
  match es with
  | [] => Err EValue
  | _ =>
    let* summed := outer_sum Rplus (map fst es) in
    let diagonals := amap (onR func) summed in
    Ok (fun rhs =>
          if negb (shape_eqb (shp rhs) (shp summed)) then Err EValue
          else let* out := foldM (tensordot 0) rhs (map snd es) in
               let* out := raw2 Rmult [out; diagonals] in
               foldM (tensordot 1) out (map snd es))
  end.

(** [np.fft.fft]/[jnp.fft.fft] and inverse of one line of length n. *)
Definition fft1 (n : nat) (line : Z -> cplx) (k : Z) : cplx := csum n (fun j => Cmul (dftm n k j) (line j)).
Definition ifft1 (n : nat) (line : Z -> cplx) (j : Z) : cplx := csum n (fun k => Cmul (idftm n j k) (line k)).
Definition on_axis (h : nat -> (Z -> cplx) -> Z -> cplx) (a : arr cplx) (ax : nat) : arr cplx :=
  axmap ax (nth ax (shp a) 0) (h (nth ax (shp a) 0)) a.
(** [jnp.fft.fftn], [jnp.fft.ifftn]: every axis in turn (they commute). *)
Definition fftn (a : arr cplx) : arr cplx := fold_left (on_axis fft1) (seq 0 (length (shp a))) a.
Definition ifftn (a : arr cplx) : arr cplx := fold_left (on_axis ifft1) (seq 0 (length (shp a))) a.
(** [np.fft.fft(op[:, 0])] *)
Definition fft_column (op : arr R) : arr cplx :=
  let n := mrows op in mkarr [n] (fun ix => fft1 n (fun j => RtoC (get op [j; 0%Z])) (nth 0 ix 0%Z)).

(** fast_diagonalization.py:168-196 [_cast] to a real dtype and [_circulant_fft_transform]. *)
Definition circulant_fft_transform (func : ufun) (ops : list (arr R)) : result (arr R -> result (arr R)) :=
  let* summed := outer_sum Cadd (map fft_column ops) in
  let diagonals := amap (onC func) summed in
  Ok (fun rhs =>
        if negb (shape_eqb (shp rhs) (map mrows ops)) then Err EValue
        else Ok (amap re (ifftn (amap2 Cmul diagonals (fftn (amap RtoC rhs)))))).

(** [jnp.fft.rfftn]: rfft along the last axis (entries 0..n/2 of the DFT), then fft along the others.
    [jnp.fft.irfftn]: ifft along the others, then irfft along the last axis, to length 2 (m - 1): the
    inverse DFT of the conjugate-symmetric extension, imaginary parts of entries 0 and n/2 ignored. *)
Definition rfftn (a : arr R) : arr cplx :=
  let d := length (shp a) in let n := nth (d - 1) (shp a) 0 in
  fold_left (on_axis fft1) (seq 0 (d - 1)) (axmap (d - 1) (n / 2 + 1) (fft1 n) (amap RtoC a)).
Definition hermitian_ext (n : nat) (X : Z -> cplx) (k : Z) : cplx :=
  if (k =? 0)%Z then RtoC (re (X 0%Z))
  else if (2 * k <? Z.of_nat n)%Z then X k
  else if (2 * k =? Z.of_nat n)%Z then RtoC (re (X k))
  else Cconj (X (Z.of_nat n - k)%Z).
Definition irfft1 (n : nat) (X : Z -> cplx) (j : Z) : cplx := ifft1 n (hermitian_ext n X) j.
Definition irfftn (a : arr cplx) : arr R :=
  let d := length (shp a) in let n := 2 * (nth (d - 1) (shp a) 0 - 1) in
  amap re (axmap (d - 1) n (irfft1 n) (fold_left (on_axis ifft1) (seq 0 (d - 1)) a)).
(** [np.fft.rfft(op[:, 0])] *)
Definition rfft_column (op : arr R) : arr cplx :=
  let n := mrows op in mkarr [n / 2 + 1] (fun ix => fft1 n (fun j => RtoC (get op [j; 0%Z])) (nth 0 ix 0%Z)).

(** fast_diagonalization.py:199-225 [_circulant_rfft_transform].  [diagonals * rfftn(rhs)] with different
    shapes is reported as EShape (broadcasting is not modelled). *)
Definition circulant_rfft_transform (func : ufun) (ops : list (arr R)) : result (arr R -> result (arr R)) :=
  match rev ops with
  | [] => Err EIndex
  | op :: rops =>
    if Nat.odd (mrows op) then Err EValue
    else
      let* summed := outer_sum Cadd (map fft_column (rev rops) ++ [rfft_column op]) in
      let diagonals := amap (onC func) summed in
      Ok (fun rhs =>
            let f := rfftn rhs in
            if shape_eqb (shp diagonals) (shp f) then Ok (irfftn (amap2 Cmul diagonals f)) else Err EShape)
  end.

(** Lines 101-108: the default implementation; [tpu] is [all(device.platform == 'tpu' ...)]. *)
Definition default_impl (tpu : bool) (ops : list (arr R)) : result impl :=
  let* i := (if tpu then
               match ops with
               | [] => Err EValue
               | _ => Ok (if (1024 <? Z.of_nat (fold_left Nat.max (map mrows ops) 0%nat))%Z then Rfft else Matmul)
               end
             else Ok Rfft) in
  match i with
  | Rfft => match rev ops with
            | [] => Err EIndex
            | op :: _ => Ok (if Nat.odd (mrows op) then Matmul else Rfft)
            end
  | i => Ok i
  end.

(** fast_diagonalization.py:28-126 [transform] *)
Definition transform (tpu : bool) (eigh : arr R -> arr R * arr R) (func : ufun) (ops : list (arr R))
  (hermitian circulant : bool) (implementation : option impl) : result (arr R -> result (arr R)) :=
  if negb (forallb square ops) then Err EValue
  else
    let* i := match implementation with Some i => Ok i | None => default_impl tpu ops end in
    match i with
    | Matmul => if negb hermitian then Err EValue else hermitian_matmul_transform eigh func ops
    | Fft => if negb circulant then Err EValue else circulant_fft_transform func ops
    | Rfft => if negb circulant then Err EValue else circulant_rfft_transform func ops
    | OtherImpl => Err EValue
    end.

(** fast_diagonalization.py:228-266 [pseudoinverse]; [cutoff] after the default of lines 257-258 (10 times the
    machine epsilon) has been filled in. *)
Definition pinv_fun (cutoff : R) : ufun :=
  mkufun (fun v => if Rlt_dec cutoff (Rabs v) then 1 / v else 0)%R
         (fun v => if Rlt_dec cutoff (Cabs v) then Cdiv C1 v else C0).
Definition pseudoinverse (tpu : bool) (eigh : arr R -> arr R * arr R) (ops : list (arr R))
  (hermitian circulant : bool) (implementation : option impl) (cutoff : R) : result (arr R -> result (arr R)) :=
  transform tpu eigh (pinv_fun cutoff) ops hermitian circulant implementation.
